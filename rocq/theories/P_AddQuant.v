(** Proofs about M_AddQuant. *)
From Coq Require Import List Arith Lia Bool ZArith QArith Qround Qabs Lqa.
From Verif Require Import ListAux FieldDef M_Mle M_Quant M_Requant P_Quant P_Requant M_AddQuant.
Import ListNotations.
Local Open Scope Q_scope.

(** *** Specification *)
Definition unit_scale (s : Q) : Prop := 0 < s <= 1.
(** [m] times [c] is [s] up to the relative error 2^-(k+1). *)
Definition represents (k : nat) (c s : Q) (m : Z) : Prop := Qabs (inject_Z m * c - s) <= s / (2 * q_pow2 k).

Lemma pow_pos n : 0 < q_pow2 n.
Proof. unfold q_pow2. change 0 with (inject_Z 0). rewrite <- Zlt_Qlt. apply Z.pow_pos_nonneg; lia. Qed.
Lemma pow_ge1 n : 1 <= q_pow2 n.
Proof. unfold q_pow2. change 1 with (inject_Z 1). rewrite <- Zle_Qle. assert (0 < 2 ^ Z.of_nat n)%Z by (apply Z.pow_pos_nonneg; lia). lia. Qed.
Lemma pow_add a b : q_pow2 (a + b) == q_pow2 a * q_pow2 b.
Proof. unfold q_pow2. rewrite <- inject_Z_mult, Nat2Z.inj_add, Z.pow_add_r by lia. reflexivity. Qed.
Lemma pow_mono a b : (a <= b)%nat -> q_pow2 a <= q_pow2 b.
Proof. intros H. unfold q_pow2. rewrite <- Zle_Qle. apply Z.pow_le_mono_r; lia. Qed.
Lemma prec_unit s : unit_scale s -> prec s == / s.
Proof. intros [H1 H2]. unfold prec. destruct (Qle_bool 1 s) eqn:E; [|reflexivity]. apply Qle_bool_iff in E. assert (s == 1) by lra. rewrite H. reflexivity. Qed.
Lemma inv_pos s : 0 < s -> 0 < / s.
Proof. apply Qinv_lt_0_compat. Qed.
Lemma inv_ge1 s : unit_scale s -> 1 <= / s.
Proof. intros [H1 H2]. pose proof (inv_pos s H1). assert (s * / s == 1) by (apply Qmult_inv_r; lra). nra. Qed.
Lemma inv_le a b : 0 < a -> 0 < b -> (/ a <= / b <-> b <= a).
Proof.
  intros Ha Hb. pose proof (inv_pos a Ha). pose proof (inv_pos b Hb). assert (a * / a == 1) by (apply Qmult_inv_r; lra). assert (b * / b == 1) by (apply Qmult_inv_r; lra).
  set (x := / a) in *. set (y := / b) in *. clearbody x y. split; intros G.
  - assert (b * x <= b * y) by nra. nra.
  - assert (b * x <= a * x) by nra. nra.
Qed.
Lemma clog_spec q : 1 <= q -> q <= q_pow2 (clog q) /\ q_pow2 (clog q) < 2 * q.
Proof.
  intros H. unfold clog, q_pow2. rewrite Z2Nat.id by apply Z.log2_up_nonneg. pose proof (Qle_ceiling q) as C1. pose proof (Qceiling_lt q) as C2.
  set (c := Qceiling q) in *. assert (Hc : (1 <= c)%Z) by (rewrite Zle_Qle; change (inject_Z 1) with 1; lra).
  destruct (Z.eq_dec c 1) as [E|N].
  - rewrite E in *. change (Z.log2_up 1) with 0%Z. change (inject_Z (2 ^ 0)) with 1. change (inject_Z 1) with 1 in *. lra.
  - destruct (Z.log2_up_spec c ltac:(lia)) as [L1 L2]. split; [rewrite Zle_Qle in L2; lra|].
    assert (P := Z.log2_up_pos c ltac:(lia)). assert (G : (2 ^ Z.log2_up c <= 2 * (c - 1))%Z).
    { replace (Z.log2_up c) with (Z.succ (Z.pred (Z.log2_up c))) by lia. rewrite Z.pow_succ_r by lia. lia. }
    rewrite Zle_Qle, inject_Z_mult in G. change (inject_Z 2) with 2 in G. lra.
Qed.
Lemma qltb_spec a b : q_ltb a b = true <-> a < b.
Proof. unfold q_ltb. rewrite negb_true_iff. split; intros H. - destruct (Qlt_le_dec a b); auto. apply Qle_bool_iff in q. congruence. - destruct (Qle_bool b a) eqn:E; auto. apply Qle_bool_iff in E. lra. Qed.
Lemma qltb_false a b : q_ltb a b = false <-> b <= a.
Proof. unfold q_ltb. rewrite negb_false_iff. apply Qle_bool_iff. Qed.
Lemma qleb_false a b : Qle_bool a b = false -> b < a.
Proof. intros H. destruct (Qlt_le_dec b a); auto. apply Qle_bool_iff in q. congruence. Qed.

(** *** The common scale. *)
Definition fits (k : nat) (c s : Q) : Prop := s == c \/ q_pow2 k * c <= s.
Lemma fresh_scale h n k : unit_scale h -> (k <= n)%nat -> 0 < / q_pow2 (clog (prec h) + n) /\ q_pow2 k * / q_pow2 (clog (prec h) + n) <= h.
Proof.
  intros H Hk. split; [apply inv_pos, pow_pos|].
  assert (P1 := prec_unit h H). assert (G := inv_ge1 h H). assert (1 <= prec h) by lra. destruct (clog_spec (prec h) H0) as [C1 _]. rewrite P1 in C1 at 1.
  assert (E : q_pow2 (clog (prec h) + n) * / q_pow2 (clog (prec h) + n) == 1) by (apply Qmult_inv_r; pose proof (pow_pos (clog (prec h) + n)); lra).
  assert (Ip := inv_pos _ (pow_pos (clog (prec h) + n))). rewrite pow_add in E at 1. set (w := / q_pow2 (clog (prec h) + n)) in *. clearbody w.
  assert (M := pow_mono k n Hk). pose proof (pow_pos k). pose proof (pow_pos n). destruct H as [Hh1 Hh2].
  assert (Eh : h * / h == 1) by (apply Qmult_inv_r; lra). set (y := / h) in *. clearbody y. set (c := q_pow2 (clog (prec h))) in *. clearbody c.
  set (pk := q_pow2 k) in *. set (pn := q_pow2 n) in *. clearbody pk pn. assert (1 <= h * c) by nra.
  assert (pk * w <= pn * w) by nra. assert (pn * w <= h * (c * (pn * w))); [|nra]. assert (0 <= pn * w) by nra. nra.
Qed.
Lemma comparison_ok B h l out c rq : unit_scale h -> unit_scale l -> unit_scale out -> h <= l -> scale_comparison B h l out = (c, rq) ->
  let k := Nat.min 8 B in 0 < c /\ fits k c h /\ fits k c l /\ c <= out /\ (rq = false -> c = out).
Proof.
  intros Hh Hl Ho Hhl E k. assert (Ph := prec_unit h Hh). assert (Pl := prec_unit l Hl). assert (Po := prec_unit out Ho). destruct (Hh) as [h1 h2]. destruct (Hl) as [l1 l2]. destruct (Ho) as [o1 o2].
  assert (K8 : (k <= 8)%nat) by (unfold k; lia). assert (KB : (k <= B)%nat) by (unfold k; lia). clearbody k.
  pose proof (pow_pos k) as Pk. pose proof (pow_ge1 k) as Pk1. assert (M8 := pow_mono k 8 K8). assert (MB := pow_mono k B KB). pose proof (pow_ge1 B) as PB1.
  assert (Fresh : forall n, (k <= n)%nat -> (c, rq) = (/ q_pow2 (clog (prec h) + n), true) -> 0 < c /\ q_pow2 k * c <= h /\ rq = true).
  { intros n Hn Ec. destruct (fresh_scale h n k Hh Hn) as [F1 F2]. assert (c = / q_pow2 (clog (prec h) + n)) by congruence. subst c. repeat split; auto; congruence. }
  assert (scaled : forall n a b, unit_scale a -> unit_scale b -> q_pow2 n * prec a <= prec b -> q_pow2 n * b <= a).
  { intros n a b Ha Hb G. rewrite (prec_unit a Ha), (prec_unit b Hb) in G. destruct Ha as [a1 a2]. destruct Hb as [b1 b2].
    assert (Ea : a * / a == 1) by (apply Qmult_inv_r; lra). assert (Eb : b * / b == 1) by (apply Qmult_inv_r; lra). pose proof (pow_pos n).
    set (x := / a) in *. set (y := / b) in *. set (p := q_pow2 n) in *. clearbody x y p. assert (0 < b * a) by nra. assert (b * a * (p * x) <= b * a * y) by nra. nra. }
  assert (scaled' : forall n a b, unit_scale a -> unit_scale b -> prec b < q_pow2 n * prec a -> a <= q_pow2 n * b).
  { intros n a b Ha Hb G. rewrite (prec_unit a Ha), (prec_unit b Hb) in G. destruct Ha as [a1 a2]. destruct Hb as [b1 b2].
    assert (Ea : a * / a == 1) by (apply Qmult_inv_r; lra). assert (Eb : b * / b == 1) by (apply Qmult_inv_r; lra). pose proof (pow_pos n).
    set (x := / a) in *. set (y := / b) in *. set (p := q_pow2 n) in *. clearbody x y p. assert (0 < b * a) by nra. assert (b * a * y <= b * a * (p * x)) by nra. nra. }
  unfold scale_comparison in E. destruct (q_ltb (prec h) (prec out)) eqn:E1.
  - apply qltb_spec in E1. destruct (Qle_bool (q_pow2 B * prec h) (prec out)) eqn:E2.
    + apply Qle_bool_iff in E2. apply (scaled B h out Hh Ho) in E2. assert (c = out /\ rq = false) by (split; congruence). destruct H as [-> ->].
      assert (q_pow2 k * out <= h) by nra. split; [exact o1|]. split; [right; exact H|]. split; [right; lra|]. split; [lra|auto].
    + apply qleb_false in E2. apply (scaled' B h out Hh Ho) in E2. destruct (Fresh B KB (eq_sym E)) as (F1 & F2 & F3). split; [exact F1|]. split; [right; exact F2|]. split; [right; lra|]. split; [|congruence].
      destruct (fresh_scale h B B Hh (le_n B)) as [_ F4]. assert (Ec : c = / q_pow2 (clog (prec h) + B)) by congruence. rewrite <- Ec in F4. pose proof (pow_pos B). nra.
  - apply qltb_false in E1. rewrite Ph, Po in E1. apply (proj1 (inv_le out h o1 h1)) in E1. destruct (q_ltb (prec out) (prec h)) eqn:E3.
    + destruct (Qle_bool (q_pow2 8 * prec l) (prec h)) eqn:E2.
      * apply Qle_bool_iff in E2. apply (scaled 8%nat l h Hl Hh) in E2. assert (c = h /\ rq = true) by (split; congruence). destruct H as [-> ->].
        split; [exact h1|]. split; [left; reflexivity|]. split; [right; nra|]. split; [exact E1|discriminate].
      * destruct (Fresh 8%nat K8 (eq_sym E)) as (F1 & F2 & F3). split; [exact F1|]. split; [right; exact F2|]. split; [right; lra|]. split; [nra|congruence].
    + apply qltb_false in E3. rewrite Ph, Po in E3. apply (proj1 (inv_le h out h1 o1)) in E3. destruct (Qle_bool (q_pow2 B * prec l) (prec out)) eqn:E2.
      * apply Qle_bool_iff in E2. apply (scaled B l out Hl Ho) in E2. assert (c = out /\ rq = false) by (split; congruence). destruct H as [-> ->].
        split; [exact o1|]. split; [left; lra|]. split; [right; nra|]. split; [lra|auto].
      * destruct (Fresh B KB (eq_sym E)) as (F1 & F2 & F3). split; [exact F1|]. split; [right; exact F2|]. split; [right; lra|]. split; [nra|congruence].
Qed.
Lemma fits_mult k c s : 0 < c -> fits k c s -> (1 <= q_round (s / c))%Z /\ represents k c s (q_round (s / c)).
Proof.
  intros Hc F. unfold represents. pose proof (pow_pos k) as Pk. pose proof (pow_ge1 k). assert (I : c * / c == 1) by (apply Qmult_inv_r; lra). pose proof (inv_pos c Hc).
  assert (J : (2 * q_pow2 k) * / (2 * q_pow2 k) == 1) by (apply Qmult_inv_r; lra). assert (Jp : 0 < / (2 * q_pow2 k)) by (apply inv_pos; lra).
  unfold Qdiv. destruct F as [F|F].
  - assert (E : s * / c == 1) by (rewrite F; exact I). assert (R : q_round (s * / c) = 1%Z) by (apply q_round_near; change (inject_Z 1) with 1; lra). rewrite R. split; [lia|].
    change (inject_Z 1) with 1. set (w := / (2 * q_pow2 k)) in *. clearbody w. apply Qabs_Qle_condition. split; nra.
  - assert (E : q_pow2 k <= s * / c) by nra. split; [apply q_round_ge; change (inject_Z 1) with 1; lra|].
    pose proof (q_round_bounds (s * / c)) as R. set (m := inject_Z (q_round (s * / c))) in *. clearbody m. set (w := / (2 * q_pow2 k)) in *. clearbody w. set (i := / c) in *. clearbody i.
    assert (Es : s == s * i * c) by nra. assert (S1 : c * (1 # 2) <= s * w) by nra.
    apply Qabs_Qle_condition. split; nra.
Qed.

(** *** The theorems. *)
(** Scales at most one: no multiplier vanishes, each represents its scale up to a relative error of 2^-(k+1), where k is 8 or the
    bit length if that is less, the common scale is at most that of the output, and equal to it when no requantisation follows. *)
Lemma aq_ok B sl sr out i : unit_scale sl -> unit_scale sr -> unit_scale out -> quant_info_new B sl sr out = i ->
  let k := Nat.min 8 B in (1 <= qi_left i)%Z /\ (1 <= qi_right i)%Z /\ 0 < qi_common i /\
  represents k (qi_common i) sl (qi_left i) /\ represents k (qi_common i) sr (qi_right i) /\ qi_common i <= out /\ (qi_requant i = false -> qi_common i = out).
Proof.
  intros Hl Hr Ho E k. unfold quant_info_new in E.
  assert (G : exists c rq, i = mkQi (q_round (sl / c)) (q_round (sr / c)) c rq /\ 0 < c /\ fits k c sl /\ fits k c sr /\ c <= out /\ (rq = false -> c = out)).
  { destruct (Qle_bool (prec sl) (prec sr)) eqn:E1.
    - apply Qle_bool_iff in E1. rewrite (prec_unit sl Hl), (prec_unit sr Hr) in E1. apply (proj1 (inv_le sl sr (proj1 Hl) (proj1 Hr))) in E1.
      destruct (scale_comparison B sr sl out) as [c rq] eqn:Ec. exists c, rq. destruct (comparison_ok B sr sl out c rq Hr Hl Ho E1 Ec) as (C1 & C2 & C3 & C4 & C5).
      split; [symmetry; exact E|]. split; [exact C1|]. split; [exact C3|]. split; [exact C2|]. split; [exact C4|exact C5].
    - apply qleb_false in E1. rewrite (prec_unit sl Hl), (prec_unit sr Hr) in E1. assert (E2 : / sr <= / sl) by lra. apply (proj1 (inv_le sr sl (proj1 Hr) (proj1 Hl))) in E2.
      destruct (scale_comparison B sl sr out) as [c rq] eqn:Ec. exists c, rq. destruct (comparison_ok B sl sr out c rq Hl Hr Ho E2 Ec) as (C1 & C2 & C3 & C4 & C5).
      split; [symmetry; exact E|]. split; [exact C1|]. split; [exact C2|]. split; [exact C3|]. split; [exact C4|exact C5]. }
  destruct G as (c & rq & -> & C1 & C2 & C3 & C4 & C5). cbn [qi_left qi_right qi_common qi_requant].
  destruct (fits_mult k c sl C1 C2) as [A1 A2]. destruct (fits_mult k c sr C1 C3) as [A3 A4]. repeat split; auto.
Qed.
(** The sum the layer computes is near the real sum divided by the common scale. *)
Lemma sum_error k c s m (x : Z) : 0 < c -> 0 < s -> represents k c s m ->
  Qabs (inject_Z (m * x) * c - s * inject_Z x) <= s * inject_Z (Z.abs x) / (2 * q_pow2 k).
Proof.
  intros Hc Hs R. unfold represents in R. rewrite inject_Z_mult. setoid_replace (inject_Z m * inject_Z x * c - s * inject_Z x) with ((inject_Z m * c - s) * inject_Z x) by ring.
  rewrite Qabs_Qmult. assert (E : inject_Z (Z.abs x) == Qabs (inject_Z x)) by reflexivity. rewrite E. pose proof (Qabs_nonneg (inject_Z x)).
  unfold Qdiv in *. set (w := / (2 * q_pow2 k)) in *. clearbody w. set (a := Qabs (inject_Z m * c - s)) in *. clearbody a. set (b := Qabs (inject_Z x)) in *. clearbody b. nra.
Qed.
Definition add_value (i : quant_info) (x1 x2 : Z) : Z := (qi_left i * x1 + qi_right i * x2)%Z.
Lemma value_error B sl sr out x1 x2 : unit_scale sl -> unit_scale sr -> unit_scale out -> let i := quant_info_new B sl sr out in
  Qabs (inject_Z (add_value i x1 x2) * qi_common i - (sl * inject_Z x1 + sr * inject_Z x2)) <= (sl * inject_Z (Z.abs x1) + sr * inject_Z (Z.abs x2)) / (2 * q_pow2 (Nat.min 8 B)).
Proof.
  intros Hl Hr Ho i. destruct (aq_ok B sl sr out i Hl Hr Ho eq_refl) as (_ & _ & C1 & R1 & R2 & _).
  pose proof (sum_error _ _ _ _ x1 C1 (proj1 Hl) R1) as S1. pose proof (sum_error _ _ _ _ x2 C1 (proj1 Hr) R2) as S2.
  unfold add_value. rewrite inject_Z_plus.
  setoid_replace ((inject_Z (qi_left i * x1) + inject_Z (qi_right i * x2)) * qi_common i - (sl * inject_Z x1 + sr * inject_Z x2))
    with ((inject_Z (qi_left i * x1) * qi_common i - sl * inject_Z x1) + (inject_Z (qi_right i * x2) * qi_common i - sr * inject_Z x2)) by ring.
  eapply Qle_trans; [apply Qabs_triangle|]. unfold Qdiv in *. rewrite Qmult_plus_distr_l. apply Qplus_le_compat; assumption.
Qed.
Lemma common_unit B sl sr out : unit_scale sl -> unit_scale sr -> unit_scale out -> unit_scale (qi_common (quant_info_new B sl sr out)).
Proof. intros Hl Hr Ho. destruct (aq_ok B sl sr out _ Hl Hr Ho eq_refl) as (_ & _ & C1 & _ & _ & C2 & _). split; [exact C1|]. destruct Ho. lra. Qed.
Lemma size_bounds i : unit_scale (qi_common i) -> 4 <= q_pow2 (add_bit_size i) * qi_common i < 8.
Proof.
  intros H. unfold add_bit_size. rewrite pow_add. change (q_pow2 2) with 4. assert (P := prec_unit _ H). assert (G := inv_ge1 _ H). assert (1 <= prec (qi_common i)) by lra.
  destruct (clog_spec _ H0) as [C1 C2]. destruct H as [H1 H2]. assert (I : qi_common i * / qi_common i == 1) by (apply Qmult_inv_r; lra).
  rewrite P in C1 at 1. assert (C3 : q_pow2 (clog (prec (qi_common i))) < 2 * / qi_common i) by (eapply Qlt_le_trans; [exact C2|]; rewrite P; lra). clear C2.
  set (w := / qi_common i) in *. set (p := q_pow2 (clog (prec (qi_common i)))) in *. set (c := qi_common i) in *. clearbody w p c. split; nra.
Qed.
(** The announced size suffices for the requantisation when the real values are small. *)
Lemma aq_accepts B sl sr out x1 x2 : unit_scale sl -> unit_scale sr -> unit_scale out -> let i := quant_info_new B sl sr out in
  let real := sl * inject_Z (Z.abs x1) + sr * inject_Z (Z.abs x2) in
  real + real / (2 * q_pow2 (Nat.min 8 B)) <= 4 -> (Z.abs (add_value i x1 x2) <= 2 ^ Z.of_nat (add_bit_size i))%Z.
Proof.
  intros Hl Hr Ho i real H. pose proof (value_error B sl sr out x1 x2 Hl Hr Ho) as V. cbv zeta in V. fold i in V. fold real in V.
  assert (U := common_unit B sl sr out Hl Hr Ho). fold i in U. destruct (size_bounds i U) as [S1 _]. destruct U as [U1 U2].
  rewrite Zle_Qle. fold (q_pow2 (add_bit_size i)). assert (E : inject_Z (Z.abs (add_value i x1 x2)) == Qabs (inject_Z (add_value i x1 x2))) by reflexivity. rewrite E.
  assert (T : Qabs (sl * inject_Z x1 + sr * inject_Z x2) <= real).
  { eapply Qle_trans; [apply Qabs_triangle|]. unfold real. rewrite !Qabs_Qmult. rewrite (Qabs_pos sl), (Qabs_pos sr) by (destruct Hl, Hr; lra). apply Qle_refl. }
  assert (A : Qabs (inject_Z (add_value i x1 x2)) * qi_common i <= real + real / (2 * q_pow2 (Nat.min 8 B))).
  { rewrite <- (Qabs_pos (qi_common i)) at 1 by lra. rewrite <- Qabs_Qmult.
    setoid_replace (inject_Z (add_value i x1 x2) * qi_common i) with ((inject_Z (add_value i x1 x2) * qi_common i - (sl * inject_Z x1 + sr * inject_Z x2)) + (sl * inject_Z x1 + sr * inject_Z x2)) by ring.
    eapply Qle_trans; [apply Qabs_triangle|]. lra. }
  set (a := Qabs (inject_Z (add_value i x1 x2))) in *. set (p := q_pow2 (add_bit_size i)) in *. set (c := qi_common i) in *. clearbody a p c.
  destruct (Qlt_le_dec p a); [|assumption]. nra.
Qed.
(** It never suffices when they are large: the requantisation that follows fails on every such value. *)
Lemma aq_fails B sl sr out x1 x2 ip eps r : unit_scale sl -> unit_scale sr -> unit_scale out -> let i := quant_info_new B sl sr out in
  let real := sl * inject_Z x1 + sr * inject_Z x2 in (0 <= x1)%Z -> (0 <= x2)%Z ->
  8 <= real - real / (2 * q_pow2 (Nat.min 8 B)) -> requant_from_add B i ip eps = Some r -> rq_op1 B r (add_value i x1 x2) = None.
Proof.
  intros Hl Hr Ho i real P1 P2 H Er. pose proof (value_error B sl sr out x1 x2 Hl Hr Ho) as V. cbv zeta in V. fold i in V. rewrite (Z.abs_eq x1), (Z.abs_eq x2) in V by auto. fold real in V.
  assert (U := common_unit B sl sr out Hl Hr Ho). fold i in U. destruct (size_bounds i U) as [_ S2]. destruct U as [U1 U2]. apply Qabs_Qle_condition in V.
  assert (G : (2 ^ Z.of_nat (add_bit_size i) < add_value i x1 x2)%Z).
  { rewrite Zlt_Qlt. fold (q_pow2 (add_bit_size i)). set (a := inject_Z (add_value i x1 x2)) in *. set (p := q_pow2 (add_bit_size i)) in *. set (c := qi_common i) in *. clearbody a p c.
    destruct (Qlt_le_dec p a); [assumption|]. assert (a * c <= p * c) by nra. lra. }
  assert (HB : (0 < B)%nat) by (destruct (Nat.eq_dec B 0) as [Z0|N]; [unfold requant_from_add, from_multiplier in Er; rewrite Z0 in Er; discriminate Er|lia]).
  apply from_multiplier_inv in Er; [|exact HB]. destruct Er as (_ & Hi & Hf & _ & _ & _ & Hb). unfold rq_op1. rewrite Hi. unfold shl1.
  destruct (Nat.ltb_spec (add_bit_size i) 63); [|lia]. cbn [obind]. destruct (i64 (Z.abs (add_value i x1 x2))) as [a|] eqn:Ea; [|reflexivity]. cbn [obind].
  unfold i64 in Ea. destruct ((- 2 ^ 63 <=? Z.abs (add_value i x1 x2))%Z && (Z.abs (add_value i x1 x2) <? 2 ^ 63)%Z)%bool; [|discriminate]. assert (Ea' : a = Z.abs (add_value i x1 x2)) by congruence. subst a. destruct (Z.leb_spec (Z.abs (add_value i x1 x2)) (2 ^ Z.of_nat (add_bit_size i))); [lia|reflexivity].
Qed.
(** A scale above one counts as high precision: when the left one is large enough the right input is multiplied by zero. *)
Lemma aq_vanishes B sl sr out : 1 <= sl -> 0 < sr -> q_pow2 8 * prec sr <= prec sl -> prec out < prec sl ->
  let i := quant_info_new B sl sr out in qi_left i = 1%Z /\ qi_right i = 0%Z /\ forall x1 x2 x2', add_value i x1 x2 = add_value i x1 x2'.
Proof.
  intros Hl Hr H Ho i. assert (Pl : prec sl = sl) by (unfold prec; destruct (Qle_bool 1 sl) eqn:E; [reflexivity|apply qleb_false in E; lra]).
  assert (Ps : sr <= prec sr).
  { unfold prec. destruct (Qle_bool 1 sr) eqn:E; [lra|]. apply qleb_false in E. pose proof (inv_ge1 sr ltac:(split; lra)). lra. }
  assert (Pp : 0 < prec sr) by lra. change (q_pow2 8) with 256 in *. rewrite Pl in H, Ho.
  assert (E : i = mkQi (q_round (sl / sl)) (q_round (sr / sl)) sl true).
  { unfold i, quant_info_new. destruct (Qle_bool (prec sl) (prec sr)) eqn:E1; [apply Qle_bool_iff in E1; rewrite Pl in E1; lra|]. unfold scale_comparison.
    destruct (q_ltb (prec sl) (prec out)) eqn:E2; [apply qltb_spec in E2; rewrite Pl in E2; lra|]. destruct (q_ltb (prec out) (prec sl)) eqn:E3; [|apply qltb_false in E3; rewrite Pl in E3; lra].
    destruct (Qle_bool (q_pow2 8 * prec sr) (prec sl)) eqn:E4; [reflexivity|]. apply qleb_false in E4. rewrite Pl in E4. change (q_pow2 8) with 256 in E4. lra. }
  assert (I : sl * / sl == 1) by (apply Qmult_inv_r; lra). pose proof (inv_pos sl ltac:(lra)).
  assert (R1 : q_round (sl / sl) = 1%Z) by (apply q_round_near; change (inject_Z 1) with 1; unfold Qdiv; lra).
  assert (R2 : q_round (sr / sl) = 0%Z).
  { apply q_round_near. change (inject_Z 0) with 0. unfold Qdiv. set (w := / sl) in *. clearbody w. split; nra. }
  unfold add_value. rewrite E. cbn [qi_left qi_right]. rewrite R1, R2. split; [reflexivity|]. split; [reflexivity|]. intros. reflexivity.
Qed.
