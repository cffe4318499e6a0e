(** Round trips of the integer embedding (C22) and of quantisation (C23). *)
From Coq Require Import List Arith Lia Bool ZArith QArith Qround Qabs Lqa Znumtheory.
From Verif Require Import ListAux FieldDef FpInst FpGold M_Mle M_LogUp M_Lookup M_Tables M_Quant.
Import ListNotations.

Section Embed.
Variable p : positive.
Hypothesis Hp : prime (Zpos p).
Local Open Scope Z_scope.

Lemma fpv_mk z : fpv p (mkFp p z) = z mod Zpos p.
Proof. reflexivity. Qed.
Lemma p_ge_2 : 2 <= Zpos p.
Proof. exact (prime_ge_2 _ Hp). Qed.
(** The canonical ring homomorphism from Z is reduction mod p. *)
Lemma fZ_mk z : @fZ (Fp_field p Hp) z = mkFp p z.
Proof.
  assert (P : forall n : nat, @fZ (Fp_field p Hp) (Z.of_nat n) = mkFp p (Z.of_nat n)).
  { intros n. rewrite fZ_of_nat. apply Fp_eq. rewrite fpv_fnat. reflexivity. }
  destruct (Z.le_ge_cases 0 z) as [H|H].
  - rewrite <- (Z2Nat.id z) by auto. apply P.
  - replace z with (- Z.of_nat (Z.to_nat (- z))) by lia. rewrite fZ_opp, P. apply Fp_eq.
    change (fpv p (fp_opp p (mkFp p (Z.of_nat (Z.to_nat (- z))))) = - Z.of_nat (Z.to_nat (- z)) mod Zpos p).
    unfold fp_opp. rewrite !fpv_mk. set (x := Z.of_nat _). pose proof p_ge_2.
    rewrite <- (Z.sub_0_l (x mod Zpos p)), <- (Z.sub_0_l x). rewrite Zminus_mod_idemp_r. reflexivity.
Qed.
Lemma to_field_fZ x : to_field p x = @fZ (Fp_field p Hp) x.
Proof.
  rewrite fZ_mk. unfold to_field. destruct (Z.ltb_spec x 0); [|reflexivity]. apply Fp_eq. rewrite !fpv_mk.
  replace (Zpos p - Z.abs x) with (x + 1 * Zpos p) by lia. apply Z.mod_add. pose proof p_ge_2. lia.
Qed.
Lemma to_element_mk x : Z.abs x <= (Zpos p - 1) / 2 -> to_element p (mkFp p x) = x.
Proof.
  intros H. pose proof p_ge_2 as H2. unfold to_element. rewrite fpv_mk. unfold fp_eqb. rewrite !fpv_mk.
  rewrite (Z.mod_0_l (Zpos p)) by lia.
  assert (Hh : 2 * ((Zpos p - 1) / 2) <= Zpos p - 1) by (apply Z.mul_div_le; lia).
  assert (Hq : (Zpos p - 1) / 2 <= Zpos p / 2) by (apply Z.div_le_mono; lia).
  assert (Hq2 : 2 * (Zpos p / 2) <= Zpos p) by (apply Z.mul_div_le; lia).
  destruct (Z.lt_trichotomy x 0) as [L|[->|L]].
  - replace (x mod Zpos p) with (Zpos p + x).
    2: { symmetry. replace x with (Zpos p + x + (-1) * Zpos p) at 1 by lia. rewrite Z.mod_add by lia. apply Z.mod_small. lia. }
    destruct (Z.eqb_spec (Zpos p + x) 0); [lia|]. destruct (Z.leb_spec (Zpos p + x) (Zpos p / 2)); lia.
  - rewrite Z.mod_0_l by lia. reflexivity.
  - rewrite Z.mod_small by lia. destruct (Z.eqb_spec x 0); [lia|]. destruct (Z.leb_spec x (Zpos p / 2)); lia.
Qed.
Lemma round_trip x : Z.abs x <= (Zpos p - 1) / 2 -> to_element p (to_field p x) = x.
Proof. intros H. rewrite to_field_fZ, fZ_mk. apply to_element_mk. auto. Qed.
Lemma to_field_inj x y : Z.abs x <= (Zpos p - 1) / 2 -> Z.abs y <= (Zpos p - 1) / 2 -> to_field p x = to_field p y -> x = y.
Proof. intros Hx Hy E. rewrite <- (round_trip x), <- (round_trip y), E by auto. reflexivity. Qed.
(** The other direction: every field value is the image of its element, which is in range for odd p. *)
Lemma round_trip_back a : to_field p (to_element p a) = a.
Proof.
  pose proof p_ge_2 as H2. rewrite to_field_fZ, fZ_mk. apply Fp_eq. rewrite fpv_mk. unfold to_element, fp_eqb. rewrite fpv_mk, Z.mod_0_l by lia.
  pose proof (fpv_range p a) as R. set (e := fpv p a) in *.
  destruct (Z.eqb_spec e 0) as [->|N]; [apply Z.mod_0_l; lia|]. destruct (Z.leb_spec e (Zpos p / 2)); [apply Z.mod_small; lia|].
  replace (- (Zpos p - e)) with (e + (-1) * Zpos p) by lia. rewrite Z.mod_add by lia. apply Z.mod_small. lia.
Qed.
Lemma to_element_range a : - (Zpos p / 2) <= to_element p a <= Zpos p / 2.
Proof.
  pose proof p_ge_2 as H2. unfold to_element, fp_eqb. rewrite fpv_mk, Z.mod_0_l by lia. pose proof (fpv_range p a) as R. set (e := fpv p a) in *.
  assert (0 <= Zpos p / 2) by (apply Z.div_pos; lia). pose proof (Z.mul_succ_div_gt (Zpos p) 2 ltac:(lia)).
  destruct (Z.eqb_spec e 0); [lia|]. destruct (Z.leb_spec e (Zpos p / 2)); lia.
Qed.

(** Arithmetic expressions over integer inputs, evaluated over the integers and in the field. *)
Inductive expr := EVar (i : nat) | EConst (z : Z) | EAdd (a b : expr) | ESub (a b : expr) | EMul (a b : expr) | ENeg (a : expr).
Fixpoint zeval (env : nat -> Z) (e : expr) : Z :=
  match e with
  | EVar i => env i | EConst z => z
  | EAdd a b => zeval env a + zeval env b | ESub a b => zeval env a - zeval env b
  | EMul a b => zeval env a * zeval env b | ENeg a => - zeval env a
  end.
Fixpoint feval (env : nat -> Fp_field p Hp) (e : expr) : Fp_field p Hp :=
  match e with
  | EVar i => env i | EConst z => to_field p z
  | EAdd a b => fadd (feval env a) (feval env b) | ESub a b => fsub (feval env a) (feval env b)
  | EMul a b => fmul (feval env a) (feval env b) | ENeg a => fopp (feval env a)
  end.
Lemma feval_zeval env e : feval (fun i => to_field p (env i)) e = to_field p (zeval env e).
Proof.
  rewrite to_field_fZ. induction e as [i|z|a IHa b IHb|a IHa b IHb|a IHa b IHb|a IHa]; cbn [feval zeval].
  - apply to_field_fZ.
  - apply to_field_fZ.
  - rewrite IHa, IHb, fZ_add. reflexivity.
  - rewrite IHa, IHb, fZ_sub. reflexivity.
  - rewrite IHa, IHb, fZ_mul. reflexivity.
  - rewrite IHa, fZ_opp. reflexivity.
Qed.
Lemma expr_exact env e : Z.abs (zeval env e) <= (Zpos p - 1) / 2 ->
  to_element p (feval (fun i => to_field p (env i)) e) = zeval env e.
Proof. intros H. rewrite feval_zeval. apply round_trip. auto. Qed.
(** Only the final value matters, and the range is exact. *)
Lemma expr_wraps x : (Zpos p / 2) < Z.abs x -> to_element p (to_field p x) <> x.
Proof. intros H E. pose proof (to_element_range (to_field p x)). lia. Qed.
End Embed.

(** For Goldilocks every i64 except the ones beyond (p-1)/2 = 2^63 - 2^31 in absolute value survives. *)
Lemma gold_half : ((Zpos gold - 1) / 2 = 2 ^ 63 - 2 ^ 31)%Z.
Proof. reflexivity. Qed.
Lemma gold_round_trip x : (Z.abs x <= 2 ^ 63 - 2 ^ 31)%Z -> to_element gold (to_field gold x) = x.
Proof. intros H. apply round_trip; [exact prime_gold|]. rewrite gold_half. exact H. Qed.
Lemma gold_wraps : to_element gold (to_field gold (2 ^ 63 - 1)) <> (2 ^ 63 - 1)%Z.
Proof. vm_compute. discriminate. Qed.

Local Open Scope Q_scope.
Lemma Qfloor_bounds x : inject_Z (Qfloor x) <= x < inject_Z (Qfloor x) + 1.
Proof.
  split; [apply Qfloor_le|]. pose proof (Qlt_floor x) as H. rewrite inject_Z_plus in H. exact H.
Qed.
Lemma q_round_bounds x : - (1 # 2) <= inject_Z (q_round x) - x <= 1 # 2.
Proof.
  unfold q_round. destruct (Qle_bool 0 x).
  - pose proof (Qfloor_bounds (x + (1 # 2))). lra.
  - pose proof (Qfloor_bounds (- x + (1 # 2))). rewrite inject_Z_opp. lra.
Qed.
Lemma q_round_mono x y : x <= y -> (q_round x <= q_round y)%Z.
Proof.
  intros H. unfold q_round. destruct (Qle_bool 0 x) eqn:Ex, (Qle_bool 0 y) eqn:Ey.
  - apply Qfloor_resp_le. lra.
  - exfalso. apply Qle_bool_iff in Ex. assert (0 <= y) by lra. apply Qle_bool_iff in H0. congruence.
  - assert (0 <= Qfloor (- x + (1 # 2)))%Z.
    { change 0%Z with (Qfloor 0). apply Qfloor_resp_le. assert (~ 0 <= x) by (intros C; apply Qle_bool_iff in C; congruence). lra. }
    assert (0 <= Qfloor (y + (1 # 2)))%Z.
    { change 0%Z with (Qfloor 0). apply Qfloor_resp_le. apply Qle_bool_iff in Ey. lra. }
    lia.
  - assert (Qfloor (- y + (1 # 2)) <= Qfloor (- x + (1 # 2)))%Z by (apply Qfloor_resp_le; lra). lia.
Qed.
(** An integer is the rounding of everything strictly within a half of it. *)
Lemma inj_le_half a b : inject_Z a < inject_Z b + 1 -> (a <= b)%Z.
Proof. intros H. change 1 with (inject_Z 1) in H. rewrite <- inject_Z_plus in H. rewrite <- Zlt_Qlt in H. lia. Qed.
Lemma q_round_near x (n : Z) : - (1 # 2) < inject_Z n - x < 1 # 2 -> q_round x = n.
Proof. intros H. pose proof (q_round_bounds x). apply Z.le_antisymm; apply inj_le_half; lra. Qed.
Lemma q_round_le x n : x <= inject_Z n -> (q_round x <= n)%Z.
Proof. intros H. pose proof (q_round_bounds x). apply inj_le_half. lra. Qed.
Lemma q_round_ge x n : inject_Z n <= x -> (n <= q_round x)%Z.
Proof. intros H. pose proof (q_round_bounds x). apply inj_le_half. lra. Qed.

Definition monotone (rnd : Q -> Q) : Prop := forall x y, x <= y -> rnd x <= rnd y.

(** Every quantised value is in the domain, whatever the rounding does. *)
Lemma quantize_range rnd s v : (fst (sc_dom s) <= snd (sc_dom s))%Z ->
  exists z, quantize rnd s v = Some z /\ (fst (sc_dom s) <= z <= snd (sc_dom s))%Z.
Proof.
  intros H. unfold quantize. destruct (Z.leb_spec (fst (sc_dom s)) (snd (sc_dom s))); [|lia]. eexists. split; [reflexivity|]. unfold z_clamp. lia.
Qed.
Lemma Qdiv_le_mono s x y : 0 < s -> x <= y -> x / s <= y / s.
Proof. intros Hs H. unfold Qdiv. apply Qmult_le_compat_r; auto. apply Qlt_le_weak, Qinv_lt_0_compat. auto. Qed.
Lemma quantize_mono rnd s v w a b : monotone rnd -> 0 < sc_scale s -> v <= w ->
  quantize rnd s v = Some a -> quantize rnd s w = Some b -> (a <= b)%Z.
Proof.
  intros Hm Hs H. unfold quantize. destruct (Z.leb _ _); [|discriminate]. intros [= <-] [= <-].
  pose proof (q_round_mono _ _ (Hm _ _ (Qdiv_le_mono _ _ _ Hs H))). unfold z_clamp. lia.
Qed.
(** With exact arithmetic: dequantising the quantised value is at most half a step away, for every value in the
    range of the scaling. *)
Definition exact (x : Q) : Q := x.
Lemma Qmult_Qdiv v s : ~ s == 0 -> v / s * s == v.
Proof. intros H. field. auto. Qed.
Lemma quantize_error B a v : (2 <= B)%nat -> 0 < a -> Qabs v <= a ->
  let s := from_absolute_max exact B a None in
  exists z, quantize exact s v = Some z /\ (q_min B <= z <= q_max B)%Z /\
    Qabs (dequantize exact s z - v) <= sc_scale s / 2.
Proof.
  intros HB Ha Hv s.
  assert (Hmx : (1 <= q_max B)%Z).
  { unfold q_max. assert (2 ^ 1 <= 2 ^ (Z.of_nat B - 1))%Z by (apply Z.pow_le_mono_r; lia). lia. }
  assert (Hmn : q_min B = (- q_max B)%Z) by (unfold q_min, q_max; lia).
  set (M := inject_Z (q_max B)).
  assert (HM : 0 < M) by (change 0 with (inject_Z 0); unfold M; rewrite <- Zlt_Qlt; lia).
  assert (Hs : sc_scale s == a / M).
  { unfold s, from_absolute_max, from_span, exact. cbn [sc_scale fst snd].
    assert (E : inject_Z (q_max B - q_min B) == 2 * M).
    { rewrite Hmn. unfold M. rewrite <- (inject_Z_mult 2). apply inject_Z_injective. lia. }
    rewrite E. rewrite Qabs_pos by lra. field. lra. }
  assert (Hsp : 0 < sc_scale s) by (rewrite Hs; apply Qlt_shift_div_l; lra).
  assert (Hdom : sc_dom s = (q_min B, q_max B)) by reflexivity. clearbody s.
  destruct (quantize_range exact s v) as (z & Hz & Hzr); [rewrite Hdom; cbn [fst snd]; rewrite Hmn; lia|].
  exists z. split; [exact Hz|]. split; [rewrite Hdom in Hzr; exact Hzr|].
  assert (Ez : z = q_round (v / sc_scale s)).
  { unfold quantize in Hz. destruct (Z.leb _ _); [|discriminate]. injection Hz as <-. unfold exact. unfold z_clamp.
    assert (Hb : (q_min B <= q_round (v / sc_scale s) <= q_max B)%Z).
    { apply Qabs_Qle_condition in Hv.
      assert (Hl : - M <= v / sc_scale s).
      { rewrite Hs. apply Qle_shift_div_l; [apply Qlt_shift_div_l; lra|]. setoid_replace (- M * (a / M)) with (- a) by (field; lra). lra. }
      assert (Hh : v / sc_scale s <= M).
      { rewrite Hs. apply Qle_shift_div_r; [apply Qlt_shift_div_l; lra|]. setoid_replace (M * (a / M)) with a by (field; lra). lra. }
      split; [apply q_round_ge; rewrite Hmn, inject_Z_opp; exact Hl|apply q_round_le; exact Hh]. }
    rewrite Hdom. cbn [fst snd]. lia. }
  unfold dequantize, exact. subst z. pose proof (q_round_bounds (v / sc_scale s)) as R. set (n := inject_Z (q_round (v / sc_scale s))) in *.
  assert (Ev : v == v / sc_scale s * sc_scale s) by (rewrite Qmult_Qdiv by lra; reflexivity).
  apply Qabs_Qle_condition. set (t := v / sc_scale s) in *. clearbody t n.
  assert (A : n * sc_scale s - v == (n - t) * sc_scale s) by (rewrite Ev; ring).
  assert (A2 : sc_scale s / 2 == (1 # 2) * sc_scale s) by field. rewrite A, A2. set (d := n - t) in *. clearbody d. split; nra.
Qed.
(** Quantising an integer multiple of the scale gives that integer back: the round trip on quantised values. *)
Lemma dequantize_quantize s z : 0 < sc_scale s -> (fst (sc_dom s) <= z <= snd (sc_dom s))%Z ->
  quantize exact s (dequantize exact s z) = Some z.
Proof.
  intros Hs Hz. unfold quantize, dequantize, exact. destruct (Z.leb_spec (fst (sc_dom s)) (snd (sc_dom s))); [|lia].
  replace (q_round (inject_Z z * sc_scale s / sc_scale s)) with z; [unfold z_clamp; f_equal; lia|].
  symmetry. apply q_round_near. assert (E : inject_Z z * sc_scale s / sc_scale s == inject_Z z) by (field; lra). rewrite E. lra.
Qed.
(** The same with rounded arithmetic of relative error at most u (2^-24 for f32), as long as the value is small
    against 1/u. *)
Lemma dequantize_quantize_rnd rnd u s z : (forall x, Qabs (rnd x - x) <= u * Qabs x) -> 0 <= u -> u <= 1 ->
  inject_Z (Z.abs z) * (3 * u) < 1 # 2 -> 0 < sc_scale s -> (fst (sc_dom s) <= z <= snd (sc_dom s))%Z ->
  quantize rnd s (dequantize rnd s z) = Some z.
Proof.
  intros Hr Hu Hu1 Hz0 Hs Hz. unfold quantize, dequantize. destruct (Z.leb_spec (fst (sc_dom s)) (snd (sc_dom s))); [|lia].
  replace (q_round _) with z; [unfold z_clamp; f_equal; lia|].
  symmetry. apply q_round_near. set (sc := sc_scale s) in *. set (n := inject_Z z) in *.
  assert (Hn : inject_Z (Z.abs z) == Qabs n) by (unfold n, Qabs, inject_Z; reflexivity). rewrite Hn in Hz0.
  set (d := rnd (n * sc)). pose proof (Hr (n * sc)) as H1. fold d in H1. pose proof (Hr (d / sc)) as H2. set (w := rnd (d / sc)) in *.
  assert (Hd : Qabs (d / sc - n) <= u * Qabs n).
  { assert (E : d / sc - n == (d - n * sc) * / sc) by (field; lra). rewrite E, Qabs_Qmult.
    assert (Hi : Qabs (/ sc) == / sc) by (apply Qabs_pos, Qlt_le_weak, Qinv_lt_0_compat; auto). rewrite Hi.
    rewrite Qabs_Qmult, (Qabs_pos sc) in H1 by lra.
    assert (E2 : u * Qabs n == (u * (Qabs n * sc)) * / sc) by (field; lra). rewrite E2.
    apply Qmult_le_compat_r; auto. apply Qlt_le_weak, Qinv_lt_0_compat; auto. }
  set (e := d / sc) in *. clearbody e w. clear H1. pose proof (Qabs_nonneg n) as Ha.
  assert (He : Qabs e <= Qabs n + u * Qabs n).
  { setoid_replace e with (n + (e - n)) at 1 by ring. eapply Qle_trans; [apply Qabs_triangle|]. lra. }
  apply Qabs_Qle_condition in Hd. apply Qabs_Qle_condition in H2. set (A := Qabs n) in *. clearbody A.
  assert (u * Qabs e <= u * (A + u * A)) by nra. assert (u * (A + u * A) <= 2 * u * A) by nra.
  set (X := u * Qabs e) in *. clearbody X. set (Y := u * A) in *. assert (A * (3 * u) == 3 * Y) by (unfold Y; ring). assert (2 * u * A == 2 * Y) by (unfold Y; ring).
  clearbody Y. lra.
Qed.
