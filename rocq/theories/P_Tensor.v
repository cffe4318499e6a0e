(** Row-major indexing: specification and basic facts; padding to a larger shape. *)
From Coq Require Import List Arith Lia Bool ZArith.
From Verif Require Import ListAux FieldDef M_Mle M_Tensor P_Interp P_Graph4.
Import ListNotations.

(** *** Specification: multi-indices of a shape and their row-major position. *)
Definition inb (s idx : list nat) : Prop := Forall2 lt idx s.
Fixpoint flat (s idx : list nat) : nat :=
  match s, idx with
  | _ :: s', i :: idx' => i * fold_right Nat.mul 1 s' + flat s' idx'
  | _, _ => 0
  end.
Definition wft {A} (t : ten A) : Prop := length (dat t) = fold_right Nat.mul 1 (sh t).
(** The entry of a tensor at a multi-index. *)
Definition entry {A} (d : A) (t : ten A) (idx : list nat) : A := nth (flat (sh t) idx) (dat t) d.

(** Mixed-radix digits. *)
Fixpoint unflat (s : list nat) (o : nat) : list nat :=
  match s with [] => [] | _ :: s' => o / sprod s' :: unflat s' (o mod sprod s') end.

Lemma sprod_cons a s : sprod (a :: s) = a * sprod s. Proof. reflexivity. Qed.
Lemma sprod_app s s' : sprod (s ++ s') = sprod s * sprod s'.
Proof. induction s as [|a s IH]; cbn [app]; [cbn; lia|]. rewrite !sprod_cons, IH. lia. Qed.
Lemma sprod_pos s : Forall (lt 0) s <-> 0 < sprod s.
Proof.
  induction s as [|a s IH]; [split; [cbn; lia|auto]|]. rewrite sprod_cons. split.
  - intros H; inversion H; subst. apply IH in H3. apply Nat.mul_pos_pos; auto.
  - intros H. constructor; [destruct a; lia|]. apply IH. destruct (sprod s); [lia|lia].
Qed.
Lemma flat_cons a s i idx : flat (a :: s) (i :: idx) = i * sprod s + flat s idx. Proof. reflexivity. Qed.
Lemma flat_lt : forall s idx, inb s idx -> flat s idx < sprod s.
Proof.
  induction s as [|a s IH]; intros idx H; inversion H; subst; [cbn; lia|].
  rewrite flat_cons, sprod_cons. specialize (IH _ H4).
  assert (x * sprod s + sprod s <= a * sprod s). { replace (x * sprod s + sprod s) with (S x * sprod s) by lia. apply Nat.mul_le_mono_r. lia. }
  lia.
Qed.
Lemma flat_inj : forall s i j, inb s i -> inb s j -> flat s i = flat s j -> i = j.
Proof.
  induction s as [|a s IH]; intros i j Hi Hj E; inversion Hi; inversion Hj; subst; auto.
  rewrite !flat_cons in E. assert (L1 := flat_lt _ _ H3). assert (L2 := flat_lt _ _ H8).
  assert (x = x0).
  { apply (f_equal (fun z => z / sprod s)) in E.
    rewrite !Nat.div_add_l, !Nat.div_small in E by lia. lia. }
  subst. f_equal. apply IH; auto. lia.
Qed.
Lemma unflat_inb : forall s o, o < sprod s -> inb s (unflat s o).
Proof.
  induction s as [|a s IH]; intros o H; [constructor|]. rewrite sprod_cons in H. cbn [unflat].
  assert (0 < sprod s) by (destruct (sprod s); lia).
  constructor; [apply Nat.div_lt_upper_bound; lia|]. apply IH. apply Nat.mod_upper_bound. lia.
Qed.
Lemma flat_unflat : forall s o, o < sprod s -> flat s (unflat s o) = o.
Proof.
  induction s as [|a s IH]; intros o H; [cbn in *; lia|]. rewrite sprod_cons in H. cbn [unflat]. rewrite flat_cons.
  assert (0 < sprod s) by (destruct (sprod s); lia).
  rewrite IH by (apply Nat.mod_upper_bound; lia). rewrite (Nat.div_mod_eq o (sprod s)) at 3. lia.
Qed.
Lemma unflat_flat s idx : inb s idx -> unflat s (flat s idx) = idx.
Proof. intros H. apply (flat_inj s); auto. apply unflat_inb, flat_lt, H. apply flat_unflat, flat_lt, H. Qed.
Lemma inb_len s idx : inb s idx -> length idx = length s. Proof. induction 1; cbn; auto. Qed.
Lemma inb_pos s idx : inb s idx -> Forall (lt 0) s.
Proof. intros H. induction H; constructor; auto. lia. Qed.

Lemma inb_inv a s idx : inb (a :: s) idx -> exists i idx', idx = i :: idx' /\ i < a /\ inb s idx'.
Proof. intros H. inversion H; subst; eauto. Qed.
Lemma inb_cons a s i idx : inb (a :: s) (i :: idx) <-> i < a /\ inb s idx.
Proof. split; [intros H; inversion H; auto|intros []; constructor; auto]. Qed.
Lemma inb_nil_inv idx : inb [] idx -> idx = []. Proof. intros H; inversion H; auto. Qed.
Lemma inb_dec s idx : {inb s idx} + {~ inb s idx}.
Proof.
  revert idx. induction s as [|a s IH]; intros [|i idx].
  - left; constructor. - right; intros H; inversion H. - right; intros H; inversion H.
  - destruct (lt_dec i a) as [H|H]; [|right; intros G; inversion G; subst; auto].
    destruct (IH idx) as [G|G]; [left; constructor; auto|right; intros Q; inversion Q; subst; auto].
Qed.

(** *** Strides *)
Definition dot (a b : list nat) : nat := fold_right Nat.add 0 (map (fun p => fst p * snd p) (combine a b)).
Lemma dot_cons a x b y : dot (a :: x) (b :: y) = a * b + dot x y. Proof. reflexivity. Qed.
Lemma dot_app : forall a b x y, length a = length b -> dot (a ++ x) (b ++ y) = dot a b + dot x y.
Proof. induction a as [|c a IH]; intros [|e b] x y H; try discriminate; [reflexivity|]. cbn [app]. rewrite !dot_cons, IH by (cbn in H; lia). lia. Qed.
Lemma scan_mul_len : forall l st, length (scan_mul st l) = length l.
Proof. induction l; intros; cbn; auto. Qed.
Lemma scan_mul_app : forall l l' st, scan_mul st (l ++ l') = scan_mul st l ++ scan_mul (st * sprod l) l'.
Proof. induction l as [|a l IH]; intros l' st; cbn [app scan_mul]; [cbn; f_equal; lia|]. rewrite IH, sprod_cons. cbn. f_equal. f_equal. f_equal. lia. Qed.
Lemma sprod_rev s : sprod (rev s) = sprod s.
Proof. induction s as [|a s IH]; auto. cbn [rev]. rewrite sprod_app, IH, !sprod_cons. cbn. lia. Qed.
Lemma strides_cons a s : strides (a :: s) = sprod s :: strides s.
Proof. unfold strides. cbn [rev]. rewrite scan_mul_app, rev_app_distr, sprod_rev. cbn. f_equal. lia. Qed.
Lemma strides_len s : length (strides s) = length s.
Proof. unfold strides. rewrite rev_length, scan_mul_len, rev_length. reflexivity. Qed.
Lemma strides_flat : forall s idx, length idx = length s -> dot idx (strides s) = flat s idx.
Proof.
  induction s as [|a s IH]; intros [|i idx] H; try discriminate; [reflexivity|].
  rewrite strides_cons, dot_cons, flat_cons, IH by (cbn in H; lia). lia.
Qed.

(** Extensionality of tensors. *)
Lemma ten_ext {A} (d : A) (t u : ten A) : wft t -> wft u -> sh t = sh u ->
  (forall idx, inb (sh t) idx -> entry d t idx = entry d u idx) -> t = u.
Proof.
  intros Wt Wu Es H. destruct t as [s dt], u as [s' du]. unfold wft, entry in *. cbn [sh dat] in *. subst s'. f_equal.
  apply (nth_ext_all _ _ d); [congruence|]. intros i Hi. rewrite Wt in Hi. change (fold_right Nat.mul 1 s) with (sprod s) in Hi.
  rewrite <- (flat_unflat s i Hi). apply H, unflat_inb, Hi.
Qed.

(** omapM over a range, by the value at each position. *)
Lemma omapM_range {A} (f : nat -> option A) (F : nat -> A) n :
  (forall i, i < n -> f i = Some (F i)) -> omapM f (seq 0 n) = Some (map F (seq 0 n)).
Proof.
  intros H. apply omapM_F2. assert (G : forall a m, (forall i, a <= i < a + m -> f i = Some (F i)) -> Forall2 (fun x y => f x = Some y) (seq a m) (map F (seq a m))).
  { intros a m; revert a; induction m as [|m IH]; intros a Hm; cbn; constructor; [apply Hm; lia|]. apply IH. intros; apply Hm; lia. }
  apply G. intros; apply H; lia.
Qed.
Lemma nth_error_some {A} (d : A) l i : i < length l -> nth_error l i = Some (nth i l d).
Proof. intros. apply nth_error_nth'. auto. Qed.

(** *** The reversed view: little-endian digits. *)
Fixpoint rdig (rs : list nat) (o : nat) : list nat := match rs with [] => [] | a :: r => o mod a :: rdig r (o / a) end.
Fixpoint rval (rn ri : list nat) : nat := match rn, ri with b :: rn', i :: ri' => rval rn' ri' * b + i | _, _ => 0 end.

Lemma flat_snoc : forall s idx a i, length s = length idx -> flat (s ++ [a]) (idx ++ [i]) = flat s idx * a + i.
Proof.
  induction s as [|b s IH]; intros [|j idx] a i H; try discriminate; [cbn; lia|]. cbn [app].
  rewrite !flat_cons, IH by (cbn in H; lia). rewrite sprod_app. cbn [sprod fold_right]. lia.
Qed.
Lemma rval_flat : forall rs ri, length rs = length ri -> rval rs ri = flat (rev rs) (rev ri).
Proof.
  induction rs as [|a rs IH]; intros [|i ri] H; try discriminate; [reflexivity|]. cbn [rev rval].
  rewrite flat_snoc by (rewrite !rev_length; cbn in H; lia). rewrite <- IH by (cbn in H; lia). lia.
Qed.
Lemma rdig_len : forall rs o, length (rdig rs o) = length rs. Proof. induction rs; intros; cbn; auto. Qed.
Lemma rval_rdig : forall rs o, Forall (lt 0) rs -> o < sprod rs -> rval rs (rdig rs o) = o.
Proof.
  induction rs as [|a rs IH]; intros o P H; [cbn in *; lia|]. rewrite sprod_cons in H. cbn [rdig rval]. inversion P; subst.
  rewrite IH by (auto; apply Nat.div_lt_upper_bound; lia). rewrite (Nat.div_mod_eq o a) at 3. lia.
Qed.
Lemma rdig_lt : forall rs o, Forall (lt 0) rs -> Forall2 lt (rdig rs o) rs.
Proof. induction rs as [|a rs IH]; intros o P; cbn; constructor; inversion P; subst; auto. apply Nat.mod_upper_bound. lia. Qed.
Lemma Forall2_rev' {A B} (R : A -> B -> Prop) l l' : Forall2 R l l' -> Forall2 R (rev l) (rev l').
Proof. induction 1; cbn; [constructor|]. apply Forall2_app; auto. Qed.
Lemma unflat_rdig s o : o < sprod s -> rev (unflat s o) = rdig (rev s) o.
Proof.
  intros H. assert (P : Forall (lt 0) s) by (apply sprod_pos; lia).
  rewrite <- (rev_involutive (rdig (rev s) o)). f_equal.
  assert (P' : Forall (lt 0) (rev s)) by (apply Forall_rev; auto).
  apply (flat_inj s); [apply unflat_inb; auto| |].
  - unfold inb. rewrite <- (rev_involutive s) at 2. apply Forall2_rev'. apply rdig_lt; auto.
  - rewrite flat_unflat by auto. symmetry.
    transitivity (rval (rev s) (rdig (rev s) o)).
    + rewrite rval_flat by (rewrite rdig_len; auto). rewrite rev_involutive. reflexivity.
    + apply rval_rdig; auto. rewrite sprod_rev; auto.
Qed.

(** Position in the larger shape of the old position [o], in the reversed view. *)
Definition rtgt (rs rn : list nat) (o : nat) : nat := rval rn (rdig rs o).

Lemma rtgt_step rs rn : Forall2 (fun a b => 0 < a <= b) rs rn -> forall o, S o < sprod rs -> rtgt rs rn o < rtgt rs rn (S o).
Proof.
  intros F. induction F as [|a b rs rn [Ha Hab] F IH]; intros o H; [cbn in H; lia|]. rewrite sprod_cons in H.
  unfold rtgt in *. cbn [rdig rval].
  assert (C : S o mod a <> 0 \/ S o mod a = 0) by lia. destruct C as [C|C].
  - assert (E : S o / a = o / a /\ S o mod a = S (o mod a)).
    { assert (D := Nat.div_mod_eq (S o) a). assert (M := Nat.mod_upper_bound (S o) a ltac:(lia)).
      assert (Q : o / a = S o / a). { symmetry. apply (Nat.div_unique o a (S o / a) (S o mod a - 1)); lia. }
      assert (R : o mod a = S o mod a - 1). { symmetry. apply (Nat.mod_unique o a (S o / a) (S o mod a - 1)); lia. }
      lia. }
    destruct E as [-> ->]. lia.
  - assert (D := Nat.div_mod_eq (S o) a). rewrite C in *.
    assert (Q : S o / a <> 0) by lia. destruct (S o / a) as [|q'] eqn:Eq; [lia|].
    assert (Q' : q' = o / a). { apply (Nat.div_unique o a q' (a - 1)); lia. }
    assert (R : a - 1 = o mod a). { apply (Nat.mod_unique o a q' (a - 1)); lia. }
    rewrite <- Q', <- R. assert (B : S q' < sprod rs). { apply (Nat.mul_lt_mono_pos_l a); lia. }
    specialize (IH q' B). remember (rval rn (rdig rs (S q'))) as g1. remember (rval rn (rdig rs q')) as g0.
    assert (S g0 * b <= g1 * b) by (apply Nat.mul_le_mono_r; lia). lia.
Qed.

(** The odometer: one inner loop takes the coordinates of [S o] and its target to those of [o]. *)
Fixpoint rdist (u : nat) (rs rn : list nat) : list nat :=
  match rs, rn with a :: rs', b :: rn' => (b - a) * u :: rdist (u * b) rs' rn' | _, _ => [] end.

Lemma pad_step_ok rs rn : Forall2 (fun a b => 0 < a <= b) rs rn -> forall u o T T', 0 < u -> S o < sprod rs ->
  T' + u * (rtgt rs rn (S o) - rtgt rs rn o) = T + (u - 1) ->
  pad_step rs (rdist u rs rn) (rdig rs (S o)) T = Some (rdig rs o, T').
Proof.
  intros F. induction F as [|a b rs rn [Ha Hab] F IH]; intros u o T T' Hu H E; [cbn in H; lia|].
  rewrite sprod_cons in H. cbn [rdig rdist pad_step].
  assert (C : S o mod a <> 0 \/ S o mod a = 0) by lia. destruct C as [C|C].
  - assert (E' : S o / a = o / a /\ S o mod a = S (o mod a)).
    { assert (D := Nat.div_mod_eq (S o) a). assert (M := Nat.mod_upper_bound (S o) a ltac:(lia)).
      assert (Q : o / a = S o / a). { symmetry. apply (Nat.div_unique o a (S o / a) (S o mod a - 1)); lia. }
      assert (R : o mod a = S o mod a - 1). { symmetry. apply (Nat.mod_unique o a (S o / a) (S o mod a - 1)); lia. }
      lia. }
    destruct E' as [E1 E2]. destruct (Nat.eqb_spec (S o mod a) 0) as [|_]; [contradiction|].
    assert (G : rtgt (a :: rs) (b :: rn) (S o) - rtgt (a :: rs) (b :: rn) o = 1).
    { unfold rtgt. cbn [rdig rval]. rewrite E1, E2. lia. }
    rewrite G in E. unfold csub. destruct (Nat.leb_spec 1 T) as [L|L]; [|lia].
    cbn [obind]. rewrite E1, E2. do 3 f_equal; lia.
  - rewrite C. cbn [Nat.eqb]. assert (D := Nat.div_mod_eq (S o) a). rewrite C in D.
    assert (Q : S o / a <> 0) by lia. destruct (S o / a) as [|q'] eqn:Eq; [lia|].
    assert (Q' : q' = o / a). { apply (Nat.div_unique o a q' (a - 1)); lia. }
    assert (R : a - 1 = o mod a). { apply (Nat.mod_unique o a q' (a - 1)); lia. }
    assert (B : S q' < sprod rs). { apply (Nat.mul_lt_mono_pos_l a); lia. }
    assert (Hm := rtgt_step rs rn F q' B).
    set (g1 := rtgt rs rn (S q')) in *. set (g0 := rtgt rs rn q') in *.
    assert (G : rtgt (a :: rs) (b :: rn) (S o) - rtgt (a :: rs) (b :: rn) o = (g1 - g0) * b - (a - 1)).
    { unfold rtgt. cbn [rdig rval]. rewrite Eq, C, <- Q', <- R. fold (rtgt rs rn (S q')) (rtgt rs rn q'). fold g1 g0.
      rewrite Nat.mul_sub_distr_r. lia. }
    rewrite G in E. assert (Db : b <= (g1 - g0) * b) by (destruct (g1 - g0) eqn:Eg; [lia|lia]).
    (* u * ((g1-g0) b - (a-1)) = u b (g1 - g0) - u (a - 1) *)
    assert (E3 : u * ((g1 - g0) * b - (a - 1)) = u * b * (g1 - g0) - u * (a - 1)) by (rewrite Nat.mul_sub_distr_l; lia).
    assert (E4 : u * b <= u * b * (g1 - g0)) by (destruct (g1 - g0) eqn:Eg; [lia|lia]).
    assert (E5 : (b - a) * u = u * b - u * a) by (rewrite Nat.mul_sub_distr_r; lia).
    assert (E6 : u * (a - 1) = u * a - u) by (rewrite Nat.mul_sub_distr_l; lia).
    assert (E7 : u * a <= u * b) by (apply Nat.mul_le_mono_l; lia).
    assert (E8 : u <= u * a) by (destruct a; lia).
    unfold csub. destruct (Nat.leb_spec 1 a) as [L1|L1]; [|lia]. cbn [obind].
    destruct (Nat.leb_spec ((b - a) * u) T) as [L|L]; [|lia]. cbn [obind].
    rewrite (IH (u * b) q' (T - (b - a) * u) T').
    + cbn [obind fst snd]. rewrite Q', R. reflexivity.
    + apply Nat.mul_pos_pos; lia.
    + exact B.
    + fold g1 g0. lia.
Qed.

Lemma rtgt_lt rs rn o : Forall2 (fun a b => 0 < a <= b) rs rn -> rtgt rs rn o < sprod rn.
Proof.
  intros F. revert o. induction F as [|a b rs rn [Ha Hab] F IH]; intros o; [cbn; lia|]. unfold rtgt in *. cbn [rdig rval]. rewrite sprod_cons.
  specialize (IH (o / a)). assert (o mod a < a) by (apply Nat.mod_upper_bound; lia).
  assert (S (rval rn (rdig rs (o / a))) * b <= sprod rn * b) by (apply Nat.mul_le_mono_r; lia). lia.
Qed.
Lemma rtgt_mono rs rn : Forall2 (fun a b => 0 < a <= b) rs rn -> forall o o', o < o' -> o' < sprod rs -> rtgt rs rn o < rtgt rs rn o'.
Proof. intros F o o' H. induction H; intros L; [apply rtgt_step; auto|]. etransitivity; [apply IHle; lia|apply rtgt_step; auto]. Qed.
Lemma rtgt_ge rs rn : Forall2 (fun a b => 0 < a <= b) rs rn -> forall o, o < sprod rs -> o <= rtgt rs rn o.
Proof. intros F o. induction o; intros L; [lia|]. assert (H := rtgt_step rs rn F o L). specialize (IHo ltac:(lia)). lia. Qed.

Section Pad.
Context {A : Type}.
Variable zero : A.

Lemma swap_nth i j (l l' : list A) : swap i j l = Some l' -> i < length l -> j < length l ->
  length l' = length l /\ nth j l' zero = nth i l zero /\ nth i l' zero = nth j l zero /\ forall k, k <> i -> k <> j -> nth k l' zero = nth k l zero.
Proof.
  intros E Hi Hj. unfold swap in E. rewrite (nth_error_some zero _ _ Hi), (nth_error_some zero _ _ Hj) in E. injection E as <-.
  repeat split.
  - rewrite !upd_length. reflexivity.
  - rewrite nth_upd_eq by (rewrite upd_length; auto). reflexivity.
  - destruct (Nat.eq_dec i j) as [->|N]; [rewrite nth_upd_eq by (rewrite upd_length; auto); reflexivity|].
    rewrite nth_upd_neq by auto. rewrite nth_upd_eq by auto. reflexivity.
  - intros k H1 H2. rewrite !nth_upd_neq by auto. reflexivity.
Qed.

(** State of the array when the old position [o] is about to be moved. *)
Definition pad_inv (tg : nat -> nat) (P N : nat) (old data : list A) (o : nat) : Prop :=
  length data = N /\
  (forall p, p <= o -> nth p data zero = nth p old zero) /\
  (forall q, o < q < P -> nth (tg q) data zero = nth q old zero) /\
  (forall p, o < p < N -> (forall q, o < q < P -> tg q <> p) -> nth p data zero = zero).

Lemma pad_loop_ok rs rn old : Forall2 (fun a b => 0 < a <= b) rs rn ->
  forall o data, o < sprod rs ->
  pad_inv (rtgt rs rn) (sprod rs) (sprod rn) old data o ->
  exists data', pad_loop rs (rdist 1 rs rn) (S o) data (rdig rs o) (rtgt rs rn o) = Some data' /\
    length data' = sprod rn /\
    (forall q, q < sprod rs -> nth (rtgt rs rn q) data' zero = nth q old zero) /\
    (forall p, p < sprod rn -> (forall q, q < sprod rs -> rtgt rs rn q <> p) -> nth p data' zero = zero).
Proof.
  intros F. assert (Mono := rtgt_mono rs rn F). assert (Ge := rtgt_ge rs rn F).
  induction o as [|o IH]; intros data Ho (HL & H1 & H2 & H3); cbn [pad_loop].
  - assert (Et : rtgt rs rn 0 < length data) by (rewrite HL; apply rtgt_lt; auto).
    assert (E0 : 0 < length data) by lia.
    destruct (swap 0 (rtgt rs rn 0) data) as [data'|] eqn:Es.
    2:{ unfold swap in Es. rewrite (nth_error_some zero _ _ E0), (nth_error_some zero _ _ Et) in Es. discriminate. }
    cbn [obind]. exists data'. split; auto.
    destruct (swap_nth _ _ _ _ Es E0 Et) as (L & Sa & Sb & Sc). split; [congruence|].
    assert (Hz : rtgt rs rn 0 = 0).
    { clear. unfold rtgt. revert rn. induction rs as [|a rs IH]; intros [|b rn]; cbn [rdig rval]; auto.
      destruct a; [cbn [Nat.div Nat.modulo]; rewrite IH; reflexivity|]. rewrite Nat.div_0_l, Nat.mod_0_l, IH by lia. lia. }
    split.
    + intros q Hq. destruct q as [|q]; [rewrite Sa; apply H1; lia|].
      assert (M := Mono 0 (S q) ltac:(lia) Hq). rewrite Sc by lia. apply H2. lia.
    + intros p Hp Hn. assert (p <> 0) by (intros ->; apply (Hn 0); auto; lia). rewrite Sc by lia. apply H3; [lia|]. intros q Hq. apply Hn; lia.
  - assert (Et : rtgt rs rn (S o) < length data) by (rewrite HL; apply rtgt_lt; auto).
    assert (Hge := Ge (S o) Ho). assert (E0 : S o < length data) by lia.
    destruct (swap (S o) (rtgt rs rn (S o)) data) as [data'|] eqn:Es.
    2:{ unfold swap in Es. rewrite (nth_error_some zero _ _ E0), (nth_error_some zero _ _ Et) in Es. discriminate. }
    cbn [obind]. destruct (swap_nth _ _ _ _ Es E0 Et) as (L & Sa & Sb & Sc).
    rewrite (pad_step_ok rs rn F 1 o (rtgt rs rn (S o)) (rtgt rs rn o)); [|lia|auto|assert (M := Mono o (S o) ltac:(lia) Ho); lia].
    cbn [obind fst snd]. apply (IH data'); [lia|].
    assert (Htg : rtgt rs rn (S o) = S o \/ (S o < rtgt rs rn (S o) /\ nth (rtgt rs rn (S o)) data zero = zero)).
    { destruct (Nat.eq_dec (rtgt rs rn (S o)) (S o)); [left; auto|right]. split; [lia|]. apply H3; [rewrite <- HL; lia|].
      intros q Hq. assert (M := Mono (S o) q ltac:(lia) ltac:(lia)). lia. }
    split; [congruence|]. split; [|split].
    + intros p Hp. rewrite Sc by lia. apply H1. lia.
    + intros q Hq. destruct (Nat.eq_dec q (S o)) as [->|N]; [rewrite Sa; apply H1; lia|].
      assert (M := Mono (S o) q ltac:(lia) ltac:(lia)). rewrite Sc by lia. apply H2; lia.
    + intros p Hp Hn. assert (p <> rtgt rs rn (S o)) by (intros ->; apply (Hn (S o)); auto; lia).
      destruct (Nat.eq_dec p (S o)) as [->|N].
      * rewrite Sb. destruct Htg as [Q|[Q1 Q2]]; [congruence|auto].
      * rewrite Sc by auto. apply H3; [lia|]. intros q Hq. apply Hn. lia.
Qed.
End Pad.
