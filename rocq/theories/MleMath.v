(** Specification-side mathematics of multilinear extensions.  Nothing here models Rust code: these
    are the textbook definitions that the models in [M_Mle] are compared with. *)
From Coq Require Import List Arith Lia Bool ZArith Field.
From Verif Require Import ListAux FieldDef PolyList.
Import ListNotations.

Section Mle.
Context {K : field}.
Add Field Kf_mle : (fth K).
Local Open Scope F_scope.

(** prod_k (r_k if bit k of [i] is set, else 1 - r_k), bit 0 belonging to the first coordinate. *)
Definition eqw (i : nat) (r : list K) : K :=
  prodn (length r) (fun k => if Nat.testbit i k then nth k r 0 else 1 - nth k r 0).

(** The multilinear extension of the values [f 0 .. f (2^n-1)] at a point of length [n]. *)
Definition mlef (f : nat -> K) (r : list K) : K :=
  sumn (2 ^ length r) (fun i => f i * eqw i r).
Definition mle (l : list K) (r : list K) : K := mlef (fun i => nth i l 0) r.

(** The boolean point whose coordinates are the little-endian bits of [b]. *)
Definition bpt (n b : nat) : list K := map (fun k => if Nat.testbit b k then 1 else 0) (seq 0 n).

(** eq(x, y) = prod_k (x_k y_k + (1-x_k)(1-y_k)). *)
Fixpoint eqp (x y : list K) : K :=
  match x, y with
  | a :: x', b :: y' => (a * b + (1 - a) * (1 - b)) * eqp x' y'
  | _, _ => 1
  end.

Lemma bpt_length n b : length (bpt n b) = n.
Proof. unfold bpt. rewrite map_length, seq_length. reflexivity. Qed.

Lemma eqw_nil i : eqw i [] = 1.
Proof. reflexivity. Qed.

Lemma eqw_cons i x r : eqw i (x :: r) = (if Nat.odd i then x else 1 - x) * eqw (Nat.div2 i) r.
Proof.
  unfold eqw. cbn [length]. rewrite prodn_S_l. simpl nth. rewrite Nat.bit0_odd.
  reflexivity.
Qed.

Lemma eqw_even j x r : eqw (2 * j) (x :: r) = (1 - x) * eqw j r.
Proof.
  rewrite eqw_cons, Nat.div2_double. rewrite <- Nat.negb_even.
  replace (Nat.even (2 * j)) with true; [reflexivity|]. symmetry. apply Nat.even_spec. exists j; lia.
Qed.
Lemma eqw_odd j x r : eqw (2 * j + 1) (x :: r) = x * eqw j r.
Proof.
  rewrite eqw_cons. replace (2 * j + 1)%nat with (S (2 * j)) by lia. rewrite Nat.div2_succ_double.
  replace (Nat.odd (S (2 * j))) with true; [reflexivity|]. symmetry. apply Nat.odd_spec. exists j; lia.
Qed.

Lemma mlef_ext f g r : (forall i, i < 2 ^ length r -> f i = g i) -> mlef f r = mlef g r.
Proof. intros H. apply sumn_ext. intros i Hi. rewrite H by auto. reflexivity. Qed.

Lemma mlef_nil f : mlef f [] = f O.
Proof. unfold mlef. simpl. rewrite eqw_nil. ring. Qed.

Lemma mlef_cons f x r :
  mlef f (x :: r) = mlef (fun i => f (2 * i)%nat + x * (f (2 * i + 1)%nat - f (2 * i)%nat)) r.
Proof.
  unfold mlef. cbn [length]. rewrite Nat.pow_succ_r'. rewrite sumn_even_odd.
  rewrite <- sumn_add. apply sumn_ext. intros i Hi.
  rewrite eqw_even. rewrite eqw_odd. ring.
Qed.

Lemma eqw_app r s i j : i < 2 ^ length r ->
  eqw (i + 2 ^ length r * j) (r ++ s) = eqw i r * eqw j s.
Proof.
  revert i j. induction r as [|x r IH]; intros i j Hi.
  - simpl in Hi. replace i with 0%nat by lia. cbn [length app Nat.pow]. rewrite eqw_nil.
    replace (0 + 1 * j)%nat with j by lia. ring.
  - cbn [length app]. cbn [length] in Hi. rewrite Nat.pow_succ_r' in *.
    destruct (Nat.Even_or_Odd i) as [[m Hm]|[m Hm]]; subst i.
    + replace (2 * m + 2 * 2 ^ length r * j)%nat with (2 * (m + 2 ^ length r * j))%nat by lia.
      rewrite !eqw_even. rewrite IH by lia. ring.
    + replace (2 * m + 1 + 2 * 2 ^ length r * j)%nat with (2 * (m + 2 ^ length r * j) + 1)%nat by lia.
      rewrite !eqw_odd. rewrite IH by lia. ring.
Qed.

(** Double sums over a product of index ranges. *)
Lemma sumn_mul_split a b (f : nat -> K) : sumn (a * b) f = sumn b (fun j => sumn a (fun i => f (i + a * j)%nat)).
Proof.
  induction b as [|b IH].
  - rewrite Nat.mul_0_r. reflexivity.
  - rewrite Nat.mul_succ_r, sumn_split, IH. simpl. f_equal.
    apply sumn_ext. intros i Hi. f_equal. lia.
Qed.

Lemma mlef_app f r s :
  mlef f (r ++ s) = mlef (fun j => mlef (fun i => f (i + 2 ^ length r * j)%nat) r) s.
Proof.
  unfold mlef. rewrite app_length, Nat.pow_add_r, sumn_mul_split.
  apply sumn_ext. intros j Hj. rewrite <- sumn_scal_r. apply sumn_ext. intros i Hi.
  rewrite eqw_app by auto. ring.
Qed.

Lemma mlef_snoc f r x :
  mlef f (r ++ [x]) = mlef (fun i => f i + x * (f (2 ^ length r + i)%nat - f i)) r.
Proof.
  rewrite mlef_app. rewrite mlef_cons, mlef_nil. unfold mlef.
  rewrite <- sumn_sub, <- sumn_scal, <- sumn_add. apply sumn_ext. intros i Hi.
  replace (i + 2 ^ length r * (2 * 0))%nat with i by lia.
  replace (i + 2 ^ length r * (2 * 0 + 1))%nat with (2 ^ length r + i)%nat by lia. ring.
Qed.

Lemma mlef_add f g r : mlef (fun i => f i + g i) r = mlef f r + mlef g r.
Proof. unfold mlef. rewrite <- sumn_add. apply sumn_ext. intros; ring. Qed.
Lemma mlef_sub f g r : mlef (fun i => f i - g i) r = mlef f r - mlef g r.
Proof. unfold mlef. rewrite <- sumn_sub. apply sumn_ext. intros; ring. Qed.
Lemma mlef_scal c f r : mlef (fun i => c * f i) r = c * mlef f r.
Proof. unfold mlef. rewrite <- sumn_scal. apply sumn_ext. intros; ring. Qed.
Lemma mlef_scal_r c f r : mlef (fun i => f i * c) r = mlef f r * c.
Proof. unfold mlef. rewrite <- sumn_scal_r. apply sumn_ext. intros; ring. Qed.

Lemma mlef_sumn n (f : nat -> nat -> K) r :
  mlef (fun i => sumn n (fun k => f k i)) r = sumn n (fun k => mlef (f k) r).
Proof.
  induction n as [|n IH]; simpl.
  - unfold mlef. apply sumn_0. intros; ring.
  - rewrite mlef_add, IH. reflexivity.
Qed.

Lemma mlef_const c r : mlef (fun _ => c) r = c.
Proof.
  revert c; induction r as [|x r IH]; intros c.
  - apply mlef_nil.
  - rewrite mlef_cons. transitivity (mlef (fun _ => c) r); [|apply IH]. apply mlef_ext. intros; ring.
Qed.

Lemma eqw_sum r : sumn (2 ^ length r) (fun i => eqw i r) = 1.
Proof. rewrite <- (mlef_const 1 r). unfold mlef. apply sumn_ext. intros; ring. Qed.

(** Boolean points. *)
Lemma bpt_cons n b : bpt (S n) b = (if Nat.odd b then 1 else 0) :: bpt n (Nat.div2 b).
Proof.
  unfold bpt. cbn [seq map]. rewrite Nat.bit0_odd. f_equal.
  rewrite <- seq_shift, map_map. apply map_ext. intros k.
  rewrite Nat.div2_spec, Nat.shiftr_spec'. replace (k + 1)%nat with (S k) by lia. reflexivity.
Qed.
Lemma bpt_even n j : bpt (S n) (2 * j) = 0 :: bpt n j.
Proof.
  rewrite bpt_cons, Nat.div2_double. rewrite <- Nat.negb_even.
  replace (Nat.even (2 * j)) with true; [reflexivity|]. symmetry. apply Nat.even_spec. exists j; lia.
Qed.
Lemma bpt_odd n j : bpt (S n) (2 * j + 1) = 1 :: bpt n j.
Proof.
  rewrite bpt_cons. replace (2 * j + 1)%nat with (S (2 * j)) by lia. rewrite Nat.div2_succ_double.
  replace (Nat.odd (S (2 * j))) with true; [reflexivity|]. symmetry. apply Nat.odd_spec. exists j; lia.
Qed.

Lemma mlef_bool n b f : b < 2 ^ n -> mlef f (bpt n b) = f b.
Proof.
  revert b f. induction n as [|n IH]; intros b f Hb.
  - simpl in Hb. replace b with 0%nat by lia. apply mlef_nil.
  - rewrite Nat.pow_succ_r' in Hb.
    destruct (Nat.Even_or_Odd b) as [[m Hm]|[m Hm]]; subst b.
    + rewrite bpt_even, mlef_cons, IH by lia. ring.
    + rewrite bpt_odd, mlef_cons, IH by lia. ring.
Qed.

Lemma bpt_app n m i j : i < 2 ^ n -> bpt (n + m) (i + 2 ^ n * j) = bpt n i ++ bpt m j.
Proof.
  revert i. induction n as [|n IH]; intros i Hi.
  - simpl in Hi. replace i with 0%nat by lia. simpl. rewrite Nat.add_0_r. reflexivity.
  - rewrite Nat.pow_succ_r' in *. cbn [Nat.add].
    destruct (Nat.Even_or_Odd i) as [[k Hk]|[k Hk]]; subst i.
    + replace (2 * k + 2 * 2 ^ n * j)%nat with (2 * (k + 2 ^ n * j))%nat by lia.
      rewrite !bpt_even. rewrite IH by lia. reflexivity.
    + replace (2 * k + 1 + 2 * 2 ^ n * j)%nat with (2 * (k + 2 ^ n * j) + 1)%nat by lia.
      rewrite !bpt_odd. rewrite IH by lia. reflexivity.
Qed.

(** eq polynomial. *)
Lemma eqp_sym x y : eqp x y = eqp y x.
Proof.
  revert y; induction x as [|a x IH]; intros [|b y]; simpl; auto. rewrite IH. ring.
Qed.
Lemma eqp_bpt n i r : length r = n -> eqp (bpt n i) r = eqw i r.
Proof.
  revert i r; induction n as [|n IH]; intros i r Hr.
  - destruct r; [reflexivity|discriminate].
  - destruct r as [|x r]; [discriminate|]. injection Hr as Hr.
    rewrite bpt_cons, eqw_cons. cbn [eqp]. rewrite IH by auto.
    destruct (Nat.odd i); ring.
Qed.
Lemma mlef_eqw r s : length r = length s -> mlef (fun i => eqw i r) s = eqp r s.
Proof.
  revert r; induction s as [|y s IH]; intros [|x r] H; try discriminate.
  - apply mlef_nil.
  - injection H as H. rewrite mlef_cons. cbn [eqp]. rewrite <- IH by auto.
    rewrite <- mlef_scal. apply mlef_ext. intros i Hi.
    rewrite eqw_even, eqw_odd. ring.
Qed.
Lemma eqw_bool n i j : i < 2 ^ n -> j < 2 ^ n -> eqw i (bpt n j) = if Nat.eqb i j then 1 else 0.
Proof.
  intros Hi Hj.
  assert (H := mlef_bool n j (fun k => if Nat.eqb i k then 1 else 0) Hj). simpl in H.
  rewrite <- H. unfold mlef. rewrite bpt_length.
  rewrite (sumn_single _ i); auto.
  - rewrite Nat.eqb_refl. ring.
  - intros k Hk Hne. destruct (Nat.eqb_spec i k); [subst; contradiction|ring].
Qed.
Lemma eqp_bool n i j : i < 2 ^ n -> j < 2 ^ n ->
  eqp (bpt n i) (bpt n j) = if Nat.eqb i j then 1 else 0.
Proof. intros Hi Hj. rewrite eqp_bpt by apply bpt_length. apply eqw_bool; auto. Qed.

Lemma eqp_app a b c d : length a = length b -> eqp (a ++ c) (b ++ d) = eqp a b * eqp c d.
Proof.
  revert b; induction a as [|x a IH]; intros [|y b] H; try discriminate; simpl.
  - ring.
  - rewrite IH by (injection H; auto). ring.
Qed.

(** A function of [n] variables that is affine in each. *)
Definition multi_affine (n : nat) (f : list K -> K) : Prop :=
  forall a b x, (length a + S (length b))%nat = n ->
    f (a ++ x :: b) = f (a ++ 0 :: b) + x * (f (a ++ 1 :: b) - f (a ++ 0 :: b)).

Lemma mlef_multi_affine f n : multi_affine n (mlef f).
Proof.
  intros a b x _.
  revert f; induction a as [|y a IH]; intros f.
  - simpl app. rewrite !mlef_cons, <- mlef_sub, <- mlef_scal, <- mlef_add.
    apply mlef_ext. intros; ring.
  - simpl app. rewrite !mlef_cons. apply IH.
Qed.

(** The multilinear extension is the only multi-affine function with the given boolean values. *)
Lemma multi_affine_unique n (f : list K -> K) : multi_affine n f ->
  forall r, length r = n -> f r = mlef (fun i => f (bpt n i)) r.
Proof.
  revert f; induction n as [|n IH]; intros f Hf r Hr.
  - destruct r; [|discriminate]. rewrite mlef_nil. reflexivity.
  - destruct r as [|x r]; [discriminate|]. injection Hr as Hr.
    rewrite mlef_cons.
    assert (Hc : forall c, multi_affine n (fun s => f (c :: s))).
    { intros c a b y Hl. apply (Hf (c :: a)). simpl. lia. }
    assert (E := Hf [] r x ltac:(simpl; lia)). simpl app in E. rewrite E.
    rewrite (IH (fun s => f (0 :: s)) (Hc 0) r Hr), (IH (fun s => f (1 :: s)) (Hc 1) r Hr).
    rewrite <- mlef_sub, <- mlef_scal, <- mlef_add. apply mlef_ext. intros i Hi.
    rewrite bpt_even, bpt_odd. reflexivity.
Qed.

Lemma multi_affine_ext n f g : (forall r, length r = n -> f r = g r) -> multi_affine n f -> multi_affine n g.
Proof.
  intros E H a b x Hl. rewrite <- !E by (rewrite app_length; simpl; lia). apply H; auto.
Qed.

(** MLE of the first coordinate fixed: degree-1 polynomial in it. *)
Lemma mlef_is_poly f a b : is_poly 1 (fun x => mlef f (a ++ x :: b)).
Proof.
  eapply is_poly_ext; [|apply (is_poly_affine (mlef f (a ++ 0 :: b)) (mlef f (a ++ 1 :: b) - mlef f (a ++ 0 :: b)))].
  intros x. simpl. symmetry. apply (mlef_multi_affine f (length a + S (length b))). reflexivity.
Qed.

(** Lists. *)
Lemma mle_nth l r b : b < 2 ^ length r -> r = bpt (length r) b -> mle l r = nth b l 0.
Proof. intros Hb E. unfold mle. rewrite E. apply mlef_bool. auto. Qed.

Lemma mle_map_seq f n r : n = length r -> mle (map f (seq 0 (2 ^ n))) r = mlef f r.
Proof.
  intros ->. apply mlef_ext. intros i Hi. rewrite nth_map_seq by auto. reflexivity.
Qed.

(** Inner product with the eq weights. *)
Lemma mle_dot l r : mle l r = sumn (2 ^ length r) (fun i => nth i l 0 * eqw i r).
Proof. reflexivity. Qed.
End Mle.

Arguments mlef_app {K}. Arguments bpt {K}.
