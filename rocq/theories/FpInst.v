(** Prime fields Z/p as instances of [field], with a computable inverse, so that the examples and
    refutations beside the theorems can be evaluated by [vm_compute]. *)
From Coq Require Import List Arith Lia Bool ZArith Znumtheory Eqdep_dec Field.
From Verif Require Import ListAux FieldDef.
Import ListNotations.
Local Open Scope Z_scope.

(** Iterate [f] at most [n] times, stopping at the first [inr]. *)
Section Loop.
Context {S R : Type} (f : S -> S + R).
Fixpoint loop (n : positive) (s : S) : S + R :=
  match n with
  | xH => f s
  | xO q => match loop q s with inl s' => loop q s' | inr r => inr r end
  | xI q => match f s with
            | inl s0 => match loop q s0 with inl s' => loop q s' | inr r => inr r end
            | inr r => inr r
            end
  end.

Variable I : S -> Prop.
Variable Q : R -> Prop.
Variable m : S -> Z.
Hypothesis Hstep : forall s, I s -> 0 <= m s ->
  match f s with inl s' => I s' /\ 0 <= m s' < m s | inr r => Q r end.

Lemma loop_spec n : forall s, I s -> 0 <= m s ->
  match loop n s with inl s' => I s' /\ 0 <= m s' <= m s - Zpos n | inr r => Q r end.
Proof.
  induction n as [q IH|q IH|]; intros s HI Hm; simpl.
  - pose proof (Hstep s HI Hm) as H0. destruct (f s) as [s0|r]; auto.
    destruct H0 as [HI0 Hm0]. pose proof (IH s0 HI0 (proj1 Hm0)) as H1.
    destruct (loop q s0) as [s1|r]; auto. destruct H1 as [HI1 Hm1].
    pose proof (IH s1 HI1 (proj1 Hm1)) as H2. destruct (loop q s1); auto. split; [tauto|lia].
  - pose proof (IH s HI Hm) as H1.
    destruct (loop q s) as [s1|r]; auto. destruct H1 as [HI1 Hm1].
    pose proof (IH s1 HI1 (proj1 Hm1)) as H2. destruct (loop q s1); auto. split; [tauto|lia].
  - pose proof (Hstep s HI Hm) as H0. destruct (f s); auto. split; [tauto|lia].
Qed.
End Loop.

(** Extended Euclid: [(r0, r1, s0, s1)] with [s_i * x = r_i (mod p)]. *)
Definition egcd_step (s : Z * Z * Z * Z) : (Z * Z * Z * Z) + Z :=
  let '(r0, r1, s0, s1) := s in
  if r1 =? 0 then inr s0
  else let q := r0 / r1 in inl (r1, r0 - q * r1, s1, s0 - q * s1).
Definition zinv (p : positive) (x : Z) : Z :=
  match loop egcd_step (Pos.succ p) (Zpos p, x, 0, 1) with
  | inl _ => 0
  | inr u => u mod Zpos p
  end.

Lemma zinv_spec p x : prime (Zpos p) -> 0 < x < Zpos p -> (zinv p x * x) mod Zpos p = 1.
Proof.
  intros Hp Hx. unfold zinv.
  pose (I := fun s : Z * Z * Z * Z => let '(r0, r1, s0, s1) := s in
     0 < r0 /\ 0 <= r1 /\ Z.gcd r0 r1 = 1 /\ (Zpos p | s0 * x - r0) /\ (Zpos p | s1 * x - r1)).
  pose (Q := fun u : Z => (Zpos p | u * x - 1)).
  pose (m := fun s : Z * Z * Z * Z => let '(r0, r1, s0, s1) := s in r1).
  assert (Hstep : forall s, I s -> 0 <= m s ->
    match egcd_step s with inl s' => I s' /\ 0 <= m s' < m s | inr r => Q r end).
  { intros [[[r0 r1] s0] s1] (H0 & H1 & Hg & D0 & D1) Hm. simpl.
    destruct (Z.eqb_spec r1 0) as [->|Hn].
    - unfold Q. rewrite Z.gcd_0_r in Hg. replace 1 with r0 by lia. exact D0.
    - pose proof (Z.div_mod r0 r1 Hn) as E. pose proof (Z.mod_pos_bound r0 r1 ltac:(lia)) as B.
      replace (r0 - r0 / r1 * r1) with (r0 mod r1) by (rewrite Z.mod_eq by lia; ring).
      unfold I, m. split; [|lia]. repeat split; try lia; auto.
      + rewrite Z.gcd_comm, Z.gcd_mod by lia. rewrite Z.gcd_comm. exact Hg.
      + replace ((s0 - r0 / r1 * s1) * x - r0 mod r1)
          with ((s0 * x - r0) - (r0 / r1) * (s1 * x - r1)) by (rewrite Z.mod_eq by lia; ring).
        apply Z.divide_sub_r; auto. apply Z.divide_mul_r; auto. }
  assert (HI0 : I (Zpos p, x, 0, 1)).
  { unfold I. assert (Hg : Z.gcd (Zpos p) x = 1).
    { apply Zgcd_1_rel_prime. apply rel_prime_sym. apply rel_prime_le_prime; auto. lia. }
    repeat split; try lia; auto.
    - exists (-1); lia.
    - exists 0; lia. }
  assert (Hm0 : 0 <= m (Zpos p, x, 0, 1)) by (unfold m; lia).
  pose proof (loop_spec egcd_step I Q m Hstep (Pos.succ p) (Zpos p, x, 0, 1) HI0 Hm0) as H.
  destruct (loop egcd_step (Pos.succ p) (Zpos p, x, 0, 1)) as [s|u].
  - exfalso. destruct H as [_ H]. change (m (Zpos p, x, 0, 1)) with x in H. lia.
  - unfold Q in H. pose proof (prime_ge_2 _ Hp).
    rewrite Z.mul_mod_idemp_l by lia. destruct H as [k D].
    replace (u * x) with (1 + k * Zpos p) by lia.
    rewrite Z.mod_add by lia. apply Z.mod_small; lia.
Qed.

Section Fp.
Variable p : positive.
Hypothesis Hp : prime (Zpos p).

Definition Fp : Type := { z : Z | (z mod Zpos p =? z) = true }.
Definition fpv (x : Fp) : Z := proj1_sig x.

Lemma Fp_eq (x y : Fp) : fpv x = fpv y -> x = y.
Proof.
  destruct x as [x Hx], y as [y Hy]. simpl. intros ->. f_equal. apply UIP_dec. decide equality.
Qed.

Lemma fp_norm z : ((z mod Zpos p) mod Zpos p =? z mod Zpos p) = true.
Proof. apply Z.eqb_eq, Z.mod_mod. discriminate. Qed.
Definition mkFp (z : Z) : Fp := exist _ (z mod Zpos p) (fp_norm z).

Lemma fpv_mod (x : Fp) : fpv x mod Zpos p = fpv x.
Proof. destruct x as [x Hx]. simpl. apply Z.eqb_eq; auto. Qed.
Lemma fpv_range (x : Fp) : 0 <= fpv x < Zpos p.
Proof. rewrite <- fpv_mod. apply Z.mod_pos_bound. reflexivity. Qed.
Lemma mkFp_fpv x : mkFp (fpv x) = x.
Proof. apply Fp_eq. simpl. apply fpv_mod. Qed.

Definition fp_add (x y : Fp) := mkFp (fpv x + fpv y).
Definition fp_mul (x y : Fp) := mkFp (fpv x * fpv y).
Definition fp_sub (x y : Fp) := mkFp (fpv x - fpv y).
Definition fp_opp (x : Fp) := mkFp (- fpv x).
Definition fp_inv (x : Fp) := mkFp (zinv p (fpv x)).
Definition fp_div (x y : Fp) := fp_mul x (fp_inv y).
Definition fp_eqb (x y : Fp) := fpv x =? fpv y.

Lemma fp_field_theory : field_theory (mkFp 0) (mkFp 1) fp_add fp_mul fp_sub fp_opp fp_div fp_inv (@eq Fp).
Proof.
  pose proof (prime_ge_2 _ Hp) as Hp2.
  constructor; [constructor| | |].
  - intros x. apply Fp_eq; simpl. apply fpv_mod.
  - intros x y. apply Fp_eq; simpl. f_equal; lia.
  - intros x y z. apply Fp_eq; simpl.
    rewrite Z.add_mod_idemp_r, Z.add_mod_idemp_l by lia. f_equal; lia.
  - intros x. apply Fp_eq; simpl. rewrite Z.mul_mod_idemp_l by lia.
    rewrite Z.mul_1_l. apply fpv_mod.
  - intros x y. apply Fp_eq; simpl. f_equal; lia.
  - intros x y z. apply Fp_eq; simpl.
    rewrite Z.mul_mod_idemp_r, Z.mul_mod_idemp_l by lia. f_equal; lia.
  - intros x y z. apply Fp_eq; simpl.
    rewrite <- Z.add_mod by lia. rewrite Z.mul_mod_idemp_l by lia. f_equal; lia.
  - intros x y. apply Fp_eq; simpl. rewrite Z.add_mod_idemp_r by lia. f_equal; lia.
  - intros x. apply Fp_eq; simpl. rewrite Z.add_mod_idemp_r by lia.
    replace (fpv x + - fpv x) with 0 by lia. reflexivity.
  - intros H. apply (f_equal fpv) in H. simpl in H.
    rewrite Z.mod_small in H by lia. rewrite Z.mod_small in H by lia. discriminate.
  - reflexivity.
  - intros x Hx. apply Fp_eq. simpl. rewrite Z.mul_mod_idemp_l by lia.
    rewrite zinv_spec; auto.
    + symmetry. apply Z.mod_small; lia.
    + pose proof (fpv_range x). assert (fpv x <> 0); [|lia].
      intros E. apply Hx. apply Fp_eq. rewrite E. reflexivity.
Qed.

Lemma fp_eqb_spec x y : fp_eqb x y = true <-> x = y.
Proof.
  unfold fp_eqb. rewrite Z.eqb_eq. split; [apply Fp_eq | intros ->; reflexivity].
Qed.

Definition Fp_field : field :=
  mkField Fp (mkFp 0) (mkFp 1) fp_add fp_mul fp_sub fp_opp fp_div fp_inv fp_eqb
    fp_field_theory fp_eqb_spec.

Lemma fpv_fnat n : fpv (@fnat Fp_field n) = Z.of_nat n mod Zpos p.
Proof.
  induction n as [|n IH]; [reflexivity|].
  cbn [fnat]. change (fpv (fp_add (@fnat Fp_field n) (mkFp 1)) = Z.of_nat (S n) mod Zpos p).
  unfold fp_add. cbn [fpv proj1_sig mkFp]. fold (fpv (@fnat Fp_field n)). rewrite IH.
  pose proof (prime_ge_2 _ Hp).
  rewrite <- Z.add_mod by lia. f_equal. lia.
Qed.

Lemma Fp_char n : Z.of_nat n < Zpos p -> char_gt Fp_field n.
Proof.
  intros H k Hk E. apply (f_equal fpv) in E. rewrite fpv_fnat in E.
  rewrite Z.mod_small in E by lia. change (fpv (@f0 Fp_field)) with (0 mod Zpos p) in E.
  rewrite Z.mod_0_l in E by lia. lia.
Qed.
End Fp.

(** Primality by trial division, for the small example fields. *)
Definition trial (p : Z) : bool :=
  (1 <? p) && forallb (fun d => negb (p mod (Z.of_nat d) =? 0)) (seq 2 (Z.to_nat p - 2)).
Lemma trial_prime p : trial p = true -> prime p.
Proof.
  unfold trial. rewrite andb_true_iff, Z.ltb_lt, forallb_forall. intros [H1 H].
  apply prime_alt. split; auto. intros n Hn D.
  assert (Hin : In (Z.to_nat n) (seq 2 (Z.to_nat p - 2))).
  { apply in_seq. lia. }
  apply H in Hin. rewrite Z2Nat.id in Hin by lia.
  apply negb_true_iff, Z.eqb_neq in Hin. apply Hin. apply Z.mod_divide; auto; lia.
Qed.

(** The example field F_101. *)
Lemma prime_101 : prime 101.
Proof. apply trial_prime. vm_compute. reflexivity. Qed.
Definition F101 : field := Fp_field 101 prime_101.
Definition q (z : Z) : F101 := mkFp 101 z.
Arguments q z%Z.
Definition q_list (l : list Z) : list F101 := map q l.
Arguments q_list l%Z.

(** F_7: small enough to enumerate. *)
Lemma prime_7 : prime 7.
Proof. apply trial_prime. vm_compute. reflexivity. Qed.
Definition F7 : field := Fp_field 7 prime_7.
Definition q7 (z : Z) : F7 := mkFp 7 z.
Arguments q7 z%Z.

Example F101_inv : (fmul (q 7) (finv (q 7)) =? q 1)%F = true.
Proof. vm_compute. reflexivity. Qed.
