(** An abstract field with decidable Leibniz equality, finite sums and products.

    The Rust code is generic in [E: ExtensionField] (ff_ext/src/lib.rs); the models are generic in
    a [field].  Division by zero: [finv 0] is left unspecified by [field_theory]; every model of a
    Rust [.inverse()] call (which panics on zero) goes through [finv_opt]. *)
From Coq Require Import List Arith Lia Bool ZArith Field.
From Verif Require Import ListAux.
Import ListNotations.

Record field := mkField {
  fcar :> Type;
  f0 : fcar; f1 : fcar;
  fadd : fcar -> fcar -> fcar;
  fmul : fcar -> fcar -> fcar;
  fsub : fcar -> fcar -> fcar;
  fopp : fcar -> fcar;
  fdiv : fcar -> fcar -> fcar;
  finv : fcar -> fcar;
  feqb : fcar -> fcar -> bool;
  fth : field_theory f0 f1 fadd fmul fsub fopp fdiv finv (@eq fcar);
  feqb_spec : forall x y, feqb x y = true <-> x = y
}.

Arguments f0 {_}. Arguments f1 {_}.
Arguments fadd {_}. Arguments fmul {_}. Arguments fsub {_}. Arguments fopp {_}.
Arguments fdiv {_}. Arguments finv {_}. Arguments feqb {_}.

Declare Scope F_scope.
Delimit Scope F_scope with F.
Bind Scope F_scope with fcar.
Notation "0" := f0 : F_scope.
Notation "1" := f1 : F_scope.
Notation "x + y" := (fadd x y) : F_scope.
Notation "x * y" := (fmul x y) : F_scope.
Notation "x - y" := (fsub x y) : F_scope.
Notation "- x" := (fopp x) : F_scope.
Notation "x / y" := (fdiv x y) : F_scope.
Notation "/ x" := (finv x) : F_scope.
Notation "x =? y" := (feqb x y) : F_scope.

Section FieldBasics.
Context {K : field}.
Add Field Kfield : (fth K).
Local Open Scope F_scope.

Lemma feqb_true x y : (x =? y)%F = true -> x = y :> K.
Proof. apply feqb_spec. Qed.
Lemma feqb_refl (x : K) : (x =? x)%F = true.
Proof. apply feqb_spec; reflexivity. Qed.
Lemma feqb_false (x y : K) : (x =? y)%F = false <-> x <> y.
Proof.
  split.
  - intros H E. apply feqb_spec in E. congruence.
  - intros H. destruct (x =? y) eqn:E; auto. apply feqb_spec in E. contradiction.
Qed.
Lemma feq_dec (x y : K) : {x = y} + {x <> y}.
Proof.
  destruct (x =? y) eqn:E; [left; apply feqb_spec|right; apply feqb_false]; assumption.
Qed.

Lemma f1_neq_0 : (1 : K) <> 0.
Proof. exact (F_1_neq_0 (fth K)). Qed.

Lemma finv_l (x : K) : x <> 0 -> / x * x = 1.
Proof. apply (Finv_l (fth K)). Qed.
Lemma finv_r (x : K) : x <> 0 -> x * / x = 1.
Proof. intros H. transitivity (/ x * x); [ring|]. apply finv_l; auto. Qed.

Lemma fmul_0 (x y : K) : x * y = 0 -> x = 0 \/ y = 0.
Proof.
  intros H. destruct (feq_dec x 0) as [E|E]; auto. right.
  transitivity (/ x * (x * y)).
  - transitivity (/ x * x * y); [rewrite finv_l by auto; ring | ring].
  - rewrite H; ring.
Qed.
Lemma fmul_neq_0 (x y : K) : x <> 0 -> y <> 0 -> x * y <> 0.
Proof. intros Hx Hy H. apply fmul_0 in H. tauto. Qed.
Lemma fsub_0 (x y : K) : x - y = 0 -> x = y.
Proof. intros H. transitivity (x - y + y); [ring | rewrite H; ring]. Qed.
Lemma fsub_neq (x y : K) : x <> y -> x - y <> 0.
Proof. intros H E. apply H, fsub_0, E. Qed.
Lemma fmul_cancel_l (a x y : K) : a <> 0 -> a * x = a * y -> x = y.
Proof.
  intros Ha H. apply fsub_0. assert (E : a * (x - y) = 0) by (transitivity (a * x - a * y); [ring | rewrite H; ring]).
  apply fmul_0 in E. tauto.
Qed.
Lemma finv_neq_0 (x : K) : x <> 0 -> / x <> 0.
Proof. intros H E. apply f1_neq_0. rewrite <- (finv_l x H), E. ring. Qed.

(** [.inverse()] / [try_inverse()] of p3-field: no inverse for zero. *)
Definition finv_opt (x : K) : option K := if x =? 0 then None else Some (/ x).

Lemma finv_opt_some x y : finv_opt x = Some y -> x <> 0 /\ y = / x.
Proof.
  unfold finv_opt. destruct (x =? 0) eqn:E; intros H; inversion H.
  split; auto. apply feqb_false; auto.
Qed.

(** Natural numbers in the field: [F::from_canonical_u64] for values below the characteristic. *)
Fixpoint fnat (n : nat) : K := match n with O => 0 | S m => fnat m + 1 end.

Lemma fnat_add a b : fnat (a + b) = fnat a + fnat b.
Proof. induction a as [|a IH]; simpl; [ring | rewrite IH; ring]. Qed.
Lemma fnat_mul a b : fnat (a * b) = fnat a * fnat b.
Proof. induction a as [|a IH]; simpl; [ring | rewrite fnat_add, IH; ring]. Qed.
Lemma fnat_S n : fnat (S n) = fnat n + 1.
Proof. reflexivity. Qed.
Lemma fnat_sub a b : b <= a -> fnat (a - b) = fnat a - fnat b.
Proof.
  intros H. replace (fnat a) with (fnat (a - b + b)) by (f_equal; lia).
  rewrite fnat_add. ring.
Qed.

Fixpoint fpow (x : K) (n : nat) : K := match n with O => 1 | S m => x * fpow x m end.

Lemma fpow_add x a b : fpow x (a + b) = fpow x a * fpow x b.
Proof. induction a as [|a IH]; simpl; [ring | rewrite IH; ring]. Qed.
Lemma fpow_mul_base x y n : fpow (x * y) n = fpow x n * fpow y n.
Proof. induction n as [|n IH]; simpl; [ring | rewrite IH; ring]. Qed.
Lemma fpow_mul x a b : fpow x (a * b) = fpow (fpow x a) b.
Proof.
  induction b as [|b IH]; simpl.
  - rewrite Nat.mul_0_r; reflexivity.
  - rewrite Nat.mul_succ_r, Nat.add_comm, fpow_add, IH. ring.
Qed.
Lemma fpow_1 n : fpow 1 n = 1.
Proof. induction n as [|n IH]; simpl; [ring | rewrite IH; ring]. Qed.
Lemma fpow_0 n : 0 < n -> fpow 0 n = 0.
Proof. destruct n; simpl; [lia | intros; ring]. Qed.
Lemma fpow_neq_0 x n : x <> 0 -> fpow x n <> 0.
Proof. intros H; induction n as [|n IH]; simpl; [apply f1_neq_0 | apply fmul_neq_0; auto]. Qed.
Lemma fnat_pow a n : fnat (a ^ n) = fpow (fnat a) n.
Proof. induction n as [|n IH]; simpl; [ring | rewrite fnat_mul, IH; ring]. Qed.

(** List sums and products. *)
Fixpoint fsum (l : list K) : K := match l with [] => 0 | x :: t => x + fsum t end.
Fixpoint fprod (l : list K) : K := match l with [] => 1 | x :: t => x * fprod t end.

Lemma fsum_app l l' : fsum (l ++ l') = fsum l + fsum l'.
Proof. induction l as [|x l IH]; simpl; [ring | rewrite IH; ring]. Qed.
Lemma fprod_app l l' : fprod (l ++ l') = fprod l * fprod l'.
Proof. induction l as [|x l IH]; simpl; [ring | rewrite IH; ring]. Qed.
Lemma fprod_0 l : In 0 l -> fprod l = 0.
Proof.
  induction l as [|x l IH]; simpl; [tauto|]. intros [->|H]; [ring | rewrite IH by auto; ring].
Qed.
Lemma fprod_neq_0 l : (forall x, In x l -> x <> 0) -> fprod l <> 0.
Proof.
  induction l as [|x l IH]; simpl; intros H; [apply f1_neq_0|].
  apply fmul_neq_0; auto.
Qed.

(** Indexed sums [sum_{i<n} f i]. *)
Fixpoint sumn (n : nat) (f : nat -> K) : K :=
  match n with O => 0 | S m => sumn m f + f m end.

Lemma sumn_ext n f g : (forall i, i < n -> f i = g i) -> sumn n f = sumn n g.
Proof. induction n as [|n IH]; simpl; intros H; auto. rewrite IH, H; auto. Qed.
Lemma sumn_0 n f : (forall i, i < n -> f i = 0) -> sumn n f = 0.
Proof. induction n as [|n IH]; simpl; intros H; auto. rewrite IH, H; auto. ring. Qed.
Lemma sumn_add n f g : sumn n (fun i => f i + g i) = sumn n f + sumn n g.
Proof. induction n as [|n IH]; simpl; [ring | rewrite IH; ring]. Qed.
Lemma sumn_sub n f g : sumn n (fun i => f i - g i) = sumn n f - sumn n g.
Proof. induction n as [|n IH]; simpl; [ring | rewrite IH; ring]. Qed.
Lemma sumn_scal n a f : sumn n (fun i => a * f i) = a * sumn n f.
Proof. induction n as [|n IH]; simpl; [ring | rewrite IH; ring]. Qed.
Lemma sumn_scal_r n a f : sumn n (fun i => f i * a) = sumn n f * a.
Proof. induction n as [|n IH]; simpl; [ring | rewrite IH; ring]. Qed.
Lemma sumn_S_l n f : sumn (S n) f = f O + sumn n (fun i => f (S i)).
Proof. induction n as [|n IH]; simpl in *; [ring | rewrite IH; ring]. Qed.
Lemma sumn_split a b f : sumn (a + b) f = sumn a f + sumn b (fun i => f (a + i)%nat).
Proof.
  induction b as [|b IH]; simpl.
  - rewrite Nat.add_0_r; ring.
  - rewrite <- plus_n_Sm; simpl. rewrite IH; ring.
Qed.
Lemma sumn_const n a : sumn n (fun _ => a) = fnat n * a.
Proof. induction n as [|n IH]; simpl; [ring | rewrite IH; ring]. Qed.
Lemma sumn_even_odd n f :
  sumn (2 * n) f = sumn n (fun i => f (2 * i)%nat) + sumn n (fun i => f (2 * i + 1)%nat).
Proof.
  induction n as [|n IH]; [simpl; ring|].
  replace (2 * S n)%nat with (S (S (2 * n))) by lia. cbn [sumn]. rewrite IH.
  replace (S (2 * n)) with (2 * n + 1)%nat by lia. ring.
Qed.
Lemma sumn_swap a b (f : nat -> nat -> K) :
  sumn a (fun i => sumn b (fun j => f i j)) = sumn b (fun j => sumn a (fun i => f i j)).
Proof.
  induction a as [|a IH]; simpl.
  - symmetry; apply sumn_0; auto.
  - rewrite IH, <- sumn_add. reflexivity.
Qed.
(** Only one index contributes. *)
Lemma sumn_single n k f : k < n -> (forall i, i < n -> i <> k -> f i = 0) -> sumn n f = f k.
Proof.
  induction n as [|n IH]; intros Hk H; [lia|]. simpl.
  destruct (Nat.eq_dec k n) as [->|Hn].
  - rewrite sumn_0; [ring|]. intros; apply H; lia.
  - rewrite IH; try lia; [rewrite (H n); try lia; ring|]. intros; apply H; lia.
Qed.
Lemma fsum_nth l : fsum l = sumn (length l) (fun i => nth i l 0).
Proof.
  induction l as [|x l IH]; [reflexivity|].
  change (length (x :: l)) with (S (length l)). rewrite sumn_S_l. simpl. rewrite IH. reflexivity.
Qed.
Lemma fsum_map_seq n f : fsum (map f (seq 0 n)) = sumn n f.
Proof.
  rewrite fsum_nth, map_length, seq_length. apply sumn_ext. intros.
  apply nth_map_seq; auto.
Qed.

(** Indexed products. *)
Fixpoint prodn (n : nat) (f : nat -> K) : K :=
  match n with O => 1 | S m => prodn m f * f m end.
Lemma prodn_ext n f g : (forall i, i < n -> f i = g i) -> prodn n f = prodn n g.
Proof. induction n as [|n IH]; simpl; intros H; auto. rewrite IH, H; auto. Qed.
Lemma prodn_mul n f g : prodn n (fun i => f i * g i) = prodn n f * prodn n g.
Proof. induction n as [|n IH]; simpl; [ring | rewrite IH; ring]. Qed.
Lemma prodn_neq_0 n f : (forall i, i < n -> f i <> 0) -> prodn n f <> 0.
Proof.
  induction n as [|n IH]; simpl; intros H; [apply f1_neq_0|]. apply fmul_neq_0; auto.
Qed.
Lemma prodn_0 n f k : k < n -> f k = 0 -> prodn n f = 0.
Proof.
  induction n as [|n IH]; simpl; intros Hk H; [lia|].
  destruct (Nat.eq_dec k n) as [->|Hn]; [rewrite H; ring | rewrite IH by (auto; lia); ring].
Qed.
Lemma prodn_S_l n f : prodn (S n) f = f O * prodn n (fun i => f (S i)).
Proof. induction n as [|n IH]; simpl in *; [ring | rewrite IH; ring]. Qed.
Lemma fprod_nth l : fprod l = prodn (length l) (fun i => nth i l 0).
Proof.
  induction l as [|x l IH]; [reflexivity|].
  change (length (x :: l)) with (S (length l)). rewrite prodn_S_l. simpl. rewrite IH. reflexivity.
Qed.

End FieldBasics.

(** The characteristic exceeds [n]: every positive natural up to [n] is non-zero in the field. *)
Definition char_gt (K : field) (n : nat) : Prop := forall k, 0 < k <= n -> @fnat K k <> f0.
Lemma char_gt_le (K : field) n m : m <= n -> char_gt K n -> char_gt K m.
Proof. intros H Hc k Hk. apply Hc. lia. Qed.

(** Integers in the field. *)
Section FZ.
Context {K : field}.
Add Field Kfield2 : (fth K).
Local Open Scope F_scope.
Fixpoint fpos (p : positive) : K :=
  match p with
  | xH => 1
  | xO q => let a := fpos q in a + a
  | xI q => let a := fpos q in 1 + (a + a)
  end.
Lemma fpos_nat p : fpos p = fnat (Pos.to_nat p).
Proof.
  induction p as [q IH|q IH|]; cbn [fpos].
  - rewrite IH, Pos2Nat.inj_xI. cbn [fnat Nat.mul]. rewrite !fnat_add. cbn [fnat]. ring.
  - rewrite IH, Pos2Nat.inj_xO. cbn [Nat.mul]. rewrite !fnat_add. cbn [fnat]. ring.
  - change (Pos.to_nat 1) with 1%nat. cbn [fnat]. ring.
Qed.
Definition fZ (z : Z) : K :=
  match z with
  | Z0 => 0
  | Zpos p => fpos p
  | Zneg p => - fpos p
  end.
Lemma fZ_of_nat n : fZ (Z.of_nat n) = fnat n.
Proof.
  destruct n as [|n]; [reflexivity|]. cbn [Z.of_nat fZ].
  rewrite fpos_nat, SuccNat2Pos.id_succ. reflexivity.
Qed.
Lemma fZ_opp z : fZ (- z) = - fZ z.
Proof. destruct z; simpl; ring. Qed.
Lemma fZ_sub_nat a b : fZ (Z.of_nat a - Z.of_nat b) = fnat a - fnat b.
Proof.
  destruct (le_lt_dec b a) as [H|H].
  - rewrite <- Nat2Z.inj_sub by auto. rewrite fZ_of_nat, fnat_sub by auto. reflexivity.
  - replace (Z.of_nat a - Z.of_nat b)%Z with (- Z.of_nat (b - a))%Z by lia.
    rewrite fZ_opp, fZ_of_nat, fnat_sub by lia. ring.
Qed.
Lemma fZ_repr z : exists a b, z = (Z.of_nat a - Z.of_nat b)%Z.
Proof. exists (Z.to_nat z), (Z.to_nat (- z)). lia. Qed.
Lemma fZ_add x y : fZ (x + y) = fZ x + fZ y.
Proof.
  destruct (fZ_repr x) as (a & b & ->), (fZ_repr y) as (c & d & ->).
  replace (Z.of_nat a - Z.of_nat b + (Z.of_nat c - Z.of_nat d))%Z
    with (Z.of_nat (a + c) - Z.of_nat (b + d))%Z by lia.
  rewrite !fZ_sub_nat, !fnat_add. ring.
Qed.
Lemma fZ_mul x y : fZ (x * y) = fZ x * fZ y.
Proof.
  destruct (fZ_repr x) as (a & b & ->), (fZ_repr y) as (c & d & ->).
  replace ((Z.of_nat a - Z.of_nat b) * (Z.of_nat c - Z.of_nat d))%Z
    with (Z.of_nat (a * c + b * d) - Z.of_nat (a * d + b * c))%Z by lia.
  rewrite !fZ_sub_nat, !fnat_add, !fnat_mul. ring.
Qed.
Lemma fZ_sub x y : fZ (x - y) = fZ x - fZ y.
Proof. replace (x - y)%Z with (x + - y)%Z by lia. rewrite fZ_add, fZ_opp. ring. Qed.
Lemma fZ_0 : fZ 0 = 0. Proof. reflexivity. Qed.
Lemma fZ_1 : fZ 1 = 1. Proof. simpl. ring. Qed.
End FZ.
