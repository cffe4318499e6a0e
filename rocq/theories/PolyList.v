(** Univariate polynomials over a field: coefficient lists, root counting, polynomial functions
    of bounded degree, and Lagrange interpolation.  Specification-side mathematics; nothing here
    models Rust code. *)
From Coq Require Import List Arith Lia Bool ZArith Field.
From Verif Require Import ListAux FieldDef.
Import ListNotations.

Section Poly.
Context {K : field}.
Add Field Kf_poly : (fth K).
Local Open Scope F_scope.

(** Coefficients, constant term first. *)
Fixpoint peval (p : list K) (x : K) : K :=
  match p with [] => 0 | c :: t => c + x * peval t x end.

Definition all0 (p : list K) : Prop := Forall (fun c => c = 0) p.

Lemma all0_peval p x : all0 p -> peval p x = 0.
Proof. induction 1 as [|c t Hc Ht IH]; simpl; [reflexivity | rewrite Hc, IH; ring]. Qed.

Fixpoint pdivr (p : list K) (a : K) : list K :=
  match p with
  | [] => []
  | c :: t => match t with [] => [] | _ => peval t a :: pdivr t a end
  end.

Lemma pdivr_cons c d t a : pdivr (c :: d :: t) a = peval (d :: t) a :: pdivr (d :: t) a.
Proof. reflexivity. Qed.

Lemma pdivr_length p a : length (pdivr p a) = (length p - 1)%nat.
Proof.
  induction p as [|c [|d t] IH]; try reflexivity.
  rewrite pdivr_cons. cbn [length] in *. lia.
Qed.

Lemma pdivr_spec p a x : peval p x = (x - a) * peval (pdivr p a) x + peval p a.
Proof.
  induction p as [|c [|d t] IH].
  - simpl. ring.
  - simpl. ring.
  - rewrite pdivr_cons. cbn [peval] in *. rewrite IH. ring.
Qed.

Lemma pdivr_all0 p a : all0 (pdivr p a) -> all0 (tl p).
Proof.
  induction p as [|c [|d t] IH]; intros H.
  - constructor.
  - constructor.
  - rewrite pdivr_cons in H. inversion H as [|? ? H1 H2]; subst.
    specialize (IH H2). simpl in *. constructor; auto.
    rewrite (all0_peval t a IH) in H1. rewrite <- H1. ring.
Qed.

(** A polynomial with a nonzero coefficient has fewer roots than coefficients. *)
Lemma poly_roots : forall p rs, ~ all0 p -> NoDup rs ->
  (forall r, In r rs -> peval p r = 0) -> length rs < length p.
Proof.
  intros p. remember (length p) as n eqn:Hn. revert p Hn.
  induction n as [|n IH]; intros p Hn rs0 Hnz Hnd Hroots.
  - destruct p; [|discriminate]. exfalso. apply Hnz. constructor.
  - destruct Hnd as [|a rs Ha Hnd]; [simpl; lia|].
    assert (Hq : peval p a = 0) by (apply Hroots; left; auto).
    cut (length rs < n); [simpl; lia|].
    apply (IH (pdivr p a)).
    + rewrite pdivr_length. lia.
    + intros H0. apply Hnz. apply pdivr_all0 in H0.
      destruct p as [|c t]; [constructor|]. simpl in H0. constructor; auto.
      simpl in Hq. rewrite (all0_peval t a H0) in Hq. rewrite <- Hq. ring.
    + exact Hnd.
    + intros r Hin. assert (E := Hroots r (or_intror Hin)).
      rewrite (pdivr_spec p a r), Hq in E.
      assert (E' : (r - a) * peval (pdivr p a) r = 0) by (rewrite <- E; ring).
      apply fmul_0 in E'. destruct E' as [E'|E']; auto.
      exfalso. apply fsub_0 in E'. subst. contradiction.
Qed.

Lemma all0_dec p : {all0 p} + {~ all0 p}.
Proof. apply Forall_dec. intros c. apply feq_dec. Qed.

(** Polynomial functions of degree at most [d]. *)
Definition is_poly (d : nat) (f : K -> K) : Prop :=
  exists p, length p <= S d /\ forall x, f x = peval p x.

Theorem is_poly_roots d f rs : is_poly d f -> (exists x, f x <> 0) -> NoDup rs ->
  (forall r, In r rs -> f r = 0) -> length rs <= d.
Proof.
  intros (p & Hl & Hp) [x Hx] Hnd Hr.
  assert (Hnz : ~ all0 p).
  { intros H0. apply Hx. rewrite Hp. apply all0_peval; auto. }
  pose proof (poly_roots p rs Hnz Hnd) as H.
  cut (length rs < length p); [lia|]. apply H. intros r Hin. rewrite <- Hp. auto.
Qed.

Lemma is_poly_ext d f g : (forall x, f x = g x) -> is_poly d f -> is_poly d g.
Proof. intros E (p & Hl & Hp). exists p. split; auto. intros x. rewrite <- E. auto. Qed.
Lemma is_poly_le d e f : d <= e -> is_poly d f -> is_poly e f.
Proof. intros Hle (p & Hl & Hp). exists p. split; auto. lia. Qed.
Lemma is_poly_const d c : is_poly d (fun _ => c).
Proof. exists [c]. split; [simpl; lia|]. intros x. simpl. ring. Qed.
Lemma is_poly_id : is_poly 1 (fun x => x).
Proof. exists [0; 1]. split; [simpl; lia|]. intros x. simpl. ring. Qed.

Fixpoint padd (p q : list K) : list K :=
  match p, q with
  | [], _ => q
  | _, [] => p
  | a :: p', b :: q' => (a + b) :: padd p' q'
  end.
Lemma padd_eval p q x : peval (padd p q) x = peval p x + peval q x.
Proof.
  revert q; induction p as [|a p IH]; intros [|b q]; simpl; try ring. rewrite IH. ring.
Qed.
Lemma padd_length p q : length (padd p q) = Nat.max (length p) (length q).
Proof. revert q; induction p as [|a p IH]; intros [|b q]; simpl; auto. Qed.
Definition pscale (c : K) (p : list K) := map (fmul c) p.
Lemma pscale_eval c p x : peval (pscale c p) x = c * peval p x.
Proof. induction p as [|a p IH]; simpl; [ring|]. rewrite IH. ring. Qed.
Fixpoint pmul (p q : list K) : list K :=
  match p with
  | [] => []
  | a :: p' => padd (pscale a q) (0 :: pmul p' q)
  end.
Lemma pmul_eval p q x : peval (pmul p q) x = peval p x * peval q x.
Proof.
  induction p as [|a p IH]; simpl; [ring|].
  rewrite padd_eval, pscale_eval. simpl. rewrite IH. ring.
Qed.
Lemma pmul_length p q d e : length p <= S d -> length q <= S e -> length (pmul p q) <= S (d + e).
Proof.
  revert d; induction p as [|a p IH]; intros d Hp Hq; simpl; [lia|].
  rewrite padd_length. unfold pscale. rewrite map_length.
  cbn [length] in *.
  destruct d as [|d].
  - destruct p; simpl in *; [|lia]. lia.
  - specialize (IH d ltac:(lia) Hq). lia.
Qed.

Lemma is_poly_add d f g : is_poly d f -> is_poly d g -> is_poly d (fun x => f x + g x).
Proof.
  intros (p & Hl & Hp) (q & Hl' & Hq). exists (padd p q). split.
  - rewrite padd_length. lia.
  - intros x. rewrite padd_eval, Hp, Hq. reflexivity.
Qed.
Lemma is_poly_scal d c f : is_poly d f -> is_poly d (fun x => c * f x).
Proof.
  intros (p & Hl & Hp). exists (pscale c p). split.
  - unfold pscale. rewrite map_length. auto.
  - intros x. rewrite pscale_eval, Hp. reflexivity.
Qed.
Lemma is_poly_sub d f g : is_poly d f -> is_poly d g -> is_poly d (fun x => f x - g x).
Proof.
  intros Hf Hg. apply (is_poly_ext d (fun x => f x + (- (1)) * g x)).
  - intros x. ring.
  - apply is_poly_add; auto. apply is_poly_scal; auto.
Qed.
Lemma is_poly_mul d e f g : is_poly d f -> is_poly e g -> is_poly (d + e) (fun x => f x * g x).
Proof.
  intros (p & Hl & Hp) (q & Hl' & Hq). exists (pmul p q). split.
  - apply pmul_length; auto.
  - intros x. rewrite pmul_eval, Hp, Hq. reflexivity.
Qed.
Lemma is_poly_affine a b : is_poly 1 (fun x => a + x * b).
Proof. exists [a; b]. split; [simpl; lia|]. intros x. simpl. ring. Qed.
Lemma is_poly_sumn d n (f : nat -> K -> K) : (forall i, i < n -> is_poly d (f i)) ->
  is_poly d (fun x => sumn n (fun i => f i x)).
Proof.
  induction n as [|n IH]; intros H; simpl.
  - apply is_poly_const.
  - apply is_poly_add; [apply IH; intros; apply H; lia | apply H; lia].
Qed.
Lemma is_poly_fsum {A} d (l : list A) (f : A -> K -> K) : (forall a, In a l -> is_poly d (f a)) ->
  is_poly d (fun x => fsum (map (fun a => f a x) l)).
Proof.
  induction l as [|a l IH]; intros H; simpl.
  - apply is_poly_const.
  - apply is_poly_add; [apply H; left; auto | apply IH; intros; apply H; right; auto].
Qed.
Lemma is_poly_fprod {A} (l : list A) (f : A -> K -> K) : (forall a, In a l -> is_poly 1 (f a)) ->
  is_poly (length l) (fun x => fprod (map (fun a => f a x) l)).
Proof.
  induction l as [|a l IH]; intros H; simpl.
  - apply is_poly_const.
  - change (S (length l)) with (1 + length l)%nat.
    apply (is_poly_mul 1 (length l) (f a)); [apply H; left; auto |].
    apply IH; intros; apply H; right; auto.
Qed.

(** Two polynomial functions of degree <= d that agree on d+1 points agree everywhere. *)
Theorem is_poly_unique d f g xs : is_poly d f -> is_poly d g -> NoDup xs -> d < length xs ->
  (forall x, In x xs -> f x = g x) -> forall x, f x = g x.
Proof.
  intros Hf Hg Hnd Hl He x.
  destruct (feq_dec (f x) (g x)) as [E|E]; auto. exfalso.
  pose proof (is_poly_roots d (fun x => f x - g x) xs (is_poly_sub d f g Hf Hg)) as H.
  assert (length xs <= d); [|lia]. apply H; auto.
  - exists x. apply fsub_neq; auto.
  - intros r Hin. rewrite He by auto. ring.
Qed.

(** The Lagrange interpolant of the values [ys] at the nodes [xs]. *)
Definition lag_basis (xs : list K) (i : nat) (x : K) : K :=
  fprod (map (fun j => if Nat.eqb j i then 1 else (x - nth j xs 0) * / (nth i xs 0 - nth j xs 0))
             (seq 0 (length xs))).
Definition lagrange (xs ys : list K) (x : K) : K :=
  sumn (length xs) (fun i => nth i ys 0 * lag_basis xs i x).

Lemma prod_skip_poly (xs : list nat) i (g : nat -> K -> K) :
  (forall j, is_poly 1 (g j)) -> NoDup xs -> In i xs ->
  is_poly (length xs - 1) (fun x => fprod (map (fun j => if Nat.eqb j i then 1 else g j x) xs)).
Proof.
  intros Hg Hnd Hin.
  assert (Hno : forall l, ~ In i l ->
    is_poly (length l) (fun x => fprod (map (fun j => if Nat.eqb j i then 1 else g j x) l))).
  { intros l Hl. apply (is_poly_ext _ (fun x => fprod (map (fun j => g j x) l))).
    - intros x. f_equal. apply map_ext_in. intros j Hj.
      destruct (Nat.eqb_spec j i); [subst; contradiction|reflexivity].
    - apply (is_poly_fprod l g). auto. }
  revert Hin. induction Hnd as [|a l Ha Hnd IH]; intros Hin; [destruct Hin|].
  destruct (Nat.eq_dec a i) as [->|Hne].
  - simpl. rewrite Nat.eqb_refl. rewrite Nat.sub_0_r.
    apply (is_poly_ext _ (fun x => fprod (map (fun j => if Nat.eqb j i then 1 else g j x) l))).
    + intros x. ring.
    + apply Hno; auto.
  - destruct Hin as [E|Hin]; [contradiction|].
    simpl. rewrite Nat.sub_0_r. destruct (Nat.eqb_spec a i); [contradiction|].
    replace (length l) with (1 + (length l - 1))%nat.
    + apply (is_poly_mul 1 (length l - 1) (g a)); auto.
    + destruct l; [destruct Hin|simpl; lia].
Qed.

Lemma lagrange_is_poly xs ys : is_poly (length xs - 1) (lagrange xs ys).
Proof.
  unfold lagrange. apply (is_poly_sumn _ _ (fun i x => nth i ys 0 * lag_basis xs i x)).
  intros i Hi. apply is_poly_scal. unfold lag_basis.
  assert (H := prod_skip_poly (seq 0 (length xs)) i
    (fun j x => (x - nth j xs 0) * / (nth i xs 0 - nth j xs 0))).
  rewrite seq_length in H. apply H.
  - intros j.
    apply (is_poly_ext 1 (fun x => (- nth j xs 0 * / (nth i xs 0 - nth j xs 0)) + x * / (nth i xs 0 - nth j xs 0))).
    + intros x. ring.
    + apply is_poly_affine.
  - apply seq_NoDup.
  - apply in_seq. lia.
Qed.

Lemma lag_basis_at xs i k : NoDup xs -> i < length xs -> k < length xs ->
  lag_basis xs i (nth k xs 0) = if Nat.eqb k i then 1 else 0.
Proof.
  intros Hnd Hi Hk. unfold lag_basis. destruct (Nat.eqb_spec k i) as [->|Hne].
  - rewrite fprod_nth. rewrite map_length, seq_length.
    transitivity (prodn (length xs) (fun _ => 1 : K)).
    + apply prodn_ext. intros j Hj. rewrite nth_map_seq by auto.
      destruct (Nat.eqb_spec j i); auto. apply finv_r. apply fsub_neq.
      intros E. apply n. symmetry. revert E. apply NoDup_nth; auto.
    + clear. induction (length xs) as [|m IH]; simpl; [reflexivity|rewrite IH; ring].
  - apply fprod_0. apply in_map_iff. exists k. split.
    + destruct (Nat.eqb_spec k i); [contradiction|]. ring.
    + apply in_seq. lia.
Qed.

Lemma lagrange_at xs ys k : NoDup xs -> k < length xs -> lagrange xs ys (nth k xs 0) = nth k ys 0.
Proof.
  intros Hnd Hk. unfold lagrange.
  rewrite (sumn_single _ k) ; auto.
  - rewrite lag_basis_at by auto. rewrite Nat.eqb_refl. ring.
  - intros i Hi Hne. rewrite lag_basis_at by auto.
    destruct (Nat.eqb_spec k i); [subst; contradiction|]. ring.
Qed.

(** The interpolant is the only polynomial function of its degree through the points. *)
Theorem lagrange_unique xs ys f : xs <> [] -> NoDup xs -> is_poly (length xs - 1) f ->
  (forall k, k < length xs -> f (nth k xs 0) = nth k ys 0) -> forall x, f x = lagrange xs ys x.
Proof.
  intros Hne Hnd Hf He.
  apply (is_poly_unique (length xs - 1) f (lagrange xs ys) xs); auto.
  - apply lagrange_is_poly.
  - destruct xs; [contradiction|simpl; lia].
  - intros x Hx. apply (In_nth _ _ 0) in Hx. destruct Hx as (k & Hk & <-).
    rewrite He, lagrange_at by auto. reflexivity.
Qed.

(** The nodes 0, 1, ..., n-1. *)
Definition nodes (n : nat) : list K := map fnat (seq 0 n).
Lemma nodes_length n : length (nodes n) = n.
Proof. unfold nodes. rewrite map_length, seq_length. reflexivity. Qed.
Lemma nodes_nth n k : k < n -> nth k (nodes n) 0 = fnat k.
Proof. intros H. unfold nodes. apply nth_map_seq; auto. Qed.
Lemma fnat_inj n a b : char_gt K n -> a <= n -> b <= n -> fnat a = fnat b :> K -> a = b.
Proof.
  intros Hc Ha Hb E.
  destruct (Nat.lt_trichotomy a b) as [H|[H|H]]; auto; exfalso.
  - apply (Hc (b - a)%nat); [lia|]. rewrite fnat_sub by lia. rewrite E. ring.
  - apply (Hc (a - b)%nat); [lia|]. rewrite fnat_sub by lia. rewrite E. ring.
Qed.
Lemma nodes_NoDup n : char_gt K (n - 1) -> NoDup (nodes n).
Proof.
  intros Hc. apply (NoDup_nth _ 0). rewrite nodes_length. intros i j Hi Hj E.
  rewrite !nodes_nth in E by auto. apply (fnat_inj (n - 1)); auto; lia.
Qed.
End Poly.
