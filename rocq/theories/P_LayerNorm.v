(** Proofs about the layer normalisation proof: the sums the sumchecks are about, and soundness with the missing checks. *)
From Coq Require Import List Arith Lia Bool ZArith Ring Field Znumtheory.
From Verif Require Import ListAux FieldDef PolyList MleMath M_Mle P_Mle P_Eq M_Interp P_Interp M_Sumcheck P_ScVerify P_ScProve P_ScProve2 P_ScBatch P_ScFinal M_ScParallel
  P_ScParallel P_ScApi M_SamePoly P_SamePoly M_LogUp P_LogUp3 P_LogUp4 P_LogUp8 P_LogUp9 M_Tensor P_Tensor M_Layers P_Layers P_Layers2 P_Layers3 P_Transformer P_Transformer2 M_Sop P_Sop P_Code3
  M_Tables M_Quant M_Requant P_Requant P_Requant2 P_Pooling P_Pooling2 M_RequantP P_RequantP M_LayerNorm.
From Verif Require M_Basefold P_Basefold.
Import ListNotations.

Section P.
Context {K : field} {C : Type}.
Local Open Scope F_scope.
Add Field Kf_ln : (fth K).

(** ** Sums over the first variables *)
(** Entry [i] of row [j] of a table with rows of length 2^s. *)
Definition ent (s : nat) (l : list K) (j i : nat) : K := nth (i + 2 ^ s * j)%nat l 0.
Definition row_sum (s : nat) (l : list K) (j : nat) : K := FieldDef.sumn (2 ^ s) (ent s l j).
Definition row_sums (s m : nat) (l : list K) : list K := map (row_sum s l) (seq 0 (2 ^ m)).

Lemma mlef_half (half : K) (n : nat) (f : nat -> K) : (1 + 1) * half = 1 -> mlef f (repeat half n) = fpow half n * sumn (2 ^ n) f.
Proof.
  intros Hh. revert f. induction n as [|n IH]; intros f; cbn [repeat fpow].
  - rewrite mlef_nil. cbn [Nat.pow sumn]. ring.
  - rewrite mlef_cons, IH. rewrite Nat.pow_succ_r', sumn_even_odd. rewrite <- sumn_add.
    rewrite <- !sumn_scal. apply sumn_ext. intros i _. replace (half * fpow half n * (f (2 * i)%nat + f (2 * i + 1)%nat)) with (fpow half n * (half * (f (2 * i)%nat + f (2 * i + 1)%nat))) by ring.
    f_equal. transitivity (((1 + 1) * half) * f (2 * i)%nat + half * (f (2 * i + 1)%nat - f (2 * i)%nat)); [rewrite Hh; ring|ring].
Qed.
Lemma mle_half (half : K) s (l r : list K) : (1 + 1) * half = 1 -> mle l (repeat half s ++ r) = fpow half s * mlef (row_sum s l) r.
Proof.
  intros Hh. unfold mle. rewrite mlef_app, repeat_length. rewrite <- mlef_scal. apply mlef_ext. intros j _. rewrite mlef_half by auto. reflexivity.
Qed.
Lemma half_pow half s : (1 + 1) * half = (1 : K) -> fZ (2 ^ Z.of_nat s) * fpow half s = 1.
Proof.
  intros Hh. induction s as [|s IH]; [cbn [fpow]; change (2 ^ Z.of_nat 0)%Z with 1%Z; rewrite fZ_1; ring|].
  rewrite Nat2Z.inj_succ, Z.pow_succ_r by lia. rewrite fZ_mul. cbn [fpow]. transitivity ((fZ 2 * half) * (fZ (2 ^ Z.of_nat s) * fpow half s)); [ring|]. rewrite IH.
  assert (E : fZ 2 = (1 + 1 : K)) by (change 2%Z with (1 + 1)%Z; rewrite fZ_add, fZ_1; reflexivity). rewrite E, Hh. ring.
Qed.
Lemma sum_point half s (l r : list K) : (1 + 1) * half = (1 : K) -> fZ (2 ^ Z.of_nat s) * mle l (repeat half s ++ r) = mlef (row_sum s l) r.
Proof. intros Hh. rewrite mle_half by auto. transitivity ((fZ (2 ^ Z.of_nat s) * fpow half s) * mlef (row_sum s l) r); [ring|]. rewrite half_pow by auto. ring. Qed.

(** ** What the layer computes *)
(** The value looked up, without the multiplier: N sum x^2 - (sum x)^2 of a row. *)
Definition ln_var (dim : K) (s : nat) (xs : list K) (j : nat) : K :=
  dim * sumn (2 ^ s) (fun i => ent s xs j i * ent s xs j i) - row_sum s xs j * row_sum s xs j.
Definition ln_vars (dim : K) (s m : nat) (xs : list K) : list K := map (ln_var dim s xs) (seq 0 (2 ^ m)).
(** The output: entry [i] of row [j] is gamma_i (N x - sum) inv_j + beta_i. *)
Definition ln_entry (dim : K) (s : nat) (xs gam bet inv : list K) (b : nat) : K :=
  let i := (b mod 2 ^ s)%nat in let j := (b / 2 ^ s)%nat in
  nth j inv 0 * nth i gam 0 * (dim * nth b xs 0 - row_sum s xs j) + nth i bet 0.
Definition ln_table (dim : K) (s m : nat) (xs gam bet inv : list K) : list K := map (ln_entry dim s xs gam bet inv) (seq 0 (2 ^ (s + m))).

(** The polynomial of the io sumcheck. *)
Definition ln_io_poly (fb sb tb mult dim : K) (s m : nat) (full lp xs gam bet inv : list K) (x : list K) : K :=
  ln_io_calc fb sb tb mult dim (fZ (2 ^ Z.of_nat s)) (eqp full x) (eqp lp x) (mle xs x) (mlef (row_sum s xs) (skipn s x)) (mle inv (skipn s x)) (mle gam (firstn s x)) (mle bet (firstn s x)).

Lemma bpt_split s m b : (b < 2 ^ (s + m))%nat -> firstn s (bpt (s + m) b) = (bpt s (b mod 2 ^ s) : list K) /\ skipn s (bpt (s + m) b) = (bpt m (b / 2 ^ s) : list K).
Proof.
  intros Hb. assert (P : (0 < 2 ^ s)%nat) by apply pow2_pos. assert (E : b = (b mod 2 ^ s + 2 ^ s * (b / 2 ^ s))%nat) by (rewrite Nat.add_comm; apply Nat.div_mod; lia).
  assert (Hm : (b mod 2 ^ s < 2 ^ s)%nat) by (apply Nat.mod_upper_bound; lia).
  assert (Eb : bpt (s + m) b = (bpt s (b mod 2 ^ s) ++ bpt m (b / 2 ^ s) : list K)) by (rewrite E at 1; rewrite (bpt_app s m) by exact Hm; reflexivity).
  rewrite Eb. rewrite firstn_app, skipn_app, !bpt_length, Nat.sub_diag. cbn [firstn skipn].
  rewrite app_nil_r. rewrite firstn_all2, skipn_all2 by (rewrite bpt_length; lia). split; reflexivity.
Qed.
Lemma div_lt s m b : (b < 2 ^ (s + m))%nat -> (b / 2 ^ s < 2 ^ m)%nat.
Proof. intros Hb. apply Nat.div_lt_upper_bound; [pose proof (pow2_pos s); lia|]. rewrite <- Nat.pow_add_r. exact Hb. Qed.

Lemma hsum_io half fb sb tb mult dim s m ap lp xs gam bet inv :
  (1 + 1) * half = (1 : K) -> length ap = m -> length lp = (s + m)%nat ->
  hsum (s + m) (ln_io_poly fb sb tb mult dim s m (repeat half s ++ ap) lp xs gam bet inv) =
  fb * (mult * mle (ln_vars dim s m xs) ap) + sb * mle (ln_table dim s m xs gam bet inv) lp + mle inv ap * tb.
Proof.
  intros Hh La Ll. set (full := repeat half s ++ ap). assert (Lf : length full = (s + m)%nat) by (unfold full; rewrite app_length, repeat_length; lia).
  set (q1 := fun x : list K => dim * fZ (2 ^ Z.of_nat s) * mle xs x * mle xs x - mlef (row_sum s xs) (skipn s x) * mlef (row_sum s xs) (skipn s x)).
  set (q2 := fun x : list K => mle inv (skipn s x) * mle gam (firstn s x) * (dim * mle xs x - mlef (row_sum s xs) (skipn s x)) + mle bet (firstn s x)).
  set (q3 := fun x : list K => mle inv (skipn s x)).
  rewrite (hsum_ext _ _ (fun x => (fb * mult) * (eqp full x * q1 x) + sb * (eqp lp x * q2 x) + tb * (eqp full x * q3 x))) by (intros x _; unfold ln_io_poly, ln_io_calc, q1, q2, q3; ring).
  rewrite !hsum_add, !hsum_scal.
  assert (B : forall b, (b < 2 ^ (s + m))%nat -> q1 (bpt (s + m) b) = dim * fZ (2 ^ Z.of_nat s) * nth b xs 0 * nth b xs 0 - row_sum s xs (b / 2 ^ s)%nat * row_sum s xs (b / 2 ^ s)%nat).
  { intros b Hb. unfold q1. destruct (bpt_split s m b Hb) as [_ E]. rewrite E, mle_bool_at by exact Hb. rewrite mlef_bool by (now apply div_lt). reflexivity. }
  assert (B2 : forall b, (b < 2 ^ (s + m))%nat -> q2 (bpt (s + m) b) = ln_entry dim s xs gam bet inv b).
  { intros b Hb. unfold q2. destruct (bpt_split s m b Hb) as [E0 E]. rewrite E, E0, (mle_bool_at (s + m) xs) by exact Hb. rewrite mlef_bool by (now apply div_lt).
    assert (Hm : (b mod 2 ^ s < 2 ^ s)%nat) by (apply Nat.mod_upper_bound; pose proof (pow2_pos s); lia).
    rewrite (mle_bool_at m inv), (mle_bool_at s gam), (mle_bool_at s bet) by first [exact Hm|now apply div_lt]. reflexivity. }
  assert (B3 : forall b, (b < 2 ^ (s + m))%nat -> q3 (bpt (s + m) b) = nth (b / 2 ^ s) inv 0).
  { intros b Hb. unfold q3. destruct (bpt_split s m b Hb) as [_ E]. rewrite E, mle_bool_at by (now apply div_lt). reflexivity. }
  set (t1 := map (fun b => dim * fZ (2 ^ Z.of_nat s) * nth b xs 0 * nth b xs 0 - row_sum s xs (b / 2 ^ s)%nat * row_sum s xs (b / 2 ^ s)%nat) (seq 0 (2 ^ (s + m)))).
  set (t3 := map (fun b => nth (b / 2 ^ s) inv 0) (seq 0 (2 ^ (s + m)))).
  rewrite (hsum_eqp (s + m) full q1 t1) by (try exact Lf; intros b Hb; unfold t1; rewrite nth_map_seq by exact Hb; apply B; exact Hb).
  rewrite (hsum_eqp (s + m) lp q2 (ln_table dim s m xs gam bet inv)) by (try exact Ll; intros b Hb; unfold ln_table; rewrite nth_map_seq by exact Hb; apply B2; exact Hb).
  rewrite (hsum_eqp (s + m) full q3 t3) by (try exact Lf; intros b Hb; unfold t3; rewrite nth_map_seq by exact Hb; apply B3; exact Hb).
  assert (D : forall i j, (i < 2 ^ s)%nat -> ((i + 2 ^ s * j) / 2 ^ s)%nat = j) by (intros i j Hi; rewrite Nat.mul_comm, Nat.div_add, Nat.div_small by lia; reflexivity).
  assert (LT : forall i j, (i < 2 ^ s)%nat -> (j < 2 ^ m)%nat -> (i + 2 ^ s * j < 2 ^ (s + m))%nat) by (intros i j Hi Hj; rewrite Nat.pow_add_r; nia).
  assert (HP : fpow half s * fZ (2 ^ Z.of_nat s) = 1) by (rewrite <- (half_pow half s Hh); ring).
  assert (E2 : fZ (2 ^ Z.of_nat s) = (fnat (2 ^ s) : K)) by (rewrite <- fZ_of_nat; f_equal; rewrite Nat2Z.inj_pow; reflexivity).
  assert (SC : forall c : K, sumn (2 ^ s) (fun _ => c) = fZ (2 ^ Z.of_nat s) * c).
  { intros c. rewrite E2. generalize (2 ^ s)%nat. induction n as [|n IH]; cbn [sumn fnat]; [ring|]. rewrite IH. ring. }
  assert (T1 : mle t1 full = mle (ln_vars dim s m xs) ap).
  { unfold full. rewrite mle_half by auto. unfold ln_vars. rewrite mle_map_seq by auto. rewrite <- mlef_scal. apply mlef_ext. intros j Hj. rewrite La in Hj. unfold row_sum at 1.
    rewrite (sumn_ext (2 ^ s) _ (fun i => (dim * fZ (2 ^ Z.of_nat s)) * (ent s xs j i * ent s xs j i) - row_sum s xs j * row_sum s xs j)).
    2: { intros i Hi. unfold ent at 1, t1. rewrite nth_map_seq by (now apply LT). rewrite D by exact Hi. unfold ent. ring. }
    rewrite sumn_sub, sumn_scal, SC. unfold ln_var. transitivity ((fpow half s * fZ (2 ^ Z.of_nat s)) * (dim * sumn (2 ^ s) (fun i => ent s xs j i * ent s xs j i) - row_sum s xs j * row_sum s xs j)); [ring|]. rewrite HP. ring. }
  assert (T3 : mle t3 full = mle inv ap).
  { unfold full. rewrite mle_half by auto. unfold mle. rewrite <- mlef_scal. apply mlef_ext. intros j Hj. rewrite La in Hj. unfold row_sum.
    rewrite (sumn_ext (2 ^ s) _ (fun _ => nth j inv 0)). 2: { intros i Hi. unfold ent, t3. rewrite nth_map_seq by (now apply LT). rewrite D by exact Hi. reflexivity. }
    rewrite SC. transitivity ((fpow half s * fZ (2 ^ Z.of_nat s)) * nth j inv 0); [ring|]. rewrite HP. ring. }
  rewrite T1, T3. ring.
Qed.

(** ** Degrees *)
Lemma mlef_skip_poly s (f : nat -> K) u v : is_poly 1 (fun x => mlef f (skipn s (u ++ x :: v))).
Proof.
  destruct (Nat.le_gt_cases s (length u)) as [Hs|Hs].
  - eapply is_poly_ext; [|apply (mlef_is_poly f (skipn s u) v)]. intros x. cbv beta. rewrite skipn_app. replace (s - length u)%nat with 0%nat by lia. reflexivity.
  - eapply is_poly_ext; [|apply (is_poly_const 1 (mlef f (skipn (s - length u - 1) v)))]. intros x. cbv beta. rewrite skipn_app. rewrite (skipn_all2 u) by lia.
    destruct (s - length u)%nat as [|k] eqn:Ek; [lia|]. cbn [skipn app Nat.sub]. rewrite Nat.sub_0_r. reflexivity.
Qed.
Lemma mlef_first_poly s (f : nat -> K) u v : is_poly 1 (fun x => mlef f (firstn s (u ++ x :: v))).
Proof.
  destruct (Nat.le_gt_cases s (length u)) as [Hs|Hs].
  - eapply is_poly_ext; [|apply (is_poly_const 1 (mlef f (firstn s u)))]. intros x. cbv beta. rewrite firstn_app. replace (s - length u)%nat with 0%nat by lia. cbn [firstn]. rewrite app_nil_r. reflexivity.
  - eapply is_poly_ext; [|apply (mlef_is_poly f u (firstn (s - length u - 1) v))]. intros x. cbv beta. rewrite firstn_app. rewrite (firstn_all2 u) by lia.
    destruct (s - length u)%nat as [|k] eqn:Ek; [lia|]. cbn [firstn app Nat.sub]. rewrite Nat.sub_0_r. reflexivity.
Qed.
Lemma ln_io_deg fb sb tb mult dim s m n full lp xs gam bet inv : indiv_deg 4 n (ln_io_poly fb sb tb mult dim s m full lp xs gam bet inv).
Proof.
  intros u v _. unfold ln_io_poly, ln_io_calc.
  set (S1 := fun x => mlef (row_sum s xs) (skipn s (u ++ x :: v))). set (I1 := fun x => mle inv (skipn s (u ++ x :: v))). set (G1 := fun x => mle gam (firstn s (u ++ x :: v))).
  set (B1 := fun x => mle bet (firstn s (u ++ x :: v))). set (X1 := fun x => mle xs (u ++ x :: v)). set (E1 := fun x => eqp full (u ++ x :: v)). set (L1 := fun x => eqp lp (u ++ x :: v)).
  assert (PS : is_poly 1 S1) by apply mlef_skip_poly. assert (PI : is_poly 1 I1) by apply mlef_skip_poly. assert (PG : is_poly 1 G1) by apply mlef_first_poly.
  assert (PB : is_poly 1 B1) by apply mlef_first_poly. assert (PX : is_poly 1 X1) by apply multilin_mle. assert (PE : is_poly 1 E1) by apply multilin_eqp. assert (PL : is_poly 1 L1) by apply multilin_eqp.
  apply (is_poly_ext 4 (fun x => (fb * mult) * (E1 x * ((dim * fZ (2 ^ Z.of_nat s)) * (X1 x * X1 x) - S1 x * S1 x)) + sb * (L1 x * (I1 x * (G1 x * (dim * X1 x - S1 x)) + B1 x)) + tb * (E1 x * I1 x))).
  { intros x. unfold S1, I1, G1, B1, X1, E1, L1. ring. }
  apply is_poly_add; [apply is_poly_add|]; apply is_poly_scal.
  - apply (is_poly_le (1 + 2)); [lia|]. apply is_poly_mul; auto. apply is_poly_sub; [apply is_poly_scal|]; apply (is_poly_mul 1 1); auto.
  - apply (is_poly_mul 1 3); auto. apply is_poly_add; [|apply (is_poly_le 1); auto]. apply (is_poly_mul 1 2); auto. apply (is_poly_mul 1 1); auto. apply is_poly_sub; auto. apply is_poly_scal; auto.
  - apply (is_poly_le (1 + 1)); [lia|]. apply is_poly_mul; auto.
Qed.

(** ** The accumulation sumcheck *)
(** The columns at a point, each with the equality factor of its lookup. *)
Definition acc_row (p q lin lout : list K) (rcs : list (list K)) (x : list K) : list K :=
  eqp p x * mle lin x :: eqp p x * mle lout x :: map (fun c => eqp q x * mle c x) rcs.
Definition ln_acc_poly (bch p q lin lout : list K) (rcs : list (list K)) (x : list K) : K := mle (acc_row p q lin lout rcs x) bch.
Lemma acc_row_nth p q lin lout rcs x j : nth j (acc_row p q lin lout rcs x) 0 =
  match j with O => eqp p x * mle lin x | S O => eqp p x * mle lout x | S (S i) => if (i <? length rcs)%nat then eqp q x * mle (nth i rcs []) x else 0 end.
Proof.
  destruct j as [|[|i]]; [reflexivity|reflexivity|]. cbn [acc_row nth]. destruct (Nat.ltb_spec i (length rcs)) as [H|H].
  - rewrite (nth_map_lt _ rcs i []) by exact H. reflexivity.
  - apply nth_overflow. rewrite map_length. exact H.
Qed.
Lemma hsum_acc n bch p q lin lout rcs : length p = n -> length q = n ->
  hsum n (ln_acc_poly bch p q lin lout rcs) = mle (mle lin p :: mle lout p :: evals_at rcs q) bch.
Proof.
  intros Lp Lq. unfold ln_acc_poly, mle at 1 4. unfold hsum, mlef at 1. rewrite sumn_swap. unfold mlef. apply sumn_ext. intros j _. rewrite sumn_scal_r. f_equal.
  assert (Q : forall r (l : list K), length r = n -> sumn (2 ^ n) (fun b => eqp r (bpt n b) * mle l (bpt n b)) = mle l r).
  { intros r l Lr. apply (hsum_eqp n r (mle l) l); auto using mle_bool_at. }
  rewrite (sumn_ext _ _ _ (fun b _ => acc_row_nth p q lin lout rcs (bpt n b) j)).
  destruct j as [|[|i]]; cbn [nth]; [apply Q; auto|apply Q; auto|]. destruct (Nat.ltb_spec i (length rcs)) as [H|H].
  - rewrite Q by auto. unfold evals_at. rewrite (nth_map_lt _ rcs i []) by exact H. reflexivity.
  - rewrite nth_overflow by (unfold evals_at; rewrite map_length; exact H). apply sumn_0. reflexivity.
Qed.
Lemma ln_acc_deg n bch p q lin lout rcs : indiv_deg 2 n (ln_acc_poly bch p q lin lout rcs).
Proof.
  intros u v _. unfold ln_acc_poly, mle at 1, mlef at 1. apply is_poly_sumn. intros j _.
  assert (M : forall r (l : list K), is_poly 2 (fun x => eqp r (u ++ x :: v) * mle l (u ++ x :: v))).
  { intros r l. apply (is_poly_mul 1 1); [apply multilin_eqp|apply multilin_mle]. }
  apply (is_poly_ext 2 (fun x => eqw j bch * nth j (acc_row p q lin lout rcs (u ++ x :: v)) 0)); [intros x; ring|]. apply is_poly_scal.
  eapply is_poly_ext; [intros x; symmetry; apply acc_row_nth|]. destruct j as [|[|i]]; [apply M|apply M|]. destruct (i <? length rcs)%nat; [apply M|apply is_poly_const].
Qed.
(** The verifier's two folds are interpolations of the claims at the batching point. *)
Lemma ln_initial_ok (vals bch : list K) : (length vals <= 2 ^ length bch)%nat -> ln_initial vals (eq_table bch) = mle vals bch.
Proof.
  intros L. unfold ln_initial. assert (F : forall (l : list (K * K)) a, fold_left (fun acc '(v, w) => acc + v * w) l a = a + fsum (map (fun '(a, b) => a * b) l)).
  { induction l as [|[x y] l IH]; intros a; cbn [fold_left map fsum]; [ring|]. rewrite IH. ring. }
  rewrite F, eq_table_dot, firstn_all2 by exact L. ring.
Qed.
Fixpoint mul2 (xs ys : list K) : list K := match xs, ys with x :: xs, y :: ys => x * y :: mul2 xs ys | _, _ => [] end.
Lemma ln_calc_initial : forall (a e w : list K), ln_calc a e w = ln_initial (mul2 a e) w.
Proof.
  unfold ln_calc, ln_initial. intros a e w. generalize (0 : K). revert e w. induction a as [|x a IH]; intros [|y e] [|z w] k; try reflexivity. cbn [combine fold_left mul2]. apply IH.
Qed.
Lemma mul2_length : forall a e : list K, length (mul2 a e) = Nat.min (length a) (length e).
Proof. induction a as [|x a IH]; intros [|y e]; cbn [mul2 length Nat.min]; auto. Qed.

Lemma ln_draw_length (T : @hist K -> K) n : forall h, length (fst (ln_draw T n h)) = n.
Proof. induction n as [|n IH]; intros h; cbn [ln_draw]; [reflexivity|]. unfold get_challenge. specialize (IH (EvSample :: EvBytes lbl_batching :: h)). destruct (ln_draw T n _) as [cs h2]. cbn [fst length] in *. now rewrite IH. Qed.

(** ** The input sumcheck *)
Definition ln_in_poly (ic half : K) (s : nat) (iop xs x : list K) : K :=
  mle xs x * (eqp iop x + ic * (fZ (2 ^ Z.of_nat s) * eqp (repeat half s ++ skipn s iop) x - eqp iop x)).
Lemma hsum_in half ic s m iop xs : (1 + 1) * half = (1 : K) -> length iop = (s + m)%nat ->
  hsum (s + m) (ln_in_poly ic half s iop xs) = mle xs iop + ic * (mlef (row_sum s xs) (skipn s iop) - mle xs iop).
Proof.
  intros Hh Li. assert (Ls : length (repeat half s ++ skipn s iop) = (s + m)%nat) by (rewrite app_length, repeat_length, skipn_length; lia).
  unfold ln_in_poly. rewrite (hsum_ext _ _ (fun x => (1 - ic) * (eqp iop x * mle xs x) + (ic * fZ (2 ^ Z.of_nat s)) * (eqp (repeat half s ++ skipn s iop) x * mle xs x))) by (intros; ring).
  rewrite hsum_add, !hsum_scal. rewrite (hsum_eqp _ iop (mle xs) xs), (hsum_eqp _ (repeat half s ++ skipn s iop) (mle xs) xs) by (auto using mle_bool_at).
  rewrite <- (sum_point half s xs (skipn s iop) Hh). ring.
Qed.
Lemma ln_in_deg ic half s n iop xs : indiv_deg 2 n (ln_in_poly ic half s iop xs).
Proof.
  intros u v _. unfold ln_in_poly. apply (is_poly_mul 1 1); [apply multilin_mle|]. apply is_poly_add; [apply multilin_eqp|]. apply is_poly_scal. apply is_poly_sub; [apply is_poly_scal|]; apply multilin_eqp.
Qed.

(** ** What fools the verifier *)
(** The transcript after a sumcheck. *)
Definition sc_after (T : @hist K -> K) (claimed : K) (pf : @proof K) (nv deg : nat) (h : hist) : hist :=
  match verify T claimed pf nv deg h with Some (_, _, h') => h' | None => h end.
Definition next_h (h : @hist K) : hist := EvSample :: EvBytes lbl_batching :: h.
Definition next_ch (T : @hist K -> K) (h : hist) : K := T (EvBytes lbl_batching :: h).

Section Fooled.
Variables (T : @hist K -> K) (c : ln_ctx) (s m nb : nat) (last : claim (K := K)) (pf : @ln_proof K C) (h2 : @hist K) (p q : list K) (vi vo : K) (vs : list K) (rec : K).
Variables (lin lout : list K) (rcs : list (list K)) (xs gam bet : list K).
Let dim : K := fZ (Z.of_nat (ln_dim c)).
Let mult : K := fZ (ln_mult c).
Let half : K := / (1 + 1).
Definition f_bch : list K := fst (ln_draw T nb h2).
Definition f_h3 : hist := snd (ln_draw T nb h2).
Definition f_ap : list K := sc_point T m 2 f_h3 (lnp_acc pf).
Definition f_h4 : hist := sc_after T (ln_initial (vi :: vo :: vs) (compute_betas_eval f_bch)) (lnp_acc pf) m 2 f_h3.
Definition f_ch1 : K := next_ch T f_h4.
Definition f_ch2 : K := next_ch T (next_h f_h4).
Definition f_h6 : hist := next_h (next_h f_h4).
Definition f_fb : K := (1 - f_ch1) * (1 - f_ch2).
Definition f_sb : K := f_ch1 * (1 - f_ch2).
Definition f_tb : K := (1 - f_ch1) * f_ch2.
Definition f_iop : list K := sc_point T (s + m) 4 f_h6 (lnp_io pf).
Definition f_h7 : hist := sc_after T (f_fb * rec + f_sb * cl_eval last + nth 1 (lnp_acc_evals pf) 0 * f_tb) (lnp_io pf) (s + m) 4 f_h6.
Definition f_ic : K := next_ch T f_h7.
Definition f_in : K := nth (2 + length vs) (lnp_evals pf) 0.
Definition f_mean : K := nth (3 + length vs) (lnp_evals pf) 0.
(** The lookups' claims combine to the right value though one is wrong; a root event of the accumulation sumcheck; the three
    equations of the io sumcheck combine though one is wrong; a root event of the io sumcheck; the claims about the input and
    its row sums combine though one is wrong; a root event of the input sumcheck. *)
Definition ln_fooled : Prop :=
  table_event (diffs2 (mle lin p :: mle lout p :: evals_at rcs q) (vi :: vo :: vs)) f_bch \/
  root_event T m 2 (ln_acc_poly f_bch p q lin lout rcs) f_h3 (lnp_acc pf) \/
  table_event [mult * mle (ln_vars dim s m xs) f_ap - rec; mle (ln_table dim s m xs gam bet lout) (cl_point last) - cl_eval last; mle lout f_ap - nth 1 (lnp_acc_evals pf) 0] [f_ch1; f_ch2] \/
  root_event T (s + m) 4 (ln_io_poly f_fb f_sb f_tb mult dim s m (repeat half s ++ f_ap) (cl_point last) xs gam bet lout) f_h6 (lnp_io pf) \/
  poly_event [mle xs f_iop - f_in; (mlef (row_sum s xs) (skipn s f_iop) - mle xs f_iop) - (f_mean - f_in)] f_ic \/
  root_event T (s + m) 2 (ln_in_poly f_ic half s f_iop xs) (next_h f_h7) (lnp_input pf).
End Fooled.
End P.
