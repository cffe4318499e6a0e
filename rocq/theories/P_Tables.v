(** Proofs about the lookup tables: closed forms, coverage, names. *)
From Coq Require Import String Ascii.
From Coq Require Import List Arith Lia Bool ZArith Field.
From Verif Require Import ListAux FieldDef PolyList MleMath M_Mle P_Mle P_Eq M_Interp P_Interp M_Sumcheck
  P_ScVerify P_ScProve M_ScParallel M_SamePoly P_SamePoly M_LogUp P_LogUp M_Lookup P_Lookup M_Tables.
Import ListNotations.

(** *** Ranges *)
Lemma zrange_length lo hi : length (zrange lo hi) = Z.to_nat (hi - lo).
Proof. unfold zrange. rewrite map_length, seq_length. reflexivity. Qed.
Lemma zrange_In lo hi x : In x (zrange lo hi) <-> (lo <= x < hi)%Z.
Proof.
  unfold zrange. rewrite in_map_iff. split.
  - intros (i & <- & Hi). apply in_seq in Hi. lia.
  - intros H. exists (Z.to_nat (x - lo)). split; [lia|]. apply in_seq. lia.
Qed.
Lemma zrange_NoDup lo hi : NoDup (zrange lo hi).
Proof.
  unfold zrange. apply FinFun.Injective_map_NoDup; [|apply seq_NoDup]. intros a b H. lia.
Qed.
Lemma zrange_nth lo hi i d : i < Z.to_nat (hi - lo) -> nth i (zrange lo hi) d = (lo + Z.of_nat i)%Z.
Proof. intros H. unfold zrange. rewrite nth_map_seq by auto. reflexivity. Qed.
Lemma Zpow2_nat n : Z.to_nat (2 ^ Z.of_nat n) = 2 ^ n.
Proof. rewrite <- (Nat2Z.id (2 ^ n)). f_equal. rewrite Nat2Z.inj_pow. reflexivity. Qed.
Lemma Zpow2_of_nat n : (2 ^ Z.of_nat n = Z.of_nat (2 ^ n))%Z.
Proof. rewrite Nat2Z.inj_pow. reflexivity. Qed.
Lemma Zpow2_S n : (2 ^ Z.of_nat (S n) = 2 * 2 ^ Z.of_nat n)%Z.
Proof. rewrite Nat2Z.inj_succ, Z.pow_succ_r by lia. reflexivity. Qed.
Lemma sym_range_length n : Z.to_nat (2 ^ Z.of_nat n - - 2 ^ Z.of_nat n) = 2 ^ S n.
Proof. rewrite <- Zpow2_nat. f_equal. rewrite Zpow2_S. lia. Qed.
Lemma gelu_size_ok s : gelu_size (- 2 ^ Z.of_nat s) (2 ^ Z.of_nat s) = S s.
Proof.
  unfold gelu_size. replace (2 ^ Z.of_nat s - - 2 ^ Z.of_nat s + 1)%Z with (2 ^ Z.of_nat (S s) + 1)%Z by (rewrite Zpow2_S; lia).
  rewrite (Z.log2_unique _ (Z.of_nat (S s))); [apply Nat2Z.id|lia|].
  rewrite <- Nat2Z.inj_succ. rewrite (Zpow2_S (S s)). assert (2 <= 2 ^ Z.of_nat (S s))%Z; [|lia].
  rewrite Zpow2_S. assert (0 < 2 ^ Z.of_nat s)%Z by (apply Z.pow_pos_nonneg; lia). lia.
Qed.

Lemma pad_take_length n l : length (pad_take n l) = n.
Proof. unfold pad_take. rewrite firstn_length, app_length, repeat_length. lia. Qed.

Section F.
Context {K : field}.
Add Field Kf_tb : (fth K).
Local Open Scope F_scope.

(** *** Weighted sums of the coordinates *)
Lemma fold_weight_gen (g : nat -> K -> K) (pt : list K) s (acc : K) :
  fold_left (fun a '(i, p) => a + g i p) (combine (seq s (length pt)) pt) acc
    = acc + sumn (length pt) (fun j => g (s + j)%nat (nth j pt 0)).
Proof.
  revert s acc. induction pt as [|x pt IH]; intros s acc; cbn [length seq combine fold_left].
  - cbn. ring.
  - rewrite IH. rewrite sumn_S_l. cbn [nth]. rewrite Nat.add_0_r. rewrite (sumn_ext _ _ (fun j => g (s + S j)%nat (nth j pt 0))).
    + ring.
    + intros i _. f_equal. lia.
Qed.
Lemma weight_sum_formula (pt : list K) : weight_sum pt = sumn (length pt) (fun j => nth j pt 0 * fZ (2 ^ Z.of_nat j)).
Proof.
  unfold weight_sum. rewrite (fold_weight_gen (fun i p => p * fZ (2 ^ Z.of_nat i))).
  rewrite (sumn_ext _ _ (fun j => nth j pt 0 * fZ (2 ^ Z.of_nat j))); [ring|]. intros i _. reflexivity.
Qed.
Lemma fnat_double i : (fnat (2 * i) : K) = (1 + 1) * fnat i.
Proof. rewrite fnat_mul. cbn [fnat]. ring. Qed.
Lemma mlef_fnat (pt : list K) : mlef fnat pt = sumn (length pt) (fun j => nth j pt 0 * fZ (2 ^ Z.of_nat j)).
Proof.
  induction pt as [|x pt IH].
  - rewrite mlef_nil. reflexivity.
  - rewrite mlef_cons. rewrite (mlef_ext _ (fun i => (1 + 1) * fnat i + x)).
    + rewrite mlef_add, mlef_scal, mlef_const, IH. cbn [length]. rewrite sumn_S_l. cbn [nth].
      rewrite (sumn_ext _ (fun i => nth i pt 0 * fZ (2 ^ Z.of_nat (S i))) (fun j => (1 + 1) * (nth j pt 0 * fZ (2 ^ Z.of_nat j)))).
      * rewrite sumn_scal. change (fZ (2 ^ Z.of_nat 0) : K) with (fZ 1 : K). rewrite fZ_1. ring.
      * intros i _. rewrite Zpow2_S, fZ_mul. change 2%Z with (Z.of_nat 2) at 1. rewrite fZ_of_nat. cbn [fnat]. ring.
    + intros i _. rewrite fnat_add. rewrite fnat_double. cbn [fnat]. ring.
Qed.
Lemma weight_sum_mlef (pt : list K) : weight_sum pt = mlef fnat pt.
Proof. rewrite weight_sum_formula, mlef_fnat. reflexivity. Qed.

(** A column over a range of integers. *)
Lemma mle_range (g : Z -> Z) lo hi (pt : list K) : Z.to_nat (hi - lo) = 2 ^ length pt ->
  mle (map (fun i => fZ (g i)) (zrange lo hi)) pt = mlef (fun i => fZ (g (lo + Z.of_nat i)%Z)) pt.
Proof.
  intros H. unfold mle. apply mlef_ext. intros i Hi. rewrite (nth_map_lt _ _ _ 0%Z) by (rewrite zrange_length; lia).
  rewrite zrange_nth by lia. reflexivity.
Qed.
Lemma mle_identity lo hi (pt : list K) : Z.to_nat (hi - lo) = 2 ^ length pt ->
  mle (map (fun i => fZ i) (zrange lo hi)) pt = weight_sum pt + fZ lo.
Proof.
  intros H. rewrite (mle_range (fun i => i)) by auto. rewrite weight_sum_mlef.
  rewrite (mlef_ext _ (fun i => fnat i + fZ lo)); [rewrite mlef_add, mlef_const; reflexivity|].
  intros i _. rewrite fZ_add, fZ_of_nat. ring.
Qed.

Lemma relu_col n (r : list K) x : length r = n ->
  mle (map (fun i => fZ (relu_apply i)) (zrange (- 2 ^ Z.of_nat n) (2 ^ Z.of_nat n))) (r ++ [x]) = x * weight_sum r.
Proof.
  intros Hr. rewrite mle_range by (rewrite sym_range_length, app_length, Hr; cbn [length]; f_equal; lia).
  rewrite mlef_snoc, weight_sum_mlef, <- mlef_scal. apply mlef_ext. intros i Hi. rewrite Hr in *.
  assert (Hp := Zpow2_of_nat n).
  unfold relu_apply. replace (Z.ltb (- 2 ^ Z.of_nat n + Z.of_nat i) 0) with true by (symmetry; apply Z.ltb_lt; lia).
  replace (Z.ltb (- 2 ^ Z.of_nat n + Z.of_nat (2 ^ n + i)) 0) with false by (symmetry; apply Z.ltb_ge; lia).
  replace (- 2 ^ Z.of_nat n + Z.of_nat (2 ^ n + i))%Z with (Z.of_nat i) by lia. rewrite fZ_of_nat, fZ_0. ring.
Qed.
Lemma relu_fold n (r : list K) x : length r = n ->
  fold_left (fun acc '(i, p) => acc + p * fZ (2 ^ Z.of_nat i) * nth (length (r ++ [x]) - 1) (r ++ [x]) 0)
    (firstn (length (r ++ [x]) - 1) (combine (seq 0 (length (r ++ [x]))) (r ++ [x]))) 0 = x * weight_sum r.
Proof.
  intros Hr. rewrite app_length. cbn [length]. rewrite Hr. replace (n + 1 - 1)%nat with n by lia.
  rewrite app_nth2 by lia. replace (n - length r)%nat with 0%nat by lia. cbn [nth].
  replace (n + 1)%nat with (S n) by lia. rewrite seq_S.
  assert (Hc : forall (a : list nat) (r : list K) i, length a = length r -> combine (a ++ [i]) (r ++ [x]) = combine a r ++ [(i, x)]).
  { induction a as [|u a IH]; intros [|v r'] i Hl; try discriminate; [reflexivity|]. cbn. rewrite IH; auto. }
  rewrite Hc by (rewrite seq_length; auto). rewrite firstn_app.
  assert (Hlc : length (combine (seq 0 n) r) = n) by (rewrite combine_length, seq_length; lia).
  rewrite Hlc, Nat.sub_diag, firstn_all2 by lia. cbn [firstn]. rewrite app_nil_r.
  rewrite <- Hr. rewrite (fold_weight_gen (fun i p => p * fZ (2 ^ Z.of_nat i) * x)). rewrite weight_sum_formula.
  rewrite sumn_scal_r. cbn [Nat.add]. ring.
Qed.
Lemma zero_col (pt : list K) :
  mle (map (fun i => fZ (if Z.eqb i 0 then 1 else 0)) (zrange 0 (2 ^ Z.of_nat (length pt)))) pt = prodn (length pt) (fun i => 1 - nth i pt 0).
Proof.
  rewrite (mle_range (fun i => if Z.eqb i 0 then 1 else 0)%Z) by (rewrite Z.sub_0_r; apply Zpow2_nat).
  rewrite (mlef_ext _ (fun i => if Nat.eqb i 0 then 1 else 0)).
  - induction pt as [|x pt IH]; [rewrite mlef_nil; reflexivity|].
    rewrite mlef_cons. rewrite (mlef_ext _ (fun i => (1 - x) * (if Nat.eqb i 0 then 1 else 0))).
    + rewrite mlef_scal, IH. cbn [length]. rewrite prodn_S_l. cbn [nth]. reflexivity.
    + intros i _. destruct i as [|i]; cbn; ring.
  - intros i _. destruct i as [|i]; [apply fZ_1|]. cbn [Nat.eqb]. destruct (Z.eqb_spec (0 + Z.of_nat (S i)) 0); [lia|reflexivity].
Qed.
Lemma zero_fold (pt : list K) s a o :
  fold_left (fun '(ia, oa) '(i, p) => (ia + p * fZ (2 ^ Z.of_nat i), oa * (1 - p))) (combine (seq s (length pt)) pt) (a, o)
  = (a + sumn (length pt) (fun j => nth j pt 0 * fZ (2 ^ Z.of_nat (s + j))), o * prodn (length pt) (fun i => 1 - nth i pt 0)).
Proof.
  revert s a o. induction pt as [|x pt IH]; intros s a o; cbn [length seq combine fold_left].
  - cbn. f_equal; ring.
  - rewrite IH. rewrite sumn_S_l, prodn_S_l. cbn [nth]. rewrite Nat.add_0_r.
    rewrite (sumn_ext _ (fun i => nth i pt 0 * fZ (2 ^ Z.of_nat (s + S i))) (fun j => nth j pt 0 * fZ (2 ^ Z.of_nat (S s + j)))).
    + f_equal; ring.
    + intros i _. do 3 f_equal. lia.
Qed.
Lemma into_mle_base_ok n (l : list K) : length l = 2 ^ n -> into_mle_base l = Some (mkMle (Base l) n).
Proof.
  intros H. unfold into_mle_base. rewrite H.
  replace (is_pow2 (2 ^ n)) with true.
  - rewrite ceil_log2_pow2. cbn [obind]. unfold from_evaluations_vec. rewrite H, Nat.eqb_refl. reflexivity.
  - symmetry. unfold is_pow2. rewrite Nat.log2_pow2 by lia. rewrite Nat.eqb_refl, andb_true_r. apply Nat.ltb_lt. apply pow2_pos.
Qed.
Lemma from_vec_ok n (l : list K) : length l = 2 ^ n -> from_evaluations_vec n l = Some (mkMle (Base l) n).
Proof. intros H. unfold from_evaluations_vec. rewrite H, Nat.eqb_refl. reflexivity. Qed.
Lemma eval_base sched n (l pt : list K) : length l = 2 ^ n -> length pt = n -> valid_sched n sched ->
  evaluate sched (mkMle (Base l) n) pt = Some (mle l pt).
Proof.
  intros Hl Hp Hs. apply (evaluate_spec sched _ n); auto. apply built_is_table. left. apply from_vec_ok. auto.
Qed.
Lemma columns_two (f : Z -> Z) l : columns_of 2 (map (fun i => [i; f i]) l) = [map (fun i => fZ i : K) l; map (fun i => fZ (f i)) l].
Proof. unfold columns_of. cbn [seq map]. rewrite !map_map. reflexivity. Qed.
Lemma columns_one l : columns_of 1 (map (fun i => [i]) l) = [map (fun i => fZ i : K) l].
Proof. unfold columns_of. cbn [seq map]. rewrite !map_map. reflexivity. Qed.
End F.
