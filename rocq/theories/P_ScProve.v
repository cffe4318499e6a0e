(** Proofs about the sumcheck prover of [M_Sumcheck]: one round, then all rounds of the threaded
    prover. *)
From Coq Require Import List Arith Lia Bool ZArith Field Permutation.
From Verif Require Import ListAux FieldDef PolyList MleMath M_Mle P_Mle P_Eq M_Interp P_Interp M_Sumcheck P_ScVerify.
Import ListNotations.

Section P.
Context {K : field}.
Add Field Kf_sp : (fth K).
Local Open Scope F_scope.

(** *** Generic list lemmas *)
Lemma fmulC (x y : K) : x * y = y * x.
Proof. ring. Qed.
Lemma omapM_seq {A} (f : nat -> option A) (F : nat -> A) n a :
  (forall i, a <= i < a + n -> f i = Some (F i)) -> omapM f (seq a n) = Some (map F (seq a n)).
Proof. intros H. apply omapM_all. intros i Hi. apply in_seq in Hi. apply H. lia. Qed.
Lemma omapM_map {A B C} (f : B -> option C) (g : A -> B) l : omapM f (map g l) = omapM (fun a => f (g a)) l.
Proof. induction l as [|a l IH]; simpl; auto. rewrite IH. reflexivity. Qed.
Lemma list_as_map {A} (l : list A) d : l = map (fun i => nth i l d) (seq 0 (length l)).
Proof.
  apply nth_ext_all with (d := d).
  - rewrite map_length, seq_length. reflexivity.
  - intros i Hi. rewrite nth_map_seq by auto. reflexivity.
Qed.
Lemma fsum_perm (l l' : list K) : Permutation l l' -> fsum l = fsum l'.
Proof. induction 1; simpl; try congruence; ring. Qed.
Lemma fsum_rev (l : list K) : fsum (rev l) = fsum l.
Proof. apply fsum_perm. apply Permutation_sym, Permutation_rev. Qed.
Lemma sumn_fsum {A} n (l : list A) (f : A -> nat -> K) :
  sumn n (fun b => fsum (map (fun a => f a b) l)) = fsum (map (fun a => sumn n (f a)) l).
Proof.
  induction l as [|a l IH]; simpl.
  - apply sumn_0. auto.
  - rewrite sumn_add, IH. reflexivity.
Qed.

(** *** Values *)
Definition tbl (m : dmle K) : list K :=
  match evaluations m with Base l => l | Ext l => l | Unreachable => [] end.
Definition wf_mle (m : dmle K) : Prop := is_table m (num_vars m) (tbl m).
Definition mval (m : dmle K) (pt : list K) : K := mle (tbl m) (firstn (num_vars m) pt).
Definition dm : dmle K := mkMle Unreachable 0.
Definition prod_val (val : nat -> K) (prods : list (K * list nat)) : K :=
  fsum (map (fun p => fst p * fprod (map val (snd p))) prods).
Definition vp_val (p : vp) (pt : list K) : K :=
  prod_val (fun i => mval (nth i (vp_mles p) dm) pt) (vp_products p).

Definition fixm (r : K) (m : dmle K) : dmle K :=
  if Nat.eqb (num_vars m) 0 then m
  else mkMle (Ext (low_table (num_vars m) (tbl m) [r])) (num_vars m - 1).
Definition fixms (cs : list K) (m : dmle K) : dmle K := fold_left (fun m c => fixm c m) cs m.

Lemma fixm_wf r m : wf_mle m -> wf_mle (fixm r m).
Proof.
  intros H. unfold fixm. destruct (Nat.eqb_spec (num_vars m) 0); auto.
  repeat split; cbn [num_vars evaluations tbl]; auto. unfold tbl; cbn [evaluations]. apply low_table_length.
Qed.
Lemma fixm_nv r m : num_vars (fixm r m) = (num_vars m - 1)%nat.
Proof. unfold fixm. destruct (Nat.eqb_spec (num_vars m) 0) as [E|]; [rewrite E|]; reflexivity. Qed.
Lemma fixm_val r m pt : wf_mle m -> mval (fixm r m) pt = mval m (r :: pt).
Proof.
  intros (_ & He & Hl). unfold fixm, mval. destruct (Nat.eqb_spec (num_vars m) 0) as [E|E].
  - rewrite E. reflexivity.
  - destruct (num_vars m) as [|n]; [lia|]. cbn [num_vars tbl evaluations firstn].
    replace (S n - 1)%nat with n by lia. unfold tbl at 1; cbn [evaluations].
    unfold mle. rewrite mlef_cons. apply mlef_ext. intros i Hi.
    pose proof (firstn_le_length n pt) as Hf.
    assert (Hn : 2 ^ length (firstn n pt) <= 2 ^ n) by (apply Nat.pow_le_mono_r; lia).
    etransitivity; [apply (low_table_at (S n) (tbl m) [r] i)|].
    { cbn [length]; replace (S n - 1)%nat with n by lia; lia. }
    rewrite plow_cons, plow_nil. reflexivity.
Qed.
Lemma fixms_wf cs : forall m, wf_mle m -> wf_mle (fixms cs m).
Proof. induction cs as [|c cs IH]; intros m H; simpl; auto. apply IH, fixm_wf, H. Qed.
Lemma fixms_nv cs : forall m, num_vars (fixms cs m) = (num_vars m - length cs)%nat.
Proof. induction cs as [|c cs IH]; intros m; simpl; [lia|]. rewrite IH, fixm_nv. lia. Qed.
Lemma fixms_val cs : forall m pt, wf_mle m -> mval (fixms cs m) pt = mval m (cs ++ pt).
Proof.
  induction cs as [|c cs IH]; intros m pt H; simpl; auto. rewrite IH by (apply fixm_wf; auto).
  apply fixm_val. auto.
Qed.
Lemma fixms_app cs ds m : fixms (cs ++ ds) m = fixms ds (fixms cs m).
Proof. apply fold_left_app. Qed.

Lemma fix_later_spec r m : wf_mle m -> fix_later r m = Some (fixm r m).
Proof.
  intros (_ & He & Hl). unfold fix_later, fixm. destruct (num_vars m) as [|n] eqn:En; [reflexivity|].
  cbn [Nat.ltb Nat.leb Nat.eqb]. destruct m as [e nv]. cbn [num_vars evaluations] in *. subst nv.
  destruct He as [E|E]; rewrite E.
  - rewrite fvip_base by (cbn [length]; auto; lia). reflexivity.
  - rewrite fvip_ext by (cbn [length]; auto; lia). reflexivity.
Qed.
Lemma fix_variables_fixm r m : wf_mle m -> 0 < num_vars m -> fix_variables m [r] = Some (fixm r m).
Proof.
  intros H Hn. rewrite (fix_variables_spec m (num_vars m) (tbl m)) by (auto; discriminate).
  unfold fixm. destruct (Nat.eqb_spec (num_vars m) 0); [lia|]. reflexivity.
Qed.
Lemma fix_first_spec r m : wf_mle m -> 0 < num_vars m -> fix_first r m = Some (fixm r m).
Proof.
  intros H Hn. unfold fix_first. destruct (Nat.ltb_spec 0 (num_vars m)); [|lia]. apply fix_variables_fixm; auto.
Qed.

(** *** The generated round code *)
Definition lin (v : list K) (b : nat) (x : K) : K := nth b v 0 + x * (nth (b + 1) v 0 - nth b v 0).

Lemma cg_c_spec (v : list K) b j : cg_c v b j = fnat (2 ^ j) * (nth (b + 1) v 0 - nth b v 0).
Proof.
  induction j as [|j IH]; cbn [cg_c]; [simpl; ring|].
  rewrite IH, Nat.pow_succ_r'. replace (2 * 2 ^ j)%nat with (2 ^ j + 2 ^ j)%nat by lia.
  rewrite fnat_add. ring.
Qed.

Lemma bits_sum n m : list_sum (map (Nat.pow 2) (filter (Nat.testbit n) (seq 0 m))) = (n mod 2 ^ m)%nat.
Proof.
  induction m as [|m IH]; [change (2 ^ 0)%nat with 1%nat; rewrite Nat.mod_1_r; reflexivity|].
  rewrite seq_S, filter_app, map_app, list_sum_app, IH. cbn [Nat.add filter].
  rewrite Nat.pow_succ_r', (Nat.mul_comm 2), Nat.mod_mul_r by (try apply Nat.pow_nonzero; lia). f_equal.
  rewrite Nat.testbit_eqb. pose proof (Nat.mod_upper_bound (n / 2 ^ m)%nat 2 ltac:(lia)).
  destruct (Nat.eqb_spec ((n / 2 ^ m) mod 2)%nat 1) as [E|E].
  - rewrite E. simpl. lia.
  - replace ((n / 2 ^ m) mod 2)%nat with 0%nat by lia. simpl. lia.
Qed.
Lemma one_bits_sum n : 0 < n -> list_sum (map (Nat.pow 2) (idx_of_one_bits n)) = n.
Proof.
  intros Hn. unfold idx_of_one_bits. rewrite bits_sum. apply Nat.mod_small.
  rewrite Nat.add_1_r. apply Nat.log2_spec. auto.
Qed.

Lemma cg_item_spec (v : list K) b i : 0 < i -> cg_item v b i = lin v b (fnat (i - 1)).
Proof.
  intros Hi. unfold lin. destruct i as [|[|[|i]]]; [lia| | |].
  - simpl. ring.
  - simpl. ring.
  - unfold cg_item. replace (S (S (S i)) - 2)%nat with (S i) by lia.
    replace (S (S (S i)) - 1)%nat with (S i + 1)%nat by lia.
    assert (G : forall js acc, fold_left (fun acc k => acc + cg_c v b k) js acc
       = acc + fnat (list_sum (map (Nat.pow 2) js)) * (nth (b + 1) v 0 - nth b v 0)).
    { induction js as [|j js IH]; intros acc; [simpl; ring|].
      change (list_sum (map (Nat.pow 2) (j :: js))) with (2 ^ j + list_sum (map (Nat.pow 2) js))%nat.
      cbn [fold_left]. rewrite IH, cg_c_spec, fnat_add. ring. }
    pose proof (one_bits_sum (S i) ltac:(lia)) as Hs.
    destruct (idx_of_one_bits (S i)) as [|j js]; [simpl in Hs; lia|].
    change (list_sum (map (Nat.pow 2) (j :: js))) with (2 ^ j + list_sum (map (Nat.pow 2) js))%nat in Hs.
    rewrite G, cg_c_spec. rewrite fnat_add. rewrite <- Hs at 1. rewrite fnat_add. simpl (fnat 1). ring.
Qed.

Lemma cg_row_spec (vs : list (list K)) b : cg_row vs b = map (fun t => fprod (map (fun v => lin v b (fnat t)) vs)) (seq 0 (length vs + 1)).
Proof.
  unfold cg_row. rewrite <- seq_shift, map_map. apply map_ext. intros t. rewrite reduce_mul_fprod.
  f_equal. apply map_ext. intros v. rewrite cg_item_spec by lia. f_equal. f_equal. lia.
Qed.

Lemma vec_add_map (f g : nat -> K) n : vec_add (map f (seq 0 n)) (map g (seq 0 n)) = map (fun t => f t + g t) (seq 0 n).
Proof.
  unfold vec_add. rewrite skipn_all2 by (rewrite !map_length, seq_length; lia). rewrite app_nil_r.
  generalize (seq 0 n) as l. induction l as [|a l IH]; simpl; auto. rewrite IH. reflexivity.
Qed.
Lemma repeat_map (x : K) n : repeat x n = map (fun _ => x) (seq 0 n).
Proof. generalize 0%nat. induction n as [|n IH]; intros a; simpl; auto. rewrite <- IH. reflexivity. Qed.
Lemma fold_vec_add {A} (F : A -> nat -> K) n : forall (l : list A) acc,
  fold_left vec_add (map (fun a => map (F a) (seq 0 n)) l) (map acc (seq 0 n))
  = map (fun t => acc t + fsum (map (fun a => F a t) l)) (seq 0 n).
Proof.
  induction l as [|a l IH]; intros acc; simpl.
  - apply map_ext. intros; ring.
  - rewrite vec_add_map, IH. apply map_ext. intros; ring.
Qed.
Lemma array_sum_spec {A} (F : A -> nat -> K) n (l : list A) :
  array_sum n (map (fun a => map (F a) (seq 0 n)) l) = map (fun t => fsum (map (fun a => F a t) l)) (seq 0 n).
Proof.
  destruct l as [|a l]; cbn [map array_sum].
  - rewrite repeat_map. reflexivity.
  - rewrite fold_vec_add. reflexivity.
Qed.

(** Sum of a product of equally sized tables over the remaining variables. *)
Lemma hsum_prod k m (vs : list (list K)) x : k <= S m ->
  hsum m (fun pt => fprod (map (fun v => mle v (firstn k (x :: pt))) vs)) =
  match k with
  | O => fnat (2 ^ m) * fprod (map (fun v => nth 0 v 0) vs)
  | S k' => fnat (2 ^ (m - k')) * sumn (2 ^ k') (fun i => fprod (map (fun v => lin v (2 * i) x) vs))
  end.
Proof.
  intros Hk. unfold hsum. destruct k as [|k'].
  - cbn [firstn]. rewrite sumn_const. f_equal. f_equal. apply map_ext. intros v. apply mlef_nil.
  - cbn [firstn]. replace (2 ^ m)%nat with (2 ^ k' * 2 ^ (m - k'))%nat by (rewrite <- Nat.pow_add_r; f_equal; lia).
    rewrite sumn_mul_split. 
    transitivity (sumn (2 ^ (m - k')) (fun _ => sumn (2 ^ k') (fun i => fprod (map (fun v => lin v (2 * i) x) vs)))).
    + apply sumn_ext. intros j Hj. apply sumn_ext. intros i Hi. f_equal. apply map_ext. intros v.
      replace (bpt m (i + 2 ^ k' * j)) with (bpt (K:=K) (k' + (m - k')) (i + 2 ^ k' * j)) by (f_equal; lia).
      rewrite bpt_app by auto. rewrite firstn_app, bpt_length, Nat.sub_diag. cbn [firstn]. rewrite app_nil_r.
      rewrite firstn_all2 by (rewrite bpt_length; lia).
      unfold mle. rewrite mlef_cons. rewrite mlef_bool by auto. unfold lin. reflexivity.
    + apply sumn_const.
Qed.

Lemma lin_const (v : list K) x : length v = 1%nat -> lin v 0 x = nth 0 v 0 + x * (0 - nth 0 v 0).
Proof. intros H. destruct v as [|a [|b v]]; try discriminate. reflexivity. Qed.

Lemma cg_sum_spec nv round k m (vs : list (list K)) : vs <> [] ->
  (forall v, In v vs -> length v = 2 ^ k) -> k <= S m -> nv = (m + round)%nat -> 0 < round ->
  cg_sum nv round vs = Some (map (fun t => hsum m (fun pt => fprod (map (fun v => mle v (firstn k (fnat t :: pt))) vs)))
                               (seq 0 (length vs + 1))).
Proof.
  intros Hne Hlen Hk Hnv Hr. destruct vs as [|v1 vs']; [contradiction|].
  unfold cg_sum. set (vs := v1 :: vs') in *.
  cbv beta. assert (Hv1 : length v1 = 2 ^ k) by (apply Hlen; left; auto).
  pose proof (pow2_pos k) as Hp.
  replace (forallb (fun v => Nat.leb (length v1) (length v)) vs) with true.
  2: { symmetry. apply forallb_forall. intros v Hv. apply Nat.leb_le. rewrite Hv1, Hlen; auto. }
  replace (Nat.ltb 0 (length v1)) with true by (symmetry; apply Nat.ltb_lt; lia). cbn [andb].
  rewrite Hv1, ceil_log2_pow2. cbn [obind].
  set (res := if (2 ^ k =? 1)%nat then _ else _).
  assert (Hused : (Nat.max k 1 + round - 1 <= nv)%nat) by lia.
  destruct (Nat.ltb_spec nv (Nat.max k 1 + round - 1)); [lia|]. f_equal.
  set (mult := (nv - (Nat.max k 1 + round - 1))%nat).
  assert (Hres : (if Nat.ltb 0 mult then map (fun e => e * fnat (2 ^ mult)) res else res) = map (fun e => e * fnat (2 ^ mult)) res).
  { destruct (Nat.ltb_spec 0 mult); auto. replace mult with 0%nat by lia. rewrite <- (map_id res) at 1.
    apply map_ext. intros; simpl; ring. }
  rewrite Hres. unfold res. destruct k as [|k'].
  - cbn [Nat.pow Nat.eqb]. rewrite repeat_map, map_map. apply map_ext. intros t.
    rewrite hsum_prod by lia. rewrite cg_row_spec.
    replace mult with m by (unfold mult; cbn [Nat.max]; lia).
    rewrite Nat.add_1_r. cbn [seq map nth]. rewrite fmulC. f_equal. f_equal.
    apply map_ext. intros v. unfold lin. simpl. ring.
  - replace (2 ^ S k' =? 1)%nat with false
      by (symmetry; apply Nat.eqb_neq; rewrite Nat.pow_succ_r'; pose proof (pow2_pos k'); lia).
    replace (largest_even_below (2 ^ S k')) with (2 * 2 ^ k')%nat.
    2: { unfold largest_even_below. rewrite Nat.pow_succ_r'. rewrite Nat.even_mul. reflexivity. }
    rewrite evens_even, <- map_rev, map_map.
    rewrite (map_ext (fun x => cg_row vs (2 * x)) (fun x => map ((fun x t => fprod (map (fun v => lin v (2 * x) (fnat t)) vs)) x) (seq 0 (length vs + 1))))
      by (intros; apply cg_row_spec).
    rewrite array_sum_spec, map_map. apply map_ext. intros t.
    rewrite hsum_prod by lia. replace mult with (m - k')%nat by (unfold mult; lia).
    rewrite fmulC. f_equal. rewrite map_rev, fsum_rev, fsum_map_seq. reflexivity.
Qed.
End P.
