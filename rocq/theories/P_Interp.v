(** Proofs about [M_Interp]. *)
From Coq Require Import List Arith Lia Bool ZArith Field.
From Verif Require Import ListAux FieldDef PolyList MleMath M_Mle P_Mle P_Eq M_Interp.
Import ListNotations.

Section P.
Context {K : field}.
Add Field Kf_pi : (fth K).
Local Open Scope F_scope.

Lemma prodn_split a b (f : nat -> K) : prodn (a + b) f = prodn a f * prodn b (fun i => f (a + i)%nat).
Proof.
  induction b as [|b IH]; simpl.
  - rewrite Nat.add_0_r. ring.
  - rewrite Nat.add_succ_r. simpl. rewrite IH. ring.
Qed.
Lemma prodn_1 n (f : nat -> K) : (forall i, i < n -> f i = 1) -> prodn n f = 1.
Proof. induction n as [|n IH]; intros H; simpl; auto. rewrite IH, H by (auto; lia). ring. Qed.
Lemma fold_left_fmul (l : list K) acc : fold_left fmul l acc = acc * fprod l.
Proof. revert acc; induction l as [|x l IH]; intros acc; simpl; [ring|rewrite IH; ring]. Qed.

(** Products leaving one index out. *)
Definition pexc (n i : nat) (g : nat -> K) : K := prodn n (fun j => if Nat.eqb j i then 1 else g j).
Lemma pexc_split n i g : i < n ->
  pexc n i g = prodn i g * prodn (n - 1 - i) (fun k => g (i + 1 + k)%nat).
Proof.
  intros Hi. unfold pexc. replace n with (i + (1 + (n - 1 - i)))%nat at 1 by lia.
  rewrite !prodn_split. cbn [prodn]. rewrite Nat.add_0_r, Nat.eqb_refl.
  replace (prodn i (fun j => if (j =? i)%nat then 1 else g j)) with (prodn i g).
  - replace (prodn (n - 1 - i) (fun i0 => if (i + (1 + i0) =? i)%nat then 1 else g (i + (1 + i0))%nat))
      with (prodn (n - 1 - i) (fun k => g (i + 1 + k)%nat)); [ring|].
    apply prodn_ext. intros k Hk. destruct (Nat.eqb_spec (i + (1 + k)) i); [lia|]. f_equal. lia.
  - apply prodn_ext. intros k Hk. destruct (Nat.eqb_spec k i); [lia|reflexivity].
Qed.
Lemma pexc_full n i g : i < n -> prodn n g = g i * pexc n i g.
Proof.
  intros Hi. rewrite pexc_split by auto. replace n with (i + (1 + (n - 1 - i)))%nat at 1 by lia.
  rewrite !prodn_split. cbn [prodn]. rewrite Nat.add_0_r.
  replace (prodn (n - 1 - i) (fun i0 => g (i + (1 + i0))%nat)) with (prodn (n - 1 - i) (fun k => g (i + 1 + k)%nat)); [ring|].
  apply prodn_ext. intros k Hk. f_equal. lia.
Qed.
Lemma pexc_mul n i g h : pexc n i (fun j => g j * h j) = pexc n i g * pexc n i h.
Proof.
  unfold pexc. rewrite <- prodn_mul. apply prodn_ext. intros j Hj. destruct (j =? i)%nat; ring.
Qed.
Lemma pexc_neq_0 n i g : (forall j, j < n -> j <> i -> g j <> 0) -> pexc n i g <> 0.
Proof.
  intros H. apply prodn_neq_0. intros j Hj. destruct (Nat.eqb_spec j i); [apply f1_neq_0|auto].
Qed.
Lemma pexc_inv n i g : (forall j, j < n -> j <> i -> g j <> 0) -> pexc n i (fun j => / g j) = / pexc n i g.
Proof.
  intros H. assert (E : pexc n i (fun j => / g j) * pexc n i g = 1).
  { rewrite <- pexc_mul. apply prodn_1. intros j Hj. destruct (Nat.eqb_spec j i); auto.
    apply finv_l. auto. }
  assert (Hn := pexc_neq_0 n i g H).
  apply (fmul_cancel_l (pexc n i g)); auto. rewrite finv_r by auto. rewrite <- E. ring.
Qed.

Lemma lag_basis_pexc xs i x : NoDup xs -> i < length xs ->
  lag_basis xs i x = pexc (length xs) i (fun j => x - nth j xs 0)
                     * / pexc (length xs) i (fun j => nth i xs 0 - nth j xs 0).
Proof.
  intros Hnd Hi. rewrite <- pexc_inv.
  - rewrite <- pexc_mul. unfold lag_basis, pexc. rewrite fprod_nth, map_length, seq_length.
    apply prodn_ext. intros j Hj. rewrite nth_map_seq by auto. destruct (j =? i)%nat; reflexivity.
  - intros j Hj Hne. apply fsub_neq. intros E. apply Hne. symmetry. revert E. apply NoDup_nth; auto.
Qed.

(** *** interpolate_uni_poly *)
Definition Fk (i : nat) : K := prodn i (fun k => fnat (S k)).
Definition Gk (m : nat) : K := prodn m (fun k => - fnat (S k)).

Lemma field_factorial_Fk a : field_factorial a = Fk a.
Proof.
  unfold field_factorial, Fk. destruct a as [|[|a]]; try reflexivity.
  - simpl. ring.
  - replace (S (S a) - 1)%nat with (S a) by lia.
    assert (G : forall n, fold_left (fun res i => res * fnat i) (seq 2 n) (1 : K) = prodn (S n) (fun k => fnat (S k))).
    { induction n as [|n IH]; [simpl; ring|]. rewrite seq_S, fold_left_app, IH. cbn [fold_left].
      change (prodn (S (S n)) (fun k => fnat (S k))) with (prodn (S n) (fun k => fnat (S k)) * (fnat (S (S n)) : K)).
      f_equal. }
    apply G.
Qed.

Lemma Fk_rev i : prodn i (fun j => fnat i - fnat j) = Fk i.
Proof.
  induction i as [|i IH]; [reflexivity|]. rewrite prodn_S_l. simpl fnat at 2.
  unfold Fk. cbn [prodn]. fold (Fk i). rewrite <- IH.
  transitivity ((fnat (S i) : K) * prodn i (fun j => fnat i - fnat j)).
  - f_equal; [simpl; ring|]. apply prodn_ext. intros; simpl; ring.
  - simpl. ring.
Qed.

Lemma denom_closed n i : i < n ->
  pexc n i (fun j => fnat i - fnat j) = Fk i * Gk (n - 1 - i).
Proof.
  intros Hi. rewrite pexc_split by auto. rewrite Fk_rev. f_equal. apply prodn_ext. intros k Hk.
  replace (i + 1 + k)%nat with (i + S k)%nat by lia. rewrite fnat_add. ring.
Qed.

Lemma Fk_neq_0 n i : char_gt K n -> i <= n -> Fk i <> 0.
Proof. intros H Hi. apply prodn_neq_0. intros k Hk. apply H. lia. Qed.
Lemma Gk_neq_0 n i : char_gt K n -> i <= n -> Gk i <> 0.
Proof.
  intros H Hi. apply prodn_neq_0. intros k Hk E. apply (H (S k)); [lia|].
  transitivity (- - (fnat (S k) : K)); [ring|rewrite E; ring].
Qed.

Lemma interp_evals (x : K) len i : i < len ->
  nth i (x :: map (fun e => x - fnat e) (seq 1 (len - 1))) 0 = x - fnat i.
Proof.
  intros Hi. destruct i as [|i]; [simpl; ring|]. cbn [nth].
  rewrite nth_map_lt with (d := 0%nat) by (rewrite seq_length; lia). rewrite seq_nth by lia. reflexivity.
Qed.
Lemma interp_prod (x : K) len : 0 < len ->
  fold_left fmul (map (fun e => x - fnat e) (seq 1 (len - 1))) x = prodn len (fun j => x - fnat j).
Proof.
  intros Hl. rewrite fold_left_fmul. destruct len as [|len]; [lia|]. rewrite prodn_S_l.
  replace (S len - 1)%nat with len by lia. rewrite fprod_nth, map_length, seq_length.
  f_equal; [simpl; ring|]. apply prodn_ext. intros i Hi.
  rewrite nth_map_lt with (d := 0%nat) by (rewrite seq_length; lia). rewrite seq_nth by lia. reflexivity.
Qed.

Section Interp.
Variables (p_i : list K) (x : K).
Let len := length p_i.
Hypothesis Hlen : 0 < len.
Hypothesis Hc : char_gt K (len - 1).

Let ev := x :: map (fun e => x - fnat e) (seq 1 (len - 1)).
Let prod := prodn len (fun j => x - fnat j).
Definition iterm (i : nat) : K := nth i p_i 0 * lag_basis (nodes len) i x.

Lemma interp_step_eq res up down i : interp_step len p_i ev prod (res, up, down) i =
  (inv <- finv_opt (up * nth i ev 0) ;;
   Some (if Nat.eqb i 0 then (res + nth i p_i 0 * prod * down * inv, up, down)
         else (res + nth i p_i 0 * prod * down * inv, up * (- fnat (len - i)), down * fnat i))).
Proof. reflexivity. Qed.

Lemma interp_loop : forall k res up down, k <= len ->
  up = Fk (len - 1) * Gk (len - k) -> down * Fk (k - 1) = Fk (len - 1) ->
  (forall i, i < k -> x - fnat i <> 0) ->
  (k = 0%nat \/ True) ->
  exists up' down', ofold (interp_step len p_i ev prod) (rev (seq 0 k)) (res, up, down)
    = Some (res + sumn k iterm, up', down').
Proof.
  induction k as [|k IH]; intros res up down Hk Hup Hdown Hx _.
  - simpl. exists up, down. do 3 f_equal. ring.
  - rewrite seq_S, rev_app_distr. cbn [rev app ofold Nat.add].
    replace (S k - 1)%nat with k in Hdown by lia.
    assert (Hxk : x - fnat k <> 0) by (apply Hx; lia).
    assert (Hup0 : up <> 0).
    { subst up. apply fmul_neq_0; [apply (Fk_neq_0 (len - 1)); auto; lia|].
      apply (Gk_neq_0 (len - 1)); auto; lia. }
    assert (Hfk : Fk k <> 0) by (apply (Fk_neq_0 (len - 1)); auto; lia).
    assert (Hd0 : down <> 0).
    { intros E. rewrite E in Hdown. apply (Fk_neq_0 (len - 1) (len - 1)); auto. rewrite <- Hdown. ring. }
    rewrite interp_step_eq. unfold ev at 1. rewrite interp_evals by lia.
    unfold finv_opt. destruct (up * (x - fnat k) =? 0) eqn:Ez.
    { apply feqb_true in Ez. apply fmul_0 in Ez. tauto. }
    cbn [obind].
    assert (Hterm : nth k p_i 0 * prod * down * / (up * (x - fnat k)) = iterm k).
    { unfold iterm. rewrite lag_basis_pexc; [|apply nodes_NoDup; auto|rewrite nodes_length; lia].
      rewrite nodes_length.
      assert (E1 : pexc len k (fun j => nth k (nodes len) 0 - nth j (nodes len) 0) = Fk k * Gk (len - 1 - k)).
      { rewrite <- denom_closed by lia. apply prodn_ext. intros j Hj. rewrite !nodes_nth by lia. reflexivity. }
      assert (E2 : pexc len k (fun j => x - nth j (nodes len) 0) = pexc len k (fun j => x - fnat j)).
      { apply prodn_ext. intros j Hj. rewrite !nodes_nth by lia. reflexivity. }
      rewrite E1, E2. unfold prod. rewrite (pexc_full len k) by lia.
      replace (len - S k)%nat with (len - 1 - k)%nat in Hup by lia.
      rewrite Hup, <- Hdown.
      assert (Hg : Gk (len - 1 - k) <> 0) by (apply (Gk_neq_0 (len - 1)); auto; lia).
      field. repeat split; auto. }
    rewrite Hterm.
    destruct (Nat.eqb_spec k 0) as [->|Hk0].
    + cbn [seq rev ofold]. eexists _, _. cbn [sumn]. do 3 f_equal. ring.
    + destruct (IH (res + iterm k) (up * (- fnat (len - k))) (down * fnat k)) as (u & d & E); auto; try lia.
      * rewrite Hup. replace (len - k)%nat with (S (len - S k)) by lia.
        unfold Gk at 2. cbn [prodn]. fold (Gk (len - S k)). ring.
      * rewrite <- Hdown. destruct k as [|k]; [lia|]. replace (S k - 1)%nat with k by lia.
        unfold Fk at 2. cbn [prodn]. fold (Fk k). ring.
      * exists u, d. rewrite E. cbn [sumn]. do 3 f_equal. ring.
Qed.

Lemma interp_loop_panic : forall k res up down, k <= len ->
  (exists i, i < k /\ x - fnat i = 0) ->
  ofold (interp_step len p_i ev prod) (rev (seq 0 k)) (res, up, down) = None.
Proof.
  induction k as [|k IH]; intros res up down Hk (i & Hi & Ex); [lia|].
  rewrite seq_S, rev_app_distr. cbn [rev app ofold Nat.add].
  rewrite interp_step_eq. unfold ev at 1. rewrite interp_evals by lia.
  destruct (Nat.eq_dec i k) as [->|Hne].
  - unfold finv_opt. rewrite Ex. replace (up * 0 =? 0) with true; [reflexivity|].
    symmetry. apply feqb_spec. ring.
  - destruct (finv_opt (up * (x - fnat k))); [|reflexivity]. cbn [obind].
    destruct (k =? 0)%nat; apply IH; try lia; exists i; split; auto; lia.
Qed.

Lemma interpolate_ok : (forall i, i < len -> x <> fnat i) ->
  interpolate_uni_poly p_i x = Some (lagrange (nodes len) p_i x).
Proof.
  intros Hx. unfold interpolate_uni_poly. fold len. destruct (Nat.eqb_spec len 0); [lia|].
  rewrite interp_prod by auto. fold ev. fold prod. rewrite field_factorial_Fk.
  destruct (interp_loop len 0 (Fk (len - 1)) 1) as (u & d & E); auto.
  - rewrite Nat.sub_diag. unfold Gk. simpl. ring.
  - ring.
  - intros i Hi E. apply (Hx i Hi). apply fsub_0. auto.
  - rewrite E. cbn [obind]. f_equal. unfold lagrange. rewrite nodes_length.
    unfold iterm. ring.
Qed.

Lemma interpolate_panics : (exists i, i < len /\ x = fnat i) -> interpolate_uni_poly p_i x = None.
Proof.
  intros (i & Hi & Ex). unfold interpolate_uni_poly. fold len. destruct (Nat.eqb_spec len 0); [lia|].
  rewrite interp_prod by auto. fold ev. fold prod.
  rewrite interp_loop_panic; auto. exists i. split; auto. rewrite Ex. ring.
Qed.
End Interp.

Lemma interpolate_poly (f : K -> K) (p_i : list K) x : p_i <> [] -> char_gt K (length p_i - 1) ->
  is_poly (length p_i - 1) f -> (forall k, k < length p_i -> nth k p_i 0 = f (fnat k)) ->
  forall y, interpolate_uni_poly p_i x = Some y -> y = f x.
Proof.
  intros Hne Hc Hf Hv y E.
  assert (Hl : 0 < length p_i) by (destruct p_i; [contradiction|simpl; lia]).
  assert (Hx : forall i, i < length p_i -> x <> fnat i).
  { intros i Hi Ex. rewrite interpolate_panics in E; try discriminate; auto. eauto. }
  rewrite interpolate_ok in E by auto. injection E as <-. symmetry. 
  apply lagrange_unique.
  - intros En. apply (f_equal (@length K)) in En. rewrite nodes_length in En. simpl in En. lia.
  - apply nodes_NoDup. auto.
  - rewrite nodes_length. auto.
  - rewrite nodes_length. intros k Hk. rewrite nodes_nth by auto. rewrite Hv by auto. reflexivity.
Qed.

Lemma interpolate_panics_iff (p_i : list K) x : p_i <> [] -> char_gt K (length p_i - 1) ->
  (interpolate_uni_poly p_i x = None <-> exists i, i < length p_i /\ x = fnat i).
Proof.
  intros Hne Hc. assert (Hl : 0 < length p_i) by (destruct p_i; [contradiction|simpl; lia]).
  split.
  - intros E. 
    assert (D : (exists i, i < length p_i /\ x = fnat i) \/ (forall i, i < length p_i -> x <> fnat i)).
    { clear. induction (length p_i) as [|n IH]; [right; intros; lia|].
      destruct (feq_dec x (fnat n)) as [Ex|Ex]; [left; eauto|].
      destruct IH as [(i & Hi & Ei)|Hn]; [left; eauto|].
      right. intros i Hi. destruct (Nat.eq_dec i n) as [->|]; auto. apply Hn. lia. }
    destruct D as [D|D]; auto. rewrite interpolate_ok in E by auto. discriminate.
  - apply interpolate_panics. auto.
Qed.

(** *** Batch inversion *)
Definition binv (c : K) (f : K) : K := if f =? 0 then 0 else c * / f.

Lemma total_prod_acc (v : list K) : forall acc,
  fold_left (fun acc f => if f =? 0 then acc else acc * f) v acc = acc * total_prod v.
Proof.
  unfold total_prod. induction v as [|f v IH]; intros acc; simpl; [ring|].
  destruct (f =? 0); [apply IH|]. rewrite IH, (IH (1 * f)). ring.
Qed.
Lemma total_prod_app (v w : list K) : total_prod (v ++ w) = total_prod v * total_prod w.
Proof. unfold total_prod at 1. rewrite fold_left_app, total_prod_acc. reflexivity. Qed.
Lemma total_prod_1 (f : K) : total_prod [f] = if f =? 0 then 1 else f.
Proof. unfold total_prod. simpl. destruct (f =? 0); ring. Qed.
Lemma total_prod_neq_0 (v : list K) : total_prod v <> 0.
Proof.
  induction v as [|f v IH] using rev_ind; [apply f1_neq_0|].
  rewrite total_prod_app, total_prod_1. destruct (f =? 0) eqn:E.
  - apply fmul_neq_0; auto. apply f1_neq_0.
  - apply fmul_neq_0; auto. apply feqb_false; auto.
Qed.
Lemma running_prods_snoc (tmp : K) v f :
  running_prods tmp (v ++ [f]) = running_prods tmp v ++ (if f =? 0 then [] else [tmp * total_prod (v ++ [f])]).
Proof.
  revert tmp; induction v as [|g v IH]; intros tmp; simpl.
  - rewrite total_prod_1. destruct (f =? 0); auto.
  - change (total_prod (g :: v ++ [f])) with (total_prod ([g] ++ (v ++ [f]))).
    rewrite (total_prod_app [g]), total_prod_1. destruct (g =? 0) eqn:Eg.
    + rewrite IH. destruct (f =? 0); auto. do 2 f_equal. ring.
    + simpl. rewrite IH. destruct (f =? 0); auto. simpl. do 3 f_equal. ring.
Qed.

(** Last product before the trailing non-zero entry. *)
Lemma rev_prods_hd (v : list K) : exists t, rev (running_prods 1 v) ++ [1] = total_prod v :: t.
Proof.
  induction v as [|f v IH] using rev_ind.
  - exists []. reflexivity.
  - rewrite running_prods_snoc, rev_app_distr, total_prod_app, total_prod_1.
    destruct (f =? 0) eqn:E.
    + simpl. destruct IH as [t IH]. exists t. rewrite IH. f_equal. ring.
    + simpl. eexists. f_equal. ring.
Qed.

Lemma bi_back_spec (coeff : K) : forall v tmp, tmp = / total_prod v * coeff ->
  bi_back tmp (rev v) (skipn 1 (rev (running_prods 1 v) ++ [1])) = rev (map (binv coeff) v).
Proof.
  induction v as [|f v IH] using rev_ind; intros tmp Ht; [reflexivity|].
  rewrite rev_app_distr, map_app, rev_app_distr. cbn [rev app map bi_back].
  rewrite total_prod_app, total_prod_1 in Ht. rewrite running_prods_snoc.
  unfold binv at 1. destruct (f =? 0) eqn:E.
  - apply feqb_true in E. rewrite app_nil_r. f_equal; auto. apply IH. rewrite Ht. f_equal. f_equal. ring.
  - assert (Hf : f <> 0) by (apply feqb_false; auto).
    rewrite rev_app_distr. cbn [rev app skipn].
    destruct (rev_prods_hd v) as [t Et]. rewrite Et. cbn [skipn] in IH.
    assert (Hn := total_prod_neq_0 v). f_equal.
    + rewrite Ht. field. auto.
    + rewrite Et in IH. cbn [skipn] in IH. apply IH. rewrite Ht. field. auto.
Qed.

Lemma skipn1_app (l : list K) : l <> [] -> skipn 1 (l ++ [1]) = skipn 1 l ++ [1].
Proof. destruct l; [contradiction|reflexivity]. Qed.

Lemma serial_bi_spec v (coeff : K) : serial_batch_inversion_and_mul v coeff = Some (map (binv coeff) v).
Proof.
  unfold serial_batch_inversion_and_mul, finv_opt.
  destruct (total_prod v =? 0) eqn:E.
  { apply feqb_true in E. exfalso. exact (total_prod_neq_0 v E). }
  cbn [obind]. f_equal.
  rewrite <- (rev_involutive (map (binv coeff) v)). f_equal.
  rewrite <- (bi_back_spec coeff v (/ total_prod v * coeff) eq_refl).
  destruct (rev (running_prods 1 v)) as [|a t] eqn:Er.
  - (* no non-zero entry *)
    simpl. assert (Hz : forall f, In f v -> f = 0).
    { assert (E0 : running_prods 1 v = []) by (rewrite <- (rev_involutive (running_prods 1 v)), Er; reflexivity).
      revert E0. generalize (1 : K). clear. induction v as [|f v IH]; intros t E0 g Hg; [destruct Hg|].
      simpl in E0. destruct (f =? 0) eqn:Ef; [|discriminate]. apply feqb_true in Ef.
      destruct Hg as [<-|Hg]; eauto. }
    assert (Hz' : forall f, In f (rev v) -> f = 0) by (intros f Hf; apply Hz, in_rev; auto).
    revert Hz'. clear. generalize (/ total_prod v * coeff). generalize (rev v). clear.
    intros l tmp. induction l as [|f l IH]; intros H; simpl; auto.
    replace (f =? 0) with true; [f_equal; apply IH; intros; apply H; right; auto|].
    symmetry. apply feqb_spec. apply H. left; auto.
  - reflexivity.
Qed.

Lemma omapM_all {A B} (f : A -> option B) (g : A -> B) l :
  (forall a, In a l -> f a = Some (g a)) -> omapM f l = Some (map g l).
Proof.
  induction l as [|a l IH]; intros H; simpl; auto.
  rewrite H by (left; auto). rewrite IH by (intros; apply H; right; auto). reflexivity.
Qed.

Lemma batch_inversion_spec ncpus v (coeff : K) : 0 < ncpus ->
  batch_inversion_and_mul ncpus v coeff = Some (map (binv coeff) v).
Proof.
  intros Hn. unfold batch_inversion_and_mul. destruct (Nat.eqb_spec ncpus 0); [lia|].
  rewrite (omapM_all _ (map (binv coeff))) by (intros; apply serial_bi_spec). cbn [obind]. f_equal.
  rewrite <- concat_map. rewrite chunks_concat by lia. reflexivity.
Qed.

(** *** Barycentric extrapolation *)
Lemma reduce_mul_fprod l : @reduce_mul K l = fprod l.
Proof. destruct l as [|x l]; simpl; auto. rewrite fold_left_fmul. reflexivity. Qed.

Lemma fprod_filter n j (g : nat -> K) :
  fprod (map g (filter (fun i => negb (Nat.eqb i j)) (seq 0 n))) = pexc n j g.
Proof.
  unfold pexc. induction n as [|n IH]; [reflexivity|].
  rewrite seq_S, filter_app, map_app, fprod_app, IH. cbn [prodn Nat.add filter].
  destruct (n =? j)%nat; cbn [negb map fprod]; ring.
Qed.

Lemma barycentric_weights_spec ncpus (points : list K) : 0 < ncpus ->
  barycentric_weights ncpus points =
  Some (map (fun j => binv 1 (pexc (length points) j (fun i => nth j points 0 - nth i points 0)))
            (seq 0 (length points))).
Proof.
  intros H. unfold barycentric_weights, batch_inversion. rewrite batch_inversion_spec by auto.
  f_equal. rewrite map_map. apply map_ext. intros j. rewrite reduce_mul_fprod, fprod_filter. reflexivity.
Qed.

Lemma sum_combine (a b : list K) : length a = length b ->
  fold_left fadd (map (fun '(c, e) => c * e) (combine a b)) 0 = sumn (length a) (fun i => nth i a 0 * nth i b 0).
Proof.
  intros H. rewrite fold_left_fadd, fsum_nth, map_length, combine_length, <- H, Nat.min_id.
  transitivity (sumn (length a) (fun i => nth i (map (fun '(c, e) => c * e) (combine a b)) 0)); [ring|].
  apply sumn_ext. intros i Hi. rewrite nth_map_lt with (d := (0, 0)) by (rewrite combine_length; lia).
  rewrite combine_nth by auto. reflexivity.
Qed.

Lemma extrapolate_spec par ncpus (points : list K) evals x ws : NoDup points -> points <> [] ->
  length evals = length points -> 0 < ncpus -> (match par with Some n => 0 < n | None => True end) ->
  barycentric_weights ncpus points = Some ws -> ~ In x points ->
  inner_extrapolate par points ws evals x = Some (lagrange points evals x).
Proof.
  intros Hnd Hne Hl Hc Hpar Hw Hx. rewrite barycentric_weights_spec in Hw by auto. injection Hw as <-.
  set (n := length points) in *.
  unfold inner_extrapolate.
  assert (Hco : match par with
            | Some ncpus => batch_inversion ncpus (map (fun p => x - p) points)
            | None => serial_batch_inversion_and_mul (map (fun p => x - p) points) 1
            end = Some (map (binv 1) (map (fun p => x - p) points))).
  { destruct par; [unfold batch_inversion; apply batch_inversion_spec; auto | apply serial_bi_spec]. }
  rewrite Hco. cbn [obind].
  set (ws := map _ (seq 0 n)). set (co := map (binv 1) _).
  assert (Hlw : length ws = n) by (unfold ws; rewrite map_length, seq_length; auto).
  assert (Hlc : length co = n) by (unfold co; rewrite !map_length; auto).
  set (prods := map (fun '(c, w) => c * w) (combine co ws)).
  assert (Hlp : length prods = n) by (unfold prods; rewrite map_length, combine_length; lia).
  replace (skipn (length prods) co) with (@nil K) by (rewrite skipn_all2; auto; lia). rewrite app_nil_r.
  assert (Hxi : forall i, i < n -> x - nth i points 0 <> 0).
  { intros i Hi E. apply fsub_0 in E. apply Hx. rewrite E. apply nth_In. auto. }
  set (P := prodn n (fun j => x - nth j points 0)).
  assert (HP : P <> 0) by (apply prodn_neq_0; auto).
  assert (Hp : forall i, i < n -> nth i prods 0 = / P * lag_basis points i x).
  { intros i Hi. unfold prods. rewrite nth_map_lt with (d := (0, 0)) by (rewrite combine_length; lia).
    rewrite combine_nth by lia. unfold co, ws. rewrite nth_map_seq by auto.
    rewrite map_map. rewrite nth_map_lt with (d := 0) by auto.
    assert (Hd : pexc n i (fun i0 => nth i points 0 - nth i0 points 0) <> 0).
    { apply pexc_neq_0. intros j Hj Hne'. apply fsub_neq. intros E. apply Hne'. symmetry. revert E. apply NoDup_nth; auto. }
    unfold binv. destruct (x - nth i points 0 =? 0) eqn:E1; [apply feqb_true in E1; exfalso; apply (Hxi i); auto|].
    destruct (pexc n i (fun i0 => nth i points 0 - nth i0 points 0) =? 0) eqn:E2;
      [apply feqb_true in E2; contradiction|].
    rewrite lag_basis_pexc by auto. fold n. unfold P. rewrite (pexc_full n i) by auto.
    assert (Hq : pexc n i (fun j => x - nth j points 0) <> 0) by (apply pexc_neq_0; auto).
    field. repeat split; auto. }
  assert (Hsum : fold_left fadd prods 0 = / P).
  { rewrite fold_left_fadd, fsum_nth, Hlp.
    assert (H1 : lagrange points (repeat 1 n) x = 1).
    { symmetry. apply (lagrange_unique points (repeat 1 n) (fun _ => 1)); auto.
      - apply is_poly_const.
      - intros k Hk. symmetry. clear - Hk. fold n in Hk. revert k Hk.
        induction n as [|m IH]; intros [|k] Hk; simpl; auto; try lia. apply IH. lia. }
    transitivity (/ P * lagrange points (repeat 1 n) x).
    - unfold lagrange. fold n. rewrite <- sumn_scal.
      transitivity (sumn n (fun i => nth i prods 0)); [ring|]. apply sumn_ext. intros i Hi.
      rewrite Hp by auto. replace (nth i (repeat 1 n) 0) with (1 : K); [ring|].
      clear - Hi. revert i Hi. induction n as [|m IH]; intros [|i] Hi; simpl; auto; try lia. apply IH. lia.
    - rewrite H1. ring. }
  rewrite Hsum. unfold finv_opt. destruct (/ P =? 0) eqn:EP.
  { apply feqb_true in EP. exfalso. apply (finv_neq_0 P HP EP). }
  f_equal. rewrite sum_combine by lia. rewrite Hlp. unfold lagrange. fold n.
  transitivity (/ P * sumn n (fun i => nth i evals 0 * lag_basis points i x) * / / P).
  - f_equal. rewrite <- sumn_scal. apply sumn_ext. intros i Hi. rewrite Hp by auto. ring.
  - field. split; auto. apply f1_neq_0.
Qed.

Lemma extrapolate_poly par ncpus (points : list K) evals x ws f : NoDup points -> points <> [] ->
  length evals = length points -> 0 < ncpus -> (match par with Some n => 0 < n | None => True end) ->
  is_poly (length points - 1) f -> (forall k, k < length points -> nth k evals 0 = f (nth k points 0)) ->
  barycentric_weights ncpus points = Some ws -> ~ In x points ->
  inner_extrapolate par points ws evals x = Some (f x).
Proof.
  intros Hnd Hne Hl Hc Hp Hf Hv Hw Hx.
  rewrite (extrapolate_spec par ncpus points evals x ws) by auto. f_equal. symmetry.
  apply lagrange_unique; auto. intros k Hk. symmetry. auto.
Qed.
End P.

(** Property-level forms (coefficient lists instead of [is_poly]). *)
Section Api.
Context {K : field}.
Add Field Kf_pi2 : (fth K).
Local Open Scope F_scope.
Lemma interpolate_exact (c p_i : list K) x y : p_i <> [] -> char_gt K (length p_i - 1) ->
  length c <= length p_i -> (forall k, k < length p_i -> nth k p_i 0 = peval c (fnat k)) ->
  interpolate_uni_poly p_i x = Some y -> y = peval c x.
Proof.
  intros Hne Hc Hl Hv. apply (interpolate_poly (peval c)); auto.
  exists c. split; auto. destruct p_i; [contradiction|]. cbn [length] in *. lia.
Qed.
Lemma interpolate_empty (x : K) : interpolate_uni_poly [] x = None.
Proof. reflexivity. Qed.
Lemma batch_inversion_entry ncpus v (coeff : K) : 0 < ncpus ->
  exists w, batch_inversion_and_mul ncpus v coeff = Some w /\ serial_batch_inversion_and_mul v coeff = Some w /\
    length w = length v /\
    forall i, i < length v -> (nth i v 0 = 0 -> nth i w 0 = 0) /\
                              (nth i v 0 <> 0 -> nth i w 0 * nth i v 0 = coeff).
Proof.
  intros H. exists (map (binv coeff) v). rewrite batch_inversion_spec, serial_bi_spec, map_length by auto.
  do 3 (split; auto). intros i Hi. rewrite nth_map_lt with (d := 0) by auto. unfold binv. split; intros E.
  - rewrite E. replace ((0:K) =? 0) with true; auto. symmetry. apply feqb_spec. auto.
  - destruct (nth i v 0 =? 0) eqn:E2; [apply feqb_true in E2; contradiction|].
    field. auto.
Qed.
Lemma extrapolate_exact par ncpus (c points evals : list K) x : NoDup points -> points <> [] ->
  length evals = length points -> 0 < ncpus -> (forall n, par = Some n -> 0 < n) ->
  length c <= length points -> (forall k, k < length points -> nth k evals 0 = peval c (nth k points 0)) ->
  ~ In x points ->
  exists ws, barycentric_weights ncpus points = Some ws /\
             inner_extrapolate par points ws evals x = Some (peval c x).
Proof.
  intros Hnd Hne Hl Hn Hp Hc Hv Hx. eexists. split; [apply barycentric_weights_spec; auto|].
  apply (extrapolate_poly par ncpus); auto.
  - destruct par; auto.
  - exists c. split; auto. destruct points; [contradiction|]. cbn [length] in *. lia.
  - apply barycentric_weights_spec; auto.
Qed.
End Api.
