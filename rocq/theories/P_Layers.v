(** Proofs about [M_Layers]: sumchecks over a product of tables, the dense layer and the matrix-vector helper. *)
From Coq Require Import List Arith Lia Bool ZArith Field Permutation.
From Verif Require Import ListAux FieldDef PolyList MleMath M_Mle P_Mle P_Eq M_Interp P_Interp M_Sumcheck
  P_ScVerify P_ScProve P_ScProve2 P_ScBatch P_ScFinal M_ScParallel P_ScParallel P_ScApi P_Count M_SamePoly P_SamePoly
  M_Tensor P_Tensor P_Tensor2 P_Tensor3 M_Pad P_Pad P_Pad2 M_Layers.
Import ListNotations.

Section P.
Context {K : field}.
Add Field Kf_lay : (fth K).
Local Open Scope F_scope.

(** *** Sumcheck over a product *)
(** The product of functions of a point. *)
Definition prodf (fs : list (list K -> K)) (pt : list K) : K := fprod (map (fun f => f pt) fs).
(** Degree at most one in each coordinate. *)
Definition multilin (f : list K -> K) : Prop := forall a b, is_poly 1 (fun x => f (a ++ x :: b)).

Lemma prodf_deg fs n : (forall f, In f fs -> multilin f) -> indiv_deg (length fs) n (prodf fs).
Proof. intros H a b _. unfold prodf. apply (is_poly_fprod fs (fun f x => f (a ++ x :: b))). intros f Hf. apply H. auto. Qed.
Lemma multilin_mle l : multilin (mle l).
Proof. intros a b. apply mlef_is_poly. Qed.
Lemma multilin_mle_suffix l s : multilin (fun pt => mle l (pt ++ s)).
Proof. intros a b. eapply is_poly_ext; [|apply (mlef_is_poly (fun i => nth i l 0) a (b ++ s))]. intros x. cbv beta. rewrite <- app_assoc. reflexivity. Qed.
Lemma multilin_mle_prefix l s : multilin (fun pt => mle l (s ++ pt)).
Proof. intros a b. eapply is_poly_ext; [|apply (mlef_is_poly (fun i => nth i l 0) (s ++ a) b)]. intros x. cbv beta. rewrite <- app_assoc. reflexivity. Qed.
Lemma multilin_eqp r : multilin (eqp r).
Proof. intros a b. apply eqp_is_poly. Qed.
Lemma virtual_claim_fprod (l : list K) : virtual_claim l = fprod l.
Proof. unfold virtual_claim. rewrite fold_left_fmul. ring. Qed.

Lemma product_sound (T : @hist K -> K) claimed pf nv fs h rs e h' :
  char_gt K (length fs) -> 0 < nv -> (forall f, In f fs -> multilin f) ->
  verify T claimed pf nv (length fs) h = Some (rs, e, h') -> e = prodf fs rs ->
  claimed = hsum nv (prodf fs) \/ root_event T nv (length fs) (prodf fs) h pf.
Proof.
  intros Hc Hn Hf Hv He. destruct (feq_dec claimed (hsum nv (prodf fs))) as [E|N]; [left; auto|right].
  eapply (verify_sound T claimed pf nv (length fs) h rs e h'); eauto. apply prodf_deg; auto.
Qed.

Definition prod_shape (d n : nat) : @vp K := mkVp d n [(1, seq 0 d)] (repeat (mkMle (Ext []) n) d).

Lemma add_ones_fresh : forall (ms : list (dmle K)) k t done ix, length done = k -> (forall a, k <= a -> tbl_get t a = None) ->
  exists t', fold_left add_one (combine (seq k (length ms)) ms) (t, done, ix) = (t', done ++ ms, ix ++ seq k (length ms)).
Proof.
  induction ms as [|m ms IH]; intros k t done ix Hk Ht; cbn [length seq combine fold_left].
  - exists t. rewrite !app_nil_r. reflexivity.
  - assert (E1 : add_one (t, done, ix) (k, m) = ((k, length done) :: t, done ++ [m], ix ++ [length done]))
      by (unfold add_one; cbn [fst snd]; rewrite Ht by lia; reflexivity).
    rewrite E1.
    destruct (IH (S k) ((k, length done) :: t) (done ++ [m]) (ix ++ [length done])) as (t' & E).
    + rewrite app_length. cbn [length]. lia.
    + intros a Ha. cbn [tbl_get]. destruct (Nat.eqb_spec a k); [lia|]. apply Ht. lia.
    + exists t'. etransitivity; [exact E|]. rewrite <- !app_assoc. cbn [app]. rewrite Hk. reflexivity.
Qed.

Lemma combine_heap (ms : list (dmle K)) (d : dmle K) : forall k,
  combine (seq k (length ms)) ms = map (fun a => (a, nth (a - k) ms d)) (seq k (length ms)).
Proof.
  induction ms as [|m ms IH]; intros k; [reflexivity|]. cbn [length seq combine map]. rewrite Nat.sub_diag. cbn [nth]. f_equal.
  rewrite IH. apply map_ext_in. intros a Ha. apply in_seq in Ha. f_equal. replace (a - k)%nat with (S (a - S k)) by lia. reflexivity.
Qed.

Lemma nth_map_seq0 {A B} (f : A -> B) (l : list A) d : map (fun i => f (nth i l d)) (seq 0 (length l)) = map f l.
Proof.
  induction l as [|a l IH]; [reflexivity|]. cbn [length seq map nth]. f_equal. rewrite <- seq_shift, map_map. exact IH.
Qed.

Lemma product_prove_ok (T : @hist K -> K) ncpus scs nv (ls : list (list K)) h :
  0 < ncpus -> 0 < nv -> char_gt K (length ls) -> 0 < length ls <= 5 -> (forall l, In l ls -> length l = 2 ^ nv) ->
  (forall i, i < nv -> valid_rsched (prod_shape (length ls) nv) i (scs i)) ->
  exists pf h', product_prove T ncpus scs nv (map (fun l => mkMle (Ext l) nv) ls) h
      = Some (pf, map (fun l => mle l (pf_point pf)) ls, h') /\ length (pf_point pf) = nv /\
    ((forall r, In r (pf_point pf) -> not_node (length ls) r) ->
     verify T (hsum nv (prodf (map mle ls))) pf nv (length ls) h = Some (pf_point pf, prodf (map mle ls) (pf_point pf), h')).
Proof.
  intros Hnc Hn Hch Hd Hl Hsc. set (d := length ls) in *. set (ms := map (fun l => mkMle (Ext l) nv) ls).
  assert (Lms : length ms = d) by (unfold ms; rewrite map_length; reflexivity).
  set (dm0 := mkMle (Ext (@nil K)) nv). set (heap := fun a => nth a ms dm0).
  assert (Hwt : wf_terms heap nv [(1, seq 0 d)]).
  { intros c ps [E|[]]. assert (c = 1) by congruence. assert (ps = seq 0 d) by congruence. subst c ps.
    assert (Hw : forall a, In a (seq 0 d) -> wf_mle (heap a) /\ num_vars (heap a) = nv).
    { intros a Ha. apply in_seq in Ha. unfold heap, ms. rewrite (nth_map_lt _ _ _ []) by (fold d; lia).
      cbn [num_vars]. split; [|reflexivity]. split; [reflexivity|]. split; [right; reflexivity|]. apply Hl. apply nth_In. fold d. lia. }
    split; [destruct d; [lia|discriminate]|]. split; [rewrite seq_length; lia|]. split.
    - intros a Ha. destruct (Hw a Ha) as [? ->]. split; [auto|lia].
    - intros a b Ha Hb. destruct (Hw a Ha) as [_ ->]. destruct (Hw b Hb) as [_ ->]. reflexivity. }
  destruct (build_new heap nv [(1, seq 0 d)] Hn ltac:(discriminate) Hwt) as (t & p & Eb & Hwp & Hpn & Hpd & Hval).
  cbn [build fst snd] in Eb.
  assert (Ec : map (fun a => (a, heap a)) (seq 0 d) = combine (seq 0 (length ms)) ms).
  { rewrite (combine_heap ms dm0 0), Lms. apply map_ext. intros a. unfold heap. rewrite Nat.sub_0_r. reflexivity. }
  rewrite Ec in Eb.
  destruct (add_mle_list [] (vp_new nv) (combine (seq 0 (length ms)) ms) 1) as [[t' p']|] eqn:Ea; [|discriminate].
  cbn [obind] in Eb. assert (p' = p) by congruence. subst p'. clear Eb.
  assert (Ep : p = mkVp d nv [(1, seq 0 d)] ms).
  { unfold add_mle_list in Ea. destruct (combine (seq 0 (length ms)) ms) as [|x0 xs] eqn:Ex; [discriminate|].
    destruct (forallb _ _ && forallb _ _); [|discriminate]. rewrite <- Ex in Ea.
    destruct (add_ones_fresh ms 0 [] [] [] eq_refl ltac:(reflexivity)) as (t2 & E2).
    cbn [vp_new vp_mles vp_deg vp_nv vp_products] in Ea. rewrite E2 in Ea. cbn [app] in Ea. rewrite combine_length, seq_length, Nat.min_id, Lms in Ea.
    cbn [Nat.max] in Ea. congruence. }
  unfold product_prove. rewrite Ea. cbn [obind snd].
  destruct (parallel_completeness T ncpus scs p h Hnc) as (pf & st & h' & Epf & Hlpt & Hfin & Hver); auto.
  { rewrite Ep. exact Hch. }
  { rewrite Hpn. intros i Hi. destruct (Hsc i Hi) as [A B C]. subst p. constructor.
    - intros Hk j Hj Hjk. cbn [vp_mles] in *. specialize (A Hk j). cbn [prod_shape vp_mles] in A. rewrite repeat_length in A.
      assert (Ej : num_vars (nth j ms dm) = nv) by (unfold ms; rewrite (nth_map_lt _ _ _ []) by (fold d; lia); reflexivity).
      assert (Er : nth j (repeat (mkMle (Ext []) nv) d) dm = dm0).
      { rewrite (nth_indep _ dm dm0) by (rewrite repeat_length; lia). apply nth_repeat. }
      rewrite Er in A. cbn [dm0 num_vars] in A. rewrite Ej in Hjk |- *. apply A; lia.
    - intros q Hq Hkq. cbn [vp_products length] in Hq. assert (q = 0%nat) by lia. subst q. specialize (B 0%nat).
      assert (Eq : forall mm : list (dmle K), prod_nv (mkVp d nv [(1, seq 0 d)] mm) 0 = num_vars (nth 0 mm dm)).
      { intros mm. unfold prod_nv. cbn [vp_products nth vp_mles snd]. destruct d; [lia|]. reflexivity. }
      unfold prod_shape in B. rewrite Eq in B, Hkq. rewrite Eq.
      assert (E0 : num_vars (nth 0 ms dm) = nv) by (unfold ms; rewrite (nth_map_lt _ _ _ []) by (fold d; lia); reflexivity).
      assert (Er : num_vars (nth 0 (repeat (mkMle (Ext (@nil K)) nv) d) dm) = nv) by (destruct d; [lia|reflexivity]).
      rewrite Er in B. rewrite E0 in Hkq |- *. apply B; cbn; lia.
    - exact C. }
  rewrite Epf. cbn [obind]. rewrite Hfin. cbn [obind].
  assert (Emap : map (fun m => mval m (pf_point pf)) (vp_mles p) = map (fun l => mle l (pf_point pf)) ls).
  { rewrite Ep. cbn [vp_mles]. unfold ms. rewrite map_map. apply map_ext. intros l. unfold mval. cbn [num_vars tbl evaluations].
    rewrite firstn_all2 by lia. reflexivity. }
  rewrite Emap. exists pf, h'. split; [reflexivity|]. rewrite Hpn in Hlpt. split; [auto|]. intros Hr.
  assert (Hv : forall pt, length pt = nv -> vp_val p pt = prodf (map mle ls) pt).
  { intros pt Hpt. rewrite Hval. unfold terms_val. cbn [map fsum fst snd]. unfold prodf. rewrite map_map.
    rewrite (map_ext_in _ (fun a => mle (nth a ls []) pt)).
    - unfold d. rewrite (nth_map_seq0 (fun l => mle l pt)). ring.
    - intros a Ha. apply in_seq in Ha. unfold heap, ms. rewrite (nth_map_lt _ _ _ []) by (fold d; lia). cbn [num_vars tbl evaluations].
      rewrite firstn_all2 by lia. reflexivity. }
  rewrite Hpn in Hver. replace (vp_deg p) with d in Hver by (rewrite Ep; reflexivity). specialize (Hver Hr).
  rewrite Hv in Hver by auto. rewrite <- Hver. f_equal. symmetry. apply hsum_ext. intros pt Hpt. apply Hv. auto.
Qed.
End P.
