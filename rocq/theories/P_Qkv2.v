(** Proofs about [M_Qkv]: honest proofs are accepted; the stated point of the aggregation makes the layer forgeable. *)
From Coq Require Import List Arith Lia Bool ZArith Field Permutation.
From Verif Require Import ListAux FieldDef PolyList MleMath M_Mle P_Mle P_Eq M_Interp P_Interp M_Sumcheck
  P_ScVerify P_ScProve P_ScProve2 P_ScBatch P_ScFinal M_ScParallel P_ScParallel P_ScApi P_Count M_SamePoly P_SamePoly
  M_Tensor P_Tensor P_Tensor2 P_Tensor3 M_Pad P_Pad P_Pad2 P_Pad3 M_Layers P_Layers P_Layers2 P_Layers3 M_Sop P_Sop M_Qkv P_Qkv.
Import ListNotations.

Section P.
Context {K : field}.
Add Field Kf_qkv2 : (fth K).
Local Open Scope F_scope.

Lemma fix_high_ext n (l pp : list K) : length l = 2 ^ n -> length pp <= n ->
  fix_high_variables (mkMle (Ext l) n) pp = Some (mkMle (Ext (high_table n l pp)) (n - length pp)).
Proof.
  intros Hl Hp. destruct pp as [|p pp].
  - unfold fix_high_variables. cbn [length rev Nat.leb obind num_vars]. rewrite Nat.sub_0_r, Nat.eqb_refl, high_table_nil by auto. reflexivity.
  - apply fix_high_variables_spec; [apply ext_is_table; auto|auto|discriminate].
Qed.


Lemma qkv_complete (T : @hist K -> K) ncpus scs sps es (l : @qkv K) (input : ten K) (outputs : list (ten K)) lasts h m k n o1 o2 :
  0 < ncpus -> char_gt K 2 -> 0 < k ->
  sh input = [2 ^ m; 2 ^ k]%nat -> Forall (fun w => sh w = [2 ^ k; 2 ^ n]%nat) (qk_weights l) ->
  Forall (fun o => sh o = [2 ^ m; 2 ^ n]%nat) outputs ->
  qkv_outputs m k n (dat input) (map (@dat K) (qk_weights l)) (map (@dat K) (qk_biases l)) (map (@dat K) outputs) ->
  Forall2 claim_true (map (@dat K) outputs) lasts ->
  valid_sched n es -> (forall i, i < k -> valid_rsched (sop_shape (K := K) k 6 [[0; 1]; [2; 3]; [4; 5]]%nat) i (scs i)) ->
  (forall i, i < m + k -> valid_rsched (K := K) (sp_shape (m + k)) i (sps i)) ->
  exists c wc bc pf h', qkv_prove T ncpus scs sps es l input outputs lasts h = Some (c, wc, bc, pf, h') /\
    claim_true (dat input) c /\ Forall2 claim_true (map (@dat K) (qk_weights l)) wc /\ Forall2 claim_true (map (@dat K) (qk_biases l)) bc /\
    ((forall r, In r (pf_point (qp_sumcheck pf)) \/ In r (pf_point (sp_sumcheck (qp_agg pf))) -> not_node 2 r) ->
     qkv_verify T k [[2 ^ m; 2 ^ k]%nat] [[2 ^ m; 2 ^ n]%nat; o1; o2] lasts pf h = Some (c, wc, bc, h')).
Proof.
  intros Hnc Hch Hk Ei Hw Ho Hout Hl Hes Hsc Hsp. destruct Hout as (_ & _ & Lo & HM). rewrite map_length in Lo.
  destruct outputs as [|t0 [|t1 [|t2 [|]]]]; try discriminate Lo. clear Lo.
  destruct l as [wq wk wv bq bk bv]. unfold qk_weights, qk_biases in *. cbn [qk_wq qk_wk qk_wv qk_bq qk_bk qk_bv map] in *.
  pose proof (HM 0%nat ltac:(lia)) as M0. pose proof (HM 1%nat ltac:(lia)) as M1. pose proof (HM 2%nat ltac:(lia)) as M2. cbn [nth] in M0, M1, M2. clear HM.
  pose proof (Forall_inv Hw) as S0. pose proof (Forall_inv (Forall_inv_tail Hw)) as S1. pose proof (Forall_inv (Forall_inv_tail (Forall_inv_tail Hw))) as S2. clear Hw.
  pose proof (Forall_inv Ho) as R0. pose proof (Forall_inv (Forall_inv_tail Ho)) as R1. pose proof (Forall_inv (Forall_inv_tail (Forall_inv_tail Ho))) as R2. clear Ho. cbv beta in *.
  assert (Elasts : exists l0 l1 l2, lasts = [l0; l1; l2]).
  { destruct lasts as [|l0 [|l1 [|l2 [|]]]]; [| | |eauto|]; exfalso; inversion Hl as [|? ? ? ? _ Hl1]; inversion Hl1 as [|? ? ? ? _ Hl2];
      inversion Hl2 as [|? ? ? ? _ Hl3]; inversion Hl3. }
  destruct Elasts as (l0 & l1 & l2 & El). subst lasts. apply F2_three in Hl. destruct Hl as (C0 & C1 & C2).
  assert (Hlen : forall t b w c, matprod false m k n (dat input) w (Some b) (dat t) -> claim_true (dat t) c -> length (cl_point c) = (m + n)%nat).
  { intros t b w c Mt [Lc _]. assert (Lt : length (dat t) = 2 ^ (m + n)) by apply Mt. apply (Nat.pow_inj_r 2); lia. }
  pose proof (Hlen _ _ _ _ M0 C0) as P0. pose proof (Hlen _ _ _ _ M1 C1) as P1. pose proof (Hlen _ _ _ _ M2 C2) as P2. clear Hlen.
  assert (LX : length (dat input) = 2 ^ (m + k)) by apply M0.
  assert (B0 : length (dat bq) = 2 ^ n) by apply M0. assert (B1 : length (dat bk) = 2 ^ n) by apply M1. assert (B2 : length (dat bv) = 2 ^ n) by apply M2.
  assert (W0 : length (dat wq) = 2 ^ (k + n)) by apply M0. assert (W1 : length (dat wk) = 2 ^ (k + n)) by apply M1. assert (W2 : length (dat wv) = 2 ^ (k + n)) by apply M2.
  unfold qkv_prove. change (Nat.eqb (length [l0; l1; l2]) 3) with true. cbn [andb qk_wq].
  assert (Im : is_matrix input = true) by (unfold is_matrix; rewrite Ei; reflexivity). rewrite Im.
  rewrite (ncols_pow input m k Ei), (nrows_pow wq k n S0). cbn [obind]. rewrite Nat.eqb_refl.
  rewrite (nrows_pow input m k Ei), (ncols_pow wq k n S0). cbn [obind length Nat.eqb andb forallb]. rewrite R0, R1, R2.
  destruct (list_eq_dec Nat.eq_dec [2 ^ m; 2 ^ n]%nat [2 ^ m; 2 ^ n]%nat) as [_|N]; [|exfalso; apply N; reflexivity]. cbn [andb nth_error obind].
  assert (Ov : num_vars_2d t0 = Some (m, n)).
  { unfold num_vars_2d, is_matrix. rewrite R0. cbn [length Nat.eqb]. rewrite (nrows_pow t0 m n R0), (ncols_pow t0 m n R0). cbn [obind]. rewrite !ilog2_pow. reflexivity. }
  rewrite Ov. cbn [obind fst snd]. rewrite P0, P1, P2, !Nat.eqb_refl. cbn [andb].
  unfold qk_biases. cbn [combine omapM qk_bq qk_bk qk_bv].
  rewrite !qkv_split_ok by auto. cbn [obind snd]. rewrite B0, B1, B2, !ilog2_pow. cbn [obind].
  assert (Q : forall c : @claim K, length (cl_point c) = (m + n)%nat -> length (firstn n (cl_point c)) = n /\ length (skipn n (cl_point c)) = m).
  { intros c Lc. rewrite firstn_length, skipn_length. lia. }
  destruct (Q l0 P0) as [F0 K0]. destruct (Q l1 P1) as [F1 K1]. destruct (Q l2 P2) as [F2 K2]. clear Q.
  rewrite F0, F1, F2, !Nat.eqb_refl, !(into_mle_ext_ok n) by auto. cbn [obind]. rewrite !(evaluate_ext es n) by auto. cbn [obind map snd fst].
  set (b0 := mle (dat bq) (firstn n (cl_point l0))). set (b1 := mle (dat bk) (firstn n (cl_point l1))). set (b2 := mle (dat bv) (firstn n (cl_point l2))).
  set (pre := [cl_eval l0 - b0; cl_eval l1 - b1; cl_eval l2 - b2]).
  pose proof (qkv_chs_len T [l0; l1; l2] pre h) as Lch.
  assert (Ech1 : nth 0 (fst (qkv_challenges T [l0; l1; l2] pre h)) 0 = nth 0 (fst (qkv_challenges T [l0; l1; l2] pre h)) 0) by reflexivity.
  rewrite (surjective_pairing (qkv_challenges T [l0; l1; l2] pre h)).
  destruct (fst (qkv_challenges T [l0; l1; l2] pre h)) as [|c0 [|c1 [|c2 [|]]]] eqn:Echs; try discriminate Lch. clear Lch Ech1.
  set (h1 := snd (qkv_challenges T [l0; l1; l2] pre h)).
  rewrite (to_mle_2d_ok input m k) by auto. cbn [obind].
  assert (Iv : num_vars_2d input = Some (m, k)).
  { unfold num_vars_2d. rewrite Im. rewrite (nrows_pow input m k Ei), (ncols_pow input m k Ei). cbn [obind]. rewrite !ilog2_pow. reflexivity. }
  rewrite Iv. cbn [obind]. unfold qk_weights. cbn [combine omapM qk_wq qk_wk qk_wv]. rewrite !(to_mle_2d_ok _ k n) by auto. cbn [obind].
  rewrite !qkv_split_ok by auto. cbn [obind fst snd].
  rewrite (fix_high_ext (m + k) (dat input) (skipn n (cl_point l0))) by (auto; lia). rewrite (fix_high_ext (m + k) (dat input) (skipn n (cl_point l1))) by (auto; lia).
  rewrite (fix_high_ext (m + k) (dat input) (skipn n (cl_point l2))) by (auto; lia). cbn [obind].
  rewrite (fvip_ext (k + n) (dat wq) (firstn n (cl_point l0))) by (auto; lia). rewrite (fvip_ext (k + n) (dat wk) (firstn n (cl_point l1))) by (auto; lia).
  rewrite (fvip_ext (k + n) (dat wv) (firstn n (cl_point l2))) by (auto; lia). cbn [obind concat app]. rewrite K0, K1, K2, F0, F1, F2.
  replace (m + k - m)%nat with k by lia. replace (k + n - n)%nat with k by lia.
  set (i0 := high_table (m + k) (dat input) (skipn n (cl_point l0))). set (i1 := high_table (m + k) (dat input) (skipn n (cl_point l1))).
  set (i2 := high_table (m + k) (dat input) (skipn n (cl_point l2))).
  set (w0 := low_table (k + n) (dat wq) (firstn n (cl_point l0))). set (w1 := low_table (k + n) (dat wk) (firstn n (cl_point l1))).
  set (w2 := low_table (k + n) (dat wv) (firstn n (cl_point l2))).
  assert (Li : length i0 = 2 ^ k /\ length i1 = 2 ^ k /\ length i2 = 2 ^ k).
  { unfold i0, i1, i2. rewrite !high_table_length, K0, K1, K2. replace (m + k - m)%nat with k by lia. auto. }
  assert (Lw : length w0 = 2 ^ k /\ length w1 = 2 ^ k /\ length w2 = 2 ^ k).
  { unfold w0, w1, w2. rewrite !low_table_length, F0, F1, F2. replace (k + n - n)%nat with k by lia. auto. }
  destruct (sop_ok T ncpus scs k [mkMle (Ext i0) k; mkMle (Ext w0) k; mkMle (Ext i1) k; mkMle (Ext w1) k; mkMle (Ext i2) k; mkMle (Ext w2) k]
      [i0; w0; i1; w1; i2; w2] [(c0, [0; 1]%nat); (c1, [2; 3]%nat); (c2, [4; 5]%nat)] h1) as (pf & h2 & Es & Lpt & Hver); auto.
  { discriminate. }
  { intros c ix [E|[E|[E|[]]]]; apply (f_equal snd) in E; cbn [snd] in E; subst ix; (split; [discriminate|cbn; lia]). }
  { destruct Li as (? & ? & ?), Lw as (? & ? & ?). repeat (constructor; [apply ext_is_table; auto|]). constructor. }
  rewrite Es. cbn [obind map].
  assert (HI : forall (c : @claim K) pt, length (skipn n (cl_point c)) = m -> length pt = k ->
    mle (high_table (m + k) (dat input) (skipn n (cl_point c))) pt = mle (dat input) (pt ++ skipn n (cl_point c))).
  { intros c pt Lc Lp. apply high_then_eval; auto. rewrite app_length. lia. }
  assert (HW : forall (w : ten K) (c : @claim K) pt, length (dat w) = 2 ^ (k + n) -> length (firstn n (cl_point c)) = n -> length pt = k ->
    mle (low_table (k + n) (dat w) (firstn n (cl_point c))) pt = mle (dat w) (firstn n (cl_point c) ++ pt)).
  { intros w c pt Lc Lp Lp'. apply low_then_eval; auto. rewrite app_length. lia. }
  set (pt := pf_point pf) in *.
  set (ind := [(mle i0 pt, mle w0 pt); (mle i1 pt, mle w1 pt); (mle i2 pt, mle w2 pt)]).
  set (ics := qkv_in_claims n [l0; l1; l2] ind pt).
  set (wcs := [mkClaim (firstn n (cl_point l0) ++ pt) (mle w0 pt); mkClaim (firstn n (cl_point l1) ++ pt) (mle w1 pt); mkClaim (firstn n (cl_point l2) ++ pt) (mle w2 pt)]).
  assert (Ecl : qkv_claims [l0; l1; l2] ind pt (m, n) = Some (combine ics wcs)).
  { unfold qkv_claims, ind, qkv_points. cbn [combine omapM]. rewrite !qkv_split_ok by auto. reflexivity. }
  rewrite Ecl. cbn [obind]. change (map fst (combine ics wcs)) with ics. change (map snd (combine ics wcs)) with wcs.
  assert (Htic : forall c, In c ics -> length (cl_point c) = (m + k)%nat /\ cl_eval c = mle (dat input) (cl_point c)).
  { unfold ics, qkv_in_claims, ind. cbn [seq map nth]. intros c [<-|[<-|[<-|[]]]]; cbn [cl_point cl_eval fst];
      (split; [rewrite app_length; lia|apply HI; auto]). }
  destruct (sp_complete_ev T ncpus sps (mkMle (Ext (dat input)) (m + k)) ics h2 (m + k) (dat input)) as (spf & h3 & Esp & Lsp & Ese & Hspv); auto.
  { lia. }
  { right. unfold from_evaluations_ext_vec. rewrite LX, Nat.eqb_refl. reflexivity. }
  rewrite Esp. cbn [obind]. cbn [nth_error] in Ese. rewrite Ese. cbn [obind].
  set (ip := pf_point (sp_sumcheck spf)) in *.
  exists (mkClaim ip (mle (dat input) ip)), wcs,
    [mkClaim (firstn n (cl_point l0)) b0; mkClaim (firstn n (cl_point l1)) b1; mkClaim (firstn n (cl_point l2)) b2].
  do 2 eexists. split; [reflexivity|].
  split; [split; cbn [cl_point cl_eval]; [rewrite Lsp; auto|reflexivity]|].
  split.
  { unfold wcs. constructor; [|constructor; [|constructor; [|constructor]]]; split; cbn [cl_point cl_eval];
      try (rewrite app_length, Lpt, ?F0, ?F1, ?F2; rewrite ?W0, ?W1, ?W2; f_equal; lia); apply HW; auto. }
  split.
  { constructor; [|constructor; [|constructor; [|constructor]]]; split; cbn [cl_point cl_eval]; try reflexivity; rewrite ?F0, ?F1, ?F2; auto. }
  cbn [qp_sumcheck qp_agg]. intros Hn.
  specialize (Hspv (fun r Hr => Hn r (or_intror Hr))).
  change (sop_deg [(c0, [0; 1]%nat); (c1, [2; 3]%nat); (c2, [4; 5]%nat)]) with 2%nat in Hver. specialize (Hver (fun r Hr => Hn r (or_introl Hr))).
  unfold qkv_verify. cbn [length Nat.eqb andb nth_error obind]. rewrite !ilog2_pow. cbn [obind qp_pre qp_sumcheck qp_agg].
  assert (Ebias : omapM (fun '(c, e) => s <- qkv_split (cl_point c) (m, n) ;; Some (mkClaim (snd s) (cl_eval c - e))) (combine [l0; l1; l2] pre)
    = Some [mkClaim (firstn n (cl_point l0)) b0; mkClaim (firstn n (cl_point l1)) b1; mkClaim (firstn n (cl_point l2)) b2]).
  { unfold pre. cbn [combine omapM]. rewrite !qkv_split_ok by auto. cbn [obind snd]. do 2 f_equal; [f_equal; ring|]. f_equal; [f_equal; ring|]. f_equal. f_equal. ring. }
  rewrite Ebias. cbn [obind]. rewrite (surjective_pairing (qkv_challenges T [l0; l1; l2] pre h)), Echs. fold h1.
  assert (HF : forall x, length x = k -> sopf [i0; w0; i1; w1; i2; w2] [(c0, [0; 1]%nat); (c1, [2; 3]%nat); (c2, [4; 5]%nat)] x
      = c0 * qkv_term n (dat input) (dat wq) l0 x + c1 * qkv_term n (dat input) (dat wk) l1 x + c2 * qkv_term n (dat input) (dat wv) l2 x).
  { intros x Lx. unfold sopf, qkv_term. cbn [map fsum fprod fst snd nth]. unfold i0, i1, i2, w0, w1, w2. rewrite !HI, !HW by auto. ring. }
  assert (HS : hsum k (sopf [i0; w0; i1; w1; i2; w2] [(c0, [0; 1]%nat); (c1, [2; 3]%nat); (c2, [4; 5]%nat)])
      = fold_left (fun acc '(e, c) => acc + e * c) (combine pre [c0; c1; c2]) 0).
  { rewrite (hsum_ext _ _ _ HF). unfold hsum. rewrite !sumn_add, !sumn_scal. fold (hsum k (qkv_term n (dat input) (dat wq) l0)).
    fold (hsum k (qkv_term n (dat input) (dat wk) l1)). fold (hsum k (qkv_term n (dat input) (dat wv) l2)).
    unfold pre. cbn [combine fold_left]. destruct C0 as [_ ->], C1 as [_ ->], C2 as [_ ->].
    rewrite (qkv_matprod m k n _ _ _ _ l0 M0 P0), (qkv_matprod m k n _ _ _ _ l1 M1 P1), (qkv_matprod m k n _ _ _ _ l2 M2 P2).
    fold b0 b1 b2. ring. }
  rewrite <- HS, Hver. cbn [obind]. unfold qp_ind. cbn [qp_q qp_k qp_v]. fold ind. rewrite Ecl. cbn [obind Nat.leb length].
  replace (qkv_virtual ind [c0; c1; c2]) with (sopf [i0; w0; i1; w1; i2; w2] [(c0, [0; 1]%nat); (c1, [2; 3]%nat); (c2, [4; 5]%nat)] pt).
  2: { unfold qkv_virtual, ind, sopf. cbn [combine fold_left map fsum fprod fst snd nth]. ring. }
  rewrite feqb_refl. cbn [fold_right]. rewrite Nat.mul_1_r, <- Nat.pow_add_r, ilog2_pow. cbn [obind].
  change (map fst (combine ics wcs)) with ics. rewrite Hspv. cbn [obind]. change (map snd (combine ics wcs)) with wcs.
  reflexivity.
Qed.

(** *** The integer layer: each output of [evaluate] (qkv.rs:278-317). *)
Lemma qkv_integer (w b x : ten Z) m k n : wft x -> wft w -> wft b -> sh x = [2 ^ m; 2 ^ k]%nat -> sh w = [2 ^ k; 2 ^ n]%nat -> sh b = [2 ^ n]%nat ->
  exists y, qkv_eval 0%Z Z.add Z.mul w b x = Some y /\ sh y = [2 ^ m; 2 ^ n]%nat /\
    matprod (K := K) false m k n (embed (dat x)) (embed (dat w)) (Some (embed (dat b))) (embed (dat y)).
Proof.
  intros Wx Ww Wb Sx Sw Sb.
  destruct (matmul_integer (K := K) (mkMM Input (Weight w []) (Some b) false) [x] x w m k n) as (y & Ey & Sy & My); auto.
  { apply (wz_right _ x w []); reflexivity. }
  { intros b' E. cbn [mm_bias] in E. assert (b' = b) by congruence. subst. auto. }
  exists y. split; [|split; [exact Sy|exact My]].
  unfold matmul_op in Ey. cbn [mm_left mm_right mm_transpose mm_bias nth_error obind maybe_transpose] in Ey. unfold mm_product in Ey.
  pose proof (pow2_pos k). pose proof (pow2_pos m). pose proof (pow2_pos n).
  rewrite (nrows_pow w k n Sw), (ncols_pow x m k Sx) in Ey. cbn [obind] in Ey. rewrite Nat.eqb_refl in Ey. unfold qkv_eval.
  destruct (matmul 0%Z Z.add Z.mul x w) as [u|]; [|discriminate]. cbn [obind] in *.
  destruct (sh u) as [|? [|p ?]]; try discriminate. rewrite Sb in Ey. destruct (Nat.eqb p (2 ^ n)); [exact Ey|discriminate].
Qed.
End P.
