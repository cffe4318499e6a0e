(** Proofs about [M_Qkv]: the verifier believes the point stated by the aggregation, so an accepted proof can be restated
    for another input. *)
From Coq Require Import List Arith Lia Bool ZArith Field Permutation.
From Verif Require Import ListAux FieldDef PolyList MleMath M_Mle P_Mle P_Eq M_Interp P_Interp M_Sumcheck
  P_ScVerify P_ScProve P_ScProve2 P_ScBatch P_ScFinal M_ScParallel P_ScParallel P_ScApi P_Count M_SamePoly P_SamePoly
  M_Tensor P_Tensor P_Tensor2 P_Tensor3 M_Pad P_Pad P_Pad2 P_Pad3 M_Layers P_Layers P_Layers2 P_Layers3 M_Sop P_Sop M_Qkv P_Qkv P_Qkv2.
Import ListNotations.

Section P.
Context {K : field}.
Add Field Kf_qkv3 : (fth K).
Local Open Scope F_scope.

(** The same proof with another stated point and other final values of the aggregation. *)
Definition restated (pf : @qkv_proof K) (pt : list K) (b v : K) : qkv_proof :=
  mkQp (qp_sumcheck pf) (mkSp (mkProof pt (pf_proofs (sp_sumcheck (qp_agg pf)))) [b; v]) (qp_pre pf) (qp_q pf) (qp_k pf) (qp_v pf).
(** The weight of a point in the aggregation: the challenges times the selectors of the three input claims. *)
Definition agg_weight (T : @hist K -> K) (ic : list (@claim K)) (h2 : hist) (pt : list K) : K :=
  rlc (fst (read_challenges T 3 h2)) (fun j => eqp (cl_point (nth j ic dcl)) pt).

Lemma verify_point_free (T : @hist K -> K) claimed p p' nv deg h : pf_proofs p = pf_proofs p' ->
  verify T claimed p nv deg h = verify T claimed p' nv deg h.
Proof. intros E. unfold verify. destruct (Nat.eqb nv 0); [reflexivity|]. unfold verify_step. rewrite E. reflexivity. Qed.

Lemma sp_restate (T : @hist K -> K) n claims pf h c h' pt v :
  sp_verify T n claims pf h = Some (c, h') ->
  let B := fun p => rlc (fst (read_challenges T (length claims) h)) (fun j => eqp (cl_point (nth j claims dcl)) p) in
  B pt * v = B (cl_point c) * cl_eval c ->
  sp_verify T n claims (mkSp (mkProof pt (pf_proofs (sp_sumcheck pf))) [B pt; v]) h = Some (mkClaim pt v, h').
Proof.
  intros Hv B HB. unfold sp_verify in *. destruct (forallb _ claims); [|discriminate].
  pose proof (read_challenges_length T (length claims) h) as Hl.
  destruct (read_challenges T (length claims) h) as [cs h1]. cbn [fst] in *.
  destruct (aggregated_rlc (map cl_eval claims) cs) as [y|]; [|discriminate]. cbn [obind sp_sumcheck sp_evals pf_point] in *.
  rewrite (verify_point_free T y (mkProof pt (pf_proofs (sp_sumcheck pf))) (sp_sumcheck pf)) by reflexivity.
  destruct (verify T y (sp_sumcheck pf) n 2 h1) as [[[rs e] h2]|]; [|discriminate]. cbn [obind nth_error] in *.
  rewrite agg_computed in Hv |- * by auto. fold (B pt).
  change (rlc cs (fun j => eqp (cl_point (nth j claims dcl)) (pf_point (sp_sumcheck pf)))) with (B (pf_point (sp_sumcheck pf))) in Hv.
  destruct (sp_evals pf) as [|g [|e1 r]]; cbn [nth_error obind] in Hv; try discriminate.
  { destruct (B (pf_point (sp_sumcheck pf)) =? g); discriminate. }
  destruct (B (pf_point (sp_sumcheck pf)) =? g) eqn:Eg; [|discriminate]. apply feqb_true in Eg.
  destruct (g * e1 =? e) eqn:Ee; [|discriminate]. apply feqb_true in Ee.
  injection Hv as <- <-. cbn [cl_point cl_eval] in HB. rewrite feqb_refl. cbn [obind].
  rewrite HB, Eg, Ee, feqb_refl. reflexivity.
Qed.

Lemma qkv_restate (T : @hist K -> K) m k n osr lasts pf h c wc bc h' :
  qkv_verify T k [[2 ^ m; 2 ^ k]%nat] ([2 ^ m; 2 ^ n]%nat :: osr) lasts pf h = Some (c, wc, bc, h') ->
  exists claimed rs e h2, verify T claimed (qp_sumcheck pf) k 2 (snd (qkv_challenges T lasts (qp_pre pf) h)) = Some (rs, e, h2) /\
    let B := agg_weight T (qkv_in_claims n lasts (qp_ind pf) rs) h2 in
    forall pt v, B pt * v = B (cl_point c) * cl_eval c ->
      qkv_verify T k [[2 ^ m; 2 ^ k]%nat] ([2 ^ m; 2 ^ n]%nat :: osr) lasts (restated pf pt (B pt) v) h = Some (mkClaim pt v, wc, bc, h').
Proof.
  intros Hv. unfold qkv_verify in Hv.
  destruct (Nat.eqb (length ([2 ^ m; 2 ^ n]%nat :: osr)) 3 && Nat.eqb (length lasts) 3) eqn:El; [|discriminate].
  cbn [nth_error obind] in Hv. rewrite !ilog2_pow in Hv. cbn [obind] in Hv.
  destruct (omapM _ (combine lasts (qp_pre pf))) as [bias|] eqn:Eb; [|discriminate]. cbn [obind] in Hv.
  destruct (qkv_challenges T lasts (qp_pre pf) h) as [chs h1] eqn:Ech.
  match type of Hv with context [verify T ?x _ _ _ _] => set (ev := x) in * end.
  destruct (verify T ev (qp_sumcheck pf) k 2 h1) as [[[rs e] h2]|] eqn:Ev; [|discriminate]. cbn [obind] in Hv.
  destruct (qkv_claims lasts (qp_ind pf) rs (m, n)) as [cls|] eqn:Ec; [|discriminate]. cbn [obind] in Hv.
  destruct (Nat.leb 3 (length bias)) eqn:E3; [|discriminate].
  destruct (qkv_virtual (qp_ind pf) chs =? e) eqn:Ee; [|discriminate].
  cbn [fold_right] in Hv. rewrite Nat.mul_1_r, <- Nat.pow_add_r, ilog2_pow in Hv. cbn [obind] in Hv.
  destruct (sp_verify T (m + k) (map fst cls) (qp_agg pf) h2) as [[c' h3]|] eqn:Es; [|discriminate]. cbn [obind] in Hv.
  assert (c' = c) by congruence. assert (map snd cls = wc) by congruence. assert (bias = bc) by congruence. assert (h3 = h') by congruence.
  clear Hv. subst c' wc bias h3. cbn [snd].
  exists ev, rs, e, h2. split; [exact Ev|].
  set (B := agg_weight T (qkv_in_claims n lasts (qp_ind pf) rs) h2). intros pt v HB.
  assert (Eic : map fst cls = qkv_in_claims n lasts (qp_ind pf) rs).
  { apply andb_prop in El. destruct El as [_ El]. apply Nat.eqb_eq in El. destruct lasts as [|l0 [|l1 [|l2 [|]]]]; try discriminate El.
    unfold qkv_claims, qp_ind, qkv_points in Ec. cbn [combine omapM] in Ec.
    destruct (qkv_split (cl_point l0) (m, n)) as [[r0 q0]|] eqn:S0; [|discriminate]. apply qkv_split_inv in S0. destruct S0 as (L0 & -> & ->).
    cbn [obind] in Ec.
    destruct (qkv_split (cl_point l1) (m, n)) as [[r1 q1]|] eqn:S1; [|discriminate]. apply qkv_split_inv in S1. destruct S1 as (L1 & -> & ->).
    cbn [obind] in Ec.
    destruct (qkv_split (cl_point l2) (m, n)) as [[r2 q2]|] eqn:S2; [|discriminate]. apply qkv_split_inv in S2. destruct S2 as (L2 & -> & ->).
    cbn [obind fst snd] in Ec. injection Ec as <-. reflexivity. }
  pose proof (sp_restate T (m + k) (map fst cls) (qp_agg pf) h2 c h' pt v Es) as R. cbv zeta in R.
  rewrite Eic in R. change (length (qkv_in_claims n lasts (qp_ind pf) rs)) with 3%nat in R. specialize (R HB).
  change (rlc (fst (read_challenges T 3 h2)) (fun j => eqp (cl_point (nth j (qkv_in_claims n lasts (qp_ind pf) rs) dcl)) pt)) with (B pt) in R.
  unfold qkv_verify. rewrite El. cbn [nth_error obind]. rewrite !ilog2_pow. cbn [obind restated qp_pre qp_sumcheck qp_agg].
  rewrite Eb. cbn [obind]. rewrite Ech. fold ev. rewrite Ev. cbn [obind].
  change (qp_ind (restated pf pt (B pt) v)) with (qp_ind pf). rewrite Ec. cbn [obind]. rewrite E3, Ee.
  cbn [fold_right]. rewrite Nat.mul_1_r, <- Nat.pow_add_r, ilog2_pow. cbn [obind]. rewrite Eic, R. reflexivity.
Qed.

(** The weight is affine in every coordinate, so its product with a table can be given any value where two neighbouring
    entries of the table agree. *)
Lemma agg_weight_affine (T : @hist K -> K) ic h2 x b : (forall c, In c ic -> cl_point c <> []) -> length ic = 3%nat ->
  agg_weight T ic h2 (x :: b) = agg_weight T ic h2 (0 :: b) + x * (agg_weight T ic h2 (1 :: b) - agg_weight T ic h2 (0 :: b)).
Proof.
  intros Hne Hl. unfold agg_weight, rlc. rewrite <- sumn_sub, <- sumn_scal, <- sumn_add. apply sumn_ext. intros j Hj.
  rewrite read_challenges_length in Hj.
  specialize (Hne (nth j ic dcl) ltac:(apply nth_In; lia)). destruct (cl_point (nth j ic dcl)) as [|y r]; [contradiction|]. cbn [eqp]. ring.
Qed.
Lemma mle_pair (X : list K) q j x : (j < 2 ^ q)%nat -> mle X (x :: bpt q j) = nth (2 * j) X 0 + x * (nth (2 * j + 1) X 0 - nth (2 * j) X 0).
Proof.
  intros Hj. unfold mle. rewrite mlef_cons, mlef_bool by auto. reflexivity.
Qed.

Lemma qkv_forgery (T : @hist K -> K) ncpus scs sps es (l : @qkv K) (input : ten K) (outputs : list (ten K)) lasts h m k n o1 o2 c wc bc pf h' (X : list K) q j :
  0 < ncpus -> char_gt K 2 -> 0 < k ->
  sh input = [2 ^ m; 2 ^ k]%nat -> Forall (fun w => sh w = [2 ^ k; 2 ^ n]%nat) (qk_weights l) ->
  Forall (fun o => sh o = [2 ^ m; 2 ^ n]%nat) outputs ->
  qkv_outputs m k n (dat input) (map (@dat K) (qk_weights l)) (map (@dat K) (qk_biases l)) (map (@dat K) outputs) ->
  Forall2 claim_true (map (@dat K) outputs) lasts ->
  valid_sched n es -> (forall i, i < k -> valid_rsched (sop_shape (K := K) k 6 [[0; 1]; [2; 3]; [4; 5]]%nat) i (scs i)) ->
  (forall i, i < m + k -> valid_rsched (K := K) (sp_shape (m + k)) i (sps i)) ->
  qkv_prove T ncpus scs sps es l input outputs lasts h = Some (c, wc, bc, pf, h') ->
  (forall r, In r (pf_point (qp_sumcheck pf)) \/ In r (pf_point (sp_sumcheck (qp_agg pf))) -> not_node 2 r) ->
  length X = 2 ^ (m + k) -> (m + k = S q)%nat -> (j < 2 ^ q)%nat -> nth (2 * j) X 0 = nth (2 * j + 1) X 0 -> nth (2 * j) X 0 <> 0 ->
  exists claimed rs e h2, verify T claimed (qp_sumcheck pf) k 2 (snd (qkv_challenges T lasts (qp_pre pf) h)) = Some (rs, e, h2) /\
    let B := agg_weight T (qkv_in_claims n lasts (qp_ind pf) rs) h2 in
    (B (0 :: bpt q j) <> B (1 :: bpt q j) ->
     exists pf' c', qkv_verify T k [[2 ^ m; 2 ^ k]%nat] [[2 ^ m; 2 ^ n]%nat; o1; o2] lasts pf' h = Some (c', wc, bc, h') /\
       claim_true X c' /\ Forall2 claim_true (map (@dat K) (qk_weights l)) wc /\ Forall2 claim_true (map (@dat K) (qk_biases l)) bc).
Proof.
  intros Hnc Hch Hk Ei Hw Ho Hout Hl Hes Hsc Hsp Hp Hn LX Eq Hj Exx Nx.
  destruct (qkv_complete T ncpus scs sps es l input outputs lasts h m k n o1 o2 Hnc Hch Hk Ei Hw Ho Hout Hl Hes Hsc Hsp)
    as (c0 & wc0 & bc0 & pf0 & h0 & Ep & _ & Tw & Tb & Hver).
  rewrite Hp in Ep. assert (c0 = c) by congruence. assert (wc0 = wc) by congruence. assert (bc0 = bc) by congruence.
  assert (pf0 = pf) by congruence. assert (h0 = h') by congruence. subst c0 wc0 bc0 pf0 h0. specialize (Hver Hn).
  pose proof (qkv_verify_inv T m k n [o1; o2] lasts pf h c wc bc h' Hver) as (l0 & l1 & l2 & p0 & p1 & p2 & pr & e0 & h20 & El & _ & Hpl & _ & _ & Ev0 & _).
  destruct (qkv_restate T m k n [o1; o2] lasts pf h c wc bc h' Hver) as (cl & rs & e & h2 & Ev & R).
  exists cl, rs, e, h2. split; [exact Ev|]. intros B NB. cbv zeta in R. fold B in R.
  set (b := bpt q j : list K) in *. set (u := nth (2 * j) X 0) in *.
  assert (Lrs : length rs = k).
  { apply verify_point in Ev. rewrite Ev. unfold sc_point. rewrite map_length, seq_length. reflexivity. }
  assert (Haff : forall x, B (x :: b) = B (0 :: b) + x * (B (1 :: b) - B (0 :: b))).
  { intros x. apply agg_weight_affine; [|reflexivity]. unfold qkv_in_claims. cbn [seq map]. intros c1 [<-|[<-|[<-|[]]]]; cbn [cl_point];
      (destruct rs; [cbn [length] in Lrs; lia|discriminate]). }
  set (t := B (cl_point c) * cl_eval c) in *.
  set (x := (t * / u - B (0 :: b)) * / (B (1 :: b) - B (0 :: b))).
  assert (ND : B (1 :: b) - B (0 :: b) <> 0) by (intros E; apply NB; transitivity (B (0 :: b) + (B (1 :: b) - B (0 :: b))); [rewrite E|]; ring).
  assert (EX : mle X (x :: b) = u).
  { unfold b. rewrite mle_pair by auto. fold u. rewrite <- Exx. fold u. ring. }
  exists (restated pf (x :: b) (B (x :: b)) u), (mkClaim (x :: b) u).
  split; [|split; [|auto]].
  - apply R. rewrite Haff. unfold x. field. auto.
  - split; cbn [cl_point cl_eval]; [|symmetry; exact EX]. cbn [length]. unfold b. rewrite bpt_length, <- Eq. exact LX.
Qed.
End P.
