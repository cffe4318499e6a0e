(** Proofs about [M_SamePoly]. *)
From Coq Require Import List Arith Lia Bool ZArith Field Permutation.
From Verif Require Import ListAux FieldDef PolyList MleMath M_Mle P_Mle P_Eq M_Interp P_Interp M_Sumcheck
  P_ScVerify P_ScProve P_ScProve2 P_ScBatch P_ScFinal M_ScParallel P_ScParallel P_ScApi P_Count M_SamePoly.
Import ListNotations.

Section P.
Context {K : field}.
Add Field Kf_spp : (fth K).
Local Open Scope F_scope.

Lemma read_challenges_length (T : @hist K -> K) : forall n h, length (fst (read_challenges T n h)) = n.
Proof.
  induction n as [|n IH]; intros h; [reflexivity|]. cbn [read_challenges]. specialize (IH (EvSample :: h)).
  destruct (read_challenges T n (EvSample :: h)). cbn [fst length] in *. lia.
Qed.

(** Every challenge is sampled from the transcript that already contains the earlier samples. *)
Lemma read_challenges_hist (T : @hist K -> K) n h :
  read_challenges T n h = (map (fun i => T (repeat EvSample i ++ h)) (seq 0 n), repeat EvSample n ++ h).
Proof.
  assert (R : forall i (g : @hist K), repeat EvSample i ++ EvSample :: g = EvSample :: repeat EvSample i ++ g)
    by (induction i as [|i IH]; intros g; cbn [repeat app]; [|rewrite IH]; reflexivity).
  revert h. induction n as [|n IH]; intros h; [reflexivity|]. cbn [read_challenges]. rewrite IH, R. cbn [seq map repeat app].
  rewrite <- seq_shift, map_map. do 2 f_equal. apply map_ext. intros i. rewrite R. reflexivity.
Qed.

Lemma fold_rlc (l : list (K * K)) acc : fold_left (fun acc '(c, r) => acc + c * r) l acc = acc + fsum (map (fun cr => fst cr * snd cr) l).
Proof. revert acc; induction l as [|[c r] l IH]; intros acc; simpl; [ring|rewrite IH; ring]. Qed.

(** *** Specification *)
(** The batched claim value and the batched polynomial. *)
Definition rlc (cs : list K) (f : nat -> K) : K := sumn (length cs) (fun i => nth i cs 0 * f i).
Definition dcl : @claim K := mkClaim [] 0.

Lemma fsum_combine {A} (cs : list K) (l : list A) d (F : K -> A -> K) : length cs = length l ->
  fsum (map (fun ac => F (fst ac) (snd ac)) (combine cs l)) = sumn (length cs) (fun i => F (nth i cs 0) (nth i l d)).
Proof.
  revert l; induction cs as [|c cs IH]; intros [|a l] Hl; cbn [length] in Hl; try discriminate; [reflexivity|].
  cbn [combine map fsum length fst snd]. rewrite IH by lia. rewrite sumn_S_l. reflexivity.
Qed.

Lemma fold_sum_pairs {A} (F : K -> A -> K) (l : list (K * A)) acc :
  fold_left (fun acc '(a, c) => acc + F a c) l acc = acc + fsum (map (fun ac => F (fst ac) (snd ac)) l).
Proof. revert acc; induction l as [|[a c] l IH]; intros acc; simpl; [ring|rewrite IH; ring]. Qed.

(** The polynomial of the sumcheck. *)
Definition beta_tab (n : nat) (cs : list K) (claims : list (@claim K)) : list K :=
  map (fun i => rlc cs (fun j => eqw i (cl_point (nth j claims dcl)))) (seq 0 (2 ^ n)).
Definition agg_poly (n : nat) (l : list K) (cs : list K) (claims : list (@claim K)) (pt : list K) : K :=
  rlc cs (fun j => eqp (cl_point (nth j claims dcl)) pt) * mle l pt.

Lemma beta_tab_mle n cs claims pt : (forall j, j < length cs -> length (cl_point (nth j claims dcl)) = n) -> length pt = n ->
  mle (beta_tab n cs claims) pt = rlc cs (fun j => eqp (cl_point (nth j claims dcl)) pt).
Proof.
  intros Hl Hp. unfold beta_tab. rewrite mle_map_seq by auto.
  unfold rlc. rewrite (mlef_sumn (length cs) (fun j i => nth j cs 0 * eqw i (cl_point (nth j claims dcl)))).
  apply sumn_ext. intros j Hj. rewrite mlef_scal. f_equal. rewrite mlef_eqw; auto. rewrite Hl; auto.
Qed.

(** Sum over the cube: the batched true values. *)
Lemma agg_hsum n l cs claims : (forall j, j < length cs -> length (cl_point (nth j claims dcl)) = n) -> length l = 2 ^ n ->
  hsum n (agg_poly n l cs claims) = rlc cs (fun j => mle l (cl_point (nth j claims dcl))).
Proof.
  intros Hl Hlen. unfold hsum, agg_poly, rlc.
  rewrite (sumn_ext _ _ (fun b => sumn (length cs) (fun j => nth j cs 0 * (nth b l 0 * eqw b (cl_point (nth j claims dcl)))))).
  2: { intros b Hb. rewrite <- sumn_scal_r. apply sumn_ext. intros j Hj.
       unfold mle. rewrite mlef_bool by auto. rewrite eqp_sym, eqp_bpt by auto. ring. }
  rewrite sumn_swap. apply sumn_ext. intros j Hj. rewrite sumn_scal. f_equal.
  unfold mle, mlef. rewrite Hl by auto. reflexivity.
Qed.

Lemma eqp_is_poly (r : list K) : forall a b, is_poly 1 (fun x => eqp r (a ++ x :: b)).
Proof.
  induction r as [|y r IH]; intros a b.
  - eapply is_poly_ext; [|apply (is_poly_const 1 1)]. intros x. reflexivity.
  - destruct a as [|c a]; cbn [app eqp].
    + eapply is_poly_ext; [|apply (is_poly_affine ((1 - y) * eqp r b) ((y - (1 - y)) * eqp r b))]. intros x. cbv beta. ring.
    + apply is_poly_scal. apply IH.
Qed.

Lemma agg_poly_deg n l cs claims m : indiv_deg 2 m (agg_poly n l cs claims).
Proof.
  intros a b Hab. unfold agg_poly.
  change 2%nat with (1 + 1)%nat.
  apply (is_poly_mul 1 1 (fun x => rlc cs (fun j => eqp (cl_point (nth j claims dcl)) (a ++ x :: b))) (fun x => mle l (a ++ x :: b))).
  - unfold rlc. apply (is_poly_sumn 1 _ (fun j x => nth j cs 0 * eqp (cl_point (nth j claims dcl)) (a ++ x :: b))).
    intros j _. apply is_poly_scal. apply eqp_is_poly.
  - unfold mle. apply (mlef_is_poly _ a b).
Qed.


Lemma agg_y (claims : list (@claim K)) cs : length cs = length claims ->
  aggregated_rlc (map cl_eval claims) cs = Some (rlc cs (fun j => cl_eval (nth j claims dcl))).
Proof.
  intros Hl. unfold aggregated_rlc. rewrite map_length, Hl, Nat.eqb_refl. f_equal.
  rewrite fold_rlc. unfold rlc. revert claims Hl. induction cs as [|c cs IH]; intros [|a claims] Hl; cbn [length] in Hl; try discriminate.
  - simpl. ring.
  - cbn [map combine fsum fst snd length]. rewrite sumn_S_l. cbn [nth].
    rewrite <- (IH claims) by lia. ring.
Qed.
Lemma agg_computed (claims : list (@claim K)) cs pt : length cs = length claims ->
  fold_left (fun acc '(a, c) => acc + a * identity_eval (cl_point c) pt) (combine cs claims) 0
  = rlc cs (fun j => eqp (cl_point (nth j claims dcl)) pt).
Proof.
  intros Hl. rewrite (fold_sum_pairs (fun a c => a * identity_eval (cl_point c) pt)).
  rewrite (fsum_combine cs claims dcl (fun a c => a * identity_eval (cl_point c) pt)) by auto.
  unfold rlc. rewrite (sumn_ext _ _ (fun j => nth j cs 0 * eqp (cl_point (nth j claims dcl)) pt)); [ring|].
  intros i _. rewrite identity_eval_eqp. reflexivity.
Qed.

Definition errs (l : list K) (claims : list (@claim K)) : list K := map (fun c => cl_eval c - mle l (cl_point c)) claims.
Lemma dot_errs l claims cs : length cs = length claims ->
  dot cs (errs l claims) = rlc cs (fun j => cl_eval (nth j claims dcl)) - rlc cs (fun j => mle l (cl_point (nth j claims dcl))).
Proof.
  intros Hl. rewrite dot_sumn by (unfold errs; rewrite map_length; auto). unfold rlc. rewrite <- sumn_sub. apply sumn_ext.
  intros i Hi. unfold errs. rewrite (nth_map_lt _ _ _ dcl) by lia. ring.
Qed.

Lemma sp_sound (T : @hist K -> K) n l claims pf h c h' :
  char_gt K 2 -> 0 < n -> length l = 2 ^ n ->
  sp_verify T n claims pf h = Some (c, h') ->
  let cs := fst (read_challenges T (length claims) h) in
  let h1 := snd (read_challenges T (length claims) h) in
  pf_point (sp_sumcheck pf) = sc_point T n 2 h1 (sp_sumcheck pf) ->
  cl_eval c = mle l (cl_point c) ->
  (forall cl, In cl claims -> cl_eval cl = mle l (cl_point cl)) \/
  ((exists i, nth i (errs l claims) 0 <> 0) /\ dot cs (errs l claims) = 0) \/
  root_event T n 2 (agg_poly n l cs claims) h1 (sp_sumcheck pf).
Proof.
  intros Hch Hn Hl Hv cs h1 Hpt Hc. unfold sp_verify in Hv.
  destruct (forallb (fun c => length (cl_point c) =? n)%nat claims) eqn:Hf; [|discriminate].
  rewrite forallb_forall in Hf.
  pose proof (read_challenges_length T (length claims) h) as Hrl. fold cs in Hrl.
  destruct (read_challenges T (length claims) h) as [cs0 h10]. cbn [fst snd] in cs, h1. subst cs h1.
  rewrite agg_y in Hv by auto. cbn [obind] in Hv.
  destruct (verify T _ (sp_sumcheck pf) n 2 h10) as [[[rs e] h2]|] eqn:Ev; [|discriminate]. cbn [obind] in Hv.
  rewrite agg_computed in Hv by auto.
  destruct (nth_error (sp_evals pf) 0) as [given|]; [|discriminate]. cbn [obind] in Hv.
  destruct (_ =? given) eqn:Eg; [|discriminate]. apply feqb_true in Eg.
  destruct (nth_error (sp_evals pf) 1) as [e1|]; [|discriminate]. cbn [obind] in Hv.
  destruct (given * e1 =? e) eqn:Ee; [|discriminate]. apply feqb_true in Ee.
  injection Hv as <- <-. cbn [cl_eval cl_point] in Hc.
  assert (Hlen : forall j, j < length cs0 -> length (cl_point (nth j claims dcl)) = n).
  { intros j Hj. apply Nat.eqb_eq. apply Hf. apply nth_In. lia. }
  destruct (feq_dec (rlc cs0 (fun j => cl_eval (nth j claims dcl))) (hsum n (agg_poly n l cs0 claims))) as [Ey|Ny].
  - rewrite agg_hsum in Ey by auto.
    assert (Hd : dot cs0 (errs l claims) = 0) by (rewrite dot_errs by auto; rewrite Ey; ring).
    assert (Hdec : (exists i, nth i (errs l claims) 0 <> 0) \/ (forall cl, In cl claims -> cl_eval cl = mle l (cl_point cl))).
    { clear. unfold errs. induction claims as [|a claims IH]; [right; intros cl []|].
      destruct (feq_dec (cl_eval a) (mle l (cl_point a))) as [E|N].
      - destruct IH as [[i Hi]|H]; [left; exists (S i); auto|right; intros cl [<-|Hin]; auto].
      - left. exists 0%nat. simpl. apply fsub_neq. auto. }
    destruct Hdec; auto.
  - right; right. eapply (verify_sound T _ _ n 2 h10 rs e h2); eauto.
    + apply agg_poly_deg.
    + rewrite (verify_point _ _ _ _ _ _ _ _ _ Ev), <- Hpt. unfold agg_poly. rewrite <- Ee, <- Eg, Hc. reflexivity.
Qed.

(** *** Completeness *)
(** The shape of the sumcheck instance: two tables of [n] variables, one product. *)
Definition sp_shape (n : nat) : @vp K := mkVp 2 n [(1, [0; 1]%nat)] [mkMle (Ext []) n; mkMle (Ext []) n].
Lemma sp_shape_sched n (c : K) (m0 m1 : dmle K) k sc : num_vars m0 = n -> num_vars m1 = n -> valid_rsched (K:=K) (sp_shape n) k sc ->
  valid_rsched (mkVp 2 n [(c, [0; 1]%nat)] [m0; m1]) k sc.
Proof.
  intros H0 H1 [A B C]. constructor.
  - intros Hk [|[|i]] Hi; cbn in Hi |- *; try lia.
    + rewrite H0. apply (A Hk 0%nat). cbn. lia.
    + rewrite H1. apply (A Hk 1%nat). cbn. lia.
  - intros [|q] Hq; cbn in Hq |- *; try lia. unfold prod_nv. cbn. rewrite H0. apply (B 0%nat). cbn. lia.
  - exact C.
Qed.

Lemma sp_final_beta n (claims : list (@claim K)) cs : length cs = length claims ->
  (forall c, In c claims -> length (cl_point c) = n) ->
  omapM (fun i => vals <- omapM (fun b => nth_error b i)
           (map (fun '(a, c) => map (fun b => a * b) (compute_betas_eval (cl_point c))) (combine cs claims)) ;;
         Some (fold_left fadd vals 0)) (seq 0 (2 ^ n)) = Some (beta_tab n cs claims).
Proof.
  intros Hl Hc. unfold beta_tab. apply omapM_seq. intros i Hi. rewrite omapM_map.
  rewrite (omapM_all _ (fun ac : K * claim => fst ac * eqw i (cl_point (snd ac)))).
  - cbn [obind]. rewrite fold_left_fadd. f_equal.
    rewrite (fsum_combine cs claims dcl (fun a c => a * eqw i (cl_point c))) by auto. unfold rlc. ring.
  - intros [a c] Hin. cbn [fst snd]. apply in_combine_r in Hin. specialize (Hc c Hin).
    rewrite compute_betas_spec. unfold eq_table. rewrite map_map.
    rewrite nth_error_map, (nth_error_nth' _ 0%nat) by (rewrite seq_length, Hc; lia).
    cbn [option_map]. rewrite seq_nth by (rewrite Hc; lia). reflexivity.
Qed.
Lemma into_mle_ext_ok n (l : list K) : length l = 2 ^ n -> into_mle_ext l = Some (mkMle (Ext l) n).
Proof.
  intros H. unfold into_mle_ext. rewrite H.
  replace (is_pow2 (2 ^ n)) with true.
  - rewrite ceil_log2_pow2. cbn [obind]. unfold from_evaluations_ext_vec. rewrite H, Nat.eqb_refl. reflexivity.
  - symmetry. unfold is_pow2. rewrite Nat.log2_pow2 by lia. rewrite Nat.eqb_refl, andb_true_r. apply Nat.ltb_lt. apply pow2_pos.
Qed.

Lemma sp_complete_ev (T : @hist K -> K) ncpus scs poly claims h n l :
  0 < ncpus -> char_gt K 2 -> 0 < n -> built poly n l ->
  (forall i, i < n -> valid_rsched (K:=K) (sp_shape n) i (scs i)) ->
  (forall c, In c claims -> length (cl_point c) = n /\ cl_eval c = mle l (cl_point c)) ->
  exists pf h', sp_prove T ncpus scs poly claims h = Some (pf, h') /\
    let pt := pf_point (sp_sumcheck pf) in
    length pt = n /\ nth_error (sp_evals pf) 1 = Some (mle l pt) /\
    ((forall r, In r pt -> not_node 2 r) -> sp_verify T n claims pf h = Some (mkClaim pt (mle l pt), h')).
Proof.
  intros Hnc Hch Hn Hb Hsc Hcl.
  pose proof (built_is_table _ _ _ Hb) as Htab.
  assert (Hnv : num_vars poly = n) by apply Htab. assert (Hll : length l = 2 ^ n) by apply Htab.
  assert (Htbl : tbl poly = l) by (destruct Hb as [Hb|Hb]; [unfold from_evaluations_vec in Hb|unfold from_evaluations_ext_vec in Hb];
    destruct (_ =? _)%nat; try discriminate; injection Hb as <-; reflexivity).
  unfold sp_prove, sp_verify. rewrite Hnv.
  assert (Hfb : forallb (fun c => (length (cl_point c) =? n)%nat) claims = true).
  { apply forallb_forall. intros c Hc. apply Nat.eqb_eq. apply Hcl. auto. }
  rewrite Hfb.
  pose proof (read_challenges_length T (length claims) h) as Hrl.
  destruct (read_challenges T (length claims) h) as [cs h1]. cbn [fst] in Hrl.
  rewrite sp_final_beta by (auto; intros; apply Hcl; auto). cbn [obind].
  assert (Hbl : length (beta_tab n cs claims) = 2 ^ n) by (unfold beta_tab; rewrite map_length, seq_length; auto).
  rewrite (into_mle_ext_ok n) by auto. cbn [obind].
  set (bm := mkMle (Ext (beta_tab n cs claims)) n).
  set (heap := fun a : nat => match a with 0 => bm | _ => poly end).
  assert (Hwt : wf_terms heap n [(1, [0; 1]%nat)]).
  { intros c ps [E|[]]. injection E as <- <-. split; [discriminate|]. split; [simpl; lia|].
    assert (Hw : forall a, In a [0; 1]%nat -> wf_mle (heap a) /\ num_vars (heap a) = n).
    { intros a [<-|[<-|[]]]; cbn [heap].
      - split; [|reflexivity]. split; [reflexivity|]. split; [right; reflexivity|]. exact Hbl.
      - split; auto. unfold wf_mle. rewrite Hnv, Htbl. auto. }
    split.
    - intros a Ha. destruct (Hw a Ha) as [? ->]. split; auto. 
    - intros a b Ha Hb'. destruct (Hw a Ha) as [_ ->]. destruct (Hw b Hb') as [_ ->]. reflexivity. }
  destruct (build_new heap n [(1, [0; 1]%nat)] Hn ltac:(discriminate) Hwt) as (t & p & Eb & Hwp & Hpn & Hpd & Hval).
  cbn [build fst snd map heap] in Eb.
  destruct (add_mle_list [] (vp_new n) [(0%nat, bm); (1%nat, poly)] 1) as [[t' p']|] eqn:Ea; [|discriminate].
  cbn [obind] in Eb. injection Eb as -> ->. cbn [obind snd].
  assert (Ep : p = mkVp 2 n [(1, [0; 1]%nat)] [bm; poly]).
  { unfold add_mle_list in Ea. destruct (forallb _ _ && forallb _ _); [|discriminate]. cbn in Ea. injection Ea as _ <-. reflexivity. }
  destruct (parallel_completeness T ncpus scs p h1 Hnc) as (pf & st & h' & Epf & Hlpt & Hfin & Hver); auto.
  { rewrite Ep. exact Hch. }
  { rewrite Hpn, Ep. intros i Hi. apply sp_shape_sched; auto. }
  rewrite Epf. cbn [obind]. rewrite Hfin. cbn [obind].
  exists (mkSp pf (map (fun m => mval m (pf_point pf)) (vp_mles p))), h'. split; [reflexivity|].
  cbn [sp_sumcheck sp_evals]. cbv zeta. rewrite Hpn in *. split; [auto|]. split.
  { rewrite Ep. cbn [vp_mles map nth_error]. f_equal. unfold mval. rewrite Hnv, Htbl, firstn_all2 by lia. reflexivity. }
  intros Hr.
  assert (Hlen : forall j, j < length cs -> length (cl_point (nth j claims dcl)) = n).
  { intros j Hj. apply Hcl. apply nth_In. lia. }
  rewrite agg_y by auto. cbn [obind].
  assert (Hgval : forall pt, length pt = n -> vp_val p pt = agg_poly n l cs claims pt).
  { intros pt Hpt. rewrite Hval. unfold terms_val. cbn [map fsum fprod fst snd heap].
    rewrite Hnv, Htbl. cbn [bm num_vars tbl evaluations]. rewrite firstn_all2 by lia.
    rewrite beta_tab_mle by auto. unfold agg_poly. ring. }
  assert (Hsum : rlc cs (fun j => cl_eval (nth j claims dcl)) = hsum n (vp_val p)).
  { transitivity (hsum n (agg_poly n l cs claims)).
    - rewrite agg_hsum by auto. apply sumn_ext. intros j Hj. f_equal. apply Hcl. apply nth_In. lia.
    - apply hsum_ext. intros pt Hpt. symmetry. apply Hgval. auto. }
  rewrite Hsum. replace 2%nat with (vp_deg p) by (rewrite Ep; reflexivity).
  rewrite Hver. 2: { intros r Hin. rewrite Ep. apply Hr. auto. }
  cbn [obind]. rewrite agg_computed by auto.
  assert (Hm0 : mval bm (pf_point pf) = rlc cs (fun j => eqp (cl_point (nth j claims dcl)) (pf_point pf))).
  { unfold mval. cbn [bm num_vars tbl evaluations]. rewrite firstn_all2 by lia. apply beta_tab_mle; auto. }
  assert (Hm1 : mval poly (pf_point pf) = mle l (pf_point pf)).
  { unfold mval. rewrite Hnv, Htbl, firstn_all2 by lia. reflexivity. }
  replace (vp_mles p) with [bm; poly] by (rewrite Ep; reflexivity). cbn [vp_mles map nth_error obind]. rewrite Hm0, feqb_refl, Hm1.
  rewrite Hgval by auto. unfold agg_poly. rewrite feqb_refl. reflexivity.
Qed.
Lemma sp_complete (T : @hist K -> K) ncpus scs poly claims h n l :
  0 < ncpus -> char_gt K 2 -> 0 < n -> built poly n l ->
  (forall i, i < n -> valid_rsched (K:=K) (sp_shape n) i (scs i)) ->
  (forall c, In c claims -> length (cl_point c) = n /\ cl_eval c = mle l (cl_point c)) ->
  exists pf h', sp_prove T ncpus scs poly claims h = Some (pf, h') /\
    let pt := pf_point (sp_sumcheck pf) in
    length pt = n /\
    ((forall r, In r pt -> not_node 2 r) -> sp_verify T n claims pf h = Some (mkClaim pt (mle l pt), h')).
Proof.
  intros Hnc Hch Hn Hb Hsc Hcl. destruct (sp_complete_ev T ncpus scs poly claims h n l Hnc Hch Hn Hb Hsc Hcl) as (pf & h' & E1 & E2 & _ & E3). exists pf, h'. auto.
Qed.
End P.
