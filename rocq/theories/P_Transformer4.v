(** Proofs about the verifier of the argmax layer. *)
From Coq Require Import List Arith Lia Bool ZArith Ring Field.
From Verif Require Import ListAux FieldDef PolyList MleMath M_Mle P_Mle P_Eq M_Interp P_Interp M_Sumcheck P_ScVerify P_ScProve P_ScProve2 P_ScBatch P_ScFinal M_ScParallel
  P_ScParallel P_ScApi M_SamePoly M_LogUp M_Tensor P_Tensor P_Tensor2 P_Tensor3 M_Pad P_Pad P_Pad2 M_Layers P_Layers P_Layers2 P_Layers3 M_Transformer P_Transformer P_Transformer2.
Import ListNotations.

Section P.
Context {K : field}.
Local Open Scope F_scope.
Add Field Kf_transf4 : (fth K).

(** [X] has 2^nr rows of 2^nc entries.  Entry [i] of [picked] is the entry of row [i] selected by the [i]-th token. *)
Definition picked (nr nc : nat) (toks : list nat) (X : list K) : list K :=
  map (fun i => match nth_error toks i with Some t => nth (i * 2 ^ nc + t) X 0 | None => 0 end) (seq 0 (2 ^ nr)).
(** Entry (i, j) is m_i - X_ij. *)
Definition row_diff (nr nc : nat) (m X : list K) : list K :=
  map (fun x => nth (x / 2 ^ nc) m 0 - nth x X 0) (seq 0 (2 ^ (nr + nc))).
(** The entries of [X] that are not selected replaced by zero. *)
Definition selected (nr nc : nat) (OH X : list K) : list K := map (fun x => nth x X 0 * nth x OH 0) (seq 0 (2 ^ (nr + nc))).

Definition logits_fooled (T : @hist K -> K) (nr nc : nat) (OH X : list K) (pf : @logits_proof K) (c : claim) (h1 : hist) : Prop :=
  exists rs1 e1 h2, verify T (lg_max_eval pf) (lg_sumcheck pf) nc 2 h1 = Some (rs1, e1, h2) /\
    let pt := cl_point c in let row := skipn nc pt in
    let in_eval := lg_max_eval pf - cl_eval c in
    let a := e1 - mle (selected nr nc OH X) (rs1 ++ row) in let b := in_eval - mle X pt in
    let h3 := EvFelt in_eval :: absorb h2 pt in let ch := T h3 in
    ((a <> 0 \/ b <> 0) /\ a + ch * b = 0) \/
    root_event T nc 2 (fun x => mle (selected nr nc OH X) (x ++ row)) h1 (lg_sumcheck pf) \/
    root_event T (nc + nr) 3 (fun x => eqp (rs1 ++ row) x * mle X x * mle OH x + ch * (eqp pt x * mle X x)) (EvSample :: h3) (lg_hadamard pf).

Lemma mle_row_diff nr nc m X pt : length pt = (nc + nr)%nat -> mle (row_diff nr nc m X) pt = mle m (skipn nc pt) - mle X pt.
Proof.
  intros Lp. set (cp := firstn nc pt). set (rp := skipn nc pt). assert (Ep : pt = cp ++ rp) by (symmetry; apply firstn_skipn).
  assert (Lc : length cp = nc) by (unfold cp; rewrite firstn_length; lia). assert (Lr : length rp = nr) by (unfold rp; rewrite skipn_length; lia).
  rewrite Ep. unfold row_diff. rewrite mle_map_seq by (rewrite app_length; lia).
  rewrite mlef_sub. f_equal. unfold mle. rewrite mlef_app. apply mlef_ext. intros i Hi.
  transitivity (mlef (fun _ : nat => nth i m 0) cp); [|apply mlef_const]. apply mlef_ext. intros j Hj. rewrite Lc in *.
  f_equal. rewrite Nat.mul_comm, Nat.div_add, Nat.div_small by lia. lia.
Qed.

Lemma mle_picked nr nc toks OH X row : length row = nr -> (forall t, In t toks -> t < 2 ^ nc) -> is_onehot nc nr toks OH ->
  hsum nc (fun x => mle (selected nr nc OH X) (x ++ row)) = mle (picked nr nc toks X) row.
Proof.
  intros Lr Ht [_ HO]. unfold hsum, picked. rewrite mle_map_seq by auto.
  rewrite (mlef_ext _ (fun i => sumn (2 ^ nc) (fun t => nth (i * 2 ^ nc + t) X 0 * nth (i * 2 ^ nc + t) OH 0)) row).
  - rewrite mlef_sumn. apply sumn_ext. intros t Ht'. rewrite (mle_low nc _ _ row t) by auto. apply mlef_ext. intros i Hi. rewrite Lr in Hi.
    unfold selected. rewrite nth_map_seq by (rewrite Nat.pow_add_r; nia). replace (t + 2 ^ nc * i)%nat with (i * 2 ^ nc + t)%nat by lia. reflexivity.
  - intros i Hi. rewrite Lr in Hi. destruct (nth_error toks i) as [t|] eqn:Et.
    + assert (Htt : t < 2 ^ nc) by (apply Ht; eapply nth_error_In; eauto). rewrite (FieldDef.sumn_single _ t); auto.
      * rewrite HO, Et, Nat.eqb_refl by auto. ring.
      * intros v Hv Hn. rewrite HO, Et by auto. rewrite (proj2 (Nat.eqb_neq t v)) by auto. ring.
    + rewrite sumn_0; [reflexivity|]. intros v Hv. rewrite HO, Et by auto. ring.
Qed.

Lemma hsum_hadamard n (mp pt X O : list K) ch : length mp = n -> length pt = n ->
  hsum n (fun x => eqp mp x * mle X x * mle O x + ch * (eqp pt x * mle X x))
  = mle (map (fun x => nth x X 0 * nth x O 0) (seq 0 (2 ^ n))) mp + ch * mle X pt.
Proof.
  intros Lm Lp. unfold hsum. rewrite sumn_add, sumn_scal. f_equal.
  - rewrite mle_map_seq by auto. unfold mlef. rewrite Lm. apply sumn_ext. intros b Hb. rewrite eqp_sym, eqp_bpt by auto.
    unfold mle. rewrite !mlef_bool by auto. ring.
  - f_equal. unfold mle at 2. unfold mlef at 1. rewrite Lp. apply sumn_ext. intros b Hb. rewrite eqp_sym, eqp_bpt by auto.
    unfold mle. rewrite mlef_bool by auto. ring.
Qed.

Lemma logits_sound (T : @hist K -> K) (tok : K -> nat) cst csc nr nc (o : ten K) rest m X pf h c nums dens h1 cin cmax h' :
  char_gt K 3 -> 0 < nc ->
  sh o = (2 ^ nr)%nat :: rest -> shape_is_pow2 (sh o) = true -> (forall x, In x (dat o) -> tok x < 2 ^ nc) ->
  length X = 2 ^ (nr + nc) -> length m = 2 ^ nr ->
  verify_logup T (lg_logup pf) 1 cst csc h = Some ([c], nums, dens, h1) -> length (cl_point c) = (nr + nc)%nat ->
  logits_verify T tok cst csc nc (nr + nc) (2 ^ nr) [o] pf h = Some (cin, cmax, h') ->
  claim_true X cin -> claim_true m cmax ->
  (claim_true (row_diff nr nc m X) c /\ cl_point cmax = skipn nc (cl_point c) /\
   claim_true (picked nr nc (map tok (dat o)) X) cmax) \/
  logits_fooled T nr nc (onehot nc nr (map tok (dat o))) X pf c h1.
Proof.
  intros Hch Hnc So Hpow Htok LX Lm Elu Lc Hv [Lcin Ecin] [Lcm Ecm].
  unfold logits_verify in Hv. rewrite Elu in Hv. cbn [obind] in Hv. rewrite ilog2_pow in Hv. cbn [obind] in Hv.
  unfold logits_split, csub in Hv. rewrite Lc in Hv. destruct (Nat.leb_spec nr (nr + nc)) as [_|]; [|lia]. cbn [obind snd] in Hv.
  replace (nr + nc - nr)%nat with nc in Hv by lia.
  destruct (verify T (lg_max_eval pf) (lg_sumcheck pf) nc 2 h1) as [[[rs1 e1] h2]|] eqn:Ev1; [|discriminate]. cbn [obind] in Hv.
  destruct (e1 =? lg_max_mat_eval pf) eqn:Ee1; [|discriminate]. apply feqb_true in Ee1. subst e1.
  set (pt := cl_point c) in *. set (row := skipn nc pt) in *. set (ine := lg_max_eval pf - cl_eval c) in *.
  unfold squeeze_challenge in Hv. cbn [cl_eval cl_point] in Hv.
  set (h3 := EvFelt ine :: absorb h2 pt) in *. set (ch := T h3) in *.
  destruct (verify T (lg_max_mat_eval pf + ch * ine) (lg_hadamard pf) (nr + nc) 3 (EvSample :: h3)) as [[[rs2 e2] h4]|] eqn:Ev2; [|discriminate].
  cbn [obind] in Hv. set (mp := rs1 ++ row) in *.
  destruct (identity_eval mp rs2 * lg_input_eval pf =? 0) eqn:Ed; [discriminate|]. apply feqb_false in Ed.
  match type of Hv with (_ <- logits_verify_output _ _ (mkClaim _ ?oe) ;; _) = _ => set (out_eval := oe) in * end.
  destruct (logits_verify_output tok [o] (mkClaim rs2 out_eval)) as [[]|] eqn:Eo; [|discriminate]. cbn [obind] in Hv.
  assert (cin = mkClaim rs2 (lg_input_eval pf)) by congruence. assert (cmax = mkClaim row (lg_max_eval pf)) by congruence. subst cin cmax. clear Hv.
  cbn [cl_point cl_eval] in *.
  assert (Lrs1 : length rs1 = nc) by (apply verify_point in Ev1; subst rs1; unfold sc_point; rewrite map_length, seq_length; auto).
  assert (Lrs2 : length rs2 = (nr + nc)%nat) by (apply verify_point in Ev2; subst rs2; unfold sc_point; rewrite map_length, seq_length; auto).
  assert (Lrow : length row = nr) by (unfold row; rewrite skipn_length; lia).
  assert (Lmp : length mp = (nr + nc)%nat) by (unfold mp; rewrite app_length; lia).
  set (OH := onehot nc nr (map tok (dat o))) in *.
  assert (HOH : is_onehot nc nr (map tok (dat o)) OH) by apply onehot_is.
  apply (logits_output_iff tok o nr nc rest _ OH So Hpow) in Eo; [|cbn [cl_point]; lia|auto|auto].
  destruct Eo as [_ Eo]. cbn [cl_point cl_eval] in Eo.
  rewrite identity_eval_eqp in Ed. 
  set (F := fun x => eqp mp x * mle X x * mle OH x + ch * (eqp pt x * mle X x)).
  assert (EF : e2 = F rs2).
  { unfold F. rewrite <- Eo, <- Ecin. unfold out_eval. rewrite !identity_eval_eqp. field. split; intros E; apply Ed; rewrite E; ring. }
  destruct (feq_dec (lg_max_mat_eval pf + ch * ine) (hsum (nr + nc) F)) as [E2|N2].
  2: { right. exists rs1, (lg_max_mat_eval pf), h2. split; [exact Ev1|]. cbv zeta. fold pt row ine h3 ch mp. right. right.
       rewrite (Nat.add_comm nc nr). apply (verify_sound T (lg_max_mat_eval pf + ch * ine) (lg_hadamard pf) (nr + nc) 3 (EvSample :: h3) rs2 e2 h4 F); auto; try lia.
       intros a b _. apply (is_poly_add 3).
       - eapply is_poly_ext; [|apply (is_poly_fprod [eqp mp; mle X; mle OH] (fun f x => f (a ++ x :: b)))]; [intros x; cbn [map fprod]; ring|].
         intros f [<-|[<-|[<-|[]]]]; [apply multilin_eqp|apply multilin_mle|apply multilin_mle].
       - apply is_poly_scal. apply (is_poly_le 2); [lia|]. eapply is_poly_ext; [|apply (is_poly_fprod [eqp pt; mle X] (fun f x => f (a ++ x :: b)))]; [intros x; cbn [map fprod]; ring|].
         intros f [<-|[<-|[]]]; [apply multilin_eqp|apply multilin_mle]. }
  unfold F in E2. rewrite hsum_hadamard in E2 by auto. fold (selected nr nc OH X) in E2.
  destruct (feq_dec (lg_max_mat_eval pf) (mle (selected nr nc OH X) mp)) as [Ea|Na].
  2: { right. exists rs1, (lg_max_mat_eval pf), h2. split; [exact Ev1|]. cbv zeta. fold pt row ine h3 ch mp. left. split.
       - left. intros X0. apply Na. apply fsub_0. exact X0.
       - transitivity ((lg_max_mat_eval pf + ch * ine) - (mle (selected nr nc OH X) mp + ch * mle X pt)); [ring|]. rewrite E2. ring. }
  destruct (feq_dec ine (mle X pt)) as [Eb|Nb].
  2: { right. exists rs1, (lg_max_mat_eval pf), h2. split; [exact Ev1|]. cbv zeta. fold pt row ine h3 ch mp. left. split.
       - right. intros X0. apply Nb. apply fsub_0. exact X0.
       - transitivity ((lg_max_mat_eval pf + ch * ine) - (mle (selected nr nc OH X) mp + ch * mle X pt)); [ring|]. rewrite E2. ring. }
  destruct (feq_dec (lg_max_eval pf) (hsum nc (fun x => mle (selected nr nc OH X) (x ++ row)))) as [E1|N1].
  2: { right. exists rs1, (lg_max_mat_eval pf), h2. split; [exact Ev1|]. cbv zeta. fold pt row ine h3 ch mp. right. left.
       apply (verify_sound T (lg_max_eval pf) (lg_sumcheck pf) nc 2 h1 rs1 (lg_max_mat_eval pf) h2 (fun x => mle (selected nr nc OH X) (x ++ row))); auto.
       - apply (char_gt_le K 3); auto.
       - intros a b _. apply (is_poly_le 1); [lia|]. apply (multilin_mle_suffix (selected nr nc OH X) row). }
  left. rewrite (mle_picked nr nc (map tok (dat o))) in E1; auto.
  2: { intros t Ht. apply in_map_iff in Ht as (x & <- & Hx). auto. }
  split; [|split; [reflexivity|]].
  - split; [unfold row_diff; rewrite map_length, seq_length; fold pt; rewrite Lc; reflexivity|]. fold pt. rewrite mle_row_diff by lia.
    fold row. rewrite <- Ecm, <- Eb. unfold ine. ring.
  - split; cbn [cl_point cl_eval]; [unfold picked; rewrite map_length, seq_length, Lrow; reflexivity|exact E1].
Qed.
End P.
