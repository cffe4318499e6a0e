(** Forged LogUp proofs: what the verifier's missing checks allow. *)
From Coq Require Import List Arith Lia Bool ZArith Field.
From Verif Require Import ListAux FieldDef FpInst PolyList MleMath M_Mle P_Mle P_Eq M_Interp M_Sumcheck P_ScVerify P_ScApi M_SamePoly M_LogUp P_LogUp P_LogUp2 P_LogUp3 P_LogUp4.
Import ListNotations.

Section P.
Context {K : field}.
Add Field Kf_lu6 : (fth K).
Local Open Scope F_scope.

(** Claims about the columns at one point. *)
Definition claims_at (x : list K) (cols : list (list K)) : list (@claim K) := map (fun c => mkClaim x (mle c x)) cols.
Lemma claims_at_true x cols : Forall2 (fun c col => cl_eval c = mle col (cl_point c)) (claims_at x cols) cols.
Proof. induction cols as [|c cols IH]; cbn [claims_at map]; constructor; auto. Qed.
Lemma claims_at_final x mult cols cst csc outs scs evs al la m : length x = m ->
  final_eval (mkLp scs evs (claims_at x (mult :: cols)) outs PtTable) cst csc al la 1 =
  Some (mle mult x + la * mle (merged cst csc m cols) x).
Proof.
  intros Hx. unfold final_eval. cbn [lp_type lp_claims claims_at map cl_eval]. rewrite col_comb_spec, merged_mle, map_map by auto. reflexivity.
Qed.

(** *** No rounds at all *)
Definition forged0 (x : list K) (mult : list K) (cols : list (list K)) (N D : K) : @logup_proof K :=
  mkLp [] [] (claims_at x (mult :: cols)) [[N; 0; D; 1]] PtTable.
Lemma no_rounds_forge (T : @hist K -> K) m i cols mult cst csc h N D b al la h1 :
  i < 2 ^ m -> three T lbl_ib lbl_ia lbl_il (absorb_outputs 1 [[N; 0; D; 1]] h) = (b, al, la, h1) ->
  length mult = 2 ^ S m -> (forall c, In c cols -> length c = 2 ^ S m) ->
  nth (2 * i) mult 0 + la * row_val cst csc cols (2 * i) <> nth (2 * i + 1) mult 0 + la * row_val cst csc cols (2 * i + 1) ->
  exists x, length x = S m /\
    Forall2 (fun c col => cl_eval c = mle col (cl_point c)) (lp_claims (forged0 x mult cols N D)) (mult :: cols) /\
    (forall c, In c (lp_claims (forged0 x mult cols N D)) -> cl_point c = x) /\
    verify_logup T (forged0 x mult cols N D) 1 cst csc h = Some (lp_claims (forged0 x mult cols N D), [N], [D], h1).
Proof.
  intros Hi E3 Hm Hc Hne.
  set (g := fun j => nth j mult 0 + la * row_val cst csc cols j) in *.
  assert (Hg : g (2 * i + 1)%nat - g (2 * i)%nat <> 0) by (intros E; apply Hne; symmetry; apply fsub_0; exact E).
  set (c0 := o_val b la (N, 0, D, 1)).
  set (t := (c0 - g (2 * i)%nat) * / (g (2 * i + 1)%nat - g (2 * i)%nat)).
  exists (t :: bpt m i). assert (Hl : length (t :: bpt m i) = S m) by (cbn [length]; f_equal; apply bpt_length).
  split; [auto|]. split; [apply claims_at_true|]. split.
  { intros c Hin. unfold forged0 in Hin. cbn [lp_claims] in Hin. unfold claims_at in Hin. apply in_map_iff in Hin as (col & <- & _). reflexivity. }
  unfold verify_logup. cbn [forged0 lp_outputs lp_sumchecks lp_evals combine length seq ofold]. rewrite E3.
  unfold fractional_outputs. cbn [forged0 lp_outputs omapM get4 obind List.split fst snd]. rewrite initial_claim_spec. cbn [omapM get4 obind map wsum ls_alpha ls_lambda].
  unfold forged0. rewrite (claims_at_final _ _ _ _ _ _ _ _ _ _ (S m)) by auto. cbn [obind ls_claim ls_hist lp_claims].
  assert (E : mle mult (t :: bpt m i) + la * mle (merged cst csc (S m) cols) (t :: bpt m i) = o_val b la (N, 0, D, 1) + al * 0).
  { unfold merged. rewrite mle_map_seq by auto. unfold mle. rewrite !mlef_cons, !mlef_bool by auto.
    transitivity (g (2 * i)%nat + t * (g (2 * i + 1)%nat - g (2 * i)%nat)); [unfold g; ring|].
    unfold t. fold c0. field. exact Hg. }
  rewrite E, feqb_refl. repeat f_equal; ring.
Qed.

(** *** All shapes respected: the evaluations are chosen after the challenges *)
Definition forged1 (r b : K) (e0 e2 : K) (msg : list K) (mult : list K) (cols : list (list K)) (N D : K) : @logup_proof K :=
  mkLp [mkProof [r] [msg]] [[e0; 1; e2; 0]] (claims_at [r; b] (mult :: cols)) [[N; 0; D; 1]] PtTable.
Lemma late_evals_forge (T : @hist K -> K) cols mult cst csc h N D msg b0 al la h1 r X h2 b na nl h3 :
  three T lbl_ib lbl_ia lbl_il (absorb_outputs 1 [[N; 0; D; 1]] h) = (b0, al, la, h1) ->
  length mult = 4%nat -> (forall c, In c cols -> length c = 4%nat) ->
  let c0 := o_val b0 la (N, 0, D, 1) in
  verify T c0 (mkProof [r] [msg]) 1 3 (EvFelt c0 :: h1) = Some ([r], X, h2) ->
  three T lbl_lb lbl_la lbl_ll h2 = (b, na, nl, h3) -> b <> 0 -> eqp [b0] [r] <> 0 ->
  exists e0 e2, let pf := forged1 r b e0 e2 msg mult cols N D in
    shaped T false 1 [tb_base cst csc 2 mult cols] pf h /\ claims_true T pf 1 1 h (mult :: cols) /\
    verify_logup T pf 1 cst csc h = Some (lp_claims pf, [N], [D], h3).
Proof.
  intros E3 Hm Hc c0 Hv E4 Hb Heq.
  set (e0 := X * / eqp [b0] [r]).
  set (W := mle mult [r; b] + nl * mle (merged cst csc 2 cols) [r; b]).
  set (e2 := (W - nl * b - (1 - b) * e0) * / b).
  exists e0, e2. cbv zeta. set (pf := forged1 r b e0 e2 msg mult cols N D).
  set (s0 := mkLs al la c0 [b0] h1). set (s1 := mkLs na nl W [r; b] h3).
  assert (Hic : initial_claim (lp_outputs pf) b0 al la = Some c0).
  { rewrite initial_claim_spec. cbn [pf forged1 lp_outputs omapM get4 obind map wsum]. f_equal. unfold c0. ring. }
  assert (Hround : logup_round T 1 s0 (0%nat, (mkProof [r] [msg], [e0; 1; e2; 0])) = Some s1).
  { unfold logup_round. cbn [s0 ls_claim ls_hist ls_point ls_alpha ls_lambda pf_point Nat.add]. rewrite Hv. cbn [obind]. rewrite E4. cbn [Nat.eqb length Nat.div Nat.divmod fst].
    rewrite combine4_spec. cbn [chunks chunks_fuel length firstn skipn omapM get4 obind map wsum q_next q_gate]. rewrite identity_eval_eqp.
    assert (G1 : eqp [b0] [r] * (e0 * 1 + e2 * 0 + la * 0 * 1 + al * 0) = X) by (unfold e0; field; auto).
    rewrite G1, feqb_refl. unfold s1. cbn [app]. do 2 f_equal. unfold e2. field. auto. }
  assert (Hst : forall i, state_at T pf 1 h i = match i with O => Some s0 | _ => Some s1 end).
  { intros i. unfold state_at. cbn [pf forged1 lp_outputs] in *. rewrite E3, Hic. cbn [obind].
    unfold irounds, rounds_of. cbn [lp_sumchecks lp_evals combine length seq]. destruct i as [|i]; [reflexivity|].
    assert (E : firstn (S i) [(0%nat, (mkProof [r] [msg], [e0; 1; e2; 0]))] = [(0%nat, (mkProof [r] [msg], [e0; 1; e2; 0]))]) by (destruct i; reflexivity).
    transitivity (ofold (logup_round T 1) [(0%nat, (mkProof [r] [msg], [e0; 1; e2; 0]))] s0); [rewrite <- E; reflexivity|].
    cbn [ofold]. rewrite Hround. reflexivity. }
  assert (Hpt : [r] = sc_point T 1 3 (EvFelt c0 :: h1) (mkProof [r] [msg])) by (eapply verify_point; exact Hv).
  split; [|split].
  - split; try reflexivity. intros i s p ev Hs Hn. unfold rounds_of in Hn. cbn [pf forged1 lp_sumchecks lp_evals combine] in Hn.
    destruct i as [|i]; [|destruct i; discriminate]. cbn [nth_error] in Hn. cbn [length] in Hs. rewrite Hst in Hs.
    assert (s = s0) by congruence. assert (p = mkProof [r] [msg]) by congruence. assert (ev = [e0; 1; e2; 0]) by congruence. subst s p ev.
    split; [|reflexivity]. cbn [pf_point]. exact Hpt.
  - split; [apply claims_at_true|]. intros s Hs c Hin. rewrite Hst in Hs. assert (s = s1) by congruence. subst s.
    unfold pf, forged1, claims_at in Hin. cbn [lp_claims] in Hin. apply in_map_iff in Hin as (col & <- & _). reflexivity.
  - assert (Hic' : initial_claim [[N; 0; D; 1]] b0 al la = Some c0) by exact Hic.
    unfold verify_logup, fractional_outputs, pf, forged1.
    cbn [lp_outputs lp_sumchecks lp_evals lp_claims omapM get4 obind List.split fst snd combine length seq]. rewrite E3, Hic'. cbn [obind ofold]. fold s0.
    rewrite Hround. cbn [obind s1 ls_alpha ls_lambda ls_claim ls_hist].
    rewrite (claims_at_final _ _ _ _ _ _ _ _ _ _ 2) by reflexivity. cbn [obind]. fold W. rewrite feqb_refl. repeat f_equal; ring.
Qed.
End P.
