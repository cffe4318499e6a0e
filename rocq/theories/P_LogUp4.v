(** Soundness of the LogUp-GKR verifier: whole proofs over columns. *)
From Coq Require Import List Arith Lia Bool ZArith Field.
From Verif Require Import ListAux FieldDef PolyList MleMath M_Mle P_Mle P_Eq M_Interp P_Interp M_Sumcheck
  P_ScVerify P_ScProve P_ScApi M_ScParallel M_SamePoly P_SamePoly M_LogUp P_LogUp P_LogUp2 P_LogUp3.
Import ListNotations.

Section P.
Context {K : field}.
Add Field Kf_lu4 : (fth K).
Local Open Scope F_scope.

Lemma F2_len {A B} (R : A -> B -> Prop) l l' : Forall2 R l l' -> length l = length l'.
Proof. induction 1; cbn; auto. Qed.
(** *** The final evaluation *)
Lemma col_comb_spec (cst csc : K) evs : col_comb cst csc evs = cst + wsum csc evs.
Proof.
  unfold col_comb.
  assert (G : forall evs acc c, fst (fold_left (fun '(acc, c) v => (acc + v * c, c * csc)) evs (acc, c)) = acc + c * wsum csc evs).
  { clear evs. induction evs as [|v evs IH]; intros acc c; cbn [fold_left wsum fst]; [ring|]. rewrite IH. ring. }
  rewrite G. ring.
Qed.
Lemma wsum_fold {A} (f : A -> K) al l : fst (fold_left (fun '(acc, ac) x => (acc + f x * ac, ac * al)) l (0, 1)) = wsum al (map f l).
Proof.
  assert (G : forall l acc c, fst (fold_left (fun '(acc, ac) x => (acc + f x * ac, ac * al)) l (acc, c)) = acc + c * wsum al (map f l)).
  { clear l. induction l as [|v l IH]; intros acc c; cbn [fold_left map wsum fst]; [ring|]. rewrite IH. ring. }
  rewrite G. ring.
Qed.
Lemma wsum_sum (a : K) l : wsum a l = sumn (length l) (fun j => nth j l 0 * fpow a j).
Proof.
  induction l as [|x l IH]; cbn [wsum length]; [reflexivity|]. rewrite sumn_S_l, IH. cbn [nth fpow]. rewrite <- sumn_scal.
  f_equal; [ring|]. apply sumn_ext. intros. ring.
Qed.
(** The merged column evaluated at a point. *)
Definition merged (cst csc : K) (m : nat) (cols : list (list K)) : list K := map (row_val cst csc cols) (seq 0 (2 ^ m)).
Lemma merged_mle cst csc m cols x : length x = m ->
  mle (merged cst csc m cols) x = cst + wsum csc (map (fun c => mle c x) cols).
Proof.
  intros Hx. unfold merged. rewrite mle_map_seq by auto. unfold row_val. rewrite mlef_add, mlef_const, mlef_sumn. f_equal.
  rewrite wsum_sum, map_length. apply sumn_ext. intros j Hj. rewrite mlef_scal_r. f_equal.
  rewrite (nth_map_lt _ _ _ []) by auto. reflexivity.
Qed.

(** *** Inputs *)
Definition lk_base (cst csc : K) (m : nat) (cs : list (list K)) : list K * list K := (repeat (- (1)) (2 ^ m), merged cst csc m cs).
Definition tb_base (cst csc : K) (m : nat) (mult : list K) (cs : list (list K)) : list K * list K := (mult, merged cst csc m cs).
Lemma merged_length cst csc m cols : length (merged cst csc m cols) = 2 ^ m.
Proof. unfold merged. rewrite map_length, seq_length. auto. Qed.

(** *** Outputs *)
Definition true_out (k : nat) (bases : list (list K * list K)) : list (@quad K) :=
  map (fun p => (nth 0 (fst p) 0, nth 1 (fst p) 0, nth 0 (snd p) 0, nth 1 (snd p) 0)) (layer_at k bases 0).
Definition init_event (T : @hist K -> K) (k : nat) (bases : list (list K * list K)) (outs : list (list K)) (h : hist) : Prop :=
  let '(b, al, la, _) := three T lbl_ib lbl_ia lbl_il (absorb_outputs (length bases) outs h) in
  exists oq, omapM get4 outs = Some oq /\ oq <> true_out k bases /\
    wsum al (map (o_val b la) oq) = wsum al (map (o_val b la) (true_out k bases)).
Lemma o_val_true lk k bases b al la : (lk = true -> 0 < k) -> (forall p, In p bases -> wf_lay (S k) p) ->
  wsum al (map (o_val b la) (true_out k bases)) = V lk k bases 0 al la [b].
Proof.
  intros Hk Hwf. unfold V. destruct (lk && Nat.eqb 0 k) eqn:E.
  - apply andb_true_iff in E as [E1 E2]. apply Nat.eqb_eq in E2. specialize (Hk E1). lia.
  - unfold lay_val, true_out. rewrite map_map. apply wsum_ext. intros p Hp. apply layer_at_wf in Hp as [H1 H2]; [|auto|lia].
    destruct p as [n d]. cbn [fst snd] in *. destruct n as [|n0 [|n1 [|]]]; cbn in H1; try discriminate.
    destruct d as [|d0 [|d1 [|]]]; cbn in H2; try discriminate. cbn [nth o_val].
    change [b] with ([] ++ [b]). rewrite !(mle_lohi 0) by reflexivity. unfold lo, hi. cbn [Nat.pow firstn skipn].
    unfold mle. rewrite !mlef_nil. cbn [nth]. ring.
Qed.
Definition q_frac (q : @quad K) : K * K := let '(a, b, c, d) := q in (a * d + b * c, c * d).
Lemma fractional_spec pf oq : omapM get4 (lp_outputs pf) = Some oq ->
  fractional_outputs pf = Some (List.split (map q_frac oq)).
Proof.
  intros H. unfold fractional_outputs.
  assert (E : omapM (fun e => q <- get4 e ;; let '(a, b, c, d) := q in Some (a * d + b * c, c * d)) (lp_outputs pf) = Some (map q_frac oq)).
  { revert oq H. generalize (lp_outputs pf). induction l as [|e l IH]; intros oq H; cbn [omapM] in *; [injection H as <-; reflexivity|].
    destruct (get4 e) as [[[[a b] c] d]|]; [|discriminate]. cbn [obind] in *. destruct (omapM get4 l) as [r|]; [|discriminate]. cbn [obind] in *.
    rewrite (IH r eq_refl). injection H as <-. reflexivity. }
  rewrite E. reflexivity.
Qed.
Lemma true_out_frac k bases : (forall p, In p bases -> wf_lay (S k) p) ->
  map q_frac (true_out k bases) = map (fun p => frac_list (combine (fst p) (snd p))) bases.
Proof.
  intros Hwf. unfold true_out, layer_at. rewrite !map_map. apply map_ext_in. intros p Hp. rewrite Nat.sub_0_r.
  pose proof (lev_wf k k p (le_n k) (Hwf p Hp)) as [H1 H2]. rewrite Nat.sub_diag in H1, H2.
  rewrite <- (lev_frac k k p (le_n k) (Hwf p Hp)). destruct (lev k p) as [n d]. cbn [fst snd] in *.
  destruct n as [|n0 [|n1 [|]]]; cbn in H1; try discriminate. destruct d as [|d0 [|d1 [|]]]; cbn in H2; try discriminate.
  cbn [nth combine frac_list fold_right q_frac]. unfold frac_add, frac_zero; cbn [fst snd]. apply frac_eq; ring.
Qed.

(** *** Whole proof *)
Definition rounds_of (pf : @logup_proof K) := combine (lp_sumchecks pf) (lp_evals pf).
Definition irounds (pf : @logup_proof K) := combine (seq 0 (length (rounds_of pf))) (rounds_of pf).
(** State of the verifier before round [i]. *)
Definition state_at (T : @hist K -> K) (pf : @logup_proof K) (ni : nat) (h : hist) (i : nat) : option lstate :=
  let '(b, al, la, h1) := three T lbl_ib lbl_ia lbl_il (absorb_outputs ni (lp_outputs pf) h) in
  c0 <- initial_claim (lp_outputs pf) b al la ;;
  ofold (logup_round T ni) (firstn i (irounds pf)) (mkLs al la c0 [b] h1).

Lemma verify_logup_inv (T : @hist K -> K) pf ni cst csc h cls nums dens h' : verify_logup T pf ni cst csc h = Some (cls, nums, dens, h') ->
  exists b al la h1 oq s, three T lbl_ib lbl_ia lbl_il (absorb_outputs ni (lp_outputs pf) h) = (b, al, la, h1) /\
    omapM get4 (lp_outputs pf) = Some oq /\ combine nums dens = map q_frac oq /\ length nums = length oq /\ length dens = length oq /\
    state_at T pf ni h 0 = Some (mkLs al la (wsum al (map (o_val b la) oq)) [b] h1) /\
    ofold (logup_round T ni) (irounds pf) (mkLs al la (wsum al (map (o_val b la) oq)) [b] h1) = Some s /\
    state_at T pf ni h (length (rounds_of pf)) = Some s /\
    final_eval pf cst csc (ls_alpha s) (ls_lambda s) ni = Some (ls_claim s) /\ cls = lp_claims pf /\ h' = ls_hist s.
Proof.
  unfold verify_logup, state_at. intros H.
  destruct (fractional_outputs pf) as [nd|] eqn:Ef; [|discriminate]. cbn [obind] in H.
  destruct (three T lbl_ib lbl_ia lbl_il (absorb_outputs ni (lp_outputs pf) h)) as [[[b al] la] h1] eqn:E3.
  rewrite initial_claim_spec in *. destruct (omapM get4 (lp_outputs pf)) as [oq|] eqn:Eo; [|discriminate]. cbn [obind] in *.
  fold (rounds_of pf) in H. fold (irounds pf) in H.
  destruct (ofold (logup_round T ni) (irounds pf) _) as [s|] eqn:Es; [|discriminate]. cbn [obind] in H.
  destruct (final_eval pf cst csc (ls_alpha s) (ls_lambda s) ni) as [fe|] eqn:Efe; [|discriminate]. cbn [obind] in H.
  destruct (fe =? ls_claim s) eqn:Ee; [|discriminate]. apply feqb_true in Ee. subst fe.
  rewrite (fractional_spec pf oq Eo) in Ef. assert (nd = List.split (map q_frac oq)) by congruence. subst nd.
  exists b, al, la, h1, oq, s. split; [auto|]. split; [auto|].
  assert (E1 : nums = map fst (map q_frac oq)) by (rewrite split_maps in H; cbn [fst snd] in H; congruence).
  assert (E2 : dens = map snd (map q_frac oq)) by (rewrite split_maps in H; cbn [fst snd] in H; congruence).
  split; [|split; [subst; rewrite !map_length; auto|split; [subst; rewrite !map_length; auto|]]].
  { rewrite E1, E2. pose proof (combine_split' (map q_frac oq)) as C. rewrite split_maps in C. exact C. }
  split; [reflexivity|]. split; [auto|]. split; [|split; [auto|split; congruence]].
  assert (L : length (irounds pf) = length (rounds_of pf)) by (unfold irounds; rewrite combine_length, seq_length; lia).
  rewrite <- L, firstn_all. auto.
Qed.

Record shaped (T : @hist K -> K) (lk : bool) (k : nat) (bases : list (list K * list K)) (pf : @logup_proof K) (h : hist) : Prop := {
  sh_outs : length (lp_outputs pf) = length bases;
  sh_scs : length (lp_sumchecks pf) = k;
  sh_evs : length (lp_evals pf) = k;
  sh_type : lp_type pf = if lk then PtLookup else PtTable;
  sh_rounds : forall i s p ev, state_at T pf (length bases) h i = Some s -> nth_error (rounds_of pf) i = Some (p, ev) ->
                round_shape T lk k bases i s p ev }.
Definition run_lucky (T : @hist K -> K) (lk : bool) (k : nat) (bases : list (list K * list K)) (pf : @logup_proof K) (h : hist) : Prop :=
  init_event T k bases (lp_outputs pf) h \/
  exists i s p ev, state_at T pf (length bases) h i = Some s /\ nth_error (rounds_of pf) i = Some (p, ev) /\ lucky T lk k bases i s p ev.

Lemma whole_sound (T : @hist K -> K) lk k bases pf cst csc h cls nums dens h' : char_gt K 3 -> bases <> [] ->
  (forall p, In p bases -> wf_lay (S k) p) -> (lk = true -> 0 < k) ->
  verify_logup T pf (length bases) cst csc h = Some (cls, nums, dens, h') ->
  shaped T lk k bases pf h ->
  (forall s, state_at T pf (length bases) h k = Some s -> length (ls_point s) = S k ->
     final_eval pf cst csc (ls_alpha s) (ls_lambda s) (length bases) = Some (V lk k bases k (ls_alpha s) (ls_lambda s) (ls_point s))) ->
  combine nums dens = map (fun p => frac_list (combine (fst p) (snd p))) bases \/ run_lucky T lk k bases pf h.
Proof.
  intros Hch Hne Hwf Hk Hv Hs Hf. pose proof (verify_logup_inv _ _ _ _ _ _ _ _ _ _ Hv) as (b & al & la & h1 & oq & s & E3 & Eo & Ec & _ & _ & E0 & Er & Es & Efe & _ & _).
  set (s0 := mkLs al la (wsum al (map (o_val b la) oq)) [b] h1) in *.
  assert (Hni : 0 < length bases) by (destruct bases; [congruence|cbn; lia]).
  assert (Hlr : length (rounds_of pf) = k) by (unfold rounds_of; rewrite combine_length, (sh_scs _ _ _ _ _ _ Hs), (sh_evs _ _ _ _ _ _ Hs); apply Nat.min_id).
  assert (Hst : forall i, state_at T pf (length bases) h i = ofold (logup_round T (length bases)) (firstn i (irounds pf)) s0).
  { intros i. unfold state_at. rewrite E3, initial_claim_spec, Eo. reflexivity. }
  destruct (list_eq_dec quad_dec oq (true_out k bases)) as [->|Hoq]; [left; rewrite Ec; apply true_out_frac; auto|]. right.
  destruct (feq_dec (wsum al (map (o_val b la) oq)) (wsum al (map (o_val b la) (true_out k bases)))) as [E|E].
  { left. unfold init_event. rewrite E3. exists oq. auto. }
  right. rewrite (o_val_true lk) in E by auto.
  assert (Hrs : forall i t p ev, ofold (logup_round T (length bases)) (firstn i (irounds pf)) s0 = Some t ->
     nth_error (rounds_of pf) i = Some (p, ev) -> round_shape T lk k bases i t p ev).
  { intros i t p ev Ht Hn. apply (sh_rounds _ _ _ _ _ _ Hs i t p ev); auto. rewrite Hst. auto. }
  pose proof (rounds_sound T lk k bases Hwf (rounds_of pf) s0 s Hch Hni Hlr Er Hrs eq_refl E) as [(i & t & p & ev & Ht & Hn & Hl)|Hc].
  - exists i, t, p, ev. rewrite Hst. auto.
  - exfalso. apply Hc. rewrite Hlr in Es.
    assert (Hp : length (ls_point s) = S k).
    { clear Hc. rewrite Hst in Es.
      assert (G : forall i t, i <= k -> ofold (logup_round T (length bases)) (firstn i (irounds pf)) s0 = Some t -> length (ls_point t) = S i).
      { induction i as [|i IH]; intros t Hi Ht; [cbn in Ht; injection Ht as <-; reflexivity|].
        assert (HL : length (irounds pf) = k) by (unfold irounds; rewrite combine_length, seq_length; lia).
        destruct (nth_error (rounds_of pf) i) as [[p ev]|] eqn:En; [|apply nth_error_None in En; lia].
        assert (En' : nth_error (irounds pf) i = Some (i, (p, ev))).
        { unfold irounds. rewrite (nth_error_nth' _ (0%nat, (p, ev))) by (rewrite combine_length, seq_length; lia).
          rewrite combine_nth by (rewrite seq_length; auto). rewrite seq_nth by lia. rewrite (nth_error_nth _ _ _ En). reflexivity. }
        destruct (ofold_prefix _ _ _ _ i Er ltac:(lia)) as [u Hu].
        rewrite (ofold_step _ _ _ _ _ _ En' Hu) in Ht.
        destruct (round_step T lk k bases i u p ev t Hni ltac:(lia) Ht (Hrs _ _ _ _ Hu En) (IH u ltac:(lia) Hu)) as (e & h2 & qs & b' & na & nl & h3 & _ & _ & _ & _ & ->).
        cbn [ls_point]. rewrite app_length, sc_point_length. cbn [length]. lia. }
      apply (G k s); auto. }
    specialize (Hf s Es Hp). rewrite Efe in Hf. congruence.
Qed.

(** *** Columns *)
Definition lk_bases (cst csc : K) (m : nat) (insts : list (list (list K))) := map (lk_base cst csc m) insts.
(** Every claim handed on is true of its column at its own point, and the points are the final point. *)
Definition claims_true (T : @hist K -> K) (pf : @logup_proof K) (ni k : nat) (h : hist) (cols : list (list K)) : Prop :=
  Forall2 (fun c col => cl_eval c = mle col (cl_point c)) (lp_claims pf) cols /\
  forall s, state_at T pf ni h k = Some s -> forall c, In c (lp_claims pf) -> cl_point c = ls_point s.

Lemma claims_evals (cls : list (@claim K)) cols x : Forall2 (fun c col => cl_eval c = mle col (cl_point c)) cls cols ->
  (forall c, In c cls -> cl_point c = x) -> map cl_eval cls = map (fun c => mle c x) cols.
Proof.
  induction 1 as [|c col cls cols Hc _ IH]; intros Hp; [reflexivity|]. cbn [map]. rewrite Hc, (Hp c (or_introl eq_refl)). f_equal.
  apply IH. intros; apply Hp; right; auto.
Qed.

Lemma lookup_sound (T : @hist K -> K) k per insts pf cst csc h cls nums dens h' : char_gt K 3 ->
  0 < per -> insts <> [] -> (forall cs, In cs insts -> length cs = per /\ forall c, In c cs -> length c = 2 ^ S (S k)) ->
  verify_logup T pf (length insts) cst csc h = Some (cls, nums, dens, h') ->
  let bases := lk_bases cst csc (S (S k)) insts in
  shaped T true (S k) bases pf h -> claims_true T pf (length insts) (S k) h (concat insts) ->
  combine nums dens = map (fun cs => frac_list (map (fun i => (- (1), row_val cst csc cs i)) (seq 0 (2 ^ S (S k))))) insts
  \/ run_lucky T true (S k) bases pf h.
Proof.
  intros Hch Hper Hne Hw Hv bases Hs [Hct Hcp].
  assert (Hlb : length bases = length insts) by (unfold bases, lk_bases; apply map_length).
  rewrite <- Hlb in Hv, Hcp.
  assert (Hb0 : bases <> []) by (intros E; rewrite E in Hlb; destruct insts; [congruence|discriminate]).
  assert (Hwf : forall p, In p bases -> wf_lay (S (S k)) p).
  { intros p Hp. unfold bases, lk_bases in Hp. apply in_map_iff in Hp as (cs & <- & Hcs). split; cbn [lk_base fst snd]; [apply repeat_length|apply merged_length]. }
  assert (Hf : forall s, state_at T pf (length bases) h (S k) = Some s -> length (ls_point s) = S (S k) ->
     final_eval pf cst csc (ls_alpha s) (ls_lambda s) (length bases) = Some (V true (S k) bases (S k) (ls_alpha s) (ls_lambda s) (ls_point s))).
  { intros s Hst Hp. unfold final_eval. rewrite (sh_type _ _ _ _ _ _ Hs).
    assert (Hni : 0 < length bases) by (destruct bases; [congruence|cbn; lia]).
    destruct (Nat.eqb_spec (length bases) 0); [lia|].
    assert (Hlc : length (lp_claims pf) = (per * length insts)%nat).
    { rewrite (F2_len _ _ _ Hct). rewrite (length_concat_uniform _ per) by (intros cs Hcs; apply Hw; auto). lia. }
    rewrite Hlc, Hlb, Nat.div_mul by lia. destruct (Nat.eqb_spec per 0); [lia|]. rewrite wsum_fold. f_equal.
    unfold V. rewrite Nat.eqb_refl. cbn [andb].
    pose proof (claims_evals (lp_claims pf) (concat insts) (ls_point s) Hct (Hcp s Hst)) as Hev.
    destruct (cut_uniform per (length insts) Hper (lp_claims pf) Hlc) as (ll & El & Hll & Hx).
    rewrite El. rewrite chunks_uniform by auto.
    assert (E2 : map (map cl_eval) ll = map (map (fun c => mle c (ls_point s))) insts).
    { rewrite El, !concat_map in Hev.
      rewrite <- (chunks_uniform per (map (map cl_eval) ll)), <- (chunks_uniform per (map (map (fun c => mle c (ls_point s))) insts)), Hev; auto.
      - intros l Hl. apply in_map_iff in Hl as (cs & <- & Hcs). rewrite map_length. apply Hw; auto.
      - intros l Hl. apply in_map_iff in Hl as (cs & <- & Hcs). rewrite map_length. apply Hx; auto. }
    transitivity (wsum (ls_alpha s) (map (col_comb cst csc) (map (map cl_eval) ll))); [rewrite map_map; reflexivity|].
    rewrite E2. rewrite map_map. unfold bases, lk_bases. rewrite map_map. apply wsum_ext. intros cs Hcs.
    rewrite col_comb_spec. cbn [lk_base snd]. rewrite merged_mle by auto. reflexivity. }
  destruct (whole_sound T true (S k) bases pf cst csc h cls nums dens h' Hch Hb0 Hwf ltac:(lia) Hv Hs Hf) as [E|E]; [left|right; auto].
  rewrite E. unfold bases, lk_bases. rewrite map_map. apply map_ext_in. intros cs Hcs. cbn [lk_base fst snd].
  rewrite combine_repeat by apply merged_length. unfold merged. rewrite map_map. reflexivity.
Qed.

Lemma table_sound (T : @hist K -> K) k cols mult pf cst csc h cls nums dens h' : char_gt K 3 ->
  (forall c, In c cols -> length c = 2 ^ S k) -> length mult = 2 ^ S k ->
  verify_logup T pf 1 cst csc h = Some (cls, nums, dens, h') ->
  let bases := [tb_base cst csc (S k) mult cols] in
  shaped T false k bases pf h -> claims_true T pf 1 k h (mult :: cols) ->
  combine nums dens = [frac_list (map (fun i => (nth i mult 0, row_val cst csc cols i)) (seq 0 (2 ^ S k)))]
  \/ run_lucky T false k bases pf h.
Proof.
  intros Hch Hw Hm Hv bases Hs [Hct Hcp].
  assert (Hwf : forall p, In p bases -> wf_lay (S k) p).
  { intros p [<-|[]]. split; cbn [tb_base fst snd]; [auto|apply merged_length]. }
  assert (Hf : forall s, state_at T pf (length bases) h k = Some s -> length (ls_point s) = S k ->
     final_eval pf cst csc (ls_alpha s) (ls_lambda s) (length bases) = Some (V false k bases k (ls_alpha s) (ls_lambda s) (ls_point s))).
  { intros s Hst Hp. unfold final_eval. rewrite (sh_type _ _ _ _ _ _ Hs). cbn [bases length] in Hst.
    pose proof (claims_evals (lp_claims pf) (mult :: cols) (ls_point s) Hct (Hcp s Hst)) as Hev.
    destruct (lp_claims pf) as [|m cls']; [discriminate|]. cbn [map] in Hev.
    assert (E1 : cl_eval m = mle mult (ls_point s)) by congruence. assert (E2 : map cl_eval cls' = map (fun c => mle c (ls_point s)) cols) by congruence.
    rewrite E1, E2. f_equal. unfold V. cbn [andb]. unfold lay_val, layer_at. rewrite Nat.sub_diag. cbn [bases map lev tb_base wsum fst snd].
    rewrite col_comb_spec, merged_mle by auto. ring. }
  destruct (whole_sound T false k bases pf cst csc h cls nums dens h' Hch ltac:(discriminate) Hwf ltac:(discriminate) Hv Hs Hf) as [E|E]; [left|right; auto].
  rewrite E. cbn [bases map tb_base fst snd]. do 2 f_equal. unfold merged.
  apply nth_ext with (d := (0, 0)) (d' := (0, 0)).
  - rewrite combine_length, !map_length, seq_length. lia.
  - intros i Hi. rewrite combine_length, map_length, seq_length in Hi. rewrite combine_nth by (rewrite map_length, seq_length; lia).
    rewrite !nth_map_seq by lia. reflexivity.
Qed.
End P.
