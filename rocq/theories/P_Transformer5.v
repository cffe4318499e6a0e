(** The prover of the argmax layer: its proof is accepted; and inputs no proof is accepted for. *)
From Coq Require Import List Arith Lia Bool ZArith Ring Field.
From Verif Require Import ListAux FieldDef PolyList MleMath M_Mle P_Mle P_Eq M_Interp P_Interp M_Sumcheck P_ScVerify P_ScProve P_ScProve2 P_ScBatch P_ScFinal M_ScParallel
  P_ScParallel P_ScApi M_SamePoly P_SamePoly M_LogUp P_LogUp4 P_LogUp8 P_LogUp9 M_Tables P_Tables M_Tensor P_Tensor P_Tensor2 P_Tensor3 M_Pad P_Pad P_Pad2 M_Layers P_Layers P_Layers2 P_Layers3
  M_Sop P_Sop M_Transformer P_Transformer P_Transformer2 P_Transformer4.
Import ListNotations.

Section P.
Context {K : field}.
Local Open Scope F_scope.
Add Field Kf_transf5 : (fth K).

Lemma diffs_ok nr nc (input maxv : ten K) : sh input = [2 ^ nr; 2 ^ nc]%nat -> length (dat input) = 2 ^ (nr + nc) -> length (dat maxv) = 2 ^ nr ->
  logits_diffs fsub input maxv = Some (row_diff nr nc (dat maxv) (dat input)).
Proof.
  intros Es Li Lm. unfold logits_diffs. rewrite Es. cbn [length Nat.sub nth_error obind]. rewrite Li.
  assert (P : 2 ^ nc <> 0%nat) by (apply Nat.pow_nonzero; lia). unfold row_diff. rewrite <- Li. rewrite (proj2 (Nat.eqb_neq _ _) P).
  assert (G : forall (l : list K) a, (forall i, i < a + length l -> i / 2 ^ nc < 2 ^ nr) ->
    omapM (fun '(i, x) => m <- nth_error (dat maxv) (i / 2 ^ nc) ;; Some (m - x)) (combine (seq a (length l)) l)
    = Some (map (fun x => nth (x / 2 ^ nc) (dat maxv) 0 - nth (x - a) l 0) (seq a (length l)))).
  { induction l as [|x l IH]; intros a Ha; [reflexivity|]. cbn [length seq combine omapM map].
    cbn [length] in Ha. rewrite (nth_error_nth' (dat maxv) 0) by (rewrite Lm; apply Ha; lia). cbn [obind].
    rewrite IH by (intros i Hi; apply Ha; lia). cbn [obind]. rewrite Nat.sub_diag. cbn [nth]. f_equal. f_equal. apply map_ext_in. intros y Hy. apply in_seq in Hy.
    f_equal. replace (y - a)%nat with (S (y - S a)) by lia. reflexivity. }
  rewrite G.
  - f_equal. apply map_ext. intros x. rewrite Nat.sub_0_r. reflexivity.
  - intros i Hi. rewrite Li in Hi. rewrite Nat.pow_add_r in Hi. apply Nat.div_lt_upper_bound; lia.
Qed.

(** reduced_m after the loop. *)
Lemma reduce_m_ok V : forall (beta mx : list K) (outs : list nat) acc, (forall t, In t outs -> t < V) -> length mx = length outs -> length beta = length outs -> length acc = V ->
  exists R, ofold (fun acc '(b, (o, mx)) => v <- nth_error acc o ;; Some (upd o (v + b * mx) acc)) (combine beta (combine outs mx)) acc = Some R /\ length R = V /\
    forall v, v < V -> nth v R 0 = nth v acc 0 +
      sumn (length outs) (fun i => if Nat.eqb (nth i outs 0%nat) v then nth i beta 0 * nth i mx 0 else 0).
Proof.
  intros beta. induction beta as [|b beta IH]; intros mx outs acc Ht Lm Lb La.
  - destruct outs; [|discriminate]. exists acc. cbn [combine ofold length sumn]. split; [auto|]. split; [auto|]. intros v _. ring.
  - destruct outs as [|o outs]; [discriminate|]. destruct mx as [|m mx]; [discriminate|]. cbn [length] in Lm, Lb.
    cbn [combine ofold]. assert (Ho : o < V) by (apply Ht; left; reflexivity). rewrite (nth_error_nth' acc 0) by lia. cbn [obind].
    destruct (IH mx outs (upd o (nth o acc 0 + b * m) acc)) as (R & ER & LR & HR).
    { intros t H. apply Ht. right. auto. } { lia. } { lia. } { rewrite upd_length. auto. }
    exists R. split; [exact ER|]. split; [auto|]. intros v Hv. rewrite HR by auto. cbn [length]. rewrite sumn_S_l. cbn [nth].
    destruct (Nat.eqb_spec o v) as [->|Hne]; [rewrite nth_upd_eq by lia; ring|rewrite nth_upd_neq by auto; ring].
Qed.

(** one_hot_output after the loop. *)
Lemma onehot_loop nr nc : forall (outs : list nat) a (acc : list K), (forall t, In t outs -> t < 2 ^ nc) -> a + length outs <= 2 ^ nr -> length acc = 2 ^ (nr + nc) ->
  exists R, ofold (fun acc '(i, o) => let index := (i * 2 ^ nc + o)%nat in if Nat.ltb index (length acc) then Some (upd index 1 acc) else None)
                  (combine (seq a (length outs)) outs) acc = Some R /\ length R = 2 ^ (nr + nc) /\
    forall i v, i < 2 ^ nr -> v < 2 ^ nc -> nth (i * 2 ^ nc + v) R 0 =
      if Nat.leb a i then match nth_error outs (i - a) with Some t => if Nat.eqb t v then 1 else nth (i * 2 ^ nc + v) acc 0 | None => nth (i * 2 ^ nc + v) acc 0 end
      else nth (i * 2 ^ nc + v) acc 0.
Proof.
  induction outs as [|o outs IH]; intros a acc Ht Hl La.
  - exists acc. cbn [length seq combine ofold]. split; [auto|]. split; [auto|]. intros i v Hi Hv.
    destruct (Nat.leb a i); [|reflexivity]. destruct (i - a)%nat; reflexivity.
  - cbn [length] in Hl. assert (Ho : o < 2 ^ nc) by (apply Ht; left; reflexivity).
    cbn [length seq combine ofold]. cbv zeta. rewrite La.
    assert (Hix : a * 2 ^ nc + o < 2 ^ (nr + nc)) by (rewrite Nat.pow_add_r; nia).
    destruct (Nat.ltb_spec (a * 2 ^ nc + o) (2 ^ (nr + nc))) as [_|]; [|lia]. cbn [obind].
    destruct (IH (S a) (upd (a * 2 ^ nc + o) 1 acc)) as (R & ER & LR & HR).
    { intros t H. apply Ht. right. auto. } { lia. } { rewrite upd_length. auto. }
    exists R. split; [exact ER|]. split; [auto|]. intros i v Hi Hv. rewrite HR by auto.
    assert (U : nth (i * 2 ^ nc + v) (upd (a * 2 ^ nc + o) 1 acc) 0 = if Nat.eqb i a && Nat.eqb o v then 1 else nth (i * 2 ^ nc + v) acc 0).
    { destruct (Nat.eqb_spec i a) as [->|Hia]; cbn [andb].
      - destruct (Nat.eqb_spec o v) as [->|Hov]; [apply nth_upd_eq; lia|apply nth_upd_neq; lia].
      - apply nth_upd_neq. nia. }
    destruct (Nat.leb_spec (S a) i) as [H1|H1], (Nat.leb_spec a i) as [H2|H2]; try lia.
    + replace (i - a)%nat with (S (i - S a)) by lia. cbn [nth_error]. rewrite U. rewrite (proj2 (Nat.eqb_neq i a)) by lia. reflexivity.
    + assert (i = a) by lia. subst i. rewrite Nat.sub_diag. cbn [nth_error]. rewrite U, Nat.eqb_refl. cbn [andb]. reflexivity.
    + rewrite U. rewrite (proj2 (Nat.eqb_neq i a)) by lia. reflexivity.
Qed.

Lemma logits_complete (T : @hist K -> K) ncpus scl esl sc1 sc2 es toel cst csc k nr nc rest (diffs : list K) (maxv input output : ten K) h :
  char_gt K 3 -> 0 < ncpus -> 0 < nc -> (nr + nc = S (S k))%nat ->
  sh input = [2 ^ nr; 2 ^ nc]%nat -> length (dat input) = 2 ^ (nr + nc) ->
  sh maxv = [2 ^ nr; 1]%nat -> length (dat output) = 2 ^ nr -> sh output = (2 ^ nr)%nat :: rest -> shape_is_pow2 (sh output) = true ->
  (forall x, In x (dat output) -> toel x < 2 ^ nc) ->
  dat maxv = picked nr nc (map toel (dat output)) (dat input) ->
  logits_diffs fsub input maxv = Some diffs ->
  logup_scheds true (S k) 1 scl -> valid_sched (S (S k)) esl -> valid_sched nr es ->
  (forall i, i < nc -> valid_rsched (prod_shape (K := K) 2 nc) i (sc1 i)) ->
  (forall i, i < nr + nc -> valid_rsched (sop_shape (K := K) (nr + nc) 5 [[0; 1; 2]; [3; 4]]%nat) i (sc2 i)) ->
  exists pf cin cmax h', logits_prove T ncpus scl esl sc1 sc2 es toel cst csc diffs maxv input output h = Some (cin, cmax, pf, h') /\
    claim_true (dat input) cin /\ claim_true (dat maxv) cmax /\
    ((forall p r, In p (lp_sumchecks (lg_logup pf)) -> In r (pf_point p) -> not_node 3 r) ->
     (forall r, In r (pf_point (lg_sumcheck pf)) -> not_node 2 r) -> (forall r, In r (pf_point (lg_hadamard pf)) -> not_node 3 r) ->
     eqp (pf_point (lg_sumcheck pf) ++ cl_point cmax) (cl_point cin) * cl_eval cin <> 0 ->
     logits_verify T toel cst csc nc (nr + nc) (2 ^ nr) [output] pf h = Some (cin, cmax, h')).
Proof.
  intros Hch Hncp Hnc Hk Si Li Sm Lo So Po Htok Hm Hd Hsl Hel Hes Hs1 Hs2.
  set (toks := map toel (dat output)) in *. set (X := dat input) in *. set (m := dat maxv) in *.
  assert (Lm : length m = 2 ^ nr) by (rewrite Hm; unfold picked; rewrite map_length, seq_length; reflexivity).
  rewrite (diffs_ok nr nc) in Hd by auto. fold X m in Hd. assert (Ed : diffs = row_diff nr nc m X) by congruence. clear Hd.
  assert (Ld : length diffs = 2 ^ S (S k)) by (rewrite Ed; unfold row_diff; rewrite map_length, seq_length, Hk; reflexivity).
  assert (Ltk : length toks = 2 ^ nr) by (unfold toks; rewrite map_length; auto).
  assert (Htk : forall t, In t toks -> t < 2 ^ nc) by (intros t Ht; apply in_map_iff in Ht as (x & <- & Hx); auto).
  destruct (lookup_complete_p T ncpus scl esl k 1 [[diffs]] cst csc h) as (lp & h1 & nums & dens & pt & Elp & Ecl & Lpt & _ & _ & _ & _ & Hver0); auto.
  { discriminate. }
  { intros cs [<-|[]]. split; [reflexivity|]. intros c [<-|[]]. auto. }
  cbn [concat app] in Elp. cbn [concat app map] in Ecl. 
  unfold logits_prove. fold toks X m. rewrite Elp. cbn [obind]. rewrite Ecl.
  rewrite (to_mle_2d_ok maxv nr 0) by (auto; rewrite Nat.add_0_r; auto). cbn [obind num_vars cl_point cl_eval]. rewrite Nat.add_0_r. fold m.
  unfold logits_split, csub. rewrite Lpt, <- Hk. destruct (Nat.leb_spec nr (nr + nc)) as [_|]; [|lia]. cbn [obind snd].
  replace (nr + nc - nr)%nat with nc by lia. set (row := skipn nc pt).
  assert (Lrow : length row = nr) by (unfold row; rewrite skipn_length; lia).
  rewrite (evaluate_ext es nr) by auto. cbn [obind]. rewrite Si. cbn [length Nat.sub nth_error obind].
  destruct (reduce_m_ok (2 ^ nc) (compute_betas_eval row) m toks (repeat 0 (2 ^ nc))) as (R & ER & LR & HR).
  { auto. } { lia. } { rewrite compute_betas_spec, eq_table_length, Lrow. lia. } { apply repeat_length. }
  rewrite ER. cbn [obind].
  rewrite (to_mle_2d_ok (mkTen [2 ^ nc; 1]%nat R) nc 0) by (auto; cbn [dat]; rewrite LR; f_equal; lia). cbn [obind].
  rewrite (to_mle_2d_ok (mkTen [2 ^ nc; 1]%nat (repeat 1 (2 ^ nc))) nc 0) by (auto; cbn [dat]; rewrite repeat_length; f_equal; lia). cbn [obind num_vars dat]. rewrite Nat.add_0_r.
  assert (Hch2 : char_gt K 2) by (apply (char_gt_le K 3); auto).
  destruct (product_prove_ok T ncpus sc1 nc [R; repeat 1 (2 ^ nc)] h1) as (pf1 & h2 & Epp & Hl1 & Hver1); auto.
  { cbn [length]. lia. }
  { intros l [<-|[<-|[]]]; [auto|apply repeat_length]. }
  cbn [map] in Epp. rewrite Epp. cbn [obind nth_error fst snd].
  set (OH := onehot nc nr toks : list K). assert (HOH : is_onehot (K := K) nc nr toks OH) by apply onehot_is.
  (* the reduced table *)
  assert (HRm : forall x, length x = nc -> mle R x = mle (selected nr nc OH X) (x ++ row)).
  { intros x Lx. unfold mle. rewrite mlef_app, mlef_swap. apply mlef_ext. intros v Hv. rewrite Lx in *.
    rewrite HR by auto. rewrite nth_repeat, Ltk. unfold mlef. rewrite Lrow.
    match goal with |- 0 + ?a = _ => transitivity a; [ring|] end. apply sumn_ext. intros i Hi.
    unfold selected. rewrite nth_map_seq by (rewrite Nat.pow_add_r; nia). replace (v + 2 ^ nc * i)%nat with (i * 2 ^ nc + v)%nat by lia.
    rewrite (proj2 HOH) by auto. rewrite (nth_error_nth' toks 0%nat) by lia.
    rewrite compute_betas_spec, eq_table_at by (rewrite Lrow; lia). destruct (Nat.eqb_spec (nth i toks 0%nat) v) as [E|E].
    - rewrite Hm. unfold picked. rewrite nth_map_seq by auto. rewrite (nth_error_nth' toks 0%nat) by lia. rewrite E. ring.
    - ring. }
  assert (Hone : forall x : list K, length x = nc -> mle (repeat 1 (2 ^ nc)) x = 1).
  { intros x Lx. unfold mle. rewrite (mlef_ext _ (fun _ => 1)) by (intros i Hi; rewrite Lx in Hi; rewrite (nth_indep _ 0 1) by (rewrite repeat_length; auto); apply nth_repeat). apply mlef_const. }
  set (rs1 := pf_point pf1) in *. set (mp := rs1 ++ row).
  assert (Lmp : length mp = (nr + nc)%nat) by (unfold mp; rewrite app_length; lia).
  rewrite !compute_betas_spec. rewrite (into_mle_ext_ok (nr + nc)) by (rewrite eq_table_length, Lmp; reflexivity). cbn [obind].
  rewrite (to_mle_2d_ok input nr nc) by auto. cbn [obind].
  destruct (onehot_loop nr nc toks 0 (repeat 0 (fold_right Nat.mul 1%nat [2 ^ nr; 2 ^ nc]%nat))) as (OH' & EO & LO & HO).
  { auto. } { lia. } { rewrite repeat_length. cbn [fold_right]. rewrite Nat.pow_add_r. lia. }
  cbv zeta in EO |- *. change (fold_right Nat.mul 1%nat [2 ^ nr; 2 ^ nc]%nat) with (2 ^ nr * (2 ^ nc * 1))%nat in EO |- *. rewrite EO. cbn [obind].
  assert (HOE : OH' = OH).
  { apply (nth_ext _ _ 0 0); [rewrite LO; symmetry; apply HOH|]. rewrite LO. intros x Hx.
    assert (P2 : 2 ^ nc <> 0%nat) by (apply Nat.pow_nonzero; lia).
    assert (Hd' : x / 2 ^ nc < 2 ^ nr) by (apply Nat.div_lt_upper_bound; [auto|rewrite <- Nat.pow_add_r, Nat.add_comm; auto]).
    rewrite (Nat.div_mod x (2 ^ nc) P2). rewrite (Nat.mul_comm (2 ^ nc)). pose proof (Nat.mod_upper_bound x _ P2).
    rewrite HO by auto. rewrite (proj2 HOH) by auto. cbn [Nat.leb]. rewrite Nat.sub_0_r, nth_repeat. reflexivity. }
  rewrite HOE. clear OH' EO LO HO HOE.
  assert (LOH : length OH = 2 ^ (nr + nc)) by apply HOH.
  rewrite (into_mle_base_ok (nr + nc)) by auto. cbn [obind].
  unfold squeeze_challenge at 1. cbn [cl_point cl_eval].
  set (ine := mle m row - mle diffs pt). set (h3 := EvFelt ine :: absorb h2 pt). set (ch := T h3).
  rewrite (into_mle_ext_ok (nr + nc)) by (rewrite eq_table_length, Lpt, Hk; reflexivity). cbn [obind num_vars]. fold X.
  destruct (sop_ok T ncpus sc2 (nr + nc)
      [mkMle (Ext X) (nr + nc); mkMle (Base OH) (nr + nc); mkMle (Ext (eq_table mp)) (nr + nc); mkMle (Ext (eq_table pt)) (nr + nc); mkMle (Ext X) (nr + nc)]
      [X; OH; eq_table mp; eq_table pt; X] [(1, [0; 1; 2]%nat); (ch, [3; 4]%nat)] (EvSample :: h3)) as (pf2 & h4 & Es & Hl2 & Hver2); auto.
  { lia. }
  { discriminate. }
  { intros c ix [E|[E|[]]]; apply (f_equal snd) in E; cbn [snd] in E; subst ix; (split; [discriminate|cbn; lia]). }
  { constructor; [apply ext_is_table; auto|]. constructor; [repeat split; auto|]. constructor; [apply ext_is_table; rewrite eq_table_length, Lmp; auto|].
    constructor; [apply ext_is_table; rewrite eq_table_length, Lpt, Hk; auto|]. constructor; [apply ext_is_table; auto|]. constructor. }
  rewrite Es. cbn [obind map nth_error]. set (rs2 := pf_point pf2) in *.
  eexists _, _, _, _. split; [reflexivity|]. cbn [cl_point cl_eval lg_logup lg_sumcheck lg_hadamard].
  split; [split; cbn [cl_point cl_eval]; [rewrite Hl2; auto|reflexivity]|]. split; [split; cbn [cl_point cl_eval]; [rewrite Lrow; auto|reflexivity]|].
  intros N0 N1 N2 Hnz. destruct (Hver0 N0) as (Ev0 & _ & _). specialize (Hver1 N1). specialize (Hver2 N2). cbn [length] in Ev0.
  unfold logits_verify. cbn [lg_logup lg_sumcheck lg_hadamard lg_max_eval lg_max_mat_eval lg_input_eval]. rewrite Ev0. cbn [obind]. rewrite Ecl, ilog2_pow. cbn [obind cl_point cl_eval].
  unfold logits_split at 1, csub at 1. rewrite Lpt, <- Hk. destruct (Nat.leb_spec nr (nr + nc)) as [_|]; [|lia]. cbn [obind snd].
  replace (nr + nc - nr)%nat with nc by lia. fold row.
  assert (E1 : hsum nc (prodf (map mle [R; repeat 1 (2 ^ nc)])) = mle m row).
  { rewrite Hm, <- (mle_picked nr nc toks OH X row) by auto. apply hsum_ext. intros x Lx. unfold prodf. cbn [map fprod]. rewrite HRm, Hone by auto. ring. }
  rewrite E1 in Hver1. cbn [length] in Hver1. rewrite Hver1. cbn [obind].
  fold rs1. assert (E2 : prodf (map mle [R; repeat 1 (2 ^ nc)]) rs1 = mle R rs1).
  { unfold prodf. cbn [map fprod]. rewrite Hone by auto. ring. }
  rewrite E2, feqb_refl. unfold squeeze_challenge. cbn [cl_point cl_eval]. fold ine h3 ch mp.
  assert (Heq : forall r x : list K, length r = (nr + nc)%nat -> length x = (nr + nc)%nat -> mle (eq_table r) x = eqp r x).
  { intros r x Lr Lx. unfold mle. rewrite <- mlef_eqw by lia. apply mlef_ext. intros i Hi. apply eq_table_at. rewrite Lr, <- Lx. auto. }
  assert (Lpt' : length pt = (nr + nc)%nat) by lia.
  assert (HF : forall x, length x = (nr + nc)%nat -> sopf [X; OH; eq_table mp; eq_table pt; X] [(1, [0; 1; 2]%nat); (ch, [3; 4]%nat)] x
      = eqp mp x * mle X x * mle OH x + ch * (eqp pt x * mle X x)).
  { intros x Lx. unfold sopf. cbn [map fsum fprod fst snd nth]. rewrite !Heq by auto. ring. }
  assert (E3 : hsum (nr + nc) (sopf [X; OH; eq_table mp; eq_table pt; X] [(1, [0; 1; 2]%nat); (ch, [3; 4]%nat)]) = mle R rs1 + ch * ine).
  { rewrite (hsum_ext _ _ _ HF). rewrite hsum_hadamard by auto. fold (selected nr nc OH X). rewrite HRm by auto. fold mp. f_equal. f_equal.
    unfold ine. rewrite Ed, mle_row_diff by lia. fold row. ring. }
  rewrite E3 in Hver2. change (sop_deg [(1, [0; 1; 2]%nat); (ch, [3; 4]%nat)]) with 3%nat in Hver2. rewrite Hver2. cbn [obind]. fold rs2.
  rewrite HF by auto. rewrite !identity_eval_eqp. fold rs1 in Hnz. fold mp in Hnz.
  rewrite (proj2 (feqb_false _ _) Hnz).
  assert (Eo : logits_verify_output toel [output] (mkClaim rs2 ((eqp mp rs2 * mle X rs2 * mle OH rs2 + ch * (eqp pt rs2 * mle X rs2) - ch * mle X rs2 * eqp pt rs2) * finv (eqp mp rs2 * mle X rs2))) = Some tt).
  { apply (logits_output_iff toel output nr nc rest _ OH So Po); [cbn [cl_point]; lia|auto|auto|].
    split; cbn [cl_point cl_eval]; [rewrite Hl2; auto|]. field. split; intros E; apply Hnz; rewrite E; ring. }
  rewrite Eo. cbn [obind]. reflexivity.
Qed.

(** No proof is accepted with a true claim when all the logits are zero. *)
Lemma logits_zero_rejected (T : @hist K -> K) tok cst csc sv hv rows outputs n X pf h cin cmax h' :
  length X = 2 ^ n -> (forall x, In x X -> x = 0) ->
  logits_verify T tok cst csc sv hv rows outputs pf h = Some (cin, cmax, h') -> ~ claim_true X cin.
Proof.
  intros LX HX Hv [_ E]. unfold logits_verify in Hv.
  destruct (verify_logup T (lg_logup pf) 1 cst csc h) as [[[[cls nums] dens] h1]|]; [|discriminate]. cbn [obind] in Hv.
  destruct cls as [|c [|c' cls]]; try discriminate. destruct (ilog2 rows) as [nrv|]; [|discriminate]. cbn [obind] in Hv.
  destruct (logits_split (cl_point c) nrv) as [s|]; [|discriminate]. cbn [obind] in Hv.
  destruct (verify T (lg_max_eval pf) (lg_sumcheck pf) sv 2 h1) as [[[rs1 e1] h2]|]; [|discriminate]. cbn [obind] in Hv.
  destruct (e1 =? lg_max_mat_eval pf); [|discriminate]. destruct (squeeze_challenge _ _ _) as [ch h3].
  destruct (verify T (lg_max_mat_eval pf + _) (lg_hadamard pf) hv 3 h3) as [[[rs2 e2] h4]|]; [|discriminate]. cbn [obind] in Hv.
  destruct (_ =? 0) eqn:Ed in Hv; [discriminate|]. apply feqb_false in Ed.
  destruct (logits_verify_output _ _ _) as [u|]; [|discriminate]. cbn [obind] in Hv.
  assert (cin = mkClaim rs2 (lg_input_eval pf)) by congruence. subst cin. cbn [cl_eval cl_point] in E.
  apply Ed. rewrite E. unfold mle. rewrite (mlef_ext _ (fun _ => 0)).
  - rewrite mlef_const. ring.
  - intros i Hi. destruct (Nat.ltb_spec i (length X)); [apply HX, nth_In; auto|apply nth_overflow; lia].
Qed.

(** The range check makes the selected entry a maximum of its row: [R] bounds the range table, [b] the logits, and the
    characteristic is larger than both together. *)
Lemma fZ_small_inj n x y : char_gt K n -> (Z.abs (x - y) <= Z.of_nat n)%Z -> @fZ K x = fZ y -> x = y.
Proof.
  intros Hc Hb E. assert (Z0 : @fZ K (x - y) = 0) by (rewrite fZ_sub, E; ring).
  destruct (Z.eq_dec x y) as [|N]; [auto|exfalso]. destruct (Z.lt_ge_cases x y) as [L|L].
  - apply (Hc (Z.to_nat (y - x))); [lia|]. rewrite <- fZ_of_nat, Z2Nat.id by lia. replace (y - x)%Z with (- (x - y))%Z by lia. rewrite fZ_opp, Z0. ring.
  - apply (Hc (Z.to_nat (x - y))); [lia|]. rewrite <- fZ_of_nat, Z2Nat.id by lia. exact Z0.
Qed.
Lemma range_max n nr nc toks (X : list Z) (R b : Z) : char_gt K n -> (2 * b + R <= Z.of_nat n)%Z ->
  length X = 2 ^ (nr + nc) -> (forall x, In x X -> (Z.abs x <= b)%Z) -> length toks = 2 ^ nr -> (forall t, In t toks -> t < 2 ^ nc) ->
  (forall d : K, In d (row_diff nr nc (picked nr nc toks (embed X)) (embed X)) -> exists z, (0 <= z < R)%Z /\ d = fZ z) ->
  forall i j, i < 2 ^ nr -> j < 2 ^ nc -> (nth (i * 2 ^ nc + j) X 0 <= nth (i * 2 ^ nc + nth i toks 0%nat) X 0)%Z.
Proof.
  intros Hc Hb LX HX Lt Ht Hr i j Hi Hj. set (t := nth i toks 0%nat). assert (Htt : t < 2 ^ nc) by (apply Ht, nth_In; lia).
  assert (B1 : (i * 2 ^ nc + j < 2 ^ (nr + nc))%nat) by (rewrite Nat.pow_add_r; nia).
  assert (B2 : (i * 2 ^ nc + t < 2 ^ (nr + nc))%nat) by (rewrite Nat.pow_add_r; nia).
  set (x := nth (i * 2 ^ nc + j) X 0%Z). set (m := nth (i * 2 ^ nc + t) X 0%Z).
  assert (Hx : (Z.abs x <= b)%Z) by (apply HX, nth_In; lia). assert (Hm : (Z.abs m <= b)%Z) by (apply HX, nth_In; lia).
  destruct (Hr (nth (i * 2 ^ nc + j) (row_diff nr nc (picked nr nc toks (embed X)) (embed X)) 0)) as (z & Hz & E).
  { apply nth_In. unfold row_diff. rewrite map_length, seq_length. auto. }
  unfold row_diff in E. rewrite nth_map_seq in E by auto.
  rewrite Nat.add_comm, Nat.div_add, Nat.div_small, Nat.add_0_l, Nat.add_comm in E by (try apply Nat.pow_nonzero; lia).
  unfold picked in E. rewrite nth_map_seq in E by auto. rewrite (nth_error_nth' toks 0%nat) in E by lia. fold t in E.
  unfold embed in E. rewrite !(nth_map_lt _ _ _ 0%Z) in E by lia. fold x m in E. rewrite <- fZ_sub in E.
  assert (m - x = z)%Z by (apply (fZ_small_inj n); auto; lia). lia.
Qed.

(** The sequential schedules are valid. *)
Lemma seq_sop_sched nv cnt ixs k : valid_rsched (K := K) (sop_shape nv cnt ixs) k (seq_rsched (length ixs) nv k).
Proof.
  constructor.
  - intros _ i Hi Hk. cbn [sop_shape vp_mles] in *. rewrite repeat_length in Hi. rewrite (nth_indep _ dm (mkMle (Ext []) nv)) by (rewrite repeat_length; auto). rewrite nth_repeat.
    apply Permutation.Permutation_refl.
  - intros q Hq Hk. replace (prod_nv (sop_shape nv cnt ixs) q) with nv; [apply Permutation.Permutation_refl|].
    unfold prod_nv in *. cbn [sop_shape vp_mles] in *. set (a := nth 0 _ 0%nat) in *. destruct (Nat.ltb_spec a cnt) as [L|L].
    + rewrite (nth_indep _ dm (mkMle (Ext []) nv)) by (rewrite repeat_length; auto). rewrite nth_repeat. reflexivity.
    + rewrite nth_overflow in Hk by (rewrite repeat_length; auto). cbn in Hk. lia.
  - cbn [sop_shape vp_products]. rewrite map_length. apply Permutation.Permutation_refl.
Qed.
Lemma seq_prod_sched nv d k : valid_rsched (K := K) (prod_shape d nv) k (seq_rsched 1 nv k).
Proof.
  destruct (seq_sop_sched nv d [seq 0 d] k) as [A B C]. constructor; [exact A| |exact C].
  intros q Hq Hk. assert (q = 0%nat) by (cbn in Hq; lia). subst q. exact (B 0%nat Hq Hk).
Qed.
End P.
