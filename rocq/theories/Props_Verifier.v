(** Property theorems C16, C17, C54 and the verifier part of C48.  Statements only.
    The layers' verifiers, the commitment scheme and the float operations are arbitrary parameters.
    The specification: [dataflow] is the true run of the model, [holds] says what a claim means, [node_fr] and [table_fr]
    read the fractions off a proof. *)
From Coq Require Import String.
From Coq Require Import List Arith Lia Bool ZArith Permutation Field.
From Verif Require Import ListAux FieldDef FpInst MleMath PolyList M_Mle P_Mle P_Eq M_Sumcheck P_ScVerify M_SamePoly M_LogUp M_Lookup M_Tables M_Graph P_Lookup P_Lookup2 P_Lookup3 P_LogUp P_Graph P_Graph2 P_Graph3 P_Graph4 P_Graph5 P_Graph6 M_Verifier P_Verifier P_Verifier2 P_Verifier3 P_Verifier4 P_Verifier5 P_Verifier6.
Import ListNotations.

Section Statements.
Context {K : field}.
Local Open Scope F_scope.
Notation claim := (@claim K).
Notation tensor := (@tensor K).
Notation hist := (@M_Sumcheck.hist K).
Variable T : hist -> K.
Variable esch : nat -> nat -> list nat.
Variable FL : floats.
Context {Ctx LP St Sh Cm CP : Type}.
Variable is_logits has_proof provable : Ctx -> bool.
Variable lookup_data : LP -> option (list K * list K).
Variable shape_steps : @nodes Ctx -> list (list nat) -> option Sh.
Variable layer_verify : nat -> Ctx -> option LP -> list claim -> list tensor -> Sh -> @storage K -> St -> hist -> option (list claim * (St * hist)).
Variable B : nat.
Variable add_witness : St -> Cm -> claim -> option St.
Variable add_table : St -> table_type -> claim -> option St.
Variable special : Ctx -> option (list tensor -> list claim -> bool).
Variable st0 : St.
Variable open_ok : St -> CP -> hist -> bool.
Notation checks := (verify_checks T esch FL is_logits has_proof provable lookup_data shape_steps layer_verify B add_witness add_table special st0 open_ok).
Notation verify := (verify_model T esch FL is_logits has_proof provable lookup_data shape_steps layer_verify B add_witness add_table special st0 open_ok).
Notation nverify := (node_verify is_logits has_proof provable layer_verify).
Notation vtable := (verify_table T esch B add_witness add_table).
Notation run_of := (run_of T esch FL is_logits has_proof provable shape_steps layer_verify st0).
Notation node_fr := (node_fr has_proof lookup_data).

(** C16, for a proof with as many table proofs as the context has tables and a model whose provable and proof-carrying
    layers coincide: the fractions that are summed to zero are those of the nodes and tables, each of which was verified. *)
Theorem C16_counted (Hp : paired lookup_data) order c pf ins outs h : let ns := vc_nodes c in
  valid ns -> (forall i n, get ns i = Some n -> has_proof (n_op n) = true -> provable (n_op n) = true) ->
  length (vp_tables pf) = length (vc_tables c) -> verify order c pf ins outs h = true ->
  exists stg oc h2 sh bwd ic fwd fr bn sn, run_of order c pf ins outs h stg oc h2 sh bwd ic /\ Permutation fwd (keys ns) /\
    fr = (flat_map (node_fr ns (vp_steps pf)) fwd ++ flat_map table_fr (vp_tables pf))%list /\
    (forall x, In x fr -> snd x <> 0) /\ fsum (map (fun x => fst x * / snd x) fr) = 0 /\
    (forall i n, get ns i = Some n -> has_proof (n_op n) = true -> exists p d cl si r, get (vp_steps pf) i = Some p /\ lookup_data p = Some d /\
       checked (nverify (vp_steps pf) outs sh stg) ns oc (st0, h2) bwd i n cl si r /\
       layer_verify i (n_op n) (Some p) cl (if is_logits (n_op n) then outs else []) sh stg (fst si) (snd si) = Some r) /\
    claim_loop (nverify (vp_steps pf) outs sh stg) ns oc [] (st0, h2) bwd = Some (bn, sn) /\
    (forall k tp, nth_error (vp_tables pf) k = Some tp -> exists t ch s s', nth_error (vc_tables c) k = Some t /\
       challenges_by_name stg (table_name FL t) = Some ch /\
       verify_tables T esch FL B add_witness add_table stg (firstn k (combine (vp_tables pf) (vc_tables c))) sn = Some s /\ vtable tp t (fst ch) (snd ch) s = Some s').
Proof. exact (counted T esch FL is_logits has_proof provable lookup_data shape_steps layer_verify B add_witness add_table special st0 open_ok Hp order c pf ins outs h). Qed.
(** Without the first guard: one more table proof, which nobody verifies, cancels any lookup sum. *)
Theorem C16_extra_table_refuted (Hp : paired lookup_data) order c pf ins outs h n d cm : checks order c pf ins outs h = Some (n, d) -> d <> 0 ->
  length (vc_tables c) <= length (vp_tables pf) ->
  verify order c (mkVproof (vp_steps pf) (vp_tables pf ++ [mkTp cm (fake_lookup (- n) d)])%list (vp_open pf)) ins outs h = true.
Proof. exact (extra_table T esch FL is_logits has_proof provable lookup_data shape_steps layer_verify B add_witness add_table special st0 open_ok Hp order c pf ins outs h n d cm). Qed.
(** Without the second guard (Reshape): the fractions of a node whose layer is never verified cancel any lookup sum. *)
Theorem C16_unproved_node_refuted (Hp : paired lookup_data) order c pf ins outs h n d i nd p p' a b : let ns := vc_nodes c in
  checks order c pf ins outs h = Some (n, d) -> d <> 0 -> valid ns ->
  get ns i = Some nd -> has_proof (n_op nd) = true -> provable (n_op nd) = false ->
  get (vp_steps pf) i = Some p -> lookup_data p = Some (a, b) -> lookup_data p' = Some ((a ++ [- n])%list, (b ++ [d])%list) ->
  verify order c (mkVproof (put (vp_steps pf) i p') (vp_tables pf) (vp_open pf)) ins outs h = true.
Proof. exact (unproved_node T esch FL is_logits has_proof provable lookup_data shape_steps layer_verify B add_witness add_table special st0 open_ok Hp order c pf ins outs h n d i nd p p' a b). Qed.
(** C17.  What each lookup challenge is sampled from: the absorbed context, the label of the constant challenge, and the labels
    of the tables before it; tables without a label get 1.  [draw_events] lists the events of drawing challenges. *)
Theorem C17_challenge_history (c : @vctx K Ctx) h : let h0 := (vc_absorb c ++ h)%list in
  (vc_tables c = [] -> setup T FL c h = ((0, []), h0)) /\
  (vc_tables c <> [] -> let h1 := EvSample :: EvBytes lbl_tc :: h0 in
    setup T FL c h = ((T (EvBytes lbl_tc :: h0),
       map (fun i => (table_name FL (nth i (vc_tables c) TRange),
                   match table_label (nth i (vc_tables c) TRange) with
                   | Some l => T (EvBytes l :: draw_events (firstn i (vc_tables c)) ++ h1)%list
                   | None => 1 end)) (seq 0 (length (vc_tables c)))), (draw_events (vc_tables c) ++ h1)%list)).
Proof. exact (setup_spec T FL c h). Qed.
(** C17 fails: two runs with any two proofs, inputs and outputs have the same lookup challenges. *)
Theorem C17_challenges_fixed_refuted order order' c (pf pf' : @vproof K LP Cm CP) ins ins' outs outs' h stg stg' oc oc' h2 h2' sh sh' bwd bwd' ic ic' :
  run_of order c pf ins outs h stg oc h2 sh bwd ic -> run_of order' c pf' ins' outs' h stg' oc' h2' sh' bwd' ic' -> stg = stg'.
Proof. exact (challenges_fixed T esch FL is_logits has_proof provable shape_steps layer_verify st0 order order' c pf pf' ins ins' outs outs' h stg stg' oc oc' h2 h2' sh sh' bwd bwd' ic ic'). Qed.
(** So multiplicities can be chosen afterwards: for any looked-up columns, in the table or not, and any challenges with
    non-zero denominators, some multiplicity column passes the final check. *)
Theorem C17_forged_multiplicities_refuted (insts : list (list (list K))) (tcols : list (list K)) cst csc k : tcols <> [] -> (forall c, In c tcols -> length c = 2 ^ S k) ->
  (forall i, i < 2 ^ S k -> row_val cst csc tcols i <> 0) ->
  (forall cols, In cols insts -> cols <> [] /\ exists k', (forall c, In c cols -> length c = 2 ^ S (S k')) /\ forall i, i < 2 ^ S (S k') -> row_val cst csc cols i <> 0) ->
  exists mult fr, length mult = 2 ^ S k /\ table_fractions insts tcols mult cst csc = Some fr /\ final_check fr = true.
Proof. exact (forged_multiplicities insts tcols cst csc k). Qed.
(** C48: when the output nodes are visited in the order of their outputs and none is a Logits layer, prover and verifier
    draw the same points and make the same claims. *)
Theorem C48_out_agree ns outs order h : no_logits is_logits ns -> (forall i, In i (map fst order) -> In i (keys ns)) ->
  concat (map snd order) = seq 0 (length outs) ->
  verifier_out_claims T esch is_logits ns outs order (repeat default_claim (length outs)) h = prover_out_claims T esch outs h.
Proof. exact (out_agree T esch is_logits ns outs order h). Qed.
(** Every output bound to a node other than Logits gets the evaluation claim of that output tensor. *)
Theorem C48_out_claims ns outs : forall order acc h cs h',
  verifier_out_claims T esch is_logits ns outs order acc h = Some (cs, h') -> NoDup (concat (map snd order)) -> length acc = length outs ->
  length cs = length outs /\
  (forall o d, ~ In o (concat (map snd order)) -> nth o cs d = nth o acc d) /\
  (forall id idx n o v, In (id, idx) order -> get ns id = Some n -> is_logits (n_op n) = false -> In o idx -> nth_error outs o = Some v ->
     exists c h1 h2, nth_error cs o = Some c /\ out_claim T esch v h1 = Some (c, h2)).
Proof. exact (out_claims_inv T esch is_logits ns outs). Qed.
(** An evaluation claim at a random point tells two tables apart. *)
Theorem C48_mle_agree_count (S a b : list K) n : NoDup S -> length a = (2 ^ n)%nat -> length b = (2 ^ n)%nat -> a <> b ->
  length (filter (fun r => mle a r =? mle b r) (vecs S n)) <= n * length S ^ (n - 1).
Proof. exact (mle_agree_count S a b n). Qed.
(** Composition: an accepted run states the true outputs at the random points (for Logits, the outputs themselves), or one
    of the checks of this very run was fooled: a layer accepted false output claims over true input claims, or a layer
    with its own input check accepted a false claim about the model input. *)
Theorem C48_verify_sound (Hs : forall n, valid_sched n (esch n)) (eval : Ctx -> list tensor -> option (list tensor)) order c pf ins outs h tr :
  let ns := vc_nodes c in
  (forall m, Permutation (order m) m) -> valid ns -> ns <> [] -> dataflow eval ins ns tr -> logits_last is_logits ns ->
  (forall i n, In (i, n) ns -> single_out n) -> NoDup (concat (map (fun p => node_outs (snd p)) ns)) -> length (concat (map (fun p => node_outs (snd p)) ns)) = length outs ->
  verify order c pf ins outs h = true ->
  (forall i n k w o ins_i outs_i v, get ns i = Some n -> nth_error (n_outputs n) k = Some w -> In (mkEdge None o) w -> get tr i = Some (ins_i, outs_i) -> nth_error outs_i k = Some v ->
     exists y, nth_error outs o = Some y /\
       if is_logits (n_op n) then y = v
       else exists r h1 h2, read_challenges T (length r) h1 = (r, h2) /\ length (t_data y) = 2 ^ length r /\ length (t_data v) = 2 ^ length r /\ mle (t_data y) r = mle (t_data v) r) \/
  (exists stg oc h2 sh bwd ic, run_of order c pf ins outs h stg oc h2 sh bwd ic /\
     (layer_fooled is_logits (nverify (vp_steps pf) outs sh stg) outs ns tr oc (st0, h2) bwd \/ input_fooled special ins ns ic)).
Proof. exact (verify_sound T esch FL is_logits has_proof provable lookup_data shape_steps layer_verify B add_witness add_table special st0 open_ok Hs eval order c pf ins outs h tr). Qed.
(** C54 fails for outputs: an accepted proof is also accepted for another output tensor, whichever output is chosen. *)
Theorem C54_out_malleable_refuted (Hs : forall n, valid_sched n (esch n)) order c (pf : @vproof K LP Cm CP) ins outs h o y : let ns := vc_nodes c in
  (forall m, Permutation (order m) m) -> valid ns -> ns <> [] -> no_logits is_logits ns ->
  (forall i n, In (i, n) ns -> single_out n) -> NoDup (concat (map (fun p => node_outs (snd p)) ns)) -> length (concat (map (fun p => node_outs (snd p)) ns)) = length outs ->
  verify order c pf ins outs h = true -> nth_error outs o = Some y -> 1 < length (t_data y) ->
  exists y', y' <> y /\ t_shape y' = t_shape y /\ verify order c pf ins (upd o y' outs) h = true.
Proof. exact (out_malleable T esch Hs FL is_logits has_proof provable lookup_data shape_steps layer_verify B add_witness add_table special st0 open_ok order c pf ins outs h o y). Qed.
(** C54 fails for inputs: an accepted proof is also accepted for another input tensor. *)
Theorem C54_in_malleable_refuted (Hs : forall n, valid_sched n (esch n)) order c (pf : @vproof K LP Cm CP) ins outs h j x : let ns := vc_nodes c in
  (forall i n, get ns i = Some n -> special (n_op n) = None) ->
  (forall i k i' k', inp ns i k = Some (mkEdge None j) -> inp ns i' k' = Some (mkEdge None j) -> i = i' /\ k = k') ->
  verify order c pf ins outs h = true -> nth_error ins j = Some x -> 1 < length (t_data x) ->
  exists x', x' <> x /\ t_shape x' = t_shape x /\ verify order c pf (upd j x' ins) outs h = true.
Proof. exact (in_malleable T esch Hs FL is_logits has_proof provable lookup_data shape_steps layer_verify B add_witness add_table special st0 open_ok order c pf ins outs h j x). Qed.
End Statements.
Print Assumptions C16_counted.
Print Assumptions C16_extra_table_refuted.
Print Assumptions C16_unproved_node_refuted.
Print Assumptions C17_challenge_history.
Print Assumptions C17_challenges_fixed_refuted.
Print Assumptions C17_forged_multiplicities_refuted.
Print Assumptions C48_out_agree.
Print Assumptions C48_out_claims.
Print Assumptions C48_mle_agree_count.
Print Assumptions C48_verify_sound.
Print Assumptions C54_out_malleable_refuted.
Print Assumptions C54_in_malleable_refuted.

(** Prover and verifier disagree for one iteration order of the map of output nodes. *)
Theorem C48_order_refuted : exists (T : @M_Sumcheck.hist F101 -> F101) esch (ns : @nodes nat) outs order order' m h, (forall n, valid_sched n (esch n)) /\ (forall l, Permutation (order l) l) /\ (forall l, Permutation (order' l) l) /\
  no_logits x_logits ns /\ bind_outputs_to_node ns (length outs) = Some m /\
  verifier_out_claims T esch x_logits ns outs (order m) (repeat default_claim (length outs)) h = prover_out_claims T esch outs h /\
  verifier_out_claims T esch x_logits ns outs (order' m) (repeat default_claim (length outs)) h <> prover_out_claims T esch outs h.
Proof. exact order_refuted. Qed.
Print Assumptions C48_order_refuted.
(** A Logits output with more than one element: prover and verifier never agree on the transcript. *)
Theorem C48_logits_refuted : forall (K : field) (T : @M_Sumcheck.hist K -> K) esch (Ctx : Type) (is_logits : Ctx -> bool) (ns : @nodes Ctx) i n out h, (forall n, valid_sched n (esch n)) ->
  get ns i = Some n -> is_logits (n_op n) = true -> (exists k, length (t_data out) = 2 ^ S k) ->
  exists cs h' cs' h'', verifier_out_claims T esch is_logits ns [out] [(i, [0%nat])] (repeat default_claim 1) h = Some (cs, h') /\
    prover_out_claims T esch [out] h = Some (cs', h'') /\ h' = h /\ length h < length h'' /\ cs <> cs'.
Proof. exact logits_refuted. Qed.
Print Assumptions C48_logits_refuted.

(** ** Concrete cases over F_101 *)
Local Open Scope F_scope.
(** The hypotheses of [C16_counted]: the range table, a node that looks up 0, 1, 1, 3, and an honest table proof.  With a
    fraction for a value outside the table the same proof is refused. *)
Example C16_ex_counted : paired x_data /\ valid z_ns /\ (forall i n, get z_ns i = Some n -> x_has (n_op n) = true -> x_prov (n_op n) = true) /\
  length (vp_tables (z_pf z_fr [z_tp])) = length (vc_tables z_ctx) /\ x_verify (fun m => m) z_ctx (z_pf z_fr [z_tp]) [x_in] [x_out] [] = true /\
  x_verify (fun m => m) z_ctx (z_pf ([- (1)], [q 50]) [z_tp]) [x_in] [x_out] [] = false.
Proof.
  split; [exact x_paired|]. split; [apply built_valid, z_built|]. split.
  { intros i n G _. unfold z_ns in G. cbn [get] in G. destruct (Nat.eqb i 0); [injection G as <-; reflexivity|discriminate]. }
  split; [reflexivity|]. split; [exact z_accept|vm_compute; reflexivity].
Qed.
(** The attack on it: the refused proof with one more table proof is accepted. *)
Example C16_ex_extra : exists n d : F101, x_checks (fun m => m) z_ctx (z_pf ([- (1)], [q 50]) [z_tp]) [x_in] [x_out] [] = Some (n, d) /\ fpv 101 n <> 0%Z /\ fpv 101 d <> 0%Z /\
  length (vc_tables z_ctx) <= length [z_tp] /\
  x_verify (fun m => m) z_ctx (z_pf ([- (1)], [q 50]) [z_tp; mkTp tt (fake_lookup (- n) d)]) [x_in] [x_out] [] = true.
Proof. eexists. eexists. split; [vm_compute; reflexivity|]. split; [vm_compute; discriminate|]. split; [vm_compute; discriminate|]. split; [cbn; lia|vm_compute; reflexivity]. Qed.
(** The attack through the layer that is never verified. *)
Example C16_ex_unproved : x_verify (fun m => m) x_ctx (x_pf ([1], [q 3]) []) [x_in] [x_out] [] = false /\
  exists n d : F101, x_checks (fun m => m) x_ctx (x_pf ([1], [q 3]) []) [x_in] [x_out] [] = Some (n, d) /\ fpv 101 n = 1%Z /\ fpv 101 d = 3%Z /\
  x_verify (fun m => m) x_ctx (mkVproof (put (vp_steps (x_pf ([1], [q 3]) [])) 1 ([- n], [d])) [] tt) [x_in] [x_out] [] = true.
Proof. split; [vm_compute; reflexivity|]. eexists. eexists. split; [vm_compute; reflexivity|]. split; [vm_compute; reflexivity|]. split; vm_compute; reflexivity. Qed.
(** Every value looked up is outside the table 0..3, yet some multiplicities pass the final check. *)
Example C17_ex_history : draw_events (K := F101) [TRelu; TRange; TZero 3] =
  [EvSample; EvBytes [90; 101; 114; 111]%Z; EvSample; EvBytes [82; 101; 108; 117]%Z].
Proof. reflexivity. Qed.
Example C17_ex_forged : exists mult fr, length mult = 4 /\ table_fractions [[q_list [7; 9; 9; 11]%Z]] [q_list [0; 1; 2; 3]%Z] mult (q 5) (q 1) = Some fr /\ final_check fr = true.
Proof.
  apply (C17_forged_multiplicities_refuted [[q_list [7; 9; 9; 11]%Z]] [q_list [0; 1; 2; 3]%Z] (q 5) (q 1) 1); [discriminate| | |].
  - intros c [<-|[]]. reflexivity.
  - intros [|[|[|[|i]]]] Hi; [| | | |cbn in Hi; lia]; apply feqb_false; vm_compute; reflexivity.
  - intros cols [<-|[]]. split; [discriminate|]. exists 0%nat. split; [intros c [<-|[]]; reflexivity|].
    intros [|[|[|[|i]]]] Hi; [| | | |cbn in Hi; lia]; apply feqb_false; vm_compute; reflexivity.
Qed.
(** The hypotheses of [C48_verify_sound] and of C54: the two-node model that doubles its input. *)
Example C48_ex_sound : exists tr, valid x_ns /\ x_ns <> [] /\ dataflow x_eval [x_in] x_ns tr /\ logits_last x_logits x_ns /\ no_logits x_logits x_ns /\
  (forall i n, In (i, n) x_ns -> single_out n) /\ NoDup (concat (map (fun p => node_outs (snd p)) x_ns)) /\
  length (concat (map (fun p => node_outs (snd p)) x_ns)) = length [x_out] /\
  (forall i k i' k', inp x_ns i k = Some (mkEdge None 0) -> inp x_ns i' k' = Some (mkEdge None 0) -> i = i' /\ k = k') /\
  x_verify (fun m => m) x_ctx (x_pf ([], []) []) [x_in] [x_out] [] = true /\
  x_verify (fun m => m) x_ctx (x_pf ([], []) []) [x_in] [mkT [4] (q_list [2; 4; 6; 9]%Z)] [] = false.
Proof.
  assert (NL : no_logits x_logits x_ns).
  { intros i n G. unfold x_ns in G. cbn [get] in G. destruct (Nat.eqb i 0); [injection G as <-; reflexivity|]. destruct (Nat.eqb i 1); [injection G as <-; reflexivity|discriminate]. }
  destruct (run_trace x_eval [x_in] x_ns) as [tr|] eqn:R; [|exfalso; assert (E : match run_trace x_eval [x_in] x_ns with None => false | Some _ => true end = true) by (vm_compute; reflexivity); rewrite R in E; discriminate].
  exists tr. split; [apply built_valid, x_built|]. split; [discriminate|]. split.
  { apply (run_dataflow x_eval [x_in] x_ns); [apply (built_valid _ x_built)|apply (built_valid _ x_built)|apply valid_closed, built_valid, x_built|exact R]. }
  split. { intros i n w e G L. rewrite (NL i n G) in L. discriminate. }
  split; [exact NL|]. split. { intros i n [H|[H|[]]]; injection H as <- <-; unfold single_out; vm_compute; auto. }
  split; [cbn; constructor; [intros []|constructor]|]. split; [reflexivity|]. split; [|split; [exact x_accept|vm_compute; reflexivity]].
  intros i k i' k' H H'. assert (Z : forall i k, inp x_ns i k = Some (mkEdge None 0) -> i = 0%nat /\ k = 0%nat).
  { clear. intros i k H. unfold inp, x_ns in H. cbn [get] in H. destruct (Nat.eqb_spec i 0) as [->|]; [destruct k as [|[|k]]; try discriminate; auto|].
    destruct (Nat.eqb i 1); [destruct k as [|[|k]]; discriminate|discriminate]. }
  destruct (Z _ _ H), (Z _ _ H'). subst. auto.
Qed.
(** C54 on this model: some other output is accepted with the same proof. *)
Example C54_ex : exists y', y' <> x_out /\ x_verify (fun m => m) x_ctx (x_pf ([], []) []) [x_in] [y'] [] = true.
Proof.
  destruct C48_ex_sound as (tr & Va & Ne & Df & LL & NL & So & No & Lo & _ & V & _).
  destruct (C54_out_malleable_refuted xT (@seq_sched) xFL x_logits x_has x_prov x_data x_shapes x_layer 2 (fun (s : unit) (c : unit) (_ : @claim F101) => Some s) (fun s _ _ => Some s) x_special tt (fun _ (_ : unit) _ => true)
    seq_sched_valid (fun m => m) x_ctx (x_pf ([], []) []) [x_in] [x_out] [] 0%nat x_out (fun m => Permutation_refl m) Va Ne NL So No Lo V eq_refl) as (y' & N & _ & V'); [cbn; lia|].
  exists y'. split; [exact N|exact V'].
Qed.
