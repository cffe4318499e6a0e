(** Property theorems C15 and C55: the LogUp-GKR verifier and prover.  Statements only.
    The specification: [row_val] is a row of the columns combined with powers of the separation challenge, [one_frac] a list of
    fractions as one fraction, [shaped] what the verifier does not check about a proof, [claims_true] that the claims
    handed on are true of the columns at the final point, [run_lucky] that some challenge of this run hits a bad value. *)
From Coq Require Import List Arith Lia Bool ZArith Field.
From Verif Require Import ListAux FieldDef FpInst PolyList MleMath M_Mle P_Mle P_Eq M_Interp M_Sumcheck P_ScApi M_ScParallel M_SamePoly
  M_LogUp P_LogUp P_LogUp2 P_LogUp3 P_LogUp4 P_LogUp5 P_LogUp6 P_LogUp8 P_LogUp9.
Import ListNotations.
Local Open Scope F_scope.

(** C15.  Lookup proofs over any number of instances: if the verifier accepts, the claims are true and the proof has the
    expected shape, the fractions are those of the columns, unless the run was lucky.  Missing: the verifier does not
    check the shape, and the batching challenges do not depend on the evaluations (see the refutations below). *)
Theorem C15_lookup_sound_partial : forall (K : field) (T : @hist K -> K) k per insts pf cst csc h cls nums dens h',
  char_gt K 3 ->
  0 < per -> insts <> [] -> (forall cs, In cs insts -> length cs = per /\ forall c, In c cs -> length c = 2 ^ S (S k)) ->
  verify_logup T pf (length insts) cst csc h = Some (cls, nums, dens, h') ->
  let bases := lk_bases cst csc (S (S k)) insts in
  shaped T true (S k) bases pf h -> claims_true T pf (length insts) (S k) h (concat insts) ->
  combine nums dens = map (fun cs => one_frac (lookup_rows cst csc (S (S k)) cs)) insts
  \/ run_lucky T true (S k) bases pf h.
Proof. exact @lookup_sound_p. Qed.
Print Assumptions C15_lookup_sound_partial.

(** C15.  The same for table proofs. *)
Theorem C15_table_sound_partial : forall (K : field) (T : @hist K -> K) k cols mult pf cst csc h cls nums dens h',
  char_gt K 3 ->
  (forall c, In c cols -> length c = 2 ^ S k) -> length mult = 2 ^ S k ->
  verify_logup T pf 1 cst csc h = Some (cls, nums, dens, h') ->
  let bases := [tb_base cst csc (S k) mult cols] in
  shaped T false k bases pf h -> claims_true T pf 1 k h (mult :: cols) ->
  combine nums dens = [one_frac (table_rows cst csc (S k) mult cols)]
  \/ run_lucky T false k bases pf h.
Proof. exact @table_sound_p. Qed.
Print Assumptions C15_table_sound_partial.

(** How many batching challenges of a round merge wrong evaluations into the right next claim. *)
Theorem C15_round_batch_count : forall (K : field) (S : list K) lk k i (qs qt : list (@quad K)),
  NoDup S -> length qs = length qt -> qs <> qt ->
  (last_lk lk k i = true -> forall e0 e1 e2 e3, In (e0, e1, e2, e3) (qs ++ qt) -> e0 = - (1) /\ e2 = - (1)) ->
  length (filter (fun t => nxt lk k i (fst (fst t)) (snd t) (snd (fst t)) qs =? nxt lk k i (fst (fst t)) (snd t) (snd (fst t)) qt)
                 (list_prod (list_prod S S) S)) <= (length qs + 1) * length S ^ 2.
Proof. exact @round_batch_count. Qed.
Print Assumptions C15_round_batch_count.

(** The same for the initial claim. *)
Theorem C15_init_batch_count : forall (K : field) (S : list K) (qs qt : list (@quad K)),
  NoDup S -> length qs = length qt -> qs <> qt ->
  length (filter (fun t => wsum (snd t) (map (o_val (fst (fst t)) (snd (fst t))) qs) =? wsum (snd t) (map (o_val (fst (fst t)) (snd (fst t))) qt))
                 (list_prod (list_prod S S) S)) <= (length qs + 1) * length S ^ 2.
Proof. exact @init_batch_count. Qed.
Print Assumptions C15_init_batch_count.

(** The verifier accepts a table proof without any round.  The prover then picks the point of the claims, all claims are
    true, and the fraction is any N/D. *)
Theorem C15_no_rounds_refuted : forall (K : field) (T : @hist K -> K) m i cols mult cst csc h N D b al la h1,
  i < 2 ^ m -> three T lbl_ib lbl_ia lbl_il (absorb_outputs 1 [[N; 0; D; 1]] h) = (b, al, la, h1) ->
  length mult = 2 ^ S m -> (forall c, In c cols -> length c = 2 ^ S m) ->
  nth (2 * i) mult 0 + la * row_val cst csc cols (2 * i) <> nth (2 * i + 1) mult 0 + la * row_val cst csc cols (2 * i + 1) ->
  exists x, length x = S m /\
    Forall2 (fun c col => cl_eval c = mle col (cl_point c)) (lp_claims (forged0 x mult cols N D)) (mult :: cols) /\
    (forall c, In c (lp_claims (forged0 x mult cols N D)) -> cl_point c = x) /\
    verify_logup T (forged0 x mult cols N D) 1 cst csc h = Some (lp_claims (forged0 x mult cols N D), [N], [D], h1).
Proof. exact @no_rounds_forge. Qed.
Print Assumptions C15_no_rounds_refuted.

(** Even with all shapes respected: the evaluations of a round are not absorbed before its batching challenges are drawn, so
    the prover picks them afterwards.  All claims are true and the fraction is any N/D. *)
Theorem C15_late_evals_refuted : forall (K : field) (T : @hist K -> K) cols mult cst csc h N D msg b0 al la h1 r X h2 b na nl h3,
  three T lbl_ib lbl_ia lbl_il (absorb_outputs 1 [[N; 0; D; 1]] h) = (b0, al, la, h1) ->
  length mult = 4%nat -> (forall c, In c cols -> length c = 4%nat) ->
  let c0 := o_val b0 la (N, 0, D, 1) in
  verify T c0 (mkProof [r] [msg]) 1 3 (EvFelt c0 :: h1) = Some ([r], X, h2) ->
  three T lbl_lb lbl_la lbl_ll h2 = (b, na, nl, h3) -> b <> 0 -> eqp [b0] [r] <> 0 ->
  exists e0 e2, let pf := forged1 r b e0 e2 msg mult cols N D in
    shaped T false 1 [tb_base cst csc 2 mult cols] pf h /\ claims_true T pf 1 1 h (mult :: cols) /\
    verify_logup T pf 1 cst csc h = Some (lp_claims pf, [N], [D], h3).
Proof. exact @late_evals_forge. Qed.
Print Assumptions C15_late_evals_refuted.

(** C55.  The prover never panics on lookup columns of length at least 4, whatever the thread schedules and the number of
    threads, and the verifier accepts its proof, with the same transcript, the right fractions and true claims,
    unless a challenge is one of the interpolation nodes 0..3. *)
Theorem C55_lookup_complete : forall (K : field) (T : @hist K -> K) ncpus scs esch k per insts cst csc h,
  char_gt K 3 -> 0 < ncpus ->
  0 < per -> insts <> [] -> (forall cs, In cs insts -> length cs = per /\ forall c, In c cs -> length c = 2 ^ S (S k)) ->
  logup_scheds true (S k) (length insts) scs -> valid_sched (S (S k)) esch ->
  exists pf h' nums dens x, batch_prove T ncpus scs esch (LookupIn (concat insts) cst csc per) h = Some (pf, h') /\
    lp_claims pf = map (fun c => mkClaim x (mle c x)) (concat insts) /\ length x = S (S k) /\ length (lp_sumchecks pf) = S k /\
    combine nums dens = map (fun cs => one_frac (lookup_rows cst csc (S (S k)) cs)) insts /\
    length nums = length insts /\ length dens = length insts /\
    ((forall p r, In p (lp_sumchecks pf) -> In r (pf_point p) -> not_node 3 r) ->
     verify_logup T pf (length insts) cst csc h = Some (lp_claims pf, nums, dens, h') /\
     shaped T true (S k) (lk_bases cst csc (S (S k)) insts) pf h /\ claims_true T pf (length insts) (S k) h (concat insts)).
Proof. exact @lookup_complete_p. Qed.
Print Assumptions C55_lookup_complete.

(** C55.  The same for tables of length at least 2. *)
Theorem C55_table_complete : forall (K : field) (T : @hist K -> K) ncpus scs esch k cols mult cst csc h,
  char_gt K 3 -> 0 < ncpus ->
  cols <> [] -> (forall c, In c cols -> length c = 2 ^ S k) -> length mult = 2 ^ S k ->
  logup_scheds false k 1 scs -> valid_sched (S k) esch ->
  exists pf h' n d x, batch_prove T ncpus scs esch (TableIn cols mult cst csc) h = Some (pf, h') /\
    lp_claims pf = map (fun c => mkClaim x (mle c x)) (mult :: cols) /\ length x = S k /\ length (lp_sumchecks pf) = k /\
    (n, d) = one_frac (table_rows cst csc (S k) mult cols) /\
    ((forall p r, In p (lp_sumchecks pf) -> In r (pf_point p) -> not_node 3 r) ->
     verify_logup T pf 1 cst csc h = Some (lp_claims pf, [n], [d], h') /\
     shaped T false k [tb_base cst csc (S k) mult cols] pf h /\ claims_true T pf 1 k h (mult :: cols)).
Proof. exact @table_complete_p. Qed.
Print Assumptions C55_table_complete.

(** The schedule hypotheses are met by the sequential schedule, for every size. *)
Example C55_ex_sched : forall lk k ni, logup_scheds lk k ni (seq_rsched (3 * ni)).
Proof. exact seq_logup_scheds. Qed.
Example C55_ex_esched : forall n, valid_sched n (@seq_sched n).
Proof. exact seq_sched_valid. Qed.
(** Two lookup instances of two columns with four rows: the proof is produced, no challenge is a node, the verifier accepts and
    returns the right fractions.  By C55 this proof also meets the hypotheses of C15. *)
Example C55_ex_run : l_ok = true.
Proof. exact l_ok_true. Qed.
Example C55_ex_shape : l_insts <> [] /\ (forall cs, In cs l_insts -> length cs = 2%nat /\ forall c, In c cs -> length c = 2 ^ S (S 0)) /\ char_gt F101 3.
Proof.
  split; [discriminate|]. split; [|apply Fp_char; cbn; lia].
  intros cs [<-|[<-|[]]]; (split; [reflexivity|]); intros c [<-|[<-|[]]]; reflexivity.
Qed.
(** The forged fraction 0/1 against the true one, and the hypotheses of the second forgery. *)
Example C15_ex_true_fraction : negb (fst f_true =? 0) && negb (snd f_true =? 0) = true.
Proof. exact f_true_nonzero. Qed.
Example C15_ex_late : f_hyps = true.
Proof. exact f_hyps_true. Qed.
Example C15_ex_no_rounds : match three lT lbl_ib lbl_ia lbl_il (absorb_outputs 1 [[q 0; q 0; q 1; q 1]] []) with
  | (_, _, la, _) => (nth 0 f_mult 0 + la * row_val (q 10) (q 3) f_cols 0 =? nth 1 f_mult 0 + la * row_val (q 10) (q 3) f_cols 1) end = false.
Proof. vm_compute. reflexivity. Qed.
(** Two lists of evaluations differing in one entry, counted over four challenges. *)
Example C15_ex_count : length (filter (fun t => wsum (snd t) (map (o_val (fst (fst t)) (snd (fst t))) [(q 1, q 2, q 3, q 4)]) =? wsum (snd t) (map (o_val (fst (fst t)) (snd (fst t))) [(q 2, q 2, q 3, q 4)]))
                 (list_prod (list_prod (q_list [0; 1; 5; 7]%Z) (q_list [0; 1; 5; 7]%Z)) (q_list [0; 1; 5; 7]%Z))) = 16%nat.
Proof. vm_compute. reflexivity. Qed.
