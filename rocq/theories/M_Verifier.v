(** Model of the top-level protocol: zkml/src/iop/verifier.rs, the challenge set-up of iop/mod.rs and
    lookup/context.rs, and the output claims of iop/prover.rs.
    The layers' own verifiers and the polynomial commitment are parameters, so the theorems hold whatever they do. *)
From Coq Require Import String.
From Coq Require Import List Arith Lia Bool ZArith.
From Verif Require Import ListAux FieldDef M_Mle M_Interp M_Sumcheck M_ScParallel M_SamePoly M_LogUp M_Lookup M_Tables M_Graph.
Import ListNotations.

Section Verifier.
Context {K : field}.
Local Open Scope F_scope.
Variable T : @M_Sumcheck.hist K -> K.
Variable esch : nat -> nat -> list nat.  (* schedule of the parallel MLE evaluation, by number of variables *)
Notation claim := (@claim K).
Notation hist := (@M_Sumcheck.hist K).

(** tensor.rs: shape and data of a [Tensor]. *)
Record tensor := mkT { t_shape : list nat; t_data : list K }.

(** b"table_constant" *)
Definition lbl_tc : list Z := [116; 97; 98; 108; 101; 95; 99; 111; 110; 115; 116; 97; 110; 116]%Z.
(** iop/mod.rs:57-63 [ChallengeStorage].  The map is the list of insertions in order: the last one with a name wins. *)
Definition storage := (K * list (string * K))%type.
Variable FL : floats.
Fixpoint draw_challenges (ts : list table_type) (h : hist) : list (string * K) * hist :=
  match ts with
  | [] => ([], h)
  | t :: r => let '(c, h1) := generate_challenge T t h in
              let '(m, h2) := draw_challenges r h1 in ((table_name FL t, c) :: m, h2)
  end.
(** iop/mod.rs:70-90 [ChallengeStorage::initialise]; lookup/context.rs:758-781 [initialise_from_table_set] is the same
    on the prover's set of tables. *)
Definition init_challenges (ts : list table_type) (h : hist) : storage * hist :=
  let '(c, h1) := get_challenge T lbl_tc h in
  let '(m, h2) := draw_challenges ts h1 in ((c, m), h2).
(** iop/mod.rs:92-96 [get_challenges_by_name]. *)
Definition challenges_by_name (st : storage) (name : string) : option (K * K) :=
  match find (fun p => String.eqb (fst p) name) (rev (snd st)) with
  | None => None
  | Some p => Some (fst st, snd p)
  end.

(** ** Output claims *)
(** [into_mle().evaluate(point)] (multilinear_extensions/src/mle.rs:106-110, 607-623). *)
Definition mle_eval (l : list K) (point : list K) : option K :=
  m <- into_mle_ext l ;; evaluate (esch (num_vars m)) m point.
(** provable/mod.rs:518-535 and iop/prover.rs:427-435: the claim about one output tensor; [None] for the panics of
    [ilog2] and [into_mle]. *)
Definition out_claim (out : tensor) (h : hist) : option (claim * hist) :=
  let '(r, h1) := read_challenges T (Nat.log2 (length (t_data out))) h in
  e <- mle_eval (t_data out) r ;;
  Some (mkClaim r e, h1).
Fixpoint out_claims (outs : list tensor) (h : hist) : option (list claim * hist) :=
  match outs with
  | [] => Some ([], h)
  | o :: t => c <- out_claim o h ;; r <- out_claims t (snd c) ;; Some (fst c :: fst r, snd r)
  end.
Definition default_claim : claim := mkClaim [] 0.
(** provable/mod.rs:513-536 [compute_model_output_claims] and its override in transformer/logits.rs:680-689. *)
Definition node_out_claims (logits : bool) (outs : list tensor) (h : hist) : option (list claim * hist) :=
  if logits then Some (map (fun _ => default_claim) outs, h) else out_claims outs h.
(** iop/prover.rs:423-436: the prover visits the outputs in index order. *)
Definition prover_out_claims (outs : list tensor) (h : hist) : option (list claim * hist) := out_claims outs h.

Context {Ctx LP : Type}.
Variable is_logits : Ctx -> bool.
(** verifier.rs:118-141.  [order] is the map returned by [bind_outputs_to_node] in the order in which the HashMap is
    iterated. *)
Fixpoint write_claims (acc : list claim) (idx : list nat) (cs : list claim) : list claim :=
  match idx, cs with i :: it, c :: ct => write_claims (upd i c acc) it ct | _, _ => acc end.
Fixpoint verifier_out_claims (ns : @nodes Ctx) (outs : list tensor) (order : list (nat * list nat)) (acc : list claim) (h : hist)
  : option (list claim * hist) :=
  match order with
  | [] => Some (acc, h)
  | (id, idx) :: t =>
      n <- get ns id ;;
      vals <- omapM (nth_error outs) idx ;;
      r <- node_out_claims (is_logits (n_op n)) vals h ;;
      if Nat.eqb (length (fst r)) (length idx)
      then verifier_out_claims ns outs t (write_claims acc idx (fst r)) (snd r) else None
  end.

(** ** Layers *)
Variable has_proof : Ctx -> bool.       (* layers/mod.rs:207-212 *)
Variable provable : Ctx -> bool.        (* provable/mod.rs:712-733 *)
(** layers/mod.rs:779-809 [get_lookup_data]; no lookups give two empty lists, a panic gives [None]. *)
Variable lookup_data : LP -> option (list K * list K).
(** State of the commitment verifier, shapes computed at verifier.rs:143-178, and the layer verifiers
    (provable/mod.rs:743-820).  Only the verifier of Logits reads the outputs of the model (logits.rs:693-730), so the
    others are handed an empty list. *)
Context {St Sh : Type}.
Variable shape_steps : @nodes Ctx -> list (list nat) -> option Sh.
Variable layer_verify : nat -> Ctx -> option LP -> list claim -> list tensor -> Sh -> storage -> St -> hist -> option (list claim * (St * hist)).

(** verifier.rs:91-105: the fractions of the nodes in forward order. *)
Fixpoint node_fractions (ns : @nodes Ctx) (steps : list (nat * LP)) (ids : list nat) : option (list K * list K) :=
  match ids with
  | [] => Some ([], [])
  | i :: t =>
      n <- get ns i ;;
      if has_proof (n_op n) then
        p <- get steps i ;;
        d <- lookup_data p ;;
        r <- node_fractions ns steps t ;;
        Some ((fst d ++ fst r)%list, (snd d ++ snd r)%list)
      else node_fractions ns steps t
  end.
(** verifier.rs:184-210: one node of the backward loop. *)
Definition node_verify (steps : list (nat * LP)) (outs : list tensor) (sh : Sh) (stg : storage)
  (i : nat) (n : node Ctx) (cl : list claim) (s : St * hist) : option (list claim * (St * hist)) :=
  p <- (if has_proof (n_op n) then match get steps i with None => None | Some p => Some (Some p) end else Some None) ;;
  if provable (n_op n)
  then layer_verify i (n_op n) p cl (if is_logits (n_op n) then outs else []) sh stg (fst s) (snd s)
  else Some (cl, s).
(** verifier.rs:182-212: the loop, with any check of a single node. *)
Fixpoint claim_loop {S : Type} (check : nat -> node Ctx -> list claim -> S -> option (list claim * S)) (ns : @nodes Ctx) (outc : list claim)
  (by_node : list (nat * list claim)) (s : S) (ids : list nat) : option (list (nat * list claim) * S) :=
  match ids with
  | [] => Some (by_node, s)
  | i :: t =>
      n <- get ns i ;;
      cl <- claims_for_node by_node outc n ;;
      r <- check i n cl s ;;
      claim_loop check ns outc (put by_node i (fst r)) (snd r) t
  end.

(** ** Tables *)
Variable B : nat.
Context {Cm : Type}.
Variable add_witness : St -> Cm -> claim -> option St.               (* commit/context.rs: add_witness_claim *)
Variable add_table : St -> table_type -> claim -> option St.         (* commit/context.rs: add_table_claim *)
(** iop/mod.rs:35-44 [TableProof]. *)
Record table_proof := mkTp { tp_commit : Cm; tp_lookup : @logup_proof K }.
(** verifier.rs:320-383 [verify_table]. *)
Definition verify_table (pf : table_proof) (t : table_type) (cst csc : K) (s : St * hist) : option (St * hist) :=
  r <- verify_logup T (tp_lookup pf) 1 cst csc (snd s) ;;
  let '(claims, _, _, h1) := r in
  match claims with
  | [] => None
  | c0 :: cols =>
      s1 <- add_witness (fst s) (tp_commit pf) c0 ;;
      tc <- table_claims t claims ;;
      s2 <- (match tc with [] => Some s1 | [c] => add_table s1 t c | _ => None end) ;;
      expected <- evaluate_table_columns B (esch (length (cl_point c0))) t (cl_point c0) ;;
      if Nat.eqb (length expected) (length claims - length tc - 1)
         && forallb (fun '(c, e) => cl_eval c =? e) (combine cols expected)
      then Some (s2, h1) else None
  end.
(** verifier.rs:215-238: the proofs are zipped with the tables of the context. *)
Fixpoint verify_tables (stg : storage) (l : list (table_proof * table_type)) (s : St * hist) : option (St * hist) :=
  match l with
  | [] => Some s
  | (pf, t) :: r =>
      ch <- challenges_by_name stg (table_name FL t) ;;
      s1 <- verify_table pf t (fst ch) (snd ch) s ;;
      verify_tables stg r s1
  end.
(** verifier.rs:107-111: the fractions of all table proofs. *)
Fixpoint proof_fractions (l : list table_proof) : option (list K * list K) :=
  match l with
  | [] => Some ([], [])
  | p :: t => d <- fractional_outputs (tp_lookup p) ;; r <- proof_fractions t ;; Some ((fst d ++ fst r)%list, (snd d ++ snd r)%list)
  end.

(** ** Inputs *)
(** provable/mod.rs:542-562 [verify_input_claim]; [special] is the override of embeddings.rs:536-572. *)
Variable special : Ctx -> option (list tensor -> list claim -> bool).
Definition input_ok (x : tensor) (c : claim) : bool :=
  match mle_eval (t_data x) (cl_point c) with None => false | Some e => e =? cl_eval c end.
Definition verify_input_claim (c : Ctx) (ins : list tensor) (cls : list claim) : bool :=
  match special c with
  | Some f => f ins cls
  | None => Nat.eqb (length ins) (length cls) && forallb (fun '(x, c) => input_ok x c) (combine ins cls)
  end.
(** verifier.rs:244-267. *)
Fixpoint verify_inputs (ns : @nodes Ctx) (ins : list tensor) (l : list (nat * list (nat * claim))) : bool :=
  match l with
  | [] => true
  | (i, ics) :: t =>
      match omapM (fun ic => nth_error ins (fst ic)) ics, get ns i with
      | Some vs, Some n => verify_input_claim (n_op n) vs (map snd ics) && verify_inputs ns ins t
      | _, _ => false
      end
  end.

(** ** The whole verifier *)
(** iop/mod.rs:21-31 [Proof]; [CP] is the opening proof. *)
Context {CP : Type}.
Record vproof := mkVproof { vp_steps : list (nat * LP); vp_tables : list table_proof; vp_open : CP }.
(** iop/context.rs [Context]: the nodes, the tables in use, and what [write_to_transcript] (211-214) absorbs. *)
Record vctx := mkVctx { vc_nodes : @nodes Ctx; vc_tables : list table_type; vc_absorb : hist }.
Variable st0 : St.                                        (* CommitmentVerifier::new *)
Variable open_ok : St -> CP -> hist -> bool.              (* CommitmentVerifier::verify *)

(** verifier.rs:81-89. *)
Definition setup (c : vctx) (h : hist) : storage * hist :=
  let h0 := (vc_absorb c ++ h)%list in
  match vc_tables c with [] => ((0, []), h0) | ts => init_challenges ts h0 end.
(** verifier.rs:72-280: everything up to the last two checks; [order] is the iteration order of the HashMap of output
    nodes. *)
Definition verify_checks (order : list (nat * list nat) -> list (nat * list nat)) (c : vctx) (pf : vproof) (ins outs : list tensor) (h : hist) : option (K * K) :=
  let '(stg, h1) := setup c h in
  let ns := vc_nodes c in
  fwd <- iter_all true ns ;;
  bwd <- iter_all false ns ;;
  nf <- node_fractions ns (vp_steps pf) fwd ;;
  tf <- proof_fractions (vp_tables pf) ;;
  bw <- omapM (fun i => n <- get ns i ;; Some (i, n)) bwd ;;
  on <- bind_outputs_to_node bw (length outs) ;;
  oc <- verifier_out_claims ns outs (order on) (repeat default_claim (length outs)) h1 ;;
  sh <- shape_steps ns (map t_shape ins) ;;
  r <- claim_loop (node_verify (vp_steps pf) outs sh stg) ns (fst oc) [] (st0, snd oc) bwd ;;
  s <- verify_tables stg (combine (vp_tables pf) (vc_tables c)) (snd r) ;;
  ic <- input_claims ns (fst r) fwd ;;
  if verify_inputs ns ins ic && open_ok (fst s) (vp_open pf) (snd s)
  then Some (final_sum (combine (fst nf ++ fst tf)%list (snd nf ++ snd tf)%list)) else None.
(** verifier.rs:72-294 [verify]. *)
Definition verify_model (order : list (nat * list nat) -> list (nat * list nat)) (c : vctx) (pf : vproof) (ins outs : list tensor) (h : hist) : bool :=
  match verify_checks order c pf ins outs h with
  | None => false
  | Some (n, d) => (n =? 0) && negb (d =? 0)
  end.
End Verifier.
