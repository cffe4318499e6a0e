(** Model of the LogUp-GKR lookup argument: zkml/src/lookup/logup_gkr/{circuit,structs,prover,verifier}.rs.
    A panic and an [Err] are both [None]; base-field columns are vectors over the same field. *)
From Coq Require Import List Arith Lia Bool ZArith.
From Verif Require Import ListAux FieldDef M_Mle M_Interp M_Sumcheck M_ScParallel M_SamePoly.
Import ListNotations.

Section LogUp.
Context {K : field}.
Local Open Scope F_scope.

(** ** The circuit (circuit.rs) *)
(** structs.rs:45-53 [Fraction::add_assign]; a fraction is a pair (numerator, denominator). *)
Definition frac_add (a b : K * K) : K * K :=
  (fst a * snd b + snd a * fst b, snd a * snd b).
(** structs.rs:117-120 [Fraction::ZERO]. *)
Definition frac_zero : K * K := (0, 1).

(** circuit.rs:15-30 [LogUpLayer]. *)
Inductive layer :=
  | Generic (num den : list K)
  | InitTable (num den : list K)
  | InitLookup (den : list K).
Definition layer_den (l : layer) : list K :=
  match l with Generic _ d => d | InitTable _ d => d | InitLookup d => d end.
(** circuit.rs:33-41 [num_vars]. *)
Definition layer_nv (l : layer) : option nat := ceil_log2 (length (layer_den l) / 2).

(** slice::split_at (panics when the index is past the end). *)
Definition split_at {A} (n : nat) (l : list A) : option (list A * list A) :=
  if Nat.leb n (length l) then Some (firstn n l, skipn n l) else None.

(** [izip!] of the four halves followed by the fraction additions (circuit.rs:66-80). *)
Definition add_fracs (n1 d1 n2 d2 : list K) : list K * list K :=
  split (map (fun '(a, b) => frac_add a b) (combine (combine n1 d1) (combine n2 d2))).
(** circuit.rs:82-98: all numerators are -1. *)
Definition add_lookups (d1 d2 : list K) : list K * list K :=
  split (map (fun '(a, b) => frac_add (- (1), a) (- (1), b)) (combine d1 d2)).

(** circuit.rs:48-100 [next_layer] (the outer option is the panic). *)
Definition next_layer (l : layer) : option (option layer) :=
  nv <- layer_nv l ;;
  if Nat.eqb nv 0 then Some None
  else
    let half := 2 ^ nv in
    match l with
    | Generic n d | InitTable n d =>
        ns <- split_at half n ;;
        ds <- split_at half d ;;
        let '(n', d') := add_fracs (fst ns) (fst ds) (snd ns) (snd ds) in
        Some (Some (Generic n' d'))
    | InitLookup d =>
        ds <- split_at half d ;;
        let '(n', d') := add_lookups (fst ds) (snd ds) in
        Some (Some (Generic n' d'))
    end.

(** circuit.rs:119-132 [flat_evals]. *)
Definition flat_evals (l : layer) : list K :=
  match l with Generic n d => n ++ d | InitTable n d => n ++ d | InitLookup d => d end.

(** circuit.rs:134-180 [get_mles]. *)
Definition get_mles (l : layer) : option (list (dmle K)) :=
  nv <- layer_nv l ;;
  let half := 2 ^ nv in
  match l with
  | Generic n d | InitTable n d =>
      ns <- split_at half n ;;
      ds <- split_at half d ;;
      omapM (from_evaluations_ext_vec nv) [fst ns; snd ns; fst ds; snd ds]
  | InitLookup d =>
      ds <- split_at half d ;;
      omapM (from_evaluations_ext_vec nv) [fst ds; snd ds]
  end.

(** circuit.rs:191-196 [LogUpCircuit::new] ([iter::successors]); every step at least drops one entry,
    so the denominator length bounds the number of layers. *)
Fixpoint successors (fuel : nat) (l : layer) : option (list layer) :=
  match fuel with
  | O => None
  | S f => nx <- next_layer l ;;
           match nx with
           | None => Some [l]
           | Some l' => r <- successors f l' ;; Some (l :: r)
           end
  end.
Definition circuit_new (l : layer) : option (list layer) := successors (S (length (layer_den l))) l.

(** circuit.rs:207-211, 242-246: 1, c, c^2, ... *)
Fixpoint powers_from (c x : K) (n : nat) : list K :=
  match n with O => [] | S n' => x :: powers_from c (x * c) n' end.
(** circuit.rs:213-224, 248-262: the merged columns. *)
Definition merged_denominator (cols : list (list K)) (cst csc : K) : option (list K) :=
  c0 <- nth_error cols 0 ;;
  omapM (fun i => ofold (fun acc '(col, ch) => v <- nth_error col i ;; Some (acc + ch * v))
                        (combine cols (powers_from csc 1 (length cols))) cst)
        (seq 0 (length c0)).
(** circuit.rs:198-229 [new_lookup_circuit]. *)
Definition new_lookup_circuit (cols : list (list K)) (cst csc : K) : option (list layer) :=
  d <- merged_denominator cols cst csc ;; circuit_new (InitLookup d).
(** circuit.rs:231-270 [new_table_circuit]. *)
Definition new_table_circuit (cols : list (list K)) (mult : list K) (cst csc : K) : option (list layer) :=
  d <- merged_denominator cols cst csc ;; circuit_new (InitTable mult d).
(** circuit.rs:272-275 [outputs]. *)
Definition outputs (c : list layer) : option (list K) :=
  match rev c with [] => None | l :: _ => Some (flat_evals l) end.
(** circuit.rs:277-281 [num_vars]. *)
Definition circuit_nv (c : list layer) : option nat :=
  match c with [] => None | l :: _ => layer_nv l end.

(** ** Inputs (structs.rs:132-302) *)
Inductive logup_input :=
  | LookupIn (cols : list (list K)) (cst csc : K) (per_instance : nat)
  | TableIn (cols : list (list K)) (mult : list K) (cst csc : K).
Definition same_pow2_lengths (cols : list (list K)) : bool :=
  match cols with
  | [] => false
  | c0 :: r => is_pow2 (length c0) && forallb (fun c => Nat.eqb (length c) (length c0)) r
  end.
(** structs.rs:154-191 [new_lookup]. *)
Definition new_lookup (cols : list (list K)) (cst csc : K) (per : nat) : option logup_input :=
  if same_pow2_lengths cols then Some (LookupIn cols cst csc per) else None.
(** structs.rs:193-238 [new_table]. *)
Definition new_table (cols : list (list K)) (mult : list K) (cst csc : K) : option logup_input :=
  if same_pow2_lengths cols && Nat.eqb (length mult) (length (nth 0 cols []))
  then Some (TableIn cols mult cst csc) else None.
(** structs.rs:248-279 [make_circuits] (chunk size 0 panics). *)
Definition make_circuits (inp : logup_input) : option (list (list layer)) :=
  match inp with
  | LookupIn cols cst csc per =>
      if Nat.eqb per 0 then None
      else omapM (fun cs => new_lookup_circuit cs cst csc) (chunks per cols)
  | TableIn cols mult cst csc => c <- new_table_circuit cols mult cst csc ;; Some [c]
  end.
(** structs.rs:281-302 [base_mles] (ilog2 of the length; panics on an empty column). *)
Definition base_mle (l : list K) : option (dmle K) :=
  if Nat.eqb (length l) 0 then None else from_evaluations_vec (Nat.log2 (length l)) l.
Definition base_mles (inp : logup_input) : option (list (dmle K)) :=
  match inp with
  | LookupIn cols _ _ _ => omapM base_mle cols
  | TableIn cols mult _ _ => omapM base_mle (mult :: cols)
  end.

(** ** Proofs (structs.rs:305-357) *)
Inductive proof_type := PtLookup | PtTable.
Record logup_proof := mkLp {
  lp_sumchecks : list (@proof K); lp_evals : list (list K); lp_claims : list (@claim K);
  lp_outputs : list (list K); lp_type : proof_type }.

(** Indexing e[0], e[1], ... (panics when too short). *)
Definition get2 (e : list K) : option (K * K) :=
  match e with a :: b :: _ => Some (a, b) | _ => None end.
Definition get4 (e : list K) : option (K * K * K * K) :=
  match e with a :: b :: c :: d :: _ => Some (a, b, c, d) | _ => None end.

(** structs.rs:328-338 [fractional_outputs]. *)
Definition fractional_outputs (pf : logup_proof) : option (list K * list K) :=
  l <- omapM (fun e => q <- get4 e ;; let '(a, b, c, d) := q in Some (a * d + b * c, c * d)) (lp_outputs pf) ;;
  Some (split l).

Definition lbl_ib : list Z := [105; 110; 105; 116; 105; 97; 108; 95; 98; 97; 116; 99; 104; 105; 110; 103]%Z.
Definition lbl_ia : list Z := [105; 110; 105; 116; 105; 97; 108; 95; 97; 108; 112; 104; 97]%Z.
Definition lbl_il : list Z := [105; 110; 105; 116; 105; 97; 108; 95; 108; 97; 109; 98; 100; 97]%Z.
Definition lbl_lb : list Z := [108; 111; 103; 117; 112; 95; 98; 97; 116; 99; 104; 105; 110; 103]%Z.
Definition lbl_la : list Z := [108; 111; 103; 117; 112; 95; 97; 108; 112; 104; 97]%Z.
Definition lbl_ll : list Z := [108; 111; 103; 117; 112; 95; 108; 97; 109; 98; 100; 97]%Z.

(** Three challenges in a row (verifier.rs:29-37 and 70-76). *)
Definition three (T : @hist K -> K) (l1 l2 l3 : list Z) (h : hist) : K * K * K * hist :=
  let '(b, h1) := get_challenge T l1 h in
  let '(a, h2) := get_challenge T l2 h1 in
  let '(l, h3) := get_challenge T l3 h2 in (b, a, l, h3).

(** Absorb the number of instances and the outputs (verifier.rs:24-25, prover.rs:50-53). *)
Definition absorb_outputs (num_instances : nat) (outs : list (list K)) (h : @hist K) : hist :=
  fold_left absorb outs (EvFelt (fnat num_instances) :: h).

(** verifier.rs:39-52, prover.rs:65-77: the initial claim. *)
Definition initial_claim (outs : list (list K)) (b alpha lambda : K) : option K :=
  r <- ofold (fun '(acc, ac) e =>
         q <- get4 e ;;
         let '(e0, e1, e2, e3) := q in
         Some (acc + ac * (b * (e1 - e0) + e0 + lambda * (b * (e3 - e2) + e2)), ac * alpha)) outs (0, 1) ;;
  Some (fst r).

(** verifier.rs:82-108 (generic layers): the next claim and the claimed final value of this round. *)
Definition combine4 (evals : list K) (b na nl alpha lambda eqv : K) : option (K * K) :=
  r <- ofold (fun '(nx, nac, sc, pa) e =>
         q <- get4 e ;;
         let '(e0, e1, e2, e3) := q in
         Some (nx + nac * (b * (e2 - e0) + e0 + nl * (b * (e1 - e3) + e3)), nac * na,
               sc + pa * (eqv * (e0 * e1 + e2 * e3 + lambda * e3 * e1)), pa * alpha))
       (chunks 4 evals) (0, 1, 0, 1) ;;
  let '(nx, _, sc, _) := r in Some (nx, sc).
(** verifier.rs:110-131 (initial lookup layer). *)
Definition combine2 (evals : list K) (b na nl alpha lambda eqv : K) : option (K * K) :=
  r <- ofold (fun '(nx, nac, sc, pa) e =>
         q <- get2 e ;;
         let '(e0, e1) := q in
         Some (nx + nac * (b * (e0 - e1) + e1), nac * na,
               sc + pa * eqv * (- e1 - e0 + lambda * e0 * e1), pa * alpha))
       (chunks 2 evals) (0, 1, 0, 1) ;;
  let '(nx, _, sc, _) := r in Some (nx, sc).

(** Loop state of the verifier. *)
Record lstate := mkLs { ls_alpha : K; ls_lambda : K; ls_claim : K; ls_point : list K; ls_hist : @hist K }.

(** verifier.rs:56-143: one round ([i] starts at 0). *)
Definition logup_round (T : @hist K -> K) (ni : nat) (s : lstate) (ipe : nat * (@proof K * list K)) : option lstate :=
  let '(i, (pf, evals)) := ipe in
  let h1 := EvFelt (ls_claim s) :: ls_hist s in
  let eqv := identity_eval (ls_point s) (pf_point pf) in
  sub <- verify T (ls_claim s) pf (i + 1) 3 h1 ;;
  let '(rs, expected, h2) := sub in
  let '(b, na, nl, h3) := three T lbl_lb lbl_la lbl_ll h2 in
  if Nat.eqb ni 0 then None
  else
    r <- (if Nat.eqb (length evals / ni) 4 then combine4 evals b na nl (ls_alpha s) (ls_lambda s) eqv
          else combine2 evals b na nl (ls_alpha s) (ls_lambda s) eqv) ;;
    let '(nx, sc) := r in
    if sc =? expected then Some (mkLs na nl nx (rs ++ [b]) h3) else None.

(** verifier.rs:167-211 [calculate_final_eval]. *)
Definition col_comb (cst csc : K) (evs : list K) : K :=
  fst (fold_left (fun '(acc, c) v => (acc + v * c, c * csc)) evs (cst, 1)).
Definition final_eval (pf : logup_proof) (cst csc alpha lambda : K) (ni : nat) : option K :=
  match lp_type pf with
  | PtLookup =>
      if Nat.eqb ni 0 then None
      else if Nat.eqb (length (lp_claims pf) / ni) 0 then None
      else Some (fst (fold_left (fun '(acc, ac) ch => (acc + col_comb cst csc (map cl_eval ch) * ac, ac * alpha))
                                (chunks (length (lp_claims pf) / ni) (lp_claims pf)) (0, 1)))
  | PtTable =>
      match lp_claims pf with
      | [] => None
      | m :: cols => Some (cl_eval m + lambda * col_comb cst csc (map cl_eval cols))
      end
  end.

(** verifier.rs:16-165 [verify_logup_proof]: the claims handed on, numerators, denominators. *)
Definition verify_logup (T : @hist K -> K) (pf : logup_proof) (ni : nat) (cst csc : K) (h : hist)
  : option (list claim * list K * list K * hist) :=
  let h0 := absorb_outputs ni (lp_outputs pf) h in
  nd <- fractional_outputs pf ;;
  let '(b, alpha, lambda, h1) := three T lbl_ib lbl_ia lbl_il h0 in
  c0 <- initial_claim (lp_outputs pf) b alpha lambda ;;
  let rounds := combine (lp_sumchecks pf) (lp_evals pf) in
  s <- ofold (logup_round T ni) (combine (seq 0 (length rounds)) rounds) (mkLs alpha lambda c0 [b] h1) ;;
  fe <- final_eval pf cst csc (ls_alpha s) (ls_lambda s) ni ;;
  if fe =? ls_claim s then Some (lp_claims pf, fst nd, snd nd, ls_hist s) else None.

(** ** The prover (prover.rs) *)
(** Tables of one round: address 0 holds the eq table, instance [s] owns the addresses after it. *)
Definition tables_heap (l : list (dmle K)) (a : nat) : dmle K := nth a l (mkMle Unreachable 0).
(** prover.rs:102-124: the terms one instance adds; [o] is the address of its first table. *)
Definition layer_terms (l : layer) (o : nat) (ca lambda : K) : list (K * list nat) :=
  match l with
  | Generic _ _ | InitTable _ _ =>
      [ (ca, [0; o; o + 3]%nat); (ca, [0; o + 1; o + 2]%nat); (ca * lambda, [0; o + 2; o + 3]%nat) ]
  | InitLookup _ =>
      [ (- ca, [0; o + 1]%nat); (- ca, [0; o]%nat); (ca * lambda, [0; o; o + 1]%nat) ]
  end.
(** prover.rs:94-127: all instances of one round: tables and terms. *)
Fixpoint round_terms (ls : list layer) (tabs : list (dmle K)) (ca alpha lambda : K)
  : option (list (dmle K) * list (K * list nat)) :=
  match ls with
  | [] => Some (tabs, [])
  | l :: r =>
      ms <- get_mles l ;;
      rest <- round_terms r (tabs ++ ms) (ca * alpha) alpha lambda ;;
      Some (fst rest, layer_terms l (length tabs) ca lambda ++ snd rest)
  end.
(** prover.rs:152-168 and 200-237: the claim for the next round. *)
Definition next_claim4 (evals : list K) (b na nl : K) : option K :=
  r <- ofold (fun '(acc, ac) e =>
         q <- get4 e ;;
         let '(e0, e1, e2, e3) := q in
         Some (acc + ac * (b * (e2 - e0) + e0 + nl * (b * (e1 - e3) + e3)), ac * na)) (chunks 4 evals) (0, 1) ;;
  Some (fst r).
Definition next_claim2 (evals : list K) (b na : K) : option K :=
  r <- ofold (fun '(acc, ac) e =>
         q <- get2 e ;;
         let '(e0, e1) := q in
         Some (acc + ac * (b * (e0 - e1) + e1), ac * na)) (chunks 2 evals) (0, 1) ;;
  Some (fst r).
(** prover.rs:86-171: round [v] (from 1).  [circuits] are the layer lists of the instances, from the
    input layer up; the round uses the [v]-th layer below the output layer.  [scs v] is the rayon
    schedule of that round's sumcheck. *)
Definition prover_round (T : @hist K -> K) (ncpus : nat) (scs : nat -> nat -> rsched) (lookup : bool) (total : nat)
    (circuits : list (list layer)) (sp : lstate * (list (@proof K) * list (list K))) (v : nat)
  : option (lstate * (list (@proof K) * list (list K))) :=
  let '(s, (pfs, evs)) := sp in
  let h1 := EvFelt (ls_claim s) :: ls_hist s in
  eqm <- into_mle_ext (compute_betas_eval (ls_point s)) ;;
  ls <- omapM (fun c => nth_error (tl (rev c)) (v - 1)) circuits ;;
  rt <- round_terms ls [eqm] 1 (ls_alpha s) (ls_lambda s) ;;
  r <- build (tables_heap (fst rt)) (snd rt) ([], vp_new v) ;;
  pr <- prove_parallel T ncpus (scs v) (snd r) h1 ;;
  let '(pf, st, h2) := pr in
  fe <- get_mle_final_evaluations st ;;
  let '(b, na, nl, h3) := three T lbl_lb lbl_la lbl_ll h2 in
  let evals := tl fe in
  nx <- (if Nat.eqb v total && lookup then next_claim2 evals b na else next_claim4 evals b na nl) ;;
  Some (mkLs na nl nx (pf_point pf ++ [b]) h3, (pfs ++ [pf], evs ++ [evals])).

(** prover.rs:24-198 [batch_prove]; [esch] schedules the evaluation of the columns. *)
Definition batch_prove (T : @hist K -> K) (ncpus : nat) (scs : nat -> nat -> rsched) (esch : nat -> list nat)
    (inp : logup_input) (h : hist) : option (logup_proof * hist) :=
  circuits <- make_circuits inp ;;
  nvs <- omapM circuit_nv circuits ;;
  let total := fold_left Nat.max nvs 0%nat in
  outs <- omapM outputs circuits ;;
  let h0 := absorb_outputs (length circuits) outs h in
  let '(b, alpha, lambda, h1) := three T lbl_ib lbl_ia lbl_il h0 in
  c0 <- initial_claim outs b alpha lambda ;;
  let lookup := match inp with LookupIn _ _ _ _ => true | TableIn _ _ _ _ => false end in
  sp <- ofold (prover_round T ncpus scs lookup total circuits) (seq 1 total) (mkLs alpha lambda c0 [b] h1, ([], [])) ;;
  let '(s, (pfs, evs)) := sp in
  ms <- base_mles inp ;;
  cls <- omapM (fun m => e <- evaluate esch m (ls_point s) ;; Some (mkClaim (ls_point s) e)) ms ;;
  Some (mkLp pfs evs cls outs (if lookup then PtLookup else PtTable), ls_hist s).
End LogUp.
