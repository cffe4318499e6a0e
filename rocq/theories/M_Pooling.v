(** Model of the provers and verifiers of max pooling (zkml/src/layers/pooling.rs) and of the activation layers
    (zkml/src/layers/activation.rs).

    The commitment of a witness column is any value of a type [C]; the claims handed to the commitment prover and verifier
    are returned in order.  The challenges [cst], [csc] of the lookup table are arguments (pooling.rs:313-319,
    activation.rs:356-366). *)
From Coq Require Import List Arith Lia Bool ZArith.
From Verif Require Import ListAux FieldDef M_Mle M_Interp M_Sumcheck M_ScParallel M_SamePoly M_LogUp M_Tensor M_Sop.
From Verif Require M_Basefold.
Import ListNotations.

Section Pooling.
Context {K : field} {C : Type}.
Local Open Scope F_scope.

(** pooling.rs: [b"batch_pooling"], [b"input_batching"]. *)
Definition lbl_pool : list Z := [98; 97; 116; 99; 104; 95; 112; 111; 111; 108; 105; 110; 103]%Z.
Definition lbl_input : list Z := [105; 110; 112; 117; 116; 95; 98; 97; 116; 99; 104; 105; 110; 103]%Z.

(** pooling.rs: [PoolingProof]. *)
Record pool_proof := mkPool {
  pl_sumcheck : @proof K; pl_lookup : @logup_proof K; pl_evals : list K; pl_gap : nat; pl_comms : list C }.

(** The four weights (pooling.rs:615-623, 464-475), for both challenges. *)
Definition multiplicands (r1 r2 : K) : list K := [(1 - r1) * (1 - r2); (1 - r1) * r2; r1 * (1 - r2); r1 * r2].
(** The point and the value of the input claim (pooling.rs:625-644, 477-497); slicing past the end panics. *)
Definition input_point (r1 r2 : K) (gap : nat) (zp : list K) : option (list K) :=
  if (gap <=? length zp)%nat then Some ([r1] ++ firstn gap zp ++ [r2] ++ skipn gap zp) else None.
Definition input_eval (r1 r2 output_eval : K) (zevals : list K) : K :=
  fold_left (fun acc p => acc + (output_eval - fst p) * snd p) (combine zevals (multiplicands r1 r2)) 0.

(** [verify_pooling] (pooling.rs:525-647): the claims added for the commitments, the input claim, the transcript. *)
Definition pool_verify (T : hist -> K) (cst csc : K) (nv : nat) (last : claim) (pf : pool_proof) (h : hist)
  : option (list (C * claim) * claim * hist) :=
  lr <- verify_logup T (pl_lookup pf) 4 cst csc h ;;
  let '(cls, _, _, h1) := lr in
  let '(bc, h2) := get_challenge T lbl_pool h1 in
  let '(init, comb) := fold_left (fun '(acc, comb) c => (acc + cl_eval c * comb, comb * bc)) cls (0, bc) in
  sub <- verify T (init + comb * cl_eval last) (pl_sumcheck pf) nv 5 h2 ;;
  let '(zp, e, h3) := sub in
  c0 <- nth_error cls 0 ;;
  beta_eval <- M_Basefold.eq_xy_eval (cl_point c0) zp ;;
  last_beta_eval <- M_Basefold.eq_xy_eval (cl_point last) zp ;;
  ks <- csub (length (pl_evals pf)) 1 ;;
  let zevals := firstn ks (pl_evals pf) in
  let '(prod_claim, sum_claim, batch_chal) :=
    fold_left (fun '(p, s, ch) ev => (p * ev, s + ch * ev, ch * bc)) zevals (beta_eval, 0, bc) in
  output_eval <- nth_error (pl_evals pf) ks ;;
  if prod_claim + sum_claim * beta_eval + output_eval * last_beta_eval * batch_chal =? e then
    let wit := map (fun p => (snd p, mkClaim zp (fst p))) (combine (pl_evals pf) (pl_comms pf)) in
    let '(r, h4) := get_challenge T lbl_input h3 in
    pt <- input_point r r (pl_gap pf) zp ;;
    Some (wit, mkClaim pt (input_eval r r output_eval zevals), h4)
  else None.

(** The terms of the sumcheck (pooling.rs:383-428); the columns have the addresses from 0, then come the table of the lookup
    point, the output and the table of the last claim's point. *)
Definition pool_terms (nd : nat) (bc : K) : list (K * list nat) :=
  (1, seq 0 (S nd)) :: map (fun k => (fpow bc (S k), [k; nd])) (seq 0 nd) ++ [(fpow bc (S nd), [S nd; S (S nd)])].

(** [prove_pooling] (pooling.rs:342-518): claims for the commitment prover, the input claim, the proof, the transcript.  [nv]:
    the number of variables of the context; [ks]: the square of the kernel size; [diffs], [comms]: the columns of the lookup
    witness and all their commitments; [scl], [esl], [sc]: thread schedules. *)
Definition pool_prove (T : hist -> K) (ncpus : nat) (scl : nat -> nat -> rsched) (esl : nat -> list nat) (sc : nat -> rsched)
    (nv ks : nat) (cst csc : K) (diffs : list (list K)) (comms : list C) (input output : ten K) (last : claim) (h : hist)
  : option (list (C * claim) * claim * pool_proof * hist) :=
  if (length (sh input) =? 3)%nat then
    lr <- batch_prove T ncpus scl esl (LookupIn diffs cst csc 1) h ;;
    let '(lp, h1) := lr in
    dm <- omapM (from_evaluations_vec nv) diffs ;;
    c0 <- nth_error (lp_claims lp) 0 ;;
    let '(bc, h2) := get_challenge T lbl_pool h1 in
    bm <- from_evaluations_ext_vec nv (compute_betas_eval (cl_point c0)) ;;
    lm <- from_evaluations_ext_vec nv (compute_betas_eval (cl_point last)) ;;
    om <- into_mle_ext (dat output) ;;
    pr <- sop_prove T ncpus sc nv (dm ++ [bm; om; lm]) (pool_terms (length diffs) bc) h2 ;;
    let '(spf, evals, h3) := pr in
    output_eval <- nth_error evals (S ks) ;;
    zevals <- (if (ks <=? length evals)%nat then Some (firstn ks evals) else None) ;;
    let zp := pf_point spf in
    let wit := combine (zevals ++ [output_eval]) comms in
    wsh <- nth_error (sh input) 2 ;; lw <- ceil_log2 wsh ;; gap <- csub lw 1 ;;
    let '(r, h4) := get_challenge T lbl_input h3 in
    pt <- input_point r r gap zp ;;
    Some (map (fun p => (snd p, mkClaim zp (fst p))) wit, mkClaim pt (input_eval r r output_eval zevals),
          mkPool spf lp (zevals ++ [output_eval]) gap (map snd wit), h4)
  else None.

(** ** Activations *)
(** activation.rs: [ActivationProof]. *)
Record act_proof := mkAct { ac_io : @sp_proof K; ac_lookup : @logup_proof K; ac_comms : list C }.
(** The multiplier of a GELU, none for a ReLU (activation.rs:417-426, 504-513); the inverse of zero panics. *)
Definition act_input (gelu : option K) (c : claim) : option claim :=
  match gelu with None => Some c | Some m => mi <- finv_opt m ;; Some (mkClaim (cl_point c) (cl_eval c * mi)) end.
(** [verify_activation] (activation.rs:459-515). *)
Definition act_verify (T : hist -> K) (gelu : option K) (cst csc : K) (nv : nat) (last : claim) (pf : act_proof) (h : hist)
  : option (list (C * claim) * claim * hist) :=
  lr <- verify_logup T (ac_lookup pf) 1 cst csc h ;;
  let '(cls, _, _, h1) := lr in
  match cls with
  | [] => None
  | c0 :: rest =>
      r <- sp_verify T nv (last :: rest) (ac_io pf) h1 ;;
      let '(nc, h2) := r in
      inp <- act_input gelu c0 ;;
      Some (map (fun p => (snd p, fst p)) (combine [c0; nc] (ac_comms pf)), inp, h2)
  end.
(** same_poly.rs:49-54 [extract_claim]. *)
Definition extract_claim (pf : @sp_proof K) : option claim :=
  e <- nth_error (sp_evals pf) 1 ;; Some (mkClaim (pf_point (sp_sumcheck pf)) e).
(** [prove_step] (activation.rs:385-455): the claims for the commitment prover, the input claim, the proof. *)
Definition act_prove (T : hist -> K) (ncpus : nat) (scl : nat -> nat -> rsched) (esl : nat -> list nat) (sc : nat -> rsched)
    (gelu : option K) (cst csc : K) (cols : list (list K)) (comms : list C) (output : list K) (last : claim) (h : hist)
  : option (list (C * claim) * claim * act_proof * hist) :=
  lr <- batch_prove T ncpus scl esl (LookupIn cols cst csc 2) h ;;
  let '(lp, h1) := lr in
  om <- into_mle_ext output ;;
  c0 <- nth_error (lp_claims lp) 0 ;;
  inp <- act_input gelu c0 ;;
  c1 <- nth_error (lp_claims lp) 1 ;;
  r <- sp_prove T ncpus sc om [last; c1] h1 ;;
  let '(io, h2) := r in
  ec <- extract_claim io ;;
  let wit := combine [inp; ec] comms in
  Some (map (fun p => (snd p, fst p)) wit, inp, mkAct io lp (map snd wit), h2).
End Pooling.
