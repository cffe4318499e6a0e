(** Model of the proof of requantisation: zkml/src/layers/requant.rs, [prove_step] and [verify_requant].
    Commitments are opaque (type [C]); the claims added to the commitment prover and verifier are returned.  [B] is
    [BIT_LEN], a positive constant of the code. *)
From Coq Require Import List Arith Lia Bool ZArith.
From Verif Require Import ListAux FieldDef M_Mle M_Interp M_Sumcheck M_ScParallel M_SamePoly M_LogUp M_Layers M_Sop M_Requant.
From Verif Require M_Basefold.
Import ListNotations.

Section RequantP.
Context {K : field} {C : Type}.
Local Open Scope F_scope.

(** requant.rs:608, 730: [b"requant_batching"]. *)
Definition lbl_requant : list Z := [114; 101; 113; 117; 97; 110; 116; 95; 98; 97; 116; 99; 104; 105; 110; 103]%Z.

(** requant.rs:84-99 [RequantProof]. *)
Record requant_proof := mkRqp {
  rp_acc : @proof K; rp_evals : list K; rp_clamping : @logup_proof K; rp_shifted : @logup_proof K; rp_comms : list C }.

(** requant.rs:748-753: the claims combined with the powers of the challenge. *)
Definition rq_initial (bc : K) (vals : list K) : K :=
  fst (fold_left (fun '(acc, chal) v => (acc + chal * v, chal * bc)) vals (0, 1)).
(** requant.rs:775-790: the evaluations of the proof, recombined. *)
Definition rq_calc (bc last_beta clamping_beta shifted_beta in_eval out_eval : K) (shifted : list K) : K :=
  let out_part := (last_beta + bc * clamping_beta) * out_eval in
  let in_part := bc * bc * clamping_beta * in_eval in
  fst (fold_left (fun '(acc, chal) v => (acc + v * shifted_beta * chal, chal * bc)) shifted (in_part + out_part, bc * bc * bc)).

(** requant.rs:689-816 [verify_requant], called with the challenges of the clamping table (381-402): the claims for the
    commitments, the claim about the input, the transcript.  Indexing past the end panics. *)
Definition rqp_verify (T : hist -> K) (B : nat) (r : requant) (cst csc : K) (last : claim) (pf : requant_proof) (h : hist)
  : option (list (C * claim) * claim * hist) :=
  lr1 <- verify_logup T (rp_clamping pf) 1 cst csc h ;;
  let '(ccl, _, _, h1) := lr1 in
  lr2 <- verify_logup T (rp_shifted pf) (rq_shift r / B)%nat cst 1 h1 ;;
  let '(scl, _, _, h2) := lr2 in
  let '(bc, h3) := get_challenge T lbl_requant h2 in
  c0 <- nth_error ccl 0 ;; s0 <- nth_error scl 0 ;; c1 <- nth_error ccl 1 ;;
  let init := rq_initial bc (cl_eval last :: cl_eval c1 :: cl_eval c0 :: map cl_eval scl) in
  sub <- verify T init (rp_acc pf) (length (cl_point c0)) 2 h3 ;;
  let '(zp, e, h4) := sub in
  last_beta <- M_Basefold.eq_xy_eval (cl_point last) zp ;;
  clamping_beta <- M_Basefold.eq_xy_eval (cl_point c0) zp ;;
  shifted_beta <- M_Basefold.eq_xy_eval (cl_point s0) zp ;;
  out_eval <- nth_error (rp_evals pf) 1 ;; in_eval <- nth_error (rp_evals pf) 0 ;;
  if rq_calc bc last_beta clamping_beta shifted_beta in_eval out_eval (skipn 2 (rp_evals pf)) =? e then
    next <- recombine_claims B r in_eval (skipn 2 (rp_evals pf)) ;;
    Some (map (fun p => (snd p, mkClaim zp (fst p))) (combine (rp_evals pf) (rp_comms pf)), mkClaim zp next, h4)
  else None.

(** requant.rs:611-627: the terms of the sumcheck.  Addresses in the order of their first use: the clamping output, the
    table of the last claim's point, that of the clamping point, the clamping input, the table of the shifted point and the
    chunks. *)
Definition rq_terms (nch : nat) (bc : K) : list (K * list nat) :=
  (1, [0; 1]%nat) :: (bc, [0; 2]%nat) :: (bc * bc, [3; 2]%nat) ::
  map (fun j => (fpow bc (3 + j), [4; 5 + j]%nat)) (seq 0 nch).

(** requant.rs:531-681 [prove_step]: the claims for the commitment prover, the claim about the input, the proof, the
    transcript.  [cin], [cout], [chs]: the columns of the two lookup witnesses; [comms]: their commitments, clamping first. *)
Definition rqp_prove (T : hist -> K) (ncpus : nat) (sc1 : nat -> nat -> rsched) (es1 : nat -> list nat) (sc2 : nat -> nat -> rsched) (es2 : nat -> list nat)
    (sc : nat -> rsched) (B : nat) (r : requant) (cst csc : K) (cin cout : list K) (chs : list (list K)) (comms : list C) (last : claim) (h : hist)
  : option (list (C * claim) * claim * requant_proof * hist) :=
  lr1 <- batch_prove T ncpus sc1 es1 (LookupIn [cin; cout] cst csc 2) h ;;
  let '(lp1, h1) := lr1 in
  lr2 <- batch_prove T ncpus sc2 es2 (LookupIn chs cst 1 1) h1 ;;
  let '(lp2, h2) := lr2 in
  nv <- ilog2 (length cin) ;;
  mi <- from_evaluations_vec nv cin ;; mo <- from_evaluations_vec nv cout ;;
  ms <- omapM (from_evaluations_vec nv) chs ;;
  c0 <- nth_error (lp_claims lp1) 0 ;; s0 <- nth_error (lp_claims lp2) 0 ;;
  cb <- into_mle_ext (compute_betas_eval (cl_point c0)) ;;
  lb <- into_mle_ext (compute_betas_eval (cl_point last)) ;;
  sb <- into_mle_ext (compute_betas_eval (cl_point s0)) ;;
  let '(bc, h3) := get_challenge T lbl_requant h2 in
  pr <- sop_prove T ncpus sc nv ([mo; lb; cb; mi; sb] ++ ms) (rq_terms (length ms) bc) h3 ;;
  let '(spf, evals, h4) := pr in
  out_eval <- nth_error evals 0 ;; in_eval <- nth_error evals 3 ;;
  shifted <- (if (5 <=? length evals)%nat then Some (skipn 5 evals) else None) ;;
  next <- recombine_claims B r in_eval shifted ;;
  let wit := combine (in_eval :: out_eval :: shifted) comms in
  let zp := pf_point spf in
  Some (map (fun p => (snd p, mkClaim zp (fst p))) wit, mkClaim zp next,
        mkRqp spf (map fst wit) lp1 lp2 (map snd wit), h4).
End RequantP.
