(** Model of zkml/src/commit/same_poly.rs: several claims about one polynomial are reduced to one. *)
From Coq Require Import List Arith Lia Bool ZArith.
From Verif Require Import ListAux FieldDef M_Mle M_Interp M_Sumcheck M_ScParallel.
Import ListNotations.

Section SamePoly.
Context {K : field}.
Local Open Scope F_scope.

(** zkml/src/lib.rs: [Claim]. *)
Record claim := mkClaim { cl_point : list K; cl_eval : K }.

(** zkml/src/lib.rs:147-149 [read_challenges] (the non-test implementation; under [cfg(test)] every
    challenge is one). *)
Fixpoint read_challenges (T : @hist K -> K) (n : nat) (h : hist) : list K * hist :=
  match n with
  | O => ([], h)
  | S n' => let '(rs, h') := read_challenges T n' (EvSample :: h) in (T h :: rs, h')
  end.

(** commit/mod.rs:31-38 [aggregated_rlc].  The rayon fold/reduce is written as a left fold: field
    addition is associative and commutative. *)
Definition aggregated_rlc (claims challenges : list K) : option K :=
  if Nat.eqb (length claims) (length challenges)
  then Some (fold_left (fun acc '(c, r) => acc + c * r) (combine claims challenges) 0) else None.

(** mle.rs:106-110 [into_mle] of a vector of extension elements. *)
Definition into_mle_ext (l : list K) : option (dmle K) :=
  if is_pow2 (length l) then n <- ceil_log2 (length l) ;; from_evaluations_ext_vec n l else None.

Record sp_proof := mkSp { sp_sumcheck : @proof K; sp_evals : list K }.

(** same_poly.rs:76-122: [add_claim] for every claim, then [prove]. *)
Definition sp_prove (T : @hist K -> K) (ncpus : nat) (scs : nat -> rsched) (poly : dmle K) (claims : list claim) (h : hist)
  : option (sp_proof * hist) :=
  if forallb (fun c => Nat.eqb (length (cl_point c)) (num_vars poly)) claims then
    let '(cs, h1) := read_challenges T (length claims) h in
    let beta_evals := map (fun '(a, c) => map (fun b => a * b) (compute_betas_eval (cl_point c))) (combine cs claims) in
    final_beta <- omapM (fun i => vals <- omapM (fun b => nth_error b i) beta_evals ;;
                                  Some (fold_left fadd vals 0)) (seq 0 (2 ^ num_vars poly)) ;;
    m <- into_mle_ext final_beta ;;
    r <- add_mle_list [] (vp_new (num_vars poly)) [(0%nat, m); (1%nat, poly)] 1 ;;
    pr <- prove_parallel T ncpus scs (snd r) h1 ;;
    let '(pf, st, h2) := pr in
    evals <- get_mle_final_evaluations st ;;
    Some (mkSp pf evals, h2)
  else None.

(** same_poly.rs:146-183: [add_claim] for every claim, then [verify].  The context for [n] variables
    has max_degree 2 and max_num_variables [n] (same_poly.rs:33-38). *)
Definition sp_verify (T : @hist K -> K) (n : nat) (claims : list claim) (pf : sp_proof) (h : hist)
  : option (claim * hist) :=
  if forallb (fun c => Nat.eqb (length (cl_point c)) n) claims then
    let '(cs, h1) := read_challenges T (length claims) h in
    y <- aggregated_rlc (map cl_eval claims) cs ;;
    sub <- verify T y (sp_sumcheck pf) n 2 h1 ;;
    let '(rs, expected, h2) := sub in
    let computed := fold_left (fun acc '(a, c) => acc + a * identity_eval (cl_point c) (pf_point (sp_sumcheck pf)))
                              (combine cs claims) 0 in
    given <- nth_error (sp_evals pf) 0 ;;
    if computed =? given then
      e1 <- nth_error (sp_evals pf) 1 ;;
      if given * e1 =? expected then Some (mkClaim (pf_point (sp_sumcheck pf)) e1, h2) else None
    else None
  else None.
End SamePoly.
