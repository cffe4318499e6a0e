(** The steps shared by the layer provers whose sumcheck runs over a sum of several products of tables. *)
From Coq Require Import List Arith Bool.
From Verif Require Import ListAux FieldDef M_Mle M_Interp M_Sumcheck M_ScParallel.
Import ListNotations.

Section Sop.
Context {K : field}.
Local Open Scope F_scope.

(** [VirtualPolynomial::new], a sequence of [add_mle_list], [prove_parallel] and [get_mle_final_evaluations]
    (e.g. zkml/src/layers/transformer/logits.rs:434-455, zkml/src/layers/pooling.rs:383-434).  [ms]: the tables by address
    of their [Arc]; each term is a coefficient and the addresses of the multiplied tables. *)
Definition sop_prove (T : hist -> K) (ncpus : nat) (scs : nat -> rsched) (nv : nat) (ms : list (dmle K)) (terms : list (K * list nat)) (h : hist)
  : option (proof * list K * hist) :=
  r <- build (fun a => nth a ms (mkMle Unreachable 0)) terms ([], vp_new nv) ;;
  pr <- prove_parallel T ncpus scs (snd r) h ;;
  let '(pf, st, h') := pr in
  evals <- get_mle_final_evaluations st ;;
  Some (pf, evals, h').
End Sop.
