(** Model of the addition and learned positional encoding layers: zkml/src/layers/add.rs and
    zkml/src/layers/transformer/positional.rs, the quantised evaluation, the provers and the verifiers.  Integers are
    unbounded where the code uses i64.  Claims added to the commitment prover and verifier are returned. *)
From Coq Require Import List Arith Lia Bool ZArith.
From Verif Require Import ListAux FieldDef M_Mle M_Sumcheck M_SamePoly M_Tensor M_Layers.
Import ListNotations.

(** add.rs:53-57 [AddCtx], of [QuantInfo] (282-291) the two multipliers. *)
Record add_ctx := mkAddCtx { ad_left : Z; ad_right : Z; ad_static : bool }.

(** [scalar_mul] (tensor.rs:965-971). *)
Definition tscale (c : Z) (t : ten Z) : ten Z := mkTen (sh t) (map (fun x => x * c)%Z (dat t)).
(** add.rs:185-210 [evaluate]; [operand]: the static operand. *)
Definition add_evaluate (c : add_ctx) (operand : option (ten Z)) (inputs : list (ten Z)) : option (ten Z) :=
  l <- nth_error inputs 0 ;;
  r <- (match operand with
        | Some o => Some o
        | None => if (length inputs =? 2)%nat then nth_error inputs 1 else None
        end) ;;
  tadd Z.add (tscale (ad_left c) l) (tscale (ad_right c) r).
(** positional.rs:157-184 [evaluate] for one input. *)
Definition pos_evaluate (c : add_ctx) (pos : ten Z) (x : ten Z) : option (ten Z) :=
  match sh x with
  | [r; _] => sub <- slice_2d pos 0 r ;; add_evaluate c None [x; sub]
  | _ => None
  end.

Section AddPos.
Context {K : field}.
Local Open Scope F_scope.

(** add.rs:60-63 [AddProof]. *)
Record add_proof := mkAp { ap_left : K; ap_right : K }.

(** add.rs:81-148 [prove_step]; [es n]: schedule of [evaluate] on [n] variables.  The claims of the inputs, the claim of the
    static operand if there is one, the proof.  Division by zero panics. *)
Definition add_prove (es : nat -> nat -> list nat) (c : add_ctx) (inputs : list (ten K)) (last : claim) : option (list claim * option claim * add_proof) :=
  l <- nth_error inputs 0 ;; lm <- into_mle_ext (dat l) ;; le <- evaluate (es (num_vars lm)) lm (cl_point last) ;;
  let lc := mkClaim (cl_point last) le in
  if ad_static c then
    i <- finv_opt (fZ (ad_right c)) ;;
    let re := (cl_eval last - le * fZ (ad_left c)) * i in
    Some ([lc], Some (mkClaim (cl_point last) re), mkAp le re)
  else
    r <- nth_error inputs 1 ;; rm <- into_mle_ext (dat r) ;; re <- evaluate (es (num_vars rm)) rm (cl_point last) ;;
    Some ([lc; mkClaim (cl_point last) re], None, mkAp le re).

(** add.rs:586-625 [verify].  The two checks of 596-597 convert an i64 to u64 and back and always hold. *)
Definition add_verify (c : add_ctx) (last : claim) (pf : add_proof) : option (list claim * option claim) :=
  let lc := mkClaim (cl_point last) (ap_left pf) in
  let rc := mkClaim (cl_point last) (ap_right pf) in
  if ap_left pf * fZ (ad_left c) + ap_right pf * fZ (ad_right c) =? cl_eval last then
    if ad_static c then Some ([lc], Some rc) else Some ([lc; rc], None)
  else None.

(** positional.rs:46-55 [SinglePositionalProof]. *)
Record pos_proof := mkPp { pp_subs : list K; pp_add : add_proof }.

(** positional.rs:80-97 [sample_random_coordinates]. *)
Definition pos_coords (T : hist -> K) (n : nat) (out sub : claim) (h : hist) : list K * hist :=
  read_challenges T n (absorb (absorb h (cl_point out ++ [cl_eval out])) (cl_point sub ++ [cl_eval sub])).
(** positional.rs:106-124 [compute_positional_matrix_claim]. *)
Definition pos_matrix_claim (pt : list K) (e : K) (subs : list K) : option claim :=
  st <- csub (length pt) (length subs) ;;
  Some (mkClaim pt (fold_left (fun e '(s, x) => e * (1 - x) + s * x) (combine subs (skipn st pt)) e)).

(** positional.rs:521-573: one input; [nv]: [num_vars_positional_matrix].  The claim of the input and that of the positional
    matrix. *)
Definition pos_verify1 (T : hist -> K) (c : add_ctx) (nv : nat) (last : claim) (pf : pos_proof) (h : hist) : option (claim * claim * hist) :=
  r <- add_verify c last (pp_add pf) ;;
  match fst r with
  | [ic; sc] =>
      d <- csub nv (length (cl_point sc)) ;;
      let '(xs, h') := pos_coords T d last sc h in
      pc <- pos_matrix_claim (cl_point sc ++ xs) (cl_eval sc) (pp_subs pf) ;;
      Some (ic, pc, h')
  | _ => None
  end.
(** positional.rs:519-574: the loop; every claim of the positional matrix overwrites the one before (573). *)
Fixpoint pos_loop (T : hist -> K) (c : add_ctx) (nv : nat) (l : list (claim * pos_proof)) (common : option claim) (h : hist)
  : option (list claim * option claim * hist) :=
  match l with
  | [] => Some ([], common, h)
  | (last, pf) :: l' =>
      r <- pos_verify1 T c nv last pf h ;;
      let '(ic, pc, h1) := r in
      s <- pos_loop T c nv l' (Some pc) h1 ;;
      let '(ics, com, h2) := s in
      Some (ic :: ics, com, h2)
  end.
(** positional.rs:480-579 [verify]: the claims of the inputs and of the positional matrix.  The four checks on the number of
    shapes (488-510) are left out. *)
Definition pos_verify (T : hist -> K) (c : add_ctx) (nv : nat) (lasts : list claim) (pfs : list pos_proof) (h : hist)
  : option (list claim * option claim * hist) :=
  if (length pfs =? length lasts)%nat then pos_loop T c nv (combine lasts pfs) None h else None.

(** [slice_over_first_dim] (tensor.rs:1752-1761) on matrices is [slice_2d]; positional.rs:402-410: the sub-matrices that
    double the rows. *)
Fixpoint pos_slices (pos : ten K) (start n : nat) : option (list (ten K) * nat) :=
  match n with
  | O => Some ([], start)
  | S n' => s <- slice_2d pos start (start * 2) ;; r <- pos_slices pos (start * 2) n' ;; Some (s :: fst r, snd r)
  end.
(** positional.rs:71-74 [num_vars]. *)
Definition pos_nv {A} (pos : ten A) : option nat :=
  r <- nrows_2d pos ;; c <- ncols_2d pos ;; lr <- ilog2 r ;; lc <- ilog2 c ;; Some (lr + lc)%nat.
(** positional.rs:350-443: one input.  The evaluations of the sub-matrices (416-429) are collected by index, so their order
    does not depend on the threads. *)
Definition pos_prove1 (T : hist -> K) (es : nat -> nat -> list nat) (c : add_ctx) (pos : ten K) (last : claim) (input : ten K) (h : hist)
  : option (claim * claim * pos_proof * hist) :=
  match sh input with
  | r0 :: _ =>
      sub <- slice_2d pos 0 r0 ;;
      ar <- add_prove es c [input; sub] last ;;
      let '(cls, _, apf) := ar in
      match cls with
      | [ic; sc] =>
          nv <- pos_nv pos ;;
          let n := length (cl_point sc) in
          d <- csub nv n ;;
          let '(xs, h') := pos_coords T d last sc h in
          let pt := cl_point sc ++ xs in
          sl <- pos_slices pos r0 d ;;
          rows <- nrows_2d pos ;;
          if (snd sl =? rows)%nat then
            evs <- omapM (fun '(i, s) => m <- to_mle_2d s ;; evaluate (es (num_vars m)) m (firstn (n + i) pt)) (combine (seq 0 d) (fst sl)) ;;
            pc <- pos_matrix_claim pt (cl_eval sc) evs ;;
            Some (ic, pc, mkPp evs apf, h')
          else None
      | _ => None
      end
  | [] => None
  end.
Fixpoint pos_prove_loop (T : hist -> K) (es : nat -> nat -> list nat) (c : add_ctx) (pos : ten K) (l : list (claim * ten K)) (common : option claim) (h : hist)
  : option (list claim * option claim * list pos_proof * hist) :=
  match l with
  | [] => Some ([], common, [], h)
  | (last, x) :: l' =>
      r <- pos_prove1 T es c pos last x h ;;
      let '(ic, pc, pf, h1) := r in
      s <- pos_prove_loop T es c pos l' (Some pc) h1 ;;
      let '(ics, com, pfs, h2) := s in
      Some (ic :: ics, com, pf :: pfs, h2)
  end.
(** positional.rs:327-451 [prove]. *)
Definition pos_prove (T : hist -> K) (es : nat -> nat -> list nat) (c : add_ctx) (pos : ten K) (lasts : list claim) (inputs : list (ten K)) (h : hist)
  : option (list claim * option claim * list pos_proof * hist) :=
  if (length lasts =? length inputs)%nat then pos_prove_loop T es c pos (combine lasts inputs) None h else None.
End AddPos.
