(** Model of the layer protocols that are one sumcheck over a product of tables: the fully connected layer
    (zkml/src/layers/dense.rs), the matrix-vector helper (matvec.rs), the matrix product (matrix_mul.rs), the
    batched matrix product (concat_matmul.rs) and the entry-wise product (hadamard.rs).

    Provers work on tensors of field elements.  Where the code holds integer tensors ([Dense::matrix], the
    weights of [MatMul], the arguments of hadamard::prove) the model takes their images in the field
    ([evals_flat], tensor.rs:589-591).  What a layer hands to [add_common_claims] is returned as a list of
    (polynomial, claim) pairs.  Debug assertions are left out. *)
From Coq Require Import List Arith Lia Bool ZArith.
From Verif Require Import ListAux FieldDef M_Mle M_Interp M_Sumcheck M_ScParallel M_SamePoly M_Tensor M_Pad.
Import ListNotations.

(** [ilog2] panics on zero. *)
Definition ilog2 (n : nat) : option nat := if Nat.ltb 0 n then Some (Nat.log2 n) else None.
(** [&p[a..b]] on points. *)
Definition pt_from {A} (a : nat) (l : list A) : option (list A) := if Nat.leb a (length l) then Some (skipn a l) else None.
Definition pt_upto {A} (a : nat) (l : list A) : option (list A) := if Nat.leb a (length l) then Some (firstn a l) else None.

Section Layers.
Context {K : field}.
Local Open Scope F_scope.
Notation claim := (@claim K).
Notation hist := (@hist K).
Notation proof := (@proof K).

(** Identifiers of the polynomials a layer commits to (WEIGHT_POLY_ID, BIAS_POLY_ID, MATRIX_POLY_ID). *)
Inductive poly_id := WeightPoly | BiasPoly | MatrixPoly.

(** [VirtualPolynomial::new], one [add_mle_list] with coefficient one, [prove_parallel] and
    [get_mle_final_evaluations] (dense.rs:480-488, 557; matvec.rs:86-90, 110; matrix_mul.rs:823-826, 866;
    concat_matmul.rs:538-545; hadamard.rs:112-115, 123).  Every table is its own [Arc]. *)
Definition product_prove (T : hist -> K) (ncpus : nat) (scs : nat -> rsched) (nv : nat) (ms : list (dmle K)) (h : hist)
  : option (proof * list K * hist) :=
  r <- add_mle_list [] (vp_new nv) (combine (seq 0 (length ms)) ms) 1 ;;
  pr <- prove_parallel T ncpus scs (snd r) h ;;
  let '(pf, st, h') := pr in
  evals <- get_mle_final_evaluations st ;;
  Some (pf, evals, h').

(** [individual_to_virtual_claim] (dense.rs:649-653, matrix_mul.rs:1144-1148, concat_matmul.rs:377-381). *)
Definition virtual_claim (l : list K) : K := fold_left fmul l 1.

(** [to_mle_2d], [to_2d_mle] (tensor.rs:593-595, 616-639) on field tensors. *)
Definition to_mle_2d (t : ten K) : option (dmle K) :=
  if is_matrix t then
    r <- nrows_2d t ;; c <- ncols_2d t ;;
    if is_pow2 r && is_pow2 c then from_evaluations_ext_vec (Nat.log2 r + Nat.log2 c) (dat t) else None
  else None.

(** *** Dense *)
Record dense_proof := mkDp { dp_sumcheck : proof; dp_bias_eval : K; dp_claims : list K }.

(** [Dense::prove_step] (dense.rs:423-561).  [es]: schedule of [evaluate] on the bias. *)
Definition dense_prove (T : hist -> K) (ncpus : nat) (scs : nat -> rsched) (es : nat -> list nat)
    (d : dense (A := K)) (input output : ten K) (last : claim) (h : hist)
  : option (claim * list (poly_id * claim) * dense_proof * hist) :=
  nrows <- nrows_2d (d_mat d) ;; ncols <- ncols_2d (d_mat d) ;;
  lr <- ilog2 nrows ;; lb <- ilog2 (length (dat (d_bias d))) ;;
  if Nat.eqb nrows (length (dat output)) && Nat.eqb lr (length (cl_point last))
     && Nat.eqb ncols (length (dat input)) && Nat.eqb lb (length (cl_point last)) then
    bm <- into_mle_ext (dat (d_bias d)) ;;
    bias_eval <- evaluate es bm (cl_point last) ;;
    m0 <- to_mle_2d (d_mat d) ;;
    mat_mle <- fix_high_variables_in_place m0 (cl_point last) ;;
    input_mle <- into_mle_ext (dat input) ;;
    if Nat.eqb (num_vars mat_mle) (num_vars input_mle) then
      pr <- product_prove T ncpus scs (num_vars input_mle) [mat_mle; input_mle] h ;;
      let '(pf, evals, h') := pr in
      e0 <- nth_error evals 0 ;; e1 <- nth_error evals 1 ;;
      Some (mkClaim (pf_point pf) e1,
            [(WeightPoly, mkClaim (pf_point pf ++ cl_point last) e0); (BiasPoly, mkClaim (cl_point last) bias_eval)],
            mkDp pf bias_eval evals, h')
    else None
  else None.

(** [DenseCtx::matrix_poly_aux] (dense.rs:199-214): the column variables, degree 2. *)
Definition dense_ctx (d : dense (A := K)) : option nat := c <- ncols_2d (d_mat d) ;; ilog2 c.

(** [DenseCtx::verify_dense] (dense.rs:576-643); [nv] is the context's number of variables. *)
Definition dense_verify (T : hist -> K) (nv : nat) (last : claim) (pf : dense_proof) (h : hist)
  : option (claim * list (poly_id * claim) * hist) :=
  sub <- verify T (cl_eval last - dp_bias_eval pf) (dp_sumcheck pf) nv 2 h ;;
  let '(rs, expected, h') := sub in
  e0 <- nth_error (dp_claims pf) 0 ;;
  if virtual_claim (dp_claims pf) =? expected then
    e1 <- nth_error (dp_claims pf) 1 ;;
    Some (mkClaim rs e1,
          [(WeightPoly, mkClaim (rs ++ cl_point last) e0); (BiasPoly, mkClaim (cl_point last) (dp_bias_eval pf))], h')
  else None.

(** *** Matrix-vector helper *)
Record matvec_proof := mkMvp { mv_sumcheck : proof; mv_evals : list K }.

(** [MatVec::prove] (matvec.rs:53-113). *)
Definition matvec_prove (T : hist -> K) (ncpus : nat) (scs : nat -> rsched) (mat input : ten K) (last : claim) (h : hist)
  : option (matvec_proof * claim * hist) :=
  nrows <- nrows_2d mat ;; ncols <- ncols_2d mat ;; lr <- ilog2 nrows ;;
  if Nat.eqb lr (length (cl_point last)) && Nat.eqb ncols (length (dat input)) then
    m0 <- to_mle_2d mat ;;
    mat_mle <- fix_high_variables_in_place m0 (cl_point last) ;;
    input_mle <- into_mle_ext (dat input) ;;
    if Nat.eqb (num_vars mat_mle) (num_vars input_mle) then
      pr <- product_prove T ncpus scs (num_vars input_mle) [mat_mle; input_mle] h ;;
      let '(pf, evals, h') := pr in
      e1 <- nth_error evals 1 ;;
      Some (mkMvp pf evals, mkClaim (pf_point pf) e1, h')
    else None
  else None.

(** [matvec::verify] (matvec.rs:120-148).  [eval_matrix_at] is the caller's evaluation of the matrix. *)
Definition matvec_verify (T : hist -> K) (nv : nat) (eval_matrix_at : list K -> K) (last : claim) (pf : matvec_proof) (h : hist)
  : option (claim * hist) :=
  sub <- verify T (cl_eval last) (mv_sumcheck pf) nv 2 h ;;
  let '(rs, _, h') := sub in
  e0 <- nth_error (mv_evals pf) 0 ;;
  if e0 =? eval_matrix_at (rs ++ cl_point last) then
    e1 <- nth_error (mv_evals pf) 1 ;; Some (mkClaim rs e1, h')
  else None.

(** *** Matrix product *)
Record matmul_proof := mkMp { mp_sumcheck : proof; mp_claims : list K; mp_bias_eval : option K }.

(** [split_claim] (matrix_mul.rs:339-356): (point for the left matrix, point for the right matrix). *)
Definition split_claim (last : claim) (out_vars : nat * nat) : option (list K * list K) :=
  l <- pt_from (snd out_vars) (cl_point last) ;; r <- pt_upto (snd out_vars) (cl_point last) ;; Some (l, r).
(** [full_points] (matrix_mul.rs:364-383). *)
Definition full_points (last : claim) (proof_point : list K) (out_vars : nat * nat) (transposed : bool)
  : option (list K * list K) :=
  s <- split_claim last out_vars ;;
  let '(cl, cr) := s in
  Some (proof_point ++ cl, if transposed then proof_point ++ cr else cr ++ proof_point).

(** The two operands of [prove_step] (matrix_mul.rs:719-746): inputs are popped from the end. *)
Definition mm_operands (mm : matmul_layer (A := K)) (inputs : list (ten K)) : option (ten K * bool * (ten K * bool)) :=
  match mm_right mm, mm_left mm with
  | Weight r _, Weight l _ => match inputs with [] => Some ((l, true), (r, true)) | _ => None end
  | Weight r _, Input => match inputs with [l] => Some ((l, false), (r, true)) | _ => None end
  | Input, Weight l _ => match inputs with [r] => Some ((l, true), (r, false)) | _ => None end
  | Input, Input => match inputs with [l; r] => Some ((l, false), (r, false)) | _ => None end
  end.

(** Claims of the layer (matrix_mul.rs:839-862 and 1083-1115): a constant factor goes to the commitments, the
    other to the output, left first. *)
Definition mm_claims (lconst rconst : bool) (common : list (poly_id * claim)) (lc rc : claim)
  : list claim * list (poly_id * claim) :=
  let '(out1, com1) := if lconst then ([], common ++ [(MatrixPoly, lc)]) else ([lc], common) in
  if rconst then (out1, com1 ++ [(MatrixPoly, rc)]) else (out1 ++ [rc], com1).

(** [MatMul::prove_step] (matrix_mul.rs:701-874). *)
Definition matmul_prove (T : hist -> K) (ncpus : nat) (scs : nat -> rsched) (es : nat -> list nat)
    (mm : matmul_layer (A := K)) (inputs : list (ten K)) (output : ten K) (last : claim) (h : hist)
  : option (list claim * list (poly_id * claim) * matmul_proof * hist) :=
  ops <- mm_operands mm inputs ;;
  let '((lt, lconst), (rt, rconst)) := ops in
  if is_matrix lt && is_matrix rt && is_matrix output then
    nl <- nrows_2d lt ;;
    nr <- (if mm_transpose mm then nrows_2d rt else ncols_2d rt) ;;
    ro <- nrows_2d output ;; co <- ncols_2d output ;;
    if Nat.eqb ro nl && Nat.eqb co nr then
      vr <- ilog2 ro ;; vc <- ilog2 co ;;
      if Nat.eqb (vr + vc) (length (cl_point last)) then
        r0 <- to_mle_2d rt ;; l0 <- to_mle_2d lt ;;
        sp <- split_claim last (vr, vc) ;;
        let '(pl, pr) := sp in
        be <- match mm_bias mm with
              | Some b => bm <- into_mle_ext (dat b) ;; e <- evaluate es bm pr ;; Some (Some e)
              | None => Some None
              end ;;
        lm <- fix_high_variables_in_place l0 pl ;;
        rm <- (if mm_transpose mm then fix_high_variables_in_place r0 pr else fix_variables_in_place r0 pr) ;;
        if Nat.eqb (num_vars lm) (num_vars rm) then
          res <- product_prove T ncpus scs (num_vars lm) [lm; rm] h ;;
          let '(pf, evals, h') := res in
          if lconst && rconst then None
          else
            fp <- full_points last (pf_point pf) (vr, vc) (mm_transpose mm) ;;
            let '(fl, fr) := fp in
            e0 <- nth_error evals 0 ;; e1 <- nth_error evals 1 ;;
            let common := match be with Some e => [(BiasPoly, mkClaim pr e)] | None => [] end in
            let '(out, com) := mm_claims lconst rconst common (mkClaim fl e0) (mkClaim fr e1) in
            Some (out, com, mkMp pf evals be, h')
        else None
      else None
    else None
  else None.

(** [MatMulCtx] (matrix_mul.rs:136-148, 938-946). *)
Record matmul_ctx := mkMctx {
  mc_nv : nat; mc_out_vars : nat * nat; mc_left_const : bool; mc_right_const : bool; mc_bias : bool; mc_transposed : bool }.

(** [MatMul::ctx] (matrix_mul.rs:876-946) for the padded shapes of the two factors. *)
Definition matmul_mk_ctx (mm : matmul_layer (A := K)) (left_shape right_shape : list nat) : option matmul_ctx :=
  let rsh := if mm_transpose mm then rev right_shape else right_shape in
  nrows <- nth_error left_shape 0 ;; ncols <- nth_error rsh 1 ;;
  match rsh, left_shape with
  | [r0; r1], [l0; l1] =>
      nv <- ilog2 r0 ;; _ <- ilog2 r1 ;; _ <- ilog2 l0 ;; nv' <- ilog2 l1 ;;
      if Nat.eqb nv nv' then
        vr <- ilog2 nrows ;; vc <- ilog2 ncols ;;
        Some (mkMctx nv (vr, vc)
                (match mm_left mm with Weight _ _ => true | Input => false end)
                (match mm_right mm with Weight _ _ => true | Input => false end)
                (match mm_bias mm with Some _ => true | None => false end) (mm_transpose mm))
      else None
  | _, _ => None
  end.

(** [verify_matmul] (matrix_mul.rs:1048-1138). *)
Definition matmul_verify (T : hist -> K) (c : matmul_ctx) (last : claim) (pf : matmul_proof) (h : hist)
  : option (list claim * list (poly_id * claim) * hist) :=
  sp <- split_claim last (mc_out_vars c) ;;
  let '(_, pr) := sp in
  bb <- (if mc_bias c then e <- mp_bias_eval pf ;; Some ([(BiasPoly, mkClaim pr e)], cl_eval last - e)
         else Some ([], cl_eval last)) ;;
  let '(common, ev) := bb in
  sub <- verify T ev (mp_sumcheck pf) (mc_nv c) 2 h ;;
  let '(rs, expected, h') := sub in
  if mc_left_const c && mc_right_const c then None
  else
    fp <- full_points last rs (mc_out_vars c) (mc_transposed c) ;;
    let '(fl, fr) := fp in
    e0 <- nth_error (mp_claims pf) 0 ;; e1 <- nth_error (mp_claims pf) 1 ;;
    let '(out, com) := mm_claims (mc_left_const c) (mc_right_const c) common (mkClaim fl e0) (mkClaim fr e1) in
    if virtual_claim (mp_claims pf) =? expected then Some (out, com, h') else None.

(** *** Batched matrix product *)
(** [InputMatrixDimensions] (concat_matmul.rs:71-81). *)
Record dims := mkDims { dim_concat : nat; dim_mm : nat; dim_out : nat }.
(** [MatrixPermutations] (concat_matmul.rs:173-178). *)
Record cperm := mkCperm { cp_left : dims; cp_right : dims; cp_permute : option (list nat) }.

(** [BTreeMap] of dimension to sub-point, as a list sorted by key; a repeated key overwrites. *)
Fixpoint bt_insert {A} (k : nat) (v : A) (m : list (nat * A)) : list (nat * A) :=
  match m with
  | [] => [(k, v)]
  | (k', v') :: r => if Nat.ltb k k' then (k, v) :: m else if Nat.eqb k k' then (k, v) :: r else (k', v') :: bt_insert k v r
  end.
(** [build_point_for_input] (concat_matmul.rs:115-132). *)
Definition build_point (d : dims) (pc pm po : list K) : list K :=
  concat (map snd (rev (bt_insert (dim_out d) po (bt_insert (dim_mm d) pm (bt_insert (dim_concat d) pc []))))).
(** [input_mle_for_proving] (concat_matmul.rs:136-167); [fs]: schedule of the parallel in-place fix. *)
Definition input_mle (fs : nat -> list nat) (d : dims) (input : ten K) (pp : list K) : option (dmle K) :=
  if Nat.ltb (dim_mm d) (dim_concat d) || Nat.eqb (dim_out d) 1 then
    p <- permute3d (0 : K) input [dim_concat d; dim_mm d; dim_out d] ;;
    m <- into_mle_ext (dat p) ;;
    fix_variables_in_place_parallel fs m pp
  else
    m <- into_mle_ext (dat input) ;;
    if Nat.eqb (dim_out d) 0 then fix_high_variables_in_place m pp else fix_variables_in_place_parallel fs m pp.

(** [ensure_shape_consistency] (concat_matmul.rs:181-205); indexing panics outside the shape. *)
Definition shapes_consistent (p : cperm) (sa sb : list nat) : option unit :=
  if Nat.eqb (length sa) (length sb) && Nat.eqb (length sa) 3 then
    c0 <- nth_error sa (dim_concat (cp_left p)) ;; c1 <- nth_error sb (dim_concat (cp_right p)) ;;
    if Nat.eqb c0 c1 then
      m0 <- nth_error sa (dim_mm (cp_left p)) ;; m1 <- nth_error sb (dim_mm (cp_right p)) ;;
      if Nat.eqb m0 m1 then Some tt else None
    else None
  else None.

(** [split_sumcheck_point] (concat_matmul.rs:254-275): (concatenation part, product part). *)
Definition split_sumcheck_point (p : cperm) (pt : list K) (sa sb : list nat) : option (list K * list K) :=
  m0 <- nth_error sa (dim_mm (cp_left p)) ;; m1 <- nth_error sb (dim_mm (cp_right p)) ;;
  if Nat.eqb m0 m1 && is_pow2 m0 then
    a <- pt_from (Nat.log2 m0) pt ;; b <- pt_upto (Nat.log2 m0) pt ;; Some (a, b)
  else None.

(** [split_output_claim_point] (concat_matmul.rs:281-343): (concatenation, row, column) parts. *)
Definition split_output_point (p : cperm) (so : list nat) (pt : list K) : option (list K * list K * list K) :=
  match so with
  | [d0; d1; d2] =>
      if is_pow2 d0 && is_pow2 d1 && is_pow2 d2 then
        let v0 := Nat.log2 d0 in let v1 := Nat.log2 d1 in let v2 := Nat.log2 d2 in
        if Nat.eqb (length pt) (v0 + v1 + v2) then
          let points := [skipn (v2 + v1) pt; firstn v1 (skipn v2 pt); firstn v2 pt] in
          pos <- match cp_permute p with
                 | None => Some [0; 1; 2]%nat
                 | Some perm => ofold (fun nd '(i, s) => if Nat.ltb s 3 then Some (upd s i nd) else None)
                                      (combine (seq 0 (length perm)) perm) [0; 0; 0]%nat
                 end ;;
          c <- nth_error points (nth 0 pos 0%nat) ;; r <- nth_error points (nth 1 pos 0%nat) ;; k <- nth_error points (nth 2 pos 0%nat) ;;
          Some (c, r, k)
        else None
      else None
  | _ => None
  end.

Record concat_proof := mkCp { cpf_sumcheck : proof; cpf_claims : list K }.

(** [ConcatMatMul::prove_step] (concat_matmul.rs:473-577). *)
Definition concat_prove (T : hist -> K) (ncpus : nat) (scs : nat -> rsched) (fl fr : nat -> list nat)
    (p : cperm) (a b output : ten K) (last : claim) (h : hist) : option (list claim * concat_proof * hist) :=
  _ <- shapes_consistent p (sh a) (sh b) ;;
  so <- split_output_point p (sh output) (cl_point last) ;;
  let '(pc, prow, pcol) := so in
  lm <- input_mle fl (cp_left p) a prow ;;
  rm0 <- input_mle fr (cp_right p) b pcol ;;
  if Nat.eqb (num_vars lm) (num_vars rm0) then
    m0 <- nth_error (sh a) (dim_mm (cp_left p)) ;; m1 <- nth_error (sh b) (dim_mm (cp_right p)) ;;
    if Nat.eqb m0 m1 then
      beta <- into_mle_ext (concat (map (fun e => repeat e m0) (compute_betas_eval pc))) ;;
      if Nat.eqb (num_vars lm) (num_vars beta) then
        res <- product_prove T ncpus scs (num_vars lm) [beta; lm; rm0] h ;;
        let '(pf, evals, h') := res in
        e1 <- nth_error evals 1 ;; e2 <- nth_error evals 2 ;;
        sp <- split_sumcheck_point p (pf_point pf) (sh a) (sh b) ;;
        let '(rc, rm) := sp in
        Some ([mkClaim (build_point (cp_left p) rc rm prow) e1; mkClaim (build_point (cp_right p) rc rm pcol) e2],
              mkCp pf evals, h')
      else None
    else None
  else None.

(** [ConcatMatMul::step_info] (concat_matmul.rs:688-713): variables of the sumcheck, degree 3. *)
Definition concat_ctx (p : cperm) (sa sb : list nat) : option nat :=
  m0 <- nth_error sa (dim_mm (cp_left p)) ;; m1 <- nth_error sb (dim_mm (cp_right p)) ;;
  if Nat.eqb m0 m1 then
    c0 <- nth_error sa (dim_concat (cp_left p)) ;; c1 <- nth_error sb (dim_concat (cp_right p)) ;;
    if Nat.eqb c0 c1 && is_pow2 m0 && is_pow2 c0 then ilog2 (m0 * c0) else None
  else None.

(** [ConcatMatMulCtx::verify] (concat_matmul.rs:801-892); [sa], [sb], [so]: padded input and output shapes. *)
Definition concat_verify (T : hist -> K) (nv : nat) (p : cperm) (sa sb so : list nat) (last : claim) (pf : concat_proof) (h : hist)
  : option (list claim * hist) :=
  _ <- shapes_consistent p sa sb ;;
  sub <- verify T (cl_eval last) (cpf_sumcheck pf) nv 3 h ;;
  let '(rs, expected, h') := sub in
  op <- split_output_point p so (cl_point last) ;;
  let '(pc, prow, pcol) := op in
  sp <- split_sumcheck_point p rs sa sb ;;
  let '(rc, rm) := sp in
  e0 <- nth_error (cpf_claims pf) 0 ;;
  if identity_eval rc pc =? e0 then
    e1 <- nth_error (cpf_claims pf) 1 ;; e2 <- nth_error (cpf_claims pf) 2 ;;
    if virtual_claim (cpf_claims pf) =? expected then
      Some ([mkClaim (build_point (cp_left p) rc rm prow) e1; mkClaim (build_point (cp_right p) rc rm pcol) e2], h')
    else None
  else None.

(** *** Entry-wise product *)
Record hadamard_proof := mkHp { hp_sumcheck : proof; hp_claims : list K }.

(** [HadamardCtx::from_len] (hadamard.rs:38-46): number of variables, degree 3. *)
Definition hadamard_ctx (len : nat) : nat := Nat.log2 (npow2 len).

(** [hadamard::prove] (hadamard.rs:83-125). *)
Definition hadamard_prove (T : hist -> K) (ncpus : nat) (scs : nat -> rsched) (last : claim) (v1 v2 : ten K) (h : hist)
  : option (hadamard_proof * hist) :=
  l1 <- ilog2 (length (dat v1)) ;; l2 <- ilog2 (length (dat v2)) ;;
  if Nat.eqb (length (cl_point last)) l1 && Nat.eqb (length (cl_point last)) l2
     && shape_is_pow2 (sh v1) && shape_is_pow2 (sh v2) then
    beta <- into_mle_ext (compute_betas_eval (cl_point last)) ;;
    m1 <- from_evaluations_ext_vec l1 (dat v1) ;; m2 <- from_evaluations_ext_vec l2 (dat v2) ;;
    res <- product_prove T ncpus scs (num_vars m1) [m1; m2; beta] h ;;
    let '(pf, evals, h') := res in
    if Nat.leb 2 (length evals) then Some (mkHp pf (firstn 2 evals), h') else None
  else None.

(** [hadamard::verify] (hadamard.rs:128-157).  [es]: schedule of [evaluate] on the beta table. *)
Definition hadamard_verify (T : hist -> K) (nv : nat) (es : nat -> list nat) (last : claim) (expected_v2 : K)
    (pf : hadamard_proof) (h : hist) : option (claim * hist) :=
  sub <- verify T (cl_eval last) (hp_sumcheck pf) nv 3 h ;;
  let '(_, expected, h') := sub in
  beta <- into_mle_ext (compute_betas_eval (cl_point last)) ;;
  be <- evaluate es beta (pf_point (hp_sumcheck pf)) ;;
  e1 <- nth_error (hp_claims pf) 1 ;;
  if expected_v2 =? e1 then
    e0 <- nth_error (hp_claims pf) 0 ;;
    if be * e0 * e1 =? expected then Some (mkClaim (pf_point (hp_sumcheck pf)) e0, h') else None
  else None.
End Layers.

(** *** Evaluation of the batched matrix product *)
Section Concat.
Context {A : Type}.
Variable zero : A.
Variables add mul : A -> A -> A.
(** [compute_permutation] (concat_matmul.rs:98-109) with [Permutation::new] (concat_matmul.rs:53-63). *)
Definition compute_permutation (d expected : dims) : option (option (list nat)) :=
  if Nat.eqb (dim_concat d) (dim_concat expected) && Nat.eqb (dim_mm d) (dim_mm expected) && Nat.eqb (dim_out d) (dim_out expected)
  then Some None
  else
    let p := upd (dim_mm expected) (dim_mm d) (upd (dim_out expected) (dim_out d) (upd (dim_concat expected) (dim_concat d) [0; 0; 0])) in
    if forallb (fun x => Nat.ltb x (length p)) p then Some (Some p) else None.
(** [expected_dimension_for_left_input], [..right_input] (concat_matmul.rs:445-465). *)
Definition expected_left := mkDims 0 2 1.
Definition expected_right := mkDims 0 1 2.
Definition maybe_permute (p : option (list nat)) (t : ten A) : option (ten A) :=
  match p with Some o => permute3d zero t o | None => Some t end.
(** [ConcatMatMul::evaluate] (concat_matmul.rs:580-632). *)
Definition concat_eval (p : cperm) (a0 b0 : ten A) : option (ten A) :=
  _ <- shapes_consistent p (sh a0) (sh b0) ;;
  pa <- compute_permutation (cp_left p) expected_left ;; a <- maybe_permute pa a0 ;;
  pb <- compute_permutation (cp_right p) expected_right ;; b <- maybe_permute pb b0 ;;
  match sh a, sh b with
  | [n; a1; a2], [n'; b1; b2] =>
      if Nat.eqb n n' then
        rs <- omapM (fun i =>
                sa <- slice_3d a i (i + 1) ;; ma <- reshape sa [a1; a2] ;;
                sb <- slice_3d b i (i + 1) ;; mb <- reshape sb [b1; b2] ;;
                matmul zero add mul ma mb) (seq 0 n) ;;
        match rs with
        | [] => None
        | r0 :: rest =>
            c0 <- reshape r0 [1; a1; b2] ;;
            c <- ofold (fun acc x => tconcat acc x) rest c0 ;;
            maybe_permute (cp_permute p) c
        end
      else None
  | _, _ => None
  end.
End Concat.
