(** Model of the softmax layer: zkml/src/layers/transformer/softmax.rs, the quantised evaluation, [prove_step] and
    [verify].  Integers are unbounded where the code uses i64 (no overflow is modelled in the evaluation).  The floating
    point parts are arguments: [expf], the rounded exponential of the table, and [lse], the rounded scaled logarithm of the
    sum of a row.  Commitments are opaque (type [C]); the claims added to the commitment prover and verifier are returned. *)
From Coq Require Import List Arith Lia Bool ZArith.
From Verif Require Import ListAux FieldDef M_Mle M_Interp M_Sumcheck M_ScParallel M_SamePoly M_LogUp M_Tensor M_Sop M_LayerNorm M_Transformer.
From Verif Require M_Basefold.
Import ListNotations.

(** softmax.rs:66-97 [Softmax], [QuantisedSoftmaxData] and softmax.rs:1153-1180 [SoftmaxCtx]: the parts used below. *)
Record sm_ctx := mkSm { sm_bkm : Z; sm_scalar : Z; sm_nz : nat; sm_zv : nat }.

(** ** Evaluation *)
(** softmax.rs:507, 1493: the number of bits looked up in the exponential table. *)
Definition sm_tv (c : sm_ctx) : option nat := ceil_log2 (Z.to_nat (Z.shiftr (sm_bkm c) 16)).
(** softmax.rs:267, 1536. *)
Definition sm_neg_inf (c : sm_ctx) : Z := Z.shiftl (- (Z.shiftr (sm_bkm c) 16 + 1)) 16.
(** lookup/context.rs:110-121 [SoftmaxTableData::table_output]. *)
Definition sm_table (expf : Z -> Z) (bkm j : Z) : Z := if (bkm <=? 2 ^ 16 * j)%Z then 0%Z else expf j.
(** [Iterator::max] of a non-empty list. *)
Definition zmax_list (l : list Z) : option Z := match l with [] => None | x :: r => Some (fold_left Z.max r x) end.
(** softmax.rs:284-303: the shift of row [i]; [lse] is given the differences to the maximum. *)
Definition sm_shift (lse : list Z -> Z) (scalar : Z) (second i : nat) (chunk : list Z) : option Z :=
  match second with
  | O => None
  | _ =>
      if (i mod second =? 0)%nat then match chunk with [] => None | x :: _ => Some (- x * scalar)%Z end
      else let t := firstn (i mod second + 1) chunk in
           mx <- zmax_list t ;; Some (- lse (map (fun x => (x - mx)%Z) t) - mx * scalar)%Z
  end.
(** tensor.rs:1526-1550 [Tensor::tri] with offset 0. *)
Definition tri {A} (n m : nat) (lower upper : A) : ten A :=
  mkTen [m; n; n] (flat_map (fun _ => flat_map (fun i => firstn n (repeat lower (S i) ++ repeat upper n)) (seq 0 n)) (seq 0 m)).
(** softmax.rs:1611-1651 [AttentionMask::new]. *)
Definition mask_new (shape : list nat) (ninf : Z) : option (ten Z * ten Z) :=
  match shape with
  | [a; b] => if (a =? b)%nat then Some (tri b 1 1%Z 0%Z, tri b 1 0%Z ninf) else None
  | [m; a; b] => if (a =? b)%nat then Some (tri b m 1%Z 0%Z, tri b m 0%Z ninf) else None
  | _ => None
  end.
(** softmax.rs:1694-1734 [AttentionMask::apply]; the shapes agree by construction. *)
Definition mask_apply (mask : ten Z * ten Z) (data : list Z) : list Z :=
  map (fun '(x, (t, b)) => (x * t + b)%Z) (combine data (combine (dat (fst mask)) (dat (snd mask)))).
(** softmax.rs:519-545: low chunk, high chunk, table input, table output, zero table inputs, zero table outputs, output. *)
Record sm_cell := mkCell { ce_low : Z; ce_high : Z; ce_in : Z; ce_exp : Z; ce_zin : list Z; ce_zout : list Z; ce_out : Z }.
Fixpoint zero_chunks (nz zv : nat) (r : Z) : list Z :=
  match nz with O => [] | S k => Z.land r (2 ^ Z.of_nat zv - 1) :: zero_chunks k zv (Z.shiftr r (Z.of_nat zv)) end.
Definition sm_elem (lut : Z -> Z) (tv nz zv : nat) (e : Z) : sm_cell :=
  let r0 := Z.abs e in
  let r1 := Z.shiftr r0 8 in
  let r2 := Z.shiftr r1 8 in
  let i := Z.land r2 (2 ^ Z.of_nat tv - 1) in
  let zin := zero_chunks nz zv (Z.shiftr r2 (Z.of_nat tv)) in
  let zout := map (fun z => if (z =? 0)%Z then 1%Z else 0%Z) zin in
  mkCell (Z.land r0 255) (Z.land r1 255) i (lut i) zin zout (fold_left Z.mul zout (lut i)).
(** softmax.rs:456-566 [evaluate] with 250-317 [calculate_shift_data]: shifts, shifted input and cells. *)
Definition sm_evaluate (expf : Z -> Z) (lse : list Z -> Z) (c : sm_ctx) (shape : list nat) (data : list Z)
  : option (list Z * list Z * list sm_cell) :=
  mask <- mask_new shape (sm_neg_inf c) ;;
  n <- nth_error shape (length shape - 1) ;; second <- nth_error shape (length shape - 2) ;;
  match n with
  | O => None
  | _ =>
      let rows := chunks n data in
      shifts <- omapM (fun '(i, ch) => sm_shift lse (sm_scalar c) second i ch) (combine (seq 0 (length rows)) rows) ;;
      let shifted := concat (map (fun '(row, s) => map (fun x => (x * sm_scalar c + s)%Z) row) (combine rows shifts)) in
      tv <- sm_tv c ;;
      Some (shifts, shifted, map (sm_elem (sm_table expf (sm_bkm c)) tv (sm_nz c) (sm_zv c)) (mask_apply mask shifted))
  end.

(** softmax.rs:175-213 [quantise]: number and size of the zero chunks, for the smallest input [min] and the exponential
    table's number of bits.  Both come from floating point computations and are arguments. *)
Definition sm_sizes (min : Z) (tv : nat) : option (nat * nat) :=
  bits <- ceil_log2 (Z.to_nat (Z.abs (Z.shiftr min 16))) ;;
  if (tv <? bits)%nat then
    match tv with
    | O => None
    | _ => let rem := (bits - tv)%nat in let k := ((rem - 1) / tv + 1)%nat in Some (k, if (k =? 1)%nat then rem else tv)
    end
  else Some (0%nat, 0%nat).

(** [step_by(2)]. *)
Fixpoint every2 {A} (l : list A) : list A :=
  match l with x :: _ :: r => x :: every2 r | [x] => [x] | [] => [] end.

Section Softmax.
Context {K : field} {C : Type}.
Local Open Scope F_scope.

(** softmax.rs:102-117 [SoftmaxProof]. *)
Record sm_proof := mkSmp {
  smp_logups : list (@logup_proof K); smp_comms : list C; smp_acc : @proof K; smp_mask : @proof K; smp_evals : list K }.
(** [b"batching_challenge"]. *)
Definition lbl_softmax : list Z := [98; 97; 116; 99; 104; 105; 110; 103; 95; 99; 104; 97; 108; 108; 101; 110; 103; 101]%Z.

(** softmax.rs:1342-1357: the lookup proofs zipped with challenges and numbers of instances. *)
Fixpoint sm_logups (T : hist -> K) (l : list (logup_proof * ((K * K) * nat))) (h : hist) : option (list (list claim) * hist) :=
  match l with
  | [] => Some ([], h)
  | (p, ((cst, csc), ni)) :: r =>
      v <- verify_logup T p ni cst csc h ;;
      let '(cl, _, _, h1) := v in
      w <- sm_logups T r h1 ;;
      Some (cl :: fst w, snd w)
  end.
(** softmax.rs:1290-1357: three or four challenges, three or four numbers of instances; further proofs are not looked at. *)
Definition sm_lookups (T : hist -> K) (c : sm_ctx) (ce cr cx cz : K * K) (pf : sm_proof) (h : hist) : option (list (list claim) * hist) :=
  let chals := if (sm_zv c =? 0)%nat then [ce; cr; cx] else [ce; cr; cx; cz] in
  let insts := (if (sm_nz c =? 0)%nat then [1; 2; 1] else [1; 2; 1; sm_nz c])%nat in
  sm_logups T (combine (smp_logups pf) (combine chals insts)) h.
(** softmax.rs:1371-1396: the batched sum of the claims and the next power of the challenge. *)
Definition sm_batch (alpha : K) (vs : list K) (s : K * K) : K * K := fold_left (fun '(acc, bc) v => (acc + bc * v, bc * alpha)) vs s.
(** softmax.rs:1449-1452, 1461-1466: evaluations multiplied by the equality polynomial of their lookup. *)
Definition sm_batch_eq (alpha eqe : K) (vs : list K) (s : K * K) : K * K := fold_left (fun '(acc, bc) v => (acc + eqe * v * bc, bc * alpha)) vs s.
(** softmax.rs:1443-1476: the subclaim of the accumulation sumcheck; [zb] is the equality polynomial of the zero lookup. *)
Definition sm_calc (nz : nat) (alpha eb rb zb xb lb two_mult ei eo lo hi : K) (zs : list K) : K :=
  let '(s0, b0) := sm_batch alpha [ei; eo] (0, 1) in
  let '(s1, b1) := sm_batch_eq alpha rb [lo; hi] (eb * s0, b0) in
  match nz with
  | O => s1 + b1 * xb * two_mult * eo + b1 * alpha * lb * eo
  | _ => let '(s2, b2) := sm_batch_eq alpha zb zs (s1, b1) in
         s2 + b2 * (fprod (every2 (skipn 1 zs)) * eo) * (xb * two_mult + alpha * lb)
  end.
(** softmax.rs:1486-1509: the evaluation of the negated masked input; [c16], [c8]: the constants of 1486-1487. *)
Definition sm_mask_input (c16 c8 : K) (c : sm_ctx) (ei lo hi : K) (zs : list K) : option K :=
  let m0 := ei * c16 + hi * c8 + lo in
  match sm_nz c with
  | O => Some m0
  | _ => tv <- sm_tv c ;; m <- pow2u (16 + tv) ;; s <- pow2u (sm_zv c) ;;
         Some (fst (fold_left (fun '(acc, mul) e => (acc + e * mul, mul * s)) (every2 zs) (m0, m)))
  end.

(** softmax.rs:1274-1585 [verify]; [ce], [cr], [cx], [cz]: constant and column challenges of the tables (1291-1329).  The
    witness claims, the claim about the input, the transcript; [c16], [c8]: the constants of 1486-1487. *)
Definition sm_verify_at (c16 c8 : K) (T : hist -> K) (c : sm_ctx) (ce cr cx cz : K * K) (padded_shape : list nat) (last : claim) (pf : sm_proof) (h : hist)
  : option (list (C * claim) * claim * hist) :=
  lr <- sm_lookups T c ce cr cx cz pf h ;;
  let '(cls, h1) := lr in
  ec <- nth_error cls 0 ;; rc <- nth_error cls 1 ;; xc <- nth_error cls 2 ;;
  let '(alpha, h2) := get_challenge T lbl_softmax h1 in
  let zc := nth 3 cls [] in
  let '(sum, bc) := sm_batch alpha (map cl_eval (ec ++ rc ++ zc ++ xc)) (0, 1) in
  e0 <- nth_error ec 0 ;; r0 <- nth_error rc 0 ;; x0 <- nth_error xc 0 ;;
  half <- finv_opt (1 + 1) ;;
  extra <- csub (length (cl_point e0)) (length (cl_point x0)) ;;
  two_mult <- pow2u extra ;;
  sub1 <- verify T (sum + bc * cl_eval last) (smp_acc pf) (length (cl_point e0)) (if (length cls =? 4)%nat then sm_nz c + 2 else 2)%nat h2 ;;
  let '(ap, e1, h3) := sub1 in
  lb <- M_Basefold.eq_xy_eval (cl_point last) ap ;;
  eb <- M_Basefold.eq_xy_eval (cl_point e0) ap ;;
  rb <- M_Basefold.eq_xy_eval (cl_point r0) ap ;;
  xb <- M_Basefold.eq_xy_eval (repeat half extra ++ cl_point x0) ap ;;
  if (length (smp_evals pf) =? 5 + 2 * sm_nz c)%nat then
    match smp_evals pf with
    | ei :: eo :: lo :: hi :: es :: zs =>
        zb <- (if (sm_nz c =? 0)%nat then Some 0
               else zcl <- nth_error cls 3 ;; z0 <- nth_error zcl 0 ;; M_Basefold.eq_xy_eval (cl_point z0) ap) ;;
        if e1 =? sm_calc (sm_nz c) alpha eb rb zb xb lb two_mult ei eo lo hi zs then
          mi <- sm_mask_input c16 c8 c ei lo hi zs ;;
          sub2 <- verify T (- mi) (smp_mask pf) (length ap) 3 h3 ;;
          let '(mp, e2, h4) := sub2 in
          eqe <- M_Basefold.eq_xy_eval mp ap ;;
          k2 <- csub (length padded_shape) 2 ;; rd <- nth_error padded_shape k2 ;; rows <- ceil_log2 rd ;;
          k1 <- csub (length padded_shape) 1 ;; cd <- nth_error padded_shape k1 ;; columns <- ceil_log2 cd ;;
          let tril := eval_zeroifier_mle (firstn columns mp) (firstn rows (skipn columns mp)) in
          let bias := fZ (sm_neg_inf c) * (1 - tril) in
          inv <- finv_opt (eqe * tril) ;;
          sinv <- finv_opt (fZ (sm_scalar c)) ;;
          cs <- nth_error (smp_comms pf) 4 ;;
          let at_ap := combine (smp_comms pf) (map (mkClaim ap) (smp_evals pf)) in
          Some (firstn 4 at_ap ++ [(cs, mkClaim (skipn extra mp) es)] ++ (if (sm_nz c =? 0)%nat then [] else skipn 5 at_ap),
                mkClaim mp (((e2 - eqe * bias) * inv - es) * sinv), h4)
        else None
    | _ => None
    end
  else None.
Definition sm_verify := sm_verify_at (fZ (2 ^ 16)) (fZ (2 ^ 8)).

(** ** The prover *)
(** multilinear_extensions/src/virtual_poly.rs:187-221 [mul_by_mle]; [pm]: address and table. *)
Definition mul_by_mle (tp : ptr_tbl * vp) (pm : nat * dmle K) (coef : K) : option (ptr_tbl * vp) :=
  let p := snd tp in
  if (num_vars (snd pm) =? vp_nv p)%nat then
    let '(t, ms, ix) := add_one (fst tp, vp_mles p, []) pm in
    Some (t, mkVp (vp_deg p + 1) (vp_nv p) (map (fun '(c, l) => (c * coef, l ++ ix)) (vp_products p)) ms)
  else None.
(** softmax.rs:765-775: the masking sumcheck.  Addresses: shifted input, lower triangle, bias, equality table. *)
Definition mask_prove (T : hist -> K) (ncpus : nat) (scs : nat -> rsched) (nv : nat) (ms : list (dmle K)) (h : hist)
  : option (proof * list K * hist) :=
  let heap a := nth a ms (mkMle Unreachable 0) in
  r <- build heap [(1, [0; 1]%nat); (1, [2]%nat)] ([], vp_new nv) ;;
  r' <- mul_by_mle r (3%nat, heap 3%nat) 1 ;;
  pr <- prove_parallel T ncpus scs (snd r') h ;;
  let '(pf, st, h') := pr in
  evals <- get_mle_final_evaluations st ;;
  Some (pf, evals, h').
(** softmax.rs:670-738: the terms of the accumulation sumcheck, the coefficients being the powers of the challenge.  Every
    [poly.clone().into()] makes a new address.  Addresses in the order of their first use: exponential input, its equality
    table, exponential output, low chunks, their equality table, high chunks; without zero chunks then exponential output,
    equality table of the summed rows, exponential output, equality table of the last claim; with zero chunks their equality
    table, the zero columns, the zero outputs again, exponential output, and the two equality tables. *)
Definition sm_acc_terms (alpha two_mult : K) (nz : nat) : list (K * list nat) :=
  [(1, [0; 1]%nat); (fpow alpha 1, [2; 1]%nat); (fpow alpha 2, [3; 4]%nat); (fpow alpha 3, [5; 4]%nat)] ++
  (match nz with
   | O => [(fpow alpha 4 * two_mult, [6; 7]%nat); (fpow alpha 4 * alpha, [8; 9]%nat)]
   | _ => map (fun j => (fpow alpha (4 + j), [6; 7 + j]%nat)) (seq 0 (2 * nz)) ++
          let b := fpow alpha (4 + 2 * nz) in
          let out := (seq (7 + 2 * nz) nz ++ [7 + 3 * nz])%nat in
          [(b * two_mult, out ++ [8 + 3 * nz]%nat); (b * alpha, out ++ [9 + 3 * nz]%nat)]
   end).

(** softmax.rs:573-888 [prove_step] on the columns of 890-1066 [lookup_witness]: [zcols] are the zero columns, inputs and
    outputs interleaved, [sums] the row sums, [shift] the padded shifts, [shifted] the padded shifted input, [tril] and
    [bias] the padded mask; [comms] the commitments in the order of the proof.  The tables of the masking sumcheck are
    base-field tables in the code and extension tables here. *)
Definition sm_prove (T : hist -> K) (ncpus : nat) (sc : nat -> nat -> nat -> rsched) (es : nat -> nat -> list nat) (sca scm : nat -> rsched) (esh : nat -> list nat)
    (nz : nat) (ce cr cx cz : K * K) (cin cout lo hi : list K) (zcols : list (list K)) (sums shift shifted tril bias : list K) (comms : list C)
    (last : claim) (h : hist) : option (list (C * claim) * claim * sm_proof * hist) :=
  l1 <- batch_prove T ncpus (sc 0%nat) (es 0%nat) (LookupIn [cin; cout] (fst ce) (snd ce) 2) h ;;
  l2 <- batch_prove T ncpus (sc 1%nat) (es 1%nat) (LookupIn [lo; hi] (fst cr) (snd cr) 1) (snd l1) ;;
  l3 <- batch_prove T ncpus (sc 2%nat) (es 2%nat) (LookupIn [sums] (fst cx) (snd cx) 1) (snd l2) ;;
  l4 <- (match nz with
         | O => Some ([], snd l3)
         | _ => l <- batch_prove T ncpus (sc 3%nat) (es 3%nat) (LookupIn zcols (fst cz) (snd cz) 2) (snd l3) ;; Some ([fst l], snd l)
         end) ;;
  e0 <- nth_error (lp_claims (fst l1)) 0 ;; r0 <- nth_error (lp_claims (fst l2)) 0 ;; x0 <- nth_error (lp_claims (fst l3)) 0 ;;
  let nv := length (cl_point e0) in
  extra <- csub nv (length (cl_point x0)) ;;
  half <- finv_opt (1 + 1) ;; two_mult <- pow2u extra ;;
  let '(alpha, h1) := get_challenge T lbl_softmax (snd l4) in
  eqe <- into_mle_ext (compute_betas_eval (cl_point e0)) ;;
  eqr <- into_mle_ext (compute_betas_eval (cl_point r0)) ;;
  eqx <- into_mle_ext (compute_betas_eval (repeat half extra ++ cl_point x0)) ;;
  eql <- into_mle_ext (compute_betas_eval (cl_point last)) ;;
  mi <- from_evaluations_vec nv cin ;; mo <- from_evaluations_vec nv cout ;; ml <- from_evaluations_vec nv lo ;; mh <- from_evaluations_vec nv hi ;;
  mz <- omapM (from_evaluations_vec nv) zcols ;;
  rest <- (match fst l4 with
           | [] => Some [mo; eqx; mo; eql]
           | lp4 :: _ => z0 <- nth_error (lp_claims lp4) 0 ;; eqz <- into_mle_ext (compute_betas_eval (cl_point z0)) ;;
                         Some ([eqz] ++ mz ++ every2 (skipn 1 mz) ++ [mo; eqx; eql])
           end) ;;
  pr1 <- sop_prove T ncpus sca nv ([mi; eqe; mo; ml; eqr; mh] ++ rest) (sm_acc_terms alpha two_mult nz) h1 ;;
  let '(apf, aev, h2) := pr1 in
  v0 <- nth_error aev 0 ;; v2 <- nth_error aev 2 ;; v3 <- nth_error aev 3 ;; v5 <- nth_error aev 5 ;;
  let zev := (match nz with O => [] | _ => firstn (length zcols) (skipn 7 aev) end) in
  let ap := pf_point apf in
  meq <- into_mle_ext (compute_betas_eval ap) ;;
  ms <- into_mle_ext shifted ;; mt <- into_mle_ext tril ;; mb <- into_mle_ext bias ;;
  pr2 <- mask_prove T ncpus scm (num_vars mt) [ms; mt; mb; meq] h2 ;;
  let '(mpf, mev, h3) := pr2 in
  sv <- nth_error mev 0 ;;
  msh <- into_mle_ext shift ;;
  d <- csub (length (pf_point mpf)) (num_vars msh) ;;
  let sp := skipn d (pf_point mpf) in
  se <- evaluate esh msh sp ;;
  let evals := [v0; v2; v3; v5; se] ++ zev in
  let claims := [mkClaim ap v0; mkClaim ap v2; mkClaim ap v3; mkClaim ap v5; mkClaim sp se] ++ map (mkClaim ap) zev in
  Some (combine comms claims, mkClaim (pf_point mpf) (sv - se),
        mkSmp ([fst l1; fst l2; fst l3] ++ fst l4) comms apf mpf evals, h3).
End Softmax.
