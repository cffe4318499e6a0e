(** Model of layer normalisation: zkml/src/layers/transformer/layernorm.rs, the quantised evaluation, the columns of the
    lookups, [prove_step] and [verify].  Integers are unbounded where the code uses i64 (no overflow is modelled in the
    evaluation).  Commitments are opaque (type [C]); the claims added to the commitment prover and verifier are returned.
    [B] is [BIT_LEN], a positive constant of the code. *)
From Coq Require Import List Arith Lia Bool ZArith.
From Verif Require Import ListAux FieldDef M_Mle M_Interp M_Sumcheck M_ScParallel M_SamePoly M_LogUp M_Tensor M_Layers M_Sop M_Tables.
From Verif Require M_Basefold.
Import ListNotations.

(** layernorm.rs:289-302 [LayerNormCtx] (the node id and epsilon name the commitments and the table). *)
Record ln_ctx := mkLnCtx { ln_dim : nat; ln_rcb : nat; ln_tsl : nat; ln_mult : Z }.

(** layernorm.rs:160-175 [quantise]: the sizes of the range check, for a dimension and a multiplier.  The multiplier is a
    rounded float and is an argument here. *)
Definition ln_sizes (B dim : nat) (mult : Z) : option ln_ctx :=
  ld <- ceil_log2 dim ;; lm <- ceil_log2 (Z.to_nat mult) ;; b1 <- csub B 1 ;;
  rcb <- csub (2 * (ld + B - 1) + lm + 1) (2 * b1) ;;
  let rem := (rcb mod B)%nat in
  Some (mkLnCtx dim rcb (if (rem =? 0)%nat then 0 else B - rem)%nat mult).

(** ** Evaluation *)
Definition zsum (l : list Z) : Z := fold_left Z.add l 0%Z.
(** layernorm.rs:435-438: the value whose inverse square root is looked up, for one chunk. *)
Definition ln_value (c : ln_ctx) (chunk : list Z) : Z :=
  let s := zsum chunk in (Z.of_nat (ln_dim c) * ln_mult c * zsum (map (fun x => x * x) chunk) - ln_mult c * s * s)%Z.
(** layernorm.rs:428-444: lookup input, lookup output, range-checked part of one chunk. *)
Definition ln_row (lut : Z -> Z) (c : ln_ctx) (chunk : list Z) : Z * Z * Z :=
  let v := ln_value c chunk in
  let i := Z.shiftr v (Z.of_nat (ln_rcb c)) in
  (i, lut i, Z.land v (2 ^ Z.of_nat (ln_rcb c) - 1)).
(** layernorm.rs:450-457: the outputs of one chunk. *)
Definition ln_out (c : ln_ctx) (gamma beta : list Z) (chunk : list Z) (den : Z) : list Z :=
  let s := zsum chunk in
  map (fun '(v, (g, b)) => (g * (Z.of_nat (ln_dim c) * v - s) * den + b)%Z) (combine chunk (combine gamma beta)).
(** layernorm.rs:394-471 [evaluate] for a tensor whose last dimension is [fd] (chunks of size 0 panic): the outputs and
    the proving data. *)
Definition ln_evaluate (lut : Z -> Z) (c : ln_ctx) (gamma beta : list Z) (fd : nat) (data : list Z) : option (list Z * list (Z * Z * Z)) :=
  match fd with
  | O => None
  | _ => let cs := chunks fd data in
         let rows := map (ln_row lut c) cs in
         Some (concat (map (fun '(ch, r) => ln_out c gamma beta ch (snd (fst r))) (combine cs rows)), rows)
  end.

(** layernorm.rs:1132, 1283: the number of range-check columns. *)
Definition ln_nrc (B : nat) (c : ln_ctx) : option nat := k <- csub (ln_rcb c) 1 ;; Some (k / B + 1)%nat.
(** layernorm.rs:1137-1159: the chunks of the range-checked part of one row; the top one is scaled. *)
Definition ln_chunks (B n tsl : nat) (e : Z) : list Z :=
  map (fun j => let t := Z.land (Z.shiftr e (Z.of_nat (j * B))) (2 ^ Z.of_nat B - 1) in
                if (j =? n - 1)%nat then (t * 2 ^ Z.of_nat tsl)%Z else t) (seq 0 n).

Section LayerNorm.
Context {K : field} {C : Type}.
Local Open Scope F_scope.

(** [b"batching"]. *)
Definition lbl_batching : list Z := [98; 97; 116; 99; 104; 105; 110; 103]%Z.
(** layernorm.rs:838-845, 1308-1315. *)
Fixpoint ln_draw (T : hist -> K) (n : nat) (h : hist) : list K * hist :=
  match n with
  | O => ([], h)
  | S n' => let '(c, h1) := get_challenge T lbl_batching h in let '(cs, h2) := ln_draw T n' h1 in (c :: cs, h2)
  end.
(** [E::from_canonical_u64(1 << b)]: the shift panics for 64 and more. *)
Definition pow2u (b : nat) : option K := if (b <? 64)%nat then Some (fZ (2 ^ Z.of_nat b)) else None.

(** layernorm.rs:644-667 [LayerNormProof]. *)
Record ln_proof := mkLnp {
  lnp_logups : list (@logup_proof K); lnp_comms : list C; lnp_acc : @proof K; lnp_io : @proof K; lnp_input : @proof K;
  lnp_acc_evals : list K; lnp_evals : list K; lnp_gamma : K; lnp_beta : K }.

(** layernorm.rs:1318-1322. *)
Definition ln_initial (vals rlc : list K) : K := fold_left (fun acc '(v, w) => acc + v * w) (combine vals rlc) 0.
(** layernorm.rs:1341-1342. *)
Definition ln_calc (acc_evals eqs rlc : list K) : K := fold_left (fun acc '(v, (e, w)) => acc + v * e * w) (combine acc_evals (combine eqs rlc)) 0.
(** layernorm.rs:1366-1378, without the factor of the batching: [nr] is the number of range claims. *)
Definition ln_recombine (B : nat) (c : ln_ctx) (nr : nat) (acc_evals : list K) : option K :=
  pb <- pow2u B ;; a0 <- nth_error acc_evals 0 ;; pr <- pow2u (ln_rcb c) ;; k <- csub nr 1 ;;
  let '(pe, pw) := fold_left (fun '(acc, pow) e => (acc + e * pow, pow * pb)) (firstn k (skipn 2 acc_evals)) (a0 * pr, 1) in
  pt <- pow2u (ln_tsl c) ;; ti <- finv_opt pt ;; l <- csub (length acc_evals) 1 ;; top <- nth_error acc_evals l ;;
  Some (pe + top * ti * pw).
(** layernorm.rs:892-897, 1359-1364: the three batching factors. *)
Definition ln_batch (c1 c2 : K) : K * K * K := ((1 - c1) * (1 - c2), c1 * (1 - c2), (1 - c1) * c2).
(** layernorm.rs:1407-1424: the subclaim of the io sumcheck rebuilt from the evaluations. *)
Definition ln_io_calc (fb sb tb mult dim two_mul in_eq last_eq in_io mean_io inv gamma beta : K) : K :=
  fb * mult * in_eq * (dim * two_mul * in_io * in_io - mean_io * mean_io)
  + sb * last_eq * (inv * gamma * (dim * in_io - mean_io) + beta)
  + tb * in_eq * inv.
(** layernorm.rs:1462-1481: the claims of the commitments. *)
Definition ln_claims (evals : list K) (acc_point out_point : list K) : list claim :=
  map (fun '(i, e) => mkClaim (if (i =? 1)%nat then out_point else acc_point) e) (combine (seq 0 (length evals - 2)) evals).

(** layernorm.rs:1230-1511 [verify]; [c1], [s1], [c2], [s2]: constant and column challenges of the two tables (1248-1262).
    The claims for the witness commitments, the claim about the input, those about gamma and beta, the transcript. *)
Definition ln_verify (T : hist -> K) (B : nat) (c : ln_ctx) (c1 s1 c2 s2 : K) (last : claim) (pf : ln_proof) (h : hist)
  : option (list (C * claim) * claim * (claim * claim) * hist) :=
  nrc <- ln_nrc B c ;;
  match lnp_logups pf with
  | [lp1; lp2] =>
      lr1 <- verify_logup T lp1 1 c1 s1 h ;;
      let '(icl, _, _, h1) := lr1 in
      lr2 <- verify_logup T lp2 nrc c2 s2 h1 ;;
      let '(rcl, _, _, h2) := lr2 in
      nb <- ceil_log2 (length icl + length rcl) ;;
      let '(bch, h3) := ln_draw T nb h2 in
      let rlc := compute_betas_eval bch in
      let init := ln_initial (map cl_eval (icl ++ rcl)) rlc in
      i0 <- nth_error icl 0 ;; r0 <- nth_error rcl 0 ;;
      sub1 <- verify T init (lnp_acc pf) (length (cl_point i0)) 2 h3 ;;
      let '(ap, e1, h4) := sub1 in
      eq_sqrt <- M_Basefold.eq_xy_eval (cl_point i0) ap ;;
      eq_range <- M_Basefold.eq_xy_eval (cl_point r0) ap ;;
      if ln_calc (lnp_acc_evals pf) (repeat eq_sqrt 2 ++ repeat eq_range nrc) rlc =? e1 then
        let '(ch1, h5) := get_challenge T lbl_batching h4 in
        let '(ch2, h6) := get_challenge T lbl_batching h5 in
        let '(fb, sb, tb) := ln_batch ch1 ch2 in
        rec <- ln_recombine B c (length rcl) (lnp_acc_evals pf) ;; a1 <- nth_error (lnp_acc_evals pf) 1 ;;
        sub2 <- verify T (fb * rec + sb * cl_eval last + a1 * tb) (lnp_io pf) (length (cl_point last)) 4 h6 ;;
        let '(iop, e2, h7) := sub2 in
        ne <- csub (length (lnp_evals pf)) 2 ;;
        in_io <- nth_error (lnp_evals pf) ne ;; mean_io <- nth_error (lnp_evals pf) (S ne) ;; inv <- nth_error (lnp_evals pf) 1 ;;
        sdv <- ceil_log2 (ln_dim c) ;; half <- finv_opt (1 + 1) ;; two_mul <- pow2u sdv ;;
        in_eq <- M_Basefold.eq_xy_eval (repeat half sdv ++ ap) iop ;;
        last_eq <- M_Basefold.eq_xy_eval (cl_point last) iop ;;
        if ln_io_calc fb sb tb (fZ (ln_mult c)) (fZ (Z.of_nat (ln_dim c))) two_mul in_eq last_eq in_io mean_io inv (lnp_gamma pf) (lnp_beta pf) =? e2 then
          let '(ic, h8) := get_challenge T lbl_batching h7 in
          sub3 <- verify T (in_io + ic * (mean_io - in_io)) (lnp_input pf) (length iop) 2 h8 ;;
          let '(ip, e3, h9) := sub3 in
          eq_io <- M_Basefold.eq_xy_eval iop ip ;;
          eq_sum <- M_Basefold.eq_xy_eval (repeat half sdv ++ skipn sdv iop) ip ;;
          nit <- finv_opt (eq_io + ic * (two_mul * eq_sum - eq_io)) ;;
          Some (combine (lnp_comms pf) (ln_claims (lnp_evals pf) ap (skipn sdv iop)), mkClaim ip (e3 * nit),
                (mkClaim (firstn sdv iop) (lnp_gamma pf), mkClaim (firstn sdv iop) (lnp_beta pf)), h9)
        else None
      else None
  | _ => None
  end.

(** ** The prover *)
(** layernorm.rs:854-864: the terms of the accumulation sumcheck.  Addresses in the order of their first use: lookup input,
    table of the first lookup's point, lookup output, first range column, table of the range point, other range columns. *)
Definition ln_acc_terms (rlc : list K) (nr : nat) : list (K * list nat) :=
  map (fun '(w, ix) => (w, ix))
    (combine rlc ([[0; 1]; [2; 1]]%nat ++ map (fun j => match j with O => [3; 4]%nat | S i => [5 + i; 4]%nat end) (seq 0 nr))).
(** layernorm.rs:916-994: the terms of the io sumcheck.  Addresses: equality table of the full point, input, mean, equality
    table of the last claim, gamma, lookup output, beta. *)
Definition ln_io_terms (fb sb tb mult dim two_mul : K) : list (K * list nat) :=
  [ (fb * mult * dim * two_mul, [0; 1; 1]%nat); (- fb * mult, [0; 2; 2]%nat); (sb * dim, [3; 4; 1; 5]%nat);
    (- sb, [3; 4; 2; 5]%nat); (sb, [3; 6]%nat); (tb, [0; 5]%nat) ].
(** layernorm.rs:1019-1020.  Addresses: input, equality table of the io point, equality table of the summed point. *)
Definition ln_in_terms (ic two_mul : K) : list (K * list nat) := [ (1 - ic, [0; 1]%nat); (ic * two_mul, [0; 2]%nat) ].
(** layernorm.rs:750-757: each chunk's sum, repeated. *)
Definition ln_mean (d : nat) (xs : list K) : list K := concat (map (fun ch => repeat (fsum ch) d) (chunks d xs)).

(** layernorm.rs:790-1100 [prove_step], with the tables [prove] (729-765) builds; [d]: the last dimension of the input
    tensor [xs]; [lin], [lout], [rcs]: the columns of the lookup witnesses; [comms]: their commitments.  The repeated lookup
    outputs (963-970) are base-field tables in the code and extension tables here. *)
Definition ln_prove (T : hist -> K) (ncpus : nat) (sc1 : nat -> nat -> rsched) (es1 : nat -> list nat) (sc2 : nat -> nat -> rsched) (es2 : nat -> list nat)
    (sca sci scn : nat -> rsched) (c : ln_ctx) (c1 s1 c2 s2 : K) (gamma beta xs : list K) (d : nat) (lin lout : list K) (rcs : list (list K)) (comms : list C)
    (last : claim) (h : hist) : option (list (C * claim) * claim * (claim * claim) * ln_proof * hist) :=
  lr1 <- batch_prove T ncpus sc1 es1 (LookupIn [lin; lout] c1 s1 2) h ;;
  let '(lp1, h1) := lr1 in
  lr2 <- batch_prove T ncpus sc2 es2 (LookupIn rcs c2 s2 1) h1 ;;
  let '(lp2, h2) := lr2 in
  i0 <- nth_error (lp_claims lp1) 0 ;; r0 <- nth_error (lp_claims lp2) 0 ;;
  let nv := length (cl_point i0) in
  nb <- ceil_log2 (length (lp_claims lp1) + length (lp_claims lp2)) ;;
  let '(bch, h3) := ln_draw T nb h2 in
  let rlc := compute_betas_eval bch in
  sqe <- into_mle_ext (compute_betas_eval (cl_point i0)) ;;
  rge <- into_mle_ext (compute_betas_eval (cl_point r0)) ;;
  mi <- from_evaluations_vec nv lin ;; mo <- from_evaluations_vec nv lout ;; mr <- omapM (from_evaluations_vec nv) rcs ;;
  mr0 <- nth_error mr 0 ;;
  pr1 <- sop_prove T ncpus sca nv ([mi; sqe; mo; mr0; rge] ++ skipn 1 mr) (ln_acc_terms rlc (length mr)) h3 ;;
  let '(apf, aev, h4) := pr1 in
  sq_in <- nth_error aev 0 ;; sq_out <- nth_error aev 2 ;; fr <- nth_error aev 3 ;;
  let acc_evals := [sq_in; sq_out; fr] ++ skipn 5 aev in
  sdv <- ceil_log2 (length gamma) ;; half <- finv_opt (1 + 1) ;; two_mul <- pow2u sdv ;;
  let '(ch1, h5) := get_challenge T lbl_batching h4 in
  let '(ch2, h6) := get_challenge T lbl_batching h5 in
  let '(fb, sb, tb) := ln_batch ch1 ch2 in
  let full := repeat half sdv ++ pf_point apf in
  ieq <- into_mle_ext (compute_betas_eval full) ;;
  match d with O => None | _ =>
  mx <- into_mle_ext xs ;; mm <- into_mle_ext (ln_mean d xs) ;;
  reps <- csub (length (cl_point last)) sdv ;;
  mg <- into_mle_ext (concat (repeat gamma (2 ^ reps))) ;; mb <- into_mle_ext (concat (repeat beta (2 ^ reps))) ;;
  leq <- into_mle_ext (compute_betas_eval (cl_point last)) ;;
  iv <- into_mle_ext (concat (map (fun e => repeat e (2 ^ sdv)) lout)) ;;
  pr2 <- sop_prove T ncpus sci (length full) [ieq; mx; mm; leq; mg; iv; mb]
           (ln_io_terms fb sb tb (fZ (ln_mult c)) (fZ (Z.of_nat (ln_dim c))) two_mul) h6 ;;
  let '(iopf, iev, h7) := pr2 in
  in_ev <- nth_error iev 1 ;; mean_ev <- nth_error iev 2 ;; g_ev <- nth_error iev 4 ;; inv_ev <- nth_error iev 5 ;; b_ev <- nth_error iev 6 ;;
  let '(ic, h8) := get_challenge T lbl_batching h7 in
  let iop := pf_point iopf in
  ioq <- into_mle_ext (compute_betas_eval iop) ;; soq <- into_mle_ext (compute_betas_eval (repeat half sdv ++ skipn sdv iop)) ;;
  pr3 <- sop_prove T ncpus scn (length iop) [mx; ioq; soq] (ln_in_terms ic two_mul) h8 ;;
  let '(npf, nev, h9) := pr3 in
  x_ev <- nth_error nev 0 ;;
  let wit := combine (mkClaim (pf_point apf) sq_in :: mkClaim (skipn sdv iop) inv_ev :: map (mkClaim (pf_point apf)) (skipn 2 acc_evals)) comms in
  Some (map (fun p => (snd p, fst p)) wit, mkClaim (pf_point npf) x_ev, (mkClaim (firstn sdv iop) g_ev, mkClaim (firstn sdv iop) b_ev),
        mkLnp [lp1; lp2] (map snd wit) apf iopf npf acc_evals (map (fun p => cl_eval (fst p)) wit ++ [in_ev; mean_ev]) g_ev b_ev, h9)
  end.
End LayerNorm.
