(** Model of the QKV layer's proof (zkml/src/layers/transformer/qkv.rs): three matrix products of one input with biases,
    batched in one sumcheck; the three claims on the input are then aggregated ([M_SamePoly]). *)
From Coq Require Import List Arith Lia Bool ZArith.
From Verif Require Import ListAux FieldDef M_Mle M_Interp M_Sumcheck M_ScParallel M_SamePoly M_Tensor M_Layers M_Sop.
Import ListNotations.

Section Qkv.
Context {K : field}.
Local Open Scope F_scope.
Notation claim := (@claim K).
Notation hist := (@hist K).
Notation proof := (@proof K).

(** [QKV] (qkv.rs:42-53): the padded weights and biases as field elements. *)
Record qkv := mkQkv { qk_wq : ten K; qk_wk : ten K; qk_wv : ten K; qk_bq : ten K; qk_bk : ten K; qk_bv : ten K }.
Definition qk_weights (l : qkv) : list (ten K) := [qk_wq l; qk_wk l; qk_wv l].
Definition qk_biases (l : qkv) : list (ten K) := [qk_bq l; qk_bk l; qk_bv l].

(** [QKVProof] (qkv.rs:65-82); the array of three pairs as three fields. *)
Record qkv_proof := mkQp { qp_sumcheck : proof; qp_agg : @sp_proof K; qp_pre : list K; qp_q : K * K; qp_k : K * K; qp_v : K * K }.
Definition qp_ind (pf : qkv_proof) : list (K * K) := [qp_q pf; qp_k pf; qp_v pf].

(** [individual_to_virtual_claim] (qkv.rs:86-93). *)
Definition qkv_virtual (ind : list (K * K)) (chs : list K) : K :=
  fold_left (fun acc '(e, c) => acc + fst e * snd e * c) (combine ind chs) 0.

(** [split_claim_point] (qkv.rs:173-184): (point of the rows, point of the columns). *)
Definition qkv_split (pt : list K) (ov : nat * nat) : option (list K * list K) :=
  if Nat.eqb (length pt) (fst ov + snd ov) then Some (skipn (snd ov) pt, firstn (snd ov) pt) else None.
(** [build_points] (qkv.rs:192-204): (point of the input, point of the weights). *)
Definition qkv_points (pt sp : list K) (ov : nat * nat) : option (list K * list K) :=
  s <- qkv_split pt ov ;; let '(r, c) := s in Some (sp ++ r, c ++ sp).

(** [challenges_for_batched_sumcheck] (qkv.rs:210-230). *)
Definition qkv_absorb (lasts : list claim) (pre : list K) (h : hist) : hist :=
  fold_left (fun h '(c, e) => EvFelt e :: absorb h (cl_point c)) (combine lasts pre) h.
Definition qkv_challenges (T : hist -> K) (lasts : list claim) (pre : list K) (h : hist) : list K * hist :=
  let '(cs, h') := read_challenges T 2 (qkv_absorb lasts pre h) in (1 :: cs, h').

(** [num_vars_2d] (tensor.rs:726-732). *)
Definition num_vars_2d (t : ten K) : option (nat * nat) :=
  if is_matrix t then r <- nrows_2d t ;; c <- ncols_2d t ;; a <- ilog2 r ;; b <- ilog2 c ;; Some (a, b) else None.

(** The pairs of claims on the input and on the weights (qkv.rs:574-586, 750-767). *)
Definition qkv_claims (lasts : list claim) (ind : list (K * K)) (sp : list K) (ov : nat * nat) : option (list (claim * claim)) :=
  omapM (fun '(c, e) => p <- qkv_points (cl_point c) sp ov ;; Some (mkClaim (fst p) (fst e), mkClaim (snd p) (snd e))) (combine lasts ind).

(** [QKV::prove] (qkv.rs:462-632): the claim on the input, the claims on the three weights and the three biases, the
    proof.  [scs]: schedules of the batched sumcheck; [sps]: of the aggregation; [es]: of the evaluation of the biases. *)
Definition qkv_prove (T : hist -> K) (ncpus : nat) (scs sps : nat -> rsched) (es : nat -> list nat)
    (l : qkv) (input : ten K) (outputs : list (ten K)) (lasts : list claim) (h : hist)
  : option (claim * list claim * list claim * qkv_proof * hist) :=
  if Nat.eqb (length lasts) 3 && is_matrix input then
    nc <- ncols_2d input ;; nr <- nrows_2d (qk_wq l) ;;
    if Nat.eqb nc nr then
      ir <- nrows_2d input ;; wc <- ncols_2d (qk_wq l) ;;
      if Nat.eqb (length outputs) 3 && forallb (fun o => if list_eq_dec Nat.eq_dec (sh o) [ir; wc] then true else false) outputs then
        o0 <- nth_error outputs 0 ;;
        ov <- num_vars_2d o0 ;;
        if forallb (fun c => Nat.eqb (length (cl_point c)) (fst ov + snd ov)) lasts then
          bs <- omapM (fun '(c, b) =>
                  s <- qkv_split (cl_point c) ov ;;
                  bv <- ilog2 (length (dat b)) ;;
                  if Nat.eqb (length (snd s)) bv then
                    m <- into_mle_ext (dat b) ;; e <- evaluate es m (snd s) ;; Some (mkClaim (snd s) e, cl_eval c - e)
                  else None) (combine lasts (qk_biases l)) ;;
          let pre := map snd bs in
          let '(chs, h1) := qkv_challenges T lasts pre h in
          im <- to_mle_2d input ;;
          iv <- num_vars_2d input ;;
          tabs <- omapM (fun '(c, w) =>
                    wm <- to_mle_2d w ;;
                    s <- qkv_split (cl_point c) ov ;;
                    fi <- fix_high_variables im (fst s) ;;
                    fw <- fix_variables_in_place wm (snd s) ;; Some [fi; fw]) (combine lasts (qk_weights l)) ;;
          pr <- sop_prove T ncpus scs (snd iv) (concat tabs) (combine chs [[0; 1]; [2; 3]; [4; 5]]%nat) h1 ;;
          let '(pf, evals, h2) := pr in
          match evals with
          | [a0; a1; b0; b1; c0; c1] =>
              let ind := [(a0, a1); (b0, b1); (c0, c1)] in
              cls <- qkv_claims lasts ind (pf_point pf) ov ;;
              ag <- sp_prove T ncpus sps im (map fst cls) h2 ;;
              let '(spf, h3) := ag in
              e1 <- nth_error (sp_evals spf) 1 ;;
              Some (mkClaim (pf_point (sp_sumcheck spf)) e1, map snd cls, map fst bs,
                    mkQp pf spf pre (a0, a1) (b0, b1) (c0, c1), h3)
          | _ => None
          end
        else None
      else None
    else None
  else None.

(** [QKVCtx::verify] (qkv.rs:683-817): the claim on the input, the claims on the weights and on the biases.  [nv]: number
    of variables of the sumcheck (qkv.rs:428-432).  [add_common_claims] (commit/context.rs:487-509) fails when a committed
    polynomial has no claim, so when the proof has fewer than three values before the bias. *)
Definition qkv_verify (T : hist -> K) (nv : nat) (in_shapes out_shapes : list (list nat)) (lasts : list claim) (pf : qkv_proof) (h : hist)
  : option (claim * list claim * list claim * hist) :=
  match in_shapes with
  | [ish] =>
      if Nat.eqb (length out_shapes) 3 && Nat.eqb (length lasts) 3 then
        osh <- nth_error out_shapes 0 ;;
        d0 <- nth_error osh 0 ;; d1 <- nth_error osh 1 ;;
        v0 <- ilog2 d0 ;; v1 <- ilog2 d1 ;;
        let ov := (v0, v1) in
        bias <- omapM (fun '(c, e) => s <- qkv_split (cl_point c) ov ;; Some (mkClaim (snd s) (cl_eval c - e))) (combine lasts (qp_pre pf)) ;;
        let '(chs, h1) := qkv_challenges T lasts (qp_pre pf) h in
        let ev := fold_left (fun acc '(e, c) => acc + e * c) (combine (qp_pre pf) chs) 0 in
        sub <- verify T ev (qp_sumcheck pf) nv 2 h1 ;;
        let '(rs, expected, h2) := sub in
        cls <- qkv_claims lasts (qp_ind pf) rs ov ;;
        if Nat.leb 3 (length bias) then
          if qkv_virtual (qp_ind pf) chs =? expected then
            sv <- ilog2 (fold_right Nat.mul 1%nat ish) ;;
            r <- sp_verify T sv (map fst cls) (qp_agg pf) h2 ;;
            let '(c, h3) := r in Some (c, map snd cls, bias, h3)
          else None
        else None
      else None
  | _ => None
  end.
End Qkv.
