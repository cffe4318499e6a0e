(** Model of transformer pieces: the causal masks (zkml/src/layers/transformer/mha.rs), the embeddings layer
    (embeddings.rs) and the argmax layer (logits.rs), with [argmax] helpers of lib.rs and tensor.rs. *)
From Coq Require Import List Arith Lia Bool ZArith.
From Verif Require Import ListAux FieldDef M_Mle M_Interp M_Sumcheck M_ScParallel M_SamePoly M_LogUp M_Tables M_Tensor M_Pad M_Layers M_Sop.
Import ListNotations.

(** *** Masks *)
Section Masks.
Context {A : Type}.
Variables zero one : A.
(** [zeroifier] (mha.rs:850-865); the parallel iterators keep the order. *)
Definition zeroifier (num_heads q_len seq_len : nat) : ten A :=
  mkTen [num_heads; q_len; seq_len]
    (flat_map (fun _ => flat_map (fun q => map (fun e => if Nat.ltb q e then zero else one) (seq 0 seq_len)) (seq 0 q_len)) (seq 0 num_heads)).
(** [infinitizer] (mha.rs:868-888). *)
Definition infinitizer (num_heads q_len seq_len : nat) (minus_infinity : A) : ten A :=
  mkTen [num_heads; q_len; seq_len]
    (flat_map (fun _ => flat_map (fun q => map (fun e => if Nat.ltb q e then minus_infinity else zero) (seq 0 seq_len)) (seq 0 q_len)) (seq 0 num_heads)).
End Masks.

(** *** Maximum of a row *)
Section Max.
Context {A : Type}.
Variable lt : A -> A -> bool.   (* [compare] gives [Less] (tensor.rs:92-94 for integers) *)
Variable amin : A.              (* [N::MIN] *)
(** [max_in_slice] (lib.rs:194-206). *)
Definition max_in_slice (v : list A) : option (A * nat) :=
  match v with
  | [] => None
  | _ => Some (fold_left (fun acc '(i, x) => if lt (fst acc) x then (x, i) else acc) (combine (seq 0 (length v)) v) (amin, 0))
  end.
(** [argmax_slice] (lib.rs:208-210). *)
Definition argmax_slice (v : list A) : option nat := option_map snd (max_in_slice v).
(** [argmax] (lib.rs:159-176). *)
Definition argmax (v : list A) : option nat :=
  match v with
  | [] => None
  | x0 :: r => Some (snd (fold_left (fun acc '(i, x) => if lt (fst acc) x then (x, i) else acc) (combine (seq 1 (length r)) r) (x0, 0)))
  end.
(** [Tensor::argmax] (tensor.rs:861-870). *)
Definition tensor_argmax (t : ten A) : nat :=
  fst (fold_left (fun acc '(i, x) => if lt (snd acc) x then (i, x) else acc) (combine (seq 0 (length (dat t))) (dat t)) (0, amin)).
(** [evaluate_with_argmax_data] (logits.rs:89-125): indices and maxima of every input.  [N::from_usize] is left out. *)
Definition logits_eval (inputs : list (ten A)) : option (list (ten nat * ten A)) :=
  if forallb (fun t => Nat.leb 2 (length (sh t))) inputs then
    omapM (fun t =>
      rows <- slice_last_dim t ;;
      ms <- omapM max_in_slice rows ;;
      Some (mkTen [length ms; 1] (map snd ms), mkTen [length ms; 1] (map fst ms))) inputs
  else None.
End Max.
(** [Logits::output_shapes] (logits.rs:127-132). *)
Definition logits_output_shapes (input_shapes : list (list nat)) : option (list (list nat)) :=
  omapM (fun s => d <- nth_error s 0 ;; Some [d; 1]) input_shapes.

Section Transformer.
Context {K : field}.
Local Open Scope F_scope.
Notation claim := (@claim K).
Notation hist := (@hist K).
Notation proof := (@proof K).

(** [eval_zeroifier_mle] (mha.rs:894-901). *)
Definition eval_zeroifier_mle (column_point row_point : list K) : K :=
  fold_left (fun acc '(c, r) => acc * (1 - c - r + fnat 2 * c * r) + (1 - c) * r) (combine column_point row_point) 1.
(** [eval_infinitizer_mle] (mha.rs:907-914); [minus_inf] is the image of the integer in the field. *)
Definition eval_infinitizer_mle (column_point row_point : list K) (minus_inf : K) : K :=
  minus_inf * (1 - eval_zeroifier_mle column_point row_point).

(** [to_bit_sequence_le] (lib.rs:107-116) and the conversion of the bits to field elements. *)
Definition bits_le (num len : nat) : list K := map (fun i => fnat (if Nat.testbit num i then 1 else 0)) (seq 0 len).

(** *** Embeddings *)
(** Rows of the table selected by the tokens (embeddings.rs:197-238).  [as usize] maps a negative integer above 2^63. *)
Definition emb_eval {A} (emb : ten A) (x : ten Z) : option (ten A) :=
  match sh x, sh emb with
  | [seq_len], vocab :: emb_size :: _ =>
      rows <- omapM (fun v =>
                let idx := if (v <? 0)%Z then (v + 2 ^ 64)%Z else v in
                if (idx <? Z.of_nat vocab)%Z
                then slice (Z.to_nat idx * emb_size) (Z.to_nat idx * emb_size + emb_size) (dat emb) else None) (dat x) ;;
      Some (mkTen [seq_len; emb_size] (concat rows))
  | _, _ => None
  end.

Record emb_proof := mkEp { ep_sumcheck : proof; ep_claims : list K }.

(** [split_output_point] (embeddings.rs:95-106): (row point, column point). *)
Definition emb_split (last : claim) (emb_size : nat) : option (list K * list K) :=
  let nv := Nat.log2 (npow2 emb_size) in
  c <- pt_upto nv (cl_point last) ;; r <- pt_from nv (cl_point last) ;; Some (r, c).
(** [build_points_for_claims] (embeddings.rs:111-128): (one-hot point, table point). *)
Definition emb_points (last : claim) (emb_size : nat) (sp : list K) : option (list K * list K) :=
  s <- emb_split last emb_size ;; let '(r, c) := s in Some (sp ++ r, c ++ sp).

(** [Embeddings::prove] (embeddings.rs:359-461).  [emb] is the padded table, [tokb] the conversion of an input element
    to an index ([as_base], [to_canonical_u64], embeddings.rs:395-398). *)
Definition emb_prove (T : hist -> K) (ncpus : nat) (scs : nat -> rsched) (fs : nat -> list nat) (tokb : K -> option nat)
    (vocab_size0 emb_size0 : nat) (emb : ten K) (input : ten K) (last : claim) (h : hist)
  : option (claim * claim * emb_proof * hist) :=
  sp <- emb_split last emb_size0 ;;
  let '(row_point, column_point) := sp in
  let beta := compute_betas_eval row_point in
  let vocab_size := npow2 vocab_size0 in let emb_size := npow2 emb_size0 in
  reduced <- ofold (fun acc '(i, x) =>
               t <- tokb x ;; v <- nth_error acc t ;; b <- nth_error beta i ;; Some (upd t (v + b) acc))
             (combine (seq 0 (length (dat input))) (dat input)) (repeat 0 vocab_size) ;;
  nr <- nrows_2d emb ;; nc <- ncols_2d emb ;;
  if Nat.eqb vocab_size nr && Nat.eqb emb_size nc then
    im <- to_mle_2d (mkTen [1; vocab_size]%nat reduced) ;;
    e0 <- to_mle_2d emb ;;
    em <- fix_variables_in_place_parallel fs e0 column_point ;;
    if Nat.eqb (num_vars im) (num_vars em) then
      pr <- product_prove T ncpus scs (num_vars im) [im; em] h ;;
      let '(pf, evals, h') := pr in
      e0 <- nth_error evals 0 ;; e1 <- nth_error evals 1 ;;
      pts <- emb_points last emb_size0 (pf_point pf) ;;
      Some (mkClaim (fst pts) e0, mkClaim (snd pts) e1, mkEp pf evals, h')
    else None
  else None.

(** [EmbeddingsCtx::verify] (embeddings.rs:473-534): the claim on the one-hot input and the claim on the table.
    The number of variables comes from [step_info] (embeddings.rs:292-296). *)
Definition emb_verify (T : hist -> K) (vocab_size emb_size : nat) (last : claim) (pf : emb_proof) (h : hist)
  : option (claim * claim * hist) :=
  let nv := Nat.log2 (npow2 vocab_size) in
  sub <- verify T (cl_eval last) (ep_sumcheck pf) nv 2 h ;;
  let '(rs, expected, h') := sub in
  pts <- emb_points last emb_size rs ;;
  e0 <- nth_error (ep_claims pf) 0 ;; e1 <- nth_error (ep_claims pf) 1 ;;
  if e0 * e1 =? expected then Some (mkClaim (fst pts) e0, mkClaim (snd pts) e1, h') else None.

(** The weighted sum of selectors (embeddings.rs:554-566, logits.rs:710-722); [tok] is the first limb of the canonical
    representation of an element. *)
Definition one_hot_sum (tok : K -> nat) (data : list K) (r1 r2 : list K) : K :=
  fold_left (fun acc '(token, beta) => acc + beta * identity_eval r1 (bits_le (tok token) (length r1)))
            (combine data (compute_betas_eval r2)) 0.
(** [verify_input_claim] (embeddings.rs:536-572). *)
Definition emb_verify_input (tok : K -> nat) (vocab_size : nat) (input : ten K) (c : claim) : option unit :=
  d0 <- nth_error (sh input) 0 ;;
  let vocab_nv := Nat.log2 (npow2 vocab_size) in let seq_nv := Nat.log2 (npow2 d0) in
  if Nat.eqb (vocab_nv + seq_nv) (length (cl_point c)) then
    if one_hot_sum tok (dat input) (firstn vocab_nv (cl_point c)) (skipn vocab_nv (cl_point c)) =? cl_eval c then Some tt else None
  else None.

(** *** Argmax *)
(** [split_claim_point] (logits.rs:134-143): (column point, row point). *)
Definition logits_split (pt : list K) (num_row_vars : nat) : option (list K * list K) :=
  s <- csub (length pt) num_row_vars ;; Some (firstn s pt, skipn s pt).
(** [verify_output_evaluation] (logits.rs:693-730). *)
Definition logits_verify_output (tok : K -> nat) (outputs : list (ten K)) (c : claim) : option unit :=
  match outputs with
  | [o] =>
      if shape_is_pow2 (sh o) then
        d0 <- nth_error (sh o) 0 ;; nr <- ilog2 d0 ;;
        s <- logits_split (cl_point c) nr ;;
        if one_hot_sum tok (dat o) (fst s) (snd s) =? cl_eval c then Some tt else None
      else None
  | _ => None
  end.

Record logits_proof := mkLgp {
  lg_logup : @logup_proof K; lg_max_eval : K; lg_sumcheck : proof; lg_max_mat_eval : K; lg_hadamard : proof; lg_input_eval : K }.

(** [squeeze_challenge] (logits.rs:147-156). *)
Definition squeeze_challenge (T : hist -> K) (c : claim) (h : hist) : K * hist :=
  let h1 := EvFelt (cl_eval c) :: absorb h (cl_point c) in (T h1, EvSample :: h1).

(** [LogitsCtx::verify] (logits.rs:580-678): (input claim, claim on the committed maxima).  [cst], [csc]: challenges of
    the range table; [sv], [hv]: variables of the two sumchecks (logits.rs:227-239); [rows]: padded number of rows. *)
Definition logits_verify (T : hist -> K) (tok : K -> nat) (cst csc : K) (sv hv rows : nat) (outputs : list (ten K)) (pf : logits_proof) (h : hist)
  : option (claim * claim * hist) :=
  lr <- verify_logup T (lg_logup pf) 1 cst csc h ;;
  let '(cls, _, _, h1) := lr in
  match cls with
  | [c] =>
      nrv <- ilog2 rows ;;
      s <- logits_split (cl_point c) nrv ;;
      let row_point := snd s in
      let input_claim := mkClaim (cl_point c) (lg_max_eval pf - cl_eval c) in
      sub1 <- verify T (lg_max_eval pf) (lg_sumcheck pf) sv 2 h1 ;;
      let '(rs1, e1, h2) := sub1 in
      if e1 =? lg_max_mat_eval pf then
        let mp := rs1 ++ row_point in
        let '(ch, h3) := squeeze_challenge T input_claim h2 in
        sub2 <- verify T (lg_max_mat_eval pf + ch * cl_eval input_claim) (lg_hadamard pf) hv 3 h3 ;;
        let '(rs2, e2, h4) := sub2 in
        let beta_eval := identity_eval mp rs2 in
        let input_eq_eval := identity_eval (cl_point input_claim) rs2 in
        let d := beta_eval * lg_input_eval pf in
        if d =? 0 then None
        else
          let out_eval := (e2 - ch * lg_input_eval pf * input_eq_eval) * finv d in
          _ <- logits_verify_output tok outputs (mkClaim rs2 out_eval) ;;
          Some (mkClaim rs2 (lg_input_eval pf), mkClaim row_point (lg_max_eval pf), h4)
      else None
  | _ => None
  end.

(** The differences fed to the range lookup by [gen_lookup_witness] (logits.rs:513-528): None when the row has no maximum. *)
Definition logits_diffs {A} (sub : A -> A -> A) (input maxv : ten A) : option (list A) :=
  ld <- nth_error (sh input) (length (sh input) - 1) ;;
  omapM (fun '(i, x) => if Nat.eqb ld 0 then None else m <- nth_error (dat maxv) (i / ld) ;; Some (sub m x))
        (combine (seq 0 (length (dat input))) (dat input)).

(** [Logits::prove] (logits.rs:306-472): (input claim, claim on the committed maxima, proof).  [diffs]: the looked-up column;
    [maxv]: the committed maxima; [toel]: [to_element() as usize]; [scl], [esl], [sc1], [sc2], [es]: thread schedules. *)
Definition logits_prove (T : hist -> K) (ncpus : nat) (scl : nat -> nat -> rsched) (esl : nat -> list nat) (sc1 sc2 : nat -> rsched)
    (es : nat -> list nat) (toel : K -> nat) (cst csc : K) (diffs : list K) (maxv input output : ten K) (h : hist)
  : option (claim * claim * logits_proof * hist) :=
  let outs := map toel (dat output) in
  lr <- batch_prove T ncpus scl esl (LookupIn [diffs] cst csc 1) h ;;
  let '(lp, h1) := lr in
  match lp_claims lp with
  | [c] =>
      mm <- to_mle_2d maxv ;;
      s <- logits_split (cl_point c) (num_vars mm) ;;
      let row := snd s in
      max_eval <- evaluate es mm row ;;
      let input_claim := mkClaim (cl_point c) (max_eval - cl_eval c) in
      ld <- nth_error (sh input) (length (sh input) - 1) ;;
      reduced <- ofold (fun acc '(b, (o, mx)) => v <- nth_error acc o ;; Some (upd o (v + b * mx) acc))
                       (combine (compute_betas_eval row) (combine outs (dat maxv))) (repeat 0 ld) ;;
      rm <- to_mle_2d (mkTen [ld; 1]%nat reduced) ;;
      ov <- to_mle_2d (mkTen [ld; 1]%nat (repeat 1 ld)) ;;
      pr <- product_prove T ncpus sc1 (num_vars rm) [rm; ov] h1 ;;
      let '(pf1, ev1, h2) := pr in
      max_mat_eval <- nth_error ev1 0 ;;
      let cp := pf_point pf1 ++ row in
      bm <- into_mle_ext (compute_betas_eval cp) ;;
      im <- to_mle_2d input ;;
      oh <- ofold (fun acc '(i, o) => let index := (i * ld + o)%nat in
                     if Nat.ltb index (length acc) then Some (upd index 1 acc) else None)
                  (combine (seq 0 (length outs)) outs) (repeat 0 (fold_right Nat.mul 1%nat (sh input))) ;;
      om <- into_mle_base oh ;;
      let '(ch, h3) := squeeze_challenge T input_claim h2 in
      em <- into_mle_ext (compute_betas_eval (cl_point input_claim)) ;;
      pr2 <- sop_prove T ncpus sc2 (num_vars im) [im; om; bm; em; im] [(1, [0; 1; 2]%nat); (ch, [3; 4]%nat)] h3 ;;
      let '(pf2, ev2, h4) := pr2 in
      input_eval <- nth_error ev2 0 ;;
      Some (mkClaim (pf_point pf2) input_eval, mkClaim row max_eval, mkLgp lp max_eval pf1 max_mat_eval pf2 input_eval, h4)
  | _ => None
  end.
End Transformer.
