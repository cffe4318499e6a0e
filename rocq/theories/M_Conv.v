(** Model of the convolution protocol: zkml/src/layers/convolution.rs ([step_info], [prove_batch_fft_weights],
    [prove_convolution_step], [verify_fft_delegation], [verify_convolution] and their helpers) and the FFT provers of
    zkml/src/iop/prover.rs ([phi_pow_init], [phi_g_init], [delegate_matrix_evaluation], [prove_batch_fft],
    [prove_batch_ifft]).

    [gen], [emb], [unemb] as in [M_Fft].  The claims handed to [add_common_claims] are returned.  The verifier also returns the
    list of the sumchecks it has run ([sc_call]), which the code does not keep: the theorems need to name them.
    Debug assertions are left out. *)
From Coq Require Import List Arith Lia Bool ZArith.
From Verif Require Import ListAux FieldDef M_Mle M_Interp M_Sumcheck M_ScParallel M_SamePoly M_Tensor M_Pool M_Pad M_Fft M_Layers.
Import ListNotations.

Section Conv.
Context {K : field}.
Local Open Scope F_scope.
Notation claim := (@claim K).
Notation hist := (@hist K).
Notation proof := (@proof K).
Variable gen : K.
Variable emb : Z -> K.

(** convolution.rs:82-89 [to_bits]. *)
Fixpoint to_bits (num bitlen : nat) : list K :=
  match bitlen with O => [] | S b => fnat (Nat.modulo num 2) :: to_bits (num / 2)%nat b end.
(** convolution.rs:1450-1461 [pow_two_omegas]; [pows[0]] is out of range for n = 1. *)
Fixpoint squares (k : nat) (x : K) : list K := match k with O => [] | S k' => x :: squares k' (x * x) end.
Definition pow_two_omegas (n : nat) (is_fft : bool) : option (list K) :=
  k <- csub n 1 ;; rou <- get_root_of_unity gen n ;;
  w <- (if is_fft then finv_opt rou else Some rou) ;;
  if (k =? 0)%nat then None else Some (squares k w).
(** convolution.rs:1463-1482 [phi_eval]. *)
Definition phi_eval (r : list K) (rand1 rand2 : K) (exponents : list K) (first_iter : bool) : option K :=
  d <- csub (length exponents) (length r) ;;
  fs <- omapM (fun i => e <- nth_error exponents (d + i)%nat ;; x <- nth_error r i ;; Some (1 - x + x * e)) (seq 0 (length r)) ;;
  let ev := fold_left fmul fs 1 in
  Some (if first_iter then (1 - rand2) * (1 - rand1 + rand1 * ev) else 1 - rand1 + (1 - fnat 2 * rand2) * rand1 * ev).

(** The auxiliary information of the sumchecks (convolution.rs:62-80): numbers of variables; the degree is 2 for the
    transforms and 3 for the delegations and the product. *)
Record conv_ctx := mkConvCtx { cx_fft : nat; cx_fft_weights : nat; cx_ifft : nat; cx_deleg_fft : list nat; cx_deleg_ifft : list nat;
  cx_hadamard : nat; cx_real_nw : nat; cx_nw : nat; cx_filter_size : nat; cx_unpadded : list nat; cx_padded : list nat }.
(** convolution.rs:474-542 [step_info].  [delegation_fft_weights], never read, is left out. *)
Definition conv_step_info (c : conv) : option conv_ctx :=
  kx <- nth_error (sh (cv_filter c)) 1 ;; nw <- nth_error (sh (cv_filter c)) 2 ;; rn <- nth_error (cv_og c) 2 ;;
  l <- ilog2 (nw * nw) ;; lh <- ilog2 (kx * (nw * nw)) ;;
  let d := rev (map S (seq 0 l)) in
  Some (mkConvCtx (l + 1) (l + 1) (l + 1) d d (lh + 1) rn nw (nw * nw) (cv_unpadded c) (cv_og c)).

(** convolution.rs:94-121 [ConvProof]. *)
Record conv_proof := mkConvPf { cp_fft : proof; cp_fft_w : proof; cp_fft_del : list proof; cp_fft_del_w : list proof;
  cp_ifft : proof; cp_ifft_del : list proof; cp_had : proof; cp_fft_claims : list K; cp_fft_w_claims : list K; cp_ifft_claims : list K;
  cp_fft_del_claims : list (list K); cp_fft_del_w_claims : list (list K); cp_ifft_del_claims : list (list K); cp_partial : list K;
  cp_had_claims : list K; cp_bias : K; cp_clearing : @hadamard_proof K }.
(** The polynomials of the layer (convolution.rs:466-467). *)
Inductive conv_poly := ConvFilter | ConvBias.

(** A sumcheck run by the verifier: the claimed sum, the proof, the sizes, the history before it, and the evaluations the proof
    states for the tables of its final evaluation. *)
Record sc_call := mkCall { ca_claimed : K; ca_pf : proof; ca_nv : nat; ca_deg : nat; ca_hist : hist; ca_evals : list K }.
(** The sumchecks of one run, apart from that of the clearing product. *)
Record conv_calls := mkCalls { ck_ifft : sc_call; ck_ifft_del : list sc_call; ck_had : sc_call; ck_fft : sc_call; ck_fft_del : list sc_call;
  ck_fftw : sc_call; ck_fftw_del : list sc_call }.

Section Verify.
Variable T : hist -> K.
(** [IOPVerifierState::verify] whose sub-claim is dropped (convolution.rs:1103-1108, 1190-1195, 1207-1212, 1244-1249,
    1258-1263, 1281-1286). *)
Definition run_sc (claimed : K) (pf : proof) (nv deg : nat) (h : hist) : option hist :=
  sub <- verify T claimed pf nv deg h ;; Some (snd sub).

(** One round of the delegation (convolution.rs:1102-1133, 1206-1235).  The state: claim, previous point, history, calls. *)
Definition deleg_step (first_fft : bool) (exps : list K) (rand1 : nat -> option K) (aux : list nat) (pfs : list proof) (claims : list (list K))
    (st : K * list K * hist * list sc_call) (i : nat) : option (K * list K * hist * list sc_call) :=
  let '(claim, prev_r, h, calls) := st in
  pf <- nth_error pfs i ;; nv <- nth_error aux i ;;
  h' <- run_sc claim pf nv 3 h ;;
  cl <- nth_error claims i ;; c0 <- nth_error cl 0 ;;
  if identity_eval (pf_point pf) prev_r =? c0 then
    r1 <- rand1 i ;; lp <- csub (length prev_r) 1 ;; r2 <- nth_error prev_r lp ;;
    ph <- phi_eval (pf_point pf) r1 r2 exps (first_fft && (i =? 0)%nat) ;; c1 <- nth_error cl 1 ;;
    if ph =? c1 then
      c2 <- nth_error cl 2 ;; Some (c2, pf_point pf, h', calls ++ [mkCall claim pf nv 3 h cl])
    else None
  else None.
(** convolution.rs:1090-1141 [verify_fft_delegation]. *)
Definition verify_fft_delegation (cx : conv_ctx) (had_point : list K) (claim : K) (pfs : list proof) (claims : list (list K)) (prev_r : list K)
    (h : hist) : option (hist * list sc_call) :=
  let iter := length pfs in
  exps <- pow_two_omegas (iter + 1) false ;;
  st <- ofold (deleg_step true exps (nth_error had_point) (cx_deleg_fft cx) pfs claims) (seq 0 iter) (claim, prev_r, h, []) ;;
  let '(c, p, h', calls) := st in
  hi <- nth_error had_point iter ;; p0 <- nth_error p 0 ;;
  if c =? (1 - fnat 2 * hi) * p0 + 1 - p0 then Some (h', calls) else None.
(** convolution.rs:1202-1242. *)
Definition verify_ifft_delegation (cx : conv_ctx) (last_point : list K) (claim : K) (pfs : list proof) (claims : list (list K)) (prev_r : list K)
    (h : hist) : option (hist * list sc_call) :=
  let iter := length pfs in
  exps <- pow_two_omegas (iter + 1) true ;;
  st <- ofold (deleg_step false exps (fun i => x <- nth_error last_point i ;; Some (1 - x)) (cx_deleg_ifft cx) pfs claims) (seq 0 iter) (claim, prev_r, h, []) ;;
  let '(c, p, h', calls) := st in
  scale <- finv_opt (fnat (2 ^ (iter + 1))) ;; p0 <- nth_error p 0 ;;
  if c =? scale * 1 * p0 + scale * (1 - p0) then Some (h', calls) else None.

(** [vec.pop().unwrap()] and the inverse of one minus the last coordinate (convolution.rs:1299-1301, 1355-1357). *)
Definition pop_inv (p : list K) : option (list K * K) :=
  lp <- csub (length p) 1 ;; x <- nth_error p lp ;; v <- finv_opt (1 - x) ;; Some (firstn lp p, v).
(** convolution.rs:1303-1311. *)
Definition padded_weights_eval (real_nw nw : nat) (partial wp : list K) : option K :=
  l <- ilog2 nw ;;
  ts <- omapM (fun k => let i := (k / real_nw)%nat in let j := Nat.modulo k real_nw in
                 x <- nth_error partial (i * real_nw + j)%nat ;; Some (x * identity_eval (to_bits (i * nw + j)%nat (l * 2)%nat) wp))
        (seq 0 (real_nw * real_nw)) ;;
  Some (fold_left fadd ts 0).

(** convolution.rs:1581-1587 [padded_conv2d_shape]. *)
Definition padded_conv2d_shape (i f : list nat) : option (list nat) := s <- conv2d_shape i f ;; Some (map npow2 s).

(** convolution.rs:1143-1373 [verify_convolution].  [es1], [es2], [es3]: schedules of the three [evaluate] calls.  [unpadded_in] and
    [padded_in] are the shapes of the shape step. *)
Definition verify_convolution (cx : conv_ctx) (es1 es2 es3 : nat -> list nat) (unpadded_in padded_in : list (list nat)) (last0 : claim)
    (pf : conv_proof) (h : hist) : option (claim * list (conv_poly * claim) * hist * conv_calls) :=
  match unpadded_in, padded_in with
  | [ui], [pi] =>
    us <- conv2d_shape ui (cx_unpadded cx) ;; rs <- padded_conv2d_shape pi (cx_padded cx) ;;
    clearing <- new_clearing_tensor us rs ;;
    let nvh := hadamard_ctx (sprod rs) in
    l <- ilog2 (length (dat clearing)) ;;
    cm <- from_evaluations_ext_vec l (map emb (dat clearing)) ;;
    ev2 <- evaluate es1 cm (pf_point (hp_sumcheck (cp_clearing pf))) ;;
    hv <- hadamard_verify T nvh es2 last0 ev2 (cp_clearing pf) h ;;
    let '(last, h1) := hv in
    let conv_claim := cl_eval last - cp_bias pf in
    h2 <- run_sc conv_claim (cp_ifft pf) (cx_ifft cx) 2 h1 ;;
    let k1 := mkCall conv_claim (cp_ifft pf) (cx_ifft cx) 2 h1 (cp_ifft_claims pf) in
    if negb (length (cx_deleg_ifft cx) =? length (cp_ifft_del pf))%nat then None else
    ic1 <- nth_error (cp_ifft_claims pf) 1 ;;
    d1 <- verify_ifft_delegation cx (cl_point last) ic1 (cp_ifft_del pf) (cp_ifft_del_claims pf) (pf_point (cp_ifft pf)) h2 ;;
    let '(h3, ks1) := d1 in
    ic0 <- nth_error (cp_ifft_claims pf) 0 ;;
    h4 <- run_sc ic0 (cp_had pf) (cx_hadamard cx) 3 h3 ;;
    let k2 := mkCall ic0 (cp_had pf) (cx_hadamard cx) 3 h3 (cp_had_claims pf) in
    hc2 <- nth_error (cp_had_claims pf) 2 ;;
    if negb (hc2 =? identity_eval (pf_point (cp_ifft pf)) (pf_point (cp_had pf))) then None else
    hc1 <- nth_error (cp_had_claims pf) 1 ;;
    h5 <- run_sc hc1 (cp_fft pf) (cx_fft cx) 2 h4 ;;
    let k3 := mkCall hc1 (cp_fft pf) (cx_fft cx) 2 h4 (cp_fft_claims pf) in
    fc1 <- nth_error (cp_fft_claims pf) 1 ;;
    if negb (length (cx_deleg_fft cx) =? length (cp_fft_del pf))%nat then None else
    d2 <- verify_fft_delegation cx (pf_point (cp_had pf)) fc1 (cp_fft_del pf) (cp_fft_del_claims pf) (pf_point (cp_fft pf)) h5 ;;
    let '(h6, ks2) := d2 in
    hc0 <- nth_error (cp_had_claims pf) 0 ;;
    h7 <- run_sc hc0 (cp_fft_w pf) (cx_fft_weights cx) 2 h6 ;;
    let k4 := mkCall hc0 (cp_fft_w pf) (cx_fft_weights cx) 2 h6 (cp_fft_w_claims pf) in
    wc1 <- nth_error (cp_fft_w_claims pf) 1 ;;
    d3 <- verify_fft_delegation cx (pf_point (cp_had pf)) wc1 (cp_fft_del_w pf) (cp_fft_del_w_claims pf) (pf_point (cp_fft_w pf)) h7 ;;
    let '(h8, ks3) := d3 in
    wp <- pop_inv (pf_point (cp_fft_w pf)) ;;
    y <- padded_weights_eval (cx_real_nw cx) (cx_nw cx) (cp_partial pf) (fst wp) ;;
    wc0 <- nth_error (cp_fft_w_claims pf) 0 ;;
    if negb (wc0 * snd wp =? y) then None else
    lr <- ilog2 (cx_real_nw cx * cx_real_nw cx) ;;
    let '(weights_rand, h9) := read_challenges T lr h8 in
    lf <- ilog2 (cx_filter_size cx) ;;
    hi <- pt_from lf (cl_point last) ;;
    let point := (pf_point (cp_had pf) ++ hi)%list in
    bp <- pt_from (length (cp_ifft_del pf)) (cl_point last) ;;
    l2 <- ilog2 (2 * cx_nw cx * cx_nw cx) ;; fp <- pt_from l2 point ;;
    pm <- into_mle_ext (cp_partial pf) ;; pe <- evaluate es3 pm weights_rand ;;
    ip <- pop_inv (pf_point (cp_fft pf)) ;;
    l3 <- ilog2 (cx_filter_size cx * 2) ;; hh <- pt_from l3 (pf_point (cp_had pf)) ;;
    fc0 <- nth_error (cp_fft_claims pf) 0 ;;
    Some (mkClaim (map (fun x => 1 - x) (fst ip) ++ hh)%list (fc0 * snd ip),
          [(ConvFilter, mkClaim (weights_rand ++ fp)%list pe); (ConvBias, mkClaim bp (cp_bias pf))], h9,
          mkCalls k1 ks1 k2 k3 ks2 k4 ks3)
  | _, _ => None
  end.
End Verify.

(** *** Prover *)
(** prover.rs:215-227 [phi_pow_init]: the powers of the root. *)
Definition phi_pow_init (n : nat) (is_fft : bool) : option (list K) :=
  rou <- get_root_of_unity gen n ;; phi <- (if is_fft then finv_opt rou else Some rou) ;; Some (pow_table phi 1 (2 ^ n)).
(** The inner loop of round [i], in place (prover.rs:246-254, 263-273). *)
Definition phi_g_round (phi_mul rx : list K) (n i : nat) (g : list K) : option (list K) :=
  m <- csub n i ;; x <- nth_error rx m ;;
  ofold (fun g b => p <- nth_error phi_mul (Nat.shiftl b m) ;; gl <- nth_error g b ;;
           let r := Nat.lxor b (2 ^ (i - 1)) in
           if (r <? length g)%nat then
             let tmp1 := 1 - x in let tmp2 := x * p in
             Some (upd b (gl * (tmp1 + tmp2)) (upd r (gl * (tmp1 - tmp2)) g))
           else None)
        (seq 0 (2 ^ (i - 1))) g.
(** The rounds 1..k, with the prefixes of the intermediate results kept by [mid_phi_g] (prover.rs:245-259, 262-276). *)
Definition phi_g_rounds (phi_mul rx : list K) (n k : nat) (g : list K) : option (list K * list (list K)) :=
  ofold (fun st i => g' <- phi_g_round phi_mul rx n i (fst st) ;;
           Some (g', if (i <? n)%nat then (snd st ++ [firstn (2 ^ i) g'])%list else snd st)) (seq 1 k) (g, []).
(** prover.rs:231-284 [phi_g_init]; [phi_g] is a zero vector of length 2^n, the first two entries are written first. *)
Definition phi_g_init (rx : list K) (scale : K) (n : nat) (is_fft : bool) : option (list K * list (list K)) :=
  phi_mul <- phi_pow_init n is_fft ;;
  if is_fft then
    if (2 ^ n <? 2)%nat then None else phi_g_rounds phi_mul rx n n (upd 1 scale (upd 0 scale (repeat 0 (2 ^ n))))
  else
    k <- csub n 1 ;;
    st <- phi_g_rounds phi_mul rx n k (upd 0 scale (repeat 0 (2 ^ n))) ;;
    x <- nth_error rx 0 ;;
    g <- ofold (fun g b => p <- nth_error phi_mul b ;; gl <- nth_error g b ;; Some (upd b (gl * (1 - x + x * p)) g)) (seq 0 (2 ^ k)) (fst st) ;;
    Some (g, snd st).

(** prover.rs:181-193: the table [phi] of round [l] of the delegation. *)
Definition phi_table (is_fft : bool) (omegas r1 r2 : list K) (nm l len : nat) : option (list K) :=
  omapM (fun i => d <- csub (nm - 1) l ;; x <- nth_error r1 d ;; lp <- csub (length r2) 1 ;; y <- nth_error r2 lp ;;
           w <- nth_error omegas (Nat.shiftl i d) ;;
           Some (if negb is_fft && (l =? nm - 1)%nat then (1 - y) * (1 - x + x * w) else 1 - x + (1 - fnat 2 * y) * x * w))
        (seq 0 len).
(** prover.rs:164-212 [delegate_matrix_evaluation]. *)
Definition delegate_matrix_evaluation (T : hist -> K) (ncpus : nat) (scs : nat -> nat -> rsched) (f_middle : list (list K)) (r1 r2 : list K)
    (is_fft : bool) (h : hist) : option (list proof * list (list K) * hist) :=
  omegas <- phi_pow_init (length r1) is_fft ;;
  k <- csub (length r1) 1 ;;
  st <- ofold (fun st l =>
      let '(pfs, cls, r2, h) := st in
      fm <- nth_error f_middle l ;;
      lp <- csub (length r2) 1 ;;
      let beta := compute_betas_eval (firstn lp r2) in
      phi <- phi_table is_fft omegas r1 r2 (length f_middle) l (length fm) ;;
      f1 <- into_mle_ext beta ;; f2 <- into_mle_ext phi ;; f3 <- into_mle_ext fm ;;
      res <- product_prove T ncpus (scs (num_vars f1)) (num_vars f1) [f1; f2; f3] h ;;
      let '(pf, cl, h') := res in
      Some (pfs ++ [pf], cls ++ [cl], pf_point pf, h')%list)
    (rev (seq 0 k)) ([], [], r2, h) ;;
  let '(pfs, cls, _, h') := st in Some (pfs, cls, h').

Record batch_fft := mkBf { bf_proof : proof; bf_claims : list K; bf_del : list proof; bf_del_claims : list (list K) }.
(** The schedules of the sumchecks of one transform: the main one, and those of the delegation by number of variables. *)
Record fft_sched := mkFs { fs_main : nat -> rsched; fs_del : nat -> nat -> rsched }.
(** The part common to the three transforms: the reduced matrix, the sumcheck over [f_m * f_red] and the delegation
    (prover.rs:305-340, 360-398; convolution.rs:389-455). *)
Definition prove_transform (T : hist -> K) (ncpus : nat) (fs : fft_sched) (r1 : list K) (scale : K) (is_fft : bool) (f_m : dmle K) (h : hist)
  : option (batch_fft * hist) :=
  g <- phi_g_init r1 scale (length r1) is_fft ;;
  f_red <- into_mle_ext (fst g) ;;
  res <- product_prove T ncpus (fs_main fs) (num_vars f_m) [f_m; f_red] h ;;
  let '(pf, cl, h1) := res in
  d <- delegate_matrix_evaluation T ncpus (fs_del fs) (snd g) r1 (pf_point pf) is_fft h1 ;;
  let '(dp, dc, h2) := d in
  Some (mkBf pf cl dp dc, h2).
(** prover.rs:290-341 [prove_batch_fft]. *)
Definition prove_batch_fft (T : hist -> K) (ncpus : nat) (fs : fft_sched) (r : list K) (x : list (list K)) (h : hist) : option (batch_fft * hist) :=
  x0 <- nth_error x 0 ;;
  let rows := (2 * length x0)%nat in
  let x' := map (resize rows 0) x in
  n <- ilog2 rows ;; k <- ilog2 (length x) ;;
  r1 <- slice 0 n r ;; r2 <- slice n (n + k) r ;;
  f <- into_mle_ext (concat x') ;; f_m <- fix_high_variables_in_place f r2 ;;
  prove_transform T ncpus fs r1 1 false f_m h.
(** prover.rs:343-399 [prove_batch_ifft]. *)
Definition prove_batch_ifft (T : hist -> K) (ncpus : nat) (fs : fft_sched) (r : list K) (prod : list (list K)) (h : hist) : option (batch_fft * hist) :=
  p0 <- nth_error prod 0 ;;
  scale <- finv_opt (fnat (length p0)) ;;
  n <- ilog2 (length p0) ;; k <- ilog2 (length prod) ;;
  r1 <- slice 0 n r ;; lp <- csub n 1 ;; z <- nth_error r1 lp ;;
  if negb (z =? 0) then None else
  r2 <- slice n (n + k) r ;;
  f <- into_mle_ext (concat prod) ;; f_m <- fix_high_variables_in_place f r2 ;;
  prove_transform T ncpus fs r1 scale true f_m h.

(** convolution.rs:1535-1550 [index_wf]. *)
Definition index_wf (w : list K) (n_real n output_len : nat) : option (list K) :=
  omapM (fun idx => let i := (idx / n)%nat in let j := Nat.modulo idx n in
           if ((i <? n_real) && (j <? n_real))%nat then nth_error w (i * n_real + j)%nat else Some 0) (seq 0 output_len).
(** The combination of filters with the coefficients [coef], one filter every [step] from the filter [i] on: entry [k] of the result
    is the sum over [j] of coef[j] * filter[j * step + i][k] (convolution.rs:403-411 with [step] 1, 880-892 with [step] = kx). *)
Definition combine_filters (data : list Z) (fsz step i cnt : nat) (coef : list K) : option (list K) :=
  omapM (fun k => ofold (fun acc j => b <- nth_error coef j ;; v <- nth_error data ((j * step + i) * fsz + k)%nat ;; Some (acc + b * emb v))
                    (seq 0 cnt) 0) (seq 0 fsz).
(** convolution.rs:368-456 [prove_batch_fft_weights]: also returns the partial evaluations. *)
Definition prove_batch_fft_weights (T : hist -> K) (ncpus : nat) (fs : fft_sched) (c : conv) (r : list K) (h : hist)
  : option (batch_fft * list K * hist) :=
  kw <- nth_error (sh (cv_filter c)) 0 ;; kx <- nth_error (sh (cv_filter c)) 1 ;; nw <- nth_error (sh (cv_filter c)) 2 ;; rn <- nth_error (cv_og c) 2 ;;
  let rows := (2 * nw * nw)%nat in
  n <- ilog2 rows ;;
  r1 <- slice 0 n r ;;
  let r2 := skipn n r in
  partial <- combine_filters (dat (cv_filter c)) (rn * rn) 1 0 (kw * kx) (compute_betas_eval r2) ;;
  w1 <- index_wf partial rn nw rows ;;
  f_m <- into_mle_ext w1 ;;
  b <- prove_transform T ncpus fs r1 1 false f_m h ;;
  Some (fst b, partial, snd b).

(** tensor.rs:325-337 [ConvData], without [real_input] (debugging); [cd_elems] is [output_as_element] as set by [op]
    (convolution.rs:320-348). *)
Record conv_data := mkCd { cd_input : list (list K); cd_input_fft : list (list K); cd_prod : list (list K); cd_output : list (list K); cd_elems : list Z }.
Variable unemb : K -> Z.
(** The [ConvData] of [fft_conv] and [op] (tensor.rs:458-520, convolution.rs:320-348). *)
Definition conv_op_data (c : conv) (x : ten Z) : option conv_data :=
  let f := cv_filter c in
  kw <- nth_error (sh f) 0 ;; kx <- nth_error (sh f) 1 ;; nw <- nth_error (sh f) 2 ;; real_nw <- nth_error (cv_og c) 2 ;;
  x1 <- nth_error (sh x) 1 ;;
  let n_x := npow2 x1 in
  let cs := chunks (n_x * n_x) (map emb (dat x)) in
  x_vec <- omapM (x_fft gen (2 * n_x * n_x)) cs ;;
  prod <- omapM (fun i => ofold (conv_acc gen emb (dat f) kx real_nw nw i x_vec) (seq 0 kx) (repeat 0 (2 * nw * nw))) (seq 0 kw) ;;
  out <- omapM (fft gen true) prod ;;
  output <- fft_conv gen emb unemb f (cv_og c) x ;;
  biased <- add_bias (cv_bias c) output ;;
  Some (mkCd (map (@rev K) cs) x_vec prod out (dat biased)).

(** Schedules of the whole proof. *)
Record conv_sched := mkCs { cs_clear : nat -> rsched; cs_ifft : fft_sched; cs_had : nat -> rsched; cs_fft : fft_sched; cs_fftw : fft_sched;
  cs_bias : nat -> list nat; cs_part : nat -> list nat }.
(** What the sumchecks of one proof produce: the clearing product, the inverse transform, the product, the transform of the input, that
    of the filter with the partial evaluations, the point [r1], the bias point and evaluation, and the transcript. *)
Record conv_run := mkRun { cr_clear : @hadamard_proof K; cr_ifft : batch_fft; cr_had : proof; cr_had_claims : list K; cr_fft : batch_fft;
  cr_fftw : batch_fft; cr_partial : list K; cr_r1 : list K; cr_bias_point : list K; cr_bias : K; cr_hist : hist }.
(** convolution.rs:697-948: [prove_convolution_step] up to the transform of the filter. *)
Definition conv_sumchecks (T : hist -> K) (ncpus : nat) (ss : conv_sched) (c : conv) (last0 : claim) (out_shape unpadded_out : list nat)
    (d : conv_data) (h : hist) : option conv_run :=
  kw <- nth_error (sh (cv_filter c)) 0 ;; kx <- nth_error (sh (cv_filter c)) 1 ;; nw <- nth_error (sh (cv_filter c)) 2 ;; rn <- nth_error (cv_og c) 2 ;;
  let fsz := (nw * nw)%nat in
  clearing <- new_clearing_tensor unpadded_out out_shape ;;
  after <- tensor_new out_shape (cd_elems d) ;;
  hp <- hadamard_prove T ncpus (cs_clear ss) last0 (mkTen (sh after) (map emb (dat after))) (mkTen (sh clearing) (map emb (dat clearing))) h ;;
  let '(cpf, h1) := hp in
  e1 <- nth_error (hp_claims cpf) 0 ;;
  let lp := pf_point (hp_sumcheck cpf) in
  o0 <- nth_error (cd_output d) 0 ;;
  if negb (fsz * kw * 2 =? length (cd_output d) * length o0)%nat then None else
  lk <- ilog2 (fsz * kw) ;; m <- ilog2 fsz ;; lkw <- ilog2 kw ;; n <- ilog2 (length o0) ;;
  if negb (lk =? length lp)%nat then None else
  lo <- slice 0 m lp ;; bias_point <- slice m (m + lkw) lp ;;
  let r := resize (length lp + 1) 0 (map (fun x => 1 - x) lo ++ 0 :: bias_point) in
  bias_eval <- match bias_point with
               | [] => match dat (cv_bias c) with [b] => Some (emb b) | _ => Some 0 end
               | _ => bm <- into_mle_ext (map emb (dat (cv_bias c))) ;; evaluate (cs_bias ss) bm bias_point
               end ;;
  i1 <- prove_batch_ifft T ncpus (cs_ifft ss) r (cd_prod d) h1 ;;
  let '(ib, h2) := i1 in
  if negb (m + 1 =? length (pf_point (bf_proof ib)))%nat then None else
  let r_ifft := (pf_point (bf_proof ib) ++ skipn n r)%list in
  r1 <- pt_from n r_ifft ;; r2 <- slice 0 n r_ifft ;;
  let beta1 := compute_betas_eval r1 in let beta2 := compute_betas_eval r2 in
  agg <- omapM (fun i => w <- combine_filters (dat (cv_filter c)) (rn * rn) kx i kw beta1 ;; wi <- index_wf w rn nw (2 * nw * nw) ;; fft gen false wi) (seq 0 kx) ;;
  f1 <- into_mle_ext (concat agg) ;; f2 <- into_mle_ext (concat (cd_input_fft d)) ;; f3 <- into_mle_ext (concat (repeat beta2 kx)) ;;
  hd <- product_prove T ncpus (cs_had ss) (num_vars f1) [f1; f2; f3] h2 ;;
  let '(hpf, hcl, h3) := hd in
  ff <- prove_batch_fft T ncpus (cs_fft ss) (pf_point hpf) (cd_input d) h3 ;;
  let '(fb, h4) := ff in
  fw <- prove_batch_fft_weights T ncpus (cs_fftw ss) c (pf_point hpf ++ r1) h4 ;;
  let '(wb, partial, h5) := fw in
  Some (mkRun cpf ib hpf hcl fb wb partial r1 bias_point bias_eval h5).
(** convolution.rs:697-1076 [prove_convolution_step]: the input claim, the claims for the commitments and the proof. *)
Definition prove_convolution_step (T : hist -> K) (ncpus : nat) (ss : conv_sched) (c : conv) (last0 : claim) (out_shape unpadded_out : list nat)
    (d : conv_data) (h : hist) : option (claim * list (conv_poly * claim) * conv_proof * hist) :=
  R <- conv_sumchecks T ncpus ss c last0 out_shape unpadded_out d h ;;
  nw <- nth_error (sh (cv_filter c)) 2 ;; rn <- nth_error (cv_og c) 2 ;;
  let point := (pf_point (cr_had R) ++ cr_r1 R)%list in
  lr <- ilog2 (rn * rn) ;;
  let '(weights_rand, h6) := read_challenges T lr (cr_hist R) in
  l2 <- ilog2 (2 * nw * nw) ;; fp <- pt_from l2 point ;;
  pm <- into_mle_ext (cr_partial R) ;; pe <- evaluate (cs_part ss) pm weights_rand ;;
  ip <- pop_inv (pf_point (bf_proof (cr_fft R))) ;;
  l3 <- ilog2 (nw * nw * 2) ;; hh <- pt_from l3 (pf_point (cr_had R)) ;;
  fc0 <- nth_error (bf_claims (cr_fft R)) 0 ;;
  let fb := cr_fft R in let wb := cr_fftw R in let ib := cr_ifft R in
  Some (mkClaim (map (fun x => 1 - x) (fst ip) ++ hh)%list (fc0 * snd ip),
        [(ConvFilter, mkClaim (weights_rand ++ fp)%list pe); (ConvBias, mkClaim (cr_bias_point R) (cr_bias R))],
        mkConvPf (bf_proof fb) (bf_proof wb) (bf_del fb) (bf_del wb) (bf_proof ib) (bf_del ib) (cr_had R) (bf_claims fb) (bf_claims wb) (bf_claims ib)
          (bf_del_claims fb) (bf_del_claims wb) (bf_del_claims ib) (cr_partial R) (cr_had_claims R) (cr_bias R) (cr_clear R), h6).
End Conv.
