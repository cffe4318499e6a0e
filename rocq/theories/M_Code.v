(** Model of the foldable codes of mpcs: mpcs/src/basefold/encoding.rs, encoding/rs.rs and encoding/basecode.rs, with the
    helpers of mpcs/src/util/arithmetic.rs, util/arithmetic/hypercube.rs and util/plonky2_util/mod.rs.

    One field [K] plays both the base field and the extension (the embedding is a homomorphism and is left implicit).
    [usize] is [nat]; a panic, a failed assertion or an index out of range is [None].
    Loops over disjoint chunks ([par_chunks_mut], or the nested loops of [fft_classic_inner]) are maps over chunks; inside a
    chunk each iteration reads and writes only its own two cells, so an iteration is given by its effect on these cells. *)
From Coq Require Import List Arith Lia Bool.
From Verif Require Import ListAux FieldDef M_Mle M_Tensor M_Fft M_Merkle.
Import ListNotations.

(** plonky2_util/mod.rs:72-80 [reverse_bits]: the low [num_bits] bits of [n] in the opposite order.  (For [num_bits] = 0 and
    [n] <> 0 the code returns the 64-bit reversal; no caller does that.) *)
Fixpoint reverse_bits (num_bits n : nat) : nat :=
  match num_bits with O => 0 | S b => (n mod 2) * 2 ^ b + reverse_bits b (n / 2) end.
(** plonky2_util/mod.rs:203-252 [reverse_index_bits_in_place], by its documented effect (65-70; the code itself is in
    M_BitRev.v, and [C74_model] proves that it is this function): cell [i] receives the element whose index is the reversal of [i]; [log2_strict] (27-34) panics unless the length is a power of two. *)
Definition reverse_index_bits {A} (l : list A) : option (list A) :=
  k <- log2_strict (length l) ;; omapM (fun i => nth_error l (reverse_bits k i)) (seq 0 (length l)).
(** [par_chunks_exact(2)]: an odd last element is dropped. *)
Fixpoint pairs2 {A} (l : list A) : list (A * A) :=
  match l with a :: b :: r => (a, b) :: pairs2 r | _ => [] end.

Section Code.
Context {K : field}.
Local Open Scope F_scope.

(** util/arithmetic.rs:26-28 [horner]. *)
Definition horner (coeffs : list K) (x : K) : K := fold_left (fun acc c => acc * x + c) (rev coeffs) 0.
(** util/arithmetic.rs:120-132 [interpolate2_weights]. *)
Definition interpolate2_weights (a0 a1 b0 b1 weight x : K) : K := a1 + (x - a0) * (b1 - a1) * weight.

(** util/arithmetic/hypercube.rs:21-23 and 29-34: in a chunk, cell [j] of the upper half loses cell [j - half]. *)
Definition hc_chunk (half : nat) (chunk : list K) : option (list K) :=
  if (length chunk =? 2 * half)%nat
  then Some (map (fun j => nth j chunk 0) (seq 0 half) ++ map (fun j => nth (j + half) chunk 0 - nth j chunk 0) (seq 0 half))
  else None.
Definition hc_pass (v : list K) (i : nat) : option (list K) :=
  cs <- omapM (hc_chunk (2 ^ (i - 1))) (chunks (2 ^ i) v) ;; Some (concat cs).
(** util/arithmetic/hypercube.rs:16-37 [interpolate_over_boolean_hypercube]: the passes 1 and 2..=n; for a vector of length
    one the first pass reads [chunk[1]] out of range. *)
Definition interpolate_hc (evals : list K) : option (list K) :=
  n <- log2_strict (length evals) ;; v <- hc_pass evals 1 ;; ofold hc_pass (seq 2 (n - 1)) v.

(** The scheme's code, with its parameters (encoding.rs:25-85).  [message_is_even_and_odd_folding] is [sc_even_odd]. *)
Record scheme := mkScheme {
  sc_rate : nat;                                   (* get_rate_log *)
  sc_msg : nat;                                    (* get_basecode_msg_size_log *)
  sc_nq : nat;                                     (* get_number_queries *)
  sc_max : nat;                                    (* get_max_message_size_log *)
  sc_even_odd : bool;
  sc_encode : list K -> option (list K);           (* encode (prover parameters) *)
  sc_encode_small : list K -> option (list K);     (* encode_small (verifier parameters) *)
  sc_pcoef : nat -> nat -> option (K * K * K);     (* prover_folding_coeffs *)
  sc_vcoef : nat -> nat -> option (K * K * K) }.   (* verifier_folding_coeffs *)

(** One entry of the folded codeword (encoding.rs:101-104; commit_phase.rs:520-524). *)
Definition fold_pair (coef : nat -> nat -> option (K * K * K)) (level : nat) (challenge : K) (p : nat * (K * K)) : option K :=
  c <- coef level (fst p) ;;
  let '(x0, x1, w) := c in Some (interpolate2_weights x0 (fst (snd p)) x1 (snd (snd p)) w challenge).
(** mpcs/src/basefold/commit_phase.rs:511-526 [basefold_one_round_by_interpolation_weights]. *)
Definition one_round (coef : nat -> nat -> option (K * K * K)) (level : nat) (values : list K) (challenge : K) : option (list K) :=
  omapM (fold_pair coef level challenge) (combine (seq 0 (length (pairs2 values))) (pairs2 values)).
(** encoding.rs:91-116 [fold_bitreversed_codeword]; [log2_strict(len) - 1] underflows for length one. *)
Definition fold_bitreversed_codeword (sc : scheme) (codeword : list K) (challenge : K) : option (list K) :=
  n <- log2_strict (length codeword) ;; level <- csub n 1 ;; one_round (sc_pcoef sc) level codeword challenge.
(** encoding.rs:123-135 [fold_message]. *)
Definition fold_message (msg : list K) (challenge : K) : list K := map (fun p => fst p + snd p * challenge) (pairs2 msg).

(** ** Butterflies, shared by the two codes *)
(** encoding/rs.rs:111-117 with [t = values[k + half_m + j] * omega_table[j]], and encoding/basecode.rs:293-301 with
    [rhs = chunk[j] * level[j - half_chunk]]: the new halves are [a + t * b] and [a - t * b]. *)
Definition bfly (row : list K) (half : nat) (chunk : list K) : option (list K) :=
  if ((length chunk =? 2 * half) && (half <=? length row))%nat
  then Some (map (fun j => nth j chunk 0 + nth (j + half) chunk 0 * nth j row 0) (seq 0 half) ++
             map (fun j => nth j chunk 0 - nth (j + half) chunk 0 * nth j row 0) (seq 0 half))
  else None.
Definition bfly_pass (row : list K) (half : nat) (v : list K) : option (list K) :=
  cs <- omapM (bfly row half) (chunks (2 * half) v) ;; Some (concat cs).

(** ** Reed-Solomon code (encoding/rs.rs) *)
Variable generator32 : K.   (* two_adic_generator(32) *)
Variable GENERATOR : K.     (* the multiplicative generator *)
(** p3-field [exp_power_of_2]. *)
Definition exp_power_of_2 (x : K) (n : nat) : K := Nat.iter n (fun y => y * y) x.
(** p3-goldilocks [two_adic_generator]: asserts [bits <= 32]. *)
Definition two_adic_generator (bits : nat) : option K := s <- csub 32 bits ;; Some (exp_power_of_2 generator32 s).

(** rs.rs:34-40: [bases[i] = g^(2^i)]. *)
Fixpoint squares (x : K) (n : nat) : list K := match n with O => [] | S n' => x :: squares (x * x) n' end.
(** rs.rs:31-63 [fft_root_table]: row [lg_m - 1] holds the first [max(half_m, 2)] powers of [bases[lg_n - lg_m]]. *)
Definition fft_root_table (lg_n : nat) : option (list (list K)) :=
  g <- two_adic_generator lg_n ;;
  let bases := squares g (Nat.max 1 lg_n) in
  omapM (fun lg_m => base <- nth_error bases (lg_n - lg_m) ;; Some (pow_table base 1 (Nat.max (2 ^ (lg_m - 1)) 2))) (seq 1 lg_n).

(** rs.rs:92-121 [fft_classic_inner]: rows [r..lg_n]. *)
Definition fft_classic_inner (r lg_n : nat) (table : list (list K)) (v : list K) : option (list K) :=
  ofold (fun v lg_half => row <- nth_error table lg_half ;; bfly_pass row (2 ^ lg_half) v) (seq r (lg_n - r)) v.
(** rs.rs:129-173 [fft]; [i & !((1 << r) - 1)] is [2^r * (i / 2^r)]. *)
Definition rs_fft (r : nat) (table : list (list K)) (values : list K) : option (list K) :=
  v <- reverse_index_bits values ;;
  lg_n <- log2_strict (length v) ;;
  if negb (length table =? lg_n)%nat then None else
  v1 <- (if (0 <? r)%nat
         then ofold (fun v i => x <- nth_error v (2 ^ r * (i / 2 ^ r))%nat ;; Some (upd i x v)) (seq 0 (length v)) v
         else Some v) ;;
  fft_classic_inner r lg_n table v1.
(** rs.rs:175-189 [coset_fft]. *)
Definition coset_fft (shift : K) (zero_factor : nat) (table : list (list K)) (coeffs : list K) : option (list K) :=
  rs_fft zero_factor table (map (fun p => fst p * snd p) (combine coeffs (pow_table shift 1 (length coeffs)))).

(** rs.rs:217-246: the parameters; the prover's and the verifier's differ in the root table. *)
Record rs_params := mkRs {
  rs_table : list (list K); rs_gamma : list K; rs_gamma_inv2 : list K; rs_full : nat }.

Section Rs.
Variables rate msg nq : nat.
(** rs.rs:458-501 [encode_internal]. *)
Definition rs_encode_internal (table : list (list K)) (full : nat) (coeffs : list K) : option (list K) :=
  lg_m <- log2_strict (length coeffs) ;;
  table' <- slice 0 (lg_m + rate) table ;;
  if negb (lg_m <=? full)%nat then None else
  coset_fft (exp_power_of_2 GENERATOR (full - lg_m)) rate table' (coeffs ++ repeat 0 (length coeffs * (2 ^ rate - 1))).
(** rs.rs:350-354 [encode], 356-359 [encode_small]. *)
Definition rs_encode (pp : rs_params) (coeffs : list K) : option (list K) :=
  k <- log2_strict (length coeffs) ;;
  if (msg <=? k)%nat then rs_encode_internal (rs_table pp) (rs_full pp) coeffs else None.
Definition rs_encode_small (vp : rs_params) (coeffs : list K) : option (list K) :=
  rs_encode_internal (rs_table vp) (rs_full vp) coeffs.
(** rs.rs:283-348 [trim]: [None] also stands for the returned error. *)
Definition rs_trim (table : list (list K)) (max : nat) : option (rs_params * rs_params) :=
  if (length table <? max + rate)%nat then None else
  if (max <? msg)%nat then Some (mkRs [] [] [] max, mkRs [] [] [] max) else
  ginv <- finv_opt GENERATOR ;;
  half <- finv_opt (1 + 1) ;;
  let n := Nat.max 1 (max + rate) in
  let gamma := squares GENERATOR n in
  let gamma_inv2 := map (fun x => x * half) (squares ginv n) in
  let t := firstn (max + rate) table in
  if (length t <? msg + rate)%nat then None else
  tail <- omapM (fun v => x <- nth_error v 1 ;; Some [x]) (skipn (msg + rate) t) ;;
  Some (mkRs t gamma gamma_inv2 max, mkRs (firstn (msg + rate) t ++ tail) gamma gamma_inv2 max).
(** rs.rs:275-281 [setup] followed by [trim]. *)
Definition rs_setup_trim (setup_max max : nat) : option (rs_params * rs_params) :=
  t <- fft_root_table (setup_max + rate) ;; rs_trim t max.

(** rs.rs:390-394 = 423-427: the root with index [index] from the stored half of the roots. *)
Definition root_at (row : list K) (level index : nat) : option K :=
  if (index <? 2 ^ level)%nat then nth_error row index
  else i <- csub index (2 ^ level) ;; x <- nth_error row i ;; Some (- x).
(** rs.rs:400-408 = 439-447: its inverse. *)
Definition root_inv_at (row : list K) (level index : nat) : option K :=
  if (index =? 0)%nat then Some 1
  else if (index <? 2 ^ level)%nat then x <- nth_error row (2 ^ level - index)%nat ;; Some (- x)
  else if (index =? 2 ^ level)%nat then Some (- (1))
  else i <- csub (2 ^ (level + 1)) index ;; nth_error row i.
(** rs.rs:377-410 [prover_folding_coeffs]. *)
Definition rs_pcoef (pp : rs_params) (level index0 : nat) : option (K * K * K) :=
  let index := reverse_bits level index0 in
  row <- nth_error (rs_table pp) level ;;
  d <- csub (rs_full pp + rate) level ;; g <- csub d 1 ;;
  r <- root_at row level index ;; gp <- nth_error (rs_gamma pp) g ;;
  gi <- nth_error (rs_gamma_inv2 pp) g ;; ri <- root_inv_at row level index ;;
  let x0 := r * gp in Some (x0, - x0, - gi * ri).
(** rs.rs:412-454 [verifier_folding_coeffs]. *)
Definition rs_vcoef (vp : rs_params) (level index0 : nat) : option (K * K * K) :=
  let index := reverse_bits level index0 in
  row <- nth_error (rs_table vp) level ;;
  d <- csub (rs_full vp + rate) level ;; g <- csub d 1 ;;
  r <- (if (level <? msg + rate)%nat then root_at row level index
        else x <- nth_error row 0 ;; Some (fpow x index)) ;;
  gp <- nth_error (rs_gamma vp) g ;; gi <- nth_error (rs_gamma_inv2 vp) g ;;
  ri <- (if (level <? msg + rate)%nat then root_inv_at row level index
         else x <- nth_error row 0 ;; e <- csub (2 ^ (level + 1)) index ;; Some (fpow x e)) ;;
  let x0 := r * gp in Some (x0, - x0, - gi * ri).
Definition rs_scheme (pp vp : rs_params) : scheme :=
  mkScheme rate msg nq (rs_full pp) true (rs_encode pp) (rs_encode_small vp) (rs_pcoef pp) (rs_vcoef vp).
End Rs.

(** ** Random foldable code (encoding/basecode.rs) *)
(** [flat i] is the field element read from the AES key stream at position [i] (basecode.rs:331-341, 394-405). *)
Variable flat : nat -> K.
Section Basecode.
Variables rate msg nq : nat.
(** basecode.rs:242-261 [get_basecode]: evaluation of each chunk at 1, 2, 3, ... *)
Definition get_basecode (poly : list K) (r message_size : nat) : list (list K) :=
  map (fun chunk => map (fun i => horner chunk (fnat (i + 1))) (seq 0 (message_size * r)))
      (firstn (length poly / message_size) (chunks message_size poly)).
(** basecode.rs:264-307 [evaluate_over_foldable_domain_generic_basecode]. *)
Definition evaluate_foldable (base_len num_coeffs log_rate : nat) (base_codewords : list (list K)) (table : list (list K)) : option (list K) :=
  logk <- log2_strict num_coeffs ;; base_log_k <- log2_strict base_len ;;
  c0 <- nth_error base_codewords 0 ;;
  ofold (fun v i => level <- nth_error table (i + log_rate)%nat ;;
                    if (length level =? length c0 * 2 ^ (i - base_log_k))%nat
                    then bfly_pass level (length c0 * 2 ^ (i - base_log_k)) v else None)
        (seq base_log_k (logk - base_log_k)) (concat base_codewords).
(** basecode.rs:310-381 [get_table_aes]: [table] and [table_w_weights]; a zero entry has no inverse. *)
Definition bc_tables (lg_n : nat) : option (list (list K) * list (list (K * K))) :=
  ws <- omapM (fun i => finv_opt (0 - flat i - flat i)) (seq 0 (2 ^ lg_n)) ;;
  let w i := nth i ws 0 in
  if (lg_n =? 0)%nat then None else
  let rows := map (fun i => map (fun j => flat (2 ^ i + j)) (seq 0 (2 ^ i))) (seq 1 (lg_n - 1)) in
  wrows <- omapM (fun i => reverse_index_bits (map (fun j => (flat (2 ^ i + j)%nat, w (2 ^ i + j)%nat)) (seq 0 (2 ^ i)))) (seq 1 (lg_n - 1)) ;;
  Some ([flat 1] :: rows, [(flat 1, w 1%nat)] :: wrows).
(** basecode.rs:107-151 [setup], [trim] for the same size. *)
Definition bc_encode (table : list (list K)) (coeffs : list K) : option (list K) :=
  evaluate_foldable (2 ^ msg) (length coeffs) rate (get_basecode coeffs (2 ^ rate) (2 ^ msg)) table.
(** basecode.rs:172-177 [encode_small]; chunks of size zero panic. *)
Definition bc_encode_small (coeffs : list K) : option (list K) :=
  match coeffs with [] => None | _ =>
    match get_basecode coeffs (2 ^ rate) (length coeffs) with [c] => Some c | _ => None end end.
(** basecode.rs:195-202 [prover_folding_coeffs]. *)
Definition bc_pcoef (wtable : list (list (K * K))) (level index : nat) : option (K * K * K) :=
  row <- nth_error wtable level ;; p <- nth_error row index ;; Some (fst p, - fst p, snd p).
(** basecode.rs:204-218 [verifier_folding_coeffs] with 383-406 [query_root_table_from_rng_aes]: the offset of a level is
    1 + (1 + 2 + ... + 2^(level-1)). *)
Definition bc_vcoef (level index : nat) : option (K * K * K) :=
  let off := fold_left (fun o lg_m => o + 2 ^ (lg_m - 1))%nat (seq 1 level) 1%nat in
  let x0 := flat (off + reverse_bits level index)%nat in
  let x1 := - x0 in
  w <- finv_opt (x1 - x0) ;; Some (x0, x1, w).
Definition bc_scheme (max : nat) (table : list (list K)) (wtable : list (list (K * K))) : scheme :=
  mkScheme rate msg nq max false (bc_encode table) bc_encode_small (bc_pcoef wtable) bc_vcoef.
End Basecode.
End Code.
