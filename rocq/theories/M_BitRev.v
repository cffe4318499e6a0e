(** Model of the bit reversal of mpcs/src/util/plonky2_util/mod.rs and of the in-place transposition of
    mpcs/src/util/plonky2_util/transpose_util.rs.

    The code is [unsafe]: it reads and writes through unchecked indices.  Here an access out of bounds, or an exchange of
    overlapping chunks, is [None], so that a theorem that the result is [Some] states that the code is free of them.
    [usize] has 64 bits; its bit reversal is computed on [N]. *)
From Coq Require Import List Arith Lia Bool NArith.
From Verif Require Import ListAux M_Mle M_Merkle M_Code.
Import ListNotations.

(** [usize::reverse_bits]: the 64 bits of [n] in the opposite order. *)
Fixpoint nrev (bits : nat) (n : N) : N :=
  match bits with O => 0%N | S b => ((n mod 2) * 2 ^ N.of_nat b + nrev b (n / 2))%N end.
(** [n.reverse_bits().wrapping_shr(64 - lb)] (mod.rs:140, 162, 179-181) and [>>] (103): the shift is taken modulo 64. *)
Definition rev_shr (lb n : nat) : nat := N.to_nat (N.shiftr (nrev 64 (N.of_nat n)) (N.of_nat ((64 - lb) mod 64))).
(** mod.rs:257-266 [BIT_REVERSE_6BIT] (the code writes it in octal). *)
Definition BIT_REVERSE_6BIT : list nat :=
  [0; 32; 16; 48; 8; 40; 24; 56; 4; 36; 20; 52; 12; 44; 28; 60;
   2; 34; 18; 50; 10; 42; 26; 58; 6; 38; 22; 54; 14; 46; 30; 62;
   1; 33; 17; 49; 9; 41; 25; 57; 5; 37; 21; 53; 13; 45; 29; 61;
   3; 35; 19; 51; 11; 43; 27; 59; 7; 39; 23; 55; 15; 47; 31; 63].

Section BitRev.
Context {A : Type}.
Implicit Types arr : list A.

(** [swap] of two cells reached by [get_unchecked_mut]. *)
Definition swap arr (i j : nat) : option (list A) :=
  a <- nth_error arr i ;; b <- nth_error arr j ;; Some (upd j a (upd i b arr)).
(** The conditional exchange of mod.rs:125-127, 145-147, 163-165. *)
Definition swap_if arr (src dst : nat) : option (list A) := if src <? dst then swap arr src dst else Some arr.

(** mod.rs:82-92 [reverse_index_bits_small]. *)
Definition reverse_index_bits_small arr (n_power : nat) : option (list A) :=
  omapM (fun i => t <- nth_error BIT_REVERSE_6BIT i ;; nth_error arr (t / 2 ^ (6 - n_power))) (seq 0 (length arr)).
(** mod.rs:94-111 [reverse_index_bits_large]. *)
Definition reverse_index_bits_large arr (n_power : nat) : option (list A) :=
  r <- omapM (fun i_chunk => let src_lo := rev_shr (n_power - 6) i_chunk in
        omapM (fun i_lo => t <- nth_error BIT_REVERSE_6BIT i_lo ;; nth_error arr (t * 2 ^ (n_power - 6) + src_lo)) (seq 0 64))
       (seq 0 (length arr / 64)) ;;
  Some (concat r).
(** mod.rs:54-63 [reverse_index_bits]. *)
Definition reverse_index_bits_copy arr : option (list A) :=
  n_power <- log2_strict (length arr) ;;
  if n_power <=? 6 then reverse_index_bits_small arr n_power else reverse_index_bits_large arr n_power.

(** mod.rs:116-151 [reverse_index_bits_in_place_small]. *)
Definition in_place_small arr (lb_n : nat) : option (list A) :=
  if lb_n <=? 6 then
    ofold (fun arr src => t <- nth_error BIT_REVERSE_6BIT src ;; swap_if arr src (t / 2 ^ (6 - lb_n))) (seq 0 (length arr)) arr
  else
    ofold (fun arr src_chunk =>
      let src_hi := src_chunk * 64 in let dst_lo := rev_shr (lb_n - 6) src_chunk in
      ofold (fun arr src_lo => t <- nth_error BIT_REVERSE_6BIT src_lo ;;
               swap_if arr (src_hi + src_lo) (t * 2 ^ (lb_n - 6) + dst_lo)) (seq 0 64) arr)
      (seq 0 (length arr / 64)) arr.
(** mod.rs:156-167: the same function on aarch64. *)
Definition in_place_small_aarch64 arr (lb_n : nat) : option (list A) :=
  ofold (fun arr src => swap_if arr src (rev_shr lb_n src)) (seq 0 (length arr)) arr.

(** [swap_nonoverlapping] of [len] cells: undefined behaviour if the two ranges overlap. *)
Definition swap_nonoverlapping arr (a b len : nat) : option (list A) :=
  if (a + len <=? b) || (b + len <=? a) then ofold (fun arr t => swap arr (a + t) (b + t)) (seq 0 len) arr else None.
(** mod.rs:172-190 [reverse_index_bits_in_place_chunks]. *)
Definition in_place_chunks arr (lb_num_chunks lb_chunk_size : nat) : option (list A) :=
  ofold (fun arr i => let j := rev_shr lb_num_chunks i in
           if i <? j then swap_nonoverlapping arr (i * 2 ^ lb_chunk_size) (j * 2 ^ lb_chunk_size) (2 ^ lb_chunk_size) else Some arr)
        (seq 0 (2 ^ lb_num_chunks)) arr.

Section Transpose.
Variable lb_stride : nat.
(** transpose_util.rs:23-26 = 49-52. *)
Definition swap_ij arr (p : nat * nat) : option (list A) :=
  swap arr (fst p + snd p * 2 ^ lb_stride) (fst p * 2 ^ lb_stride + snd p).
(** transpose_util.rs:15-29 [transpose_in_place_square_small]. *)
Definition transpose_in_place_square_small (lb_size x : nat) arr : option (list A) :=
  ofold (fun arr i => ofold (fun arr j => swap_ij arr (i, j)) (seq x (i - x)) arr) (seq (x + 1) (2 ^ lb_size - 1)) arr.
(** transpose_util.rs:40-55 [transpose_swap_square_small]. *)
Definition transpose_swap_square_small (lb_size x y : nat) arr : option (list A) :=
  ofold (fun arr i => ofold (fun arr j => swap_ij arr (i, j)) (seq y (2 ^ lb_size)) arr) (seq x (2 ^ lb_size)) arr.
(** transpose_util.rs:66-89 [transpose_swap_square]; LB_BLOCK_SIZE = 3 (line 5). *)
Fixpoint transpose_swap_square (lb_size x y : nat) arr : option (list A) :=
  match lb_size with
  | S ((S (S (S _))) as lb_block_size) =>
      let block_size := 2 ^ lb_block_size in
      a1 <- transpose_swap_square lb_block_size x y arr ;;
      a2 <- transpose_swap_square lb_block_size (x + block_size) y a1 ;;
      a3 <- transpose_swap_square lb_block_size x (y + block_size) a2 ;;
      transpose_swap_square lb_block_size (x + block_size) (y + block_size) a3
  | _ => transpose_swap_square_small lb_size x y arr
  end.
(** transpose_util.rs:99-114 [transpose_in_place_square]. *)
Fixpoint transpose_in_place_square (lb_size x : nat) arr : option (list A) :=
  match lb_size with
  | S ((S (S (S _))) as lb_block_size) =>
      let block_size := 2 ^ lb_block_size in
      a1 <- transpose_in_place_square lb_block_size x arr ;;
      a2 <- transpose_swap_square lb_block_size x (x + block_size) a1 ;;
      transpose_in_place_square lb_block_size (x + block_size) a2
  | _ => transpose_in_place_square_small lb_size x arr
  end.
End Transpose.

(** mod.rs:235-250: the branch for large arrays. *)
Definition in_place_large arr (lb_n : nat) : option (list A) :=
  let lb_num_chunks := lb_n / 2 in
  let lb_chunk_size := lb_n - lb_num_chunks in
  a1 <- in_place_chunks arr lb_num_chunks lb_chunk_size ;;
  a2 <- transpose_in_place_square lb_chunk_size lb_num_chunks 0 a1 ;;
  a3 <- (if lb_num_chunks =? lb_chunk_size then Some a2
         else if length a2 <? 2 ^ lb_num_chunks then None
         else t <- transpose_in_place_square lb_chunk_size lb_num_chunks 0 (skipn (2 ^ lb_num_chunks) a2) ;;
              Some (firstn (2 ^ lb_num_chunks) a2 ++ t)) ;;
  in_place_chunks a3 lb_num_chunks lb_chunk_size.
(** mod.rs:201-252 [reverse_index_bits_in_place] for elements of [size] bytes; [small] is the function of the
    architecture.  The debug assertion of line 214 is a panic. *)
Definition in_place_with (small : list A -> nat -> option (list A)) (size : N) arr : option (list A) :=
  lb_n <- log2_strict (length arr) ;;
  if ((size * 2 ^ N.of_nat lb_n <=? 65536) || (16384 <=? size))%N then small arr lb_n
  else if length arr <? 4 then None else in_place_large arr lb_n.
Definition reverse_index_bits_in_place (size : N) arr : option (list A) := in_place_with in_place_small size arr.
Definition reverse_index_bits_in_place_aarch64 (size : N) arr : option (list A) := in_place_with in_place_small_aarch64 size arr.
End BitRev.
