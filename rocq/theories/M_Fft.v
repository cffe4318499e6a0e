(** Model of the FFT-based convolution: zkml/src/tensor.rs ([get_root_of_unity], [fft], [index_w], [index_u],
    [into_fft_conv], [fft_conv], [conv2d]), zkml/src/layers/convolution.rs ([into_padded_and_ffted], [op], [add_bias],
    [clear_garbage], [new_clearing_tensor], [conv2d_shape]) and zkml/src/padding.rs ([pad_conv]).

    The field is abstract; [gen] stands for [E::BaseField::two_adic_generator(32)] seen in the extension (the
    theorems assume that its 2^31-th power is -1), [emb] and [unemb] for [to_field] and [to_element].  [og_shape],
    left out of [ten], is an explicit field of [conv] here: it is written by [into_fft_conv] and read by [real_nw].
    i64 arithmetic on elements (the bias addition and the direct convolution) is on Z: overflow is not modelled. *)
From Coq Require Import List Arith Lia Bool ZArith.
From Verif Require Import ListAux FieldDef M_Mle M_Tensor M_Pool.
Import ListNotations.

Section Fft.
Context {K : field}.
Local Open Scope F_scope.
Variable gen : K.

(** tensor.rs:220-231: square the generator 32-n times; [32 - n] underflows for n > 32. *)
Definition get_root_of_unity (n : nat) : option K :=
  s <- csub 32 n ;; Some (Nat.iter s (fun rou => rou * rou) gen).

(** tensor.rs:264-271: the bit-reversal table, filled in increasing order of index. *)
Definition rev_table (n logn : nat) : option (list nat) :=
  if (n =? 0)%nat then None else
  ofold (fun rv i => s <- csub logn 1 ;; h <- nth_error rv (i / 2)%nat ;;
                     Some (upd i (Nat.lor (Nat.shiftr h 1) (Nat.shiftl (Nat.modulo i 2) s)) rv))
        (seq 1 (n - 1)) (repeat 0%nat n).
(** tensor.rs:272-283: the powers of w[1]. *)
Fixpoint pow_table (x acc : K) (n : nat) : list K :=
  match n with O => [] | S n' => acc :: pow_table x (acc * x) n' end.
(** tensor.rs:285-294: the swaps, collected in increasing order and carried out one after the other. *)
Definition rev_swaps (rv : list nat) : list (nat * nat) :=
  filter (fun p => snd p <? fst p)%nat (combine (seq 0 (length rv)) rv).
(** tensor.rs:299-307: the butterflies of one chunk, in place. *)
Definition butterfly (w : list K) (n i : nat) (chunk : list K) : option (list K) :=
  let half := (i / 2)%nat in
  ofold (fun c k =>
           u <- nth_error c k ;;
           x <- nth_error c (k + half)%nat ;;
           wk <- nth_error w (n / i * k)%nat ;;
           let l := x * wk in
           Some (upd (k + half)%nat (u - l) (upd k (u + l) c)))
        (seq 0 half) chunk.
(** tensor.rs:296-309: the passes i = 2, 4, ... <= n.  [par_chunks_mut] works on disjoint chunks, so the schedule is
    irrelevant and the pass is a map.  [fuel] bounds the number of passes (n is enough, i doubles). *)
Fixpoint fft_loop (fuel i n : nat) (w v : list K) : option (list K) :=
  match fuel with
  | O => Some v
  | S f => if (i <=? n)%nat
           then cs <- omapM (butterfly w n i) (chunks i v) ;; fft_loop f (2 * i)%nat n w (concat cs)
           else Some v
  end.
(** tensor.rs:261-323 [fft].  [ark_std::log2] is the ceiling; w[1] is out of range when n = 1. *)
Definition fft (flag : bool) (v : list K) : option (list K) :=
  let n := length v in
  let logn := Nat.log2_up n in
  rv <- rev_table n logn ;;
  rou <- get_root_of_unity logn ;;
  if (n <? 2)%nat then None else
  w1 <- (if flag then finv_opt rou else Some rou) ;;
  let w := pow_table w1 1 n in
  v1 <- ofold (fun c p => swap (fst p) (snd p) c) (rev_swaps rv) v ;;
  v2 <- fft_loop n 2 n w v1 ;;
  if flag then ilen <- finv_opt (fnat n) ;; Some (map (fun val => val * ilen) v2)
  else Some v2.

Variable emb : Z -> K.
Variable unemb : K -> Z.

(** tensor.rs:236-251 [index_w]. *)
Definition index_w (w : list Z) (n_real n output_len : nat) : option (list K) :=
  omapM (fun idx => let i := (idx / n)%nat in let j := Nat.modulo idx n in
           if ((i <? n_real) && (j <? n_real))%nat
           then x <- nth_error w (i * n_real + j)%nat ;; Some (emb x)
           else Some 0) (seq 0 output_len).
(** tensor.rs:255-258 [index_u]. *)
Definition index_u (u : list K) (n : nat) : option (list K) :=
  omapM (fun i => l <- csub (n * n) 1 ;; p <- csub l i ;; nth_error u p) (seq 0 (length u / 2)).

(** Filter, [og_shape] of the filter, bias and unpadded filter shape (layers/convolution.rs:50-60). *)
Record conv := mkConv { cv_filter : ten Z; cv_og : list nat; cv_bias : ten Z; cv_unpadded : list nat }.

(** tensor.rs:409-428 [into_fft_conv]: the new filter and its [og_shape]. *)
Definition into_fft_conv (f : ten Z) (input_shape : list nat) : option (ten Z * list nat) :=
  match sh f with
  | [a; b; c; _] =>
      if negb (sprod (sh f) =? length (dat f))%nat || negb (is_pow2 c) then None else
      i1 <- nth_error input_shape 1 ;;
      d <- csub i1 c ;;
      let n_w := npow2 (d + 1) in
      Some (mkTen [a; b; n_w; n_w] (dat f), sh f)
  | _ => None
  end.

(** tensor.rs:467-480: the transform of one input channel. *)
Definition x_fft (new_n : nat) (chunk : list K) : option (list K) := fft false (resize new_n 0 (rev chunk)).
(** tensor.rs:486-504: filter [i], channel [j] added to the accumulator. *)
Definition conv_acc (data : list Z) (kx real_nw nw i : nat) (x_vec : list (list K)) (o : list K) (j : nat) : option (list K) :=
  let lo := (i * kx * real_nw * real_nw + j * real_nw * real_nw)%nat in
  let hi := (i * kx * real_nw * real_nw + (j + 1) * real_nw * real_nw)%nat in
  ws <- slice lo hi data ;;
  wi <- index_w ws real_nw nw (2 * nw * nw) ;;
  wf <- fft false wi ;;
  omapM (fun k => a <- nth_error o k ;; xj <- nth_error x_vec j ;; y <- nth_error xj k ;; z <- nth_error wf k ;;
                  Some (a + y * z)) (seq 0 (length o)).
(** tensor.rs:458-520 [fft_conv] (the tensor part of the result; [ConvData::new], 343-367, collects the same vectors). *)
Definition fft_conv (f : ten Z) (og : list nat) (x : ten Z) : option (ten Z) :=
  kw <- nth_error (sh f) 0 ;; kx <- nth_error (sh f) 1 ;; nw <- nth_error (sh f) 2 ;; real_nw <- nth_error og 2 ;;
  x1 <- nth_error (sh x) 1 ;;
  let n_x := npow2 x1 in
  x_vec <- omapM (x_fft (2 * n_x * n_x)) (chunks (n_x * n_x) (map emb (dat x))) ;;
  prod <- omapM (fun i => ofold (conv_acc (dat f) kx real_nw nw i x_vec) (seq 0 kx) (repeat 0 (2 * nw * nw))) (seq 0 kw) ;;
  out <- omapM (fft true) prod ;;
  elems <- omapM (fun e => us <- index_u e n_x ;; Some (map unemb us)) out ;;
  tensor_new [kw; n_x; n_x] (concat elems).

(** convolution.rs:152-161 [add_bias]. *)
Definition add_bias (bias conv_out : ten Z) : option (ten Z) :=
  kw <- nth_error (sh conv_out) 0 ;; s2 <- nth_error (sh conv_out) 2 ;;
  if negb (length (dat conv_out) =? kw * (s2 * s2))%nat then None else
  arr <- omapM (fun idx => a <- nth_error (dat conv_out) idx ;; b <- nth_error (dat bias) (idx / (s2 * s2))%nat ;;
                           Some (a + b)%Z) (seq 0 (length (dat conv_out))) ;;
  tensor_new (sh conv_out) arr.
(** convolution.rs:1565-1578 [conv2d_shape] (stride 1, no padding): h_in - (kernel - 1) - 1 + 1. *)
Definition conv2d_shape (input_shape filter_shape : list nat) : option (list nat) :=
  h_in <- (if (length input_shape =? 3)%nat then nth_error input_shape 1 else nth_error input_shape 2) ;;
  kernel <- nth_error filter_shape 2 ;; co <- nth_error filter_shape 0 ;;
  k1 <- csub kernel 1 ;; a <- csub h_in k1 ;; b <- csub a 1 ;;
  Some [co; (b + 1)%nat; (b + 1)%nat].
(** The slice [1..] of a shape of rank 4 (convolution.rs:1485-1489, 1509-1513). *)
Definition drop_batch (s : list nat) : list nat := if (length s =? 4)%nat then skipn 1 s else s.
(** The triple loop over a shape [a; b; c]: index i*b*c + j*c + k (convolution.rs:1492-1503, 1518-1527). *)
Definition inside (s : list nat) (b c idx : nat) : option bool :=
  o0 <- nth_error s 0 ;; o1 <- nth_error s 1 ;; o2 <- nth_error s 2 ;;
  Some ((idx / (b * c) <? o0) && ((idx / c) mod b <? o1) && (idx mod c <? o2))%nat.
(** convolution.rs:1484-1506 [clear_garbage]. *)
Definition clear_garbage (t : ten Z) (unpadded_output_shape : list nat) : option (ten Z) :=
  match sh t with
  | a :: b :: c :: _ =>
      data <- omapM (fun idx => x <- nth_error (dat t) idx ;; ok <- inside (drop_batch unpadded_output_shape) b c idx ;;
                                Some (if ok : bool then x else 0%Z)) (seq 0 (a * b * c)) ;;
      tensor_new (sh t) (data ++ skipn (a * b * c) (dat t))
  | _ => None
  end.
(** convolution.rs:1508-1529 [new_clearing_tensor]. *)
Definition new_clearing_tensor (og_shape padded_shape : list nat) : option (ten Z) :=
  let og := drop_batch og_shape in
  match padded_shape with
  | [a; b; c] =>
      if negb (length og =? 3)%nat then None else
      data <- omapM (fun idx => ok <- inside og b c idx ;; Some (if ok : bool then 1%Z else 0%Z)) (seq 0 (a * b * c)) ;;
      tensor_new [(a * b * c)%nat] data
  | _ => None
  end.
(** convolution.rs:320-348 [op] (the tensor; [proving_data] is part of the proof model). *)
Definition conv_op (c : conv) (input : ten Z) (unpadded_input_shape : list nat) : option (ten Z) :=
  output <- fft_conv (cv_filter c) (cv_og c) input ;;
  conv_output <- add_bias (cv_bias c) output ;;
  unpadded_output_shape <- conv2d_shape unpadded_input_shape (cv_unpadded c) ;;
  clear_garbage conv_output unpadded_output_shape.

(** convolution.rs:309-318 [into_padded_and_ffted]. *)
Definition into_padded_and_ffted (c : conv) (unpadded_input_shape : list nat) : option conv :=
  f <- pad_next_power_of_two 0%Z (cv_filter c) ;;
  b <- pad_next_power_of_two 0%Z (cv_bias c) ;;
  fo <- into_fft_conv f (map npow2 unpadded_input_shape) ;;
  Some (mkConv (fst fo) (snd fo) b (cv_unpadded c)).

(** parser/mod.rs:191-198 [check_filter]; parser/mod.rs:182-189 [safe_conv2d_shape]. *)
Definition check_filter (s : list nat) : option unit :=
  match s with [_; _; c; d] => if (c =? d)%nat then Some tt else None | _ => None end.
Definition safe_conv2d_shape (input_shape filter_shape : list nat) : option (list nat) :=
  u <- check_filter filter_shape ;;
  if check_cnn_input input_shape then conv2d_shape input_shape filter_shape else None.

(** padding.rs:207-249 [pad_conv]: the padded layer with the new unpadded and padded shapes.  Note that the unpadded
    shape handed to [into_padded_and_ffted] has already been replaced by the output shape. *)
Definition pad_conv (c : conv) (input_shape_og input_shape_padded : list nat) : option (conv * (list nat * list nat)) :=
  og <- safe_conv2d_shape input_shape_og (sh (cv_filter c)) ;;
  u <- check_filter (sh (cv_filter c)) ;;
  co <- nth_error (sh (cv_filter c)) 0 ;; b0 <- nth_error (sh (cv_bias c)) 0 ;;
  if negb (co =? b0)%nat || negb (shape_is_pow2 input_shape_padded) || negb (length input_shape_padded =? 3)%nat then None else
  f <- pad_next_power_of_two 0%Z (cv_filter c) ;;
  fh <- nth_error (sh f) 2 ;; fw <- nth_error (sh f) 3 ;;
  ih <- nth_error input_shape_padded 1 ;; iw <- nth_error input_shape_padded 2 ;;
  if negb ((fh <=? ih) && (fw <=? iw))%nat then None else
  c' <- into_padded_and_ffted c og ;;
  out <- safe_conv2d_shape input_shape_padded (sh f) ;;
  Some (c', (og, map npow2 out)).
End Fft.

Section Direct.
Context {A : Type}.
Variables (zero : A) (add mul : A -> A -> A).
(** tensor.rs:1561-1572 [get4d]. *)
Definition get4d (t : ten A) : nat * nat * nat * nat :=
  let s := sh t in
  let g i := match nth_error s i with Some x => x | None => 1 end in
  if length s =? 3 then (1, g 0, g 1, g 2) else (g 0, g 1, g 2, g 3).
(** tensor.rs:1575-1583 [get_at_4d]. *)
Definition get_at_4d (t : ten A) (n c h w : nat) : option A :=
  if negb (length (sh t) <=? 4) then None else
  let '(n_size, c_size, h_size, w_size) := get4d t in
  if negb (n <? n_size) then None else
  nth_error (dat t) (n * (c_size * h_size * w_size) + c * (h_size * w_size) + h * w_size + w).
(** tensor.rs:1434-1499 [conv2d]. *)
Definition conv2d (t kernels bias : ten A) (stride : nat) : option (ten A) :=
  let '(n_size, c_size, h_size, w_size) := get4d t in
  let '(k_n, k_c, k_h, k_w) := get4d kernels in
  if negb ((length (sh t) <=? 4) && (length (sh kernels) <=? 4) && (c_size =? k_c)) then None else
  if negb (match sh bias with [b] => b =? k_n | _ => false end) then None else
  if stride =? 0 then None else
  dh <- csub h_size k_h ;; dw <- csub w_size k_w ;;
  let out_h := dh / stride + 1 in let out_w := dw / stride + 1 in
  output <- omapM (fun flat_idx =>
      let n := flat_idx / (k_n * out_h * out_w) in
      let rem1 := flat_idx mod (k_n * out_h * out_w) in
      let o := rem1 / (out_h * out_w) in
      let rem2 := rem1 mod (out_h * out_w) in
      let oh := rem2 / out_w in let ow := rem2 mod out_w in
      s <- ofold (fun s c => ofold (fun s kh => ofold (fun s kw =>
              a <- get_at_4d t n c (oh * stride + kh) (ow * stride + kw) ;;
              b <- get_at_4d kernels o c kh kw ;; Some (add s (mul a b)))
            (seq 0 k_w) s) (seq 0 k_h) s) (seq 0 c_size) zero ;;
      b <- nth_error (dat bias) o ;;
      Some (add s b)) (seq 0 (n_size * k_n * out_h * out_w)) ;;
  Some (mkTen [n_size; k_n; out_h; out_w] output).
End Direct.
