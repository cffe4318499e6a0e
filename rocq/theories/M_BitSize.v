(** Model of the bit sizes the layers announce to the requantisation that follows them, and of the element arithmetic
    they are meant to bound: zkml/src/layers/{dense,matrix_mul,convolution,add}.rs,
    zkml/src/layers/transformer/qkv.rs and zkml/src/tensor.rs.
    Elements are i64: an intermediate result that does not fit is [None]. *)
From Coq Require Import List Arith Lia Bool ZArith.
From Verif Require Import ListAux FieldDef M_Mle M_LogUp M_Lookup M_Tables M_Quant M_Requant.
Import ListNotations.
Local Open Scope Z_scope.

(** tensor.rs:1153-1173 [matvec], one row.  The code asserts that row and vector have the same length and then indexes;
    here they are zipped, so on unequal lengths (a panic in the code) the shorter side decides. *)
Fixpoint dot_i64 (acc : Z) (xs ws : list Z) : option Z :=
  match xs, ws with
  | x :: xs', w :: ws' => p <- i64 (x * w) ;; a <- i64 (acc + p) ;; dot_i64 a xs' ws'
  | _, _ => Some acc
  end.
(** dense.rs:161-185 [Dense::evaluate] (and the other products with a bias), one output: the bias is added last. *)
Definition dot_bias (row x : list Z) (b : Z) : option Z := d <- dot_i64 0 row x ;; i64 (d + b).

(** dense.rs:415-420 [Dense::output_bitsize]. *)
Definition dense_bitsize (B ncols : nat) : option nat := c <- ceil_log2 ncols ;; Some (2 * (B - 1) + c + 1)%nat.
(** tensor.rs:2188-2208 [Shape::matmul_output_bitsize]: optional ranges of both sides. *)
Definition shape_matmul_bitsize (B : nat) (r1 r2 : option nat) (ncols : nat) : option nat :=
  let bits r := match r with None => Some (B - 1)%nat | Some n => ceil_log2 n end in
  a <- bits r1 ;; b <- bits r2 ;; c <- ceil_log2 ncols ;; Some (a + b + c + 1)%nat.
(** matrix_mul.rs:659-680 [MatMul::output_bitsize]; [ilog2] of zero panics. *)
Definition ilog2 (n : Z) : option nat := if n <=? 0 then None else Some (Z.to_nat (Z.log2 n)).
Definition matmul_bitsize (min_input max_input : Z) (ncols : option nat) : option nat :=
  match ncols with
  | None => Some 30%nat
  | Some n => a <- ilog2 (Z.abs min_input) ;; b <- ilog2 (Z.abs max_input) ;; c <- ilog2 (Z.of_nat n) ;;
              Some ((a + 1) + (b + 1) + c + 1)%nat
  end.
(** convolution.rs:362-366 [Convolution::output_bitsize]. *)
Definition conv_bitsize (B k_c k_h k_w : nat) : option nat := c <- ceil_log2 (k_h * k_w * k_c + 1) ;; Some (2 * (B - 1) + c)%nat.
(** qkv.rs:355-366: the bit size of the Q, K and V products, from the NUMBER OF COLUMNS of the weight matrix
    (its number of rows is the length of the sums). *)
Definition qkv_bitsize (B nrows ncols : nat) : option nat := shape_matmul_bitsize B None None ncols.

(** add.rs:297-401 [QuantInfo::new], for scales that are powers of two: [a], [b], [c] stand for the scales 2^-a, 2^-b
    and 2^-c of the left input, the right input and the output.  The result is the exponent of the common scale and
    whether a requantisation follows. *)
Definition add_common (B : nat) (a b c : Z) : Z * bool :=
  let left_log := Z.abs a in
  let right_log := Z.abs b in
  let output_log := Z.abs c in
  let scale_comparison (h l : Z) :=
    let high_log := Z.abs h in
    let low_log := Z.abs l in
    match Z.compare high_log output_log with
    | Lt => if Z.of_nat B <=? output_log - high_log then (c, false) else (high_log + Z.of_nat B, true)
    | Eq => if Z.of_nat B <=? output_log - low_log then (c, false) else (high_log + Z.of_nat B, true)
    | Gt => if 8 <=? high_log - low_log then (h, true) else (high_log + 8, true)
    end in
  match Z.compare left_log right_log with
  | Lt | Eq => scale_comparison b a
  | Gt => scale_comparison a b
  end.
(** [(scale / common_scale).round()]: 2^(k-a), with one half rounded up. *)
Definition add_multiplier (k a : Z) : Z := if 0 <=? k - a then 2 ^ (k - a) else if k - a =? -1 then 1 else 0.
(** add.rs:420-424 [intermediate_bit_size]. *)
Definition add_bitsize (k : Z) : nat := (Z.to_nat (Z.abs k) + 2)%nat.
(** add.rs:184-211 [Add::<Element>::evaluate], one element. *)
Definition add_elem (lm rm x y : Z) : option Z := l <- i64 (x * lm) ;; r <- i64 (y * rm) ;; i64 (l + r).
