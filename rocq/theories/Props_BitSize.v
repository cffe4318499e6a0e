(** Property theorems C26: announced bit sizes.  Statements only.  [zdot] is the mathematical inner product. *)
From Coq Require Import List Arith Lia Bool ZArith QArith.
From Verif Require Import ListAux FieldDef M_Mle M_LogUp M_Lookup M_Tables M_Quant M_Requant P_Requant M_BitSize P_BitSize.
Import ListNotations.
Local Open Scope Z_scope.

(** C26, dense layer: for quantised inputs and weights, and a bias bounded by MAX^2 (or, with two columns or more, by
    its own quantisation range), every output is computed without overflow, is the exact value and is within the
    announced bit size. *)
Theorem C26_dense : forall B xs ws bias bits, (0 < B)%nat -> length xs = length ws -> bounded (q_max B) xs -> bounded (q_max B) ws ->
  dense_bitsize B (length ws) = Some bits -> (bits <= 62)%nat ->
  (Z.abs bias <= q_max B * q_max B \/ (2 <= length ws)%nat /\ Z.abs bias < zpow2 (2 * B - 1)) ->
  exists y, dot_bias ws xs bias = Some y /\ y = zdot ws xs + bias /\ Z.abs y <= zpow2 bits.
Proof. exact @dense_bits. Qed.
Print Assumptions C26_dense.
(** Convolution (one output position and filter; positions outside the input contribute no term). *)
Theorem C26_convolution : forall B kc kh kw xs ws bias bits, (0 < B)%nat -> length ws = (kh * kw * kc)%nat ->
  bounded (q_max B) xs -> bounded (q_max B) ws ->
  conv_bitsize B kc kh kw = Some bits -> (bits <= 62)%nat -> Z.abs bias <= q_max B * q_max B ->
  exists y, dot_bias ws xs bias = Some y /\ y = zdot ws xs + bias /\ Z.abs y <= zpow2 bits.
Proof. exact @conv_bits. Qed.
Print Assumptions C26_convolution.
(** Matrix product with a constant operand of known width. *)
Theorem C26_matmul : forall B xs ws bias bits, (2 <= B)%nat -> (0 < length xs)%nat -> bounded (q_max B) xs -> bounded (q_max B) ws ->
  matmul_bitsize (q_min B) (q_max B) (Some (length xs)) = Some bits -> (bits <= 62)%nat -> Z.abs bias <= q_max B * q_max B ->
  exists y, dot_bias xs ws bias = Some y /\ y = zdot xs ws + bias /\ Z.abs y <= zpow2 bits.
Proof. exact @matmul_bits. Qed.
Print Assumptions C26_matmul.
Theorem C26_shape_matmul : forall B r1 r2 R1 R2 xs ws bias bits, (0 < B)%nat ->
  R1 = match r1 with None => q_max B | Some n => Z.of_nat n end -> R2 = match r2 with None => q_max B | Some n => Z.of_nat n end ->
  bounded R1 xs -> bounded R2 ws -> shape_matmul_bitsize B r1 r2 (length xs) = Some bits -> (bits <= 62)%nat -> Z.abs bias <= R1 * R2 ->
  exists y, dot_bias xs ws bias = Some y /\ y = zdot xs ws + bias /\ Z.abs y <= zpow2 bits.
Proof. exact @shape_bits. Qed.
Print Assumptions C26_shape_matmul.
(** Addition of two tensors whose scales are at most 2^-(B-2). *)
Theorem C26_add : forall B a b c k rq x y, (2 <= B)%nat -> Z.of_nat B - 2 <= a -> Z.of_nat B - 2 <= b -> 0 <= c ->
  add_common B a b c = (k, rq) -> Z.abs x <= q_max B -> Z.abs y <= q_max B -> (add_bitsize k <= 62)%nat ->
  exists z, add_elem (add_multiplier k a) (add_multiplier k b) x y = Some z /\ z = x * 2 ^ (k - a) + y * 2 ^ (k - b) /\ Z.abs z <= zpow2 (add_bitsize k).
Proof. exact @add_bits. Qed.
Print Assumptions C26_add.
(** So the requantisation built with that bit size accepts every output. *)
Theorem C26_requant_accepts : forall B r bits y, (0 < B)%nat -> rq_ok r -> rq_ibs r = bits -> Z.abs y <= zpow2 bits -> exists z, rq_op1 B r y = Some z.
Proof. exact @layer_requant. Qed.
Print Assumptions C26_requant_accepts.

(** The bias is quantised to the range of 2B-bit values, which a dense layer with one column and a convolution with
    few weights do not leave room for: the output exceeds the bit size, so requantisation refuses it. *)
Theorem C26_dense_bias_refuted : exists bits y, dense_bitsize 8 1 = Some bits /\ dot_bias [127] [127] (2 ^ 15 - 1) = Some y /\ zpow2 bits < y /\
  forall r, rq_ibs r = bits -> rq_op1 8 r y = None.
Proof.
  exists 15%nat, 48896. split; [reflexivity|]. split; [reflexivity|]. split; [reflexivity|]. intros r Hr. apply op_rejects; [lia|rewrite Hr; lia|rewrite Hr; reflexivity].
Qed.
Print Assumptions C26_dense_bias_refuted.
Theorem C26_conv_bias_refuted : exists bits y, conv_bitsize 8 3 1 1 = Some bits /\ dot_bias [127; 127; 127] [127; 127; 127] (2 ^ 15 - 1) = Some y /\ zpow2 bits < y.
Proof. exists 16%nat, 81154. split; [reflexivity|]. split; reflexivity. Qed.
Print Assumptions C26_conv_bias_refuted.
(** The Q, K and V products use the width of the weight matrix where the sums run over its height. *)
Theorem C26_qkv_refuted : exists bits y, qkv_bitsize 8 16 1 = Some bits /\ dot_bias (repeat 127 16) (repeat 127 16) 0 = Some y /\ zpow2 bits < y.
Proof. exists 15%nat, 258064. split; [reflexivity|]. split; reflexivity. Qed.
Print Assumptions C26_qkv_refuted.
(** Addition of two tensors of scale 1: the announced size is exceeded. *)
Theorem C26_add_refuted : exists k rq z, add_common 8 0 0 0 = (k, rq) /\ rq = true /\
  add_elem (add_multiplier k 0) (add_multiplier k 0) 127 127 = Some z /\ zpow2 (add_bitsize k) < z.
Proof. exists 8, true, 65024. split; [reflexivity|]. split; [reflexivity|]. split; reflexivity. Qed.
Print Assumptions C26_add_refuted.
Example C26_ex_dense : dense_bitsize 8 3 = Some 17%nat /\ dot_bias [127; -127; 5] [100; 3; -127] 16129 = Some 27813.
Proof. split; reflexivity. Qed.
Example C26_ex_conv : conv_bitsize 8 3 3 3 = Some 19%nat.
Proof. reflexivity. Qed.
Example C26_ex_matmul : matmul_bitsize (q_min 8) (q_max 8) (Some 10%nat) = Some 18%nat.
Proof. reflexivity. Qed.
Example C26_ex_add : add_common 8 6 7 6 = (15, true) /\ add_elem (add_multiplier 15 6) (add_multiplier 15 7) 127 (-100) = Some 39424 /\ add_bitsize 15 = 17%nat.
Proof. split; [reflexivity|]. split; reflexivity. Qed.
