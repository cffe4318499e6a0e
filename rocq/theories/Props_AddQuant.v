(** Property C63: how an addition layer is quantised. *)
From Coq Require Import List Arith Lia Bool ZArith QArith Qround Qabs Lqa.
From Verif Require Import ListAux FieldDef M_Mle M_Quant M_Requant P_Quant P_Requant M_AddQuant P_AddQuant.
Import ListNotations.
Local Open Scope Q_scope.

(** Scales at most one: no multiplier is zero, each multiplier times the common scale is the scale of its input up to a relative error of 2^-(k+1), where k is the smaller of 8 and the bit length, and the common scale is at most that of the output, and equal to it when no requantisation follows. *)
Theorem C63_multipliers :
  forall (B : nat) (sl sr out : Q) (i : quant_info),
  unit_scale sl ->
  unit_scale sr ->
  unit_scale out ->
  quant_info_new B sl sr out = i ->
  let k := Nat.min 8 B in
  (1 <= qi_left i)%Z /\
  (1 <= qi_right i)%Z /\
  0 < qi_common i /\
  represents k (qi_common i) sl (qi_left i) /\
  represents k (qi_common i) sr (qi_right i) /\
  qi_common i <= out /\ (qi_requant i = false -> qi_common i = out).
Proof. exact @aq_ok. Qed.
Print Assumptions C63_multipliers.

Example C63_ex : unit_scale (1 # 127) /\ unit_scale (1 # 50000) /\ unit_scale (1 # 100) /\ quant_info_new 8 (1 # 127) (1 # 50000) (1 # 100) = mkQi 394 1 (1 # 50000) true /\
  quant_info_new 8 (1 # 127) (1 # 200) (1 # 60000) = mkQi 472 300 (1 # 60000) false /\ quant_info_new 8 (1 # 127) (1 # 200) (1 # 60) = mkQi 516 328 (1 # 65536) true.
Proof. unfold unit_scale. repeat split; vm_compute; try reflexivity; discriminate. Qed.

(** The integer the layer computes, times the common scale, is the real sum up to that relative error. *)
Theorem C63_value :
  forall (B : nat) (sl sr out : Q) (x1 x2 : Z),
  unit_scale sl ->
  unit_scale sr ->
  unit_scale out ->
  let i := quant_info_new B sl sr out in
  Qabs (inject_Z (add_value i x1 x2) * qi_common i - (sl * inject_Z x1 + sr * inject_Z x2)) <=
  (sl * inject_Z (Z.abs x1) + sr * inject_Z (Z.abs x2)) / (2 * q_pow2 (Nat.min 8 B)).
Proof. exact @value_error. Qed.
Print Assumptions C63_value.

Example C63_ex_value : add_value (quant_info_new 8 (1 # 127) (1 # 200) (1 # 60000)) 100 (-50) = 32200%Z.
Proof. reflexivity. Qed.

(** When the real values add up to four at most, with a margin for the error, the integer fits the size announced to the requantisation that follows.  Missing: larger values. *)
Theorem C63_size_partial :
  forall (B : nat) (sl sr out : Q) (x1 x2 : Z),
  unit_scale sl ->
  unit_scale sr ->
  unit_scale out ->
  let i := quant_info_new B sl sr out in
  let real := sl * inject_Z (Z.abs x1) + sr * inject_Z (Z.abs x2) in
  real + real / (2 * q_pow2 (Nat.min 8 B)) <= 4 ->
  (Z.abs (add_value i x1 x2) <= 2 ^ Z.of_nat (add_bit_size i))%Z.
Proof. exact @aq_accepts. Qed.
Print Assumptions C63_size_partial.

Example C63_ex_size : let real := (1 # 127) * inject_Z 127 + (1 # 200) * inject_Z 100 in
  Qle_bool (real + real / (2 * q_pow2 (Nat.min 8 8))) 4 = true /\ add_value (quant_info_new 8 (1 # 127) (1 # 200) (1 # 60)) 127 100 = 98332%Z /\ (2 ^ Z.of_nat (add_bit_size (quant_info_new 8 (1 # 127) (1 # 200) (1 # 60))) = 262144)%Z.
Proof. repeat split; vm_compute; reflexivity. Qed.

(** When they add up to eight or more, with the same margin, the requantisation fails on the value the layer computes, whatever the scales. *)
Theorem C63_size_fails :
  forall (B : nat) (sl sr out : Q) (x1 x2 : Z) (ip : nat) (eps : Q) (r : requant),
  unit_scale sl ->
  unit_scale sr ->
  unit_scale out ->
  let i := quant_info_new B sl sr out in
  let real := sl * inject_Z x1 + sr * inject_Z x2 in
  (0 <= x1)%Z ->
  (0 <= x2)%Z ->
  8 <= real - real / (2 * q_pow2 (Nat.min 8 B)) ->
  requant_from_add B i ip eps = Some r -> rq_op1 B r (add_value i x1 x2) = None.
Proof. exact @aq_fails. Qed.
Print Assumptions C63_size_fails.

(** Two tensors with absolute maximum 10, added at their maximum. *)
Theorem C63_refuted : exists r, requant_from_add 8 (quant_info_new 8 (10 # 127) (10 # 127) (20 # 127)) 9 (127 # 160) = Some r /\
  rq_op1 8 r (add_value (quant_info_new 8 (10 # 127) (10 # 127) (20 # 127)) 127 127) = None /\ rq_op1 8 r (add_value (quant_info_new 8 (10 # 127) (10 # 127) (20 # 127)) 20 20) <> None.
Proof. eexists. split; [vm_compute; reflexivity|]. split; [vm_compute; reflexivity|vm_compute; discriminate]. Qed.
Print Assumptions C63_refuted.
Example C63_ex_fails : let real := (10 # 127) * inject_Z 127 + (10 # 127) * inject_Z 127 in Qle_bool 8 (real - real / (2 * q_pow2 (Nat.min 8 8))) = true.
Proof. vm_compute. reflexivity. Qed.

(** A scale above one counts as high precision, because the absolute value of its logarithm is taken.  If it is large the other input is multiplied by zero: the output does not depend on it. *)
Theorem C63_vanishes :
  forall (B : nat) (sl sr out : Q),
  1 <= sl ->
  0 < sr ->
  q_pow2 8 * prec sr <= prec sl ->
  prec out < prec sl ->
  let i := quant_info_new B sl sr out in
  qi_left i = 1%Z /\ qi_right i = 0%Z /\ (forall x1 x2 x2' : Z, add_value i x1 x2 = add_value i x1 x2').
Proof. exact @aq_vanishes. Qed.
Print Assumptions C63_vanishes.

Example C63_ex_vanishes : Qle_bool 1 300 = true /\ Qle_bool (q_pow2 8 * prec (9 # 10)) (prec 300) = true /\ q_ltb (prec 200) (prec 300) = true /\
  quant_info_new 8 300 (9 # 10) 200 = mkQi 1 0 300 true.
Proof. repeat split; vm_compute; reflexivity. Qed.

