(** Property C23 with rounded arithmetic. *)
From Coq Require Import List Arith Lia Bool ZArith QArith Qabs.
From Verif Require Import ListAux M_Mle M_Tables M_Quant P_Quant P_QuantErr.
Import ListNotations.
Local Open Scope Q_scope.

(** If each rounded operation of this value has relative error at most u (2^-24 for f32 in the normal range), a value within the absolute maximum is quantised into [MIN, MAX] and dequantised to within (1/2 + 10 u MAX) steps of itself: for f32 and 8 bits, half a step and less than a ten-thousandth. *)
Theorem C23_error_rounded :
  forall (rnd : Q -> Q) (u : Q) (B : nat) (a v : Q),
  (2 <= B)%nat ->
  0 < a ->
  Qabs v <= a ->
  0 <= u ->
  u <= 1 # 4 ->
  let s := from_absolute_max rnd B a None in
  near rnd u (Qabs a - - Qabs a) ->
  near rnd u (rnd (Qabs a - - Qabs a) / inject_Z (q_max B - q_min B)) ->
  near rnd u (v / sc_scale s) ->
  (forall z : Z, (q_min B <= z <= q_max B)%Z -> near rnd u (inject_Z z * sc_scale s)) ->
  exists z : Z,
    quantize rnd s v = Some z /\
    (q_min B <= z <= q_max B)%Z /\
    Qabs (dequantize rnd s z - v) <= ((1 # 2) + 10 * u * inject_Z (q_max B)) * sc_scale s.
Proof. exact @quantize_error_rnd. Qed.
Print Assumptions C23_error_rounded.
(* Rounding to multiples of 2^-30; absolute maximum 5/2, value 1/3. *)
Definition rnd30 (x : Q) : Q := inject_Z (q_round (x * 1073741824)) * (1 # 1073741824).
Example C23_error_rounded_ex : let s := from_absolute_max rnd30 8 (5 # 2) None in let u := 1 # 16777216 in
  near rnd30 u (Qabs (5 # 2) - - Qabs (5 # 2)) /\ near rnd30 u (rnd30 (Qabs (5 # 2) - - Qabs (5 # 2)) / inject_Z (q_max 8 - q_min 8)) /\
  near rnd30 u ((1 # 3) / sc_scale s) /\ (forall z, (q_min 8 <= z <= q_max 8)%Z -> near rnd30 u (inject_Z z * sc_scale s)) /\
  quantize rnd30 s (1 # 3) = Some 17%Z /\ 10 * u * inject_Z (q_max 8) < 1 # 10000.
Proof.
  intros s u. split; [apply Qle_bool_iff; vm_compute; reflexivity|]. split; [apply Qle_bool_iff; vm_compute; reflexivity|]. split; [apply Qle_bool_iff; vm_compute; reflexivity|]. split.
  - intros z Hz. assert (E : forallb (fun z => Qle_bool (Qabs (rnd30 (inject_Z z * sc_scale s) - inject_Z z * sc_scale s)) (u * Qabs (inject_Z z * sc_scale s))) (map (fun k => (Z.of_nat k - 127)%Z) (seq 0 255)) = true) by (vm_compute; reflexivity).
    rewrite forallb_forall in E. apply Qle_bool_iff, E, in_map_iff. exists (Z.to_nat (z + 127)). change (q_min 8) with (-127)%Z in Hz. change (q_max 8) with 127%Z in Hz. split; [lia|]. apply in_seq. lia.
  - split; [vm_compute; reflexivity|reflexivity].
Qed.

