(** Property theorems C22-C25: the integer embedding, quantisation, requantisation.  Statements only. *)
From Coq Require Import List Arith Lia Bool ZArith QArith Qround Qabs Znumtheory.
From Verif Require Import ListAux FieldDef FpInst FpGold MleMath M_Mle M_LogUp M_Lookup M_Tables M_Quant P_Quant M_Requant P_Requant P_Requant2.
Import ListNotations.
Local Open Scope Z_scope.

(** C22.  For every prime modulus: an integer of absolute value at most (p-1)/2 survives the trip through the field. *)
Theorem C22_round_trip : forall p, prime (Zpos p) -> forall x, Z.abs x <= (Zpos p - 1) / 2 -> to_element p (to_field p x) = x.
Proof. exact @round_trip. Qed.
Print Assumptions C22_round_trip.
Theorem C22_injective : forall p, prime (Zpos p) -> forall x y, Z.abs x <= (Zpos p - 1) / 2 -> Z.abs y <= (Zpos p - 1) / 2 ->
  to_field p x = to_field p y -> x = y.
Proof. exact @to_field_inj. Qed.
Print Assumptions C22_injective.
(** Every field value is an integer in range, and converting it back gives the value. *)
Theorem C22_field_round_trip : forall p, prime (Zpos p) -> forall a, to_field p (to_element p a) = a.
Proof. exact @round_trip_back. Qed.
Print Assumptions C22_field_round_trip.
Theorem C22_element_range : forall p, prime (Zpos p) -> forall a, - (Zpos p / 2) <= to_element p a <= Zpos p / 2.
Proof. exact @to_element_range. Qed.
Print Assumptions C22_element_range.
(** Any expression of sums, differences, products and constants computed in the field on embedded inputs reads back
    as the integer value, as soon as that final value is in range (intermediate values need not be). *)
Theorem C22_arithmetic_exact : forall p (Hp : prime (Zpos p)) env e, Z.abs (zeval env e) <= (Zpos p - 1) / 2 ->
  to_element p (feval p Hp (fun i => to_field p (env i)) e) = zeval env e.
Proof. exact @expr_exact. Qed.
Print Assumptions C22_arithmetic_exact.
(** For the base field used by the prover the range is |x| <= 2^63 - 2^31. *)
Theorem C22_goldilocks : forall x, Z.abs x <= 2 ^ 63 - 2 ^ 31 -> to_element gold (to_field gold x) = x.
Proof. exact gold_round_trip. Qed.
Print Assumptions C22_goldilocks.
(** Beyond the range the value changes; not every i64 is in it. *)
Theorem C22_out_of_range_changes : forall p, prime (Zpos p) -> forall x, Zpos p / 2 < Z.abs x -> to_element p (to_field p x) <> x.
Proof. exact @expr_wraps. Qed.
Print Assumptions C22_out_of_range_changes.
Theorem C22_every_i64_refuted : exists x, - 2 ^ 63 <= x < 2 ^ 63 /\ to_element gold (to_field gold x) <> x.
Proof. exists (2 ^ 63 - 1). split; [lia|exact gold_wraps]. Qed.
Print Assumptions C22_every_i64_refuted.
Example C22_ex_neg : to_element gold (to_field gold (-5)) = -5.
Proof. vm_compute. reflexivity. Qed.
(** 100 * (-127) + 3 with the intermediate 2^64 subtracted again. *)
Example C22_ex_expr :
  let e := ESub (EAdd (EMul (EVar 0) (EVar 1)) (EConst (2 ^ 64 + 3))) (EConst (2 ^ 64)) in
  to_element gold (feval gold prime_gold (fun i => to_field gold (nth i [100; -127] 0)) e) = -12697.
Proof. vm_compute. reflexivity. Qed.

(** C23. *)
Theorem C23_range : forall rnd s v, (fst (sc_dom s) <= snd (sc_dom s)) ->
  exists z, quantize rnd s v = Some z /\ (fst (sc_dom s) <= z <= snd (sc_dom s)).
Proof. exact @quantize_range. Qed.
Print Assumptions C23_range.
Theorem C23_monotone : forall rnd s v w a b, monotone rnd -> (0 < sc_scale s)%Q -> (v <= w)%Q ->
  quantize rnd s v = Some a -> quantize rnd s w = Some b -> (a <= b).
Proof. exact @quantize_mono. Qed.
Print Assumptions C23_monotone.
(** With exact arithmetic, for the symmetric scaling of any positive absolute maximum: in [MIN, MAX] and at most half
    a step from the value. *)
Theorem C23_half_step : forall B a v, (2 <= B)%nat -> (0 < a)%Q -> (Qabs v <= a)%Q ->
  let s := from_absolute_max exact B a None in
  exists z, quantize exact s v = Some z /\ (q_min B <= z <= q_max B) /\ (Qabs (dequantize exact s z - v) <= sc_scale s / 2)%Q.
Proof. exact @quantize_error. Qed.
Print Assumptions C23_half_step.
Theorem C23_round_trip : forall s z, (0 < sc_scale s)%Q -> (fst (sc_dom s) <= z <= snd (sc_dom s)) ->
  quantize exact s (dequantize exact s z) = Some z.
Proof. exact @dequantize_quantize. Qed.
Print Assumptions C23_round_trip.
(** The same for rounded arithmetic of relative error u. *)
Theorem C23_round_trip_rounded : forall rnd u s z, (forall x, Qabs (rnd x - x) <= u * Qabs x)%Q -> (0 <= u)%Q -> (u <= 1)%Q ->
  (inject_Z (Z.abs z) * (3 * u) < 1 # 2)%Q -> (0 < sc_scale s)%Q -> (fst (sc_dom s) <= z <= snd (sc_dom s)) ->
  quantize rnd s (dequantize rnd s z) = Some z.
Proof. exact @dequantize_quantize_rnd. Qed.
Print Assumptions C23_round_trip_rounded.
Example C23_ex : let s := from_absolute_max exact 8 (5 # 2) None in
  quantize exact s (1 # 3) = Some 17 /\ quantize exact s (5 # 2) = Some 127 /\ quantize exact s (- 3 # 1) = Some (-127).
Proof. vm_compute. auto. Qed.
Example C23_ex_unit : (inject_Z (Z.abs 127) * (3 * (1 # 16777216)) < 1 # 2)%Q.
Proof. reflexivity. Qed.

(** C24.  [rounds n d u] says that u is n/d rounded to the nearest integer, halves up.  Whenever the operation
    returns, it returns the rounded product clamped to [-MAX, MAX]. *)
Theorem C24_rounds_and_clamps : forall B, (0 < B)%nat -> forall r e y, rq_op1 B r e = Some y ->
  Z.abs e <= zpow2 (rq_ibs r) /\ exists u, rounds (e * rq_fpm r) (zpow2 (rq_shift r)) u /\ y = z_clamp (- q_max B) (q_max B) u.
Proof. exact @op_rounds. Qed.
Print Assumptions C24_rounds_and_clamps.
Theorem C24_rounds_determines : forall n d u u', 0 < d -> rounds n d u -> rounds n d u' -> u = u'.
Proof. exact @rounds_unique. Qed.
Print Assumptions C24_rounds_determines.
Theorem C24_range : forall B, (0 < B)%nat -> forall r e y, rq_op1 B r e = Some y -> - q_max B <= y <= q_max B.
Proof. exact @op_range. Qed.
Print Assumptions C24_range.
Theorem C24_monotone : forall B, (0 < B)%nat -> forall r e e' y y', 0 <= rq_fpm r -> e <= e' ->
  rq_op1 B r e = Some y -> rq_op1 B r e' = Some y' -> y <= y'.
Proof. exact @op_mono. Qed.
Print Assumptions C24_monotone.
(** It returns on every element of at most the announced bit size, if the parameters leave one spare bit. *)
Theorem C24_total : forall B, (0 < B)%nat -> forall r e, rq_ok r -> Z.abs e <= zpow2 (rq_ibs r) -> exists y, rq_op1 B r e = Some y.
Proof. exact @op_total. Qed.
Print Assumptions C24_total.
Theorem C24_constructed_ok : forall B, (0 < B)%nat -> forall ip eps ibs r, (1 # 2 <= eps <= 1)%Q -> from_multiplier B ip eps ibs = Some r ->
  (ibs + rq_fp_scale r <= 62)%nat -> (rq_shift r <= 62)%nat -> rq_ok r.
Proof. exact @from_multiplier_ok. Qed.
Print Assumptions C24_constructed_ok.
Theorem C24_rejects_larger : forall B, (0 < B)%nat -> forall r e, (rq_ibs r < 63)%nat -> zpow2 (rq_ibs r) < Z.abs e -> rq_op1 B r e = None.
Proof. exact @op_rejects. Qed.
Print Assumptions C24_rejects_larger.
Theorem C24_tensor : forall B r l l', rq_op B r l = Some l' <-> Forall2 (fun e y => rq_op1 B r e = Some y) l l'.
Proof. exact @op_tensor. Qed.
Print Assumptions C24_tensor.
(** The unclamped result is within 1/2 plus the fixed-point error of the product with the real multiplier eps/2^ip. *)
Theorem C24_error : forall B, (0 < B)%nat -> forall ip eps ibs r e y, from_multiplier B ip eps ibs = Some r -> rq_op1 B r e = Some y ->
  exists u, y = z_clamp (- q_max B) (q_max B) u /\
    (Qabs (inject_Z u - inject_Z e * (eps / inject_Z (zpow2 ip))) <= (1 # 2) + inject_Z (Z.abs e) / inject_Z (2 * zpow2 (rq_shift r)))%Q.
Proof. exact @op_error. Qed.
Print Assumptions C24_error.
(** The constructor's own check (ibs + scale <= 63) is one bit short: an accepted layer overflows on an element its
    own range check admits. *)
Theorem C24_overflow_refuted : exists r e, from_multiplier 8 7 1 38 = Some r /\ Z.abs e <= zpow2 (rq_ibs r) /\ rq_op1 8 r e = None.
Proof. exists (mkRequant 7 (2 ^ 25) 25 38), (2 ^ 38). split; [reflexivity|]. split; [cbn; lia|]. vm_compute. reflexivity. Qed.
Print Assumptions C24_overflow_refuted.
(** The sign of the integer part of log2 is dropped: the layer built for the multiplier 4 = 2^2 divides by 4. *)
Theorem C24_multiplier_above_one_refuted : exists r, from_multiplier 8 2 1 16 = Some r /\ rq_op1 8 r 10 = Some 3.
Proof. eexists. split; reflexivity. Qed.
Print Assumptions C24_multiplier_above_one_refuted.
(** A multiplier below 2^-31 gives a shift of 64 and the operation fails on every element, zero included. *)
Theorem C24_small_multiplier_refuted : exists r, from_multiplier 8 32 1 16 = Some r /\ forall e, rq_op1 8 r e = None.
Proof.
  exists (mkRequant 32 (2 ^ 32) 32 16). split; [reflexivity|]. intros e. destruct (rq_op1 8 _ e) as [y|] eqn:E; auto.
  apply op_bound in E; [|lia]. destruct E as (_ & _ & E). apply apply_rounds in E; [|lia]. destruct E as (u & H & _). cbn in H. lia.
Qed.
Print Assumptions C24_small_multiplier_refuted.
(** A layer with multiplier about 1/173 on 16-bit inputs. *)
Definition ex_rq : requant := mkRequant 7 24778765 25 16.
Example C24_ex_built : from_multiplier 8 7 (24778765 # 33554432) 16 = Some ex_rq /\ rq_ok ex_rq.
Proof. split; [vm_compute; reflexivity|]. unfold rq_ok. cbn. lia. Qed.
Example C24_ex : rq_op 8 ex_rq [1000; -1000; 86; 87; -65536; 0] = Some [6; -6; 0; 1; -127; 0].
Proof. vm_compute. reflexivity. Qed.

(** C25.  The witness: the clamping input is the rounded product, the clamping output is the clamped value, the
    chunks are digits of B bits, and together they give back the shifted product. *)
Theorem C25_witness : forall B, (0 < B)%nat -> forall r v c o ch, rq_witness1 B r v = Some (c, o, ch) ->
  rounds (v * rq_fpm r) (zpow2 (rq_shift r)) c /\ o = z_clamp (- q_max B) (q_max B) c /\
  length ch = (rq_shift r / B)%nat /\ Forall (in_range B) ch /\ (0 < rq_shift r < 63)%nat /\
  (forall k, rq_shift r = (k * B)%nat -> v * rq_fpm r + zpow2 (rq_shift r - 1) = c * zpow2 (rq_shift r) + digits_val B ch).
Proof. exact @witness_spec. Qed.
Print Assumptions C25_witness.
Theorem C25_witness_total : forall B, (0 < B)%nat -> forall r v, rq_ok r -> Z.abs v <= zpow2 (rq_ibs r) -> exists w, rq_witness1 B r v = Some w.
Proof. exact @witness_total. Qed.
Print Assumptions C25_witness_total.
Theorem C25_witness_output : forall B, (0 < B)%nat -> forall r v c o ch y, rq_witness1 B r v = Some (c, o, ch) -> rq_op1 B r v = Some y -> o = y.
Proof. exact @witness_output. Qed.
Print Assumptions C25_witness_output.
(** The clamping pair is in the clamping table if the scaled value fits half of it. *)
Theorem C25_clamp_row : forall B, (0 < B)%nat -> forall FL ls r v c o ch cs,
  rq_witness1 B r v = Some (c, o, ch) -> clamping_size r = Some cs -> (0 < cs)%nat ->
  Z.abs (v * rq_fpm r) + zpow2 (rq_shift r - 1) < zpow2 (cs - 1 + rq_shift r) ->
  exists rows, table_rows B FL ls (TClamping cs) = Some rows /\ In [c; o] rows.
Proof. exact @witness_clamp_row. Qed.
Print Assumptions C25_clamp_row.
(** In terms of the layer's parameters: every element of at most a quarter of the accepted range is covered. *)
Theorem C25_clamp_row_quarter : forall B FL ls r v c o ch cs, (0 < B)%nat -> rq_witness1 B r v = Some (c, o, ch) -> clamping_size r = Some cs ->
  (2 <= cs)%nat -> 0 < rq_fpm r -> 4 * Z.abs v <= zpow2 (rq_ibs r) ->
  exists rows, table_rows B FL ls (TClamping cs) = Some rows /\ In [c; o] rows.
Proof. exact @witness_clamp_row_quarter. Qed.
Print Assumptions C25_clamp_row_quarter.
(** The layer accepts elements whose clamping input is in no row of the layer's table. *)
Theorem C25_clamp_row_refuted : exists r v y c o ch cs, from_multiplier 8 7 1 20 = Some r /\ rq_op1 8 r v = Some y /\
  rq_witness1 8 r v = Some (c, o, ch) /\ clamping_size r = Some cs /\
  forall FL ls rows, table_rows 8 FL ls (TClamping cs) = Some rows -> ~ In [c; o] rows.
Proof. exact clamp_row_missing. Qed.
Print Assumptions C25_clamp_row_refuted.
(** Completeness: at every point the verifier's recombination of the honest columns is the input column's value. *)
Theorem C25_recombine : forall (K : field) B, (0 < B)%nat -> forall r (vals : list Z) (ws : list (Z * Z * list Z)) (pt : list K) k,
  rq_shift r = (k * B)%nat -> fZ (rq_fpm r) <> (@f0 K) -> length vals = (2 ^ length pt)%nat ->
  omapM (rq_witness1 B r) vals = Some ws ->
  recombine_claims B r (mle (map (fun w => fZ (fst (fst w))) ws) pt)
    (map (fun j => mle (map (fun w => fZ (nth j (snd w) 0)) ws) pt) (seq 0 k))
  = Some (mle (map fZ vals) pt).
Proof. exact @recombine_honest. Qed.
Print Assumptions C25_recombine.
(** Soundness: digits from the range table and a row of the clamping table that satisfy the recombination equation
    in the field make the output the requantised input, for every input bounded by V. *)
Theorem C25_sound : forall p (Hp : prime (Zpos p)) B r v V c o ch cs k FL ls rows,
  (0 < B)%nat -> rq_shift r = (k * B)%nat -> (0 < rq_shift r < 64)%nat -> 0 < rq_fpm r < Zpos p -> Z.abs v <= V ->
  length ch = k -> Forall (in_range B) ch ->
  (0 < cs)%nat -> table_rows B FL ls (TClamping cs) = Some rows -> In [c; o] rows ->
  V * rq_fpm r + zpow2 (rq_shift r) + zpow2 (cs - 1 + rq_shift r) <= Zpos p ->
  recombine_claims (K := Fp_field p Hp) B r (fZ c) (map fZ ch) = Some (fZ v) ->
  (exists u, rounds (v * rq_fpm r) (zpow2 (rq_shift r)) u /\ o = z_clamp (- q_max B) (q_max B) u) /\
  forall y, rq_op1 B r v = Some y -> o = y.
Proof. exact @requant_sound_output. Qed.
Print Assumptions C25_sound.
Example C25_ex_witness : rq_witness1 8 ex_rq (-1000) = Some (-6, -6, [56; 13; 18; 187]).
Proof. vm_compute. reflexivity. Qed.
(** Small parameters: the digits, the table row, the bound and the recombination equation of [C25_sound] in the field
    of 101 elements. *)
Definition ex_small : requant := mkRequant 1 5 3 4.
Example C25_ex_small : rq_ok ex_small /\ rq_witness1 2 ex_small 3 = Some (1, 1, [3; 1]) /\ rq_op1 2 ex_small 3 = Some 1 /\ clamping_size ex_small = Some 3%nat /\ Z.abs (3 * rq_fpm ex_small) + zpow2 (rq_shift ex_small - 1) < zpow2 (3 - 1 + rq_shift ex_small).
Proof. split; [unfold rq_ok; cbn; lia|]. split; [vm_compute; reflexivity|]. split; [vm_compute; reflexivity|]. split; reflexivity. Qed.
Example C25_ex_bound : 3 * rq_fpm ex_small + zpow2 (rq_shift ex_small) + zpow2 (3 - 1 + rq_shift ex_small) <= 101.
Proof. vm_compute. discriminate. Qed.
Example C25_ex_recombine :
  match recombine_claims (K := F101) 2 ex_small (fZ 1) (map fZ [3; 1]) with Some w => to_element 101 w | None => 0 end = 3.
Proof. vm_compute. reflexivity. Qed.
(** The bound of the soundness theorem holds for Goldilocks and the 16-bit layer above. *)
Example C25_ex_gold : zpow2 16 * rq_fpm ex_rq + zpow2 (rq_shift ex_rq) + zpow2 (9 - 1 + rq_shift ex_rq) <= Zpos gold.
Proof. vm_compute. discriminate. Qed.
