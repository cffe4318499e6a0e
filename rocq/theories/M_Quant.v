(** Model of quantisation: the embedding of integers in the base field and the scaling factors of
    zkml/src/quantization/mod.rs.  f32 values are rationals; every f32 operation is the exact one followed by an
    arbitrary rounding function, so the theorems state what they need of it.  NaN and infinities are not
    modelled (a scale is positive). *)
From Coq Require Import List Arith Lia Bool ZArith QArith Qround Qabs.
From Verif Require Import ListAux FieldDef FpInst M_Mle M_LogUp M_Lookup M_Tables.
Import ListNotations.

Section Embed.
Variable p : positive.
(** mod.rs:211-219 [Fieldizer::to_field].  [from_canonical_u64] reduces (for canonical inputs it is the identity). *)
Definition to_field (x : Z) : Fp p :=
  if Z.ltb x 0 then mkFp p (Zpos p - Z.abs x) else mkFp p x.
(** mod.rs:226-241 [IntoElement::to_element] on a base field value. *)
Definition to_element (a : Fp p) : Z :=
  let e := fpv p a in
  let modulus_half := (Zpos p / 2)%Z in
  if fp_eqb p a (mkFp p 0) then 0%Z
  else if Z.leb e modulus_half then e
  else (- (Zpos p - e))%Z.
End Embed.

Local Open Scope Q_scope.
(** [f32::round]: to the nearest integer, halves away from zero. *)
Definition q_round (x : Q) : Z :=
  if Qle_bool 0 x then Qfloor (x + (1 # 2)) else (- Qfloor (- x + (1 # 2)))%Z.
Definition z_clamp (lo hi v : Z) : Z := Z.max lo (Z.min hi v).

(** mod.rs:39-45 [ScalingFactor]. *)
Record scaling := mkScaling { sc_min : Q; sc_max : Q; sc_scale : Q; sc_dom : Z * Z }.

Section Float.
Variable rnd : Q -> Q.   (* rounding of an f32 operation *)
Variable B : nat.

(** mod.rs:62-71 [from_span] with the quantised domain defaulting to (MIN, MAX). *)
Definition from_span (mn mx : Q) (dom : option (Z * Z)) : scaling :=
  let d := match dom with Some d => d | None => (q_min B, q_max B) end in
  mkScaling mn mx (rnd (rnd (mx - mn) / inject_Z (snd d - fst d))) d.
(** mod.rs:48-50 [from_absolute_max]. *)
Definition from_absolute_max (a : Q) (dom : option (Z * Z)) : scaling := from_span (- Qabs a) (Qabs a) dom.
(** mod.rs:72-84 [from_scale]. *)
Definition from_scale (s : Q) (dom : option (Z * Z)) : scaling :=
  let d := match dom with Some d => d | None => (q_min B, q_max B) end in
  let mx := rnd (rnd (s / 2) * inject_Z (snd d - fst d)) in
  mkScaling (- Qabs mx) mx s d.
(** mod.rs:129-148 [quantize]: round(value / scale), then clamp ([Element::clamp] panics if lo > hi). *)
Definition quantize (s : scaling) (value : Q) : option Z :=
  let scaled := q_round (rnd (value / sc_scale s)) in
  if Z.leb (fst (sc_dom s)) (snd (sc_dom s)) then Some (z_clamp (fst (sc_dom s)) (snd (sc_dom s)) scaled) else None.
(** mod.rs:150-152 [dequantize]. *)
Definition dequantize (s : scaling) (value : Z) : Q := rnd (inject_Z value * sc_scale s).
(** mod.rs:197-204 [bias_scaling_matmul]. *)
Definition bias_scaling_matmul (input model : scaling) : scaling :=
  let b := (2 ^ (2 * Z.of_nat B - 1) - 1)%Z in
  from_scale (rnd (sc_scale input * sc_scale model)) (Some (- b, b)%Z).
End Float.
