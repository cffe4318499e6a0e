(** Model of the lookup tables: zkml/src/lookup/context.rs [TableType].
    The quantisation bit length (quantization/mod.rs:20-26, [BIT_LEN]) is the parameter [B].
    Floating point is not modelled: the outputs of the GELU, Softmax and InverseSQRT tables and the
    printing of f32 values are arbitrary functions, so every theorem holds whatever they are. *)
From Coq Require Import String DecimalString.
From Coq Require Import List Arith Lia Bool ZArith.
From Verif Require Import ListAux FieldDef M_Mle M_Interp M_Sumcheck M_ScParallel M_SamePoly M_LogUp M_Lookup.
Import ListNotations.

(** context.rs:53-72 [TableType] with the data of context.rs:74-155 and activation.rs:564-572. *)
Inductive table_type :=
  | TRelu
  | TGELU (multiplier tmin tmax : Z)
  | TRange
  | TClamping (size : nat)
  | TSoftmax (float_bits : Z) (size : nat) (bkm : Z)
  | TError (quant_one allowable_error : Z)
  | TZero (bits : nat)
  | TInvSqrt (eps_bits : Z) (range_check_bits : nat).

Record floats := mkFloats {
  fl_gelu : Z -> Z;                 (* activation.rs:583-587 [GELUQuantData::table_output] *)
  fl_exp : Z -> Z -> Z;             (* context.rs:117-119: temperature bits, prod *)
  fl_isqrt : Z -> Z -> Z;           (* context.rs:146-155: epsilon bits, shifted value *)
  fl_show : Z -> string }.          (* Display of f32::from_bits *)

Section Tables.
Variable B : nat.                   (* BIT_LEN *)
Variable FL : floats.
Variable log_scale : nat.           (* LOG_SCALE_FACTOR - 8, layers/transformer/softmax.rs *)

(** quantization/mod.rs:28-29. *)
Definition q_min : Z := - 2 ^ (Z.of_nat B - 1) + 1.
Definition q_max : Z := 2 ^ (Z.of_nat B - 1) - 1.

(** activation.rs:552-555 [Relu::apply]. *)
Definition relu_apply (x : Z) : Z := if Z.ltb x 0 then 0 else x.
(** context.rs:215-221: clamp of a table input. *)
Definition clamp_out (i : Z) : Z := if Z.ltb i q_min then q_min else if Z.ltb q_max i then q_max else i.
(** context.rs:110-121 [SoftmaxTableData::table_output]. *)
Definition softmax_out (float_bits bkm j : Z) : Z :=
  let prod := (2 ^ Z.of_nat log_scale * j)%Z in
  if Z.leb bkm prod then 0 else fl_exp FL float_bits prod.
(** context.rs:145-154 [InverseSQRTTableData::table_output]. *)
Definition isqrt_out (eps_bits : Z) (shift : nat) (j : Z) : Z := fl_isqrt FL eps_bits (j * 2 ^ Z.of_nat shift).

(** The integers lo, lo+1, .., hi-1. *)
Definition zrange (lo hi : Z) : list Z := map (fun i => (lo + Z.of_nat i)%Z) (seq 0 (Z.to_nat (hi - lo))).
(** activation.rs:575-577 [GELUQuantData::table_size]. *)
Definition gelu_size (tmin tmax : Z) : nat := Z.to_nat (Z.log2 (tmax - tmin + 1)).
(** activation.rs:629-658 [GELU::quantize]: the table for a (rounded) multiplier; the hard-coded 7 bits are the
    code's.  [None] is a panic (ceil_log2 0, or a table above 2^20 rows). *)
Definition gelu_quantize (multiplier : Z) : option table_type :=
  if Z.ltb multiplier 0 then None
  else
    c <- ceil_log2 (Z.to_nat multiplier) ;;
    let m := (2 ^ Z.of_nat (7 + c))%Z in
    if Z.leb (m - - m) (2 ^ 20) then Some (TGELU multiplier (- m) m) else None.
(** activation.rs:662-670 [GELU::apply] on a quantised input: the looked-up pair. *)
Definition gelu_lookup (t : table_type) (x : Z) : option (Z * Z) :=
  match t with
  | TGELU mu lo hi =>
      let scaled := (x * mu)%Z in
      if Z.leb lo scaled && Z.leb scaled hi then Some (scaled, fl_gelu FL scaled) else None
  | _ => None
  end.
(** context.rs:255-264: [chain(repeat(0)).take(n)]. *)
Definition pad_take (n : nat) (l : list Z) : list Z := firstn n (l ++ repeat 0%Z n).

(** context.rs:158-296: the rows of a table.  [None] is a panic: a shift by a negative amount
    ([Clamping(0)]) or ceil_log2 0 ([ErrorTable(_, 0)]; a negative error is treated the same way). *)
Definition error_vars (ae : Z) : option nat := if Z.ltb ae 0 then None else ceil_log2 (Z.to_nat (2 * ae)).
Definition table_rows (t : table_type) : option (list (list Z)) :=
  match t with
  | TGELU _ lo hi => Some (map (fun i => [i; fl_gelu FL i]) (zrange lo hi))
  | TRelu => Some (map (fun i => [i; relu_apply i]) (zrange (q_min - 1) (q_max + 1)))
  | TRange => Some (map (fun i => [i]) (zrange 0 (2 ^ Z.of_nat B)))
  | TClamping size =>
      match size with
      | O => None
      | S s => Some (map (fun i => [i; clamp_out i]) (zrange (- 2 ^ Z.of_nat s) (2 ^ Z.of_nat s)))
      end
  | TSoftmax fb size bkm => Some (map (fun j => [j; softmax_out fb bkm j]) (zrange 0 (2 ^ Z.of_nat size)))
  | TError q1 ae =>
      nv <- error_vars ae ;;
      Some (map (fun i => [i]) (pad_take (2 ^ nv) (zrange (q1 - ae) (q1 + ae + 1))))
  | TZero bits => Some (map (fun i => [i; if Z.eqb i 0 then 1 else 0]%Z) (zrange 0 (2 ^ Z.of_nat bits)))
  | TInvSqrt eb rcb =>
      let m := (2 ^ Z.of_nat (2 * (B - 1)))%Z in
      Some (map (fun i => [i; isqrt_out eb rcb i]) (zrange (- m) m))
  end.
Definition table_width (t : table_type) : nat := match t with TRange | TError _ _ => 1 | _ => 2 end.
(** context.rs:158-296: the merged column. *)
Definition table_keys (t : table_type) : option (list Z) := rows <- table_rows t ;; Some (map merged_key rows).

(** context.rs:481-492 [multiplicity_poly_vars]. *)
Definition table_vars (t : table_type) : option nat :=
  match t with
  | TGELU _ lo hi => Some (gelu_size lo hi)
  | TRange | TRelu => Some B
  | TClamping bits => Some bits
  | TSoftmax _ size _ => Some size
  | TError _ ae => error_vars ae
  | TZero bits => Some bits
  | TInvSqrt _ _ => Some (2 * (B - 1) + 1)%nat
  end.

(** Decimal printing of integers. *)
Definition show_z (z : Z) : string := NilEmpty.string_of_int (Z.to_int z).
(** context.rs:298-319 [name]. *)
Definition table_name (t : table_type) : string :=
  match t with
  | TRelu => "Relu"
  | TGELU _ _ _ => "GELU"
  | TRange => "Range"
  | TClamping size => "Clamping: " ++ show_z (Z.of_nat size)
  | TSoftmax fb _ _ => "Softmax - temperature: " ++ fl_show FL fb
  | TError q1 ae => "Error Table - quantised one: " ++ show_z q1 ++ ", allowable error: " ++ show_z ae
  | TZero bits => "Zero: " ++ show_z (Z.of_nat bits)
  | TInvSqrt eb rcb => "InverseSQRT - normalisation: " ++ fl_show FL eb ++ ", shift: " ++ show_z (Z.of_nat rcb)
  end%string.

Section Field.
Context {K : field}.
Local Open Scope F_scope.

(** context.rs:158-296: the columns as field vectors. *)
Definition table_columns (t : table_type) : option (list (list K)) :=
  rows <- table_rows t ;; Some (columns_of (table_width t) rows).

(** mle.rs:106-110 [into_mle] of a vector of base elements. *)
Definition into_mle_base (l : list K) : option (dmle K) :=
  if is_pow2 (length l) then n <- ceil_log2 (length l) ;; from_evaluations_vec n l else None.

(** The fold over the enumerated point with weights 1 << index (e.g. context.rs:337-341). *)
Definition weight_sum (point : list K) : K :=
  fold_left (fun acc '(i, p) => acc + p * fZ (2 ^ Z.of_nat i)) (combine (seq 0 (length point)) point) 0.
(** [1u64 << (n - 1)] (underflow panics). *)
Definition half_of (n : nat) : option K := match n with O => None | S m => Some (fZ (2 ^ Z.of_nat m)) end.

(** context.rs:321-462 [evaluate_table_columns]; [esch] schedules the parallel MLE evaluation of the
    clamping column. *)
Definition evaluate_table_columns (esch : nat -> list nat) (t : table_type) (point : list K) : option (list K) :=
  match t with
  | TRange =>
      if negb (Nat.eqb (length point) B) then None else Some [weight_sum point]
  | TRelu =>
      if negb (Nat.eqb (length point) B) then None
      else
        h <- half_of B ;;
        Some [weight_sum point - h;
              fold_left (fun acc '(i, p) => acc + p * fZ (2 ^ Z.of_nat i) * nth (length point - 1) point 0)
                        (firstn (length point - 1) (combine (seq 0 (length point)) point)) 0]
  | TGELU _ lo hi =>
      if negb (Nat.eqb (length point) (gelu_size lo hi)) then None
      else h <- half_of (gelu_size lo hi) ;; Some [weight_sum point - h]
  | TClamping size =>
      if negb (Nat.eqb (length point) size) then None
      else
        match size with
        | O => None
        | S s =>
            h <- half_of size ;;
            m <- into_mle_base (map (fun i => fZ (clamp_out i)) (zrange (- 2 ^ Z.of_nat s) (2 ^ Z.of_nat s))) ;;
            e <- evaluate esch m point ;;
            Some [weight_sum point - h; e]
        end
  | TSoftmax _ size _ =>
      if negb (Nat.eqb (length point) size) then None else Some [weight_sum point]
  | TError _ _ => Some []
  | TZero bits =>
      if negb (Nat.eqb (length point) bits) then None
      else
        let '(a, o) := fold_left (fun '(ia, oa) '(i, p) => (ia + p * fZ (2 ^ Z.of_nat i), oa * (1 - p)))
                                 (combine (seq 0 (length point)) point) (0, 1) in
        Some [a; o]
  | TInvSqrt _ _ =>
      if negb (Nat.eqb (length point) (2 * (B - 1) + 1)) then None
      else Some [weight_sum point - fZ (2 ^ Z.of_nat (2 * (B - 1)))]
  end.

(** context.rs:494-546 [committed_columns]. *)
Definition committed_columns (t : table_type) : option (option (dmle K)) :=
  match t with
  | TGELU _ lo hi =>
      m <- from_evaluations_vec (gelu_size lo hi) (map (fun i => fZ (fl_gelu FL i)) (zrange lo hi)) ;; Some (Some m)
  | TSoftmax fb size bkm =>
      m <- from_evaluations_vec size (map (fun j => fZ (softmax_out fb bkm j)) (zrange 0 (2 ^ Z.of_nat size))) ;; Some (Some m)
  | TError q1 ae =>
      nv <- error_vars ae ;;
      m <- from_evaluations_vec nv (map fZ (pad_take (2 ^ nv) (zrange (q1 - ae) (q1 + ae + 1)))) ;; Some (Some m)
  | TInvSqrt eb rcb =>
      let m := (2 ^ Z.of_nat (2 * (B - 1)))%Z in
      m <- from_evaluations_vec (2 * (B - 1) + 1) (map (fun i => fZ (isqrt_out eb rcb i)) (zrange (- m) m)) ;; Some (Some m)
  | _ => Some None
  end.

(** context.rs:464-479 [generate_challenge]. *)
Definition table_label (t : table_type) : option (list Z) :=
  match t with
  | TGELU _ _ _ => Some [71; 69; 76; 85]%Z
  | TRelu => Some [82; 101; 108; 117]%Z
  | TRange | TError _ _ => None
  | TClamping _ => Some [67; 108; 97; 109; 112; 105; 110; 103]%Z
  | TSoftmax _ _ _ => Some [83; 111; 102; 116; 109; 97; 120]%Z
  | TZero _ => Some [90; 101; 114; 111]%Z
  | TInvSqrt _ _ => Some [73; 110; 118; 101; 114; 115; 101; 83; 81; 82; 84]%Z
  end.
Definition generate_challenge (T : @hist K -> K) (t : table_type) (h : hist) : K * hist :=
  match table_label t with None => (1, h) | Some l => get_challenge T l h end.

(** context.rs:548-561 [table_claims] (the last claim; unwrap panics on an empty list). *)
Definition table_claims (t : table_type) (claims : list (@claim K)) : option (list (@claim K)) :=
  match t with
  | TSoftmax _ _ _ | TError _ _ | TInvSqrt _ _ | TGELU _ _ _ =>
      match rev claims with [] => None | c :: _ => Some [c] end
  | _ => Some []
  end.
End Field.
End Tables.
