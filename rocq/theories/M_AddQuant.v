(** Model of how an addition layer is quantised: zkml/src/layers/add.rs [QuantInfo::new], [intermediate_bit_size] and the
    requantisation that follows.  f32 values are exact rationals: rounding of the divisions and of the logarithms is left out.
    A logarithm only occurs as |log2 s|, which the model keeps as the number 2^|log2 s|: comparing and subtracting logarithms is
    comparing and dividing these numbers. *)
From Coq Require Import List Arith Lia Bool ZArith QArith Qround.
From Verif Require Import ListAux M_Quant M_Requant.
Import ListNotations.
Local Open Scope Q_scope.

(** 2^|log2 s| for a positive scale. *)
Definition prec (s : Q) : Q := if Qle_bool 1 s then s else / s.
(** The ceiling of log2 of a number that is at least one. *)
Definition clog (q : Q) : nat := Z.to_nat (Z.log2_up (Qceiling q)).
Definition q_pow2 (n : nat) : Q := inject_Z (2 ^ Z.of_nat n).
Definition q_ltb (a b : Q) : bool := negb (Qle_bool b a).

(** add.rs:282-294 [QuantInfo]. *)
Record quant_info := mkQi { qi_left : Z; qi_right : Z; qi_common : Q; qi_requant : bool }.

Section Q.
Variable B : nat.   (* BIT_LEN *)
(** add.rs:312-378: the common scale, and whether a requantisation follows; [h], [l]: the scales of higher and lower precision,
    [out]: that of the output. *)
Definition scale_comparison (h l out : Q) : Q * bool :=
  if q_ltb (prec h) (prec out) then                      (* add.rs:318-341 *)
    if Qle_bool (q_pow2 B * prec h) (prec out) then (out, false)
    else (/ q_pow2 (clog (prec h) + B), true)
  else if q_ltb (prec out) (prec h) then                 (* add.rs:361-376 *)
    if Qle_bool (q_pow2 8 * prec l) (prec h) then (h, true)
    else (/ q_pow2 (clog (prec h) + 8), true)
  else                                                   (* add.rs:342-360 *)
    if Qle_bool (q_pow2 B * prec l) (prec out) then (out, false)
    else (/ q_pow2 (clog (prec h) + B), true).
(** add.rs:298-401 [QuantInfo::new]; in every branch the multipliers are the rounded quotients by the common scale. *)
Definition quant_info_new (sl sr out : Q) : quant_info :=
  let '(common, rq) := if Qle_bool (prec sl) (prec sr) then scale_comparison sr sl out else scale_comparison sl sr out in
  mkQi (q_round (sl / common)) (q_round (sr / common)) common rq.
End Q.
(** add.rs:422-424 [intermediate_bit_size]. *)
Definition add_bit_size (i : quant_info) : nat := (clog (prec (qi_common i)) + 2)%nat.
(** add.rs:472-479 [requant_from_add]; [ip], [eps]: the split of the multiplier common / out as in [from_multiplier]. *)
Definition requant_from_add (B : nat) (i : quant_info) (ip : nat) (eps : Q) : option requant := from_multiplier B ip eps (add_bit_size i).
