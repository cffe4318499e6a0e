(** Model of requantisation: zkml/src/layers/requant.rs (construction, the operation on elements and the lookup
    witness), and of the output bit sizes the layers announce.
    Elements are i64 values: an operation whose exact result does not fit is [None] (a panic in debug builds; a
    release build wraps silently).  A shift by 64 or more is [None] as well. *)
From Coq Require Import List Arith Lia Bool ZArith QArith Qround.
From Verif Require Import ListAux FieldDef M_Mle M_LogUp M_Lookup M_Tables M_Quant.
Import ListNotations.
Local Open Scope Z_scope.

Definition i64 (z : Z) : option Z := if (- 2 ^ 63 <=? z) && (z <? 2 ^ 63) then Some z else None.
(** [1 << n] as an i64 (1 << 63 is i64::MIN). *)
Definition shl1 (n : nat) : option Z :=
  if (n <? 63)%nat then Some (2 ^ Z.of_nat n) else if (n =? 63)%nat then Some (- 2 ^ 63) else None.
(** Arithmetic shift right. *)
Definition shr (z : Z) (n : nat) : option Z := if (n <? 64)%nat then Some (Z.shiftr z (Z.of_nat n)) else None.

(** requant.rs:50-70 [Requant] (the f32 multiplier itself is kept only for comparisons). *)
Record requant := mkRequant { rq_right_shift : nat; rq_fpm : Z; rq_fp_scale : nat; rq_ibs : nat }.

Section R.
Variable B : nat.   (* BIT_LEN *)

(** requant.rs:406-435 [from_multiplier]: [ip] is |trunc(log2 m)| and [eps] is 2^fract(log2 m), the results of
    the f32 logarithm and power; [FIXED_POINT_SCALE] = 25. *)
Definition next_multiple_of (n m : nat) : option nat :=
  match m with O => None | S _ => Some (m * ((n + m - 1) / m))%nat end.
Definition from_multiplier (ip : nat) (eps : Q) (ibs : nat) : option requant :=
  nm <- next_multiple_of (ip + 25) B ;;
  let fp := (nm - ip)%nat in
  if (64 <=? fp)%nat then None
  else
    let fpm := q_round (eps * inject_Z (2 ^ Z.of_nat fp)) in
    if (ibs + fp <=? 63)%nat then Some (mkRequant ip fpm fp ibs) else None.

(** requant.rs:449-452 [shift]. *)
Definition rq_shift (r : requant) : nat := (rq_fp_scale r + rq_right_shift r)%nat.

(** requant.rs:454-469 [apply]. *)
Definition rq_apply (r : requant) (e : Z) : option Z :=
  match rq_shift r with
  | O => None
  | S sh1 =>
      rounding <- shl1 sh1 ;;
      m <- i64 (e * rq_fpm r) ;;
      s <- i64 (rounding + m) ;;
      unclamped <- shr s (S sh1) ;;
      a <- i64 (Z.abs unclamped) ;;
      let sign := if unclamped >=? 0 then 1 else -1 in
      if a >=? q_max B then Some (q_max B * sign) else Some unclamped
  end.
(** requant.rs:471-482 [op] on one element (the tensor version maps it and fails if any element fails). *)
Definition rq_op1 (r : requant) (e : Z) : option Z :=
  bound <- shl1 (rq_ibs r) ;;
  a <- i64 (Z.abs e) ;;
  if a <=? bound then rq_apply r e else None.
Definition rq_op (r : requant) (l : list Z) : option (list Z) := omapM (rq_op1 r) l.

(** requant.rs:484-488 [clamping_size]: usize subtraction, ceil_log2 of the multiplier. *)
Definition clamping_size (r : requant) : option nat :=
  c <- ceil_log2 (Z.to_nat (rq_fpm r)) ;;
  if (rq_shift r <=? rq_ibs r + c)%nat then Some (rq_ibs r + c - rq_shift r)%nat else None.

(** requant.rs:228-278 [gen_lookup_witness] for one element: clamping input, clamping output, range chunks. *)
Definition rq_witness1 (r : requant) (v : Z) : option (Z * Z * list Z) :=
  match rq_shift r with
  | O => None
  | S sh1 =>
      rounding <- shl1 sh1 ;;
      one <- shl1 (S sh1) ;;
      mask <- i64 (one - 1) ;;
      m <- i64 (v * rq_fpm r) ;;
      tmp <- i64 (m + rounding) ;;
      clamp <- shr tmp (S sh1) ;;
      let masked := Z.land tmp mask in
      let out := if clamp <? q_min B then q_min B else if q_max B <? clamp then q_max B else clamp in
      let range_mask := 2 ^ Z.of_nat B - 1 in
      chunks <- omapM (fun j => s <- shr masked (j * B) ;; Some (Z.land s range_mask)) (seq 0 (S sh1 / B)) ;;
      Some (clamp, out, chunks)
  end.

Section F.
Context {K : field}.
Local Open Scope F_scope.
(** requant.rs:497-525 [recombine_claims] (the inverse of a zero multiplier panics). *)
Definition recombine_claims (r : requant) (clamping_claim : K) (shifted_claims : list K) : option K :=
  match rq_shift r with
  | O => None
  | S sh1 =>
      if (64 <=? S sh1)%nat then None
      else
        let '(full, _) := fold_left (fun '(acc, pow_two) v => (acc + v * pow_two, pow_two * fZ (2 ^ Z.of_nat B)))
                                    shifted_claims (fZ (2 ^ Z.of_nat (S sh1)) * clamping_claim, 1) in
        inv <- finv_opt (fZ (rq_fpm r)) ;;
        Some ((full - fZ (2 ^ Z.of_nat sh1)) * inv)
  end.
End F.
End R.
