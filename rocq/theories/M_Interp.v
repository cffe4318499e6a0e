(** Model of sumcheck/src/util.rs: univariate interpolation, batch inversion, barycentric
    extrapolation.  [fnat] models [F::from_canonical_u64] (all arguments are lengths or small
    degrees, below the characteristic). *)
From Coq Require Import List Arith Lia Bool ZArith.
From Verif Require Import ListAux FieldDef M_Mle.
Import ListNotations.

Section Interp.
Context {K : field}.
Local Open Scope F_scope.

(** util.rs:199-205 [field_factorial]. *)
Definition field_factorial (a : nat) : K :=
  fold_left (fun res i => res * fnat i) (seq 2 (a - 1)) 1.

(** util.rs:184-192: the loop of [interpolate_uni_poly], [i] running from [len-1] down to [0].
    [.inverse()] panics on zero. *)
Definition interp_step (len : nat) (p_i evals : list K) (prod : K)
  (s : K * K * K) (i : nat) : option (K * K * K) :=
  let '(res, up, down) := s in
  inv <- finv_opt (up * nth i evals 0) ;;
  let res' := res + nth i p_i 0 * prod * down * inv in
  Some (if Nat.eqb i 0 then (res', up, down)
        else (res', up * (- fnat (len - i)), down * fnat i)).

(** util.rs:148-195 [interpolate_uni_poly]; [len - 1] underflows (panics) on an empty input. *)
Definition interpolate_uni_poly (p_i : list K) (eval_at : K) : option K :=
  let len := length p_i in
  if Nat.eqb len 0 then None
  else
    let tmps := map (fun e => eval_at - fnat e) (seq 1 (len - 1)) in
    let evals := eval_at :: tmps in
    let prod := fold_left fmul tmps eval_at in
    s <- ofold (interp_step len p_i evals prod) (rev (seq 0 len)) (0, field_factorial (len - 1), 1) ;;
    let '(res, _, _) := s in Some res.

(** util.rs:63-99 [serial_batch_inversion_and_mul].  First pass: running products of the non-zero
    entries. *)
Fixpoint running_prods (tmp : K) (v : list K) : list K :=
  match v with
  | [] => []
  | f :: t => if f =? 0 then running_prods tmp t else (tmp * f) :: running_prods (tmp * f) t
  end.
Definition total_prod (v : list K) : K := fold_left (fun acc f => if f =? 0 then acc else acc * f) v 1.
(** Second pass, over the reversed vector: zero entries are skipped, the others are zipped with
    [ss]; the zip stops when [ss] is exhausted. *)
Fixpoint bi_back (tmp : K) (rv ss : list K) : list K :=
  match rv with
  | [] => []
  | f :: t =>
      if f =? 0 then f :: bi_back tmp t ss
      else match ss with
           | [] => f :: t
           | s :: ss' => (tmp * s) :: bi_back (tmp * f) t ss'
           end
  end.
Definition serial_batch_inversion_and_mul (v : list K) (coeff : K) : option (list K) :=
  let prods := running_prods 1 v in
  inv <- finv_opt (total_prod v) ;;
  Some (rev (bi_back (inv * coeff) (rev v) (skipn 1 (rev prods) ++ [1]))).

(** util.rs:48-59 [batch_inversion_and_mul]: chunks of [max(len / ncpus, 1)] entries. *)
Definition batch_inversion_and_mul (ncpus : nat) (v : list K) (coeff : K) : option (list K) :=
  if Nat.eqb ncpus 0 then None
  else
    cs <- omapM (fun c => serial_batch_inversion_and_mul c coeff)
                (chunks (Nat.max (length v / ncpus) 1) v) ;;
    Some (concat cs).
Definition batch_inversion (ncpus : nat) (v : list K) := batch_inversion_and_mul ncpus v 1.

(** util.rs:19-35 [barycentric_weights]. [reduce(..).unwrap_or(ONE)] of the differences. *)
Definition reduce_mul (l : list K) : K :=
  match l with [] => 1 | x :: t => fold_left fmul t x end.
Definition barycentric_weights (ncpus : nat) (points : list K) : option (list K) :=
  batch_inversion ncpus
    (map (fun j => reduce_mul (map (fun i => nth j points 0 - nth i points 0)
                                   (filter (fun i => negb (Nat.eqb i j)) (seq 0 (length points)))))
         (seq 0 (length points))).

(** util.rs:109-136 [inner_extrapolate]; [par] chooses the parallel batch inversion. *)
Definition inner_extrapolate (par : option nat) (points weights evals : list K) (at_ : K) : option K :=
  coeffs <- match par with
            | Some ncpus => batch_inversion ncpus (map (fun p => at_ - p) points)
            | None => serial_batch_inversion_and_mul (map (fun p => at_ - p) points) 1
            end ;;
  let prods := map (fun '(c, w) => c * w) (combine coeffs weights) in
  let sum := fold_left fadd prods 0 in
  let sum_inv := match finv_opt sum with Some i => i | None => 0 end in
  (* entries beyond [weights] are not multiplied *)
  let coeffs' := prods ++ skipn (length prods) coeffs in
  Some (fold_left fadd (map (fun '(c, e) => c * e) (combine coeffs' evals)) 0 * sum_inv).
End Interp.
