(** Model of zkml/src/layers/pooling.rs: the declared output shape of max pooling and the difference
    columns handed to the lookup and zero-check arguments.

    Conventions as in M_Tensor.  The columns are kept as integers: [to_field] followed by
    [as_bases()[0]] (pooling.rs:760-762) is the map [fZ] of the quantisation model. *)
From Coq Require Import List Arith Lia Bool ZArith.
From Verif Require Import ListAux FieldDef M_Mle M_Tensor.
Import ListNotations.

(** [maxpool2d_shape] (pooling.rs:774-784): stride 2, padding 0, kernel 2, dilation 1; indexing panics. *)
Definition maxpool2d_shape (s : list nat) : option (list nat) :=
  d1 <- nth_error s 0 ;; h <- nth_error s 1 ;;
  x <- csub (h + 2 * 0) (1 * (2 - 1)) ;; y <- csub x 1 ;;
  let d2 := y / 2 + 1 in Some [d1; d2; d2].
(** [check_cnn_input], [safe_maxpool2d_shape] (zkml/src/parser/mod.rs:200-204, 206-209). *)
Definition check_cnn_input (s : list nat) : bool :=
  match s with [_; h; w] => h =? w | _ => false end.
Definition safe_maxpool2d_shape (s : list nat) : option (list nat) :=
  if check_cnn_input s then maxpool2d_shape s else None.

(** [Maxpool2D::op] (pooling.rs:667-677). *)
Definition maxpool_op (kernel stride : nat) (t : ten Z) : option (ten Z) :=
  if kernel =? 2 then if stride =? 2 then maxpool2d t kernel stride else None else None.

(** [Iterator::step_by] for a non-zero step. *)
Definition step_by {A} (n : nat) (l : list A) : list A :=
  flat_map (fun c => match c with [] => [] | x :: _ => [x] end) (chunks n l).
(** [Itertools::interleave] *)
Fixpoint interleave {A} (l h : list A) {struct l} : list A :=
  match l with
  | [] => h
  | x :: l' => x :: match h with [] => l' | y :: h' => y :: interleave l' h' end
  end.
(** One pass of the merging loop (pooling.rs:728-752). *)
Definition merge_pass (merged : list (list Z)) (i : nat) : option (list (list Z)) :=
  let mid := 2 ^ i in
  if mid <=? length merged then
    Some (map (fun p => interleave (fst p) (snd p)) (combine (firstn mid merged) (skipn mid merged)))
  else None.
(** The differences of one pair of chunks (pooling.rs:725-765). *)
Definition chunk_diffs (w : nat) (out : list Z) (p : list (list Z) * list (list Z)) : option (list Z * list Z) :=
  lw <- ceil_log2 w ;; k <- csub lw 1 ;;
  even <- ofold merge_pass (rev (seq 0 k)) (fst p) ;;
  odd <- ofold merge_pass (rev (seq 0 k)) (snd p) ;;
  e0 <- nth_error even 0 ;; o0 <- nth_error odd 0 ;;
  Some (List.split (map (fun q => let '(e, (o, d)) := q in ((d - e)%Z, (d - o)%Z)) (combine e0 (combine o0 out)))).
(** [compute_polys] (pooling.rs:686-769). *)
Definition compute_polys (kernel stride : nat) (t : ten Z) : option (list (list Z)) :=
  padded_input <- pad_next_power_of_two 0%Z t ;;
  o <- maxpool_op kernel stride t ;;
  padded_output <- pad_next_power_of_two 0%Z o ;;
  w <- nth_error (sh padded_input) 2 ;;
  let new_fixed := map (fun i => step_by (w * 2) (skipn i (dat padded_input))) (seq 0 (w * 2)) in
  let new_even := step_by 2 new_fixed in
  let new_odd := step_by 2 (skipn 1 new_fixed) in
  ec <- ochunks (w / 2) new_even ;; oc <- ochunks (w / 2) new_odd ;;
  r <- omapM (chunk_diffs w (dat padded_output)) (combine ec oc) ;;
  let '(even_diff, odd_diff) := List.split r in
  Some (even_diff ++ odd_diff).
