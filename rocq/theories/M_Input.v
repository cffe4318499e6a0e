(** Model of the inputs of a proof request: [Input] (zkml/src/inputs.rs), the building of the input tensors of a
    model (zkml/src/model/mod.rs:114-146) and the proving loop of a worker
    (deep-prove/src/bin/worker/main.rs:76-143).  f32 values are rationals, so NaN and infinities are not modelled;
    JSON decoding is an arbitrary partial function. *)
From Coq Require Import List Arith Lia Bool ZArith QArith.
From Verif Require Import ListAux M_Mle M_Tensor M_Quant.
Import ListNotations.

(** inputs.rs:13-15 [Input]: its rows. *)
Definition input := list (list Q).

(** quantization/mod.rs:32-34 [QUANTIZATION_RANGE] and [RangeInclusive::contains]. *)
Definition range_contains (x : Q) : bool := Qle_bool (-1) x && Qle_bool x 1.
(** inputs.rs:35-44 [validate]. *)
Definition validate (i : input) : bool := (0 <? length i) && forallb (forallb range_contains) i.
(** inputs.rs:18-26 [from_file], 28-33 [from_reader], 77-82 [from_str]: decode, then validate. *)
Definition from_source {S} (decode : S -> option input) (s : S) : option input :=
  i <- decode s ;; if validate i then Some i else None.
(** inputs.rs:46-62 [filter]: panics if an index is out of range. *)
Definition filter_rows (i : input) (indices : option (list nat)) : option input :=
  match indices with
  | Some ix => if forallb (fun k => k <? length i) ix then omapM (nth_error i) ix else None
  | None => Some i
  end.
(** inputs.rs:64-71 [to_elements]; [md_input] is [md.input]; [first().unwrap()] panics if it is empty. *)
Definition to_elements (rnd : Q -> Q) (md_input : list scaling) (i : input) : option (list (list Z)) :=
  match md_input with
  | [] => None
  | sf :: _ => omapM (omapM (quantize rnd sf)) i
  end.

Section Load.
Context {A : Type} (zero : A).
Variables unpadded shapes : list (list nat).   (* model/mod.rs: [unpadded_input_shapes], [input_shapes] *)

(** Equality of shapes (model/mod.rs:126). *)
Fixpoint shape_eqb (a b : list nat) : bool :=
  match a, b with
  | [], [] => true
  | x :: a, y :: b => (x =? y) && shape_eqb a b
  | _, _ => false
  end.
(** model/mod.rs:114-135 [prepare_inputs]. *)
Definition prepare_inputs (ts : list (ten A)) : option (list (ten A)) :=
  if length shapes =? length ts then
    omapM (fun p => if shape_eqb (sh (fst p)) (snd p) then Some (fst p) else pad_to_shape zero (fst p) (snd p))
      (combine ts shapes)
  else None.
(** model/mod.rs:139-146 [load_input_flat]. *)
Definition load_input_flat (flat_inputs : list (list A)) : option (list (ten A)) :=
  ts <- omapM (fun p => tensor_new (snd p) (fst p)) (combine flat_inputs unpadded) ;;
  prepare_inputs ts.
End Load.

Section Worker.
Context {Tr Pr : Type}.
Variables unpadded shapes : list (list nat).
(* [Model::run]: [None] = panic, [Some None] = [Err]. *)
Variable run : list (ten Z) -> option (option Tr).
(* [Prover::prove] with a fresh transcript: [None] = [Err] or panic. *)
Variable prove : Tr -> option Pr.

(** worker/main.rs:106-136: the loop over the inputs; state [(proofs, failed_inputs)]. *)
Fixpoint prove_loop (i : nat) (inputs : list (list Z)) (proofs : list Pr) (failed : list nat)
  : option (list Pr * list nat) :=
  match inputs with
  | [] => Some (proofs, failed)
  | inp :: rest =>
      ts <- load_input_flat 0%Z unpadded shapes [inp] ;;
      r <- run ts ;;
      match r with
      | None => prove_loop (S i) rest proofs (failed ++ [i])
      | Some trace => pf <- prove trace ;; prove_loop (S i) rest (proofs ++ [pf]) failed
      end
  end.
(** worker/main.rs:76-143: what [run_model_v1] answers once the model and the context are there;
    [failed_inputs] (line 78) is not part of the answer.  Storing the parameters is not modelled. *)
Definition answer (rnd : Q -> Q) (md_input : list scaling) (i : input) : option (list Pr) :=
  inputs <- to_elements rnd md_input i ;;
  res <- prove_loop 0 inputs [] [] ;;
  Some (fst res).
End Worker.
