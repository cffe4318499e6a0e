(** Model of the quantisation of a whole model: zkml/src/quantization/metadata.rs and zkml/src/quantization/strategy.rs.

    The quantisation of one operation ([quantize_op] of each layer) is a parameter: it is given the node's id and the scaling
    factors of its inputs, and answers the quantised operation, the scaling factors of its outputs and, if the layer is to be
    followed by requantisation, the requantisation operations.  The auxiliary data of the strategy is part of the parameter.
    Hash maps are association lists in the order of insertion (M_Graph); the shapes of the model are left out. *)
From Coq Require Import List Arith Lia Bool QArith Qabs ZArith.
From Verif Require Import ListAux M_Mle M_Graph M_Tables M_Quant.
Import ListNotations.
Local Open Scope nat_scope.

Section Metadata.
Context {Op QOp Sc : Type}.
Variable quantize_op : nat -> Op -> list Sc -> option (QOp * list Sc * option (list QOp)).

(** metadata.rs:44-48 [MetadataBuilder]. *)
Record builder := mkBuilder { md_in : list Sc; md_outs : list (nat * list Sc); md_ins : list (nat * list Sc) }.
(** metadata.rs:51-57 [new]. *)
Definition builder_new (input_scaling : list Sc) : builder := mkBuilder input_scaling [] [].
(** metadata.rs:59-67 [set_layers_scaling]. *)
Definition set_layers_scaling (md : builder) (id : nat) (outs ins : list Sc) : builder :=
  mkBuilder (md_in md) (put (md_outs md) id outs) (put (md_ins md) id ins).
(** metadata.rs:69-90 [compute_input_scaling], with [get_output_layer_scaling] (92-96). *)
Definition edge_scaling (md : builder) (e : edge) : option Sc :=
  match e_node e with
  | Some n => scalings <- get (md_outs md) n ;; nth_error scalings (e_index e)
  | None => nth_error (md_in md) (e_index e)
  end.
Definition compute_input_scaling (md : builder) (es : list edge) : option (list Sc) := omapM (edge_scaling md) es.

(** metadata.rs:98-134 [build]: the scaling factors of the model's outputs.  The loop is that of the collection of the
    outputs of an inference (model/mod.rs, [collect_outputs] of M_Graph), on scaling factors in place of tensors. *)
Definition build_outputs (md : builder) (ns : @nodes QOp) : option (list Sc) :=
  o <- collect_outputs (map (fun p => (fst p, ([], snd p))) (md_outs md)) [] (output_nodes ns) ;; out_values o.

(** strategy.rs:261-276: the nodes in forward order. *)
Fixpoint quantize_nodes (md : builder) (l : list (nat * node Op)) : option (builder * list (nat * list QOp) * list (nat * node QOp)) :=
  match l with
  | [] => Some (md, [], [])
  | (id, n) :: t =>
      ins <- compute_input_scaling md (n_inputs n) ;;
      q <- quantize_op id (n_op n) ins ;;
      let '(qop, outs, requant) := q in
      r <- quantize_nodes (set_layers_scaling md id outs ins) t ;;
      let '(md', rqs, qs) := r in
      Some (md', match requant with Some ops => (id, ops) :: rqs | None => rqs end,
            (id, mkNode (n_inputs n) (n_outputs n) qop) :: qs)
  end.
(** strategy.rs:289-291. *)
Fixpoint set_requants (md : builder) (ids : list nat) (scs : list Sc) : builder :=
  match ids, scs with
  | i :: ids', s :: scs' => set_requants (set_layers_scaling md i [s] [s]) ids' scs'
  | _, _ => md
  end.
(** strategy.rs:278-292. *)
Fixpoint insert_requants (ns : @nodes QOp) (md : builder) (rqs : list (nat * list QOp)) : option (@nodes QOp * builder) :=
  match rqs with
  | [] => Some (ns, md)
  | (id, ops) :: t =>
      r <- add_requant_nodes ns ops id ;;
      scs <- get (md_outs md) id ;;
      if Nat.eqb (length (snd r)) (length scs) then insert_requants (fst r) (set_requants md (snd r) scs) t else None
  end.
(** strategy.rs:251-292: the quantised graph and the recorded scaling factors. *)
Definition quantize_graph (ns : @nodes Op) (input_scaling : list Sc) : option (@nodes QOp * builder) :=
  l <- into_iter true ns ;;
  r <- quantize_nodes (builder_new input_scaling) l ;;
  let '(md, rqs, qs) := r in
  insert_requants qs md rqs.
(** strategy.rs:251-296 [quantize_model]: those, and the scaling factors of the outputs. *)
Definition quantize_model (ns : @nodes Op) (input_scaling : list Sc) : option (@nodes QOp * builder * list Sc) :=
  p <- quantize_graph ns input_scaling ;;
  outs <- build_outputs (snd p) (fst p) ;;
  Some (fst p, snd p, outs).
End Metadata.

(** ** The calibration run *)
Local Open Scope Q_scope.
(** strategy.rs:148-151 [InferenceTracker]: the values seen under each (node, output). *)
Definition tracker := list ((nat * nat) * list Q).
Definition key_eqb (a b : nat * nat) : bool := Nat.eqb (fst a) (fst b) && Nat.eqb (snd a) (snd b).
(** strategy.rs:159-164 [track]: [entry(..).or_default().extend(..)]. *)
Fixpoint track (t : tracker) (k : nat * nat) (vs : list Q) : tracker :=
  match t with
  | [] => [(k, vs)]
  | (k', l) :: t' => if key_eqb k k' then (k', l ++ vs) :: t' else (k', l) :: track t' k vs
  end.
Fixpoint tracked (t : tracker) (k : nat * nat) : option (list Q) :=
  match t with [] => None | (k', l) :: t' => if key_eqb k k' then Some l else tracked t' k end.
(** strategy.rs:167-186 [distribution_info]: smallest and largest value; no entry is a panic.  An entry without values (for
    which the library answers NaN) is taken as a panic as well. *)
Definition q_minimum (a b : Q) : Q := if Qle_bool a b then a else b.
Definition q_maximum (a b : Q) : Q := if Qle_bool a b then b else a.
Definition distribution_info (t : tracker) (id idx : nat) : option (Q * Q) :=
  l <- tracked t (id, idx) ;;
  match l with [] => None | x :: l' => Some (fold_left q_minimum l' x, fold_left q_maximum l' x) end.
(** strategy.rs:126-128 = 141-142: the scaling factor of one tensor under [InferenceObserver]. *)
Definition observed_scaling (rnd : Q -> Q) (B : nat) (t : tracker) (id idx : nat) : option scaling :=
  d <- distribution_info t id idx ;; Some (from_absolute_max rnd B (q_maximum (Qabs (fst d)) (Qabs (snd d))) None).
(** strategy.rs:134-145 [scaling_factors_for_node] of [InferenceObserver]. *)
Definition observer_scalings (rnd : Q -> Q) (B : nat) (t : tracker) (id num_outputs : nat) : option (list scaling) :=
  omapM (observed_scaling rnd B t id) (seq 0 num_outputs).
(** strategy.rs:70. *)
Definition INPUT_TRACKING_ID : nat := (10 * 1000)%nat.
(** strategy.rs:106-120 and model/mod.rs:462-467: the tensors of the calibration runs, in the order in which they are tracked;
    [None] is an input of the model, [Some n] node [n]. *)
Definition calibration := list (option nat * nat * list Q).
Definition tracking_id (src : option nat) : nat := match src with Some n => n | None => INPUT_TRACKING_ID end.
Definition track_run (evs : calibration) : tracker := fold_left (fun t '(src, i, vs) => track t (tracking_id src, i) vs) evs [].
(** quantization/mod.rs:155-164: [ScalingFactor::default], and strategy.rs:242-248 [scaling_factors_for_node] of [AbsoluteMax]. *)
Definition scaling_default (rnd : Q -> Q) (B : nat) : scaling :=
  mkScaling (- (1)) 1 (rnd (2 / inject_Z (q_max B - q_min B))) (q_min B, q_max B).
Definition absolute_max_scalings (rnd : Q -> Q) (B : nat) (id num_outputs : nat) : list scaling := repeat (scaling_default rnd B) num_outputs.
