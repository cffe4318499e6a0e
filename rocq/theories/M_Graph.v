(** Model of the computation graph: zkml/src/model/{iterator,mod,trace}.rs and the edge bookkeeping of
    zkml/src/layers/provable/mod.rs.
    A HashMap from node ids is an association list with distinct keys, its order standing for the map's arbitrary
    iteration order; a BTreeSet of ids is an increasing list.  An operation that takes [&mut self] and may fail
    returns the (possibly changed) state together with [true] for Ok and [false] for Err. *)
From Coq Require Import List Arith Lia Bool Permutation.
From Verif Require Import ListAux FieldDef M_Mle.
Import ListNotations.

(** provable/mod.rs:36-76 [Edge], [OutputWire], [Node]. *)
Record edge := mkEdge { e_node : option nat; e_index : nat }.
Definition wire := list edge.
Record node (Op : Type) := mkNode { n_inputs : list edge; n_outputs : list wire; n_op : Op }.
Arguments mkNode {Op}. Arguments n_inputs {Op}. Arguments n_outputs {Op}. Arguments n_op {Op}.

Section Maps.
Context {V : Type}.
(** [HashMap::get], [HashMap::insert] (replaces the value of an existing key), [get_mut] followed by an update,
    [HashMap::remove]. *)
Fixpoint get (m : list (nat * V)) (k : nat) : option V :=
  match m with [] => None | (k', v) :: t => if Nat.eqb k k' then Some v else get t k end.
Fixpoint put (m : list (nat * V)) (k : nat) (v : V) : list (nat * V) :=
  match m with [] => [(k, v)] | (k', v') :: t => if Nat.eqb k k' then (k, v) :: t else (k', v') :: put t k v end.
Fixpoint remove_key (m : list (nat * V)) (k : nat) : list (nat * V) :=
  match m with [] => [] | (k', v') :: t => if Nat.eqb k k' then t else (k', v') :: remove_key t k end.
Definition keys (m : list (nat * V)) : list nat := map fst m.
End Maps.
Definition mem (k : nat) (l : list nat) : bool := existsb (Nat.eqb k) l.

(** [BTreeSet]: sorted insertion; iteration is in increasing order. *)
Fixpoint bt_insert (k : nat) (l : list nat) : list nat :=
  match l with
  | [] => [k]
  | h :: t => if Nat.ltb k h then k :: l else if Nat.eqb k h then l else h :: bt_insert k t
  end.
Definition bt_collect (l : list nat) : list nat := fold_left (fun s k => bt_insert k s) l [].
Definition bt_remove (k : nat) (l : list nat) : list nat := filter (fun h => negb (Nat.eqb k h)) l.

Section Graph.
Context {Op : Type}.
Notation node := (node Op).
Definition nodes := list (nat * node).

(** iterator.rs:154-168: the readiness test of [NodeIterator::next]. *)
Definition edge_done (unv : list nat) (e : edge) : bool :=
  match e_node e with None => true | Some i => negb (mem i unv) end.
Definition ready (fwd : bool) (unv : list nat) (n : node) : bool :=
  forallb (edge_done unv) (if fwd then n_inputs n else concat (n_outputs n)).
(** iterator.rs:152-180 [NodeIterator::next]: the first ready node among the unvisited, which is then removed.
    The inner [None] is the panic of [unwrap] on an id that is not a node. *)
Fixpoint find_ready (fwd : bool) (ns : nodes) (unv cands : list nat) : option (option nat) :=
  match cands with
  | [] => Some None
  | i :: t => match get ns i with
              | None => None
              | Some n => if ready fwd unv n then Some (Some i) else find_ready fwd ns unv t
              end
  end.
Definition iter_next (fwd : bool) (ns : nodes) (unv : list nat) : option (option (nat * list nat)) :=
  r <- find_ready fwd ns unv unv ;;
  Some (match r with None => None | Some i => Some (i, bt_remove i unv) end).
(** Running the iterator to its end (each step removes one id, so the number of ids bounds the steps). *)
Fixpoint iter_run (fwd : bool) (ns : nodes) (fuel : nat) (unv : list nat) : option (list nat) :=
  match fuel with
  | O => Some []
  | S f => r <- iter_next fwd ns unv ;;
           match r with
           | None => Some []
           | Some (i, unv') => l <- iter_run fwd ns f unv' ;; Some (i :: l)
           end
  end.
(** iterator.rs:64-78 [to_forward_iterator], [to_backward_iterator] (45-62 for [ModelCtx]), collected. *)
Definition iter_all (fwd : bool) (ns : nodes) : option (list nat) :=
  let unv := bt_collect (keys ns) in iter_run fwd ns (length unv) unv.
(** iterator.rs:122-147, 183-198 [IntoNodeIterator]: the same ids, each node taken out of the map. *)
Fixpoint into_iter_run (ids : list nat) (ns : nodes) : option (list (nat * node)) :=
  match ids with
  | [] => Some []
  | i :: t => n <- get ns i ;; l <- into_iter_run t (remove_key ns i) ;; Some ((i, n) :: l)
  end.
Definition into_iter (fwd : bool) (ns : nodes) : option (list (nat * node)) := ids <- iter_all fwd ns ;; into_iter_run ids ns.

(** model/mod.rs:315-330 (and 348-361): one edge pushed on an output wire. *)
Definition push_edge (ns : nodes) (j idx : nat) (e : edge) : option nodes :=
  m <- get ns j ;;
  if Nat.ltb idx (length (n_outputs m))
  then Some (put ns j (mkNode (n_inputs m) (upd idx (nth idx (n_outputs m) [] ++ [e]) (n_outputs m)) (n_op m)))
  else None.
(** model/mod.rs:308-337 [add_node_with_id]: edges already pushed stay when a later input is refused. *)
Fixpoint push_inputs (ns : nodes) (id k : nat) (es : list edge) : nodes * bool :=
  match es with
  | [] => (ns, true)
  | e :: t => match e_node e with
              | None => push_inputs ns id (S k) t
              | Some j => match push_edge ns j (e_index e) (mkEdge (Some id) k) with
                          | None => (ns, false)
                          | Some ns' => push_inputs ns' id (S k) t
                          end
              end
  end.
Definition add_node_with_id (ns : nodes) (id : nat) (n : node) : nodes * bool :=
  let '(ns', ok) := push_inputs ns id 0 (n_inputs n) in
  if ok then (put ns' id n, true) else (ns', false).
(** model/mod.rs:298-306 [add_node]: the smallest free id. *)
Definition free_id (ns : nodes) : option nat := find (fun i => negb (mem i (keys ns))) (seq 0 (length ns + 1)).
Definition add_node (ns : nodes) (n : node) : nodes * option nat :=
  match free_id ns with
  | None => (ns, None)
  | Some id => let '(ns', ok) := add_node_with_id ns id n in (ns', if ok then Some id else None)
  end.
(** provable/mod.rs:109-113 [Node::new]: one empty wire per output. *)
Definition node_new (num_outputs : Op -> nat -> nat) (inputs : list edge) (op : Op) : node :=
  mkNode inputs (repeat [] (num_outputs op (length inputs))) op.
(** model/mod.rs:267-296 [add_consecutive_layer]. *)
Definition add_consecutive_layer (num_outputs : Op -> nat -> nat) (num_model_inputs : nat) (ns : nodes) (op : Op) (prev : option nat)
  : nodes * option nat :=
  match match prev with Some id => m <- get ns id ;; Some (length (n_outputs m)) | None => Some num_model_inputs end with
  | None => (ns, None)
  | Some k => add_node ns (node_new num_outputs (map (fun i => mkEdge prev i) (seq 0 k)) op)
  end.
(** model/mod.rs:339-362 [route_output] with explicit edges. *)
Fixpoint route_outputs (ns : nodes) (k : nat) (es : list edge) : nodes * bool :=
  match es with
  | [] => (ns, true)
  | e :: t => match e_node e with
              | None => (ns, false)
              | Some j => match push_edge ns j (e_index e) (mkEdge None k) with
                          | None => (ns, false)
                          | Some ns' => route_outputs ns' (S k) t
                          end
              end
  end.
(** model/mod.rs:363-378 [route_output(None)]: the first node, in the map's order, with no output edge at all. *)
Fixpoint route_default (ns : nodes) : option nodes :=
  match ns with
  | [] => None
  | (i, n) :: t =>
      if forallb (fun w => match w with [] => true | _ => false end) (n_outputs n)
      then Some ((i, mkNode (n_inputs n) (map (fun k => [mkEdge None k]) (seq 0 (length (n_outputs n)))) (n_op n)) :: t)
      else t' <- route_default t ;; Some ((i, n) :: t')
  end.

(** model/mod.rs:168-265 [add_requant_nodes].  [requants] are the operations of the new nodes.  The partly changed model
    left behind by an Err is not modelled here: [None]. *)
Definition requant_node (input_id : nat) (i : nat) (w : wire) (op : Op) : node :=
  mkNode (map (fun _ => mkEdge (Some input_id) i) w) [w] op.
Fixpoint add_nodes (ns : nodes) (l : list node) : option (nodes * list nat) :=
  match l with
  | [] => Some (ns, [])
  | n :: t => match add_node ns n with
              | (ns', Some id) => r <- add_nodes ns' t ;; Some (fst r, id :: snd r)
              | (_, None) => None
              end
  end.
(** model/mod.rs:232-263: the consumers of one wire are pointed at output [i] of the requantisation node. *)
Fixpoint reroute (ns : nodes) (input_id requant_id i : nat) (w : wire) : option nodes :=
  match w with
  | [] => Some ns
  | e :: t => match e_node e with
              | None => reroute ns input_id requant_id i t
              | Some c => n <- get ns c ;;
                          ie <- nth_error (n_inputs n) (e_index e) ;;
                          j <- e_node ie ;;
                          if Nat.eqb j input_id
                          then reroute (put ns c (mkNode (upd (e_index e) (mkEdge (Some requant_id) i) (n_inputs n)) (n_outputs n) (n_op n)))
                                       input_id requant_id i t
                          else None
              end
  end.
Fixpoint reroute_wires (ns : nodes) (input_id requant_id i : nat) (ws : list wire) : option nodes :=
  match ws with
  | [] => Some ns
  | w :: t => ns' <- reroute ns input_id requant_id i w ;; reroute_wires ns' input_id requant_id (S i) t
  end.
Fixpoint reroute_all (ns : nodes) (input_id : nat) (ids : list nat) : option nodes :=
  match ids with
  | [] => Some ns
  | r :: t => n <- get ns r ;; ns' <- reroute_wires ns input_id r 0 (n_outputs n) ;; reroute_all ns' input_id t
  end.
Definition add_requant_nodes (ns : nodes) (requants : list Op) (input_id : nat) : option (nodes * list nat) :=
  n <- get ns input_id ;;
  let new_nodes := map (fun '((i, w), op) => requant_node input_id i w op) (combine (combine (seq 0 (length (n_outputs n))) (n_outputs n)) requants) in
  let ns1 := put ns input_id (mkNode (n_inputs n) (repeat [] (length (n_outputs n))) (n_op n)) in
  r <- add_nodes ns1 new_nodes ;;
  ns2 <- reroute_all (fst r) input_id (snd r) ;;
  Some (ns2, snd r).

(** model/mod.rs:383-400 [output_nodes]: in the map's order, the nodes all of whose wires are outputs of the model. *)
Definition is_out (e : edge) : bool := match e_node e with None => true | Some _ => false end.
Definition output_nodes (ns : nodes) : list (nat * node) :=
  filter (fun '(_, n) => forallb (fun w => existsb is_out w) (n_outputs n)) ns.

(** model/mod.rs:415-526 [run_with_tracker].  [V] is the type of a tensor with its unpadded shape, [eval] the evaluation
    of a layer on those; the tracker is left out.  The trace maps a node to the tensors it was given and those it produced. *)
Section Run.
Context {V : Type}.
Variable eval : Op -> list V -> option (list V).
Variable inputs : list V.
Definition trace := list (nat * (list V * list V)).
Definition fetch (tr : trace) (e : edge) : option V :=
  match e_node e with
  | Some j => s <- get tr j ;; nth_error (snd s) (e_index e)
  | None => nth_error inputs (e_index e)
  end.
Definition run_step (ns : nodes) (tr : trace) (i : nat) : option trace :=
  n <- get ns i ;;
  ins <- omapM (fetch tr) (n_inputs n) ;;
  outs <- eval (n_op n) ins ;;
  Some (put tr i (ins, outs)).
Fixpoint run_steps (ns : nodes) (tr : trace) (ids : list nat) : option trace :=
  match ids with
  | [] => Some tr
  | i :: t => tr' <- run_step ns tr i ;; run_steps ns tr' t
  end.
(** model/mod.rs:482-512: the outputs, collected in a BTreeMap keyed by output index; inserting a key twice is an error. *)
Definition out_index (w : wire) : option nat := match find is_out w with Some e => Some (e_index e) | None => None end.
Fixpoint collect_wires (outs : list (nat * V)) (ws : list wire) (vs : list V) : option (list (nat * V)) :=
  match ws, vs with
  | w :: ws', v :: vs' =>
      match out_index w with
      | None => collect_wires outs ws' vs'
      | Some o => match get outs o with Some _ => None | None => collect_wires (put outs o v) ws' vs' end
      end
  | _, _ => Some outs
  end.
Fixpoint collect_outputs (tr : trace) (outs : list (nat * V)) (ons : list (nat * node)) : option (list (nat * V)) :=
  match ons with
  | [] => Some outs
  | (i, n) :: t => s <- get tr i ;;
                   if Nat.eqb (length (snd s)) (length (n_outputs n))
                   then o <- collect_wires outs (n_outputs n) (snd s) ;; collect_outputs tr o t
                   else None
  end.
(** model/mod.rs:513-523: the keys must start at 0 and end at len-1; the values are taken in key order. *)
Definition keys_ok (idx : list nat) : bool :=
  match idx with [] => false | h :: _ => Nat.eqb h 0 && Nat.eqb (last idx 0) (length idx - 1) end.
Definition out_values (outs : list (nat * V)) : option (list V) :=
  let idx := bt_collect (keys outs) in if keys_ok idx then omapM (get outs) idx else None.
Definition run_model (ns : nodes) : option (trace * list V) :=
  ids <- iter_all true ns ;;
  tr <- run_steps ns [] ids ;;
  outs <- collect_outputs tr [] (output_nodes ns) ;;
  vs <- out_values outs ;;
  Some (tr, vs).
End Run.

(** provable/mod.rs:231-270 [claims_for_node]: one claim per output wire.  The assertion on the number of edges is a
    panic ([None] as well). *)
Section Claims.
Context {C : Type}.
Definition claim_for_wire (claims_by_node : list (nat * list C)) (output_claims : list C) (w : wire) : option C :=
  match w with
  | [e] => match e_node e with
           | Some id => l <- get claims_by_node id ;; nth_error l (e_index e)
           | None => nth_error output_claims (e_index e)
           end
  | _ => None
  end.
Definition claims_for_node (claims_by_node : list (nat * list C)) (output_claims : list C) (n : node) : option (list C) :=
  omapM (claim_for_wire claims_by_node output_claims) (n_outputs n).

(** provable/mod.rs:272-308 [input_claims]: per node (in iteration order) the claims about model inputs. *)
Fixpoint node_input_claims (cl : list C) (i : nat) (es : list edge) : option (list (nat * C)) :=
  match es with
  | [] => Some []
  | e :: t => match e_node e with
              | Some _ => node_input_claims cl (S i) t
              | None => c <- nth_error cl i ;; r <- node_input_claims cl (S i) t ;; Some ((e_index e, c) :: r)
              end
  end.
Fixpoint input_claims_of (ns : nodes) (claims_by_node : list (nat * list C)) (ids : list nat) : option (list (nat * list (nat * C))) :=
  match ids with
  | [] => Some []
  | i :: t => n <- get ns i ;;
              (if existsb is_out (n_inputs n)
               then cl <- get claims_by_node i ;; nc <- node_input_claims cl 0 (n_inputs n) ;;
                    r <- input_claims_of ns claims_by_node t ;; Some ((i, nc) :: r)
               else input_claims_of ns claims_by_node t)
  end.
Definition input_claims (ns : nodes) (claims_by_node : list (nat * list C)) (ids : list nat) : option (list (nat * list (nat * C))) :=
  r <- input_claims_of ns claims_by_node ids ;;
  let idx := bt_collect (map fst (concat (map snd r))) in
  if keys_ok idx then Some r else None.
End Claims.

(** provable/mod.rs:310-344 [bind_outputs_to_node]: every wire with output edges overwrites the node's entry. *)
Fixpoint bind_wires (seen : list nat) (cur : option (list nat)) (ws : list wire) : option (list nat * option (list nat)) :=
  match ws with
  | [] => Some (seen, cur)
  | w :: t =>
      let idx := map e_index (filter is_out w) in
      s <- fold_left (fun acc i => s <- acc ;; if mem i s then None else Some (i :: s)) idx (Some seen) ;;
      bind_wires s (match idx with [] => cur | _ => Some idx end) t
  end.
Fixpoint bind_nodes (num_outputs : nat) (seen : list nat) (acc : list (nat * list nat)) (ns : list (nat * node)) : option (list nat * list (nat * list nat)) :=
  match ns with
  | [] => Some (seen, acc)
  | (i, n) :: t =>
      r <- bind_wires seen None (n_outputs n) ;;
      let acc' := match snd r with None => acc | Some idx => put acc i idx end in
      if Nat.eqb (length (fst r)) num_outputs then Some (fst r, acc') else bind_nodes num_outputs (fst r) acc' t
  end.
Definition bind_outputs_to_node (ns : list (nat * node)) (num_outputs : nat) : option (list (nat * list nat)) :=
  r <- bind_nodes num_outputs [] [] ns ;; if Nat.eqb (length (fst r)) num_outputs then Some (snd r) else None.
End Graph.
