(** Property theorems C46, C47 and the binding part of C48: the computation graph.  Statements only.
    [needs], [acyclic], [dataflow], [consistent] and [built] are the specification: they mention edges and construction
    calls, and nothing of the iterators, of the run or of the claim routing. *)
From Coq Require Import List Arith Lia Bool Permutation.
From Verif Require Import ListAux FieldDef M_Mle M_Graph P_Graph P_Graph2 P_Graph3 P_Graph4 P_Graph5 P_Graph6.
Import ListNotations.

(** A graph used in the examples: node 0 with two outputs, node 2 reads both, node 1 reads node 2. *)
Definition ex : @nodes nat :=
  [(0, mkNode [mkEdge None 0] [[mkEdge (Some 2) 0]; [mkEdge (Some 2) 1]] 10);
   (2, mkNode [mkEdge (Some 0) 0; mkEdge (Some 0) 1] [[mkEdge (Some 1) 0]] 12);
   (1, mkNode [mkEdge (Some 2) 0] [[mkEdge None 0]] 11)].
Definition ex_eval (op : nat) (l : list nat) : option (list nat) :=
  match op, l with 10, [x] => Some [x + 1; x + 2] | 12, [x; y] => Some [x * y] | 11, [x] => Some [x - 1] | 9, [x] => Some [x + 100] | _, _ => None end.
Example ex_built : built ex.
Proof.
  eapply built_default; [|instantiate (1 := [(0, mkNode [mkEdge None 0] [[mkEdge (Some 2) 0]; [mkEdge (Some 2) 1]] 10);
    (2, mkNode [mkEdge (Some 0) 0; mkEdge (Some 0) 1] [[mkEdge (Some 1) 0]] 12); (1, mkNode [mkEdge (Some 2) 0] [[]] 11)]); reflexivity].
  eapply (built_add _ (fun _ _ => 1) [mkEdge (Some 2) 0] 11 _ 1); [|instantiate (1 := [(0, mkNode [mkEdge None 0] [[mkEdge (Some 2) 0]; [mkEdge (Some 2) 1]] 10);
    (2, mkNode [mkEdge (Some 0) 0; mkEdge (Some 0) 1] [[]] 12)]); reflexivity].
  eapply (built_add_id _ (fun _ _ => 1) [mkEdge (Some 0) 0; mkEdge (Some 0) 1] 12 2); [|instantiate (1 := [(0, mkNode [mkEdge None 0] [[]; []] 10)]); reflexivity|reflexivity].
  apply (built_add [] (fun _ _ => 2) [mkEdge None 0] 10 _ 0); [constructor|reflexivity].
Qed.

(** C46: the iterators never panic and yield distinct nodes, each after everything it needs. *)
Theorem C46_order : forall {Op} (fwd : bool) (ns : @nodes Op), exists l, iter_all fwd ns = Some l /\
  NoDup l /\ incl l (keys ns) /\
  forall l1 i l2, l = l1 ++ i :: l2 -> forall n j, get ns i = Some n -> needs fwd n j -> In j (keys ns) -> In j l1.
Proof. exact @iter_good. Qed.
Print Assumptions C46_order.
(** Every node is yielded exactly when there is no cycle. *)
Theorem C46_complete : forall {Op} (fwd : bool) (ns : @nodes Op) l, NoDup (keys ns) -> iter_all fwd ns = Some l ->
  (Permutation l (keys ns) <-> acyclic fwd ns).
Proof. exact @iter_complete. Qed.
Print Assumptions C46_complete.
(** The next node is always the ready node of smallest id; the order of the hash map plays no part. *)
Theorem C46_smallest : forall {Op} (fwd : bool) (ns : @nodes Op) l l1 i l2 h n, iter_all fwd ns = Some l -> l = l1 ++ i :: l2 ->
  get ns h = Some n -> ~ In h l1 -> (forall j, needs fwd n j -> In j (keys ns) -> In j l1) -> i <= h.
Proof. exact @iter_smallest. Qed.
Print Assumptions C46_smallest.
Theorem C46_deterministic : forall {Op} (fwd : bool) (ns ns' : @nodes Op), NoDup (keys ns) -> Permutation ns ns' -> iter_all fwd ns = iter_all fwd ns'.
Proof. exact @iter_perm. Qed.
Print Assumptions C46_deterministic.
(** The consuming iterators hand out the same nodes in the same order. *)
Theorem C46_into : forall {Op} (fwd : bool) (ns : @nodes Op), NoDup (keys ns) ->
  exists l ids, into_iter fwd ns = Some l /\ iter_all fwd ns = Some ids /\ map fst l = ids /\ forall i n, In (i, n) l -> get ns i = Some n.
Proof. exact @into_iter_same. Qed.
Print Assumptions C46_into.
Example C46_ex : iter_all true ex = Some [0; 2; 1] /\ iter_all false ex = Some [1; 2; 0] /\ iter_all true (rev ex) = Some [0; 2; 1].
Proof. split; [reflexivity|split; reflexivity]. Qed.
(** With a cycle the iterators end early without an error: a caller sees a shorter model. *)
Theorem C46_cycle_refuted : consistent cyc /\ NoDup (keys cyc) /\ iter_all true cyc = Some [0] /\ iter_all false cyc = Some [0].
Proof. exact iter_cycle_refuted. Qed.
Print Assumptions C46_cycle_refuted.

(** C47: after any history of successful construction calls every input edge is recorded exactly once on the wire it
    names, every edge recorded on a wire is an input edge of its consumer, and both iterators yield every node. *)
Theorem C47_consistent : forall {Op} (ns : @nodes Op), built ns ->
  NoDup (keys ns) /\
  (forall i n k j idx, get ns i = Some n -> nth_error (n_inputs n) k = Some (mkEdge (Some j) idx) ->
     exists m w, get ns j = Some m /\ nth_error (n_outputs m) idx = Some w /\ count_occ edge_dec w (mkEdge (Some i) k) = 1) /\
  (forall j m idx w i k, get ns j = Some m -> nth_error (n_outputs m) idx = Some w -> In (mkEdge (Some i) k) w ->
     exists n, get ns i = Some n /\ nth_error (n_inputs n) k = Some (mkEdge (Some j) idx)) /\
  (forall fwd, exists l, iter_all fwd ns = Some l /\ Permutation l (keys ns)).
Proof. exact @built_invariant. Qed.
Print Assumptions C47_consistent.
(** Inserting requantisation nodes: it succeeds, the new nodes are fresh, each reads one output of the node, and exactly
    the consumers of that output now read the requantised value; nothing else changes. *)
Theorem C47_requant : forall {Op} (ns : @nodes Op) N n es ops, valid ns -> get ns N = Some n -> n_outputs n = map (fun e => [e]) es -> length ops = length es ->
  exists ns' ids, add_requant_nodes ns ops N = Some (ns', ids) /\ valid ns' /\ length ids = length es /\ NoDup ids /\
    (forall x, In x (keys ns') <-> In x ids \/ In x (keys ns)) /\ (forall r, In r ids -> ~ In r (keys ns)) /\
    (forall t r e op, nth_error ids t = Some r -> nth_error es t = Some e -> nth_error ops t = Some op ->
       get ns' r = Some (mkNode [mkEdge (Some N) t] [[e]] op)) /\
    (forall x k, In x (keys ns) -> inp ns' x k =
       match inp ns x k with
       | Some (mkEdge (Some j) t) => if Nat.eqb j N then option_map (fun r => mkEdge (Some r) 0) (nth_error ids t) else Some (mkEdge (Some j) t)
       | o => o
       end) /\
    (forall x, In x (keys ns) -> option_map n_op (get ns' x) = option_map n_op (get ns x)).
Proof. exact @requant_spec. Qed.
Print Assumptions C47_requant.
Theorem C47_requant_run : forall {Op V} (eval : Op -> list V -> option (list V)) inputs (ns : @nodes Op) N n es ops, valid ns -> get ns N = Some n ->
  n_outputs n = map (fun e => [e]) es -> length ops = length es ->
  exists ns' ids, add_requant_nodes ns ops N = Some (ns', ids) /\ length ids = length es /\
   forall tr, dataflow eval inputs ns' tr ->
     (forall t r op, nth_error ids t = Some r -> nth_error ops t = Some op ->
        exists ins outs v q, get tr N = Some (ins, outs) /\ nth_error outs t = Some v /\ eval op [v] = Some q /\ get tr r = Some ([v], q)) /\
     (forall x m k t, get ns x = Some m -> nth_error (n_inputs m) k = Some (mkEdge (Some N) t) ->
        exists r ins outs q v, nth_error ids t = Some r /\ get tr x = Some (ins, outs) /\ get tr r = Some q /\ nth_error (snd q) 0 = Some v /\ nth_error ins k = Some v).
Proof. exact @requant_dataflow. Qed.
Print Assumptions C47_requant_run.
(** Running: the trace is the unique assignment in which every node holds the outputs named by its input edges and what
    its layer computes from them; the run fails only when there is none. *)
Theorem C47_run : forall {Op V} (eval : Op -> list V -> option (list V)) inputs (ns : @nodes Op), built ns ->
  (forall tr, run_trace eval inputs ns = Some tr -> dataflow eval inputs ns tr /\ forall d, dataflow eval inputs ns d -> forall i, In i (keys ns) -> get d i = get tr i) /\
  ((exists d, dataflow eval inputs ns d) -> exists tr, run_trace eval inputs ns = Some tr).
Proof. exact @built_run. Qed.
Print Assumptions C47_run.
(** Output [o] of the run is the value of the wire routed to output [o]. *)
Theorem C47_outputs : forall {Op V} (eval : Op -> list V -> option (list V)) inputs (ns : @nodes Op) tr vs, NoDup (keys ns) ->
  run_model eval inputs ns = Some (tr, vs) -> run_trace eval inputs ns = Some tr /\
  forall o v, nth_error vs o = Some v <-> exists i n idx w ins outs, get ns i = Some n /\ (forall w', In w' (n_outputs n) -> existsb is_out w' = true) /\
    nth_error (n_outputs n) idx = Some w /\ out_index w = Some o /\ get tr i = Some (ins, outs) /\ nth_error outs idx = Some v.
Proof. exact @run_outputs. Qed.
Print Assumptions C47_outputs.
Theorem C47_run_deterministic : forall {Op V} (eval : Op -> list V -> option (list V)) inputs (ns ns' : @nodes Op), NoDup (keys ns) -> Permutation ns ns' ->
  run_model eval inputs ns = run_model eval inputs ns'.
Proof. exact @run_model_perm. Qed.
Print Assumptions C47_run_deterministic.
Example C47_ex : option_map snd (run_model ex_eval [5] ex) = Some [41] /\
  exists ns' , add_requant_nodes ex [9; 9] 0 = Some (ns', [3; 4]) /\ option_map snd (run_model ex_eval [5] ns') = Some [106 * 107 - 1].
Proof. split; [reflexivity|]. eexists. split; reflexivity. Qed.
(** Outside these guards the edge lists do get out of step: a refused [add_node] leaves edges behind, re-using an id
    drops the edges of the old node, and requantising a wire with two consumers or none, or with fewer requantisations
    than outputs, builds a wrong node. *)
Theorem C47_failed_add_refuted : exists (ns ns' : @nodes nat) n, valid ns /\ add_node ns n = (ns', None) /\ ~ consistent ns'.
Proof. exact failed_add_refuted. Qed.
Print Assumptions C47_failed_add_refuted.
Theorem C47_overwrite_refuted : exists (ns ns' : @nodes nat) n, valid ns /\ no_edges n /\ add_node_with_id ns 0 n = (ns', true) /\ ~ consistent ns'.
Proof. exact overwrite_refuted. Qed.
Print Assumptions C47_overwrite_refuted.
Theorem C47_requant_fanout_refuted : exists (ns ns' : @nodes nat) r m, valid ns /\ add_requant_nodes ns [9] 0 = Some (ns', [r]) /\ get ns' r = Some m /\ length (n_inputs m) = 2.
Proof. exact requant_fanout_refuted. Qed.
Print Assumptions C47_requant_fanout_refuted.
Theorem C47_requant_unused_refuted : exists (ns ns' : @nodes nat) r m, valid ns /\ add_requant_nodes ns [9] 0 = Some (ns', [r]) /\ get ns' r = Some m /\ n_inputs m = [].
Proof. exact requant_unused_refuted. Qed.
Print Assumptions C47_requant_unused_refuted.
Theorem C47_requant_few_refuted : exists (ns ns' : @nodes nat) n ids, valid ns /\ get ns 0 = Some n /\ (forall w, In w (n_outputs n) -> length w = 1) /\
  add_requant_nodes ns [9] 0 = Some (ns', ids) /\ ~ consistent ns'.
Proof. exact requant_few_refuted. Qed.
Print Assumptions C47_requant_few_refuted.
(** A node with one wire used inside the model and one routed to an output is not found by [output_nodes]. *)
Theorem C47_mixed_output_refuted : exists (ns : @nodes nat) (eval : nat -> list nat -> option (list nat)), valid ns /\
  run_model eval [] ns = None /\ exists tr, run_trace eval [] ns = Some tr /\ dataflow eval [] ns tr.
Proof. exact mixed_output_refuted. Qed.
Print Assumptions C47_mixed_output_refuted.

(** C48: binding outputs to nodes.  If no node has two wires routed to outputs, and the routed indices are distinct and
    [num] in number, every node is bound to exactly the outputs it computes. *)
Theorem C48_bind : forall {Op} (L : list (nat * node Op)) num, L <> [] -> NoDup (map fst L) -> (forall i n, In (i, n) L -> single_out n) ->
  NoDup (concat (map (fun p => node_outs (snd p)) L)) -> length (concat (map (fun p => node_outs (snd p)) L)) = num ->
  exists m, bind_outputs_to_node L num = Some m /\
    (forall i n, In (i, n) L -> get m i = match node_outs n with [] => None | l => Some l end) /\ (forall i, ~ In i (map fst L) -> get m i = None).
Proof. exact @bind_ok. Qed.
Print Assumptions C48_bind.
(** It succeeds only when [num] distinct outputs were found. *)
Theorem C48_bind_count : forall {Op} (L : list (nat * node Op)) num m, bind_outputs_to_node L num = Some m ->
  exists k s, NoDup s /\ length s = num /\ Permutation s (concat (map (fun p => node_outs (snd p)) (firstn k L))).
Proof. exact @bind_count. Qed.
Print Assumptions C48_bind_count.
(** Claims follow the edges: the claim a node must prove about an output is the claim its only consumer made about the
    input fed by that output, or the claim on the model output it is routed to. *)
Theorem C48_claims_routed : forall {Op C} (ns : @nodes Op) j n (by_node : list (nat * list C)) outc cl, consistent ns -> get ns j = Some n ->
  claims_for_node by_node outc n = Some cl ->
  length cl = length (n_outputs n) /\
  (forall i k idx, inp ns i k = Some (mkEdge (Some j) idx) -> exists c li, nth_error cl idx = Some c /\ get by_node i = Some li /\ nth_error li k = Some c) /\
  (forall i k i' k' idx, inp ns i k = Some (mkEdge (Some j) idx) -> inp ns i' k' = Some (mkEdge (Some j) idx) -> i = i' /\ k = k') /\
  (forall idx w e, nth_error (n_outputs n) idx = Some w -> In e w -> e_node e = None -> exists c, nth_error cl idx = Some c /\ nth_error outc (e_index e) = Some c).
Proof. exact @claims_routed. Qed.
Print Assumptions C48_claims_routed.
Example C48_ex : bind_outputs_to_node ex 1 = Some [(1, [0])] /\
  claims_for_node [(2, [100; 200])] [7] (mkNode [mkEdge None 0] [[mkEdge (Some 2) 0]; [mkEdge (Some 2) 1]] 10) = Some [100; 200].
Proof. split; reflexivity. Qed.
(** Two output wires on one node: only the last is bound, so no claim is made about the other output. *)
Theorem C48_two_outputs_refuted : exists (L : list (nat * node nat)) m, bind_outputs_to_node L 2 = Some m /\
  In 0 (concat (map (fun p => node_outs (snd p)) L)) /\ forall i l, get m i = Some l -> ~ In 0 l.
Proof. exact bind_two_refuted. Qed.
Print Assumptions C48_two_outputs_refuted.
(** A valid graph in which one wire has two consumers cannot be proved at all. *)
Theorem C48_fanout_refuted : exists (ns : @nodes nat) n, valid ns /\ get ns 0 = Some n /\ forall (C : Type) (b : list (nat * list C)) o, claims_for_node b o n = None.
Proof. exact fanout_claims_refuted. Qed.
Print Assumptions C48_fanout_refuted.
