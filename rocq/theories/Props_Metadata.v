(** Property C75: the scaling factors of a quantised model. *)
From Coq Require Import List Arith Lia Bool.
From Verif Require Import ListAux M_Mle M_Graph P_Graph P_Graph2 P_Graph6 M_Metadata P_Metadata.
Import ListNotations.

(** In the quantised model, requantisation nodes included, the scaling factor recorded for each input of each node is the one recorded for the wire that feeds it, and the graph is still well formed. *)
Theorem C75_scales :
  forall (Op QOp Sc : Type) (quantize_op : nat -> Op -> list Sc -> option (QOp * list Sc * option (list QOp)))
    (ns : nodes) (inp_sc : list Sc) (ns' : nodes) (md : builder) (outs : list Sc),
  valid ns ->
  requants_ok quantize_op ns ->
  quantize_model quantize_op ns inp_sc = Some (ns', md, outs) ->
  valid ns' /\ scales_agree ns' md /\ md_in md = inp_sc.
Proof. exact @quantize_model_scales. Qed.
Print Assumptions C75_scales.
Example C75_scales_ex : valid ex_ns /\ requants_ok ex_quantize ex_ns /\ exists ns', quantize_model ex_quantize ex_ns [3] =
  Some (ns', mkBuilder [3] [(0, [7]); (1, [8]); (2, [7])] [(0, [3]); (1, [7]); (2, [7])], [8]) /\ inp ns' 1 0 = Some (mkEdge (Some 2) 0) /\ inp ns' 2 0 = Some (mkEdge (Some 0) 0).
Proof. split; [apply ex_ns_valid|]. split; [apply ex_ns_ok|]. eexists. split; [reflexivity|]. split; reflexivity. Qed.

(** Each layer of the float model is quantised under the scaling factors recorded for its inputs, and its recorded output factors and its operation are what that quantisation answered. *)
Theorem C75_layers :
  forall (Op QOp Sc : Type) (quantize_op : nat -> Op -> list Sc -> option (QOp * list Sc * option (list QOp)))
    (ns : nodes) (inp_sc : list Sc) (ns' : nodes) (md : builder) (outs : list Sc) (x : nat) 
    (n : node Op),
  valid ns ->
  requants_ok quantize_op ns ->
  quantize_model quantize_op ns inp_sc = Some (ns', md, outs) ->
  get ns x = Some n ->
  exists (ins : list Sc) (q : QOp) (os : list Sc) (rq : option (list QOp)) (n' : node QOp),
    get (md_ins md) x = Some ins /\
    length ins = length (n_inputs n) /\
    quantize_op x (n_op n) ins = Some (q, os, rq) /\
    get (md_outs md) x = Some os /\ get ns' x = Some n' /\ n_op n' = q.
Proof. exact @quantize_model_layers. Qed.
Print Assumptions C75_layers.

(** Every other node of the quantised model is a requantisation asked for by a layer: it reads that layer, carries the operation asked for that output, and is recorded with the factor of that output on both sides. *)
Theorem C75_requants :
  forall (Op QOp Sc : Type) (quantize_op : nat -> Op -> list Sc -> option (QOp * list Sc * option (list QOp)))
    (ns : nodes) (inp_sc : list Sc) (ns' : nodes) (md : builder) (outs : list Sc) (x : nat) 
    (n' : node QOp),
  valid ns ->
  requants_ok quantize_op ns ->
  quantize_model quantize_op ns inp_sc = Some (ns', md, outs) ->
  get ns' x = Some n' ->
  get ns x = None ->
  exists (N : nat) (n : node Op) (ins : list Sc) (q : QOp) (os : list Sc) (ops : list QOp) 
  (t : nat) (s : Sc),
    get ns N = Some n /\
    quantize_op N (n_op n) ins = Some (q, os, Some ops) /\
    get (md_ins md) N = Some ins /\
    nth_error os t = Some s /\
    nth_error ops t = Some (n_op n') /\
    inp ns' x 0 = Some {| e_node := Some N; e_index := t |} /\
    get (md_ins md) x = Some [s] /\ get (md_outs md) x = Some [s].
Proof. exact @quantize_model_requants. Qed.
Print Assumptions C75_requants.

(** Every requantisation a layer asked for is in the quantised model, and it alone reads the output it was asked for: no consumer reads the wide values. *)
Theorem C75_requanted :
  forall (Op QOp Sc : Type) (quantize_op : nat -> Op -> list Sc -> option (QOp * list Sc * option (list QOp)))
    (ns : nodes) (inp_sc : list Sc) (ns' : nodes) (md : builder) (outs : list Sc) (N : nat) 
    (n : node Op) (ins : list Sc) (q : QOp) (os : list Sc) (ops : list QOp) (t : nat) 
    (op : QOp),
  valid ns ->
  requants_ok quantize_op ns ->
  quantize_model quantize_op ns inp_sc = Some (ns', md, outs) ->
  get ns N = Some n ->
  get (md_ins md) N = Some ins ->
  quantize_op N (n_op n) ins = Some (q, os, Some ops) ->
  nth_error ops t = Some op ->
  exists (x : nat) (n' : node QOp),
    get ns x = None /\
    get ns' x = Some n' /\
    n_op n' = op /\
    (forall y k : nat, inp ns' y k = Some {| e_node := Some N; e_index := t |} <-> y = x /\ k = 0).
Proof. exact @quantize_model_requanted. Qed.
Print Assumptions C75_requanted.

(** The scaling factor reported for output o of the model is the one recorded for the wire that is routed to output o, and at least one is reported. *)
Theorem C75_outputs :
  forall (Op QOp Sc : Type) (quantize_op : nat -> Op -> list Sc -> option (QOp * list Sc * option (list QOp)))
    (ns : nodes) (inp_sc : list Sc) (ns' : nodes) (md : builder) (outs : list Sc),
  valid ns ->
  requants_ok quantize_op ns ->
  quantize_model quantize_op ns inp_sc = Some (ns', md, outs) ->
  outs <> [] /\
  (forall (o : nat) (s : Sc),
   nth_error outs o = Some s <->
   (exists (i : nat) (n : node QOp) (idx : nat) (w : wire),
      get ns' i = Some n /\
      (forall w' : wire, In w' (n_outputs n) -> existsb is_out w' = true) /\
      nth_error (n_outputs n) idx = Some w /\
      out_index w = Some o /\ wire_scale md {| e_node := Some i; e_index := idx |} s)).
Proof. exact @quantize_model_outputs. Qed.
Print Assumptions C75_outputs.

(** If no layer fails and the input factors cover the inputs that are read, the quantisation of the graph does not fail. *)
Theorem C75_total :
  forall (Op QOp Sc : Type) (quantize_op : nat -> Op -> list Sc -> option (QOp * list Sc * option (list QOp)))
    (ns : nodes) (inp_sc : list Sc),
  valid ns ->
  requants_ok quantize_op ns ->
  layers_total quantize_op ns ->
  (forall x k idx : nat, inp ns x k = Some {| e_node := None; e_index := idx |} -> idx < length inp_sc) ->
  exists p : nodes * builder, quantize_graph quantize_op ns inp_sc = Some p.
Proof. exact @quantize_graph_total. Qed.
Print Assumptions C75_total.
Example C75_total_ex : valid ex_ns /\ requants_ok ex_quantize ex_ns /\ layers_total ex_quantize ex_ns /\ forall x k idx, inp ex_ns x k = Some (mkEdge None idx) -> idx < length [3].
Proof.
  split; [apply ex_ns_valid|]. split; [apply ex_ns_ok|]. split; [apply ex_ns_ok|]. intros [|[|x]] [|[|k]] idx H; cbn in H; try discriminate H. injection H as <-. cbn; lia.
Qed.

(** A wire routed to two outputs of the model: the factor of the second is missing. *)
Theorem C75_two_outputs_refuted :
  exists (ns : nodes) (n : node nat) (ns' : nodes) (md : builder) (outs : list nat),
    valid ns /\
    get ns 0 = Some n /\
    In [{| e_node := None; e_index := 0 |}; {| e_node := None; e_index := 1 |}] (n_outputs n) /\
    requants_ok ex_quantize ns /\
    quantize_model ex_quantize ns [3] = Some (ns', md, outs) /\ nth_error outs 1 = None.
Proof. exact @two_outputs_refuted. Qed.
Print Assumptions C75_two_outputs_refuted.

