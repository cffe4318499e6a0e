(** Histories of construction operations, and the counterexamples outside the guards. *)
From Coq Require Import List Arith Lia Bool Permutation.
From Verif Require Import ListAux FieldDef M_Mle M_Graph P_Graph P_Graph2 P_Graph3 P_Graph4 P_Graph5.
Import ListNotations.

Section History.
Context {Op : Type}.
Implicit Types ns : @nodes Op.
(** Everything that a sequence of successful construction calls can produce from the empty model. *)
Inductive built : @nodes Op -> Prop :=
| built_empty : built []
| built_add ns f es op ns' id : built ns -> add_node ns (node_new f es op) = (ns', Some id) -> built ns'
| built_add_id ns f es op id ns' : built ns -> get ns id = None -> add_node_with_id ns id (node_new f es op) = (ns', true) -> built ns'
| built_layer ns f k op prev ns' id : built ns -> add_consecutive_layer f k ns op prev = (ns', Some id) -> built ns'
| built_route ns es ns' : built ns -> route_outputs ns 0 es = (ns', true) -> built ns'
| built_default ns ns' : built ns -> route_default ns = Some ns' -> built ns'
| built_requant ns N n ops ns' ids : built ns -> get ns N = Some n -> (forall w, In w (n_outputs n) -> length w = 1) ->
    length ops = length (n_outputs n) -> add_requant_nodes ns ops N = Some (ns', ids) -> built ns'.

Lemma valid_empty : valid (@nil (nat * node Op)).
Proof.
  split; [constructor|]. split; [intros i k j idx; unfold occ, inp; auto|]. exists (fun _ => 0). intros i j _ [].
Qed.
Lemma singles (ws : list wire) : (forall w, In w ws -> length w = 1) -> exists es, ws = map (fun e => [e]) es.
Proof.
  induction ws as [|w ws IH]; intros H; [exists []; auto|]. destruct IH as [es ->]; [intros; apply H; right; auto|].
  specialize (H w (or_introl eq_refl)). destruct w as [|e [|? ?]]; try discriminate. exists (e :: es). auto.
Qed.
Lemma built_valid ns : built ns -> valid ns.
Proof.
  induction 1 as [|ns f es op ns' id _ IH E|ns f es op id ns' _ IH G E|ns f k op prev ns' id _ IH E|ns es ns' _ IH E|ns ns' _ IH E|ns N n ops ns' ids _ IH G W L E].
  - apply valid_empty.
  - apply (add_node_ok ns _ ns' id IH (node_new_no_edges _ _ _) E).
  - apply (add_node_valid ns id _ ns' IH G (node_new_no_edges _ _ _) E).
  - unfold add_consecutive_layer in E.
    destruct (match prev with Some id => _ | None => _ end) as [q|]; [|discriminate].
    apply (add_node_ok ns _ ns' id IH (node_new_no_edges _ _ _) E).
  - apply (route_valid es 0 ns ns' IH E).
  - apply (route_default_valid ns ns' IH E).
  - destruct (singles _ W) as [es Es].
    destruct (requant_spec ns N n es ops IH G Es) as (ns2 & ids2 & E2 & V & _).
    { rewrite L, Es, map_length. auto. }
    assert (ns2 = ns') by congruence. subst; auto.
Qed.

(** The invariant, spelled out. *)
Lemma built_invariant ns : built ns ->
  NoDup (keys ns) /\
  (forall i n k j idx, get ns i = Some n -> nth_error (n_inputs n) k = Some (mkEdge (Some j) idx) ->
     exists m w, get ns j = Some m /\ nth_error (n_outputs m) idx = Some w /\ count_occ edge_dec w (mkEdge (Some i) k) = 1) /\
  (forall j m idx w i k, get ns j = Some m -> nth_error (n_outputs m) idx = Some w -> In (mkEdge (Some i) k) w ->
     exists n, get ns i = Some n /\ nth_error (n_inputs n) k = Some (mkEdge (Some j) idx)) /\
  (forall fwd, exists l, iter_all fwd ns = Some l /\ Permutation l (keys ns)).
Proof.
  intros B. pose proof (built_valid ns B) as V. pose proof V as (ND & C & Ac). split; [auto|]. split; [|split].
  - intros i n k j idx G H. assert (I : inp ns i k = Some (mkEdge (Some j) idx)) by (unfold inp; rewrite G; auto).
    pose proof (cons_inp ns i k j idx C I) as O. unfold occ in O. destruct (get ns j) as [m|] eqn:Gj; [|discriminate].
    destruct (nth_error (n_outputs m) idx) as [w|] eqn:W.
    + exists m, w. rewrite (nth_error_nth _ _ _ W) in O. auto.
    + apply nth_error_None in W. rewrite nth_overflow in O by auto. discriminate.
  - intros j m idx w i k G W I. assert (O : occ ns j idx i k <> 0).
    { unfold occ. rewrite G, (nth_error_nth _ _ _ W). apply (count_occ_In edge_dec) in I. lia. }
    apply cons_occ in O; auto. unfold inp in O. destruct (get ns i) as [n|]; [|discriminate]. eauto.
  - intros fwd. destruct (iter_total fwd ns) as [l E]. exists l. split; auto. apply (iter_complete fwd ns l ND E).
    destruct fwd; auto. apply valid_backward; auto.
Qed.

Lemma built_run {V} (eval : Op -> list V -> option (list V)) inputs ns : built ns ->
  (forall tr, run_trace eval inputs ns = Some tr -> dataflow eval inputs ns tr /\ forall d, dataflow eval inputs ns d -> forall i, In i (keys ns) -> get d i = get tr i) /\
  ((exists d, dataflow eval inputs ns d) -> exists tr, run_trace eval inputs ns = Some tr).
Proof. intros B. pose proof (built_valid ns B) as V'. apply run_dataflow; [apply V'|apply V'|apply valid_closed; auto]. Qed.

(** Requantisation as seen by the run: the consumers of output [t] of [N] now get the requantised value. *)
Lemma requant_dataflow {V} (eval : Op -> list V -> option (list V)) inputs ns N n es ops : valid ns -> get ns N = Some n ->
  n_outputs n = map (fun e => [e]) es -> length ops = length es ->
  exists ns' ids, add_requant_nodes ns ops N = Some (ns', ids) /\ length ids = length es /\
   forall tr, dataflow eval inputs ns' tr ->
     (forall t r op, nth_error ids t = Some r -> nth_error ops t = Some op ->
        exists ins outs v q, get tr N = Some (ins, outs) /\ nth_error outs t = Some v /\ eval op [v] = Some q /\ get tr r = Some ([v], q)) /\
     (forall x m k t, get ns x = Some m -> nth_error (n_inputs m) k = Some (mkEdge (Some N) t) ->
        exists r ins outs q v, nth_error ids t = Some r /\ get tr x = Some (ins, outs) /\ get tr r = Some q /\ nth_error (snd q) 0 = Some v /\ nth_error ins k = Some v).
Proof.
  intros Hv G O Lo. destruct (requant_spec ns N n es ops Hv G O Lo) as (ns' & ids & E & V' & Li & NDi & K & Fr & Gr & Ir & Or).
  exists ns', ids. split; [auto|]. split; [auto|]. intros tr D. split.
  - intros t r op Hr Ho. destruct (nth_error es t) as [e|] eqn:He.
    2:{ apply nth_error_None in He. assert (t < length ids) by (apply nth_error_Some; congruence). lia. }
    destruct (D r _ (Gr t r e op Hr He Ho)) as (ins & outs & A & B & C). cbn [n_inputs n_op] in *.
    inversion B as [|? v ? l' Q F]; subst. inversion F; subst. cbn [e_node e_index] in Q. destruct Q as (i' & o' & Q1 & Q2).
    exists i', o', v, outs. auto.
  - intros x m k t Gx Hk. assert (Kx : In x (keys ns)) by (eapply get_keys; eauto).
    pose proof (Ir x k Kx) as I. unfold inp in I at 2. rewrite Gx, Hk, Nat.eqb_refl in I.
    unfold inp in I. destruct (get ns' x) as [m'|] eqn:Gx'.
    + assert (Lt : exists r, nth_error ids t = Some r).
      { destruct (nth_error ids t) as [r|] eqn:X; eauto. exfalso. apply nth_error_None in X.
        assert (occ ns N t x k = 1). { apply cons_inp; [apply Hv|]. unfold inp. rewrite Gx; auto. }
        unfold occ in H. rewrite G, O in H. rewrite nth_overflow in H; [discriminate|]. rewrite map_length. lia. }
      destruct Lt as [r Hr]. rewrite Hr in I. cbn in I.
      destruct (D x m' Gx') as (ins & outs & A & B & _).
      assert (X : exists v, nth_error ins k = Some v /\ exists i' o', get tr r = Some (i', o') /\ nth_error o' 0 = Some v).
      { clear -B I. revert k I. induction B; intros [|k] I; cbn in *; try discriminate; [|apply IHB; auto].
        injection I as ->. cbn in H. exists y. auto. }
      destruct X as (v & Hv' & i' & o' & Q1 & Q2). exists r, ins, outs, (i', o'), v. auto.
    + exfalso. apply get_None in Gx'. apply Gx', K. auto.
Qed.
End History.

(** ** Outside the guards *)
Definition nd (i o : nat) : node nat := mkNode [] (repeat [] o) i.
Lemma failed_add_refuted : exists (ns ns' : @nodes nat) n, valid ns /\ add_node ns n = (ns', None) /\ ~ consistent ns'.
Proof.
  exists [(0, nd 0 1)], [(0, mkNode [] [[mkEdge (Some 1) 0]] 0)], (mkNode [mkEdge (Some 0) 0; mkEdge (Some 7) 0] [[]] 1).
  split; [|split].
  - apply built_valid. apply (built_add [] (fun _ _ => 1) [] 0 _ 0); [constructor|reflexivity].
  - reflexivity.
  - intros C. specialize (C 1 0 0 0). vm_compute in C. discriminate.
Qed.
Lemma overwrite_refuted : exists (ns ns' : @nodes nat) n, valid ns /\ no_edges n /\ add_node_with_id ns 0 n = (ns', true) /\ ~ consistent ns'.
Proof.
  exists [(0, mkNode [] [[mkEdge (Some 1) 0]] 0); (1, mkNode [mkEdge (Some 0) 0] [[]] 1)],
         [(0, nd 5 1); (1, mkNode [mkEdge (Some 0) 0] [[]] 1)], (nd 5 1).
  split; [|split; [|split]].
  - apply built_valid. apply (built_add [(0, nd 0 1)] (fun _ _ => 1) [mkEdge (Some 0) 0] 1 _ 1); [|reflexivity].
    apply (built_add [] (fun _ _ => 1) [] 0 _ 0); [constructor|reflexivity].
  - intros w [<-|[]]; auto.
  - reflexivity.
  - intros C. specialize (C 1 0 0 0). vm_compute in C. discriminate.
Qed.
(** Fan-out: one wire with two consumers gives the requantisation node two inputs; an unused wire gives it none. *)
Lemma requant_fanout_refuted : exists (ns ns' : @nodes nat) r m, valid ns /\ add_requant_nodes ns [9] 0 = Some (ns', [r]) /\ get ns' r = Some m /\ length (n_inputs m) = 2.
Proof.
  exists [(0, mkNode [] [[mkEdge (Some 1) 0; mkEdge (Some 2) 0]] 0); (1, mkNode [mkEdge (Some 0) 0] [[]] 1); (2, mkNode [mkEdge (Some 0) 0] [[]] 2)].
  eexists. exists 3. eexists. split; [|split; [reflexivity|split; reflexivity]].
  apply built_valid. apply (built_add [(0, mkNode [] [[mkEdge (Some 1) 0]] 0); (1, mkNode [mkEdge (Some 0) 0] [[]] 1)] (fun _ _ => 1) [mkEdge (Some 0) 0] 2 _ 2); [|reflexivity].
  apply (built_add [(0, nd 0 1)] (fun _ _ => 1) [mkEdge (Some 0) 0] 1 _ 1); [|reflexivity].
  apply (built_add [] (fun _ _ => 1) [] 0 _ 0); [constructor|reflexivity].
Qed.
Lemma requant_unused_refuted : exists (ns ns' : @nodes nat) r m, valid ns /\ add_requant_nodes ns [9] 0 = Some (ns', [r]) /\ get ns' r = Some m /\ n_inputs m = [].
Proof.
  exists [(0, nd 0 1)]. eexists. exists 1. eexists. split; [|split; [reflexivity|split; reflexivity]].
  apply built_valid. apply (built_add [] (fun _ _ => 1) [] 0 _ 0); [constructor|reflexivity].
Qed.
Lemma requant_few_refuted : exists (ns ns' : @nodes nat) n ids, valid ns /\ get ns 0 = Some n /\ (forall w, In w (n_outputs n) -> length w = 1) /\
  add_requant_nodes ns [9] 0 = Some (ns', ids) /\ ~ consistent ns'.
Proof.
  exists [(0, mkNode [] [[mkEdge (Some 1) 0]; [mkEdge (Some 1) 1]] 0); (1, mkNode [mkEdge (Some 0) 0; mkEdge (Some 0) 1] [[]] 1)].
  eexists. eexists. exists [2]. split; [|split; [reflexivity|split; [|split; [reflexivity|]]]].
  - apply built_valid. apply (built_add [(0, nd 0 2)] (fun _ _ => 1) [mkEdge (Some 0) 0; mkEdge (Some 0) 1] 1 _ 1); [|reflexivity].
    apply (built_add [] (fun _ _ => 2) [] 0 _ 0); [constructor|reflexivity].
  - intros w [<-|[<-|[]]]; reflexivity.
  - intros C. specialize (C 1 1 0 1). vm_compute in C. discriminate.
Qed.
Lemma fanout_claims_refuted : exists (ns : @nodes nat) n, valid ns /\ get ns 0 = Some n /\ forall (C : Type) (b : list (nat * list C)) o, claims_for_node b o n = None.
Proof.
  exists [(0, mkNode [] [[mkEdge (Some 1) 0; mkEdge (Some 2) 0]] 0); (1, mkNode [mkEdge (Some 0) 0] [[]] 1); (2, mkNode [mkEdge (Some 0) 0] [[]] 2)].
  eexists. split; [|split; [reflexivity|reflexivity]].
  apply built_valid. apply (built_add [(0, mkNode [] [[mkEdge (Some 1) 0]] 0); (1, mkNode [mkEdge (Some 0) 0] [[]] 1)] (fun _ _ => 1) [mkEdge (Some 0) 0] 2 _ 2); [|reflexivity].
  apply (built_add [(0, nd 0 1)] (fun _ _ => 1) [mkEdge (Some 0) 0] 1 _ 1); [|reflexivity].
  apply (built_add [] (fun _ _ => 1) [] 0 _ 0); [constructor|reflexivity].
Qed.
(** A cycle: the iterators end early and silently. *)
Definition cyc : @nodes nat := [(0, mkNode [] [[mkEdge None 0]] 0); (1, mkNode [mkEdge (Some 2) 0] [[mkEdge (Some 2) 0]] 1); (2, mkNode [mkEdge (Some 1) 0] [[mkEdge (Some 1) 0]] 2)].
Lemma iter_cycle_refuted : consistent cyc /\ NoDup (keys cyc) /\ iter_all true cyc = Some [0] /\ iter_all false cyc = Some [0].
Proof.
  split; [|split; [|split; reflexivity]].
  - apply cons_intro.
    + intros i k j idx H. destruct i as [|[|[|i]]]; destruct k as [|[|k]]; vm_compute in H; try discriminate; injection H as <- <-; reflexivity.
    + intros i k j idx H. unfold occ. destruct j as [|[|[|j]]]; cbn [cyc get Nat.eqb n_outputs]; auto.
      * destruct idx as [|[|idx]]; cbn [nth count_occ]; auto.
      * destruct idx as [|[|idx]]; cbn [nth count_occ]; auto. destruct (edge_dec _ _) as [Q|]; auto.
        exfalso. injection Q as <- <-. apply H. reflexivity.
      * destruct idx as [|[|idx]]; cbn [nth count_occ]; auto. destruct (edge_dec _ _) as [Q|]; auto.
        exfalso. injection Q as <- <-. apply H. reflexivity.
  - repeat constructor; cbn; intuition congruence.
Qed.
(** Two output wires on one node: the first output is bound to no node. *)
Lemma bind_two_refuted : exists (L : list (nat * node nat)) m, bind_outputs_to_node L 2 = Some m /\
  In 0 (concat (map (fun p => node_outs (snd p)) L)) /\ forall i l, get m i = Some l -> ~ In 0 l.
Proof.
  exists [(0, mkNode [] [[mkEdge None 0]; [mkEdge None 1]] 0)], [(0, [1])]. split; [reflexivity|]. split; [left; auto|].
  intros i l H. cbn in H. destruct (Nat.eqb i 0); [|discriminate]. injection H as <-. intros [Q|[]]; discriminate.
Qed.
(** A node with one output used inside the model and one output of the model is not an output node, and its output is lost. *)
Lemma mixed_output_refuted : exists (ns : @nodes nat) (eval : nat -> list nat -> option (list nat)), valid ns /\
  run_model eval [] ns = None /\ exists tr, run_trace eval [] ns = Some tr /\ dataflow eval [] ns tr.
Proof.
  set (ns := [(0, mkNode [] [[mkEdge (Some 1) 0]; [mkEdge None 0]] 0); (1, mkNode [mkEdge (Some 0) 0] [[mkEdge None 1]] 1)] : @nodes nat).
  assert (B : built ns).
  { apply (built_route [(0, mkNode [] [[mkEdge (Some 1) 0]; []] 0); (1, mkNode [mkEdge (Some 0) 0] [[]] 1)] [mkEdge (Some 0) 1; mkEdge (Some 1) 0]); [|reflexivity].
    apply (built_add [(0, nd 0 2)] (fun _ _ => 1) [mkEdge (Some 0) 0] 1 _ 1); [|reflexivity].
    apply (built_add [] (fun _ _ => 2) [] 0 _ 0); [constructor|reflexivity]. }
  exists ns, (fun op l => Some (match op with 0 => [10; 20] | _ => l end)).
  split; [apply built_valid; auto|]. split; [reflexivity|]. eexists. split; [reflexivity|].
  apply (built_run _ _ ns B). reflexivity.
Qed.
