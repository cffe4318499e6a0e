(** Construction of the graph: producer and consumer edge lists stay mutually consistent. *)
From Coq Require Import List Arith Lia Bool Permutation.
From Verif Require Import ListAux FieldDef M_Mle M_Graph P_Graph.
Import ListNotations.

Definition edge_dec (a b : edge) : {a = b} + {a <> b}.
Proof. decide equality; [apply Nat.eq_dec|decide equality; apply Nat.eq_dec]. Defined.

Section Build.
Context {Op : Type}.
Implicit Types ns : @nodes Op.

(** The k-th input edge of node [i]; the number of times wire [idx] of node [j] lists "input [k] of node [i]". *)
Definition inp ns (i k : nat) : option edge := match get ns i with Some n => nth_error (n_inputs n) k | None => None end.
Definition occ ns (j idx i k : nat) : nat :=
  match get ns j with Some m => count_occ edge_dec (nth idx (n_outputs m) []) (mkEdge (Some i) k) | None => 0 end.
(** Input [k] of [i] names output [idx] of [j] exactly when that output's wire lists it, and then it lists it once. *)
Definition consistent ns : Prop := forall i k j idx,
  occ ns j idx i k = if match inp ns i k with Some e => if edge_dec e (mkEdge (Some j) idx) then true else false | None => false end then 1 else 0.
Definition valid ns : Prop := NoDup (keys ns) /\ consistent ns /\ acyclic true ns.

Lemma cons_inp ns i k j idx : consistent ns -> inp ns i k = Some (mkEdge (Some j) idx) -> occ ns j idx i k = 1.
Proof. intros C H; rewrite C, H. destruct (edge_dec (mkEdge (Some j) idx) (mkEdge (Some j) idx)); congruence. Qed.
Lemma cons_occ ns i k j idx : consistent ns -> occ ns j idx i k <> 0 -> inp ns i k = Some (mkEdge (Some j) idx).
Proof.
  intros C H. rewrite C in H. destruct (inp ns i k) as [e|]; [|exfalso; apply H; auto].
  destruct (edge_dec e (mkEdge (Some j) idx)); [congruence|exfalso; apply H; auto].
Qed.
Lemma cons_intro ns : (forall i k j idx, inp ns i k = Some (mkEdge (Some j) idx) -> occ ns j idx i k = 1) ->
  (forall i k j idx, inp ns i k <> Some (mkEdge (Some j) idx) -> occ ns j idx i k = 0) -> consistent ns.
Proof.
  intros A B i k j idx. destruct (inp ns i k) as [e|] eqn:E.
  - destruct (edge_dec e (mkEdge (Some j) idx)); [apply A; congruence|apply B; congruence].
  - apply B; congruence.
Qed.
Lemma occ_keys ns j idx i k : occ ns j idx i k <> 0 -> In j (keys ns).
Proof. unfold occ. destruct (get ns j) eqn:E; [intros _; eapply get_keys; eauto|intros H; exfalso; auto]. Qed.
Lemma inp_target ns i k j idx : consistent ns -> inp ns i k = Some (mkEdge (Some j) idx) -> In j (keys ns).
Proof. intros C H. apply (occ_keys ns j idx i k). rewrite (cons_inp ns i k j idx C H). discriminate. Qed.
Lemma inp_keys ns i k e : inp ns i k = Some e -> In i (keys ns).
Proof. unfold inp. destruct (get ns i) eqn:E; [intros _; eapply get_keys; eauto|discriminate]. Qed.
Lemma waits_inp ns i j : waits true ns i j <-> exists k idx, inp ns i k = Some (mkEdge (Some j) idx).
Proof.
  unfold waits, inp; cbn; split.
  - intros (n & G & e & He & Ej). apply In_nth_error in He. destruct He as [k Hk]. exists k, (e_index e).
    rewrite G, Hk. destruct e; cbn in *; congruence.
  - intros (k & idx & H). destruct (get ns i) as [n|] eqn:G; [|discriminate]. exists n; split; auto.
    exists (mkEdge (Some j) idx); split; auto. eapply nth_error_In; eauto.
Qed.

Lemma upd_nth_eq (l : list wire) idx x : idx < length l -> nth idx (upd idx x l) [] = x.
Proof. apply nth_upd_eq. Qed.

(** ** Pushing one edge *)
Lemma push_edge_spec ns j idx e ns' : push_edge ns j idx e = Some ns' ->
  In j (keys ns) /\ (forall x, In x (keys ns') <-> In x (keys ns)) /\ (NoDup (keys ns) -> NoDup (keys ns')) /\
  (forall i k, inp ns' i k = inp ns i k) /\
  (forall j' idx' i k, occ ns' j' idx' i k =
     occ ns j' idx' i k + (if Nat.eqb j' j && Nat.eqb idx' idx && (if edge_dec e (mkEdge (Some i) k) then true else false) then 1 else 0)).
Proof.
  unfold push_edge. destruct (get ns j) as [m|] eqn:G; [|discriminate]. cbn [obind].
  destruct (Nat.ltb_spec idx (length (n_outputs m))) as [L|]; [|discriminate]. intros E.
  set (m' := mkNode (n_inputs m) (upd idx (nth idx (n_outputs m) [] ++ [e]) (n_outputs m)) (n_op m)) in E.
  assert (ns' = put ns j m') by congruence. subst ns'. clear E.
  assert (Hj : In j (keys ns)) by (eapply get_keys; eauto).
  split; [auto|]. split. { intros x; rewrite keys_put; split; [intros [->|]; auto|auto]. }
  split; [apply put_NoDup|]. split.
  - intros i k. unfold inp. rewrite get_put. destruct (Nat.eqb_spec i j); [subst; rewrite G; auto|auto].
  - intros j' idx' i k. unfold occ. rewrite get_put. destruct (Nat.eqb_spec j' j) as [->|Nj]; cbn [andb]; [|lia].
    rewrite G. unfold m'; cbn [n_outputs]. destruct (Nat.eqb_spec idx' idx) as [->|Ni]; cbn [andb].
    + rewrite upd_nth_eq; auto. rewrite count_occ_app. cbn. destruct (edge_dec e (mkEdge (Some i) k)); auto.
    + rewrite nth_upd_neq; auto.
Qed.
Lemma push_edge_get ns j idx e m : get ns j = Some m -> idx < length (n_outputs m) ->
  push_edge ns j idx e = Some (put ns j (mkNode (n_inputs m) (upd idx (nth idx (n_outputs m) [] ++ [e]) (n_outputs m)) (n_op m))).
Proof. intros G L. unfold push_edge. rewrite G; cbn [obind]. apply Nat.ltb_lt in L. rewrite L; auto. Qed.

Lemma push_inputs_spec id : forall es k0 ns ns', push_inputs ns id k0 es = (ns', true) ->
  (forall x, In x (keys ns') <-> In x (keys ns)) /\ (NoDup (keys ns) -> NoDup (keys ns')) /\
  (forall i k, inp ns' i k = inp ns i k) /\
  (forall e j, In e es -> e_node e = Some j -> In j (keys ns)) /\
  (forall j idx i k, occ ns' j idx i k = occ ns j idx i k +
     (if Nat.eqb i id && Nat.leb k0 k && match nth_error es (k - k0) with Some e => if edge_dec e (mkEdge (Some j) idx) then true else false | None => false end then 1 else 0)).
Proof.
  induction es as [|e t IH]; intros k0 ns ns' E; cbn [push_inputs] in E.
  - assert (ns' = ns) by congruence. subst. split; [intros; tauto|]. split; [auto|]. split; [auto|]. split; [intros ? ? []|].
    intros j idx i k. destruct (k - k0); cbn [nth_error]; rewrite andb_false_r; lia.
  - assert (SH : forall k j idx, (Nat.leb k0 k && match nth_error (e :: t) (k - k0) with Some e => if edge_dec e (mkEdge (Some j) idx) then true else false | None => false end)
        = (Nat.eqb k k0 && (if edge_dec e (mkEdge (Some j) idx) then true else false))
          || (Nat.leb (S k0) k && match nth_error t (k - S k0) with Some e => if edge_dec e (mkEdge (Some j) idx) then true else false | None => false end)).
    { intros k j idx. destruct (Nat.eqb_spec k k0).
      - subst. rewrite Nat.leb_refl, Nat.sub_diag. cbn [nth_error andb].
        destruct (Nat.leb_spec (S k0) k0); [lia|]. rewrite orb_false_r; auto.
      - destruct (Nat.leb_spec k0 k), (Nat.leb_spec (S k0) k); try lia; cbn [andb orb]; auto.
        replace (k - k0) with (S (k - S k0)) by lia. auto. }
    destruct (e_node e) as [j0|] eqn:Ej.
    + destruct (push_edge ns j0 (e_index e) (mkEdge (Some id) k0)) as [ns1|] eqn:P; [|discriminate].
      destruct (push_edge_spec _ _ _ _ _ P) as (A1 & A2 & A3 & A4 & A5).
      destruct (IH (S k0) ns1 ns' E) as (B1 & B2 & B3 & B4 & B5).
      split; [intros x; rewrite B1, A2; tauto|]. split; [auto|]. split; [intros; rewrite B3, A4; auto|].
      split. { intros e' j [He|He] Hj; [subst; congruence|]. apply A2, (B4 e' j He Hj). }
      intros j idx i k. rewrite B5, A5, <- !andb_assoc, SH.
      assert (X : Nat.eqb j j0 && (Nat.eqb idx (e_index e) && (if edge_dec (mkEdge (Some id) k0) (mkEdge (Some i) k) then true else false))
                = Nat.eqb i id && (Nat.eqb k k0 && (if edge_dec e (mkEdge (Some j) idx) then true else false))).
      { destruct e as [en ei]; cbn [e_node e_index] in *; subst en.
        destruct (edge_dec (mkEdge (Some id) k0) (mkEdge (Some i) k)) as [Q|Q], (edge_dec (mkEdge (Some j0) ei) (mkEdge (Some j) idx)) as [R|R];
          destruct (Nat.eqb_spec j j0), (Nat.eqb_spec idx ei), (Nat.eqb_spec i id), (Nat.eqb_spec k k0); cbn; auto; exfalso; congruence. }
      rewrite X. destruct (Nat.eqb i id); cbn [andb]; [|lia].
      destruct (Nat.eqb_spec k k0) as [Ek|]; cbn [andb orb]; [|lia].
      destruct (Nat.leb_spec (S k0) k); [lia|]. cbn [andb]. rewrite orb_false_r. lia.
    + destruct (IH (S k0) ns ns' E) as (B1 & B2 & B3 & B4 & B5).
      split; [auto|]. split; [auto|]. split; [auto|].
      split. { intros e' j [He|He] Hj; [subst; congruence|]. apply (B4 e' j He Hj). }
      intros j idx i k. rewrite B5, <- !andb_assoc, SH. destruct (edge_dec e (mkEdge (Some j) idx)) as [R|R]; [subst e; discriminate|].
      rewrite andb_false_r. auto.
Qed.

Definition no_edges (n : node Op) : Prop := forall w, In w (n_outputs n) -> w = [].
Lemma no_edges_nth n idx : no_edges n -> nth idx (n_outputs n) [] = [].
Proof. intros H. destruct (nth_in_or_default idx (n_outputs n) []) as [I|E]; auto. Qed.
Lemma node_new_no_edges f es op : no_edges (node_new f es op).
Proof. intros w H. apply repeat_spec in H; auto. Qed.

Lemma list_max_bound (f : nat -> nat) l x : In x l -> f x <= list_max (map f l).
Proof.
  intros H. pose proof (proj1 (list_max_le (map f l) _) (le_n _)) as F. rewrite Forall_forall in F.
  apply F, in_map; auto.
Qed.

Lemma add_node_valid ns id n ns' : valid ns -> get ns id = None -> no_edges n -> add_node_with_id ns id n = (ns', true) ->
  valid ns' /\ get ns' id = Some n /\ (forall i k, i <> id -> inp ns' i k = inp ns i k) /\ (forall x, In x (keys ns') <-> x = id \/ In x (keys ns)).
Proof.
  intros (ND & C & rank & R) G0 NE E. unfold add_node_with_id in E.
  destruct (push_inputs ns id 0 (n_inputs n)) as [ns1 [|]] eqn:P; [|discriminate].
  assert (ns' = put ns1 id n) by congruence. subst ns'. clear E.
  destruct (push_inputs_spec _ _ _ _ _ P) as (A1 & A2 & A3 & A4 & A5).
  assert (Nid : ~ In id (keys ns)) by (apply get_None; auto).
  assert (I1 : forall i k, i <> id -> inp (put ns1 id n) i k = inp ns i k).
  { intros i k N. rewrite <- A3. unfold inp. rewrite get_put. destruct (Nat.eqb_spec i id); [contradiction|auto]. }
  assert (I2 : forall k, inp (put ns1 id n) id k = nth_error (n_inputs n) k).
  { intros k. unfold inp. rewrite get_put, Nat.eqb_refl. auto. }
  assert (O1 : forall idx i k, occ (put ns1 id n) id idx i k = 0).
  { intros. unfold occ. rewrite get_put, Nat.eqb_refl, no_edges_nth; auto. }
  assert (O2 : forall j idx i k, j <> id -> occ (put ns1 id n) j idx i k = occ ns1 j idx i k).
  { intros j idx i k N. unfold occ. rewrite get_put. destruct (Nat.eqb_spec j id); [contradiction|auto]. }
  assert (T : forall i k idx, inp (put ns1 id n) i k <> Some (mkEdge (Some id) idx)).
  { intros i k idx H. destruct (Nat.eq_dec i id) as [->|N].
    - rewrite I2 in H. apply nth_error_In in H. apply Nid, (A4 _ id H); auto.
    - rewrite I1 in H; auto. apply Nid, (inp_target ns i k id idx C H). }
  split; [split|].
  - apply put_NoDup; auto.
  - split.
    + intros i k j idx. destruct (Nat.eq_dec j id) as [->|Nj].
      * rewrite O1. destruct (inp (put ns1 id n) i k) as [e|] eqn:Ei; auto. destruct (edge_dec e (mkEdge (Some id) idx)); auto.
        exfalso. apply (T i k idx). congruence.
      * rewrite O2, A5; auto. change (Nat.leb 0 k) with true. rewrite Nat.sub_0_r, andb_true_r. destruct (Nat.eqb_spec i id) as [->|Ni]; cbn [andb].
        -- rewrite I2. assert (occ ns j idx id k = 0) as ->; [|auto].
           destruct (Nat.eq_dec (occ ns j idx id k) 0) as [|NZ]; auto. exfalso. apply Nid. eapply inp_keys. eapply cons_occ; eauto.
        -- rewrite I1; auto. rewrite C. lia.
    + exists (fun x => if Nat.eqb x id then S (list_max (map rank (keys ns))) else rank x).
      intros i j W Hj. apply waits_inp in W. destruct W as (k & idx & H).
      assert (Nj : j <> id) by (intros ->; exact (T i k idx H)).
      destruct (Nat.eqb_spec j id) as [|_]; [contradiction|].
      assert (Kj : In j (keys ns)). { apply keys_put in Hj. destruct Hj; [contradiction|apply A1; auto]. }
      destruct (Nat.eqb_spec i id) as [->|Ni].
      * pose proof (list_max_bound rank (keys ns) j Kj). lia.
      * apply R; auto. apply waits_inp. exists k, idx. rewrite <- I1; auto.
  - split; [rewrite get_put, Nat.eqb_refl; auto|]. split; [auto|].
    intros x. rewrite keys_put, A1. tauto.
Qed.

Lemma free_id_fresh ns id : free_id ns = Some id -> get ns id = None.
Proof.
  intros H. apply find_some in H. destruct H as [_ H]. rewrite negb_true_iff, mem_not in H. apply get_None; auto.
Qed.
Lemma free_id_some ns : exists id, free_id ns = Some id.
Proof.
  destruct (free_id ns) eqn:E; eauto. exfalso. pose proof (find_none _ _ E) as H.
  assert (I : incl (seq 0 (length ns + 1)) (keys ns)).
  { intros x Hx. specialize (H x Hx). cbv beta in H. rewrite negb_false_iff, mem_In in H; auto. }
  pose proof (NoDup_incl_length (seq_NoDup (length ns + 1) 0) I) as L. rewrite seq_length in L. unfold keys in L. rewrite map_length in L. lia.
Qed.
Lemma add_node_ok ns n ns' id : valid ns -> no_edges n -> add_node ns n = (ns', Some id) ->
  valid ns' /\ ~ In id (keys ns) /\ get ns' id = Some n /\ (forall i k, i <> id -> inp ns' i k = inp ns i k) /\ (forall x, In x (keys ns') <-> x = id \/ In x (keys ns)).
Proof.
  intros Hv NE E. unfold add_node in E. destruct (free_id ns) as [f|] eqn:F; [|discriminate].
  destruct (add_node_with_id ns f n) as [ns1 [|]] eqn:A; [|discriminate].
  assert (f = id /\ ns1 = ns') as [-> ->] by (split; congruence).
  pose proof (free_id_fresh _ _ F) as G. destruct (add_node_valid _ _ _ _ Hv G NE A) as (B1 & B2 & B3 & B4).
  split; [auto|]. split; [apply get_None; auto|]. auto.
Qed.

(** ** Routing outputs *)
Lemma route_valid : forall es k ns ns', valid ns -> route_outputs ns k es = (ns', true) ->
  valid ns' /\ (forall i q, inp ns' i q = inp ns i q) /\ (forall x, In x (keys ns') <-> In x (keys ns)).
Proof.
  induction es as [|e t IH]; intros k ns ns' Hv E; cbn in E.
  - assert (ns' = ns) by congruence. subst. split; [auto|]. split; [auto|tauto].
  - destruct (e_node e) as [j|]; [|discriminate].
    destruct (push_edge ns j (e_index e) (mkEdge None k)) as [ns1|] eqn:P; [|discriminate].
    destruct (push_edge_spec _ _ _ _ _ P) as (A1 & A2 & A3 & A4 & A5). destruct Hv as (ND & C & rank & R).
    destruct (IH (S k) ns1 ns') as (B1 & B2 & B3); auto.
    + split; [auto|]. split.
      * intros i q j' idx. rewrite A5, A4, C. destruct (edge_dec (mkEdge None k) (mkEdge (Some i) q)); [discriminate|].
        rewrite andb_false_r. lia.
      * exists rank. intros i j' W Hj. apply R; [|apply A2; auto]. apply waits_inp in W. apply waits_inp.
        destruct W as (q & idx & H). exists q, idx. rewrite <- A4; auto.
    + split; [auto|]. split; [intros; rewrite B2; auto|]. intros x; rewrite B3; auto.
Qed.

Lemma route_default_get ns : forall ns', NoDup (keys ns) -> route_default ns = Some ns' ->
  keys ns' = keys ns /\ exists i n, get ns i = Some n /\ no_edges n /\
   (forall x, get ns' x = if Nat.eqb x i then Some (mkNode (n_inputs n) (map (fun k => [mkEdge None k]) (seq 0 (length (n_outputs n)))) (n_op n)) else get ns x).
Proof.
  induction ns as [|[i n] t IH]; intros ns' ND E; cbn in E; [discriminate|].
  match type of E with (if ?b then _ else _) = _ => destruct b eqn:F end.
  - match type of E with Some (?h :: t) = _ => assert (ns' = h :: t) by congruence end. subst ns'. split; [auto|].
    exists i, n. cbn. rewrite Nat.eqb_refl. split; [auto|]. split.
    { intros w Hw. rewrite forallb_forall in F. specialize (F w Hw). destruct w; [auto|discriminate]. }
    intros x. destruct (Nat.eqb x i); auto.
  - destruct (route_default t) as [t'|] eqn:E'; [|discriminate]. cbn in E. assert (ns' = (i, n) :: t') by congruence. subst ns'.
    pose proof (NoDup_cons_iff i (keys t)) as [Fd _]. destruct (Fd ND) as [F1 F2].
    destruct (IH t' F2 eq_refl) as (K & i0 & n0 & G & NE & H). split; [unfold keys in *; cbn [map fst]; rewrite K; reflexivity|].
    exists i0, n0. assert (i0 <> i). { intros ->; apply F1; eapply get_keys; eauto. }
    split. { cbn. destruct (Nat.eqb_spec i0 i); [contradiction|auto]. } split; [auto|].
    intros x. cbn. rewrite H. destruct (Nat.eqb_spec x i), (Nat.eqb_spec x i0); auto; congruence.
Qed.
Lemma count_none (l : list nat) idx i k : count_occ edge_dec (nth idx (map (fun q => [mkEdge None q]) l) []) (mkEdge (Some i) k) = 0.
Proof.
  revert idx; induction l as [|a l IH]; intros [|idx]; cbn [map nth]; auto.
Qed.
Lemma route_default_valid ns ns' : valid ns -> route_default ns = Some ns' ->
  valid ns' /\ (forall i q, inp ns' i q = inp ns i q) /\ keys ns' = keys ns.
Proof.
  intros (ND & C & rank & R) E. destruct (route_default_get ns ns' ND E) as (K & i0 & n0 & G & NE & H).
  assert (I : forall i q, inp ns' i q = inp ns i q).
  { intros i q. unfold inp. rewrite H. destruct (Nat.eqb_spec i i0); [subst; rewrite G; auto|auto]. }
  assert (O : forall j idx i k, occ ns' j idx i k = occ ns j idx i k).
  { intros j idx i k. unfold occ. rewrite H. destruct (Nat.eqb_spec j i0); [|auto]. subst. rewrite G, (no_edges_nth n0 idx NE). apply count_none. }
  split; [split; [congruence|split]|auto].
  - intros i k j idx. rewrite O, I. apply C.
  - exists rank. intros i j W Hj. rewrite K in Hj. apply R; auto. apply waits_inp in W. apply waits_inp.
    destruct W as (q & idx & X). exists q, idx. rewrite <- I; auto.
Qed.

(** Acyclic in one direction, acyclic in the other. *)
Lemma waits_back ns i j : consistent ns -> waits false ns i j -> waits true ns j i.
Proof.
  intros C (n & G & w & e & Hw & He & Ej). apply waits_inp. apply In_nth_error in Hw. destruct Hw as [idx Hi].
  exists (e_index e), idx. apply cons_occ; auto. unfold occ. rewrite G. rewrite (nth_error_nth _ _ _ Hi).
  destruct e as [en ei]; cbn in *; subst en. apply (count_occ_In edge_dec) in He. lia.
Qed.
Lemma valid_backward ns : valid ns -> acyclic false ns.
Proof.
  intros (ND & C & rank & R). exists (fun x => list_max (map rank (keys ns)) - rank x).
  intros i j W Hj. pose proof (waits_back ns i j C W) as W'. destruct W as (n & G & _). apply get_keys in G.
  pose proof (R j i W' G). pose proof (list_max_bound rank _ _ G). pose proof (list_max_bound rank _ _ Hj). lia.
Qed.
End Build.
