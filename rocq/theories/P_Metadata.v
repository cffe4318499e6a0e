(** The scaling factors recorded for a quantised model agree along every wire. *)
From Coq Require Import List Arith Lia Bool Permutation QArith Qabs ZArith.
From Verif Require Import ListAux M_Mle M_Graph P_Graph P_Graph2 P_Graph3 P_Graph4 P_Graph6 M_Tables M_Quant P_Quant M_Metadata.
Import ListNotations.
Local Open Scope nat_scope.

Section Md.
Context {Op QOp Sc : Type}.
Variable quantize_op : nat -> Op -> list Sc -> option (QOp * list Sc * option (list QOp)).
Notation builder := (@builder Sc).
Implicit Types md : builder.

(** The scaling factor recorded for what an edge carries: that of the producing output, or of the model's input. *)
Definition wire_scale md (e : edge) (s : Sc) : Prop :=
  match e with
  | mkEdge None k => nth_error (md_in md) k = Some s
  | mkEdge (Some j) k => exists ss, get (md_outs md) j = Some ss /\ nth_error ss k = Some s
  end.
(** Each input of each node is recorded with the scaling factor of the wire feeding it. *)
Definition scales_agree {O} (ns : @nodes O) md : Prop := forall x k e, inp ns x k = Some e ->
  exists ss s, get (md_ins md) x = Some ss /\ nth_error ss k = Some s /\ wire_scale md e s.
(** What is asked of the layers: a layer followed by requantisation has one consumer per output, and answers one scaling
    factor and one requantisation per output. *)
Definition requants_ok (ns : @nodes Op) : Prop := forall i n ins q outs ops, get ns i = Some n -> quantize_op i (n_op n) ins = Some (q, outs, Some ops) ->
  exists es, n_outputs n = map (fun e => [e]) es /\ length outs = length es /\ length ops = length es.

Lemma edge_scaling_iff md e s : edge_scaling md e = Some s <-> wire_scale md e s.
Proof.
  destruct e as [[j|] k]; unfold edge_scaling, wire_scale; cbn; [|tauto]. destruct (get (md_outs md) j) as [ss|]; cbn.
  - split; [eauto|]. intros (ss' & A & B). congruence.
  - split; [discriminate|]. intros (ss' & A & _). discriminate.
Qed.
Lemma wire_scale_ext md md' e s : md_in md' = md_in md -> (forall j ss, e_node e = Some j -> get (md_outs md) j = Some ss -> get (md_outs md') j = Some ss) ->
  wire_scale md e s -> wire_scale md' e s.
Proof.
  intros A B. destruct e as [[j|] k]; cbn in *; [|rewrite A; auto]. intros (ss & C & D). exists ss; split; auto.
Qed.

Lemma quantize_nodes_spec : forall l md md' rqs qs, quantize_nodes quantize_op md l = Some (md', rqs, qs) -> NoDup (map fst l) ->
  (forall i, In i (map fst l) -> get (md_outs md) i = None) ->
  md_in md' = md_in md /\ keys qs = map fst l /\ NoDup (map fst rqs) /\ incl (map fst rqs) (map fst l) /\
  (forall i, ~ In i (map fst l) -> get (md_outs md') i = get (md_outs md) i /\ get (md_ins md') i = get (md_ins md) i) /\
  (forall i n, In (i, n) l -> exists ins q outs rq,
     (forall k e, nth_error (n_inputs n) k = Some e -> exists s, nth_error ins k = Some s /\ wire_scale md' e s) /\ length ins = length (n_inputs n) /\
     quantize_op i (n_op n) ins = Some (q, outs, rq) /\ get (md_outs md') i = Some outs /\ get (md_ins md') i = Some ins /\
     In (i, mkNode (n_inputs n) (n_outputs n) q) qs /\ forall ops, In (i, ops) rqs <-> rq = Some ops).
Proof.
  induction l as [|[i n] l IH]; intros md md' rqs qs E ND Fr; cbn [quantize_nodes] in E.
  - assert (md = md' /\ [] = rqs /\ [] = qs) as (<- & <- & <-) by (split; [|split]; congruence).
    split; [auto|]. split; [auto|]. split; [constructor|]. split; [intros ? []|]. split; [auto|intros ? ? []].
  - destruct (compute_input_scaling md (n_inputs n)) as [ins|] eqn:Ei; [|discriminate]. cbn [obind] in E.
    destruct (quantize_op i (n_op n) ins) as [[[q outs] rq]|] eqn:Eq; [|discriminate]. cbn [obind] in E.
    destruct (quantize_nodes quantize_op (set_layers_scaling md i outs ins) l) as [[[md1 rqs1] qs1]|] eqn:Er; [|discriminate]. cbn [obind] in E.
    assert (md1 = md' /\ rqs = match rq with Some ops => (i, ops) :: rqs1 | None => rqs1 end /\ qs = (i, mkNode (n_inputs n) (n_outputs n) q) :: qs1) as (-> & -> & ->) by (split; [|split]; congruence).
    clear E. cbn [map fst] in *. apply NoDup_cons_iff in ND. destruct ND as [Ni ND].
    destruct (IH _ _ _ _ Er ND) as (A1 & A2 & A3 & A4 & A5 & A6).
    { intros j Hj. unfold set_layers_scaling; cbn [md_outs]. rewrite get_put. destruct (Nat.eqb_spec j i); [congruence|]. apply Fr; right; auto. }
    cbn [md_in set_layers_scaling md_outs md_ins] in A1, A5.
    split; [auto|]. split; [cbn [keys map fst]; f_equal; exact A2|].
    split. { destruct rq; [|auto]. cbn [map fst]. constructor; auto. }
    split. { destruct rq; cbn [map fst]; [|apply incl_tl; auto]. intros x [<-|Hx]; [left; auto|right; auto]. }
    assert (Ii : get (md_outs md') i = Some outs /\ get (md_ins md') i = Some ins).
    { destruct (A5 i Ni) as [X Y]. rewrite X, Y, !get_put, Nat.eqb_refl. auto. }
    split.
    { intros j Hj. assert (Nj : j <> i) by (intros ->; apply Hj; left; auto). destruct (A5 j) as [X Y]; [intros H; apply Hj; right; auto|].
      rewrite X, Y, !get_put. destruct (Nat.eqb_spec j i); [contradiction|auto]. }
    intros j m [H|H].
    + assert (j = i /\ m = n) as [-> ->] by (split; congruence). exists ins, q, outs, rq. unfold compute_input_scaling in Ei. apply omapM_nth in Ei. destruct Ei as [L H'].
      split.
      { intros k e He. destruct (H' k e He) as (s & Hs & Es). exists s. split; [auto|]. apply edge_scaling_iff in Es. revert Es. apply wire_scale_ext; [auto|].
        intros c ss _ Hc. assert (Nc : ~ In c (map fst l)). { intros X. rewrite Fr in Hc by (right; auto). discriminate. }
        destruct (A5 c Nc) as [X _]. rewrite X, get_put. destruct (Nat.eqb_spec c i); [|auto]. subst. rewrite Fr in Hc by (left; auto). discriminate. }
      split; [auto|]. split; [auto|]. split; [apply Ii|]. split; [apply Ii|]. split; [left; auto|].
      intros ops. destruct rq as [ops'|]; cbn [In].
      * split; [|intros X; left; congruence]. intros [X|X]; [congruence|]. exfalso. apply Ni, A4. apply (in_map fst) in X. exact X.
      * split; [|discriminate]. intros X. exfalso. apply Ni, A4. apply (in_map fst) in X. exact X.
    + destruct (A6 j m H) as (ins' & q' & outs' & rq' & B1 & B2 & B3 & B4 & B5 & B6 & B7). exists ins', q', outs', rq'.
      split; [auto|]. split; [auto|]. split; [auto|]. split; [auto|]. split; [auto|]. split; [right; auto|].
      assert (Nj : j <> i) by (intros ->; apply Ni; apply (in_map fst) in H; exact H).
      intros ops. rewrite <- B7. destruct rq; [|tauto]. cbn [In]. split; [intros [X|X]; [congruence|auto]|auto].
Qed.

Lemma set_requants_spec : forall ids scs md, NoDup ids -> length ids = length scs -> let md' := set_requants md ids scs in
  md_in md' = md_in md /\ (forall x, ~ In x ids -> get (md_outs md') x = get (md_outs md) x /\ get (md_ins md') x = get (md_ins md) x) /\
  (forall t r s, nth_error ids t = Some r -> nth_error scs t = Some s -> get (md_outs md') r = Some [s] /\ get (md_ins md') r = Some [s]).
Proof.
  induction ids as [|i ids IH]; intros [|s scs] md ND L; try discriminate L; cbn [set_requants].
  - split; [auto|]. split; [auto|]. intros [|t]; discriminate.
  - apply NoDup_cons_iff in ND. destruct ND as [Ni ND]. destruct (IH scs (set_layers_scaling md i [s] [s]) ND) as (A & B & C); [cbn in L; lia|].
    split; [rewrite A; auto|]. split.
    + intros x Hx. destruct (B x) as [X Y]; [intros H; apply Hx; right; auto|]. rewrite X, Y. cbn [set_layers_scaling md_outs md_ins]. rewrite !get_put.
      destruct (Nat.eqb_spec x i); [|auto]. exfalso; apply Hx; left; auto.
    + intros [|t] r s' Hr Hs; cbn in Hr, Hs; [|apply (C t); auto]. assert (r = i /\ s' = s) as [-> ->] by (split; congruence).
      destruct (B i Ni) as [X Y]. rewrite X, Y. cbn [set_layers_scaling md_outs md_ins]. rewrite !get_put, Nat.eqb_refl. auto.
Qed.

(** Requantisation leaves the wires of the other nodes alone. *)
Lemma reroute_outs (N r : nat) : forall (w : wire) i (ns ns' : @nodes QOp), reroute ns N r i w = Some ns' -> forall x, option_map (@n_outputs QOp) (get ns' x) = option_map (@n_outputs QOp) (get ns x).
Proof.
  induction w as [|e w IH]; intros i ns ns' E x; cbn [reroute] in E; [congruence|].
  destruct (e_node e) as [c|]; [|eapply IH; eauto]. destruct (get ns c) as [n|] eqn:G; [|discriminate]. cbn [obind] in E.
  destruct (nth_error (n_inputs n) (e_index e)) as [ie|]; [|discriminate]. cbn [obind] in E. destruct (e_node ie) as [j|]; [|discriminate]. cbn [obind] in E.
  destruct (Nat.eqb j N); [|discriminate]. rewrite (IH _ _ _ E x), get_put. destruct (Nat.eqb_spec x c); [subst; rewrite G; auto|auto].
Qed.
Lemma reroute_wires_outs (N r : nat) : forall (ws : list wire) i (ns ns' : @nodes QOp), reroute_wires ns N r i ws = Some ns' -> forall x, option_map (@n_outputs QOp) (get ns' x) = option_map (@n_outputs QOp) (get ns x).
Proof.
  induction ws as [|w ws IH]; intros i ns ns' E x; cbn [reroute_wires] in E; [congruence|].
  destruct (reroute ns N r i w) as [ns1|] eqn:E1; [|discriminate]. cbn [obind] in E. rewrite (IH _ _ _ E x). eapply reroute_outs; eauto.
Qed.
Lemma reroute_all_outs (N : nat) : forall (ids : list nat) (ns ns' : @nodes QOp), reroute_all ns N ids = Some ns' -> forall x, option_map (@n_outputs QOp) (get ns' x) = option_map (@n_outputs QOp) (get ns x).
Proof.
  induction ids as [|r ids IH]; intros ns ns' E x; cbn [reroute_all] in E; [congruence|].
  destruct (get ns r) as [n|]; [|discriminate]. cbn [obind] in E. destruct (reroute_wires ns N r 0 (n_outputs n)) as [ns1|] eqn:E1; [|discriminate]. cbn [obind] in E.
  rewrite (IH _ _ E x). eapply reroute_wires_outs; eauto.
Qed.
Lemma requant_wires (ns : @nodes QOp) N n es ops ns' ids : NoDup (keys ns) -> get ns N = Some n -> n_outputs n = map (fun e => [e]) es -> length ops = length es ->
  add_requant_nodes ns ops N = Some (ns', ids) -> forall x, x <> N -> In x (keys ns) -> option_map (@n_outputs QOp) (get ns' x) = option_map (@n_outputs QOp) (get ns x).
Proof.
  intros ND G O Lo E x Nx Kx. unfold add_requant_nodes in E. rewrite G in E. cbn [obind] in E. 
  set (n1 := mkNode (n_inputs n) (repeat [] (length (n_outputs n))) (n_op n)) in E. cbv zeta in E.
  rewrite O in E. rewrite requant_list in E by auto.
  assert (Lc : length (combine es ops) = length es) by (rewrite combine_length; lia).
  destruct (add_requants N (combine es ops) 0 (put ns N n1) n1) as (ns2 & ids' & E2 & _ & _ & _ & _ & _ & _ & I7 & _).
  { rewrite get_put, Nat.eqb_refl; auto. } { unfold n1; cbn [n_outputs]. rewrite repeat_length, O, map_length. lia. } { apply put_NoDup; auto. }
  rewrite Lc in E2. rewrite E2 in E. cbn [obind fst snd] in E. destruct (reroute_all ns2 N ids') as [ns3|] eqn:E3; [|discriminate]. cbn [obind] in E.
  assert (ns3 = ns') by congruence. subst ns3. rewrite (reroute_all_outs _ _ _ _ E3 x), I7; auto.
  - rewrite get_put. destruct (Nat.eqb_spec x N); [contradiction|auto].
  - apply keys_put. right; auto.
Qed.

Lemma insert_requants_spec : forall rqs (ns : @nodes QOp) md ns' md', insert_requants ns md rqs = Some (ns', md') -> valid ns -> NoDup (map fst rqs) -> scales_agree ns md ->
  (forall N ops, In (N, ops) rqs -> exists n es outs, get ns N = Some n /\ n_outputs n = map (fun e => [e]) es /\ length ops = length es /\ get (md_outs md) N = Some outs) ->
  valid ns' /\ scales_agree ns' md' /\ md_in md' = md_in md /\
  (forall x, In x (keys ns) -> In x (keys ns') /\ get (md_outs md') x = get (md_outs md) x /\ get (md_ins md') x = get (md_ins md) x /\
     option_map (@n_op QOp) (get ns' x) = option_map (@n_op QOp) (get ns x)) /\
  (forall x k e, inp ns x k = Some e -> (forall j, e_node e = Some j -> ~ In j (map fst rqs)) -> inp ns' x k = Some e) /\
  (forall x, In x (keys ns') -> ~ In x (keys ns) -> exists N t ops op outs s, In (N, ops) rqs /\ nth_error ops t = Some op /\
     get (md_outs md) N = Some outs /\ nth_error outs t = Some s /\ get (md_outs md') x = Some [s] /\ get (md_ins md') x = Some [s] /\
     option_map (@n_op QOp) (get ns' x) = Some op /\ inp ns' x 0 = Some (mkEdge (Some N) t)).
Proof.
  induction rqs as [|[N ops] rqs IH]; intros ns md ns' md' E V ND S H; cbn [insert_requants] in E.
  - assert (ns = ns' /\ md = md') as [<- <-] by (split; congruence). split; [auto|]. split; [auto|]. split; [auto|]. split; [auto|]. split; [auto|]. intros; contradiction.
  - destruct (H N ops (or_introl eq_refl)) as (n & es & outs & G & O & Lo & Go).
    destruct (requant_spec ns N n es ops V G O Lo) as (ns1 & ids & E1 & V1 & Li & NDi & K1 & Fr & G1 & In1 & Op1).
    pose proof (requant_wires ns N n es ops ns1 ids (proj1 V) G O Lo E1) as W1.
    rewrite E1 in E. cbn [obind fst snd] in E. rewrite Go in E. cbn [obind] in E. destruct (Nat.eqb_spec (length ids) (length outs)) as [Lio|]; [|discriminate].
    cbn [map fst] in ND. apply NoDup_cons_iff in ND. destruct ND as [NN ND].
    destruct (set_requants_spec ids outs md NDi Lio) as (B1 & B2 & B3). set (md1 := set_requants md ids outs) in *.
    assert (KN : In N (keys ns)) by (eapply get_keys; eauto).
    assert (Old : forall x, In x (keys ns) -> get (md_outs md1) x = get (md_outs md) x /\ get (md_ins md1) x = get (md_ins md) x).
    { intros x Kx. apply B2. intros Hx. apply (Fr x Hx Kx). }
    assert (New : forall x, In x ids -> exists t op s, nth_error ids t = Some x /\ nth_error ops t = Some op /\ nth_error outs t = Some s /\
       get (md_outs md1) x = Some [s] /\ get (md_ins md1) x = Some [s] /\ option_map (@n_op QOp) (get ns1 x) = Some op /\
       (forall k, inp ns1 x k = match k with O => Some (mkEdge (Some N) t) | _ => None end)).
    { intros x Hx. apply In_nth_error in Hx. destruct Hx as [t Ht]. assert (Lt : t < length ids) by (apply nth_error_Some; congruence).
      destruct (nth_error es t) as [e|] eqn:Ee; [|apply nth_error_None in Ee; lia]. destruct (nth_error ops t) as [op|] eqn:Eo; [|apply nth_error_None in Eo; lia].
      destruct (nth_error outs t) as [s|] eqn:Es; [|apply nth_error_None in Es; lia]. destruct (B3 t x s Ht Es) as [X Y].
      exists t, op, s. pose proof (G1 t x e op Ht Ee Eo) as Gx. split; [auto|]. split; [auto|]. split; [auto|]. split; [auto|]. split; [auto|].
      split; [rewrite Gx; auto|]. intros k. unfold inp. rewrite Gx. destruct k as [|[|k]]; auto. }
    assert (S1 : scales_agree ns1 md1).
    { intros x k e Hi. assert (Kx : In x (keys ns1)) by (eapply inp_keys; eauto). apply K1 in Kx. destruct Kx as [Hx|Kx].
      - destruct (New x Hx) as (t & op & s & _ & _ & Hs & _ & Hin & _ & Hk). rewrite Hk in Hi. destruct k; [|discriminate]. exists [s], s.
        split; [auto|]. split; [auto|]. assert (e = mkEdge (Some N) t) by congruence. subst e. exists outs. split; [|auto]. rewrite (proj1 (Old N KN)). auto.
      - rewrite (In1 x k Kx) in Hi. destruct (inp ns x k) as [[[j|] idx]|] eqn:Ei; [| |discriminate].
        + destruct (S x k _ Ei) as (ss & s & A1 & A2 & A3). exists ss, s. split; [rewrite (proj2 (Old x Kx)); auto|]. split; [auto|].
          destruct (Nat.eqb_spec j N) as [->|Nj].
          * destruct (nth_error ids idx) as [r|] eqn:Er; [|discriminate]. cbn [option_map] in Hi. assert (e = mkEdge (Some r) 0) by congruence. subst e.
            destruct A3 as (ss' & C1 & C2). assert (ss' = outs) by congruence. subst ss'. destruct (B3 idx r s Er C2) as [X _]. exists [s]. split; auto.
          * assert (e = mkEdge (Some j) idx) by congruence. subst e. revert A3. apply wire_scale_ext; [auto|]. cbn [e_node]. intros j' ss' Hj Gj.
            assert (j' = j) by congruence. subst j'. rewrite (proj1 (Old j (inp_target _ _ _ _ _ (proj1 (proj2 V)) Ei))). auto.
        + destruct (S x k _ Ei) as (ss & s & A1 & A2 & A3). exists ss, s. split; [rewrite (proj2 (Old x Kx)); auto|]. split; [auto|].
          assert (e = mkEdge None idx) by congruence. subst e. cbn [wire_scale] in *. rewrite B1. auto. }
    destruct (IH ns1 md1 ns' md' E V1 ND S1) as (C1 & C2 & C3 & C4 & C5 & C6).
    { intros N' ops' H'. destruct (H N' ops' (or_intror H')) as (n' & es' & outs' & D1 & D2 & D3 & D4).
      assert (NN' : N' <> N) by (intros ->; apply NN; apply (in_map fst) in H'; exact H'). assert (KN' : In N' (keys ns)) by (eapply get_keys; eauto).
      pose proof (W1 N' NN' KN') as W. rewrite D1 in W. destruct (get ns1 N') as [n''|] eqn:Gn; [|discriminate]. exists n'', es', outs'. cbn in W.
      split; [auto|]. split; [congruence|]. split; [auto|]. rewrite (proj1 (Old N' KN')). auto. }
    split; [auto|]. split; [auto|]. split; [rewrite C3; auto|].
    split.
    { intros x Kx. destruct (C4 x) as (X1 & X2 & X3 & X4); [apply K1; auto|]. destruct (Old x Kx) as [Y1 Y2]. rewrite X2, X3, X4, Y1, Y2, Op1; auto. }
    split.
    { intros x k e Hi Hj. apply C5.
      - rewrite (In1 x k) by (eapply inp_keys; eauto). rewrite Hi. destruct e as [[j|] idx]; [|auto]. destruct (Nat.eqb_spec j N) as [->|]; [|auto].
        exfalso. apply (Hj N eq_refl). left; auto.
      - intros j Ej Hin. apply (Hj j Ej). right; auto. }
    intros x Kx Nx. destruct (in_dec Nat.eq_dec x ids) as [Hx|Hx].
    + destruct (New x Hx) as (t & op & s & _ & D2 & D3 & D4 & D5 & D6 & D7). destruct (C4 x) as (X1 & X2 & X3 & X4); [apply K1; auto|].
      exists N, t, ops, op, outs, s. split; [left; auto|]. split; [auto|]. split; [auto|]. split; [auto|]. split; [congruence|]. split; [congruence|]. split; [congruence|].
      apply C5; [rewrite D7; auto|]. cbn [e_node]. intros j Ej. assert (j = N) by congruence. subst; auto.
    + destruct (C6 x Kx) as (N' & t & ops' & op & outs' & s & D1 & D2 & D3 & D4 & D5); [rewrite K1; tauto|].
      exists N', t, ops', op, outs', s. split; [right; auto|]. split; [auto|]. split; [|auto].
      destruct (H N' ops' (or_intror D1)) as (n' & es' & outs'' & F1 & _). rewrite <- D3. symmetry. apply Old. eapply get_keys; eauto.
Qed.

(** Each requantisation asked for is there, and it alone reads the output it was asked for. *)
Lemma insert_requants_all : forall rqs (ns : @nodes QOp) md ns' md', insert_requants ns md rqs = Some (ns', md') -> valid ns -> NoDup (map fst rqs) ->
  (forall N ops, In (N, ops) rqs -> exists n es, get ns N = Some n /\ n_outputs n = map (fun e => [e]) es /\ length ops = length es) ->
  (forall x, In x (keys ns) -> In x (keys ns')) /\
  (forall x, In x (keys ns) -> option_map (@n_op QOp) (get ns' x) = option_map (@n_op QOp) (get ns x)) /\
  (forall j t y k, In j (keys ns) -> ~ In j (map fst rqs) -> (inp ns' y k = Some (mkEdge (Some j) t) <-> inp ns y k = Some (mkEdge (Some j) t))) /\
  (forall N ops t op, In (N, ops) rqs -> nth_error ops t = Some op -> exists x, ~ In x (keys ns) /\ option_map (@n_op QOp) (get ns' x) = Some op /\
     forall y k, inp ns' y k = Some (mkEdge (Some N) t) <-> y = x /\ k = 0).
Proof.
  induction rqs as [|[N ops] rqs IH]; intros ns md ns' md' E V ND H; cbn [insert_requants] in E.
  - assert (ns = ns') as <- by congruence. split; [auto|]. split; [auto|]. split; [tauto|]. intros ? ? ? ? [].
  - destruct (H N ops (or_introl eq_refl)) as (n & es & G & O & Lo).
    destruct (requant_spec ns N n es ops V G O Lo) as (ns1 & ids & E1 & V1 & Li & NDi & K1 & Fr & G1 & In1 & Op1).
    pose proof (requant_wires ns N n es ops ns1 ids (proj1 V) G O Lo E1) as W1. rewrite E1 in E. cbn [obind fst snd] in E.
    destruct (get (md_outs md) N) as [outs|]; [|discriminate]. cbn [obind] in E. destruct (Nat.eqb (length ids) (length outs)); [|discriminate].
    cbn [map fst] in *. apply NoDup_cons_iff in ND. destruct ND as [NN ND]. assert (KN : In N (keys ns)) by (eapply get_keys; eauto).
    destruct (IH ns1 _ ns' md' E V1 ND) as (C1 & C2 & C3 & C4).
    { intros N' ops' H'. destruct (H N' ops' (or_intror H')) as (n' & es' & D1 & D2 & D3).
      assert (NN' : N' <> N) by (intros ->; apply NN; apply (in_map fst) in H'; exact H'). assert (KN' : In N' (keys ns)) by (eapply get_keys; eauto).
      pose proof (W1 N' NN' KN') as W. rewrite D1 in W. destruct (get ns1 N') as [n''|] eqn:Gn; [|discriminate]. exists n'', es'. cbn in W. split; [auto|]. split; [congruence|auto]. }
    assert (New : forall t r, nth_error ids t = Some r -> exists op, nth_error ops t = Some op /\ option_map (@n_op QOp) (get ns1 r) = Some op /\
       forall k, inp ns1 r k = match k with O => Some (mkEdge (Some N) t) | _ => None end).
    { intros t r Ht. assert (Lt : t < length ids) by (apply nth_error_Some; congruence).
      destruct (nth_error es t) as [e|] eqn:Ee; [|apply nth_error_None in Ee; lia]. destruct (nth_error ops t) as [op|] eqn:Eo; [|apply nth_error_None in Eo; lia].
      pose proof (G1 t r e op Ht Ee Eo) as Gx. exists op. split; [auto|]. split; [rewrite Gx; auto|]. intros k. unfold inp. rewrite Gx. destruct k as [|[|k]]; auto. }
    split; [intros x Kx; apply C1, K1; auto|]. split; [intros x Kx; rewrite C2, Op1; auto; apply K1; auto|]. split.
    { intros j t y k Kj Nj. assert (NjN : j <> N) by (intros ->; apply Nj; left; auto).
      rewrite C3; [|apply K1; auto|intros X; apply Nj; right; auto]. destruct (in_dec Nat.eq_dec y ids) as [Hy|Hy].
      - apply In_nth_error in Hy. destruct Hy as [q Hq]. destruct (New q y Hq) as (op & _ & _ & X). rewrite X. split.
        + destruct k; [|discriminate]. intros Y. congruence.
        + intros Y. apply inp_keys in Y. exfalso. apply (Fr y); [eapply nth_error_In; eauto|auto].
      - destruct (in_dec Nat.eq_dec y (keys ns)) as [Ky|Ky].
        + rewrite (In1 y k Ky). destruct (inp ns y k) as [[[j'|] q]|]; [|tauto|tauto]. destruct (Nat.eqb_spec j' N) as [->|]; [|tauto]. split; [|intros Y; congruence].
          destruct (nth_error ids q) as [r|] eqn:Er; [|discriminate]. cbn. intros Y. exfalso. apply (Fr r); [eapply nth_error_In; eauto|congruence].
        + split; intros Y; apply inp_keys in Y; [apply K1 in Y; tauto|contradiction]. }
    intros N' ops' t op [X|X] Ho.
    + assert (N' = N /\ ops' = ops) as [-> ->] by (split; congruence). clear X.
      assert (Lt : t < length ids). { assert (t < length ops) by (apply nth_error_Some; congruence). lia. }
      destruct (nth_error ids t) as [r|] eqn:Er; [|apply nth_error_None in Er; lia]. destruct (New t r Er) as (op' & Ho' & Hg & Hi). exists r.
      assert (Kr : In r (keys ns1)) by (apply K1; left; eapply nth_error_In; eauto).
      split; [apply Fr; eapply nth_error_In; eauto|]. split; [rewrite C2 by auto; congruence|]. intros y k. rewrite C3; [|apply K1; auto|auto]. split.
      * intros Y. assert (Ky : In y (keys ns1)) by (eapply inp_keys; eauto). apply K1 in Ky. destruct Ky as [Hy|Ky].
        -- apply In_nth_error in Hy. destruct Hy as [q Hq]. destruct (New q y Hq) as (? & _ & _ & Z). rewrite Z in Y. destruct k; [|discriminate]. split; [|auto].
           assert (q = t) by congruence. congruence.
        -- rewrite (In1 y k Ky) in Y. exfalso. destruct (inp ns y k) as [[[j'|] q]|]; [|discriminate|discriminate]. destruct (Nat.eqb_spec j' N) as [->|NJ]; [|congruence].
           destruct (nth_error ids q) as [r'|] eqn:Er'; [|discriminate]. cbn in Y. apply (Fr r'); [eapply nth_error_In; eauto|congruence].
      * intros [-> ->]. rewrite Hi. auto.
    + destruct (C4 N' ops' t op X Ho) as (x & D1 & D2 & D3). exists x. split; [intros Kx; apply D1, K1; auto|auto].
Qed.

(** The two graphs have the same shape before requantisation. *)
Lemma same_shape_valid (ns : @nodes Op) (qs : @nodes QOp) : valid ns -> NoDup (keys qs) -> (forall x, In x (keys qs) <-> In x (keys ns)) ->
  (forall x n, get ns x = Some n -> exists q, get qs x = Some (mkNode (n_inputs n) (n_outputs n) q)) -> valid qs /\ forall x k, inp qs x k = inp ns x k.
Proof.
  intros (ND & C & rank & R) NDq K H.
  assert (Ix : forall x k, inp qs x k = inp ns x k).
  { intros x k. unfold inp. destruct (get ns x) as [n|] eqn:G. - destruct (H x n G) as [q Gq]. rewrite Gq. auto.
    - destruct (get qs x) eqn:Gq; auto. exfalso. apply get_None in G. apply G, K. eapply get_keys; eauto. }
  assert (Ox : forall j idx i k, occ qs j idx i k = occ ns j idx i k).
  { intros. unfold occ. destruct (get ns j) as [n|] eqn:G. - destruct (H j n G) as [q Gq]. rewrite Gq. auto.
    - destruct (get qs j) eqn:Gq; auto. exfalso. apply get_None in G. apply G, K. eapply get_keys; eauto. }
  split; [|auto]. split; [auto|]. split.
  - intros i k j idx. rewrite Ox, Ix. apply C.
  - exists rank. intros i j W Kj. apply R; [|apply K; auto]. apply waits_inp in W. destruct W as (k & idx & W). apply waits_inp. exists k, idx. rewrite <- Ix. auto.
Qed.

Lemma quantize_model_spec ns inp_sc ns' md outs : valid ns -> requants_ok ns -> quantize_model quantize_op ns inp_sc = Some (ns', md, outs) ->
  valid ns' /\ scales_agree ns' md /\ md_in md = inp_sc /\
  (forall x n, get ns x = Some n -> exists ins q os rq n', get (md_ins md) x = Some ins /\ length ins = length (n_inputs n) /\
     quantize_op x (n_op n) ins = Some (q, os, rq) /\ get (md_outs md) x = Some os /\ get ns' x = Some n' /\ n_op n' = q) /\
  (forall x n', get ns' x = Some n' -> get ns x = None -> exists N n ins q os ops t s, get ns N = Some n /\ quantize_op N (n_op n) ins = Some (q, os, Some ops) /\
     get (md_ins md) N = Some ins /\ nth_error os t = Some s /\ nth_error ops t = Some (n_op n') /\ inp ns' x 0 = Some (mkEdge (Some N) t) /\
     get (md_ins md) x = Some [s] /\ get (md_outs md) x = Some [s]).
Proof.
  intros V RO E. unfold quantize_model, quantize_graph in E. destruct (into_iter_same true ns (proj1 V)) as (l & ids & Ei & Ea & Ef & Hl). rewrite Ei in E. cbn [obind] in E.
  destruct (quantize_nodes quantize_op (builder_new inp_sc) l) as [[[md1 rqs] qs]|] eqn:Eq; [|discriminate]. cbn [obind] in E.
  destruct (insert_requants qs md1 rqs) as [[ns1 md2]|] eqn:Er; [|discriminate]. cbn [obind fst snd] in E.
  destruct (build_outputs md2 ns1) as [outs1|]; [|discriminate]. cbn [obind] in E.
  assert (ns1 = ns' /\ md2 = md) as [-> ->] by (split; congruence). clear E.
  pose proof (proj2 (iter_complete true ns ids (proj1 V) Ea) (proj2 (proj2 V))) as Pm.
  assert (NDl : NoDup (map fst l)). { rewrite Ef. apply (Permutation_NoDup (Permutation_sym Pm)), V. }
  destruct (quantize_nodes_spec _ _ _ _ _ Eq NDl) as (A1 & A2 & A3 & A4 & _ & A6); [auto|]. cbn [builder_new md_in] in A1.
  assert (Kq : forall x, In x (keys qs) <-> In x (keys ns)).
  { intros x. rewrite A2, Ef. split; intros H; [apply (Permutation_in _ Pm H)|apply (Permutation_in _ (Permutation_sym Pm) H)]. }
  assert (NDq : NoDup (keys qs)) by (rewrite A2; auto).
  assert (Il : forall x n, get ns x = Some n -> In (x, n) l).
  { intros x n G. assert (Hx : In x (map fst l)). { rewrite <- A2. apply Kq. eapply get_keys; eauto. }
    apply in_map_iff in Hx. destruct Hx as ([x' n'] & X & Hx). cbn in X. subst x'. pose proof (Hl _ _ Hx). congruence. }
  destruct (same_shape_valid ns qs V NDq Kq) as [Vq Iq].
  { intros x n G. destruct (A6 x n (Il x n G)) as (ins & q & os & rq & _ & _ & _ & _ & _ & H & _). exists q. apply In_get; auto. }
  destruct (insert_requants_spec rqs qs md1 ns' md Er Vq A3) as (C1 & C2 & C3 & C4 & C5 & C6).
  { intros x k e Hi. rewrite Iq in Hi. unfold inp in Hi. destruct (get ns x) as [n|] eqn:G; [|discriminate].
    destruct (A6 x n (Il x n G)) as (ins & q & os & rq & B1 & B2 & B3 & B4 & B5 & _). destruct (B1 k e Hi) as (s & Hs & Ws). eauto. }
  { intros N ops H. assert (HN : In N (map fst l)) by (apply A4; apply (in_map fst) in H; exact H). rewrite <- A2 in HN. apply Kq in HN. apply keys_get in HN. destruct HN as [n G].
    destruct (A6 N n (Il N n G)) as (ins & q & os & rq & _ & _ & B3 & B4 & _ & B6 & B7). apply B7 in H. subst rq.
    destruct (RO N n ins q os ops G B3) as (es & D1 & D2 & D3). exists (mkNode (n_inputs n) (n_outputs n) q), es, os. split; [apply In_get; auto|]. auto. }
  split; [auto|]. split; [auto|]. split; [congruence|]. split.
  - intros x n G. destruct (A6 x n (Il x n G)) as (ins & q & os & rq & _ & B2 & B3 & B4 & B5 & B6 & _).
    assert (Kx : In x (keys qs)) by (apply Kq; eapply get_keys; eauto). destruct (C4 x Kx) as (D1 & D2 & D3 & D4). rewrite (In_get _ _ _ NDq B6) in D4. cbn in D4.
    destruct (get ns' x) as [n'|] eqn:G'; [|discriminate]. cbn in D4. exists ins, q, os, rq, n'. split; [congruence|]. split; [auto|]. split; [auto|]. split; [congruence|]. split; [auto|congruence].
  - intros x n' G' Gn. destruct (C6 x) as (N & t & ops & op & os & s & D1 & D2 & D3 & D4 & D5 & D6 & D7 & D8).
    { eapply get_keys; eauto. } { rewrite Kq. apply get_None; auto. }
    assert (HN : In N (map fst l)) by (apply A4; apply (in_map fst) in D1; exact D1). rewrite <- A2 in HN. apply Kq in HN. pose proof HN as KN. apply keys_get in HN. destruct HN as [n G].
    destruct (A6 N n (Il N n G)) as (ins & q & os' & rq & _ & _ & B3 & B4 & B5 & _ & B7). apply B7 in D1. subst rq. assert (os' = os) by congruence. subst os'.
    destruct (C4 N) as (_ & _ & F3 & _); [apply Kq; auto|]. rewrite G' in D7. cbn in D7.
    exists N, n, ins, q, os, ops, t, s. split; [auto|]. split; [auto|]. split; [congruence|]. split; [auto|]. split; [congruence|]. auto.
Qed.

(** The parts of it that are stated as properties. *)
Lemma quantize_model_scales ns inp_sc ns' md outs : valid ns -> requants_ok ns -> quantize_model quantize_op ns inp_sc = Some (ns', md, outs) ->
  valid ns' /\ scales_agree ns' md /\ md_in md = inp_sc.
Proof. intros V R E. destruct (quantize_model_spec _ _ _ _ _ V R E) as (A & B & C & _). auto. Qed.
Lemma quantize_model_layers ns inp_sc ns' md outs x n : valid ns -> requants_ok ns -> quantize_model quantize_op ns inp_sc = Some (ns', md, outs) -> get ns x = Some n ->
  exists ins q os rq n', get (md_ins md) x = Some ins /\ length ins = length (n_inputs n) /\
     quantize_op x (n_op n) ins = Some (q, os, rq) /\ get (md_outs md) x = Some os /\ get ns' x = Some n' /\ n_op n' = q.
Proof. intros V R E G. destruct (quantize_model_spec _ _ _ _ _ V R E) as (_ & _ & _ & D & _). auto. Qed.
Lemma quantize_model_requants ns inp_sc ns' md outs x n' : valid ns -> requants_ok ns -> quantize_model quantize_op ns inp_sc = Some (ns', md, outs) ->
  get ns' x = Some n' -> get ns x = None -> exists N n ins q os ops t s, get ns N = Some n /\ quantize_op N (n_op n) ins = Some (q, os, Some ops) /\
     get (md_ins md) N = Some ins /\ nth_error os t = Some s /\ nth_error ops t = Some (n_op n') /\ inp ns' x 0 = Some (mkEdge (Some N) t) /\
     get (md_ins md) x = Some [s] /\ get (md_outs md) x = Some [s].
Proof. intros V R E G. destruct (quantize_model_spec _ _ _ _ _ V R E) as (_ & _ & _ & _ & D). eauto. Qed.

Lemma quantize_model_requanted ns inp_sc ns' md outs N n ins q os ops t op : valid ns -> requants_ok ns -> quantize_model quantize_op ns inp_sc = Some (ns', md, outs) ->
  get ns N = Some n -> get (md_ins md) N = Some ins -> quantize_op N (n_op n) ins = Some (q, os, Some ops) -> nth_error ops t = Some op ->
  exists x n', get ns x = None /\ get ns' x = Some n' /\ n_op n' = op /\ forall y k, inp ns' y k = Some (mkEdge (Some N) t) <-> y = x /\ k = 0.
Proof.
  intros V RO E0 G Gi Q0 Ho. pose proof E0 as E. unfold quantize_model, quantize_graph in E. destruct (into_iter_same true ns (proj1 V)) as (l & ids & Ei & Ea & Ef & Hl). rewrite Ei in E. cbn [obind] in E.
  destruct (quantize_nodes quantize_op (builder_new inp_sc) l) as [[[md1 rqs] qs]|] eqn:Eq; [|discriminate]. cbn [obind] in E.
  destruct (insert_requants qs md1 rqs) as [[ns1 md2]|] eqn:Er; [|discriminate]. cbn [obind fst snd] in E.
  destruct (build_outputs md2 ns1) as [outs1|]; [|discriminate]. cbn [obind] in E.
  assert (ns1 = ns' /\ md2 = md) as [-> ->] by (split; congruence). clear E.
  pose proof (proj2 (iter_complete true ns ids (proj1 V) Ea) (proj2 (proj2 V))) as Pm.
  assert (NDl : NoDup (map fst l)). { rewrite Ef. apply (Permutation_NoDup (Permutation_sym Pm)), V. }
  destruct (quantize_nodes_spec _ _ _ _ _ Eq NDl) as (A1 & A2 & A3 & A4 & _ & A6); [auto|].
  assert (Kq : forall x, In x (keys qs) <-> In x (keys ns)).
  { intros x. rewrite A2, Ef. split; intros H; [apply (Permutation_in _ Pm H)|apply (Permutation_in _ (Permutation_sym Pm) H)]. }
  assert (NDq : NoDup (keys qs)) by (rewrite A2; auto).
  assert (Il : forall x n, get ns x = Some n -> In (x, n) l).
  { intros x m Gm. assert (Hx : In x (map fst l)). { rewrite <- A2. apply Kq. eapply get_keys; eauto. }
    apply in_map_iff in Hx. destruct Hx as ([x' n'] & X & Hx). cbn in X. subst x'. pose proof (Hl _ _ Hx). congruence. }
  destruct (same_shape_valid ns qs V NDq Kq) as [Vq Iq].
  { intros x m Gm. destruct (A6 x m (Il x m Gm)) as (? & q' & ? & ? & _ & _ & _ & _ & _ & H & _). exists q'. apply In_get; auto. }
  assert (Rq : forall N ops, In (N, ops) rqs -> exists n es os, get qs N = Some n /\ n_outputs n = map (fun e => [e]) es /\ length ops = length es /\ get (md_outs md1) N = Some os).
  { intros N' ops' H. assert (HN : In N' (map fst l)) by (apply A4; apply (in_map fst) in H; exact H). rewrite <- A2 in HN. apply Kq in HN. apply keys_get in HN. destruct HN as [m Gm].
    destruct (A6 N' m (Il N' m Gm)) as (ins' & q' & os' & rq & _ & _ & B3 & B4 & _ & B6 & B7). apply B7 in H. subst rq.
    destruct (RO N' m ins' q' os' ops' Gm B3) as (es & D1 & D2 & D3). exists (mkNode (n_inputs m) (n_outputs m) q'), es, os'. split; [apply In_get; auto|]. auto. }
  destruct (insert_requants_spec rqs qs md1 ns' md Er Vq A3) as (_ & _ & _ & C4 & _).
  { intros x k e Hi. rewrite Iq in Hi. unfold inp in Hi. destruct (get ns x) as [m|] eqn:Gm; [|discriminate].
    destruct (A6 x m (Il x m Gm)) as (ins' & q' & os' & rq & B1 & B2 & B3 & B4 & B5 & _). destruct (B1 k e Hi) as (s & Hs & Ws). eauto. }
  { auto. }
  destruct (insert_requants_all rqs qs md1 ns' md Er Vq A3) as (_ & _ & _ & D4).
  { intros N' ops' H. destruct (Rq N' ops' H) as (m & es & ? & X & Y & Z & _). eauto. }
  destruct (A6 N n (Il N n G)) as (ins' & q' & os' & rq & _ & _ & B3 & _ & B5 & _ & B7).
  destruct (C4 N) as (_ & _ & F & _); [apply Kq; eapply get_keys; eauto|]. assert (ins' = ins) by congruence. subst ins'. assert (rq = Some ops) by congruence.
  destruct (D4 N ops t op (proj2 (B7 ops) H) Ho) as (x & X1 & X2 & X3). destruct (get ns' x) as [n'|] eqn:Gx; [|discriminate]. cbn in X2. exists x, n'.
  split; [apply get_None; rewrite <- Kq; auto|]. split; [auto|]. split; [congruence|auto].
Qed.

(** The scaling factor given for output [o] of the model is that of the wire routed to it. *)
Lemma get_map_pair (m : list (nat * list Sc)) k : get (map (fun p => (fst p, (@nil Sc, snd p))) m) k = option_map (fun s => ([], s)) (get m k).
Proof. induction m as [|[k' s] m IH]; cbn; auto. destruct (Nat.eqb k k'); auto. Qed.
Lemma quantize_model_outputs ns inp_sc ns' md outs : valid ns -> requants_ok ns -> quantize_model quantize_op ns inp_sc = Some (ns', md, outs) ->
  outs <> [] /\ forall o s, nth_error outs o = Some s <-> exists i n idx w, get ns' i = Some n /\ (forall w', In w' (n_outputs n) -> existsb is_out w' = true) /\
    nth_error (n_outputs n) idx = Some w /\ out_index w = Some o /\ wire_scale md (mkEdge (Some i) idx) s.
Proof.
  intros V RO E. destruct (quantize_model_spec _ _ _ _ _ V RO E) as (V' & _). unfold quantize_model, quantize_graph in E.
  destruct (into_iter true ns) as [l|]; [|discriminate]. cbn [obind] in E.
  destruct (quantize_nodes quantize_op (builder_new inp_sc) l) as [[[md1 rqs] qs]|]; [|discriminate]. cbn [obind] in E.
  destruct (insert_requants qs md1 rqs) as [[ns1 md2]|]; [|discriminate]. cbn [obind fst snd] in E.
  destruct (build_outputs md2 ns1) as [outs1|] eqn:Eb; [|discriminate]. cbn [obind] in E.
  assert (ns1 = ns' /\ md2 = md /\ outs1 = outs) as (-> & -> & ->) by (split; [|split]; congruence). clear E.
  unfold build_outputs in Eb. destruct (collect_outputs _ [] (output_nodes ns')) as [o0|] eqn:Ec; [|discriminate]. cbn [obind] in Eb. split.
  - unfold out_values in Eb. destruct (bt_collect (keys o0)) as [|h t] eqn:Eh; cbn [keys_ok] in Eb; [discriminate|]. destruct (_ && _); [|discriminate].
    intros ->. apply omapM_nth in Eb. destruct Eb as [L _]. discriminate L.
  - intros o s. rewrite (outputs_spec ns' _ o0 outs (proj1 V') Ec Eb o s). split.
    + intros (i & n & idx & w & ins & os & A & B & C & D & G & F). rewrite get_map_pair in G. destruct (get (md_outs md) i) as [ss|] eqn:Gs; [|discriminate]. cbn in G.
      assert (ss = os) by congruence. subst ss. exists i, n, idx, w. cbn [wire_scale]. eauto 10.
    + intros (i & n & idx & w & A & B & C & D & ss & G & F). exists i, n, idx, w, [], ss. rewrite get_map_pair, G. cbn. auto 10.
Qed.

(** Nothing but the routing of the outputs can make the quantisation fail, if the layers do not. *)
Definition layers_total (ns : @nodes Op) : Prop := forall i n ins, get ns i = Some n -> length ins = length (n_inputs n) ->
  exists q outs rq, quantize_op i (n_op n) ins = Some (q, outs, rq) /\ length outs = length (n_outputs n).
Lemma quantize_nodes_total (ns : @nodes Op) inp_sc l : NoDup (map fst l) -> (forall i n, In (i, n) l -> get ns i = Some n) -> consistent ns -> layers_total ns ->
  (forall x k idx, inp ns x k = Some (mkEdge None idx) -> idx < length inp_sc) ->
  (forall l1 i n l2, l = l1 ++ (i, n) :: l2 -> forall k j idx, nth_error (n_inputs n) k = Some (mkEdge (Some j) idx) -> In j (map fst l1)) ->
  forall l2 l1 md, l = l1 ++ l2 -> md_in md = inp_sc ->
    (forall i n, In (i, n) l1 -> exists outs, get (md_outs md) i = Some outs /\ length outs = length (n_outputs n)) ->
    exists r, quantize_nodes quantize_op md l2 = Some r.
Proof.
  intros ND Hl C LT HI Ord. induction l2 as [|[i n] l2 IH]; intros l1 md El Em H; cbn [quantize_nodes]; [eauto|].
  assert (G : get ns i = Some n). { apply Hl. rewrite El. apply in_app_iff. right; left; auto. }
  destruct (omapM_some (edge_scaling md) (n_inputs n)) as [ins Ei].
  { intros e He. apply In_nth_error in He. destruct He as [k Hk]. assert (Hi : inp ns i k = Some e) by (unfold inp; rewrite G; auto).
    destruct e as [[j|] idx]; unfold edge_scaling; cbn [e_node e_index].
    - pose proof (Ord _ _ _ _ El k j idx Hk) as Hj. apply in_map_iff in Hj. destruct Hj as ([j' m] & X & Hj). cbn in X. subst j'.
      destruct (H j m Hj) as (outs & Go & Lo). rewrite Go. cbn [obind]. destruct (nth_error outs idx) as [s|] eqn:Es; [eauto|]. apply nth_error_None in Es.
      exfalso. pose proof (cons_inp ns i k j idx C Hi) as O. unfold occ in O. rewrite (Hl j m) in O by (rewrite El; apply in_app_iff; auto).
      rewrite nth_overflow in O by lia. discriminate.
    - rewrite Em. destruct (nth_error inp_sc idx) as [s|] eqn:Es; [eauto|]. apply nth_error_None in Es. apply HI in Hi. lia. }
  unfold compute_input_scaling. rewrite Ei. cbn [obind]. destruct (LT i n ins G) as (q & outs & rq & Eq & Lo). { apply omapM_nth in Ei. apply Ei. }
  rewrite Eq. cbn [obind]. destruct (IH (l1 ++ [(i, n)]) (set_layers_scaling md i outs ins)) as [[[md' rqs] qs] Er]; [rewrite <- app_assoc; auto|auto| |rewrite Er; cbn [obind]; eauto].
  intros j m Hj. cbn [set_layers_scaling md_outs]. rewrite get_put. apply in_app_iff in Hj. destruct (Nat.eqb_spec j i) as [->|Nj].
  - assert (m = n). { assert (get ns i = Some m); [|congruence]. apply Hl. rewrite El. apply in_app_iff. destruct Hj as [Hj|[X|[]]]; [auto|]. right; left; congruence. }
    subst; eauto.
  - destruct Hj as [Hj|[X|[]]]; [auto|congruence].
Qed.
Lemma insert_requants_total : forall rqs (ns : @nodes QOp) md, valid ns -> NoDup (map fst rqs) ->
  (forall N ops, In (N, ops) rqs -> exists n es outs, get ns N = Some n /\ n_outputs n = map (fun e => [e]) es /\ length ops = length es /\
     get (md_outs md) N = Some outs /\ length outs = length es) -> exists p, insert_requants ns md rqs = Some p.
Proof.
  induction rqs as [|[N ops] rqs IH]; intros ns md V ND H; cbn [insert_requants]; [eauto|].
  destruct (H N ops (or_introl eq_refl)) as (n & es & outs & G & O & Lo & Go & Lu).
  destruct (requant_spec ns N n es ops V G O Lo) as (ns1 & ids & E1 & V1 & Li & NDi & K1 & Fr & _).
  pose proof (requant_wires ns N n es ops ns1 ids (proj1 V) G O Lo E1) as W1. rewrite E1, Go. cbn [obind fst snd].
  destruct (Nat.eqb_spec (length ids) (length outs)) as [Lio|]; [|lia]. cbn [map fst] in ND. apply NoDup_cons_iff in ND. destruct ND as [NN ND].
  destruct (set_requants_spec ids outs md NDi Lio) as (_ & B2 & _). apply IH; auto.
  intros N' ops' H'. destruct (H N' ops' (or_intror H')) as (n' & es' & outs' & D1 & D2 & D3 & D4 & D5).
  assert (NN' : N' <> N) by (intros ->; apply NN; apply (in_map fst) in H'; exact H'). assert (KN' : In N' (keys ns)) by (eapply get_keys; eauto).
  pose proof (W1 N' NN' KN') as W. rewrite D1 in W. destruct (get ns1 N') as [n''|] eqn:Gn; [|discriminate]. exists n'', es', outs'. cbn in W.
  split; [auto|]. split; [congruence|]. split; [auto|]. split; [|auto]. rewrite (proj1 (B2 N' (fun X => Fr N' X KN'))). auto.
Qed.
Lemma quantize_graph_total ns inp_sc : valid ns -> requants_ok ns -> layers_total ns ->
  (forall x k idx, inp ns x k = Some (mkEdge None idx) -> idx < length inp_sc) -> exists p, quantize_graph quantize_op ns inp_sc = Some p.
Proof.
  intros V RO LT HI. unfold quantize_graph. destruct (into_iter_same true ns (proj1 V)) as (l & ids & Ei & Ea & Ef & Hl). rewrite Ei. cbn [obind].
  pose proof (proj2 (iter_complete true ns ids (proj1 V) Ea) (proj2 (proj2 V))) as Pm.
  assert (NDl : NoDup (map fst l)). { rewrite Ef. apply (Permutation_NoDup (Permutation_sym Pm)), V. }
  destruct (quantize_nodes_total ns inp_sc l NDl Hl (proj1 (proj2 V)) LT HI) with (l2 := l) (l1 := @nil (nat * node Op)) (md := builder_new inp_sc) as [[[md1 rqs] qs] Eq]; [|auto|auto|intros ? ? []|].
  { intros l1 i n l2 El k j idx Hk. destruct (iter_order true ns ids Ea) as (_ & _ & Ord).
    assert (G : get ns i = Some n). { apply Hl. rewrite El. apply in_app_iff. right; left; auto. }
    apply (Ord (map fst l1) i (map fst l2)) with (n := n); [rewrite <- Ef, El, map_app; auto|auto| |].
    - exists (mkEdge (Some j) idx). split; [eapply nth_error_In; eauto|auto].
    - apply (inp_target ns i k j idx (proj1 (proj2 V))). unfold inp. rewrite G. auto. }
  rewrite Eq. cbn [obind].
  destruct (quantize_nodes_spec _ _ _ _ _ Eq NDl) as (A1 & A2 & A3 & A4 & _ & A6); [auto|].
  assert (Kq : forall x, In x (keys qs) <-> In x (keys ns)).
  { intros x. rewrite A2, Ef. split; intros H; [apply (Permutation_in _ Pm H)|apply (Permutation_in _ (Permutation_sym Pm) H)]. }
  assert (NDq : NoDup (keys qs)) by (rewrite A2; auto).
  assert (Il : forall x n, get ns x = Some n -> In (x, n) l).
  { intros x n G. assert (Hx : In x (map fst l)). { rewrite <- A2. apply Kq. eapply get_keys; eauto. }
    apply in_map_iff in Hx. destruct Hx as ([x' n'] & X & Hx). cbn in X. subst x'. pose proof (Hl _ _ Hx). congruence. }
  destruct (same_shape_valid ns qs V NDq Kq) as [Vq Iq].
  { intros x n G. destruct (A6 x n (Il x n G)) as (ins & q & os & rq & _ & _ & _ & _ & _ & H & _). exists q. apply In_get; auto. }
  apply insert_requants_total; auto.
  intros N ops H. assert (HN : In N (map fst l)) by (apply A4; apply (in_map fst) in H; exact H). rewrite <- A2 in HN. apply Kq in HN. apply keys_get in HN. destruct HN as [n G].
  destruct (A6 N n (Il N n G)) as (ins & q & os & rq & _ & _ & B3 & B4 & _ & B6 & B7). apply B7 in H. subst rq.
  destruct (RO N n ins q os ops G B3) as (es & D1 & D2 & D3). exists (mkNode (n_inputs n) (n_outputs n) q), es, os. split; [apply In_get; auto|]. auto.
Qed.
End Md.

(** ** An example, and a graph outside the claim *)

(* Layer 0 is followed by requantisation; layer 1 reads it and gives the output. *)
Definition ex_ns : @nodes nat := [(0, mkNode [mkEdge None 0] [[mkEdge (Some 1) 0]] 0); (1, mkNode [mkEdge (Some 0) 0] [[mkEdge None 0]] 1)].
Definition ex_quantize (id op : nat) (ins : list nat) : option (nat * list nat * option (list nat)) :=
  if Nat.eqb op 0 then Some (100, [7], Some [200]) else Some (100 + op, map S ins, None).
Lemma ex_ns_valid : valid ex_ns.
Proof.
  apply built_valid. apply (built_route [(0, mkNode [mkEdge None 0] [[mkEdge (Some 1) 0]] 0); (1, mkNode [mkEdge (Some 0) 0] [[]] 1)] [mkEdge (Some 1) 0]); [|reflexivity].
  apply (built_add [(0, mkNode [mkEdge None 0] [[]] 0)] (fun _ _ => 1) [mkEdge (Some 0) 0] 1 _ 1); [|reflexivity].
  apply (built_add [] (fun _ _ => 1) [mkEdge None 0] 0 _ 0); [constructor|reflexivity].
Qed.
Lemma ex_ns_ok : requants_ok ex_quantize ex_ns /\ layers_total ex_quantize ex_ns.
Proof.
  split.
  - intros i n ins q outs ops G E. unfold ex_quantize in E. destruct (Nat.eqb (n_op n) 0) eqn:X; [|discriminate]. injection E as <- <- <-.
    destruct i as [|[|i]]; cbn in G; [|injection G as <-; discriminate X|discriminate G]. injection G as <-. exists [mkEdge (Some 1) 0]. auto.
  - intros i n ins G L. unfold ex_quantize. destruct i as [|[|i]]; cbn in G; [| |discriminate G]; injection G as <-; cbn in *.
    + exists 100, [7], (Some [200]). auto. + exists 101, (map S ins), None. split; [auto|]. rewrite map_length. auto.
Qed.
(** One wire routed to two outputs of the model: only one scaling factor is recorded. *)
Lemma two_outputs_refuted : exists (ns : @nodes nat) n ns' md outs, valid ns /\ get ns 0 = Some n /\ In [mkEdge None 0; mkEdge None 1] (n_outputs n) /\ requants_ok ex_quantize ns /\
  quantize_model ex_quantize ns [3] = Some (ns', md, outs) /\ nth_error outs 1 = None.
Proof.
  exists [(0, mkNode [mkEdge None 0] [[mkEdge None 0; mkEdge None 1]] 1)]. eexists. eexists. eexists. eexists. split; [|split; [reflexivity|split; [left; reflexivity|split; [|split; reflexivity]]]].
  - apply built_valid. apply (built_route [(0, mkNode [mkEdge None 0] [[]] 1)] [mkEdge (Some 0) 0; mkEdge (Some 0) 0]); [|reflexivity].
    apply (built_add [] (fun _ _ => 1) [mkEdge None 0] 1 _ 0); [constructor|reflexivity].
  - intros i n ins q outs ops G E. destruct i; cbn in G; [|discriminate G]. injection G as <-. discriminate E.
Qed.
