(** Insertion of requantisation nodes: [add_requant_nodes] splices one node into every output wire. *)
From Coq Require Import List Arith Lia Bool Permutation.
From Verif Require Import ListAux FieldDef M_Mle M_Graph P_Graph P_Graph2.
Import ListNotations.

Section Requant.
Context {Op : Type}.
Implicit Types ns : @nodes Op.

Lemma requant_list N : forall (es : list edge) (ops : list Op) s, length ops = length es ->
  map (fun '((i, w), op) => requant_node N i w op) (combine (combine (seq s (length (map (fun e => [e]) es))) (map (fun e => [e]) es)) ops)
  = map (fun '(t, (e, op)) => mkNode [mkEdge (Some N) t] [[e]] op) (combine (seq s (length es)) (combine es ops)).
Proof.
  induction es as [|e es IH]; intros [|op ops] s L; try discriminate; auto.
  cbn [map length seq combine]. f_equal. apply IH. cbn in L; lia.
Qed.

Lemma add_requants N : forall (L : list (edge * Op)) s ns n, get ns N = Some n -> s + length L <= length (n_outputs n) -> NoDup (keys ns) ->
  exists ns' ids, add_nodes ns (map (fun '(t, (e, op)) => mkNode [mkEdge (Some N) t] [[e]] op) (combine (seq s (length L)) L)) = Some (ns', ids) /\
    length ids = length L /\ NoDup ids /\ (forall r, In r ids -> ~ In r (keys ns)) /\ NoDup (keys ns') /\
    (forall x, In x (keys ns') <-> In x ids \/ In x (keys ns)) /\
    (forall t r e op, nth_error ids t = Some r -> nth_error L t = Some (e, op) -> get ns' r = Some (mkNode [mkEdge (Some N) (s + t)] [[e]] op)) /\
    (forall x, x <> N -> In x (keys ns) -> get ns' x = get ns x) /\
    (exists n', get ns' N = Some n' /\ n_inputs n' = n_inputs n /\ n_op n' = n_op n /\ length (n_outputs n') = length (n_outputs n) /\
       forall q, nth q (n_outputs n') [] = nth q (n_outputs n) [] ++
         (if Nat.leb s q then match nth_error ids (q - s) with Some r => [mkEdge (Some r) 0] | None => [] end else [])).
Proof.
  induction L as [|[e op] L IH]; intros s ns n G B ND.
  - exists ns, []. split; [auto|]. split; [auto|]. split; [constructor|]. split; [intros ? []|]. split; [auto|].
    split; [cbn [In]; tauto|]. split; [intros [|?]; discriminate|]. split; [auto|].
    exists n. split; [auto|]. split; [auto|]. split; [auto|]. split; [auto|]. intros q.
    destruct (Nat.leb s q); [destruct (q - s)|]; cbn [nth_error]; rewrite app_nil_r; auto.
  - cbn [length] in *. destruct (free_id_some ns) as [id F]. pose proof (free_id_fresh _ _ F) as Gid.
    assert (Kid : ~ In id (keys ns)) by (apply get_None; auto).
    assert (NN : N <> id) by (intros ->; congruence).
    set (n1 := mkNode (n_inputs n) (upd s (nth s (n_outputs n) [] ++ [mkEdge (Some id) 0]) (n_outputs n)) (n_op n)).
    set (m := mkNode [mkEdge (Some N) s] [[e]] op).
    set (ns1 := put (put ns N n1) id m).
    assert (A : add_node ns m = (ns1, Some id)).
    { unfold add_node. rewrite F. unfold add_node_with_id, m. cbn [n_inputs push_inputs e_node e_index].
      rewrite (push_edge_get ns N s (mkEdge (Some id) 0) n G) by lia. auto. }
    assert (G1 : forall x, get ns1 x = if Nat.eqb x id then Some m else if Nat.eqb x N then Some n1 else get ns x).
    { intros x. unfold ns1. rewrite !get_put. auto. }
    assert (K1 : forall x, In x (keys ns1) <-> x = id \/ In x (keys ns)).
    { intros x. unfold ns1. rewrite !keys_put. assert (In N (keys ns)) by (eapply get_keys; eauto). intuition congruence. }
    destruct (IH (S s) ns1 n1) as (ns' & ids & E & I1 & I2 & I3 & I4 & I5 & I6 & I7 & n' & J1 & J2 & J3 & J4 & J5).
    { rewrite G1. destruct (Nat.eqb_spec N id); [contradiction|]. rewrite Nat.eqb_refl; auto. }
    { unfold n1; cbn [n_outputs]. rewrite upd_length. lia. }
    { unfold ns1. apply put_NoDup, put_NoDup; auto. }
    assert (Nid : ~ In id ids). { intros H. apply (I3 id H), K1; auto. }
    exists ns', (id :: ids). split. { cbn [seq combine map add_nodes]. fold m. rewrite A, E. auto. }
    split; [cbn; lia|]. split; [constructor; auto|].
    split. { intros r [<-|H]; auto. intros C. apply (I3 r H), K1; auto. }
    split; [auto|]. split. { intros x. rewrite I5, K1. cbn [In]. intuition congruence. }
    split.
    { intros [|t] r e' op' Hr He; cbn [nth_error] in *.
      - assert (r = id) by congruence. assert (e' = e) by congruence. assert (op' = op) by congruence. subst.
        rewrite Nat.add_0_r. rewrite I7; auto. + rewrite G1, Nat.eqb_refl; auto. + apply K1; auto.
      - rewrite (I6 t r e' op' Hr He). do 4 f_equal. lia. }
    split.
    { intros x NxN Kx. rewrite I7; auto; [|apply K1; auto]. rewrite G1.
      destruct (Nat.eqb_spec x id); [subst; contradiction|]. destruct (Nat.eqb_spec x N); [contradiction|auto]. }
    exists n'. split; [auto|]. split; [rewrite J2; auto|]. split; [rewrite J3; auto|].
    split. { rewrite J4. unfold n1; cbn [n_outputs]. apply upd_length. }
    intros q. rewrite J5. unfold n1; cbn [n_outputs].
    destruct (Nat.leb_spec (S s) q) as [L1|L1], (Nat.leb_spec s q) as [L2|L2]; try lia.
    + rewrite nth_upd_neq by lia. replace (q - s) with (S (q - S s)) by lia. auto.
    + assert (q = s) by lia. subst q. rewrite upd_nth_eq by lia. rewrite Nat.sub_diag. cbn [nth_error]. rewrite app_nil_r; auto.
    + rewrite nth_upd_neq by lia. auto.
Qed.

Definition rest (n : node Op) := (n_outputs n, n_op n, length (n_inputs n)).
Lemma reroute_all_spec N : forall (P : list (nat * edge)) ns,
  (forall r e, In (r, e) P -> r <> N /\ exists nd, get ns r = Some nd /\ n_outputs nd = [[e]]) ->
  ForallOrdPairs (fun a b => e_node (snd a) <> None -> snd a <> snd b) P ->
  (forall r e c, In (r, e) P -> e_node e = Some c -> exists t, inp ns c (e_index e) = Some (mkEdge (Some N) t)) ->
  NoDup (keys ns) ->
  exists ns3, reroute_all ns N (map fst P) = Some ns3 /\ NoDup (keys ns3) /\ (forall x, In x (keys ns3) <-> In x (keys ns)) /\
    (forall x, option_map rest (get ns3 x) = option_map rest (get ns x)) /\
    (forall r c k, In (r, mkEdge (Some c) k) P -> inp ns3 c k = Some (mkEdge (Some r) 0)) /\
    (forall c k, (forall r, ~ In (r, mkEdge (Some c) k) P) -> inp ns3 c k = inp ns c k).
Proof.
  induction P as [|[r e] P IH]; intros ns H1 H2 H3 ND.
  - exists ns. split; [auto|]. split; [auto|]. split; [tauto|]. split; [auto|]. split; [intros ? ? ? []|auto].
  - destruct (H1 r e (or_introl eq_refl)) as (NrN & nd & G & O). inversion H2 as [|? ? U1 U2]; subst.
    rewrite Forall_forall in U1. cbn [map fst reroute_all]. rewrite G. cbn [obind]. rewrite O. cbn [reroute_wires reroute].
    destruct (e_node e) as [c|] eqn:Ec.
    + destruct (H3 r e c (or_introl eq_refl) Ec) as [t It]. unfold inp in It. destruct (get ns c) as [nc|] eqn:Gc; [|discriminate].
      cbn [obind]. rewrite It. cbn [obind e_node]. rewrite Nat.eqb_refl. cbn [obind].
      set (nc' := mkNode (upd (e_index e) (mkEdge (Some r) 0) (n_inputs nc)) (n_outputs nc) (n_op nc)).
      set (ns1 := put ns c nc').
      assert (Li : e_index e < length (n_inputs nc)) by (apply nth_error_Some; congruence).
      assert (G1 : forall x, get ns1 x = if Nat.eqb x c then Some nc' else get ns x) by (intros; apply get_put).
      assert (R1 : forall x, option_map rest (get ns1 x) = option_map rest (get ns x)).
      { intros x. rewrite G1. destruct (Nat.eqb_spec x c); [|auto]. subst. rewrite Gc. unfold nc', rest; cbn. rewrite upd_length; auto. }
      assert (In1 : forall x k, inp ns1 x k = if Nat.eqb x c && Nat.eqb k (e_index e) then Some (mkEdge (Some r) 0) else inp ns x k).
      { intros x k. unfold inp. rewrite G1. destruct (Nat.eqb_spec x c); [|auto]. subst. rewrite Gc. unfold nc'; cbn [n_inputs andb].
        destruct (Nat.eqb_spec k (e_index e)) as [->|Nk].
        - rewrite (nth_error_nth' _ (mkEdge None 0)) by (rewrite upd_length; auto). rewrite nth_upd_eq; auto.
        - destruct (Nat.lt_ge_cases k (length (n_inputs nc))).
          + rewrite !(nth_error_nth' _ (mkEdge None 0)) by (rewrite ?upd_length; auto). rewrite nth_upd_neq; auto.
          + rewrite !(proj2 (nth_error_None _ _)); auto. rewrite upd_length; auto. }
      assert (NE : forall r' k, In (r', mkEdge (Some c) k) P -> k <> e_index e).
      { intros r' k I ->. assert (Q : e_node (snd (r, e)) <> None) by (cbn [snd]; congruence).
        apply (U1 _ I Q). destruct e; cbn in *; congruence. }
      destruct (IH ns1) as (ns3 & E & B1 & B2 & B3 & B4 & B5); auto.
      { intros r' e' I. destruct (H1 r' e' (or_intror I)) as (N' & nd' & G' & O'). split; [auto|].
        pose proof (R1 r') as X. rewrite G' in X. destruct (get ns1 r') as [nd1|]; [|discriminate]. exists nd1; split; [auto|].
        assert (n_outputs nd1 = n_outputs nd') by (unfold rest in X; cbn in X; congruence). congruence. }
      { intros r' e' c' I Ec'. destruct (H3 r' e' c' (or_intror I) Ec') as [t' It']. exists t'. rewrite In1.
        destruct (Nat.eqb_spec c' c), (Nat.eqb_spec (e_index e') (e_index e)); cbn [andb]; auto. exfalso. subst c'.
        apply (NE r' (e_index e')); auto. destruct e'; cbn in *; subst; auto. }
      { apply put_NoDup; auto. }
      exists ns3. split; [auto|]. split; [auto|].
      split. { intros x. rewrite B2. unfold ns1. rewrite keys_put. apply get_keys in Gc. intuition congruence. }
      split; [intros; rewrite B3, R1; auto|]. split.
      * intros r' c' k [I|I]; [|eauto]. assert (r' = r /\ e = mkEdge (Some c') k) as [-> ->] by (split; congruence).
        cbn in Ec. assert (c' = c) by congruence. subst c'. rewrite B5, In1, !Nat.eqb_refl; auto.
        intros r' I'. apply (NE r' k I'). auto.
      * intros c' k Hn. rewrite B5; [|intros r' I'; apply (Hn r'); right; auto]. rewrite In1.
        destruct (Nat.eqb_spec c' c), (Nat.eqb_spec k (e_index e)); cbn [andb]; auto. exfalso. subst.
        apply (Hn r). left. destruct e; cbn in *; congruence.
    + cbn [obind]. destruct (IH ns) as (ns3 & E & B1 & B2 & B3 & B4 & B5); auto.
      { intros r' e' I. apply H1; right; auto. } { intros r' e' c' I. apply (H3 r' e' c'); right; auto. }
      exists ns3. split; [auto|]. split; [auto|]. split; [auto|]. split; [auto|]. split.
      * intros r' c k [I|I]; [|eauto]. assert (e = mkEdge (Some c) k) by congruence. subst; discriminate.
      * intros c k Hn. apply B5. intros r' I'. apply (Hn r'); right; auto.
Qed.

Lemma combine_nth_error {A B} (a : list A) (b : list B) : forall t x y, nth_error (combine a b) t = Some (x, y) <-> nth_error a t = Some x /\ nth_error b t = Some y.
Proof.
  revert b; induction a as [|h a IH]; intros [|h' b] [|t] x y; cbn; try (split; [discriminate|intros [? ?]; discriminate]).
  - split; [intros H; split; congruence|intros [? ?]; congruence].
  - apply IH.
Qed.
Lemma FOP_nth {A} (R : A -> A -> Prop) l : (forall s t a b, s < t -> nth_error l s = Some a -> nth_error l t = Some b -> R a b) -> ForallOrdPairs R l.
Proof.
  induction l as [|h l IH]; intros H; constructor.
  - apply Forall_forall. intros x Hx. apply In_nth_error in Hx. destruct Hx as [t Ht]. apply (H 0 (S t)); auto. lia.
  - apply IH. intros s t a b L Ha Hb. apply (H (S s) (S t)); auto. lia.
Qed.

Lemma requant_spec ns N n es ops : valid ns -> get ns N = Some n -> n_outputs n = map (fun e => [e]) es -> length ops = length es ->
  exists ns' ids, add_requant_nodes ns ops N = Some (ns', ids) /\ valid ns' /\ length ids = length es /\ NoDup ids /\
    (forall x, In x (keys ns') <-> In x ids \/ In x (keys ns)) /\ (forall r, In r ids -> ~ In r (keys ns)) /\
    (forall t r e op, nth_error ids t = Some r -> nth_error es t = Some e -> nth_error ops t = Some op ->
       get ns' r = Some (mkNode [mkEdge (Some N) t] [[e]] op)) /\
    (forall x k, In x (keys ns) -> inp ns' x k =
       match inp ns x k with
       | Some (mkEdge (Some j) t) => if Nat.eqb j N then option_map (fun r => mkEdge (Some r) 0) (nth_error ids t) else Some (mkEdge (Some j) t)
       | o => o
       end) /\
    (forall x, In x (keys ns) -> option_map n_op (get ns' x) = option_map n_op (get ns x)).
Proof.
  intros (ND & C & rank & R) G O Lo. assert (KN : In N (keys ns)) by (eapply get_keys; eauto).
  set (n1 := mkNode (n_inputs n) (repeat [] (length (n_outputs n))) (n_op n)).
  set (ns1 := put ns N n1).
  assert (G1 : forall x, get ns1 x = if Nat.eqb x N then Some n1 else get ns x) by (intros; apply get_put).
  assert (K1 : forall x, In x (keys ns1) <-> In x (keys ns)) by (intros x; unfold ns1; rewrite keys_put; intuition congruence).
  assert (Le : length (n_outputs n) = length es) by (rewrite O, map_length; auto).
  assert (Lc : length (combine es ops) = length es) by (rewrite combine_length; lia).
  destruct (add_requants N (combine es ops) 0 ns1 n1) as (ns2 & ids & E & I1 & I2 & I3 & I4 & I5 & I6 & I7 & n' & J1 & J2 & J3 & J4 & J5).
  { rewrite G1, Nat.eqb_refl; auto. } { unfold n1; cbn [n_outputs]. rewrite repeat_length. lia. } { apply put_NoDup; auto. }
  rewrite Lc in I1, E.
  assert (Fr : forall r, In r ids -> ~ In r (keys ns)) by (intros r H; rewrite <- K1; auto).
  (* inputs and wires after the nodes were added *)
  assert (In2 : forall x k, In x (keys ns) -> inp ns2 x k = inp ns x k).
  { intros x k Kx. unfold inp. destruct (Nat.eq_dec x N) as [->|Nx]; [rewrite J1, J2, G; auto|].
    rewrite I7; auto; [|apply K1; auto]. rewrite G1. destruct (Nat.eqb_spec x N); [contradiction|auto]. }
  assert (Oc : forall t e, nth_error es t = Some e -> nth t (n_outputs n) [] = [e]).
  { intros t e H. rewrite O. apply nth_error_nth. rewrite nth_error_map, H; auto. }
  assert (Oin : forall t c k, nth_error es t = Some (mkEdge (Some c) k) <-> inp ns c k = Some (mkEdge (Some N) t)).
  { intros t c k; split; intros H.
    - apply cons_occ; auto. unfold occ. rewrite G, (Oc _ _ H). cbn [count_occ]. destruct (edge_dec _ _); congruence.
    - pose proof (cons_inp _ _ _ _ _ C H) as X. unfold occ in X. rewrite G in X.
      destruct (nth_error es t) as [e|] eqn:Ee.
      + rewrite (Oc _ _ Ee) in X. cbn [count_occ] in X. destruct (edge_dec e (mkEdge (Some c) k)); congruence.
      + apply nth_error_None in Ee. rewrite nth_overflow in X by lia. discriminate. }
  assert (Nid : forall t e, nth_error es t = Some e -> exists r, nth_error ids t = Some r).
  { intros t e H. destruct (nth_error ids t) as [r|] eqn:X; eauto. exfalso. apply nth_error_None in X.
    assert (t < length es) by (apply nth_error_Some; congruence). lia. }
  assert (Nes : forall t r, nth_error ids t = Some r -> exists e op, nth_error es t = Some e /\ nth_error ops t = Some op).
  { intros t r H. assert (t < length ids) by (apply nth_error_Some; congruence).
    destruct (nth_error es t) as [e|] eqn:X; [|apply nth_error_None in X; lia].
    destruct (nth_error ops t) as [op|] eqn:Y; [eauto|apply nth_error_None in Y; lia]. }
  assert (G2 : forall t r e op, nth_error ids t = Some r -> nth_error es t = Some e -> nth_error ops t = Some op -> get ns2 r = Some (mkNode [mkEdge (Some N) t] [[e]] op)).
  { intros t r e op Hr He Ho. apply (I6 t r e op Hr). apply combine_nth_error; auto. }
  assert (Inj : forall s t r, nth_error ids s = Some r -> nth_error ids t = Some r -> s = t).
  { intros s t r Hs Ht. apply (proj1 (NoDup_nth_error ids) I2 s t); [apply nth_error_Some; congruence|congruence]. }
  assert (Tgt : forall i k j idx, inp ns i k = Some (mkEdge (Some j) idx) -> ~ In j ids).
  { intros i k j idx H Hj. apply (Fr j Hj), (inp_target ns i k j idx C H). }
  assert (NkN : ~ In N ids) by (intros H; apply (Fr N H KN)).
  (* rerouting *)
  destruct (reroute_all_spec N (combine ids es) ns2) as (ns3 & E3 & B1 & B2 & B3 & B4 & B5).
  { intros r e H. apply In_nth_error in H. destruct H as [t H]. apply combine_nth_error in H. destruct H as [Hr He].
    split. { intros ->. apply NkN. eapply nth_error_In; eauto. }
    destruct (Nes t r Hr) as (e' & op & He' & Ho). assert (e' = e) by congruence. subst. rewrite (G2 t r e op Hr He Ho). eauto. }
  { apply FOP_nth. intros s t [r e] [r' e'] Lt Hs Ht. apply combine_nth_error in Hs, Ht. destruct Hs as [Hs1 Hs2], Ht as [Ht1 Ht2].
    cbn [snd]. intros NN <-. destruct e as [[c|] k]; [|apply NN; auto]. apply Oin in Hs2. apply Oin in Ht2.
    assert (s = t) by congruence. lia. }
  { intros r e c H Ec. apply In_nth_error in H. destruct H as [t H]. apply combine_nth_error in H. destruct H as [Hr He].
    destruct e as [en k]; cbn in Ec |- *; subst en. apply Oin in He. exists t. rewrite In2; auto. eapply inp_keys; eauto. }
  { auto. }
  assert (Mf : map fst (combine ids es) = ids). { clear -I1. revert es I1. induction ids; intros [|? ?] H; try discriminate; cbn; auto. f_equal; apply IHids; auto. }
  rewrite Mf in E3.
  assert (InC : forall r c k, In (r, mkEdge (Some c) k) (combine ids es) <-> exists t, nth_error ids t = Some r /\ inp ns c k = Some (mkEdge (Some N) t)).
  { intros r c k; split.
    - intros H. apply In_nth_error in H. destruct H as [t H]. apply combine_nth_error in H. exists t. rewrite <- Oin; auto.
    - intros (t & H). rewrite <- Oin in H. apply combine_nth_error in H. eapply nth_error_In; eauto. }
  assert (In3 : forall x k, In x (keys ns) -> inp ns3 x k =
       match inp ns x k with
       | Some (mkEdge (Some j) t) => if Nat.eqb j N then option_map (fun r => mkEdge (Some r) 0) (nth_error ids t) else Some (mkEdge (Some j) t)
       | o => o
       end).
  { intros x k Kx.
    assert (Other : (forall t, inp ns x k <> Some (mkEdge (Some N) t)) -> inp ns3 x k = inp ns x k).
    { intros H. rewrite B5, In2; auto. intros r Hr. apply InC in Hr. destruct Hr as (t & _ & Ht). apply (H t Ht). }
    destruct (inp ns x k) as [[[j|] t]|] eqn:Ei; try (apply Other; intros; congruence).
    destruct (Nat.eqb_spec j N) as [->|Nj]; [|apply Other; intros; congruence].
    destruct (Nid t _ (proj2 (Oin t x k) Ei)) as [r Hr]. rewrite Hr. cbn. apply B4. apply InC. eauto. }
  assert (Get3 : forall t r e op, nth_error ids t = Some r -> nth_error es t = Some e -> nth_error ops t = Some op -> get ns3 r = Some (mkNode [mkEdge (Some N) t] [[e]] op)).
  { intros t r e op Hr He Ho. pose proof (G2 t r e op Hr He Ho) as X. pose proof (B3 r) as Y. rewrite X in Y.
    assert (Z : inp ns3 r 0 = inp ns2 r 0).
    { apply B5. intros r' H. apply InC in H. destruct H as (t' & _ & H). apply inp_keys in H. revert H. apply Fr. eapply nth_error_In; eauto. }
    unfold inp in Z. rewrite X in Z. cbn in Y. destruct (get ns3 r) as [[i3 o3 p3]|]; [|discriminate]. cbn in *. unfold rest in Y; cbn in Y.
    destruct i3 as [|a [|? ?]]; cbn in *; try discriminate. congruence. }
  assert (InR : forall t r, nth_error ids t = Some r -> forall k, inp ns3 r k = match k with O => Some (mkEdge (Some N) t) | S _ => None end).
  { intros t r Hr k. destruct (Nes t r Hr) as (e & op & He & Ho). unfold inp. rewrite (Get3 t r e op Hr He Ho). destruct k as [|[|?]]; auto. }
  assert (K3 : forall x, In x (keys ns3) <-> In x ids \/ In x (keys ns)).
  { intros x. rewrite B2, I5, K1. tauto. }
  assert (Oc3 : forall j idx i k, occ ns3 j idx i k = occ ns2 j idx i k).
  { intros. unfold occ. pose proof (B3 j) as X. destruct (get ns3 j), (get ns2 j); cbn in X; try discriminate; auto.
    unfold rest in X. assert (n_outputs n0 = n_outputs n2) by congruence. congruence. }
  assert (OcN : forall idx i k, occ ns3 N idx i k = if match nth_error ids idx with Some r => Nat.eqb i r && Nat.eqb k 0 | None => false end then 1 else 0).
  { intros. rewrite Oc3. unfold occ. rewrite J1, J5. change (Nat.leb 0 idx) with true. rewrite Nat.sub_0_r.
    unfold n1; cbn [n_outputs]. rewrite nth_repeat. cbn [app]. destruct (nth_error ids idx) as [r|]; [|auto]. cbn [count_occ].
    destruct (edge_dec (mkEdge (Some r) 0) (mkEdge (Some i) k)), (Nat.eqb_spec i r), (Nat.eqb_spec k 0); cbn [andb]; auto; exfalso; congruence. }
  assert (OcR : forall t r, nth_error ids t = Some r -> forall idx i k, occ ns3 r idx i k =
      if match idx with O => if match inp ns i k with Some e => if edge_dec e (mkEdge (Some N) t) then true else false | None => false end then true else false | S _ => false end then 1 else 0).
  { intros t r Hr idx i k. destruct (Nes t r Hr) as (e & op & He & Ho). unfold occ. rewrite (Get3 t r e op Hr He Ho). cbn [n_outputs].
    destruct idx as [|idx]; [|destruct idx; cbn [nth count_occ]; auto].
    cbn [nth count_occ]. destruct (edge_dec e (mkEdge (Some i) k)) as [Q|Q].
    - subst e. apply Oin in He. rewrite He. destruct (edge_dec (mkEdge (Some N) t) (mkEdge (Some N) t)); congruence.
    - destruct (inp ns i k) as [e'|] eqn:Ei; [|auto]. destruct (edge_dec e' (mkEdge (Some N) t)); [|auto].
      exfalso. subst e'. apply Oin in Ei. congruence. }
  assert (OcO : forall j idx i k, j <> N -> ~ In j ids -> occ ns3 j idx i k = occ ns j idx i k).
  { intros j idx i k Nj Nr. rewrite Oc3. unfold occ. destruct (in_dec Nat.eq_dec j (keys ns)) as [Kj|Kj].
    - rewrite I7; auto; [|apply K1; auto]. rewrite G1. destruct (Nat.eqb_spec j N); [contradiction|auto].
    - rewrite !(proj2 (get_None _ _)); auto. rewrite I5, K1. tauto. }
  exists ns3, ids. split.
  { unfold add_requant_nodes. rewrite G. cbn [obind]. fold n1 ns1. rewrite O. rewrite requant_list by auto. rewrite E. cbn [obind fst snd].
    rewrite E3. auto. }
  split; [split; [auto|split]|].
  - apply cons_intro; intros i k j idx H.
    + destruct (in_dec Nat.eq_dec i ids) as [Hi|Hi].
      * apply In_nth_error in Hi. destruct Hi as [t Ht]. rewrite (InR t i Ht) in H. destruct k; [|discriminate].
        assert (j = N /\ idx = t) as [-> ->] by (split; congruence). rewrite OcN, Ht, !Nat.eqb_refl. auto.
      * assert (Ki : In i (keys ns)). { pose proof (inp_keys _ _ _ _ H) as X. apply K3 in X. tauto. }
        rewrite In3 in H by auto. destruct (inp ns i k) as [[[j'|] t]|] eqn:Ei; try discriminate.
        destruct (Nat.eqb_spec j' N) as [->|Nj].
        -- destruct (nth_error ids t) as [r|] eqn:Hr; [|discriminate]. cbn in H. assert (j = r /\ idx = 0) as [-> ->] by (split; congruence).
           rewrite (OcR t r Hr), Ei. destruct (edge_dec (mkEdge (Some N) t) (mkEdge (Some N) t)); congruence.
        -- assert (j = j' /\ idx = t) as [-> ->] by (split; congruence).
           rewrite OcO; [apply cons_inp; auto|auto|eapply Tgt; eauto].
    + destruct (Nat.eq_dec j N) as [->|Nj]; [|destruct (in_dec Nat.eq_dec j ids) as [Hj|Hj]].
      * rewrite OcN. destruct (nth_error ids idx) as [r|] eqn:Hr; [|auto].
        destruct (Nat.eqb_spec i r), (Nat.eqb_spec k 0); cbn [andb]; auto. exfalso. subst. apply H. apply (InR idx r Hr 0).
      * apply In_nth_error in Hj. destruct Hj as [t Ht]. rewrite (OcR t j Ht). destruct idx; [|auto].
        destruct (inp ns i k) as [e'|] eqn:Ei; [|auto]. destruct (edge_dec e' (mkEdge (Some N) t)); [|auto].
        exfalso. subst e'. apply H. rewrite In3 by (eapply inp_keys; eauto). rewrite Ei, Nat.eqb_refl, Ht. auto.
      * rewrite OcO; auto. destruct (Nat.eq_dec (occ ns j idx i k) 0) as [|NZ]; auto. exfalso. apply cons_occ in NZ; auto.
        apply H. rewrite In3 by (eapply inp_keys; eauto). rewrite NZ. destruct (Nat.eqb_spec j N); [contradiction|auto].
  - exists (fun x => if mem x ids then S (2 * rank N) else 2 * rank x). intros i j W Kj. apply waits_inp in W. destruct W as (k & idx & H).
    destruct (in_dec Nat.eq_dec i ids) as [Hi|Hi].
    + rewrite (proj2 (mem_In i ids)) by auto. apply In_nth_error in Hi. destruct Hi as [t Ht]. rewrite (InR t i Ht) in H. destruct k; [|discriminate].
      assert (j = N) by congruence. subst j. rewrite (proj2 (mem_not N ids)) by auto. lia.
    + rewrite (proj2 (mem_not i ids)) by auto.
      assert (Ki : In i (keys ns)). { pose proof (inp_keys _ _ _ _ H) as X. apply K3 in X. tauto. }
      rewrite In3 in H by auto. destruct (inp ns i k) as [[[j'|] t]|] eqn:Ei; try discriminate.
      assert (Rk : rank j' < rank i). { apply R; [apply waits_inp; eauto|eapply inp_target; eauto]. }
      destruct (Nat.eqb_spec j' N) as [->|Nj].
      * destruct (nth_error ids t) as [r|] eqn:Hr; [|discriminate]. cbn in H. assert (j = r) by congruence. subst j.
        rewrite (proj2 (mem_In r ids)) by (eapply nth_error_In; eauto). lia.
      * assert (j = j') by congruence. subst j'. rewrite (proj2 (mem_not j ids)) by (eapply Tgt; eauto). lia.
  - split; [auto|]. split; [auto|]. split; [auto|]. split; [auto|]. split; [auto|]. split; [auto|].
    intros x Kx. assert (X : option_map n_op (get ns3 x) = option_map n_op (get ns2 x)).
    { pose proof (B3 x) as Y. destruct (get ns3 x), (get ns2 x); cbn in *; try discriminate; auto. unfold rest in Y. congruence. }
    rewrite X. destruct (Nat.eq_dec x N) as [->|Nx]; [rewrite J1, G; cbn; rewrite J3; auto|].
    rewrite I7; auto; [|apply K1; auto]. rewrite G1. destruct (Nat.eqb_spec x N); [contradiction|auto].
Qed.
End Requant.
