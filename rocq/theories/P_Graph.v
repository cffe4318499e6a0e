(** Iteration over the graph: the iterator is total, yields a topological order, is maximal and does not depend on
    the order of the hash map. *)
From Coq Require Import List Arith Lia Bool Permutation Sorted.
From Verif Require Import ListAux FieldDef M_Mle M_Graph.
Import ListNotations.

Lemma mem_In k l : mem k l = true <-> In k l.
Proof.
  unfold mem; rewrite existsb_exists; split; [intros (x & H & E); apply Nat.eqb_eq in E; subst; auto|].
  intros H; exists k; split; auto; apply Nat.eqb_refl.
Qed.
Lemma mem_not k l : mem k l = false <-> ~ In k l.
Proof. rewrite <- mem_In; destruct (mem k l); split; intros; try discriminate; auto; congruence. Qed.

Section MapLemmas.
Context {V : Type}.
Implicit Types m : list (nat * V).
Lemma get_In m k v : get m k = Some v -> In (k, v) m.
Proof.
  induction m as [|[k' v'] t IH]; cbn; [discriminate|]. destruct (Nat.eqb_spec k k'); intros H; [|auto].
  left; congruence.
Qed.
Lemma get_keys m k v : get m k = Some v -> In k (keys m).
Proof. intros H; apply get_In in H; apply in_map_iff; exists (k, v); auto. Qed.
Lemma get_None m k : get m k = None <-> ~ In k (keys m).
Proof.
  induction m as [|[k' v'] t IH]; cbn; [split; auto|]. destruct (Nat.eqb_spec k k').
  - subst; split; [discriminate|]. intros H; exfalso; auto.
  - rewrite IH; split; intros H; [intros [E|E]; [congruence|auto]|auto].
Qed.
Lemma keys_get m k : In k (keys m) -> exists v, get m k = Some v.
Proof. intros H; destruct (get m k) eqn:E; eauto. apply get_None in E; contradiction. Qed.
Lemma In_get m k v : NoDup (keys m) -> In (k, v) m -> get m k = Some v.
Proof.
  induction m as [|[k' v'] t IH]; cbn; [intros _ []|]. intros ND [E|H]; inversion ND; subst.
  - inversion E; subst; rewrite Nat.eqb_refl; auto.
  - destruct (Nat.eqb_spec k k'); [|auto]. subst; exfalso; apply H2, in_map_iff; exists (k', v); auto.
Qed.
Lemma get_perm m m' k : NoDup (keys m) -> Permutation m m' -> get m k = get m' k.
Proof.
  intros ND P. assert (ND' : NoDup (keys m')) by (eapply Permutation_NoDup; [apply Permutation_map, P|exact ND]).
  destruct (get m k) eqn:E.
  - symmetry; apply In_get; auto. eapply Permutation_in; [exact P|apply get_In; auto].
  - symmetry; apply get_None. apply get_None in E. intros H; apply E.
    eapply Permutation_in; [apply Permutation_map, Permutation_sym, P|exact H].
Qed.
Lemma get_put m k v j : get (put m k v) j = if Nat.eqb j k then Some v else get m j.
Proof.
  induction m as [|[k' v'] t IH]; cbn; [reflexivity|].
  destruct (Nat.eqb_spec k k'); cbn; [subst; destruct (Nat.eqb_spec j k'); auto|].
  rewrite IH. destruct (Nat.eqb_spec j k'), (Nat.eqb_spec j k); auto; congruence.
Qed.
Lemma keys_put m k v x : In x (keys (put m k v)) <-> x = k \/ In x (keys m).
Proof.
  assert (Y : forall a b : nat, a = b <-> b = a) by (split; auto).
  induction m as [|[k' v'] t IH]; cbn; [rewrite (Y x k); tauto|].
  destruct (Nat.eqb_spec k k'); cbn; [subst; rewrite (Y x k'); tauto|]. rewrite IH; tauto.
Qed.
Lemma put_NoDup m k v : NoDup (keys m) -> NoDup (keys (put m k v)).
Proof.
  induction m as [|[k' v'] t IH]; intros ND; cbn; [repeat constructor; auto|].
  cbn in ND. pose proof (NoDup_cons_iff k' (keys t)) as [F _]. destruct (F ND) as [F1 F2].
  destruct (Nat.eqb_spec k k'); cbn; [subst; auto|]. constructor; [|auto].
  intros H; apply keys_put in H; destruct H; [congruence|auto].
Qed.
Lemma get_remove m k j : NoDup (keys m) -> get (remove_key m k) j = if Nat.eqb j k then None else get m j.
Proof.
  induction m as [|[k' v'] t IH]; cbn; intros ND; [destruct (Nat.eqb j k); auto|].
  pose proof (NoDup_cons_iff k' (keys t)) as [F _]. destruct (F ND) as [F1 F2].
  destruct (Nat.eqb_spec k k').
  - subst. destruct (Nat.eqb_spec j k'); auto. subst; apply get_None; auto.
  - cbn. rewrite IH; auto. destruct (Nat.eqb_spec j k'), (Nat.eqb_spec j k); auto; congruence.
Qed.
Lemma remove_incl m k x : In x (keys (remove_key m k)) -> In x (keys m).
Proof.
  induction m as [|[k' v'] t IH]; cbn; auto. destruct (Nat.eqb k k'); cbn; [auto|]. intros [H|H]; auto.
Qed.
Lemma remove_NoDup m k : NoDup (keys m) -> NoDup (keys (remove_key m k)).
Proof.
  induction m as [|[k' v'] t IH]; cbn; auto. intros ND.
  pose proof (NoDup_cons_iff k' (keys t)) as [F _]. destruct (F ND) as [F1 F2].
  destruct (Nat.eqb k k'); cbn; auto. constructor; auto. intros H; apply F1; eapply remove_incl; exact H.
Qed.
End MapLemmas.

(** BTreeSet *)
Notation ssorted := (StronglySorted lt).
Lemma bt_insert_In k l x : In x (bt_insert k l) <-> x = k \/ In x l.
Proof.
  assert (Y : forall a b : nat, a = b <-> b = a) by (split; auto).
  induction l as [|h t IH]; cbn [bt_insert In]; [rewrite (Y x k); tauto|].
  destruct (Nat.ltb_spec k h); cbn [bt_insert In]; [rewrite (Y x k); tauto|].
  destruct (Nat.eqb_spec k h); cbn [bt_insert In]; [subst; rewrite (Y x h); tauto|]. rewrite IH; tauto.
Qed.
Lemma bt_insert_sorted k l : ssorted l -> ssorted (bt_insert k l).
Proof.
  induction l as [|h t IH]; cbn [bt_insert In]; intros S; [repeat constructor|]. apply StronglySorted_inv in S. destruct S as [S F].
  destruct (Nat.ltb_spec k h).
  - constructor; [constructor; auto|]. constructor; auto. rewrite Forall_forall in *. intros x Hx; specialize (F x Hx); lia.
  - destruct (Nat.eqb_spec k h); [constructor; auto|]. constructor; [auto|]. rewrite Forall_forall in *.
    intros x Hx; apply bt_insert_In in Hx; destruct Hx; [lia|auto].
Qed.
Lemma bt_fold l : forall s, ssorted s -> ssorted (fold_left (fun s k => bt_insert k s) l s) /\
  forall x, In x (fold_left (fun s k => bt_insert k s) l s) <-> In x l \/ In x s.
Proof.
  induction l as [|h t IH]; cbn; intros s S; [split; [auto|intuition]|].
  destruct (IH (bt_insert h s) (bt_insert_sorted h s S)) as [A B]. split; auto.
  intros x; rewrite B, bt_insert_In; intuition.
Qed.
Lemma bt_collect_sorted l : ssorted (bt_collect l).
Proof. apply bt_fold; constructor. Qed.
Lemma bt_collect_In l x : In x (bt_collect l) <-> In x l.
Proof. destruct (bt_fold l [] (SSorted_nil _)) as [_ B]. unfold bt_collect; rewrite B; cbn; intuition. Qed.
Lemma ssorted_NoDup l : ssorted l -> NoDup l.
Proof.
  induction 1 as [|h t S IH F]; constructor; auto. rewrite Forall_forall in F. intros H; specialize (F _ H); lia.
Qed.
Lemma ssorted_unique l : forall l', ssorted l -> ssorted l' -> (forall x, In x l <-> In x l') -> l = l'.
Proof.
  induction l as [|h t IH]; intros [|h' t'] S S' E; auto.
  - destruct (proj2 (E h')); cbn; auto.
  - destruct (proj1 (E h)); cbn; auto.
  - apply StronglySorted_inv in S, S'. destruct S as [S F], S' as [S' F']. rewrite Forall_forall in F, F'.
    assert (h = h').
    { destruct (proj1 (E h) (or_introl eq_refl)) as [|A]; auto.
      destruct (proj2 (E h') (or_introl eq_refl)) as [|B]; auto. specialize (F _ B); specialize (F' _ A); lia. }
    subst; f_equal; apply IH; auto. intros x; split; intros H.
    + destruct (proj1 (E x) (or_intror H)); auto. subst; specialize (F _ H); lia.
    + destruct (proj2 (E x) (or_intror H)); auto. subst; specialize (F' _ H); lia.
Qed.
Lemma bt_collect_perm l l' : Permutation l l' -> bt_collect l = bt_collect l'.
Proof.
  intros P; apply ssorted_unique; try apply bt_collect_sorted. intros x; rewrite !bt_collect_In.
  split; apply Permutation_in; [|apply Permutation_sym]; auto.
Qed.
Lemma bt_remove_In k l x : In x (bt_remove k l) <-> In x l /\ x <> k.
Proof.
  unfold bt_remove; rewrite filter_In, negb_true_iff, Nat.eqb_neq; split; intros [A B]; split; auto.
Qed.
Lemma ssorted_filter f l : ssorted l -> ssorted (filter f l).
Proof.
  induction 1 as [|h t S IH F]; cbn; [constructor|]. destruct (f h); auto. constructor; auto.
  rewrite Forall_forall in *. intros x Hx; apply filter_In in Hx; apply F; tauto.
Qed.
Lemma bt_remove_length k l : NoDup l -> In k l -> length l = S (length (bt_remove k l)).
Proof.
  induction l as [|h t IH]; cbn; [intros _ []|]. intros ND H.
  pose proof (NoDup_cons_iff h t) as [F _]. destruct (F ND) as [F1 F2]. destruct (Nat.eqb_spec k h); cbn.
  - f_equal. subst. clear -F1. induction t as [|a t IH]; cbn; auto. destruct (Nat.eqb_spec h a); cbn.
    + subst; exfalso; apply F1; left; auto.
    + f_equal; apply IH; intros H; apply F1; right; auto.
  - f_equal; apply IH; auto. destruct H; [congruence|auto].
Qed.

Section Iter.
Context {Op : Type}.
Implicit Types ns : @nodes Op.

(** What the order must respect, stated on the edges alone: [needs fwd n j] when [n] reads an output of [j]
    (forward) or one of its outputs is read by [j] (backward). *)
Definition needs (fwd : bool) (n : node Op) (j : nat) : Prop :=
  if fwd then exists e, In e (n_inputs n) /\ e_node e = Some j
  else exists w e, In w (n_outputs n) /\ In e w /\ e_node e = Some j.
Definition waits (fwd : bool) ns (i j : nat) : Prop := exists n, get ns i = Some n /\ needs fwd n j.
Definition acyclic (fwd : bool) ns : Prop :=
  exists rank : nat -> nat, forall i j, waits fwd ns i j -> In j (keys ns) -> rank j < rank i.

Lemma ready_spec fwd unv n : ready fwd unv n = true <-> forall j, needs fwd n j -> ~ In j unv.
Proof.
  unfold ready; rewrite forallb_forall. split.
  - intros H j N Hj. destruct fwd.
    + destruct N as (e & He & Ej). specialize (H e He). unfold edge_done in H. rewrite Ej, negb_true_iff, mem_not in H; auto.
    + destruct N as (w & e & Hw & He & Ej). assert (In e (concat (n_outputs n))) as Hc by (apply in_concat; eauto).
      specialize (H e Hc). unfold edge_done in H. rewrite Ej, negb_true_iff, mem_not in H; auto.
  - intros H e He. unfold edge_done. destruct (e_node e) as [j|] eqn:Ej; auto. rewrite negb_true_iff, mem_not.
    apply H. destruct fwd; [exists e; auto|]. apply in_concat in He. destruct He as (w & A & B). exists w, e; auto.
Qed.
Lemma find_ready_spec fwd ns unv cands : incl cands (keys ns) ->
  (exists l1 i l2, cands = l1 ++ i :: l2 /\ find_ready fwd ns unv cands = Some (Some i) /\
     (forall j, waits fwd ns i j -> ~ In j unv) /\
     (forall h, In h l1 -> exists j, waits fwd ns h j /\ In j unv)) \/
  (find_ready fwd ns unv cands = Some None /\ forall h, In h cands -> exists j, waits fwd ns h j /\ In j unv).
Proof.
  induction cands as [|i t IH]; intros I; [right; split; [auto|intros h []]|].
  destruct (keys_get ns i (I i (or_introl eq_refl))) as [n Hn]. cbn. rewrite Hn.
  destruct (ready fwd unv n) eqn:R.
  - left. exists [], i, t. split; [auto|]. split; [auto|]. split; [|intros h []].
    intros j (n' & Hn' & N). assert (n' = n) by congruence. subst. apply (proj1 (ready_spec fwd unv n) R); auto.
  - assert (B : exists j, waits fwd ns i j /\ In j unv).
    { unfold ready in R. destruct fwd.
      - assert (X : existsb (fun e => negb (edge_done unv e)) (n_inputs n) = true).
        { clear -R. induction (n_inputs n) as [|e l IH]; cbn in *; [discriminate|]. destruct (edge_done unv e); cbn in *; auto. }
        apply existsb_exists in X. destruct X as (e & He & X). unfold edge_done in X.
        destruct (e_node e) as [j|] eqn:Ej; [|discriminate]. rewrite negb_involutive, mem_In in X.
        exists j; split; auto. exists n; split; auto. exists e; auto.
      - assert (X : existsb (fun e => negb (edge_done unv e)) (concat (n_outputs n)) = true).
        { clear -R. induction (concat (n_outputs n)) as [|e l IH]; cbn in *; [discriminate|]. destruct (edge_done unv e); cbn in *; auto. }
        apply existsb_exists in X. destruct X as (e & He & X). unfold edge_done in X.
        destruct (e_node e) as [j|] eqn:Ej; [|discriminate]. rewrite negb_involutive, mem_In in X.
        apply in_concat in He. destruct He as (w & A & C).
        exists j; split; auto. exists n; split; auto. exists w, e; auto. }
    destruct (IH (fun x H => I x (or_intror H))) as [(l1 & k & l2 & E & F & G & H)|[F H]].
    + left. exists (i :: l1), k, l2. subst t. split; [auto|]. split; [auto|]. split; [auto|]. intros h [Eh|Hh]; [subst; auto|auto].
    + right. split; auto. intros h [Eh|Hh]; [subst; auto|auto].
Qed.

(** Everything at once for a run from the unvisited set [unv]. *)
Lemma iter_run_spec fwd ns : forall fuel unv, length unv = fuel -> ssorted unv -> incl unv (keys ns) ->
  exists l, iter_run fwd ns fuel unv = Some l /\ NoDup l /\ incl l unv /\
    (forall l1 i l2, l = l1 ++ i :: l2 -> forall j, waits fwd ns i j -> In j unv -> In j l1) /\
    (forall l1 i l2, l = l1 ++ i :: l2 -> forall h, In h unv -> ~ In h l1 ->
        (forall j, waits fwd ns h j -> In j unv -> In j l1) -> i <= h) /\
    (forall i, In i unv -> ~ In i l -> exists j, waits fwd ns i j /\ In j unv /\ ~ In j l).
Proof.
  induction fuel as [|f IH]; intros unv L S I.
  - destruct unv; [|discriminate]. exists []. split; [auto|]. split; [constructor|]. split; [intros x []|].
    split; [intros [|] ? ? E; discriminate|]. split; [intros [|] ? ? E; discriminate|]. intros i [].
  - cbn [iter_run]. unfold iter_next.
    destruct (find_ready_spec fwd ns unv unv I) as [(p & i & q & E & F & G & H)|[F H]]; rewrite F; cbn.
    + assert (Hi : In i unv) by (rewrite E; apply in_or_app; right; left; auto).
      pose proof (bt_remove_length i unv (ssorted_NoDup _ S) Hi) as Lr.
      destruct (IH (bt_remove i unv)) as (l & R & ND & IN & TOP & MIN & MAX).
      { lia. } { apply ssorted_filter; auto. } { intros x Hx; apply bt_remove_In in Hx; apply I; tauto. }
      rewrite R; cbn. exists (i :: l). split; [auto|]. split.
      { constructor; auto. intros Hx; apply IN in Hx; apply bt_remove_In in Hx; tauto. }
      split. { intros x [Ex|Hx]; [subst; auto|]. apply IN in Hx; apply bt_remove_In in Hx; tauto. }
      split.
      { intros [|a l1] k l2 El j W Hj; cbn in El.
        - assert (k = i) by congruence. subst k. exfalso. exact (G j W Hj).
        - assert (a = i) by congruence. assert (l = l1 ++ k :: l2) as El' by congruence. subst a.
          destruct (Nat.eq_dec j i) as [|Nj]; [left; auto|]. right.
          apply (TOP l1 k l2 El' j W). apply bt_remove_In; auto. }
      split.
      { intros [|a l1] k l2 El h Hh Nh Hd; cbn in El.
        - assert (k = i) by congruence. subst k. rewrite E in Hh. apply in_app_or in Hh. destruct Hh as [Hp|[Hq|Hq]].
          + destruct (H h Hp) as (j & W & Hj). destruct (Hd j W Hj).
          + lia.
          + clear -S E Hq. subst unv. induction p as [|a p IHp]; cbn in S; apply StronglySorted_inv in S; destruct S as [S1 S2].
            * rewrite Forall_forall in S2. specialize (S2 _ Hq); lia.
            * auto.
        - assert (a = i) by congruence. assert (l = l1 ++ k :: l2) as El' by congruence. subst a.
          apply (MIN l1 k l2 El' h).
          + apply bt_remove_In; split; auto. intros ->; apply Nh; left; auto.
          + intros X; apply Nh; right; auto.
          + intros j W Hj. apply bt_remove_In in Hj. destruct (Hd j W (proj1 Hj)) as [|]; [subst; tauto|auto]. }
      { intros x Hx Nx. destruct (MAX x) as (j & W & Hj & Nj).
        - apply bt_remove_In; split; auto. intros ->; apply Nx; left; auto.
        - intros X; apply Nx; right; auto.
        - exists j. split; auto. apply bt_remove_In in Hj. split; [tauto|]. intros [X|X]; [subst; tauto|auto]. }
    + exists []. split; [auto|]. split; [constructor|]. split; [intros x []|].
      split; [intros [|] ? ? X; discriminate|]. split; [intros [|] ? ? X; discriminate|].
      intros i Hi _. destruct (H i Hi) as (j & W & Hj). exists j; auto.
Qed.

Lemma iter_all_spec fwd ns :
  exists l, iter_all fwd ns = Some l /\ NoDup l /\ incl l (keys ns) /\
    (forall l1 i l2, l = l1 ++ i :: l2 -> forall j, waits fwd ns i j -> In j (keys ns) -> In j l1) /\
    (forall l1 i l2, l = l1 ++ i :: l2 -> forall h, In h (keys ns) -> ~ In h l1 ->
        (forall j, waits fwd ns h j -> In j (keys ns) -> In j l1) -> i <= h) /\
    (forall i, In i (keys ns) -> ~ In i l -> exists j, waits fwd ns i j /\ In j (keys ns) /\ ~ In j l).
Proof.
  destruct (iter_run_spec fwd ns _ (bt_collect (keys ns)) eq_refl (bt_collect_sorted _)) as (l & R & ND & IN & TOP & MIN & MAX).
  { intros x; apply bt_collect_In. }
  exists l. split; [exact R|]. split; [auto|]. split; [intros x Hx; apply bt_collect_In; auto|].
  split. { intros l1 i l2 E j W Hj; apply (TOP l1 i l2 E j W); apply bt_collect_In; auto. }
  split. { intros l1 i l2 E h Hh N D. apply (MIN l1 i l2 E h); auto; [apply bt_collect_In; auto|].
           intros j W Hj; apply D; auto; apply bt_collect_In; auto. }
  intros i Hi N. destruct (MAX i) as (j & W & Hj & Nj); auto; [apply bt_collect_In; auto|].
  exists j; split; auto; split; auto. apply bt_collect_In; auto.
Qed.

(** ** The property theorems' statements *)
Lemma iter_order fwd ns l : iter_all fwd ns = Some l ->
  NoDup l /\ incl l (keys ns) /\
  forall l1 i l2, l = l1 ++ i :: l2 -> forall n j, get ns i = Some n -> needs fwd n j -> In j (keys ns) -> In j l1.
Proof.
  intros E. destruct (iter_all_spec fwd ns) as (l' & E' & A & B & C & _). assert (l = l') by congruence. subst l'.
  split; auto. split; auto. intros l1 i l2 El n j G N. apply (C l1 i l2 El). exists n; auto.
Qed.
Lemma iter_total fwd ns : exists l, iter_all fwd ns = Some l.
Proof. destruct (iter_all_spec fwd ns) as (l & E & _). eauto. Qed.
Fixpoint pos (i : nat) (l : list nat) : nat := match l with [] => 0 | h :: t => if Nat.eqb h i then 0 else S (pos i t) end.
Lemma pos_lt l1 l2 j : In j l1 -> pos j (l1 ++ l2) < length l1.
Proof. induction l1 as [|h t IH]; cbn; [intros []|]. intros H. destruct (Nat.eqb_spec h j); [lia|]. destruct H; [congruence|specialize (IH H); lia]. Qed.
Lemma pos_mid l1 i l2 : ~ In i l1 -> pos i (l1 ++ i :: l2) = length l1.
Proof.
  induction l1 as [|h t IH]; cbn; intros N; [rewrite Nat.eqb_refl; auto|].
  destruct (Nat.eqb_spec h i); [subst; exfalso; auto|]. rewrite IH; auto.
Qed.
Lemma iter_complete fwd ns l : NoDup (keys ns) -> iter_all fwd ns = Some l ->
  (Permutation l (keys ns) <-> acyclic fwd ns).
Proof.
  intros ND E. destruct (iter_all_spec fwd ns) as (l' & E' & A & B & C & _ & D). assert (l = l') by congruence. subst l'.
  split.
  - intros P. exists (fun i => pos i l). intros i j W Hj.
    assert (Hi : In i l).
    { destruct W as (n & G & _). apply get_keys in G. eapply Permutation_in; [apply Permutation_sym, P|auto]. }
    apply in_split in Hi. destruct Hi as (l1 & l2 & El). pose proof (C l1 i l2 El j W Hj) as Hj1.
    subst l. rewrite pos_mid; [|apply NoDup_remove_2 in A; intros X; apply A, in_or_app; auto].
    apply pos_lt; auto.
  - intros (rank & R). apply NoDup_Permutation; auto. intros x; split; [apply B|].
    intros Hx. destruct (in_dec Nat.eq_dec x l) as [|N]; auto. exfalso.
    assert (F : forall r i, rank i < r -> In i (keys ns) -> In i l).
    { induction r as [|r IH]; intros i Hr Hi; [lia|]. destruct (in_dec Nat.eq_dec i l) as [|Ni]; auto.
      destruct (D i Hi Ni) as (j & W & Hj & Nj). exfalso; apply Nj, IH; auto. specialize (R i j W Hj); lia. }
    apply N, (F (S (rank x))); auto.
Qed.
Lemma iter_good fwd ns : exists l, iter_all fwd ns = Some l /\ NoDup l /\ incl l (keys ns) /\
  forall l1 i l2, l = l1 ++ i :: l2 -> forall n j, get ns i = Some n -> needs fwd n j -> In j (keys ns) -> In j l1.
Proof. destruct (iter_total fwd ns) as [l E]. exists l. split; [auto|]. apply iter_order; auto. Qed.
(** A node that is never yielded waits for another node that is never yielded. *)
Lemma iter_stuck fwd ns l i : iter_all fwd ns = Some l -> In i (keys ns) -> ~ In i l ->
  exists n j, get ns i = Some n /\ needs fwd n j /\ In j (keys ns) /\ ~ In j l.
Proof.
  intros E Hi N. destruct (iter_all_spec fwd ns) as (l' & E' & _ & _ & _ & _ & D). assert (l = l') by congruence. subst l'.
  destruct (D i Hi N) as (j & (n & G & Nd) & Hj & Nj). exists n, j; auto.
Qed.
(** The next node is the smallest id among those whose dependencies have all been yielded. *)
Lemma iter_smallest fwd ns l l1 i l2 h n : iter_all fwd ns = Some l -> l = l1 ++ i :: l2 ->
  get ns h = Some n -> ~ In h l1 -> (forall j, needs fwd n j -> In j (keys ns) -> In j l1) -> i <= h.
Proof.
  intros E El G N H. destruct (iter_all_spec fwd ns) as (l' & E' & _ & _ & _ & D & _). assert (l = l') by congruence. subst l'.
  apply (D l1 i l2 El h); auto; [apply get_keys in G; auto|]. intros j (n' & G' & W). assert (n' = n) by congruence.
  subst n'. apply H; auto.
Qed.
Lemma find_ready_ext fwd ns ns' unv cands : (forall k, get ns k = get ns' k) -> find_ready fwd ns unv cands = find_ready fwd ns' unv cands.
Proof. intros H; induction cands as [|i t IH]; cbn; auto. rewrite H, IH; auto. Qed.
Lemma iter_run_ext fwd ns ns' : (forall k, get ns k = get ns' k) -> forall f unv, iter_run fwd ns f unv = iter_run fwd ns' f unv.
Proof.
  intros H; induction f as [|f IH]; intros unv; cbn; auto. unfold iter_next. rewrite (find_ready_ext fwd ns ns' unv unv H).
  destruct (find_ready fwd ns' unv unv) as [[i|]|]; cbn; auto. rewrite IH; auto.
Qed.
Lemma iter_perm fwd ns ns' : NoDup (keys ns) -> Permutation ns ns' -> iter_all fwd ns = iter_all fwd ns'.
Proof.
  intros ND P. unfold iter_all. rewrite (bt_collect_perm (keys ns) (keys ns') (Permutation_map fst P)).
  apply iter_run_ext. intros k; apply get_perm; auto.
Qed.
Lemma into_iter_run_spec : forall ids ns, NoDup (keys ns) -> NoDup ids -> incl ids (keys ns) ->
  exists l, into_iter_run ids ns = Some l /\ map fst l = ids /\ forall i n, In (i, n) l -> get ns i = Some n.
Proof.
  induction ids as [|i t IH]; intros ns ND NI I; cbn.
  - exists []. split; [auto|]. split; [auto|]. intros ? ? [].
  - destruct (keys_get ns i (I i (or_introl eq_refl))) as [n G]. rewrite G; cbn.
    pose proof (NoDup_cons_iff i t) as [F _]. destruct (F NI) as [F1 F2].
    destruct (IH (remove_key ns i)) as (l & E & M & H); [apply remove_NoDup; auto|auto| |].
    { intros x Hx. destruct (keys_get ns x (I x (or_intror Hx))) as [v Gv]. apply (get_keys _ _ v).
      rewrite get_remove; auto. destruct (Nat.eqb_spec x i); [subst; contradiction|auto]. }
    rewrite E; cbn. exists ((i, n) :: l). split; [auto|]. split; [cbn; congruence|].
    intros x m [X|X]; [congruence|]. pose proof (H x m X) as Gx. rewrite get_remove in Gx; auto.
    destruct (Nat.eqb x i); [discriminate|auto].
Qed.
(** The consuming iterator hands out the same nodes in the same order and never panics. *)
Lemma into_iter_same fwd ns : NoDup (keys ns) ->
  exists l ids, into_iter fwd ns = Some l /\ iter_all fwd ns = Some ids /\ map fst l = ids /\ forall i n, In (i, n) l -> get ns i = Some n.
Proof.
  intros ND. destruct (iter_all_spec fwd ns) as (ids & E & A & B & _). unfold into_iter. rewrite E; cbn.
  destruct (into_iter_run_spec ids ns ND A B) as (l & R & M & H). exists l, ids. auto.
Qed.
End Iter.
