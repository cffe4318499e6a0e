(** Running the model follows the data flow; claims are routed to the consumers' claims. *)
From Coq Require Import List Arith Lia Bool Permutation Sorted.
From Verif Require Import ListAux FieldDef M_Mle P_Interp M_Graph P_Graph P_Graph2.
Import ListNotations.

Lemma omapM_ext {A B} (f g : A -> option B) l : (forall x, In x l -> f x = g x) -> omapM f l = omapM g l.
Proof. induction l as [|a l IH]; intros H; cbn; auto. rewrite (H a) by (left; auto). rewrite IH; auto. intros; apply H; right; auto. Qed.
Lemma omapM_nth {A B} (f : A -> option B) : forall l r, omapM f l = Some r -> length r = length l /\ forall i x, nth_error l i = Some x -> exists y, nth_error r i = Some y /\ f x = Some y.
Proof.
  induction l as [|a l IH]; cbn; intros r E. - injection E as <-. split; auto. intros [|i] x; discriminate.
  - destruct (f a) as [b|] eqn:F; [|discriminate]. cbn in E. destruct (omapM f l) as [r'|]; [|discriminate]. cbn in E. injection E as <-.
    destruct (IH r' eq_refl) as [L N]. split; [cbn; auto|]. intros [|i] x H; cbn in *; [injection H as <-; eauto|eauto].
Qed.
Lemma omapM_some {A B} (f : A -> option B) : forall l, (forall x, In x l -> exists y, f x = Some y) -> exists r, omapM f l = Some r.
Proof.
  induction l as [|a l IH]; intros H; cbn; eauto. destruct (H a (or_introl eq_refl)) as [y ->]. cbn.
  destruct IH as [r ->]; [intros; apply H; right; auto|]. cbn; eauto.
Qed.

Section Run.
Context {Op V : Type}.
Variable eval : Op -> list V -> option (list V).
Variable inputs : list V.
Implicit Types ns : @nodes Op.
Implicit Types tr d : @trace V.

(** The specification: every node holds the values named by its input edges and what its layer makes of them. *)
Definition dataflow ns tr : Prop := forall i n, get ns i = Some n -> exists ins outs,
  get tr i = Some (ins, outs) /\
  Forall2 (fun e v => match e_node e with
                      | None => nth_error inputs (e_index e) = Some v
                      | Some j => exists ins' outs', get tr j = Some (ins', outs') /\ nth_error outs' (e_index e) = Some v
                      end) (n_inputs n) ins /\
  eval (n_op n) ins = Some outs.

Lemma omapM_F2 {A B} (f : A -> option B) : forall l r, omapM f l = Some r <-> Forall2 (fun x y => f x = Some y) l r.
Proof.
  induction l as [|a l IH]; intros r; cbn.
  - split; [intros E; injection E as <-; constructor|intros H; inversion H; auto].
  - split.
    + destruct (f a) eqn:F; [|discriminate]. cbn. destruct (omapM f l); [|discriminate]. cbn. intros E; injection E as <-. constructor; auto. apply IH; auto.
    + intros H; inversion H; subst. rewrite H2. cbn. apply IH in H4. rewrite H4. auto.
Qed.
Lemma fetch_spec tr e v : fetch inputs tr e = Some v <-> match e_node e with
                      | None => nth_error inputs (e_index e) = Some v
                      | Some j => exists ins' outs', get tr j = Some (ins', outs') /\ nth_error outs' (e_index e) = Some v
                      end.
Proof.
  unfold fetch. destruct (e_node e) as [j|]; [|tauto]. destruct (get tr j) as [[a b]|]; cbn; split.
  - eauto. - intros (a' & b' & H & H'). congruence. - discriminate. - intros (a' & b' & H & _); discriminate.
Qed.
Lemma F2_impl {A B} (P Q : A -> B -> Prop) l r : (forall a b, P a b -> Q a b) -> Forall2 P l r -> Forall2 Q l r.
Proof. intros H F; induction F; constructor; auto. Qed.
Lemma dataflow_fetch ns tr : dataflow ns tr <-> forall i n, get ns i = Some n -> exists ins outs,
  get tr i = Some (ins, outs) /\ omapM (fetch inputs tr) (n_inputs n) = Some ins /\ eval (n_op n) ins = Some outs.
Proof.
  split; intros H i n G; destruct (H i n G) as (ins & outs & A & B & C); exists ins, outs; split; auto; split; auto.
  - apply omapM_F2. revert B. apply F2_impl. intros; apply fetch_spec; auto.
  - apply omapM_F2 in B. revert B. apply F2_impl. intros; apply fetch_spec; auto.
Qed.

Lemma run_steps_spec ns : forall ids tr0 tr, NoDup ids -> (forall i, In i ids -> get tr0 i = None) -> run_steps eval inputs ns tr0 ids = Some tr ->
  (forall j, ~ In j ids -> get tr j = get tr0 j) /\
  (forall i, In i ids -> exists n ins outs, get ns i = Some n /\ get tr i = Some (ins, outs) /\ omapM (fetch inputs tr) (n_inputs n) = Some ins /\ eval (n_op n) ins = Some outs).
Proof.
  induction ids as [|i ids IH]; intros tr0 tr ND H0 E; cbn in E.
  - assert (tr0 = tr) by congruence. subst. split; auto. intros ? [].
  - inversion ND; subst. destruct (run_step eval inputs ns tr0 i) as [tr1|] eqn:S; [|discriminate]. cbn in E.
    unfold run_step in S. destruct (get ns i) as [n|] eqn:G; [|discriminate]. cbn in S.
    destruct (omapM (fetch inputs tr0) (n_inputs n)) as [ins|] eqn:F; [|discriminate]. cbn in S.
    destruct (eval (n_op n) ins) as [outs|] eqn:Ev; [|discriminate]. cbn in S. assert (tr1 = put tr0 i (ins, outs)) by congruence. subst tr1.
    destruct (IH (put tr0 i (ins, outs)) tr) as [A B]; auto.
    { intros j Hj. rewrite get_put. destruct (Nat.eqb_spec j i); [subst; contradiction|]. apply H0; right; auto. }
    split.
    + intros j Nj. rewrite A by (intros X; apply Nj; right; auto). rewrite get_put. destruct (Nat.eqb_spec j i); auto. subst; exfalso; apply Nj; left; auto.
    + intros j [<-|Hj]; auto. exists n, ins, outs. split; [auto|].
      rewrite A by auto. rewrite get_put, Nat.eqb_refl. split; [auto|]. split; [|auto].
      apply omapM_F2. apply omapM_F2 in F. revert F. apply F2_impl. intros e v. rewrite !fetch_spec.
      destruct (e_node e) as [j|]; [|auto]. intros (a & b & X & Y). exists a, b. split; auto.
      assert (Nj : ~ In j (i :: ids)) by (intros Z; rewrite H0 in X by auto; discriminate).
      rewrite A by (intros Z; apply Nj; right; auto). rewrite get_put. destruct (Nat.eqb_spec j i); auto. subst; exfalso; apply Nj; left; auto.
Qed.

(** Every producer named by an input edge is a node of the graph. *)
Definition closed ns : Prop := forall i n e j, get ns i = Some n -> In e (n_inputs n) -> e_node e = Some j -> In j (keys ns).
Lemma valid_closed ns : valid ns -> closed ns.
Proof.
  intros (_ & C & _) i n e j G He Ej. apply In_nth_error in He. destruct He as [k Hk].
  apply (inp_target ns i k j (e_index e) C). unfold inp. rewrite G, Hk. destruct e; cbn in *; congruence.
Qed.

Lemma run_steps_complete ns d l : dataflow ns d -> closed ns ->
  (forall l1 i l2, l = l1 ++ i :: l2 -> forall n j, get ns i = Some n -> needs true n j -> In j (keys ns) -> In j l1) -> incl l (keys ns) ->
  forall l2 l1 tr0, l = l1 ++ l2 -> (forall j, In j l1 -> get tr0 j = get d j) ->
  exists tr, run_steps eval inputs ns tr0 l2 = Some tr /\ forall j, In j l -> get tr j = get d j.
Proof.
  intros D C O I. induction l2 as [|i l2 IH]; intros l1 tr0 El H0.
  - exists tr0. split; [auto|]. intros j. rewrite El, app_nil_r. auto.
  - cbn [run_steps]. assert (Ki : In i (keys ns)) by (apply I; rewrite El; apply in_or_app; right; left; auto).
    destruct (keys_get ns i Ki) as [n G]. destruct (proj1 (dataflow_fetch ns d) D i n G) as (ins & outs & A & B & E).
    unfold run_step. rewrite G. cbn [obind].
    rewrite (omapM_ext _ (fetch inputs d)). 2:{ intros e He. unfold fetch. destruct (e_node e) as [j|] eqn:Ej; auto. rewrite H0; auto.
      apply (O l1 i l2 El n j G); [exists e; auto|]. eapply C; eauto. }
    rewrite B. cbn [obind]. rewrite E. cbn [obind].
    destruct (IH (l1 ++ [i]) (put tr0 i (ins, outs))) as (tr & R & H).
    { rewrite <- app_assoc; auto. }
    { intros j Hj. rewrite get_put. destruct (Nat.eqb_spec j i); [subst; auto|]. apply in_app_or in Hj. destruct Hj as [|[|[]]]; auto. congruence. }
    exists tr. auto.
Qed.

(** [run_with_tracker] up to the collection of the outputs. *)
Definition run_trace ns : option (@trace V) := ids <- iter_all true ns ;; run_steps eval inputs ns [] ids.
Lemma run_dataflow ns : NoDup (keys ns) -> acyclic true ns -> closed ns ->
  (forall tr, run_trace ns = Some tr -> dataflow ns tr /\ forall d, dataflow ns d -> forall i, In i (keys ns) -> get d i = get tr i) /\
  ((exists d, dataflow ns d) -> exists tr, run_trace ns = Some tr).
Proof.
  intros ND Ac Cl. unfold run_trace. destruct (iter_total true ns) as [l El]. rewrite El. cbn [obind].
  destruct (iter_order true ns l El) as (A & B & C). pose proof (proj2 (iter_complete true ns l ND El) Ac) as P.
  assert (Comp : forall d, dataflow ns d -> exists tr, run_steps eval inputs ns [] l = Some tr /\ forall j, In j (keys ns) -> get tr j = get d j).
  { intros d D. destruct (run_steps_complete ns d l D Cl C B l [] []) as (tr & R & H); auto; [intros ? []|]. exists tr. split; auto.
    intros j Hj. apply H. apply (Permutation_in _ (Permutation_sym P)); auto. }
  split.
  - intros tr R. split.
    + apply dataflow_fetch. intros i n G. destruct (run_steps_spec ns l [] tr A) as [_ H]; auto.
      destruct (H i) as (n' & ins & outs & G' & X). { apply (Permutation_in _ (Permutation_sym P)). eapply get_keys; eauto. }
      assert (n' = n) by congruence. subst. eauto.
    + intros d D i Hi. destruct (Comp d D) as (tr' & R' & H). assert (tr' = tr) by congruence. subst. symmetry; auto.
  - intros [d D]. destruct (Comp d D) as (tr & R & _). eauto.
Qed.

(** ** Collecting the outputs *)
Fixpoint ins_all (outs : list (nat * V)) (l : list (nat * V)) : option (list (nat * V)) :=
  match l with [] => Some outs | (o, v) :: t => match get outs o with Some _ => None | None => ins_all (put outs o v) t end end.
Definition flat (ws : list wire) (vs : list V) : list (nat * V) :=
  concat (map (fun '(w, v) => match out_index w with Some o => [(o, v)] | None => [] end) (combine ws vs)).
Lemma collect_wires_flat : forall ws outs vs, collect_wires outs ws vs = ins_all outs (flat ws vs).
Proof.
  induction ws as [|w ws IH]; intros outs [|v vs]; cbn; auto. unfold flat in *. cbn.
  destruct (out_index w); cbn; [|apply IH]. destruct (get outs n); auto.
Qed.
Lemma ins_all_app : forall l outs l', ins_all outs (l ++ l') = (o <- ins_all outs l ;; ins_all o l').
Proof. induction l as [|[o v] l IH]; intros; cbn; auto. destruct (get outs o); auto. Qed.
Definition node_flat tr (p : nat * node Op) : option (list (nat * V)) :=
  s <- get tr (fst p) ;; if Nat.eqb (length (snd s)) (length (n_outputs (snd p))) then Some (flat (n_outputs (snd p)) (snd s)) else None.
Lemma collect_outputs_cons tr i n t outs : collect_outputs tr outs ((i, n) :: t) = (f <- node_flat tr (i, n) ;; o <- ins_all outs f ;; collect_outputs tr o t).
Proof.
  cbn [collect_outputs]. unfold node_flat; cbn [fst snd]. destruct (get tr i) as [s|]; cbn [obind]; auto.
  destruct (Nat.eqb (length (snd s)) (length (n_outputs n))); cbn [obind]; auto. rewrite collect_wires_flat. auto.
Qed.
Lemma collect_outputs_eq tr : forall ons outs, collect_outputs tr outs ons = (l <- omapM (node_flat tr) ons ;; ins_all outs (concat l)).
Proof.
  induction ons as [|[i n] t IH]; intros outs; [auto|]. rewrite collect_outputs_cons. cbn [omapM].
  destruct (node_flat tr (i, n)) as [f|]; cbn [obind]; [|auto].
  destruct (ins_all outs f) as [o|] eqn:E; cbn [obind].
  - rewrite IH. destruct (omapM (node_flat tr) t) as [l|]; cbn [obind concat]; auto. rewrite ins_all_app, E. auto.
  - destruct (omapM (node_flat tr) t) as [l|]; cbn [obind concat]; auto. rewrite ins_all_app, E. auto.
Qed.

Lemma put_fresh {A} : forall (m : list (nat * A)) k v, get m k = None -> put m k v = m ++ [(k, v)].
Proof. induction m as [|[k' v'] t IH]; intros k v H; cbn in *; auto. destruct (Nat.eqb k k'); [discriminate|]. rewrite IH; auto. Qed.
Lemma ins_all_spec : forall l outs, NoDup (keys outs) -> ins_all outs l = if ListDec.NoDup_dec Nat.eq_dec (keys (outs ++ l)) then Some (outs ++ l) else None.
Proof.
  induction l as [|[o v] l IH]; intros outs ND; cbn [ins_all].
  - rewrite app_nil_r. destruct (ListDec.NoDup_dec Nat.eq_dec (keys outs)); [auto|contradiction].
  - destruct (get outs o) as [v'|] eqn:G.
    + destruct (ListDec.NoDup_dec Nat.eq_dec (keys (outs ++ (o, v) :: l))) as [N|]; auto. exfalso. unfold keys in N. rewrite map_app in N. cbn [map fst] in N.
      apply NoDup_remove_2 in N. apply N. apply in_or_app. left. apply get_keys in G. exact G.
    + rewrite put_fresh by auto. rewrite IH. { rewrite <- app_assoc. cbn [app]. auto. }
      unfold keys. rewrite map_app. cbn [map fst]. apply (Permutation_NoDup (Permutation_cons_append _ _)). constructor; auto. apply get_None; auto.
Qed.

Lemma ssorted_seq : forall l a, StronglySorted lt l -> (forall x, In x l -> a <= x) -> (l <> [] -> last l 0 <= a + length l - 1) -> l = seq a (length l).
Proof.
  induction l as [|h t IH]; intros a S Ge La; auto. inversion S as [|? ? S' F]; subst. rewrite Forall_forall in F.
  assert (LB : forall t h, StronglySorted lt (h :: t) -> h + length t <= last (h :: t) 0).
  { clear. induction t as [|x t IH]; intros h S; [cbn; lia|]. inversion S as [|? ? S' F]; subst. specialize (IH x S').
    assert (h < x) by (rewrite Forall_forall in F; apply F; left; auto). change (last (h :: x :: t) 0) with (last (x :: t) 0). cbn [length] in *. lia. }
  assert (Hh : h = a). { pose proof (LB t h S). assert (h :: t <> []) by discriminate. specialize (La H0). cbn [length] in La. pose proof (Ge h (or_introl eq_refl)). lia. }
  subst h. cbn [length seq]. f_equal. apply IH; [auto|intros x Hx; specialize (F x Hx); lia|].
    intros Nt. destruct t as [|x t]; [congruence|]. assert (Hne : a :: x :: t <> []) by discriminate. specialize (La Hne).
    change (last (a :: x :: t) 0) with (last (x :: t) 0) in La. cbn [length] in *. lia.
Qed.
Lemma keys_ok_seq idx : StronglySorted lt idx -> keys_ok idx = true -> idx = seq 0 (length idx) /\ idx <> [].
Proof.
  intros S H. destruct idx as [|h t]; [discriminate|]. cbn [keys_ok] in H. apply andb_true_iff in H. destruct H as [H1 H2].
  apply Nat.eqb_eq in H1, H2. split; [|discriminate]. apply ssorted_seq; auto; [intros; lia|]. intros _. rewrite H2. lia.
Qed.

Lemma out_values_perm (outs outs' : list (nat * V)) : NoDup (keys outs) -> Permutation outs outs' -> out_values outs = out_values outs'.
Proof.
  intros ND P. unfold out_values. rewrite (bt_collect_perm (keys outs) (keys outs')) by (apply Permutation_map; auto).
  destruct (keys_ok _); auto. apply omapM_ext. intros x _. apply get_perm; auto.
Qed.
Lemma omapM_perm {A B} (f : A -> option B) l l' : Permutation l l' ->
  match omapM f l, omapM f l' with Some r, Some r' => Permutation r r' | None, None => True | _, _ => False end.
Proof.
  induction 1; cbn.
  - constructor.
  - destruct (f x); cbn; auto. destruct (omapM f l), (omapM f l'); cbn; auto.
  - destruct (f x), (f y); cbn; auto; destruct (omapM f l); cbn; auto. constructor.
  - destruct (omapM f l), (omapM f l'), (omapM f l''); auto; try contradiction. eapply Permutation_trans; eauto.
Qed.
Lemma concat_perm {A} (l l' : list (list A)) : Permutation l l' -> Permutation (concat l) (concat l').
Proof.
  induction 1; cbn; auto.
  - apply Permutation_app_head; auto.
  - rewrite !app_assoc. apply Permutation_app_tail, Permutation_app_comm.
  - eapply Permutation_trans; eauto.
Qed.
Lemma filter_perm {A} (f : A -> bool) l l' : Permutation l l' -> Permutation (filter f l) (filter f l').
Proof. induction 1; cbn; auto. - destruct (f x); auto. - destruct (f x), (f y); auto; constructor. - eapply Permutation_trans; eauto. Qed.

Lemma run_steps_ext ns ns' : (forall k, get ns k = get ns' k) -> forall ids tr, run_steps eval inputs ns tr ids = run_steps eval inputs ns' tr ids.
Proof.
  intros H. induction ids as [|i ids IH]; intros tr; cbn; auto. unfold run_step. rewrite H.
  destruct (get ns' i); cbn; auto. destruct (omapM _ _); cbn; auto. destruct (eval _ _); cbn; auto.
Qed.

(** The whole inference does not depend on the order in which the map yields the nodes. *)
Lemma run_model_perm ns ns' : NoDup (keys ns) -> Permutation ns ns' -> run_model eval inputs ns = run_model eval inputs ns'.
Proof.
  intros ND P. unfold run_model. rewrite (iter_perm true ns ns' ND P). destruct (iter_all true ns') as [ids|]; cbn [obind]; auto.
  rewrite (run_steps_ext ns ns') by (intros; apply get_perm; auto). destruct (run_steps eval inputs ns' [] ids) as [tr|]; cbn [obind]; auto.
  rewrite !collect_outputs_eq. unfold output_nodes.
  pose proof (omapM_perm (node_flat tr) _ _ (filter_perm (fun '(_, n) => forallb (fun w => existsb is_out w) (n_outputs n)) ns ns' P)) as H.
  destruct (omapM _ _) as [r|], (omapM _ _) as [r'|]; try contradiction; cbn [obind]; auto.
  apply concat_perm in H. rewrite !ins_all_spec by constructor. cbn [app].
  destruct (ListDec.NoDup_dec _ (keys (concat r))) as [N|N], (ListDec.NoDup_dec _ (keys (concat r'))) as [N'|N']; cbn [obind]; auto.
  - rewrite (out_values_perm (concat r) (concat r')); auto.
  - exfalso. apply N'. apply (Permutation_NoDup (Permutation_map fst H)); auto.
  - exfalso. apply N. apply (Permutation_NoDup (Permutation_map fst (Permutation_sym H))); auto.
Qed.

(** Output [o] of the inference is what the wire routed to output [o] carries. *)
Lemma In_flat ws : forall vs o v, In (o, v) (flat ws vs) <-> exists idx w, nth_error ws idx = Some w /\ nth_error vs idx = Some v /\ out_index w = Some o.
Proof.
  induction ws as [|w ws IH]; intros [|x vs] o v; unfold flat in *; cbn.
  - split; [intros []|intros ([|?] & ? & H & _); discriminate]. - split; [intros []|intros ([|?] & ? & H & _); discriminate].
  - split; [intros []|intros ([|?] & ? & _ & H & _); discriminate].
  - rewrite in_app_iff, IH. split.
    + intros [H|(idx & w' & H)]; [|exists (S idx), w'; auto]. exists 0, w. cbn. destruct (out_index w) as [o'|]; [|destruct H].
      destruct H as [H|[]]. injection H as -> ->. auto.
    + intros ([|idx] & w' & A & B & C); cbn in A, B; [|right; eauto]. left. assert (w' = w) by congruence. subst. rewrite C. left. congruence.
Qed.
Lemma outputs_spec ns (tr : @trace V) (outs0 : list (nat * V)) (vs : list V) : NoDup (keys ns) -> collect_outputs tr [] (output_nodes ns) = Some outs0 -> out_values outs0 = Some vs ->
  forall o v, nth_error vs o = Some v <-> exists i n idx w ins outs, get ns i = Some n /\ (forall w', In w' (n_outputs n) -> existsb is_out w' = true) /\
    nth_error (n_outputs n) idx = Some w /\ out_index w = Some o /\ get tr i = Some (ins, outs) /\ nth_error outs idx = Some v.
Proof.
  intros ND E Ev. rewrite collect_outputs_eq in E. destruct (omapM (node_flat tr) (output_nodes ns)) as [r|] eqn:Er; [|discriminate]. cbn [obind] in E.
  rewrite ins_all_spec in E by constructor. cbn [app] in E. destruct (ListDec.NoDup_dec _ (keys (concat r))) as [N|]; [|discriminate].
  assert (outs0 = concat r) by congruence. subst outs0. clear E.
  unfold out_values in Ev. destruct (keys_ok (bt_collect (keys (concat r)))) eqn:Ok; [|discriminate].
  destruct (keys_ok_seq _ (bt_collect_sorted _) Ok) as [Sq _]. set (idx := bt_collect (keys (concat r))) in *. set (m := length idx) in *.
  assert (Get : forall o v, nth_error vs o = Some v <-> get (concat r) o = Some v).
  { intros o v. apply omapM_nth in Ev. destruct Ev as [L H]. fold m in L. split.
    - intros X. assert (Lo : o < m) by (rewrite <- L; apply nth_error_Some; congruence).
      assert (Y : nth_error idx o = Some o). { rewrite Sq. rewrite (nth_error_nth' _ 0) by (rewrite seq_length; auto). rewrite seq_nth; auto. }
      destruct (H o o Y) as (y & Hy & Gy). congruence.
    - intros X. assert (Io : In o idx) by (apply bt_collect_In; eapply get_keys; eauto). rewrite Sq in Io. apply in_seq in Io.
      assert (Y : nth_error idx o = Some o). { rewrite Sq. rewrite (nth_error_nth' _ 0) by (rewrite seq_length; lia). rewrite seq_nth by lia. auto. }
      destruct (H o o Y) as (y & Hy & Gy). congruence. }
  assert (InR : forall o v, In (o, v) (concat r) <-> exists i n ins outs, In (i, n) (output_nodes ns) /\ get tr i = Some (ins, outs) /\ length outs = length (n_outputs n) /\ In (o, v) (flat (n_outputs n) outs)).
  { intros o v. rewrite in_concat. split.
    - intros (x & Hx & Hov). apply In_nth_error in Hx. destruct Hx as [q Hq]. pose proof Er as Er'. apply omapM_nth in Er'. destruct Er' as [L H].
      destruct (nth_error (output_nodes ns) q) as [[i n]|] eqn:Hn. 2:{ apply nth_error_None in Hn. assert (q < length r) by (apply nth_error_Some; congruence). lia. }
      destruct (H q (i, n) Hn) as (y & Hy & Fy). assert (y = x) by congruence. subst y. unfold node_flat in Fy. cbn [fst snd] in Fy.
      destruct (get tr i) as [[ins outs]|] eqn:G; [|discriminate]. cbn [obind snd] in Fy. destruct (Nat.eqb_spec (length outs) (length (n_outputs n))); [|discriminate].
      exists i, n, ins, outs. assert (x = flat (n_outputs n) outs) by congruence. subst. split; [eapply nth_error_In; eauto|]. auto.
    - intros (i & n & ins & outs & Hi & G & Lo & Hov). apply In_nth_error in Hi. destruct Hi as [q Hq]. apply omapM_nth in Er. destruct Er as [L H].
      destruct (H q (i, n) Hq) as (y & Hy & Fy). exists y. split; [eapply nth_error_In; eauto|]. unfold node_flat in Fy. cbn [fst snd] in Fy. rewrite G in Fy. cbn [obind snd] in Fy.
      destruct (Nat.eqb_spec (length outs) (length (n_outputs n))); [|contradiction]. congruence. }
  intros o v. rewrite Get. split.
  - intros X. apply get_In, InR in X. destruct X as (i & n & ins & outs & Hi & G & Lo & Hov). apply In_flat in Hov. destruct Hov as (q & w & A & B & C).
    unfold output_nodes in Hi. apply filter_In in Hi. destruct Hi as [Hi Hf]. rewrite forallb_forall in Hf.
    exists i, n, q, w, ins, outs. split; [apply In_get; auto|]. auto.
  - intros (i & n & q & w & ins & outs & G & Hf & A & C & Gt & B). apply In_get; auto.
    assert (Hi : In (i, n) (output_nodes ns)). { apply filter_In. split; [apply get_In; auto|]. apply forallb_forall; auto. }
    apply InR. exists i, n, ins, outs. split; [auto|]. split; [auto|]. split; [|apply In_flat; eauto].
    pose proof Hi as Hq. apply In_nth_error in Hq. destruct Hq as [p Hp]. apply omapM_nth in Er. destruct Er as [_ H]. destruct (H p _ Hp) as (y & _ & Fy).
    unfold node_flat in Fy. cbn [fst snd] in Fy. rewrite Gt in Fy. cbn [obind snd] in Fy. destruct (Nat.eqb_spec (length outs) (length (n_outputs n))); [auto|discriminate].
Qed.
Lemma run_outputs ns tr vs : NoDup (keys ns) -> run_model eval inputs ns = Some (tr, vs) -> run_trace ns = Some tr /\
  forall o v, nth_error vs o = Some v <-> exists i n idx w ins outs, get ns i = Some n /\ (forall w', In w' (n_outputs n) -> existsb is_out w' = true) /\
    nth_error (n_outputs n) idx = Some w /\ out_index w = Some o /\ get tr i = Some (ins, outs) /\ nth_error outs idx = Some v.
Proof.
  intros ND E. unfold run_model in E. unfold run_trace. destruct (iter_all true ns) as [ids|]; [|discriminate]. cbn [obind] in *.
  destruct (run_steps eval inputs ns [] ids) as [tr'|]; [|discriminate]. cbn [obind] in E.
  destruct (collect_outputs tr' [] (output_nodes ns)) as [outs0|] eqn:Eo; [|discriminate]. cbn [obind] in E.
  destruct (out_values outs0) as [vs'|] eqn:Ev; [|discriminate]. cbn [obind] in E. assert (tr' = tr /\ vs' = vs) as [-> ->] by (split; congruence).
  split; [auto|]. eapply outputs_spec; eauto.
Qed.
End Run.

(** ** Claims *)
Section Claims.
Context {Op C : Type}.
Implicit Types ns : @nodes Op.
(** The claim a node has to prove about its output [idx] is the claim its consumer made about the very input fed by that
    output, there is no second consumer whose claim would be lost, and an output of the model takes the output claim. *)
Lemma claims_routed ns j n (by_node : list (nat * list C)) outc cl : consistent ns -> get ns j = Some n -> claims_for_node by_node outc n = Some cl ->
  length cl = length (n_outputs n) /\
  (forall i k idx, inp ns i k = Some (mkEdge (Some j) idx) -> exists c li, nth_error cl idx = Some c /\ get by_node i = Some li /\ nth_error li k = Some c) /\
  (forall i k i' k' idx, inp ns i k = Some (mkEdge (Some j) idx) -> inp ns i' k' = Some (mkEdge (Some j) idx) -> i = i' /\ k = k') /\
  (forall idx w e, nth_error (n_outputs n) idx = Some w -> In e w -> e_node e = None -> exists c, nth_error cl idx = Some c /\ nth_error outc (e_index e) = Some c).
Proof.
  intros Cs G E. unfold claims_for_node in E. apply omapM_nth in E. destruct E as [L H]. split; [auto|].
  assert (W : forall i k idx, inp ns i k = Some (mkEdge (Some j) idx) -> exists w, nth_error (n_outputs n) idx = Some w /\ In (mkEdge (Some i) k) w).
  { intros i k idx X. pose proof (cons_inp ns i k j idx Cs X) as O. unfold occ in O. rewrite G in O.
    destruct (nth_error (n_outputs n) idx) as [w|] eqn:Ew. - exists w. split; auto. rewrite (nth_error_nth _ _ _ Ew) in O. apply (count_occ_In edge_dec). lia.
    - apply nth_error_None in Ew. rewrite nth_overflow in O by auto. discriminate. }
  split; [|split].
  - intros i k idx X. destruct (W i k idx X) as (w & Ew & Iw). destruct (H idx w Ew) as (c & Hc & Fc). exists c. unfold claim_for_wire in Fc.
    destruct w as [|e [|? ?]]; try discriminate. destruct Iw as [->|[]]. cbn in Fc. destruct (get by_node i) as [li|]; [|discriminate]. exists li. auto.
  - intros i k i' k' idx X X'. destruct (W i k idx X) as (w & Ew & Iw). destruct (W i' k' idx X') as (w' & Ew' & Iw'). assert (w' = w) by congruence. subst w'.
    destruct (H idx w Ew) as (c & Hc & Fc). unfold claim_for_wire in Fc. destruct w as [|e [|? ?]]; try discriminate. destruct Iw as [->|[]], Iw' as [Q|[]]. split; congruence.
  - intros idx w e Ew Ie En. destruct (H idx w Ew) as (c & Hc & Fc). exists c. split; auto. unfold claim_for_wire in Fc. destruct w as [|e' [|? ?]]; try discriminate.
    destruct Ie as [->|[]]. rewrite En in Fc. auto.
Qed.
End Claims.
