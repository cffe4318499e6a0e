(** Binding the outputs of the model to the nodes computing them. *)
From Coq Require Import List Arith Lia Bool Permutation.
From Verif Require Import ListAux FieldDef M_Mle M_Graph P_Graph P_Graph2 P_Graph4.
Import ListNotations.

Lemma NoDup_app_remove_l {A} (a b : list A) : NoDup (a ++ b) -> NoDup b.
Proof. induction a; cbn; auto. intros H; inversion H; auto. Qed.

Section Bind.
Context {Op : Type}.
(** The model outputs that leave a wire, and a node. *)
Definition wire_outs (w : wire) : list nat := map e_index (filter is_out w).
Definition node_outs (n : node Op) : list nat := concat (map wire_outs (n_outputs n)).
Definition single_out (n : node Op) : Prop := length (filter (fun w => negb (Nat.eqb (length (wire_outs w)) 0)) (n_outputs n)) <= 1.

Definition ins_idx := (fun (acc : option (list nat)) (i : nat) => s <- acc ;; if mem i s then None else Some (i :: s)).
Lemma ins_fold : forall idx seen, NoDup (idx ++ seen) -> fold_left ins_idx idx (Some seen) = Some (rev idx ++ seen).
Proof.
  induction idx as [|i idx IH]; intros seen N; cbn [fold_left]; auto. unfold ins_idx at 2. cbn [obind].
  assert (~ In i seen). { inversion N; subst. intros X. apply H1, in_or_app; auto. }
  rewrite (proj2 (mem_not i seen)) by auto. rewrite IH.
  - cbn [rev]. rewrite <- app_assoc. auto.
  - apply (Permutation_NoDup (Permutation_middle _ _ _)); auto.
Qed.
Lemma ins_none idx : fold_left ins_idx idx None = None.
Proof. induction idx; cbn; auto. Qed.
Lemma ins_fold_inv : forall idx seen s, NoDup seen -> fold_left ins_idx idx (Some seen) = Some s -> s = rev idx ++ seen /\ NoDup s.
Proof.
  induction idx as [|i idx IH]; intros seen s N E; cbn [fold_left] in E.
  - split; [cbn; congruence|]. assert (s = seen) by congruence. subst; auto.
  - unfold ins_idx at 2 in E. cbn [obind] in E. destruct (mem i seen) eqn:M; [rewrite ins_none in E; discriminate|].
    apply mem_not in M. destruct (IH (i :: seen) s) as [A B]; [constructor; auto|auto|]. split; auto. rewrite A. cbn [rev]. rewrite <- app_assoc. auto.
Qed.
Lemma no_outs : forall ws, filter (fun w => negb (Nat.eqb (length (wire_outs w)) 0)) ws = [] -> concat (map wire_outs ws) = [].
Proof.
  induction ws as [|w ws IH]; cbn [filter map concat]; auto. destruct (wire_outs w); cbn [length Nat.eqb negb app]; [auto|discriminate].
Qed.
Lemma bind_wires_ok : forall ws seen cur, NoDup (concat (map wire_outs ws) ++ seen) ->
  length (filter (fun w => negb (Nat.eqb (length (wire_outs w)) 0)) ws) <= 1 ->
  exists s, bind_wires seen cur ws = Some (s, match concat (map wire_outs ws) with [] => cur | l => Some l end) /\ Permutation s (concat (map wire_outs ws) ++ seen).
Proof.
  induction ws as [|w ws IH]; intros seen cur N L; cbn [bind_wires map concat] in *.
  - exists seen. auto.
  - fold (wire_outs w) in *. change (fun acc i => s <- acc;; if mem i s then None else Some (i :: s)) with ins_idx.
    assert (N0 : NoDup (wire_outs w ++ seen)).
    { rewrite <- app_assoc in N. apply (Permutation_NoDup (Permutation_app_comm _ _)) in N. rewrite <- app_assoc in N.
      apply NoDup_app_remove_l in N. apply (Permutation_NoDup (Permutation_app_comm _ _)); auto. }
    rewrite ins_fold by auto. cbn [obind].
    assert (PP : Permutation (concat (map wire_outs ws) ++ rev (wire_outs w) ++ seen) ((wire_outs w ++ concat (map wire_outs ws)) ++ seen)).
    { rewrite <- app_assoc. rewrite !app_assoc. apply Permutation_app_tail.
      eapply Permutation_trans; [apply Permutation_app_comm|]. apply Permutation_app_tail. apply Permutation_sym, Permutation_rev. }
    cbn [filter] in L. destruct (IH (rev (wire_outs w) ++ seen) (match wire_outs w with [] => cur | _ => Some (wire_outs w) end)) as (s & E & P).
    { apply (Permutation_NoDup (Permutation_sym PP)); auto. } { destruct (negb _); cbn [length] in L; lia. }
    exists s. split; [|eapply Permutation_trans; eauto]. rewrite E. f_equal. f_equal.
    destruct (wire_outs w) as [|o os] eqn:Ew; cbn [app]; auto.
    cbn [length Nat.eqb negb] in L. assert (F0 : filter (fun w => negb (Nat.eqb (length (wire_outs w)) 0)) ws = []).
    { cbn [length] in L. destruct (filter _ ws); auto. cbn in L; lia. }
    rewrite (no_outs ws F0). rewrite app_nil_r; auto.
Qed.
Lemma bind_wires_seen : forall ws seen cur s c, NoDup seen -> bind_wires seen cur ws = Some (s, c) -> NoDup s /\ Permutation s (concat (map wire_outs ws) ++ seen).
Proof.
  induction ws as [|w ws IH]; intros seen cur s c N E; cbn [bind_wires map concat] in *.
  - assert (s = seen) by congruence. subst; auto.
  - fold (wire_outs w) in *. change (fun acc i => s <- acc;; if mem i s then None else Some (i :: s)) with ins_idx in E.
    destruct (fold_left ins_idx (wire_outs w) (Some seen)) as [s1|] eqn:F; [|discriminate]. cbn [obind] in E.
    apply ins_fold_inv in F; auto. destruct F as [-> N1]. destruct (IH _ _ _ _ N1 E) as [A B]. split; auto.
    eapply Permutation_trans; [exact B|]. rewrite <- app_assoc, !app_assoc. apply Permutation_app_tail.
    eapply Permutation_trans; [apply Permutation_app_comm|]. apply Permutation_app_tail. apply Permutation_sym, Permutation_rev.
Qed.

Definition entry (n : node Op) : option (list nat) := match node_outs n with [] => None | l => Some l end.
Lemma bind_nodes_ok num : forall (L : list (nat * node Op)) seen acc,
  NoDup (map fst L) -> (forall i, In i (map fst L) -> get acc i = None) -> (forall i n, In (i, n) L -> single_out n) ->
  NoDup (concat (map (fun p => node_outs (snd p)) L) ++ seen) -> length (concat (map (fun p => node_outs (snd p)) L) ++ seen) = num ->
  (L <> [] \/ length seen = num) ->
  exists s acc', bind_nodes num seen acc L = Some (s, acc') /\ length s = num /\
    (forall i n, In (i, n) L -> get acc' i = entry n) /\ (forall i, ~ In i (map fst L) -> get acc' i = get acc i).
Proof.
  induction L as [|[i n] L IH]; intros seen acc ND Ha Hs NO Ln Hne; cbn [bind_nodes map concat snd fst] in *.
  - exists seen, acc. split; [auto|]. split; [auto|]. split; [intros ? ? []|auto].
  - inversion ND as [|? ? N1 N2]; subst.
    assert (NOi : NoDup (node_outs n ++ seen)).
    { rewrite <- app_assoc in NO. apply (Permutation_NoDup (Permutation_app_comm _ _)) in NO. rewrite <- app_assoc in NO.
      apply NoDup_app_remove_l in NO. apply (Permutation_NoDup (Permutation_app_comm _ _)); auto. }
    destruct (bind_wires_ok (n_outputs n) seen None NOi (Hs i n (or_introl eq_refl))) as (s & E & P). fold (node_outs n) in E, P. rewrite E. cbn [obind fst snd].
    fold (entry n). set (acc' := match entry n with None => acc | Some idx => put acc i idx end).
    assert (Ga : forall x, get acc' x = if Nat.eqb x i then match entry n with Some idx => Some idx | None => get acc i end else get acc x).
    { intros x. unfold acc'. destruct (entry n); [rewrite get_put|]; destruct (Nat.eqb_spec x i); subst; auto. }
    assert (Gi : get acc i = None) by (apply Ha; left; auto).
    set (rest_outs := concat (map (fun p : nat * node Op => node_outs (snd p)) L)) in *.
    assert (PP : Permutation (rest_outs ++ s) ((node_outs n ++ rest_outs) ++ seen)).
    { eapply Permutation_trans; [apply Permutation_app_head, P|]. rewrite !app_assoc. apply Permutation_app_tail, Permutation_app_comm. }
    assert (Len : length (rest_outs ++ s) = length ((node_outs n ++ rest_outs) ++ seen)) by (apply Permutation_length; auto).
    destruct (Nat.eqb_spec (length s) (length ((node_outs n ++ rest_outs) ++ seen))) as [Es|Es].
    + exists s, acc'. split; [auto|]. split; [auto|].
      assert (R0 : rest_outs = []). { rewrite app_length in Len. destruct rest_outs; [auto|cbn [length] in Len; lia]. }
      split.
      * intros x m [Q|Q].
        -- assert (x = i) by congruence. assert (m = n) by congruence. subst. rewrite Ga, Nat.eqb_refl. destruct (entry n); auto.
        -- assert (x <> i). { intros ->. apply N1. apply (in_map fst) in Q. auto. }
           rewrite Ga. destruct (Nat.eqb_spec x i); [contradiction|]. rewrite Ha by (right; apply (in_map fst) in Q; auto).
           unfold entry. assert (node_outs m = []) as ->; auto. destruct (node_outs m) eqn:Em; auto. exfalso.
           assert (I : In n1 rest_outs). { unfold rest_outs. apply in_concat. exists (node_outs m). split; [|rewrite Em; left; auto]. apply in_map_iff. exists (x, m); auto. }
           rewrite R0 in I. destruct I.
      * intros x Nx. rewrite Ga. destruct (Nat.eqb_spec x i); auto. subst. exfalso; apply Nx; left; auto.
    + destruct (IH s acc') as (s2 & acc2 & E2 & L2 & A2 & B2); auto.
      { intros x Hx. rewrite Ga. destruct (Nat.eqb_spec x i); [subst; contradiction|]. apply Ha; right; auto. }
      { intros x m Hx. apply (Hs x m); right; auto. } { apply (Permutation_NoDup (Permutation_sym PP)); auto. }
      { left. intros ->. unfold rest_outs in *. cbn in *. lia. }
      exists s2, acc2. split; [auto|]. split; [auto|]. split.
      * intros x m [Q|Q]; [|auto]. assert (x = i) by congruence. assert (m = n) by congruence. subst. rewrite B2 by auto. rewrite Ga, Nat.eqb_refl. destruct (entry n); auto.
      * intros x Nx. rewrite B2 by (intros Q; apply Nx; right; auto). rewrite Ga. destruct (Nat.eqb_spec x i); auto. subst. exfalso; apply Nx; left; auto.
Qed.

Lemma bind_ok (L : list (nat * node Op)) num : L <> [] -> NoDup (map fst L) -> (forall i n, In (i, n) L -> single_out n) ->
  NoDup (concat (map (fun p => node_outs (snd p)) L)) -> length (concat (map (fun p => node_outs (snd p)) L)) = num ->
  exists m, bind_outputs_to_node L num = Some m /\
    (forall i n, In (i, n) L -> get m i = match node_outs n with [] => None | l => Some l end) /\ (forall i, ~ In i (map fst L) -> get m i = None).
Proof.
  intros Hne ND Hs NO Ln. unfold bind_outputs_to_node.
  destruct (bind_nodes_ok num L [] []) as (s & m & E & Ls & A & B); auto; try (rewrite app_nil_r; auto).
  exists m. rewrite E. cbn [obind fst snd]. rewrite Ls, Nat.eqb_refl. split; [auto|]. split; [auto|]. intros i Hi. rewrite B; auto.
Qed.
(** Success means that exactly [num] distinct outputs were seen on a prefix of the nodes. *)
Lemma bind_nodes_prefix num : forall (L : list (nat * node Op)) seen acc s acc', NoDup seen -> bind_nodes num seen acc L = Some (s, acc') ->
  NoDup s /\ exists k, Permutation s (concat (map (fun p => node_outs (snd p)) (firstn k L)) ++ seen).
Proof.
  induction L as [|[i n] L IH]; intros seen acc s acc' N E; cbn [bind_nodes] in E.
  - assert (s = seen) by congruence. subst. split; auto. exists 0. auto.
  - destruct (bind_wires seen None (n_outputs n)) as [[s1 c]|] eqn:W; [|discriminate]. cbn [obind fst snd] in E.
    destruct (bind_wires_seen _ _ _ _ _ N W) as [N1 P1]. fold (node_outs n) in P1.
    destruct (Nat.eqb (length s1) num).
    + assert (s = s1) by congruence. subst. split; auto. exists 1. cbn [firstn map concat snd]. rewrite app_nil_r. auto.
    + destruct (IH _ _ _ _ N1 E) as [N2 [k P2]]. split; auto. exists (S k). cbn [firstn map concat snd]. eapply Permutation_trans; [exact P2|].
      eapply Permutation_trans; [apply Permutation_app_head, P1|]. rewrite !app_assoc. apply Permutation_app_tail, Permutation_app_comm.
Qed.
Lemma bind_count (L : list (nat * node Op)) num m : bind_outputs_to_node L num = Some m ->
  exists k s, NoDup s /\ length s = num /\ Permutation s (concat (map (fun p => node_outs (snd p)) (firstn k L))).
Proof.
  unfold bind_outputs_to_node. destruct (bind_nodes num [] [] L) as [[s acc]|] eqn:E; [|discriminate]. cbn [obind fst snd].
  destruct (Nat.eqb_spec (length s) num); [|discriminate]. intros _.
  destruct (bind_nodes_prefix num L [] [] s acc (NoDup_nil _) E) as [N [k P]]. rewrite app_nil_r in P. eauto.
Qed.
End Bind.
