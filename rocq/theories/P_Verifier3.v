(** If the verifier accepts, then every output agrees with the true run at the challenge point, or some layer's verifier
    was fooled. *)
From Coq Require Import String.
From Coq Require Import List Arith Lia Bool ZArith Permutation Field.
From Verif Require Import ListAux FieldDef MleMath PolyList M_Mle P_Mle M_Sumcheck M_SamePoly M_LogUp M_Tables M_Graph P_Graph P_Graph2 P_Graph3 P_Graph4 P_Graph5 M_Verifier P_Verifier P_Verifier2.
Import ListNotations.

Lemma nth_dec {A} (P : nat -> A -> Prop) : (forall k x, P k x \/ ~ P k x) -> forall (l : list A) b,
  (forall k x, nth_error l k = Some x -> P (b + k) x) \/ exists k x, nth_error l k = Some x /\ ~ P (b + k) x.
Proof.
  intros D. induction l as [|a l IH]; intros b; [left; intros [|k] x; discriminate|].
  destruct (D b a) as [Pa|Na].
  - destruct (IH (S b)) as [H|(k & x & E & N)].
    + left. intros [|k] x E; cbn in E. * injection E as <-. rewrite Nat.add_0_r. auto. * replace (b + S k) with (S b + k) by lia. auto.
    + right. exists (S k), x. split; auto. replace (b + S k) with (S b + k) by lia. auto.
  - right. exists 0, a. rewrite Nat.add_0_r. auto.
Qed.
Lemma nth_dec0 {A} (P : nat -> A -> Prop) : (forall k x, P k x \/ ~ P k x) -> forall (l : list A),
  (forall k x, nth_error l k = Some x -> P k x) \/ exists k x, nth_error l k = Some x /\ ~ P k x.
Proof. intros D l. apply (nth_dec P D l 0). Qed.

Section Compose.
Context {K : field} {Ctx S : Type}.
Notation claim := (@claim K).
Notation tensor := (@tensor K).
Variable esch : nat -> nat -> list nat.
Hypothesis Hs : forall n, valid_sched n (esch n).
Variable special : Ctx -> option (list tensor -> list claim -> bool).
Variable is_logits : Ctx -> bool.
Variable check : nat -> node Ctx -> list claim -> S -> option (list claim * S).
(** The layers' functions on the (padded, field-embedded) tensors, and the true run on [ins]. *)
Variable eval : Ctx -> list tensor -> option (list tensor).
Variable ins outs : list tensor.
Variable ns : @nodes Ctx.
Variable tr : list (nat * (list tensor * list tensor)).

Definition hold_all (cl : list claim) (vs : list tensor) : Prop := forall k v, nth_error vs k = Some v -> exists c, nth_error cl k = Some c /\ holds c v.
(** What a node must establish about its true outputs: the claims hold; a Logits node states the outputs themselves. *)
Definition out_good (n : node Ctx) (cl : list claim) (vout : list tensor) : Prop :=
  if is_logits (n_op n)
  then forall k w e v, nth_error (n_outputs n) k = Some w -> In e w -> e_node e = None -> nth_error vout k = Some v -> nth_error outs (e_index e) = Some v
  else forall k c v, nth_error cl k = Some c -> nth_error vout k = Some v -> holds c v.
(** A node of this run was accepted although its input claims hold of the true inputs and its output claims do not. *)
Definition layer_fooled (outc : list claim) (s0 : S) (bwd : list nat) : Prop :=
  exists i n cl si r vin vout, checked check ns outc s0 bwd i n cl si r /\ get tr i = Some (vin, vout) /\ hold_all (fst r) vin /\ ~ out_good n cl vout.
(** A layer with its own input check accepted a claim that does not hold of the model input. *)
Definition input_fooled (ic : list (nat * list (nat * claim))) : Prop :=
  exists i n f ics vs v c, get ns i = Some n /\ special (n_op n) = Some f /\ In (i, ics) ic /\ omapM (fun x => nth_error ins (fst x)) ics = Some vs /\
    f vs (map snd ics) = true /\ In (v, c) (combine vs (map snd ics)) /\ ~ holds c v.
Definition logits_last : Prop := forall i n w e, get ns i = Some n -> is_logits (n_op n) = true -> In w (n_outputs n) -> In e w -> e_node e = None.

Lemma tensor_dec (x y : tensor) : x = y \/ x <> y.
Proof.
  destruct x as [a b], y as [c d]. destruct (list_eq_dec Nat.eq_dec a c) as [->|]; [|right; congruence].
  destruct (list_eq_dec feq_dec b d) as [->|]; [auto|right; congruence].
Qed.
Lemma out_good_dec n cl vout : out_good n cl vout \/ ~ out_good n cl vout.
Proof.
  unfold out_good. destruct (is_logits (n_op n)).
  - destruct (nth_dec0 (fun k w => forall e v, In e w -> e_node e = None -> nth_error vout k = Some v -> nth_error outs (e_index e) = Some v)) with (l := n_outputs n) as [H|(k & w & E & N)].
    + intros k w. destruct (nth_error vout k) as [v|] eqn:V; [|left; intros; discriminate].
      induction w as [|e w [H|H]].
      * left. intros e v' [].
      * destruct (e_node e) eqn:En. { left. intros e' v' [<-|I]; [congruence|apply H; auto]. }
        destruct (nth_error outs (e_index e)) as [y|] eqn:Y.
        -- destruct (tensor_dec y v) as [->|Ny]. ++ left. intros e' v' [<-|I]; [congruence|apply H; auto].
           ++ right. intros Q. specialize (Q e v (or_introl eq_refl) En eq_refl). congruence.
        -- right. intros Q. specialize (Q e v (or_introl eq_refl) En eq_refl). congruence.
      * right. intros Q. apply H. intros e' v' I. apply Q. right; auto.
    + left. intros k w e v E I En V. apply (H k w E e v); auto.
    + right. intros Q. apply N. intros e v I En V. apply (Q k w e v); auto.
  - destruct (nth_dec0 (fun k c => forall v, nth_error vout k = Some v -> holds c v)) with (l := cl) as [H|(k & w & E & N)].
    + intros k c. destruct (nth_error vout k) as [v|]; [|left; intros; discriminate]. destruct (holds_dec c v) as [|N]; [left; congruence|]. right. intros Q. apply N. auto.
    + left. intros k c v E V. apply (H k c E v); auto.
    + right. intros Q. apply N. intros v V. apply (Q k w v); auto.
Qed.

Lemma loop_sound outc s0 fwd bwd bn' s' ic : valid ns -> dataflow eval ins ns tr -> logits_last ->
  iter_all true ns = Some fwd -> iter_all false ns = Some bwd ->
  claim_loop check ns outc [] s0 bwd = Some (bn', s') -> input_claims ns bn' fwd = Some ic -> verify_inputs esch special ns ins ic = true ->
  (forall i n cl si r vin vout, checked check ns outc s0 bwd i n cl si r -> get tr i = Some (vin, vout) -> out_good n cl vout) \/
  layer_fooled outc s0 bwd \/ input_fooled ic.
Proof.
  intros Va Df LL Ef Eb Lp Ic Vi. pose proof Va as (ND & Cs & Ac).
  destruct (iter_order _ _ _ Ef) as (NDf & If & Of). destruct (iter_order _ _ _ Eb) as (NDb & Ib & _).
  assert (Pf : Permutation fwd (keys ns)) by (apply (iter_complete true ns fwd ND Ef); auto).
  assert (Pb : Permutation bwd (keys ns)) by (apply (iter_complete false ns bwd ND Eb); apply valid_backward; auto).
  assert (Main : forall l1 l2, fwd = (l1 ++ l2)%list ->
    (forall i n cl si r vin vout, In i l1 -> checked check ns outc s0 bwd i n cl si r -> get tr i = Some (vin, vout) -> out_good n cl vout) \/
    layer_fooled outc s0 bwd \/ input_fooled ic).
  { induction l1 as [|i l1 IH] using rev_ind; intros l2 E; [left; intros ? ? ? ? ? ? ? []|].
    rewrite <- app_assoc in E. cbn [app] in E. destruct (IH _ E) as [G|G]; [|auto].
    assert (Ii : In i fwd) by (rewrite E; apply in_or_app; right; left; auto).
    assert (Ki : In i (keys ns)) by (apply If; auto).
    assert (Ibi : In i bwd) by (apply (Permutation_in _ (Permutation_sym Pb)); auto).
    destruct (loop_checked check ns outc s0 bwd bn' s' i Lp NDb Ibi) as (n & cl & si & r & Ck & Gb).
    assert (Gn : get ns i = Some n) by (destruct Ck as (? & ? & ? & ? & ? & ? & _); auto).
    destruct (Df i n Gn) as (vin & vout & Gt & F2 & Ev).
    assert (F2n : forall k v, nth_error vin k = Some v -> exists e, nth_error (n_inputs n) k = Some e /\
              match e_node e with None => nth_error ins (e_index e) = Some v | Some j => exists ins' outs', get tr j = Some (ins', outs') /\ nth_error outs' (e_index e) = Some v end).
    { clear -F2. induction F2 as [|e v es vs H F IHF]; intros [|k] v' E; cbn in E; try discriminate; [injection E as <-; exists e; auto|apply IHF; auto]. }
    destruct (nth_dec0 (fun k v => exists c, nth_error (fst r) k = Some c /\ holds c v)) with (l := vin) as [H|(k & v & Ek & N)].
    { intros k v. destruct (nth_error (fst r) k) as [c|]; [|right; intros (c & X & _); discriminate].
      destruct (holds_dec c v); [left; eauto|right]. intros (c' & X & Y). congruence. }
    - destruct (out_good_dec n cl vout) as [Og|Nog].
      + left. intros i' n' cl' si' r' vin' vout' I' Ck' Gt'. apply in_app_or in I'. destruct I' as [I'|[<-|[]]]; [apply (G i' n' cl' si' r' vin' vout'); auto|].
        destruct (checked_fun _ _ _ _ _ _ _ _ _ _ _ _ _ _ NDb Ck Ck') as (<- & <- & <- & <-). assert (vout' = vout) by congruence. subst. auto.
      + right. left. exists i, n, cl, si, r, vin, vout. auto.
    - destruct (F2n _ _ Ek) as (e & Ee & Hv). destruct (e_node e) as [j|] eqn:Ej.
      + destruct Hv as (vi & vo & Gj & Ej2). assert (Ein : inp ns i k = Some (mkEdge (Some j) (e_index e))).
        { unfold inp. rewrite Gn, Ee. destruct e; cbn in *; congruence. }
        assert (Kj : exists m w, get ns j = Some m /\ nth_error (n_outputs m) (e_index e) = Some w /\ In (mkEdge (Some i) k) w).
        { pose proof (cons_inp ns i k j _ Cs Ein) as O. unfold occ in O. destruct (get ns j) as [m|]; [|discriminate]. exists m.
          destruct (nth_error (n_outputs m) (e_index e)) as [w|] eqn:W.
          - exists w. rewrite (nth_error_nth _ _ _ W) in O. repeat split; auto. apply (count_occ_In edge_dec). lia.
          - apply nth_error_None in W. rewrite nth_overflow in O by auto. discriminate. }
        destruct Kj as (m & w & Gm & Ew & Iw).
        assert (Ij : In j l1). { apply (Of l1 i l2 E n j Gn). - exists e. split; [apply nth_error_In with (1 := Ee)|auto]. - apply get_keys with (1 := Gm). }
        assert (Ibj : In j bwd) by (apply (Permutation_in _ (Permutation_sym Pb)); apply get_keys with (1 := Gm)).
        destruct (loop_checked check ns outc s0 bwd bn' s' j Lp NDb Ibj) as (nj & clj & sj & rj & Ckj & Gbj).
        assert (nj = m) by (destruct Ckj as (? & ? & ? & ? & ? & ? & _); congruence). subst nj.
        destruct (checked_claims check ns outc s0 bwd bn' s' j m clj sj rj i k _ Cs Lp NDb Ckj Ein) as (c & lj & C1 & C2 & C3).
        assert (lj = fst r) by congruence. subst lj.
        pose proof (G j m clj sj rj vi vo Ij Ckj Gj) as Og. unfold out_good in Og.
        destruct (is_logits (n_op m)) eqn:Lg.
        * exfalso. pose proof (LL j m w _ Gm Lg (nth_error_In _ _ Ew) Iw) as X. discriminate.
        * exfalso. apply N. exists c. split; auto. apply (Og (e_index e) c v); auto.
      + destruct (inputs_hold esch Hs special ns ins bn' fwd ic Ic Vi i n k e Ii Gn Ee Ej) as (cl' & c & v' & A & B & C & D).
        assert (cl' = fst r) by congruence. assert (v' = v) by congruence. subst.
        destruct D as [D|(f & ics & vs & D1 & D2 & D3 & D4 & D5)]; [exfalso; apply N; eauto|].
        right. right. exists i, n, f, ics, vs, v, c. do 6 (split; [solve [auto]|]). intros Q. apply N. eauto. }
  destruct (Main fwd [] ltac:(rewrite app_nil_r; auto)) as [G|G]; [|auto]. left.
  intros i n cl si r vin vout Ck Gt. apply (G i n cl si r vin vout); auto. apply (Permutation_in _ (Permutation_sym Pf)).
  destruct Ck as (? & ? & ? & ? & ? & X & _). apply get_keys with (1 := X).
Qed.
End Compose.

(** * The map of output nodes *)
Section Bound.
Context {Ctx : Type}.
Lemma bw_spec (ns : @nodes Ctx) bwd bw : NoDup (keys ns) -> Permutation bwd (keys ns) -> omapM (fun i => n <- get ns i ;; Some (i, n)) bwd = Some bw ->
  map fst bw = bwd /\ Permutation bw ns.
Proof.
  intros ND P E. assert (M : map fst bw = bwd /\ forall i n, In (i, n) bw -> get ns i = Some n).
  { clear P. revert bw E. induction bwd as [|i bwd IH]; intros bw E; cbn [omapM] in E; [injection E as <-; split; [auto|intros ? ? []]|].
    destruct (get ns i) as [n|] eqn:G; [|discriminate]. cbn [obind] in E. destruct (omapM _ bwd) as [r|]; [|discriminate]. cbn [obind] in E. injection E as <-.
    destruct (IH _ eq_refl) as [A C]. split; [cbn; congruence|]. intros j m [Q|Q]; [congruence|auto]. }
  destruct M as [M1 M2]. split; auto.
  apply NoDup_Permutation.
  - apply (NoDup_map_inv fst). rewrite M1. apply (Permutation_NoDup (Permutation_sym P)); auto.
  - apply (NoDup_map_inv fst). exact ND.
  - intros [i n]. split; intros I.
    + apply get_In. apply M2; auto.
    + assert (Ii : In i (map fst bw)). { rewrite M1. apply (Permutation_in _ (Permutation_sym P)). apply in_map_iff. exists (i, n). auto. }
      apply in_map_iff in Ii. destruct Ii as ([j m] & Ej & Ij). cbn in Ej. subst j. pose proof (M2 _ _ Ij) as G. apply (In_get ns i n ND) in I. congruence.
Qed.
Lemma bind_nodes_keys num : forall (L : list (nat * node Ctx)) seen acc s m, bind_nodes num seen acc L = Some (s, m) -> NoDup (keys acc) -> NoDup (@keys (list nat) m).
Proof.
  induction L as [|[i n] L IH]; intros seen acc s m H ND; cbn [bind_nodes] in H; [injection H as <- <-; auto|].
  destruct (@bind_wires seen None (n_outputs n)) as [r|]; [|discriminate]. cbn [obind] in H. cbv zeta in H.
  set (acc' := match snd r with None => acc | Some idx => put acc i idx end) in *.
  assert (ND' : NoDup (keys acc')) by (unfold acc'; destruct (snd r); auto; apply put_NoDup; auto).
  destruct (Nat.eqb (length (fst r)) num); [injection H as <- <-; auto|]. apply (IH _ _ _ _ H ND').
Qed.
Lemma NoDup_app' {A} (a b : list A) : NoDup a -> NoDup b -> (forall x, In x a -> ~ In x b) -> NoDup (a ++ b).
Proof.
  induction a as [|x a IH]; intros Na Nb D; cbn; auto. inversion Na; subst. constructor.
  - rewrite in_app_iff. intros [|Q]; [auto|]. apply (D x); [left; auto|auto].
  - apply IH; auto. intros y Hy. apply D. right; auto.
Qed.
Lemma NoDup_app_parts {A} (a b : list A) : NoDup (a ++ b) -> NoDup a /\ NoDup b /\ forall x, In x a -> ~ In x b.
Proof.
  induction a as [|x a IH]; cbn; intros H; [repeat split; [constructor|auto|intros ? []]|].
  inversion H as [|? ? X Y]; subst. destruct (IH Y) as (A1 & A2 & A3). rewrite in_app_iff in X. split; [constructor; tauto|]. split; auto.
  intros y [<-|I]; [tauto|auto].
Qed.
Lemma concat_sub (L : list (nat * node Ctx)) : NoDup (map fst L) -> NoDup (concat (map (fun p => node_outs (snd p)) L)) ->
  forall m : list (nat * list nat), NoDup (keys m) -> (forall i l, In (i, l) m -> exists n, In (i, n) L /\ l = node_outs n) -> NoDup (concat (map snd m)).
Proof.
  intros NL NC. assert (One : forall i n, In (i, n) L -> NoDup (node_outs n)).
  { intros i n I. apply in_split in I. destruct I as (a & b & ->). rewrite map_app, concat_app in NC. apply NoDup_app_parts in NC. destruct NC as (_ & NC & _).
    cbn in NC. apply NoDup_app_parts in NC. tauto. }
  assert (Two : forall i n j n' x, In (i, n) L -> In (j, n') L -> i <> j -> In x (node_outs n) -> ~ In x (node_outs n')).
  { intros i n j n' x I J N X. apply in_split in I. destruct I as (a & b & ->). rewrite map_app, concat_app in NC.
    apply NoDup_app_parts in NC. destruct NC as (_ & N2 & N3). cbn [map concat snd] in N2, N3. apply NoDup_app_parts in N2. destruct N2 as (_ & _ & N2).
    apply in_app_or in J. destruct J as [J|[J|J]].
    - intros Y. apply (N3 x); [apply in_concat; exists (node_outs n'); split; auto; apply in_map_iff; exists (j, n'); auto|]. apply in_or_app. auto.
    - congruence.
    - intros Y. apply (N2 x X). apply in_concat. exists (node_outs n'). split; auto. apply in_map_iff. exists (j, n'); auto. }
  induction m as [|[i l] m IH]; intros NK H; cbn [map concat snd]; [constructor|].
  inversion NK as [|? ? K1 K2]; subst. destruct (H i l (or_introl eq_refl)) as (n & I & ->).
  apply NoDup_app'; [apply (One i n I)|apply IH; auto; intros j l' I'; apply H; right; auto|].
  intros x X Y. apply in_concat in Y. destruct Y as (l' & Y1 & Y2). apply in_map_iff in Y1. destruct Y1 as ([j l''] & Y3 & Y4). cbn in Y3. subst l''.
  destruct (H j l' (or_intror Y4)) as (n' & I' & ->). apply (Two i n j n' x); auto. intros ->. apply K1. apply in_map_iff. exists (j, node_outs n'); auto.
Qed.

(** Under the guards on the output wires the map of output nodes lists every output once. *)
Lemma bound_spec (order : list (nat * list nat) -> list (nat * list nat)) (ns : @nodes Ctx) bwd bw on num : (forall m, Permutation (order m) m) -> valid ns -> ns <> [] ->
  (forall i n, In (i, n) ns -> single_out n) -> NoDup (concat (map (fun p => node_outs (snd p)) ns)) -> length (concat (map (fun p => node_outs (snd p)) ns)) = num ->
  iter_all false ns = Some bwd -> omapM (fun i => n <- get ns i ;; Some (i, n)) bwd = Some bw -> bind_outputs_to_node bw num = Some on ->
  NoDup (concat (map snd (order on))) /\ (forall i l, In (i, l) (order on) -> exists n, get ns i = Some n /\ l = node_outs n) /\
  (forall i n, get ns i = Some n -> node_outs n <> [] -> In (i, node_outs n) (order on)).
Proof.
  intros Po Va Ne So No Lo E3 E6 E7. pose proof Va as (ND & Cs & Ac).
  assert (Pb : Permutation bwd (keys ns)) by (apply (iter_complete false ns bwd ND E3); apply valid_backward; auto).
  destruct (bw_spec ns bwd bw ND Pb E6) as [Mb Pbw].
  assert (NDb : NoDup (map fst bw)) by (rewrite Mb; apply (Permutation_NoDup (Permutation_sym Pb)); auto).
  assert (Pc : Permutation (concat (map (fun p => node_outs (snd p)) bw)) (concat (map (fun p => node_outs (snd p)) ns))).
  { rewrite <- !flat_map_concat_map. apply Permutation_flat_map. auto. }
  assert (Nc : NoDup (concat (map (fun p => node_outs (snd p)) bw))) by (apply (Permutation_NoDup (Permutation_sym Pc)); auto).
  destruct (bind_ok bw num) as (m & Em & M1 & M2); auto.
  { intros ->. apply Ne. apply Permutation_nil. auto. } { intros i n I. apply (So i n). apply (Permutation_in _ Pbw); auto. } { rewrite <- Lo. apply Permutation_length; auto. }
  assert (m = on) by congruence. subst m.
  assert (Kon : NoDup (keys on)).
  { clear -E7. unfold bind_outputs_to_node in E7. destruct (bind_nodes num [] [] bw) as [[s m]|] eqn:Eb; [|discriminate]. cbn [obind fst snd] in E7.
    destruct (Nat.eqb (length s) num); [|discriminate]. injection E7 as <-. apply (bind_nodes_keys _ _ _ _ _ _ Eb). constructor. }
  assert (Sub : forall i l, In (i, l) on -> exists n, In (i, n) bw /\ l = node_outs n).
  { intros i l I. apply (In_get on i l Kon) in I. destruct (in_dec Nat.eq_dec i (map fst bw)) as [J|J]; [|rewrite M2 in I by auto; discriminate].
    apply in_map_iff in J. destruct J as ([j n] & Ej & J). cbn in Ej. subst j. exists n. split; auto. rewrite (M1 i n J) in I. destruct (node_outs n); congruence. }
  split; [|split].
  - apply (concat_sub bw NDb Nc). + apply (Permutation_NoDup (Permutation_map fst (Permutation_sym (Po on)))). exact Kon.
    + intros i l I. apply Sub. apply (Permutation_in _ (Po on)); auto.
  - intros i l I. destruct (Sub i l) as (n & I1 & ->); [apply (Permutation_in _ (Po on)); auto|]. exists n. split; auto. apply In_get; auto. apply (Permutation_in _ Pbw); auto.
  - intros i n G Nn. apply (Permutation_in _ (Permutation_sym (Po on))). apply get_In. rewrite (M1 i n).
    + destruct (node_outs n); [congruence|auto].
    + apply (Permutation_in _ (Permutation_sym Pbw)). apply get_In; auto.
Qed.

End Bound.

(** * The whole verifier *)
Section Whole.
Context {K : field}.
Notation claim := (@claim K).
Notation tensor := (@tensor K).
Notation hist := (@M_Sumcheck.hist K).
Variable T : hist -> K.
Variable esch : nat -> nat -> list nat.
Variable FL : floats.
Context {Ctx LP St Sh Cm CP : Type}.
Variable is_logits has_proof provable : Ctx -> bool.
Variable lookup_data : LP -> option (list K * list K).
Variable shape_steps : @nodes Ctx -> list (list nat) -> option Sh.
Variable layer_verify : nat -> Ctx -> option LP -> list claim -> list tensor -> Sh -> @storage K -> St -> hist -> option (list claim * (St * hist)).
Variable B : nat.
Variable add_witness : St -> Cm -> claim -> option St.
Variable add_table : St -> table_type -> claim -> option St.
Variable special : Ctx -> option (list tensor -> list claim -> bool).
Variable st0 : St.
Variable open_ok : St -> CP -> hist -> bool.
Notation checks := (verify_checks T esch FL is_logits has_proof provable lookup_data shape_steps layer_verify B add_witness add_table special st0 open_ok).
Notation verify := (verify_model T esch FL is_logits has_proof provable lookup_data shape_steps layer_verify B add_witness add_table special st0 open_ok).
Notation nverify := (node_verify is_logits has_proof provable layer_verify).

(** The steps of an accepting run. *)
Lemma checks_inv order c pf ins outs h q : checks order c pf ins outs h = Some q ->
  exists stg h1 fwd bwd nf tf bw on oc h2 sh bn sn s ic,
    setup T FL c h = (stg, h1) /\ iter_all true (vc_nodes c) = Some fwd /\ iter_all false (vc_nodes c) = Some bwd /\
    node_fractions has_proof lookup_data (vc_nodes c) (vp_steps pf) fwd = Some nf /\ proof_fractions (vp_tables pf) = Some tf /\
    omapM (fun i => n <- get (vc_nodes c) i ;; Some (i, n)) bwd = Some bw /\ bind_outputs_to_node bw (length outs) = Some on /\
    verifier_out_claims T esch is_logits (vc_nodes c) outs (order on) (repeat default_claim (length outs)) h1 = Some (oc, h2) /\
    shape_steps (vc_nodes c) (map t_shape ins) = Some sh /\
    claim_loop (nverify (vp_steps pf) outs sh stg) (vc_nodes c) oc [] (st0, h2) bwd = Some (bn, sn) /\
    verify_tables T esch FL B add_witness add_table stg (combine (vp_tables pf) (vc_tables c)) sn = Some s /\
    input_claims (vc_nodes c) bn fwd = Some ic /\ verify_inputs esch special (vc_nodes c) ins ic = true /\ open_ok (fst s) (vp_open pf) (snd s) = true /\
    q = M_Lookup.final_sum (combine (fst nf ++ fst tf) (snd nf ++ snd tf)).
Proof.
  unfold verify_checks. destruct (setup T FL c h) as [stg h1]. intros H.
  destruct (iter_all true (vc_nodes c)) as [fwd|]; [|discriminate]. cbn [obind] in H.
  destruct (iter_all false (vc_nodes c)) as [bwd|]; [|discriminate]. cbn [obind] in H.
  destruct (node_fractions has_proof lookup_data (vc_nodes c) (vp_steps pf) fwd) as [nf|] eqn:E4; [|discriminate]. cbn [obind] in H.
  destruct (proof_fractions (vp_tables pf)) as [tf|]; [|discriminate]. cbn [obind] in H.
  destruct (omapM (fun i => n <- get (vc_nodes c) i ;; Some (i, n)) bwd) as [bw|] eqn:E6; [|discriminate]. cbn [obind] in H.
  destruct (bind_outputs_to_node bw (length outs)) as [on|] eqn:E7; [|discriminate]. cbn [obind] in H.
  destruct (verifier_out_claims T esch is_logits (vc_nodes c) outs (order on) (repeat default_claim (length outs)) h1) as [[oc h2]|] eqn:E8; [|discriminate]. cbn [obind fst snd] in H.
  destruct (shape_steps (vc_nodes c) (map t_shape ins)) as [sh|]; [|discriminate]. cbn [obind] in H.
  destruct (claim_loop (nverify (vp_steps pf) outs sh stg) (vc_nodes c) oc [] (st0, h2) bwd) as [[bn sn]|] eqn:E10; [|discriminate]. cbn [obind fst snd] in H.
  destruct (verify_tables T esch FL B add_witness add_table stg (combine (vp_tables pf) (vc_tables c)) sn) as [s|] eqn:E11; [|discriminate]. cbn [obind] in H.
  destruct (input_claims (vc_nodes c) bn fwd) as [ic|] eqn:E12; [|discriminate]. cbn [obind] in H.
  destruct (verify_inputs esch special (vc_nodes c) ins ic) eqn:E13; [|discriminate]. cbn [andb] in H.
  destruct (open_ok (fst s) (vp_open pf) (snd s)) eqn:E14; [|discriminate].
  exists stg, h1, fwd, bwd, nf, tf, bw, on, oc, h2, sh, bn, sn, s, ic.
  repeat (split; [solve [auto]|]). congruence.
Qed.
Lemma verify_inv order c pf ins outs h : verify order c pf ins outs h = true -> exists d, checks order c pf ins outs h = Some (f0, d) /\ d <> f0.
Proof.
  unfold verify_model. destruct (checks order c pf ins outs h) as [[n d]|]; [|discriminate]. intros H. apply andb_true_iff in H. destruct H as [H1 H2].
  apply feqb_true in H1. subst n. apply negb_true_iff in H2. apply feqb_false in H2. eauto.
Qed.

(** The states of the accepting run: challenges, output claims, transcript after them, shapes, backward order and input claims. *)
Definition run_of (order : list (nat * list nat) -> list (nat * list nat)) (c : @vctx K Ctx) (pf : @vproof K LP Cm CP) (ins outs : list tensor) h stg oc h2 sh bwd ic : Prop :=
  exists h1 fwd bw on bn sn,
    setup T FL c h = (stg, h1) /\ iter_all true (vc_nodes c) = Some fwd /\ iter_all false (vc_nodes c) = Some bwd /\
    omapM (fun i => n <- get (vc_nodes c) i ;; Some (i, n)) bwd = Some bw /\ bind_outputs_to_node bw (length outs) = Some on /\
    verifier_out_claims T esch is_logits (vc_nodes c) outs (order on) (repeat default_claim (length outs)) h1 = Some (oc, h2) /\
    shape_steps (vc_nodes c) (map t_shape ins) = Some sh /\
    claim_loop (nverify (vp_steps pf) outs sh stg) (vc_nodes c) oc [] (st0, h2) bwd = Some (bn, sn) /\
    input_claims (vc_nodes c) bn fwd = Some ic.
(** ** Soundness of the composition *)
Lemma verify_sound (Hs : forall n, valid_sched n (esch n)) (eval : Ctx -> list tensor -> option (list tensor)) order c pf ins outs h tr :
  let ns := vc_nodes c in
  (forall m, Permutation (order m) m) -> valid ns -> ns <> [] -> dataflow eval ins ns tr -> logits_last is_logits ns ->
  (forall i n, In (i, n) ns -> single_out n) -> NoDup (concat (map (fun p => node_outs (snd p)) ns)) -> length (concat (map (fun p => node_outs (snd p)) ns)) = length outs ->
  verify order c pf ins outs h = true ->
  (forall i n k w o ins_i outs_i v, get ns i = Some n -> nth_error (n_outputs n) k = Some w -> In (mkEdge None o) w -> get tr i = Some (ins_i, outs_i) -> nth_error outs_i k = Some v ->
     exists y, nth_error outs o = Some y /\
       if is_logits (n_op n) then y = v
       else exists r h1 h2, read_challenges T (length r) h1 = (r, h2) /\ length (t_data y) = 2 ^ length r /\ length (t_data v) = 2 ^ length r /\ mle (t_data y) r = mle (t_data v) r) \/
  (exists stg oc h2 sh bwd ic, run_of order c pf ins outs h stg oc h2 sh bwd ic /\
     (layer_fooled is_logits (nverify (vp_steps pf) outs sh stg) outs ns tr oc (st0, h2) bwd \/ input_fooled special ins ns ic)).
Proof.
  intros ns Po Va Ne Df LL So No Lo V. apply verify_inv in V. destruct V as (d & V & _).
  destruct (checks_inv _ _ _ _ _ _ _ V) as (stg & h1 & fwd & bwd & nf & tf & bw & on & oc & h2 & sh & bn & sn & s & ic & E1 & E2 & E3 & E4 & E5 & E6 & E7 & E8 & E9 & E10 & E11 & E12 & E13 & E14 & _).
  fold ns in E2, E3, E4, E6, E8, E9, E10, E12, E13. pose proof Va as (ND & Cs & Ac).
  assert (Pb : Permutation bwd (keys ns)) by (apply (iter_complete false ns bwd ND E3); apply valid_backward; auto).
  destruct (bound_spec order ns bwd bw on _ Po Va Ne So No Lo E3 E6 E7) as (Ncon & _ & Bd).
  destruct (out_claims_inv T esch is_logits ns outs _ _ _ _ _ E8 Ncon (repeat_length _ _)) as (Loc & _ & Bound).
  destruct (loop_sound esch Hs special is_logits (nverify (vp_steps pf) outs sh stg) eval ins outs ns tr oc (st0, h2) fwd bwd bn sn ic Va Df LL E2 E3 E10 E12 E13) as [G|G].
  - left. intros i n k w o ins_i outs_i v Gn Ew Iw Gt Ev.
    assert (Ib : In i bwd) by (apply (Permutation_in _ (Permutation_sym Pb)); apply get_keys with (1 := Gn)).
    assert (NDbw : NoDup bwd) by (apply (Permutation_NoDup (Permutation_sym Pb)); auto).
    destruct (loop_checked _ ns oc (st0, h2) bwd bn sn i E10 NDbw Ib) as (n' & cl & si & r & Ck & _).
    pose proof Ck as (l1 & l2 & bn1 & _ & _ & Gn' & Cf & _). assert (n' = n) by congruence. subst n'.
    destruct (claims_routed ns i n bn1 oc cl Cs Gn Cf) as (_ & _ & _ & Rt). destruct (Rt k w _ Ew Iw eq_refl) as (cc & C1 & C2). cbn [e_index] in C2.
    assert (Lt : o < length outs) by (rewrite <- Loc; apply nth_error_Some; congruence).
    destruct (nth_error outs o) as [y|] eqn:Ey; [|apply nth_error_None in Ey; lia].
    exists y. split; [auto|]. pose proof (G i n cl si r ins_i outs_i Ck Gt) as Og. unfold out_good in Og.
    destruct (is_logits (n_op n)) eqn:Lg.
    + specialize (Og k w _ v Ew Iw eq_refl Ev). cbn [e_index] in Og. congruence.
    + specialize (Og k cc v C1 Ev).
      assert (Io : In o (node_outs n)). { unfold node_outs. apply in_concat. exists (wire_outs w). split; [apply in_map; apply nth_error_In with (1 := Ew)|].
        unfold wire_outs. apply in_map_iff. exists (mkEdge None o). split; auto. apply filter_In. auto. }
      assert (Ion : In (i, node_outs n) (order on)) by (apply Bd; auto; intros X; rewrite X in Io; destruct Io).
      destruct (Bound i (node_outs n) n o y Ion Gn Lg Io Ey) as (c' & ha & hb & X1 & X2). assert (c' = cc) by congruence. subst c'.
      destruct (out_claim_inv T esch Hs _ _ _ _ X2) as (nv & Y1 & Y2 & Y3 & Y4). destruct Og as [O1 O2].
      exists (cl_point cc), ha, hb. rewrite Y3 in *. repeat split; auto. congruence.
  - right. exists stg, oc, h2, sh, bwd, ic. split; [|exact G]. exists h1, fwd, bw, on, bn, sn. do 8 (split; [assumption|]). assumption.
Qed.
End Whole.
