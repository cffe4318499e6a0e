(** The scaling factors derived from the calibration runs. *)
From Coq Require Import List Arith Lia Bool QArith Qabs ZArith Lqa.
From Verif Require Import ListAux M_Mle M_Graph P_Graph4 M_Tables M_Quant P_Quant M_Metadata.
Import ListNotations.
Local Open Scope Q_scope.

(** The values seen for one tensor of the model in the calibration runs. *)
Definition seen (evs : calibration) (src : option nat) (i : nat) (v : Q) : Prop := exists vs, In (src, i, vs) evs /\ In v vs.

Lemma key_eqb_iff a b : key_eqb a b = true <-> a = b.
Proof.
  destruct a as [a a'], b as [b b']. unfold key_eqb; cbn [fst snd]. rewrite andb_true_iff, !Nat.eqb_eq. split; [intros [-> ->]; auto|intros H; injection H; auto].
Qed.
Lemma tracked_track t k vs k' : tracked (track t k vs) k' =
  if key_eqb k' k then Some (match tracked t k with Some l => l ++ vs | None => vs end) else tracked t k'.
Proof.
  induction t as [|[k0 l] t IH]; cbn [track tracked]; [destruct (key_eqb k' k); auto|].
  destruct (key_eqb k k0) eqn:E; cbn [tracked].
  - apply key_eqb_iff in E. subst k0. destruct (key_eqb k' k); auto.
  - destruct (key_eqb k' k0) eqn:E'; [|apply IH]. destruct (key_eqb k' k) eqn:E2; [|auto].
    apply key_eqb_iff in E', E2. subst. assert (X : key_eqb k0 k0 = true) by (apply key_eqb_iff; auto). congruence.
Qed.

Definition step (t : tracker) (e : option nat * nat * list Q) : tracker := let '(src, i, vs) := e in track t (tracking_id src, i) vs.
Lemma tracked_run_gen evs : forall t k v, (exists l, tracked (fold_left step evs t) k = Some l /\ In v l) <->
  (exists l, tracked t k = Some l /\ In v l) \/ exists src i, (tracking_id src, i) = k /\ seen evs src i v.
Proof.
  induction evs as [|[[src i] vs] evs IH]; intros t k v; cbn [fold_left].
  - split; [auto|]. intros [H|(src & i & _ & vs & [] & _)]; auto.
  - rewrite IH. cbn [step]. rewrite tracked_track. split.
    + intros [(l & E & Hv)|(s' & i' & Ek & vs' & H1 & H2)]; [|right; exists s', i'; split; [auto|exists vs'; split; [right; auto|auto]]].
      destruct (key_eqb k (tracking_id src, i)) eqn:X; [|left; eauto]. apply key_eqb_iff in X. subst k.
      assert (Some l = Some (match tracked t (tracking_id src, i) with Some l0 => l0 ++ vs | None => vs end)) as E' by auto. injection E' as ->. clear E.
      destruct (tracked t (tracking_id src, i)) as [l0|].
      * apply in_app_iff in Hv. destruct Hv as [Hv|Hv]; [left; eauto|]. right. exists src, i. split; [auto|]. exists vs. split; [left; auto|auto].
      * right. exists src, i. split; [auto|]. exists vs. split; [left; auto|auto].
    + intros [(l & E & Hv)|(s' & i' & Ek & vs' & [H1|H1] & H2)].
      * left. destruct (key_eqb k (tracking_id src, i)) eqn:X; [|eauto]. apply key_eqb_iff in X. subst k. rewrite E. eexists. split; [eauto|]. apply in_app_iff; auto.
      * left. injection H1 as -> -> ->. assert (X : key_eqb k (tracking_id s', i') = true) by (apply key_eqb_iff; auto). rewrite X. eexists. split; [eauto|].
        destruct (tracked t (tracking_id s', i')); [apply in_app_iff; auto|auto].
      * right. exists s', i'. split; [auto|]. exists vs'. auto.
Qed.
Lemma tracked_run evs k v : (exists l, tracked (track_run evs) k = Some l /\ In v l) <-> exists src i, (tracking_id src, i) = k /\ seen evs src i v.
Proof.
  unfold track_run. change (fun (t : tracker) '(src, i, vs) => track t (tracking_id src, i) vs) with step. rewrite tracked_run_gen.
  split; [intros [(l & X & _)|H]; [discriminate X|auto]|auto].
Qed.

Lemma q_minimum_spec a b : q_minimum a b <= a /\ q_minimum a b <= b /\ (q_minimum a b = a \/ q_minimum a b = b).
Proof.
  unfold q_minimum. destruct (Qle_bool a b) eqn:E.
  - apply Qle_bool_iff in E. split; [lra|]. split; [auto|auto].
  - assert (b <= a). { destruct (Qlt_le_dec a b) as [H|H]; [|auto]. apply Qlt_le_weak, Qle_bool_iff in H. congruence. } split; [auto|]. split; [lra|auto].
Qed.
Lemma q_maximum_spec a b : a <= q_maximum a b /\ b <= q_maximum a b /\ (q_maximum a b = a \/ q_maximum a b = b).
Proof.
  unfold q_maximum. destruct (Qle_bool a b) eqn:E.
  - apply Qle_bool_iff in E. split; [auto|]. split; [lra|auto].
  - assert (b <= a). { destruct (Qlt_le_dec a b) as [H|H]; [|auto]. apply Qlt_le_weak, Qle_bool_iff in H. congruence. } split; [lra|]. split; [auto|auto].
Qed.
Lemma fold_minimum l : forall x, In (fold_left q_minimum l x) (x :: l) /\ forall v, In v (x :: l) -> fold_left q_minimum l x <= v.
Proof.
  induction l as [|y l IH]; intros x; cbn [fold_left]; [split; [left; auto|intros v [->|[]]; lra]|].
  destruct (q_minimum_spec x y) as (A & B & C). destruct (IH (q_minimum x y)) as [D E]. split.
  - destruct D as [D|D]; [|right; right; auto]. rewrite <- D. destruct C as [C|C]; rewrite C; [left; auto|right; left; auto].
  - pose proof (E _ (or_introl eq_refl)). intros v [->|[->|H']]; [lra|lra|]. apply E. right; auto.
Qed.
Lemma fold_maximum l : forall x, In (fold_left q_maximum l x) (x :: l) /\ forall v, In v (x :: l) -> v <= fold_left q_maximum l x.
Proof.
  induction l as [|y l IH]; intros x; cbn [fold_left]; [split; [left; auto|intros v [->|[]]; lra]|].
  destruct (q_maximum_spec x y) as (A & B & C). destruct (IH (q_maximum x y)) as [D E]. split.
  - destruct D as [D|D]; [|right; right; auto]. rewrite <- D. destruct C as [C|C]; rewrite C; [left; auto|right; left; auto].
  - pose proof (E _ (or_introl eq_refl)). intros v [->|[->|H']]; [lra|lra|]. apply E. right; auto.
Qed.
Lemma Qabs_between a b v : a <= v -> v <= b -> Qabs v <= Qabs a \/ Qabs v <= Qabs b.
Proof.
  intros H1 H2. destruct (Qlt_le_dec v 0) as [H|H].
  - left. rewrite (Qabs_neg v), (Qabs_neg a) by lra. lra.
  - right. rewrite (Qabs_pos v), (Qabs_pos b) by lra. lra.
Qed.

(** The scaling factor of a tensor is that of the largest absolute value seen under its key. *)
Lemma observed_max rnd B evs src i s : observed_scaling rnd B (track_run evs) (tracking_id src) i = Some s ->
  exists a, s = from_absolute_max rnd B a None /\ (forall v, seen evs src i v -> Qabs v <= a) /\ exists src' v, tracking_id src' = tracking_id src /\ seen evs src' i v /\ a = Qabs v.
Proof.
  unfold observed_scaling, distribution_info. destruct (tracked (track_run evs) (tracking_id src, i)) as [[|x l]|] eqn:E; cbn [obind]; try discriminate.
  intros H. injection H as <-. cbn [fst snd]. destruct (fold_minimum l x) as [A1 A2], (fold_maximum l x) as [B1 B2].
  set (mn := fold_left q_minimum l x) in *. set (mx := fold_left q_maximum l x) in *. destruct (q_maximum_spec (Qabs mn) (Qabs mx)) as (C1 & C2 & C3).
  exists (q_maximum (Qabs mn) (Qabs mx)). split; [auto|]. split.
  - intros v Hv. assert (Iv : In v (x :: l)).
    { destruct (proj2 (tracked_run evs (tracking_id src, i) v)) as (l' & E' & H'); [exists src, i; auto|]. congruence. }
    destruct (Qabs_between mn mx v (A2 v Iv) (B2 v Iv)); lra.
  - assert (K : forall v, In v (x :: l) -> exists src', tracking_id src' = tracking_id src /\ seen evs src' i v).
    { intros v Hv. destruct (proj1 (tracked_run evs (tracking_id src, i) v)) as (s' & i' & Ek & Hs); [eauto|]. injection Ek as Ek ->. eauto. }
    destruct C3 as [C3|C3]; rewrite C3; [destruct (K mn A1) as (s' & X & Y)|destruct (K mx B1) as (s' & X & Y)]; eauto.
Qed.
(** It exists exactly if some value was seen (under the same key). *)
Lemma observed_total rnd B evs src i v : seen evs src i v -> exists s, observed_scaling rnd B (track_run evs) (tracking_id src) i = Some s.
Proof.
  intros H. destruct (proj2 (tracked_run evs (tracking_id src, i) v)) as (l & E & Hv); [exists src, i; auto|].
  unfold observed_scaling, distribution_info. rewrite E. cbn [obind]. destruct l as [|x l]; [destruct Hv|]. cbn [obind]. eauto.
Qed.
(** Every value seen in calibration is represented to within half a step. *)
Lemma observed_fits B evs src i : (2 <= B)%nat -> (exists v, seen evs src i v /\ ~ v == 0) ->
  exists s, observed_scaling exact B (track_run evs) (tracking_id src) i = Some s /\
    forall v, seen evs src i v -> exists z, quantize exact s v = Some z /\ (q_min B <= z <= q_max B)%Z /\ Qabs (dequantize exact s z - v) <= sc_scale s / 2.
Proof.
  intros HB (v0 & H0 & N0). destruct (observed_total exact B evs src i v0 H0) as [s Hs]. exists s. split; [auto|].
  destruct (observed_max _ _ _ _ _ _ Hs) as (a & -> & A & _). intros v Hv. apply quantize_error; auto.
  apply Qlt_le_trans with (Qabs v0); [|auto]. destruct (Qlt_le_dec 0 (Qabs v0)) as [X|X]; [auto|]. exfalso. apply N0.
  destruct (Qlt_le_dec v0 0) as [Y|Y]; [rewrite Qabs_neg in X by lra|rewrite Qabs_pos in X by lra]; lra.
Qed.
(** So are the values of every output of a node, each under the factor at its own position. *)
Lemma observer_fits B evs n num_outputs : (2 <= B)%nat -> (forall i, (i < num_outputs)%nat -> exists v, seen evs (Some n) i v /\ ~ v == 0) ->
  exists ss, observer_scalings exact B (track_run evs) n num_outputs = Some ss /\ length ss = num_outputs /\
    forall i s v, nth_error ss i = Some s -> seen evs (Some n) i v ->
      exists z, quantize exact s v = Some z /\ (q_min B <= z <= q_max B)%Z /\ Qabs (dequantize exact s z - v) <= sc_scale s / 2.
Proof.
  intros HB H. unfold observer_scalings. destruct (omapM_some (observed_scaling exact B (track_run evs) n) (seq 0 num_outputs)) as [ss Es].
  { intros i Hi. apply in_seq in Hi. destruct (H i) as (v & Hv & _); [lia|]. apply (observed_total exact B evs (Some n) i v Hv). }
  exists ss. split; [auto|]. apply omapM_nth in Es. rewrite seq_length in Es. destruct Es as [L N]. split; [auto|].
  intros i s v Hs Hv. assert (Li : (i < num_outputs)%nat) by (rewrite <- L; apply nth_error_Some; congruence).
  destruct (N i i) as (s' & Hs' & E). { rewrite (nth_error_nth' _ 0%nat) by (rewrite seq_length; auto). rewrite seq_nth; auto. }
  assert (s' = s) by congruence. subst s'. destruct (observed_fits B evs (Some n) i HB (H i Li)) as (s' & E' & F). cbn [tracking_id] in E'. assert (s' = s) by congruence. subst s'. auto.
Qed.
(** Without a node whose id is the one used for the inputs, the range is that of the tensor's own values. *)
Lemma observed_tight rnd B evs src i s : (forall i vs, ~ In (Some INPUT_TRACKING_ID, i, vs) evs) -> src <> Some INPUT_TRACKING_ID ->
  observed_scaling rnd B (track_run evs) (tracking_id src) i = Some s ->
  exists v, seen evs src i v /\ s = from_absolute_max rnd B (Qabs v) None /\ forall v', seen evs src i v' -> Qabs v' <= Qabs v.
Proof.
  intros NI Ns H. destruct (observed_max _ _ _ _ _ _ H) as (a & E & A & src' & v & T & Sv & ->). exists v.
  assert (src' = src).
  { destruct Sv as (vs & Hv & _). destruct src' as [n'|], src as [n|]; unfold tracking_id in T; [subst; auto| | |auto].
    - subst n'. exfalso. apply (NI i vs Hv). - subst n. exfalso. apply Ns; auto. }
  subst src'. auto.
Qed.
Lemma observed_tight_refuted : ~ forall rnd B evs src i s, observed_scaling rnd B (track_run evs) (tracking_id src) i = Some s ->
  exists v, seen evs src i v /\ s = from_absolute_max rnd B (Qabs v) None.
Proof.
  intros H. set (evs := [(None, 0%nat, [1]); (Some INPUT_TRACKING_ID, 0%nat, [5])] : calibration).
  destruct (H exact 8%nat evs None 0%nat (from_absolute_max exact 8 5 None)) as (v & (vs & Hv & Hi) & E).
  - unfold observed_scaling, distribution_info, track_run, evs. cbn [fold_left]. unfold tracking_id. cbn [track]. rewrite (proj2 (key_eqb_iff _ _) eq_refl). cbn [tracked].
    rewrite (proj2 (key_eqb_iff _ _) eq_refl). reflexivity.
  - destruct Hv as [Hv|[Hv|[]]]; [|discriminate Hv]. injection Hv as <-. destruct Hi as [<-|[]]. apply (f_equal sc_max) in E. discriminate E.
Qed.

(** The strategy [AbsoluteMax] clips every activation to [-1, 1]. *)
Lemma absolute_max_clips B id k n s v : (2 <= B)%nat -> nth_error (absolute_max_scalings exact B id n) k = Some s -> 1 <= v ->
  exists z, quantize exact s v = Some z /\ dequantize exact s z == 1.
Proof.
  intros HB Hk Hv. unfold absolute_max_scalings in Hk. apply nth_error_In, repeat_spec in Hk. subst s.
  assert (Pm : (1 <= q_max B)%Z). { unfold q_max. pose proof (Z.pow_le_mono_r 2 1 (Z.of_nat B - 1)). lia. }
  assert (Eq : (q_max B - q_min B = 2 * q_max B)%Z) by (unfold q_min, q_max; lia).
  assert (Pq : 1 <= inject_Z (q_max B)) by (rewrite Zle_Qle in Pm; exact Pm).
  exists (q_max B). unfold quantize, dequantize, scaling_default, exact. cbn [sc_dom sc_scale fst snd].
  rewrite Eq, inject_Z_mult. change (inject_Z 2) with (2 # 1). set (M := inject_Z (q_max B)) in *. assert (NM : ~ M == 0) by lra. split; [|field; auto].
  destruct (Z.leb_spec (q_min B) (q_max B)); [|unfold q_min, q_max in *; lia]. f_equal.
  assert (R : (q_max B <= q_round (v / (2 / ((2 # 1) * M))))%Z).
  { apply q_round_ge. fold M. assert (X : v / (2 / ((2 # 1) * M)) == v * M) by (field; auto). rewrite X. nra. }
  unfold z_clamp. lia.
Qed.
