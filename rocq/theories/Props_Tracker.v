(** Property C75: the scaling factors taken from the calibration runs. *)
From Coq Require Import List Arith Lia Bool QArith Qabs ZArith.
From Verif Require Import ListAux M_Mle M_Graph M_Tables M_Quant P_Quant M_Metadata P_Tracker.
Import ListNotations.
Local Open Scope Q_scope.

(** Under InferenceObserver every value a tensor took in any calibration run is quantised into [MIN, MAX] and dequantised to within half a step, provided it was not zero throughout. *)
Theorem C75_observed :
  forall (B : nat) (evs : calibration) (src : option nat) (i : nat),
  (2 <= B)%nat ->
  (exists v : Q, seen evs src i v /\ ~ v == 0) ->
  exists s : scaling,
    observed_scaling exact B (track_run evs) (tracking_id src) i = Some s /\
    (forall v : Q,
     seen evs src i v ->
     exists z : Z,
       quantize exact s v = Some z /\
       (q_min B <= z <= q_max B)%Z /\ Qabs (dequantize exact s z - v) <= sc_scale s / 2).
Proof. exact @observed_fits. Qed.
Print Assumptions C75_observed.
Example C75_observed_ex : let evs := [(None, 0%nat, [1]); (Some 3%nat, 0%nat, [2; - (5)]); (None, 0%nat, [0]); (Some 3%nat, 0%nat, [4])] : calibration in
  (exists v, seen evs (Some 3%nat) 0 v /\ ~ v == 0) /\ exists s, observed_scaling exact 8 (track_run evs) 3 0 = Some s /\ sc_max s == 5 /\ quantize exact s (- (5)) = Some (-127)%Z.
Proof.
  intros evs. split.
  - exists 4. split; [exists [4]; split; [right; right; right; left; reflexivity|left; reflexivity]|discriminate].
  - eexists. split; [reflexivity|]. split; [reflexivity|vm_compute; reflexivity].
Qed.

(** The factors given to a layer are one per output, in order, and each covers all values of that output. *)
Theorem C75_observer :
  forall (B : nat) (evs : calibration) (n num_outputs : nat),
  (2 <= B)%nat ->
  (forall i : nat, (i < num_outputs)%nat -> exists v : Q, seen evs (Some n) i v /\ ~ v == 0) ->
  exists ss : list scaling,
    observer_scalings exact B (track_run evs) n num_outputs = Some ss /\
    length ss = num_outputs /\
    (forall (i : nat) (s : scaling) (v : Q),
     nth_error ss i = Some s ->
     seen evs (Some n) i v ->
     exists z : Z,
       quantize exact s v = Some z /\
       (q_min B <= z <= q_max B)%Z /\ Qabs (dequantize exact s z - v) <= sc_scale s / 2).
Proof. exact @observer_fits. Qed.
Print Assumptions C75_observer.
Example C75_observer_ex : let evs := [(Some 3%nat, 0%nat, [2; - (5)]); (Some 3%nat, 1%nat, [9])] : calibration in
  (forall i, (i < 2)%nat -> exists v, seen evs (Some 3%nat) i v /\ ~ v == 0) /\ option_map (map sc_max) (observer_scalings exact 8 (track_run evs) 3 2) = Some [5; 9].
Proof.
  intros evs. split; [|reflexivity]. intros [|[|i]] Hi; [| |lia].
  - exists 2. split; [exists [2; - (5)]; split; left; reflexivity|discriminate].
  - exists 9. split; [exists [9]; split; [right; left; reflexivity|left; reflexivity]|discriminate].
Qed.

(** If no node has the id 10000, under which the inputs are tracked, the range is exactly that of the largest absolute value this tensor took. *)
Theorem C75_observed_tight :
  forall (rnd : Q -> Q) (B : nat) (evs : list (option nat * nat * list Q)) (src : option nat) 
    (i : nat) (s : scaling),
  (forall (i0 : nat) (vs : list Q), ~ In (Some INPUT_TRACKING_ID, i0, vs) evs) ->
  src <> Some INPUT_TRACKING_ID ->
  observed_scaling rnd B (track_run evs) (tracking_id src) i = Some s ->
  exists v : Q,
    seen evs src i v /\
    s = from_absolute_max rnd B (Qabs v) None /\ (forall v' : Q, seen evs src i v' -> Qabs v' <= Qabs v).
Proof. exact @observed_tight. Qed.
Print Assumptions C75_observed_tight.
Example C75_observed_tight_ex : let evs := [(None, 0%nat, [1]); (Some 3%nat, 0%nat, [2; - (5)])] : calibration in
  (forall i vs, ~ In (Some INPUT_TRACKING_ID, i, vs) evs) /\ (None : option nat) <> Some INPUT_TRACKING_ID /\ seen evs None 0 1.
Proof.
  intros evs. split; [|split; [discriminate|exists [1]; split; left; reflexivity]]. intros i vs [H|[H|[]]]; [discriminate H|].
  assert (X : 3%nat = INPUT_TRACKING_ID) by congruence. apply (f_equal (Nat.leb 4)) in X. discriminate X.
Qed.

(** With a node 10000 the input of the model is quantised under the range of that node. *)
Theorem C75_observed_tight_refuted :
  ~
  (forall (rnd : Q -> Q) (B : nat) (evs : calibration) (src : option nat) (i : nat) (s : scaling),
   observed_scaling rnd B (track_run evs) (tracking_id src) i = Some s ->
   exists v : Q, seen evs src i v /\ s = from_absolute_max rnd B (Qabs v) None).
Proof. exact @observed_tight_refuted. Qed.
Print Assumptions C75_observed_tight_refuted.

(** Under AbsoluteMax every activation of 1 or more is quantised as 1, whatever the model computes. *)
Theorem C75_absolute_max_refuted :
  forall (B id k n : nat) (s : scaling) (v : Q),
  (2 <= B)%nat ->
  nth_error (absolute_max_scalings exact B id n) k = Some s ->
  1 <= v -> exists z : Z, quantize exact s v = Some z /\ dequantize exact s z == 1.
Proof. exact @absolute_max_clips. Qed.
Print Assumptions C75_absolute_max_refuted.
Example C75_absolute_max_refuted_ex : exists s, nth_error (absolute_max_scalings exact 8 4 2) 1 = Some s /\ quantize exact s 30 = Some 127%Z.
Proof. eexists. split; [reflexivity|vm_compute; reflexivity]. Qed.

