(** Property C53: the threads of the parallel sumcheck prover that share a synchronised transcript. *)
From Coq Require Import List Arith Lia Bool Permutation.
From Verif Require Import M_Sync P_Sync.
Import ListNotations.

(** Two workers, two rounds, messages and challenges are numbers. *)
Definition xmsg (i : nat) (chs : list nat) : nat := i + 1 + 10 * list_sum chs.
Definition xdraw (log : list (list nat)) : nat := list_sum (map list_sum log).
Notation xsteps := (steps 2 2 xmsg xdraw).
Ltac one n := eapply steps_cons; [n|].
(** Worker 1 receives its challenge, enters the second round and sends while worker 0 still waits in the first. *)
Example C53_ex_run : exists s, xsteps 9 (init 2) s /\ map w_round (s_ws s) = [0; 1] /\ map w_sent (s_ws s) = [true; true] /\
  drawn s = [3] /\ map w_chs (s_ws s) = [[]; [3]] /\ s_ef s 1 = [32] /\ s_ch s 0 = [3].
Proof.
  eexists. split.
  - one ltac:(apply (W_send _ _ _ _ _ [_] _ []); [reflexivity|cbn; lia|cbn; lia]).
    one ltac:(apply (W_send _ _ _ _ _ [] _ [_]); [reflexivity|cbn; lia|cbn; lia]).
    one ltac:(eapply M_recv; [reflexivity|cbn; lia|cbn; lia|reflexivity]).
    one ltac:(eapply M_recv; [reflexivity|cbn; lia|cbn; lia|reflexivity]).
    one ltac:(eapply M_draw; [reflexivity|cbn; lia|reflexivity]).
    one ltac:(eapply M_send; [reflexivity|cbn; lia|cbn; lia]).
    one ltac:(eapply M_send; [reflexivity|cbn; lia|cbn; lia]).
    one ltac:(eapply (W_recv _ _ _ _ _ [_] _ []); reflexivity).
    one ltac:(apply (W_send _ _ _ _ _ [_] _ []); [reflexivity|cbn; lia|cbn; lia]).
    apply steps_O.
  - vm_compute. repeat split; reflexivity.
Qed.

(** In every reachable state each worker has received exactly the challenges the main thread drew for the rounds the worker has completed, in order, one per round. *)
Theorem C53_same_challenges :
  forall (M C : Type) (nw rounds : nat) (msg : nat -> list C -> M) (draw : list (list M) -> C) 
    (n : nat) (s : state) (w : worker),
  steps nw rounds msg draw n (init nw) s ->
  In w (s_ws s) -> w_chs w = firstn (w_round w) (drawn s) /\ length (w_chs w) = w_round w.
Proof. exact @worker_view. Qed.
Print Assumptions C53_same_challenges.

(** The challenge of each round was drawn after one message of every worker for that round, computed from the challenges of all earlier rounds. *)
Theorem C53_drawn_for_the_round :
  forall (M C : Type) (nw rounds : nat) (msg : nat -> list C -> M) (draw : list (list M) -> C) 
    (n : nat) (s : state) (j : nat) (c : C),
  steps nw rounds msg draw n (init nw) s ->
  nth_error (drawn s) j = Some c ->
  c = draw (firstn (S j) (m_log (s_main s))) /\
  (exists l : list M,
     nth_error (m_log (s_main s)) j = Some l /\
     Permutation l (map (fun i : nat => msg i (firstn j (drawn s))) (seq 0 nw))).
Proof. exact @main_view. Qed.
Print Assumptions C53_drawn_for_the_round.

(** No channel is ever full, so no send blocks. *)
Theorem C53_channels :
  forall (M C : Type) (nw rounds : nat) (msg : nat -> list C -> M) (draw : list (list M) -> C) 
    (n : nat) (s : state) (i : nat),
  steps nw rounds msg draw n (init nw) s -> i < 2 -> length (s_ef s i) < cap nw /\ length (s_ch s i) < cap nw.
Proof. exact @queues_bounded. Qed.
Print Assumptions C53_channels.

(** In every reachable state either all threads are finished or some thread can move. *)
Theorem C53_no_deadlock :
  forall (M C : Type) (nw rounds : nat) (msg : nat -> list C -> M) (draw : list (list M) -> C) 
    (n : nat) (s : state),
  steps nw rounds msg draw n (init nw) s ->
  finished rounds s \/ (exists s' : state, step nw rounds msg draw s s').
Proof. exact @no_deadlock. Qed.
Print Assumptions C53_no_deadlock.

(** Every schedule ends after a bounded number of channel operations. *)
Theorem C53_terminates :
  forall (M C : Type) (nw rounds : nat) (msg : nat -> list C -> M) (draw : list (list M) -> C) 
    (n : nat) (s : state), steps nw rounds msg draw n (init nw) s -> n <= rounds * (4 * nw + 2).
Proof. exact @terminates. Qed.
Print Assumptions C53_terminates.

(** A schedule is finished exactly when it has made all its steps: none is skipped or repeated. *)
Theorem C53_length :
  forall (M C : Type) (nw rounds : nat) (msg : nat -> list C -> M) (draw : list (list M) -> C) 
    (n : nat) (s : state),
  steps nw rounds msg draw n (init nw) s -> finished rounds s <-> n = rounds * (4 * nw + 2).
Proof. exact @exact_length. Qed.
Print Assumptions C53_length.

(** Every partial schedule can be completed. *)
Theorem C53_completes :
  forall (M C : Type) (nw rounds : nat) (msg : nat -> list C -> M) (draw : list (list M) -> C) 
    (n : nat) (s : state),
  steps nw rounds msg draw n (init nw) s ->
  exists (k : nat) (s' : state),
    steps nw rounds msg draw k s s' /\ n + k = rounds * (4 * nw + 2) /\ finished rounds s'.
Proof. exact @completes. Qed.
Print Assumptions C53_completes.

(** At the end all threads hold the same challenges, one per round, and nothing is left in a channel. *)
Theorem C53_outcome :
  forall (M C : Type) (nw rounds : nat) (msg : nat -> list C -> M) (draw : list (list M) -> C) 
    (n : nat) (s : state),
  steps nw rounds msg draw n (init nw) s ->
  finished rounds s ->
  length (m_chs (s_main s)) = rounds /\
  (forall w : worker, In w (s_ws s) -> w_chs w = m_chs (s_main s)) /\
  (forall i : nat, i < 2 -> s_ef s i = [] /\ s_ch s i = []).
Proof. exact @outcome. Qed.
Print Assumptions C53_outcome.

(** If the challenge does not depend on the order of the messages within a round (the main thread adds them up), the outcome of every schedule is that of the sequential reference. *)
Theorem C53_sequential :
  forall (M C : Type) (nw rounds : nat) (msg : nat -> list C -> M) (draw : list (list M) -> C) 
    (n : nat) (s : state),
  (forall l l' : list (list M), Forall2 (Permutation (A:=M)) l l' -> draw l = draw l') ->
  steps nw rounds msg draw n (init nw) s ->
  finished rounds s ->
  m_chs (s_main s) = snd (reference nw msg draw rounds) /\
  (forall w : worker, In w (s_ws s) -> w_chs w = snd (reference nw msg draw rounds)).
Proof. exact @sequential_result. Qed.
Print Assumptions C53_sequential.

Lemma xdraw_perm l l' : Forall2 (@Permutation nat) l l' -> xdraw l = xdraw l'.
Proof.
  unfold xdraw. intros H. assert (E : map list_sum l = map list_sum l').
  { induction H as [|a b l l' H _ IH]; [reflexivity|]. cbn [map]. f_equal; [|exact IH]. induction H; unfold list_sum in *; cbn [fold_right]; lia. }
  now rewrite E.
Qed.
Example C53_ex_sequential : exists n s, xsteps n (init 2) s /\ finished 2 s /\ n = 20 /\ m_chs (s_main s) = [3; 66] /\ map w_chs (s_ws s) = [[3; 66]; [3; 66]].
Proof.
  destruct (completes 2 2 xmsg xdraw 0 (init 2) (steps_O _ _ _ _ _)) as (n & s & H & _ & F). exists n, s. split; [exact H|]. split; [exact F|].
  split; [exact (proj1 (exact_length 2 2 xmsg xdraw n s H) F)|]. destruct (sequential_result 2 2 xmsg xdraw n s xdraw_perm H F) as [A B].
  split; [rewrite A; reflexivity|]. pose proof (i_len _ _ _ _ _ (inv_steps 2 2 xmsg xdraw n s H)) as HL. destruct (s_ws s) as [|w1 [|w2 [|w3 t]]]; try discriminate HL.
  cbn. rewrite (B w1), (B w2) by (cbn; auto). reflexivity.
Qed.

