(** Model of the synchronised transcript (transcript/src/synchronized.rs) and of the threads that share it
    (sumcheck/src/prover.rs:86-233, the rounds of [prove_batch_polys]) as a transition system: every channel operation is one
    step, and steps of different threads interleave in any order. *)
From Coq Require Import List Arith Bool.
Import ListNotations.

Section Sync.
Context {M C : Type}.
(** [nw]: number of worker threads, [rounds]: num_variables.  [msg i chs]: the message of worker [i] after the challenges [chs]
    (prover.rs:106-110).  [draw log]: the challenge the main thread gets from the transcript after the messages it collected in
    all rounds so far, in order of arrival; its own message is part of [draw] (prover.rs:156-172). *)
Context (nw rounds : nat) (msg : nat -> list C -> M) (draw : list (list M) -> C).

(** synchronized.rs:9-17, 22-30: two channels per kind, each of capacity max_thread_id = nw + 1 (prover.rs:72, 87). *)
Definition cap : nat := nw + 1.
Definition queue (A : Type) := nat -> list A.
Definition qupd {A} (q : queue A) (i : nat) (v : list A) : queue A := fun j => if j =? i then v else q j.
(** synchronized.rs:85-87 [commit_rolling]. *)
Definition commit_rolling (idx : nat) : nat := (idx + 1) mod 2.

(** A worker: its rounds completed, its rolling_index, whether it has sent the message of the current round, and the challenges
    it has received. *)
Record worker := mkW { w_round : nat; w_roll : nat; w_sent : bool; w_chs : list C }.
(** The main thread within a round: messages received so far, or the challenge and how often it was sent. *)
Inductive mphase := Collect (got : list M) | Sending (k : nat) (c : C).
Record main := mkM { m_round : nat; m_roll : nat; m_phase : mphase; m_chs : list C; m_log : list (list M) }.
Record state := mkS { s_main : main; s_ws : list worker; s_ef : queue M; s_ch : queue C }.

(** synchronized.rs:21-41 [new], cloned by every thread. *)
Definition init : state :=
  mkS (mkM 0 0 (Collect []) [] []) (repeat (mkW 0 0 false []) nw) (fun _ => []) (fun _ => []).

Inductive step : state -> state -> Prop :=
(** prover.rs:110, synchronized.rs:51-55: blocks while the channel is full. *)
| W_send : forall m a w b ef ch, w_sent w = false -> w_round w < rounds -> length (ef (w_roll w)) < cap ->
    step (mkS m (a ++ w :: b) ef ch)
         (mkS m (a ++ mkW (w_round w) (w_roll w) true (w_chs w) :: b) (qupd ef (w_roll w) (ef (w_roll w) ++ [msg (length a) (w_chs w)])) ch)
(** prover.rs:112-115, synchronized.rs:61-65, 85-87: blocks while the channel is empty. *)
| W_recv : forall m a w b ef ch c r, w_sent w = true -> ch (w_roll w) = c :: r ->
    step (mkS m (a ++ w :: b) ef ch)
         (mkS m (a ++ mkW (S (w_round w)) (commit_rolling (w_roll w)) false (w_chs w ++ [c]) :: b) ef (qupd ch (w_roll w) r))
(** prover.rs:164-167, synchronized.rs:67-69. *)
| M_recv : forall m ws ef ch got x r, m_phase m = Collect got -> m_round m < rounds -> length got < nw -> ef (m_roll m) = x :: r ->
    step (mkS m ws ef ch)
         (mkS (mkM (m_round m) (m_roll m) (Collect (got ++ [x])) (m_chs m) (m_log m)) ws (qupd ef (m_roll m) r) ch)
(** prover.rs:170-172. *)
| M_draw : forall m ws ef ch got, m_phase m = Collect got -> m_round m < rounds -> length got = nw ->
    step (mkS m ws ef ch)
         (mkS (mkM (m_round m) (m_roll m) (Sending 0 (draw (m_log m ++ [got]))) (m_chs m) (m_log m ++ [got])) ws ef ch)
(** prover.rs:173-175, synchronized.rs:79-83. *)
| M_send : forall m ws ef ch k c, m_phase m = Sending k c -> k < nw -> length (ch (m_roll m)) < cap ->
    step (mkS m ws ef ch)
         (mkS (mkM (m_round m) (m_roll m) (Sending (S k) c) (m_chs m) (m_log m)) ws ef (qupd ch (m_roll m) (ch (m_roll m) ++ [c])))
(** prover.rs:183-184. *)
| M_next : forall m ws ef ch c, m_phase m = Sending nw c ->
    step (mkS m ws ef ch)
         (mkS (mkM (S (m_round m)) (commit_rolling (m_roll m)) (Collect []) (m_chs m ++ [c]) (m_log m)) ws ef ch).

Inductive steps : nat -> state -> state -> Prop :=
| steps_O : forall s, steps 0 s s
| steps_S : forall n s1 s2 s3, steps n s1 s2 -> step s2 s3 -> steps (S n) s1 s3.
End Sync.
