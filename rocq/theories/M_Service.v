(** Model of the proving service: the batch loop of [run_model_v1] (deep-prove/src/bin/worker/main.rs:33-144), the local HTTP API
    (deep-prove/src/bin/worker/api.rs), the gRPC worker (deep-prove/src/bin/worker/lpn/grpc.rs) and the HTTP worker
    (deep-prove/src/bin/worker/lpn/http.rs).

    The computation of a request, the decoding of payloads and the network are parameters.  Not modelled: logging, sleeping,
    authentication, the health check server and the metering of the marketplace build. *)
From Coq Require Import List Arith Lia Bool.
From Verif Require Import ListAux.
Import ListNotations.

(** ** The batch loop *)
Section Batch.
Context {I T X P : Type} (load : I -> option T) (run : T -> option X) (prove : X -> option P).
(** main.rs:106-136: a load or proof that fails aborts the batch; an inference that fails is noted in [failed_inputs] and skipped.
    The state is the pair of [proofs] and [failed_inputs]. *)
Fixpoint batch_loop (i : nat) (inputs : list I) (st : list P * list nat) : option (list P * list nat) :=
  match inputs with
  | [] => Some st
  | x :: r =>
      match load x with
      | None => None
      | Some t =>
          match run t with
          | None => batch_loop (S i) r (fst st, snd st ++ [i])
          | Some tr => match prove tr with Some p => batch_loop (S i) r (fst st ++ [p], snd st) | None => None end
          end
      end
  end.
(** main.rs:105-143: only the proofs leave the closure ([failed_inputs], main.rs:78, is moved into it and dropped). *)
Definition run_batch (inputs : list I) : option (list P) :=
  match batch_loop 0 inputs ([], []) with Some st => Some (fst st) | None => None end.
End Batch.

(** [Vec::pop]. *)
Definition vpop {A} (l : list A) : option (list A * A) :=
  match rev l with [] => None | x :: r => Some (rev r, x) end.

(** ** The local API *)
Section Api.
Context {R P : Type}.
Inductive outcome := Proved (ps : list P) | Failed | Panicked.
Variable res : R -> outcome -> Prop.
(** api.rs:79-99: the spawned task that works on the queue; a panic ends the task, not the server. *)
Inductive worker := Idle | Busy (r : R) | Dead.
(** api.rs:31-35 [AppState]. *)
Record api := mkApi { work_queue : list R; wk : worker; proofs_queue : list P }.
Definition api0 : api := mkApi [] Idle [].
Inductive event := ESubmit (r : R) | EPop (r : R) | EDone (r : R) (ps : list P) | EErr (r : R) | EPanic (r : R) | EGet (o : option P) | EStatus (nq np : nat).
Inductive api_step : event -> api -> api -> Prop :=
(** api.rs:131-143 POST /proofs *)
| ASubmit r s : api_step (ESubmit r) s (mkApi (work_queue s ++ [r]) (wk s) (proofs_queue s))
(** api.rs:82 *)
| APop s q r : wk s = Idle -> vpop (work_queue s) = Some (q, r) -> api_step (EPop r) s (mkApi q (Busy r) (proofs_queue s))
(** api.rs:86-91 *)
| ADone s r ps : wk s = Busy r -> res r (Proved ps) -> api_step (EDone r ps) s (mkApi (work_queue s) Idle (proofs_queue s ++ ps))
(** api.rs:92 *)
| AErr s r : wk s = Busy r -> res r Failed -> api_step (EErr r) s (mkApi (work_queue s) Idle (proofs_queue s))
| APanic s r : wk s = Busy r -> res r Panicked -> api_step (EPanic r) s (mkApi (work_queue s) Dead (proofs_queue s))
(** api.rs:117-130 GET /proofs *)
| AGet s q p : vpop (proofs_queue s) = Some (q, p) -> api_step (EGet (Some p)) s (mkApi (work_queue s) (wk s) q)
| AGetNone s : vpop (proofs_queue s) = None -> api_step (EGet None) s s
(** api.rs:103-116 GET /status *)
| AStatus s : api_step (EStatus (length (work_queue s)) (length (proofs_queue s))) s s.
Inductive api_steps : api -> list event -> api -> Prop :=
| ANil s : api_steps s [] s
| ACons s e s1 tr s' : api_step e s s1 -> api_steps s1 tr s' -> api_steps s (e :: tr) s'.
End Api.
Arguments outcome : clear implicits. Arguments worker : clear implicits. Arguments api : clear implicits. Arguments event : clear implicits.

(** ** The gRPC worker *)
Section Grpc.
Context {Id M Q O W : Type} (decode : M -> option Q) (run : W -> Q -> W * O) (send_ok : nat -> bool).
(** What [inbound.next()] yields, or the end of the health check task (grpc.rs:159-179). *)
Inductive inbound := Msg (id : Id) (m : M) | StreamErr | Health.
Inductive ending := Waiting | Stopped | Broken.
(** grpc.rs:36-80 [process_message_from_gw] and grpc.rs:157-180: [O] is the reply, a task output or an error, [W] the store; [send_ok n] is
    whether the channel takes the [n]-th reply.  When the stream has ended its branch is disabled and the loop waits for the health
    check ([Waiting]). *)
Fixpoint grpc_loop (n : nat) (w : W) (evs : list inbound) : list (Id * O) * ending :=
  match evs with
  | [] => ([], Waiting)
  | StreamErr :: _ | Health :: _ => ([], Stopped)
  | Msg id m :: r =>
      match decode m with
      | None => ([], Broken)
      | Some q => let '(w', o) := run w q in
          if send_ok n then let '(rs, e) := grpc_loop (S n) w' r in ((id, o) :: rs, e) else ([], Broken)
      end
  end.
End Grpc.
Arguments inbound : clear implicits.

(** ** The HTTP worker *)
Section Http.
Context {Id J O W : Type} (run : W -> J -> W * O) (attempts : nat) (net : nat -> bool * bool).
(** http.rs:15-48 [retry_operation]: [net n] says of the [n]-th request whether it reached the gateway and whether its answer came back;
    [Backoff] yields [ATTEMPTS] items, the last of them [None].  The result: whether it succeeded, how many requests reached
    the gateway, the number of requests made so far. *)
Fixpoint retry (k n : nat) : bool * nat * nat :=
  match k with
  | 0 => (false, 0, n)
  | S k' => let '(got, ok) := net n in
      if ok then (true, if got then 1 else 0, S n)
      else let '(b, c, n') := retry k' (S n) in (b, (if got then 1 else 0) + c, n')
  end.
(** What [request_job] gives (http.rs:71-85): a job, or an error of the connection or of the decoding. *)
Inductive job := Job (id : Id) (j : J) | NoJob.
(** http.rs:206-231: the submissions that reach the gateway, and whether the worker is still running at the end of the given jobs. *)
Fixpoint http_loop (n : nat) (w : W) (jobs : list job) : list (Id * O) * bool :=
  match jobs with
  | [] => ([], true)
  | NoJob :: _ => ([], false)
  | Job id j :: r =>
      let '(_, _, n1) := retry attempts n in
      let '(w', o) := run w j in
      let '(ok, c, n2) := retry attempts n1 in
      if ok then let '(l, b) := http_loop n2 w' r in (repeat (id, o) c ++ l, b) else (repeat (id, o) c, false)
  end.
End Http.
Arguments job : clear implicits.
