(** Properties C50, C51 and C52: the queues of the local API, the batch loop, and the replies to the gateway. *)
From Coq Require Import List Arith Lia Bool Permutation Sorted.
From Verif Require Import ListAux M_Service P_Service.
Import ListNotations.

(** ** C51 *)

(** Every returned proof is the proof of the input at some position, positions increase with the place in the answer, and the positions left out are exactly inputs whose inference failed.  (Missing from the property: the answer does not say which they are.) *)
Theorem C51_positions_partial :
  forall (I T X P : Type) (load : I -> option T) (run : T -> option X) (prove : X -> option P) 
    (inputs : list I) (ps : list P),
  run_batch load run prove inputs = Some ps ->
  exists pos : list nat,
    length pos = length ps /\
    StronglySorted lt pos /\
    (forall (j i : nat) (p : P),
     nth_error pos j = Some i ->
     nth_error ps j = Some p ->
     exists (x : I) (t : T) (tr : X),
       nth_error inputs i = Some x /\ load x = Some t /\ run t = Some tr /\ prove tr = Some p) /\
    (forall (i : nat) (x : I),
     nth_error inputs i = Some x -> ~ In i pos -> exists t : T, load x = Some t /\ run t = None).
Proof. exact @batch_positions. Qed.
Print Assumptions C51_positions_partial.

(** If no inference fails, a successful batch has one proof for each input, the i-th for the i-th input. *)
Theorem C51_aligned_partial :
  forall (I T X P : Type) (load : I -> option T) (run : T -> option X) (prove : X -> option P) 
    (inputs : list I) (ps : list P),
  (forall (x : I) (t : T), In x inputs -> load x = Some t -> run t <> None) ->
  run_batch load run prove inputs = Some ps ->
  length ps = length inputs /\
  (forall (i : nat) (x : I),
   nth_error inputs i = Some x ->
   exists (t : T) (tr : X) (p : P),
     load x = Some t /\ run t = Some tr /\ prove tr = Some p /\ nth_error ps i = Some p).
Proof. exact @batch_aligned. Qed.
Print Assumptions C51_aligned_partial.

(** The batch is reported as failed exactly if some input does not load or some inference that succeeds cannot be proved. *)
Theorem C51_error :
  forall (I T X P : Type) (load : I -> option T) (run : T -> option X) (prove : X -> option P) (inputs : list I),
  run_batch load run prove inputs = None <->
  (exists x : I,
     In x inputs /\
     (load x = None \/ (exists (t : T) (tr : X), load x = Some t /\ run t = Some tr /\ prove tr = None))).
Proof. exact @batch_none. Qed.
Print Assumptions C51_error.

(** Inputs are numbers: those below 10 load, inference fails on odd ones, proving fails on 8. *)
Definition xload (n : nat) : option nat := if n <? 10 then Some n else None.
Definition xrun (n : nat) : option nat := if Nat.even n then Some n else None.
Definition xprove (n : nat) : option nat := if n =? 8 then None else Some (100 + n).
Example C51_ex : run_batch xload xrun xprove [2; 4; 6] = Some [102; 104; 106] /\ run_batch xload xrun xprove [2; 3; 6] = Some [102; 106] /\
  run_batch xload xrun xprove [2; 8; 6] = None /\ run_batch xload xrun xprove [2; 3; 11] = None /\ run_batch xload xrun xprove [1; 3] = Some [].
Proof. repeat split. Qed.

(** An input whose inference fails can be put anywhere into a batch without changing the answer: its failure is not reported and the place of every later proof shifts. *)
Theorem C51_silent :
  forall (I T X P : Type) (load : I -> option T) (run : T -> option X) (prove : X -> option P) 
    (inputs : list I) (x : I) (k : nat) (ps : list P),
  run_batch load run prove inputs = Some ps ->
  (exists t : T, load x = Some t /\ run t = None) ->
  run_batch load run prove (firstn k inputs ++ x :: skipn k inputs) = Some ps.
Proof. exact @batch_silent. Qed.
Print Assumptions C51_silent.

(** The full property is false: with one proof returned, the failed input may be the first or the second. *)
Theorem C51_refuted : exists (load run prove : nat -> option nat) (a b : nat), a <> b /\ run_batch load run prove [a; b] = run_batch load run prove [b; a] /\
  run_batch load run prove [a; b] = Some [100 + b] /\ (forall t, load a = Some t -> run t = None).
Proof. exists xload, xrun, xprove, 1, 2. repeat split; [lia|]. intros t0 H. injection H as <-. reflexivity. Qed.
Print Assumptions C51_refuted.

(** ** C50 *)

(** In every history of submissions, worker steps and retrievals: the submitted requests are those waiting and those taken, the taken ones end in the order they were taken but for the one in work, the proofs produced are those ready and those returned, and proofs are only produced by submitted requests that succeed. *)
Theorem C50_conserve :
  forall (R P : Type) (res : R -> outcome P -> Prop) (tr : list (event R P)) (s : api R P),
  api_steps res api0 tr s ->
  Permutation (submits tr) (work_queue s ++ pops tr) /\
  pops tr = ended tr ++ busy s /\
  Permutation (made tr) (proofs_queue s ++ got tr) /\
  (forall (r : R) (ps : list P), In (EDone r ps) tr -> In r (submits tr) /\ res r (Proved ps)).
Proof. exact @api_conserve. Qed.
Print Assumptions C50_conserve.

(** Each proof is returned at most once, only if it was produced, and when none is ready all produced ones have been returned. *)
Theorem C50_once :
  forall (R P : Type) (res : R -> outcome P -> Prop) (tr : list (event R P)) (s : api R P),
  api_steps res api0 tr s ->
  NoDup (made tr) ->
  NoDup (got tr) /\
  (forall p : P, In p (got tr) -> In p (made tr)) /\ (proofs_queue s = [] -> Permutation (got tr) (made tr)).
Proof. exact @api_once. Qed.
Print Assumptions C50_once.

(** As long as the worker has not panicked and there is work, a worker step is possible. *)
Theorem C50_progress :
  forall (R P : Type) (res : R -> outcome P -> Prop) (s : api R P),
  wk s <> Dead ->
  todo s <> 0 ->
  (forall r : R, exists o : outcome P, res r o) ->
  exists (e : event R P) (s' : api R P), is_work e /\ api_step res e s s'.
Proof. exact @api_progress. Qed.
Print Assumptions C50_progress.

(** Worker steps are bounded: each one lowers the work to do by one. *)
Theorem C50_work_bound :
  forall (R P : Type) (res : R -> outcome P -> Prop) (s : api R P) (tr : list (event R P)) (s' : api R P),
  api_steps res s tr s' -> Forall is_work tr -> length tr + todo s' = todo s.
Proof. exact @api_work_bound. Qed.
Print Assumptions C50_work_bound.

(** If no request panics, then once submissions stop the worker can and, by the previous two theorems, will end every waiting request - the last submitted first. *)
Theorem C50_drain_partial :
  forall (R P : Type) (res : R -> outcome P -> Prop) (s : api R P),
  wk s <> Dead ->
  (forall r : R, exists o : outcome P, res r o /\ o <> Panicked) ->
  exists (tr : list (event R P)) (s' : api R P),
    api_steps res s tr s' /\
    Forall is_work tr /\ work_queue s' = [] /\ wk s' = Idle /\ pops tr = rev (work_queue s).
Proof. exact @api_drain. Qed.
Print Assumptions C50_drain_partial.

(** If nothing is waiting at the time of each submission, requests end in the order of submission. *)
Theorem C50_fifo_partial :
  forall (R P : Type) (res : R -> outcome P -> Prop) (tr : list (event R P)) (s : api R P),
  api_steps res api0 tr s ->
  (forall (tr1 : list (event R P)) (r : R) (tr2 : list (event R P)),
   tr = tr1 ++ ESubmit r :: tr2 -> length (submits tr1) = length (pops tr1)) ->
  submits tr = ended tr ++ busy s ++ work_queue s.
Proof. exact @api_fifo. Qed.
Print Assumptions C50_fifo_partial.

(** Requests are numbers: even ones succeed with two proofs, odd ones fail, 9 panics. *)
Definition xres (r : nat) (o : outcome nat) : Prop := o = if r =? 9 then Panicked else if Nat.even r then Proved [10 * r; 10 * r + 1] else Failed.
Example C50_ex : api_steps xres api0 [ESubmit 2; EPop 2; ESubmit 3; EDone 2 [20; 21]; EStatus 1 2; EGet (Some 21); EPop 3; EErr 3; EGet (Some 20); EGet None] (mkApi [] Idle []).
Proof.
  econstructor; [apply ASubmit|]. econstructor; [apply (APop xres _ [] 2); reflexivity|]. econstructor; [apply ASubmit|]. econstructor; [apply (ADone xres _ 2 [20; 21]); reflexivity|]. econstructor; [apply (AStatus xres (mkApi [3] Idle [20; 21]))|].
  econstructor; [apply (AGet xres _ [20] 21); reflexivity|]. econstructor; [apply (APop xres _ [] 3); reflexivity|]. econstructor; [apply (AErr xres _ 3); reflexivity|]. econstructor; [apply (AGet xres _ [] 20); reflexivity|].
  econstructor; [apply AGetNone; reflexivity|]. constructor.
Qed.
Example C50_ex_fifo : forall tr1 r tr2, [ESubmit 2; EPop 2; ESubmit 3; EDone 2 [20; 21]; EStatus 1 2; EGet (Some 21); EPop 3; EErr 3; EGet (Some 20); EGet None] = tr1 ++ ESubmit r :: tr2 ->
  length (submits tr1) = length (pops tr1).
Proof.
  intros tr1 r tr2 E. do 10 (destruct tr1 as [|? tr1]; [try reflexivity; cbn in E; discriminate E|cbn in E; injection E as <- E]). destruct tr1; discriminate E.
Qed.

(** Two requests submitted one after the other are worked on, and their proofs returned, in the reverse order. *)
Theorem C50_reversed :
  forall (R P : Type) (res : R -> outcome P -> Prop) (r1 r2 : R) (p1 p2 : P),
  res r1 (Proved [p1]) ->
  res r2 (Proved [p2]) ->
  exists (tr : list (event R P)) (s : api R P),
    api_steps res api0 tr s /\ submits tr = [r1; r2] /\ ended tr = [r2; r1] /\ got tr = [p2; p1].
Proof. exact @api_reversed. Qed.
Print Assumptions C50_reversed.

(** The proofs of one batch are returned in the reverse of the order of its inputs. *)
Theorem C50_batch_reversed :
  forall (R P : Type) (res : R -> outcome P -> Prop) (r : R) (ps : list P),
  res r (Proved ps) ->
  exists (tr : list (event R P)) (s : api R P),
    api_steps res api0 tr s /\ submits tr = [r] /\ made tr = ps /\ got tr = rev ps.
Proof. exact @api_batch_reversed. Qed.
Print Assumptions C50_batch_reversed.

(** A waiting request can be overtaken by any number of later submissions. *)
Theorem C50_starvation :
  forall (R P : Type) (res : R -> outcome P -> Prop) (r0 : R) (rs : list R) (r1 : R),
  (forall r : R, exists o : outcome P, res r o /\ o <> Panicked) ->
  exists (tr : list (event R P)) (s : api R P),
    api_steps res api0 tr s /\
    submits tr = r1 :: r0 :: rs /\ ended tr = r1 :: rs /\ In r0 (work_queue s) /\ wk s = Idle.
Proof. exact @api_starvation. Qed.
Print Assumptions C50_starvation.

(** A request that fails leaves the service exactly as if it had never been made: nothing a client can ask for reports it. *)
Theorem C50_error_silent :
  forall (R P : Type) (res : R -> outcome P -> Prop) (s : api R P) (r : R),
  wk s = Idle -> res r Failed -> api_steps res s [ESubmit r; EPop r; EErr r] s.
Proof. exact @api_error_silent. Qed.
Print Assumptions C50_error_silent.

(** After a panic in the worker task no request is ever worked on again, though every submission is still accepted. *)
Theorem C50_dead :
  forall (R P : Type) (res : R -> outcome P -> Prop) (s : api R P) (tr : list (event R P)) (s' : api R P),
  api_steps res s tr s' ->
  wk s = Dead -> wk s' = Dead /\ pops tr = [] /\ made tr = [] /\ work_queue s' = work_queue s ++ submits tr.
Proof. exact @api_dead. Qed.
Print Assumptions C50_dead.

(** The full property is false: the second of two requests is served first, and a failed request leaves no trace. *)
Theorem C50_refuted : (exists tr s, api_steps xres api0 tr s /\ submits tr = [2; 4] /\ ended tr = [4; 2]) /\ api_steps xres api0 [ESubmit 3; EPop 3; EErr 3] api0.
Proof.
  split; [|apply api_error_silent; reflexivity].
  exists [ESubmit 2; ESubmit 4; EPop 4; EDone 4 [40; 41]; EPop 2; EDone 2 [20; 21]], (mkApi [] Idle [40; 41; 20; 21]). split; [|split; reflexivity].
  econstructor; [apply ASubmit|]. econstructor; [apply ASubmit|]. econstructor; [apply (APop xres _ [2] 4); reflexivity|]. econstructor; [apply (ADone xres _ 4 [40; 41]); reflexivity|].
  econstructor; [apply (APop xres _ [] 2); reflexivity|]. econstructor; [apply (ADone xres _ 2 [20; 21]); reflexivity|]. constructor.
Qed.
Print Assumptions C50_refuted.

(** ** C52 *)

(** For every history of the stream: the replies are to a first part of the messages, one for each, in order and with its id; the loop ends at the first event that is not a message that can be decoded and sent a reply. *)
Theorem C52_grpc_replies :
  forall (Id M Q O W : Type) (decode : M -> option Q) (run : W -> Q -> W * O) (send_ok : nat -> bool)
    (evs : list (inbound Id M)) (n : nat) (w : W) (rs : list (Id * O)) (e : ending),
  grpc_loop decode run send_ok n w evs = (rs, e) ->
  exists k : nat,
    k <= length evs /\
    map fst rs = flat_map id_of (firstn k evs) /\
    length rs = k /\
    (forall (i : nat) (x : inbound Id M),
     i < k -> nth_error evs i = Some x -> answerable decode send_ok (n + i) x) /\
    (k = length evs /\ e = Waiting \/
     (exists x : inbound Id M, nth_error evs k = Some x /\ ~ answerable decode send_ok (n + k) x /\ e <> Waiting)).
Proof. exact @grpc_replies. Qed.
Print Assumptions C52_grpc_replies.

(** If every payload decodes and every reply can be sent, each message gets exactly one reply with its id, in order. *)
Theorem C52_grpc_complete_partial :
  forall (Id M Q O W : Type) (decode : M -> option Q) (run : W -> Q -> W * O) (send_ok : nat -> bool)
    (msgs : list (Id * M)) (n : nat) (w : W),
  (forall (i : nat) (id : Id) (m : M),
   nth_error msgs i = Some (id, m) -> decode m <> None /\ send_ok (n + i) = true) ->
  exists rs : list (Id * O),
    grpc_loop decode run send_ok n w (map (fun x : Id * M => Msg (fst x) (snd x)) msgs) = (rs, Waiting) /\
    map fst rs = map fst msgs.
Proof. exact @grpc_all_answered. Qed.
Print Assumptions C52_grpc_complete_partial.

(** For every sequence of jobs and every loss of requests and answers: the submissions that reach the gateway are, for a first part of the jobs in order, at most [attempts] copies of one submission with the id of the job, and at least one but possibly for the last, in which case the worker has ended. *)
Theorem C52_http_replies :
  forall (Id J O0 W : Type) (run : W -> J -> W * O0) (attempts : nat) (net : nat -> bool * bool),
  (forall n : nat, snd (net n) = true -> fst (net n) = true) ->
  forall (jobs : list (job Id J)) (n : nat) (w : W) (subs : list (Id * O0)) (b : bool),
  attempts <> 0 ->
  http_loop run attempts net n w jobs = (subs, b) ->
  exists done : list (Id * O0 * nat),
    subs = flat_map (fun x : Id * O0 * nat => repeat (fst x) (snd x)) done /\
    length done <= length jobs /\
    (forall (i : nat) (x : Id * O0 * nat),
     nth_error done i = Some x ->
     exists j : J,
       nth_error jobs i = Some (Job (fst (fst x)) j) /\
       snd x <= attempts /\ (S i < length done \/ b = true -> 1 <= snd x)) /\
    (b = true -> length done = length jobs).
Proof. exact @http_replies. Qed.
Print Assumptions C52_http_replies.

(** If no request and no answer is lost, each job gets exactly one submission with its id. *)
Theorem C52_http_once_partial :
  forall (Id J O0 W : Type) (run : W -> J -> W * O0) (attempts : nat) (net : nat -> bool * bool),
  (forall n : nat, snd (net n) = true -> fst (net n) = true) ->
  forall (jobs : list (job Id J)) (n : nat) (w : W),
  attempts <> 0 ->
  (forall n0 : nat, net n0 = (true, true)) ->
  (forall x : job Id J, In x jobs -> x <> NoJob) ->
  exists subs : list (Id * O0),
    http_loop run attempts net n w jobs = (subs, true) /\
    map fst subs = flat_map (fun x : job Id J => match x with
                                                 | Job id _ => [id]
                                                 | NoJob => []
                                                 end) jobs.
Proof. exact @http_exactly_once. Qed.
Print Assumptions C52_http_once_partial.

(** Payloads are numbers, 0 cannot be decoded; the reply is the payload plus the number of tasks run before. *)
Definition xdec (m : nat) : option nat := match m with 0 => None | S q => Some q end.
Definition xstep (w q : nat) : nat * nat := (S w, w + q).
Example C52_ex : grpc_loop xdec xstep (fun _ => true) 0 0 [Msg 7 5; Msg 8 5] = ([(7, 4); (8, 5)], Waiting) /\
  grpc_loop xdec xstep (fun _ => true) 0 0 [Msg 7 5; Msg 8 0; Msg 9 5] = ([(7, 4)], Broken) /\
  http_loop xstep 5 (fun n => (true, negb (n =? 3))) 0 0 [Job 7 5; Job 8 5] = ([(7, 5); (8, 6); (8, 6)], true).
Proof. repeat split; vm_compute; reflexivity. Qed.

(** A payload that cannot be decoded gets no reply and ends the worker: nothing after it is answered. *)
Theorem C52_undecodable :
  forall (Id M Q O W : Type) (decode : M -> option Q) (run : W -> Q -> W * O) (send_ok : nat -> bool) 
    (w : W) (n : nat) (pre : list (Id * M)) (id : Id) (m : M) (post : list (inbound Id M)),
  decode m = None ->
  (forall (i : nat) (x : Id) (y : M),
   nth_error pre i = Some (x, y) -> decode y <> None /\ send_ok (n + i) = true) ->
  exists rs : list (Id * O),
    grpc_loop decode run send_ok n w (map (fun x : Id * M => Msg (fst x) (snd x)) pre ++ Msg id m :: post) =
    (rs, Broken) /\ map fst rs = map fst pre.
Proof. exact @grpc_undecodable. Qed.
Print Assumptions C52_undecodable.

(** A lost answer makes the HTTP worker submit again: the gateway gets two replies for one job. *)
Theorem C52_duplicate :
  forall (Id J O0 W : Type) (run : W -> J -> W * O0) (attempts : nat) (w : W) (id : Id) (j : J),
  2 <= attempts ->
  exists net : nat -> bool * bool,
    (forall n : nat, snd (net n) = true -> fst (net n) = true) /\
    http_loop run attempts net 0 w [Job id j] = ([(id, snd (run w j)); (id, snd (run w j))], true).
Proof. exact @http_duplicate. Qed.
Print Assumptions C52_duplicate.

(** An error while asking for a job is not retried and ends the HTTP worker. *)
Theorem C52_no_job :
  forall (Id J O W : Type) (run : W -> J -> W * O) (attempts : nat) (net : nat -> bool * bool) 
    (n : nat) (w : W) (rest : list (job Id J)), http_loop run attempts net n w (NoJob :: rest) = ([], false).
Proof. exact @http_no_job. Qed.
Print Assumptions C52_no_job.

(** The full property is false. *)
Theorem C52_refuted : exists (decode : nat -> option nat) run (msgs : list (inbound nat nat)) id m, In (Msg id m) msgs /\
  (forall rs e, grpc_loop (O := nat) decode run (fun _ => true) 0 0 msgs = (rs, e) -> ~ In id (map fst rs)) /\ decode m <> None.
Proof.
  exists xdec, xstep, [Msg 8 0; Msg 9 5], 9, 5. split; [right; now left|]. split; [|discriminate]. intros rs e H. cbn in H. injection H as <- <-. intros [].
Qed.
Print Assumptions C52_refuted.

