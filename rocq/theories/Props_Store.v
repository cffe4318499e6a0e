(** Property C49: the parameter and model store. *)
From Coq Require Import Ascii String List Arith Lia Bool.
From Verif Require Import ListAux M_Store P_Store.
Import ListNotations.

(** Once a value is in the backend and no call on its key is under way, then in every execution with any number of processes, interleavings, errors, lost answers and restarts, the value stays, every later read or initialisation of the key returns it, and every later insert fails - unless the call itself met an error or ran with the file cache.  The executions excluded: an in-memory store is asked to insert the key, or a HEAD request for the key fails with an error (the two cases refuted below); calls already under way on the key (the race refuted below). *)
Theorem C49_stable_partial :
  forall (V B P : Type) (enc : V -> B) (dec : B -> option V),
  (forall v : V, dec (enc v) = Some v) ->
  forall (kinds : nat -> kind) (s : backend) (ls0 : list label) (w : @world V B P) (k : path) 
    (v : V) (ls : list label) (w' : world),
  steps enc dec kinds (init_world s) ls0 w ->
  w_s3 w k = Some (enc v) ->
  (forall (p : nat) (c : call) (pr : prog), In (p, c, pr) (w_thr w) -> ~ touches c k) ->
  steps enc dec kinds w ls w' ->
  (forall l : label, In l ls -> ~ mem_insert kinds k l /\ ~ head_err k l) ->
  w_s3 w' k = Some (enc v) /\
  (exists new : list (nat * call * reply),
     w_log w' = new ++ w_log w /\
     (forall (p : nat) (c : @call V P) (r : @reply V P),
      In (p, c, r) new ->
      let excused := kinds p = S3Cached \/ (exists (c' : call) (a : action), In (@LAct V B P p c' a Err) ls) in
      match c with
      | CGet k' => k' = k -> r = Params (Some v) \/ r = Fail /\ excused
      | CInsert k' _ => k' = k -> r = Fail
      | CModel k' _ => k' = k -> r = Value v \/ r = Fail /\ excused
      | CRun _ _ _ _ _ => True
      end)).
Proof. exact @store_stable. Qed.
Print Assumptions C49_stable_partial.

(** A parameter inserted by process 0, then a rejected insert and a read by process 1 and a crash in between. *)
Definition ek : path := params_key "0" "AB".
Definition ekinds (p : nat) : kind := S3.
Example C49_stable_ex : exists ls0 w ls w', steps (P := nat) (fun x : nat => x) Some ekinds (init_world (fun _ => None)) ls0 w /\ w_s3 w ek = Some 7 /\ w_thr w = [] /\
  steps (P := nat) (fun x : nat => x) Some ekinds w ls w' /\ Forall (fun l => ~ mem_insert ekinds ek l /\ ~ head_err ek l) ls /\
  w_log w' = [(1, CGet ek, Params (Some 7)); (1, CInsert ek 8, Fail); (0, CInsert ek 7, Done)].
Proof.
  do 4 eexists. split; [|split; [|split; [|split; [|split]]]].
  - apply (r_start _ _ ekinds 0 (CInsert ek 7)). cbn [prog_of insert_params ekinds]. eapply r_act0; [now apply x_head_no|]. eapply r_act0; [apply XPut|]. apply r_ret0. apply SNil.
  - reflexivity.
  - reflexivity.
  - apply (r_start _ _ ekinds 1 (CInsert ek 8)). cbn [prog_of insert_params ekinds]. eapply r_act0; [apply (x_head_yes _ _ _ 7); reflexivity|]. apply r_ret0.
    eapply SCons; [apply (SCrash _ _ _ 0)|]. apply (r_start _ _ ekinds 1 (CGet ek)). cbn [prog_of get_params from_cache to_cache ekinds]. eapply r_act0; [apply (XGet _ _ _ 7); reflexivity|]. apply r_ret0. apply SNil.
  - repeat constructor; cbn; intuition discriminate.
  - reflexivity.
Qed.

(** In every execution, whatever is in the backend was there at the start or was written by a started call for exactly that key: the value of an insert, the outcome of an initialisation, or the parameters a run generated. *)
Theorem C49_provenance :
  forall (V B P : Type) (enc : V -> B) (dec : B -> option V) (kinds : nat -> kind) (s : backend)
    (ls : list label) (w : @world V B P) (k : path) (b : B),
  steps enc dec kinds (init_world s) ls w ->
  w_s3 w k = Some b ->
  s k = Some b \/
  (exists (p : nat) (c : call),
     In (@LStart V B P p c) ls /\
     match c with
     | CGet _ => False
     | CInsert k' v => k' = k /\ b = enc v
     | CModel k' i => k' = k /\ (exists v : V, i = Some v /\ b = enc v)
     | CRun pk mk i g _ =>
         pk = k /\ (exists (o : option V) (m v : V), g o m = Some v /\ b = enc v) \/
         mk = k /\ (exists v : V, i = Some v /\ b = enc v)
     end).
Proof. exact @store_provenance. Qed.
Print Assumptions C49_provenance.

(** In every execution, once any call on a key has reported success, the key is present in the backend and stays present. *)
Theorem C49_acknowledged :
  forall (V B P : Type) (enc : V -> B) (dec : B -> option V) (kinds : nat -> kind) (s : backend)
    (ls : list label) (w : @world V B P),
  steps enc dec kinds (init_world s) ls w ->
  forall (p : nat) (c : @call V P) (r : @reply V P) (k : path),
  In (p, c, r) (w_log w) ->
  match c with
  | CGet k' => k' = k /\ (exists v : V, r = Params (Some v))
  | CInsert k' _ => k' = k /\ r = Done
  | CModel k' _ => k' = k /\ (exists v : V, r = Value v)
  | CRun pk mk _ _ _ => (pk = k \/ mk = k) /\ (exists l : list P, r = Proofs l)
  end -> w_s3 w k <> None.
Proof. exact @store_acknowledged. Qed.
Print Assumptions C49_acknowledged.

(** Keys as strings: parameters of different models or major versions, and models differing in file, scaling strategy or scaling input, never share a key, and a parameter key is never a model key, if no component contains a slash. *)
Theorem C49_keys :
  forall (M h M' h' g st : string) (i : option string) (g' st' : string) (i' : option string),
  Forall no_slash [M; h; M'; h'; g; st; g'; st'] ->
  (forall x : string, i = Some x -> no_slash x) ->
  (forall x : string, i' = Some x -> no_slash x) ->
  (key_string (params_key M h) = key_string (params_key M' h') -> M = M' /\ h = h') /\
  (key_string (model_key g st i) = key_string (model_key g' st' i') -> g = g' /\ st = st' /\ i = i') /\
  key_string (params_key M h) <> key_string (model_key g st i).
Proof. exact @keys_distinct. Qed.
Print Assumptions C49_keys.

Example C49_keys_ex : key_string (params_key "0" "AB") = "Params/0/AB"%string /\ key_string (model_key "AB" "AbsoluteMax" (Some "CD"%string)) = "Model/AB/AbsoluteMax/CD"%string /\ Forall no_slash ["0"; "AB"; "AbsoluteMax"; "CD"]%string.
Proof. repeat split; repeat constructor; discriminate. Qed.

(** The version of a key string with slashes inside components is not injective. *)
Example C49_keys_slash : key_string (model_key "AB" "x" (Some "y"%string)) = key_string (model_key "AB" "x/y" None).
Proof. reflexivity. Qed.

(** Without the cache and with nothing stored, a model run stores parameters and model and returns its proofs, with no error on the way. *)
Theorem C49_run_ok :
  forall (V B P : Type) (enc : V -> B) (dec : B -> option V) (kinds : nat -> kind) (s : path -> option B)
    (p : nat) (pk mk : path) (m pp : V) (l : list P) (g : option V -> V -> option V)
    (pr : V -> V -> option (list P)),
  kinds p = S3 ->
  pk <> mk ->
  s pk = None ->
  s mk = None ->
  g None m = Some pp ->
  pr pp m = Some l ->
  exists (ls : list label) (w : @world V B P),
    steps enc dec kinds (init_world s) ls w /\
    Forall clean ls /\
    w_s3 w pk = Some (enc pp) /\ w_s3 w mk = Some (enc m) /\ w_log w = [(p, CRun pk mk (Some m) g pr, Proofs l)].
Proof. exact @store_run_ok. Qed.
Print Assumptions C49_run_ok.

(** ** What fails *)

(** With the file cache, in every execution: no read returns parameters, no initialisation returns a model, and every model run fails.  (The cache makes a directory at the path of the file it then tries to write.) *)
Theorem C49_cache_serves_nothing :
  forall (V B P : Type) (enc : V -> B) (dec : B -> option V) (kinds : nat -> kind) (s : backend)
    (ls : list label) (w : @world V B P),
  steps enc dec kinds (init_world s) ls w ->
  forall (p : nat) (c : @call V P) (r : @reply V P),
  In (p, c, r) (w_log w) ->
  kinds p = S3Cached ->
  match c with
  | CGet _ => r = Fail \/ r = Params None
  | CInsert _ _ => r = Fail \/ r = Done
  | _ => r = Fail
  end.
Proof. exact @cache_serves_nothing. Qed.
Print Assumptions C49_cache_serves_nothing.

(** Non-vacuous: a cached process does complete calls; here a read of an absent key, which is answered, and a run, which fails. *)
Example C49_cache_ex : exists ls w, steps (P := nat) (fun x : nat => x) Some (fun _ => S3Cached) (init_world (fun _ => None)) ls w /\
  w_log w = [(0, CModel ek (Some 5), Fail); (0, CGet ek, Params None)].
Proof.
  do 2 eexists. split.
  - apply (r_start _ _ (fun _ => S3Cached) 0 (CGet ek)). cbn [prog_of get_params from_cache to_cache]. eapply r_act0; [now apply x_exists_no|]. eapply r_act0; [now apply XGetNone|]. apply r_ret0.
    apply (r_start _ _ (fun _ => S3Cached) 0 (CModel ek (Some 5))). cbn [prog_of get_or_init from_cache to_cache]. eapply r_act0; [now apply x_exists_no|]. eapply r_act0; [now apply XGetNone|].
    eapply r_act0; [apply XMkdir|]. { intros q _ b. cbn. destruct q; discriminate. }
    eapply r_act0; [apply XErr|]. apply r_ret0. apply SNil.
  - reflexivity.
Qed.

(** With the file cache an insert that was reported as failed succeeds when tried again, after which this process cannot read the value back. *)
Theorem C49_cached_retry :
  forall (V B P : Type) (enc : V -> B) (dec : B -> option V) (kinds : nat -> kind) (s : list string -> option B)
    (p : nat) (k : list string) (v : V),
  kinds p = S3Cached ->
  k <> [] ->
  s k = None ->
  exists (ls : list label) (w : @world V B P),
    steps enc dec kinds (init_world s) ls w /\
    w_s3 w k = Some (enc v) /\ w_log w = [(p, CGet k, Fail); (p, CInsert k v, Done); (p, CInsert k v, Fail)].
Proof. exact @store_cached_retry. Qed.
Print Assumptions C49_cached_retry.

(** Two inserts that both look before either writes both report success, and a reader sees first one value, then the other, without any error. *)
Theorem C49_insert_race :
  forall (V B P : Type) (enc : V -> B) (dec : B -> option V),
  (forall v : V, dec (enc v) = Some v) ->
  forall (kinds : nat -> kind) (s : path -> option B) (p q : nat) (k : path) (v1 v2 : V),
  kinds p = S3 ->
  kinds q = S3 ->
  s k = None ->
  exists (ls : list label) (w : @world V B P),
    steps enc dec kinds (init_world s) ls w /\
    Forall clean ls /\
    w_s3 w k = Some (enc v2) /\
    w_log w =
    [(p, CGet k, Params (Some v2)); (q, CInsert k v2, Done); (p, CGet k, Params (Some v1));
     (p, CInsert k v1, Done)].
Proof. exact @store_race. Qed.
Print Assumptions C49_insert_race.

(** A HEAD request that fails for whatever reason lets an insert replace a stored value and report success. *)
Theorem C49_head_error :
  forall (V B P : Type) (enc : V -> B) (dec : B -> option V) (kinds : nat -> kind) (s : path -> option B)
    (p : nat) (k : path) (v1 v2 : V),
  kinds p = S3 ->
  s k = Some (enc v1) ->
  exists (ls : list label) (w : @world V B P),
    steps enc dec kinds (init_world s) ls w /\
    Datatypes.length (filter (fun l : label => match l with
                                               | LAct _ _ _ Err => true
                                               | _ => false
                                               end) ls) = 1 /\
    w_s3 w k = Some (enc v2) /\ w_log w = [(p, CInsert k v2, Done)].
Proof. exact @store_head_error. Qed.
Print Assumptions C49_head_error.

(** Two concurrent initialisations of one model return different models, and the second replaces the first. *)
Theorem C49_model_race :
  forall (V B P : Type) (enc : V -> B) (dec : B -> option V) (kinds : nat -> kind) (s : path -> option B)
    (p q : nat) (k : path) (v1 v2 : V),
  kinds p <> S3Cached ->
  kinds q <> S3Cached ->
  s k = None ->
  exists (ls : list label) (w : @world V B P),
    steps enc dec kinds (init_world s) ls w /\
    Forall clean ls /\
    w_s3 w k = Some (enc v2) /\ w_log w = [(q, CModel k (Some v2), Value v2); (p, CModel k (Some v1), Value v1)].
Proof. exact @store_model_race. Qed.
Print Assumptions C49_model_race.

(** The in-memory store replaces a stored value and reports success. *)
Theorem C49_mem_replaces :
  forall (V B P : Type) (enc : V -> B) (dec : B -> option V) (kinds : nat -> kind) (s : path -> option B)
    (p : nat) (k : path) (v1 v2 : V),
  kinds p = Mem ->
  s k = Some (enc v1) ->
  exists (ls : list label) (w : @world V B P),
    steps enc dec kinds (init_world s) ls w /\
    Forall clean ls /\ w_s3 w k = Some (enc v2) /\ w_log w = [(p, CInsert k v2, Done)].
Proof. exact @store_mem_replaces. Qed.
Print Assumptions C49_mem_replaces.

(** The key of a model without scaling input is a proper prefix of its key with one, so that in the cache one path would have to be both a file and a directory. *)
Theorem C49_key_is_directory :
  forall h st x : string,
  prefixb (model_key h st None) (model_key h st (Some x)) = true /\
  model_key h st None <> model_key h st (Some x).
Proof. exact @model_key_prefix. Qed.
Print Assumptions C49_key_is_directory.

(** The full property is false: an execution without errors in which two inserts of one key succeed and reads differ. *)
Theorem C49_refuted : exists (ls : list (@label nat nat nat)) w, steps (P := nat) (fun x : nat => x) Some ekinds (init_world (fun _ => None)) ls w /\ Forall clean ls /\
  w_log w = [(0, CGet ek, Params (Some 2)); (1, CInsert ek 2, Done); (0, CGet ek, Params (Some 1)); (0, CInsert ek 1, Done)].
Proof.
  destruct (store_race (P := nat) (fun x : nat => x) Some (fun v => eq_refl) ekinds (fun _ => None) 0 1 ek 1 2) as (ls & w & H1 & H2 & _ & H3); try reflexivity. exists ls, w. auto.
Qed.
Print Assumptions C49_refuted.

