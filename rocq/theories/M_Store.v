(** Model of the parameter and model store (deep-prove/src/store.rs) and of the part of [run_model_v1] that uses it
    (deep-prove/src/bin/worker/main.rs:33-144).

    Every awaited operation on the file cache or on the backend is one atomic step, so that the calls of any number of workers
    interleave at every await point.  Any operation may fail, before or after taking effect (a lost answer); a process may stop at
    any step, after which its cache, a fresh [TempDir] (store.rs:99-104), is empty.  Keys and cache paths are lists of path
    components (store.rs:338-379, [key_string]).  Serialised values are a type [B] with [enc] and [dec]; one type of values serves for
    parameters and models.  Simplifications: [create_dir_all] and [fs::write] are single steps; a failed write may leave any
    content; a write does not require the parent directory.
    The two maps of [MemStore] (store.rs:276-279) are one here; their keys differ in the first component. *)
From Coq Require Import String List Arith Lia Bool.
From Verif Require Import ListAux.
Import ListNotations.

Definition path := list string.
Definition path_eq (p q : path) : {p = q} + {p <> q} := list_eq_dec string_dec p q.
Fixpoint prefixb (p q : path) : bool :=
  match p, q with [], _ => true | x :: p', y :: q' => if string_dec x y then prefixb p' q' else false | _, _ => false end.

(** [Path::from_iter] and [Display]: the components joined by a slash. *)
Fixpoint key_string (k : path) : string :=
  match k with [] => "" | [x] => x | x :: r => (x ++ "/" ++ key_string r)%string end.
(** store.rs:349-356 [params_key], store.rs:359-379 [model_key]; [major] is the major version of the package. *)
Definition params_key (major hash : string) : path := ["Params"; major; hash]%string.
Definition model_key (hash strategy : string) (input_hash : option string) : path :=
  match input_hash with Some i => ["Model"; hash; strategy; i] | None => ["Model"; hash; strategy] end%string.

Section Store.
Context {V B P : Type} (enc : V -> B) (dec : B -> option V).

Inductive node := Dir | File (b : B).
Definition fsys := path -> option node.
Definition backend := path -> option B.

Inductive action := AExists (p : path) | ARead (p : path) | AMkdir (p : path) | AWrite (p : path) (b : B)
  | AGet (k : path) | AHead (k : path) | APut (k : path) (b : B).
Inductive answer := Yes | No | Data (b : B) | Err.
Inductive reply := Fail | Params (o : option V) | Done | Value (v : V) | Proofs (l : list P).
Inductive prog := Ret (r : reply) | Do (a : action) (f : answer -> prog).
Fixpoint bind (p : prog) (g : reply -> prog) : prog := match p with Ret r => g r | Do a f => Do a (fun x => bind (f x) g) end.

(** The effects.  [create_dir_all p] makes [p] itself a directory; writing to and reading from a directory fails. *)
Definition set_dirs (f : fsys) (p : path) : fsys := fun q => if prefixb q p then match f q with Some x => Some x | None => Some Dir end else f q.
Definition set_file (f : fsys) (p : path) (b : B) : fsys := fun q => if path_eq q p then Some (File b) else f q.
Definition set_key (s : backend) (k : path) (b : B) : backend := fun q => if path_eq q k then Some b else s q.
Inductive exec : action -> fsys * backend -> answer -> fsys * backend -> Prop :=
| XErr a f s : exec a (f, s) Err (f, s)
| XExists p f s : exec (AExists p) (f, s) (match f p with Some _ => Yes | None => No end) (f, s)
| XRead p f s b : f p = Some (File b) -> exec (ARead p) (f, s) (Data b) (f, s)
| XMkdir p f s : (forall q, prefixb q p = true -> forall b, f q <> Some (File b)) -> exec (AMkdir p) (f, s) Yes (set_dirs f p, s)
| XMkdirPart p f s f' : (forall q, f' q = f q \/ (f q = None /\ f' q = Some Dir)) -> exec (AMkdir p) (f, s) Err (f', s)
| XWrite p b f s : f p <> Some Dir -> exec (AWrite p b) (f, s) Yes (set_file f p b, s)
| XWritePart p b b' f s : f p <> Some Dir -> exec (AWrite p b) (f, s) Err (set_file f p b', s)
| XGet k f s b : s k = Some b -> exec (AGet k) (f, s) (Data b) (f, s)
| XGetNone k f s : s k = None -> exec (AGet k) (f, s) No (f, s)
| XHead k f s : exec (AHead k) (f, s) (match s k with Some _ => Yes | None => No end) (f, s)
| XPut k b f s : exec (APut k b) (f, s) Yes (f, set_key s k b)
| XPutLost k b f s : exec (APut k b) (f, s) Err (f, set_key s k b).

(** ** The store operations *)
Inductive kind := Mem | S3 | S3Cached.
(** Writing a value to the cache, then going on (store.rs:134-142, 169-177, 233-241, 250-258). *)
Definition to_cache (kd : kind) (k : path) (b : B) (p : prog) : prog :=
  match kd with
  | S3Cached => Do (AMkdir k) (fun r => match r with Yes => Do (AWrite k b) (fun r => match r with Yes => p | _ => Ret Fail end) | _ => Ret Fail end)
  | _ => p
  end.
(** Reading through the cache (store.rs:116-127, 214-225). *)
Definition from_cache (kd : kind) (k : path) (hit : V -> prog) (miss : prog) : prog :=
  match kd with
  | S3Cached => Do (AExists k) (fun r => match r with
      | Yes => Do (ARead k) (fun r => match r with Data b => match dec b with Some v => hit v | None => Ret Fail end | _ => Ret Fail end)
      | No => miss
      | _ => Ret Fail end)
  | _ => miss
  end.
(** [S3Store::get_params] (store.rs:108-152), [MemStore::get_params] (store.rs:285-294). *)
Definition get_params (kd : kind) (k : path) : prog :=
  from_cache kd k (fun v => Ret (Params (Some v)))
    (Do (AGet k) (fun r => match r with
      | Data b => match dec b with Some v => to_cache kd k b (Ret (Params (Some v))) | None => Ret Fail end
      | No => Ret (Params None)
      | _ => Ret Fail end)).
(** [S3Store::insert_params] (store.rs:154-199): the cache is written first, if nothing is there; any answer to the HEAD request
    but success lets the value be put.  [MemStore::insert_params] (store.rs:296-307). *)
Definition insert_params (kd : kind) (k : path) (v : V) : prog :=
  let put := Do (APut k (enc v)) (fun r => match r with Yes => Ret Done | _ => Ret Fail end) in
  let checked := Do (AHead k) (fun r => match r with Yes => Ret Fail | _ => put end) in
  match kd with
  | Mem => put
  | S3 => checked
  | S3Cached => Do (AExists k) (fun r => match r with Yes => checked | No => to_cache kd k (enc v) checked | _ => Ret Fail end)
  end.
(** [S3Store::get_or_init_model_with] (store.rs:201-271), [MemStore::get_or_init_model_with] (store.rs:309-335); [init] is the outcome
    of the initialisation. *)
Definition get_or_init (kd : kind) (k : path) (init : option V) : prog :=
  from_cache kd k (fun v => Ret (Value v))
    (Do (AGet k) (fun r => match r with
      | Data b => match dec b with Some v => to_cache kd k b (Ret (Value v)) | None => Ret Fail end
      | No => match init with
              | Some v => to_cache kd k (enc v) (Do (APut k (enc v)) (fun r => match r with Yes => Ret (Value v) | _ => Ret Fail end))
              | None => Ret Fail end
      | _ => Ret Fail end)).
(** [run_model_v1] (main.rs:33-144): [gen] is the context generation, which returns the parameters to be stored, [prove] the proof
    generation for the whole batch. *)
Definition run_model (kd : kind) (pk mk : path) (init : option V) (gen : option V -> V -> option V) (prove : V -> V -> option (list P)) : prog :=
  bind (get_params kd pk) (fun r => match r with
    | Params o => bind (get_or_init kd mk init) (fun r => match r with
        | Value m => match gen o m with
            | Some pp =>
                let fin := match prove pp m with Some l => Ret (Proofs l) | None => Ret Fail end in
                match o with Some _ => fin | None => bind (insert_params kd pk pp) (fun r => match r with Done => fin | _ => Ret Fail end) end
            | None => Ret Fail end
        | _ => Ret Fail end)
    | _ => Ret Fail end).

Inductive call := CGet (k : path) | CInsert (k : path) (v : V) | CModel (k : path) (init : option V)
  | CRun (pk mk : path) (init : option V) (gen : option V -> V -> option V) (prove : V -> V -> option (list P)).
Definition prog_of (kd : kind) (c : call) : prog :=
  match c with
  | CGet k => get_params kd k | CInsert k v => insert_params kd k v | CModel k i => get_or_init kd k i
  | CRun pk mk i g pr => run_model kd pk mk i g pr end.
Definition touches (c : call) (k : path) : Prop :=
  match c with CGet k' | CInsert k' _ | CModel k' _ => k' = k | CRun pk mk _ _ _ => pk = k \/ mk = k end.

(** ** The system: processes, each with a kind of store and its own cache, and the shared backend (for [Mem]: the shared map) *)
Record world := mkW { w_fs : nat -> fsys; w_s3 : backend; w_thr : list (nat * call * prog); w_log : list (nat * call * reply) }.
Definition no_fs : fsys := fun p => match p with [] => Some Dir | _ => None end.
Definition init_world (s : backend) : world := mkW (fun _ => no_fs) s [] [].
Definition set_fs (fs : nat -> fsys) (p : nat) (f : fsys) : nat -> fsys := fun q => if Nat.eq_dec q p then f else fs q.
Inductive label := LStart (p : nat) (c : call) | LAct (p : nat) (c : call) (a : action) (r : answer) | LRet (p : nat) (c : call) (r : reply) | LCrash (p : nat).
Inductive step (kinds : nat -> kind) : label -> world -> world -> Prop :=
| SStart p c w : step kinds (LStart p c) w (mkW (w_fs w) (w_s3 w) ((p, c, prog_of (kinds p) c) :: w_thr w) (w_log w))
| SAct p c a f r t1 t2 fs s log fs' s' : exec a (fs p, s) r (fs', s') ->
    step kinds (LAct p c a r) (mkW fs s (t1 ++ (p, c, Do a f) :: t2) log) (mkW (set_fs fs p fs') s' (t1 ++ (p, c, f r) :: t2) log)
| SRet p c r t1 t2 fs s log :
    step kinds (LRet p c r) (mkW fs s (t1 ++ (p, c, Ret r) :: t2) log) (mkW fs s (t1 ++ t2) ((p, c, r) :: log))
| SCrash p w : step kinds (LCrash p) w
    (mkW (set_fs (w_fs w) p no_fs) (w_s3 w) (filter (fun t => negb (fst (fst t) =? p)) (w_thr w)) (w_log w)).
Inductive steps (kinds : nat -> kind) : world -> list label -> world -> Prop :=
| SNil w : steps kinds w [] w
| SCons w l w1 ls w' : step kinds l w w1 -> steps kinds w1 ls w' -> steps kinds w (l :: ls) w'.
End Store.
