(** Properties C69 and C70: text generation, and the cache of keys and values. *)
From Coq Require Import List Arith Lia Bool ZArith.
From Verif Require Import ListAux FieldDef M_Mle M_Tensor P_Tensor M_Driver P_Driver.
Import ListNotations.

(** ** A model for the examples: each token is answered by its successor *)
Definition succ_model (ins : list (ten nat)) : option (list (ten nat)) :=
  match ins with [x] => Some [mkTen [length (dat x); 1] (map S (dat x))] | _ => None end.
Lemma succ_causal : causal_model succ_model.
Proof.
  intros a b oa ob _ Ha Hb. injection Ha as <-. injection Hb as <-. exists [], [], (mkTen [length a; 1] (map S a)), (mkTen [length (a ++ b); 1] (map S (a ++ b))).
  split; [reflexivity|]. split; [reflexivity|]. cbn [dat]. split; [apply map_length|]. split; [apply map_length|].
  rewrite firstn_map, firstn_app, firstn_all, Nat.sub_diag. cbn [firstn]. rewrite app_nil_r. reflexivity.
Qed.
Definition tr_of (s : list nat) : trace nat := mkTrace [mkTen [length s] s] [mkTen [length s; 1] (map S s)].

(** Whenever generation returns, the returned trace is a run of the model on the prompt followed by a generated text; each generated token is the last entry of the answer of the model to everything before it, none is the end token, the text fits the window, and generation stopped at the end token or because the window was full. *)
Theorem C69_greedy :
  forall (N : Type) (neqb : N -> N -> bool) (of_usize : nat -> N) (run : list (ten N) -> option (list (ten N)))
    (context_length : nat) (eos : N) (max_context : option nat) (input : list nat) (tr : trace N)
    (obs : list (nat * trace N)),
  run_inference neqb of_usize run context_length eos max_context input = Some (tr, obs) ->
  length input < window context_length max_context ->
  exists (gen : list N) (lastt : N),
    let prompt := map of_usize input in
    greedy neqb run eos prompt gen /\
    run_trace run (prompt ++ gen) tr /\
    ends_with (tr_output tr) lastt /\
    length input + length gen < window context_length max_context /\
    (neqb lastt eos = true \/ S (length input + length gen) = window context_length max_context).
Proof. exact @inference_greedy. Qed.
Print Assumptions C69_greedy.
Example C69_greedy_ex : run_inference Nat.eqb (fun n => n) succ_model 20 7 None [3; 4] = Some (tr_of [3; 4; 5; 6], [(1, tr_of [3; 4]); (2, tr_of [3; 4; 5])]) /\
  run_inference Nat.eqb (fun n => n) succ_model 20 7 (Some 3) [3; 4] = Some (tr_of [3; 4], [(1, tr_of [3; 4])]) /\ 2 < window 20 None /\ 2 < window 20 (Some 3).
Proof. split; [vm_compute; reflexivity|]. split; [vm_compute; reflexivity|]. cbn. lia. Qed.

(** The observer is called once for each run whose answer is appended, in order and numbered from 1, with the trace of the run on the prompt and the tokens generated before. *)
Theorem C69_observed :
  forall (N : Type) (neqb : N -> N -> bool) (of_usize : nat -> N) (run : list (ten N) -> option (list (ten N)))
    (context_length : nat) (eos : N) (max_context : option nat) (input : list nat) (tr : trace N)
    (obs : list (nat * trace N)),
  run_inference neqb of_usize run context_length eos max_context input = Some (tr, obs) ->
  length input < window context_length max_context ->
  exists (gen : list N) (lastt : N),
    let prompt := map of_usize input in
    greedy neqb run eos prompt gen /\
    run_trace run (prompt ++ gen) tr /\
    ends_with (tr_output tr) lastt /\
    length obs = (if neqb lastt eos then length gen else S (length gen)) /\
    (forall j : nat,
     j < length obs ->
     exists t : trace N, nth_error obs j = Some (S j, t) /\ run_trace run (prompt ++ firstn j gen) t).
Proof. exact @inference_observed. Qed.
Print Assumptions C69_observed.
Example C69_observed_ex : exists tr obs, run_inference Nat.eqb (fun n => n) succ_model 20 7 (Some 9) [1; 2] = Some (tr, obs) /\ map fst obs = [1; 2; 3; 4] /\ tr = tr_of [1; 2; 3; 4; 5; 6].
Proof. do 2 eexists. split; [vm_compute; reflexivity|]. split; reflexivity. Qed.

(** Generation returns, for every prompt shorter than the context less one, when the model answers every sequence of valid tokens with a column of valid tokens; [P] says which tokens are valid. *)
Theorem C69_total :
  forall (N : Type) (neqb : N -> N -> bool) (of_usize : nat -> N) (run : list (ten N) -> option (list (ten N)))
    (P : N -> Prop) (context_length : nat) (eos : N) (max_context : option nat) (input : list nat),
  S (length input) < context_length ->
  Forall P (map of_usize input) ->
  (forall s : list N,
   Forall P s ->
   length input <= length s ->
   length s < window context_length max_context ->
   exists (o o' : list (ten N)) (t : ten N) (m : nat),
     run [vec s] = Some o /\ o = o' ++ [t] /\ sh t = [m; 1] /\ 0 < m /\ wft t /\ Forall P (dat t)) ->
  exists (tr : trace N) (obs : list (nat * trace N)),
    run_inference neqb of_usize run context_length eos max_context input = Some (tr, obs).
Proof. exact @inference_total. Qed.
Print Assumptions C69_total.
Example C69_total_ex : exists tr obs, run_inference Nat.eqb (fun n => n) succ_model 9 100 None [1; 2] = Some (tr, obs).
Proof.
  apply (C69_total _ _ _ _ (lt 0)); [cbn; lia|repeat constructor|]. intros s H0 H1 H2. exists [mkTen [length s; 1] (map S s)], [], (mkTen [length s; 1] (map S s)), (length s).
  repeat split; [cbn in H1; lia| |].
  - unfold wft. cbn [dat sh sprod fold_right]. rewrite map_length. lia.
  - cbn [dat]. apply Forall_map, Forall_forall. intros x _. lia.
Qed.

(** A prompt that leaves no room for a token is refused. *)
Theorem C69_refuses :
  forall (N : Type) (neqb : N -> N -> bool) (of_usize : nat -> N) (run : list (ten N) -> option (list (ten N)))
    (context_length : nat) (eos : N) (max_context : option nat) (input : list nat),
  context_length <= S (length input) ->
  run_inference neqb of_usize run context_length eos max_context input = None.
Proof. exact @inference_refuses. Qed.
Print Assumptions C69_refuses.
Example C69_refuses_ex : run_inference Nat.eqb (fun n => n) succ_model 4 100 None [1; 2; 3] = None /\ run_inference Nat.eqb (fun n => n) succ_model 5 100 None [1; 2; 3] <> None.
Proof. split; [reflexivity|discriminate]. Qed.

(** If the window does not exceed the context, then the model is never run on a sequence as long as the context. *)
Theorem C69_context :
  forall (N : Type) (neqb : N -> N -> bool) (of_usize : nat -> N) (run : list (ten N) -> option (list (ten N)))
    (context_length : nat) (eos : N) (max_context : option nat) (input : list nat) (tr : trace N)
    (obs : list (nat * trace N)),
  window context_length max_context <= context_length ->
  run_inference neqb of_usize run context_length eos max_context input = Some (tr, obs) ->
  forall t : trace N,
  t = tr \/ (exists j : nat, In (j, t) obs) ->
  forall x : ten N, In x (tr_input t) -> length (dat x) < context_length.
Proof. exact @inference_context. Qed.
Print Assumptions C69_context.
Example C69_context_ex : exists tr obs, run_inference Nat.eqb (fun n => n) succ_model 5 100 None [1; 2] = Some (tr, obs) /\ window 5 None <= 5 /\ tr = tr_of [1; 2; 3; 4].
Proof. do 2 eexists. split; [vm_compute; reflexivity|]. split; [cbn; lia|reflexivity]. Qed.

(** For a causal model, the answers in the returned trace, from the last position of the prompt on, are the whole generated text and the token after it: one trace suffices to prove the generation. *)
Theorem C69_whole :
  forall (N : Type) (neqb : N -> N -> bool) (of_usize : nat -> N) (run : list (ten N) -> option (list (ten N)))
    (context_length : nat) (eos : N) (max_context : option nat) (input : list nat) (tr : trace N)
    (obs : list (nat * trace N)),
  causal_model run ->
  input <> [] ->
  run_inference neqb of_usize run context_length eos max_context input = Some (tr, obs) ->
  length input < window context_length max_context ->
  exists (gen : list N) (lastt : N) (rest : list (ten N)) (out : ten N),
    greedy neqb run eos (map of_usize input) gen /\
    tr_input tr = [vec (map of_usize input ++ gen)] /\
    tr_output tr = rest ++ [out] /\
    skipn (length input - 1) (dat out) = gen ++ [lastt] /\
    (neqb lastt eos = true \/ S (length input + length gen) = window context_length max_context).
Proof. exact @inference_whole. Qed.
Print Assumptions C69_whole.
Example C69_whole_ex : causal_model succ_model /\ exists tr obs, run_inference Nat.eqb (fun n => n) succ_model 20 7 None [3; 4] = Some (tr, obs) /\
  map (fun o => skipn 1 (dat o)) (tr_output tr) = [[5; 6; 7]].
Proof. split; [exact succ_causal|]. do 2 eexists. split; [vm_compute; reflexivity|reflexivity]. Qed.

(** If the window set by the user is not larger than the prompt, then generation succeeds with an empty trace, for every model: the model was not run, and a caller that takes the last output panics. *)
Theorem C69_empty_refuted :
  forall (N : Type) (neqb : N -> N -> bool) (of_usize : nat -> N) (run : list (ten N) -> option (list (ten N)))
    (context_length : nat) (eos : N) (m : nat) (input : list nat),
  S (length input) < context_length ->
  m <= length input ->
  run_inference neqb of_usize run context_length eos (Some m) input =
  Some ({| tr_input := []; tr_output := [] |}, []).
Proof. exact @inference_empty. Qed.
Print Assumptions C69_empty_refuted.
Example C69_empty_refuted_ex : run_inference Nat.eqb (fun n => n) succ_model 20 7 (Some 2) [3; 4] = Some (mkTrace [] [], []).
Proof. apply C69_empty_refuted; cbn; lia. Qed.

(** If the window set by the user exceeds the context, then a model that always answers, never with the end token, is run on sequences longer than the context. *)
Theorem C69_context_refuted :
  forall (N : Type) (neqb : N -> N -> bool) (of_usize : nat -> N) (run : list (ten N) -> option (list (ten N)))
    (context_length : nat) (eos : N) (m : nat) (input : list nat),
  S (length input) < context_length ->
  context_length < m ->
  (forall s : list N,
   length input <= length s ->
   exists (t : ten N) (k : nat), run [vec s] = Some [t] /\ sh t = [k; 1] /\ 0 < k /\ wft t) ->
  (forall (o : list (ten N)) (s : list N) (tok : N),
   run [vec s] = Some o -> ends_with o tok -> neqb tok eos = false) ->
  exists (tr : trace N) (obs : list (nat * trace N)),
    run_inference neqb of_usize run context_length eos (Some m) input = Some (tr, obs) /\
    (exists x : ten N, In x (tr_input tr) /\ length (dat x) = m - 1).
Proof. exact @inference_past_context. Qed.
Print Assumptions C69_context_refuted.
Example C69_context_refuted_ex : exists tr obs, run_inference Nat.eqb (fun n => n) succ_model 5 0 (Some 9) [1; 2] = Some (tr, obs) /\ exists x, In x (tr_input tr) /\ length (dat x) = 8.
Proof.
  apply C69_context_refuted; [cbn; lia|lia| |].
  - intros s Hs. exists (mkTen [length s; 1] (map S s)), (length s). repeat split; [cbn in Hs; lia|]. unfold wft. cbn [dat sh sprod fold_right]. rewrite map_length. lia.
  - intros o s tok H (o' & t & l & Eo & Et). injection H as <-. destruct o' as [|x [|y o']]; try discriminate Eo. injection Eo as <-. cbn [dat] in Et.
    assert (In tok (map S s)) as Hi by (rewrite Et; apply in_or_app; right; left; reflexivity). apply in_map_iff in Hi. destruct Hi as (z & <- & _). reflexivity.
Qed.

(** ** The cache *)

(** After any history of rows of keys and values of one width, the cache holds all of them in order. *)
Theorem C70_rows :
  forall (N : Type) (w : nat) (kvs : list (ten N * ten N)),
  kvs <> [] ->
  Forall (fun p : ten N * ten N => sh (fst p) = [1; w] /\ sh (snd p) = [1; w]) kvs ->
  cache_run cache_new kvs =
  Some
    {|
      ca_k := {| sh := [length kvs; w]; dat := concat (map (fun p : ten N * ten N => dat (fst p)) kvs) |};
      ca_v := {| sh := [length kvs; w]; dat := concat (map (fun p : ten N * ten N => dat (snd p)) kvs) |};
      ca_init := true
    |}.
Proof. exact @cache_rows. Qed.
Print Assumptions C70_rows.
Example C70_rows_ex : cache_run cache_new [(mkTen [1; 2] [1; 2], mkTen [1; 2] [3; 4]); (mkTen [1; 2] [5; 6], mkTen [1; 2] [7; 8])] =
  Some (mkCache (mkTen [2; 2] [1; 2; 5; 6]) (mkTen [2; 2] [3; 4; 7; 8]) true).
Proof. reflexivity. Qed.

(** A row without the leading dimension 1 passes the checks of the first call, and then every later call panics, whatever its arguments. *)
Theorem C70_flat_refuted :
  forall (N : Type) (w : nat) (k v k' v' : ten N),
  sh k = [w] -> sh v = [w] -> exists c : cache, cache_stack cache_new k v = Some c /\ cache_stack c k' v' = None.
Proof. exact @cache_flat_panics. Qed.
Print Assumptions C70_flat_refuted.
Example C70_flat_refuted_ex : exists c, cache_stack cache_new (mkTen [2] [1; 2]) (mkTen [2] [3; 4]) = Some c /\ cache_stack c (mkTen [2] [5; 6]) (mkTen [2] [7; 8]) = None.
Proof. apply (C70_flat_refuted nat 2); reflexivity. Qed.

