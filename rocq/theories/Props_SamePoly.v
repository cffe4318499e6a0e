(** Property theorems C11: aggregation of claims about one polynomial.  Statements only. *)
From Coq Require Import List Arith Lia Bool ZArith Field Permutation.
From Verif Require Import ListAux FieldDef FpInst PolyList MleMath M_Mle P_Eq M_Interp M_Sumcheck
  P_ScVerify M_ScParallel P_ScParallel P_ScApi P_Count M_SamePoly P_SamePoly.
Import ListNotations.
Local Open Scope F_scope.

(** If the proof states the point the transcript determines, an accepted aggregation with a true
    returned claim means that all claims are true, or the batching challenges satisfy a nonzero linear
    equation (few do, see [C11_batching_count]), or a sumcheck challenge is a root of a nonzero
    polynomial fixed before it. *)
Theorem C11_soundness_partial : forall (K : field) (T : @hist K -> K) n l claims pf h c h',
  char_gt K 2 -> 0 < n -> length l = 2 ^ n ->
  sp_verify T n claims pf h = Some (c, h') ->
  let cs := fst (read_challenges T (length claims) h) in
  let h1 := snd (read_challenges T (length claims) h) in
  pf_point (sp_sumcheck pf) = sc_point T n 2 h1 (sp_sumcheck pf) ->
  cl_eval c = mle l (cl_point c) ->
  (forall cl, In cl claims -> cl_eval cl = mle l (cl_point cl)) \/
  ((exists i, nth i (errs l claims) 0 <> 0) /\ dot cs (errs l claims) = 0) \/
  root_event T n 2 (agg_poly n l cs claims) h1 (sp_sumcheck pf).
Proof. exact @sp_sound. Qed.
Print Assumptions C11_soundness_partial.

Theorem C11_batching_count : forall (K : field) (S c : list K), NoDup S -> (exists i, nth i c 0 <> 0) ->
  length (filter (fun a => dot a c =? 0) (vecs S (length c))) <= length S ^ (length c - 1).
Proof. exact @linear_count. Qed.
Print Assumptions C11_batching_count.

(** The batching challenges are successive samples of one transcript: no two are sampled from the same
    history. *)
Theorem C11_challenge_history : forall (K : field) (T : @hist K -> K) n h,
  read_challenges T n h = (map (fun i => T (repeat EvSample i ++ h)) (seq 0 n), repeat EvSample n ++ h).
Proof. exact @read_challenges_hist. Qed.
Print Assumptions C11_challenge_history.

(** The verifier does not compare the stated point with the challenges it drew; without that guard a
    false claim is accepted together with a true returned claim.  Here f = [3; 5], the claim is
    f(7) = 18 although f(7) = 17, the transcript always answers 60 and the proof states the point 10. *)
Theorem C11_stated_point_refuted :
  exists (T : @hist F101 -> F101) (l : list F101) (claims : list claim) pf c h',
    sp_verify T 1 claims pf [] = Some (c, h') /\ length l = 2%nat /\
    fpv 101 (cl_eval c) = fpv 101 (mle l (cl_point c)) /\
    exists cl, In cl claims /\ fpv 101 (cl_eval cl) <> fpv 101 (mle l (cl_point cl)).
Proof.
  exists (fun _ => q 60), (q_list [3; 5]%Z), [mkClaim [q 7] (q 18)],
    (mkSp (mkProof [q 10] [q_list [66; 4; 0]%Z]) (q_list [67; 23]%Z)). eexists. eexists.
  split; [reflexivity|]. split; [reflexivity|]. split; [vm_compute; reflexivity|].
  eexists. split; [left; reflexivity|]. vm_compute. discriminate.
Qed.
Print Assumptions C11_stated_point_refuted.

(** Honest proofs are accepted and return a true claim. *)
Theorem C11_completeness : forall (K : field) (T : @hist K -> K) ncpus scs poly claims h n l,
  0 < ncpus -> char_gt K 2 -> 0 < n -> built poly n l ->
  (forall i, i < n -> valid_rsched (K:=K) (sp_shape n) i (scs i)) ->
  (forall c, In c claims -> length (cl_point c) = n /\ cl_eval c = mle l (cl_point c)) ->
  exists pf h', sp_prove T ncpus scs poly claims h = Some (pf, h') /\
    let pt := pf_point (sp_sumcheck pf) in
    length pt = n /\
    ((forall r, In r pt -> not_node 2 r) -> sp_verify T n claims pf h = Some (mkClaim pt (mle l pt), h')).
Proof. exact @sp_complete. Qed.
Print Assumptions C11_completeness.

(** Two claims about a 2-variable polynomial: run of prover and verifier. *)
Definition ex_sp_poly : dmle F101 := mkMle (Base (q_list [3; 1; 4; 1]%Z)) 2.
Definition ex_sp_claims : list (@claim F101) :=
  [mkClaim (q_list [7; 9]%Z) (mle (q_list [3; 1; 4; 1]%Z) (q_list [7; 9]%Z));
   mkClaim (q_list [2; 30]%Z) (mle (q_list [3; 1; 4; 1]%Z) (q_list [2; 30]%Z))].
Definition ex_sp_T (h : @hist F101) : F101 := q (50 + 3 * Z.of_nat (length h)).
Definition ex_sp_sc (k : nat) : rsched :=
  mkRs (fun i => seq 0 (2 ^ (2 - (k - 1)) / 2)) (fun i => PLeaf (evens (2 ^ (2 - k)))) (PLeaf [0%nat]).
Example C11_ex_sched : forall i, i < 2 -> valid_rsched (K:=F101) (sp_shape 2) i (ex_sp_sc i).
Proof.
  intros [|[|i]] Hi; [| |lia]; constructor; try (intros; lia); try apply Permutation_refl;
    intros [|q0] Hq Hk; try (cbn in Hq; lia); apply Permutation_refl.
Qed.
Example C11_ex_run :
  match sp_prove ex_sp_T 2 ex_sp_sc ex_sp_poly ex_sp_claims [] with
  | Some (pf, _) => match sp_verify ex_sp_T 2 ex_sp_claims pf [] with
      | Some (c, _) => map (fpv 101) (cl_point c) = map (fpv 101) (pf_point (sp_sumcheck pf)) /\
                       fpv 101 (cl_eval c) = fpv 101 (mle (q_list [3; 1; 4; 1]%Z) (cl_point c))
      | None => False end
  | None => False end.
Proof. vm_compute. auto. Qed.
