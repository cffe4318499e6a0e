(** Property theorems C07-C10: sumcheck.  Statements only. *)
From Coq Require Import List Arith Lia Bool ZArith Field Permutation.
From Verif Require Import ListAux FieldDef FpInst PolyList MleMath M_Mle P_Mle M_Interp M_Sumcheck
  P_ScVerify P_ScProve P_ScProve2 P_ScBatch P_ScFinal M_ScParallel P_ScParallel P_ScApi.
Import ListNotations.
Local Open Scope F_scope.

(** ** C07: completeness *)
(** What [add_mle_list] builds is the sum of products the caller asked for. *)
Theorem C07_build : forall (K : field) (heap : nat -> dmle K) nv terms,
  0 < nv -> terms <> [] -> wf_terms heap nv terms ->
  exists t p, build heap terms ([], vp_new nv) = Some (t, p) /\ wf_vp p /\ vp_nv p = nv /\
    vp_deg p = fold_right Nat.max 0%nat (map (fun cp => length (snd cp)) terms) /\
    forall pt, vp_val p pt =
      fsum (map (fun cp => fst cp * fprod (map (fun a => mle (tbl (heap a)) (firstn (num_vars (heap a)) pt)) (snd cp))) terms).
Proof. exact @build_new. Qed.
Print Assumptions C07_build.

(** [VirtualPolynomial::evaluate] computes that value. *)
Theorem C07_evaluate : forall (K : field) sched (p : @vp K) pt,
  wf_vp p -> length pt = vp_nv p -> (forall n, valid_sched n (sched n)) ->
  vp_evaluate sched p pt = Some (vp_val p pt).
Proof. exact @vp_evaluate_ok. Qed.
Print Assumptions C07_evaluate.

(** Build, prove (with any parallel schedule) and verify: the true sum over the cube is accepted and
    the sub-claim is the value at the challenge point. *)
Theorem C07_completeness : forall (K : field) (T : @hist K -> K) ncpus heap nv terms h,
  0 < ncpus -> 0 < nv -> terms <> [] -> wf_terms heap nv terms -> char_gt K 5 ->
  exists t p, build heap terms ([], vp_new nv) = Some (t, p) /\ vp_nv p = nv /\
    (forall scs, (forall i, i < nv -> valid_rsched p i (scs i)) ->
     exists pf st h', prove_parallel T ncpus scs p h = Some (pf, st, h') /\ length (pf_point pf) = nv /\
      ((forall r, In r (pf_point pf) -> not_node (vp_deg p) r) ->
       verify T (sumn (2 ^ nv) (fun b => terms_val heap terms (bpt nv b))) pf nv (vp_deg p) h
         = Some (pf_point pf, terms_val heap terms (pf_point pf), h'))).
Proof. exact @terms_completeness. Qed.
Print Assumptions C07_completeness.

(** The prover also returns the value of every table at the challenge point. *)
Theorem C07_final_evaluations : forall (K : field) (T : @hist K -> K) ncpus scs p h,
  0 < ncpus -> char_gt K (vp_deg p) -> wf_vp p -> (forall i, i < vp_nv p -> valid_rsched p i (scs i)) ->
  exists pf st h', prove_parallel T ncpus scs p h = Some (pf, st, h') /\
    length (pf_point pf) = vp_nv p /\
    get_mle_final_evaluations st = Some (map (fun m => mval m (pf_point pf)) (vp_mles p)) /\
    ((forall r, In r (pf_point pf) -> not_node (vp_deg p) r) ->
     verify T (hsum (vp_nv p) (vp_val p)) pf (vp_nv p) (vp_deg p) h = Some (pf_point pf, vp_val p (pf_point pf), h')).
Proof. exact @parallel_completeness. Qed.
Print Assumptions C07_final_evaluations.

(** The same for the channel-based multi-threaded prover. *)
Theorem C07_batch_completeness : forall (K : field) (T : @hist K -> K) ncpus ords ford L nv deg polys h,
  0 < ncpus -> char_gt K deg -> wf_batch L nv deg polys ->
  (forall i, i < nv -> Permutation (ords i) (seq 0 (2 ^ L - 1))) -> Permutation ford (seq 0 (2 ^ L)) ->
  exists pf st h', prove_batch_polys T ncpus ords ford (2 ^ L) polys h = Some (pf, st, h') /\
    length (pf_point pf) = (nv + L)%nat /\
    get_mle_final_evaluations st =
      Some (map (fun i => batch_mle polys i (firstn nv (pf_point pf)) (skipn nv (pf_point pf)))
                (seq 0 (length (vp_mles (nth 0 polys dvp))))) /\
    ((forall r, In r (pf_point pf) -> not_node deg r) ->
     verify T (hsum (nv + L) (batch_val nv polys)) pf (nv + L) deg h
       = Some (pf_point pf, batch_val nv polys (pf_point pf), h')).
Proof. exact @batch_completeness. Qed.
Print Assumptions C07_batch_completeness.

Definition ex_heap (a : nat) : dmle F101 :=
  match a with
  | 0 => mkMle (Ext (q_list [3; 1; 4; 1]%Z)) 2
  | 1 => mkMle (Base (q_list [2; 7; 1; 8]%Z)) 2
  | _ => mkMle (Ext (q_list [5; 9]%Z)) 1
  end.
Definition ex_terms : list (F101 * list nat) := [(q 3, [0; 1; 0]%nat); (q 2, [2]%nat)].
Definition ex_T (h : @hist F101) : F101 := q (50 + 3 * Z.of_nat (length h)).
Example C07_ex_terms : wf_terms ex_heap 2 ex_terms /\ char_gt F101 5 /\ ex_terms <> [].
Proof.
  split; [|split; [apply Fp_char; reflexivity|discriminate]].
  intros c ps [H|[H|[]]]; injection H as <- <-; (split; [discriminate|]); (split; [simpl; lia|]); split;
    intros; simpl in *; repeat match goal with H : _ \/ _ |- _ => destruct H end; subst; try contradiction; simpl; auto;
    (split; [split; [reflexivity|split; [simpl; auto|reflexivity]]|lia]).
Qed.
(** Schedules: combine in order. *)
Definition ex_left (l : list nat) : ptree nat := PNode (PLeaf (firstn 1 l)) (PLeaf (skipn 1 l)).
Definition ex_sc (k : nat) : rsched :=
  mkRs (fun i => seq 0 (2 ^ ((match i with 2 => 1 | _ => 2 end) - (k - 1)) / 2))
       (fun i => ex_left (evens (2 ^ ((match i with 1 => 1 | _ => 2 end) - k)))) (ex_left [0; 1]%nat).
Example C07_ex_sched : exists t p, build ex_heap ex_terms ([], vp_new 2) = Some (t, p) /\
  forall i, i < 2 -> valid_rsched p i (ex_sc i).
Proof.
  eexists. eexists. split; [reflexivity|]. intros [|[|i]] Hi; [| |lia]; constructor; try (intros; lia);
    cbn [vp_products vp_mles length]; try apply Permutation_refl.
  all: intros [|[|q0]] Hq Hk; try (cbn in Hq; lia); cbn in Hk; try lia; apply Permutation_refl.
Qed.
(** The run itself: the sum over the cube is accepted, a different sum is not. *)
Example C07_ex_run :
  match build ex_heap ex_terms ([], vp_new 2) with
  | Some (_, p) => match prove_parallel ex_T 3 ex_sc p [] with
     | Some (pf, _, _) =>
        match verify ex_T (sumn (2 ^ 2) (fun b => terms_val ex_heap ex_terms (bpt 2 b))) pf 2 (vp_deg p) [],
              verify ex_T (sumn (2 ^ 2) (fun b => terms_val ex_heap ex_terms (bpt 2 b)) + 1) pf 2 (vp_deg p) [] with
        | Some (rs, e, _), None => (map (@fpv 101) rs, fpv 101 e) = (map (@fpv 101) (pf_point pf), fpv 101 (terms_val ex_heap ex_terms rs))
        | _, _ => False
        end
     | None => False end
  | None => False end.
Proof. vm_compute. reflexivity. Qed.

(** ** C08: soundness *)
(** An accepted wrong claim whose final sub-claim is nevertheless true forces some round challenge
    to be a root of a nonzero polynomial of degree at most [deg]; that polynomial depends only on
    messages 0..i and challenges 0..i-1, and the challenge is sampled after message [i] is absorbed. *)
Theorem C08_wrong_claim_needs_root : forall (K : field) (T : @hist K -> K) claimed pf nv deg h rs e h' g,
  char_gt K deg -> 0 < nv -> indiv_deg deg nv g ->
  verify T claimed pf nv deg h = Some (rs, e, h') ->
  claimed <> sumn (2 ^ nv) (fun b => g (bpt nv b)) -> e = g rs ->
  rs = map (challenge_of T (h_init nv deg h) (pf_proofs pf)) (seq 0 nv) /\ root_event T nv deg g h pf.
Proof. exact @verify_sound. Qed.
Print Assumptions C08_wrong_claim_needs_root.

(** Against uniformly sampled challenges: every adaptive prover is caught except on at most
    n*d*|S|^(n-1) of the |S|^n challenge vectors. *)
Theorem C08_cheating_count : forall (K : field) (S : list K) n (p : @vp K) claim strat,
  char_gt K (vp_deg p) -> NoDup S -> wf_vp p ->
  claim <> sumn (2 ^ n) (fun b => vp_val p (bpt n b)) ->
  length (filter (fun rs => match interactive (vp_deg p) claim (map (fun i => strat (firstn i rs)) (seq 0 (length rs))) rs with
                            | Some e => e =? vp_val p rs | None => false end) (vecs S n))
    <= n * vp_deg p * length S ^ (n - 1).
Proof. exact @sumcheck_count. Qed.
Print Assumptions C08_cheating_count.
Theorem C08_all_vectors : forall (K : field) (S : list K) n, length (vecs S n) = (length S ^ n)%nat.
Proof. exact @vecs_count. Qed.

(** Every virtual polynomial satisfies the degree hypothesis. *)
Theorem C08_virtual_poly_degree : forall (K : field) (p : @vp K) n, wf_vp p -> indiv_deg (vp_deg p) n (vp_val p).
Proof. exact @vp_val_indiv_deg. Qed.
Print Assumptions C08_virtual_poly_degree.

(** A concrete cheating run: g(x) = x (sum 1); the prover claims 3 with message (1,2), that is 1+x
    instead of x.  The difference is the constant 1: no root, so the sub-claim is never true. *)
Example C08_ex : match verify ex_T (q 3) (mkProof [] [q_list [1; 2]%Z]) 1 1 [] with
  | Some ([r], e, _) => fpv 101 e <> fpv 101 r
  | _ => False end.
Proof. vm_compute. discriminate. Qed.
(** The bound is not vacuous: with g(x) = x and message p(x) = x + (x - 53), a challenge of 53 is the
    root of p - g, and the wrong claim p(0) + p(1) is accepted with a true sub-claim. *)
Definition ex_Tc (h : @hist F101) : F101 := q 53.
Example C08_ex_lucky : match verify ex_Tc (q 0 - q 53 + (q 1 + (q 1 - q 53))) (mkProof [] [[q 0 - q 53; q 1 + (q 1 - q 53)]]) 1 1 [] with
  | Some ([r], e, _) => fpv 101 e = fpv 101 r /\ fpv 101 (q 0 - q 53 + (q 1 + (q 1 - q 53))) <> 1%Z
  | _ => False end.
Proof. vm_compute. split; [reflexivity|discriminate]. Qed.

(** ** C09: deferred checks *)
Theorem C09_deferred_is_interactive : forall (K : field) (T : @hist K -> K) claimed pf nv deg h, 0 < nv ->
  verify T claimed pf nv deg h = iverify T deg claimed nv (pf_proofs pf) (h_init nv deg h).
Proof. exact @verify_iverify. Qed.
Print Assumptions C09_deferred_is_interactive.
Theorem C09_short_proof_rejected : forall (K : field) (T : @hist K -> K) claimed pf nv deg h,
  length (pf_proofs pf) < nv -> verify T claimed pf nv deg h = None.
Proof. exact @verify_short. Qed.
Print Assumptions C09_short_proof_rejected.
Theorem C09_wrong_length_rejected : forall (K : field) (T : @hist K -> K) claimed pf nv deg h i m,
  nth_error (pf_proofs pf) i = Some m -> i < nv -> length m <> (deg + 1)%nat -> verify T claimed pf nv deg h = None.
Proof. exact @verify_wrong_length. Qed.
Print Assumptions C09_wrong_length_rejected.
Theorem C09_extra_rounds_and_point_ignored : forall (K : field) (T : @hist K -> K) claimed pt pt' msgs extra nv deg h,
  length msgs = nv ->
  verify T claimed (mkProof pt (msgs ++ extra)) nv deg h = verify T claimed (mkProof pt' msgs) nv deg h.
Proof. exact @verify_point_irrelevant. Qed.
Print Assumptions C09_extra_rounds_and_point_ignored.
Definition accepted {A} (o : option A) : bool := match o with Some _ => true | None => false end.
Example C09_ex : accepted (iverify ex_T 1 (q 3) 1 [q_list [1; 2]%Z] (h_init 1 1 [])) = true
  /\ accepted (verify ex_T (q 3) (mkProof [] [q_list [1; 2; 3]%Z]) 1 1 []) = false
  /\ accepted (verify ex_T (q 3) (mkProof [] []) 1 1 []) = false
  /\ accepted (verify ex_T (q 3) (mkProof [] [q_list [1; 2]%Z; []]) 1 1 []) = true.
Proof. vm_compute. auto. Qed.

(** ** C10: parallel provers agree *)
(** [polys] is [p] cut into 2^L consecutive parts ([is_split]).  Multi-threaded, single-threaded and
    rayon-parallel provers send the same messages, leave the same transcript and return the same
    final evaluations, for all arrival orders and schedules. *)
Theorem C10_threads_agree : forall (K : field) (T : @hist K -> K) ncpus ncpus' scs ords ford L nv p polys h,
  0 < ncpus -> 0 < ncpus' -> 0 < nv -> char_gt K (vp_deg p) -> wf_vp p -> is_split L nv p polys ->
  (forall i, i < nv -> Permutation (ords i) (seq 0 (2 ^ L - 1))) -> Permutation ford (seq 0 (2 ^ L)) ->
  (forall i, i < vp_nv p -> valid_rsched p i (scs i)) ->
  exists pf h' st st1 st2 evals,
    prove_batch_polys T ncpus ords ford (2 ^ L) polys h = Some (pf, st, h') /\
    prove_batch_polys T ncpus' (fun _ => []) [0%nat] 1 [p] h = Some (pf, st1, h') /\
    prove_parallel T ncpus' scs p h = Some (pf, st2, h') /\
    get_mle_final_evaluations st = Some evals /\ get_mle_final_evaluations st1 = Some evals /\
    get_mle_final_evaluations st2 = Some evals.
Proof. exact @threads_agree. Qed.
Print Assumptions C10_threads_agree.

Definition ex_whole : @vp F101 := mkVp 2 3 [(q 3, [0; 1]%nat)]
  [mkMle (Ext (q_list [3; 1; 4; 1; 5; 9; 2; 6]%Z)) 3; mkMle (Ext (q_list [2; 7; 1; 8; 2; 8; 1; 8]%Z)) 3].
Definition ex_parts : list (@vp F101) :=
  [mkVp 2 1 [(q 3, [0; 1]%nat)] [mkMle (Ext (q_list [3; 1]%Z)) 1; mkMle (Ext (q_list [2; 7]%Z)) 1];
   mkVp 2 1 [(q 3, [0; 1]%nat)] [mkMle (Ext (q_list [4; 1]%Z)) 1; mkMle (Ext (q_list [1; 8]%Z)) 1];
   mkVp 2 1 [(q 3, [0; 1]%nat)] [mkMle (Ext (q_list [5; 9]%Z)) 1; mkMle (Ext (q_list [2; 8]%Z)) 1];
   mkVp 2 1 [(q 3, [0; 1]%nat)] [mkMle (Ext (q_list [2; 6]%Z)) 1; mkMle (Ext (q_list [1; 8]%Z)) 1]].
Example C10_ex_split : is_split 2 1 ex_whole ex_parts /\ Permutation [2; 0; 1]%nat (seq 0 3).
Proof.
  split.
  - constructor; auto.
    + intros [|[|i]] Hi; [split; reflexivity..|]. simpl in Hi. lia.
    + intros p Hp. simpl in Hp. repeat destruct Hp as [<-|Hp]; try contradiction;
        (split; [auto|split; [auto|split; [auto|split; [auto|]]]]; intros m Hm; simpl in Hm;
         repeat destruct Hm as [<-|Hm]; try contradiction;
         (split; [split; [reflexivity|split; [simpl; auto|reflexivity]]|reflexivity])).
  - apply NoDup_Permutation; [repeat constructor; simpl; intuition discriminate|apply seq_NoDup|].
    intros x. simpl. intuition.
Qed.
Example C10_ex_run :
  match prove_batch_polys ex_T 3 (fun _ => [2; 0; 1]%nat) [3; 1; 0; 2]%nat 4 ex_parts [],
        prove_batch_polys ex_T 2 (fun _ => []) [0%nat] 1 [ex_whole] [] with
  | Some (pf, _, _), Some (pf', _, _) =>
      map (map (@fpv 101)) (pf_proofs pf) = map (map (@fpv 101)) (pf_proofs pf') /\ length (pf_proofs pf) = 3%nat
  | _, _ => False end.
Proof. vm_compute. auto. Qed.
