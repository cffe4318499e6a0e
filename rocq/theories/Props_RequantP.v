(** Property C59: what a requantisation proof says about its input and output. *)
From Coq Require Import List Arith Lia Bool ZArith.
From Verif Require Import ListAux FieldDef FpInst FpGold PolyList MleMath M_Mle P_Mle P_Eq M_Interp M_Sumcheck P_ScVerify M_ScParallel P_ScParallel P_ScApi M_SamePoly P_SamePoly P_Count M_LogUp P_LogUp3 P_LogUp8 P_LogUp9
  M_Tensor P_Tensor M_Layers P_Layers2 M_Sop P_Sop P_Transformer5 M_Tables M_Quant P_Quant M_Requant P_Requant P_Requant2 P_Pooling M_RequantP P_RequantP P_RequantP2 P_RequantP3.
Import ListNotations.

(** ** Inputs for the examples *)
Definition z (n : Z) : F101 := mkFp 101 n.
Definition xT (h : @hist F101) : F101 := z (11 + 7 * (Z.of_nat (length h) mod 12)).
Definition not_node_b (deg : nat) (r : F101) : bool := forallb (fun i => negb (feqb r (fnat i))) (seq 0 (S deg)).
Lemma not_node_ok deg r : not_node_b deg r = true -> not_node deg r.
Proof.
  unfold not_node_b. intros H i Hi. rewrite forallb_forall in H. specialize (H i). assert (Hin : In i (seq 0 (S deg))) by (apply in_seq; lia). specialize (H Hin).
  apply negb_true_iff in H. now apply feqb_false.
Qed.
Lemma ch101 n : n < 101 -> char_gt F101 n.
Proof.
  intros Hn i Hi. apply feqb_false. assert (A : forallb (fun i => negb (feqb (fnat i : F101) f0)) (seq 1 100) = true) by (vm_compute; reflexivity).
  rewrite forallb_forall in A. apply negb_true_iff, A, in_seq. lia.
Qed.
Lemma inj101 : small_inj (K := F101) 101.
Proof.
  intros x H Hx. assert (E : @fZ F101 x = mkFp 101 x) by apply (fZ_mk 101 prime_101). rewrite E in H. apply (f_equal (fpv 101)) in H. rewrite fpv_mk in H. change (fpv 101 (@f0 F101)) with 0%Z in H.
  apply Z.mod_divide in H; [|lia]. destruct H as [u ->]. lia.
Qed.
(** Multiplier 5, shift 4, two chunks of two bits, intermediate values of three bits. *)
Definition rq : requant := mkRequant 1 5 3 3.
Definition vals : list Z := [3; -6; 0; 4]%Z.
Definition ws : list row := match omapM (rq_witness1 2 rq) vals with Some w => w | None => [] end.
Definition outs : list Z := map r_out ws.
Example rq_ex : rq_shift rq = 4 /\ outs = [1; -1; 0; 1]%Z /\ map r_in ws = [1; -2; 0; 1]%Z /\ rq_op 2 rq vals = Some outs.
Proof. repeat split. Qed.
Definition last : @claim F101 := mkClaim [z 20; z 30] (mle (map fZ outs) [z 20; z 30]).
Definition prove1 (w : list row) (l : @claim F101) := rqp_prove (C := nat) xT 2 (seq_rsched 3) (seq_sched 2) (seq_rsched 6) (seq_sched 2) (fun i => seq_rsched 5 2 i)
  2 rq (z 10) (z 3) (col r_in w) (col r_out w) (chunk_cols 2 w) [0; 1; 2; 3] l [].

(** ** C59 *)

(** An accepted requantisation proof with one evaluation per column, whose claims are true of columns: the last claim and all lookup claims are true of these columns, and the claim returned for the input is the recombination of their evaluations at the challenge point; otherwise one of the two named events of the run happened. *)
Theorem C59_sound_partial :
  forall (K : field) (C : Type) (T : hist -> K) (B : nat) (r : requant) (cst csc : K) 
    (n : nat) (last : claim) (pf : requant_proof) (h : hist) (p q : list K) (vi vo : K) 
    (vs n1 d1 : list K) (h1 : hist) (n2 d2 : list K) (h2 : hist) (wit : list (C * claim)) 
    (nc : claim) (h' : hist) (cin cout : list K) (chs : list (list K)),
  char_gt K 2 ->
  0 < n ->
  length p = n ->
  vs <> [] ->
  verify_logup T (rp_clamping pf) 1 cst csc h =
  Some ([{| cl_point := p; cl_eval := vi |}; {| cl_point := p; cl_eval := vo |}], n1, d1, h1) ->
  verify_logup T (rp_shifted pf) (rq_shift r / B) cst 1 h1 = Some (map (mkClaim q) vs, n2, d2, h2) ->
  rqp_verify T B r cst csc last pf h = Some (wit, nc, h') ->
  length (rp_evals pf) = S (S (length vs)) ->
  Forall2 claim_true (cin :: cout :: chs) (map snd wit) ->
  length chs = length vs ->
  claim_true cout last /\
  mle cin p = vi /\
  mle cout p = vo /\
  evals_at chs q = vs /\
  cl_point nc = sc_point T n 2 (EvSample :: EvBytes lbl_requant :: h2) (rp_acc pf) /\
  recombine_claims B r (mle cin (cl_point nc)) (evals_at chs (cl_point nc)) = Some (cl_eval nc) \/
  rq_fooled T n (cl_point last) p q (cl_eval last) vo vi vs cin cout chs pf h2.
Proof. exact @rqp_sound. Qed.
Print Assumptions C59_sound_partial.

(** If the rows of the columns are rows of the clamping and range tables and the returned claim is true of an input tensor with bounded entries, then the last claim is true of the requantisation of that tensor (round to nearest, clamp); otherwise one of the named events happened. *)
Theorem C59_layer_partial :
  forall (K : field) (C : Type) (T : hist -> K) (P : Z) (B : nat) (FL : floats) (ls : nat) 
    (r : requant) (cst csc : K) (cs : nat) (rows : list (list Z)) (k n : nat) (last : claim)
    (pf : requant_proof) (h : hist) (p q : list K) (vi vo : K) (vs n1 d1 : list K) (h1 : hist) 
    (n2 d2 : list K) (h2 : hist) (wit : list (C * claim)) (nc : claim) (h' : hist) (ws : list row)
    (vals : list Z) (V : Z),
  small_inj (K := K) P ->
  char_gt K 2 ->
  0 < n ->
  length p = n ->
  vs <> [] ->
  length vs = k ->
  0 < B ->
  rq_shift r = k * B ->
  0 < rq_shift r < 64 ->
  (0 < rq_fpm r < P)%Z ->
  0 < cs ->
  (V * rq_fpm r + zpow2 (rq_shift r) + zpow2 (cs - 1 + rq_shift r) <= P)%Z ->
  verify_logup T (rp_clamping pf) 1 cst csc h =
  Some ([{| cl_point := p; cl_eval := vi |}; {| cl_point := p; cl_eval := vo |}], n1, d1, h1) ->
  verify_logup T (rp_shifted pf) (rq_shift r / B) cst 1 h1 = Some (map (mkClaim q) vs, n2, d2, h2) ->
  rqp_verify T B r cst csc last pf h = Some (wit, nc, h') ->
  length (rp_evals pf) = S (S (length vs)) ->
  Forall2 claim_true (col r_in ws :: col r_out ws :: chunk_cols k ws) (map snd wit) ->
  table_rows B FL ls (TClamping cs) = Some rows ->
  Forall (fun w : row => In [r_in w; r_out w] rows /\ length (snd w) = k /\ Forall (in_range B) (snd w)) ws ->
  claim_true (map fZ vals) nc ->
  Forall (fun v : Z => (Z.abs v <= V)%Z) vals ->
  (exists ys : list Z, Forall2 (requantised B r) vals ys /\ claim_true (map fZ ys) last) \/
  rq_fooled T n (cl_point last) p q (cl_eval last) vo vi vs (col r_in ws) (col r_out ws) (chunk_cols k ws) pf h2 \/
  table_event (err n (recombined B r ws) (map fZ vals)) (cl_point nc).
Proof. exact @rqp_layer_sound. Qed.
Print Assumptions C59_layer_partial.

(** That requantisation is the one the layer computes. *)
Theorem C59_layer_output :
  forall (B : nat) (r : requant) (vals ys outs : list Z),
  Forall2 (requantised B r) vals ys -> rq_op B r vals = Some outs -> 0 < B -> ys = outs.
Proof. exact @requantised_op. Qed.
Print Assumptions C59_layer_output.

(** The honest run meets every hypothesis of the two soundness theorems. *)
Definition list_feqb (a b : list F101) : bool := (length a =? length b) && forallb (fun p => feqb (fst p) (snd p)) (combine a b).
Lemma list_feqb_ok : forall a b, list_feqb a b = true -> a = b.
Proof.
  unfold list_feqb. induction a as [|x a IH]; intros [|y b] H; cbn [length Nat.eqb combine forallb fst snd andb] in H; try discriminate H; [reflexivity|]. apply andb_true_iff in H as [H1 H2]. apply andb_true_iff in H2 as [H2 H3].
  apply feqb_true in H2. f_equal; [exact H2|]. apply IH. apply andb_true_iff. split; [exact H1|exact H3].
Qed.
Definition at_one_point (l : list (@claim F101)) (n m : nat) : bool := match l with c0 :: _ => (length l =? m) && (length (cl_point c0) =? n) && forallb (fun c => list_feqb (cl_point c) (cl_point c0)) l | [] => false end.
Lemma at_one_point_ok l n m : at_one_point l n m = true -> exists p vs, l = map (mkClaim p) vs /\ length p = n /\ length vs = m /\ vs <> [].
Proof.
  destruct l as [|c0 l]; [discriminate|]. unfold at_one_point. rewrite !andb_true_iff. intros ((H1 & H2) & H3). exists (cl_point c0), (map cl_eval (c0 :: l)).
  apply Nat.eqb_eq in H1, H2. split; [|split; [exact H2|split; [now rewrite map_length|discriminate]]]. rewrite map_map. rewrite forallb_forall in H3. revert H3. generalize (c0 :: l). intros l' H3.
  symmetry. rewrite <- (map_id l') at 2. apply map_ext_in. intros c Hc. specialize (H3 c Hc). apply list_feqb_ok in H3. destruct c as [pp e]. cbn [cl_point cl_eval] in *. now rewrite H3.
Qed.
Definition claim_b (l : list F101) (c : @claim F101) : bool := (length l =? 2 ^ length (cl_point c)) && feqb (cl_eval c) (mle l (cl_point c)).
Fixpoint claims_b (ls : list (list F101)) (cs : list (@claim F101)) : bool := match ls, cs with l :: ls, c :: cs => claim_b l c && claims_b ls cs | [], [] => true | _, _ => false end.
Lemma claim_b_ok l c : claim_b l c = true -> claim_true l c.
Proof. unfold claim_b, claim_true. rewrite andb_true_iff, Nat.eqb_eq. intros [A B]. split; [exact A|now apply feqb_true]. Qed.
Lemma claims_b_ok : forall ls cs, claims_b ls cs = true -> Forall2 claim_true ls cs.
Proof. induction ls as [|l ls IH]; intros [|c cs] H; cbn in H; try discriminate H; constructor; apply andb_true_iff in H as [A B]; [now apply claim_b_ok|auto]. Qed.

(** The checks below are run once, on the proof that is passed as an argument. *)
Definition hyps_b (o : option (list (nat * @claim F101) * @claim F101 * @requant_proof F101 nat * @hist F101)) : bool := match o with
  | Some (_, _, pf, _) => (length (rp_evals pf) =? 4) && match verify_logup xT (rp_clamping pf) 1 (z 10) (z 3) [] with
    | Some (ccl, _, _, h1) => at_one_point ccl 2 2 && match verify_logup xT (rp_shifted pf) 2 (z 10) f1 h1 with
      | Some (scl, _, _, _) => at_one_point scl 2 2 && match rqp_verify xT 2 rq (z 10) (z 3) last pf [] with
        | Some (wit, nc, _) => claims_b (col r_in ws :: col r_out ws :: chunk_cols 2 ws) (map snd wit) && claim_b (map fZ vals) nc
        | None => false end
      | None => false end
    | None => false end
  | None => false end.
Lemma hyps_b_ok o : hyps_b o = true -> exists (pf : @requant_proof F101 nat) p q vi vo vs n1 d1 h1 n2 d2 h2 wit nc h',
  length p = 2 /\ vs <> [] /\ length vs = 2 /\ length (rp_evals pf) = S (S (length vs)) /\
  verify_logup xT (rp_clamping pf) 1 (z 10) (z 3) [] = Some ([mkClaim p vi; mkClaim p vo], n1, d1, h1) /\
  verify_logup xT (rp_shifted pf) 2 (z 10) f1 h1 = Some (map (mkClaim q) vs, n2, d2, h2) /\
  rqp_verify xT 2 rq (z 10) (z 3) last pf [] = Some (wit, nc, h') /\
  Forall2 claim_true (col r_in ws :: col r_out ws :: chunk_cols 2 ws) (map snd wit) /\ claim_true (map fZ vals) nc.
Proof.
  unfold hyps_b. destruct o as [[[[wit0 nc0] pf] hf]|]; [|discriminate]. rewrite andb_true_iff, Nat.eqb_eq. intros [Le H].
  destruct (verify_logup xT (rp_clamping pf) 1 (z 10) (z 3) []) as [[[[ccl n1] d1] h1]|] eqn:E1; [|discriminate H]. apply andb_true_iff in H as [A1 H].
  destruct (verify_logup xT (rp_shifted pf) 2 (z 10) f1 h1) as [[[[scl n2] d2] h2]|] eqn:E2; [|discriminate H]. apply andb_true_iff in H as [A2 H].
  destruct (rqp_verify xT 2 rq (z 10) (z 3) last pf []) as [[[wit nc] h']|] eqn:E3; [|discriminate H]. apply andb_true_iff in H as [A3 A4].
  apply at_one_point_ok in A1 as (p & us & -> & Lp & Lu & _). apply at_one_point_ok in A2 as (q & vs & -> & _ & Lv & Nv). destruct us as [|vi [|vo [|? ?]]]; try discriminate Lu.
  exists pf, p, q, vi, vo, vs, n1, d1, h1, n2, d2, h2, wit, nc, h'. split; [exact Lp|]. split; [exact Nv|]. split; [exact Lv|]. split; [now rewrite Lv|]. split; [exact E1|]. split; [exact E2|]. split; [exact E3|].
  split; [now apply claims_b_ok|now apply claim_b_ok].
Qed.
Lemma ex_hyps_true : hyps_b (prove1 ws last) = true.
Proof. vm_compute. reflexivity. Qed.
Example C59_ex_hyps : small_inj (K := F101) 101 /\ char_gt F101 2 /\ rq_shift rq = 2 * 2 /\ (8 * rq_fpm rq + zpow2 (rq_shift rq) + zpow2 (2 - 1 + rq_shift rq) <= 101)%Z /\
  (forall FL ls, exists rows, table_rows 2 FL ls (TClamping 2) = Some rows /\ Forall (fun w => In [r_in w; r_out w] rows /\ length (snd w) = 2 /\ Forall (in_range 2) (snd w)) ws) /\
  Forall (fun v => (Z.abs v <= 8)%Z) vals /\
  exists (pf : @requant_proof F101 nat) p q vi vo vs n1 d1 h1 n2 d2 h2 wit nc h',
  length p = 2 /\ vs <> [] /\ length vs = 2 /\ length (rp_evals pf) = S (S (length vs)) /\
  verify_logup xT (rp_clamping pf) 1 (z 10) (z 3) [] = Some ([mkClaim p vi; mkClaim p vo], n1, d1, h1) /\
  verify_logup xT (rp_shifted pf) 2 (z 10) f1 h1 = Some (map (mkClaim q) vs, n2, d2, h2) /\
  rqp_verify xT 2 rq (z 10) (z 3) last pf [] = Some (wit, nc, h') /\
  Forall2 claim_true (col r_in ws :: col r_out ws :: chunk_cols 2 ws) (map snd wit) /\ claim_true (map fZ vals) nc.
Proof.
  split; [exact inj101|]. split; [apply ch101; lia|]. split; [reflexivity|]. split; [vm_compute; discriminate|]. split.
  { intros FL ls. eexists. split; [vm_compute; reflexivity|]. repeat (apply Forall_cons; [split; [cbn; tauto|split; [reflexivity|repeat (apply Forall_cons; [split; vm_compute; [discriminate|reflexivity]|]); apply Forall_nil]]|]). apply Forall_nil. }
  split; [repeat (apply Forall_cons; [vm_compute; discriminate|]); apply Forall_nil|]. exact (hyps_b_ok _ ex_hyps_true).
Qed.

(** The honest prover, on the witness of any input tensor: the run succeeds, all claims it registers are true, the claim it returns is true of the input, and the verifier accepts and derives the same claims. *)
Theorem C59_complete :
  forall (K : field) (C : Type) (T : hist -> K) (ncpus : nat) (sc1 : nat -> nat -> rsched)
    (es1 : nat -> list nat) (sc2 : nat -> nat -> rsched) (es2 : nat -> list nat) (sc : nat -> rsched) 
    (B : nat) (r : requant) (cst csc : K) (k m : nat) (vals : list Z) (ws : list row) 
    (comms : list C) (last : claim) (h : hist),
  let n := S (S k) in
  0 < B ->
  char_gt K 3 ->
  0 < ncpus ->
  length vals = 2 ^ n ->
  omapM (rq_witness1 B r) vals = Some ws ->
  0 < m ->
  rq_shift r = m * B ->
  fZ (rq_fpm r) <> (0%F : K) ->
  length comms = S (S m) ->
  claim_true (col r_out ws) last ->
  length (cl_point last) = n ->
  logup_scheds true (S k) 1 sc1 ->
  valid_sched n es1 ->
  logup_scheds true (S k) m sc2 ->
  valid_sched n es2 ->
  (forall i : nat, i < n -> valid_rsched (sop_shape (K := K) n (5 + m) (map snd (rq_terms m (f0 : K)))) i (sc i)) ->
  exists (wit : list (C * claim)) (nc : claim) (pf : requant_proof) (h' : hist),
    rqp_prove T ncpus sc1 es1 sc2 es2 sc B r cst csc (col r_in ws) (col r_out ws) (chunk_cols m ws) comms last h =
    Some (wit, nc, pf, h') /\
    map fst wit = comms /\
    Forall2 claim_true (col r_in ws :: col r_out ws :: chunk_cols m ws) (map snd wit) /\
    claim_true (map fZ vals) nc /\
    ((forall (p : proof) (x : K),
      In p (lp_sumchecks (rp_clamping pf) ++ lp_sumchecks (rp_shifted pf)) -> In x (pf_point p) -> not_node 3 x) ->
     (forall x : K, In x (pf_point (rp_acc pf)) -> not_node 2 x) ->
     rqp_verify T B r cst csc last pf h = Some (wit, nc, h')).
Proof. exact @rqp_honest. Qed.
Print Assumptions C59_complete.

(** The run on these inputs is accepted; with one output or one chunk changed it is not. *)
Definition accepted (w : list row) (l : @claim F101) : bool := match prove1 w l with
  | Some (_, _, pf, _) => match rqp_verify xT 2 rq (z 10) (z 3) l pf [] with Some (_, nc, _) => feqb (cl_eval nc) (mle (map fZ vals) (cl_point nc)) | None => false end | None => false end.
Example C59_ex_run : accepted ws last = true /\ accepted ws (mkClaim (cl_point last) (z 1)) = false /\
  accepted (match ws with (c, o, _) :: t => (c, o, [1; 1]%Z) :: t | [] => [] end) last = false.
Proof. repeat split; vm_compute; reflexivity. Qed.

(** The number of evaluations is not checked.  With honest lookup proofs, honest commitments and two more evaluations than commitments, every output claim is accepted, all claims registered for the commitments are true, and the claim returned for the input is the honest one. *)
Theorem C59_forgery :
  forall (K : field) (C : Type) (T : hist -> K) (B : nat) (r : requant) (cst csc : K) 
    (n : nat) (last : claim) (pf1 pf2 : logup_proof) (comms : list C) (h : hist) (p q : list K) 
    (vi vo : K) (vs n1 d1 : list K) (h1 : hist) (n2 d2 : list K) (h2 : hist) (cin cout : list K)
    (chs : list (list K)) (next : K),
  char_gt K 2 ->
  0 < n ->
  length p = n ->
  length q = n ->
  length (cl_point last) = n ->
  vs <> [] ->
  verify_logup T pf1 1 cst csc h =
  Some ([{| cl_point := p; cl_eval := vi |}; {| cl_point := p; cl_eval := vo |}], n1, d1, h1) ->
  verify_logup T pf2 (rq_shift r / B) cst 1 h1 = Some (map (mkClaim q) vs, n2, d2, h2) ->
  Forall (fun c : list K => length c = 2 ^ n) (cin :: cout :: chs) ->
  length comms = S (S (length chs)) ->
  let a := T (EvBytes lbl_requant :: h2) in
  let h3 := EvSample :: EvBytes lbl_requant :: h2 in
  let sc :=
    {| pf_point := []; pf_proofs := bogus_messages T (peval (cl_eval last :: vo :: vi :: vs) a) n 2 h3 |} in
  let zp := sc_point T n 2 h3 sc in
  (forall x : K, In x zp -> not_node 2 x) ->
  a <> 0%F ->
  a <> fZ (2 ^ Z.of_nat B) ->
  eqp q zp <> 0%F ->
  recombine_claims B r (mle cin zp) (evals_at chs zp) = Some next ->
  exists (pf : requant_proof) (wit : list (C * claim)) (h' : hist),
    rp_clamping pf = pf1 /\
    rp_shifted pf = pf2 /\
    rp_comms pf = comms /\
    rqp_verify T B r cst csc last pf h = Some (wit, {| cl_point := zp; cl_eval := next |}, h') /\
    map fst wit = comms /\ Forall2 claim_true (cin :: cout :: chs) (map snd wit).
Proof. exact @rqp_forge. Qed.
Print Assumptions C59_forgery.

(** A false output claim, accepted: all registered claims are true of the honest columns and the returned claim is true of the
    input. *)
Definition forge (l : @claim F101) : option (@requant_proof F101 nat) :=
  lr1 <- batch_prove xT 2 (seq_rsched 3) (seq_sched 2) (LookupIn [col r_in ws; col r_out ws] (z 10) (z 3) 2) [] ;;
  let '(lp1, h1) := lr1 in
  lr2 <- batch_prove xT 2 (seq_rsched 6) (seq_sched 2) (LookupIn (chunk_cols 2 ws) (z 10) f1 1) h1 ;;
  let '(lp2, h2) := lr2 in
  let a := xT (EvBytes lbl_requant :: h2) in let h3 := EvSample :: EvBytes lbl_requant :: h2 in
  match lp_claims lp1, lp_claims lp2 with
  | [c0; c1], s0 :: _ =>
      let y := peval (cl_eval l :: cl_eval c1 :: cl_eval c0 :: map cl_eval (lp_claims lp2)) a in
      let sc := mkProof [] (bogus_messages xT y 2 2 h3) in let zp := sc_point xT 2 2 h3 sc in
      sub <- verify xT y sc 2 2 h3 ;;
      let '(_, e, _) := sub in
      let w0 := mle (col r_in ws) zp in let w1 := mle (col r_out ws) zp in let wc := evals_at (chunk_cols 2 ws) zp in
      let sb := eqp (cl_point s0) zp in
      let base := rq_calc a (eqp (cl_point l) zp) (eqp (cl_point c0) zp) sb w0 w1 wc in
      let v := fmul (fsub e base) (finv (fmul (fmul sb (fpow a 5)) (fsub a (z 4)))) in
      Some (mkRqp sc (w0 :: w1 :: wc ++ [fmul (fopp (z 4)) v; v]) lp1 lp2 [0; 1; 2; 3])
  | _, _ => None
  end.
Definition false_claim : @claim F101 := mkClaim (cl_point last) (fadd (cl_eval last) f1).
Definition forged_b (o : option (@requant_proof F101 nat)) : bool := match o with
  | Some pf => match rqp_verify xT 2 rq (z 10) (z 3) false_claim pf [] with
    | Some (wit, nc, _) => claims_b (col r_in ws :: col r_out ws :: chunk_cols 2 ws) (map snd wit) && claim_b (map fZ vals) nc
    | None => false end
  | None => false end.
Lemma forged_b_ok o : forged_b o = true -> exists (pf : @requant_proof F101 nat) wit nc h', rqp_verify xT 2 rq (z 10) (z 3) false_claim pf [] = Some (wit, nc, h') /\
  Forall2 claim_true (col r_in ws :: col r_out ws :: chunk_cols 2 ws) (map snd wit) /\ claim_true (map fZ vals) nc.
Proof.
  unfold forged_b. destruct o as [pf|]; [|discriminate]. destruct (rqp_verify xT 2 rq (z 10) (z 3) false_claim pf []) as [[[wit nc] h']|] eqn:E; [|discriminate]. rewrite andb_true_iff. intros [A B].
  exists pf, wit, nc, h'. split; [exact E|]. split; [now apply claims_b_ok|now apply claim_b_ok].
Qed.
Lemma forged_true : forged_b (forge false_claim) = true.
Proof. vm_compute. reflexivity. Qed.
Theorem C59_refuted : exists (T : @hist F101 -> F101) r cst csc last (pf : @requant_proof F101 nat) wit nc h' (vals outs : list Z) (rows : list row),
  omapM (rq_witness1 2 r) vals = Some rows /\ rq_op 2 r vals = Some outs /\
  rqp_verify T 2 r cst csc last pf [] = Some (wit, nc, h') /\
  Forall2 claim_true (col r_in rows :: col r_out rows :: chunk_cols 2 rows) (map snd wit) /\ claim_true (map fZ vals) nc /\ ~ claim_true (map fZ outs) last.
Proof.
  destruct (forged_b_ok _ forged_true) as (pf & wit & nc & h' & E & A & B). exists xT, rq, (z 10), (z 3), false_claim, pf, wit, nc, h', vals, outs, ws.
  split; [reflexivity|]. split; [reflexivity|]. split; [exact E|]. split; [exact A|]. split; [exact B|]. intros [_ Q]. revert Q. apply feqb_false. vm_compute. reflexivity.
Qed.
Print Assumptions C59_refuted.

(** Nor is the number of commitments: cutting the list of an accepted proof cuts the list of opening claims, and the proof is still accepted. *)
Theorem C59_commitments_dropped :
  forall (K : field) (C : Type) (T : hist -> K) (B : nat) (r : requant) (cst csc : K) 
    (last : claim) (pf : requant_proof) (h : hist) (wit : list (C * claim)) (nc : claim) 
    (h' : hist) (m : nat),
  rqp_verify T B r cst csc last pf h = Some (wit, nc, h') ->
  rqp_verify T B r cst csc last
    {|
      rp_acc := rp_acc pf;
      rp_evals := rp_evals pf;
      rp_clamping := rp_clamping pf;
      rp_shifted := rp_shifted pf;
      rp_comms := firstn m (rp_comms pf)
    |} h = Some (firstn m wit, nc, h').
Proof. exact @rqp_drop. Qed.
Print Assumptions C59_commitments_dropped.

