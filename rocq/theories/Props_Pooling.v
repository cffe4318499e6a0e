(** Properties C36 and C40: what pooling and activation proofs say about their input and which columns they commit to. *)
From Coq Require Import List Arith Lia Bool ZArith.
From Verif Require Import ListAux FieldDef FpInst PolyList MleMath M_Mle P_Mle P_Eq M_Interp M_Sumcheck P_ScVerify M_ScParallel P_ScParallel P_ScApi M_SamePoly P_SamePoly P_Count M_LogUp P_LogUp3 P_LogUp8 P_LogUp9
  M_Tensor P_Tensor M_Layers P_Layers2 M_Sop P_Sop P_Transformer5 M_Pool P_Pool M_Pooling P_Pooling P_Pooling2 P_Activation.
Import ListNotations.

(** ** Inputs for the examples *)
Definition z (n : Z) : F101 := mkFp 101 n.
(** A transcript whose answers depend on the length of the history and never are small. *)
Definition xT (h : @hist F101) : F101 := z (11 + 7 * (Z.of_nat (length h) mod 12)).
Definition not_node_b (deg : nat) (r : F101) : bool := forallb (fun i => negb (feqb r (fnat i))) (seq 0 (S deg)).
Lemma not_node_ok deg r : not_node_b deg r = true -> not_node deg r.
Proof.
  unfold not_node_b. intros H i Hi. rewrite forallb_forall in H. specialize (H i). assert (Hin : In i (seq 0 (S deg))) by (apply in_seq; lia). specialize (H Hin).
  apply negb_true_iff in H. now apply feqb_false.
Qed.
Lemma ch101 n : n < 101 -> char_gt F101 n.
Proof.
  intros Hn i Hi. apply feqb_false. assert (A : forallb (fun i => negb (feqb (fnat i : F101) f0)) (seq 1 100) = true) by (vm_compute; reflexivity).
  rewrite forallb_forall in A. apply negb_true_iff, A, in_seq. lia.
Qed.
Definition all_nodes (nd : nat) (lp : @logup_proof F101) (sc : @proof F101) : bool :=
  forallb (fun p => forallb (not_node_b 3) (pf_point p)) (lp_sumchecks lp) && forallb (not_node_b nd) (pf_point sc).
Lemma all_nodes_ok nd lp sc : all_nodes nd lp sc = true ->
  (forall p r, In p (lp_sumchecks lp) -> In r (pf_point p) -> not_node 3 r) /\ (forall r, In r (pf_point sc) -> not_node nd r).
Proof.
  unfold all_nodes. rewrite andb_true_iff, !forallb_forall. intros [A B]. split; intros.
  - apply not_node_ok. specialize (A p H). rewrite forallb_forall in A. now apply A.
  - apply not_node_ok. now apply B.
Qed.

(** ** C36 *)

(** An accepted pooling proof whose claims about the columns and the input are true: the output is the last claim's, the product of the four columns is zero everywhere, the sub-tables at offsets (0,0) and (1,1) are those of the input - but of those at (1,0) and (0,1) only the sum, because one challenge is used for both axes - or one of the listed events happened. *)
Theorem C36_sound_partial :
  forall (K : field) (C : Type) (T : hist -> K) (cst csc : K) (n : nat) (last : claim) 
    (pf : pool_proof) (h : hist) (p : list K) (v0 v1 v2 v3 : K) (nums dens : list K) 
    (h1 : hist) (wit : list (C * claim)) (cin : claim) (h' : hist) (d0 d1 d2 d3 out X : list K) 
    (g : nat),
  char_gt K 5 ->
  0 < n ->
  verify_logup T (pl_lookup pf) 4 cst csc h =
  Some
    ([{| cl_point := p; cl_eval := v0 |}; {| cl_point := p; cl_eval := v1 |};
      {| cl_point := p; cl_eval := v2 |}; {| cl_point := p; cl_eval := v3 |}], nums, dens, h1) ->
  pool_verify T cst csc n last pf h = Some (wit, cin, h') ->
  length (pl_evals pf) = 5 ->
  pl_gap pf = g ->
  Forall2 claim_true [d0; d1; d2; d3; out] (map snd wit) ->
  claim_true X cin ->
  mle d0 p = v0 /\
  mle d1 p = v1 /\
  mle d2 p = v2 /\
  mle d3 p = v3 /\
  mle out (cl_point last) = cl_eval last /\
  (forall i : nat,
   i < 2 ^ n ->
   (nth i d0 0 * nth i d1 0 * nth i d2 0 * nth i d3 0)%F = 0%F /\
   (nth i out 0 - nth i d0 0)%F = nth i (strided g n 0 X) 0%F /\
   (nth i out 0 - nth i d3 0)%F = nth i (strided g n 3 X) 0%F /\
   (nth i out 0 - nth i d1 0 + (nth i out 0 - nth i d2 0))%F =
   (nth i (strided g n 1 X) 0 + nth i (strided g n 2 X) 0)%F) \/
  pool_fooled T g n p (cl_point last) v0 v1 v2 v3 (cl_eval last) d0 d1 d2 d3 out X pf h1.
Proof. exact @pool_sound. Qed.
Print Assumptions C36_sound_partial.

(** The honest prover: for every input tensor the run succeeds, all claims it registers are true, and the verifier accepts and derives the same claims. *)
Theorem C36_complete :
  forall (K : field) (C : Type) (T : hist -> K) (ncpus : nat) (scl : nat -> nat -> rsched)
    (esl : nat -> list nat) (sc : nat -> rsched) (cst csc : K) (k : nat) (t : ten Z) 
    (c hh w : nat) (inp o out : ten Z) (polys : list (list Z)) (comms : list C) (last : claim) 
    (h : hist),
  let n := S (S k) in
  let fe := map fZ in
  char_gt K 5 ->
  0 < ncpus ->
  wft t ->
  sh t = [c; 2 * hh; 2 * w] ->
  0 < c ->
  0 < hh ->
  0 < w ->
  pad_next_power_of_two 0%Z t = Some inp ->
  maxpool2d t 2 2 = Some o ->
  pad_next_power_of_two 0%Z o = Some out ->
  compute_polys 2 2 t = Some polys ->
  npow2 c * npow2 hh * npow2 w = 2 ^ n ->
  length comms = 5 ->
  claim_true (fe (dat out)) last ->
  length (cl_point last) = n ->
  logup_scheds true (S k) 4 scl ->
  valid_sched n esl ->
  (forall i : nat, i < n -> valid_rsched (K := K) (sop_shape n 7 (map snd (pool_terms 4 (f0 : K)))) i (sc i)) ->
  exists (wit : list (C * claim)) (cin : claim) (pf : pool_proof) (h' : hist),
    pool_prove T ncpus scl esl sc n 4 cst csc (map fe polys) comms {| sh := sh inp; dat := fe (dat inp) |}
      {| sh := sh out; dat := fe (dat out) |} last h = Some (wit, cin, pf, h') /\
    map fst wit = comms /\
    Forall2 claim_true (map fe polys ++ [fe (dat out)]) (map snd wit) /\
    claim_true (fe (dat inp)) cin /\
    ((forall (p : proof) (r : K), In p (lp_sumchecks (pl_lookup pf)) -> In r (pf_point p) -> not_node 3 r) ->
     (forall r : K, In r (pf_point (pl_sumcheck pf)) -> not_node 5 r) ->
     pool_verify T cst csc n last pf h = Some (wit, cin, h')).
Proof. exact @pool_honest. Qed.
Print Assumptions C36_complete.

(** Malicious columns: an output y is provable for an input x as soon as y - x00, y - x11 and 2y - x01 - x10 are in the range of the lookup table; all claims are true of in-range columns and of the input. *)
Theorem C36_forgery :
  forall (K : field) (C : Type) (T : hist -> K) (ncpus : nat) (scl : nat -> nat -> rsched)
    (esl : nat -> list nat) (sc : nat -> rsched) (cst csc : K) (k c0 c1 w g : nat) (B : Z) 
    (x y : list Z) (comms : list C) (input output : ten K) (last : claim) (h : hist),
  let n := S (S k) in
  char_gt K 5 ->
  0 < ncpus ->
  length x = 2 ^ S (S n) ->
  length y = 2 ^ n ->
  length comms = 5 ->
  sh input = [c0; c1; w] ->
  ceil_log2 w = Some (S g) ->
  g <= n ->
  dat output = map fZ y ->
  claim_true (dat output) last ->
  length (cl_point last) = n ->
  (forall i : nat,
   i < 2 ^ n ->
   (0 <= nth i y 0 - win g x i 0 < B)%Z /\
   (0 <= nth i y 0 - win g x i 3 < B)%Z /\ (0 <= 2 * nth i y 0 - win g x i 1 - win g x i 2 < B)%Z) ->
  logup_scheds true (S k) 4 scl ->
  valid_sched n esl ->
  (forall i : nat, i < n -> valid_rsched (K := K) (sop_shape n 7 (map snd (pool_terms 4 (f0 : K)))) i (sc i)) ->
  exists d : list (list Z),
    length d = 4 /\
    (forall c : list Z, In c d -> length c = 2 ^ n /\ (forall v : Z, In v c -> (0 <= v < B)%Z)) /\
    (exists (wit : list (C * claim)) (cin : claim) (pf : pool_proof) (h' : hist),
       pool_prove T ncpus scl esl sc n 4 cst csc (map (map fZ) d) comms input output last h =
       Some (wit, cin, pf, h') /\
       map fst wit = comms /\
       Forall2 claim_true (map (map fZ) d ++ [dat output]) (map snd wit) /\
       claim_true (map fZ x) cin /\
       ((forall (p : proof) (r : K), In p (lp_sumchecks (pl_lookup pf)) -> In r (pf_point p) -> not_node 3 r) ->
        (forall r : K, In r (pf_point (pl_sumcheck pf)) -> not_node 5 r) ->
        pool_verify T cst csc n last pf h = Some (wit, cin, h'))).
Proof. exact @pool_forge. Qed.
Print Assumptions C36_forgery.

(** All-zero input, output one everywhere: accepted, every claim true, columns with entries 0, 1 and 2. *)
Definition ex_x : list Z := repeat 0%Z 16.
Definition ex_y : list Z := repeat 1%Z 4.
Definition ex_d : list (list Z) := [repeat 1 4; repeat 0 4; repeat 2 4; repeat 1 4]%Z.
Definition ex_last : @claim F101 := mkClaim [z 20; z 30] (mle (map fZ ex_y) [z 20; z 30]).
Definition ex_prove (d : list (list Z)) (x y : list Z) := pool_prove (C := nat) xT 2 (seq_rsched 12) (@seq_sched 2) (fun i => seq_rsched 6 2 i) 2 4 (z 10) (z 3)
  (map (map fZ) d) [0; 1; 2; 3; 4] (mkTen [1; 4; 4] (map fZ x)) (mkTen [1; 2; 2] (map fZ y)) (mkClaim [z 20; z 30] (mle (map fZ y) [z 20; z 30])) [].
Theorem C36_refuted : exists (T : @hist F101 -> F101) cst csc last (pf : @pool_proof F101 nat) wit cin h' (d : list (list Z)) (x y : list Z),
  pool_verify T cst csc 2 last pf [] = Some (wit, cin, h') /\ pl_gap pf = 1 /\ length (pl_evals pf) = 5 /\ length wit = 5 /\
  claim_true (map fZ y) last /\ Forall2 claim_true (map (map fZ) (d ++ [y])) (map snd wit) /\ claim_true (map fZ x) cin /\
  (forall c v, In c d -> In v c -> (0 <= v < 3)%Z) /\ (forall i k, i < 4 -> k < 4 -> (win 1 x i k < nth i y 0)%Z).
Proof.
  destruct (pool_complete (C := nat) xT 2 (seq_rsched 12) (@seq_sched 2) (fun i => seq_rsched 6 2 i) (z 10) (z 3) 0 1 4 4 1
     (map fZ (nth 0 ex_d [])) (map fZ (nth 1 ex_d [])) (map fZ (nth 2 ex_d [])) (map fZ (nth 3 ex_d [])) [0; 1; 2; 3; 4] (mkTen [1; 4; 4] (map fZ ex_x)) (mkTen [1; 2; 2] (map fZ ex_y)) ex_last [])
   as (wit & cin & pf & h' & E1 & F1 & F2 & _ & Eg & Le & FX & Hv).
  - apply ch101. lia.
  - lia.
  - intros d0 [<-|[<-|[<-|[<-|[<-|[]]]]]]; reflexivity.
  - reflexivity.
  - reflexivity.
  - reflexivity.
  - lia.
  - split; reflexivity.
  - reflexivity.
  - intros [|[|[|[|i]]]] Hi; try (apply feqb_spec; vm_compute; reflexivity). cbn in Hi. lia.
  - apply (seq_logup_scheds true 1 4).
  - apply seq_sched_valid.
  - intros i Hi. apply (seq_sop_sched 2 7 (map snd (pool_terms 4 (f0 : F101)))).
  - exists xT, (z 10), (z 3), ex_last, pf, wit, cin, h', ex_d, ex_x, ex_y.
    assert (Hn : match ex_prove ex_d ex_x ex_y with Some (_, _, pf, _) => all_nodes 5 (pl_lookup pf) (pl_sumcheck pf) | None => false end = true) by (vm_compute; reflexivity).
    unfold ex_prove in Hn. change (mkClaim [z 20; z 30] (mle (map fZ ex_y) [z 20; z 30])) with ex_last in Hn.
    change (map (map fZ) ex_d) with [map (@fZ F101) (nth 0 ex_d []); map fZ (nth 1 ex_d []); map fZ (nth 2 ex_d []); map fZ (nth 3 ex_d [])] in Hn. rewrite E1 in Hn.
    apply all_nodes_ok in Hn as [N0 N1]. split; [exact (Hv N0 N1)|]. split; [exact Eg|]. split; [exact Le|]. split; [rewrite <- (map_length fst), F1; reflexivity|].
    split; [split; reflexivity|]. split; [exact F2|]. split.
    + apply FX; [reflexivity|]. intros [|[|[|[|i]]]] Hi; try (repeat split; apply feqb_spec; vm_compute; reflexivity). cbn in Hi. lia.
    + split.
      * intros c v [<-|[<-|[<-|[<-|[]]]]] [<-|[<-|[<-|[<-|[]]]]]; lia.
      * intros [|[|[|[|i]]]] [|[|[|[|k]]]] Hi Hk; try lia; vm_compute; reflexivity.
Qed.
Print Assumptions C36_refuted.

(** The honest run on a 4 x 4 input: the verifier accepts and returns the prover's input claim; with one entry of a column changed it rejects. *)
Definition ex_x2 : list Z := [1; 5; -3; -4; 2; 0; -1; -9; 7; 7; 0; 3; 6; -2; 4; 1]%Z.
Definition ex_t2 : ten Z := mkTen [1; 4; 4] ex_x2.
Definition ex_y2 : list Z := match maxpool2d ex_t2 2 2 with Some o => dat o | None => [] end.
Definition ex_d2 : list (list Z) := match compute_polys 2 2 ex_t2 with Some d => d | None => [] end.
Definition ex_check (d : list (list Z)) (x y : list Z) : bool :=
  match ex_prove d x y with
  | Some (wit, cin, pf, _) => all_nodes 5 (pl_lookup pf) (pl_sumcheck pf) &&
      match pool_verify xT (z 10) (z 3) 2 (mkClaim [z 20; z 30] (mle (map fZ y) [z 20; z 30])) pf [] with
      | Some (wit2, cin2, _) => (length wit2 =? 5) && feqb (cl_eval cin2) (cl_eval cin) && feqb (cl_eval cin2) (mle (map fZ x) (cl_point cin2))
      | None => false end
  | None => false end.
Example C36_ex_run : ex_y2 = [5; -1; 7; 4]%Z /\ ex_check ex_d2 ex_x2 ex_y2 = true.
Proof. split; vm_compute; reflexivity. Qed.
(** A column that is wrong at one entry of offset (0, 0): the product is still zero, the input claim is not true. *)
Example C36_ex_wrong_column : match ex_d2 with d0 :: r => ex_check ((nth 0 d0 0 + 1 :: tl d0) :: r)%Z ex_x2 ex_y2 | [] => true end = false.
Proof. vm_compute. reflexivity. Qed.
(** The example of a hidden shift between the offsets (1, 0) and (0, 1): the same input with an output that is not the maximum. *)
Example C36_ex_shift : ex_check (map (fun k : nat => map (fun i : nat => if (k =? 1)%nat then 0 else if (k =? 2)%nat then 2 * nth i [9; 3; 9; 6] 0 - win 1 ex_x2 i 1 - win 1 ex_x2 i 2 else nth i [9; 3; 9; 6] 0 - win 1 ex_x2 i k)%Z (seq 0 4)) (seq 0 4)) ex_x2 [9; 3; 9; 6]%Z = true.
Proof. vm_compute. reflexivity. Qed.

(** The number of commitments in a pooling proof is not checked: cutting the list of an accepted proof cuts the list of opening claims, and the proof is still accepted. *)
Theorem C36_commitments_dropped :
  forall (K : field) (C : Type) (T : hist -> K) (cst csc : K) (nv : nat) (last : claim) 
    (pf : pool_proof) (h : hist) (wit : list (C * claim)) (cin : claim) (h' : hist) 
    (n : nat),
  pool_verify T cst csc nv last pf h = Some (wit, cin, h') ->
  pool_verify T cst csc nv last
    {|
      pl_sumcheck := pl_sumcheck pf;
      pl_lookup := pl_lookup pf;
      pl_evals := pl_evals pf;
      pl_gap := pl_gap pf;
      pl_comms := firstn n (pl_comms pf)
    |} h = Some (firstn n wit, cin, h').
Proof. exact @pool_drop. Qed.
Print Assumptions C36_commitments_dropped.

(** ** C40 *)

(** An accepted activation proof that carries two commitments adds the lookup claim for the first and the accumulated output claim for the second. *)
Theorem C40_both_partial :
  forall (K : field) (C : Type) (T : hist -> K) (gelu : option K) (cst csc : K) (nv : nat) 
    (last : claim) (pf : act_proof) (h : hist) (wit : list (C * claim)) (inp : claim) 
    (h' : hist) (ci co : C),
  act_verify T gelu cst csc nv last pf h = Some (wit, inp, h') ->
  ac_comms pf = [ci; co] ->
  exists c0 c1 : claim,
    wit = [(ci, c0); (co, c1)] /\
    act_input gelu c0 = Some inp /\
    (exists (rest : list claim) (nums dens : list K) (h1 : hist),
       verify_logup T (ac_lookup pf) 1 cst csc h = Some (c0 :: rest, nums, dens, h1) /\
       sp_verify T nv (last :: rest) (ac_io pf) h1 = Some (c1, h')).
Proof. exact @act_both. Qed.
Print Assumptions C40_both_partial.

(** If these two claims are true of two columns, and the aggregation proof states the challenges as its point, then the lookup claim is true of the first, all claims about the output (the last claim and the lookup claim) are true of the second, or one of the two listed events happened. *)
Theorem C40_sound_partial :
  forall (K : field) (C : Type) (T : hist -> K) (gelu : option K) (cst csc : K) (nv : nat) 
    (last : claim) (pf : act_proof) (h : hist) (wit : list (C * claim)) (inp : claim) 
    (h' : hist) (x out : list K) (c0 : claim) (rest : list claim) (nums dens : list K) 
    (h1 : hist),
  char_gt K 2 ->
  0 < nv ->
  length out = 2 ^ nv ->
  verify_logup T (ac_lookup pf) 1 cst csc h = Some (c0 :: rest, nums, dens, h1) ->
  act_verify T gelu cst csc nv last pf h = Some (wit, inp, h') ->
  length (ac_comms pf) = 2 ->
  let claims := last :: rest in
  let cs := fst (read_challenges T (length claims) h1) in
  let h2 := snd (read_challenges T (length claims) h1) in
  pf_point (sp_sumcheck (ac_io pf)) = sc_point T nv 2 h2 (sp_sumcheck (ac_io pf)) ->
  Forall2 claim_true [x; out] (map snd wit) ->
  claim_true x c0 /\
  act_input gelu c0 = Some inp /\ (forall c : claim, In c claims -> cl_eval c = mle out (cl_point c)) \/
  (exists i : nat, nth i (errs out claims) 0%F <> 0%F) /\ P_Count.dot cs (errs out claims) = 0%F \/
  root_event T nv 2 (agg_poly nv out cs claims) h2 (sp_sumcheck (ac_io pf)).
Proof. exact @act_sound. Qed.
Print Assumptions C40_sound_partial.

(** The number of commitments is not checked: an accepted proof cut down to no commitments is accepted and adds no opening claim. *)
Theorem C40_commitments_dropped :
  forall (K : field) (C : Type) (T : hist -> K) (gelu : option K) (cst csc : K) (nv : nat) 
    (last : claim) (pf : act_proof) (h : hist) (wit : list (C * claim)) (inp : claim) 
    (h' : hist) (n : nat),
  act_verify T gelu cst csc nv last pf h = Some (wit, inp, h') ->
  act_verify T gelu cst csc nv last
    {| ac_io := ac_io pf; ac_lookup := ac_lookup pf; ac_comms := firstn n (ac_comms pf) |} h =
  Some (firstn n wit, inp, h').
Proof. exact @act_drop. Qed.
Print Assumptions C40_commitments_dropped.

(** The honest ReLU run: prover and verifier register the same true claims. *)
Theorem C40_relu_complete :
  forall (K : field) (C : Type) (T : hist -> K) (ncpus : nat) (scl : nat -> nat -> rsched)
    (esl : nat -> list nat) (sc : nat -> rsched) (cst csc : K) (k : nat) (x out : list K) 
    (ci co : C) (last : claim) (h : hist),
  let n := S (S k) in
  char_gt K 3 ->
  0 < ncpus ->
  length x = 2 ^ n ->
  length out = 2 ^ n ->
  claim_true out last ->
  length (cl_point last) = n ->
  logup_scheds true (S k) 1 scl ->
  valid_sched n esl ->
  (forall i : nat, i < n -> valid_rsched (K := K) (sp_shape n) i (sc i)) ->
  exists (c c1 : claim) (pf : act_proof) (h' : hist),
    act_prove T ncpus scl esl sc None cst csc [x; out] [ci; co] out last h =
    Some ([(ci, c); (co, c1)], c, pf, h') /\
    claim_true x c /\
    claim_true out c1 /\
    ((forall (p : proof) (r : K), In p (lp_sumchecks (ac_lookup pf)) -> In r (pf_point p) -> not_node 3 r) ->
     (forall r : K, In r (pf_point (sp_sumcheck (ac_io pf))) -> not_node 2 r) ->
     act_verify T None cst csc n last pf h = Some ([(ci, c); (co, c1)], c, h')).
Proof. exact @relu_complete. Qed.
Print Assumptions C40_relu_complete.

(** The honest GELU run: the prover registers, for the column of the scaled input, the claim about the unscaled input; it is false of that column unless the multiplier is one or the value zero, and differs from the one the verifier registers. *)
Theorem C40_gelu_mismatch :
  forall (K : field) (C : Type) (T : hist -> K) (ncpus : nat) (scl : nat -> nat -> rsched)
    (esl : nat -> list nat) (sc : nat -> rsched) (m cst csc : K) (k : nat) (x out : list K) 
    (ci co : C) (last : claim) (h : hist),
  let n := S (S k) in
  char_gt K 3 ->
  0 < ncpus ->
  length x = 2 ^ n ->
  length out = 2 ^ n ->
  m <> 0%F ->
  m <> 1%F ->
  claim_true out last ->
  length (cl_point last) = n ->
  logup_scheds true (S k) 1 scl ->
  valid_sched n esl ->
  (forall i : nat, i < n -> valid_rsched (K := K) (sp_shape n) i (sc i)) ->
  exists (c c1 : claim) (pf : act_proof) (h' : hist),
    act_prove T ncpus scl esl sc (Some m) cst csc [x; out] [ci; co] out last h =
    Some ([(ci, c); (co, c1)], c, pf, h') /\
    length (cl_point c) = n /\
    (mle x (cl_point c) <> 0%F -> ~ claim_true x c) /\
    ((forall (p : proof) (r : K), In p (lp_sumchecks (ac_lookup pf)) -> In r (pf_point p) -> not_node 3 r) ->
     (forall r : K, In r (pf_point (sp_sumcheck (ac_io pf))) -> not_node 2 r) ->
     exists c' : claim,
       act_verify T (Some m) cst csc n last pf h = Some ([(ci, c'); (co, c1)], c, h') /\
       claim_true x c' /\ (mle x (cl_point c) <> 0%F -> c' <> c)).
Proof. exact @gelu_mismatch. Qed.
Print Assumptions C40_gelu_mismatch.

(** An honest ReLU run, and the same proof without its commitments. *)
Definition ex_cols : list (list F101) := [map z [3; -2; 0; 5]%Z; map z [3; 0; 0; 5]%Z].
Definition ex_act (gelu : option F101) := act_prove (C := nat) xT 2 (seq_rsched 3) (@seq_sched 2) (fun i => seq_rsched 1 2 i) gelu (z 10) (z 3) ex_cols [0; 1] (nth 1 ex_cols [])
  (mkClaim [z 20; z 30] (mle (nth 1 ex_cols []) [z 20; z 30])) [].
Definition ex_act_check (gelu : option F101) (keep : nat) (same : bool) : bool :=
  match ex_act gelu with
  | Some (wit, inp, pf, _) => all_nodes 2 (ac_lookup pf) (sp_sumcheck (ac_io pf)) &&
      match act_verify xT gelu (z 10) (z 3) 2 (mkClaim [z 20; z 30] (mle (nth 1 ex_cols []) [z 20; z 30])) (mkAct (ac_io pf) (ac_lookup pf) (firstn keep (ac_comms pf))) [] with
      | Some (wit2, inp2, _) => (length wit2 =? keep) && feqb (cl_eval inp2) (cl_eval inp) &&
          Bool.eqb same (forallb (fun p => feqb (cl_eval (snd (fst p))) (cl_eval (snd (snd p)))) (combine wit2 wit))
      | None => false end
  | None => false end.
Example C40_ex_runs : ex_act_check None 2 true = true /\ ex_act_check None 1 true = true /\ ex_act_check (Some (z 3)) 2 false = true.
Proof. repeat split; vm_compute; reflexivity. Qed.
Theorem C40_refuted : exists (T : @hist F101 -> F101) cst csc last (pf : @act_proof F101 nat) inp h',
  act_verify T None cst csc 2 last pf [] = Some ([], inp, h').
Proof.
  assert (H : match ex_act None with Some (_, _, pf, _) => match act_verify xT None (z 10) (z 3) 2 (mkClaim [z 20; z 30] (mle (nth 1 ex_cols []) [z 20; z 30])) pf [] with Some _ => true | None => false end | None => false end = true) by (vm_compute; reflexivity).
  destruct (ex_act None) as [[[[wit inp] pf] h1]|]; [|discriminate H]. destruct (act_verify xT None (z 10) (z 3) 2 _ pf []) as [[[w i] h']|] eqn:E; [|discriminate H].
  apply (act_drop _ _ _ _ _ _ _ _ _ _ _ 0) in E. exists xT, (z 10), (z 3). eexists. eexists. exists i, h'. exact E.
Qed.
Print Assumptions C40_refuted.

