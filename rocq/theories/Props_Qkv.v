(** Property C64: the layer that computes queries, keys and values. *)
From Coq Require Import List Arith Lia Bool ZArith Permutation.
From Verif Require Import ListAux FieldDef FpInst MleMath M_Mle P_Mle P_Eq M_Sumcheck P_ScVerify P_ScProve P_ScApi M_ScParallel P_ScParallel P_Count M_SamePoly P_SamePoly
  M_Tensor P_Tensor P_Tensor2 P_Tensor3 M_Pad M_Layers P_Layers2 P_Layers3 M_Sop P_Sop P_LogUp9 P_Transformer5 P_AddPos M_Qkv P_Qkv P_Qkv2 P_Qkv3.
Import ListNotations.

(** ** Inputs for the examples: two rows, two columns *)
Definition z (n : Z) : F101 := mkFp 101 n.
Definition xT (h : @hist F101) : F101 := z (11 + 7 * Z.of_nat (length h)).
Definition tz (l : list Z) : ten Z := mkTen [2; 2] l.
Definition tf (t : ten Z) : ten F101 := mkTen (sh t) (embed (dat t)).
Definition wq := tz [1; 2; 3; 4]%Z. Definition wk := tz [-1; 0; 2; 5]%Z. Definition wv := tz [7; 1; 1; -3]%Z.
Definition bq := mkTen [2] [1; 0]%Z. Definition bk := mkTen [2] [4; -4]%Z. Definition bv := mkTen [2] [0; 9]%Z.
Definition ly : @qkv F101 := mkQkv (tf wq) (tf wk) (tf wv) (tf bq) (tf bk) (tf bv).
Definition x1 := tz [1; 2; -3; 4]%Z.
Definition out (w b x : ten Z) : ten Z := match qkv_eval 0%Z Z.add Z.mul w b x with Some y => y | None => mkTen [] [] end.
Definition outs (x : ten Z) : list (ten Z) := [out wq bq x; out wk bk x; out wv bv x].
Definition pts : list (list F101) := [[z 20; z 30]; [z 41; z 5]; [z 77; z 13]].
Definition lasts (x : ten Z) : list (@claim F101) := map (fun '(y, p) => mkClaim p (mle (embed (dat y)) p)) (combine (outs x) pts).
Definition scs (i : nat) : rsched := seq_rsched 3 1 i.
Definition sps (i : nat) : rsched := seq_rsched 1 2 i.
Definition claim_b (l : list F101) (c : @claim F101) : bool := (length l =? 2 ^ length (cl_point c)) && feqb (cl_eval c) (mle l (cl_point c)).
Lemma claim_b_ok l c : claim_b l c = true -> claim_true l c.
Proof. unfold claim_b. intros H. apply andb_true_iff in H as [H1 H2]. split; [now apply Nat.eqb_eq|now apply feqb_true]. Qed.
Fixpoint claims_b (ls : list (list F101)) (cs : list (@claim F101)) : bool := match ls, cs with
  | [], [] => true | l :: ls', c :: cs' => claim_b l c && claims_b ls' cs' | _, _ => false end.
Lemma claims_b_ok ls : forall cs, claims_b ls cs = true -> Forall2 claim_true ls cs.
Proof. induction ls as [|l ls IH]; intros [|c cs] H; try discriminate; [constructor|]. apply andb_true_iff in H as [H1 H2]. constructor; [now apply claim_b_ok|auto]. Qed.
Lemma claims_b_no ls : forall cs, claims_b ls cs = false -> ~ Forall2 claim_true ls cs.
Proof.
  induction ls as [|l ls IH]; intros [|c cs] H HF; try discriminate; inversion HF as [|? ? ? ? [H1 H2] H3]. subst.
  cbn [claims_b] in H. apply andb_false_iff in H as [H|H]; [|exact (IH _ H H3)]. unfold claim_b in H. apply andb_false_iff in H as [H|H].
  - apply Nat.eqb_neq in H. auto.
  - apply feqb_false in H. auto.
Qed.
Definition acc_b (x : ten Z) (r : option (@claim F101 * list (@claim F101) * list (@claim F101) * @hist F101)) : bool := match r with
  | Some (c, wc, bc, _) => claim_b (embed (dat x)) c && claims_b (map (@dat F101) (qk_weights ly)) wc && claims_b (map (@dat F101) (qk_biases ly)) bc
  | None => false end.
Lemma acc_b_ok x r : acc_b x r = true -> exists c wc bc h', r = Some (c, wc, bc, h') /\ claim_true (embed (dat x)) c /\
  Forall2 claim_true (map (@dat F101) (qk_weights ly)) wc /\ Forall2 claim_true (map (@dat F101) (qk_biases ly)) bc.
Proof.
  destruct r as [[[[c wc] bc] h']|]; [|discriminate]. cbn [acc_b]. intros H. apply andb_true_iff in H as [H H3]. apply andb_true_iff in H as [H1 H2].
  exists c, wc, bc, h'. auto using claim_b_ok, claims_b_ok.
Qed.
Definition so : list (list nat) := [[2; 2]; [2; 2]; [2; 2]].
Definition vrun (l : list (@claim F101)) (pf : @qkv_proof F101) := qkv_verify xT 1 [[2; 2]] so l pf [].
Definition prun (x : ten Z) (l : list (@claim F101)) := qkv_prove xT 2 scs sps (seq_sched 1) ly (tf x) (map tf (outs x)) l [].
Definition nodes_b (l : list F101) : bool := forallb (fun r => negb (feqb r f0) && negb (feqb r f1) && negb (feqb r (fnat 2))) l.
Definition point_b (p1 p2 : list F101) : bool := forallb (fun '(a, b) => feqb a b) (combine p1 p2) && (length p1 =? length p2).
(** [qkv_restate]'s weight of a point, from the proof. *)
Definition after (l : list (@claim F101)) (pf : @qkv_proof F101) : list F101 * @hist F101 :=
  let '(chs, h1) := qkv_challenges xT l (qp_pre pf) [] in
  match verify xT (fold_left (fun acc '(e, c) => acc + e * c)%F (combine (qp_pre pf) chs) f0) (qp_sumcheck pf) 1 2 h1 with Some (rs, _, h2) => (rs, h2) | None => ([], []) end.
Definition weight (l : list (@claim F101)) (pf : @qkv_proof F101) (p : list F101) : F101 :=
  let '(rs, h2) := after l pf in agg_weight xT (qkv_in_claims 1 l (qp_ind pf) rs) h2 p.
Definition run_b (x : ten Z) (l : list (@claim F101)) : bool := match prun x l with
  | Some (c, _, _, pf, _) => acc_b x (vrun l pf) && nodes_b (pf_point (qp_sumcheck pf)) && nodes_b (pf_point (sp_sumcheck (qp_agg pf))) &&
      point_b (pf_point (sp_sumcheck (qp_agg pf))) (sc_point xT 2 2 (snd (read_challenges xT 3 (snd (after l pf)))) (sp_sumcheck (qp_agg pf)))
  | None => false end.

(** ** C64 *)

(** Whatever proof the verifier accepts with true claims about the input, the weights and the biases, for a layer with at least two columns: if the aggregation states the point of its own sumcheck, then all three output claims hold, or challenges hit a zero of an equation fixed before them.  Missing: the verifier does not check the stated point ([C64_forgery]). *)
Theorem C64_sound_partial :
  forall (K : field) (T : @hist K -> K) (m k n : nat) (X : list K) (ws bs ys : list (list K))
    (osr : list (list nat)) (lasts : list (@claim K)) (pf : qkv_proof) (h : hist) (c : claim) 
    (wc bc : list claim) (h' : hist),
  char_gt K 2 ->
  0 < k ->
  qkv_outputs m k n X ws bs ys ->
  qkv_verify T k [[2 ^ m; 2 ^ k]] ([2 ^ m; 2 ^ n] :: osr) lasts pf h = Some (c, wc, bc, h') ->
  claim_true X c ->
  Forall2 claim_true ws wc ->
  Forall2 claim_true bs bc ->
  exists (claimed : K) (rs : list K) (e : K) (h2 : hist),
    verify T claimed (qp_sumcheck pf) k 2 (snd (qkv_challenges T lasts (qp_pre pf) h)) = Some (rs, e, h2) /\
    (pf_point (sp_sumcheck (qp_agg pf)) =
     sc_point T (m + k) 2 (snd (read_challenges T 3 h2)) (sp_sumcheck (qp_agg pf)) ->
     Forall2 claim_true ys lasts \/ qkv_fooled T m k n X ws lasts pf h h2).
Proof. exact @qkv_sound. Qed.
Print Assumptions C64_sound_partial.

(** The batching challenges hide a difference for at most one in |S| choices: the first challenge is fixed to one. *)
Theorem C64_batch_count :
  forall (K : field) (S0 d : list K) (d0 : K),
  NoDup S0 ->
  d0 <> 0%F \/ (exists i : nat, nth i d 0%F <> 0%F) ->
  length (filter (fun a : list K => (d0 + P_Count.dot a d =? 0)%F) (vecs S0 (length d))) <=
  length S0 ^ (length d - 1).
Proof. exact @batch_count. Qed.
Print Assumptions C64_batch_count.

(** The honest prover on any input of any power-of-two size is accepted, both sides derive the same claims, and they hold of the input, of the three weights and of the three biases. *)
Theorem C64_complete :
  forall (K : field) (T : @hist K -> K) (ncpus : nat) (scs sps : nat -> rsched) (es : nat -> list nat) 
    (l : qkv) (input : ten K) (outputs : list (ten K)) (lasts : list (@claim K)) (h : hist) 
    (m k n : nat) (o1 o2 : list nat),
  0 < ncpus ->
  char_gt K 2 ->
  0 < k ->
  sh input = [2 ^ m; 2 ^ k] ->
  Forall (fun w : ten K => sh w = [2 ^ k; 2 ^ n]) (qk_weights l) ->
  Forall (fun o : ten K => sh o = [2 ^ m; 2 ^ n]) outputs ->
  qkv_outputs m k n (dat input) (map dat (qk_weights l)) (map dat (qk_biases l)) (map dat outputs) ->
  Forall2 claim_true (map dat outputs) lasts ->
  valid_sched n es ->
  (forall i : nat, i < k -> valid_rsched (sop_shape (K := K) k 6 [[0; 1]; [2; 3]; [4; 5]]) i (scs i)) ->
  (forall i : nat, i < m + k -> valid_rsched (K := K) (sp_shape (m + k)) i (sps i)) ->
  exists (c : claim) (wc bc : list claim) (pf : qkv_proof) (h' : hist),
    qkv_prove T ncpus scs sps es l input outputs lasts h = Some (c, wc, bc, pf, h') /\
    claim_true (dat input) c /\
    Forall2 claim_true (map dat (qk_weights l)) wc /\
    Forall2 claim_true (map dat (qk_biases l)) bc /\
    ((forall r : K,
      In r (pf_point (qp_sumcheck pf)) \/ In r (pf_point (sp_sumcheck (qp_agg pf))) -> not_node 2 r) ->
     qkv_verify T k [[2 ^ m; 2 ^ k]] [[2 ^ m; 2 ^ n]; o1; o2] lasts pf h = Some (c, wc, bc, h')).
Proof. exact @qkv_complete. Qed.
Print Assumptions C64_complete.

(** What the layer computes on integers is the product that the proof is about. *)
Theorem C64_integer :
  forall (K : field) (w b x : ten Z) (m k n : nat),
  wft x ->
  wft w ->
  wft b ->
  sh x = [2 ^ m; 2 ^ k] ->
  sh w = [2 ^ k; 2 ^ n] ->
  sh b = [2 ^ n] ->
  exists y : ten Z,
    qkv_eval 0%Z Z.add Z.mul w b x = Some y /\
    sh y = [2 ^ m; 2 ^ n] /\
    matprod (K := K) false m k n (embed (dat x)) (embed (dat w)) (Some (embed (dat b))) (embed (dat y)).
Proof. exact @qkv_integer. Qed.
Print Assumptions C64_integer.

(** An honest run: accepted with true claims, and stating the point of its sumcheck; a wrong value of one output is not. *)
Definition wrong : list (@claim F101) := match lasts x1 with [a; b; c] => [a; b; mkClaim (cl_point c) (cl_eval c + f1)%F] | l => l end.
Example C64_ex : run_b x1 (lasts x1) = true /\ run_b x1 wrong = false /\ outs x1 = [tz [8; 10; 10; 10]%Z; tz [7; 6; 15; 16]%Z; tz [9; 4; -17; -6]%Z] /\
  qkv_outputs 1 1 1 (dat (tf x1)) (map (@dat F101) (qk_weights ly)) (map (@dat F101) (qk_biases ly)) (map (@dat F101) (map tf (outs x1))) /\
  Forall2 claim_true (map (@dat F101) (map tf (outs x1))) (lasts x1) /\ char_gt F101 2.
Proof.
  split; [vm_compute; reflexivity|]. split; [vm_compute; reflexivity|]. split; [reflexivity|]. split; [|split].
  - split; [reflexivity|]. split; [reflexivity|]. split; [reflexivity|]. intros i Hi.
    assert (Hm : forall w b, wft w -> wft b -> sh w = [2; 2] -> sh b = [2] -> matprod (K := F101) false 1 1 1 (embed (dat x1)) (embed (dat w)) (Some (embed (dat b))) (embed (dat (out w b x1)))).
    { intros w b Ww Wb Sw Sb. destruct (qkv_integer (K := F101) w b x1 1 1 1) as (y & Ey & _ & M); auto; try reflexivity. unfold out. rewrite Ey. exact M. }
    destruct i as [|[|[|i]]]; [apply (Hm wq bq)|apply (Hm wk bk)|apply (Hm wv bv)|lia]; reflexivity.
  - apply claims_b_ok. vm_compute. reflexivity.
  - intros i Hi. destruct i as [|[|[|i]]]; try lia; apply feqb_false; vm_compute; reflexivity.
Qed.
Example C64_ex_sched : valid_sched 1 (seq_sched 1) /\ (forall i, i < 1 -> valid_rsched (sop_shape (K := F101) 1 6 [[0; 1]; [2; 3]; [4; 5]]) i (scs i)) /\
  (forall i, i < 2 -> valid_rsched (K := F101) (sp_shape 2) i (sps i)).
Proof.
  split; [apply seq_sched_valid|]. split; intros i Hi; [apply (seq_sop_sched 1 6 [[0; 1]; [2; 3]; [4; 5]])|].
  destruct (seq_sop_sched (K := F101) 2 2 [[0; 1]] i) as [A B C]. constructor; [exact A| |exact C]. intros q Hq Hk. assert (q = 0) by (cbn in Hq; lia). subst q. exact (B 0 Hq Hk).
Qed.

(** From any accepted proof: every point and value with the same product of weight and value is accepted as the claim about the input, with all else unchanged. *)
Theorem C64_restate :
  forall (K : field) (T : @hist K -> K) (m k n : nat) (osr : list (list nat)) (lasts : list (@claim K)) 
    (pf : qkv_proof) (h : hist) (c : claim) (wc bc : list claim) (h' : hist),
  qkv_verify T k [[2 ^ m; 2 ^ k]] ([2 ^ m; 2 ^ n] :: osr) lasts pf h = Some (c, wc, bc, h') ->
  exists (claimed : K) (rs : list K) (e : K) (h2 : hist),
    verify T claimed (qp_sumcheck pf) k 2 (snd (qkv_challenges T lasts (qp_pre pf) h)) = Some (rs, e, h2) /\
    (let B := agg_weight T (qkv_in_claims n lasts (qp_ind pf) rs) h2 in
     forall (pt : list K) (v : K),
     (B pt * v)%F = (B (cl_point c) * cl_eval c)%F ->
     qkv_verify T k [[2 ^ m; 2 ^ k]] ([2 ^ m; 2 ^ n] :: osr) lasts (restated pf pt (B pt) v) h =
     Some ({| cl_point := pt; cl_eval := v |}, wc, bc, h')).
Proof. exact @qkv_restate. Qed.
Print Assumptions C64_restate.

(** An honest proof for any input, and any other input with two equal neighbouring entries that are not zero: the verifier accepts the outputs of the first with claims that hold of the second, unless the weights of the two corners are the same. *)
Theorem C64_forgery :
  forall (K : field) (T : @hist K -> K) (ncpus : nat) (scs sps : nat -> rsched) (es : nat -> list nat) 
    (l : qkv) (input : ten K) (outputs : list (ten K)) (lasts : list (@claim K)) (h : hist) 
    (m k n : nat) (o1 o2 : list nat) (c : claim) (wc bc : list claim) (pf : qkv_proof) 
    (h' : hist) (X : list K) (q j : nat),
  0 < ncpus ->
  char_gt K 2 ->
  0 < k ->
  sh input = [2 ^ m; 2 ^ k] ->
  Forall (fun w : ten K => sh w = [2 ^ k; 2 ^ n]) (qk_weights l) ->
  Forall (fun o : ten K => sh o = [2 ^ m; 2 ^ n]) outputs ->
  qkv_outputs m k n (dat input) (map dat (qk_weights l)) (map dat (qk_biases l)) (map dat outputs) ->
  Forall2 claim_true (map dat outputs) lasts ->
  valid_sched n es ->
  (forall i : nat, i < k -> valid_rsched (sop_shape (K := K) k 6 [[0; 1]; [2; 3]; [4; 5]]) i (scs i)) ->
  (forall i : nat, i < m + k -> valid_rsched (K := K) (sp_shape (m + k)) i (sps i)) ->
  qkv_prove T ncpus scs sps es l input outputs lasts h = Some (c, wc, bc, pf, h') ->
  (forall r : K, In r (pf_point (qp_sumcheck pf)) \/ In r (pf_point (sp_sumcheck (qp_agg pf))) -> not_node 2 r) ->
  length X = 2 ^ (m + k) ->
  m + k = S q ->
  j < 2 ^ q ->
  nth (2 * j) X 0%F = nth (2 * j + 1) X 0%F ->
  nth (2 * j) X 0%F <> 0%F ->
  exists (claimed : K) (rs : list K) (e : K) (h2 : hist),
    verify T claimed (qp_sumcheck pf) k 2 (snd (qkv_challenges T lasts (qp_pre pf) h)) = Some (rs, e, h2) /\
    (let B := agg_weight T (qkv_in_claims n lasts (qp_ind pf) rs) h2 in
     B (0%F :: bpt q j) <> B (1%F :: bpt q j) ->
     exists (pf' : qkv_proof) (c' : claim),
       qkv_verify T k [[2 ^ m; 2 ^ k]] [[2 ^ m; 2 ^ n]; o1; o2] lasts pf' h = Some (c', wc, bc, h') /\
       claim_true X c' /\
       Forall2 claim_true (map dat (qk_weights l)) wc /\ Forall2 claim_true (map dat (qk_biases l)) bc).
Proof. exact @qkv_forgery. Qed.
Print Assumptions C64_forgery.

(** Concretely: the outputs of [x1] accepted with true claims about another input, of which the output claims are false. *)
Definition x2 := tz [5; 5; 1; 0]%Z.
Definition forged (l : list (@claim F101)) (pf : @qkv_proof F101) : @qkv_proof F101 :=
  let B := weight l pf in
  let t := (B (pf_point (sp_sumcheck (qp_agg pf))) * nth 1 (sp_evals (qp_agg pf)) f0)%F in
  let b0 := B [f0; f0] in let b1 := B [f1; f0] in
  let x := ((t * / z 5 - b0) * / (b1 - b0))%F in restated pf [x; f0] (B [x; f0]) (z 5).
Definition honest : @qkv_proof F101 := match prun x1 (lasts x1) with Some (_, _, _, pf, _) => pf | None => mkQp (mkProof [] []) (mkSp (mkProof [] []) []) [] (f0, f0) (f0, f0) (f0, f0) end.
Theorem C64_refuted : exists pf c wc bc h', qkv_verify xT 1 [[2; 2]] so (lasts x1) pf [] = Some (c, wc, bc, h') /\ claim_true (embed (dat x2)) c /\
  Forall2 claim_true (map (@dat F101) (qk_weights ly)) wc /\ Forall2 claim_true (map (@dat F101) (qk_biases ly)) bc /\
  map (fun '(w, b) => qkv_eval 0%Z Z.add Z.mul w b x2) [(wq, bq); (wk, bk); (wv, bv)] = map Some (outs x2) /\
  ~ Forall2 claim_true (map (fun y => embed (dat y)) (outs x2)) (lasts x1).
Proof.
  assert (H : acc_b x2 (vrun (lasts x1) (forged (lasts x1) honest)) = true) by (vm_compute; reflexivity).
  destruct (acc_b_ok _ _ H) as (c & wc & bc & h' & E & T1 & T2 & T3). exists (forged (lasts x1) honest), c, wc, bc, h'.
  split; [exact E|]. split; [exact T1|]. split; [exact T2|]. split; [exact T3|]. split; [reflexivity|]. apply claims_b_no. vm_compute. reflexivity.
Qed.
Print Assumptions C64_refuted.
Example C64_ex_weights : feqb (weight (lasts x1) honest [f0; f0]) (weight (lasts x1) honest [f1; f0]) = false.
Proof. vm_compute. reflexivity. Qed.

