(** Property theorems C37, C58: the convolution proof.  Statements only.

    [gen] is the generator of the 2^32-th roots of unity (its 2^31-th power is -1), [emb] the embedding of the integers.  [checked] and
    [all_checked] say that what [IOPVerifierState::verify] returned agrees with the point and the evaluations of the proof, which the code
    never looks at. *)
From Coq Require Import List Arith Lia Bool ZArith.
From Verif Require Import ListAux FieldDef FpInst FpGold PolyList MleMath M_Mle P_Mle P_Eq M_Interp M_Sumcheck P_ScVerify M_ScParallel P_ScParallel P_ScApi M_SamePoly P_SamePoly P_LogUp9
  M_Tensor P_Tensor M_Pool M_Quant P_Quant P_LogUp8 M_Fft P_Fft P_Fft3 P_Fft4 M_Layers P_Layers P_Layers2 P_Layers5 P_Pooling M_Conv P_Conv P_Conv2 P_Conv3 P_Conv4 P_Conv5 P_Conv6 P_Conv7 P_Conv8 P_Conv9 P_Conv10 P_Transformer5.
Import ListNotations.

(** ** A concrete layer, over Goldilocks: one 2x2 filter on a 4x4 input *)
Definition cT (h : @hist Fgold) : Fgold := mkFp gold (1000 + Z.of_nat (length h) mod 1000).
Definition cemb : Z -> Fgold := to_field gold.
Definition cf : ten Z := mkTen [1; 1; 2; 2] [1; -2; 3; 4]%Z.
Definition cb : ten Z := mkTen [1] [100]%Z.
Definition cin : ten Z := mkTen [1; 4; 4] [1; 2; 3; 4; 5; 6; 7; 8; 9; 10; 11; 12; -13; -14; -15; -16]%Z.
Definition clayer : conv := mkConv (mkTen [1; 1; 4; 4] (dat cf)) [1; 1; 2; 2] cb [1; 1; 2; 2].
(** Its output: 3x3, padded to 4x4. *)
Definition cout : list Z := [136; 142; 148; 0; 160; 166; 172; 0; -6; -14; -22; 0; 0; 0; 0; 0]%Z.
Definition cfs (n : nat) := mkFs (seq_rsched 1 n) (fun nv => seq_rsched 1 nv).
Definition css := mkCs (seq_rsched 1 4) (cfs 5) (seq_rsched 1 5) (cfs 5) (cfs 5) (seq_sched 0) (seq_sched 2).
Definition cpt : list Fgold := map (mkFp gold) [5; 6; 7; 8]%Z.
Definition clast : @claim Fgold := mkClaim cpt (mle (map cemb cout) cpt).
(** The prover, then the verifier. *)
Definition crun := d <- conv_op_data gold_gen cemb (to_element gold) clayer cin ;;
  prove_convolution_step gold_gen cemb cT 3 css clayer clast [1; 4; 4] [1; 3; 3] d [].
Definition cver (r : option (@claim Fgold * list (conv_poly * @claim Fgold) * @conv_proof Fgold * @hist Fgold)) := r <- r ;; cx <- conv_step_info clayer ;;
  verify_convolution gold_gen cemb cT cx (seq_sched 4) (seq_sched 4) (seq_sched 2) [[1; 4; 4]] [[1; 4; 4]] clast (snd (fst r)) [].
Definition same_points (p p' : list Fgold) : bool := (length p =? length p') && forallb (fun ab => (fst ab =? snd ab)%F) (combine p p').
Definition checked_b (k : @sc_call Fgold) : bool :=
  match verify cT (ca_claimed k) (ca_pf k) (ca_nv k) (ca_deg k) (ca_hist k) with
  | Some (p, e, _) => (e =? fprod (firstn (ca_deg k) (ca_evals k)))%F && same_points p (pf_point (ca_pf k))
  | None => false end.
Definition true_b (l : list Z) (c : @claim Fgold) : bool := (length l =? 2 ^ length (cl_point c)) && (cl_eval c =? mle (map cemb l) (cl_point c))%F.
Definition run_ok (r : option (@claim Fgold * list (conv_poly * @claim Fgold) * @conv_proof Fgold * @hist Fgold))
    (v : option (@claim Fgold * list (conv_poly * @claim Fgold) * @hist Fgold * @conv_calls Fgold)) : bool :=
  match r, v with
  | Some (_, _, pf, _), Some (ic, [(ConvFilter, fc); (ConvBias, bc)], _, ks) =>
      forallb checked_b (ck_ifft ks :: ck_ifft_del ks ++ ck_had ks :: ck_fft ks :: ck_fft_del ks ++ ck_fftw ks :: ck_fftw_del ks) &&
      true_b (dat cin) ic && true_b (dat cf) fc && true_b (dat cb) bc && (length (cp_fft_del_w pf) =? 4) &&
      same_points (pf_point (hp_sumcheck (cp_clearing pf))) (sc_point cT 4 3 [] (hp_sumcheck (cp_clearing pf)))
  | _, _ => false end.
Lemma cok_true : run_ok crun (cver crun) = true.
Proof. vm_compute. reflexivity. Qed.
Lemma same_points_ok p p' : same_points p p' = true -> p = p'.
Proof.
  unfold same_points. rewrite andb_true_iff. intros [L H]. apply Nat.eqb_eq in L. revert p' L H. induction p as [|x p IH]; intros [|y p'] L H; try discriminate; [reflexivity|].
  cbn [combine forallb fst snd] in H. apply andb_true_iff in H. destruct H as [H1 H2]. f_equal; [now apply feqb_true|]. apply IH; auto.
Qed.
Lemma checked_b_ok k : checked_b k = true -> checked cT k.
Proof.
  unfold checked_b, checked. destruct (verify _ _ _ _ _ _) as [[[p e] h']|]; [|discriminate]. rewrite andb_true_iff. intros [H1 H2].
  apply feqb_true in H1. apply same_points_ok in H2. exists h'. rewrite <- H1, <- H2. reflexivity.
Qed.
Lemma true_b_ok l c : true_b l c = true -> claim_true (map cemb l) c.
Proof. unfold true_b, claim_true. rewrite andb_true_iff, Nat.eqb_eq, map_length. intros [H1 H2]. apply feqb_true in H2. auto. Qed.
Lemma cspec : conv_spec cin cf (dat cb) 0 2 1 2 1 3 cout.
Proof.
  split; [reflexivity|]. change (2 ^ 0) with 1. change (2 ^ 2) with 4. intros o r q Ho Hr Hq.
  destruct o as [|o]; [|lia]. do 4 (destruct r as [|r]; [do 4 (destruct q as [|q]; [vm_compute; reflexivity|]); lia|]). lia.
Qed.
Lemma chgold : char_gt Fgold 3.
Proof. intros i Hi. apply feqb_false. assert (i = 1 \/ i = 2 \/ i = 3) as [-> | [-> | ->]] by lia; vm_compute; reflexivity. Qed.

(** The run meets the hypotheses of [C37_conv_sound_partial]. *)
Definition good_run : Prop := exists cx pf ic fc bc h' ks, conv_step_info clayer = Some cx /\
  verify_convolution gold_gen cemb cT cx (seq_sched 4) (seq_sched 4) (seq_sched 2) [[1; 4; 4]] [[1; 4; 4]] clast pf [] =
    Some (ic, [(ConvFilter, fc); (ConvBias, bc)], h', ks) /\
  pf_point (hp_sumcheck (cp_clearing pf)) = sc_point cT 4 3 [] (hp_sumcheck (cp_clearing pf)) /\ all_checked cT ks /\ length (cp_fft_del_w pf) = 4 /\
  claim_true (map cemb (dat cin)) ic /\ claim_true (map cemb (dat cf)) fc /\ claim_true (map cemb (dat cb)) bc /\
  conv_spec cin cf (dat cb) 0 2 1 2 1 3 cout /\ claim_true (map cemb cout) clast.
Lemma good_run_of r : run_ok r (cver r) = true -> good_run.
Proof.
  intros H. unfold run_ok, cver in H. destruct r as [[[[ic0 cl0] pf] h0]|]; [|discriminate]. cbn [obind fst snd] in H.
  destruct (conv_step_info clayer) as [cx|] eqn:Ecx; [|discriminate]. cbn [obind] in H.
  destruct (verify_convolution _ _ _ _ _ _ _ _ _ _ _ _) as [[[[ic cl] h'] ks]|] eqn:Ev; [|discriminate].
  destruct cl as [|[[] fc] [|[[] bc] [|]]]; try discriminate. rewrite !andb_true_iff in H. destruct H as (((((H1 & H2) & H3) & H4) & H5) & H6).
  exists cx, pf, ic, fc, bc, h', ks. split; [exact Ecx|]. split; [exact Ev|]. split; [now apply same_points_ok|]. split.
  { unfold all_checked. apply Forall_forall. rewrite forallb_forall in H1. intros k Hk. apply checked_b_ok. now apply H1. }
  split; [now apply Nat.eqb_eq|]. do 3 (split; [now apply true_b_ok|]). split; [exact cspec|]. split; reflexivity.
Qed.
Example C37_ex_run : good_run.
Proof. exact (good_run_of crun cok_true). Qed.

(** With the comparisons that the code omits ([all_checked], the point of the clearing product, the number of delegation rounds of the filter transform), every accepted proof is sound: true claims about the input, the filter and the bias make the claim about the output true, or one of the listed events (a challenge hits a root of a nonzero polynomial fixed before it is drawn, or the table of the partial evaluations differs from the true one and agrees at the challenge). *)
Theorem C37_conv_sound_partial :
  forall (K : field) (gen : K),
  fpow gen (2 ^ 31) = (- (1))%F ->
  (1 + 1)%F <> (0%F : K) ->
  forall emb : Z -> K,
  emb 0%Z = 0%F ->
  emb 1%Z = 1%F ->
  (forall x y : Z, emb (x + y)%Z = (emb x + emb y)%F) ->
  (forall x y : Z, emb (x * y)%Z = (emb x * emb y)%F) ->
  forall (T : hist -> K) (cv : conv) (x f : ten Z) (bd : list Z) (b a l c ci kr hx o0 ki : nat) 
    (cx : conv_ctx) (es1 es2 es3 : nat -> list nat) (last0 : claim) (pf : conv_proof) 
    (h : hist) (ic fc bc : claim) (h' : hist) (ks : conv_calls) (y : list Z),
  char_gt K 3 ->
  1 <= l ->
  2 * l + 1 <= 32 ->
  c < l ->
  wft f ->
  sh f = [2 ^ b; 2 ^ a; 2 ^ c; 2 ^ c] ->
  wft x ->
  sh x = [2 ^ a; 2 ^ l; 2 ^ l] ->
  length bd = 2 ^ b ->
  1 <= kr <= 2 ^ c ->
  ci <= 2 ^ a ->
  kr <= hx <= 2 ^ l ->
  (forall o j p q : nat,
   o < 2 ^ b ->
   j < 2 ^ a -> p < 2 ^ c -> q < 2 ^ c -> ci <= j \/ kr <= p \/ kr <= q -> entry 0%Z f [o; j; p; q] = 0%Z) ->
  sh (cv_filter cv) = [2 ^ b; 2 ^ a; 2 ^ l; 2 ^ l] ->
  cv_og cv = sh f ->
  cv_unpadded cv = [o0; ki; kr; kr] ->
  conv_step_info cv = Some cx ->
  valid_sched (b + 2 * l) es1 ->
  valid_sched (b + 2 * l) es2 ->
  valid_sched (2 * c) es3 ->
  length (cl_point last0) = b + 2 * l ->
  verify_convolution gen emb T cx es1 es2 es3 [[ci; hx; hx]] [sh x] last0 pf h =
  Some (ic, [(ConvFilter, fc); (ConvBias, bc)], h', ks) ->
  pf_point (hp_sumcheck (cp_clearing pf)) = sc_point T (b + 2 * l) 3 h (hp_sumcheck (cp_clearing pf)) ->
  all_checked T ks ->
  length (cp_fft_del_w pf) = 2 * l ->
  claim_true (map emb (dat x)) ic ->
  claim_true (map emb (dat f)) fc ->
  claim_true (map emb bd) bc ->
  conv_spec x f bd b l ci kr o0 (hx - kr + 1) y ->
  claim_true (map emb y) last0 \/
  conv_event gen emb T l c a b (dat f) (dat x) bd last0 o0 (hx - kr + 1) (hx - kr + 1) pf fc h ks.
Proof. exact @conv_layer_sound. Qed.
Print Assumptions C37_conv_sound_partial.

(** As the code stands nothing is bound: for every claim about the output, true or false, every layer and every input, filter and bias there is an accepted proof whose claims about the input, the filter and the bias are all true; the points of the clearing product, of the product of transforms and of the input can even be chosen. *)
Theorem C37_conv_forge :
  forall (K : field) (gen : K),
  fpow gen (2 ^ 31) = (- (1))%F ->
  (1 + 1)%F <> (0%F : K) ->
  forall T : hist -> K,
  char_gt K 3 ->
  (forall h : hist, not_node 3 (T h)) ->
  forall emb : Z -> K,
  emb 0%Z = 0%F ->
  emb 1%Z = 1%F ->
  forall l c a b : nat,
  1 <= l ->
  2 * l + 1 <= 32 ->
  c <= l ->
  forall fd xd bd : list Z,
  length fd = 2 ^ b * 2 ^ a * (2 ^ c * 2 ^ c) ->
  length xd = 2 ^ a * (2 ^ l * 2 ^ l) ->
  length bd = 2 ^ b ->
  forall (cx : conv_ctx) (es1 es2 es3 : nat -> list nat) (ui pi : list nat) (o0 o1 o2 : nat) 
    (last0 : claim) (h : hist) (p0 hp q : list K),
  conv_dims l c a cx ->
  valid_sched (b + 2 * l) es1 ->
  valid_sched (b + 2 * l) es2 ->
  valid_sched (2 * c) es3 ->
  conv2d_shape ui (cx_unpadded cx) = Some [o0; o1; o2] ->
  padded_conv2d_shape pi (cx_padded cx) = Some [2 ^ b; 2 ^ l; 2 ^ l] ->
  length (cl_point last0) = b + 2 * l ->
  length p0 = b + 2 * l ->
  length hp = 2 * l + 1 + a ->
  length q = 2 * l ->
  (eqp (cl_point last0) p0 * mle (mask l b o0 o1 o2) p0)%F <> 0%F ->
  exists (pf : conv_proof) (ic fc bc : claim) (h' : hist) (ks : conv_calls),
    verify_convolution gen emb T cx es1 es2 es3 [ui] [pi] last0 pf h =
    Some (ic, [(ConvFilter, fc); (ConvBias, bc)], h', ks) /\
    claim_true (map emb xd) ic /\
    claim_true (map emb fd) fc /\
    claim_true (map emb bd) bc /\
    cl_point ic = map (fun x : K => (1 - x)%F) q ++ skipn (2 * l + 1) hp /\
    pf_point (hp_sumcheck (cp_clearing pf)) = p0 /\
    pf_point (cp_had pf) = hp /\ length (cp_fft_del_w pf) = 2 * l.
Proof. exact @conv_forge. Qed.
Print Assumptions C37_conv_forge.

(** The full property is false: a false claim about the output is accepted though the claims about the input, the filter and the bias are true. *)
Definition cfalse : @claim Fgold := mkClaim cpt (mle (map cemb cout) cpt + 1)%F.
Lemma cT_nodes h : not_node 3 (cT h).
Proof.
  intros i Hi E. apply (f_equal (fpv gold)) in E. unfold cT, mkFp in E.
  assert (B := Z.mod_pos_bound (Z.of_nat (length h)) 1000 ltac:(lia)). set (m := (Z.of_nat (length h) mod 1000)%Z) in *.
  assert (X : fpv gold (mkFp gold (1000 + m)) = (1000 + m)%Z). { cbn [fpv mkFp]. apply Z.mod_small. split; [lia|]. apply Z.lt_trans with 2000%Z; [lia|reflexivity]. }
  assert (Y : (fpv gold (fnat i : Fgold) < 4)%Z). { assert (i = 0 \/ i = 1 \/ i = 2 \/ i = 3) as [-> | [-> | [-> | ->]]] by lia; vm_compute; reflexivity. }
  unfold mkFp in X. rewrite X in E. rewrite <- E in Y. lia.
Qed.
Theorem C37_conv_refuted : exists cx pf ic fc bc h' ks, conv_step_info clayer = Some cx /\
  verify_convolution gold_gen cemb cT cx (seq_sched 4) (seq_sched 4) (seq_sched 2) [[1; 4; 4]] [[1; 4; 4]] cfalse pf [] =
    Some (ic, [(ConvFilter, fc); (ConvBias, bc)], h', ks) /\
  claim_true (map cemb (dat cin)) ic /\ claim_true (map cemb (dat cf)) fc /\ claim_true (map cemb (dat cb)) bc /\
  conv_spec cin cf (dat cb) 0 2 1 2 1 3 cout /\ ~ claim_true (map cemb cout) cfalse.
Proof.
  destruct (conv_step_dims clayer 0 0 2 1 eq_refl eq_refl) as (cx & Ecx & Cd & Cu & Cp).
  destruct (conv_forge gold_gen gold_gen_root gold_char2 cT chgold cT_nodes cemb) with (l := 2) (c := 1) (a := 0) (b := 0) (fd := dat cf) (xd := dat cin) (bd := dat cb)
    (cx := cx) (es1 := seq_sched 4) (es2 := seq_sched 4) (es3 := seq_sched 2) (ui := [1; 4; 4]) (pi := [1; 4; 4]) (o0 := 1) (o1 := 3) (o2 := 3) (last0 := cfalse)
    (h := @nil (@ev Fgold)) (p0 := cpt) (hp := map (mkFp gold) [1; 2; 3; 4; 5]%Z) (q := cpt)
    as (pf & ic & fc & bc & h' & ks & Ev & Ti & Tf & Tb & _); try reflexivity; try lia.
  - exact Cd.
  - apply seq_sched_valid.
  - apply seq_sched_valid.
  - apply seq_sched_valid.
  - rewrite Cu. reflexivity.
  - rewrite Cp. reflexivity.
  - apply feqb_false. vm_compute. reflexivity.
  - exists cx, pf, ic, fc, bc, h', ks. split; [exact Ecx|]. split; [exact Ev|]. do 3 (split; [assumption|]). split; [exact cspec|].
    intros [_ X]. cbn [cl_eval cl_point cfalse] in X. revert X. apply feqb_false. vm_compute. reflexivity.
Qed.
Print Assumptions C37_conv_refuted.

(** A second gap, which stays even when the results of the sumchecks are compared: the partial evaluations of the filter are not put into the transcript before their challenge is drawn. For the challenge and any two positions with independent coefficients, every pair of a value at the challenge and a value of the padded evaluation can be reached. *)
Theorem C37_partial_unbound :
  forall (K : field) (l c : nat) (wr wp : list K) (e u : K) (i j : nat),
  let k := 2 ^ c in
  let g := fun i0 : nat => eqw (i0 / k * 2 ^ l + i0 mod k) wp in
  length wr = 2 * c ->
  length wp = 2 * l ->
  i < k * k ->
  j < k * k ->
  i <> j ->
  (eqw i wr * g j - eqw j wr * g i)%F <> 0%F ->
  exists partial : list K,
    length partial = 2 ^ (2 * c) /\ mle partial wr = e /\ padded_weights_eval k (2 ^ l) partial wp = Some u.
Proof. exact @partial_unbound. Qed.
Print Assumptions C37_partial_unbound.

Example C37_ex_unbound : let wr : list Fgold := map (mkFp gold) [3; 5]%Z in let wp := cpt in
  (eqw 0 wr * eqw (1 / 2 * 4 + 1 mod 2) wp - eqw 1 wr * eqw (0 / 2 * 4 + 0 mod 2) wp <> (0 : Fgold))%F.
Proof. apply feqb_false. vm_compute. reflexivity. Qed.

(** The honest prover of a convolution is accepted: for every layer, every input and every true claim about the output (the direct convolution with the bias, zero in the padding) the prover ends, and when no challenge of its sumchecks is an interpolation node, the verifier accepts, returns the claims of the prover and ends in the transcript of the prover; the claims about the input, the filter and the bias are true, and every sumcheck would pass the comparisons that the code omits. [unemb] is [to_element]; it need not invert the embedding on values that do not fit. *)
Theorem C58_conv_complete :
  forall (K : field) (gen : K),
  fpow gen (2 ^ 31) = (- (1))%F ->
  forall (emb : Z -> K) (unemb : K -> Z),
  emb 0%Z = 0%F ->
  emb 1%Z = 1%F ->
  (forall x y : Z, emb (x + y)%Z = (emb x + emb y)%F) ->
  (forall x y : Z, emb (x * y)%Z = (emb x * emb y)%F) ->
  (forall z : Z, emb (unemb (emb z)) = emb z) ->
  forall (T : hist -> K) (cvl : conv) (x f : ten Z) (bd : list Z) (b a l c ci kr hx o0 ki ncpus : nat)
    (ss : conv_sched) (es1 es2 es3 : nat -> list nat),
  char_gt K 3 ->
  1 <= l ->
  2 * l + 1 <= 32 ->
  c < l ->
  wft f ->
  sh f = [2 ^ b; 2 ^ a; 2 ^ c; 2 ^ c] ->
  wft x ->
  sh x = [2 ^ a; 2 ^ l; 2 ^ l] ->
  length bd = 2 ^ b ->
  1 <= kr <= 2 ^ c ->
  ci <= 2 ^ a ->
  kr <= hx <= 2 ^ l ->
  (forall o j p q : nat,
   o < 2 ^ b ->
   j < 2 ^ a -> p < 2 ^ c -> q < 2 ^ c -> ci <= j \/ kr <= p \/ kr <= q -> entry 0%Z f [o; j; p; q] = 0%Z) ->
  sh (cv_filter cvl) = [2 ^ b; 2 ^ a; 2 ^ l; 2 ^ l] ->
  dat (cv_filter cvl) = dat f ->
  dat (cv_bias cvl) = bd ->
  cv_og cvl = sh f ->
  cv_unpadded cvl = [o0; ki; kr; kr] ->
  0 < ncpus ->
  conv_sched_ok (K := K) l c a b ss ->
  valid_sched (b + 2 * l) es1 ->
  valid_sched (b + 2 * l) es2 ->
  valid_sched (2 * c) es3 ->
  exists (cx : conv_ctx) (d : conv_data),
    conv_step_info cvl = Some cx /\
    conv_op_data gen emb unemb cvl x = Some d /\
    (forall (y : list Z) (last0 : claim) (h : hist),
     conv_spec x f bd b l ci kr o0 (hx - kr + 1) y ->
     claim_true (map emb y) last0 ->
     exists R : conv_run,
       conv_sumchecks gen emb T ncpus ss cvl last0 [2 ^ b; 2 ^ l; 2 ^ l] [o0; hx - kr + 1; hx - kr + 1] d h =
       Some R /\
       (run_nodes R ->
        exists (ic fc bc : claim) (pf : conv_proof) (h' : hist) (ks : conv_calls),
          prove_convolution_step gen emb T ncpus ss cvl last0 [2 ^ b; 2 ^ l; 2 ^ l]
            [o0; hx - kr + 1; hx - kr + 1] d h = Some (ic, [(ConvFilter, fc); (ConvBias, bc)], pf, h') /\
          verify_convolution gen emb T cx es1 es2 es3 [[ci; hx; hx]] [sh x] last0 pf h =
          Some (ic, [(ConvFilter, fc); (ConvBias, bc)], h', ks) /\
          all_checked T ks /\
          claim_true (map emb (dat x)) ic /\ claim_true (map emb (dat f)) fc /\ claim_true (map emb bd) bc)).
Proof. exact @conv_layer_complete. Qed.
Print Assumptions C58_conv_complete.

(** The layer above meets the hypotheses, and its run meets the condition on the challenges. *)
Definition node_b (deg : nat) (r : Fgold) : bool := forallb (fun i => negb (feqb r (fnat i))) (seq 0 (S deg)).
Lemma node_b_ok deg r : node_b deg r = true -> not_node deg r.
Proof.
  unfold node_b. intros H i Hi. rewrite forallb_forall in H. specialize (H i). assert (Hin : In i (seq 0 (S deg))) by (apply in_seq; lia). specialize (H Hin).
  apply negb_true_iff in H. now apply feqb_false.
Qed.
Definition pf_nodes_b deg (pf : @proof Fgold) := forallb (node_b deg) (pf_point pf).
Lemma pf_nodes_b_ok deg pf : pf_nodes_b deg pf = true -> pf_nodes deg pf.
Proof. unfold pf_nodes_b, pf_nodes. rewrite forallb_forall. intros H r Hr. apply node_b_ok. auto. Qed.
Definition bf_nodes_b (bf : @batch_fft Fgold) := pf_nodes_b 2 (bf_proof bf) && forallb (pf_nodes_b 3) (bf_del bf).
Lemma bf_nodes_b_ok bf : bf_nodes_b bf = true -> bf_nodes bf.
Proof.
  unfold bf_nodes_b, bf_nodes. rewrite andb_true_iff, forallb_forall. intros [H1 H2]. split; [now apply pf_nodes_b_ok|]. apply Forall_forall. intros p Hp.
  apply pf_nodes_b_ok. auto.
Qed.
Definition nodes_b (o : option (@conv_run Fgold)) : bool := match o with
  | Some R => pf_nodes_b 3 (hp_sumcheck (cr_clear R)) && bf_nodes_b (cr_ifft R) && pf_nodes_b 3 (cr_had R) && bf_nodes_b (cr_fft R) && bf_nodes_b (cr_fftw R)
  | None => false end.
Lemma nodes_b_ok R : nodes_b (Some R) = true -> run_nodes R.
Proof.
  unfold nodes_b, run_nodes. rewrite !andb_true_iff. intros ((((H1 & H2) & H3) & H4) & H5). auto 10 using pf_nodes_b_ok, bf_nodes_b_ok.
Qed.
Definition csums (o : option (@conv_data Fgold)) := d <- o ;; conv_sumchecks gold_gen cemb cT 3 css clayer clast [1; 4; 4] [1; 3; 3] d [].
Lemma cnodes_true : nodes_b (csums (conv_op_data gold_gen cemb (to_element gold) clayer cin)) = true.
Proof. vm_compute. reflexivity. Qed.
Lemma cfs_ok : fs_valid (K := Fgold) 5 (cfs 5).
Proof. split; [|intros k _]; intros i _; cbn [fs_main fs_del cfs]; apply seq_prod_sched. Qed.
Lemma css_ok : conv_sched_ok (K := Fgold) 2 1 0 0 css.
Proof.
  split; [intros i _; apply seq_prod_sched|]. split; [exact cfs_ok|]. split; [intros i _; apply seq_prod_sched|]. split; [exact cfs_ok|]. split; [exact cfs_ok|].
  split; apply seq_sched_valid.
Qed.
Lemma csums_at o d R : o = Some d -> conv_sumchecks gold_gen cemb cT 3 css clayer clast [1; 4; 4] [1; 3; 3] d [] = Some R -> nodes_b (csums o) = true -> nodes_b (Some R) = true.
Proof. intros -> <-. exact (fun x => x). Qed.
Lemma cemb_0 : cemb 0 = (0 : Fgold)%F.
Proof. reflexivity. Qed.
Lemma cemb_1 : cemb 1 = (1 : Fgold)%F.
Proof. reflexivity. Qed.
Lemma cemb_add u v : cemb (u + v) = (cemb u + cemb v)%F.
Proof. unfold cemb. rewrite !(to_field_fZ gold prime_gold). apply fZ_add. Qed.
Lemma cemb_mul u v : cemb (u * v) = (cemb u * cemb v)%F.
Proof. unfold cemb. rewrite !(to_field_fZ gold prime_gold). apply fZ_mul. Qed.
Lemma cpad (o j p r : nat) : o < 2 ^ 0 -> j < 2 ^ 0 -> p < 2 ^ 1 -> r < 2 ^ 1 -> 1 <= j \/ 2 <= p \/ 2 <= r -> entry 0%Z cf [o; j; p; r] = 0%Z.
Proof. change (2 ^ 0) with 1. change (2 ^ 1) with 2. lia. Qed.
Lemma ctrue : claim_true (map cemb cout) clast.
Proof. split; reflexivity. Qed.
Example C58_ex : exists cx d R ic fc bc pf h' ks, conv_step_info clayer = Some cx /\ conv_op_data gold_gen cemb (to_element gold) clayer cin = Some d /\
  conv_sumchecks gold_gen cemb cT 3 css clayer clast [1; 4; 4] [1; 3; 3] d [] = Some R /\ run_nodes R /\
  verify_convolution gold_gen cemb cT cx (seq_sched 4) (seq_sched 4) (seq_sched 2) [[1; 4; 4]] [[1; 4; 4]] clast pf [] = Some (ic, [(ConvFilter, fc); (ConvBias, bc)], h', ks).
Proof.
  destruct (conv_layer_complete gold_gen gold_gen_root cemb (to_element gold) cemb_0 cemb_1 cemb_add cemb_mul (fun z => round_trip_back gold prime_gold (cemb z)) cT clayer cin cf (dat cb) 0 0 2 1 1 2 4 1 1 3 css
    (seq_sched 4) (seq_sched 4) (seq_sched 2) chgold ltac:(lia) ltac:(lia) ltac:(lia) eq_refl eq_refl eq_refl eq_refl eq_refl (conj (le_S _ _ (le_n 1)) (le_n 2)) (le_n 1) ltac:(split; cbn; lia) cpad
    eq_refl eq_refl eq_refl eq_refl eq_refl ltac:(lia) css_ok (seq_sched_valid 4) (seq_sched_valid 4) (seq_sched_valid 2)) as (cx & d & Ecx & Ed & H).
  destruct (H cout clast [] cspec ctrue) as (R & ER & HR). clear H.
  assert (N : run_nodes R) by (apply nodes_b_ok; exact (csums_at _ d R Ed ER cnodes_true)).
  destruct (HR N) as (ic & fc & bc & pf & h' & ks & _ & Ev & _). exists cx, d, R, ic, fc, bc, pf, h', ks. split; [exact Ecx|]. split; [exact Ed|]. split; [exact ER|]. split; [exact N|]. exact Ev.
Qed.

