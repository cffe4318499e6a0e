(** Soundness of [verify_convolution] under the checks that the code omits. *)
From Coq Require Import List Arith Lia Bool ZArith Field.
From Verif Require Import ListAux FieldDef PolyList MleMath M_Mle P_Mle P_Eq M_Interp M_Sumcheck P_ScVerify P_ScProve P_ScProve2 P_ScApi
  M_SamePoly P_SamePoly M_Tensor P_Tensor M_Pool M_Fft P_Fft P_Fft2 M_Layers P_Layers P_Layers2 P_Layers5 P_Pooling M_Conv P_Conv P_Conv2 P_Conv3.
Import ListNotations.

Ltac ob H := match type of H with
  | obind ?o _ = Some _ => let E := fresh "Eo" in destruct o eqn:E; [cbn [obind] in H|discriminate H]
  | (if negb ?b then None else _) = Some _ => let E := fresh "Eb" in destruct b eqn:E; cbn [negb] in H; [|discriminate H]
  | (let '(_, _) := ?p in _) = Some _ => destruct p
  end.

Section Aux.
Context {K : field}.
Add Field Kf_conv4 : (fth K).
Local Open Scope F_scope.

Lemma to_bits_bpt : forall m g, to_bits g m = bpt m g :> list K.
Proof.
  induction m as [|m IH]; intros g; [reflexivity|]. cbn [to_bits]. rewrite bpt_cons, IH. rewrite Nat.div2_div. f_equal.
  rewrite <- Nat.bit0_mod, Nat.bit0_odd. destruct (Nat.odd g); cbn; ring.
Qed.
Lemma to_bits_eqw g (p : list K) : identity_eval (to_bits g (length p)) p = eqw g p.
Proof. rewrite identity_eval_eqp, to_bits_bpt. apply eqp_bpt. reflexivity. Qed.
Lemma fold_left_fadd' : forall (l : list K) x, fold_left fadd l x = x + fsum l.
Proof. induction l as [|y l IH]; intros x; cbn; [ring|]. rewrite IH. unfold fsum. ring. Qed.
Lemma padded_weights_ok l k (partial p : list K) : length partial = (k * k)%nat -> length p = (2 * l)%nat ->
  padded_weights_eval k (2 ^ l) partial p = Some (sumn (k * k) (fun i => nth i partial 0 * eqw (i / k * 2 ^ l + i mod k) p)).
Proof.
  intros L Lp. unfold padded_weights_eval. rewrite ilog2_pow. cbn [obind].
  destruct (omapM_spec 0 (fun g => x <- nth_error partial (g / k * k + g mod k)%nat ;; Some (x * identity_eval (to_bits (g / k * 2 ^ l + g mod k)%nat (l * 2)%nat) p))
    (fun i => nth i partial 0 * eqw (i / k * 2 ^ l + i mod k) p) (k * k)) as (ts & Et & Lt & Nt).
  { intros i Hi. assert (k <> 0)%nat by (intros ->; cbn in Hi; lia). replace (i / k * k + i mod k)%nat with i by (rewrite (Nat.div_mod i k) at 1; lia).
    rewrite (nth_error_nth' _ 0) by lia. cbn [obind]. replace (l * 2)%nat with (length p) by lia. rewrite to_bits_eqw. reflexivity. }
  cbv zeta. rewrite Et. cbn [obind]. rewrite fold_left_fadd'. f_equal. rewrite fsum_nth, Lt. transitivity (sumn (k * k) (fun i => nth i ts 0)); [ring|]. apply sumn_ext. auto.
Qed.

Lemma clearing_ok o0 o1 o2 A B C : exists t, new_clearing_tensor [o0; o1; o2] [A; B; C] = Some t /\ sh t = [(A * B * C)%nat] /\ length (dat t) = (A * B * C)%nat /\
  forall i, (i < A * B * C)%nat -> nth i (dat t) 0%Z = if ((i / (B * C) <? o0) && ((i / C) mod B <? o1) && (i mod C <? o2))%nat then 1%Z else 0%Z.
Proof.
  unfold new_clearing_tensor. cbn [drop_batch length Nat.eqb negb].
  destruct (omapM_spec 0%Z (fun idx => ok <- inside [o0; o1; o2] B C idx ;; Some (if ok : bool then 1%Z else 0%Z))
    (fun i => if ((i / (B * C) <? o0) && ((i / C) mod B <? o1) && (i mod C <? o2))%nat then 1%Z else 0%Z) (A * B * C)) as (d & Ed & Ld & Nd).
  { intros i Hi. reflexivity. }
  change (drop_batch [o0; o1; o2]) with [o0; o1; o2]. rewrite Ed. cbn [obind]. unfold tensor_new. cbn [sprod fold_right]. rewrite Ld, Nat.mul_1_r, Nat.eqb_refl.
  eexists. split; [reflexivity|]. cbn [sh dat]. auto.
Qed.
Lemma into_mle_inv (l : list K) dm es pt v : into_mle_ext l = Some dm -> evaluate es dm pt = Some v -> length l = (2 ^ length pt)%nat.
Proof.
  intros E Ev. unfold into_mle_ext in E. destruct (is_pow2 (length l)); [|discriminate]. destruct (ceil_log2 (length l)) as [n|]; [|discriminate]. cbn [obind] in E.
  unfold from_evaluations_ext_vec in E. destruct (Nat.eqb_spec (length l) (2 ^ n)) as [E2|]; [|discriminate]. assert (dm = mkMle (Ext l) n) by congruence. subst dm.
  unfold evaluate in Ev. cbn [num_vars] in Ev. destruct (Nat.eqb_spec n (length pt)); [|discriminate]. subst n. auto.
Qed.
Lemma pop_inv_ok (p : list K) q v : pop_inv p = Some (q, v) -> p = (q ++ [nth (length q) p 0])%list /\ length p = S (length q) /\ (1 - nth (length q) p 0) * v = 1.
Proof.
  unfold pop_inv, csub. intros H. destruct (Nat.leb_spec 1 (length p)); [|discriminate]. cbn [obind] in H. rewrite (nth_error_nth' _ 0) in H by lia. cbn [obind] in H.
  destruct (finv_opt _) as [v'|] eqn:Ev; [|discriminate]. cbn [obind] in H. assert (firstn (length p - 1) p = q) by congruence. assert (v' = v) by congruence. subst v'.
  assert (Lq : length q = (length p - 1)%nat) by (subst q; apply firstn_length_le; lia). rewrite Lq. split; [|split; [lia|]].
  - rewrite <- (firstn_skipn (length p - 1) p) at 1. rewrite H1. f_equal. rewrite skipn_cons_nth by lia. f_equal. apply skipn_all2. lia.
  - unfold finv_opt in Ev. destruct (feqb _ 0) eqn:E0 in Ev; [discriminate|]. assert (v = / (1 - nth (length p - 1) p 0)) by congruence. subst v. apply finv_r. apply feqb_false in E0. auto.
Qed.
End Aux.

Lemma size_pow b l : 2 ^ b * 2 ^ l * 2 ^ l = 2 ^ (b + 2 * l).
Proof. rewrite <- !Nat.pow_add_r. f_equal. lia. Qed.

Section Sound.
Context {K : field}.
Add Field Kf_conv4b : (fth K).
Local Open Scope F_scope.
Variable gen : K.
Hypothesis gen_root : fpow gen (2 ^ 31) = - (1).
Hypothesis char2 : (1 + 1 : K) <> 0.
Variable emb : Z -> K.
Hypothesis emb_0 : emb 0 = 0.
Hypothesis emb_1 : emb 1 = 1.
Variable T : @hist K -> K.
Variables (l c a b : nat).
Hypothesis Hl1 : (1 <= l)%nat.
Hypothesis Hl : (2 * l + 1 <= 32)%nat.
Hypothesis Hc : (c <= l)%nat.
Variables (fd xd bd : list Z).
Hypothesis Lf : length fd = (2 ^ b * 2 ^ a * (2 ^ c * 2 ^ c))%nat.
Hypothesis Lx : length xd = (2 ^ a * (2 ^ l * 2 ^ l))%nat.
Hypothesis Lb : length bd = (2 ^ b)%nat.

(** The layer's output before and after clearing; position i of output o is flat position o * 2^(2l) + i. *)
Definition uncleared : list K :=
  map (fun i => emb (nth (i / 2 ^ (2 * l)) bd 0%Z) + cv emb l c a fd xd (i / 2 ^ (2 * l)) (i mod 2 ^ (2 * l))) (seq 0 (2 ^ (b + 2 * l))).
Definition mask (o0 o1 o2 : nat) : list K :=
  map (fun i => if ((i / (2 ^ l * 2 ^ l) <? o0) && ((i / 2 ^ l) mod 2 ^ l <? o1) && (i mod 2 ^ l <? o2))%nat then 1 else 0) (seq 0 (2 ^ (b + 2 * l))).
Definition cleared (o0 o1 o2 : nat) : list K :=
  map (fun i => if ((i / (2 ^ l * 2 ^ l) <? o0) && ((i / 2 ^ l) mod 2 ^ l <? o1) && (i mod 2 ^ l <? o2))%nat then nth i uncleared 0 else 0) (seq 0 (2 ^ (b + 2 * l))).

(** The shape of the context of a padded layer with 2^b filters, 2^a channels, grid 2^l and filter side 2^c. *)
Definition conv_dims (cx : conv_ctx) : Prop :=
  cx_fft cx = (2 * l + 1)%nat /\ cx_fft_weights cx = (2 * l + 1)%nat /\ cx_ifft cx = (2 * l + 1)%nat /\ cx_deleg_fft cx = rev (map S (seq 0 (2 * l))) /\
  cx_deleg_ifft cx = rev (map S (seq 0 (2 * l))) /\ cx_hadamard cx = (2 * l + 1 + a)%nat /\ cx_real_nw cx = (2 ^ c)%nat /\ cx_nw cx = (2 ^ l)%nat /\
  cx_filter_size cx = (2 ^ l * 2 ^ l)%nat.

Definition all_checked (ks : @conv_calls K) : Prop :=
  Forall (checked T) (ck_ifft ks :: ck_ifft_del ks ++ ck_had ks :: ck_fft ks :: ck_fft_del ks ++ ck_fftw ks :: ck_fftw_del ks).

(** The events, each of a challenge hitting a root of a nonzero polynomial that is fixed before the challenge is drawn. *)
Definition conv_event (last0 : @claim K) (o0 o1 o2 : nat) (pf : @conv_proof K) (fc : @claim K) (h : @hist K) (ks : @conv_calls K) : Prop :=
  let n := (2 * l + 1)%nat in let w := root_of gen n in
  let p0 := pf_point (hp_sumcheck (cp_clearing pf)) in let r1 := skipn (2 * l) p0 in let rx := ifft_x (2 * l) p0 in
  let hp := pf_point (cp_had pf) in let hi := skipn n hp in let ip := pf_point (cp_ifft pf) in let s := / fnat (2 ^ n) in
  let G := Gtab w n (firstn n hp) 1 in
  root_event T (b + 2 * l) 3 (prodf [mle uncleared; mle (mask o0 o1 o2); eqp (cl_point last0)]) h (hp_sumcheck (cp_clearing pf)) \/
  call_event T [mlef (pm gen emb l c a fd xd r1); mlef (Ftab (/ w) n rx s n)] (ck_ifft ks) \/
  deleg_events T false (/ w) n rx s 0 ip (ck_ifft_del ks) \/
  call_event T [mlef (fun i => f1t gen emb l c a fd r1 (i / 2 ^ n) (i mod 2 ^ n)); mlef (fun i => xhat gen emb l xd (i / 2 ^ n) (i mod 2 ^ n)); eqp ip] (ck_had ks) \/
  call_event T [mlef (xm emb l xd hi); mlef G] (ck_fft ks) \/
  deleg_events T true w n (firstn n hp) 1 0 (pf_point (cp_fft pf)) (ck_fft_del ks) \/
  call_event T [mlef (wm emb l c fd (hi ++ r1)); mlef G] (ck_fftw ks) \/
  deleg_events T true w n (firstn n hp) 1 0 (pf_point (cp_fft_w pf)) (ck_fftw_del ks) \/
  table_event (map (fun i => nth i (cp_partial pf) 0 - part emb c fd (hi ++ r1) i) (seq 0 (2 ^ (2 * c)))) (firstn (2 * c) (cl_point fc)).

Lemma nth_error_app1_eq {A} (x : list A) n v : nth_error x n = Some v -> forall d, nth n x d = v.
Proof. intros H d. apply nth_error_nth. auto. Qed.
Lemma firstn2 (x : list K) u v : nth_error x 0 = Some u -> nth_error x 1 = Some v -> firstn 2 x = [u; v].
Proof. destruct x as [|y [|z x]]; cbn; try discriminate. intros H1 H2. congruence. Qed.
Lemma firstn3 (x : list K) u v z : nth_error x 0 = Some u -> nth_error x 1 = Some v -> nth_error x 2 = Some z -> firstn 3 x = [u; v; z].
Proof. destruct x as [|y [|y1 [|y2 x]]]; cbn; try discriminate. intros H1 H2 H3. congruence. Qed.

(** The input side: the claim about the transform of the input. *)
Lemma input_sound k hp pt q v fc0 : char_gt K 3 -> checked T k -> ca_nv k = (2 * l + 1)%nat -> ca_deg k = 2%nat -> pf_point (ca_pf k) = pt ->
  length hp = (2 * l + 1 + a)%nat -> pop_inv pt = Some (q, v) ->
  mle (map emb xd) (map (fun x => 1 - x) q ++ skipn (2 * l + 1) hp) = fc0 * v ->
  let n := (2 * l + 1)%nat in let w := root_of gen n in let G := Gtab w n (firstn n hp) 1 in
  firstn 2 (ca_evals k) = [fc0; mlef G pt] ->
  ca_claimed k = mlef (fun i => xhat gen emb l xd (i / 2 ^ n) (i mod 2 ^ n)) hp \/ call_event T [mlef (xm emb l xd (skipn n hp)); mlef G] k.
Proof.
  cbv zeta. intros H3 Ck En Ed Ep Lh Eq Ev Ee. assert (Lp := checked_point T k Ck ltac:(lia)). rewrite Ep, En in Lp.
  destruct (pop_inv_ok _ _ _ Eq) as (Hq & Lq & Hv).
  assert (Lhi : length (skipn (2 * l + 1) hp) = a) by (rewrite skipn_length; lia).
  assert (Llo : length (firstn (2 * l + 1) hp) = (2 * l + 1)%nat) by (apply firstn_length_le; lia).
  destruct (checked_sound T k [mlef (xm emb l xd (skipn (2 * l + 1) hp)); mlef (Gtab (root_of gen (2 * l + 1)) (2 * l + 1) (firstn (2 * l + 1) hp) 1)] Ck) as [R|R].
  - eapply char_gt_le; [|exact H3]. cbn. lia.
  - lia.
  - rewrite Ed. reflexivity.
  - intros f [<-|[<-|[]]]; apply multilin_mlef.
  - cbn [length map]. rewrite Ee, Ep. f_equal. rewrite Hq. rewrite (xm_eval emb l c a b Hl Hc fd xd Lf Lx) by (auto; lia). rewrite Ev.
    transitivity (fc0 * ((1 - nth (length q) pt 0) * v)); [|ring]. rewrite Hv. ring.
  - left. rewrite R, En. rewrite fwd_hsum.
    + rewrite (xm_dft gen emb l a xd) by auto. rewrite firstn_skipn. reflexivity.
    + intros s Hs. unfold xm. rewrite <- (mlef_const 0 (skipn (2 * l + 1) hp)). apply mlef_ext. intros j Hj.
      apply (xr_hi emb l c a b Hl Hc fd xd Lf Lx). replace (2 * l)%nat with (2 * l + 1 - 1)%nat by lia. lia.
  - right. exact R.
Qed.

(** The filter side: the claim about the transform of the combined filters. *)
Lemma weights_sound k hp r1 pt q v wc0 y partial wr : char_gt K 3 -> checked T k -> ca_nv k = (2 * l + 1)%nat -> ca_deg k = 2%nat -> pf_point (ca_pf k) = pt ->
  length hp = (2 * l + 1 + a)%nat -> length r1 = b -> pop_inv pt = Some (q, v) -> length partial = (2 ^ (2 * c))%nat -> length wr = (2 * c)%nat ->
  let n := (2 * l + 1)%nat in let w := root_of gen n in let G := Gtab w n (firstn n hp) 1 in let fp := (skipn n hp ++ r1)%list in
  mle (map emb fd) (wr ++ fp) = mle partial wr -> padded_weights_eval (2 ^ c) (2 ^ l) partial q = Some y -> wc0 * v = y ->
  firstn 2 (ca_evals k) = [wc0; mlef G pt] ->
  ca_claimed k = mlef (fun i => f1t gen emb l c a fd r1 (i / 2 ^ n) (i mod 2 ^ n)) hp \/ call_event T [mlef (wm emb l c fd fp); mlef G] k \/
  table_event (map (fun i => nth i partial 0 - part emb c fd fp i) (seq 0 (2 ^ (2 * c)))) wr.
Proof.
  cbv zeta. intros H3 Ck En Ed Ep Lh Lr Eq Lp2 Lw Em Ey Ewy Ee. assert (Lp := checked_point T k Ck ltac:(lia)). rewrite Ep, En in Lp.
  destruct (pop_inv_ok _ _ _ Eq) as (Hq & Lq & Hv). set (fp := (skipn (2 * l + 1) hp ++ r1)%list) in *.
  assert (Lhi : length (skipn (2 * l + 1) hp) = a) by (rewrite skipn_length; lia).
  assert (Llo : length (firstn (2 * l + 1) hp) = (2 * l + 1)%nat) by (apply firstn_length_le; lia).
  assert (Lfp : length fp = (a + b)%nat) by (unfold fp; rewrite app_length; lia).
  rewrite (part_eval emb l c a b Hl Hc fd xd Lf Lx) in Em by auto.
  set (d := map (fun i => nth i partial 0 - part emb c fd fp i) (seq 0 (2 ^ (2 * c)))).
  assert (Md : mle d wr = 0). { unfold d. rewrite mle_map_seq by auto. rewrite mlef_sub, Em. unfold mle. ring. }
  destruct (all0_dec d) as [A0|A0]; [|right; right; split; auto].
  assert (P2 : (2 ^ c * 2 ^ c = 2 ^ (2 * c))%nat) by (rewrite <- Nat.pow_add_r; f_equal; lia).
  assert (Hpart : forall i, (i < 2 ^ c * 2 ^ c)%nat -> nth i partial 0 = part emb c fd fp i).
  { intros i Hi. assert (X : nth i d 0 = 0). { apply (proj1 (Forall_forall _ d) A0). apply nth_In. unfold d. rewrite map_length, seq_length. lia. }
    unfold d in X. rewrite nth_map_seq in X by lia. apply fsub_0 in X. auto. }
  rewrite padded_weights_ok in Ey by lia. apply (f_equal (fun o => match o with Some z => z | None => 0 end)) in Ey.
  destruct (checked_sound T k [mlef (wm emb l c fd fp); mlef (Gtab (root_of gen (2 * l + 1)) (2 * l + 1) (firstn (2 * l + 1) hp) 1)] Ck) as [R|R].
  - eapply char_gt_le; [|exact H3]. cbn. lia.
  - lia.
  - rewrite Ed. reflexivity.
  - intros f [<-|[<-|[]]]; apply multilin_mlef.
  - cbn [length map]. rewrite Ee, Ep. f_equal. rewrite Hq. rewrite (wm_eval emb l c a b Hl Hc fd xd Lf Lx) by (auto; lia).
    transitivity ((1 - nth (length q) pt 0) * (wc0 * v)). { transitivity (wc0 * ((1 - nth (length q) pt 0) * v)); [|ring]. rewrite Hv. ring. }
    rewrite Ewy, <- Ey. f_equal. apply sumn_ext. intros i Hi. rewrite Hpart by auto. reflexivity.
  - left. rewrite R, En. rewrite fwd_hsum.
    + unfold fp. rewrite (wm_dft gen emb l c a b Hl Hc fd xd Lf Lx) by auto. rewrite firstn_skipn. reflexivity.
    + intros s Hs. unfold wm. rewrite <- (mlef_const 0 fp). apply mlef_ext. intros j Hj.
      apply (wf_hi emb l c a b Hl Hc fd xd Lf Lx). replace (2 * l)%nat with (2 * l + 1 - 1)%nat by lia. lia.
  - right. left. exact R.
Qed.

Lemma mask_ok o0 o1 o2 t : new_clearing_tensor [o0; o1; o2] [(2 ^ b)%nat; (2 ^ l)%nat; (2 ^ l)%nat] = Some t -> map emb (dat t) = mask o0 o1 o2.
Proof.
  intros E. destruct (clearing_ok o0 o1 o2 (2 ^ b) (2 ^ l) (2 ^ l)) as (t' & Et & _ & Lt & Nt). assert (t = t') by congruence. subst t'.
  unfold mask. rewrite <- size_pow. apply (nth_ext_all _ _ 0); [rewrite !map_length, seq_length; auto|].
  rewrite map_length, Lt. intros i Hi.
  rewrite (nth_map_lt _ _ _ 0%Z) by (rewrite Lt; exact Hi). rewrite nth_map_seq by exact Hi. rewrite Nt by exact Hi. destruct (_ && _); auto.
Qed.
Lemma mask_entrywise o0 o1 o2 : entrywise (b + 2 * l) uncleared (mask o0 o1 o2) (cleared o0 o1 o2).
Proof.
  assert (L1 : length uncleared = (2 ^ (b + 2 * l))%nat) by (unfold uncleared; rewrite map_length, seq_length; reflexivity).
  split; [exact L1|]. split; [unfold mask; rewrite map_length, seq_length; reflexivity|]. split; [unfold cleared; rewrite map_length, seq_length; reflexivity|].
  intros i Hi. unfold cleared, mask. rewrite !(nth_map_seq _ _ i) by auto. destruct (_ && _); ring.
Qed.

(** The claims handed over by the verifier bind the output claim, provided that the verifier compared the results of its sumchecks
    with the evaluations of the proof. *)
Lemma conv_sound cx es1 es2 es3 ui pi o0 o1 o2 last0 pf h ic fc bc h' ks :
  char_gt K 3 -> conv_dims cx -> valid_sched (b + 2 * l) es1 -> valid_sched (b + 2 * l) es2 -> valid_sched (2 * c) es3 ->
  conv2d_shape ui (cx_unpadded cx) = Some [o0; o1; o2] -> padded_conv2d_shape pi (cx_padded cx) = Some [(2 ^ b)%nat; (2 ^ l)%nat; (2 ^ l)%nat] ->
  length (cl_point last0) = (b + 2 * l)%nat ->
  verify_convolution gen emb T cx es1 es2 es3 [ui] [pi] last0 pf h = Some (ic, [(ConvFilter, fc); (ConvBias, bc)], h', ks) ->
  pf_point (hp_sumcheck (cp_clearing pf)) = sc_point T (b + 2 * l) 3 h (hp_sumcheck (cp_clearing pf)) ->
  all_checked ks -> length (cp_fft_del_w pf) = (2 * l)%nat ->
  claim_true (map emb xd) ic -> claim_true (map emb fd) fc -> claim_true (map emb bd) bc ->
  claim_true (cleared o0 o1 o2) last0 \/ conv_event last0 o0 o1 o2 pf fc h ks.
Proof.
  intros H3 (Cf & Cw & Ci & Cd & Cdi & Ch & Cr & Cn & Cs) V1 V2 V3 Eu Epd Ll E Hp Ak Lw Hic Hfc Hbc.
  unfold verify_convolution in E. rewrite Eu, Epd in E. cbn [obind] in E.
  destruct (new_clearing_tensor _ _) as [clr|] eqn:Ec; [|discriminate]. cbn [obind] in E. cbv zeta in E.
  assert (Em := mask_ok _ _ _ _ Ec). rewrite Em in E.
  assert (Lm : length (mask o0 o1 o2) = (2 ^ (b + 2 * l))%nat) by (unfold mask; rewrite map_length, seq_length; reflexivity).
  assert (Lc : length (dat clr) = (2 ^ (b + 2 * l))%nat) by (rewrite <- Lm, <- Em, map_length; reflexivity).
  rewrite Lc, ilog2_pow in E. cbn [obind] in E. rewrite mkExt_ok in E by auto. cbn [obind] in E.
  set (p0 := pf_point (hp_sumcheck (cp_clearing pf))) in *.
  assert (Lp0 : length p0 = (b + 2 * l)%nat). { rewrite Hp. unfold sc_point. rewrite map_length, seq_length. reflexivity. }
  rewrite (evaluate_ext es1 (b + 2 * l)) in E by auto. cbn [obind] in E.
  assert (Esz : hadamard_ctx (sprod [(2 ^ b)%nat; (2 ^ l)%nat; (2 ^ l)%nat]) = (b + 2 * l)%nat).
  { unfold hadamard_ctx. cbn [sprod fold_right]. rewrite Nat.mul_1_r, Nat.mul_assoc, size_pow, npow2_pow2. apply Nat.log2_pow2. lia. }
  rewrite Esz in E.
  destruct (hadamard_verify T (b + 2 * l) es2 last0 _ (cp_clearing pf) h) as [[last h1]|] eqn:Eh; [|discriminate]. cbn [obind] in E.
  assert (Elast : cl_point last = p0).
  { unfold hadamard_verify in Eh. repeat match type of Eh with context [obind ?o _] => destruct o; [cbn [obind] in Eh|discriminate Eh] | context [let '(_,_) := ?p in _] => destruct p
      | context [if ?b then _ else _] => destruct b; [|discriminate Eh] end. injection Eh as <- _. reflexivity. }
  destruct (run_sc T _ (cp_ifft pf) _ 2 h1) as [h2|]; [|discriminate]. cbn [obind] in E.
  destruct (Nat.eqb_spec (length (cx_deleg_ifft cx)) (length (cp_ifft_del pf))) as [Ld1|]; [|discriminate]. cbn [negb] in E. rewrite Cdi, rev_length, map_length, seq_length in Ld1.
  destruct (nth_error (cp_ifft_claims pf) 1) as [ic1|] eqn:E1; [|discriminate]. cbn [obind] in E.
  destruct (verify_ifft_delegation _ _ _ _ _ _ _ _ _) as [[hh3 ks1]|] eqn:Ed1; [|discriminate]. cbn [obind] in E.
  destruct (nth_error (cp_ifft_claims pf) 0) as [ic0|] eqn:E2; [|discriminate]. cbn [obind] in E.
  destruct (run_sc T ic0 _ _ _ _) as [h4|]; [|discriminate]. cbn [obind] in E.
  destruct (nth_error (cp_had_claims pf) 2) as [hc2|] eqn:E3; [|discriminate]. cbn [obind] in E.
  destruct (hc2 =? _) eqn:Ehc2; [|discriminate]. cbn [negb] in E. apply feqb_true in Ehc2.
  destruct (nth_error (cp_had_claims pf) 1) as [hc1|] eqn:E4; [|discriminate]. cbn [obind] in E.
  destruct (run_sc T hc1 _ _ _ _) as [h5|]; [|discriminate]. cbn [obind] in E.
  destruct (nth_error (cp_fft_claims pf) 1) as [fc1|] eqn:E5; [|discriminate]. cbn [obind] in E.
  destruct (Nat.eqb_spec (length (cx_deleg_fft cx)) (length (cp_fft_del pf))) as [Ld2|]; [|discriminate]. cbn [negb] in E. rewrite Cd, rev_length, map_length, seq_length in Ld2.
  destruct (verify_fft_delegation _ _ _ _ fc1 _ _ _ _) as [[h6 ks2]|] eqn:Ed2; [|discriminate]. cbn [obind] in E.
  destruct (nth_error (cp_had_claims pf) 0) as [hc0|] eqn:E6; [|discriminate]. cbn [obind] in E.
  destruct (run_sc T hc0 _ _ _ _) as [h7|]; [|discriminate]. cbn [obind] in E.
  destruct (nth_error (cp_fft_w_claims pf) 1) as [wc1|] eqn:E7; [|discriminate]. cbn [obind] in E.
  destruct (verify_fft_delegation _ _ _ _ wc1 _ _ _ _) as [[h8 ks3]|] eqn:Ed3; [|discriminate]. cbn [obind] in E.
  destruct (pop_inv (pf_point (cp_fft_w pf))) as [[wq wv]|] eqn:Ewp; [|discriminate]. cbn [obind fst snd] in E.
  destruct (padded_weights_eval _ _ _ _) as [y|] eqn:Ey; [|discriminate]. cbn [obind] in E.
  destruct (nth_error (cp_fft_w_claims pf) 0) as [wc0|] eqn:E8; [|discriminate]. cbn [obind] in E.
  destruct (wc0 * wv =? y) eqn:Ewy; [|discriminate]. cbn [negb] in E. apply feqb_true in Ewy.
  rewrite Cr, Cn in *. rewrite <- Nat.pow_add_r, ilog2_pow in E. cbn [obind] in E.
  destruct (read_challenges T (c + c) h8) as [wr h9] eqn:Er.
  assert (Lwr : length wr = (2 * c)%nat). { change wr with (fst (wr, h9)). rewrite <- Er, read_challenges_length. lia. }
  rewrite Cs, <- Nat.pow_add_r, ilog2_pow in E. cbn [obind] in E. rewrite Elast in *. replace (l + l)%nat with (2 * l)%nat in E by lia.
  unfold pt_from in E. rewrite (proj2 (Nat.leb_le (2 * l) (length p0))) in E by lia. cbn [obind] in E. rewrite <- Ld1 in E.
  rewrite (proj2 (Nat.leb_le (2 * l) (length p0))) in E by lia. cbn [obind] in E.
  replace (2 * 2 ^ l * 2 ^ l)%nat with (2 ^ (2 * l + 1))%nat in E by (rewrite Nat.add_1_r, Nat.pow_succ_r', <- Nat.mul_assoc, <- Nat.pow_add_r; do 2 f_equal; lia).
  replace (2 ^ (2 * l) * 2)%nat with (2 ^ (2 * l + 1))%nat in E by (rewrite Nat.add_1_r, Nat.pow_succ_r'; lia).
  rewrite ilog2_pow in E. cbn [obind] in E.
  set (hp := pf_point (cp_had pf)) in *. set (r1 := skipn (2 * l) p0) in *.
  destruct (Nat.leb_spec (2 * l + 1) (length (hp ++ r1))) as [_|]; [|discriminate]. cbn [obind] in E.
  destruct (into_mle_ext (cp_partial pf)) as [pmx|] eqn:Epm; [|discriminate]. cbn [obind] in E.
  destruct (evaluate es3 pmx wr) as [pe|] eqn:Epe; [|discriminate]. cbn [obind] in E.
  destruct (pop_inv (pf_point (cp_fft pf))) as [[iq iv]|] eqn:Eip; [|discriminate]. cbn [obind fst snd] in E.
  destruct (Nat.leb_spec (2 * l + 1) (length hp)) as [_|]; [|discriminate]. cbn [obind] in E.
  destruct (nth_error (cp_fft_claims pf) 0) as [fc0|] eqn:E9; [|discriminate]. cbn [obind] in E.
  assert (ic = mkClaim (map (fun x => 1 - x) iq ++ skipn (2 * l + 1) hp)%list (fc0 * iv) /\ fc = mkClaim (wr ++ skipn (2 * l + 1) (hp ++ r1))%list pe /\
    bc = mkClaim r1 (cp_bias pf) /\ ks = mkCalls (mkCall (cl_eval last - cp_bias pf) (cp_ifft pf) (cx_ifft cx) 2 h1 (cp_ifft_claims pf)) ks1
      (mkCall ic0 (cp_had pf) (cx_hadamard cx) 3 hh3 (cp_had_claims pf)) (mkCall hc1 (cp_fft pf) (cx_fft cx) 2 h4 (cp_fft_claims pf)) ks2
      (mkCall hc0 (cp_fft_w pf) (cx_fft_weights cx) 2 h6 (cp_fft_w_claims pf)) ks3) as (-> & -> & -> & ->).
  { assert (Q := E). injection Q as <- <- <- _ <-. auto. }
  clear E. unfold all_checked in Ak. cbn [ck_ifft ck_ifft_del ck_had ck_fft ck_fft_del ck_fftw ck_fftw_del] in Ak.
  apply Forall_cons_iff in Ak. destruct Ak as [K1 Ak]. apply Forall_app in Ak. destruct Ak as [K2 Ak]. apply Forall_cons_iff in Ak. destruct Ak as [K3 Ak].
  apply Forall_cons_iff in Ak. destruct Ak as [K4 Ak]. apply Forall_app in Ak. destruct Ak as [K5 Ak]. apply Forall_cons_iff in Ak. destruct Ak as [K6 K7].
  assert (Lip := checked_point T _ K1). assert (Lhp := checked_point T _ K3). assert (Lfp := checked_point T _ K4). assert (Lwp := checked_point T _ K6).
  cbn [ca_pf ca_nv] in Lip, Lhp, Lfp, Lwp. fold hp in Lhp. rewrite Ci in Lip. rewrite Ch in Lhp. rewrite Cf in Lfp. rewrite Cw in Lwp.
  specialize (Lip ltac:(lia)). specialize (Lhp ltac:(lia)). specialize (Lfp ltac:(lia)). specialize (Lwp ltac:(lia)).
  assert (Lr1 : length r1 = b) by (unfold r1; rewrite skipn_length; lia).
  assert (Esk : skipn (2 * l + 1) (hp ++ r1) = (skipn (2 * l + 1) hp ++ r1)%list). { rewrite skipn_app. replace (2 * l + 1 - length hp)%nat with 0%nat by lia. reflexivity. }
  rewrite Esk in *. unfold conv_event. fold p0 hp. fold r1.
  cbn [ck_ifft ck_ifft_del ck_had ck_fft ck_fft_del ck_fftw ck_fftw_del cl_point].
  assert (Efw : firstn (2 * c) (wr ++ skipn (2 * l + 1) hp ++ r1) = wr).
  { rewrite firstn_app, (firstn_all2 wr) by lia. rewrite Lwr, Nat.sub_diag. cbn [firstn]. apply app_nil_r. }
  rewrite Efw.
  destruct Hic as [_ Hic]. destruct Hfc as [_ Hfc]. destruct Hbc as [_ Hbc]. cbn [cl_point cl_eval] in Hic, Hfc, Hbc.
  (* the delegations *)
  destruct (fft_deleg_sound gen gen_root T cx hp fc1 _ _ _ _ _ _ (2 * l) H3 ltac:(lia) Hl Cd (eq_sym Ld2) Lfp ltac:(lia) Ed2) as (_ & D2).
  destruct (D2 K5) as [D2'|D2']; [clear D2|right; tauto].
  destruct (fft_deleg_sound gen gen_root T cx hp wc1 _ _ _ _ _ _ (2 * l) H3 ltac:(lia) Hl Cd Lw Lwp ltac:(lia) Ed3) as (_ & D3).
  destruct (D3 K7) as [D3'|D3']; [clear D3|right; tauto].
  destruct (ifft_deleg_sound gen gen_root char2 T cx p0 ic1 _ _ _ _ _ _ (2 * l) H3 ltac:(lia) Hl Cdi (eq_sym Ld1) Lip ltac:(lia) Ed1) as (_ & D1).
  destruct (D1 K2) as [D1'|D1']; [clear D1|right; tauto].
  (* the input *)
  destruct (input_sound _ hp (pf_point (cp_fft pf)) iq iv fc0 H3 K4 Cf eq_refl eq_refl Lhp Eip (eq_sym Hic)) as [I1|I1].
  { cbn [ca_evals]. rewrite (firstn2 _ _ _ E9 E5). rewrite D2'. reflexivity. } 2: { right; tauto. }
  (* the filters *)
  assert (Lpa := into_mle_inv _ _ _ _ _ Epm Epe). rewrite Lwr in Lpa.
  rewrite (into_mle_ext_ok (2 * c)) in Epm by auto. assert (pmx = mkMle (Ext (cp_partial pf)) (2 * c)) by congruence. subst pmx.
  rewrite (evaluate_ext es3 (2 * c)) in Epe by auto. apply (f_equal (fun o => match o with Some z => z | None => 0 end)) in Epe.
  destruct (weights_sound _ hp r1 (pf_point (cp_fft_w pf)) wq wv wc0 y (cp_partial pf) wr H3 K6 Cw eq_refl eq_refl Lhp Lr1 Ewp Lpa Lwr) as [W1|[W1|W1]]; auto.
  { rewrite <- Hfc. auto. }
  { cbn [ca_evals]. rewrite (firstn2 _ _ _ E8 E7). rewrite D3'. reflexivity. }
  2: { right; tauto. } 2: { right; repeat right. exact W1. }
  cbn [ca_claimed] in I1, W1.
  (* the product *)
  destruct (checked_sound T _ [mlef (fun i => f1t gen emb l c a fd r1 (i / 2 ^ (2 * l + 1)) (i mod 2 ^ (2 * l + 1)));
    mlef (fun i => xhat gen emb l xd (i / 2 ^ (2 * l + 1)) (i mod 2 ^ (2 * l + 1))); eqp (pf_point (cp_ifft pf))] K3) as [P1|P1]; auto.
  { cbn [ca_nv]. lia. }
  { intros f [<-|[<-|[<-|[]]]]; [apply multilin_mlef|apply multilin_mlef|apply multilin_eqp]. }
  { cbn [ca_evals length map ca_pf]. rewrite (firstn3 _ _ _ _ E6 E4 E3). fold hp. rewrite <- I1, <- W1, Ehc2, identity_eval_eqp. reflexivity. }
  2: { right; tauto. }
  cbn [ca_claimed ca_nv] in P1. rewrite Ch, had_pm in P1 by auto.
  (* the inverse transform *)
  destruct (checked_sound T _ [mlef (pm gen emb l c a fd xd r1); mlef (Ftab (/ root_of gen (2 * l + 1)) (2 * l + 1) (ifft_x (2 * l) p0) (/ fnat (2 ^ (2 * l + 1))) (2 * l + 1))] K1) as [Q1|Q1]; auto.
  { eapply char_gt_le; [|exact H3]. cbn. lia. }
  { cbn [ca_nv]. lia. }
  { intros f [<-|[<-|[]]]; apply multilin_mlef. }
  { cbn [ca_evals length map ca_pf]. rewrite (firstn2 _ _ _ E2 E1). rewrite P1, D1'. reflexivity. }
  cbn [ca_claimed ca_nv] in Q1. rewrite Ci, inv_hsum in Q1. unfold ifft_x in Q1.
  assert (Lfi : length (firstn (2 * l) p0) = (2 * l)%nat) by (apply firstn_length_le; lia).
  rewrite (pm_inv gen gen_root char2 emb l c a b Hl Hc fd xd Lf Lx) in Q1 by auto. unfold r1 in Q1 at 1. rewrite firstn_skipn in Q1.
  (* the clearing *)
  destruct (hadamard_sound T (b + 2 * l) es2 uncleared (mask o0 o1 o2) (cleared o0 o1 o2) last0 (mle (mask o0 o1 o2) p0) (cp_clearing pf) h last h1) as [R|R]; auto.
  - lia.
  - apply mask_entrywise.
  - split; [rewrite Elast, Lp0; unfold uncleared; rewrite map_length, seq_length; auto|]. rewrite Elast. unfold uncleared. rewrite mle_map_seq by auto. rewrite mlef_add, <- Q1.
    assert (Eb : mlef (fun i => emb (nth (i / 2 ^ (2 * l)) bd 0%Z)) p0 = cp_bias pf).
    { rewrite Hbc. rewrite <- (firstn_skipn (2 * l) p0). rewrite (mlef_two (fun o i => emb (nth o bd 0%Z)) (firstn (2 * l) p0) (skipn (2 * l) p0) (2 * l)) by auto.
      fold r1. unfold mle. apply mlef_ext. intros i Hi. rewrite Lr1 in Hi. rewrite mlef_const. rewrite (nth_map_lt _ _ _ 0%Z) by lia. reflexivity. }
    rewrite Eb. ring.
  - rewrite Elast. reflexivity.
Qed.
End Sound.
