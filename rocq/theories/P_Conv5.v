(** Forgery against [verify_convolution]: the results of its sumchecks are dropped, so nothing ties the input, filter and bias claims
    to the output claim. *)
From Coq Require Import List Arith Lia Bool ZArith Field.
From Verif Require Import ListAux FieldDef PolyList MleMath M_Mle P_Mle P_Eq M_Interp M_Sumcheck P_ScVerify P_ScProve P_ScProve2 P_ScApi
  M_SamePoly P_SamePoly M_Tensor P_Tensor M_Pool M_Fft P_Fft P_Fft2 M_Layers P_Layers P_Layers2 P_Layers5 P_Pooling P_Pooling2 M_Conv P_Conv P_Conv2 P_Conv3 P_Conv4.
Import ListNotations.

Section Forge.
Context {K : field}.
Add Field Kf_conv5 : (fth K).
Local Open Scope F_scope.
Variable gen : K.
Hypothesis gen_root : fpow gen (2 ^ 31) = - (1).
Hypothesis char2 : (1 + 1 : K) <> 0.
Variable T : @hist K -> K.
Hypothesis H3 : char_gt K 3.
(** The challenges are not 0, 1, 2 or 3 (where the verifier's interpolation panics). *)
Hypothesis HT : forall h, not_node 3 (T h).

Lemma sc_point_nodes nv d h (pf : @proof K) r : (d <= 3)%nat -> In r (sc_point T nv d h pf) -> not_node d r.
Proof.
  intros Hd Hr i Hi. unfold sc_point in Hr. apply in_map_iff in Hr. destruct Hr as (j & <- & _). unfold challenge_of. apply HT. lia.
Qed.
Lemma bogus_run y n d h pt : (0 < d <= 3)%nat -> (0 < n)%nat -> exists h', run_sc T y (mkProof pt (bogus_messages T y n d h)) n d h = Some h'.
Proof.
  intros Hd Hn. destruct (bogus_verify T y n d h pt) as (e & h' & E); try lia.
  - eapply char_gt_le; [|exact H3]. lia.
  - intros r Hr. eapply sc_point_nodes; [|exact Hr]. lia.
  - exists h'. unfold run_sc. rewrite E. reflexivity.
Qed.

Lemma deleg_forge first w rand1 m v (x : nat -> K) : (forall i, (i < m)%nat -> rand1 i = Some (x i)) ->
  forall d i pre prec claim prev h calls, (i + d = m)%nat -> length pre = i -> length prec = i -> prev <> [] ->
  exists pfs cls h' calls', length pfs = d /\ length cls = d /\
    ofold (deleg_step T first (squares m w) rand1 (rev (map S (seq 0 m))) (pre ++ pfs) (prec ++ cls)) (seq i d) (claim, prev, h, calls)
    = Some (match d with O => claim | _ => v end, match d with O => prev | _ => [0] end, h', calls').
Proof.
  intros Hx. induction d as [|d IH]; intros i pre prec claim prev h calls Hi Lp Lc Np.
  - exists [], [], h, calls. repeat split; reflexivity.
  - set (pt := repeat (0 : K) (m - i)). set (pf := mkProof pt (bogus_messages T claim (m - i) 3 h)).
    destruct (bogus_run claim (m - i) 3 h pt ltac:(lia) ltac:(lia)) as (h1 & E1). fold pf in E1.
    assert (Lpt : length pt = (m - i)%nat) by apply repeat_length.
    set (cl := [identity_eval pt prev; mlef ((if first && (i =? 0)%nat then phi_first else phi_mid) (x i) (nth (length prev - 1) prev 0) (fpow w (2 ^ (m - length pt)))) pt; v]).
    destruct (IH (S i) (pre ++ [pf])%list (prec ++ [cl])%list v pt h1 (calls ++ [mkCall claim pf (m - i) 3 h cl])%list) as (pfs & cls & h' & calls' & L1 & L2 & E2).
    { lia. } { rewrite app_length; cbn; lia. } { rewrite app_length; cbn; lia. } { intros Q. rewrite Q in Lpt. cbn in Lpt. lia. }
    exists (pf :: pfs), (cl :: cls), h', calls'. split; [cbn; lia|]. split; [cbn; lia|]. cbn [seq ofold].
    rewrite <- !app_assoc in E2. cbn [app] in E2.
    assert (Es : deleg_step T first (squares m w) rand1 (rev (map S (seq 0 m))) (pre ++ pf :: pfs) (prec ++ cl :: cls) (claim, prev, h, calls) i
       = Some (v, pt, h1, (calls ++ [mkCall claim pf (m - i) 3 h cl])%list)).
    { unfold deleg_step. rewrite nth_error_app2, Lp, Nat.sub_diag by lia. cbn [nth_error obind]. rewrite deleg_aux by lia. cbn [obind]. rewrite E1. cbn [obind].
      rewrite nth_error_app2, Lc, Nat.sub_diag by lia. cbn [nth_error obind]. unfold cl at 1. cbn [nth_error obind]. cbn [pf_point pf]. rewrite feqb_refl. rewrite Hx by lia. cbn [obind].
      unfold csub. assert (0 < length prev)%nat by (destruct prev; [contradiction|cbn; lia]). destruct (Nat.leb_spec 1 (length prev)); [|lia]. cbn [obind].
      rewrite (nth_error_nth' prev 0) by lia. cbn [obind]. rewrite phi_eval_ok by lia. cbn [obind]. unfold cl at 1. cbn [nth_error obind]. rewrite feqb_refl. reflexivity. }
    rewrite Es. cbn [obind]. rewrite E2. f_equal. destruct d as [|d]; [|reflexivity]. assert (pt = [0]) as -> by (unfold pt; replace (m - i)%nat with 1%nat by lia; reflexivity). reflexivity.
Qed.

Lemma fft_deleg_forge cx hadp claim prev h m : (1 <= m)%nat -> (m + 1 <= 32)%nat -> cx_deleg_fft cx = rev (map S (seq 0 m)) -> (m + 1 <= length hadp)%nat -> prev <> [] ->
  exists pfs cls h' ks, length pfs = m /\ verify_fft_delegation gen T cx hadp claim pfs cls prev h = Some (h', ks).
Proof.
  intros H1 H2 Ea Lh Np.
  destruct (deleg_forge true (root_of gen (m + 1)) (nth_error hadp) m 1 (fun i => nth i hadp 0)) with (d := m) (i := 0%nat) (pre := @nil (@proof K)) (prec := @nil (list K)) (claim := claim) (prev := prev) (h := h) (calls := @nil (@sc_call K))
    as (pfs & cls & h' & ks & L1 & L2 & E); auto. { intros i Hi. apply nth_error_nth'. lia. }
  exists pfs, cls, h', ks. split; [auto|]. unfold verify_fft_delegation. rewrite L1, pow_two_omegas_ok by auto. cbn [obind]. rewrite Ea. cbn [app] in E. rewrite E. cbn [obind].
  rewrite (nth_error_nth' hadp 0) by lia. cbn [obind]. destruct m as [|m]; [lia|]. cbn [nth_error obind].
  assert (Q : (1 =? (1 - fnat 2 * nth (S m) hadp 0) * 0 + 1 - 0) = true). { apply feqb_spec. ring. } rewrite Q. reflexivity.
Qed.
Lemma ifft_deleg_forge cx lastp claim prev h m : (1 <= m)%nat -> (m + 1 <= 32)%nat -> cx_deleg_ifft cx = rev (map S (seq 0 m)) -> (m <= length lastp)%nat -> prev <> [] ->
  exists pfs cls h' ks, length pfs = m /\ verify_ifft_delegation gen T cx lastp claim pfs cls prev h = Some (h', ks).
Proof.
  intros H1 H2 Ea Lh Np.
  destruct (deleg_forge false (/ root_of gen (m + 1)) (fun i => y <- nth_error lastp i ;; Some (1 - y)) m (/ fnat (2 ^ (m + 1))) (fun i => 1 - nth i lastp 0)) with (d := m) (i := 0%nat) (pre := @nil (@proof K)) (prec := @nil (list K)) (claim := claim) (prev := prev) (h := h) (calls := @nil (@sc_call K))
    as (pfs & cls & h' & ks & L1 & L2 & E); auto. { intros i Hi. rewrite (nth_error_nth' _ 0) by lia. reflexivity. }
  exists pfs, cls, h', ks. split; [auto|]. unfold verify_ifft_delegation. rewrite L1, pow_two_omegas_ok by auto. cbn [obind]. rewrite Ea. cbn [app] in E. rewrite E. cbn [obind].
  rewrite finv_opt_nz by (apply fnat_pow2_nz; auto). cbn [obind]. destruct m as [|m]; [lia|]. cbn [nth_error obind].
  set (s := / fnat (2 ^ (S m + 1))). assert (Q : (s =? s * 1 * 0 + s * (1 - 0)) = true). { apply feqb_spec. ring. } rewrite Q. reflexivity.
Qed.
Lemma pop_inv_snoc (q : list K) t : t <> 1 -> pop_inv (q ++ [t]) = Some (q, / (1 - t)).
Proof.
  intros H. unfold pop_inv, csub. rewrite app_length. cbn [length]. destruct (Nat.leb_spec 1 (length q + 1)); [|lia]. cbn [obind].
  replace (length q + 1 - 1)%nat with (length q) by lia. rewrite nth_error_app2, Nat.sub_diag by lia. cbn [nth_error obind]. rewrite finv_opt_nz. 2: { intros Q. apply H. apply fsub_0 in Q. auto. }
  cbn [obind]. rewrite firstn_app, firstn_all, Nat.sub_diag. cbn [firstn]. rewrite app_nil_r. reflexivity.
Qed.

Variable emb : Z -> K.
Hypothesis emb_0 : emb 0 = 0.
Hypothesis emb_1 : emb 1 = 1.
Variables (l c a b : nat).
Hypothesis Hl1 : (1 <= l)%nat.
Hypothesis Hl : (2 * l + 1 <= 32)%nat.
Hypothesis Hc : (c <= l)%nat.
Variables (fd xd bd : list Z).
Hypothesis Lf : length fd = (2 ^ b * 2 ^ a * (2 ^ c * 2 ^ c))%nat.
Hypothesis Lx : length xd = (2 ^ a * (2 ^ l * 2 ^ l))%nat.
Hypothesis Lb : length bd = (2 ^ b)%nat.

Lemma conv_forge cx es1 es2 es3 ui pi o0 o1 o2 last0 h (p0 hp q : list K) :
  conv_dims l c a cx -> valid_sched (b + 2 * l) es1 -> valid_sched (b + 2 * l) es2 -> valid_sched (2 * c) es3 ->
  conv2d_shape ui (cx_unpadded cx) = Some [o0; o1; o2] -> padded_conv2d_shape pi (cx_padded cx) = Some [(2 ^ b)%nat; (2 ^ l)%nat; (2 ^ l)%nat] ->
  length (cl_point last0) = (b + 2 * l)%nat -> length p0 = (b + 2 * l)%nat -> length hp = (2 * l + 1 + a)%nat -> length q = (2 * l)%nat ->
  eqp (cl_point last0) p0 * mle (mask l b o0 o1 o2) p0 <> 0 ->
  exists pf ic fc bc h' ks, verify_convolution gen emb T cx es1 es2 es3 [ui] [pi] last0 pf h = Some (ic, [(ConvFilter, fc); (ConvBias, bc)], h', ks) /\
    claim_true (map emb xd) ic /\ claim_true (map emb fd) fc /\ claim_true (map emb bd) bc /\
    cl_point ic = (map (fun x => 1 - x) q ++ skipn (2 * l + 1) hp)%list /\ pf_point (hp_sumcheck (cp_clearing pf)) = p0 /\ pf_point (cp_had pf) = hp /\
    length (cp_fft_del_w pf) = (2 * l)%nat.
Proof.
  intros (Cf & Cw & Ci & Cd & Cdi & Ch & Cr & Cn & Cs) V1 V2 V3 Eu Epd Ll Lp0 Lhp Lq Nz.
  (* the clearing product *)
  set (n := (2 * l + 1)%nat) in *. set (B := (b + 2 * l)%nat) in *. set (M := mask l b o0 o1 o2) in *.
  set (cpf := mkProof p0 (bogus_messages T (cl_eval last0) B 3 h)).
  destruct (bogus_verify T (cl_eval last0) B 3 h p0) as (e & h1 & Ev); auto; try (unfold B; lia). { intros r Hr. eapply sc_point_nodes; [|exact Hr]. lia. }
  fold cpf in Ev. set (e0 := e / (eqp (cl_point last0) p0 * mle M p0)).
  set (r1 := skipn (2 * l) p0). set (bias := mle (map emb bd) r1).
  assert (Lr1 : length r1 = b) by (unfold r1; rewrite skipn_length; unfold B in *; lia).
  (* inverse transform *)
  set (z := repeat (0 : K) n). assert (Lz : length z = n) by apply repeat_length. assert (Nzz : z <> []) by (intros Q; rewrite Q in Lz; cbn in Lz; unfold n in Lz; lia).
  destruct (bogus_run (e0 - bias) n 2 h1 z ltac:(lia) ltac:(unfold n; lia)) as (h2 & E2). set (ipf := mkProof z (bogus_messages T (e0 - bias) n 2 h1)) in *.
  destruct (ifft_deleg_forge cx p0 0 z h2 (2 * l)) as (dpf & dcl & h3 & ks1 & Ld1 & Ed1); auto; try (unfold B in *; lia).
  (* product *)
  destruct (bogus_run 0 (n + a) 3 h3 hp ltac:(lia) ltac:(unfold n; lia)) as (h4 & E4). set (hpf := mkProof hp (bogus_messages T 0 (n + a) 3 h3)) in *.
  (* input transform *)
  set (xp := (q ++ [0])%list : list K). assert (Nxp : xp <> []) by (unfold xp; destruct q; discriminate).
  destruct (bogus_run 0 n 2 h4 xp ltac:(lia) ltac:(unfold n; lia)) as (h5 & E5). set (fpf := mkProof xp (bogus_messages T 0 n 2 h4)) in *.
  destruct (fft_deleg_forge cx hp 0 xp h5 (2 * l)) as (xpf & xcl & h6 & ks2 & Ld2 & Ed2); auto; try lia.
  (* filter transform *)
  set (wq := repeat (0 : K) (2 * l)). assert (Lwq : length wq = (2 * l)%nat) by apply repeat_length.
  set (wp := (wq ++ [0])%list : list K). assert (Nwp : wp <> []) by (unfold wp; destruct wq; discriminate).
  destruct (bogus_run 0 n 2 h6 wp ltac:(lia) ltac:(unfold n; lia)) as (h7 & E7). set (wpf := mkProof wp (bogus_messages T 0 n 2 h6)) in *.
  destruct (fft_deleg_forge cx hp 0 wp h7 (2 * l)) as (ypf & ycl & h8 & ks3 & Ld3 & Ed3); auto; try lia.
  set (fp := (skipn n hp ++ r1)%list). assert (Lfp : length fp = (a + b)%nat) by (unfold fp; rewrite app_length, skipn_length; lia).
  set (partial := map (part emb c fd fp) (seq 0 (2 ^ (2 * c)))).
  assert (Lpa : length partial = (2 ^ (2 * c))%nat) by (unfold partial; rewrite map_length, seq_length; auto).
  assert (P2 : (2 ^ c * 2 ^ c = 2 ^ (2 * c))%nat) by (rewrite <- Nat.pow_add_r; f_equal; lia).
  set (y := sumn (2 ^ c * 2 ^ c) (fun i => nth i partial 0 * eqw (i / 2 ^ c * 2 ^ l + i mod 2 ^ c) wq)).
  destruct (read_challenges T (2 * c) h8) as [wr h9] eqn:Er.
  assert (Lwr : length wr = (2 * c)%nat). { change wr with (fst (wr, h9)). rewrite <- Er, read_challenges_length. lia. }
  set (xv := mle (map emb xd) (map (fun x => 1 - x) q ++ skipn n hp)).
  assert (One : (0 : K) <> 1) by (intros Q; symmetry in Q; now apply (@f1_neq_0 K)).
  assert (I1 : / (1 - 0) = (1 : K)). { transitivity (/ (1 - 0) * (1 - 0) : K); [ring|]. apply finv_l. intros Q. apply fsub_0 in Q. apply One. auto. }
  exists (mkConvPf fpf wpf xpf ypf ipf dpf hpf [xv; 0] [y; 0] [0; 0] xcl ycl dcl partial [0; 0; identity_eval z hp] bias (mkHp cpf [e0; mle M p0])).
  exists (mkClaim (map (fun x => 1 - x) q ++ skipn n hp)%list xv), (mkClaim (wr ++ fp)%list (mle partial wr)), (mkClaim r1 bias), h9.
  eexists. split; [|split; [|split; [|split; [|split; [|split; [|split]]]]]].
  - unfold verify_convolution. rewrite Eu, Epd. cbn [obind cp_clearing cp_bias cp_ifft cp_ifft_del cp_ifft_claims cp_ifft_del_claims cp_had cp_had_claims cp_fft cp_fft_claims cp_fft_del
      cp_fft_del_claims cp_fft_w cp_fft_w_claims cp_fft_del_w cp_fft_del_w_claims cp_partial hp_sumcheck].
    destruct (clearing_ok o0 o1 o2 (2 ^ b) (2 ^ l) (2 ^ l)) as (clr & Ec & _ & Lc & _). rewrite Ec. cbn [obind]. cbv zeta.
    rewrite (mask_ok emb emb_0 emb_1 l b _ _ _ _ Ec). fold M. rewrite size_pow in Lc. fold B in Lc. rewrite Lc, ilog2_pow. cbn [obind].
    assert (LM : length M = (2 ^ B)%nat) by (unfold M, mask; rewrite map_length, seq_length; reflexivity).
    rewrite mkExt_ok by auto. cbn [obind pf_point cpf]. rewrite (evaluate_ext es1 B) by auto. cbn [obind].
    assert (Esz : hadamard_ctx (sprod [(2 ^ b)%nat; (2 ^ l)%nat; (2 ^ l)%nat]) = B).
    { unfold hadamard_ctx. cbn [sprod fold_right]. rewrite Nat.mul_1_r, Nat.mul_assoc, size_pow, npow2_pow2. apply Nat.log2_pow2. lia. }
    rewrite Esz. unfold hadamard_verify. cbn [hp_sumcheck hp_claims]. fold cpf. rewrite Ev. cbn [obind].
    rewrite compute_betas_spec, (into_mle_ext_ok B) by (rewrite eq_table_length, Ll; reflexivity). cbn [obind pf_point cpf].
    rewrite (evaluate_ext es2 B) by (auto; rewrite eq_table_length, Ll; reflexivity). cbn [obind nth_error]. rewrite feqb_refl.
    assert (Q : (mle (eq_table (cl_point last0)) p0 * e0 * mle M p0 =? e) = true).
    { apply feqb_spec. rewrite mle_eq_table by lia. unfold e0. field. split; intros Z0; apply Nz; rewrite Z0; ring. }
    rewrite Q. cbn [obind cl_eval cl_point]. rewrite Ci. fold ipf. rewrite E2. cbn [obind]. rewrite Cdi, rev_length, map_length, seq_length, Ld1, Nat.eqb_refl. cbn [negb nth_error obind pf_point ipf].
    rewrite Ed1. cbn [obind]. rewrite Ch. fold hpf. rewrite E4. cbn [obind]. cbn [pf_point hpf]. rewrite feqb_refl. cbn [negb]. rewrite Cf. fold fpf. rewrite E5. cbn [obind].
    rewrite Cd, rev_length, map_length, seq_length, Ld2, Nat.eqb_refl. cbn [negb pf_point fpf]. rewrite Ed2. cbn [obind]. rewrite Cw. fold wpf. rewrite E7. cbn [obind pf_point wpf]. rewrite Ed3. cbn [obind].
    unfold wp at 1. rewrite pop_inv_snoc by auto. cbn [obind fst snd]. rewrite Cr, Cn. rewrite padded_weights_ok by lia. cbn [obind]. fold y.
    assert (Q2 : (y * / (1 - 0) =? y) = true). { apply feqb_spec. rewrite I1. ring. } rewrite Q2. cbn [negb].
    rewrite P2, ilog2_pow. cbn [obind]. rewrite Er. rewrite Cs. replace (2 ^ l * 2 ^ l)%nat with (2 ^ (2 * l))%nat by (rewrite <- Nat.pow_add_r; f_equal; lia). rewrite ilog2_pow. cbn [obind].
    unfold pt_from. rewrite (proj2 (Nat.leb_le (2 * l) (length p0))) by (unfold B in *; lia). cbn [obind].
    replace (2 * 2 ^ l * 2 ^ l)%nat with (2 ^ n)%nat by (unfold n; rewrite Nat.add_1_r, Nat.pow_succ_r', <- Nat.mul_assoc, <- Nat.pow_add_r; do 2 f_equal; lia).
    replace (2 ^ (2 * l) * 2)%nat with (2 ^ n)%nat by (unfold n; rewrite Nat.add_1_r, Nat.pow_succ_r'; lia). rewrite ilog2_pow. cbn [obind]. fold r1.
    rewrite (proj2 (Nat.leb_le n (length (hp ++ r1)))) by (rewrite app_length; lia). cbn [obind].
    assert (Esk : skipn n (hp ++ r1) = fp). { unfold fp. rewrite skipn_app. replace (n - length hp)%nat with 0%nat by lia. reflexivity. } rewrite Esk.
    rewrite (into_mle_ext_ok (2 * c)) by auto. cbn [obind]. rewrite (evaluate_ext es3 (2 * c)) by auto. cbn [obind].
    unfold xp at 1. rewrite pop_inv_snoc by auto. cbn [obind fst snd]. rewrite (proj2 (Nat.leb_le n (length hp))) by lia. cbn [obind].
    replace (xv * / (1 - 0)) with xv by (rewrite I1; ring). reflexivity.
  - split; cbn [cl_point cl_eval]; [|reflexivity]. rewrite !map_length, app_length, map_length, skipn_length, Lq, Lhp, Lx. replace (n + a - n)%nat with a by lia.
    rewrite <- !Nat.pow_add_r. f_equal. lia.
  - split; cbn [cl_point cl_eval].
    + rewrite map_length, app_length, Lwr, Lfp, Lf. rewrite <- !Nat.pow_add_r. f_equal. lia.
    + rewrite (part_eval emb l c a b Hl Hc fd xd Lf Lx) by auto. unfold partial. apply mle_map_seq. auto.
  - split; cbn [cl_point cl_eval]; [|reflexivity]. rewrite map_length, Lr1. auto.
  - reflexivity. - reflexivity. - reflexivity. - exact Ld3.
Qed.
End Forge.
