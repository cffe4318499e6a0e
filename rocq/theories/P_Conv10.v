(** Completeness of the convolution proof: assembly of the sumchecks. *)
From Coq Require Import List Arith Lia Bool ZArith Field.
From Verif Require Import ListAux FieldDef PolyList MleMath P_Graph4 P_Tensor2 P_Tensor3 P_Tensor4 P_LogUp3 M_Mle P_Mle P_Eq M_Interp M_Sumcheck P_ScVerify P_ScProve P_ScProve2 P_ScApi
  M_ScParallel P_ScParallel M_SamePoly P_SamePoly M_Tensor P_Tensor M_Pool M_Fft P_Fft P_Fft2 P_Fft3 M_Layers P_Layers P_Layers2 P_Layers5 P_Pooling P_Pooling2 M_Conv P_Conv P_Conv2 P_Conv3 P_Conv4 P_Conv6 P_Conv7 P_Conv8 P_Conv9.
Import ListNotations.

Section Complete.
Context {K : field}.
Add Field Kf_conv10 : (fth K).
Local Open Scope F_scope.

(** The points of the sumchecks avoid the interpolation nodes. *)
Definition run_nodes (R : @conv_run K) : Prop :=
  pf_nodes 3 (hp_sumcheck (cr_clear R)) /\ bf_nodes (cr_ifft R) /\ pf_nodes 3 (cr_had R) /\ bf_nodes (cr_fft R) /\ bf_nodes (cr_fftw R).
(** Schedules of a layer with 2^b filters, 2^a channels, grid side 2^l and filter side 2^c. *)
Definition conv_sched_ok (l c a b : nat) (ss : conv_sched) : Prop :=
  (forall i, (i < b + 2 * l)%nat -> valid_rsched (K := K) (prod_shape 3 (b + 2 * l)) i (cs_clear ss i)) /\ fs_valid (K := K) (2 * l + 1) (cs_ifft ss) /\
  (forall i, (i < 2 * l + 1 + a)%nat -> valid_rsched (K := K) (prod_shape 3 (2 * l + 1 + a)) i (cs_had ss i)) /\ fs_valid (K := K) (2 * l + 1) (cs_fft ss) /\
  fs_valid (K := K) (2 * l + 1) (cs_fftw ss) /\ valid_sched b (cs_bias ss) /\ valid_sched (2 * c) (cs_part ss).

Lemma pop_inv_node (pt : list K) k : length pt = S k -> (forall r, In r pt -> not_node 2 r) -> exists v, pop_inv pt = Some (firstn k pt, v).
Proof.
  intros L H. unfold pop_inv. assert (E : csub (length pt) 1 = Some k) by (rewrite L; unfold csub; cbn [Nat.leb]; f_equal; lia). rewrite E. cbn [obind].
  rewrite (nth_error_some 0) by lia. cbn [obind]. rewrite finv_opt_nz; [eexists; reflexivity|]. intros X. apply (H (nth k pt 0) ltac:(apply nth_In; lia) 1%nat); [lia|].
  apply fsub_0 in X. rewrite <- X. cbn [fnat]. ring.
Qed.

Variable gen : K.
Hypothesis gen_root : fpow gen (2 ^ 31) = - (1).
Hypothesis char3 : char_gt K 3.
Variable emb : Z -> K.
Hypothesis emb_0 : emb 0 = 0.
Hypothesis emb_1 : emb 1 = 1.
Variable T : @hist K -> K.
Variables (l c a b : nat).
Hypothesis Hl1 : (1 <= l)%nat.
Hypothesis Hl : (2 * l + 1 <= 32)%nat.
Hypothesis Hc : (c <= l)%nat.
Variables (fd xd bd : list Z).
Hypothesis Lf : length fd = (2 ^ b * 2 ^ a * (2 ^ c * 2 ^ c))%nat.
Hypothesis Lx : length xd = (2 ^ a * (2 ^ l * 2 ^ l))%nat.
Hypothesis Lb : length bd = (2 ^ b)%nat.
Let n := (2 * l + 1)%nat.
Let m := (2 * l)%nat.

Lemma uncleared_eval (p0 : list K) : length p0 = (b + m)%nat ->
  mle (uncleared emb l c a b fd xd bd) p0 - mle (map emb bd) (skipn m p0) = mlef (fun i => cv emb l c a fd xd (i / 2 ^ m) (i mod 2 ^ m)) p0.
Proof.
  intros Lp. unfold uncleared. fold m. rewrite mle_map_seq by auto. rewrite mlef_add.
  assert (Eb : mlef (fun i => emb (nth (i / 2 ^ m) bd 0%Z)) p0 = mle (map emb bd) (skipn m p0)).
  { rewrite <- (firstn_skipn m p0) at 1. rewrite (mlef_two (fun o i => emb (nth o bd 0%Z)) (firstn m p0) (skipn m p0) m) by (apply firstn_length_le; lia).
    unfold mle. apply mlef_ext. intros i Hi. rewrite skipn_length in Hi. rewrite mlef_const. rewrite (nth_map_lt _ _ _ 0%Z) by (rewrite Lb; replace b with (length p0 - m)%nat by lia; exact Hi). reflexivity. }
  rewrite Eb. ring.
Qed.
Lemma bias_eval_ok (r1 : list K) es : length r1 = b -> valid_sched b es ->
  match r1 with [] => match bd with [z] => Some (emb z) | _ => Some 0 end | _ => bm <- into_mle_ext (map emb bd) ;; evaluate es bm r1 end = Some (mle (map emb bd) r1).
Proof.
  intros Lr V. destruct r1 as [|x r1].
  - cbn [length] in Lr. rewrite <- Lr in Lb. cbn [Nat.pow] in Lb. destruct bd as [|z [|]]; try discriminate. cbn [map]. unfold mle. rewrite mlef_nil. reflexivity.
  - rewrite (into_mle_ext_ok b) by (rewrite map_length; auto). cbn [obind]. rewrite (evaluate_ext es b) by (auto; rewrite map_length; auto). reflexivity.
Qed.

Lemma conv_complete cvl cx es1 es2 es3 ui pi o0 o1 o2 last0 ncpus ss d h : (0 < ncpus)%nat ->
  sh (cv_filter cvl) = [2 ^ b; 2 ^ a; 2 ^ l; 2 ^ l]%nat -> dat (cv_filter cvl) = fd -> nth_error (cv_og cvl) 2 = Some (2 ^ c)%nat -> dat (cv_bias cvl) = bd ->
  data_ok gen emb l c a b fd xd bd d -> conv_sched_ok l c a b ss -> conv_dims l c a cx ->
  valid_sched (b + 2 * l) es1 -> valid_sched (b + 2 * l) es2 -> valid_sched (2 * c) es3 ->
  conv2d_shape ui (cx_unpadded cx) = Some [o0; o1; o2] -> padded_conv2d_shape pi (cx_padded cx) = Some [(2 ^ b)%nat; (2 ^ l)%nat; (2 ^ l)%nat] ->
  claim_true (cleared emb l c a b fd xd bd o0 o1 o2) last0 ->
  exists R, conv_sumchecks gen emb T ncpus ss cvl last0 [2 ^ b; 2 ^ l; 2 ^ l]%nat [o0; o1; o2] d h = Some R /\
    (run_nodes R -> exists ic fc bc pf h' ks,
       prove_convolution_step gen emb T ncpus ss cvl last0 [2 ^ b; 2 ^ l; 2 ^ l]%nat [o0; o1; o2] d h = Some (ic, [(ConvFilter, fc); (ConvBias, bc)], pf, h') /\
       verify_convolution gen emb T cx es1 es2 es3 [ui] [pi] last0 pf h = Some (ic, [(ConvFilter, fc); (ConvBias, bc)], h', ks) /\
       all_checked T ks /\ claim_true (map emb xd) ic /\ claim_true (map emb fd) fc /\ claim_true (map emb bd) bc).
Proof.
  intros Hcpu Sf Df Og Db Hd (S1 & S2 & S3 & S4 & S5 & S6 & S7) (Cf & Cw & Ci & Cd & Cdi & Ch & Cr & Cn & Cs) V1 V2 V3 Eu Epd Hlast.
  assert (Hd' := Hd). destruct Hd' as (_ & (Lif & Uif & Nif) & _ & (Lo & Uo) & Eel).
  set (unc := uncleared emb l c a b fd xd bd) in *.
  assert (KK : forall q, (2 ^ q * 2 ^ q = 2 ^ (2 * q))%nat) by (intros q; rewrite <- Nat.pow_add_r; f_equal; lia).
  assert (KL : (2 ^ c * 2 ^ c = 2 ^ (2 * c))%nat) by apply KK.
  assert (E2 : (2 ^ m * 2 = 2 ^ n)%nat) by (unfold n, m; rewrite Nat.add_1_r, Nat.pow_succ_r'; lia).
  (* the clearing *)
  destruct (clearing_ok o0 o1 o2 (2 ^ b) (2 ^ l) (2 ^ l)) as (clr & Ec & Sc & Lc & _). assert (Em := mask_ok emb emb_0 emb_1 l b o0 o1 o2 clr Ec).
  assert (Lunc : length unc = (2 ^ (b + 2 * l))%nat) by (unfold unc, uncleared; rewrite map_length, seq_length; reflexivity).
  assert (Lel : length (cd_elems d) = (2 ^ (b + 2 * l))%nat) by (rewrite <- Lunc, <- Eel, map_length; reflexivity).
  assert (Lmk : length (mask (K := K) l b o0 o1 o2) = (2 ^ (b + 2 * l))%nat) by (unfold mask; rewrite map_length, seq_length; reflexivity).
  destruct (hadamard_complete2 T ncpus (cs_clear ss) (b + 2 * l) (mkTen [2 ^ b; 2 ^ l; 2 ^ l]%nat (map emb (cd_elems d))) (mkTen (sh clr) (map emb (dat clr)))
    (cleared emb l c a b fd xd bd o0 o1 o2) last0 h) as (cpf & h1 & Eh & Lp0 & Ehc & Hhv); auto.
  { lia. } { cbn [dat]. rewrite Eel, Em. apply mask_entrywise. }
  { cbn [sh]. unfold shape_is_pow2. cbn [forallb]. rewrite !is_pow2_pow. reflexivity. }
  { cbn [sh]. rewrite Sc. unfold shape_is_pow2. cbn [forallb]. rewrite size_pow, is_pow2_pow. reflexivity. }
  cbn [dat] in Ehc, Hhv. rewrite Eel, Em in Ehc, Hhv. set (p0 := pf_point (hp_sumcheck cpf)) in *. set (r1 := skipn m p0).
  assert (Lr1 : length r1 = b) by (unfold r1, m; rewrite skipn_length; lia).
  assert (Lfi : length (map (fun x : K => 1 - x) (firstn m p0)) = m) by (rewrite map_length; apply firstn_length_le; unfold m; lia).
  (* the inverse transform *)
  destruct (ifft_run gen gen_root char3 emb T l c a b Hl1 Hl Hc fd xd bd Lf Lx Lb d p0 ncpus (cs_ifft ss) h1 Hd Lp0 Hcpu S2) as (ib & h2 & Eib & Lip & Cib & Lib & Nib).
  fold n in Eib, Lip, Cib, Lib, Nib. fold m in Eib, Lip, Cib, Lib, Nib. fold r1 in Eib, Cib. set (ip := pf_point (bf_proof ib)) in *.
  (* the product *)
  destruct (agg_ok gen gen_root emb l c a b Hl Hc fd xd bd Lf Lx Lb r1 Lr1) as (agg & Eag & Lag & Uag & Nag). fold n in Uag, Nag.
  assert (Lbt : length (eq_table ip) = (2 ^ n)%nat) by (rewrite eq_table_length, Lip; reflexivity).
  assert (Lrb : length (repeat (eq_table ip) (2 ^ a)) = (2 ^ a)%nat) by apply repeat_length.
  assert (Urb : forall x, In x (repeat (eq_table ip) (2 ^ a)) -> length x = (2 ^ n)%nat) by (intros x Hx; apply repeat_spec in Hx; subst x; auto).
  set (ls := [concat agg; concat (cd_input_fft d); concat (repeat (eq_table ip) (2 ^ a))]).
  assert (Lls : forall t, In t ls -> length t = (2 ^ (n + a))%nat). { intros t [<-|[<-|[<-|[]]]]; apply concat_len; auto. }
  destruct (product_prove_ok T ncpus (cs_had ss) (n + a) ls h2 Hcpu ltac:(unfold n; lia) char3 ltac:(cbn; lia) Lls S3) as (hpf & h3 & Ehp & Lhp & Vhp).
  set (hp := pf_point hpf) in *.
  assert (Els : forall pt, length pt = (n + a)%nat -> map (fun t => mle t pt) ls
     = [mlef (fun i => f1t gen emb l c a fd r1 (i / 2 ^ n) (i mod 2 ^ n)) pt; mlef (fun i => xhat gen emb l xd (i / 2 ^ n) (i mod 2 ^ n)) pt; eqp ip pt]).
  { intros pt Lpt. unfold ls. cbn [map]. rewrite (concat_mle agg n a (f1t gen emb l c a fd r1)) by auto. rewrite (concat_mle (cd_input_fft d) n a (xhat gen emb l xd)) by auto.
    do 2 f_equal. f_equal. rewrite (concat_mle (repeat (eq_table ip) (2 ^ a)) n a (fun _ q => eqw q ip)); auto.
    - rewrite <- (firstn_skipn n pt) at 1. rewrite (mlef_two (fun _ q => eqw q ip)) by (apply firstn_length_le; lia). rewrite mlef_const. rewrite mlef_eqw by (rewrite firstn_length_le; lia).
      rewrite (eqp_trunc ip pt) by lia. rewrite Lip. apply eqp_sym.
    - intros j q Hj Hq. rewrite nth_repeat' by auto. apply eq_table_at. rewrite Lip. auto. }
  (* the transforms of the input and of the filter *)
  destruct (fft_run gen gen_root char3 emb T l c a b Hl1 Hl Hc fd xd bd Lf Lx Lb d hp ncpus (cs_fft ss) h3 Hd Lhp Hcpu S4) as (fb & h4 & Efb & Lfb & Cfb & Dfb & Nfb).
  destruct (fftw_run gen gen_root char3 emb T l c a b Hl1 Hl Hc fd xd bd Lf Lx Lb cvl hp r1 ncpus (cs_fftw ss) h4 Sf Df Og Lhp Lr1 Hcpu S5) as (wb & h5 & Ewb & Lwb & Cwb & Dwb & Nwb).
  fold n in Efb, Lfb, Cfb, Dfb, Nfb, Ewb, Lwb, Cwb, Dwb, Nwb. fold m in Efb, Lfb, Cfb, Dfb, Nfb, Ewb, Lwb, Cwb, Dwb, Nwb.
  set (fp := (skipn n hp ++ r1)%list) in *. set (partial := map (part emb c fd fp) (seq 0 (2 ^ (2 * c)))) in *.
  assert (Lpa : length partial = (2 ^ (2 * c))%nat) by (unfold partial; rewrite map_length, seq_length; reflexivity).
  set (R := mkRun cpf ib hpf (map (fun t => mle t hp) ls) fb wb partial r1 r1 (mle (map emb bd) r1) h5).
  assert (ER : conv_sumchecks gen emb T ncpus ss cvl last0 [2 ^ b; 2 ^ l; 2 ^ l]%nat [o0; o1; o2] d h = Some R).
  { unfold conv_sumchecks. rewrite Sf, Og, Df, Db. rewrite (nth_error_some [] (cd_output d) 0) by (rewrite Lo; apply pow2_pos). cbn [nth_error obind]. cbv zeta. rewrite Ec. cbn [obind].
    assert (Etn : tensor_new [2 ^ b; 2 ^ l; 2 ^ l]%nat (cd_elems d) = Some (mkTen [2 ^ b; 2 ^ l; 2 ^ l]%nat (cd_elems d))).
    { unfold tensor_new. cbn [sprod fold_right]. rewrite Nat.mul_1_r, Nat.mul_assoc, size_pow, Lel, Nat.eqb_refl. reflexivity. }
    rewrite Etn. cbn [obind sh dat]. rewrite Eh. cbn [obind]. rewrite Ehc. cbn [nth_error obind]. fold p0.
    assert (L0 : length (nth 0 (cd_output d) []) = (2 ^ n)%nat) by (apply Uo, nth_In; rewrite Lo; apply pow2_pos).
    rewrite L0, Lo, (KK l). replace (2 ^ (2 * l) * 2 ^ b * 2)%nat with (2 ^ b * 2 ^ n)%nat by (unfold m in E2; rewrite <- E2; lia). rewrite Nat.eqb_refl. cbn [negb].
    rewrite <- Nat.pow_add_r, !ilog2_pow. cbn [obind]. replace (2 * l + b)%nat with (length p0) by lia. rewrite Nat.eqb_refl. cbn [negb]. fold m.
    rewrite !slice_ok by (unfold m; lia). cbn [obind skipn]. rewrite Nat.sub_0_r. replace (m + b - m)%nat with b by lia. fold r1. rewrite (firstn_all2 r1) by lia.
    assert (Ers : resize (length p0 + 1) 0 (map (fun x => 1 - x) (firstn m p0) ++ 0 :: r1)%list = (map (fun x => 1 - x) (firstn m p0) ++ 0 :: r1)%list).
    { unfold resize. rewrite app_length, Lfi. cbn [length]. replace (length p0 + 1 - (m + S (length r1)))%nat with 0%nat by (unfold m; lia). cbn [repeat]. rewrite app_nil_r. apply firstn_all2. rewrite app_length, Lfi. cbn [length]. unfold m; lia. }
    rewrite Ers. rewrite (bias_eval_ok r1 (cs_bias ss) Lr1 S6). cbn [obind]. rewrite Eib. cbn [obind]. fold ip. rewrite Lip. replace (m + 1)%nat with n by reflexivity. rewrite Nat.eqb_refl. cbn [negb].
    assert (Esk : skipn n (map (fun x => 1 - x) (firstn m p0) ++ 0 :: r1) = r1). { change (0 :: r1)%list with ([0] ++ r1)%list. rewrite app_assoc. apply skipn_exact. rewrite app_length, Lfi. reflexivity. }
    rewrite Esk. unfold pt_from. rewrite (proj2 (Nat.leb_le n (length (ip ++ r1)))) by (rewrite app_length; lia). rewrite (skipn_exact n ip r1) by auto. cbn [obind].
    rewrite slice_ok by (try lia; rewrite app_length; lia). cbn [obind skipn]. rewrite Nat.sub_0_r, (firstn_exact n ip r1) by auto.
    rewrite Eag. cbn [obind]. rewrite compute_betas_spec. rewrite !(into_mle_ext_ok (n + a)) by (apply Lls; cbn; auto). cbn [obind num_vars].
    change [mkMle (Ext (concat agg)) (n + a); _; _] with (map (fun t => mkMle (Ext t) (n + a)) ls). rewrite Ehp. cbn [obind]. fold hp. rewrite Efb. cbn [obind]. rewrite Ewb. cbn [obind]. reflexivity. }
  exists R. split; [exact ER|]. intros (Na & Nb & Nc & Nd & Ne). unfold R in Na, Nb, Nc, Nd, Ne. cbn [cr_clear cr_ifft cr_had cr_fft cr_fftw] in Na, Nb, Nc, Nd, Ne.
  destruct (pop_inv_node (pf_point (bf_proof fb)) m) as (iv & Eiv). { rewrite Lfb. unfold n, m. lia. } { exact (proj1 Nd). }
  destruct (pop_inv_node (pf_point (bf_proof wb)) m) as (wv & Ewv). { rewrite Lwb. unfold n, m. lia. } { exact (proj1 Ne). }
  set (fpt := pf_point (bf_proof fb)) in *. set (wpt := pf_point (bf_proof wb)) in *.
  assert (Lrc : length (fst (read_challenges T (2 * c) h5)) = (2 * c)%nat) by apply read_challenges_length.
  destruct (read_challenges T (2 * c) h5) as [wr h6] eqn:Erc. cbn [fst] in Lrc.
  assert (Esk : skipn n (hp ++ r1) = fp). { rewrite skipn_app. replace (n - length hp)%nat with 0%nat by lia. reflexivity. }
  assert (Lfp : length fp = (a + b)%nat) by (unfold fp; rewrite app_length, skipn_length; lia).
  set (ic := mkClaim (map (fun x => 1 - x) (firstn m fpt) ++ skipn n hp)%list (mlef (xm emb l xd (skipn n hp)) fpt * iv)).
  set (fc := mkClaim (wr ++ fp)%list (mle partial wr)). set (bc := mkClaim r1 (mle (map emb bd) r1)).
  set (pf := mkConvPf (bf_proof fb) (bf_proof wb) (bf_del fb) (bf_del wb) (bf_proof ib) (bf_del ib) hpf (bf_claims fb) (bf_claims wb) (bf_claims ib)
          (bf_del_claims fb) (bf_del_claims wb) (bf_del_claims ib) partial (map (fun t => mle t hp) ls) (mle (map emb bd) r1) cpf).
  destruct (Nib Nb) as (hv1 & Vib & Dib). destruct (Dib cx Cdi) as (ks1 & Ek1 & Fk1). destruct (Nfb Nd) as (hv2 & Vfb & Dfb'). destruct (Dfb' cx Cd) as (ks2 & Ek2 & Fk2).
  destruct (Nwb Ne) as (hv3 & Vwb & Dwb'). destruct (Dwb' cx Cd) as (ks3 & Ek3 & Fk3).
  assert (Vhp' : verify T (mlef (pm gen emb l c a fd xd r1) ip) hpf (n + a) 3 h2 = Some (hp, fprod (map (fun t => mle t hp) ls), h3)).
  { etransitivity; [|etransitivity; [exact (Vhp Nc)|]].
    - f_equal. rewrite <- (had_pm gen emb l c a fd xd r1 ip Lip). fold n. apply hsum_ext. intros pt Lpt. unfold prodf. rewrite map_map. rewrite (Els pt Lpt). reflexivity.
    - unfold prodf. rewrite map_map. reflexivity. }
  destruct (pop_inv_ok _ _ _ Eiv) as (Qi & Li & Vi). destruct (pop_inv_ok _ _ _ Ewv) as (Qw & Lw & Vw).
  assert (Lfm : length (firstn m fpt) = m) by (apply firstn_length_le; lia). assert (Lwm : length (firstn m wpt) = m) by (apply firstn_length_le; lia).
  eexists ic, fc, bc, pf, h6, _. split; [|split; [|split; [|split; [|split]]]].
  - unfold prove_convolution_step. rewrite ER. cbn [obind]. rewrite Sf, Og. cbn [nth_error obind]. cbv zeta. unfold R. cbn [cr_clear cr_ifft cr_had cr_had_claims cr_fft cr_fftw cr_partial cr_r1 cr_bias_point cr_bias cr_hist].
    rewrite KL, ilog2_pow. cbn [obind]. rewrite Erc. rewrite two_pow', (KK l). fold n. fold m. rewrite E2, !ilog2_pow. cbn [obind]. fold hp. unfold pt_from. rewrite (proj2 (Nat.leb_le n (length (hp ++ r1)))) by (rewrite app_length; lia). rewrite Esk. cbn [obind].
    rewrite (into_mle_ext_ok (2 * c)) by auto. cbn [obind]. rewrite (evaluate_ext (cs_part ss) (2 * c)) by auto. cbn [obind]. fold fpt. rewrite Eiv. cbn [obind fst snd].
    rewrite (proj2 (Nat.leb_le n (length hp))) by lia. cbn [obind]. rewrite Cfb at 1. cbn [nth_error obind]. reflexivity.
  - unfold verify_convolution. rewrite Eu, Epd. cbn [obind]. rewrite Ec. cbn [obind]. cbv zeta. rewrite Em, Lc, size_pow, ilog2_pow. cbn [obind]. rewrite mkExt_ok by auto. cbn [obind].
    unfold pf at 1. cbn [cp_clearing]. fold p0. rewrite (evaluate_ext es1 (b + 2 * l)) by auto. cbn [obind].
    assert (Esz : hadamard_ctx (sprod [(2 ^ b)%nat; (2 ^ l)%nat; (2 ^ l)%nat]) = (b + 2 * l)%nat).
    { unfold hadamard_ctx. cbn [sprod fold_right]. rewrite Nat.mul_1_r, Nat.mul_assoc, size_pow, npow2_pow2. apply Nat.log2_pow2. lia. }
    rewrite Esz. unfold pf. cbn [cp_fft cp_fft_w cp_fft_del cp_fft_del_w cp_ifft cp_ifft_del cp_had cp_fft_claims cp_fft_w_claims cp_ifft_claims cp_fft_del_claims cp_fft_del_w_claims cp_ifft_del_claims cp_partial cp_had_claims cp_bias cp_clearing].
    rewrite (Hhv Na es2 V2). cbn [obind cl_eval cl_point]. rewrite uncleared_eval by exact Lp0. fold r1 in |- *.
    rewrite Ci, Cf, Cw, Ch, Cr, Cn, Cs. fold n. unfold run_sc. rewrite Vib. cbn [obind snd]. rewrite Cdi, rev_length, map_length, seq_length, Lib, Nat.eqb_refl. cbn [negb].
    rewrite Cib. cbn [nth_error obind]. fold ip. rewrite Ek1. cbn [obind]. rewrite Vhp'. cbn [obind snd]. rewrite (Els hp Lhp). cbn [nth_error obind]. fold hp. rewrite identity_eval_eqp, feqb_refl. cbn [negb obind].
    rewrite Vfb. cbn [obind snd]. rewrite Cfb. cbn [nth_error obind]. rewrite Cd, rev_length, map_length, seq_length, Dfb, Nat.eqb_refl. cbn [negb]. fold fpt. rewrite Ek2. cbn [obind].
    rewrite Vwb. cbn [obind snd]. rewrite Cwb. cbn [nth_error obind]. fold wpt. rewrite Ek3. cbn [obind]. rewrite Ewv. cbn [obind fst snd].
    rewrite (padded_weights_ok l (2 ^ c) partial) by (rewrite ?Lpa, ?Lwm; auto). cbn [obind].
    assert (Ewy : (mlef (wm emb l c fd fp) wpt * wv =? sumn (2 ^ c * 2 ^ c) (fun i => nth i partial 0 * eqw (i / 2 ^ c * 2 ^ l + i mod 2 ^ c) (firstn m wpt))) = true).
    { apply feqb_spec. rewrite Qw at 1. rewrite (wm_eval emb l c a b Hl Hc fd xd Lf Lx) by (auto; lia).
      match goal with |- ?u * ?v * wv = _ => transitivity ((u * wv) * v); [ring|] end. rewrite Vw.
      rewrite (sumn_ext _ (fun i => nth i partial 0 * _) (fun i => part emb c fd fp i * eqw (i / 2 ^ c * 2 ^ l + i mod 2 ^ c) (firstn m wpt))); [ring|].
      intros i Hi. unfold partial. rewrite nth_map_seq by lia. reflexivity. }
    rewrite Ewy. cbn [negb]. rewrite KL, ilog2_pow. cbn [obind]. rewrite Erc. rewrite (KK l), ilog2_pow. cbn [obind]. unfold pt_from. fold m. rewrite (proj2 (Nat.leb_le m (length p0))) by (unfold m; lia). cbn [obind]. fold r1.
    rewrite two_pow'. fold n. rewrite E2, !ilog2_pow. cbn [obind]. rewrite (proj2 (Nat.leb_le n (length (hp ++ r1)))) by (rewrite app_length; lia). rewrite Esk. cbn [obind].
    rewrite (into_mle_ext_ok (2 * c)) by auto. cbn [obind]. rewrite (evaluate_ext es3 (2 * c)) by auto. cbn [obind]. rewrite Eiv. cbn [obind fst snd].
    rewrite (proj2 (Nat.leb_le n (length hp))) by lia. cbn [obind]. reflexivity.
  - unfold all_checked. cbn [ck_ifft ck_ifft_del ck_had ck_fft ck_fft_del ck_fftw ck_fftw_del].
    constructor. { exists hv1. cbn [ca_claimed ca_pf ca_nv ca_deg ca_hist ca_evals]. rewrite Vib, Cib. reflexivity. }
    apply Forall_app. split; [auto|]. constructor. { exists h3. cbn [ca_claimed ca_pf ca_nv ca_deg ca_hist ca_evals]. rewrite Vhp', (Els hp Lhp). reflexivity. }
    constructor. { exists hv2. cbn [ca_claimed ca_pf ca_nv ca_deg ca_hist ca_evals]. rewrite Vfb, Cfb. reflexivity. }
    apply Forall_app. split; [auto|]. constructor; [|auto]. exists hv3. cbn [ca_claimed ca_pf ca_nv ca_deg ca_hist ca_evals]. rewrite Vwb, Cwb. reflexivity.
  - split; unfold ic; cbn [cl_point cl_eval].
    + rewrite map_length, Lx, app_length, map_length, Lfm, skipn_length, Lhp, (KK l), <- Nat.pow_add_r. f_equal. unfold m. lia.
    + assert (X : mlef (xm emb l xd (skipn n hp)) fpt = (1 - nth (length (firstn m fpt)) fpt 0) * mle (map emb xd) (map (fun x => 1 - x) (firstn m fpt) ++ skipn n hp)).
      { rewrite <- (xm_eval emb l c a b Hl Hc fd xd Lf Lx) by (auto; rewrite ?skipn_length; lia). rewrite <- Qi. reflexivity. }
      rewrite X.
      match goal with |- ?u * ?v * iv = _ => transitivity ((u * iv) * v); [ring|] end. rewrite Vi. ring.
  - split; unfold fc; cbn [cl_point cl_eval].
    + rewrite map_length, Lf, app_length, Lrc, Lfp, KL, <- !Nat.pow_add_r. f_equal. lia.
    + rewrite (part_eval emb l c a b Hl Hc fd xd Lf Lx) by auto. unfold partial. apply mle_map_seq. auto.
  - split; unfold bc; cbn [cl_point cl_eval]; [rewrite map_length, Lr1; auto|reflexivity].
Qed.
End Complete.

(** ** The layer *)
Section Layer.
Context {K : field}.
Add Field Kf_conv10l : (fth K).
Local Open Scope F_scope.
Variable gen : K.
Hypothesis gen_root : fpow gen (2 ^ 31) = - (1).
Variable emb : Z -> K.
Variable unemb : K -> Z.
Hypothesis emb_0 : emb 0 = 0.
Hypothesis emb_1 : emb 1 = 1.
Hypothesis emb_add : forall x y : Z, emb (x + y) = emb x + emb y.
Hypothesis emb_mul : forall x y : Z, emb (x * y) = emb x * emb y.
Hypothesis emb_unemb : forall z, emb (unemb (emb z)) = emb z.
Variable T : @hist K -> K.

Lemma conv_layer_complete cvl (x f : ten Z) bd b a l c ci kr hx o0 ki ncpus ss es1 es2 es3 :
  char_gt K 3 -> (1 <= l)%nat -> (2 * l + 1 <= 32)%nat -> (c < l)%nat -> wft f -> sh f = [2 ^ b; 2 ^ a; 2 ^ c; 2 ^ c]%nat -> wft x -> sh x = [2 ^ a; 2 ^ l; 2 ^ l]%nat ->
  length bd = (2 ^ b)%nat -> (1 <= kr <= 2 ^ c)%nat -> (ci <= 2 ^ a)%nat -> (kr <= hx <= 2 ^ l)%nat ->
  (forall o j p q, (o < 2 ^ b)%nat -> (j < 2 ^ a)%nat -> (p < 2 ^ c)%nat -> (q < 2 ^ c)%nat -> (ci <= j \/ kr <= p \/ kr <= q)%nat -> entry 0%Z f [o; j; p; q] = 0%Z) ->
  sh (cv_filter cvl) = [2 ^ b; 2 ^ a; 2 ^ l; 2 ^ l]%nat -> dat (cv_filter cvl) = dat f -> dat (cv_bias cvl) = bd -> cv_og cvl = sh f -> cv_unpadded cvl = [o0; ki; kr; kr] ->
  (0 < ncpus)%nat -> conv_sched_ok (K := K) l c a b ss -> valid_sched (b + 2 * l) es1 -> valid_sched (b + 2 * l) es2 -> valid_sched (2 * c) es3 ->
  exists cx d, conv_step_info cvl = Some cx /\ conv_op_data gen emb unemb cvl x = Some d /\
  forall y last0 h, conv_spec x f bd b l ci kr o0 (hx - kr + 1) y -> claim_true (map emb y) last0 ->
  exists R, conv_sumchecks gen emb T ncpus ss cvl last0 [2 ^ b; 2 ^ l; 2 ^ l]%nat [o0; hx - kr + 1; hx - kr + 1]%nat d h = Some R /\
    (run_nodes R -> exists ic fc bc pf h' ks,
       prove_convolution_step gen emb T ncpus ss cvl last0 [2 ^ b; 2 ^ l; 2 ^ l]%nat [o0; hx - kr + 1; hx - kr + 1]%nat d h = Some (ic, [(ConvFilter, fc); (ConvBias, bc)], pf, h') /\
       verify_convolution gen emb T cx es1 es2 es3 [[ci; hx; hx]] [sh x] last0 pf h = Some (ic, [(ConvFilter, fc); (ConvBias, bc)], h', ks) /\
       all_checked T ks /\ claim_true (map emb (dat x)) ic /\ claim_true (map emb (dat f)) fc /\ claim_true (map emb bd) bc).
Proof.
  intros H3 Hl1 Hl Hcl Wf Sf Wx Sx Lb Hk Hci Hhx Hz Sv Df Db So Su Hcpu Hss V1 V2 V3.
  destruct (conv_step_dims cvl b a l c Sv) as (cx & Es & Cd & Cu & Cp). { rewrite So, Sf. reflexivity. }
  assert (Lf : length (dat f) = (2 ^ b * 2 ^ a * (2 ^ c * 2 ^ c))%nat) by (unfold wft in Wf; rewrite Wf, Sf; cbn [sprod fold_right]; lia).
  assert (Lx : length (dat x) = (2 ^ a * (2 ^ l * 2 ^ l))%nat) by (unfold wft in Wx; rewrite Wx, Sx; cbn [sprod fold_right]; lia).
  assert (Og : nth_error (cv_og cvl) 2 = Some (2 ^ c)%nat) by (rewrite So, Sf; reflexivity).
  assert (C2 : (1 + 1 : K) <> 0) by (intros X; apply (H3 2%nat); [lia|]; cbn [fnat]; transitivity (1 + 1 : K); [ring|exact X]).
  destruct (conv_op_data_ok gen gen_root C2 emb unemb emb_0 emb_add emb_mul emb_unemb l c a b Hl ltac:(lia) (dat f) (dat x) bd Lf Lx Lb cvl x) as (d & Ed & Hd); auto.
  exists cx, d. split; [exact Es|]. split; [exact Ed|]. intros y last0 h Hy Hlast.
  apply (conv_complete gen gen_root H3 emb emb_0 emb_1 T l c a b Hl1 Hl ltac:(lia) (dat f) (dat x) bd Lf Lx Lb cvl cx); auto.
  - rewrite Cu, Su. apply conv2d_shape_ok. lia.
  - rewrite Cp, So, Sx, Sf. apply padded_shape_ok. auto.
  - rewrite <- (cleared_spec emb emb_0 emb_add emb_mul x f bd b a l c ci kr o0 (hx - kr + 1) y) by (auto; lia). exact Hlast.
Qed.
End Layer.
