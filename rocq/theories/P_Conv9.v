(** Completeness of the convolution proof: an honest proof is accepted, and every claim it hands over is true. *)
From Coq Require Import List Arith Lia Bool ZArith Field.
From Verif Require Import ListAux FieldDef PolyList MleMath P_Graph4 P_Tensor2 P_Tensor3 P_Tensor4 P_LogUp3 M_Mle P_Mle P_Eq M_Interp M_Sumcheck P_ScVerify P_ScProve P_ScProve2 P_ScApi
  M_ScParallel P_ScParallel M_SamePoly P_SamePoly M_Tensor P_Tensor M_Pool M_Fft P_Fft P_Fft2 P_Fft3 M_Layers P_Layers P_Layers2 P_Layers5 P_Pooling P_Pooling2 M_Conv P_Conv P_Conv2 P_Conv3 P_Conv4 P_Conv6 P_Conv7 P_Conv8.
Import ListNotations.

Lemma slice_ok {A} p q (x : list A) : p <= q -> q <= length x -> slice p q x = Some (firstn (q - p) (skipn p x)).
Proof. intros H1 H2. unfold slice. destruct (Nat.leb_spec p q); [|lia]. destruct (Nat.leb_spec q (length x)); [|lia]. reflexivity. Qed.

Lemma two_pow' l : 2 * 2 ^ l * 2 ^ l = 2 ^ (2 * l + 1).
Proof. rewrite Nat.add_1_r, Nat.pow_succ_r', <- Nat.mul_assoc, <- Nat.pow_add_r. do 2 f_equal. lia. Qed.
Lemma firstn_exact {A} q (x y : list A) : length x = q -> firstn q (x ++ y) = x.
Proof. intros <-. rewrite firstn_app, Nat.sub_diag, firstn_all. cbn [firstn]. apply app_nil_r. Qed.
Lemma skipn_exact {A} q (x y : list A) : length x = q -> skipn q (x ++ y) = y.
Proof. intros <-. rewrite skipn_app, Nat.sub_diag, skipn_all. reflexivity. Qed.

Section Had.
Context {K : field}.
Add Field Kf_conv9 : (fth K).
Local Open Scope F_scope.
(** [hadamard_complete] with the claims of the proof spelt out. *)
Lemma hadamard_complete2 (T : @hist K -> K) ncpus scs n (v1 v2 : ten K) y last h :
  (0 < ncpus)%nat -> char_gt K 3 -> (0 < n)%nat -> entrywise n (dat v1) (dat v2) y -> claim_true y last ->
  shape_is_pow2 (sh v1) = true -> shape_is_pow2 (sh v2) = true ->
  (forall i, (i < n)%nat -> valid_rsched (K := K) (prod_shape 3 n) i (scs i)) ->
  exists pf h', hadamard_prove T ncpus scs last v1 v2 h = Some (pf, h') /\
    let r := pf_point (hp_sumcheck pf) in length r = n /\ hp_claims pf = [mle (dat v1) r; mle (dat v2) r] /\
    ((forall x, In x r -> not_node 3 x) -> forall es, valid_sched n es ->
     hadamard_verify T n es last (mle (dat v2) r) pf h = Some (mkClaim r (mle (dat v1) r), h')).
Proof.
  intros Hnc Hch Hn Hy [Ll El] P1 P2 Hsc. assert (Hy' := Hy). destruct Hy' as (L1 & L2 & Ly & _).
  assert (Lp : length (cl_point last) = n) by (apply (Nat.pow_inj_r 2); lia).
  unfold hadamard_prove. rewrite L1, L2, !ilog2_pow. cbn [obind]. rewrite Lp, !Nat.eqb_refl, P1, P2. cbn [andb].
  rewrite compute_betas_spec. rewrite (into_mle_ext_ok n) by (rewrite eq_table_length, Lp; reflexivity). cbn [obind].
  rewrite !mkExt_ok by auto. cbn [obind num_vars].
  destruct (product_prove_ok T ncpus scs n [dat v1; dat v2; eq_table (cl_point last)] h) as (pf & h' & Ep & Hl & Hver); auto.
  { cbn [length]. lia. }
  { intros l [<-|[<-|[<-|[]]]]; auto. rewrite eq_table_length, Lp. reflexivity. }
  cbn [map] in Ep. rewrite Ep. cbn [obind length Nat.leb firstn]. do 2 eexists. split; [reflexivity|].
  cbn [hp_sumcheck hp_claims]. split; [auto|]. split; [reflexivity|]. intros Hr es Ves. unfold hadamard_verify. cbn [hp_sumcheck hp_claims].
  assert (Hbe : forall rs, length rs = n -> mle (eq_table (cl_point last)) rs = eqp (cl_point last) rs) by (intros; apply mle_eq_table; lia).
  assert (Hs : cl_eval last = hsum n (prodf (map mle [dat v1; dat v2; eq_table (cl_point last)]))).
  { rewrite El, (entrywise_sum n (dat v1) (dat v2)) by auto. apply hsum_ext. intros pt Hp. unfold prodf. cbn [map fprod]. rewrite Hbe by auto. reflexivity. }
  rewrite Hs. cbn [length] in Hver. rewrite Hver by auto. cbn [obind]. rewrite compute_betas_spec.
  rewrite (into_mle_ext_ok n) by (rewrite eq_table_length, Lp; reflexivity). cbn [obind].
  rewrite (evaluate_ext es n) by (auto; rewrite eq_table_length, Lp; reflexivity). cbn [obind nth_error]. rewrite feqb_refl. cbn [obind].
  match goal with |- (if (?x =? ?z) then _ else _) = _ => replace x with z by (unfold prodf; cbn [map fprod]; ring) end.
  rewrite feqb_refl. reflexivity.
Qed.
End Had.

Section Complete.
Context {K : field}.
Add Field Kf_conv9b : (fth K).
Local Open Scope F_scope.
Variable gen : K.
Hypothesis gen_root : fpow gen (2 ^ 31) = - (1).
Hypothesis char3 : char_gt K 3.
Variable emb : Z -> K.
Hypothesis emb_0 : emb 0 = 0.
Hypothesis emb_1 : emb 1 = 1.
Variable T : @hist K -> K.
Variables (l c a b : nat).
Hypothesis Hl1 : (1 <= l)%nat.
Hypothesis Hl : (2 * l + 1 <= 32)%nat.
Hypothesis Hc : (c <= l)%nat.
Variables (fd xd bd : list Z).
Hypothesis Lf : length fd = (2 ^ b * 2 ^ a * (2 ^ c * 2 ^ c))%nat.
Hypothesis Lx : length xd = (2 ^ a * (2 ^ l * 2 ^ l))%nat.
Hypothesis Lb : length bd = (2 ^ b)%nat.
Let n := (2 * l + 1)%nat.
Let m := (2 * l)%nat.
Let w := root_of gen n.

Lemma char2' : (1 + 1 : K) <> 0.
Proof. intros H. apply (char3 2); [lia|]. transitivity (1 + 1 : K); [cbn [fnat]; ring|exact H]. Qed.

Definition bf_nodes (bf : @batch_fft K) : Prop := pf_nodes 2 (bf_proof bf) /\ Forall (pf_nodes 3) (bf_del bf).

Lemma ifft_run d (lp : list K) ncpus fs h : data_ok gen emb l c a b fd xd bd d -> length lp = (b + m)%nat -> (0 < ncpus)%nat -> fs_valid (K := K) n fs ->
  let r1 := skipn m lp in let D0 := Ftab (/ w) n (ifft_x m lp) (/ fnat (2 ^ n)) n in
  exists ib h', prove_batch_ifft gen T ncpus fs (map (fun x => 1 - x) (firstn m lp) ++ 0 :: r1)%list (cd_prod d) h = Some (ib, h') /\
    let pt := pf_point (bf_proof ib) in length pt = n /\ bf_claims ib = [mlef (pm gen emb l c a fd xd r1) pt; mlef D0 pt] /\ length (bf_del ib) = m /\
    (bf_nodes ib -> exists hv,
       verify T (mlef (fun i => cv emb l c a fd xd (i / 2 ^ m) (i mod 2 ^ m)) lp) (bf_proof ib) n 2 h = Some (pt, fprod (bf_claims ib), hv) /\
       forall cx, cx_deleg_ifft cx = rev (map S (seq 0 m)) ->
         exists ks, verify_ifft_delegation gen T cx lp (mlef D0 pt) (bf_del ib) (bf_del_claims ib) pt hv = Some (h', ks) /\ Forall (checked T) ks).
Proof.
  intros (_ & _ & (Lp & Up & Np) & _) Ll Hcpu Hfs r1 D0.
  assert (Lr1 : length r1 = b) by (unfold r1; rewrite skipn_length; lia). assert (Lfi : length (map (fun x => 1 - x) (firstn m lp)) = m) by (rewrite map_length; apply firstn_length_le; lia).
  set (mp := map (fun x => 1 - x) (firstn m lp)) in *.
  assert (Er : (mp ++ 0 :: r1)%list = (ifft_x m lp ++ r1)%list) by (unfold ifft_x; fold mp; rewrite <- app_assoc; reflexivity).
  assert (Lxx : length (ifft_x m lp) = n) by (unfold ifft_x; fold mp; rewrite app_length, Lfi; unfold n, m; cbn; lia).
  unfold prove_batch_ifft. rewrite (nth_error_some []) by (rewrite Lp; apply pow2_pos). cbn [obind].
  assert (L0 : length (nth 0 (cd_prod d) []) = (2 ^ n)%nat) by (apply Up, nth_In; rewrite Lp; apply pow2_pos).
  rewrite L0, Lp, !ilog2_pow. rewrite finv_opt_nz by (apply fnat_pow2_nz, char2'). cbn [obind].
  rewrite Er. rewrite slice_ok by (try lia; rewrite app_length; lia). cbn [obind skipn]. rewrite Nat.sub_0_r.
  assert (Ef : firstn n (ifft_x m lp ++ r1) = ifft_x m lp) by (apply firstn_exact; auto).
  rewrite Ef. assert (Ec : csub n 1 = Some m) by (unfold csub, n, m; destruct (Nat.leb_spec 1 (2 * l + 1)); [f_equal|]; lia). rewrite Ec. cbn [obind].
  assert (Ez : nth_error (ifft_x m lp) m = Some 0). { unfold ifft_x. fold mp. rewrite nth_error_app2 by lia. rewrite Lfi, Nat.sub_diag. reflexivity. }
  rewrite Ez. cbn [obind]. rewrite feqb_refl. cbn [negb]. rewrite slice_ok by (try lia; rewrite app_length; lia).
  assert (Es : firstn (n + b - n) (skipn n (ifft_x m lp ++ r1)) = r1).
  { rewrite skipn_exact by auto. apply firstn_all2. lia. }
  rewrite Es. cbn [obind].
  destruct (high_concat (cd_prod d) n b (prodq gen emb l c a fd xd) r1 Lp Up Np Lr1) as (f & fm & Ei & Eh & Lfm & Hfm). rewrite Ei. cbn [obind]. rewrite Eh. cbn [obind].
  destruct (transform_ok gen gen_root T true n (ifft_x m lp) (/ fnat (2 ^ n)) ncpus fs fm h ltac:(unfold n; lia) Lxx Lfm Hcpu char3 Hfs) as (ib & h' & Et & Lpt & Ecl & Ld & Hn).
  exists ib, h'. split; [exact Et|]. cbv zeta. split; [auto|]. split; [|split].
  - rewrite Ecl. rewrite Hfm by auto. unfold dtab. cbn [negb andb]. rewrite Nat.sub_0_r. reflexivity.
  - rewrite Ld. unfold n, m. lia.
  - intros (N2 & N3). destruct (Hn N2 N3) as (hv & Ev & Hd). exists hv. split.
    + rewrite <- Ev. f_equal. rewrite (hsum_ext n _ (prodf [mlef (pm gen emb l c a fd xd r1); mlef D0])).
      * unfold D0. rewrite inv_hsum. unfold ifft_x. assert (X := pm_inv gen gen_root char2' emb l c a b Hl Hc fd xd Lf Lx (firstn m lp) r1 ltac:(apply firstn_length_le; lia) Lr1). fold n m w in X. rewrite X.
        unfold r1. rewrite firstn_skipn. reflexivity.
      * intros pt Hp. unfold prodf. cbn [map fprod]. rewrite Hfm by auto. unfold dtab. cbn [negb andb]. rewrite Nat.sub_0_r. reflexivity.
    + intros cx Ecx. assert (En : n = (m + 1)%nat) by reflexivity.
      destruct (ifft_deleg_complete gen gen_root T cx lp m (bf_del ib) (bf_del_claims ib) (pf_point (bf_proof ib)) hv h' char2' ltac:(unfold m; lia) ltac:(unfold m; lia) ltac:(lia) ltac:(rewrite Ld; lia) Ecx Hd) as (ks & Ek & Fk).
      exists ks. split; [|auto]. rewrite <- Ek. rewrite <- En. unfold dtab. cbn [andb]. rewrite Nat.sub_0_r. reflexivity.
Qed.

(** The two forward transforms. *)
Lemma fwd_run (hp : list K) ncpus fs (fm : list K) (F : nat -> K) h : length hp = (n + a)%nat -> (0 < ncpus)%nat -> fs_valid (K := K) n fs -> length fm = (2 ^ n)%nat ->
  (forall lo, length lo = n -> mle fm lo = mlef F lo) -> (forall s, (2 ^ m <= s)%nat -> F s = 0) ->
  let G := Gtab w n (firstn n hp) 1 in
  exists bf h', prove_transform gen T ncpus fs (firstn n hp) 1 false (mkMle (Ext fm) n) h = Some (bf, h') /\
    let pt := pf_point (bf_proof bf) in length pt = n /\ bf_claims bf = [mlef F pt; mlef G pt] /\ length (bf_del bf) = m /\
    (bf_nodes bf -> exists hv,
       verify T (mlef (dft w (2 ^ n) F) (firstn n hp)) (bf_proof bf) n 2 h = Some (pt, fprod (bf_claims bf), hv) /\
       forall cx, cx_deleg_fft cx = rev (map S (seq 0 m)) ->
         exists ks, verify_fft_delegation gen T cx hp (mlef G pt) (bf_del bf) (bf_del_claims bf) pt hv = Some (h', ks) /\ Forall (checked T) ks).
Proof.
  intros Lh Hcpu Hfs Lfm Hfm HF G. assert (Lxx : length (firstn n hp) = n) by (apply firstn_length_le; lia).
  destruct (transform_ok gen gen_root T false n (firstn n hp) 1 ncpus fs fm h ltac:(unfold n; lia) Lxx Lfm Hcpu char3 Hfs) as (bf & h' & Et & Lpt & Ecl & Ld & Hn).
  exists bf, h'. split; [exact Et|]. cbv zeta. split; [auto|]. split; [|split].
  - rewrite Ecl. rewrite Hfm by auto. reflexivity.
  - rewrite Ld. unfold n, m. lia.
  - intros (N2 & N3). destruct (Hn N2 N3) as (hv & Ev & Hd). exists hv. split.
    + rewrite <- Ev. f_equal. rewrite (hsum_ext n _ (prodf [mlef F; mlef G])).
      * unfold G. rewrite fwd_hsum; [reflexivity|]. intros s Hs. apply HF. replace m with (n - 1)%nat by (unfold n, m; lia). lia.
      * intros pt Hp. unfold prodf. cbn [map fprod]. rewrite Hfm by auto. reflexivity.
    + intros cx Ecx. assert (En : (n - 1)%nat = m) by (unfold n, m; lia). rewrite <- En in Ecx.
      destruct (fft_deleg_complete gen gen_root T cx hp n (bf_del bf) (bf_del_claims bf) (pf_point (bf_proof bf)) hv h' ltac:(unfold n; lia) ltac:(lia) Ld Ecx Hd) as (ks & Ek & Fk).
      exists ks. split; [|auto]. exact Ek.
Qed.

Lemma fft_run d (hp : list K) ncpus fs h : data_ok gen emb l c a b fd xd bd d -> length hp = (n + a)%nat -> (0 < ncpus)%nat -> fs_valid (K := K) n fs ->
  let hi := skipn n hp in let G := Gtab w n (firstn n hp) 1 in
  exists bf h', prove_batch_fft gen T ncpus fs hp (cd_input d) h = Some (bf, h') /\
    let pt := pf_point (bf_proof bf) in length pt = n /\ bf_claims bf = [mlef (xm emb l xd hi) pt; mlef G pt] /\ length (bf_del bf) = m /\
    (bf_nodes bf -> exists hv,
       verify T (mlef (fun i => xhat gen emb l xd (i / 2 ^ n) (i mod 2 ^ n)) hp) (bf_proof bf) n 2 h = Some (pt, fprod (bf_claims bf), hv) /\
       forall cx, cx_deleg_fft cx = rev (map S (seq 0 m)) ->
         exists ks, verify_fft_delegation gen T cx hp (mlef G pt) (bf_del bf) (bf_del_claims bf) pt hv = Some (h', ks) /\ Forall (checked T) ks).
Proof.
  intros ((Li & Ui & Ni) & _) Lh Hcpu Hfs hi G. assert (Lhi : length hi = a) by (unfold hi; rewrite skipn_length; lia).
  assert (E2 : (2 * 2 ^ m = 2 ^ n)%nat) by (unfold n, m; rewrite Nat.add_1_r, Nat.pow_succ_r'; reflexivity).
  unfold prove_batch_fft. rewrite (nth_error_some []) by (rewrite Li; apply pow2_pos). cbn [obind]. cbv zeta.
  assert (L0 : length (nth 0 (cd_input d) []) = (2 ^ m)%nat) by (apply Ui, nth_In; rewrite Li; apply pow2_pos).
  rewrite L0, Li, E2, !ilog2_pow. cbn [obind]. rewrite !slice_ok by lia. cbn [obind skipn]. rewrite Nat.sub_0_r. replace (n + a - n)%nat with a by lia. fold hi.
  rewrite (firstn_all2 hi) by lia.
  assert (Lz : length (map (resize (2 ^ n) 0) (cd_input d)) = (2 ^ a)%nat) by (rewrite map_length; auto).
  destruct (high_concat (map (resize (2 ^ n) 0) (cd_input d)) n a (xr emb l xd) hi Lz) as (f & fm & Ei & Eh & Lfm & Hfm); auto.
  { intros y Hy. apply in_map_iff in Hy. destruct Hy as (z & <- & Hz). unfold resize. rewrite app_length, firstn_length, repeat_length, (Ui z Hz). fold m. lia. }
  { intros j q Hj Hq. rewrite (nth_map_lt _ _ _ []) by lia. unfold resize. assert (Lj : length (nth j (cd_input d) []) = (2 ^ m)%nat) by (apply Ui, nth_In; lia).
    rewrite firstn_all2 by lia. destruct (Nat.lt_ge_cases q (2 ^ m)).
    - rewrite app_nth1 by lia. apply Ni; auto.
    - rewrite app_nth2 by lia. rewrite nth_repeat. symmetry. apply (xr_hi emb l c a b Hl Hc fd xd Lf Lx). auto. }
  rewrite Ei. cbn [obind]. rewrite Eh. cbn [obind].
  destruct (fwd_run hp ncpus fs fm (xm emb l xd hi) h Lh Hcpu Hfs Lfm Hfm) as (bf & h' & Eb & R1 & R2 & R3 & R4).
  { intros s Hs. unfold xm. rewrite <- (mlef_const 0 hi). apply mlef_ext. intros j Hj. apply (xr_hi emb l c a b Hl Hc fd xd Lf Lx). auto. }
  exists bf, h'. split; [exact Eb|]. cbv zeta. split; [auto|]. split; [auto|]. split; [auto|]. intros Hn. destruct (R4 Hn) as (hv & Ev & Hd). exists hv. split; [|exact Hd].
  rewrite <- Ev. f_equal. assert (X := xm_dft gen emb l a xd hi (firstn n hp) Lhi ltac:(apply firstn_length_le; lia)). fold n w in X. rewrite X. unfold hi. rewrite firstn_skipn. reflexivity.
Qed.

Lemma fftw_run cvl (hp r1 : list K) ncpus fs h : sh (cv_filter cvl) = [2 ^ b; 2 ^ a; 2 ^ l; 2 ^ l]%nat -> dat (cv_filter cvl) = fd -> nth_error (cv_og cvl) 2 = Some (2 ^ c)%nat ->
  length hp = (n + a)%nat -> length r1 = b -> (0 < ncpus)%nat -> fs_valid (K := K) n fs ->
  let fp := (skipn n hp ++ r1)%list in let G := Gtab w n (firstn n hp) 1 in
  exists bf h', prove_batch_fft_weights gen emb T ncpus fs cvl (hp ++ r1) h = Some (bf, map (part emb c fd fp) (seq 0 (2 ^ (2 * c))), h') /\
    let pt := pf_point (bf_proof bf) in length pt = n /\ bf_claims bf = [mlef (wm emb l c fd fp) pt; mlef G pt] /\ length (bf_del bf) = m /\
    (bf_nodes bf -> exists hv,
       verify T (mlef (fun i => f1t gen emb l c a fd r1 (i / 2 ^ n) (i mod 2 ^ n)) hp) (bf_proof bf) n 2 h = Some (pt, fprod (bf_claims bf), hv) /\
       forall cx, cx_deleg_fft cx = rev (map S (seq 0 m)) ->
         exists ks, verify_fft_delegation gen T cx hp (mlef G pt) (bf_del bf) (bf_del_claims bf) pt hv = Some (h', ks) /\ Forall (checked T) ks).
Proof.
  intros Sf Df Og Lh Lr Hcpu Hfs fp G. assert (Lhi : length (skipn n hp) = a) by (rewrite skipn_length; lia). assert (Lfp : length fp = (a + b)%nat) by (unfold fp; rewrite app_length; lia).
  assert (KK : (2 ^ c * 2 ^ c = 2 ^ (2 * c))%nat) by (rewrite <- Nat.pow_add_r; f_equal; lia).
  destruct (weights_table_ok emb l c a b Hl Hc fd xd bd Lf Lx Lb fp Lfp) as [W1 W2].
  unfold prove_batch_fft_weights. rewrite Sf, Og, Df. cbn [nth_error obind]. cbv zeta. rewrite two_pow' in W2 |- *. fold n in W2 |- *. rewrite ilog2_pow. cbn [obind].
  rewrite slice_ok by (try lia; rewrite app_length; lia). cbn [obind skipn]. rewrite Nat.sub_0_r.
  assert (E1 : firstn n (hp ++ r1) = firstn n hp). { rewrite firstn_app. replace (n - length hp)%nat with 0%nat by lia. cbn [firstn]. apply app_nil_r. }
  assert (E2 : skipn n (hp ++ r1) = fp). { rewrite skipn_app. replace (n - length hp)%nat with 0%nat by lia. reflexivity. }
  rewrite E1, E2, W1. cbn [obind]. rewrite W2. cbn [obind]. rewrite (into_mle_ext_ok n) by (rewrite map_length, seq_length; reflexivity). cbn [obind].
  destruct (fwd_run hp ncpus fs (map (wm emb l c fd fp) (seq 0 (2 ^ n))) (wm emb l c fd fp) h Lh Hcpu Hfs) as (bf & h' & Eb & R1 & R2 & R3 & R4).
  { rewrite map_length, seq_length. reflexivity. } { intros lo Ll. apply mle_map_seq. auto. }
  { intros s Hs. unfold wm. rewrite <- (mlef_const 0 fp). apply mlef_ext. intros j Hj. apply (wf_hi emb l c a b Hl Hc fd xd Lf Lx). auto. }
  exists bf, h'. rewrite Eb. cbn [obind fst snd]. rewrite KK. split; [reflexivity|]. cbv zeta. split; [auto|]. split; [auto|]. split; [auto|]. intros Hn. destruct (R4 Hn) as (hv & Ev & Hd). exists hv. split; [|exact Hd].
  rewrite <- Ev. f_equal. assert (X := wm_dft gen emb l c a b Hl Hc fd xd Lf Lx (skipn n hp) r1 (firstn n hp) Lhi ltac:(apply firstn_length_le; lia)). fold n w in X. unfold fp. rewrite X. rewrite firstn_skipn. reflexivity.
Qed.
End Complete.
