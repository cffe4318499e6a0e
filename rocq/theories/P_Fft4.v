(** Proofs about M_Fft: [pad_conv] (when the padded convolution works and when it cannot), and the Goldilocks instance. *)
From Coq Require Import List Arith Lia Bool ZArith.
From Verif Require Import ListAux FieldDef FpInst FpGold M_Mle P_Graph4 M_Tensor P_Tensor P_Tensor2 P_Tensor3 P_Tensor4 M_Pool P_Pad P_Pad2 P_LogUp3 P_LogUp8 M_Quant P_Quant M_Fft P_Fft P_Fft2 P_Fft3.
Import ListNotations.

Lemma npow2_mono a b : a <= b -> npow2 a <= npow2 b.
Proof. intros H. unfold npow2. apply Nat.pow_le_mono_r; [lia|]. apply Nat.log2_up_le_mono. auto. Qed.
Lemma npow2_idem a : npow2 (npow2 a) = npow2 a.
Proof. apply npow2_pow2. Qed.
Lemma pow2_lt_half a n : 2 ^ a < npow2 n -> 2 * 2 ^ a <= npow2 n.
Proof.
  unfold npow2. intros H. apply Nat.pow_lt_mono_r_iff in H; [|lia]. rewrite <- Nat.pow_succ_r'. apply Nat.pow_le_mono_r; lia.
Qed.

Section Small.
Context {K : field}.
Variable gen : K.
Hypothesis gen_root : fpow gen (2 ^ 31) = fopp f1.
Hypothesis char2 : fadd f1 f1 <> (f0 : K).
Variable emb : Z -> K.
Variable unemb : K -> Z.

Lemma fft_len (v r : list K) m : 1 <= m -> length v = 2 ^ m -> fft gen true v = Some r -> length r = 2 ^ m.
Proof.
  intros Hm Lv E. destruct (le_dec m 32) as [H|H].
  - destruct (fft_backward gen gen_root char2 m v ltac:(lia) Lv) as (r' & E' & L & _). assert (r' = r) by congruence. subst. exact L.
  - exfalso. revert E. unfold fft. rewrite Lv, log2_up_pow2'. destruct (rev_table (2 ^ m) m); [|discriminate]. cbn [obind].
    rewrite get_root_big by lia. discriminate.
Qed.
Lemma conv_acc_len data kx rn nw i xv o j o' : conv_acc gen emb data kx rn nw i xv o j = Some o' -> length o' = length o.
Proof.
  unfold conv_acc. destruct (slice _ _ data) as [ws|]; [|discriminate]. cbn [obind]. destruct (index_w _ _ _ _ _) as [wi|]; [|discriminate]. cbn [obind].
  destruct (fft gen false wi) as [wf|]; [|discriminate]. cbn [obind]. intros E. apply omapM_len in E. rewrite E, seq_length. reflexivity.
Qed.
Lemma conv_accs_len data kx rn nw i xv js : forall o o', ofold (conv_acc gen emb data kx rn nw i xv) js o = Some o' -> length o' = length o.
Proof.
  induction js as [|j js IH]; intros o o' E; cbn [ofold] in E; [congruence|]. destruct (conv_acc _ _ _ _ _ _ _ _ _ _) as [o1|] eqn:E1; [|discriminate].
  cbn [obind] in E. apply IH in E. apply conv_acc_len in E1. congruence.
Qed.

(** When the filter grid is smaller than the input grid the convolution fails on every input. *)
Theorem fft_conv_small (f x : ten Z) og kw a x1 : nth_error (sh f) 0 = Some kw -> 0 < kw -> nth_error (sh f) 2 = Some (2 ^ a) ->
  nth_error (sh x) 1 = Some x1 -> 2 ^ a < npow2 x1 -> fft_conv gen emb unemb f og x = None.
Proof.
  intros S0 Hkw S2 Sx Hlt. unfold fft_conv. rewrite S0, S2, Sx. cbn [obind].
  destruct (nth_error (sh f) 1) as [kx|]; [|reflexivity]. cbn [obind]. destruct (nth_error og 2) as [rn|]; [|reflexivity]. cbn [obind].
  set (n := npow2 x1) in *.
  destruct (omapM (x_fft gen _) _) as [xv|]; [|reflexivity]. cbn [obind].
  destruct (omapM _ (seq 0 kw)) as [prod|] eqn:Ep; [|reflexivity]. cbn [obind].
  destruct (omapM (fft gen true) prod) as [out|] eqn:Eo; [|reflexivity]. cbn [obind].
  destruct (omapM _ out) as [el|] eqn:Ee; [|reflexivity]. exfalso.
  destruct (omapM_nth _ _ _ Ep) as [Lp Np]. rewrite seq_length in Lp.
  destruct (Np 0 0) as (p0 & Hp0 & F0). { destruct kw; [lia|reflexivity]. }
  apply conv_accs_len in F0. rewrite repeat_length in F0.
  destruct (omapM_nth _ _ _ Eo) as [_ No]. destruct (No _ _ Hp0) as (o0 & Ho0 & Fo).
  assert (L0 : length p0 = 2 ^ (2 * a + 1)). { rewrite F0, !Nat.pow_add_r, Nat.pow_1_r. replace (2 * a) with (a + a) by lia. rewrite Nat.pow_add_r. lia. }
  apply (fft_len _ _ (2 * a + 1)) in Fo; [|lia|exact L0].
  destruct (omapM_nth _ _ _ Ee) as [_ Ne]. destruct (Ne _ _ Ho0) as (e0 & _ & Fe).
  assert (Pa : 0 < 2 ^ a) by apply pow2_pos.
  assert (Lo : length o0 = 2 * (2 ^ a * 2 ^ a)) by (rewrite Fo, <- L0, F0; lia).
  destruct (index_u o0 n) as [us|] eqn:Eu; [|discriminate]. unfold index_u in Eu. destruct (omapM_nth _ _ _ Eu) as [_ Nu].
  assert (Hh : 0 < length o0 / 2). { rewrite Lo, (Nat.mul_comm 2), Nat.div_mul by lia. nia. }
  destruct (Nu 0 0) as (y & _ & Fy). { destruct (length o0 / 2); [lia|reflexivity]. }
  assert (H2 := pow2_lt_half a x1 Hlt). fold n in H2.
  unfold csub in Fy. destruct (Nat.leb_spec 1 (n * n)) as [H1|H1]; [|discriminate]. cbn [obind] in Fy. rewrite Nat.sub_0_r in Fy.
  cbn [Nat.leb obind] in Fy. assert (B : n * n - 1 < length o0) by (apply nth_error_Some; rewrite Fy; discriminate). rewrite Lo in B.
  assert (4 * (2 ^ a * 2 ^ a) <= n * n) by nia. nia.
Qed.

Hypothesis emb_0 : emb 0 = f0.
Hypothesis emb_add : forall a b, emb (a + b) = fadd (emb a) (emb b).
Hypothesis emb_mul : forall a b, emb (a * b) = fmul (emb a) (emb b).

(** The size of the filter grid that [pad_conv] chooses for an input of side h and a kernel of side k. *)
Definition grid (h k : nat) : nat := npow2 (npow2 (h - k + 1) - npow2 k + 1).
Lemma grid_le h k : 0 < k <= h -> npow2 k <= npow2 (h - k + 1) -> grid h k <= npow2 h.
Proof.
  intros Hk Hle. unfold grid. rewrite <- (npow2_idem h). apply npow2_mono. pose proof (npow2_mono (h - k + 1) h ltac:(lia)).
  pose proof (npow2_pos k). lia.
Qed.
(** The grids agree exactly when the output still needs the same padded side as the input and the kernel leaves room. *)
Lemma grid_eq h k : 0 < k <= h -> npow2 k <= npow2 (h - k + 1) ->
  (grid h k = npow2 h <-> npow2 (h - k + 1) = npow2 h /\ (k = 1 \/ 2 * npow2 k <= npow2 h)).
Proof.
  intros Hk Hle. unfold grid. pose proof (npow2_pos k) as P. pose proof (npow2_ge k) as Gk.
  assert (Hm := npow2_mono (h - k + 1) h ltac:(lia)). split.
  - intros E. assert (E1 : npow2 (h - k + 1) = npow2 h).
    { assert (X := npow2_mono (npow2 (h - k + 1) - npow2 k + 1) (npow2 (h - k + 1)) ltac:(lia)). rewrite npow2_idem in X. lia. }
    split; auto. rewrite E1 in *. destruct (Nat.eq_dec k 1) as [->|N]; [left; reflexivity|right].
    destruct (le_lt_dec (2 * npow2 k) (npow2 h)) as [|L]; auto. exfalso.
    assert (E2 : npow2 k = npow2 h).
    { unfold npow2 in L, Hle |- *. f_equal. apply Nat.le_antisymm; [apply (Nat.pow_le_mono_r_iff 2); [lia|exact Hle]|].
      rewrite <- Nat.pow_succ_r' in L. apply Nat.pow_lt_mono_r_iff in L; lia. }
    rewrite E2, Nat.sub_diag in E. cbn in E. assert (npow2 1 = 1) by reflexivity. lia.
  - intros [E1 D]. rewrite E1. destruct D as [->|D].
    + replace (npow2 1) with 1 by reflexivity. replace (npow2 h - 1 + 1) with (npow2 h) by (pose proof (npow2_pos h); lia). apply npow2_idem.
    + apply Nat.le_antisymm; [rewrite <- (npow2_idem h) at 2; apply npow2_mono; lia|].
      destruct (le_lt_dec (npow2 h) (npow2 (npow2 h - npow2 k + 1))) as [|L]; auto. exfalso.
      apply (pow2_lt_half _ h) in L. pose proof (npow2_ge (npow2 h - npow2 k + 1)) as G. fold (npow2 (npow2 h - npow2 k + 1)) in L.
      lia.
Qed.

(** [pad_conv] on a legal layer: the padded layer and the shapes it announces. *)
Lemma pad_conv_ok (f b : ten Z) og co ci k h : wft f -> sh f = [co; ci; k; k] -> wft b -> sh b = [co] -> 0 < co -> 0 < ci -> 0 < k <= h ->
  npow2 k <= npow2 (h - k + 1) ->
  exists c', into_padded_and_ffted (mkConv f og b (sh f)) [co; h - k + 1; h - k + 1] = Some c' /\
    pad_conv (mkConv f og b (sh f)) [ci; h; h] [npow2 ci; npow2 h; npow2 h] =
      Some (c', ([co; h - k + 1; h - k + 1],
                 [npow2 (npow2 co); npow2 (npow2 h - npow2 k + 1); npow2 (npow2 h - npow2 k + 1)])) /\
    sh (cv_filter c') = [npow2 co; npow2 ci; grid h k; grid h k].
Proof.
  intros Wf Sf Wb Sb Hco Hci Hk Hle.
  destruct (into_padded_ok f b og (sh f) [co; h - k + 1; h - k + 1] co ci k (h - k + 1)) as (f' & b' & Ec & (Sf' & Wf' & _) & _); auto; [lia|].
  eexists. split; [exact Ec|]. split; [|reflexivity].
  assert (Hk2 := npow2_mono k h ltac:(lia)). pose proof (npow2_pos k) as Pk. pose proof (npow2_ge k) as Gk.
  unfold pad_conv. cbn [cv_filter cv_bias]. rewrite Sf, Sb. unfold safe_conv2d_shape, check_filter. rewrite Nat.eqb_refl. cbn [obind].
  assert (Cs : forall a n kk, 0 < kk <= n -> conv2d_shape [a; n; n] [co; ci; kk; kk] = Some [co; n - kk + 1; n - kk + 1]).
  { intros a n kk Hkk. unfold conv2d_shape. cbn [length Nat.eqb nth_error obind]. unfold csub.
    destruct (Nat.leb_spec 1 kk); [|lia]. cbn [obind]. destruct (Nat.leb_spec (kk - 1) n); [|lia]. cbn [obind].
    destruct (Nat.leb_spec 1 (n - (kk - 1))); [|lia]. cbn [obind]. replace (n - (kk - 1) - 1 + 1) with (n - kk + 1) by lia. reflexivity. }
  assert (Ci : forall a n, check_cnn_input [a; n; n] = true) by (intros; unfold check_cnn_input; cbn; rewrite Nat.eqb_refl; reflexivity).
  rewrite !Ci, Cs by lia. cbn [obind nth_error]. rewrite Nat.eqb_refl. cbn [negb orb].
  assert (Sp : shape_is_pow2 [npow2 ci; npow2 h; npow2 h] = true) by (unfold shape_is_pow2; cbn [forallb]; rewrite !is_pow2_of; reflexivity).
  rewrite Sp. cbn [negb orb length Nat.eqb].
  destruct (generic_pad_ok 0%Z f Wf) as (f2 & Ef & Pf); [rewrite Sf; discriminate|rewrite Sf; repeat constructor; lia|].
  unfold pad_next_power_of_two. rewrite Ef. cbn [obind]. destruct Pf as (Sf2 & _ & _). rewrite Sf in Sf2. cbn [shape_npow2 map] in Sf2. rewrite Sf2.
  cbn [nth_error obind]. destruct (Nat.leb_spec (npow2 k) (npow2 h)); [|lia]. cbn [andb negb].
  rewrite Sf in Ec. rewrite Ec. cbn [obind]. rewrite Nat.eqb_refl. cbn [obind].
  assert (Cs2 : conv2d_shape [npow2 ci; npow2 h; npow2 h] [npow2 co; npow2 ci; npow2 k; npow2 k] = Some [npow2 co; npow2 h - npow2 k + 1; npow2 h - npow2 k + 1]).
  { unfold conv2d_shape. cbn [length Nat.eqb nth_error obind]. unfold csub.
    destruct (Nat.leb_spec 1 (npow2 k)); [|lia]. cbn [obind]. destruct (Nat.leb_spec (npow2 k - 1) (npow2 h)); [|lia]. cbn [obind].
    destruct (Nat.leb_spec 1 (npow2 h - (npow2 k - 1))); [|lia]. cbn [obind].
    replace (npow2 h - (npow2 k - 1) - 1 + 1) with (npow2 h - npow2 k + 1) by lia. reflexivity. }
  rewrite Cs2. cbn [obind]. reflexivity.
Qed.
Lemma pad_conv_panics (f b : ten Z) og co ci k h : wft f -> sh f = [co; ci; k; k] -> wft b -> sh b = [co] -> 0 < co -> 0 < ci -> 0 < k <= h ->
  npow2 (h - k + 1) < npow2 k -> pad_conv (mkConv f og b (sh f)) [ci; h; h] [npow2 ci; npow2 h; npow2 h] = None.
Proof.
  intros Wf Sf Wb Sb Hco Hci Hk Hlt. unfold pad_conv.
  destruct (safe_conv2d_shape [ci; h; h] (sh (cv_filter (mkConv f og b (sh f))))) as [o|] eqn:Eo; [|reflexivity]. cbn [obind cv_filter cv_bias].
  assert (o = [co; h - k + 1; h - k + 1]).
  { revert Eo. unfold safe_conv2d_shape, check_filter. cbn [cv_filter]. rewrite Sf, Nat.eqb_refl. cbn [obind]. destruct (check_cnn_input _); [|discriminate].
    unfold conv2d_shape. cbn [length Nat.eqb nth_error obind]. unfold csub.
    destruct (Nat.leb_spec 1 k); [|lia]. cbn [obind]. destruct (Nat.leb_spec (k - 1) h); [|lia]. cbn [obind].
    destruct (Nat.leb_spec 1 (h - (k - 1))); [|lia]. cbn [obind]. replace (h - (k - 1) - 1 + 1) with (h - k + 1) by lia. congruence. }
  subst o. destruct (check_filter (sh f)); [|reflexivity]. cbn [obind].
  destruct (nth_error (sh f) 0); [|reflexivity]. cbn [obind]. destruct (nth_error (sh b) 0); [|reflexivity]. cbn [obind].
  destruct (_ || _); [reflexivity|].
  destruct (generic_pad_ok 0%Z f Wf) as (f2 & Ef & Pf); [rewrite Sf; discriminate|rewrite Sf; repeat constructor; lia|].
  destruct (generic_pad_ok 0%Z b Wb) as (b2 & Eb & Pb); [rewrite Sb; discriminate|rewrite Sb; repeat constructor; lia|].
  destruct Pf as (Sf2 & Wf2 & _). rewrite Sf in Sf2. cbn [shape_npow2 map] in Sf2.
  unfold into_padded_and_ffted, pad_next_power_of_two. cbn [cv_filter cv_bias]. rewrite Ef, Eb. cbn [obind].
  assert (Ei : into_fft_conv f2 (map npow2 [co; h - k + 1; h - k + 1]) = None).
  { unfold into_fft_conv. rewrite Sf2. destruct (_ || _); [reflexivity|]. cbn [map nth_error obind]. unfold csub.
    destruct (Nat.leb_spec (npow2 k) (npow2 (h - k + 1))); [lia|reflexivity]. }
  rewrite Ei. cbn [obind].
  destruct (nth_error (sh f2) 2); [|reflexivity]. cbn [obind]. destruct (nth_error (sh f2) 3); [|reflexivity]. cbn [obind nth_error].
  destruct (negb _); reflexivity.
Qed.

(** The padded layer that [pad_conv] builds is right whenever its grid is as large as the padded input. *)
Theorem pad_conv_layer (f b x x' d : ten Z) og co ci k h l : let n := npow2 h in let out := h - k + 1 in
  wft f -> sh f = [co; ci; k; k] -> wft b -> sh b = [co] -> wft x -> sh x = [ci; h; h] ->
  0 < co -> 0 < ci -> 0 < k <= h -> n = 2 ^ l -> 2 * l + 1 <= 32 ->
  npow2 out = n -> (k = 1 \/ 2 * npow2 k <= n) ->
  wft x' -> sh x' = [npow2 ci; n; n] -> agrees 0%Z x x' ->
  conv2d 0%Z Z.add Z.mul x f b 1 = Some d ->
  (forall o r c, o < co -> r < out -> c < out ->
     unemb (emb (entry 0 d [0%nat; o; r; c] - nth o (dat b) 0))%Z = (entry 0 d [0%nat; o; r; c] - nth o (dat b) 0)%Z) ->
  exists c' t, pad_conv (mkConv f og b (sh f)) (sh x) (sh x') = Some (c', (skipn 1 (sh d), sh t)) /\
    conv_op gen emb unemb c' x' (sh x) = Some t /\
    sh t = [npow2 co; n; n] /\ wft t /\
    forall o r c, inb (sh t) [o; r; c] ->
      entry 0%Z t [o; r; c] = if (o <? co) && (r <? out) && (c <? out) then entry 0%Z d [0; o; r; c] else 0%Z.
Proof.
  cbv zeta. intros Wf Sf Wb Sb Wx Sx Hco Hci Hk Hn Hl E1 E2 Wx' Sx' Ag Ed Fit.
  assert (Hle : npow2 k <= npow2 (h - k + 1)). { rewrite E1. apply npow2_mono. lia. }
  assert (G : grid h k = npow2 h) by (apply grid_eq; auto).
  destruct (pad_conv_ok f b og co ci k h Wf Sf Wb Sb Hco Hci Hk Hle) as (c' & Ec & Ep & _).
  destruct (conv_layer gen gen_root char2 emb unemb emb_0 emb_add emb_mul f b x x' d og [co; h - k + 1; h - k + 1] co ci k h l (h - k + 1)
     Wf Sf Wb Sb Wx Sx Hco Hci Hk Hn Hl Wx' Sx' Ag eq_refl Hle G Ed Fit) as (c2 & t & Ec2 & Et & St & Wt & Nt).
  assert (c2 = c') by congruence. subst c2. exists c', t. split; [|auto].
  rewrite Sx, Sx', Ep, St. do 3 f_equal.
  - destruct (conv2d_ok x f b co ci h k Wx Sx Wf Sf Wb Sb ltac:(lia)) as (d' & Ed' & Sd & _). assert (d' = d) by congruence. subst d'. rewrite Sd. reflexivity.
  - rewrite npow2_idem. assert (G2 := G). unfold grid in G2. rewrite E1 in G2. rewrite G2. reflexivity.
Qed.
(** ... and in every other case either padding panics or the padded layer fails on every input of the padded shape. *)
Theorem pad_conv_fails (f b : ten Z) og co ci k h :
  wft f -> sh f = [co; ci; k; k] -> wft b -> sh b = [co] -> 0 < co -> 0 < ci -> 0 < k <= h ->
  ~ (npow2 (h - k + 1) = npow2 h /\ (k = 1 \/ 2 * npow2 k <= npow2 h)) ->
  match pad_conv (mkConv f og b (sh f)) [ci; h; h] [npow2 ci; npow2 h; npow2 h] with
  | None => True
  | Some (c', _) => forall x' us, sh x' = [npow2 ci; npow2 h; npow2 h] -> conv_op gen emb unemb c' x' us = None
  end.
Proof.
  intros Wf Sf Wb Sb Hco Hci Hk Hn. destruct (le_lt_dec (npow2 k) (npow2 (h - k + 1))) as [Hle|Hlt].
  - destruct (pad_conv_ok f b og co ci k h Wf Sf Wb Sb Hco Hci Hk Hle) as (c' & _ & Ep & Sc). rewrite Ep. intros x' us Sx'.
    unfold conv_op. rewrite (fft_conv_small (cv_filter c') x' (cv_og c') (npow2 co) (Nat.log2_up (npow2 (h - k + 1) - npow2 k + 1)) (npow2 h)); [reflexivity| | | | |].
    + rewrite Sc. reflexivity. + apply npow2_pos. + rewrite Sc. reflexivity. + rewrite Sx'. reflexivity.
    + rewrite npow2_idem. change (grid h k < npow2 h). pose proof (grid_le h k Hk Hle). assert (grid h k <> npow2 h) by (intros E; apply Hn, grid_eq; auto). lia.
  - rewrite (pad_conv_panics f b og co ci k h) by auto. exact I.
Qed.
End Small.

(** *** Goldilocks: the generator of the 2^32-th roots of unity, and a bound under which no sum wraps. *)
Fixpoint sq {K : field} (n : nat) (x : K) : K := match n with O => x | S m => sq m (fmul x x) end.
Section Sq.
Context {K : field}.
Add Field Kf_fft4 : (fth K).
Lemma sq_fpow n (x : K) : fpow x (2 ^ n) = sq n x.
Proof.
  revert x. induction n as [|n IH]; intros x; [cbn; ring|]. rewrite Nat.pow_succ_r'. cbn [sq]. rewrite <- IH, fpow_mul. f_equal. cbn. ring.
Qed.
End Sq.
(** [Goldilocks::two_adic_generator(32)] = 7^((p-1)/2^32). *)
Definition gold_gen : Fgold := mkFp gold 1753635133440165772.
Lemma gold_gen_root : fpow gold_gen (2 ^ 31) = fopp (f1 : Fgold).
Proof. rewrite sq_fpow. apply (Fp_eq gold). vm_compute. reflexivity. Qed.
Lemma gold_char2 : fadd f1 f1 <> (f0 : Fgold).
Proof. intros E. apply (f_equal (fpv gold)) in E. vm_compute in E. discriminate. Qed.

Lemma zsum_bound n f B : (forall i, i < n -> (Z.abs (f i) <= B)%Z) -> (Z.abs (zsum n f) <= Z.of_nat n * B)%Z.
Proof.
  induction n as [|n IH]; intros H; [cbn; lia|]. unfold zsum in *. cbn [sumto]. specialize (IH ltac:(auto)). specialize (H n ltac:(auto)). nia.
Qed.
Lemma direct_bound (x f : ten Z) ci k o r c X W :
  (forall j p q, j < ci -> p < k -> q < k -> (Z.abs (entry 0 x [j; (r + p)%nat; (c + q)%nat]) <= X /\ Z.abs (entry 0 f [o; j; p; q]) <= W)%Z) ->
  (Z.abs (direct x f ci k o r c) <= Z.of_nat (ci * k * k) * (X * W))%Z.
Proof.
  intros H. unfold direct. etransitivity; [apply zsum_bound with (B := (Z.of_nat k * (Z.of_nat k * (X * W)))%Z)|nia].
  intros j Hj. apply zsum_bound. intros p Hp. apply zsum_bound. intros q Hq. destruct (H j p q Hj Hp Hq). rewrite Z.abs_mul.
  apply Z.mul_le_mono_nonneg; lia.
Qed.

Theorem gold_conv_layer (f b x x' d : ten Z) og co ci k h l X W : let n := npow2 h in let out := h - k + 1 in
  wft f -> sh f = [co; ci; k; k] -> wft b -> sh b = [co] -> wft x -> sh x = [ci; h; h] ->
  0 < co -> 0 < ci -> 0 < k <= h -> n = 2 ^ l -> 2 * l + 1 <= 32 ->
  npow2 out = n -> (k = 1 \/ 2 * npow2 k <= n) ->
  wft x' -> sh x' = [npow2 ci; n; n] -> agrees 0%Z x x' ->
  (forall v, In v (dat x) -> Z.abs v <= X)%Z -> (forall v, In v (dat f) -> Z.abs v <= W)%Z ->
  (Z.of_nat (ci * k * k) * (X * W) <= 2 ^ 63 - 2 ^ 31)%Z ->
  conv2d 0%Z Z.add Z.mul x f b 1 = Some d ->
  exists c' t, pad_conv (mkConv f og b (sh f)) (sh x) (sh x') = Some (c', (skipn 1 (sh d), sh t)) /\
    conv_op gold_gen (to_field gold) (to_element gold) c' x' (sh x) = Some t /\
    sh t = [npow2 co; n; n] /\ wft t /\
    forall o r c, inb (sh t) [o; r; c] ->
      entry 0%Z t [o; r; c] = if (o <? co) && (r <? out) && (c <? out) then entry 0%Z d [0; o; r; c] else 0%Z.
Proof.
  cbv zeta. intros Wf Sf Wb Sb Wx Sx Hco Hci Hk Hn Hl E1 E2 Wx' Sx' Ag HX HW HB Ed.
  assert (Z0 : (to_field gold 0 : Fgold) = f0) by (rewrite (to_field_fZ gold prime_gold); apply fZ_0).
  assert (Za : forall a b, (to_field gold (a + b) : Fgold) = fadd (to_field gold a : Fgold) (to_field gold b)) by (intros; rewrite !(to_field_fZ gold prime_gold); apply fZ_add).
  assert (Zm : forall a b, (to_field gold (a * b) : Fgold) = fmul (to_field gold a : Fgold) (to_field gold b)) by (intros; rewrite !(to_field_fZ gold prime_gold); apply fZ_mul).
  apply (pad_conv_layer gold_gen gold_gen_root gold_char2 (to_field gold : Z -> Fgold) (to_element gold) Z0 Za Zm f b x x' d og co ci k h l); auto.
  intros o r c Ho Hr Hc. apply gold_round_trip.
  destruct (conv2d_ok x f b co ci h k Wx Sx Wf Sf Wb Sb ltac:(lia)) as (d' & Ed' & Sd & Wd & Nd). assert (d' = d) by congruence. subst d'.
  rewrite Nd by auto. replace (direct x f ci k o r c + nth o (dat b) 0 - nth o (dat b) 0)%Z with (direct x f ci k o r c) by lia.
  etransitivity; [apply (direct_bound x f ci k o r c X W)|exact HB].
  intros j p q Hj Hp Hq. split.
  - apply HX. unfold entry. apply nth_In. unfold wft in Wx. rewrite Wx, Sx, flat3. cbn [fold_right]. pose proof (lt3 ci h h j (r + p) (c + q) Hj ltac:(lia) ltac:(lia)). lia.
  - apply HW. unfold entry. apply nth_In. unfold wft in Wf. rewrite Wf, Sf, flat4. cbn [fold_right]. pose proof (lt4 co ci k k o j p q Ho Hj Hp Hq). lia.
Qed.
