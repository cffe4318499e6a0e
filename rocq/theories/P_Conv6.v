(** Soundness of [verify_convolution] for the integer layer, and what the unabsorbed partial evaluations allow. *)
From Coq Require Import List Arith Lia Bool ZArith Field.
From Verif Require Import ListAux FieldDef PolyList MleMath M_Mle P_Mle P_Eq M_Interp M_Sumcheck P_ScVerify P_ScProve P_ScProve2 P_ScApi
  M_SamePoly P_SamePoly M_Tensor P_Tensor P_Tensor3 P_Graph4 M_Pool M_Pad P_Pad P_Pad2 M_Fft P_Fft P_Fft2 P_Fft3 M_Layers P_Layers P_Layers2 P_Layers5 P_Pooling P_Pooling2
  M_Conv P_Conv P_Conv2 P_Conv3 P_Conv4 P_Conv5.
Import ListNotations.

Lemma conv_step_dims cv b a l c : sh (cv_filter cv) = [2 ^ b; 2 ^ a; 2 ^ l; 2 ^ l] -> nth_error (cv_og cv) 2 = Some (2 ^ c) ->
  exists cx, conv_step_info cv = Some cx /\ conv_dims l c a cx /\ cx_unpadded cx = cv_unpadded cv /\ cx_padded cx = cv_og cv.
Proof.
  intros Ef Eo. unfold conv_step_info. rewrite Ef, Eo. cbn [nth_error obind].
  rewrite <- !Nat.pow_add_r, !ilog2_pow. cbn [obind]. eexists. split; [reflexivity|]. unfold conv_dims.
  cbn [cx_fft cx_fft_weights cx_ifft cx_deleg_fft cx_deleg_ifft cx_hadamard cx_real_nw cx_nw cx_filter_size cx_unpadded cx_padded].
  replace (l + l) with (2 * l) by lia. replace (a + 2 * l + 1) with (2 * l + 1 + a) by lia. repeat split. rewrite <- Nat.pow_add_r. f_equal. lia.
Qed.
Lemma conv2d_shape_ok ci hx w2 co ki kr k2 : 1 <= kr <= hx -> conv2d_shape [ci; hx; w2] [co; ki; kr; k2] = Some [co; hx - kr + 1; hx - kr + 1].
Proof.
  intros H. unfold conv2d_shape. cbn [length Nat.eqb nth_error obind]. unfold csub. destruct (Nat.leb_spec 1 kr); [|lia]. cbn [obind].
  destruct (Nat.leb_spec (kr - 1) hx); [|lia]. cbn [obind]. destruct (Nat.leb_spec 1 (hx - (kr - 1))); [|lia]. cbn [obind]. replace (hx - (kr - 1) - 1) with (hx - kr) by lia. reflexivity.
Qed.
Lemma padded_shape_ok a b c l w2 ki k2 : c < l -> padded_conv2d_shape [a; 2 ^ l; w2] [2 ^ b; ki; 2 ^ c; k2] = Some [2 ^ b; 2 ^ l; 2 ^ l].
Proof.
  intros H. assert (2 ^ c <= 2 ^ (l - 1)) by (apply Nat.pow_le_mono_r; lia). assert (2 ^ l = 2 * 2 ^ (l - 1)) by (rewrite <- Nat.pow_succ_r'; f_equal; lia).
  assert (0 < 2 ^ c) by apply pow2_pos. unfold padded_conv2d_shape. rewrite conv2d_shape_ok by lia. cbn [obind map]. rewrite npow2_pow2.
  assert (E : npow2 (2 ^ l - 2 ^ c + 1) = 2 ^ l).
  { unfold npow2. f_equal. destruct (Nat.eq_dec c 0) as [->|Nc].
    - cbn [Nat.pow] in *. replace (2 ^ l - 1 + 1) with (2 ^ l) by lia. apply Nat.log2_up_pow2. lia.
    - apply Nat.log2_up_unique; [lia|]. split; [|lia]. replace (Nat.pred l) with (l - 1) by lia. lia. }
  rewrite E. reflexivity.
Qed.

Section Int.
Context {K : field}.
Add Field Kf_conv6 : (fth K).
Local Open Scope F_scope.
Variable gen : K.
Hypothesis gen_root : fpow gen (2 ^ 31) = - (1).
Hypothesis char2 : (1 + 1 : K) <> 0.
Variable emb : Z -> K.
Hypothesis emb_0 : emb 0 = 0.
Hypothesis emb_1 : emb 1 = 1.
Hypothesis emb_add : forall x y : Z, emb (x + y) = emb x + emb y.
Hypothesis emb_mul : forall x y : Z, emb (x * y) = emb x * emb y.
Variable T : @hist K -> K.

(** The output of the padded layer: the direct convolution plus the bias inside the unpadded output, zero outside. *)
Definition conv_spec (x f : ten Z) (bd : list Z) (b l ci kr o0 o1 : nat) (y : list Z) : Prop :=
  length y = (2 ^ b * 2 ^ l * 2 ^ l)%nat /\
  forall o r q, (o < 2 ^ b)%nat -> (r < 2 ^ l)%nat -> (q < 2 ^ l)%nat ->
    nth ((o * 2 ^ l + r) * 2 ^ l + q) y 0%Z = if ((o <? o0) && (r <? o1) && (q <? o1))%nat then (nth o bd 0 + direct x f ci kr o r q)%Z else 0%Z.

Lemma digits3 n i : (0 < n)%nat -> i = ((i / (n * n) * n + (i / n) mod n) * n + i mod n)%nat.
Proof.
  intros H. rewrite <- Nat.div_div by lia. rewrite (Nat.div_mod i n) at 1 by lia. rewrite (Nat.div_mod (i / n) n) at 1 by lia. lia.
Qed.
Lemma cleared_spec x f bd b a l c ci kr o0 o1 y : (c <= l)%nat -> wft f -> sh f = [2 ^ b; 2 ^ a; 2 ^ c; 2 ^ c]%nat -> wft x -> sh x = [2 ^ a; 2 ^ l; 2 ^ l]%nat ->
  length bd = (2 ^ b)%nat -> (1 <= kr <= 2 ^ c)%nat -> (ci <= 2 ^ a)%nat -> (o1 + kr <= 2 ^ l + 1)%nat ->
  (forall o j p q, (o < 2 ^ b)%nat -> (j < 2 ^ a)%nat -> (p < 2 ^ c)%nat -> (q < 2 ^ c)%nat -> (ci <= j \/ kr <= p \/ kr <= q)%nat -> entry 0%Z f [o; j; p; q] = 0%Z) ->
  conv_spec x f bd b l ci kr o0 o1 y -> map emb y = cleared emb l c a b (dat f) (dat x) bd o0 o1 o1.
Proof.
  intros Hcl Wf Sf Wx Sx Lb Hk Hci Ho Hz (Ly & Ny). assert (Kl : (2 ^ c <= 2 ^ l)%nat) by (apply Nat.pow_le_mono_r; lia). assert (P := pow2_pos l).
  assert (PP : (2 ^ (2 * l) = 2 ^ l * 2 ^ l)%nat) by (rewrite <- Nat.pow_add_r; f_equal; lia).
  unfold cleared. apply (nth_ext_all _ _ 0). { rewrite !map_length, seq_length, Ly. apply size_pow. }
  rewrite map_length. intros i Hi. rewrite (nth_map_lt _ _ _ 0%Z) by auto. rewrite Ly in Hi. assert (Hi2 := Hi). rewrite size_pow in Hi2. rewrite nth_map_seq by exact Hi2.
  rewrite (digits3 (2 ^ l) i) at 1 by auto. rewrite Ny.
  - destruct (_ && _) eqn:Eb; [|exact emb_0]. apply andb_prop in Eb. destruct Eb as [Eb E3]. apply andb_prop in Eb. destruct Eb as [E1 E2].
    apply Nat.ltb_lt in E1, E2, E3. unfold uncleared. rewrite nth_map_seq by exact Hi2. rewrite emb_add. rewrite PP. f_equal.
    unfold cv. replace (i mod (2 ^ l * 2 ^ l))%nat with ((i / 2 ^ l) mod 2 ^ l * 2 ^ l + i mod 2 ^ l)%nat.
    + symmetry. pose proof (cval_direct emb emb_0 emb_add emb_mul l (2 ^ c) (2 ^ b) (2 ^ a) ci kr f x (i / (2 ^ l * 2 ^ l)) ((i / 2 ^ l) mod 2 ^ l) (i mod 2 ^ l)) as CD. cbv zeta in CD.
      apply CD; auto; try lia.
      * apply Nat.div_lt_upper_bound; [lia|]. lia.
      * intros j p q Hj Hp Hq Hor. apply Hz; auto. apply Nat.div_lt_upper_bound; [lia|]. lia.
    + rewrite (Nat.mod_mul_r i) by lia. lia.
  - apply Nat.div_lt_upper_bound; [lia|]. lia.
  - apply Nat.mod_upper_bound. lia.
  - apply Nat.mod_upper_bound. lia.
Qed.

(** With the missing comparisons made, and except for the listed events, true claims about the input, the filter and the bias make the
    claim about the output true, the output being the direct convolution with the bias, zero in the padding. *)
Lemma conv_layer_sound cv x f bd b a l c ci kr hx o0 ki cx es1 es2 es3 last0 pf h ic fc bc h' ks y :
  char_gt K 3 -> (1 <= l)%nat -> (2 * l + 1 <= 32)%nat -> (c < l)%nat -> wft f -> sh f = [2 ^ b; 2 ^ a; 2 ^ c; 2 ^ c]%nat -> wft x -> sh x = [2 ^ a; 2 ^ l; 2 ^ l]%nat ->
  length bd = (2 ^ b)%nat -> (1 <= kr <= 2 ^ c)%nat -> (ci <= 2 ^ a)%nat -> (kr <= hx <= 2 ^ l)%nat ->
  (forall o j p q, (o < 2 ^ b)%nat -> (j < 2 ^ a)%nat -> (p < 2 ^ c)%nat -> (q < 2 ^ c)%nat -> (ci <= j \/ kr <= p \/ kr <= q)%nat -> entry 0%Z f [o; j; p; q] = 0%Z) ->
  sh (cv_filter cv) = [2 ^ b; 2 ^ a; 2 ^ l; 2 ^ l]%nat -> cv_og cv = sh f -> cv_unpadded cv = [o0; ki; kr; kr] ->
  conv_step_info cv = Some cx -> valid_sched (b + 2 * l) es1 -> valid_sched (b + 2 * l) es2 -> valid_sched (2 * c) es3 ->
  length (cl_point last0) = (b + 2 * l)%nat ->
  verify_convolution gen emb T cx es1 es2 es3 [[ci; hx; hx]] [sh x] last0 pf h = Some (ic, [(ConvFilter, fc); (ConvBias, bc)], h', ks) ->
  pf_point (hp_sumcheck (cp_clearing pf)) = sc_point T (b + 2 * l) 3 h (hp_sumcheck (cp_clearing pf)) -> all_checked T ks -> length (cp_fft_del_w pf) = (2 * l)%nat ->
  claim_true (map emb (dat x)) ic -> claim_true (map emb (dat f)) fc -> claim_true (map emb bd) bc ->
  conv_spec x f bd b l ci kr o0 (hx - kr + 1) y ->
  claim_true (map emb y) last0 \/ conv_event gen emb T l c a b (dat f) (dat x) bd last0 o0 (hx - kr + 1) (hx - kr + 1) pf fc h ks.
Proof.
  intros H3 Hl1 Hl Hcl Wf Sf Wx Sx Lb Hk Hci Hhx Hz Sv So Su Es V1 V2 V3 Ll Ev Hp Ak Lw Hic Hfc Hbc Hy.
  destruct (conv_step_dims cv b a l c Sv) as (cx' & Es' & Cd & Cu & Cp). { rewrite So, Sf. reflexivity. }
  assert (cx' = cx) by congruence. subst cx'.
  assert (Lf : length (dat f) = (2 ^ b * 2 ^ a * (2 ^ c * 2 ^ c))%nat) by (unfold wft in Wf; rewrite Wf, Sf; cbn [sprod fold_right]; lia).
  assert (Lx : length (dat x) = (2 ^ a * (2 ^ l * 2 ^ l))%nat) by (unfold wft in Wx; rewrite Wx, Sx; cbn [sprod fold_right]; lia).
  rewrite (cleared_spec x f bd b a l c ci kr o0 (hx - kr + 1) y) by (auto; lia).
  apply (conv_sound gen gen_root char2 emb emb_0 emb_1 T l c a b Hl1 Hl ltac:(lia) (dat f) (dat x) bd Lf Lx Lb cx es1 es2 es3 [ci; hx; hx] (sh x)) with (ic := ic) (bc := bc) (h' := h'); auto.
  - rewrite Cu, Su. apply conv2d_shape_ok. lia.
  - rewrite Cp, So, Sx, Sf. apply padded_shape_ok. auto.
Qed.

(** Nothing ties the partial evaluations to the transcript before [weights_rand] is drawn: when the filter has at least two positions, for
    the challenge [wr], every value [e] of their extension at [wr] and every value [u] of the padded evaluation can be reached together. *)
Lemma partial_unbound l c (wr wp : list K) e u i j : let k := (2 ^ c)%nat in let g i := @eqw K (i / k * 2 ^ l + i mod k) wp in
  length wr = (2 * c)%nat -> length wp = (2 * l)%nat -> (i < k * k)%nat -> (j < k * k)%nat -> i <> j ->
  eqw i wr * g j - eqw j wr * g i <> 0 ->
  exists partial, length partial = (2 ^ (2 * c))%nat /\ mle partial wr = e /\ padded_weights_eval k (2 ^ l) partial wp = Some u.
Proof.
  cbv zeta. intros Lw Lp Hi Hj Nij Nz. set (k := (2 ^ c)%nat) in *. set (g := fun i => @eqw K (i / k * 2 ^ l + i mod k) wp) in *.
  assert (Nz' : eqw i wr * g j - eqw j wr * g i <> 0) by exact Nz. clear Nz. set (D := eqw i wr * g j - eqw j wr * g i) in *.
  assert (KK : (k * k = 2 ^ (2 * c))%nat) by (unfold k; rewrite <- Nat.pow_add_r; f_equal; lia).
  set (s := (e * g j - u * eqw j wr) / D). set (t := (u * eqw i wr - e * g i) / D).
  set (F := fun q => if (q =? i)%nat then s else if (q =? j)%nat then t else 0).
  assert (S : forall h : nat -> K, sumn (k * k) (fun q => F q * h q) = s * h i + t * h j).
  { intros h. rewrite (sumn_ext _ _ (fun q => (if (q =? i)%nat then s * h i else 0) + (if (q =? j)%nat then t * h j else 0))).
    - rewrite sumn_add. f_equal.
      + rewrite (FieldDef.sumn_single (k * k) i (fun q => if (q =? i)%nat then s * h i else 0)); auto; [rewrite Nat.eqb_refl; reflexivity|].
        intros q Hq Nq. destruct (Nat.eqb_spec q i); [contradiction|reflexivity].
      + rewrite (FieldDef.sumn_single (k * k) j (fun q => if (q =? j)%nat then t * h j else 0)); auto; [rewrite Nat.eqb_refl; reflexivity|].
        intros q Hq Nq. destruct (Nat.eqb_spec q j); [contradiction|reflexivity].
    - intros q Hq. unfold F. destruct (Nat.eqb_spec q i) as [->|]; [destruct (Nat.eqb_spec i j); [contradiction|ring]|]. destruct (Nat.eqb_spec q j) as [->|]; ring. }
  exists (map F (seq 0 (2 ^ (2 * c)))). split; [rewrite map_length, seq_length; reflexivity|]. split.
  - rewrite mle_map_seq by auto. unfold mlef. rewrite Lw, <- KK, S. unfold s, t, D. field. exact Nz'.
  - rewrite padded_weights_ok by (auto; rewrite map_length, seq_length; auto). f_equal. fold k.
    rewrite (sumn_ext _ _ (fun q => F q * g q)). 2: { intros q Hq. rewrite nth_map_seq by lia. reflexivity. }
    rewrite S. unfold s, t, D. field. exact Nz'.
Qed.
End Int.
