(** Proofs about the decoder ([M_Driver]), part 3: it answers every text that fits its tables. *)
From Coq Require Import List Arith Lia Bool ZArith.
From Verif Require Import ListAux FieldDef M_Mle M_Tensor P_Tensor P_Tensor2 P_Tensor3 M_Pad P_Pad P_AddPos3 M_Requant M_Transformer M_LayerNorm M_AddPos M_Softmax M_Mha P_Mha2 M_Driver P_Driver P_Driver2 P_Driver3.
Import ListNotations.

(** Operations on elements that never fail. *)
Definition total_map (f : Z -> option Z) : Prop := forall z, exists y, f z = Some y.
Definition total_ops (d : decoder) : Prop :=
  (forall i, total_map (de_rq d i)) /\ Forall (fun b => total_map (bk_act b) /\ forall i, total_map (bk_rq b i)) (de_blocks d).

Section Total.
Variable n : nat.
Hypothesis Hn : 0 < n.

Lemma emap_total w f x : total_map f -> mat n w x -> exists y, emap f x = Some y /\ mat n w y.
Proof.
  intros Hf [S W]. destruct (omapM_total f (dat x)) as (r & E); [intros z _; apply Hf|]. exists (mkTen (sh x) r). unfold emap. rewrite E. split; [reflexivity|].
  split; [exact S|]. unfold wft in *. cbn [sh dat]. rewrite (omapM_length _ _ _ E). exact W.
Qed.
Lemma lin_total a b w bias x : 0 < a -> 0 < b -> mat a b w -> match bias with Some o => sh o = [b] /\ wft o | None => True end -> mat n a x -> exists y, mm_eval w bias x = Some y /\ mat n b y.
Proof.
  intros Ha Hb [Sw Ww] Hbias [S W]. destruct (matmul_ok 0%Z Z.add Z.mul x w n a b W S Ww Sw) as (u & Eu & Su & Wu & Hu).
  unfold mm_eval, matmul_op, mm_constant, mm_product. cbn [mm_left mm_right mm_bias mm_transpose maybe_transpose nth_error obind].
  unfold nrows_2d, ncols_2d. rewrite Sw, S. destruct (Nat.eqb_spec a 0) as [C|_]; [lia|]. cbn [obind]. rewrite Nat.eqb_refl, Eu. cbn [obind].
  destruct bias as [o|]; [|exists u; split; [reflexivity|split; assumption]]. destruct Hbias as [So Wo]. rewrite So, Su, Nat.eqb_refl.
  destruct (add_dim2_ok 0%Z Z.add u o n b Wu Wo Su So Hb) as (v & Ev & Sv & Wv & Hv). exists v. split; [exact Ev|split; assumption].
Qed.
Lemma qkv_total a b w bias x : 0 < b -> lin_ok a b w bias -> mat n a x -> exists y, qkv_eval 0%Z Z.add Z.mul w bias x = Some y /\ mat n b y.
Proof.
  intros Hb ([Sw Ww] & So & Wo) [S W]. destruct (matmul_ok 0%Z Z.add Z.mul x w n a b W S Ww Sw) as (u & Eu & Su & Wu & Hu).
  destruct (add_dim2_ok 0%Z Z.add u bias n b Wu Wo Su So Hb) as (v & Ev & Sv & Wv & Hv). exists v. unfold qkv_eval. rewrite Eu. split; [exact Ev|split; assumption].
Qed.
Lemma ln_total w l x : 0 < w -> ln_ok w l -> mat n w x -> exists y, ln_eval l x = Some y /\ mat n w y.
Proof.
  intros Hw O M. assert (E : exists y, ln_eval l x = Some y).
  { pose proof M as [S W]. destruct O as [Lg Lb]. unfold ln_eval. rewrite S. cbn [last_opt rev app obind]. unfold ln_evaluate. destruct w as [|w0]; [lia|]. set (w := Datatypes.S w0) in *. cbn [obind fst].
    set (cs := chunks w (dat x)). destruct (chunks_all w n (dat x) ltac:(lia) (wf2 x n w W S)) as [F C]. fold cs in F, C.
    assert (G : length (concat (map (fun '(ch, r) => ln_out (ll_ctx l) (ll_gamma l) (ll_beta l) ch (snd (fst r))) (combine cs (map (ln_row (ll_lut l) (ll_ctx l)) cs)))) = n * w).
    { rewrite <- C. clear C. clearbody cs. induction F as [|c cs Lc F IH]; [reflexivity|]. cbn [map combine concat length Nat.mul]. rewrite app_length, IH, (ln_out_len _ _ _ _ _ w) by assumption. reflexivity. }
    unfold tensor_new. rewrite G. cbn [sprod fold_right]. replace (n * (w * 1)) with (n * w) by lia. rewrite Nat.eqb_refl. eexists. reflexivity. }
  destruct E as (y & E). exists y. split; [exact E|]. exact (proj2 (ln_eval_rows w l x y n Hw O M E)).
Qed.
Lemma add_total w c x d : mat n w x -> mat n w d -> exists y, add_evaluate c None [x; d] = Some y /\ mat n w y.
Proof.
  intros Mx Md. pose proof (tscale_mat _ _ (ad_left c) _ Mx) as [S1 W1]. pose proof (tscale_mat _ _ (ad_right c) _ Md) as [S2 W2].
  destruct (tadd_ok 0%Z Z.add _ _ W1 W2) as (u & Eu & Su & Wu & Hu); [rewrite S1, S2; reflexivity|]. exists u. split; [exact Eu|]. split; [rewrite Su; exact S1|exact Wu].
Qed.
Lemma pos_total w ctx c pos x : n <= ctx -> mat ctx w pos -> mat n w x -> exists y, pos_evaluate c pos x = Some y /\ mat n w y.
Proof.
  intros Hc [Sp Wp] [S W]. unfold pos_evaluate. rewrite S. rewrite (slice_2d_ok pos ctx w 0 n Sp (wf2 _ _ _ Wp Sp)) by lia. cbn [obind]. apply add_total; [split; assumption|].
  rewrite Nat.sub_0_r. split; [reflexivity|]. unfold wft. cbn [sh dat fold_right Nat.mul skipn]. rewrite firstn_length, (wf2 _ _ _ Wp Sp).
  assert (n * w <= ctx * w) by (apply Nat.mul_le_mono_r; exact Hc). lia.
Qed.
Lemma mha_total_mat expf lse c tv nh hd q k v : 0 < nh -> sm_tv c = Some tv -> mask_fits c tv -> mat n (nh * hd) q -> mat n (nh * hd) k -> mat n (nh * hd) v ->
  exists r, mha_evaluate expf lse c nh hd q k v = Some r /\ mat n (nh * hd) (snd r).
Proof.
  intros Hh Htv Hf [Sq Wq] [Sk Wk] [Sv Wv]. destruct (mha_total expf lse c tv n nh hd q k v Hn Hh Htv Wq Wk Wv Sq Sk Sv) as (s & e & o & y & out & E).
  exists (s, e, o, y, out). split; [exact E|]. destruct (mha_causal expf lse c tv n nh hd q k v Hn Hh Htv Hf Wq Wk Wv Sq Sk Sv _ _ _ _ _ E) as (S1 & W1 & _). split; assumption.
Qed.

Ltac go L := let y := fresh "y" in let E := fresh "E" in let M := fresh "M" in destruct L as (y & E & M); rewrite E; cbn [obind]; clear E.

Lemma ffn_total nh hd dm dff b x : 0 < dm -> 0 < dff -> block_ok nh hd dm dff b -> total_map (bk_act b) -> (forall i, total_map (bk_rq b i)) -> mat n dm x ->
  exists y, ffn_eval b x = Some y /\ mat n dm y.
Proof.
  intros Hd Hf (_ & O2 & _ & _ & _ & _ & _ & (Ou & Ou') & (Od & Od')) Ha Hr M. unfold ffn_eval.
  go (ln_total dm _ _ Hd O2 M). go (emap_total dm _ _ (Hr 7) M0). go (lin_total dm dff _ (Some (bk_up_bias b)) _ Hd Hf Ou Ou' M1). go (emap_total dff _ _ (Hr 8) M2).
  go (emap_total dff _ _ Ha M3). go (emap_total dff _ _ (Hr 9) M4). go (lin_total dff dm _ (Some (bk_down_bias b)) _ Hf Hd Od Od' M5). go (emap_total dm _ _ (Hr 10) M6).
  go (add_total dm (bk_add2 b) _ _ M M7). exact (emap_total dm _ _ (Hr 11) M8).
Qed.
Lemma block_total nh hd dm dff b x : 0 < nh -> 0 < hd -> 0 < dm -> 0 < dff -> block_ok nh hd dm dff b -> total_map (bk_act b) -> (forall i, total_map (bk_rq b i)) -> mat n dm x ->
  exists y, block_eval nh hd b x = Some y /\ mat n dm y.
Proof.
  intros Hh Hhd Hd Hf O Ha Hr M. pose proof O as (O1 & _ & Oq & Ok & Ov & (tv & Htv & Hfit) & (Oo & Oo') & _ & _). unfold block_eval. assert (Hp : 0 < nh * hd) by (apply Nat.mul_pos_pos; assumption).
  go (ln_total dm _ _ Hd O1 M). go (emap_total dm _ _ (Hr 0) M0). go (qkv_total dm (nh * hd) _ _ _ Hp Oq M1). go (emap_total (nh * hd) _ _ (Hr 1) M2).
  go (qkv_total dm (nh * hd) _ _ _ Hp Ok M1). go (emap_total (nh * hd) _ _ (Hr 2) M4). go (qkv_total dm (nh * hd) _ _ _ Hp Ov M1). go (emap_total (nh * hd) _ _ (Hr 3) M6).
  go (mha_total_mat (bk_exp b) (bk_lse b) _ tv nh hd _ _ _ Hh Htv Hfit M3 M5 M7). go (emap_total (nh * hd) _ _ (Hr 4) M8).
  go (lin_total (nh * hd) dm _ (Some (bk_out_bias b)) _ Hp Hd Oo Oo' M9). go (emap_total dm _ _ (Hr 5) M10).
  go (add_total dm (bk_add1 b) _ _ M M11). go (emap_total dm _ _ (Hr 6) M12). exact (ffn_total nh hd dm dff b _ Hd Hf O Ha Hr M13).
Qed.
Lemma blocks_total nh hd dm dff : 0 < nh -> 0 < hd -> 0 < dm -> 0 < dff -> forall bs x, Forall (block_ok nh hd dm dff) bs -> Forall (fun b => total_map (bk_act b) /\ forall i, total_map (bk_rq b i)) bs -> mat n dm x ->
  exists y, ofold (fun y b => block_eval nh hd b y) bs x = Some y /\ mat n dm y.
Proof.
  intros Hh Hhd Hd Hf. induction bs as [|b bs IH]; intros x F G M; [exists x; split; [reflexivity|exact M]|]. inversion F as [|? ? O F']; subst. inversion G as [|? ? [Ha Hr] G']; subst.
  cbn [ofold]. go (block_total nh hd dm dff b x Hh Hhd Hd Hf O Ha Hr M). exact (IH _ F' G' M0).
Qed.

Lemma max_bound (l : list Z) r : max_in_slice Z.ltb (- 2 ^ 63)%Z l = Some r -> snd r < length l.
Proof.
  destruct l as [|z l]; [discriminate|]. cbn [max_in_slice]. set (l0 := z :: l). intros H. injection H as <-.
  assert (G : forall (ps : list (nat * Z)) acc, snd acc < length l0 -> (forall p, In p ps -> fst p < length l0) ->
    snd (fold_left (fun acc '(i, x) => if Z.ltb (fst acc) x then (x, i) else acc) ps acc) < length l0).
  { induction ps as [|(i, x) ps IH]; intros acc Ha Hp; [exact Ha|]. cbn [fold_left]. apply IH; [|intros p Hin; apply Hp; right; exact Hin]. destruct (Z.ltb (fst acc) x); [|exact Ha].
    exact (Hp (i, x) (or_introl eq_refl)). }
  apply (G (combine (seq 0 (length l0)) l0) ((- 2 ^ 63)%Z, 0)); [apply Nat.lt_0_succ|]. intros (i, x) Hin. apply in_combine_l in Hin. apply in_seq in Hin. cbn [fst]. lia.
Qed.
Lemma logits_total w x : 0 < w -> mat n w x -> exists i v, logits_eval Z.ltb (- 2 ^ 63)%Z [x] = Some [(i, v)] /\ mat n 1 (mkTen (sh i) (map Z.of_nat (dat i))) /\ Forall (fun k => k < w) (dat i).
Proof.
  intros Hw [S W]. unfold logits_eval. cbn [forallb]. rewrite S. cbn [length Nat.leb andb omapM].
  assert (D : slice_last_dim x = Some (chunks w (dat x))).
  { unfold slice_last_dim, slice_on_dim. rewrite S. cbn. rewrite Nat.mul_1_r. unfold ochunks. destruct (Nat.eqb_spec w 0); [lia|reflexivity]. }
  rewrite D. cbn [obind]. destruct (chunks_all w n (dat x) Hw (wf2 x n w W S)) as [F C].
  destruct (omapM_total (max_in_slice Z.ltb (- 2 ^ 63)%Z) (chunks w (dat x))) as (ms & E).
  { intros c Hc. rewrite Forall_forall in F. specialize (F c Hc). destruct c as [|z c]; [cbn in F; lia|]. eexists. reflexivity. }
  rewrite E. cbn [obind]. do 2 eexists. split; [reflexivity|]. cbn [sh dat]. pose proof (omapM_length _ _ _ E) as L. rewrite L, C. split; [split; [reflexivity|unfold wft; cbn [sh dat fold_right]; rewrite !map_length; lia]|].
  apply Forall_map. apply Forall_forall. intros p Hp. destruct (In_nth_error _ _ Hp) as (j & Hj).
  assert (Hc : exists c, In c (chunks w (dat x)) /\ max_in_slice Z.ltb (- 2 ^ 63)%Z c = Some p).
  { clear - E Hp. revert ms E Hp. induction (chunks w (dat x)) as [|c cs IH]; intros ms E Hp; cbn [omapM] in E; [injection E as <-; destruct Hp|].
    destruct (max_in_slice Z.ltb (- 2 ^ 63)%Z c) as [q|] eqn:Q; [|discriminate]. cbn [obind] in E. destruct (omapM _ cs) as [ms'|] eqn:R; [|discriminate]. cbn [obind] in E. injection E as <-.
    destruct Hp as [<-|Hp]; [exists c; split; [left; reflexivity|exact Q]|]. destruct (IH _ eq_refl Hp) as (c' & I & Q'). exists c'. split; [right; exact I|exact Q']. }
  destruct Hc as (c & Ic & Q). rewrite Forall_forall in F. rewrite <- (F c Ic). exact (max_bound _ _ Q).
Qed.
Lemma emb_total vocab w emb a : mat vocab w emb -> length a = n -> Forall (fun v => 0 <= v < Z.of_nat vocab)%Z a -> exists y, emb_eval emb (vec a) = Some y /\ mat n w y.
Proof.
  intros [S W] La F. unfold emb_eval, vec. cbn [sh dat]. rewrite S. set (f := fun v : Z => _).
  assert (Hf : forall v, (0 <= v < Z.of_nat vocab)%Z -> exists r, f v = Some r /\ length r = w).
  { intros v Hv. unfold f. destruct (Z.ltb_spec v 0); [lia|]. destruct (Z.ltb_spec v (Z.of_nat vocab)); [|lia]. unfold slice. rewrite (wf2 _ _ _ W S).
    assert (Datatypes.S (Z.to_nat v) * w <= vocab * w) by (apply Nat.mul_le_mono_r; lia). set (k := Z.to_nat v) in *. clearbody k. cbn [Nat.mul] in *.
    replace (k * w <=? k * w + w) with true by (symmetry; apply Nat.leb_le; lia). replace (k * w + w <=? vocab * w) with true by (symmetry; apply Nat.leb_le; lia). cbn [andb].
    eexists. split; [reflexivity|]. rewrite firstn_length, skipn_length, (wf2 _ _ _ W S). lia. }
  assert (G : forall l, Forall (fun v => 0 <= v < Z.of_nat vocab)%Z l -> exists r, omapM f l = Some r /\ length r = length l /\ Forall (fun c => length c = w) r).
  { induction l as [|v l IH]; intros Fl; [exists []; split; [reflexivity|split; [reflexivity|constructor]]|]. inversion Fl as [|? ? Hv Fl']; subst. destruct (Hf v Hv) as (c & Ec & Lc). destruct (IH Fl') as (r & Er & Lr & Fr).
    exists (c :: r). cbn [omapM]. rewrite Ec. cbn [obind]. rewrite Er. split; [reflexivity|]. split; [cbn; lia|constructor; assumption]. }
  destruct (G a F) as (r & Er & Lr & Fr). rewrite Er. cbn [obind]. eexists. split; [reflexivity|]. split; [cbn [sh]; rewrite La; reflexivity|]. unfold wft. cbn [sh dat fold_right]. rewrite (concat_length w _ Fr). lia.
Qed.
End Total.

(** The decoder answers every text of tokens of its vocabulary that fits the positional matrix, with one token per position. *)
Lemma decoder_total dm dff vocab vo ctx d a : decoder_ok dm dff vocab vo d -> total_ops d -> mat ctx dm (de_pos d) -> 0 < length a -> length a <= ctx ->
  Forall (fun v => 0 <= v < Z.of_nat vocab)%Z a -> exists y, decoder_eval d (vec a) = Some y /\ mat (length a) 1 y /\ Forall (fun v => 0 <= v < Z.of_nat vo)%Z (dat y).
Proof.
  intros (Hd & Hf & Hh & Hhd & Hv & Oe & _ & Ob & On & Oj & Ojb) (Hr & Hb) Op Hl Hc F. unfold decoder_eval. set (n := length a) in *.
  destruct (emb_total n Hl vocab dm _ a Oe eq_refl F) as (y0 & -> & M0). cbn [obind]. destruct (emap_total n dm _ _ (Hr 0) M0) as (y1 & -> & M1). cbn [obind].
  destruct (pos_total n Hl dm ctx (de_padd d) _ _ Hc Op M1) as (y2 & -> & M2). cbn [obind]. destruct (emap_total n dm _ _ (Hr 1) M2) as (y3 & -> & M3). cbn [obind].
  destruct (blocks_total n Hl (de_nh d) (de_hd d) dm dff Hh Hhd Hd Hf _ _ Ob Hb M3) as (y4 & -> & M4). cbn [obind].
  destruct (ln_total n Hl dm _ _ Hd On M4) as (y5 & -> & M5). cbn [obind]. destruct (emap_total n dm _ _ (Hr 2) M5) as (y6 & -> & M6). cbn [obind].
  destruct (lin_total n Hl dm vo _ _ _ Hd Hv Oj Ojb M6) as (y7 & -> & M7). cbn [obind]. destruct (emap_total n vo _ _ (Hr 3) M7) as (y8 & -> & M8). cbn [obind].
  destruct (logits_total n Hl vo _ Hv M8) as (i & v & -> & Mi & Fi). cbn [obind]. eexists. split; [reflexivity|]. split; [exact Mi|]. cbn [dat]. apply Forall_map. refine (Forall_impl _ _ Fi). intros k Hk. lia.
Qed.

(** Generation with the decoder returns, for every prompt and window that fit, and its last trace holds the whole text. *)
Lemma decoder_generates dm dff vocab vo ctx d context_length eos max_context input : decoder_ok dm dff vocab vo d -> total_ops d -> mat ctx dm (de_pos d) -> vo <= vocab ->
  input <> [] -> Forall (fun k => k < vocab) input -> S (length input) < context_length -> length input < window context_length max_context -> window context_length max_context <= S ctx ->
  exists tr obs, run_inference Z.eqb Z.of_nat (decoder_run d) context_length eos max_context input = Some (tr, obs) /\
  exists gen lastt out, greedy Z.eqb (decoder_run d) eos (map Z.of_nat input) gen /\ tr_input tr = [vec (map Z.of_nat input ++ gen)] /\
    tr_output tr = [out] /\ sh out = [length input + length gen; 1] /\ skipn (length input - 1) (dat out) = gen ++ [lastt] /\
    (lastt = eos \/ S (length input + length gen) = window context_length max_context).
Proof.
  intros O Ot Op Hvo Hne Fi Hcl Hw Hctx.
  destruct (inference_total Z.eqb Z.of_nat (decoder_run d) (fun v => 0 <= v < Z.of_nat vocab)%Z context_length eos max_context input Hcl) as (tr & obs & E).
  - apply Forall_map. refine (Forall_impl _ _ Fi). intros k Hk. lia.
  - intros s Fs Hs1 Hs2. assert (0 < length input) by (destruct input; [contradiction|cbn; lia]).
    destruct (decoder_total dm dff vocab vo ctx d s O Ot Op ltac:(lia) ltac:(lia) Fs) as (y & Ey & [Sy Wy] & Fy).
    exists [y], [], y, (length s). unfold decoder_run. rewrite Ey. cbn [obind app]. split; [reflexivity|]. split; [reflexivity|]. split; [exact Sy|]. split; [lia|]. split; [exact Wy|].
    refine (Forall_impl _ _ Fy). intros v Hv. cbn beta in Hv. lia.
  - exists tr, obs. split; [exact E|]. exact (decoder_whole dm dff vocab vo d context_length eos max_context input tr obs O Hne E Hw).
Qed.
