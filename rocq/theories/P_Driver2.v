(** Proofs about the decoder ([M_Driver]): it is causal, layer by layer. *)
From Coq Require Import List Arith Lia Bool ZArith.
From Verif Require Import ListAux FieldDef M_Mle M_Tensor P_Tensor P_Tensor2 P_Tensor3 M_Pad P_Pad P_Hash P_Code4 M_Requant M_Transformer M_LayerNorm M_AddPos M_Softmax M_Mha P_Mha2 M_Driver P_Driver.
Import ListNotations.

(** ** Specification *)
(** Matrices of any numbers of rows whose first [t] rows are the same. *)
Definition mat (n w : nat) (x : ten Z) : Prop := sh x = [n; w] /\ wft x.
Definition agree (t n n' w : nat) (x x' : ten Z) : Prop := mat n w x /\ mat n' w x' /\ firstn (t * w) (dat x) = firstn (t * w) (dat x').
(** The sizes of the weights of a decoder: width [dm], [nh] heads of dimension [hd], inner width [dff]. *)
Definition ln_ok (dm : nat) (l : ln_layer) : Prop := length (ll_gamma l) = dm /\ length (ll_beta l) = dm.
Definition lin_ok (a b : nat) (w bias : ten Z) : Prop := mat a b w /\ sh bias = [b] /\ wft bias.
Definition block_ok (nh hd dm dff : nat) (b : block) : Prop :=
  ln_ok dm (bk_norm b) /\ ln_ok dm (bk_norm2 b) /\
  lin_ok dm (nh * hd) (bk_wq b) (bk_bq b) /\ lin_ok dm (nh * hd) (bk_wk b) (bk_bk b) /\ lin_ok dm (nh * hd) (bk_wv b) (bk_bv b) /\
  (exists tv, sm_tv (bk_sm b) = Some tv /\ mask_fits (bk_sm b) tv) /\
  lin_ok (nh * hd) dm (bk_out b) (bk_out_bias b) /\ lin_ok dm dff (bk_up b) (bk_up_bias b) /\ lin_ok dff dm (bk_down b) (bk_down_bias b).
Definition decoder_ok (dm dff vocab voc_out : nat) (d : decoder) : Prop :=
  0 < dm /\ 0 < dff /\ 0 < de_nh d /\ 0 < de_hd d /\ 0 < voc_out /\ mat vocab dm (de_emb d) /\ (exists ctx, mat ctx dm (de_pos d)) /\
  Forall (block_ok (de_nh d) (de_hd d) dm dff) (de_blocks d) /\ ln_ok dm (de_norm d) /\ mat dm voc_out (de_proj d) /\
  match de_proj_bias d with Some b => sh b = [voc_out] /\ wft b | None => True end.

(** ** Lists *)
Lemma omapM_firstn {A B} (f : A -> option B) k : forall l r, omapM f l = Some r -> omapM f (firstn k l) = Some (firstn k r).
Proof.
  induction k as [|k IH]; intros l r H; [reflexivity|]. destruct l as [|x l]; cbn [omapM firstn] in *; [injection H as <-; reflexivity|].
  destruct (f x) as [y|]; [|discriminate]. cbn [obind] in *. destruct (omapM f l) as [r'|] eqn:E; [|discriminate]. cbn [obind] in H. injection H as <-.
  rewrite (IH _ _ E). reflexivity.
Qed.
Lemma omapM_length {A B} (f : A -> option B) : forall l r, omapM f l = Some r -> length r = length l.
Proof.
  induction l as [|x l IH]; intros r H; cbn [omapM] in H; [injection H as <-; reflexivity|]. destruct (f x); [|discriminate]. cbn [obind] in H.
  destruct (omapM f l) as [r'|]; [|discriminate]. cbn [obind] in H. injection H as <-. cbn. f_equal. apply IH. reflexivity.
Qed.
Lemma omapM_all_r {A B} (f : A -> option B) (P : B -> Prop) : (forall x y, f x = Some y -> P y) -> forall l r, omapM f l = Some r -> Forall P r.
Proof.
  intros HP. induction l as [|x l IH]; intros r H; cbn [omapM] in H; [injection H as <-; constructor|]. destruct (f x) as [y|] eqn:E; [|discriminate]. cbn [obind] in H.
  destruct (omapM f l) as [r'|]; [|discriminate]. cbn [obind] in H. injection H as <-. constructor; [exact (HP _ _ E)|apply IH; reflexivity].
Qed.
Lemma concat_firstn {A} w : forall t (ll : list (list A)), Forall (fun l => length l = w) ll -> firstn (t * w) (concat ll) = concat (firstn t ll).
Proof.
  induction t as [|t IH]; intros ll F; [reflexivity|]. destruct ll as [|l ll]; [rewrite firstn_nil; reflexivity|]. inversion F as [|? ? L F']; subst. cbn [firstn concat Nat.mul].
  rewrite firstn_app. rewrite firstn_all2 by lia. f_equal. replace (length l + t * length l - length l) with (t * length l) by lia. apply IH. exact F'.
Qed.
Lemma concat_length {A} w (ll : list (list A)) : Forall (fun l => length l = w) ll -> length (concat ll) = length ll * w.
Proof. induction 1 as [|l ll L F IH]; [reflexivity|]. cbn. rewrite app_length, IH, L. reflexivity. Qed.
Lemma chunks_firstn {A} w t n (l : list A) : 0 < w -> t <= n -> length l = n * w -> firstn t (chunks w l) = chunks w (firstn (t * w) l).
Proof.
  intros Hw Ht L. assert (Hl : t * w <= n * w) by (apply Nat.mul_le_mono_r; exact Ht).
  rewrite <- (firstn_skipn (t * w) l) at 1. rewrite (chunks_app_mult w t Hw) by (rewrite firstn_length; lia).
  assert (C : length (chunks w (firstn (t * w) l)) = t) by (apply chunks_count; [exact Hw|rewrite firstn_length; lia]).
  rewrite firstn_app, C, Nat.sub_diag, firstn_all2 by lia. cbn [firstn]. apply app_nil_r.
Qed.
Lemma chunks_all {A} w n (l : list A) : 0 < w -> length l = n * w -> Forall (fun c => length c = w) (chunks w l) /\ length (chunks w l) = n.
Proof.
  intros Hw L. destruct (chunks_nth w n l Hw L) as [C N]. split; [|exact C]. apply Forall_forall. intros c Hc. destruct (In_nth_error _ _ Hc) as (i & Hi).
  assert (i < n) by (rewrite <- C; apply nth_error_Some; congruence). rewrite N in Hi by assumption. injection Hi as <-. apply (chunk_len w n); assumption.
Qed.

Lemma mat_len m w x : mat m w x -> length (dat x) = m * w.
Proof. intros [S W]. exact (wf2 x m w W S). Qed.
Lemma ln_out_len c g b ch d w : length ch = w -> length g = w -> length b = w -> length (ln_out c g b ch d) = w.
Proof. intros A B C. unfold ln_out. rewrite map_length, !combine_length. lia. Qed.
Definition ln_f (l : ln_layer) (ch : list Z) : list Z := ln_out (ll_ctx l) (ll_gamma l) (ll_beta l) ch (snd (fst (ln_row (ll_lut l) (ll_ctx l) ch))).
Lemma ln_eval_rows w l x y m : 0 < w -> ln_ok w l -> mat m w x -> ln_eval l x = Some y -> y = mkTen [m; w] (concat (map (ln_f l) (chunks w (dat x)))) /\ mat m w y.
Proof.
  intros Hw [Lg Lb] [S W] H. unfold ln_eval in H. rewrite S in H. cbn in H. unfold ln_evaluate in H. destruct w as [|w0]; [lia|]. set (w := Datatypes.S w0) in *. cbn [obind fst] in H.
  set (cs := chunks w (dat x)) in *.
  assert (E : concat (map (fun '(ch, r) => ln_out (ll_ctx l) (ll_gamma l) (ll_beta l) ch (snd (fst r))) (combine cs (map (ln_row (ll_lut l) (ll_ctx l)) cs))) = concat (map (ln_f l) cs)).
  { f_equal. clear H. clearbody cs. induction cs as [|c cs IH]; [reflexivity|]. cbn. f_equal. exact IH. }
  rewrite E in H. destruct (chunks_all w m (dat x) ltac:(lia) (wf2 x m w W S)) as [F C].
  assert (L : length (concat (map (ln_f l) cs)) = m * w).
  { rewrite (concat_length w); [rewrite map_length; unfold cs; rewrite C; reflexivity|]. apply Forall_map. refine (Forall_impl _ _ F). intros ch Hc. apply ln_out_len; assumption. }
  unfold tensor_new in H. destruct (_ =? _) in H; [|discriminate]. injection H as <-. split; [reflexivity|]. split; [reflexivity|]. unfold wft. cbn [sh dat fold_right]. rewrite L. lia.
Qed.
Lemma tscale_mat m w c x : mat m w x -> mat m w (tscale c x).
Proof. intros [S W]. split; [exact S|]. unfold wft, tscale in *. cbn [sh dat]. rewrite map_length. exact W. Qed.

Section Causal.
Variables t n n' : nat.
Hypotheses (Ht : 0 < t) (Hn : t <= n) (Hn' : t <= n').


Lemma agree_entry w x x' : mat n w x -> mat n' w x' -> agree t n n' w x x' <-> forall i j, i < t -> j < w -> entry 0%Z x [i; j] = entry 0%Z x' [i; j].
Proof.
  intros M M'. pose proof (mat_len _ _ _ M) as L. pose proof (mat_len _ _ _ M') as L'. assert (t * w <= n * w /\ t * w <= n' * w) as [B1 B2] by (split; apply Nat.mul_le_mono_r; assumption).
  destruct M as [S W], M' as [S' W']. split.
  - intros (_ & _ & E) i j Hi Hj. unfold entry. rewrite S, S', !flat2. assert (i * w + j < t * w) by (apply (Nat.lt_le_trans _ (Datatypes.S i * w)); [cbn; lia|apply Nat.mul_le_mono_r; lia]).
    rewrite <- (nth_firstn_lt (t * w) _ (dat x)) by assumption. rewrite E. apply nth_firstn_lt. assumption.
  - intros H. split; [split; assumption|]. split; [split; assumption|]. apply (nth_ext _ _ 0%Z 0%Z); [rewrite !firstn_length; lia|]. rewrite firstn_length. intros k Hk.
    rewrite !nth_firstn_lt by lia. destruct (Nat.eq_dec w 0) as [->|Hw]; [lia|]. assert (Hk' : k < t * w) by lia.
    specialize (H (k / w) (k mod w)). unfold entry in H. rewrite S, S', !flat2 in H. replace (k / w * w + k mod w) with k in H by (rewrite Nat.mul_comm; apply Nat.div_mod; assumption).
    apply H; [apply Nat.div_lt_upper_bound; lia|apply Nat.mod_upper_bound; assumption].
Qed.

Lemma emap_agree w f x x' y y' : agree t n n' w x x' -> emap f x = Some y -> emap f x' = Some y' -> agree t n n' w y y'.
Proof.
  intros ((S & W) & (S' & W') & E) H H'. unfold emap in *. destruct (omapM f (dat x)) as [d|] eqn:D; [|discriminate]. destruct (omapM f (dat x')) as [d'|] eqn:D'; [|discriminate].
  cbn [obind] in *. injection H as <-. injection H' as <-. unfold agree, mat, wft in *. cbn [sh dat]. rewrite (omapM_length _ _ _ D), (omapM_length _ _ _ D').
  split; [split; assumption|]. split; [split; assumption|].
  pose proof (omapM_firstn f (t * w) _ _ D) as A. pose proof (omapM_firstn f (t * w) _ _ D') as A'. rewrite E in A. congruence.
Qed.

Lemma lin_agree a b w bias x x' y y' : 0 < a -> 0 < b -> mat a b w -> match bias with Some o => sh o = [b] /\ wft o | None => True end -> agree t n n' a x x' ->
  mm_eval w bias x = Some y -> mm_eval w bias x' = Some y' -> agree t n n' b y y'.
Proof.
  intros Ha Hb [Sw Ww] Hbias G H H'. pose proof G as ((S & W) & (S' & W') & _).
  destruct (matmul_ok 0%Z Z.add Z.mul x w n a b W S Ww Sw) as (u & Eu & Su & Wu & Hu). destruct (matmul_ok 0%Z Z.add Z.mul x' w n' a b W' S' Ww Sw) as (u' & Eu' & Su' & Wu' & Hu').
  assert (Gu : agree t n n' b u u').
  { apply agree_entry; [split; assumption..|]. intros i j Hi Hj. rewrite Hu, Hu' by lia. apply sumto_ext. intros k Hk. f_equal. apply (proj1 (agree_entry a x x' (conj S W) (conj S' W')) G); assumption. }
  unfold mm_eval, matmul_op, mm_constant, mm_product in H, H'. cbn [mm_left mm_right mm_bias mm_transpose maybe_transpose nth_error obind] in H, H'.
  unfold nrows_2d, ncols_2d in H, H'. rewrite Sw in H, H'. rewrite S in H. rewrite S' in H'. destruct (Nat.eqb_spec a 0) as [C|_]; [lia|]. cbn [obind] in H, H'. rewrite Nat.eqb_refl in H, H'.
  rewrite Eu in H. rewrite Eu' in H'. cbn [obind] in H, H'. destruct bias as [o|]; [|injection H as <-; injection H' as <-; exact Gu].
  destruct Hbias as [So Wo]. rewrite So in H, H'. rewrite Su in H. rewrite Su' in H'. rewrite Nat.eqb_refl in H, H'.
  destruct (add_dim2_ok 0%Z Z.add u o n b Wu Wo Su So Hb) as (v & Ev & Sv & Wv & Hv). destruct (add_dim2_ok 0%Z Z.add u' o n' b Wu' Wo Su' So Hb) as (v' & Ev' & Sv' & Wv' & Hv').
  rewrite Ev in H. rewrite Ev' in H'. injection H as <-. injection H' as <-. apply agree_entry; [split; assumption..|]. intros i j Hi Hj. rewrite Hv, Hv' by lia. f_equal.
  apply (proj1 (agree_entry b u u' (conj Su Wu) (conj Su' Wu')) Gu); assumption.
Qed.

Lemma qkv_agree a b w bias x x' y y' : 0 < b -> lin_ok a b w bias -> agree t n n' a x x' ->
  qkv_eval 0%Z Z.add Z.mul w bias x = Some y -> qkv_eval 0%Z Z.add Z.mul w bias x' = Some y' -> agree t n n' b y y'.
Proof.
  intros Hb ([Sw Ww] & So & Wo) G H H'. pose proof G as ((S & W) & (S' & W') & _).
  destruct (matmul_ok 0%Z Z.add Z.mul x w n a b W S Ww Sw) as (u & Eu & Su & Wu & Hu). destruct (matmul_ok 0%Z Z.add Z.mul x' w n' a b W' S' Ww Sw) as (u' & Eu' & Su' & Wu' & Hu').
  unfold qkv_eval in H, H'. rewrite Eu in H. rewrite Eu' in H'. cbn [obind] in H, H'.
  destruct (add_dim2_ok 0%Z Z.add u bias n b Wu Wo Su So Hb) as (v & Ev & Sv & Wv & Hv). destruct (add_dim2_ok 0%Z Z.add u' bias n' b Wu' Wo Su' So Hb) as (v' & Ev' & Sv' & Wv' & Hv').
  rewrite Ev in H. rewrite Ev' in H'. injection H as <-. injection H' as <-. apply agree_entry; [split; assumption..|]. intros i j Hi Hj. rewrite Hv, Hv' by lia. f_equal.
  rewrite Hu, Hu' by lia. apply sumto_ext. intros k Hk. f_equal. apply (proj1 (agree_entry a x x' (conj S W) (conj S' W')) G); assumption.
Qed.

Lemma ln_agree w l x x' y y' : 0 < w -> ln_ok w l -> agree t n n' w x x' -> ln_eval l x = Some y -> ln_eval l x' = Some y' -> agree t n n' w y y'.
Proof.
  intros Hw O (M & M' & E) H H'. destruct (ln_eval_rows w l x y n Hw O M H) as (Ey & My). destruct (ln_eval_rows w l x' y' n' Hw O M' H') as (Ey' & My').
  split; [exact My|]. split; [exact My'|]. rewrite Ey, Ey'. cbn [dat]. destruct O as [Lg Lb].
  destruct (chunks_all w n (dat x) Hw (mat_len _ _ _ M)) as [F C]. destruct (chunks_all w n' (dat x') Hw (mat_len _ _ _ M')) as [F' C'].
  rewrite !concat_firstn; [|apply Forall_map; refine (Forall_impl _ _ F'); intros ch Hc; apply ln_out_len; assumption|apply Forall_map; refine (Forall_impl _ _ F); intros ch Hc; apply ln_out_len; assumption].
  rewrite !firstn_map, (chunks_firstn w t n), (chunks_firstn w t n'), E by (try apply mat_len; assumption). reflexivity.
Qed.

Lemma add_agree w c x x' d d' y y' : agree t n n' w x x' -> agree t n n' w d d' -> add_evaluate c None [x; d] = Some y -> add_evaluate c None [x'; d'] = Some y' -> agree t n n' w y y'.
Proof.
  intros (Mx & Mx' & Ex) (Md & Md' & Ed) H H'. unfold add_evaluate in H, H'. cbn [nth_error length Nat.eqb obind] in H, H'.
  pose proof (tscale_mat _ _ (ad_left c) _ Mx) as [S1 W1]. pose proof (tscale_mat _ _ (ad_right c) _ Md) as [S2 W2].
  pose proof (tscale_mat _ _ (ad_left c) _ Mx') as [S1' W1']. pose proof (tscale_mat _ _ (ad_right c) _ Md') as [S2' W2'].
  destruct (tadd_ok 0%Z Z.add _ _ W1 W2) as (u & Eu & Su & Wu & Hu); [rewrite S1, S2; reflexivity|]. destruct (tadd_ok 0%Z Z.add _ _ W1' W2') as (u' & Eu' & Su' & Wu' & Hu'); [rewrite S1', S2'; reflexivity|].
  rewrite Eu in H. rewrite Eu' in H'. injection H as <-. injection H' as <-. rewrite S1 in Su. rewrite S1' in Su'.
  split; [split; assumption|]. split; [split; assumption|]. assert (t * w <= n * w /\ t * w <= n' * w) as [B1 B2] by (split; apply Nat.mul_le_mono_r; assumption).
  pose proof (wf2 u _ _ Wu Su) as L. pose proof (wf2 u' _ _ Wu' Su') as L'.
  apply (nth_ext _ _ 0%Z 0%Z); [rewrite !firstn_length; lia|]. rewrite firstn_length. intros k Hk. rewrite !nth_firstn_lt by lia.
  rewrite Hu by (rewrite S1; cbn; lia). rewrite Hu' by (rewrite S1'; cbn; lia). cbn [tscale dat].
  rewrite !(map_nth (fun z => (z * _)%Z) _ 0%Z).
  rewrite <- (nth_firstn_lt (t * w) k (dat x)), <- (nth_firstn_lt (t * w) k (dat d)), Ex, Ed, !nth_firstn_lt by lia. reflexivity.
Qed.

Lemma pos_agree w ctx c pos x x' y y' : mat ctx w pos -> agree t n n' w x x' -> pos_evaluate c pos x = Some y -> pos_evaluate c pos x' = Some y' -> agree t n n' w y y'.
Proof.
  intros [Sp Wp] G H H'. pose proof G as ((S & W) & (S' & W') & _). unfold pos_evaluate in H, H'. rewrite S in H. rewrite S' in H'. unfold slice_2d in H, H'. rewrite Sp in H, H'.
  unfold slice in H, H'. cbn [Nat.mul Nat.leb andb] in H, H'.
  destruct (n * w <=? length (dat pos)) eqn:B; [|discriminate]. destruct (n' * w <=? length (dat pos)) eqn:B'; [|discriminate]. apply Nat.leb_le in B, B'.
  cbn [obind csub Nat.leb skipn] in H, H'. rewrite !Nat.sub_0_r in H, H'.
  refine (add_agree w c x x' _ _ y y' G _ H H'). split; [|split].
  - split; [reflexivity|]. unfold wft. cbn [sh dat fold_right]. rewrite firstn_length. lia.
  - split; [reflexivity|]. unfold wft. cbn [sh dat fold_right]. rewrite firstn_length. lia.
  - cbn [dat]. assert (t * w <= n * w /\ t * w <= n' * w) as [B1 B2] by (split; apply Nat.mul_le_mono_r; assumption). rewrite !firstn_firstn, !Nat.min_l by assumption. reflexivity.
Qed.

Lemma mha_agree expf lse c tv nh hd q k v q' k' v' r r' : 0 < nh -> sm_tv c = Some tv -> mask_fits c tv ->
  agree t n n' (nh * hd) q q' -> agree t n n' (nh * hd) k k' -> agree t n n' (nh * hd) v v' ->
  mha_evaluate expf lse c nh hd q k v = Some r -> mha_evaluate expf lse c nh hd q' k' v' = Some r' -> agree t n n' (nh * hd) (snd r) (snd r').
Proof.
  intros Hh Htv Hf ((Sq & Wq) & (Sq' & Wq') & Eq) ((Sk & Wk) & (Sk' & Wk') & Ek) ((Sv & Wv) & (Sv' & Wv') & Ev) H H'.
  destruct r as ((((s, e), o), y), out). destruct r' as ((((s', e'), o'), y'), out'). cbn [snd].
  destruct (mha_causal expf lse c tv n nh hd q k v ltac:(lia) Hh Htv Hf Wq Wk Wv Sq Sk Sv _ _ _ _ _ H) as (S1 & W1 & _).
  destruct (mha_causal expf lse c tv n' nh hd q' k' v' ltac:(lia) Hh Htv Hf Wq' Wk' Wv' Sq' Sk' Sv' _ _ _ _ _ H') as (S2 & W2 & _).
  split; [split; assumption|]. split; [split; assumption|].
  refine (mha_prefix expf lse c tv n n' nh hd t q k v q' k' v' Hh Htv Hf Ht Hn Hn' Wq Wk Wv Sq Sk Sv Wq' Wk' Wv' Sq' Sk' Sv' _ _ _ _ _ _ _ _ _ _ _ H H').
  intros a b [A|[A|[A|[]]]]; injection A as <- <-; assumption.
Qed.
End Causal.
