(** Proofs about the decoder ([M_Driver]), part 2: the whole decoder is causal, so one trace contains the whole text. *)
From Coq Require Import List Arith Lia Bool ZArith.
From Verif Require Import ListAux FieldDef M_Mle M_Tensor P_Tensor P_Tensor2 P_Tensor3 M_Pad P_Pad M_Requant M_Transformer M_LayerNorm M_AddPos M_Softmax M_Mha P_Mha2 M_Driver P_Driver P_Driver2.
Import ListNotations.

Ltac step H H' := match type of H with obind ?e _ = _ => let x := fresh "x" in let E := fresh "E" in destruct e as [x|] eqn:E; [|discriminate H]; cbn [obind] in H end;
                  match type of H' with obind ?e _ = _ => let x := fresh "x'" in let E := fresh "E'" in destruct e as [x|] eqn:E; [|discriminate H']; cbn [obind] in H' end.

Section Causal.
Variables t n n' : nat.
Hypotheses (Ht : 0 < t) (Hn : t <= n) (Hn' : t <= n').
Notation agree := (agree t n n').

Lemma lin_ok_agree a b w bias x x' y y' : 0 < a -> 0 < b -> lin_ok a b w bias -> agree a x x' ->
  mm_eval w (Some bias) x = Some y -> mm_eval w (Some bias) x' = Some y' -> agree b y y'.
Proof. intros Ha Hb (M & S & W) G. apply (lin_agree t n n' Ht Hn Hn' a b w (Some bias) x x' y y' Ha Hb M (conj S W) G). Qed.

Lemma ffn_agree nh hd dm dff b x x' y y' : 0 < dm -> 0 < dff -> block_ok nh hd dm dff b -> agree dm x x' -> ffn_eval b x = Some y -> ffn_eval b x' = Some y' -> agree dm y y'.
Proof.
  intros Hd Hf (_ & O2 & _ & _ & _ & _ & _ & Oup & Odown) G H H'. unfold ffn_eval in H, H'.
  step H H'. pose proof (ln_agree t n n' Hn Hn' dm _ _ _ _ _ Hd O2 G E E') as G1. clear E E'.
  step H H'. pose proof (emap_agree t n n' dm _ _ _ _ _ G1 E E') as G2. clear E E'.
  step H H'. pose proof (lin_ok_agree dm dff _ _ _ _ _ _ Hd Hf Oup G2 E E') as G3. clear E E'.
  step H H'. pose proof (emap_agree t n n' dff _ _ _ _ _ G3 E E') as G4. clear E E'.
  step H H'. pose proof (emap_agree t n n' dff _ _ _ _ _ G4 E E') as G5. clear E E'.
  step H H'. pose proof (emap_agree t n n' dff _ _ _ _ _ G5 E E') as G6. clear E E'.
  step H H'. pose proof (lin_ok_agree dff dm _ _ _ _ _ _ Hf Hd Odown G6 E E') as G7. clear E E'.
  step H H'. pose proof (emap_agree t n n' dm _ _ _ _ _ G7 E E') as G8. clear E E'.
  step H H'. pose proof (add_agree t n n' Ht Hn Hn' dm _ _ _ _ _ _ _ G G8 E E') as G9. clear E E'.
  exact (emap_agree t n n' dm _ _ _ _ _ G9 H H').
Qed.

Lemma block_agree nh hd dm dff b x x' y y' : 0 < nh -> 0 < hd -> 0 < dm -> 0 < dff -> block_ok nh hd dm dff b -> agree dm x x' ->
  block_eval nh hd b x = Some y -> block_eval nh hd b x' = Some y' -> agree dm y y'.
Proof.
  intros Hh Hhd Hd Hf O G H H'. pose proof O as (O1 & _ & Oq & Ok & Ov & (tv & Htv & Hfit) & Oo & _ & _). unfold block_eval in H, H'. assert (Hp : 0 < nh * hd) by (apply Nat.mul_pos_pos; assumption).
  step H H'. pose proof (ln_agree t n n' Hn Hn' dm _ _ _ _ _ Hd O1 G E E') as G1. clear E E'.
  step H H'. pose proof (emap_agree t n n' dm _ _ _ _ _ G1 E E') as G2. clear E E'.
  step H H'. pose proof (qkv_agree t n n' Ht Hn Hn' dm (nh * hd) _ _ _ _ _ _ Hp Oq G2 E E') as Gq. clear E E'.
  step H H'. pose proof (emap_agree t n n' (nh * hd) _ _ _ _ _ Gq E E') as Gq'. clear E E'.
  step H H'. pose proof (qkv_agree t n n' Ht Hn Hn' dm (nh * hd) _ _ _ _ _ _ Hp Ok G2 E E') as Gk. clear E E'.
  step H H'. pose proof (emap_agree t n n' (nh * hd) _ _ _ _ _ Gk E E') as Gk'. clear E E'.
  step H H'. pose proof (qkv_agree t n n' Ht Hn Hn' dm (nh * hd) _ _ _ _ _ _ Hp Ov G2 E E') as Gv. clear E E'.
  step H H'. pose proof (emap_agree t n n' (nh * hd) _ _ _ _ _ Gv E E') as Gv'. clear E E'.
  step H H'. pose proof (mha_agree t n n' Ht Hn Hn' _ _ _ tv nh hd _ _ _ _ _ _ _ _ Hh Htv Hfit Gq' Gk' Gv' E E') as Gm. clear E E'.
  step H H'. pose proof (emap_agree t n n' (nh * hd) _ _ _ _ _ Gm E E') as Ga. clear E E'.
  step H H'. pose proof (lin_ok_agree (nh * hd) dm _ _ _ _ _ _ Hp Hd Oo Ga E E') as Go. clear E E'.
  step H H'. pose proof (emap_agree t n n' dm _ _ _ _ _ Go E E') as Go'. clear E E'.
  step H H'. pose proof (add_agree t n n' Ht Hn Hn' dm _ _ _ _ _ _ _ G Go' E E') as Gy. clear E E'.
  step H H'. pose proof (emap_agree t n n' dm _ _ _ _ _ Gy E E') as Gy'. clear E E'.
  exact (ffn_agree nh hd dm dff b _ _ _ _ Hd Hf O Gy' H H').
Qed.

Lemma blocks_agree nh hd dm dff : 0 < nh -> 0 < hd -> 0 < dm -> 0 < dff -> forall bs x x' y y', Forall (block_ok nh hd dm dff) bs -> agree dm x x' ->
  ofold (fun y b => block_eval nh hd b y) bs x = Some y -> ofold (fun y b => block_eval nh hd b y) bs x' = Some y' -> agree dm y y'.
Proof.
  intros Hh Hhd Hd Hf. induction bs as [|b bs IH]; intros x x' y y' F G H H'; cbn [ofold] in H, H'; [injection H as <-; injection H' as <-; exact G|].
  inversion F as [|? ? O F']; subst. step H H'. refine (IH _ _ _ _ F' _ H H'). exact (block_agree nh hd dm dff b _ _ _ _ Hh Hhd Hd Hf O G E E').
Qed.

(** Greedy choice, row by row. *)
Lemma logits_agree w x x' r r' : 0 < w -> agree w x x' -> logits_eval Z.ltb (- 2 ^ 63)%Z [x] = Some r -> logits_eval Z.ltb (- 2 ^ 63)%Z [x'] = Some r' ->
  exists i v i' v', r = [(i, v)] /\ r' = [(i', v')] /\ sh i = [n; 1] /\ sh i' = [n'; 1] /\ length (dat i) = n /\ length (dat i') = n' /\ firstn t (dat i) = firstn t (dat i').
Proof.
  intros Hw ((S & W) & (S' & W') & E) H H'. unfold logits_eval in H, H'. cbn [forallb] in H, H'. rewrite S in H. rewrite S' in H'. cbn [length Nat.leb andb omapM] in H, H'.
  assert (D : slice_last_dim x = Some (chunks w (dat x))).
  { unfold slice_last_dim, slice_on_dim. rewrite S. cbn. rewrite Nat.mul_1_r. unfold ochunks. destruct (Nat.eqb_spec w 0); [lia|reflexivity]. }
  assert (D' : slice_last_dim x' = Some (chunks w (dat x'))).
  { unfold slice_last_dim, slice_on_dim. rewrite S'. cbn. rewrite Nat.mul_1_r. unfold ochunks. destruct (Nat.eqb_spec w 0); [lia|reflexivity]. }
  rewrite D in H. rewrite D' in H'. cbn [obind] in H, H'.
  destruct (omapM (max_in_slice Z.ltb (- 2 ^ 63)%Z) (chunks w (dat x))) as [ms|] eqn:M; [|discriminate]. destruct (omapM (max_in_slice Z.ltb (- 2 ^ 63)%Z) (chunks w (dat x'))) as [ms'|] eqn:M'; [|discriminate].
  cbn [obind] in H, H'. injection H as <-. injection H' as <-. do 4 eexists. split; [reflexivity|]. split; [reflexivity|]. cbn [sh dat]. rewrite !map_length.
  destruct (chunks_all w n (dat x) Hw (wf2 x n w W S)) as [_ C]. destruct (chunks_all w n' (dat x') Hw (wf2 x' n' w W' S')) as [_ C'].
  rewrite (omapM_length _ _ _ M), (omapM_length _ _ _ M'), C, C'. split; [reflexivity|]. split; [reflexivity|]. split; [reflexivity|]. split; [reflexivity|].
  rewrite !firstn_map. f_equal. pose proof (omapM_firstn _ t _ _ M) as A. pose proof (omapM_firstn _ t _ _ M') as A'.
  rewrite (chunks_firstn w t n) in A by (try apply wf2; assumption). rewrite (chunks_firstn w t n') in A' by (try apply wf2; assumption). rewrite E in A. congruence.
Qed.

Lemma emb_agree vocab w emb a a' y y' : mat vocab w emb -> length a = n -> length a' = n' -> firstn t a = firstn t a' ->
  emb_eval emb (vec a) = Some y -> emb_eval emb (vec a') = Some y' -> agree w y y'.
Proof.
  intros [S W] La La' E H H'. unfold emb_eval, vec in H, H'. cbn [sh dat] in H, H'. rewrite S in H, H'.
  set (f := fun v : Z => _) in H, H'.
  assert (Hf : forall v r, f v = Some r -> length r = w).
  { intros v r Hv. unfold f in Hv. destruct (Z.ltb _ (Z.of_nat vocab)); [|discriminate]. unfold slice in Hv. destruct (andb _ _) eqn:B; [|discriminate]. injection Hv as <-.
    apply andb_true_iff in B. destruct B as [B1 B2]. apply Nat.leb_le in B1, B2. rewrite firstn_length, skipn_length. set (k := Z.to_nat _ * w) in *. clearbody k. lia. }
  destruct (omapM f a) as [rows|] eqn:R; [|discriminate]. destruct (omapM f a') as [rows'|] eqn:R'; [|discriminate]. cbn [obind] in H, H'. injection H as <-. injection H' as <-.
  pose proof (omapM_all_r f _ Hf _ _ R) as F. pose proof (omapM_all_r f _ Hf _ _ R') as F'. pose proof (omapM_length _ _ _ R) as L. pose proof (omapM_length _ _ _ R') as L'.
  split; [|split].
  - split; [cbn [sh]; rewrite La; reflexivity|]. unfold wft. cbn [sh dat fold_right]. rewrite (concat_length w _ F). lia.
  - split; [cbn [sh]; rewrite La'; reflexivity|]. unfold wft. cbn [sh dat fold_right]. rewrite (concat_length w _ F'). lia.
  - cbn [dat]. rewrite !(concat_firstn w) by assumption. f_equal. pose proof (omapM_firstn _ t _ _ R) as A. pose proof (omapM_firstn _ t _ _ R') as A'. rewrite E in A. congruence.
Qed.
End Causal.

(** Two runs of the decoder on texts that begin alike. *)
Lemma decoder_agree dm dff vocab vo d t a a' y y' : decoder_ok dm dff vocab vo d -> 0 < t -> t <= length a -> t <= length a' -> firstn t a = firstn t a' ->
  decoder_eval d (vec a) = Some y -> decoder_eval d (vec a') = Some y' ->
  sh y = [length a; 1] /\ sh y' = [length a'; 1] /\ length (dat y) = length a /\ length (dat y') = length a' /\ firstn t (dat y) = firstn t (dat y').
Proof.
  intros (Hd & Hf & Hh & Hhd & Hv & Oe & (ctx & Op) & Ob & On & Oj & Ojb) Ht Hn Hn' E0 H H'. unfold decoder_eval in H, H'.
  step H H'. pose proof (emb_agree t (length a) (length a') Ht Hn Hn' vocab dm _ a a' _ _ Oe eq_refl eq_refl E0 E E') as G1. clear E E'.
  step H H'. pose proof (emap_agree t _ _ dm _ _ _ _ _ G1 E E') as G2. clear E E'.
  step H H'. pose proof (pos_agree t _ _ Ht Hn Hn' dm ctx _ _ _ _ _ _ Op G2 E E') as G3. clear E E'.
  step H H'. pose proof (emap_agree t _ _ dm _ _ _ _ _ G3 E E') as G4. clear E E'.
  step H H'. pose proof (blocks_agree t _ _ Ht Hn Hn' (de_nh d) (de_hd d) dm dff Hh Hhd Hd Hf _ _ _ _ _ Ob G4 E E') as G5. clear E E'.
  step H H'. pose proof (ln_agree t _ _ Hn Hn' dm _ _ _ _ _ Hd On G5 E E') as G6. clear E E'.
  step H H'. pose proof (emap_agree t _ _ dm _ _ _ _ _ G6 E E') as G7. clear E E'.
  step H H'. pose proof (lin_agree t _ _ Ht Hn Hn' dm vo _ _ _ _ _ _ Hd Hv Oj Ojb G7 E E') as G8. clear E E'.
  step H H'. pose proof (emap_agree t _ _ vo _ _ _ _ _ G8 E E') as G9. clear E E'.
  step H H'. destruct (logits_agree t _ _ Ht Hn Hn' vo _ _ _ _ Hv G9 E E') as (i & v & i' & v' & -> & -> & Si & Si' & Li & Li' & Ei).
  injection H as <-. injection H' as <-. cbn [sh dat]. rewrite !map_length. split; [exact Si|]. split; [exact Si'|]. split; [exact Li|]. split; [exact Li'|]. rewrite !firstn_map, Ei. reflexivity.
Qed.

Lemma decoder_causal dm dff vocab vo d : decoder_ok dm dff vocab vo d -> causal_model (decoder_run d).
Proof.
  intros O a b oa ob Hne H H'. unfold decoder_run in H, H'. destruct (decoder_eval d (vec a)) as [y|] eqn:E; [|discriminate]. destruct (decoder_eval d (vec (a ++ b))) as [y'|] eqn:E'; [|discriminate].
  cbn [obind] in H, H'. injection H as <-. injection H' as <-. exists [], [], y, y'. split; [reflexivity|]. split; [reflexivity|].
  assert (Ht : 0 < length a) by (destruct a; [contradiction|cbn; lia]).
  destruct (decoder_agree dm dff vocab vo d (length a) a (a ++ b) y y' O Ht (le_n _) ltac:(rewrite app_length; lia)) as (_ & _ & L & L' & F); [|assumption..|].
  - rewrite firstn_app, firstn_all, Nat.sub_diag. cbn. rewrite app_nil_r. reflexivity.
  - split; [exact L|]. split; [exact L'|]. rewrite firstn_all2 in F by lia. exact F.
Qed.

(** Generation with the decoder: the last trace holds the whole text. *)
Lemma decoder_whole dm dff vocab vo d context_length eos max_context input tr obs : decoder_ok dm dff vocab vo d -> input <> [] ->
  run_inference Z.eqb Z.of_nat (decoder_run d) context_length eos max_context input = Some (tr, obs) -> length input < window context_length max_context ->
  exists gen lastt out, greedy Z.eqb (decoder_run d) eos (map Z.of_nat input) gen /\ tr_input tr = [vec (map Z.of_nat input ++ gen)] /\
    tr_output tr = [out] /\ sh out = [length input + length gen; 1] /\ skipn (length input - 1) (dat out) = gen ++ [lastt] /\
    (lastt = eos \/ S (length input + length gen) = window context_length max_context).
Proof.
  intros O Hne H Hw. destruct (inference_whole Z.eqb Z.of_nat (decoder_run d) context_length eos max_context input tr obs (decoder_causal _ _ _ _ _ O) Hne H Hw) as (gen & lastt & rest & out & Hg & Hi & Ho & Hs & Hend).
  destruct (inference_greedy Z.eqb Z.of_nat (decoder_run d) context_length eos max_context input tr obs H Hw) as (gen2 & last2 & _ & (Hi2 & Hr) & _).
  rewrite <- Hi2, Hi in *. assert (Eg : decoder_run d [vec (map Z.of_nat input ++ gen)] = Some (tr_output tr)) by (rewrite <- Hr; f_equal; congruence).
  unfold decoder_run in Eg. destruct (decoder_eval d (vec (map Z.of_nat input ++ gen))) as [y|] eqn:E; [|discriminate]. cbn [obind] in Eg. injection Eg as Eg. rewrite Ho in Eg.
  destruct rest as [|z [|z' rest]]; try discriminate Eg. injection Eg as ->. exists gen, lastt, out. split; [exact Hg|]. split; [reflexivity|]. split; [exact Ho|].
  split; [|split; [exact Hs|destruct Hend as [A|A]; [left; apply Z.eqb_eq; exact A|right; exact A]]].
  assert (L : length (map Z.of_nat input ++ gen) = length input + length gen) by (rewrite app_length, map_length; reflexivity).
  assert (0 < length input) by (destruct input; [contradiction|cbn; lia]).
  destruct (decoder_agree dm dff vocab vo d 1 _ _ _ _ O ltac:(lia) ltac:(rewrite L; lia) ltac:(rewrite L; lia) eq_refl E E) as (S1 & _). rewrite S1, L. reflexivity.
Qed.
