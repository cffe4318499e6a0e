(** Proofs about the embeddings layer. *)
From Coq Require Import List Arith Lia Bool ZArith Ring Field Permutation.
From Verif Require Import ListAux FieldDef PolyList MleMath M_Mle P_Mle P_Eq M_Interp M_Sumcheck P_ScVerify P_ScProve P_ScProve2 P_ScBatch P_ScFinal M_ScParallel
  P_ScParallel P_ScApi M_SamePoly M_LogUp M_Tensor P_Tensor P_Tensor2 P_Tensor3 M_Pad P_Pad P_Pad2 M_Layers P_Layers P_Layers2 P_Layers3 M_Transformer P_Transformer.
Import ListNotations.

Section P.
Context {K : field}.
Local Open Scope F_scope.
Add Field Kf_transf2 : (fth K).

(** Row [i] of [Y] is the row of the table [E] selected by the [i]-th token; the rows after the last token are zero. *)
Definition looked_up (nv ns ne : nat) (toks : list nat) (E Y : list K) : Prop :=
  length E = 2 ^ (nv + ne) /\ length Y = 2 ^ (ns + ne) /\
  forall i j, i < 2 ^ ns -> j < 2 ^ ne ->
    nth (i * 2 ^ ne + j) Y 0 = match nth_error toks i with Some t => nth (t * 2 ^ ne + j) E 0 | None => 0 end.

Lemma looked_up_matprod nv ns ne toks L E Y : (forall t, In t toks -> t < 2 ^ nv) ->
  is_onehot nv ns toks L -> looked_up nv ns ne toks E Y -> matprod false ns nv ne L E None Y.
Proof.
  intros Ht [LL HL] (LE & LY & HY). split; [auto|]. split; [auto|]. split; [exact I|]. split; [auto|]. intros i j Hi Hj.
  rewrite HY by auto. cbn [bias_at]. unfold rel.
  rewrite (sumn_ext (2 ^ nv) _ (fun v => match nth_error toks i with Some t => if Nat.eqb t v then nth (v * 2 ^ ne + j)%nat E 0 else 0 | None => 0 end)).
  2: { intros v Hv. rewrite HL by auto. destruct (nth_error toks i) as [t|]; [|ring]. destruct (Nat.eqb t v); ring. }
  destruct (nth_error toks i) as [t|] eqn:Et.
  - rewrite (FieldDef.sumn_single _ t).
    + rewrite Nat.eqb_refl. ring.
    + apply Ht. eapply nth_error_In. eauto.
    + intros v _ Hv. rewrite (proj2 (Nat.eqb_neq t v)) by auto. reflexivity.
  - rewrite sumn_0 by reflexivity. ring.
Qed.

Lemma emb_sound (T : @hist K -> K) vocab_size emb_size ns toks E Y last pf h c1 c2 h' L :
  char_gt K 2 -> 1 < vocab_size -> (forall t, In t toks -> t < npow2 vocab_size) ->
  looked_up (vars_of vocab_size) ns (vars_of emb_size) toks E Y ->
  is_onehot (vars_of vocab_size) ns toks L ->
  emb_verify T vocab_size emb_size last pf h = Some (c1, c2, h') ->
  claim_true L c1 -> claim_true E c2 ->
  claim_true Y last \/
  root_event T (vars_of vocab_size) 2
    (prodf [(fun pt => mle L (pt ++ skipn (vars_of emb_size) (cl_point last)));
            (fun pt => mle E (firstn (vars_of emb_size) (cl_point last) ++ pt))]) h (ep_sumcheck pf).
Proof.
  intros Hch Hv Ht HY HL Hver H1 H2. rewrite <- vars_of_pow in Ht.
  assert (Hp := looked_up_matprod _ _ _ _ _ _ _ Ht HL HY).
  assert (Hnv : 0 < vars_of vocab_size).
  { unfold vars_of, npow2. rewrite Nat.log2_pow2 by lia. apply Nat.log2_up_pos. auto. }
  unfold emb_verify in Hver. fold (vars_of vocab_size) in Hver. set (nv := vars_of vocab_size) in *.
  destruct (verify T (cl_eval last) (ep_sumcheck pf) nv 2 h) as [[[rs expected] h2]|] eqn:Ev; [|discriminate]. cbn [obind] in Hver.
  unfold emb_points, emb_split in Hver. fold (vars_of emb_size) in Hver. set (ne := vars_of emb_size) in *.
  unfold pt_upto, pt_from in Hver. destruct (Nat.leb_spec ne (length (cl_point last))) as [Hne|]; [|discriminate]. cbn [obind fst snd] in Hver.
  destruct (ep_claims pf) as [|e0 [|e1 more]]; try discriminate. cbn [nth_error obind] in Hver.
  destruct (e0 * e1 =? expected) eqn:Ee; [|discriminate]. 
  assert (c1 = mkClaim (rs ++ skipn ne (cl_point last)) e0) by congruence.
  assert (c2 = mkClaim (firstn ne (cl_point last) ++ rs) e1) by congruence. assert (h2 = h') by congruence. subst c1 c2 h2. clear Hver.
  apply (matmul_sound T (mkMctx nv (ns, ne) false false false false) ns nv ne L E None Y last (mkMp (ep_sumcheck pf) [e0; e1] None) h
           [mkClaim (rs ++ skipn ne (cl_point last)) e0; mkClaim (firstn ne (cl_point last) ++ rs) e1] [] h'); auto.
  - cbn [mc_bias]. split; [discriminate|congruence].
  - unfold matmul_verify, full_points, split_claim, pt_from, pt_upto.
    cbn [mc_out_vars mc_bias mc_nv mc_left_const mc_right_const mc_transposed mp_bias_eval mp_sumcheck mp_claims snd andb].
    destruct (Nat.leb_spec ne (length (cl_point last))); [|lia]. cbn [obind]. rewrite Ev. cbn [obind nth_error mm_claims].
    replace (virtual_claim [e0; e1]) with (e0 * e1) by (rewrite virtual_claim_fprod; cbn [fprod]; ring). rewrite Ee. reflexivity.
  - cbn [factors mc_left_const mc_right_const app]. constructor; [auto|]. constructor; [auto|constructor].
  - intros w [].
  - intros w b [=].
Qed.

(** Embeddings proof together with the check of the one-hot claim: the output is the looked up rows. *)
Lemma emb_end_to_end (T : @hist K -> K) (tok : K -> nat) vocab_size emb_size (input : ten K) d0 rest E Y last pf h c1 c2 h' :
  char_gt K 2 -> 1 < vocab_size -> sh input = d0 :: rest -> (forall x, In x (dat input) -> tok x < npow2 vocab_size) ->
  looked_up (vars_of vocab_size) (vars_of d0) (vars_of emb_size) (map tok (dat input)) E Y ->
  emb_verify T vocab_size emb_size last pf h = Some (c1, c2, h') ->
  emb_verify_input tok vocab_size input c1 = Some tt -> claim_true E c2 ->
  claim_true Y last \/
  root_event T (vars_of vocab_size) 2
    (prodf [(fun pt => mle (onehot (vars_of vocab_size) (vars_of d0) (map tok (dat input))) (pt ++ skipn (vars_of emb_size) (cl_point last)));
            (fun pt => mle E (firstn (vars_of emb_size) (cl_point last) ++ pt))]) h (ep_sumcheck pf).
Proof.
  intros Hch Hv Es Hx HY Hver Hin HE.
  apply (emb_sound T vocab_size emb_size (vars_of d0) (map tok (dat input)) E Y last pf h c1 c2 h'); auto.
  - intros t Ht. apply in_map_iff in Ht as (x & <- & Hin'). auto.
  - apply onehot_is.
  - apply (emb_input_iff tok vocab_size input c1 d0 rest); auto. apply onehot_is.
Qed.

(** *** Completeness *)
Lemma sumn_cut a b (f : nat -> K) : b <= a -> (forall i, b <= i < a -> f i = 0) -> sumn a f = sumn b f.
Proof.
  intros Hb H. replace a with (b + (a - b))%nat by lia. rewrite sumn_split, (sumn_0 (a - b)); [ring|]. intros i Hi. apply H. lia.
Qed.
Lemma reduce_ok (tokb : K -> option nat) (beta : list K) V : forall data toks a acc,
  map tokb data = map Some toks -> (forall t, In t toks -> t < V) -> a + length data <= length beta -> length acc = V ->
  exists R, ofold (fun acc '(i, x) => t <- tokb x ;; v <- nth_error acc t ;; b <- nth_error beta i ;; Some (upd t (v + b) acc))
              (combine (seq a (length data)) data) acc = Some R /\ length R = V /\
    forall v, v < V -> nth v R 0 = nth v acc 0 +
      sumn (length data) (fun i => match nth_error toks i with Some t => if Nat.eqb t v then nth (a + i)%nat beta 0 else 0 | None => 0 end).
Proof.
  induction data as [|x data IH]; intros toks a acc Hm Ht Hl La.
  - cbn [length seq combine ofold]. exists acc. split; [reflexivity|]. split; [auto|]. intros v _. cbn [sumn]. ring.
  - destruct toks as [|t toks]; [discriminate|]. cbn [map] in Hm. injection Hm as Hx Hm. cbn [length] in Hl.
    assert (Htv : t < V) by (apply Ht; left; reflexivity).
    cbn [length seq combine ofold]. rewrite Hx. cbn [obind].
    rewrite (nth_error_nth' acc 0) by lia. cbn [obind]. rewrite (nth_error_nth' beta 0) by lia. cbn [obind].
    destruct (IH toks (S a) (upd t (nth t acc 0 + nth a beta 0) acc)) as (R & ER & LR & HR); auto.
    { intros t' Hin. apply Ht. right. auto. }
    { lia. }
    { rewrite upd_length. auto. }
    exists R. split; [exact ER|]. split; [auto|]. intros v Hv. rewrite HR by auto. rewrite sumn_S_l. cbn [nth_error].
    rewrite Nat.add_0_r.
    rewrite (sumn_ext _ (fun i => match nth_error toks i with Some t => if Nat.eqb t v then nth (S a + i)%nat beta 0 else 0 | None => 0 end)
              (fun i => match nth_error toks i with Some t => if Nat.eqb t v then nth (a + S i)%nat beta 0 else 0 | None => 0 end)).
    2: { intros i _. replace (S a + i)%nat with (a + S i)%nat by lia. reflexivity. }
    destruct (Nat.eqb_spec t v) as [->|Hne].
    + rewrite nth_upd_eq by lia. ring.
    + rewrite nth_upd_neq by auto. ring.
Qed.

Lemma emb_complete (T : @hist K -> K) ncpus scs fs (tokb : K -> option nat) vocab_size emb_size ns toks (emb input : ten K) Y last h :
  0 < ncpus -> char_gt K 2 -> 1 < vocab_size ->
  sh emb = [npow2 vocab_size; npow2 emb_size] -> map tokb (dat input) = map Some toks -> (forall t, In t toks -> t < npow2 vocab_size) ->
  length toks <= 2 ^ ns ->
  looked_up (vars_of vocab_size) ns (vars_of emb_size) toks (dat emb) Y -> claim_true Y last ->
  (forall k, valid_order (length (dat emb)) (fs k)) ->
  (forall i, i < vars_of vocab_size -> valid_rsched (K := K) (prod_shape 2 (vars_of vocab_size)) i (scs i)) ->
  exists c1 c2 pf h', emb_prove T ncpus scs fs tokb vocab_size emb_size emb input last h = Some (c1, c2, pf, h') /\
    claim_true (onehot (vars_of vocab_size) ns toks) c1 /\ claim_true (dat emb) c2 /\
    ((forall r, In r (pf_point (ep_sumcheck pf)) -> not_node 2 r) -> emb_verify T vocab_size emb_size last pf h = Some (c1, c2, h')).
Proof.
  intros Hnc Hch Hv Se Hm Ht Hlen HY [Llast Elast] Vfs Hsc.
  assert (Hnv : 0 < vars_of vocab_size).
  { unfold vars_of, npow2. rewrite Nat.log2_pow2 by lia. apply Nat.log2_up_pos. auto. }
  assert (HL := onehot_is (K := K) (vars_of vocab_size) ns toks).
  assert (Hp : matprod false ns (vars_of vocab_size) (vars_of emb_size) (onehot (vars_of vocab_size) ns toks) (dat emb) None Y).
  { apply (looked_up_matprod _ _ _ toks); auto. rewrite vars_of_pow. auto. }
  assert (HY' := HY). destruct HY' as (LE & LY & _).
  unfold emb_prove, emb_split, emb_points, emb_verify, emb_points, emb_split. fold (vars_of emb_size) (vars_of vocab_size). rewrite <- !vars_of_pow in *.
  set (nv := vars_of vocab_size) in *. set (ne := vars_of emb_size) in *. set (L := onehot nv ns toks) in *.
  assert (Lp : length (cl_point last) = (ns + ne)%nat) by (apply (Nat.pow_inj_r 2); lia).
  unfold pt_upto, pt_from. destruct (Nat.leb_spec ne (length (cl_point last))) as [_|]; [|lia]. cbn [obind].
  set (rp := skipn ne (cl_point last)). set (cp := firstn ne (cl_point last)).
  assert (Epl : cl_point last = cp ++ rp) by (unfold cp, rp; rewrite firstn_skipn; reflexivity).
  assert (Lcp : length cp = ne) by (unfold cp; rewrite firstn_length; lia).
  assert (Lrp : length rp = ns) by (unfold rp; rewrite skipn_length; lia).
  assert (Ld : length (dat input) = length toks) by (rewrite <- (map_length tokb), Hm, map_length; reflexivity).
  destruct (reduce_ok tokb (compute_betas_eval rp) (2 ^ nv) (dat input) toks 0 (repeat 0 (2 ^ nv))) as (R & ER & LR & HR); auto.
  { rewrite compute_betas_spec, eq_table_length, Lrp. lia. }
  { apply repeat_length. }
  rewrite ER. cbn [obind]. rewrite (nrows_pow emb nv ne Se), (ncols_pow emb nv ne Se). cbn [obind]. rewrite !Nat.eqb_refl. cbn [andb].
  rewrite (to_mle_2d_ok (mkTen [1; 2 ^ nv]%nat R) 0 nv) by (auto; cbn [dat]; rewrite LR; f_equal; lia). cbn [obind].
  rewrite (to_mle_2d_ok emb nv ne) by auto. cbn [obind].
  rewrite fvipp_ext by (auto; lia). cbn [obind num_vars]. rewrite Lcp. replace (nv + ne - ne)%nat with nv by lia. rewrite Nat.eqb_refl. cbn [dat].
  change (0 + nv)%nat with nv.
  destruct (product_prove_ok T ncpus scs nv [R; low_table (nv + ne) (dat emb) cp] h) as (pf & h' & Epp & Hl & Hver); auto.
  { cbn [length]. lia. }
  { intros l [<-|[<-|[]]]; [auto|rewrite low_table_length, Lcp; f_equal; lia]. }
  cbn [map] in Epp. rewrite Epp. cbn [obind nth_error fst snd].
  assert (H1 : forall pt, length pt = nv -> mle R pt = mle L (pt ++ rp)).
  { intros pt Hpt. unfold mle. rewrite mlef_app, mlef_swap. apply mlef_ext. intros v Hv'. rewrite Hpt in Hv'.
    rewrite HR by auto. rewrite nth_repeat, Hpt. rewrite Ld.
    unfold mlef. rewrite Lrp. rewrite (sumn_cut (2 ^ ns) (length toks)) by (auto; intros i Hi; 
      replace (v + 2 ^ nv * i)%nat with (i * 2 ^ nv + v)%nat by lia; unfold L; rewrite (proj2 HL) by (auto; lia);
      rewrite (proj2 (nth_error_None toks i)) by lia; ring).
    match goal with |- 0 + ?a = _ => transitivity a; [ring|] end. apply sumn_ext. intros i Hi.
    replace (v + 2 ^ nv * i)%nat with (i * 2 ^ nv + v)%nat by lia. rewrite (proj2 HL) by (auto; lia).
    destruct (nth_error toks i) as [t|]; [|ring]. rewrite compute_betas_spec, Nat.add_0_l, eq_table_at by (rewrite Lrp; lia). destruct (Nat.eqb t v); ring. }
  assert (H2 : forall pt, length pt = nv -> mle (low_table (nv + ne) (dat emb) cp) pt = mle (dat emb) (cp ++ pt)).
  { intros pt Hpt. apply low_then_eval; auto. rewrite app_length. lia. }
  do 4 eexists. split; [reflexivity|]. split.
  { split; cbn [cl_point cl_eval]; [rewrite (proj1 HL), app_length, Hl, Lrp; f_equal; lia|apply H1; auto]. }
  split. { split; cbn [cl_point cl_eval]; [rewrite LE, app_length, Hl, Lcp; f_equal; lia|apply H2; auto]. }
  cbn [ep_sumcheck ep_claims]. intros Hr.
  replace (cl_eval last) with (hsum nv (prodf (map mle [R; low_table (nv + ne) (dat emb) cp]))).
  2: { rewrite Elast, Epl, (matprod_mle _ ns nv ne _ _ _ _ rp cp Hp) by auto. cbn [right_point].
       match goal with |- _ = ?a + 0 => transitivity a; [|ring] end. apply hsum_ext. intros pt Hpt. unfold prodf. cbn [map fprod].
       rewrite H1, H2 by auto. reflexivity. }
  cbn [length] in Hver. rewrite Hver by auto. cbn [obind nth_error fst snd].
  replace (mle R (pf_point pf) * mle (low_table (nv + ne) (dat emb) cp) (pf_point pf)) with
    (prodf (map mle [R; low_table (nv + ne) (dat emb) cp]) (pf_point pf)) by (unfold prodf; cbn [map fprod]; ring).
  rewrite feqb_refl. reflexivity.
Qed.
End P.
