(** Proofs about the top-level protocol, part 1: output claims and the composition of the layers. *)
From Coq Require Import String.
From Coq Require Import List Arith Lia Bool ZArith Permutation Field.
From Verif Require Import ListAux FieldDef PolyList MleMath M_Mle P_Mle P_Eq M_Interp M_Sumcheck M_ScParallel P_ScVerify P_Count M_SamePoly P_SamePoly
  M_LogUp M_Lookup M_Tables M_Graph P_Graph P_Graph2 P_Graph4 P_Graph5 M_Verifier.
Import ListNotations.

Section Out.
Context {K : field}.
Add Field Kf_ver1 : (fth K).
Local Open Scope F_scope.
Variable T : @hist K -> K.
Variable esch : nat -> nat -> list nat.
Hypothesis Hs : forall n, valid_sched n (esch n).

Lemma mle_eval_ok n (l pt : list K) : length l = (2 ^ n)%nat -> length pt = n -> mle_eval esch l pt = Some (mle l pt).
Proof.
  intros Hl Hp. unfold mle_eval. rewrite (into_mle_ext_ok n l Hl). cbn [obind num_vars].
  apply (evaluate_spec _ _ n); auto. split; [auto|]. split; auto.
Qed.
Lemma mle_eval_inv (l pt : list K) e : mle_eval esch l pt = Some e -> length l = (2 ^ length pt)%nat /\ e = mle l pt.
Proof.
  unfold mle_eval, into_mle_ext. destruct (is_pow2 (length l)) eqn:P; [|discriminate].
  assert (Hn : exists n, length l = (2 ^ n)%nat).
  { unfold is_pow2 in P. apply andb_true_iff in P. destruct P as [_ P]. apply Nat.eqb_eq in P. eauto. }
  destruct Hn as [n Hn].
  assert (E : into_mle_ext l = Some (mkMle (Ext l) n)) by (apply into_mle_ext_ok; auto).
  unfold into_mle_ext in E. rewrite P in E. rewrite E. cbn [obind num_vars]. intros H.
  destruct (Nat.eq_dec (length pt) n) as [L|L].
  - subst n. rewrite (evaluate_spec _ _ (length pt) l pt) in H; auto; [split; congruence|]. split; [auto|]. split; auto.
  - rewrite evaluate_wrong_len in H; [discriminate|]. cbn. auto.
Qed.
Lemma read_challenges_length n : forall h, length (fst (read_challenges T n h)) = n.
Proof.
  induction n as [|n IH]; intros h; cbn [read_challenges]; auto. specialize (IH (EvSample :: h)).
  destruct (read_challenges T n (EvSample :: h)). cbn in *. lia.
Qed.

(** The claim about one output: the point is made of fresh challenges and the value is the evaluation there. *)
Lemma out_claim_inv o h c h' : out_claim T esch o h = Some (c, h') ->
  exists n, length (t_data o) = (2 ^ n)%nat /\ read_challenges T n h = (cl_point c, h') /\ length (cl_point c) = n /\ cl_eval c = mle (t_data o) (cl_point c).
Proof.
  unfold out_claim. destruct (read_challenges T _ h) as [r h1] eqn:R. destruct (mle_eval esch (t_data o) r) as [e|] eqn:E; [|discriminate].
  cbn [obind]. intros H. injection H as <- <-. destruct (mle_eval_inv _ _ _ E) as [L He]. cbn [cl_point cl_eval].
  exists (length r). rewrite L in R at 1. rewrite Nat.log2_pow2 in R by lia. auto.
Qed.
Lemma out_claim_ok o n h : length (t_data o) = (2 ^ n)%nat -> exists c h', out_claim T esch o h = Some (c, h').
Proof.
  intros L. unfold out_claim. rewrite L, Nat.log2_pow2 by lia. pose proof (read_challenges_length n h) as R.
  destruct (read_challenges T n h) as [r h1]. cbn [fst] in R. rewrite (mle_eval_ok n); auto. cbn [obind]. eauto.
Qed.
Lemma out_claims_length : forall outs h r, out_claims T esch outs h = Some r -> length (fst r) = length outs.
Proof.
  induction outs as [|o t IH]; intros h r H; cbn [out_claims] in H; [injection H as <-; auto|].
  destruct (out_claim T esch o h) as [c|]; [|discriminate]. cbn [obind] in H. destruct (out_claims T esch t (snd c)) as [r'|] eqn:E; [|discriminate].
  cbn [obind] in H. injection H as <-. cbn [fst length]. rewrite (IH _ _ E). auto.
Qed.
Lemma out_claims_app : forall a b h, out_claims T esch (a ++ b) h =
  (r <- out_claims T esch a h ;; q <- out_claims T esch b (snd r) ;; Some ((fst r ++ fst q)%list, snd q)).
Proof.
  induction a as [|o t IH]; intros b h; cbn [app out_claims].
  - cbn [obind fst snd]. destruct (out_claims T esch b h) as [[x y]|]; auto.
  - destruct (out_claim T esch o h) as [c|]; [|auto]. cbn [obind]. rewrite IH. destruct (out_claims T esch t (snd c)) as [r|]; [|auto]. cbn [obind].
    cbn [fst snd]. destruct (out_claims T esch b (snd r)) as [q|]; auto.
Qed.
Lemma out_claims_nth : forall outs h r k o, out_claims T esch outs h = Some r -> nth_error outs k = Some o ->
  exists c h1 h2, nth_error (fst r) k = Some c /\ out_claim T esch o h1 = Some (c, h2).
Proof.
  induction outs as [|x t IH]; intros h r k o H E; [destruct k; discriminate|]. cbn [out_claims] in H.
  destruct (out_claim T esch x h) as [c|] eqn:C; [|discriminate]. cbn [obind] in H. destruct (out_claims T esch t (snd c)) as [r'|] eqn:Er; [|discriminate].
  cbn [obind] in H. injection H as <-. destruct k as [|k]; cbn in *.
  - injection E as ->. exists (fst c), h, (snd c). split; auto. rewrite C. destruct c; auto.
  - apply (IH _ _ _ _ Er E).
Qed.

Context {Ctx : Type}.
Variable is_logits : Ctx -> bool.
Definition no_logits (ns : @nodes Ctx) : Prop := forall i n, get ns i = Some n -> is_logits (n_op n) = false.
Lemma write_claims_app : forall i1 c1 acc i2 c2, length i1 = length c1 ->
  @write_claims K acc (i1 ++ i2) (c1 ++ c2) = write_claims (write_claims acc i1 c1) i2 c2.
Proof. induction i1 as [|i i1 IH]; intros [|c c1] acc i2 c2 H; cbn in *; try discriminate; auto. Qed.
Lemma write_claims_length : forall i1 c1 acc, length (@write_claims K acc i1 c1) = length acc.
Proof. induction i1 as [|i i1 IH]; intros [|c c1] acc; cbn; auto. rewrite IH, upd_length. auto. Qed.
Lemma omapM_app {A B} (f : A -> option B) : forall a b, omapM f (a ++ b) = (x <- omapM f a ;; y <- omapM f b ;; Some (x ++ y)%list).
Proof.
  induction a as [|x a IH]; intros b; cbn [app omapM].
  - destruct (omapM f b); auto.
  - destruct (f x); cbn [obind]; auto. rewrite IH. destruct (omapM f a); cbn [obind]; auto. destruct (omapM f b); auto.
Qed.
(** The visiting order of the map only matters through the concatenated output indices. *)
Lemma verifier_flat ns outs : no_logits ns -> forall order acc h, (forall i, In i (map fst order) -> In i (keys ns)) ->
  verifier_out_claims T esch is_logits ns outs order acc h =
  (vals <- omapM (nth_error outs) (concat (map snd order)) ;; r <- out_claims T esch vals h ;; Some (write_claims acc (concat (map snd order)) (fst r), snd r)).
Proof.
  intros NL. induction order as [|[id idx] t IH]; intros acc h Hk; cbn [verifier_out_claims map concat snd]; [auto|].
  destruct (keys_get ns id) as [n G]; [apply Hk; left; auto|]. rewrite G. cbn [obind]. rewrite omapM_app.
  destruct (omapM (nth_error outs) idx) as [vals|] eqn:V; [|auto]. cbn [obind]. unfold node_out_claims. rewrite (NL _ _ G).
  assert (Lv : length vals = length idx) by (apply omapM_nth in V; tauto).
  destruct (out_claims T esch vals h) as [r|] eqn:R.
  - cbn [obind]. pose proof (out_claims_length _ _ _ R) as Lr. rewrite Lr, Lv, Nat.eqb_refl.
    rewrite IH by (intros; apply Hk; right; auto). destruct (omapM (nth_error outs) (concat (map snd t))) as [v2|]; [|auto]. cbn [obind].
    rewrite out_claims_app, R. cbn [obind]. destruct (out_claims T esch v2 (snd r)) as [q|]; [|auto]. cbn [obind fst snd].
    rewrite write_claims_app by lia. auto.
  - cbn [obind]. destruct (omapM (nth_error outs) (concat (map snd t))) as [v2|]; [|auto]. cbn [obind]. rewrite out_claims_app, R. auto.
Qed.
Lemma omapM_seq {A} : forall (l : list A) a pre, length pre = a -> omapM (nth_error (pre ++ l)) (seq a (length l)) = Some l.
Proof.
  induction l as [|x l IH]; intros a pre H; cbn [length seq omapM]; auto.
  rewrite nth_error_app2 by lia. rewrite H, Nat.sub_diag. cbn [nth_error obind].
  replace (pre ++ x :: l)%list with ((pre ++ [x]) ++ l)%list by (rewrite <- app_assoc; auto).
  rewrite IH; auto. rewrite app_length. cbn. lia.
Qed.
Lemma write_seq : forall (cs pre rest : list (@claim K)), length rest = length cs -> write_claims (pre ++ rest) (seq (length pre) (length cs)) cs = (pre ++ cs)%list.
Proof.
  induction cs as [|c cs IH]; intros pre [|x rest] H; cbn in H; try discriminate; cbn [length seq write_claims]; [auto|].
  assert (E : upd (length pre) c (pre ++ x :: rest) = ((pre ++ [c]) ++ rest)%list).
  { rewrite <- app_assoc. cbn [app]. clear. induction pre; cbn; congruence. }
  rewrite E. replace (S (length pre)) with (length (pre ++ [c])) by (rewrite app_length; cbn; lia).
  rewrite IH by lia. rewrite <- app_assoc. auto.
Qed.
(** Prover and verifier agree when the map is visited in output order and no output comes from a Logits layer. *)
Lemma out_agree ns outs order h : no_logits ns -> (forall i, In i (map fst order) -> In i (keys ns)) ->
  concat (map snd order) = seq 0 (length outs) ->
  verifier_out_claims T esch is_logits ns outs order (repeat default_claim (length outs)) h = prover_out_claims T esch outs h.
Proof.
  intros NL Hk Hc. rewrite verifier_flat by auto. rewrite Hc. pose proof (omapM_seq outs 0 [] eq_refl) as O. cbn [app] in O. rewrite O.
  cbn [obind]. unfold prover_out_claims. destruct (out_claims T esch outs h) as [r|] eqn:R; [|auto]. cbn [obind].
  pose proof (out_claims_length _ _ _ R) as L. rewrite <- L. pose proof (write_seq (fst r) [] (repeat default_claim (length (fst r)))) as W.
  cbn [app length] in W. rewrite W by (rewrite repeat_length; auto). destruct r; auto.
Qed.
Lemma write_other d o : forall idx (cs acc : list (@claim K)), ~ In o idx -> nth o (write_claims acc idx cs) d = nth o acc d.
Proof.
  induction idx as [|i idx IH]; intros [|c cs] acc N; cbn [write_claims]; auto.
  rewrite IH by (intros Q; apply N; right; auto). apply nth_upd_neq. intros ->. apply N. left; auto.
Qed.
Lemma write_nth d : forall idx (cs acc : list (@claim K)) k o, NoDup idx -> length cs = length idx -> nth_error idx k = Some o -> o < length acc ->
  nth o (write_claims acc idx cs) d = nth k cs d.
Proof.
  induction idx as [|i idx IH]; intros cs acc k o ND L E Lo; [destruct k; discriminate|].
  destruct cs as [|c cs]; [discriminate|]. cbn [write_claims]. inversion ND as [|? ? Ni ND']; subst.
  destruct k as [|k]; cbn [nth_error] in E.
  - injection E as ->. rewrite write_other by auto. cbn [nth]. apply nth_upd_eq; auto.
  - cbn [nth]. apply IH; auto. rewrite upd_length; auto.
Qed.
Lemma out_claims_inv ns outs : forall order acc h cs h',
  verifier_out_claims T esch is_logits ns outs order acc h = Some (cs, h') -> NoDup (concat (map snd order)) -> length acc = length outs ->
  length cs = length outs /\
  (forall o d, ~ In o (concat (map snd order)) -> nth o cs d = nth o acc d) /\
  (forall id idx n o v, In (id, idx) order -> get ns id = Some n -> is_logits (n_op n) = false -> In o idx -> nth_error outs o = Some v ->
     exists c h1 h2, nth_error cs o = Some c /\ out_claim T esch v h1 = Some (c, h2)).
Proof.
  induction order as [|[id idx] t IH]; intros acc h cs h' H ND La; cbn [verifier_out_claims map concat snd] in *.
  - injection H as <- <-. split; [auto|]. split; [auto|]. intros ? ? ? ? ? [].
  - destruct (get ns id) as [n|] eqn:G; [|discriminate]. cbn [obind] in H.
    destruct (omapM (nth_error outs) idx) as [vals|] eqn:V; [|discriminate]. cbn [obind] in H.
    destruct (node_out_claims T esch (is_logits (n_op n)) vals h) as [r|] eqn:R; [|discriminate]. cbn [obind] in H.
    destruct (Nat.eqb_spec (length (fst r)) (length idx)) as [Lr|]; [|discriminate].
    assert (ND1 : NoDup idx) by (clear -ND; induction idx; cbn in *; [constructor|inversion ND; subst; constructor; [rewrite in_app_iff in *; tauto|auto]]).
    assert (ND2 : NoDup (concat (map snd t))) by (clear -ND; induction idx; cbn in *; [auto|inversion ND; auto]).
    assert (Dj : forall o, In o idx -> ~ In o (concat (map snd t))).
    { clear -ND. induction idx as [|x idx IH]; cbn in *; [tauto|]. inversion ND as [|? ? A B]; subst. intros o [<-|I]; [rewrite in_app_iff in A; tauto|auto]. }
    destruct (IH _ _ _ _ H ND2) as (L & Other & Bound); [rewrite write_claims_length; auto|].
    split; [auto|]. split.
    + intros o d N. rewrite in_app_iff in N. rewrite Other by tauto. apply write_other. tauto.
    + intros id' idx' n' o v [I|I] G' NL Io Eo; [|apply (Bound id' idx' n' o v); auto].
      injection I as <- <-. assert (n' = n) by congruence. subst n'. unfold node_out_claims in R. rewrite NL in R.
      destruct (In_nth_error _ _ Io) as [k Ek]. destruct (omapM_nth _ _ _ V) as [Lv Nv].
      assert (Ev : nth_error vals k = Some v) by (destruct (Nv _ _ Ek) as (y & Y1 & Y2); congruence).
      destruct (out_claims_nth _ _ _ _ _ R Ev) as (c & h1 & h2 & Ec & Oc). exists c, h1, h2. split; auto.
      assert (Lo : o < length outs) by (apply nth_error_Some; congruence).
      rewrite (nth_error_nth' _ default_claim) by lia. f_equal. rewrite Other by auto. rewrite (write_nth _ _ _ _ k) by (auto; lia).
      apply nth_error_nth with (1 := Ec).
Qed.
End Out.
