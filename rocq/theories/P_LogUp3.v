(** Soundness of the LogUp-GKR verifier: the rounds and the whole proof. *)
From Coq Require Import List Arith Lia Bool ZArith Field.
From Verif Require Import ListAux FieldDef PolyList MleMath M_Mle P_Mle P_Eq M_Interp P_Interp M_Sumcheck
  P_ScVerify P_ScProve P_ScApi M_ScParallel M_SamePoly P_SamePoly M_LogUp P_LogUp P_LogUp2.
Import ListNotations.

Section G.
Context {A B : Type}.
Lemma ofold_app (f : B -> A -> option B) l1 l2 s : ofold f (l1 ++ l2) s = (s' <- ofold f l1 s ;; ofold f l2 s').
Proof. revert s. induction l1 as [|a l1 IH]; intros s; cbn [ofold app obind]; [auto|]. destruct (f s a); [apply IH|reflexivity]. Qed.
Lemma ofold_prefix (f : B -> A -> option B) l s s' i : ofold f l s = Some s' -> i <= length l -> exists t, ofold f (firstn i l) s = Some t.
Proof.
  intros H Hi. rewrite <- (firstn_skipn i l), ofold_app in H. destruct (ofold f (firstn i l) s) as [t|] eqn:E; [|discriminate]. eauto.
Qed.
Lemma ofold_step (f : B -> A -> option B) l s i a t : nth_error l i = Some a -> ofold f (firstn i l) s = Some t ->
  ofold f (firstn (S i) l) s = f t a.
Proof.
  intros Hn Ht. assert (E : firstn (S i) l = firstn i l ++ [a]).
  { clear Ht. revert l Hn. induction i as [|i IH]; intros [|x l] Hn; cbn in Hn; try discriminate; [injection Hn as ->; reflexivity|].
    cbn [firstn app]. f_equal. apply IH; auto. }
  rewrite E, ofold_app, Ht. cbn [obind ofold]. destruct (f t a); reflexivity.
Qed.
End G.

Section C.
Context {A : Type}.
Lemma chunks_uniform n (ll : list (list A)) : 0 < n -> (forall l, In l ll -> length l = n) -> chunks n (concat ll) = ll.
Proof.
  intros Hn. unfold chunks.
  assert (G : forall (ll : list (list A)) fuel, (forall l, In l ll -> length l = n) -> length (concat ll) <= fuel -> chunks_fuel fuel n (concat ll) = ll).
  { clear ll. induction ll as [|l ll IH]; intros fuel H Hf; cbn [concat] in *; [destruct fuel; reflexivity|].
    assert (Hl : length l = n) by (apply H; left; auto). rewrite app_length in Hf.
    destruct fuel as [|fuel]; [lia|]. cbn [chunks_fuel]. destruct (l ++ concat ll) eqn:E.
    - apply (f_equal (@length A)) in E. rewrite app_length in E. cbn [length] in E. lia.
    - rewrite <- E. rewrite firstn_app, skipn_app, Hl, Nat.sub_diag, firstn_all2, skipn_all2 by lia. cbn [firstn skipn app]. rewrite app_nil_r.
      f_equal. apply IH; [intros; apply H; right; auto|lia]. }
  intros H. apply G; auto.
Qed.
Lemma cut_uniform n m : 0 < n -> forall l : list A, length l = n * m -> exists ll, l = concat ll /\ length ll = m /\ (forall x, In x ll -> length x = n).
Proof.
  intros Hn. induction m as [|m IH]; intros l Hl.
  - rewrite Nat.mul_0_r in Hl. destruct l; [|cbn in Hl; discriminate]. exists []. split; [reflexivity|]. split; [reflexivity|]. intros x [].
  - rewrite Nat.mul_succ_r in Hl. destruct (IH (skipn n l)) as (ll & E & Hm & Hx); [rewrite skipn_length; lia|].
    exists (firstn n l :: ll). cbn [concat length]. rewrite <- E, firstn_skipn. split; [auto|]. split; [lia|].
    intros x [<-|Hin]; [apply firstn_length_le; lia|auto].
Qed.
Lemma chunks_length n m (l : list A) : 0 < n -> length l = n * m -> length (chunks n l) = m /\ (forall x, In x (chunks n l) -> length x = n).
Proof. intros Hn Hl. destruct (cut_uniform n m Hn l Hl) as (ll & -> & Hm & Hx). rewrite chunks_uniform by auto. auto. Qed.
End C.

Section P.
Context {K : field}.
Add Field Kf_lu3 : (fth K).
Local Open Scope F_scope.

Lemma omapM_ex {A B} (f : A -> option B) l : (forall x, In x l -> exists y, f x = Some y) -> exists r, omapM f l = Some r /\ length r = length l.
Proof.
  induction l as [|x l IH]; intros H; [exists []; auto|]. destruct (H x (or_introl eq_refl)) as [y Hy].
  destruct IH as (r & Hr & Hl); [intros; apply H; right; auto|]. exists (y :: r). cbn [omapM]. rewrite Hy, Hr. cbn [obind length]. split; [auto|lia].
Qed.
Lemma get4_chunks n (l : list K) : length l = (4 * n)%nat -> exists qs, omapM get4 (chunks 4 l) = Some qs /\ length qs = n.
Proof.
  intros Hl. destruct (chunks_length 4 n l ltac:(lia) Hl) as [Hc Hx]. destruct (omapM_ex get4 (chunks 4 l)) as (qs & Hq & Hql).
  { intros x Hin. specialize (Hx x Hin). destruct x as [|a [|b [|c [|d [|]]]]]; cbn in Hx; try discriminate. cbn. eauto. }
  exists qs. split; [auto|]. lia.
Qed.
Lemma get2_chunks n (l : list K) : length l = (2 * n)%nat -> exists qs, omapM get2 (chunks 2 l) = Some qs /\ length qs = n.
Proof.
  intros Hl. destruct (chunks_length 2 n l ltac:(lia) Hl) as [Hc Hx]. destruct (omapM_ex get2 (chunks 2 l)) as (qs & Hq & Hql).
  { intros x Hin. specialize (Hx x Hin). destruct x as [|a [|b [|]]]; cbn in Hx; try discriminate. cbn. eauto. }
  exists qs. split; [auto|]. lia.
Qed.

(** *** The rounds *)
Section Rounds.
Variable T : @hist K -> K.
Variable lk : bool.                       (* lookup proof: the input numerators are all -1 *)
Variable k : nat.                         (* number of rounds; columns have 2^(k+1) entries *)
Variable bases : list (list K * list K).  (* numerators and denominators of each instance *)
Hypothesis Hwf : forall p, In p bases -> wf_lay (S k) p.
Notation ni := (length bases).

(** Layer [j] has 2^(j+1) entries; layer [k] is the input. *)
Definition layer_at (j : nat) : list (list K * list K) := map (lev (k - j)) bases.
Lemma layer_at_wf j p : j <= k -> In p (layer_at j) -> wf_lay (S j) p.
Proof.
  intros Hj Hin. unfold layer_at in Hin. apply in_map_iff in Hin as (q & <- & Hq).
  replace j with (k - (k - j))%nat at 1 by lia. apply lev_wf; [lia|auto].
Qed.
Lemma layer_at_halve j : j < k -> map halve (layer_at (S j)) = layer_at j.
Proof.
  intros Hj. unfold layer_at. rewrite map_map. apply map_ext. intros p. rewrite <- lev_S. f_equal. lia.
Qed.
Lemma layer_at_k : layer_at k = bases.
Proof. unfold layer_at. rewrite Nat.sub_diag. cbn [lev]. apply map_id. Qed.
Lemma layer_at_length j : length (layer_at j) = ni. Proof. unfold layer_at. apply map_length. Qed.

(** The true value the claim of layer [j] stands for. *)
Definition V (j : nat) (al la : K) (x : list K) : K :=
  if lk && Nat.eqb j k then wsum al (map (fun p => mle (snd p) x) bases) else lay_val al la (layer_at j) x.
(** The evaluations of round [i] as quadruples. *)
Definition last_lk (i : nat) : bool := lk && Nat.eqb (S i) k.
Definition evq (i : nat) (ev : list K) : option (list (@quad K)) :=
  if last_lk i then ps <- omapM get2 (chunks 2 ev) ;; Some (map emb ps) else omapM get4 (chunks 4 ev).
Definition true_q (i : nat) (x : list K) : list (@quad K) := map (fun p => tq (S i) p x) (layer_at (S i)).
Definition nxt (i : nat) (b na nl : K) (qs : list (@quad K)) : K :=
  if last_lk i then wsum na (map (fun '(_, e1, _, e3) => b * (e1 - e3) + e3) qs) else wsum na (map (q_next b nl) qs).

Lemma nxt_true i b na nl x : i < k -> length x = S i -> nxt i b na nl (true_q i x) = V (S i) na nl (x ++ [b]).
Proof.
  intros Hi Hx. unfold nxt, V, true_q, last_lk. destruct (lk && Nat.eqb (S i) k) eqn:E.
  - apply andb_true_iff in E as [E1 E2]. apply Nat.eqb_eq in E2. rewrite map_map. rewrite <- layer_at_k.
    replace (layer_at k) with (layer_at (S i)) by (rewrite E2; auto). apply wsum_ext. intros p Hp. pose proof (layer_at_wf (S i) p Hi Hp) as [_ Hs].
    rewrite (mle_lohi (S i)) by auto. unfold tq. ring.
  - unfold lay_val. rewrite map_map. apply wsum_ext. intros p Hp. apply q_next_true; auto. apply layer_at_wf; auto.
Qed.

Definition hist_in (s : @lstate K) : hist := EvFelt (ls_claim s) :: ls_hist s.
Definition round_gate (i : nat) (s : @lstate K) : list K -> K := gate_poly (S i) (ls_alpha s) (ls_lambda s) (ls_point s) (layer_at (S i)).
(** A false round claim survives only if a sum-check challenge hits a root, or if wrong evaluations are
    merged into the true value of the next claim. *)
Definition batch_event (i : nat) (s : @lstate K) (pf : @proof K) (ev : list K) : Prop :=
  let rs := sc_point T (S i) 3 (hist_in s) pf in
  exists e h2 qs b na nl h3, verify T (ls_claim s) pf (S i) 3 (hist_in s) = Some (rs, e, h2) /\
    three T lbl_lb lbl_la lbl_ll h2 = (b, na, nl, h3) /\
    evq i ev = Some qs /\ qs <> true_q i rs /\ nxt i b na nl qs = nxt i b na nl (true_q i rs).
Definition lucky (i : nat) (s : @lstate K) (pf : @proof K) (ev : list K) : Prop :=
  root_event T (S i) 3 (round_gate i s) (hist_in s) pf \/ batch_event i s pf ev.
(** What the verifier does not check about one round. *)
Definition round_shape (i : nat) (s : @lstate K) (pf : @proof K) (ev : list K) : Prop :=
  pf_point pf = sc_point T (S i) 3 (hist_in s) pf /\ length ev = ((if last_lk i then 2 else 4) * ni)%nat.

Lemma sc_point_length nv deg h pf : length (sc_point T nv deg h pf) = nv.
Proof. unfold sc_point. rewrite map_length, seq_length. auto. Qed.

Lemma round_step i s pf ev s' : 0 < ni -> i < k -> logup_round T ni s (i, (pf, ev)) = Some s' -> round_shape i s pf ev ->
  length (ls_point s) = S i ->
  exists e h2 qs b na nl h3, let rs := sc_point T (S i) 3 (hist_in s) pf in
    verify T (ls_claim s) pf (S i) 3 (hist_in s) = Some (rs, e, h2) /\
    three T lbl_lb lbl_la lbl_ll h2 = (b, na, nl, h3) /\ evq i ev = Some qs /\
    e = eqp (ls_point s) rs * wsum (ls_alpha s) (map (q_gate (ls_lambda s)) qs) /\
    s' = mkLs na nl (nxt i b na nl qs) (rs ++ [b]) h3.
Proof.
  intros Hni Hi Hr [Hpt Hev] Hlp. unfold logup_round in Hr. fold (hist_in s) in Hr. rewrite Nat.add_1_r in Hr.
  destruct (verify T (ls_claim s) pf (S i) 3 (hist_in s)) as [[[rs e] h2]|] eqn:Ev; [|discriminate]. cbn [obind] in Hr.
  pose proof (verify_point _ _ _ _ _ _ _ _ _ Ev) as Hrs.
  destruct (three T lbl_lb lbl_la lbl_ll h2) as [[[b na] nl] h3] eqn:E3.
  destruct (Nat.eqb_spec ni 0) as [|_]; [lia|].
  rewrite identity_eval_eqp, Hpt in Hr. rewrite <- Hrs in Hr |- *.
  assert (Hd : (length ev / ni = if last_lk i then 2 else 4)%nat) by (rewrite Hev; destruct (last_lk i); apply Nat.div_mul; lia).
  unfold evq, nxt. destruct (last_lk i) eqn:El.
  - rewrite Hd in Hr. cbn [Nat.eqb] in Hr. rewrite combine2_spec in Hr. destruct (get2_chunks ni ev Hev) as (ps & Hps & Hl). rewrite Hps in Hr |- *. cbn [obind] in Hr |- *.
    destruct (eqp (ls_point s) rs * wsum (ls_alpha s) (map (fun p => q_gate (ls_lambda s) (emb p)) ps) =? e) eqn:He; [|discriminate]. apply feqb_true in He.
    exists e, h2, (map emb ps), b, na, nl, h3. cbv zeta. split; [auto|]. split; [auto|]. split; [auto|]. split; [rewrite map_map; auto|].
    assert (Hs : mkLs na nl (wsum na (map (p_next b) ps)) (rs ++ [b]) h3 = s') by congruence. rewrite <- Hs. f_equal.
    rewrite map_map. apply wsum_ext. intros p _. unfold p_next, emb. reflexivity.
  - rewrite Hd in Hr. cbn [Nat.eqb] in Hr. rewrite combine4_spec in Hr. destruct (get4_chunks ni ev Hev) as (ps & Hps & Hl). rewrite Hps in Hr |- *. cbn [obind] in Hr.
    destruct (eqp (ls_point s) rs * wsum (ls_alpha s) (map (q_gate (ls_lambda s)) ps) =? e) eqn:He; [|discriminate]. apply feqb_true in He.
    exists e, h2, ps, b, na, nl, h3. cbv zeta. do 4 (split; [auto|]). congruence.
Qed.

Lemma quad_dec (x y : @quad K) : {x = y} + {x <> y}.
Proof. destruct x as [[[a b] c] d], y as [[[a' b'] c'] d']. destruct (feq_dec a a'), (feq_dec b b'), (feq_dec c c'), (feq_dec d d'); try (left; congruence); right; congruence. Qed.

Lemma V_gate i s : i < k -> length (ls_point s) = S i ->
  V i (ls_alpha s) (ls_lambda s) (ls_point s) = hsum (S i) (round_gate i s).
Proof.
  intros Hi Hp. unfold round_gate. rewrite gate_hsum; [|auto|intros p Hin; apply layer_at_wf; auto].
  rewrite layer_at_halve by auto. unfold V. destruct (Nat.eqb_spec i k); [lia|]. rewrite andb_false_r. auto.
Qed.

Lemma round_sound i s pf ev s' : char_gt K 3 -> 0 < ni -> i < k -> logup_round T ni s (i, (pf, ev)) = Some s' -> round_shape i s pf ev ->
  length (ls_point s) = S i -> ls_claim s <> V i (ls_alpha s) (ls_lambda s) (ls_point s) ->
  length (ls_point s') = S (S i) /\ (lucky i s pf ev \/ ls_claim s' <> V (S i) (ls_alpha s') (ls_lambda s') (ls_point s')).
Proof.
  intros Hch Hni Hi Hr Hsh Hlp Hne.
  destruct (round_step i s pf ev s' Hni Hi Hr Hsh Hlp) as (e & h2 & qs & b & na & nl & h3 & Hv & H3 & Hq & He & ->). cbv zeta in *.
  set (rs := sc_point T (S i) 3 (hist_in s) pf) in *. cbn [ls_point ls_claim ls_alpha ls_lambda].
  assert (Hlr : length rs = S i) by apply sc_point_length.
  split; [rewrite app_length; cbn [length]; lia|].
  destruct (list_eq_dec quad_dec qs (true_q i rs)) as [->|Hqne].
  - left. left. rewrite V_gate in Hne by auto.
    apply (verify_sound T (ls_claim s) pf (S i) 3 (hist_in s) rs e h2 (round_gate i s)); auto; [lia|apply gate_deg|].
    rewrite He. unfold round_gate, gate_poly, true_q. rewrite map_map. reflexivity.
  - rewrite <- nxt_true by auto. destruct (feq_dec (nxt i b na nl qs) (nxt i b na nl (true_q i rs))) as [E|E]; [|auto].
    left. right. exists e, h2, qs, b, na, nl, h3. fold rs. auto 8.
Qed.

(** A round keeps a true claim true when its evaluations are the true ones. *)
Lemma rounds_sound rounds s0 s' : char_gt K 3 -> 0 < ni -> length rounds = k ->
  ofold (logup_round T ni) (combine (seq 0 (length rounds)) rounds) s0 = Some s' ->
  (forall i s pf ev, ofold (logup_round T ni) (firstn i (combine (seq 0 (length rounds)) rounds)) s0 = Some s ->
     nth_error rounds i = Some (pf, ev) -> round_shape i s pf ev) ->
  length (ls_point s0) = 1%nat -> ls_claim s0 <> V 0 (ls_alpha s0) (ls_lambda s0) (ls_point s0) ->
  (exists i s pf ev, ofold (logup_round T ni) (firstn i (combine (seq 0 (length rounds)) rounds)) s0 = Some s /\
     nth_error rounds i = Some (pf, ev) /\ lucky i s pf ev) \/
  (ls_claim s' <> V k (ls_alpha s') (ls_lambda s') (ls_point s')).
Proof.
  intros Hch Hni Hlen Hof Hsh Hp0 Hne0. set (L := combine (seq 0 (length rounds)) rounds) in *.
  assert (HL : length L = k) by (unfold L; rewrite combine_length, seq_length; lia).
  assert (Hnth : forall i, i < k -> exists pf ev, nth_error rounds i = Some (pf, ev) /\ nth_error L i = Some (i, (pf, ev))).
  { intros i Hi. destruct (nth_error rounds i) as [[pf ev]|] eqn:E; [|apply nth_error_None in E; lia]. exists pf, ev. split; [auto|].
    unfold L. rewrite (nth_error_nth' _ (0%nat, (pf, ev))) by (rewrite combine_length, seq_length; lia).
    rewrite combine_nth by (rewrite seq_length; auto). rewrite seq_nth by lia. rewrite (nth_error_nth _ _ _ E). reflexivity. }
  assert (G : forall i, i <= k -> (exists j s pf ev, ofold (logup_round T ni) (firstn j L) s0 = Some s /\ nth_error rounds j = Some (pf, ev) /\ lucky j s pf ev)
     \/ exists s, ofold (logup_round T ni) (firstn i L) s0 = Some s /\ length (ls_point s) = S i /\ ls_claim s <> V i (ls_alpha s) (ls_lambda s) (ls_point s)).
  { induction i as [|i IH]; intros Hi; [right; exists s0; auto|].
    destruct IH as [IH|(s & Hs & Hp & Hc)]; [lia|left; auto|].
    destruct (Hnth i ltac:(lia)) as (pf & ev & Hr & HLi). pose proof (ofold_step _ _ _ _ _ _ HLi Hs) as Hst.
    destruct (ofold_prefix _ _ _ _ (S i) Hof ltac:(lia)) as [t Ht]. rewrite Hst in Ht.
    destruct (round_sound i s pf ev t Hch Hni ltac:(lia) Ht (Hsh i s pf ev Hs Hr) Hp Hc) as [Hp' [Hl|Hc']].
    - left. exists i, s, pf, ev. auto.
    - right. exists t. rewrite Hst. auto. }
  destruct (G k (le_n k)) as [?|(s & Hs & Hp & Hc)]; [left; auto|]. right.
  rewrite <- HL in Hs. rewrite firstn_all in Hs. assert (s = s') by congruence. subst s. auto.
Qed.
End Rounds.
End P.
