(** The invariant of the synchronised transcript, agreement, progress and termination. *)
From Coq Require Import List Arith Lia Bool Permutation.
From Verif Require Import M_Sync.
Import ListNotations.

Section P.
Context {M C : Type} (nw rounds : nat) (msg : nat -> list C -> M) (draw : list (list M) -> C).
Notation step := (step nw rounds msg draw).
Notation steps := (steps nw rounds msg draw).
Notation init := (@init M C nw).

(** * Specification *)
(** The challenges drawn so far by the main thread. *)
Definition drawn (s : @state M C) : list C :=
  m_chs (s_main s) ++ match m_phase (s_main s) with Sending _ c => [c] | Collect _ => [] end.
Definition finished (s : @state M C) : Prop :=
  m_round (s_main s) = rounds /\ Forall (fun w => w_round w = rounds) (s_ws s).
(** The sequential reference: in every round all messages in thread order, then the challenge. *)
Fixpoint reference (n : nat) : list (list M) * list C :=
  match n with
  | 0 => ([], [])
  | S k => let '(log, chs) := reference k in
           let log' := log ++ [map (fun i => msg i chs) (seq 0 nw)] in
           (log', chs ++ [draw log'])
  end.

(** * Parity *)
Definition par (r : nat) : nat := r mod 2.
Lemma par_S r : par (S r) <> par r.
Proof. unfold par. pose proof (Nat.mod_upper_bound r 2 ltac:(lia)). replace (S r) with (r + 1) by lia. rewrite Nat.add_mod by lia. destruct (r mod 2) as [|[|n]]; cbn; lia. Qed.
Lemma par_SS r : par (S (S r)) = par r.
Proof. unfold par. replace (S (S r)) with (r + 1 * 2) by lia. apply Nat.mod_add. lia. Qed.
Lemma commit_par r : commit_rolling (par r) = par (S r).
Proof. unfold commit_rolling, par. rewrite Nat.add_mod_idemp_l by lia. f_equal. lia. Qed.
Lemma qupd_eq {A} (q : queue A) i v : qupd q i v i = v.
Proof. unfold qupd. now rewrite Nat.eqb_refl. Qed.
Lemma qupd_neq {A} (q : queue A) i j v : j <> i -> qupd q i v j = q j.
Proof. intros H. unfold qupd. apply Nat.eqb_neq in H. now rewrite H. Qed.

(** * Counting and messages *)
Definition at_round (r : nat) (w : @worker C) : bool := w_round w =? r.
Definition cnt (r : nat) (ws : list (@worker C)) : nat := length (filter (at_round r) ws).
Definition is_sent (r : nat) (w : @worker C) : bool := (w_round w =? r) && w_sent w.
Fixpoint sentm (i r : nat) (ws : list (@worker C)) : list M :=
  match ws with [] => [] | w :: t => (if is_sent r w then [msg i (w_chs w)] else []) ++ sentm (S i) r t end.
Lemma sentm_app r a b : forall i, sentm i r (a ++ b) = sentm i r a ++ sentm (i + length a) r b.
Proof.
  induction a as [|w a IH]; intros i; cbn [app sentm length]; [now rewrite Nat.add_0_r|]. rewrite IH, <- app_assoc. do 3 f_equal. lia.
Qed.
Lemma cnt_app r a b : cnt r (a ++ b) = cnt r a + cnt r b.
Proof. unfold cnt. now rewrite filter_app, app_length. Qed.
Lemma cnt_cons r w b : cnt r (w :: b) = (if w_round w =? r then 1 else 0) + cnt r b.
Proof. unfold cnt. cbn [filter]. unfold at_round at 1. destruct (w_round w =? r); reflexivity. Qed.
Lemma sentm_le r ws : forall i, length (sentm i r ws) <= length ws.
Proof. induction ws as [|w ws IH]; intros i; cbn; [lia|]. rewrite app_length. specialize (IH (S i)). destruct (is_sent r w); cbn; lia. Qed.
Lemma sentm_full r ws : forall i, length (sentm i r ws) = length ws -> Forall (fun w => w_round w = r /\ w_sent w = true) ws.
Proof.
  induction ws as [|w ws IH]; intros i H; [constructor|]. cbn in H. rewrite app_length in H. pose proof (sentm_le r ws (S i)).
  destruct (is_sent r w) eqn:Q; cbn in H; [|lia]. unfold is_sent in Q. apply andb_true_iff in Q. destruct Q as [Q1 Q2]. apply Nat.eqb_eq in Q1.
  constructor; auto. apply (IH (S i)). lia.
Qed.
Lemma sentm_none r ws : Forall (fun w => w_round w <> r \/ w_sent w = false) ws -> forall i, sentm i r ws = [].
Proof.
  induction 1 as [|w ws Hw _ IH]; intros i; [reflexivity|]. cbn. rewrite IH, app_nil_r. unfold is_sent. destruct Hw as [Hw|Hw].
  - apply Nat.eqb_neq in Hw. now rewrite Hw.
  - rewrite Hw, andb_false_r. reflexivity.
Qed.
Lemma cnt_none r ws : Forall (fun w => w_round w <> r) ws -> cnt r ws = 0.
Proof. induction 1 as [|w ws Hw _ IH]; [reflexivity|]. rewrite cnt_cons, IH. apply Nat.eqb_neq in Hw. now rewrite Hw. Qed.
Lemma cnt_two r r' ws : r <> r' -> Forall (fun w => w_round w = r \/ w_round w = r') ws -> cnt r ws + cnt r' ws = length ws.
Proof.
  intros Hn. induction 1 as [|w ws Hw _ IH]; [reflexivity|]. rewrite !cnt_cons. cbn [length]. destruct Hw as [Hw|Hw]; rewrite Hw, Nat.eqb_refl.
  - apply Nat.eqb_neq in Hn. rewrite Hn. lia.
  - assert (Hn' : r' <> r) by auto. apply Nat.eqb_neq in Hn'. rewrite Hn'. lia.
Qed.
(** All messages of a round when all workers have received the challenges [chs]. *)
Definition all_msgs (chs : list C) : list M := map (fun i => msg i chs) (seq 0 nw).
Lemma sentm_all r chs ws : forall i, Forall (fun w => w_round w = r /\ w_sent w = true) ws -> Forall (fun w => w_chs w = chs) ws ->
  sentm i r ws = map (fun i => msg i chs) (seq i (length ws)).
Proof.
  induction ws as [|w ws IH]; intros i H1 H2; [reflexivity|]. inversion H1 as [|? ? [A B] H1']; inversion H2; subst. cbn [sentm length seq map].
  unfold is_sent. rewrite Nat.eqb_refl, B. cbn. f_equal. now apply IH.
Qed.

(** * Invariant *)
Record good_worker (d : list C) (w : @worker C) : Prop := {
  gw_roll : w_roll w = par (w_round w);
  gw_le : w_round w <= rounds;
  gw_lt : w_sent w = true -> w_round w < rounds;
  gw_chs : w_chs w = firstn (w_round w) d }.
Record inv (s : @state M C) : Prop := {
  i_len : length (s_ws s) = nw;
  i_roll : m_roll (s_main s) = par (m_round (s_main s));
  i_le : m_round (s_main s) <= rounds;
  i_chs : length (m_chs (s_main s)) = m_round (s_main s);
  i_ws : Forall (good_worker (drawn s)) (s_ws s);
  i_drawn : forall j, j < length (drawn s) -> j < length (m_log (s_main s)) /\ nth_error (drawn s) j = Some (draw (firstn (S j) (m_log (s_main s))));
  i_log : length (m_log (s_main s)) = length (drawn s) /\ forall j l, nth_error (m_log (s_main s)) j = Some l -> Permutation l (all_msgs (firstn j (drawn s)));
  i_phase :
    let r := m_round (s_main s) in
    match m_phase (s_main s) with
    | Collect got =>
        Forall (fun w => w_round w = r \/ (S (w_round w) = r /\ w_sent w = true)) (s_ws s) /\
        s_ch s (par r) = [] /\ s_ef s (par (S r)) = [] /\
        (forall r', r = S r' -> exists c, nth_error (m_chs (s_main s)) r' = Some c /\ s_ch s (par r') = repeat c (cnt r' (s_ws s))) /\
        (r = 0 -> s_ch s 1 = []) /\
        Permutation (got ++ s_ef s (par r)) (sentm 0 r (s_ws s)) /\ length got <= nw
    | Sending k c =>
        r < rounds /\ k <= nw /\
        Forall (fun w => (w_round w = r /\ w_sent w = true) \/ w_round w = S r) (s_ws s) /\
        cnt (S r) (s_ws s) <= k /\ s_ch s (par r) = repeat c (k - cnt (S r) (s_ws s)) /\ s_ch s (par (S r)) = [] /\
        s_ef s (par r) = [] /\ Permutation (s_ef s (par (S r))) (sentm 0 (S r) (s_ws s))
    end }.

Lemma inv_init : inv init.
Proof.
  split; cbn.
  - apply repeat_length.
  - reflexivity.
  - lia.
  - reflexivity.
  - apply Forall_forall. intros w Hw. apply repeat_spec in Hw. subst w. split; cbn; try reflexivity; try lia; try discriminate.
  - intros j Hj. lia.
  - split; [reflexivity|]. intros [|j] l E; discriminate E.
  - repeat split; try reflexivity; try lia.
    + apply Forall_forall. intros w Hw. apply repeat_spec in Hw. subst w. now left.
    + rewrite sentm_none; [constructor|]. apply Forall_forall. intros w Hw. apply repeat_spec in Hw. subst w. now right.
Qed.
Lemma good_ext d c w : good_worker d w -> w_round w <= length d -> good_worker (d ++ c) w.
Proof.
  intros [A B D E] H. split; auto. rewrite firstn_app. replace (w_round w - length d) with 0 by lia. cbn. now rewrite app_nil_r.
Qed.
Lemma F_mid {A} (P : A -> Prop) a x b : Forall P (a ++ x :: b) <-> Forall P a /\ P x /\ Forall P b.
Proof. rewrite Forall_app. split; intros [H1 H2]; [inversion H2; auto|]. destruct H2. split; auto. Qed.
Lemma drawn_len s : inv s -> length (drawn s) = m_round (s_main s) + match m_phase (s_main s) with Sending _ _ => 1 | Collect _ => 0 end.
Proof. intros H. unfold drawn. rewrite app_length, (i_chs _ H). destruct (m_phase (s_main s)); reflexivity. Qed.
Lemma firstn_snoc {A} (l : list A) c n : nth_error l n = Some c -> firstn n l ++ [c] = firstn (S n) l.
Proof. revert n. induction l as [|x l IH]; intros [|n] H; cbn in *; try discriminate; [now injection H as ->|]. now rewrite (IH _ H). Qed.

(** One lemma per step. *)
Lemma inv_W_send m a w b ef ch : inv (mkS m (a ++ w :: b) ef ch) -> w_sent w = false -> w_round w < rounds ->
  inv (mkS m (a ++ mkW (w_round w) (w_roll w) true (w_chs w) :: b) (qupd ef (w_roll w) (ef (w_roll w) ++ [msg (length a) (w_chs w)])) ch).
Proof.
  intros H Hs Hr. destruct H as [H1 H2 H3 H4 H5 H6 H7 H8]. cbn [s_main s_ws s_ef s_ch] in *.
  set (w' := mkW (w_round w) (w_roll w) true (w_chs w)).
  assert (Hc : forall r, cnt r (a ++ w' :: b) = cnt r (a ++ w :: b)) by (intros r; rewrite !cnt_app, !cnt_cons; reflexivity).
  change (drawn (mkS m (a ++ w :: b) ef ch)) with (drawn (mkS m (a ++ w' :: b) (qupd ef (w_roll w) (ef (w_roll w) ++ [msg (length a) (w_chs w)])) ch)) in *.
  assert (Hroll : w_roll w = par (w_round w)) by (apply F_mid in H5; exact (gw_roll _ _ (proj1 (proj2 H5)))).
  split; cbn [s_main s_ws s_ef s_ch]; auto.
  - rewrite <- H1, !app_length. reflexivity.
  - apply F_mid in H5. apply F_mid. destruct H5 as (A & [B1 B2 B3 B4] & D). split; [exact A|]. split; [|exact D]. split; cbn; auto.
  - assert (Hsent : forall r, sentm 0 r (a ++ w' :: b) = sentm 0 r a ++ (if w_round w =? r then [msg (length a) (w_chs w)] else []) ++ sentm (S (length a)) r b).
    { intros r. rewrite sentm_app. cbn [sentm Nat.add]. unfold is_sent. cbn [w_round w_sent w_chs w']. rewrite andb_true_r. reflexivity. }
    assert (Hold : forall r, sentm 0 r (a ++ w :: b) = sentm 0 r a ++ sentm (S (length a)) r b).
    { intros r. rewrite sentm_app. cbn [sentm Nat.add]. unfold is_sent. rewrite Hs, andb_false_r. reflexivity. }
    destruct (m_phase m) as [got|k c].
    + destruct H8 as (A & B & D & E1 & E2 & P & L). apply F_mid in A. destruct A as (A1 & A2 & A3).
      destruct A2 as [A2|[_ A2]]; [|congruence]. rewrite Hroll, A2 in *. split; [|split; [exact B|split; [|split; [|split; [exact E2|split; [|exact L]]]]]].
      * apply F_mid. split; [exact A1|]. split; [now left|exact A3].
      * rewrite qupd_neq by apply par_S. exact D.
      * intros r' Er. destruct (E1 r' Er) as (c & X & Y). exists c. split; [exact X|]. now rewrite Hc.
      * rewrite qupd_eq, Hsent, Nat.eqb_refl, app_assoc. rewrite Hold in P. rewrite P. rewrite <- app_assoc. apply Permutation_app_head. apply Permutation_app_comm.
    + destruct H8 as (K0 & K1 & A & K2 & B & D & E & P). apply F_mid in A. destruct A as (A1 & A2 & A3).
      destruct A2 as [[_ A2]|A2]; [congruence|]. rewrite Hroll, A2 in *. rewrite !Hc. split; [exact K0|]. split; [exact K1|].
      split; [|split; [exact K2|split; [exact B|split; [exact D|split]]]].
      * apply F_mid. split; [exact A1|]. split; [now right|exact A3].
      * rewrite qupd_neq; [exact E|]. intros Q. symmetry in Q. exact (par_S _ Q).
      * rewrite qupd_eq, Hsent, Nat.eqb_refl. rewrite Hold in P. rewrite P. rewrite <- app_assoc. apply Permutation_app_head. apply Permutation_app_comm.
Qed.
Lemma repeat_cons_inv {A} (c x : A) r n : repeat c n = x :: r -> x = c /\ exists k, n = S k /\ r = repeat c k.
Proof. destruct n; cbn; intros H; [discriminate|]. injection H as -> <-. split; [reflexivity|]. now exists n. Qed.
Lemma inv_W_recv m a w b ef ch c r : inv (mkS m (a ++ w :: b) ef ch) -> w_sent w = true -> ch (w_roll w) = c :: r ->
  inv (mkS m (a ++ mkW (S (w_round w)) (commit_rolling (w_roll w)) false (w_chs w ++ [c]) :: b) ef (qupd ch (w_roll w) r)).
Proof.
  intros H Hs Hq. pose proof (drawn_len _ H) as HL. destruct H as [H1 H2 H3 H4 H5 H6 H7 H8]. cbn [s_main s_ws s_ef s_ch] in *.
  set (w' := mkW (S (w_round w)) (commit_rolling (w_roll w)) false (w_chs w ++ [c])).
  change (drawn (mkS m (a ++ w :: b) ef ch)) with (drawn (mkS m (a ++ w' :: b) ef (qupd ch (w_roll w) r))) in *.
  set (d := drawn (mkS m (a ++ w' :: b) ef (qupd ch (w_roll w) r))) in *.
  assert (Hw : good_worker d w) by (apply F_mid in H5; tauto). destruct Hw as [Hroll Hle Hlt Hchs]. specialize (Hlt Hs).
  assert (Hcnt : forall q, cnt q (a ++ w' :: b) + (if w_round w =? q then 1 else 0) = cnt q (a ++ w :: b) + (if S (w_round w) =? q then 1 else 0)).
  { intros q. rewrite !cnt_app, !cnt_cons. cbn [w_round w']. lia. }
  assert (Hn0 : forall q, sentm 0 q (a ++ w' :: b) = sentm 0 q a ++ sentm (S (length a)) q b).
  { intros q. rewrite sentm_app. cbn [sentm Nat.add]. unfold is_sent. cbn [w_sent w']. now rewrite andb_false_r. }
  assert (Ho : forall q, q <> w_round w -> sentm 0 q (a ++ w :: b) = sentm 0 q a ++ sentm (S (length a)) q b).
  { intros q Hqn. rewrite sentm_app. cbn [sentm Nat.add]. unfold is_sent. assert (Hqn' : w_round w <> q) by auto. apply Nat.eqb_neq in Hqn'. now rewrite Hqn'. }
  assert (Hgood : nth_error d (w_round w) = Some c -> Forall (good_worker d) (a ++ w' :: b)).
  { intros Hd. apply F_mid in H5. apply F_mid. destruct H5 as (A & _ & D). split; [exact A|]. split; [|exact D]. split; cbn [w_roll w_round w_sent w_chs w'].
    - rewrite Hroll. apply commit_par.
    - lia.
    - discriminate.
    - rewrite Hchs. now apply firstn_snoc. }
  assert (Hlen : length (a ++ w' :: b) = nw) by (rewrite <- H1, !app_length; reflexivity).
  destruct (m_phase m) as [got|k c0] eqn:Ep.
  - destruct H8 as (A & B & D & E1 & E2 & P & L). apply F_mid in A. destruct A as (A1 & A2 & A3).
    destruct A2 as [A2|[A2 _]]; [rewrite Hroll, A2, B in Hq; discriminate|].
    destruct (E1 (w_round w) (eq_sym A2)) as (c1 & X & Y). rewrite Hroll in Hq. rewrite Y in Hq. apply repeat_cons_inv in Hq. destruct Hq as (-> & n & En & ->).
    assert (Hd : nth_error d (w_round w) = Some c1). { unfold d, drawn. cbn [s_main]. rewrite nth_error_app1; [exact X|]. rewrite H4. lia. }
    split; cbn [s_main s_ws s_ef s_ch]; auto. rewrite Ep. rewrite Hroll. rewrite <- A2 in *.
    split; [|split; [|split; [exact D|split; [|split; [|split; [|exact L]]]]]].
    + apply F_mid. split; [exact A1|]. split; [now left|exact A3].
    + rewrite qupd_neq by apply par_S. exact B.
    + intros r' Er. injection Er as <-. exists c1. split; [exact X|]. rewrite qupd_eq. f_equal. specialize (Hcnt (w_round w)). rewrite Nat.eqb_refl in Hcnt.
      replace (S (w_round w) =? w_round w) with false in Hcnt by (symmetry; apply Nat.eqb_neq; lia). lia.
    + intros Q. lia.
    + rewrite P, Hn0, Ho by lia. reflexivity.
  - destruct H8 as (K0 & K1 & A & K2 & B & D & E & P). apply F_mid in A. destruct A as (A1 & A2 & A3).
    destruct A2 as [[A2 _]|A2]; [|rewrite Hroll, A2, D in Hq; discriminate].
    rewrite Hroll, A2, B in Hq. apply repeat_cons_inv in Hq. destruct Hq as (-> & n & En & ->).
    assert (Hd : nth_error d (w_round w) = Some c0). { unfold d, drawn. cbn [s_main]. rewrite Ep, nth_error_app2 by lia. replace (w_round w - _) with 0 by lia. reflexivity. }
    specialize (Hcnt (S (m_round m))). rewrite A2, Nat.eqb_refl in Hcnt. replace (m_round m =? S (m_round m)) with false in Hcnt by (symmetry; apply Nat.eqb_neq; lia).
    split; cbn [s_main s_ws s_ef s_ch]; auto. rewrite Ep. rewrite Hroll, A2.
    split; [exact K0|]. split; [exact K1|]. split; [|split; [|split; [|split; [|split; [exact E|]]]]].
    + apply F_mid. split; [exact A1|]. split; [right; cbn; lia|exact A3].
    + lia.
    + rewrite qupd_eq. f_equal. lia.
    + rewrite qupd_neq by apply par_S. exact D.
    + rewrite P, Hn0, Ho by lia. reflexivity.
Qed.
Lemma inv_M_recv m ws ef ch got x r : inv (mkS m ws ef ch) -> m_phase m = Collect got -> length got < nw -> ef (m_roll m) = x :: r ->
  inv (mkS (mkM (m_round m) (m_roll m) (Collect (got ++ [x])) (m_chs m) (m_log m)) ws (qupd ef (m_roll m) r) ch).
Proof.
  intros [H1 H2 H3 H4 H5 H6 H7 H8] Ep Hg Hq. cbn [s_main s_ws s_ef s_ch] in *.
  assert (Hd : drawn (mkS (mkM (m_round m) (m_roll m) (Collect (got ++ [x])) (m_chs m) (m_log m)) ws (qupd ef (m_roll m) r) ch) = drawn (mkS m ws ef ch))
    by (unfold drawn; cbn; now rewrite Ep).
  rewrite Ep in H8. destruct H8 as (A & B & D & E1 & E2 & P & L).
  split; rewrite ?Hd; cbn [s_main s_ws s_ef s_ch m_round m_roll m_phase m_chs m_log]; auto.
  rewrite H2 in *. split; [exact A|]. split; [exact B|]. split; [rewrite qupd_neq by apply par_S; exact D|]. split; [exact E1|]. split; [exact E2|]. split.
  - rewrite qupd_eq, <- app_assoc. rewrite Hq in P. exact P.
  - rewrite app_length. cbn. lia.
Qed.
Lemma app_nil_perm {A} (a b : list A) : length (a ++ b) <= length a -> b = [].
Proof. rewrite app_length. destruct b; cbn; [reflexivity|lia]. Qed.
Lemma inv_M_draw m ws ef ch got : inv (mkS m ws ef ch) -> m_phase m = Collect got -> m_round m < rounds -> length got = nw ->
  inv (mkS (mkM (m_round m) (m_roll m) (Sending 0 (draw (m_log m ++ [got]))) (m_chs m) (m_log m ++ [got])) ws ef ch).
Proof.
  intros [H1 H2 H3 H4 H5 H6 H7 H8] Ep Hr Hg. cbn [s_main s_ws s_ef s_ch] in *. rewrite Ep in H8. destruct H8 as (A & B & D & E1 & E2 & P & L).
  set (c := draw (m_log m ++ [got])).
  assert (Hold : drawn (mkS m ws ef ch) = m_chs m) by (unfold drawn; cbn; rewrite Ep; apply app_nil_r). rewrite Hold in *.
  assert (Hef : ef (par (m_round m)) = []).
  { apply (app_nil_perm got). rewrite (Permutation_length P). pose proof (sentm_le (m_round m) ws 0). lia. }
  rewrite Hef, app_nil_r in P.
  assert (Hall : Forall (fun w => w_round w = m_round m /\ w_sent w = true) ws) by (apply (sentm_full _ _ 0); rewrite <- (Permutation_length P); lia).
  assert (Hd : drawn (mkS (mkM (m_round m) (m_roll m) (Sending 0 c) (m_chs m) (m_log m ++ [got])) ws ef ch) = m_chs m ++ [c]) by reflexivity.
  destruct H7 as [H7 H7'].
  assert (Hc0 : cnt (S (m_round m)) ws = 0) by (apply cnt_none; eapply Forall_impl; [|exact Hall]; cbn; intros w [Q _]; lia).
  split; rewrite ?Hd; cbn [s_main s_ws s_ef s_ch m_round m_roll m_phase m_chs m_log]; auto.
  - apply Forall_forall. intros w Hw. apply good_ext; [exact (proj1 (Forall_forall _ _) H5 w Hw)|]. rewrite H4. pose proof (proj1 (Forall_forall _ _) Hall w Hw). cbn in *. lia.
  - intros j Hj. rewrite app_length in Hj |- *. cbn [length] in Hj |- *. split; [lia|]. destruct (Nat.lt_ge_cases j (length (m_chs m))) as [Hl|Hl].
    + destruct (H6 j Hl) as [X Y]. rewrite nth_error_app1 by lia. rewrite Y. do 2 f_equal. rewrite firstn_app. replace (S j - length (m_log m)) with 0 by lia.
      change (firstn 0 [got]) with (@nil (list M)). now rewrite app_nil_r.
    + replace j with (length (m_chs m)) by lia. rewrite nth_error_app2, Nat.sub_diag by lia. cbn [nth_error]. unfold c. do 2 f_equal. rewrite firstn_all2; [reflexivity|]. rewrite app_length. cbn. lia.
  - split; [rewrite !app_length, H7; reflexivity|]. intros j l Hj. destruct (Nat.lt_ge_cases j (length (m_log m))) as [Hl|Hl].
    + rewrite nth_error_app1 in Hj by lia. specialize (H7' j l Hj). rewrite firstn_app. replace (j - length (m_chs m)) with 0 by lia. cbn [firstn]. now rewrite app_nil_r.
    + assert (j = length (m_log m)). { enough (j < length (m_log m ++ [got])) by (rewrite app_length in *; cbn in *; lia). apply nth_error_Some. congruence. }
      subst j. rewrite nth_error_app2, Nat.sub_diag in Hj by lia. injection Hj as <-. rewrite P.
      rewrite firstn_app. replace (length (m_log m) - length (m_chs m)) with 0 by lia. cbn [firstn]. rewrite app_nil_r, firstn_all2 by lia.
      rewrite (sentm_all _ (m_chs m)); [unfold all_msgs; now rewrite H1|exact Hall|].
      apply Forall_forall. intros w Hw. rewrite (gw_chs _ _ (proj1 (Forall_forall _ _) H5 w Hw)). apply firstn_all2. pose proof (proj1 (Forall_forall _ _) Hall w Hw). cbn in *. lia.
  - split; [exact Hr|]. split; [lia|]. split; [eapply Forall_impl; [|exact Hall]; cbn; auto|]. rewrite Hc0. split; [lia|]. split; [exact B|]. split.
    + destruct (m_round m) as [|r'] eqn:Er; [exact (E2 eq_refl)|]. destruct (E1 r' eq_refl) as (c1 & _ & Y). rewrite par_SS, Y, cnt_none; [reflexivity|].
      eapply Forall_impl; [|exact Hall]. cbn. intros w [Q _]. lia.
    + split; [exact Hef|]. rewrite D, sentm_none; [constructor|]. eapply Forall_impl; [|exact Hall]. cbn. intros w [Q _]. left. lia.
Qed.
Lemma inv_M_send m ws ef ch k c : inv (mkS m ws ef ch) -> m_phase m = Sending k c -> k < nw ->
  inv (mkS (mkM (m_round m) (m_roll m) (Sending (S k) c) (m_chs m) (m_log m)) ws ef (qupd ch (m_roll m) (ch (m_roll m) ++ [c]))).
Proof.
  intros [H1 H2 H3 H4 H5 H6 H7 H8] Ep Hk. cbn [s_main s_ws s_ef s_ch] in *.
  assert (Hd : drawn (mkS (mkM (m_round m) (m_roll m) (Sending (S k) c) (m_chs m) (m_log m)) ws ef (qupd ch (m_roll m) (ch (m_roll m) ++ [c]))) = drawn (mkS m ws ef ch))
    by (unfold drawn; cbn; now rewrite Ep).
  rewrite Ep in H8. destruct H8 as (K0 & K1 & A & K2 & B & D & E & P).
  split; rewrite ?Hd; cbn [s_main s_ws s_ef s_ch m_round m_roll m_phase m_chs m_log]; auto.
  rewrite H2 in *. split; [exact K0|]. split; [lia|]. split; [exact A|]. split; [lia|]. split; [|split; [|split; [exact E|exact P]]].
  - rewrite qupd_eq, B. replace (S k - cnt (S (m_round m)) ws) with ((k - cnt (S (m_round m)) ws) + 1) by lia. now rewrite repeat_app.
  - rewrite qupd_neq by apply par_S. exact D.
Qed.
Lemma inv_M_next m ws ef ch c : inv (mkS m ws ef ch) -> m_phase m = Sending nw c ->
  inv (mkS (mkM (S (m_round m)) (commit_rolling (m_roll m)) (Collect []) (m_chs m ++ [c]) (m_log m)) ws ef ch).
Proof.
  intros [H1 H2 H3 H4 H5 H6 H7 H8] Ep. cbn [s_main s_ws s_ef s_ch] in *.
  assert (Hd : drawn (mkS (mkM (S (m_round m)) (commit_rolling (m_roll m)) (Collect []) (m_chs m ++ [c]) (m_log m)) ws ef ch) = drawn (mkS m ws ef ch))
    by (unfold drawn; cbn; rewrite Ep; apply app_nil_r).
  rewrite Ep in H8. destruct H8 as (K0 & K1 & A & K2 & B & D & E & P).
  split; rewrite ?Hd; cbn [s_main s_ws s_ef s_ch m_round m_roll m_phase m_chs m_log]; auto.
  - rewrite H2. apply commit_par.
  - rewrite app_length. cbn. lia.
  - split; [eapply Forall_impl; [|exact A]; cbn; intros w [[Q1 Q2]|Q]; [right; split; [lia|exact Q2]|now left]|].
    split; [exact D|]. split; [rewrite par_SS; exact E|]. split; [|split; [discriminate|split; [exact P|cbn; lia]]].
    intros r' Er. injection Er as <-. exists c. split; [rewrite nth_error_app2, H4, Nat.sub_diag by lia; reflexivity|]. rewrite B. f_equal.
    enough (cnt (m_round m) ws + cnt (S (m_round m)) ws = length ws) by lia. apply cnt_two; [lia|]. eapply Forall_impl; [|exact A]. cbn. tauto.
Qed.
Lemma inv_step s s' : inv s -> step s s' -> inv s'.
Proof.
  intros H St. destruct St.
  - now apply inv_W_send.
  - now apply inv_W_recv.
  - now apply inv_M_recv.
  - now apply inv_M_draw.
  - now apply inv_M_send.
  - now apply inv_M_next.
Qed.
Lemma inv_steps n s : steps n init s -> inv s.
Proof. intros H. remember init as s0. induction H; subst; [apply inv_init|]. eapply inv_step; [|eassumption]. now apply IHsteps. Qed.

(** * Agreement *)
Lemma worker_view n s w : steps n init s -> In w (s_ws s) -> w_chs w = firstn (w_round w) (drawn s) /\ length (w_chs w) = w_round w.
Proof.
  intros H Hw. apply inv_steps in H. pose proof (proj1 (Forall_forall _ _) (i_ws _ H) w Hw) as G. split; [apply (gw_chs _ _ G)|].
  rewrite (gw_chs _ _ G), firstn_length. apply Nat.min_l. rewrite (drawn_len _ H). pose proof (i_phase _ H) as P. cbv zeta in P.
  destruct (m_phase (s_main s)).
  - destruct P as (A & _). pose proof (proj1 (Forall_forall _ _) A w Hw). cbn in *. lia.
  - destruct P as (_ & _ & A & _). pose proof (proj1 (Forall_forall _ _) A w Hw). cbn in *. lia.
Qed.
Lemma main_view n s j c : steps n init s -> nth_error (drawn s) j = Some c ->
  c = draw (firstn (S j) (m_log (s_main s))) /\ exists l, nth_error (m_log (s_main s)) j = Some l /\ Permutation l (map (fun i => msg i (firstn j (drawn s))) (seq 0 nw)).
Proof.
  intros H E. apply inv_steps in H. assert (Hj : j < length (drawn s)) by (apply nth_error_Some; congruence).
  destruct (i_drawn _ H j Hj) as [A B]. split; [congruence|]. destruct (nth_error (m_log (s_main s)) j) as [l|] eqn:El; [|apply nth_error_None in El; lia].
  exists l. split; [reflexivity|]. exact (proj2 (i_log _ H) j l El).
Qed.

(** * Channels never fill up *)
Lemma par_or i r : i < 2 -> i = par r \/ i = par (S r).
Proof. intros H. pose proof (par_S r). unfold par in *. pose proof (Nat.mod_upper_bound r 2 ltac:(lia)). pose proof (Nat.mod_upper_bound (S r) 2 ltac:(lia)). lia. Qed.
Lemma cnt_le r ws : cnt r ws <= length ws.
Proof. unfold cnt. induction ws as [|w ws IH]; cbn; [lia|]. destruct (at_round r w); cbn; lia. Qed.
Lemma queues_inv s i : inv s -> i < 2 -> length (s_ef s i) <= nw /\ length (s_ch s i) <= nw.
Proof.
  intros H Hi. pose proof (i_phase _ H) as P. cbv zeta in P. pose proof (i_len _ H) as HL. destruct (m_phase (s_main s)) as [got|k c].
  - destruct P as (A & B & D & E1 & E2 & P & L). set (r := m_round (s_main s)) in *. destruct (par_or i r Hi) as [->| ->].
    + rewrite B. cbn [length]. split; [|lia]. apply Permutation_length in P. rewrite app_length in P. pose proof (sentm_le r (s_ws s) 0). lia.
    + rewrite D. cbn [length]. split; [lia|]. destruct r as [|r'].
      * change (par 1) with 1. rewrite (E2 eq_refl). cbn. lia.
      * destruct (E1 r' eq_refl) as (c & _ & Y). rewrite par_SS, Y, repeat_length. pose proof (cnt_le r' (s_ws s)). lia.
  - destruct P as (K0 & K1 & A & K2 & B & D & E & P). destruct (par_or i (m_round (s_main s)) Hi) as [->| ->].
    + rewrite E, B, repeat_length. cbn [length]. lia.
    + rewrite D. cbn [length]. split; [|lia]. apply Permutation_length in P. pose proof (sentm_le (S (m_round (s_main s))) (s_ws s) 0). lia.
Qed.
Lemma queues_bounded n s i : steps n init s -> i < 2 -> length (s_ef s i) < cap nw /\ length (s_ch s i) < cap nw.
Proof. intros H Hi. apply inv_steps in H. destruct (queues_inv s i H Hi). unfold cap. lia. Qed.

(** * Progress *)
Lemma pick {A} (p : A -> bool) l : forallb p l = true \/ exists a x b, l = a ++ x :: b /\ p x = false.
Proof.
  induction l as [|x l IH]; [now left|]. cbn. destruct (p x) eqn:E.
  - destruct IH as [IH|(a & y & b & -> & Hy)]; [now left|]. right. exists (x :: a), y, b. auto.
  - right. exists [], x, l. auto.
Qed.
Lemma cnt_mid r a w b : w_round w = r -> 0 < cnt r (a ++ w :: b).
Proof. intros H. rewrite cnt_app, cnt_cons, H, Nat.eqb_refl. lia. Qed.
Lemma progress_inv s : inv s -> finished s \/ exists s', step s s'.
Proof.
  intros H. pose proof (i_phase _ H) as P. cbv zeta in P. pose proof (fun i Hi => queues_inv s i H Hi) as Q. pose proof (i_len _ H) as HL. pose proof (i_roll _ H) as HR.
  pose proof (i_ws _ H) as HW. pose proof (i_le _ H) as Hle.
  destruct s as [m ws ef ch]. cbn [s_main s_ws s_ef s_ch] in *. set (d := drawn _) in HW. clearbody d.
  assert (HQ : forall r, length (ef (par r)) < cap nw /\ length (ch (par r)) < cap nw).
  { intros r. destruct (Q (par r)) as [X Y]; [apply Nat.mod_upper_bound; lia|]. unfold cap. lia. }
  destruct (m_phase m) as [got|k c] eqn:Ep.
  - destruct P as (A & B & D & E1 & E2 & P & L).
    assert (Hrecv : forall a w b, ws = a ++ w :: b -> S (w_round w) = m_round m -> w_sent w = true -> exists s', step (mkS m ws ef ch) s').
    { intros a w b -> Hw Hs. destruct (E1 _ (eq_sym Hw)) as (c & _ & Y). pose proof (cnt_mid _ a w b eq_refl) as Hc.
      apply F_mid in HW. destruct HW as (_ & G & _). destruct (cnt (w_round w) (a ++ w :: b)) as [|n0]; [lia|]. cbn [repeat] in Y.
      eexists. eapply W_recv; [exact Hs|]. rewrite (gw_roll _ _ G). exact Y. }
    destruct (Nat.eq_dec (m_round m) rounds) as [Er|Er].
    + destruct (pick (at_round rounds) ws) as [F|(a & w & b & -> & Hw)].
      * left. split; [exact Er|]. cbn. apply Forall_forall. intros w Hw. apply Nat.eqb_eq. exact (proj1 (forallb_forall _ _) F w Hw).
      * right. apply F_mid in A. destruct A as (_ & [A|[A S']] & _); [unfold at_round in Hw; rewrite A, Er, Nat.eqb_refl in Hw; discriminate|].
        now apply (Hrecv a w b).
    + right. destruct (Nat.eq_dec (length got) nw) as [Eg|Eg]; [eexists; eapply M_draw; [exact Ep|lia|exact Eg]|].
      destruct (ef (par (m_round m))) as [|x q] eqn:Eq.
      * destruct (pick (is_sent (m_round m)) ws) as [F|(a & w & b & Ew & Hw)].
        -- exfalso. apply Permutation_length in P. rewrite app_nil_r in P. apply Eg. rewrite P, <- HL. clear - F. generalize 0 as i.
           induction ws as [|w ws IH]; intros i; [reflexivity|]. cbn in *. apply andb_true_iff in F. destruct F as [F1 F2]. rewrite F1. cbn. now rewrite IH.
        -- subst ws. pose proof A as A'. apply F_mid in A'. destruct A' as (_ & [A'|[A' S']] & _); [|now apply (Hrecv a w b)].
           assert (Hns : w_sent w = false) by (unfold is_sent in Hw; rewrite A', Nat.eqb_refl in Hw; exact Hw).
           apply F_mid in HW. destruct HW as (_ & G & _).
           eexists. eapply W_send; [exact Hns|lia|]. rewrite (gw_roll _ _ G). apply HQ.
      * eexists. eapply M_recv; [exact Ep|lia|lia|]. rewrite HR. exact Eq.
  - right. destruct P as (K0 & K1 & _). destruct (Nat.eq_dec k nw) as [->|Hk].
    + eexists. eapply M_next. exact Ep.
    + eexists. eapply M_send; [exact Ep|lia|]. rewrite HR. apply HQ.
Qed.
Lemma no_deadlock n s : steps n init s -> finished s \/ exists s', step s s'.
Proof. intros H. apply progress_inv. eapply inv_steps; eassumption. Qed.

(** * Termination *)
Definition pw (w : @worker C) : nat := 2 * w_round w + if w_sent w then 1 else 0.
Definition pws (ws : list (@worker C)) : nat := list_sum (map pw ws).
Definition pm (m : @main M C) : nat := (2 * nw + 2) * m_round m + match m_phase m with Collect got => length got | Sending k _ => nw + 1 + k end.
Definition total : nat := rounds * (4 * nw + 2).
Lemma pws_mid a w b : pws (a ++ w :: b) = pws a + pw w + pws b.
Proof. unfold pws. rewrite map_app, list_sum_app. change (list_sum (map pw (w :: b))) with (pw w + list_sum (map pw b)). lia. Qed.
Lemma prog_step s s' : step s s' -> pm (s_main s') + pws (s_ws s') = S (pm (s_main s) + pws (s_ws s)).
Proof.
  intros St. destruct St; cbn [s_main s_ws]; rewrite ?pws_mid; unfold pw, pm; cbn [w_round w_sent m_round m_phase];
    repeat match goal with E : w_sent _ = _ |- _ => rewrite E | E : m_phase _ = _ |- _ => rewrite E end; rewrite ?app_length; cbn [length]; lia.
Qed.
Lemma prog_steps n s : steps n init s -> pm (s_main s) + pws (s_ws s) = n.
Proof.
  intros H. remember init as s0 eqn:E. induction H as [s1|n s1 s2 s3 H IH St]; subst.
  - cbn. unfold pm. cbn. rewrite Nat.mul_0_r. cbn. unfold pws. clear. induction nw as [|k IH]; [reflexivity|exact IH].
  - apply prog_step in St. rewrite St, IH; reflexivity.
Qed.
Lemma pws_le ws d : Forall (good_worker d) ws -> pws ws <= 2 * rounds * length ws.
Proof.
  induction 1 as [|w ws [_ A B _] _ IH]; [cbn; lia|]. change (pws (w :: ws)) with (pw w + pws ws). cbn [length]. unfold pw. destruct (w_sent w); [specialize (B eq_refl)|]; lia.
Qed.
Lemma pws_eq ws d : Forall (good_worker d) ws -> Forall (fun w => w_round w = rounds) ws -> pws ws = 2 * rounds * length ws.
Proof.
  intros H1 H2. induction H2 as [|w ws A _ IH]; [cbn; lia|]. inversion H1 as [|? ? [_ _ B _] H1']; subst. change (pws (w :: ws)) with (pw w + pws ws). cbn [length]. rewrite IH by assumption.
  unfold pw. destruct (w_sent w); [specialize (B eq_refl)|]; lia.
Qed.
Lemma end_sent ws d : Forall (good_worker d) ws -> forall i, sentm i rounds ws = [].
Proof.
  intros H. apply sentm_none. eapply Forall_impl; [|exact H]. intros w [_ _ B _]. destruct (w_sent w); [specialize (B eq_refl); left; lia|now right].
Qed.
Lemma pm_le s : inv s -> pm (s_main s) <= (2 * nw + 2) * rounds.
Proof.
  intros H. pose proof (i_phase _ H) as P. cbv zeta in P. pose proof (i_le _ H) as Hle. unfold pm. destruct (m_phase (s_main s)) as [got|k c].
  - destruct P as (_ & _ & _ & _ & _ & P & L). destruct (Nat.eq_dec (m_round (s_main s)) rounds) as [Er|Er].
    + rewrite Er in P. rewrite (end_sent _ _ (i_ws _ H)) in P. apply Permutation_length in P. rewrite app_length in P. cbn in P. rewrite Er. lia.
    + assert ((2 * nw + 2) * S (m_round (s_main s)) <= (2 * nw + 2) * rounds) by (apply Nat.mul_le_mono_l; lia). lia.
  - destruct P as (K0 & K1 & _). assert ((2 * nw + 2) * S (m_round (s_main s)) <= (2 * nw + 2) * rounds) by (apply Nat.mul_le_mono_l; lia). lia.
Qed.
Lemma terminates n s : steps n init s -> n <= rounds * (4 * nw + 2).
Proof.
  intros H. rewrite <- (prog_steps _ _ H). apply inv_steps in H. pose proof (pm_le _ H). pose proof (pws_le _ _ (i_ws _ H)) as X. rewrite (i_len _ H) in X. lia.
Qed.
Lemma exact_length n s : steps n init s -> (finished s <-> n = rounds * (4 * nw + 2)).
Proof.
  intros H. pose proof (prog_steps _ _ H) as E. pose proof (inv_steps _ _ H) as I. split.
  - intros [F1 F2]. rewrite <- E. pose proof (pws_eq _ _ (i_ws _ I) F2) as X. rewrite (i_len _ I) in X. rewrite X. pose proof (i_phase _ I) as P. cbv zeta in P.
    unfold pm. rewrite F1. destruct (m_phase (s_main s)) as [got|k c]; [|rewrite F1 in P; lia].
    destruct P as (_ & _ & _ & _ & _ & P & L). rewrite F1, (end_sent _ _ (i_ws _ I)) in P. apply Permutation_length in P. rewrite app_length in P. cbn in P.
    replace (length got) with 0 by lia. lia.
  - intros En. destruct (progress_inv _ I) as [F|[s' St]]; [exact F|]. exfalso. assert (H' : steps (S n) init s') by (econstructor; eassumption).
    apply terminates in H'. lia.
Qed.
(** Every execution can be continued to the end. *)
Lemma steps_cons n s1 s2 s3 : step s1 s2 -> steps n s2 s3 -> steps (S n) s1 s3.
Proof. intros H K. induction K; [eapply steps_S; [apply steps_O|exact H]|]. eapply steps_S; [apply IHK; exact H|assumption]. Qed.
Lemma completes n s : steps n init s -> exists k s', steps k s s' /\ n + k = rounds * (4 * nw + 2) /\ finished s'.
Proof.
  intros H. remember (rounds * (4 * nw + 2) - n) as k eqn:Ek. revert n s H Ek. induction k as [|k IH]; intros n s H Ek; pose proof (terminates _ _ H).
  - exists 0, s. split; [apply steps_O|]. split; [lia|]. apply (exact_length _ _ H). lia.
  - destruct (no_deadlock _ _ H) as [F|[s1 St]]; [apply (exact_length _ _ H) in F; lia|]. assert (H' : steps (S n) init s1) by (econstructor; eassumption).
    destruct (IH (S n) s1 H' ltac:(lia)) as (k' & s' & A & B & D). exists (S k'), s'. split; [eapply steps_cons; eassumption|]. split; [lia|exact D].
Qed.
(** The outcome: all threads hold the same challenges and the channels are empty. *)
Lemma outcome n s : steps n init s -> finished s ->
  length (m_chs (s_main s)) = rounds /\ (forall w, In w (s_ws s) -> w_chs w = m_chs (s_main s)) /\
  (forall i, i < 2 -> s_ef s i = [] /\ s_ch s i = []).
Proof.
  intros H F. pose proof (inv_steps _ _ H) as I. pose proof F as [F1 F2]. pose proof (i_phase _ I) as P. cbv zeta in P. rewrite F1 in P.
  destruct (m_phase (s_main s)) as [got|k c] eqn:Ep; [|lia]. split; [rewrite (i_chs _ I); exact F1|]. split.
  - intros w Hw. destruct (worker_view _ _ _ H Hw) as [E _]. rewrite E. unfold drawn. rewrite Ep, app_nil_r. apply firstn_all2. rewrite (i_chs _ I), F1.
    rewrite (proj1 (Forall_forall _ _) F2 w Hw). lia.
  - destruct P as (A & B & D & E1 & E2 & P & L). rewrite (end_sent _ _ (i_ws _ I)) in P. apply Permutation_length in P. rewrite app_length in P. cbn [length] in P.
    intros i Hi. destruct (par_or i rounds Hi) as [->| ->].
    + split; [|exact B]. destruct (s_ef s (par rounds)); [reflexivity|cbn [length] in P; lia].
    + split; [exact D|]. destruct (Nat.eq_dec rounds 0) as [Z|Z]; [rewrite Z; exact (E2 Z)|].
      assert (Er : rounds = S (pred rounds)) by lia. destruct (E1 _ Er) as (c & _ & Y).
      rewrite Er, par_SS, Y, cnt_none; [reflexivity|]. eapply Forall_impl; [|exact F2]. cbn. intros w Ew. lia.
Qed.

(** * The schedule does not matter *)
Lemma F2_nth {A} (R : A -> A -> Prop) : forall l l', length l = length l' -> (forall j x y, nth_error l j = Some x -> nth_error l' j = Some y -> R x y) -> Forall2 R l l'.
Proof.
  induction l as [|x l IH]; intros [|y l'] HL H; try discriminate HL; constructor; [apply (H 0); reflexivity|]. apply IH; [now injection HL|]. intros j a b Ha Hb. exact (H (S j) a b Ha Hb).
Qed.
Lemma ref_len n : length (fst (reference n)) = n /\ length (snd (reference n)) = n.
Proof. induction n as [|n IH]; [auto|]. cbn [reference]. destruct (reference n) as [l c]. cbn [fst snd] in *. rewrite !app_length. cbn [length]. lia. Qed.
Lemma ref_log n : forall j l, nth_error (fst (reference n)) j = Some l -> l = map (fun i => msg i (firstn j (snd (reference n)))) (seq 0 nw).
Proof.
  induction n as [|n IH]; intros j l E; [destruct j; discriminate E|]. pose proof (ref_len n) as RLn. cbn [reference] in *. destruct (reference n) as [log chs]. cbn [fst snd] in *. destruct RLn as [A B].
  destruct (Nat.lt_ge_cases j n) as [Hj|Hj].
  - rewrite nth_error_app1 in E by lia. rewrite (IH j l E). apply map_ext. intros i. f_equal. rewrite firstn_app. replace (j - length chs) with 0 by lia. cbn. now rewrite app_nil_r.
  - assert (j = n). { enough (j < S n) by lia. assert (X : nth_error (log ++ [map (fun i => msg i chs) (seq 0 nw)]) j <> None) by congruence. apply nth_error_Some in X. rewrite app_length in X. cbn in X. lia. }
    subst j. rewrite nth_error_app2 in E by lia. replace (n - length log) with 0 in E by lia. injection E as <-. apply map_ext. intros i. f_equal.
    rewrite firstn_app. replace (n - length chs) with 0 by lia. cbn. rewrite app_nil_r, firstn_all2 by lia. reflexivity.
Qed.
Lemma sequential n s : (forall l l', Forall2 (@Permutation M) l l' -> draw l = draw l') -> steps n init s ->
  drawn s = snd (reference (length (drawn s))).
Proof.
  intros Hd H. enough (forall k, k <= length (drawn s) -> firstn k (drawn s) = snd (reference k)) as X.
  { rewrite <- (X (length (drawn s))) by lia. now rewrite firstn_all. }
  pose proof (inv_steps _ _ H) as I. induction k as [|k IH]; intros Hk; [reflexivity|]. specialize (IH ltac:(lia)).
  destruct (nth_error (drawn s) k) as [c|] eqn:Ec; [|apply nth_error_None in Ec; lia]. rewrite <- (firstn_snoc _ _ _ Ec).
  destruct (main_view _ _ _ _ H Ec) as [-> (l & El & Pl)]. cbn [reference]. pose proof (ref_len k) as RN. pose proof (ref_log k) as RL. destruct (reference k) as [log chs]. cbn [fst snd] in *. destruct RN as [RA RB].
  rewrite IH in *. do 2 f_equal. apply Hd. rewrite <- (firstn_snoc _ _ _ El). apply Forall2_app; [|constructor; [exact Pl|constructor]].
  apply F2_nth.
  - rewrite firstn_length, (proj1 (i_log _ I)), RA. lia.
  - intros j x y Hx Hy. rewrite (RL j y Hy). assert (Hj : j < k). { rewrite <- RA. apply nth_error_Some. congruence. }
    assert (Hx' : nth_error (m_log (s_main s)) j = Some x).
    { rewrite <- (firstn_skipn k (m_log (s_main s))). rewrite nth_error_app1; [exact Hx|]. apply nth_error_Some. congruence. }
    rewrite (proj2 (i_log _ I) j x Hx'). unfold all_msgs. rewrite <- IH, firstn_firstn, Nat.min_l by lia. reflexivity.
Qed.
Lemma sequential_result n s : (forall l l', Forall2 (@Permutation M) l l' -> draw l = draw l') -> steps n init s -> finished s ->
  m_chs (s_main s) = snd (reference rounds) /\ forall w, In w (s_ws s) -> w_chs w = snd (reference rounds).
Proof.
  intros Hd H F. destruct (outcome _ _ H F) as (A & B & _). pose proof (sequential _ _ Hd H) as X.
  assert (E : drawn s = m_chs (s_main s)).
  { pose proof (inv_steps _ _ H) as I. pose proof (i_phase _ I) as P. cbv zeta in P. destruct F as [F1 _]. rewrite F1 in P. unfold drawn. destruct (m_phase (s_main s)); [apply app_nil_r|lia]. }
  rewrite E, A in X. split; [exact X|]. intros w Hw. rewrite (B w Hw). exact X.
Qed.
End P.
