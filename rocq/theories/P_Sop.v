(** Completeness of the sumcheck over a sum of products of tables with the same number of variables. *)
From Coq Require Import List Arith Lia Bool ZArith Field Permutation.
From Verif Require Import ListAux FieldDef PolyList MleMath M_Mle P_Mle P_Eq M_Interp P_Interp M_Sumcheck
  P_ScVerify P_ScProve P_ScProve2 P_ScBatch P_ScFinal M_ScParallel P_ScParallel P_ScApi M_Sop.
Import ListNotations.

Section P.
Context {K : field}.
Add Field Kf_sop : (fth K).
Local Open Scope F_scope.

(** The value of the sum of products at a point. *)
Definition sopf (ms : list (list K)) (terms : list (K * list nat)) (pt : list K) : K :=
  fsum (map (fun cp => fst cp * fprod (map (fun i => mle (nth i ms []) pt) (snd cp))) terms).
Definition sop_deg (terms : list (K * list nat)) : nat := fold_right Nat.max 0%nat (map (fun cp => length (snd cp)) terms).
(** The addresses appear for the first time in the order 0, 1, 2, ...; result: how many were seen. *)
Fixpoint seen (k : nat) (ix : list nat) : option nat :=
  match ix with
  | [] => Some k
  | i :: r => if Nat.ltb i k then seen k r else if Nat.eqb i k then seen (S k) r else None
  end.
(** All that the scheduling of the parallel prover depends on. *)
Definition sop_shape (nv cnt : nat) (ixs : list (list nat)) : @vp K := mkVp 0 nv (map (fun ix => (0, ix)) ixs) (repeat (mkMle (Ext []) nv) cnt).

Definition tseen (t : ptr_tbl) (k : nat) : Prop := forall a, tbl_get t a = if Nat.ltb a k then Some a else None.

Lemma seen_le : forall ix k k', seen k ix = Some k' -> k <= k'.
Proof.
  induction ix as [|i ix IH]; intros k k' H; cbn [seen] in H; [injection H as <-; lia|].
  destruct (Nat.ltb i k); [auto|]. destruct (Nat.eqb i k); [|discriminate]. apply IH in H. lia.
Qed.
Lemma seen_app : forall a b k, seen k (a ++ b) = match seen k a with Some k' => seen k' b | None => None end.
Proof.
  induction a as [|i a IH]; intros b k; cbn [seen app]; [reflexivity|]. destruct (Nat.ltb i k); [auto|]. destruct (Nat.eqb i k); auto.
Qed.
Lemma seen_bound : forall ix k k', seen k ix = Some k' -> forall i, In i ix -> i < k'.
Proof.
  induction ix as [|i ix IH]; intros k k' H j Hj; [destruct Hj|]. cbn [seen] in H.
  destruct (Nat.ltb_spec i k) as [Hi|Hi].
  - destruct Hj as [<-|Hj]; [apply seen_le in H; lia|eauto].
  - destruct (Nat.eqb_spec i k); [|discriminate]. destruct Hj as [<-|Hj]; [apply seen_le in H; lia|eauto].
Qed.

Lemma add_ones_seen (ms : list (dmle K)) d : forall ix k k' t ax, tseen t k -> seen k ix = Some k' -> k' <= length ms ->
  exists t', fold_left add_one (map (fun a => (a, nth a ms d)) ix) (t, firstn k ms, ax) = (t', firstn k' ms, ax ++ ix) /\ tseen t' k'.
Proof.
  induction ix as [|i ix IH]; intros k k' t ax Ht Hs Hk; cbn [seen map fold_left] in *.
  - injection Hs as <-. exists t. rewrite app_nil_r. auto.
  - pose proof (Ht i) as Hti. destruct (Nat.ltb_spec i k) as [Hi|Hi].
    + destruct (IH k k' t (ax ++ [i]) Ht Hs Hk) as (t' & E & H'). exists t'. split; [|auto].
      etransitivity; [|etransitivity; [exact E|rewrite <- app_assoc; reflexivity]]. f_equal. unfold add_one. cbn [fst snd]. rewrite Hti. reflexivity.
    + destruct (Nat.eqb_spec i k) as [->|]; [|discriminate]. pose proof (seen_le _ _ _ Hs) as Hle.
      destruct (IH (S k) k' ((k, k) :: t) (ax ++ [k])) as (t' & E & H'); auto.
      { intros a. cbn [tbl_get]. rewrite Ht. destruct (Nat.eqb_spec a k) as [->|]; [destruct (Nat.ltb_spec k (S k)); [reflexivity|lia]|].
        destruct (Nat.ltb_spec a k), (Nat.ltb_spec a (S k)); try reflexivity; lia. }
      exists t'. split; [|auto]. etransitivity; [|etransitivity; [exact E|rewrite <- app_assoc; reflexivity]]. f_equal. unfold add_one. cbn [fst snd]. rewrite Hti.
      rewrite firstn_length, Nat.min_l by lia. f_equal. f_equal.
      rewrite <- (firstn_skipn k ms) at 2. rewrite app_nth2 by (rewrite firstn_length; lia). rewrite firstn_length, Nat.min_l, Nat.sub_diag by lia.
      assert (Hl : length (skipn k ms) = (length ms - k)%nat) by apply skipn_length.
      rewrite <- (firstn_skipn k ms) at 3. rewrite firstn_app, firstn_length, Nat.min_l by lia. replace (S k - k)%nat with 1%nat by lia.
      rewrite firstn_firstn, Nat.min_r by lia. f_equal. destruct (skipn k ms) as [|x l]; [cbn [length] in Hl; lia|reflexivity].
Qed.

Lemma build_seen (ms : list (dmle K)) nv : (forall m, In m ms -> num_vars m = nv) -> forall terms k t deg prods,
  tseen t k -> seen k (concat (map snd terms)) = Some (length ms) -> (forall c ix, In (c, ix) terms -> ix <> []) ->
  exists t', build (fun a => nth a ms dm) terms (t, mkVp deg nv prods (firstn k ms))
    = Some (t', mkVp (fold_left Nat.max (map (fun cp => length (snd cp)) terms) deg) nv (prods ++ terms) ms).
Proof.
  intros Hnv. induction terms as [|[c ix] terms IH]; intros k t deg prods Ht Hs Hne.
  - cbn [map concat seen] in Hs. injection Hs as ->. exists t. cbn [build map fold_left]. rewrite firstn_all, app_nil_r. reflexivity.
  - cbn [map concat] in Hs. cbn [snd] in Hs. rewrite seen_app in Hs. destruct (seen k ix) as [k1|] eqn:E1; [|discriminate].
    pose proof (seen_le _ _ _ Hs) as Hle. destruct (add_ones_seen ms dm ix k k1 t [] Ht E1 Hle) as (t1 & Ef & Ht1).
    assert (Hin : forall a, In a ix -> num_vars (nth a ms dm) = nv).
    { intros a Ha. apply Hnv. apply nth_In. pose proof (seen_bound _ _ _ E1 a Ha). lia. }
    cbn [build fst snd]. unfold add_mle_list at 1. cbn [vp_nv vp_mles vp_deg vp_products].
    assert (Hix : ix <> []) by (apply (Hne c); left; reflexivity).
    destruct (map (fun a => (a, nth a ms dm)) ix) as [|x0 xs] eqn:Ex; [destruct ix; [contradiction|discriminate]|]. rewrite <- Ex in *.
    assert (Hx : forall pm, In pm (map (fun a => (a, nth a ms dm)) ix) -> num_vars (snd pm) = nv).
    { intros pm Hpm. apply in_map_iff in Hpm as (a & <- & Ha). cbn [snd]. auto. }
    assert (A1 : forallb (fun pm => Nat.leb (num_vars (snd pm)) nv) (map (fun a => (a, nth a ms dm)) ix) = true).
    { apply forallb_forall. intros pm Hpm. rewrite (Hx pm) by auto. apply Nat.leb_refl. }
    assert (A2 : forallb (fun pm => Nat.eqb (num_vars (snd pm)) (num_vars (snd x0))) (map (fun a => (a, nth a ms dm)) ix) = true).
    { apply forallb_forall. intros pm Hpm. rewrite (Hx pm) by auto. rewrite (Hx x0) by (rewrite Ex; left; reflexivity). apply Nat.eqb_refl. }
    rewrite A1, A2. cbn [andb]. rewrite Ef. cbn [obind app]. rewrite map_length.
    destruct (IH k1 t1 (Nat.max deg (length ix)) (prods ++ [(c, ix)]) Ht1 Hs) as (t' & E); [intros c' ix' H; apply (Hne c'); right; auto|].
    exists t'. etransitivity; [exact E|]. cbn [map fold_left snd]. rewrite <- app_assoc. reflexivity.
Qed.

Lemma sop_ok (T : @hist K -> K) ncpus scs nv (ms : list (dmle K)) (ls : list (list K)) terms h :
  0 < ncpus -> 0 < nv -> char_gt K (sop_deg terms) -> terms <> [] -> (forall c ix, In (c, ix) terms -> ix <> [] /\ length ix <= 5) ->
  Forall2 (fun m l => is_table m nv l) ms ls ->
  seen 0 (concat (map snd terms)) = Some (length ls) ->
  (forall i, i < nv -> valid_rsched (sop_shape nv (length ls) (map snd terms)) i (scs i)) ->
  exists pf h', sop_prove T ncpus scs nv ms terms h = Some (pf, map (fun l => mle l (pf_point pf)) ls, h') /\ length (pf_point pf) = nv /\
    ((forall r, In r (pf_point pf) -> not_node (sop_deg terms) r) ->
     verify T (hsum nv (sopf ls terms)) pf nv (sop_deg terms) h = Some (pf_point pf, sopf ls terms (pf_point pf), h')).
Proof.
  intros Hnc Hn Hch Hte Hterms Hms Hseen Hsc.
  assert (Lms : length ms = length ls) by (clear - Hms; induction Hms; cbn; auto).
  assert (Htab : forall i, i < length ls -> is_table (nth i ms dm) nv (nth i ls [])).
  { clear - Hms. induction Hms as [|m l ms ls H Hms IH]; intros i Hi; cbn [length] in Hi; [lia|]. destruct i; [exact H|]. apply IH. lia. }
  assert (Hnv : forall m, In m ms -> num_vars m = nv).
  { intros m Hm. apply (In_nth _ _ dm) in Hm as (i & Hi & <-). apply Htab. lia. }
  assert (Htb : forall i, i < length ls -> tbl (nth i ms dm) = nth i ls []).
  { intros i Hi. destruct (Htab i Hi) as (_ & [E|E] & _); unfold tbl; rewrite E; reflexivity. }
  destruct (build_seen ms nv Hnv terms 0 [] 0 []) as (t & Eb).
  { intros a. reflexivity. }
  { rewrite Lms. exact Hseen. }
  { intros c ix H. apply (Hterms c ix H). }
  cbn [firstn app] in Eb.
  assert (Edeg : fold_left Nat.max (map (fun cp => length (snd cp)) terms) 0%nat = sop_deg terms).
  { unfold sop_deg. generalize (map (fun cp : K * list nat => length (snd cp)) terms). intros l.
    apply fold_symmetric; intros; lia. }
  rewrite Edeg in Eb. set (p := mkVp (sop_deg terms) nv terms ms) in *.
  assert (Hb : forall c ix i, In (c, ix) terms -> In i ix -> i < length ls).
  { intros c ix i H Hi. eapply seen_bound; [exact Hseen|]. apply in_concat. exists ix. split; [apply (in_map snd terms (c, ix)); auto|auto]. }
  assert (Hmax : forall c ix, In (c, ix) terms -> length ix <= sop_deg terms).
  { intros c ix H. unfold sop_deg. clear - H. induction terms as [|x l IH]; [destruct H|]. cbn [map fold_right]. destruct H as [->|H]; [cbn [snd]; lia|apply IH in H; lia]. }
  assert (Hdeg : 0 < sop_deg terms).
  { destruct terms as [|[c ix] l]; [congruence|]. specialize (Hmax c ix (or_introl eq_refl)). destruct (Hterms c ix (or_introl eq_refl)) as [H _]. destruct ix; [congruence|]. cbn [length] in Hmax. lia. }
  assert (Hwp : wf_vp p).
  { constructor; cbn [p vp_deg vp_nv vp_mles vp_products]; auto.
    - intros m Hm. rewrite (Hnv m Hm). split; [|lia]. apply (In_nth _ _ dm) in Hm as (i & Hi & <-).
      unfold wf_mle. rewrite Htb by lia. assert (E : num_vars (nth i ms dm) = nv) by (apply Hnv, nth_In; lia). rewrite E. apply Htab. lia.
    - intros c ix H. destruct (Hterms c ix H) as [H1 H2]. split; [destruct ix; [congruence|cbn; lia]|]. split; [auto|]. split; [eauto|].
      split; [intros i Hi; rewrite Lms; eauto|]. intros i j Hi Hj. rewrite !Hnv; auto; apply nth_In; rewrite Lms; eauto. }
  assert (Eb2 : build (fun a => nth a ms (mkMle Unreachable 0)) terms ([], vp_new nv) = Some (t, p)) by exact Eb.
  unfold sop_prove. rewrite Eb2. cbn [obind snd].
  destruct (parallel_completeness T ncpus scs p h Hnc Hch Hwp) as (pf & st & h' & Epf & Hlpt & Hfin & Hver).
  { intros i Hi. destruct (Hsc i Hi) as [A B C]. cbn [sop_shape vp_mles vp_products] in A, B, C. rewrite map_length, map_length in B, C. rewrite repeat_length in A.
    constructor; cbn [p vp_mles vp_products].
    - intros Hk j Hj Hjk. specialize (A Hk j). rewrite Hnv in Hjk |- * by (apply nth_In; auto).
      rewrite (nth_indep _ dm (mkMle (Ext []) nv)) in A by (rewrite repeat_length; lia). rewrite nth_repeat in A. cbn [num_vars] in A. apply A; lia.
    - intros q Hq Hkq. specialize (B q Hq).
      assert (Ep : prod_nv p q = nv).
      { unfold prod_nv. cbn [p vp_products vp_mles]. apply Hnv, nth_In. rewrite Lms. destruct (nth q terms (0, [])) as [c ix] eqn:Eq.
        assert (Hin : In (c, ix) terms) by (rewrite <- Eq; apply nth_In; auto). apply (Hb c ix); auto. cbn [snd]. apply nth_In.
        destruct (Hterms c ix Hin) as [H _]. destruct ix; [congruence|cbn; lia]. }
      assert (Es : prod_nv (sop_shape nv (length ls) (map snd terms)) q = nv).
      { unfold prod_nv. cbn [sop_shape vp_products vp_mles]. destruct (nth q terms (0, [])) as [c ix] eqn:Eq.
        assert (Hin : In (c, ix) terms) by (rewrite <- Eq; apply nth_In; auto).
        rewrite (nth_map_lt _ _ _ []) by (rewrite map_length; auto). cbn [snd]. rewrite (nth_map_lt _ _ _ (0, [])) by auto. rewrite Eq. cbn [snd].
        rewrite (nth_indep _ dm (mkMle (Ext []) nv)); [rewrite nth_repeat; reflexivity|]. rewrite repeat_length. apply (Hb c ix); auto. apply nth_In.
        destruct (Hterms c ix Hin) as [H _]. destruct ix; [congruence|cbn; lia]. }
      rewrite Es in B. rewrite Ep in Hkq |- *. auto.
    - exact C. }
  rewrite Epf. cbn [obind]. rewrite Hfin. cbn [obind p vp_mles].
  exists pf, h'. cbn [p vp_nv] in Hlpt. split; [|split; [auto|]].
  - f_equal. f_equal. f_equal. apply (nth_ext _ _ 0 0); [rewrite !map_length; auto|]. intros i Hi. rewrite map_length in Hi.
    rewrite (nth_map_lt _ _ _ dm) by auto. rewrite (nth_map_lt _ _ _ []) by lia. unfold mval. rewrite Htb by lia.
    rewrite Hnv by (apply nth_In; auto). rewrite firstn_all2 by lia. reflexivity.
  - intros Hr. cbn [p vp_nv vp_deg] in Hver. specialize (Hver Hr).
    assert (Hval : forall pt, length pt = nv -> vp_val p pt = sopf ls terms pt).
    { intros pt Hpt. unfold vp_val, prod_val, sopf. cbn [p vp_products vp_mles]. f_equal. apply map_ext_in. intros [c ix] Hin. cbn [fst snd]. f_equal. f_equal.
      apply map_ext_in. intros i Hi. specialize (Hb c ix i Hin Hi). unfold mval. rewrite Htb by auto. rewrite Hnv by (apply nth_In; lia).
      rewrite firstn_all2 by lia. reflexivity. }
    rewrite Hval in Hver by auto. rewrite <- Hver. f_equal. symmetry. apply hsum_ext. intros pt Hpt. apply Hval. auto.
Qed.
End P.
