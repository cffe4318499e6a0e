(** Completeness of the LogUp-GKR prover: the tables and the polynomial of one round. *)
From Coq Require Import List Arith Lia Bool ZArith Field Permutation.
From Verif Require Import ListAux FieldDef PolyList MleMath M_Mle P_Mle P_Eq M_Interp P_Interp M_Sumcheck
  P_ScVerify P_ScProve P_ScProve2 P_ScBatch P_ScFinal M_ScParallel P_ScParallel P_ScApi M_SamePoly P_SamePoly M_LogUp P_LogUp P_LogUp2 P_LogUp3 P_LogUp4.
Import ListNotations.

Section P.
Context {K : field}.
Add Field Kf_lu7 : (fth K).
Local Open Scope F_scope.

(** *** Order in which [build] stores the tables: first occurrences *)
Definition add_first (o : list nat) (a : nat) : list nat := if in_dec Nat.eq_dec a o then o else o ++ [a].
Definition tracks (heap : nat -> dmle K) (o : list nat) (t : ptr_tbl) (ms : list (dmle K)) : Prop :=
  ms = map heap o /\ forall a, In a o <-> tbl_get t a <> None.
Lemma add_one_tracks heap o t ms ix a : tracks heap o t ms ->
  exists t' ms' ix', add_one (t, ms, ix) (a, heap a) = (t', ms', ix') /\ tracks heap (add_first o a) t' ms'.
Proof.
  intros [Hm Ht]. unfold add_one, add_first. cbn [fst snd]. destruct (tbl_get t a) as [i|] eqn:E.
  - exists t, ms, (ix ++ [i]). split; [reflexivity|]. destruct (in_dec Nat.eq_dec a o) as [|n]; [split; auto|]. exfalso. apply n. apply Ht. congruence.
  - exists ((a, length ms) :: t), (ms ++ [heap a]), (ix ++ [length ms]). split; [reflexivity|].
    destruct (in_dec Nat.eq_dec a o) as [Hi|]; [apply Ht in Hi; congruence|].
    split; [rewrite map_app, Hm; reflexivity|]. intros b. cbn [tbl_get]. rewrite in_app_iff. destruct (Nat.eqb_spec b a) as [->|Hne].
    + split; [discriminate|right; left; auto].
    + rewrite Ht. split; [intros [?|[?|[]]]; [auto|congruence]|auto].
Qed.
Lemma add_ones_tracks heap : forall ps o t ms ix, tracks heap o t ms ->
  exists t' ms' ix', fold_left add_one (map (fun a => (a, heap a)) ps) (t, ms, ix) = (t', ms', ix') /\ tracks heap (fold_left add_first ps o) t' ms'.
Proof.
  induction ps as [|a ps IH]; intros o t ms ix H; [exists t, ms, ix; auto|]. cbn [map fold_left].
  destruct (add_one_tracks heap o t ms ix a H) as (t1 & ms1 & ix1 & E & H1). rewrite E. apply IH; auto.
Qed.
Lemma build_tracks heap : forall terms o t p t' p', tracks heap o t (vp_mles p) -> build heap terms (t, p) = Some (t', p') ->
  tracks heap (fold_left add_first (flat_map snd terms) o) t' (vp_mles p') /\ length (vp_products p') = (length (vp_products p) + length terms)%nat /\
  map fst (vp_products p') = map fst (vp_products p) ++ map fst terms.
Proof.
  induction terms as [|[c ps] terms IH]; intros o t p t' p' H Hb; cbn [build fst snd] in Hb.
  - assert (t = t') by congruence. assert (p = p') by congruence. subst. cbn [length map]. rewrite app_nil_r. split; [exact H|]. split; [lia|auto].
  - unfold add_mle_list in Hb. destruct (map (fun a => (a, heap a)) ps) as [|m0 r] eqn:Em; [discriminate|]. rewrite <- Em in Hb.
    match type of Hb with context [if ?x then _ else _] => destruct x; [|discriminate] end.
    destruct (add_ones_tracks heap ps o t (vp_mles p) [] H) as (t1 & ms1 & ix1 & E & H1). rewrite E in Hb. cbn [obind] in Hb.
    match type of Hb with build _ _ (_, ?p1) = _ => specialize (IH (fold_left add_first ps o) t1 p1 t' p' H1 Hb) as (A & B & C) end. cbn [flat_map]. rewrite fold_left_app. split; [exact A|].
    cbn [vp_products] in B, C. rewrite app_length in B. cbn [length] in B |- *. split; [lia|]. rewrite C, map_app, <- app_assoc. reflexivity.
Qed.

(** *** Tables of one layer *)
Definition emle (m : nat) (l : list K) : dmle K := mkMle (Ext l) m.
Definition lay_mles (m : nat) (l : @layer K) : list (dmle K) :=
  match l with
  | InitLookup d => [emle m (lo m d); emle m (hi m d)]
  | Generic n d | InitTable n d => [emle m (lo m n); emle m (hi m n); emle m (lo m d); emle m (hi m d)]
  end.
Lemma lo_length m (l : list K) : length l = 2 ^ S m -> length (lo m l) = 2 ^ m.
Proof. intros H. unfold lo. apply firstn_length_le. rewrite H. apply Nat.pow_le_mono_r; lia. Qed.
Lemma hi_length m (l : list K) : length l = 2 ^ S m -> length (hi m l) = 2 ^ m.
Proof. intros H. unfold hi. rewrite skipn_length, H, Nat.pow_succ_r'. lia. Qed.
Lemma get_mles_ok m l : wf_lay (S m) (base_of l) -> get_mles l = Some (lay_mles m l).
Proof.
  intros Hw. unfold get_mles. rewrite (layer_nv_ok m) by auto. cbn [obind].
  assert (P : 2 ^ m <= 2 ^ S m) by (apply Nat.pow_le_mono_r; lia).
  destruct l as [n d|n d|d]; destruct Hw as [H1 H2]; cbn [base_of fst snd] in *; cbv zeta;
    rewrite !split_at_ok by lia; cbn [obind omapM fst snd lay_mles]; unfold from_evaluations_ext_vec;
    fold (lo m d) (hi m d); try fold (lo m n) (hi m n); rewrite ?lo_length, ?hi_length, ?Nat.eqb_refl by auto; reflexivity.
Qed.
Lemma emle_wf m l : length l = 2 ^ m -> wf_mle (emle m l).
Proof. intros H. split; [reflexivity|]. split; [right; reflexivity|exact H]. Qed.
Lemma lay_mles_wf m l x : wf_lay (S m) (base_of l) -> In x (lay_mles m l) -> wf_mle x /\ num_vars x = m.
Proof.
  intros Hw Hin. destruct l as [n d|n d|d]; destruct Hw as [H1 H2]; cbn [base_of fst snd lay_mles] in *;
    repeat (destruct Hin as [<-|Hin]; [split; [apply emle_wf; (apply lo_length || apply hi_length); auto|reflexivity]|]); destruct Hin.
Qed.
(** Evaluations of one layer in the order of the proof. *)
Definition lay_evals (m : nat) (l : @layer K) (x : list K) : list K :=
  match l with
  | InitLookup d => [mle (hi m d) x; mle (lo m d) x]
  | Generic n d | InitTable n d => [mle (lo m n) x; mle (hi m d) x; mle (hi m n) x; mle (lo m d) x]
  end.
Lemma mle_repeat (c : K) m x : length x = m -> mle (repeat c (2 ^ m)) x = c.
Proof.
  intros Hx. transitivity (mlef (fun _ => c) x); [|apply mlef_const]. apply mlef_ext. intros i Hi. rewrite Hx in Hi.
  rewrite (nth_indep _ 0 c) by (rewrite repeat_length; auto). apply nth_repeat.
Qed.
Definition lay_quad (m : nat) (l : @layer K) (x : list K) : @quad K := tq m (base_of l) x.
Lemma lay_quad_lookup m d x : length d = 2 ^ S m -> length x = m -> lay_quad m (InitLookup d) x = emb (mle (hi m d) x, mle (lo m d) x).
Proof.
  intros Hd Hx. unfold lay_quad, tq, emb. cbn [base_of fst snd]. unfold lo at 1. unfold hi at 2. rewrite Hd.
  rewrite firstn_repeat', skipn_repeat' by (apply Nat.pow_le_mono_r; lia).
  replace (2 ^ S m - 2 ^ m)%nat with (2 ^ m)%nat by (rewrite Nat.pow_succ_r'; lia). rewrite !mle_repeat by auto. reflexivity.
Qed.

(** *** Terms of one round *)
Lemma round_terms_ok m al la : forall ls tabs ca, (forall l, In l ls -> wf_lay (S m) (base_of l)) ->
  exists ts, round_terms ls tabs ca al la = Some (tabs ++ flat_map (lay_mles m) ls, ts).
Proof.
  induction ls as [|l ls IH]; intros tabs ca Hw; cbn [round_terms flat_map].
  - rewrite app_nil_r. eauto.
  - rewrite (get_mles_ok m) by (apply Hw; left; auto). cbn [obind].
    destruct (IH (tabs ++ lay_mles m l) (ca * al) (fun x Hx => Hw x (or_intror Hx))) as [ts Hts]. rewrite Hts. cbn [obind fst snd]. rewrite <- app_assoc. eauto.
Qed.
Lemma layer_terms_addr l o ca la c ps a : In (c, ps) (layer_terms l o ca la) -> In a ps -> a = 0%nat \/ (o <= a < o + length (lay_mles 0 l)).
Proof.
  destruct l as [n d|n d|d]; cbn [layer_terms lay_mles length In]; intros H Ha;
  repeat (destruct H as [H|H]; [injection H as _ H; rewrite <- H in Ha; cbn [In] in Ha; lia|]); destruct H.
Qed.

Lemma add_first_in o a : In a o -> add_first o a = o.
Proof. intros H. unfold add_first. destruct (in_dec Nat.eq_dec a o); [auto|contradiction]. Qed.
Lemma add_first_new o a : ~ In a o -> add_first o a = o ++ [a].
Proof. intros H. unfold add_first. destruct (in_dec Nat.eq_dec a o); [contradiction|auto]. Qed.
(** Addresses of one layer in the order of first use. *)
Definition lay_addr (l : @layer K) (o : nat) : list nat :=
  match l with InitLookup _ => [o + 1; o]%nat | _ => [o; o + 3; o + 1; o + 2]%nat end.
Lemma layer_terms_order l ca la o1 o : In 0%nat o -> 0 < o1 -> (forall a, In a o -> a < o1) ->
  fold_left add_first (flat_map snd (layer_terms l o1 ca la)) o = o ++ lay_addr l o1.
Proof.
  intros H0 Hp Hlt.
  assert (N : forall j, ~ In (o1 + j)%nat o) by (intros j Hj; apply Hlt in Hj; lia).
  assert (N0 : ~ In o1 o) by (intros Hj; apply Hlt in Hj; lia).
  destruct l as [n d|n d|d]; cbn [layer_terms flat_map snd app fold_left lay_addr].
  1,2: set (o2 := o ++ [o1]); set (o3 := o2 ++ [(o1 + 3)%nat]); set (o4 := o3 ++ [(o1 + 1)%nat]); set (o5 := o4 ++ [(o1 + 2)%nat]);
    rewrite (add_first_in o 0) by auto; rewrite (add_first_new o o1) by auto; fold o2;
    rewrite (add_first_new o2 (o1 + 3)) by (unfold o2; rewrite in_app_iff; cbn [In]; intros [H|[H|[]]]; [eapply N; eauto|lia]); fold o3;
    rewrite (add_first_in o3 0) by (unfold o3, o2; rewrite !in_app_iff; auto);
    rewrite (add_first_new o3 (o1 + 1)) by (unfold o3, o2; rewrite !in_app_iff; cbn [In]; intros [[H|[H|[]]]|[H|[]]]; [eapply N; eauto|lia|lia]); fold o4;
    rewrite (add_first_new o4 (o1 + 2)) by (unfold o4, o3, o2; rewrite !in_app_iff; cbn [In]; intros [[[H|[H|[]]]|[H|[]]]|[H|[]]]; [eapply N; eauto|lia|lia|lia]); fold o5;
    rewrite (add_first_in o5 0) by (unfold o5, o4, o3, o2; rewrite !in_app_iff; auto);
    rewrite (add_first_in o5 (o1 + 2)) by (unfold o5; rewrite !in_app_iff; cbn [In]; auto);
    rewrite (add_first_in o5 (o1 + 3)) by (unfold o5, o4, o3; rewrite !in_app_iff; cbn [In]; auto);
    unfold o5, o4, o3, o2; rewrite <- !app_assoc; reflexivity.
  set (o2 := o ++ [(o1 + 1)%nat]). set (o3 := o2 ++ [o1]).
  rewrite (add_first_in o 0) by auto. rewrite (add_first_new o (o1 + 1)) by auto. fold o2.
  rewrite (add_first_in o2 0) by (unfold o2; rewrite !in_app_iff; auto).
  rewrite (add_first_new o2 o1) by (unfold o2; rewrite in_app_iff; cbn [In]; intros [H|[H|[]]]; [auto|lia]). fold o3.
  rewrite (add_first_in o3 0) by (unfold o3, o2; rewrite !in_app_iff; auto).
  rewrite (add_first_in o3 o1) by (unfold o3; rewrite !in_app_iff; cbn [In]; auto).
  rewrite (add_first_in o3 (o1 + 1)) by (unfold o3, o2; rewrite !in_app_iff; cbn [In]; auto).
  unfold o3, o2. rewrite <- app_assoc. reflexivity.
Qed.

Lemma round_terms_cons l ls tabs ca al la m : wf_lay (S m) (base_of l) ->
  round_terms (l :: ls) tabs ca al la =
  (rest <- round_terms ls (tabs ++ lay_mles m l) (ca * al) al la ;; Some (fst rest, layer_terms l (length tabs) ca la ++ snd rest)).
Proof. intros H. cbn [round_terms]. rewrite (get_mles_ok m) by auto. reflexivity. Qed.
Lemma lay_mles_len m l : length (lay_mles m l) = length (lay_mles 0 l).
Proof. destruct l; reflexivity. Qed.

Definition lay_tabs (m : nat) (l : @layer K) : list (dmle K) :=
  match l with
  | InitLookup d => [emle m (hi m d); emle m (lo m d)]
  | Generic n d | InitTable n d => [emle m (lo m n); emle m (hi m d); emle m (hi m n); emle m (lo m d)]
  end.
Section One.
Variables (m : nat) (al la : K) (heap : nat -> dmle K).
Lemma round_order : forall ls tabs ca ts fin, round_terms ls tabs ca al la = Some (fin, ts) ->
  (forall l, In l ls -> wf_lay (S m) (base_of l)) -> 0 < length tabs -> (forall a, a < length fin -> heap a = nth a fin dm) ->
  forall o, In 0%nat o -> (forall a, In a o -> a < length tabs) ->
  map heap (fold_left add_first (flat_map snd ts) o) = map heap o ++ flat_map (lay_tabs m) ls.
Proof.
  induction ls as [|l ls IH]; intros tabs ca ts fin Hr Hw Hp Hh o H0 Hlt.
  - cbn [round_terms] in Hr. assert (ts = []) by congruence. subst ts. cbn. rewrite app_nil_r. auto.
  - rewrite (round_terms_cons _ _ _ _ _ _ m) in Hr by (apply Hw; left; auto).
    destruct (round_terms_ok m al la ls (tabs ++ lay_mles m l) (ca * al) (fun x Hx => Hw x (or_intror Hx))) as [ts' E]. rewrite E in Hr. cbn [obind fst snd] in Hr.
    assert (Ef : fin = (tabs ++ lay_mles m l) ++ flat_map (lay_mles m) ls) by congruence.
    assert (Et : ts = layer_terms l (length tabs) ca la ++ ts') by congruence.
    rewrite Et, flat_map_app, fold_left_app, layer_terms_order by auto.
    assert (Hnth : forall j, j < length (lay_mles m l) -> heap (length tabs + j)%nat = nth j (lay_mles m l) dm).
    { intros j Hj. rewrite Hh by (rewrite Ef, !app_length; lia). rewrite Ef, app_nth1 by (rewrite app_length; lia).
      rewrite app_nth2 by lia. f_equal. lia. }
    rewrite (IH _ _ _ _ E).
    + rewrite map_app, <- app_assoc. f_equal. cbn [flat_map]. f_equal.
      pose proof (Hnth 0%nat) as N0. rewrite Nat.add_0_r in N0.
      destruct l as [n d|n d|d]; cbn [lay_addr map lay_tabs]; rewrite N0, !Hnth by (cbn; lia); reflexivity.
    + intros x Hx; apply Hw; right; auto.
    + rewrite app_length. lia.
    + intros a Ha. rewrite Hh by (rewrite Ef; auto). rewrite Ef. reflexivity.
    + apply in_or_app. left. auto.
    + intros a Ha. rewrite app_length. apply in_app_or in Ha as [Ha|Ha]; [specialize (Hlt a Ha); lia|].
      destruct l; cbn [lay_addr lay_mles length In] in *; lia.
Qed.
Lemma round_addr : forall ls tabs ca ts fin, round_terms ls tabs ca al la = Some (fin, ts) ->
  (forall l, In l ls -> wf_lay (S m) (base_of l)) -> 0 < length tabs ->
  length ts = (3 * length ls)%nat /\ fold_right Nat.max 0%nat (map (fun cp => length (snd cp)) ts) = match ls with [] => 0%nat | _ => 3%nat end /\
  forall c ps, In (c, ps) ts -> ps <> [] /\ length ps <= 3 /\ forall a, In a ps -> a < length fin.
Proof.
  induction ls as [|l ls IH]; intros tabs ca ts fin Hr Hw Hp.
  - cbn [round_terms] in Hr. assert (ts = []) by congruence. subst ts. cbn. split; [auto|]. split; [auto|]. intros c ps [].
  - rewrite (round_terms_cons _ _ _ _ _ _ m) in Hr by (apply Hw; left; auto).
    destruct (round_terms_ok m al la ls (tabs ++ lay_mles m l) (ca * al) (fun x Hx => Hw x (or_intror Hx))) as [ts' E]. rewrite E in Hr. cbn [obind fst snd] in Hr.
    assert (Ef : fin = (tabs ++ lay_mles m l) ++ flat_map (lay_mles m) ls) by congruence.
    assert (Et : ts = layer_terms l (length tabs) ca la ++ ts') by congruence.
    destruct (IH _ _ _ _ E (fun x Hx => Hw x (or_intror Hx)) ltac:(rewrite app_length; lia)) as (A & B & C).
    split; [rewrite Et, app_length, A; destruct l; cbn [layer_terms length]; lia|]. split.
    + rewrite Et, map_app, fold_right_app, B. destruct l, ls; cbn; reflexivity.
    + intros c ps Hin. rewrite Et in Hin. apply in_app_or in Hin as [Hin|Hin].
      * split; [|split].
        -- destruct l; cbn [layer_terms In] in Hin; repeat (destruct Hin as [Hin|Hin]; [injection Hin as _ Hin; rewrite <- Hin; discriminate|]); destruct Hin.
        -- destruct l; cbn [layer_terms In] in Hin; repeat (destruct Hin as [Hin|Hin]; [injection Hin as _ Hin; rewrite <- Hin; cbn [length]; lia|]); destruct Hin.
        -- intros a Ha. pose proof (layer_terms_addr _ _ _ _ _ _ _ Hin Ha) as Hb. rewrite <- (lay_mles_len m) in Hb. rewrite Ef, !app_length. lia.
      * destruct (C c ps Hin) as (C1 & C2 & C3). split; [auto|]. split; [auto|]. intros a Ha. specialize (C3 a Ha). rewrite Ef. auto.
Qed.
Lemma terms_val_app ts1 ts2 pt : terms_val heap (ts1 ++ ts2) pt = terms_val heap ts1 pt + terms_val heap ts2 pt.
Proof. unfold terms_val. rewrite map_app, fsum_app. reflexivity. Qed.
Lemma round_value : forall ls tabs ca ts fin, round_terms ls tabs ca al la = Some (fin, ts) ->
  (forall l, In l ls -> wf_lay (S m) (base_of l)) -> 0 < length tabs -> (forall a, a < length fin -> heap a = nth a fin dm) ->
  forall pt, length pt = m ->
  terms_val heap ts pt = mval (heap 0%nat) pt * (ca * wsum al (map (fun l => q_gate la (lay_quad m l pt)) ls)).
Proof.
  induction ls as [|l ls IH]; intros tabs ca ts fin Hr Hw Hp Hh pt Hpt.
  - cbn [round_terms] in Hr. assert (ts = []) by congruence. subst ts. unfold terms_val. cbn. ring.
  - rewrite (round_terms_cons _ _ _ _ _ _ m) in Hr by (apply Hw; left; auto).
    destruct (round_terms_ok m al la ls (tabs ++ lay_mles m l) (ca * al) (fun x Hx => Hw x (or_intror Hx))) as [ts' E]. rewrite E in Hr. cbn [obind fst snd] in Hr.
    assert (Ef : fin = (tabs ++ lay_mles m l) ++ flat_map (lay_mles m) ls) by congruence.
    assert (Et : ts = layer_terms l (length tabs) ca la ++ ts') by congruence.
    assert (Hnth : forall j, j < length (lay_mles m l) -> heap (length tabs + j)%nat = nth j (lay_mles m l) dm).
    { intros j Hj. rewrite Hh by (rewrite Ef, !app_length; lia). rewrite Ef, app_nth1 by (rewrite app_length; lia).
      rewrite app_nth2 by lia. f_equal. lia. }
    pose proof (Hnth 0%nat) as N0. rewrite Nat.add_0_r in N0.
    rewrite Et, terms_val_app. rewrite (IH _ _ _ _ E); auto.
    2: intros x Hx; apply Hw; right; auto. 2: rewrite app_length; lia.
    2: { intros a Ha. rewrite Hh by (rewrite Ef; auto). rewrite Ef. reflexivity. }
    cbn [map wsum].
    assert (G : terms_val heap (layer_terms l (length tabs) ca la) pt = mval (heap 0%nat) pt * (ca * q_gate la (lay_quad m l pt))).
    { pose proof (Hw l (or_introl eq_refl)) as [W1 W2].
      destruct l as [n d|n d|d]; unfold terms_val; cbn [layer_terms map fsum fprod fst snd];
        rewrite ?N0, ?Hnth by (cbn; lia); cbn [lay_mles nth];
        repeat match goal with |- context [mle (tbl (heap 0%nat)) (firstn (num_vars (heap 0%nat)) pt)] => change (mle (tbl (heap 0%nat)) (firstn (num_vars (heap 0%nat)) pt)) with (mval (heap 0%nat) pt) end;
        cbn [emle tbl evaluations num_vars]; rewrite firstn_all2 by lia.
      1,2: unfold lay_quad, tq, q_gate; cbn [base_of fst snd]; ring.
      rewrite lay_quad_lookup by auto. unfold emb, q_gate. cbn [fst snd]. ring. }
    rewrite G. ring.
Qed.
End One.
End P.
