(** Statements of the sumcheck properties at the level of the public functions. *)
From Coq Require Import List Arith Lia Bool ZArith Field Permutation.
From Verif Require Import ListAux FieldDef PolyList MleMath M_Mle P_Mle P_Eq M_Interp P_Interp M_Sumcheck
  P_ScVerify P_ScProve P_ScProve2 P_ScBatch P_ScFinal M_ScParallel P_ScParallel.
Import ListNotations.

Section P.
Context {K : field}.
Add Field Kf_sapi : (fth K).
Local Open Scope F_scope.

(** *** Building a virtual polynomial *)
(** Its mathematical value. *)
Definition terms_val (heap : nat -> dmle K) (terms : list (K * list nat)) (pt : list K) : K :=
  fsum (map (fun cp => fst cp * fprod (map (fun a => mle (tbl (heap a)) (firstn (num_vars (heap a)) pt)) (snd cp))) terms).
(** What [add_mle_list] and the prover require of the terms. *)
Definition wf_terms (heap : nat -> dmle K) (nv : nat) (terms : list (K * list nat)) : Prop :=
  forall c ps, In (c, ps) terms -> ps <> [] /\ length ps <= 5 /\
    (forall a, In a ps -> wf_mle (heap a) /\ 0 < num_vars (heap a) <= nv) /\
    (forall a b, In a ps -> In b ps -> num_vars (heap a) = num_vars (heap b)).

Definition tab_ok (heap : nat -> dmle K) (t : ptr_tbl) (ms : list (dmle K)) : Prop :=
  forall a i, tbl_get t a = Some i -> i < length ms /\ nth i ms dm = heap a.

Lemma add_ones heap nv : forall ps t ms ix,
  tab_ok heap t ms -> (forall m, In m ms -> wf_mle m /\ 0 < num_vars m <= nv) ->
  (forall a, In a ps -> wf_mle (heap a) /\ 0 < num_vars (heap a) <= nv) ->
  exists t' ms' ix', fold_left add_one (map (fun a => (a, heap a)) ps) (t, ms, ix) = (t', ms ++ ms', ix ++ ix') /\
    tab_ok heap t' (ms ++ ms') /\ (forall m, In m (ms ++ ms') -> wf_mle m /\ 0 < num_vars m <= nv) /\
    length ix' = length ps /\ (forall i, In i ix' -> i < length (ms ++ ms')) /\
    map (fun i => nth i (ms ++ ms') dm) ix' = map heap ps.
Proof.
  induction ps as [|a ps IH]; intros t ms ix Ht Hms Hps.
  - exists t, [], []. cbn [map fold_left length]. rewrite !app_nil_r. split; [auto|]. split; [auto|]. split; [auto|]. split; [auto|]. split; [intros i []|auto].
  - cbn [map fold_left].
    assert (Ha : wf_mle (heap a) /\ 0 < num_vars (heap a) <= nv) by (apply Hps; left; auto).
    assert (Hps' : forall b, In b ps -> wf_mle (heap b) /\ 0 < num_vars (heap b) <= nv) by (intros; apply Hps; right; auto).
    unfold add_one at 2. cbn [fst snd].
    destruct (tbl_get t a) as [i|] eqn:Et.
    + destruct (IH t ms (ix ++ [i]) Ht Hms Hps') as (t' & ms' & ix' & E & H1 & H2 & H3 & H4 & H5).
      exists t', ms', (i :: ix'). rewrite <- app_assoc in E. cbn [app] in E.
      destruct (Ht _ _ Et) as [Hi Hn].
      split; [exact E|]. split; [auto|]. split; [auto|]. split; [cbn [length]; auto|]. split.
      * intros j [<-|Hj]; [rewrite app_length; lia|auto].
      * cbn [map]. f_equal; auto. rewrite app_nth1; auto.
    + set (ms1 := ms ++ [heap a]).
      assert (Ht1 : tab_ok heap ((a, length ms) :: t) ms1).
      { intros b i E. cbn [tbl_get] in E. unfold ms1. destruct (Nat.eqb_spec b a) as [->|].
        - injection E as <-. rewrite app_length. cbn [length]. split; [lia|].
          rewrite app_nth2, Nat.sub_diag by lia. reflexivity.
        - destruct (Ht _ _ E) as [Hi Hn]. rewrite app_length. split; [lia|]. rewrite app_nth1; auto. }
      assert (Hms1 : forall m, In m ms1 -> wf_mle m /\ 0 < num_vars m <= nv).
      { intros m Hm. apply in_app_or in Hm. destruct Hm as [Hm|[<-|[]]]; auto. }
      destruct (IH _ ms1 (ix ++ [length ms]) Ht1 Hms1 Hps') as (t' & ms' & ix' & E & H1 & H2 & H3 & H4 & H5).
      exists t', (heap a :: ms'), (length ms :: ix').
      rewrite <- app_assoc in E. cbn [app] in E. unfold ms1 in *. rewrite <- app_assoc in *. cbn [app] in *.
      split; [exact E|]. split; [auto|]. split; [auto|]. split; [cbn [length]; auto|]. split.
      * intros j [<-|Hj]; [rewrite app_length; cbn [length]; lia|auto].
      * cbn [map]. f_equal; auto. rewrite app_nth2, Nat.sub_diag by lia. reflexivity.
Qed.

(** Everything but [vp_deg > 0]. *)
Record wf_part (nv : nat) (p : @vp K) : Prop := {
  wp_nv : vp_nv p = nv;
  wp_mles : forall m, In m (vp_mles p) -> wf_mle m /\ 0 < num_vars m <= nv;
  wp_prods : forall c ix, In (c, ix) (vp_products p) ->
     0 < length ix /\ length ix <= 5 /\ length ix <= vp_deg p /\
     (forall i, In i ix -> i < length (vp_mles p)) /\
     (forall i j, In i ix -> In j ix ->
        num_vars (nth i (vp_mles p) dm) = num_vars (nth j (vp_mles p) dm))
}.

Lemma build_ok heap nv : forall terms t p,
  wf_terms heap nv terms -> tab_ok heap t (vp_mles p) -> wf_part nv p ->
  exists t' p', build heap terms (t, p) = Some (t', p') /\ wf_part nv p' /\
    (terms <> [] -> 0 < vp_deg p') /\
    vp_deg p' = fold_right Nat.max (vp_deg p) (map (fun cp => length (snd cp)) terms) /\
    forall pt, vp_val p' pt = vp_val p pt + terms_val heap terms pt.
Proof.
  induction terms as [|[c ps] terms IH]; intros t p Hw Ht Hp.
  - exists t, p. split; [auto|]. split; [auto|]. split; [congruence|]. split; [auto|]. intros pt. unfold terms_val. simpl. ring.
  - cbn [build fst snd].
    destruct (Hw c ps (or_introl eq_refl)) as (Hne & H5 & Hps & Hsame).
    assert (Hw' : wf_terms heap nv terms) by (intros c' ps' Hin; apply (Hw c' ps'); right; auto).
    destruct Hp as [Hnv Hms Hpr].
    destruct (add_ones heap nv ps t (vp_mles p) [] Ht Hms Hps) as (t' & ms' & ix' & E & H1 & H2 & H3 & H4 & H6).
    cbn [app] in E.
    unfold add_mle_list. destruct ps as [|a ps']; [congruence|].
    set (ps := a :: ps') in *.
    change (map (fun a0 => (a0, heap a0)) ps) with ((a, heap a) :: map (fun a0 => (a0, heap a0)) ps') at 1. cbv iota.
    assert (Hf1 : forallb (fun pm => (num_vars (snd pm) <=? vp_nv p)%nat) (map (fun a0 : nat => (a0, heap a0)) ps) = true).
    { apply forallb_forall. intros x Hx. apply in_map_iff in Hx. destruct Hx as (b & <- & Hb). cbn [snd].
      apply Nat.leb_le. rewrite Hnv. apply Hps; auto. }
    assert (Hf2 : forallb (fun pm => (num_vars (snd pm) =? num_vars (snd (a, heap a)))%nat) (map (fun a0 : nat => (a0, heap a0)) ps) = true).
    { apply forallb_forall. intros x Hx. apply in_map_iff in Hx. destruct Hx as (b & <- & Hb). cbn [snd].
      apply Nat.eqb_eq. apply Hsame; auto. left; auto. }
    rewrite Hf1, Hf2. cbn [andb]. rewrite E. cbn [obind].
    set (p1 := mkVp (Nat.max (vp_deg p) (length (map (fun a0 : nat => (a0, heap a0)) ps))) (vp_nv p)
                 (vp_products p ++ [(c, ix')]) (vp_mles p ++ ms')).
    assert (Hlen : length (map (fun a0 : nat => (a0, heap a0)) ps) = length ps) by apply map_length.
    assert (Hl0 : 0 < length ps) by (unfold ps; cbn [length]; lia).
    assert (Hp1 : wf_part nv p1).
    { constructor; cbn [p1 vp_nv vp_mles vp_products vp_deg]; auto.
      intros c0 ix Hin. apply in_app_or in Hin. destruct Hin as [Hin|[Hin|[]]].
      - destruct (Hpr _ _ Hin) as (Ha & Hb & Hc & Hd & He). repeat split; auto; try lia.
        + intros i Hi. rewrite app_length. specialize (Hd i Hi). lia.
        + intros i j Hi Hj. rewrite !app_nth1 by auto. auto.
      - injection Hin as <- <-. repeat split; try lia; auto.
        intros i j Hi Hj.
        assert (Hh : forall i, In i ix' -> exists b, In b ps /\ nth i (vp_mles p ++ ms') dm = heap b).
        { intros i0 Hi0. assert (Hm : In (nth i0 (vp_mles p ++ ms') dm) (map heap ps)).
          { rewrite <- H6. apply (in_map (fun i => nth i (vp_mles p ++ ms') dm)). auto. }
          apply in_map_iff in Hm. destruct Hm as (b & Eb & Hb). eauto. }
        destruct (Hh i Hi) as (b1 & Hb1 & ->). destruct (Hh j Hj) as (b2 & Hb2 & ->). auto. }
    destruct (IH t' p1 Hw' H1 Hp1) as (t2 & p2 & E2 & Hp2 & _ & Hd2 & Hv2).
    exists t2, p2. split; [exact E2|]. split; [auto|].
    assert (Hd2' : vp_deg p2 = Nat.max (length ps) (fold_right Nat.max (vp_deg p) (map (fun cp => length (snd cp)) terms))).
    { rewrite Hd2. cbn [p1 vp_deg]. rewrite Hlen. clear. induction terms as [|x terms IH]; cbn [map fold_right]; lia. }
    split; [intros _; rewrite Hd2'; lia|]. split.
    + rewrite Hd2'. reflexivity.
    + intros pt. rewrite Hv2. unfold vp_val at 1. cbn [p1 vp_products vp_mles].
      unfold prod_val. rewrite map_app, fsum_app. cbn [map fsum fst snd].
      unfold terms_val. cbn [map fsum fst snd].
      replace (map (fun i : nat => mval (nth i (vp_mles p ++ ms') dm) pt) ix')
        with (map (fun a0 => mle (tbl (heap a0)) (firstn (num_vars (heap a0)) pt)) ps).
      2: { rewrite <- (map_map heap (fun m => mval m pt)), <- H6, map_map. reflexivity. }
      replace (fsum (map (fun p0 => fst p0 * fprod (map (fun i => mval (nth i (vp_mles p ++ ms') dm) pt) (snd p0))) (vp_products p)))
        with (vp_val p pt).
      { ring. }
      unfold vp_val, prod_val. f_equal. apply map_ext_in. intros [c0 ix] Hin. cbn [fst snd]. do 2 f_equal.
      apply map_ext_in. intros i Hi. rewrite app_nth1; auto. apply (wp_prods _ _ (Build_wf_part nv p Hnv Hms Hpr) c0 ix); auto.
Qed.

Lemma build_new heap nv terms : 0 < nv -> terms <> [] -> wf_terms heap nv terms ->
  exists t p, build heap terms ([], vp_new nv) = Some (t, p) /\ wf_vp p /\ vp_nv p = nv /\
    vp_deg p = fold_right Nat.max 0%nat (map (fun cp => length (snd cp)) terms) /\
    forall pt, vp_val p pt = terms_val heap terms pt.
Proof.
  intros Hn Hne Hw. destruct (build_ok heap nv terms [] (vp_new nv) Hw) as (t & p & E & Hp & Hd & Hd' & Hv).
  - intros a i H. discriminate.
  - constructor; cbn; auto; intros; contradiction.
  - exists t, p. split; [auto|]. destruct Hp as [Hnv Hms Hpr]. split; [|split; [auto|split; [auto|]]].
    + constructor; auto; rewrite Hnv; auto.
    + intros pt. rewrite Hv. unfold vp_val, prod_val. simpl. ring.
Qed.

(** [evaluate] computes the value. *)
Lemma fold_left_fmul (l : list K) acc : fold_left fmul l acc = acc * fprod l.
Proof. revert acc; induction l as [|x l IH]; intros acc; simpl; [ring|rewrite IH; ring]. Qed.

Lemma vp_evaluate_ok (sched : nat -> nat -> list nat) (p : @vp K) (pt : list K) :
  wf_vp p -> length pt = vp_nv p -> (forall n, valid_sched n (sched n)) ->
  vp_evaluate sched p pt = Some (vp_val p pt).
Proof.
  intros Hw Hl Hs. unfold vp_evaluate. rewrite Hl, Nat.eqb_refl.
  rewrite (omapM_all _ (fun m => mval m pt)).
  2: { intros m Hm. destruct (wv_mles _ Hw m Hm) as [Hm1 Hm2]. rewrite (proj2 (Nat.leb_le _ _)) by lia.
       apply evaluate_spec with (n := num_vars m); auto. rewrite firstn_length_le; lia. }
  cbn [obind].
  rewrite (omapM_all _ (fun cp => fst cp * fprod (map (fun i => mval (nth i (vp_mles p) dm) pt) (snd cp)))).
  - cbn [obind]. rewrite fold_left_fadd. f_equal. unfold vp_val, prod_val. ring.
  - intros [c ix] Hin. destruct (wv_prods _ Hw c ix Hin) as (_ & _ & _ & Hi & _). cbn [fst snd].
    rewrite (omapM_all _ (fun i => mval (nth i (vp_mles p) dm) pt)).
    + cbn [obind]. rewrite fold_left_fmul. f_equal. ring.
    + intros i Hx. rewrite (nth_error_nth' _ (mval dm pt)) by (rewrite map_length; auto).
      f_equal. apply (map_nth (fun m => mval m pt)).
Qed.

(** *** C07 *)
Definition not_node (deg : nat) (r : K) : Prop := forall i, i <= deg -> r <> fnat i.

Lemma parallel_completeness (T : @hist K -> K) ncpus scs p h :
  0 < ncpus -> char_gt K (vp_deg p) -> wf_vp p -> (forall i, i < vp_nv p -> valid_rsched p i (scs i)) ->
  exists pf st h', prove_parallel T ncpus scs p h = Some (pf, st, h') /\
    length (pf_point pf) = vp_nv p /\
    get_mle_final_evaluations st = Some (map (fun m => mval m (pf_point pf)) (vp_mles p)) /\
    ((forall r, In r (pf_point pf) -> not_node (vp_deg p) r) ->
     verify T (hsum (vp_nv p) (vp_val p)) pf (vp_nv p) (vp_deg p) h = Some (pf_point pf, vp_val p (pf_point pf), h')).
Proof.
  intros Hnc Hch Hw Hv.
  destruct (honest_run T (vp_deg p) (vp_nv p) (vp_val p) (h_init (vp_nv p) (vp_deg p) h)) as [[ms rs] h'] eqn:Er.
  destruct (prove_parallel_refines T ncpus scs p h ms rs h' Hnc Hch Hw Hv Er) as (st & E & Hf).
  exists (mkProof rs ms), st, h'. split; [auto|]. cbn [pf_point]. split; [|split; [auto|]].
  - pose proof (honest_run_length T (vp_deg p) (vp_nv p) (vp_val p) (h_init (vp_nv p) (vp_deg p) h)) as H.
    rewrite Er in H. apply H.
  - intros Hr. apply honest_verify; auto; try apply Hw. apply vp_val_indiv_deg; auto.
Qed.

Lemma batch_completeness (T : @hist K -> K) ncpus ords ford L nv deg polys h :
  0 < ncpus -> char_gt K deg -> wf_batch L nv deg polys ->
  (forall i, i < nv -> Permutation (ords i) (seq 0 (2 ^ L - 1))) -> Permutation ford (seq 0 (2 ^ L)) ->
  exists pf st h', prove_batch_polys T ncpus ords ford (2 ^ L) polys h = Some (pf, st, h') /\
    length (pf_point pf) = (nv + L)%nat /\
    get_mle_final_evaluations st =
      Some (map (fun i => batch_mle polys i (firstn nv (pf_point pf)) (skipn nv (pf_point pf)))
                (seq 0 (length (vp_mles (nth 0 polys dvp))))) /\
    ((forall r, In r (pf_point pf) -> not_node deg r) ->
     verify T (hsum (nv + L) (batch_val nv polys)) pf (nv + L) deg h
       = Some (pf_point pf, batch_val nv polys (pf_point pf), h')).
Proof.
  intros Hnc Hch Hw Ho Hfo.
  destruct (honest_run T deg (nv + L) (batch_val nv polys) (h_init (nv + L) deg h)) as [[ms rs] h'] eqn:Er.
  destruct (prove_batch_refines T ncpus ords ford L nv deg polys h ms rs h' Hnc Hch Hw Ho Hfo Er) as (st & E & Hf).
  exists (mkProof rs ms), st, h'. split; [auto|]. cbn [pf_point]. split; [|split; [auto|]].
  - pose proof (honest_run_length T deg (nv + L) (batch_val nv polys) (h_init (nv + L) deg h)) as H.
    rewrite Er in H. apply H.
  - intros Hr.
    assert (H0 : In (nth 0 polys dvp) polys).
    { apply nth_In. rewrite (wb_len _ _ _ _ Hw). apply pow2_pos. }
    destruct (wb_all _ _ _ _ Hw _ H0) as (Hw0 & Hn & Hd & _).
    apply honest_verify; auto.
    + rewrite <- Hd. apply Hw0.
    + pose proof (wv_nv _ Hw0). lia.
    + eapply batch_val_indiv_deg; eauto.
Qed.

(** The whole path a caller follows: build, prove, verify. *)
Lemma terms_completeness (T : @hist K -> K) ncpus heap nv terms h :
  0 < ncpus -> 0 < nv -> terms <> [] -> wf_terms heap nv terms ->
  char_gt K 5 ->
  exists t p, build heap terms ([], vp_new nv) = Some (t, p) /\ vp_nv p = nv /\
    (forall scs, (forall i, i < nv -> valid_rsched p i (scs i)) ->
     exists pf st h', prove_parallel T ncpus scs p h = Some (pf, st, h') /\ length (pf_point pf) = nv /\
      ((forall r, In r (pf_point pf) -> not_node (vp_deg p) r) ->
       verify T (sumn (2 ^ nv) (fun b => terms_val heap terms (bpt nv b))) pf nv (vp_deg p) h
         = Some (pf_point pf, terms_val heap terms (pf_point pf), h'))).
Proof.
  intros Hnc Hn Hne Hw Hch. destruct (build_new heap nv terms Hn Hne Hw) as (t & p & E & Hp & Hnv & Hd & Hv).
  exists t, p. split; [auto|]. split; [auto|]. intros scs Hs.
  assert (Hd5 : vp_deg p <= 5).
  { rewrite Hd. clear -Hw. induction terms as [|[c ps] terms IH]; cbn [map fold_right]; [lia|].
    destruct (Hw c ps (or_introl eq_refl)) as (_ & H & _). cbn [snd].
    assert (fold_right Nat.max 0%nat (map (fun cp : K * list nat => length (snd cp)) terms) <= 5)
      by (apply IH; intros c' ps' Hin; apply (Hw c' ps'); right; auto). lia. }
  destruct (parallel_completeness T ncpus scs p h Hnc) as (pf & st & h' & E1 & Hl & _ & Hver); auto.
  - eapply char_gt_le; eauto.
  - rewrite Hnv. auto.
  - exists pf, st, h'. split; [auto|]. rewrite Hnv in *. split; [auto|]. intros Hr.
    rewrite <- Hv. rewrite <- Hver by auto. f_equal. unfold hsum. apply sumn_ext. intros b _. symmetry. apply Hv.
Qed.

(** *** C08 *)
Definition hist_upto (h : @hist K) (msgs : list (list K)) : hist :=
  fold_left (fun h m => EvSample :: EvBytes lbl_round :: absorb h m) msgs h.
Definition challenge_of (T : @hist K -> K) (h : hist) (msgs : list (list K)) (i : nat) : K :=
  T (EvBytes lbl_round :: absorb (hist_upto h (firstn i msgs)) (nth i msgs [])).
Lemma fs_challenges T : forall msgs h i, i < length msgs -> nth i (fst (fs T h msgs)) 0 = challenge_of T h msgs i.
Proof.
  induction msgs as [|m t IH]; intros h i Hi; cbn [length] in Hi; [lia|]. cbn [fs].
  unfold get_challenge. cbv zeta. specialize (IH (EvSample :: EvBytes lbl_round :: absorb h m)).
  destruct (fs T (EvSample :: EvBytes lbl_round :: absorb h m) t) as [rs h''] eqn:E. cbn [fst] in *.
  destruct i as [|i]; [reflexivity|]. cbn [nth]. rewrite IH by lia. reflexivity.
Qed.

(** The challenge point the transcript determines for the messages of a proof. *)
Definition sc_point (T : @hist K -> K) (nv deg : nat) (h : hist) (pf : @proof K) : list K :=
  map (challenge_of T (h_init nv deg h) (pf_proofs pf)) (seq 0 nv).
(** Some challenge is a root of a nonzero polynomial of degree at most [deg] that is fixed before the
    challenge is drawn: it depends on messages 0..i and challenges 0..i-1. *)
Definition root_event (T : @hist K -> K) (nv deg : nat) (g : list K -> K) (h : hist) (pf : @proof K) : Prop :=
  let rs := sc_point T nv deg h pf in
  exists i, i < nv /\ 
    let D := fun x => lagrange (nodes (deg + 1)) (nth i (pf_proofs pf) []) x
                      - sumn (2 ^ (nv - 1 - i)) (fun b => g (firstn i rs ++ x :: bpt (nv - 1 - i) b)) in
    is_poly deg D /\ (exists x, D x <> 0) /\ D (nth i rs 0) = 0.

Lemma verify_point (T : @hist K -> K) claimed pf nv deg h rs e h' :
  verify T claimed pf nv deg h = Some (rs, e, h') -> rs = sc_point T nv deg h pf.
Proof.
  intros Hv. unfold sc_point. destruct (Nat.eq_dec nv 0) as [->|Hn].
  - unfold verify in Hv. cbn in Hv. injection Hv as <- _ _. reflexivity.
  - rewrite verify_fs in Hv by lia.
    destruct (Nat.leb_spec nv (length (pf_proofs pf))) as [Hl|]; [|discriminate]. cbv zeta in Hv.
    set (ms := firstn nv (pf_proofs pf)) in *.
    assert (Hms : length ms = nv) by (apply firstn_length_le; auto).
    pose proof (fs_length T ms (h_init nv deg h)) as Hfl. pose proof (fs_challenges T ms (h_init nv deg h)) as Hfc.
    destruct (fs T (h_init nv deg h) ms) as [rs0 h0]. cbn [fst] in *.
    destruct (interactive deg claimed ms rs0) as [e0|] eqn:Ei; [|discriminate]. cbn [obind] in Hv.
    injection Hv as -> _ _. apply nth_ext_all with (d := 0).
    + rewrite map_length, seq_length. lia.
    + intros i Hi. rewrite nth_map_seq by lia. rewrite Hfc by lia.
      unfold challenge_of. cbn [Nat.add].
      assert (Hnth : nth i ms [] = nth i (pf_proofs pf) []) by (unfold ms; apply nth_firstn_lt; lia).
      rewrite Hnth. do 4 f_equal. unfold ms. rewrite firstn_firstn. f_equal. lia.
Qed.

Lemma verify_sound (T : @hist K -> K) claimed pf nv deg h rs e h' g :
  char_gt K deg -> 0 < nv -> indiv_deg deg nv g ->
  verify T claimed pf nv deg h = Some (rs, e, h') ->
  claimed <> hsum nv g -> e = g rs ->
  rs = sc_point T nv deg h pf /\ root_event T nv deg g h pf.
Proof.
  intros Hch Hn Hg Hv Hne He. pose proof (verify_point _ _ _ _ _ _ _ _ _ Hv) as Hpt. split; [auto|].
  rewrite verify_fs in Hv by auto.
  destruct (Nat.leb_spec nv (length (pf_proofs pf))) as [Hl|]; [|discriminate]. cbv zeta in Hv.
  set (ms := firstn nv (pf_proofs pf)) in *.
  assert (Hms : length ms = nv) by (apply firstn_length_le; auto).
  pose proof (fs_length T ms (h_init nv deg h)) as Hfl.
  destruct (fs T (h_init nv deg h) ms) as [rs0 h0]. cbn [fst] in *.
  destruct (interactive deg claimed ms rs0) as [e0|] eqn:Ei; [|discriminate]. cbn [obind] in Hv.
  injection Hv as -> -> ->.
  destruct (soundness_det deg Hch ms rs g claimed e) as (i & Hi & Hx & Hr); auto; try (rewrite Hms; auto).
  rewrite Hms in *. unfold root_event. cbv zeta. rewrite <- Hpt. exists i. split; [auto|].
  assert (Hnth : nth i ms [] = nth i (pf_proofs pf) []) by (unfold ms; apply nth_firstn_lt; auto).
  pose proof (diff_poly_is_poly deg nv g ms rs i Hg Hi ltac:(lia)) as Hp. unfold diff_poly in *. rewrite Hnth in *.
  split; [auto|]. split; [auto|]. auto.
Qed.

(** Counting form.  The verifier's checks on given challenges are [interactive]. *)
Lemma sumcheck_count (S : list K) n (p : @vp K) claim strat : char_gt K (vp_deg p) -> NoDup S -> wf_vp p ->
  claim <> hsum n (vp_val p) ->
  length (filter (fun rs => match interactive (vp_deg p) claim (map (fun i => strat (firstn i rs)) (seq 0 (length rs))) rs with
                            | Some e => e =? vp_val p rs | None => false end) (vecs S n))
    <= n * vp_deg p * length S ^ (n - 1).
Proof. intros Hch HS Hw Hne. apply (fools_count (vp_deg p) S Hch HS n claim (vp_val p) strat); auto. apply vp_val_indiv_deg; auto. Qed.

Lemma vecs_count (S : list K) n : length (vecs S n) = (length S ^ n)%nat.
Proof. apply vecs_length. Qed.

(** *** C09 *)
(** Same decisions as the verifier that checks each message on arrival; and what cannot matter. *)
Lemma verify_point_irrelevant (T : @hist K -> K) claimed pt pt' msgs extra nv deg h : length msgs = nv ->
  verify T claimed (mkProof pt (msgs ++ extra)) nv deg h = verify T claimed (mkProof pt' msgs) nv deg h.
Proof.
  intros Hl. apply verify_prefix; cbn [pf_proofs]; try rewrite app_length; try lia.
  rewrite firstn_app, Hl, Nat.sub_diag. cbn [firstn]. rewrite app_nil_r. reflexivity.
Qed.

(** *** C10 *)
(** [polys] is [p] cut into 2^L consecutive parts. *)
Record is_split (L nv : nat) (p : @vp K) (polys : list (@vp K)) : Prop := {
  sp_nv : vp_nv p = (nv + L)%nat;
  sp_len : length polys = 2 ^ L;
  sp_mles : forall i, i < length (vp_mles p) -> num_vars (nth i (vp_mles p) dm) = (nv + L)%nat /\
     tbl (nth i (vp_mles p) dm) = concat (map (fun q => tbl (nth i (vp_mles q) dm)) polys);
  sp_parts : forall q, In q polys -> vp_nv q = nv /\ vp_deg q = vp_deg p /\ vp_products q = vp_products p /\
     length (vp_mles q) = length (vp_mles p) /\
     forall m, In m (vp_mles q) -> wf_mle m /\ num_vars m = nv
}.

Lemma is_split_wf L nv p polys : wf_vp p -> 0 < nv -> is_split L nv p polys -> wf_batch L nv (vp_deg p) polys.
Proof.
  intros Hw Hn [H1 H2 H3 H4]. constructor; auto. intros q Hq.
  assert (H0 : In (nth 0 polys dvp) polys) by (apply nth_In; rewrite H2; apply pow2_pos).
  destruct (H4 _ H0) as (_ & _ & H0p & H0l & _).
  destruct (H4 _ Hq) as (Ha & Hb & Hc & Hd & He). rewrite H0p, H0l. split; [|auto].
  constructor.
  - rewrite Hb. apply Hw.
  - lia.
  - intros m Hm. destruct (He m Hm) as [He1 He2]. split; auto. lia.
  - intros c ix Hin. rewrite Hc in Hin. destruct (wv_prods _ Hw _ _ Hin) as (A1 & A2 & A3 & A4 & _). rewrite Hb, Hd.
    split; [auto|]. split; [auto|]. split; [auto|]. split; [auto|].
    intros i j Hi Hj. destruct (He (nth i (vp_mles q) dm)) as [_ ->]; [apply nth_In; rewrite Hd; auto|].
    destruct (He (nth j (vp_mles q) dm)) as [_ ->]; [apply nth_In; rewrite Hd; auto|]. reflexivity.
Qed.

Lemma is_split_mval L nv p polys i x y : is_split L nv p polys -> i < length (vp_mles p) ->
  length x = nv -> length y = L -> batch_mle polys i x y = mval (nth i (vp_mles p) dm) (x ++ y).
Proof.
  intros [H1 H2 H3 H4] Hi Hx Hy. destruct (H3 i Hi) as [Hn Ht]. unfold batch_mle.
  unfold mval at 2. rewrite Hn, firstn_all2 by (rewrite app_length; lia). unfold mle. rewrite mlef_app.
  apply mlef_ext. intros j Hj. rewrite Hy, <- H2 in Hj.
  assert (Hq : In (nth j polys dvp) polys) by (apply nth_In; auto).
  destruct (H4 _ Hq) as (Ha & Hb & Hc & Hd & He).
  destruct (He (nth i (vp_mles (nth j polys dvp)) dm)) as [Hwm Hnm]; [apply nth_In; rewrite Hd; auto|].
  unfold mval. rewrite Hnm, firstn_all2 by lia. unfold mle. apply mlef_ext. intros k Hk. rewrite Ht, Hx.
  rewrite (nth_concat_uniform _ (2 ^ nv)).
  - rewrite (nth_map_lt _ _ _ dvp) by auto. reflexivity.
  - intros c Hc'. apply in_map_iff in Hc'. destruct Hc' as (q & <- & Hq').
    destruct (H4 _ Hq') as (_ & _ & _ & Hd' & He').
    destruct (He' (nth i (vp_mles q) dm)) as [(_ & _ & Hwq) Hnq]; [apply nth_In; rewrite Hd'; auto|]. rewrite Hwq, Hnq. reflexivity.
  - rewrite map_length. auto.
  - rewrite <- Hx. auto.
Qed.

Lemma threads_agree (T : @hist K -> K) ncpus ncpus' scs ords ford L nv p polys h :
  0 < ncpus -> 0 < ncpus' -> 0 < nv -> char_gt K (vp_deg p) -> wf_vp p -> is_split L nv p polys ->
  (forall i, i < nv -> Permutation (ords i) (seq 0 (2 ^ L - 1))) -> Permutation ford (seq 0 (2 ^ L)) ->
  (forall i, i < vp_nv p -> valid_rsched p i (scs i)) ->
  exists pf h' st st1 st2 evals,
    prove_batch_polys T ncpus ords ford (2 ^ L) polys h = Some (pf, st, h') /\
    prove_batch_polys T ncpus' (fun _ => []) [0%nat] 1 [p] h = Some (pf, st1, h') /\
    prove_parallel T ncpus' scs p h = Some (pf, st2, h') /\
    get_mle_final_evaluations st = Some evals /\ get_mle_final_evaluations st1 = Some evals /\
    get_mle_final_evaluations st2 = Some evals.
Proof.
  intros Hnc Hnc' Hn Hch Hw Hs Ho Hfo Hv.
  pose proof (is_split_wf L nv p polys Hw Hn Hs) as Hwb.
  destruct (honest_run T (vp_deg p) (vp_nv p) (vp_val p) (h_init (vp_nv p) (vp_deg p) h)) as [[ms rs] h'] eqn:Er.
  pose proof (honest_run_length T (vp_deg p) (vp_nv p) (vp_val p) (h_init (vp_nv p) (vp_deg p) h)) as Hl.
  rewrite Er in Hl. destruct Hl as [_ Hl].
  assert (Hnth0 : vp_products (nth 0 polys dvp) = vp_products p /\ length (vp_mles (nth 0 polys dvp)) = length (vp_mles p)).
  { destruct Hs as [H1 H2 H3 H4]. destruct (H4 (nth 0 polys dvp)) as (_ & _ & Hp & Hm & _); auto.
    apply nth_In. rewrite H2. apply pow2_pos. }
  destruct Hnth0 as [Hp0 Hm0].
  assert (Hval : forall pt, length pt = (nv + L)%nat -> batch_val nv polys pt = vp_val p pt).
  { intros pt Hpt. unfold batch_val, vp_val, prod_val. rewrite Hp0. f_equal. apply map_ext_in. intros [c ix] Hin.
    cbn [fst snd]. do 2 f_equal. apply map_ext_in. intros i Hi.
    rewrite (is_split_mval L nv p); auto.
    - rewrite firstn_skipn. reflexivity.
    - destruct (wv_prods _ Hw _ _ Hin) as (_ & _ & _ & A & _). auto.
    - apply firstn_length_le. lia.
    - rewrite skipn_length. lia. }
  assert (Er' : honest_run T (vp_deg p) (nv + L) (batch_val nv polys) (h_init (nv + L) (vp_deg p) h) = (ms, rs, h')).
  { rewrite <- Er, !honest_hrun. rewrite (sp_nv _ _ _ _ Hs). apply hrun_ext. intros pt Hpt. apply Hval. lia. }
  assert (Er1 : honest_run T (vp_deg p) (vp_nv p + 0) (batch_val (vp_nv p) [p]) (h_init (vp_nv p + 0) (vp_deg p) h) = (ms, rs, h')).
  { rewrite <- Er, !honest_hrun, !Nat.add_0_r. apply hrun_ext. intros pt Hpt. unfold batch_val, vp_val, prod_val.
    cbn [nth]. f_equal. apply map_ext. intros [c ix]. cbn [fst snd]. do 2 f_equal. apply map_ext. intros i.
    unfold batch_mle. rewrite Nat.add_0_r in Hpt. rewrite skipn_all2 by lia. rewrite firstn_all2 by lia. rewrite mlef_nil. reflexivity. }
  destruct (prove_batch_refines T ncpus ords ford L nv (vp_deg p) polys h ms rs h' Hnc Hch Hwb Ho Hfo Er') as (st & E & Hf).
  assert (Hwb1 : wf_batch 0 (vp_nv p) (vp_deg p) [p]).
  { constructor; auto. intros q [<-|[]]. cbn [nth]. split; [exact Hw|auto]. }
  destruct (prove_batch_refines T ncpus' (fun _ => []) [0%nat] 0 (vp_nv p) (vp_deg p) [p] h ms rs h' Hnc' Hch Hwb1) as (st1 & E1 & Hf1); auto.
  destruct (prove_parallel_refines T ncpus' scs p h ms rs h' Hnc' Hch Hw Hv Er) as (st2 & E2 & Hf2).
  exists (mkProof rs ms), h', st, st1, st2, (map (fun m => mval m rs) (vp_mles p)).
  split; [auto|]. split; [exact E1|]. split; [auto|].
  assert (Hll : forall F : nat -> K, (forall i, i < length (vp_mles p) -> F i = mval (nth i (vp_mles p) dm) rs) ->
     map F (seq 0 (length (vp_mles p))) = map (fun m => mval m rs) (vp_mles p)).
  { intros F HF. rewrite (list_as_map (vp_mles p) dm) at 2. rewrite map_map. apply map_ext_in. intros i Hi.
    apply in_seq in Hi. apply HF. lia. }
  split; [|split; [|auto]].
  - rewrite Hf, Hm0. f_equal. apply Hll. intros i Hi. rewrite (is_split_mval L nv p); auto.
    + rewrite firstn_skipn. reflexivity.
    + apply firstn_length_le. rewrite Hl, (sp_nv _ _ _ _ Hs). lia.
    + rewrite skipn_length, Hl, (sp_nv _ _ _ _ Hs). lia.
  - rewrite Hf1. cbn [nth]. f_equal. apply Hll. intros i Hi. unfold batch_mle.
    rewrite skipn_all2 by lia. rewrite firstn_all2 by lia. rewrite mlef_nil. reflexivity.
Qed.
End P.
