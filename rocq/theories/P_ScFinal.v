(** [prove_batch_polys] refines the honest prover: final assembly. *)
From Coq Require Import List Arith Lia Bool ZArith Field Permutation.
From Verif Require Import ListAux FieldDef PolyList MleMath M_Mle P_Mle P_Eq M_Interp P_Interp M_Sumcheck P_ScVerify P_ScProve P_ScProve2 P_ScBatch.
Import ListNotations.

Section P.
Context {K : field}.
Add Field Kf_sp4 : (fth K).
Local Open Scope F_scope.

Definition dvp : @vp K := mkVp 0 0 [] [].
(** The polynomial proved by the threads: thread [j] holds the part with the last variables fixed to
    the bits of [j]. *)
Definition batch_mle (polys : list (@vp K)) (i : nat) (x y : list K) : K :=
  mlef (fun j => mval (nth i (vp_mles (nth j polys dvp)) dm) x) y.
Definition batch_val (nv : nat) (polys : list (@vp K)) (pt : list K) : K :=
  prod_val (fun i => batch_mle polys i (firstn nv pt) (skipn nv pt)) (vp_products (nth 0 polys dvp)).
Record wf_batch (L nv deg : nat) (polys : list (@vp K)) : Prop := {
  wb_len : length polys = 2 ^ L;
  wb_all : forall p, In p polys -> wf_vp p /\ vp_nv p = nv /\ vp_deg p = deg /\
     vp_products p = vp_products (nth 0 polys dvp) /\ length (vp_mles p) = length (vp_mles (nth 0 polys dvp))
}.

Lemma omapM_firstn_skipn {A B} (f g : A -> option B) (F : A -> B) n l :
  (forall a, In a l -> f a = Some (F a)) -> (forall a, In a l -> g a = Some (F a)) ->
  exists x y, omapM f (firstn n l) = Some x /\ omapM g (skipn n l) = Some y /\ x ++ y = map F l.
Proof.
  intros Hf Hg. exists (map F (firstn n l)), (map F (skipn n l)). repeat split.
  - apply omapM_all. intros a Ha. apply Hf. eapply In_firstn'; eauto.
  - apply omapM_all. intros a Ha. apply Hg. eapply In_skipn'; eauto.
  - rewrite <- map_app, firstn_skipn. reflexivity.
Qed.

Lemma batch_val_indiv_deg L nv deg polys : wf_batch L nv deg polys -> indiv_deg deg (nv + L) (batch_val nv polys).
Proof.
  intros Hw a b Hl. unfold batch_val, prod_val.
  apply (is_poly_fsum deg (vp_products (nth 0 polys dvp)) (fun q x => fst q * fprod (map (fun i => batch_mle polys i (firstn nv (a ++ x :: b)) (skipn nv (a ++ x :: b))) (snd q)))).
  intros [c ix] Hin. cbn [fst snd].
  assert (H0 : In (nth 0 polys dvp) polys).
  { apply nth_In. rewrite (wb_len _ _ _ _ Hw). apply pow2_pos. }
  destruct (wb_all _ _ _ _ Hw _ H0) as (Hw0 & _ & Hd & _ & _).
  destruct (wv_prods _ Hw0 c ix Hin) as (_ & _ & Hdi & _).
  apply is_poly_scal. eapply is_poly_le; [rewrite <- Hd; exact Hdi|].
  apply (is_poly_fprod ix (fun i x => batch_mle polys i (firstn nv (a ++ x :: b)) (skipn nv (a ++ x :: b)))).
  intros i _. unfold batch_mle.
  destruct (Nat.le_gt_cases nv (length a)) as [H|H].
  - eapply is_poly_ext; [|apply (mlef_is_poly (fun j => mval (nth i (vp_mles (nth j polys dvp)) dm) (firstn nv a)) (skipn nv a) b)].
    intros x. cbv beta. rewrite firstn_app, skipn_app. replace (nv - length a)%nat with 0%nat by lia.
    cbn [firstn skipn]. rewrite app_nil_r. reflexivity.
  - set (b1 := firstn (nv - S (length a)) b). set (b2 := skipn (nv - S (length a)) b).
    eapply (is_poly_ext 1 (fun x => sumn (2 ^ length b2) (fun j => eqw j b2 * mval (nth i (vp_mles (nth j polys dvp)) dm) (a ++ x :: b1)))).
    + intros x. rewrite firstn_app, skipn_app, firstn_all2, skipn_all2 by lia.
      replace (nv - length a)%nat with (S (nv - S (length a))) by lia. cbn [firstn skipn app]. fold b1 b2.
      unfold mlef. apply sumn_ext. intros; ring.
    + apply (is_poly_sumn 1 _ (fun j x => eqw j b2 * mval (nth i (vp_mles (nth j polys dvp)) dm) (a ++ x :: b1))).
      intros j _. apply is_poly_scal. apply mval_is_poly.
Qed.

Lemma prove_batch_refines (T : @hist K -> K) ncpus ords ford L nv deg polys h ms rs h' :
  0 < ncpus -> char_gt K deg -> wf_batch L nv deg polys ->
  (forall i, i < nv -> Permutation (ords i) (seq 0 (2 ^ L - 1))) -> Permutation ford (seq 0 (2 ^ L)) ->
  honest_run T deg (nv + L) (batch_val nv polys) (h_init (nv + L) deg h) = (ms, rs, h') ->
  exists st, prove_batch_polys T ncpus ords ford (2 ^ L) polys h = Some (mkProof rs ms, st, h') /\
    get_mle_final_evaluations st =
      Some (map (fun i => batch_mle polys i (firstn nv rs) (skipn nv rs)) (seq 0 (length (vp_mles (nth 0 polys dvp))))).
Proof.
  intros Hnc Hch Hw Hords Hford Hrun. destruct Hw as [Hlen Hall].
  pose proof (pow2_pos L) as HL.
  destruct polys as [|p0 polys']; [simpl in Hlen; lia|]. unfold prove_batch_polys. set (polys := p0 :: polys') in *.
  set (P := fun j => nth j polys dvp). set (M := length (vp_mles (nth 0 polys dvp))).
  set (prods := vp_products (nth 0 polys dvp)).
  assert (HP : forall j, j < 2 ^ L -> wf_vp (P j) /\ vp_nv (P j) = nv /\ vp_deg (P j) = deg /\
     vp_products (P j) = prods /\ length (vp_mles (P j)) = M).
  { intros j Hj. apply Hall. apply nth_In. rewrite Hlen. auto. }
  assert (Epolys : polys = map P (seq 0 (2 ^ L))) by (rewrite <- Hlen; apply list_as_map).
  destruct (HP 0%nat HL) as (Hw0 & Hnv0 & Hdeg0 & _ & _).
  pose proof (wv_nv _ Hw0) as Hnvpos. pose proof (wv_deg _ Hw0) as Hdegpos.
  assert (Ep0 : p0 = P 0%nat) by reflexivity.
  rewrite Hlen, Nat.eqb_refl. cbn [negb orb].
  replace (is_pow2 (2 ^ L)) with true.
  2: { symmetry. unfold is_pow2. rewrite Nat.log2_pow2 by lia. rewrite Nat.eqb_refl, andb_true_r. apply Nat.ltb_lt. auto. }
  cbn [negb orb].
  replace (forallb _ polys) with true.
  2: { symmetry. apply forallb_forall. intros p Hp. rewrite Ep0. destruct (Hall p Hp) as (_ & -> & -> & _).
       rewrite Hnv0, Hdeg0, !Nat.eqb_refl. reflexivity. }
  cbn [negb]. rewrite ceil_log2_pow2. cbn [obind]. rewrite Ep0, Hnv0, Hdeg0.
  destruct (Nat.eqb_spec nv 0) as [|_]; [lia|].
  destruct (extrapolation_aux_ok (K:=K) ncpus deg Hnc) as (aux & Ea & Haux). rewrite Ea. cbn [obind].
  replace (omapM (fun p => prover_init p aux) polys) with (omapM (fun p => prover_init p aux) (map P (seq 0 (2 ^ L))))
    by (f_equal; symmetry; exact Epolys).
  rewrite omapM_map.
  rewrite (omapM_seq _ (fun j => pre (P j) aux [])).
  2: { intros j Hj. destruct (HP j ltac:(lia)) as (_ & Hn & Hd & _ & _). unfold prover_init. rewrite Hn, Hd.
       destruct (Nat.eqb_spec nv 0); [lia|]. destruct (Nat.eqb_spec deg 0); [lia|]. cbn [orb].
       destruct Haux as [-> _]. rewrite Nat.eqb_refl. reflexivity. }
  cbn [obind]. change (EvBytes (le_bytes8 deg) :: EvBytes (le_bytes8 (nv + L)) :: h) with (h_init (nv + L) deg h).
  pose proof (batch_rounds_spec ncpus L nv deg M prods P aux Hnc Hch Haux HP T ords Hords nv [] (h_init (nv + L) deg h) [] eq_refl) as Hb.
  cbn [length pre_chal app] in Hb. rewrite Hb. clear Hb.
  rewrite honest_hrun, hrun_split in Hrun.
  change (hrun T deg nv L (fun pt => Gval nv prods P pt)) with (hrun T deg nv L (batch_val nv polys)).
  pose proof (hrun_length T deg L nv (batch_val nv polys) (h_init (nv + L) deg h)) as Hlr.
  destruct (hrun T deg nv L (batch_val nv polys) (h_init (nv + L) deg h)) as [[ms1 rs1] h1].
  destruct Hlr as [Hms1 Hrs1]. cbn [obind].
  assert (Hne1 : rs1 <> []) by (intros ->; simpl in Hrs1; lia).
  set (F := fun s : pstate => mkPs rs1 (length rs1) (fixl rs1 (ps_poly s)) aux).
  assert (Hfin : exists ws mn,
     omapM (finish fix_later (pre_chal rs1)) (firstn (2 ^ L - 1) (map (fun j => pre (P j) aux rs1) (seq 0 (2 ^ L)))) = Some ws /\
     omapM (finish (finish_main nv) (pre_chal rs1)) (skipn (2 ^ L - 1) (map (fun j => pre (P j) aux rs1) (seq 0 (2 ^ L)))) = Some mn /\
     ws ++ mn = map (fun j => fin aux (P j) rs1) (seq 0 (2 ^ L))).
  { rewrite firstn_map, skipn_map, !omapM_map.
    apply (omapM_firstn_skipn (fun j => finish fix_later (pre_chal rs1) (pre (P j) aux rs1))
                              (fun j => finish (finish_main nv) (pre_chal rs1) (pre (P j) aux rs1))).
    - intros j Hj. apply in_seq in Hj. destruct (HP j ltac:(lia)) as (Hwj & _). apply finish_later; auto.
    - intros j Hj. apply in_seq in Hj. destruct (HP j ltac:(lia)) as (Hwj & Hn & _). rewrite <- Hn. apply finish_main_ok; auto. lia. }
  destruct Hfin as (ws & mn & Ews & Emn & Ewm). rewrite Ews. cbn [obind]. rewrite Emn. cbn [obind]. rewrite Ewm.
  rewrite collect_states_spec by (rewrite map_length, seq_length; auto).
  assert (Hs0 : nth_error (map (fun j => fin aux (P j) rs1) (seq 0 (2 ^ L))) 0 = Some (fin aux (P 0%nat) rs1)).
  { rewrite nth_error_map, (nth_error_nth' _ 0%nat) by (rewrite seq_length; auto). rewrite seq_nth by auto. reflexivity. }
  destruct (Nat.eqb_spec L 0) as [EL|EL].
  - subst L. rewrite Hs0. cbn [obind]. cbn [hrun] in Hrun. rewrite !app_nil_r in Hrun. injection Hrun as <- <- <-.
    exists (fin aux (P 0%nat) rs1). split; [reflexivity|].
    rewrite final_evals_fin; auto.
    2: { intros m Hm. pose proof (wv_mles _ Hw0 m Hm). lia. }
    f_equal. fold M. destruct (HP 0%nat HL) as (_ & _ & _ & _ & HM).
    rewrite (list_as_map (vp_mles (P 0%nat)) dm) at 1. rewrite HM, map_map. apply map_ext. intros i.
    rewrite firstn_all2, skipn_all2 by lia. unfold batch_mle. rewrite mlef_nil. reflexivity.
  - rewrite Hs0.
    set (mp := mkVp deg L prods (map (fun i => mkMle (Ext (map (fun j => mval (nth i (vp_mles (P j)) dm) rs1) (seq 0 (2 ^ L)))) L) (seq 0 M))).
    assert (Hmerge : merge_sumcheck_polys (map (fun j => fin aux (P j) rs1) (seq 0 (2 ^ L))) L = Some mp).
    { unfold merge_sumcheck_polys. destruct (map (fun j => fin aux (P j) rs1) (seq 0 (2 ^ L))) as [|s0 l0] eqn:Em; [discriminate|].
      cbn [nth_error] in Hs0. injection Hs0 as ->. rewrite <- Em.
      destruct (HP 0%nat HL) as (_ & _ & Hd0 & Hp0 & HM).
      assert (EM : length (vp_mles (fixl rs1 (P 0%nat))) = M) by (unfold fixl, with_mles; cbn [vp_mles]; rewrite map_length; auto).
      unfold fin at 1 2 3. cbn [ps_poly]. rewrite EM.
      rewrite (omapM_seq _ (fun i => mkMle (Ext (map (fun j => mval (nth i (vp_mles (P j)) dm) rs1) (seq 0 (2 ^ L)))) L)).
      - cbn [obind]. unfold fin. cbn [ps_poly].
        change (vp_deg (fixl rs1 (P 0%nat))) with (vp_deg (P 0%nat)). change (vp_products (fixl rs1 (P 0%nat))) with (vp_products (P 0%nat)).
        rewrite Hd0, Hp0. reflexivity.
      - intros i Hi. rewrite omapM_map.
        rewrite (omapM_seq _ (fun j => mval (nth i (vp_mles (P j)) dm) rs1)).
        + cbn [obind]. apply mkExt_ok. rewrite map_length, seq_length. reflexivity.
        + intros j Hj. destruct (HP j ltac:(lia)) as (Hwj & Hnj & _ & _ & HMj).
          unfold fin. cbn [ps_poly]. rewrite (nth_error_nth' _ dm) by (unfold fixl, with_mles; cbn [vp_mles]; rewrite map_length; lia).
          rewrite nth_fixl by lia. cbn [obind].
          assert (Hlt : i < length (vp_mles (P j))) by lia.
          pose proof (wv_mles _ Hwj (nth i (vp_mles (P j)) dm) (nth_In _ _ Hlt)) as [Hwm Hnm].
          apply ext_single_fixms; auto. lia. }
    rewrite Hmerge. cbn [obind].
    assert (HnthM : forall i, i < M -> nth i (vp_mles mp) dm = mkMle (Ext (map (fun j => mval (nth i (vp_mles (P j)) dm) rs1) (seq 0 (2 ^ L)))) L).
    { intros i Hi. unfold mp. cbn [vp_mles]. rewrite nth_map_seq by auto. reflexivity. }
    assert (HwM : wf_vp mp).
    { constructor; cbn [mp vp_deg vp_nv]; try lia.
      - intros m Hm. cbn [vp_mles] in Hm. apply in_map_iff in Hm. destruct Hm as (i & <- & Hi). cbn [num_vars]. split; [|lia].
        repeat split; cbn [num_vars evaluations]; auto. unfold tbl. cbn [evaluations]. rewrite map_length, seq_length. reflexivity.
      - intros c ix Hin. cbn [vp_products] in Hin.
        destruct (wv_prods _ Hw0 c ix Hin) as (Hi1 & Hi2 & Hi3 & Hi4 & _).
        rewrite Hdeg0 in Hi3. repeat split; auto.
        + intros i Hi. unfold mp. cbn [vp_mles]. rewrite map_length, seq_length. apply Hi4. auto.
        + intros i j Hi Hj. change (num_vars (nth i (vp_mles mp) dm) = num_vars (nth j (vp_mles mp) dm)).
          rewrite !HnthM by (apply Hi4; auto). reflexivity. }
    assert (Hpi : prover_init mp aux = Some (pre mp aux [])).
    { unfold prover_init, mp. cbn [vp_nv vp_deg]. destruct (Nat.eqb_spec L 0); [lia|]. destruct (Nat.eqb_spec deg 0); [lia|].
      cbn [orb]. destruct Haux as [-> _]. rewrite Nat.eqb_refl. reflexivity. }
    rewrite Hpi. cbn [obind].
    assert (Hmv : forall i y, i < M -> length y = L -> mval (nth i (vp_mles mp) dm) y = batch_mle polys i rs1 y).
    { intros i y Hi Hy. rewrite HnthM by auto. unfold mval, tbl. cbn [num_vars evaluations].
      rewrite firstn_all2 by lia. unfold mle, batch_mle. apply mlef_ext. intros j Hj. rewrite Hy in Hj.
      rewrite nth_map_seq by auto. reflexivity. }
    assert (Hval : forall y, length y = L -> vp_val mp y = batch_val nv polys (rs1 ++ y)).
    { intros y Hy. unfold vp_val, batch_val, prod_val. change (vp_products mp) with prods. unfold prods.
      f_equal. apply map_ext_in. intros [c ix] Hin. cbn [fst snd]. f_equal. f_equal. apply map_ext_in. intros i Hi.
      destruct (wv_prods _ Hw0 c ix Hin) as (_ & _ & _ & Hi4 & _).
      rewrite Hmv by (auto; apply Hi4; auto).
      rewrite firstn_app, skipn_app, Hrs1, Nat.sub_diag. cbn [firstn skipn].
      rewrite firstn_all2, skipn_all2, app_nil_r by lia. reflexivity. }
    pose proof (stage2_spec ncpus mp aux T HwM Hnc Hch Haux L [] h1 ms1 eq_refl) as Hs2.
    cbn [pre_chal app] in Hs2. change (vp_deg mp) with deg in Hs2.
    rewrite (hrun_ext T deg 0 L (fun pt => vp_val mp pt) (fun pt => batch_val nv polys (rs1 ++ pt))) in Hs2.
    2: { intros pt Hpt. apply Hval. lia. }
    rewrite Hs2.
    pose proof (hrun_length T deg 0 L (fun pt => batch_val nv polys (rs1 ++ pt)) h1) as Hl2.
    destruct (hrun T deg L 0 (fun pt => batch_val nv polys (rs1 ++ pt)) h1) as [[ms2 rs2] h2]. destruct Hl2 as [_ Hrs2].
    injection Hrun as <- <- <-. cbn [obind].
    rewrite finish_later by (auto; intros ->; simpl in Hrs2; lia). cbn [obind].
    exists (fin aux mp rs2). split; [reflexivity|].
    rewrite final_evals_fin; auto.
    2: { intros m Hm. pose proof (wv_mles _ HwM m Hm) as [_ Hn]. change (vp_nv mp) with L in Hn. lia. }
    f_equal. fold M.
    rewrite (list_as_map (vp_mles mp) dm) at 1.
    replace (length (vp_mles mp)) with M by (unfold mp; cbn [vp_mles]; rewrite map_length, seq_length; auto).
    rewrite map_map. apply map_ext_in. intros i Hi. apply in_seq in Hi.
    rewrite Hmv by (auto; lia). rewrite firstn_app, skipn_app, Hrs1, Nat.sub_diag. cbn [firstn skipn].
    rewrite firstn_all2, skipn_all2, app_nil_r by lia. reflexivity.
Qed.
End P.
