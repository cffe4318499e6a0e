(** Proofs about the layer normalisation proof: accepted proofs of any other output. *)
From Coq Require Import List Arith Lia Bool ZArith Ring Field Znumtheory.
From Verif Require Import ListAux FieldDef PolyList MleMath M_Mle P_Mle P_Eq M_Interp P_Interp M_Sumcheck P_ScVerify P_ScProve P_ScProve2 P_ScBatch P_ScFinal M_ScParallel
  P_ScParallel P_ScApi M_SamePoly P_SamePoly M_LogUp P_LogUp3 P_LogUp4 P_LogUp8 P_LogUp9 M_Tensor P_Tensor M_Layers P_Layers P_Layers2 P_Layers3 P_Transformer P_Transformer2 M_Sop P_Sop P_Code3
  M_Tables P_Tables M_Quant M_Requant P_Requant P_Requant2 P_Pooling P_Pooling2 M_RequantP P_RequantP P_RequantP2 M_LayerNorm P_LayerNorm P_LayerNorm2 P_LayerNorm3.
From Verif Require M_Basefold P_Basefold.
Import ListNotations.

Section P.
Context {K : field} {C : Type}.
Local Open Scope F_scope.
Add Field Kf_ln4 : (fth K).

(** The proof with other accumulation evaluations. *)
Definition with_acc (pf : @ln_proof K C) (acc : list K) : @ln_proof K C :=
  mkLnp (lnp_logups pf) (lnp_comms pf) (lnp_acc pf) (lnp_io pf) (lnp_input pf) acc (lnp_evals pf) (lnp_gamma pf) (lnp_beta pf).

(** Two proofs that differ in their accumulation evaluations only, and two output claims, with the same initial claim of the io
    sumcheck are treated alike. *)
Lemma ln_same T B c c1 s1 c2 s2 (last : claim) (pf : @ln_proof K C) h y acc nrc lp1 lp2 icl n1 d1 h1 rcl n2 d2 h2 nb bch h3 i0 r0 ap e1 h4 es er res :
  ln_nrc B c = Some nrc -> lnp_logups pf = [lp1; lp2] ->
  verify_logup T lp1 1 c1 s1 h = Some (icl, n1, d1, h1) -> verify_logup T lp2 nrc c2 s2 h1 = Some (rcl, n2, d2, h2) ->
  ceil_log2 (length icl + length rcl) = Some nb -> ln_draw T nb h2 = (bch, h3) -> nth_error icl 0 = Some i0 -> nth_error rcl 0 = Some r0 ->
  verify T (ln_initial (map cl_eval (icl ++ rcl)) (compute_betas_eval bch)) (lnp_acc pf) (length (cl_point i0)) 2 h3 = Some (ap, e1, h4) ->
  M_Basefold.eq_xy_eval (cl_point i0) ap = Some es -> M_Basefold.eq_xy_eval (cl_point r0) ap = Some er ->
  let eqs := repeat es 2 ++ repeat er nrc in let rlc := compute_betas_eval bch in
  let '(fb, sb, tb) := ln_batch (next_ch T h4) (next_ch T (next_h h4)) in
  ln_calc acc eqs rlc = ln_calc (lnp_acc_evals pf) eqs rlc ->
  forall rec rec' a1 a1', ln_recombine B c (length rcl) (lnp_acc_evals pf) = Some rec -> ln_recombine B c (length rcl) acc = Some rec' ->
  nth_error (lnp_acc_evals pf) 1 = Some a1 -> nth_error acc 1 = Some a1' ->
  fb * rec' + sb * y + a1' * tb = fb * rec + sb * cl_eval last + a1 * tb ->
  ln_verify T B c c1 s1 c2 s2 last pf h = Some res -> ln_verify T B c c1 s1 c2 s2 (mkClaim (cl_point last) y) (with_acc pf acc) h = Some res.
Proof.
  intros Hn Elp E1 E2 Hnb Ed Hi0 Hr0 Ev Ees Eer eqs rlc. unfold ln_batch. intros Ec rec rec' a1 a1' Hrec Hrec' Ha1 Ha1' Heq Hv.
  rewrite <- Hv. unfold ln_verify, with_acc. cbn [lnp_logups lnp_comms lnp_acc lnp_io lnp_input lnp_acc_evals lnp_evals lnp_gamma lnp_beta cl_point cl_eval].
  rewrite Hn. cbn [obind]. rewrite Elp, E1. cbn [obind]. rewrite E2. cbn [obind]. rewrite Hnb. cbn [obind]. rewrite Ed, Hi0, Hr0. cbn [obind]. rewrite Ev. cbn [obind]. rewrite Ees, Eer. cbn [obind].
  fold rlc. fold eqs. rewrite Ec. unfold get_challenge. fold (next_ch T h4) (next_h h4). fold (next_ch T (next_h h4)) (next_h (next_h h4)). unfold ln_batch. rewrite Hrec, Hrec'. cbn [obind]. rewrite Ha1, Ha1'. cbn [obind]. rewrite Heq. reflexivity.
Qed.

Lemma combine_snoc {A B} (u : list A) (z : A) (v : list B) : (length v <= length u)%nat -> combine (u ++ [z]) v = combine u v.
Proof. revert v. induction u as [|x u IH]; intros [|y v] L; cbn [length] in L; try lia; try reflexivity. cbn [app combine]. f_equal. apply IH. lia. Qed.
Lemma recombine_top B c nr (acc : list K) z rec : (0 < nr)%nat -> length acc = (2 + nr)%nat -> ln_recombine B c nr acc = Some rec ->
  exists r, ln_recombine B c nr (acc ++ [z]) = Some r /\ (B < 64)%nat /\ fZ (2 ^ Z.of_nat (ln_tsl c)) <> (0 : K) /\
    r = rec + (z - nth (1 + nr) acc 0) * / fZ (2 ^ Z.of_nat (ln_tsl c)) * fpow (fZ (2 ^ Z.of_nat B)) (nr - 1).
Proof.
  intros Hnr La H. unfold ln_recombine in *. destruct (pow2u B) as [pb|] eqn:Epb; [|discriminate H]. cbn [obind] in *.
  assert (Hpb : (B < 64)%nat /\ pb = fZ (2 ^ Z.of_nat B)) by (unfold pow2u in Epb; destruct (Nat.ltb_spec B 64); [split; [auto|congruence]|discriminate Epb]). destruct Hpb as [HB ->].
  destruct acc as [|a0 [|b0 t]] eqn:Eacc; [discriminate La|cbn [length] in La; lia|]. change (nth_error ((a0 :: b0 :: t) ++ [z]) 0) with (Some a0). change (nth_error (a0 :: b0 :: t) 0) with (Some a0) in H. cbn [obind] in *.
  destruct (pow2u (ln_rcb c)) as [pr|]; [|discriminate H]. cbn [obind] in *. unfold csub in *. destruct (Nat.leb_spec 1 nr); [|lia]. cbn [obind] in *.
  assert (Lt : length t = nr) by (cbn [length] in La; lia). cbn [app skipn] in *. rewrite firstn_app. replace (nr - 1 - length t)%nat with 0%nat by lia. cbn [firstn]. rewrite app_nil_r.
  rewrite recomb_fold in H |- *.
  destruct (pow2u (ln_tsl c)) as [pt|] eqn:Ept; [|discriminate H]. cbn [obind] in *. assert (pt = fZ (2 ^ Z.of_nat (ln_tsl c))) by (unfold pow2u in Ept; destruct (_ <? _)%nat; [congruence|discriminate Ept]). subst pt.
  destruct (finv_opt _) as [ti|] eqn:Eti; [|discriminate H]. cbn [obind] in *. apply finv_opt_some in Eti as [Nt ->].
  change (length (a0 :: b0 :: t ++ [z])) with (S (S (length (t ++ [z])))). change (length (a0 :: b0 :: t)) with (S (S (length t))) in H. rewrite app_length. change (1 <=? S (S (length t + length [z])))%nat with true. change (1 <=? S (S (length t)))%nat with true in H. cbn [obind length] in *.
  replace (S (S (length t + 1)) - 1)%nat with (S (S (length t))) by lia. replace (S (S (length t)) - 1)%nat with (S (length t)) in H by lia.
  change (nth_error (a0 :: b0 :: t ++ [z]) (S (S (length t)))) with (nth_error (t ++ [z]) (length t)). rewrite nth_error_app2 by lia. rewrite Nat.sub_diag. change (nth_error [z] 0) with (Some z). cbn [obind].
  rewrite (nth_error_nth' (a0 :: b0 :: t) 0) in H by (cbn [length]; lia). cbn [obind] in H. eexists. split; [reflexivity|]. split; [exact HB|]. split; [exact Nt|].
  replace (1 + nr)%nat with (S (length t)) by lia. rewrite firstn_length in *. replace (Nat.min (nr - 1) (length t)) with (nr - 1)%nat in * by lia.
  match type of H with Some ?x = Some ?y => assert (X : x = y) by congruence; rewrite <- X end. ring.
Qed.

(** Any accepted proof becomes an accepted proof of any other output evaluation by one more accumulation evaluation. *)
Lemma ln_forge T B c c1 s1 c2 s2 m nb (last : claim) (pf : @ln_proof K C) h lp1 lp2 p q vi vo vs n1 d1 h1 n2 d2 h2 res :
  length p = m -> vs <> [] -> ln_nrc B c = Some (length vs) -> ceil_log2 (2 + length vs) = Some nb -> fZ 2 <> (0 : K) ->
  lnp_logups pf = [lp1; lp2] ->
  verify_logup T lp1 1 c1 s1 h = Some ([mkClaim p vi; mkClaim p vo], n1, d1, h1) ->
  verify_logup T lp2 (length vs) c2 s2 h1 = Some (map (mkClaim q) vs, n2, d2, h2) ->
  ln_verify T B c c1 s1 c2 s2 last pf h = Some res -> length (lnp_acc_evals pf) = (2 + length vs)%nat ->
  f_fb T m nb pf h2 vi vo vs <> 0 ->
  forall y, exists z, ln_verify T B c c1 s1 c2 s2 (mkClaim (cl_point last) y) (with_acc pf (lnp_acc_evals pf ++ [z])) h = Some res.
Proof.
  intros Lp Hvs Hnr Hnb H2 Elp E1 E2 Hv La Hfb y. pose proof Hv as Hv0.
  unfold ln_verify in Hv. rewrite Hnr in Hv. cbn [obind] in Hv. rewrite Elp, E1 in Hv. cbn [obind] in Hv. rewrite E2 in Hv. cbn [obind] in Hv.
  rewrite map_length in Hv. change (length [mkClaim p vi; mkClaim p vo] + length vs)%nat with (2 + length vs)%nat in Hv. rewrite Hnb in Hv. cbn [obind] in Hv.
  destruct (ln_draw T nb h2) as [bch h3] eqn:Ed.
  destruct vs as [|v0 vs0] eqn:Evs; [now destruct Hvs|]. rewrite <- Evs in *. assert (Es0 : nth_error (map (mkClaim q) vs) 0 = Some (mkClaim q v0)) by (rewrite Evs; reflexivity).
  rewrite Es0 in Hv. change (nth_error [mkClaim p vi; mkClaim p vo] 0) with (Some (mkClaim p vi)) in Hv. cbn [obind cl_point] in Hv.
  destruct (verify T _ (lnp_acc pf) _ 2 h3) as [[[ap e1] h4]|] eqn:Ev1 in Hv; [|discriminate Hv]. cbn [obind] in Hv.
  destruct (M_Basefold.eq_xy_eval p ap) as [es|] eqn:Ees; [|discriminate Hv]. cbn [obind] in Hv.
  destruct (M_Basefold.eq_xy_eval q ap) as [er|] eqn:Eer; [|discriminate Hv]. cbn [obind] in Hv.
  destruct (feqb _ e1) in Hv; [|discriminate Hv]. unfold get_challenge, ln_batch in Hv.
  destruct (ln_recombine B c (length vs) (lnp_acc_evals pf)) as [rec|] eqn:Erec; [|discriminate Hv]. clear Hv.
  assert (Eh4 : f_h4 T m nb pf h2 vi vo vs = h4).
  { unfold f_h4, sc_after, f_h3, f_bch. rewrite Ed. cbn [fst snd]. rewrite <- Lp.
    assert (Ein : map cl_eval ([mkClaim p vi; mkClaim p vo] ++ map (mkClaim q) vs) = vi :: vo :: vs) by (cbn [app map cl_eval]; rewrite map_map; cbn [cl_eval]; rewrite map_id; reflexivity).
    rewrite Ein in Ev1. cbn [cl_point] in Ev1. rewrite Ev1. reflexivity. }
  assert (Hk : (0 < length vs)%nat) by (rewrite Evs; cbn [length]; lia).
  set (tt := fZ (2 ^ Z.of_nat (ln_tsl c)) : K). set (pw := fpow (fZ (2 ^ Z.of_nat B)) (length vs - 1) : K).
  destruct (recombine_top B c (length vs) (lnp_acc_evals pf) 0 rec Hk La Erec) as (_ & _ & _ & Nt & _). fold tt in Nt.
  assert (Npw : pw <> 0). { unfold pw. apply fpow_neq_0. clear -H2. induction B as [|n IH]; [change (2 ^ Z.of_nat 0)%Z with 1%Z; rewrite fZ_1; apply f1_neq_0|]. rewrite Nat2Z.inj_succ, Z.pow_succ_r, fZ_mul by lia. intros X. apply fmul_0 in X. tauto. }
  unfold f_fb, f_ch1, f_ch2 in Hfb. rewrite Eh4 in Hfb. set (ch1 := next_ch T h4) in *. set (ch2 := next_ch T (next_h h4)) in *. set (fb := (1 - ch1) * (1 - ch2)) in *. set (sb := ch1 * (1 - ch2)).
  set (z := nth (1 + length vs) (lnp_acc_evals pf) 0 + sb * (cl_eval last - y) * / fb * tt * / pw).
  exists z. destruct (recombine_top B c (length vs) (lnp_acc_evals pf) z rec Hk La Erec) as (r & Er & _ & _ & Eqr). fold tt pw in Eqr.
  eapply (ln_same T B c c1 s1 c2 s2 last pf h y _ (length vs) lp1 lp2 _ n1 d1 h1 _ n2 d2 h2 nb bch h3 (mkClaim p vi) (mkClaim q v0) ap e1 h4 es er res Hnr Elp E1 E2); eauto.
  - rewrite map_length. exact Hnb.
  - unfold ln_calc. rewrite combine_snoc; [reflexivity|]. rewrite combine_length, app_length, !repeat_length. lia.
  - rewrite map_length. exact Erec.
  - rewrite map_length. exact Er.
  - apply (nth_error_nth' _ 0). lia.
  - rewrite nth_error_app1 by lia. apply (nth_error_nth' _ 0). lia.
  - fold ch1 ch2. fold fb sb. rewrite Eqr. unfold z. field. auto.
Qed.

(** ** With the right number of evaluations *)
Lemma ln_calc_3 (a0 a1 a2 e0 e1 e2 w0 w1 w2 : K) t es ws : ln_calc (a0 :: a1 :: a2 :: t) (e0 :: e1 :: e2 :: es) (w0 :: w1 :: w2 :: ws) = a0 * e0 * w0 + a1 * e1 * w1 + a2 * e2 * w2 + ln_calc t es ws.
Proof.
  unfold ln_calc. cbn [combine fold_left]. assert (G : forall l (a : K), fold_left (fun acc '(v, (e, w)) => acc + v * e * w) l a = a + fold_left (fun acc '(v, (e, w)) => acc + v * e * w) l 0).
  { induction l as [|[v [e w]] l IH]; intros a; cbn [fold_left]; [ring|]. rewrite IH. rewrite (IH (0 + v * e * w)). ring. }
  rewrite G. ring.
Qed.
Lemma recombine_shift B c nr (a0 a1 a2 d d2 rec : K) t : (2 <= nr)%nat -> length t = (nr - 1)%nat -> ln_recombine B c nr (a0 :: a1 :: a2 :: t) = Some rec ->
  ln_recombine B c nr ((a0 + d) :: a1 :: (a2 + d2) :: t) = Some (rec + d * fZ (2 ^ Z.of_nat (ln_rcb c)) + d2).
Proof.
  intros Hn Lt H. unfold ln_recombine in *. destruct (pow2u B) as [pb|] eqn:Epb; [|discriminate H]. cbn [obind] in *.
  assert (Hpb : pb = fZ (2 ^ Z.of_nat B)) by (unfold pow2u in Epb; destruct (_ <? _)%nat; [congruence|discriminate Epb]). subst pb.
  change (nth_error (a0 :: a1 :: a2 :: t) 0) with (Some a0) in H. change (nth_error ((a0 + d) :: a1 :: (a2 + d2) :: t) 0) with (Some (a0 + d)). cbn [obind] in *.
  destruct (pow2u (ln_rcb c)) as [pr|] eqn:Epr; [|discriminate H]. assert (pr = fZ (2 ^ Z.of_nat (ln_rcb c))) by (unfold pow2u in Epr; destruct (_ <? _)%nat; [congruence|discriminate Epr]). subst pr. cbn [obind] in *.
  unfold csub in *. destruct (Nat.leb_spec 1 nr); [|lia]. cbn [obind skipn] in *. destruct nr as [|[|nr]]; [lia|lia|]. replace (S (S nr) - 1)%nat with (S nr) in * by lia. cbn [firstn] in *. rewrite recomb_fold in H |- *. cbn [digits_f length] in *.
  destruct (pow2u (ln_tsl c)) as [pt|]; [|discriminate H]. cbn [obind] in *. destruct (finv_opt pt) as [ti|]; [|discriminate H]. cbn [obind] in *.
  change (1 <=? S (S (S (length t))))%nat with true in *. cbn [obind] in *. replace (S (S (S (length t))) - 1)%nat with (S (S (length t))) in * by lia.
  destruct t as [|b t]; [cbn [length] in Lt; lia|]. change (nth_error ((a0 + d) :: a1 :: (a2 + d2) :: b :: t) (S (S (length (b :: t))))) with (nth_error (b :: t) (length t)). change (nth_error (a0 :: a1 :: a2 :: b :: t) (S (S (length (b :: t))))) with (nth_error (b :: t) (length t)) in H.
  destruct (nth_error (b :: t) (length t)) as [top|]; [|discriminate H]. cbn [obind] in *. match type of H with Some ?x = Some ?y => assert (X : x = y) by congruence; rewrite <- X end. f_equal. ring.
Qed.
Lemma ln_forge_same T B c c1 s1 c2 s2 m nb (last : claim) (pf : @ln_proof K C) h lp1 lp2 p q vi vo vs n1 d1 h1 n2 d2 h2 res :
  length p = m -> (2 <= length vs)%nat -> ln_nrc B c = Some (length vs) -> ceil_log2 (2 + length vs) = Some nb ->
  lnp_logups pf = [lp1; lp2] ->
  verify_logup T lp1 1 c1 s1 h = Some ([mkClaim p vi; mkClaim p vo], n1, d1, h1) ->
  verify_logup T lp2 (length vs) c2 s2 h1 = Some (map (mkClaim q) vs, n2, d2, h2) ->
  ln_verify T B c c1 s1 c2 s2 last pf h = Some res -> length (lnp_acc_evals pf) = (2 + length vs)%nat ->
  f_fb T m nb pf h2 vi vo vs <> 0 ->
  let ap := f_ap T m nb pf h2 in let w i := nth i (compute_betas_eval (f_bch T nb h2)) 0 in
  eqp q ap * w 2%nat <> 0 -> fZ (2 ^ Z.of_nat (ln_rcb c)) * (eqp q ap * w 2%nat) <> eqp p ap * w 0%nat ->
  forall y, exists acc, length acc = (2 + length vs)%nat /\ ln_verify T B c c1 s1 c2 s2 (mkClaim (cl_point last) y) (with_acc pf acc) h = Some res.
Proof.
  intros Lp Hk Hnr Hnb Elp E1 E2 Hv La Hfb ap0 w Hw Hw2 y. pose proof Hv as Hv0.
  unfold ln_verify in Hv. rewrite Hnr in Hv. cbn [obind] in Hv. rewrite Elp, E1 in Hv. cbn [obind] in Hv. rewrite E2 in Hv. cbn [obind] in Hv.
  rewrite map_length in Hv. change (length [mkClaim p vi; mkClaim p vo] + length vs)%nat with (2 + length vs)%nat in Hv. rewrite Hnb in Hv. cbn [obind] in Hv.
  destruct (ln_draw T nb h2) as [bch h3] eqn:Ed.
  assert (Ebch : f_bch T nb h2 = bch) by (unfold f_bch; rewrite Ed; reflexivity). assert (Eh3 : f_h3 T nb h2 = h3) by (unfold f_h3; rewrite Ed; reflexivity).
  assert (Lbch : length bch = nb) by (rewrite <- Ebch; apply ln_draw_length).
  destruct vs as [|v0 vs0] eqn:Evs; [cbn [length] in Hk; lia|]. rewrite <- Evs in *. assert (Es0 : nth_error (map (mkClaim q) vs) 0 = Some (mkClaim q v0)) by (rewrite Evs; reflexivity).
  rewrite Es0 in Hv. change (nth_error [mkClaim p vi; mkClaim p vo] 0) with (Some (mkClaim p vi)) in Hv. cbn [obind cl_point] in Hv.
  destruct (verify T _ (lnp_acc pf) _ 2 h3) as [[[ap e1] h4]|] eqn:Ev1 in Hv; [|discriminate Hv]. cbn [obind] in Hv.
  assert (Eap : ap0 = ap) by (unfold ap0, f_ap; rewrite Eh3; symmetry; apply verify_point in Ev1; rewrite Lp in Ev1; exact Ev1).
  destruct (M_Basefold.eq_xy_eval p ap) as [es|] eqn:Ees; [|discriminate Hv]. cbn [obind] in Hv.
  destruct (M_Basefold.eq_xy_eval q ap) as [er|] eqn:Eer; [|discriminate Hv]. cbn [obind] in Hv.
  destruct (feqb _ e1) in Hv; [|discriminate Hv]. unfold get_challenge, ln_batch in Hv.
  destruct (ln_recombine B c (length vs) (lnp_acc_evals pf)) as [rec|] eqn:Erec; [|discriminate Hv]. clear Hv.
  pose proof Ees as Qes. pose proof Eer as Qer. apply eq_xy_eqp in Qes as [_ Qes]. apply eq_xy_eqp in Qer as [_ Qer].
  assert (Eh4 : f_h4 T m nb pf h2 vi vo vs = h4).
  { unfold f_h4, sc_after, f_h3, f_bch. rewrite Ed. cbn [fst snd]. rewrite <- Lp.
    assert (Ein : map cl_eval ([mkClaim p vi; mkClaim p vo] ++ map (mkClaim q) vs) = vi :: vo :: vs) by (cbn [app map cl_eval]; rewrite map_map; cbn [cl_eval]; rewrite map_id; reflexivity).
    rewrite Ein in Ev1. cbn [cl_point] in Ev1. rewrite Ev1. reflexivity. }
  destruct (lnp_acc_evals pf) as [|a0 [|a1 [|a2 t]]] eqn:Eacc; [cbn [length] in La; lia|cbn [length] in La; lia|cbn [length] in La; lia|]. rewrite <- Eacc in *.
  assert (Lt : length t = (length vs - 1)%nat) by (rewrite Eacc in La; cbn [length] in La; lia).
  assert (Lrl : (2 + length vs <= length (compute_betas_eval bch))%nat) by (rewrite compute_betas_spec, eq_table_length, Lbch; now apply ceil_log2_le).
  destruct (compute_betas_eval bch) as [|w0 [|w1 [|w2 wt]]] eqn:Erl; [cbn [length] in Lrl; lia|cbn [length] in Lrl; lia|cbn [length] in Lrl; lia|].
  assert (Ew0 : w 0%nat = w0) by (unfold w; rewrite Ebch, Erl; reflexivity). assert (Ew2 : w 2%nat = w2) by (unfold w; rewrite Ebch, Erl; reflexivity).
  rewrite Ew0 in Hw2. rewrite Ew2 in Hw, Hw2. rewrite Eap in Hw, Hw2. rewrite <- Qes in Hw2. rewrite <- Qer in Hw, Hw2.
  unfold f_fb, f_ch1, f_ch2 in Hfb. rewrite Eh4 in Hfb. set (ch1 := next_ch T h4) in *. set (ch2 := next_ch T (next_h h4)) in *. set (fb := (1 - ch1) * (1 - ch2)) in *. set (sb := ch1 * (1 - ch2)).
  set (R := fZ (2 ^ Z.of_nat (ln_rcb c)) : K) in *. assert (ND : R * (er * w2) - es * w0 <> 0) by (intros X; apply Hw2; apply fsub_0; exact X).
  set (d := sb * (cl_eval last - y) * / fb * (er * w2) * / (R * (er * w2) - es * w0)). set (dd := - d * (es * w0) * / (er * w2)).
  exists ((a0 + d) :: a1 :: (a2 + dd) :: t). split; [cbn [length]; rewrite Lt; lia|].
  rewrite Eacc in Erec.
  eapply (ln_same T B c c1 s1 c2 s2 last pf h y _ (length vs) lp1 lp2 _ n1 d1 h1 _ n2 d2 h2 nb bch h3 (mkClaim p vi) (mkClaim q v0) ap e1 h4 es er res Hnr Elp E1 E2); eauto.
  - rewrite map_length. exact Hnb.
  - rewrite Erl. cbn [cl_point] in Ev1 |- *. exact Ev1.
  - rewrite Erl, Eacc. change (repeat es 2 ++ repeat er (length vs)) with (es :: es :: repeat er (length vs)). replace (length vs) with (S (length vs - 1)) by lia. cbn [repeat]. rewrite !ln_calc_3. unfold dd. field. split; intros X; apply Hw; rewrite X; ring.
  - rewrite map_length, Eacc. exact Erec.
  - rewrite map_length. apply (recombine_shift B c (length vs) a0 a1 a2 d dd rec t Hk Lt Erec).
  - rewrite Eacc. reflexivity.
  - reflexivity.
  - fold ch1 ch2. fold fb sb. fold R. unfold dd, d. field. assert (er <> 0 /\ w2 <> 0) by (split; intros X; apply Hw; rewrite X; ring). tauto.
Qed.
(** The number of commitments is not checked either. *)
Lemma ln_drop (T : @hist K -> K) B c c1 s1 c2 s2 (last : claim) (pf : @ln_proof K C) h wit nc gb h' m :
  ln_verify T B c c1 s1 c2 s2 last pf h = Some (wit, nc, gb, h') ->
  ln_verify T B c c1 s1 c2 s2 last (mkLnp (lnp_logups pf) (firstn m (lnp_comms pf)) (lnp_acc pf) (lnp_io pf) (lnp_input pf) (lnp_acc_evals pf) (lnp_evals pf) (lnp_gamma pf) (lnp_beta pf)) h
  = Some (firstn m wit, nc, gb, h').
Proof.
  unfold ln_verify. cbn [lnp_logups lnp_comms lnp_acc lnp_io lnp_input lnp_acc_evals lnp_evals lnp_gamma lnp_beta]. intros Hv.
  assert (Hf : forall (A B : Type) n (x : list A) (y : list B), combine (firstn n x) y = firstn n (combine x y)).
  { clear. intros A B n. induction n as [|n IH]; intros [|a x] [|b y]; cbn; try reflexivity. now rewrite IH. }
  revert Hv. repeat match goal with
  | |- obind ?x _ = Some _ -> _ => destruct x; cbn [obind]; [|intros X; discriminate X]
  | |- (let '(_, _) := ?x in _) = Some _ -> _ => destruct x
  | |- (if ?x then _ else _) = Some _ -> _ => destruct x; [|intros X; discriminate X]
  | |- (match ?x with [] => _ | _ => _ end) = Some _ -> _ => destruct x; try (intros X; discriminate X)
  end. intros Hv. rewrite Hf. congruence.
Qed.
End P.
