(** Proofs about the layer normalisation proof: soundness with the missing checks. *)
From Coq Require Import List Arith Lia Bool ZArith Ring Field Znumtheory.
From Verif Require Import ListAux FieldDef PolyList MleMath M_Mle P_Mle P_Eq M_Interp P_Interp M_Sumcheck P_ScVerify P_ScProve P_ScProve2 P_ScBatch P_ScFinal M_ScParallel
  P_ScParallel P_ScApi M_SamePoly P_SamePoly M_LogUp P_LogUp3 P_LogUp4 P_LogUp8 P_LogUp9 M_Tensor P_Tensor M_Layers P_Layers P_Layers2 P_Layers3 P_Transformer P_Transformer2 M_Sop P_Sop P_Code3
  M_Tables M_Quant M_Requant P_Requant P_Requant2 P_Pooling P_Pooling2 M_RequantP P_RequantP M_LayerNorm P_LayerNorm.
From Verif Require M_Basefold P_Basefold.
Import ListNotations.

Section P.
Context {K : field} {C : Type}.
Local Open Scope F_scope.
Add Field Kf_ln2 : (fth K).

Lemma two_neq_0 : char_gt K 2 -> (1 + 1 : K) <> 0.
Proof. intros H E. apply (H 2%nat); [lia|]. cbn [fnat]. transitivity (1 + 1 : K); [ring|exact E]. Qed.
Lemma half_ok : char_gt K 2 -> (1 + 1) * / (1 + 1) = (1 : K) /\ finv_opt (1 + 1 : K) = Some (/ (1 + 1)).
Proof. intros H. pose proof (two_neq_0 H) as N. split; [field; exact N|]. unfold finv_opt. apply feqb_false in N. rewrite N. reflexivity. Qed.
Lemma diffs2_mle (xs ys bch : list K) : length xs = length ys -> mle (diffs2 xs ys) bch = mle xs bch - mle ys bch.
Proof.
  intros L. unfold mle. rewrite <- mlef_sub. apply mlef_ext. intros i _. revert ys L i. induction xs as [|x xs IH]; intros [|y ys] L i; cbn [length] in L; try discriminate L; cbn [diffs2].
  - destruct i; cbn [nth]; ring.
  - destruct i as [|i]; cbn [nth]; [reflexivity|]. apply IH. lia.
Qed.
Lemma ceil_log2_le n k : ceil_log2 n = Some k -> (n <= 2 ^ k)%nat.
Proof.
  unfold ceil_log2. destruct n as [|n]; [discriminate|]. intros H. assert (k = Nat.log2_up (S n)) by congruence. subst k. destruct n as [|n]; [cbn; lia|]. apply (Nat.log2_up_spec (S (S n))). lia.
Qed.
Lemma mle_3 (a b d : K) (x y : K) : mle [a; b; d] [x; y] = a * ((1 - x) * (1 - y)) + b * (x * (1 - y)) + d * ((1 - x) * y).
Proof. unfold mle. rewrite mlef_cons, mlef_cons, mlef_nil. cbn [nth Nat.mul Nat.add]. ring. Qed.
(** A list is determined by its length and entries. *)
Lemma nth_error_at (l : list K) i : (i < length l)%nat -> nth_error l i = Some (nth i l 0).
Proof. intros H. apply nth_error_nth'. exact H. Qed.
Lemma ln_claims_ok (evals ap op : list K) n : length evals = (2 + n)%nat -> 
  ln_claims evals ap op = map (fun i => mkClaim (if (i =? 1)%nat then op else ap) (nth i evals 0)) (seq 0 n).
Proof.
  intros L. unfold ln_claims. rewrite L. replace (2 + n - 2)%nat with n by lia. assert (G : forall (l : list K) a k, (k <= length l)%nat ->
    map (fun '(i, e) => mkClaim (if (i =? 1)%nat then op else ap) e) (combine (seq a k) l) = map (fun i => mkClaim (if (i =? 1)%nat then op else ap) (nth (i - a) l 0)) (seq a k)).
  { induction l as [|e l IH]; intros a k Hk; cbn [length] in Hk; [replace k with 0%nat by lia; reflexivity|]. destruct k as [|k]; [reflexivity|]. cbn [seq combine map]. rewrite Nat.sub_diag. cbn [nth]. f_equal.
    rewrite IH by lia. apply map_ext_in. intros i Hi. apply in_seq in Hi. replace (i - a)%nat with (S (i - S a)) by lia. reflexivity. }
  rewrite G by lia. apply map_ext. intros i. now rewrite Nat.sub_0_r.
Qed.

Lemma ln_sound (T : @hist K -> K) B c c1 s1 c2 s2 s m nb (last : claim) (pf : @ln_proof K C) h lp1 lp2 p q vi vo vs n1 d1 h1 n2 d2 h2 rec wit nc gc bc h' lin lout rcs xs gam bet :
  char_gt K 4 -> (0 < m)%nat -> length p = m -> vs <> [] ->
  ln_nrc B c = Some (length vs) -> ceil_log2 (ln_dim c) = Some s -> (s < 64)%nat -> ceil_log2 (2 + length vs) = Some nb ->
  lnp_logups pf = [lp1; lp2] ->
  verify_logup T lp1 1 c1 s1 h = Some ([mkClaim p vi; mkClaim p vo], n1, d1, h1) ->
  verify_logup T lp2 (length vs) c2 s2 h1 = Some (map (mkClaim q) vs, n2, d2, h2) ->
  ln_verify T B c c1 s1 c2 s2 last pf h = Some (wit, nc, (gc, bc), h') ->
  length (lnp_evals pf) = (4 + length vs)%nat -> length (lnp_acc_evals pf) = (2 + length vs)%nat ->
  (forall i, (i < 2 + length vs)%nat -> i <> 1%nat -> nth i (lnp_acc_evals pf) 0 = nth i (lnp_evals pf) 0) ->
  ln_recombine B c (length vs) (lnp_acc_evals pf) = Some rec ->
  Forall2 claim_true (lin :: lout :: rcs) (map snd wit) -> length rcs = length vs ->
  claim_true gam gc -> claim_true bet bc -> claim_true xs nc ->
  let dim := fZ (Z.of_nat (ln_dim c)) in
  (length lin = 2 ^ m /\ length lout = 2 ^ m /\ length xs = 2 ^ (s + m) /\ length gam = 2 ^ s /\ length bet = 2 ^ s)%nat /\
  ((claim_true (ln_table dim s m xs gam bet lout) last /\ mle lin p = vi /\ mle lout p = vo /\ evals_at rcs q = vs /\
   let ap := f_ap T m nb pf h2 in
   ln_recombine B c (length vs) (mle lin ap :: mle lout ap :: evals_at rcs ap) = Some (fZ (ln_mult c) * mle (ln_vars dim s m xs) ap)) \/
  ln_fooled T c s m nb last pf h2 p q vi vo vs rec lin lout rcs xs gam bet).
Proof.
  intros Hch Hm Lp Hvs Hnr Hs Hs64 Hnb Elp E1 E2 Hv Le La Hlink Hrec Hw Lr [Lg Hg] [Lb Hb] [Lx Hx] dim.
  assert (Hch2 : char_gt K 2) by (eapply char_gt_le; [|exact Hch]; lia). destruct (half_ok Hch2) as [Hh Ehalf].
  set (half := / (1 + 1) : K) in *.
  unfold ln_verify in Hv. rewrite Hnr in Hv. cbn [obind] in Hv. rewrite Elp, E1 in Hv. cbn [obind] in Hv. rewrite E2 in Hv. cbn [obind] in Hv.
  rewrite map_length in Hv. change (length [mkClaim p vi; mkClaim p vo] + length vs)%nat with (2 + length vs)%nat in Hv. rewrite Hnb in Hv. cbn [obind] in Hv.
  destruct (ln_draw T nb h2) as [bch h3] eqn:Ed.
  assert (Ebch : f_bch T nb h2 = bch) by (unfold f_bch; rewrite Ed; reflexivity). assert (Eh3 : f_h3 T nb h2 = h3) by (unfold f_h3; rewrite Ed; reflexivity).
  assert (Lbch : length bch = nb) by (rewrite <- Ebch; apply ln_draw_length).
  destruct vs as [|v0 vs0] eqn:Evs; [now destruct Hvs|]. rewrite <- Evs in *. assert (Es0 : nth_error (map (mkClaim q) vs) 0 = Some (mkClaim q v0)) by (rewrite Evs; reflexivity).
  rewrite Es0 in Hv. change (nth_error [mkClaim p vi; mkClaim p vo] 0) with (Some (mkClaim p vi)) in Hv. cbn [obind cl_point] in Hv. rewrite Lp in Hv.
  assert (Ein : map cl_eval ([mkClaim p vi; mkClaim p vo] ++ map (mkClaim q) vs) = vi :: vo :: vs) by (cbn [app map cl_eval]; rewrite map_map; cbn [cl_eval]; rewrite map_id; reflexivity).
  rewrite Ein in Hv. clear Ein. set (claimed := ln_initial (vi :: vo :: vs) (compute_betas_eval bch)) in *.
  destruct (verify T claimed (lnp_acc pf) m 2 h3) as [[[ap e1] h4]|] eqn:Ev1; [|discriminate Hv]. cbn [obind] in Hv.
  assert (Eap : f_ap T m nb pf h2 = ap) by (unfold f_ap; rewrite Eh3; symmetry; now apply verify_point in Ev1).
  assert (Eh4 : f_h4 T m nb pf h2 vi vo vs = h4) by (unfold f_h4, sc_after; rewrite Ebch, Eh3; fold claimed; rewrite Ev1; reflexivity).
  destruct (M_Basefold.eq_xy_eval p ap) as [es|] eqn:Ees; [|discriminate Hv]. cbn [obind] in Hv. apply eq_xy_eqp in Ees as [Lpa ->].
  destruct (M_Basefold.eq_xy_eval q ap) as [er|] eqn:Eer; [|discriminate Hv]. cbn [obind] in Hv. apply eq_xy_eqp in Eer as [Lqa ->].
  destruct (feqb _ e1) eqn:Ee1 in Hv; [|discriminate Hv]. apply feqb_true in Ee1.
  unfold get_challenge in Hv. fold (next_ch T h4) (next_h h4) in Hv. fold (next_ch T (next_h h4)) (next_h (next_h h4)) in Hv.
  set (ch1 := next_ch T h4) in *. set (ch2 := next_ch T (next_h h4)) in *. set (h6 := next_h (next_h h4)) in *. unfold ln_batch in Hv.
  set (fb := (1 - ch1) * (1 - ch2)) in *. set (sb := ch1 * (1 - ch2)) in *. set (tb := (1 - ch1) * ch2) in *.
  rewrite Hrec in Hv. cbn [obind] in Hv. rewrite (nth_error_at (lnp_acc_evals pf) 1) in Hv by lia. cbn [obind] in Hv. set (a1 := nth 1 (lnp_acc_evals pf) 0) in *.
  set (claimed2 := fb * rec + sb * cl_eval last + a1 * tb) in *.
  destruct (verify T claimed2 (lnp_io pf) (length (cl_point last)) 4 h6) as [[[iop e2] h7]|] eqn:Ev2; [|discriminate Hv]. cbn [obind] in Hv.
  unfold csub in Hv at 1. rewrite Le in Hv. change (2 <=? 4 + length vs)%nat with true in Hv. cbv iota in Hv. cbn [obind] in Hv. replace (4 + length vs - 2)%nat with (2 + length vs)%nat in Hv by lia.
  rewrite (nth_error_at (lnp_evals pf) (2 + length vs)), (nth_error_at (lnp_evals pf) (S (2 + length vs))), (nth_error_at (lnp_evals pf) 1) in Hv by lia. cbn [obind] in Hv.
  change (S (2 + length vs)) with (3 + length vs)%nat in Hv. set (in_io := nth (2 + length vs) (lnp_evals pf) 0) in *. set (mean_io := nth (3 + length vs) (lnp_evals pf) 0) in *. set (inv := nth 1 (lnp_evals pf) 0) in *.
  rewrite Hs in Hv. cbn [obind] in Hv. rewrite Ehalf in Hv. cbn [obind] in Hv. unfold pow2u in Hv at 1. destruct (Nat.ltb_spec s 64) as [_|]; [|lia]. cbn [obind] in Hv. set (tm := fZ (2 ^ Z.of_nat s) : K) in *.
  fold half in Hv.
  destruct (M_Basefold.eq_xy_eval (repeat half s ++ ap) iop) as [ie|] eqn:Eie; [|discriminate Hv]. cbn [obind] in Hv. apply eq_xy_eqp in Eie as [Lfi ->]. rewrite app_length, repeat_length, <- Lpa, Lp in Lfi.
  destruct (M_Basefold.eq_xy_eval (cl_point last) iop) as [le|] eqn:Ele; [|discriminate Hv]. cbn [obind] in Hv. apply eq_xy_eqp in Ele as [Lli ->].
  assert (Lio : length iop = (s + m)%nat) by lia. assert (Ll : length (cl_point last) = (s + m)%nat) by lia. rewrite Ll in Ev2.
  assert (Eiop : iop = sc_point T (s + m) 4 h6 (lnp_io pf)) by (now apply verify_point in Ev2).
  destruct (feqb _ e2) eqn:Ee2 in Hv; [|discriminate Hv]. apply feqb_true in Ee2.
  fold (next_ch T h7) (next_h h7) in Hv. set (ic := next_ch T h7) in *. rewrite Lio in Hv.
  destruct (verify T (in_io + ic * (mean_io - in_io)) (lnp_input pf) (s + m) 2 (next_h h7)) as [[[ip e3] h9]|] eqn:Ev3; [|discriminate Hv]. cbn [obind] in Hv.
  destruct (M_Basefold.eq_xy_eval iop ip) as [eio|] eqn:Eeio; [|discriminate Hv]. cbn [obind] in Hv. apply eq_xy_eqp in Eeio as [Lii ->].
  destruct (M_Basefold.eq_xy_eval (repeat half s ++ skipn s iop) ip) as [esum|] eqn:Eesum; [|discriminate Hv]. cbn [obind] in Hv. apply eq_xy_eqp in Eesum as [_ ->].
  destruct (finv_opt _) as [nit|] eqn:Enit in Hv; [|discriminate Hv]. cbn [obind] in Hv. apply finv_opt_some in Enit as [Nnit Enit].
  rewrite (ln_claims_ok (lnp_evals pf) ap (skipn s iop) (2 + length vs)) in Hv by (rewrite Le; reflexivity).
  assert (Ewit : wit = combine (lnp_comms pf) (map (fun i => mkClaim (if (i =? 1)%nat then skipn s iop else ap) (nth i (lnp_evals pf) 0)) (seq 0 (2 + length vs)))) by congruence.
  assert (Enc : nc = mkClaim ip (e3 * nit)) by congruence. assert (Egc : gc = mkClaim (firstn s iop) (lnp_gamma pf)) by congruence. assert (Ebc : bc = mkClaim (firstn s iop) (lnp_beta pf)) by congruence.
  clear Hv. subst wit nc gc bc. cbn [cl_point cl_eval] in Lg, Hg, Lb, Hb, Lx, Hx.
  (* the commitments *)
  assert (HE : (length lin = 2 ^ length ap /\ length lout = 2 ^ length (skipn s iop))%nat /\ nth 0 (lnp_evals pf) 0 = mle lin ap /\ inv = mle lout (skipn s iop) /\ (forall i, (i < length vs)%nat -> nth (2 + i) (lnp_evals pf) 0 = mle (nth i rcs []) ap)).
  { assert (L5 := F2_len _ _ _ Hw). rewrite map_length, combine_length, map_length, seq_length in L5. cbn [length] in L5.
    assert (Esn : forall (A : Type) (cm : list A) (l : list (claim (K := K))), (length l <= length cm)%nat -> map snd (combine cm l) = l).
    { intros A cm l. revert cm. induction l as [|x l IH]; intros [|y cm] L6; cbn [length] in L6; try lia; try reflexivity. cbn [combine map snd]. f_equal. apply IH. lia. }
    rewrite Esn in Hw by (rewrite map_length, seq_length; lia). cbn [Nat.add seq map] in Hw. inversion Hw as [|? ? ? ? [Q2 Q0] Hw1]. inversion Hw1 as [|? ? ? ? [Q3 Q1] Hw2]. cbn [cl_point cl_eval Nat.eqb] in Q0, Q1, Q2, Q3.
    split; [split; [exact Q2|exact Q3]|]. split; [exact Q0|]. split; [exact Q1|]. clear - Hw2 Lr. intros i Hi.
    assert (G : forall a k (l : list (list K)), (2 <= a)%nat -> Forall2 claim_true l (map (fun i => mkClaim (if (i =? 1)%nat then skipn s iop else ap) (nth i (lnp_evals pf) 0)) (seq a k)) ->
              forall i, (i < k)%nat -> nth (a + i) (lnp_evals pf) 0 = mle (nth i l []) ap).
    { intros a k. revert a. induction k as [|k IH]; intros a l Ha Hl j Hj; [lia|]. cbn [seq map] in Hl. destruct l as [|x l]; [inversion Hl|]. assert (Q : nth a (lnp_evals pf) 0 = mle x (if (a =? 1)%nat then skipn s iop else ap)) by (inversion Hl as [|? ? ? ? [_ Q] _]; exact Q). assert (Hl' := Hl). apply (fun H => match H in Forall2 _ u v return match u, v with _ :: u, _ :: v => Forall2 claim_true u v | _, _ => True end with Forall2_nil _ => I | Forall2_cons _ _ _ Ht => Ht end) in Hl'. destruct (Nat.eqb_spec a 1); [lia|].
      destruct j as [|j]; cbn [nth]; [rewrite Nat.add_0_r; exact Q|]. replace (a + S j)%nat with (S a + j)%nat by lia. apply (IH (S a)); auto; lia. }
    apply (G 2%nat (length vs) rcs); auto. }
  destruct HE as ((Qi & Qo) & H0 & H1 & H2). rewrite skipn_length, Lio in Qo. rewrite <- Lpa, Lp in Qi. rewrite firstn_length, Lio in Lg, Lb. rewrite <- Lii, Lio in Lx.
  split. { replace (s + m - s)%nat with m in Qo by lia. replace (Nat.min s (s + m)) with s in Lg, Lb by lia. auto. }
  assert (Eacc : lnp_acc_evals pf = nth 0 (lnp_evals pf) 0 :: a1 :: evals_at rcs ap).
  { apply nth_ext_all with (d := 0); [cbn [length]; unfold evals_at; rewrite map_length; lia|]. intros i Hi. rewrite La in Hi. destruct i as [|[|i]]; cbn [nth].
    - apply Hlink; lia. - reflexivity. - rewrite Hlink by lia. change (S (S i)) with (2 + i)%nat. rewrite H2 by lia. unfold evals_at. rewrite (nth_map_lt _ rcs i []) by lia. reflexivity. }
  (* the input sumcheck *)
  assert (Enx : e3 = ln_in_poly ic half s iop xs ip).
  { unfold ln_in_poly. fold tm. rewrite <- Hx, Enit. field. exact Nnit. }
  assert (Eh7 : f_h7 T s m nb last pf h2 vi vo vs rec = h7).
  { unfold f_h7, sc_after, f_fb, f_sb, f_tb, f_ch1, f_ch2, f_h6. rewrite Eh4. fold ch1 ch2 h6. fold fb sb tb a1. fold claimed2. rewrite Ev2. reflexivity. }
  assert (Efi : f_iop T s m nb pf h2 vi vo vs = iop) by (unfold f_iop, f_h6; rewrite Eh4; symmetry; exact Eiop).
  assert (Eic : f_ic T s m nb last pf h2 vi vo vs rec = ic) by (unfold f_ic; rewrite Eh7; reflexivity).
  assert (F : forall A : Prop, (A \/ ln_fooled T c s m nb last pf h2 p q vi vo vs rec lin lout rcs xs gam bet) <->
    (A \/ table_event (diffs2 (mle lin p :: mle lout p :: evals_at rcs q) (vi :: vo :: vs)) bch \/
     root_event T m 2 (ln_acc_poly bch p q lin lout rcs) h3 (lnp_acc pf) \/
     table_event [fZ (ln_mult c) * mle (ln_vars dim s m xs) ap - rec; mle (ln_table dim s m xs gam bet lout) (cl_point last) - cl_eval last; mle lout ap - a1] [ch1; ch2] \/
     root_event T (s + m) 4 (ln_io_poly fb sb tb (fZ (ln_mult c)) dim s m (repeat half s ++ ap) (cl_point last) xs gam bet lout) h6 (lnp_io pf) \/
     poly_event [mle xs iop - in_io; (mlef (row_sum s xs) (skipn s iop) - mle xs iop) - (mean_io - in_io)] ic \/
     root_event T (s + m) 2 (ln_in_poly ic half s iop xs) (next_h h7) (lnp_input pf))).
  { intros A. unfold ln_fooled, f_fb, f_sb, f_tb, f_ch1, f_ch2, f_h6, f_in, f_mean. rewrite Ebch, Eh3, Eap, Eh4, Eh7, Efi, Eic. reflexivity. }
  apply F. clear F.
  destruct (feq_dec (in_io + ic * (mean_io - in_io)) (hsum (s + m) (ln_in_poly ic half s iop xs))) as [Eq3|Ne3].
  2: { do 6 right. eapply verify_sound; [eapply char_gt_le; [|exact Hch]; lia|lia|apply ln_in_deg|exact Ev3|exact Ne3|exact Enx]. }
  rewrite (hsum_in half ic s m iop xs Hh Lio) in Eq3.
  destruct (all0_dec [mle xs iop - in_io; (mlef (row_sum s xs) (skipn s iop) - mle xs iop) - (mean_io - in_io)]) as [A3|A3].
  2: { do 5 right. left. split; [exact A3|]. cbn [peval]. transitivity (mle xs iop + ic * (mlef (row_sum s xs) (skipn s iop) - mle xs iop) - (in_io + ic * (mean_io - in_io))); [ring|]. rewrite Eq3. ring. }
  inversion A3 as [|? ? A31 A32]. inversion A32 as [|? ? A33 _]. apply fsub_0 in A31. apply fsub_0 in A33. clear A3 A32.
  assert (Emean : mean_io = mlef (row_sum s xs) (skipn s iop)) by (transitivity ((mean_io - in_io) + in_io); [ring|]; rewrite <- A33, <- A31; ring).
  (* the io sumcheck *)
  set (F4 := ln_io_poly fb sb tb (fZ (ln_mult c)) dim s m (repeat half s ++ ap) (cl_point last) xs gam bet lout).
  assert (EF4 : e2 = F4 iop) by (rewrite <- Ee2; unfold F4, ln_io_poly; fold tm; rewrite <- A31, Emean, H1, Hg, Hb; reflexivity).
  destruct (feq_dec claimed2 (hsum (s + m) F4)) as [Eq2|Ne2].
  2: { do 4 right. left. eapply verify_sound; [exact Hch|lia|apply ln_io_deg|exact Ev2|exact Ne2|exact EF4]. }
  unfold F4 in Eq2. rewrite (hsum_io half) in Eq2 by (auto; lia).
  match goal with |- context [table_event ?t [ch1; ch2]] => destruct (all0_dec t) as [A2|A2] end.
  2: { do 3 right. left. split; [exact A2|]. rewrite mle_3. fold fb sb tb.
       transitivity ((fb * (fZ (ln_mult c) * mle (ln_vars dim s m xs) ap) + sb * mle (ln_table dim s m xs gam bet lout) (cl_point last) + mle lout ap * tb) - claimed2); [unfold claimed2; ring|]. rewrite Eq2. ring. }
  inversion A2 as [|? ? A21 A22]. inversion A22 as [|? ? A23 A24]. inversion A24 as [|? ? A25 _]. apply fsub_0 in A21. apply fsub_0 in A23. apply fsub_0 in A25. clear A2 A22 A24.
  (* the accumulation sumcheck *)
  rewrite compute_betas_spec in Ee1. set (F1 := ln_acc_poly bch p q lin lout rcs).
  assert (EF1 : e1 = F1 ap).
  { rewrite <- Ee1, ln_calc_initial. rewrite ln_initial_ok.
    - unfold F1, ln_acc_poly. f_equal. rewrite Eacc, H0, <- A25. unfold acc_row. cbn [repeat app mul2]. match goal with |- ?a :: ?b :: ?t = ?a' :: ?b' :: ?t' => assert (Q1 : a = a') by ring; assert (Q2 : b = b') by ring; assert (Q3 : t = t'); [|rewrite Q1, Q2, Q3; reflexivity] end. rewrite <- Lr. unfold evals_at. clear. induction rcs as [|c0 t IH]; [reflexivity|]. cbn [map length repeat mul2]. rewrite IH. f_equal. ring.
    - rewrite mul2_length, Lbch. apply ceil_log2_le in Hnb. lia. }
  assert (Ecl : claimed = mle (vi :: vo :: vs) bch).
  { unfold claimed. rewrite compute_betas_spec. apply ln_initial_ok. rewrite Lbch. apply ceil_log2_le in Hnb. exact Hnb. }
  destruct (feq_dec claimed (hsum m F1)) as [Eq1|Ne1].
  2: { do 2 right. left. eapply verify_sound; [eapply char_gt_le; [|exact Hch]; lia|lia|apply ln_acc_deg|exact Ev1|exact Ne1|exact EF1]. }
  unfold F1 in Eq1. rewrite hsum_acc in Eq1 by lia.
  assert (LD : length (mle lin p :: mle lout p :: evals_at rcs q) = length (vi :: vo :: vs)) by (cbn [length]; unfold evals_at; rewrite map_length; lia).
  destruct (all0_dec (diffs2 (mle lin p :: mle lout p :: evals_at rcs q) (vi :: vo :: vs))) as [A1|A1].
  2: { right. left. split; [exact A1|]. rewrite diffs2_mle by exact LD. rewrite <- Eq1, Ecl. ring. }
  apply diffs2_all0 in A1; [|exact LD]. left. assert (B1 : mle lin p = vi /\ mle lout p = vo /\ evals_at rcs q = vs) by (repeat split; congruence). destruct B1 as (B1 & B2 & B3).
  split; [split; [unfold ln_table; rewrite map_length, seq_length, Ll; reflexivity|symmetry; exact A23]|]. split; [exact B1|]. split; [exact B2|]. split; [exact B3|]. cbv zeta. rewrite Eap.
  assert (Efin : lnp_acc_evals pf = mle lin ap :: mle lout ap :: evals_at rcs ap) by (etransitivity; [exact Eacc|rewrite H0, <- A25; reflexivity]).
  assert (Hrec2 : ln_recombine B c (length vs) (mle lin ap :: mle lout ap :: evals_at rcs ap) = Some rec) by (rewrite <- Hrec; f_equal; symmetry; exact Efin).
  etransitivity; [exact Hrec2|]. f_equal. symmetry. exact A21.
Qed.
End P.
