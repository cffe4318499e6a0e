(** Proofs about the proof of requantisation. *)
From Coq Require Import List Arith Lia Bool ZArith Ring Field Znumtheory.
From Verif Require Import ListAux FieldDef PolyList MleMath M_Mle P_Mle P_Eq M_Interp P_Interp M_Sumcheck P_ScVerify P_ScProve P_ScProve2 P_ScBatch P_ScFinal M_ScParallel
  P_ScParallel P_ScApi M_SamePoly P_SamePoly M_LogUp P_LogUp3 P_LogUp4 P_LogUp8 P_LogUp9 M_Tensor P_Tensor M_Layers P_Layers P_Layers2 P_Layers3 P_Transformer P_Transformer2 M_Sop P_Sop P_Code3
  M_Tables M_Quant M_Requant P_Requant P_Requant2 P_Pooling P_Pooling2 M_RequantP.
From Verif Require M_Basefold P_Basefold.
Import ListNotations.

Section P.
Context {K : field} {C : Type}.
Local Open Scope F_scope.
Add Field Kf_rqp : (fth K).

Lemma initial_fold bc (l : list K) : forall acc w, fst (fold_left (fun '(acc, chal) v => (acc + chal * v, chal * bc)) l (acc, w)) = acc + w * peval l bc.
Proof. induction l as [|v l IH]; intros acc w; cbn [fold_left peval]; [cbn [fst]; ring|]. rewrite IH. ring. Qed.
Lemma initial_ok bc (l : list K) : rq_initial bc l = peval l bc.
Proof. unfold rq_initial. rewrite initial_fold. ring. Qed.
Lemma calc_fold bc sb (l : list K) : forall acc w, fst (fold_left (fun '(acc, chal) v => (acc + v * sb * chal, chal * bc)) l (acc, w)) = acc + sb * w * peval l bc.
Proof. induction l as [|v l IH]; intros acc w; cbn [fold_left peval]; [cbn [fst]; ring|]. rewrite IH. ring. Qed.
Lemma calc_ok bc lb cb sb ine oute (l : list K) :
  rq_calc bc lb cb sb ine oute l = lb * oute + bc * (cb * oute) + bc * bc * (cb * ine) + bc * bc * bc * (sb * peval l bc).
Proof. unfold rq_calc. rewrite calc_fold. ring. Qed.

(** ** The sum over the cube *)
Definition evals_at (chs : list (list K)) (x : list K) : list K := map (fun c => mle c x) chs.
Definition rq_poly (lp p q cin cout : list K) (chs : list (list K)) (a : K) (x : list K) : K :=
  eqp lp x * mle cout x + a * (eqp p x * mle cout x) + a * a * (eqp p x * mle cin x) + a * a * a * (eqp q x * peval (evals_at chs x) a).
Lemma hsum_chunks n q (chs : list (list K)) a : length q = n -> hsum n (fun x => eqp q x * peval (evals_at chs x) a) = peval (evals_at chs q) a.
Proof.
  intros Lq. induction chs as [|c chs IH]; cbn [evals_at map peval].
  - rewrite (hsum_ext n _ (fun _ => 0 * 0)); [rewrite hsum_scal; ring|]. intros; ring.
  - rewrite (hsum_ext n _ (fun x => eqp q x * mle c x + a * (eqp q x * peval (evals_at chs x) a))) by (intros x _; unfold evals_at; ring).
    rewrite hsum_add, hsum_scal, IH. rewrite (hsum_eqp n q (mle c) c) by (auto using mle_bool_at). reflexivity.
Qed.
Lemma hsum_rq n lp p q cin cout chs a : length lp = n -> length p = n -> length q = n ->
  hsum n (rq_poly lp p q cin cout chs a) = peval (mle cout lp :: mle cout p :: mle cin p :: evals_at chs q) a.
Proof.
  intros Ll Lp Lq. unfold rq_poly. rewrite hsum_add, hsum_add, hsum_add, !hsum_scal, hsum_chunks by auto.
  rewrite (hsum_eqp n lp (mle cout) cout), (hsum_eqp n p (mle cout) cout), (hsum_eqp n p (mle cin) cin) by (auto using mle_bool_at). cbn [peval]. ring.
Qed.
Lemma rq_poly_deg n lp p q cin cout chs a : indiv_deg 2 n (rq_poly lp p q cin cout chs a).
Proof.
  intros u v _. unfold rq_poly.
  assert (M : forall r (l : list K), is_poly 2 (fun x => eqp r (u ++ x :: v) * mle l (u ++ x :: v))).
  { intros r l. apply (is_poly_le (1 + 1)); [lia|]. apply is_poly_mul; [apply multilin_eqp|apply multilin_mle]. }
  apply is_poly_add; [apply is_poly_add; [apply is_poly_add|]|]; [apply M|apply is_poly_scal, M|apply is_poly_scal, M|]. apply is_poly_scal.
  apply (is_poly_le (1 + 1)); [lia|]. apply is_poly_mul; [apply multilin_eqp|]. induction chs as [|c chs IH]; cbn [evals_at map peval].
  - eapply is_poly_ext; [|apply (is_poly_scal 1 0 (fun x => mle [] (u ++ x :: v))), multilin_mle]. intros; cbv beta. ring.
  - apply is_poly_add; [apply multilin_mle|]. apply is_poly_scal. exact IH.
Qed.

(** ** Soundness *)
Fixpoint diffs2 (xs ys : list K) : list K := match xs, ys with x :: xs, y :: ys => (x - y) :: diffs2 xs ys | _, _ => [] end.
Lemma diffs2_peval a : forall xs ys : list K, length xs = length ys -> peval (diffs2 xs ys) a = peval xs a - peval ys a.
Proof. induction xs as [|x xs IH]; intros [|y ys] L; cbn [length] in L; try discriminate L; cbn [diffs2 peval]; [ring|]. rewrite IH by lia. ring. Qed.
Lemma diffs2_all0 : forall xs ys : list K, length xs = length ys -> all0 (diffs2 xs ys) -> xs = ys.
Proof.
  induction xs as [|x xs IH]; intros [|y ys] L H; cbn [length] in L; try discriminate L; [reflexivity|]. cbn [diffs2] in H. inversion H as [|? ? H1 H2].
  f_equal; [now apply fsub_0|]. apply IH; [lia|exact H2].
Qed.

(** What fools the verifier: a root of the polynomial of the claims' errors at the batching challenge, or a root event of the
    sumcheck. *)
Definition rq_fooled (T : @hist K -> K) (n : nat) (lp p q : list K) (vl vo vi : K) (vs : list K) (cin cout : list K) (chs : list (list K)) (pf : @requant_proof K C) (h2 : hist) : Prop :=
  let a := T (EvBytes lbl_requant :: h2) in let h3 := EvSample :: EvBytes lbl_requant :: h2 in
  poly_event (diffs2 (mle cout lp :: mle cout p :: mle cin p :: evals_at chs q) (vl :: vo :: vi :: vs)) a \/
  root_event T n 2 (rq_poly lp p q cin cout chs a) h3 (rp_acc pf).

Lemma rqp_sound (T : @hist K -> K) B r cst csc n (last : claim) (pf : @requant_proof K C) h p q vi vo vs n1 d1 h1 n2 d2 h2 wit nc h' cin cout chs :
  char_gt K 2 -> (0 < n)%nat -> length p = n -> vs <> [] ->
  verify_logup T (rp_clamping pf) 1 cst csc h = Some ([mkClaim p vi; mkClaim p vo], n1, d1, h1) ->
  verify_logup T (rp_shifted pf) (rq_shift r / B)%nat cst 1 h1 = Some (map (mkClaim q) vs, n2, d2, h2) ->
  rqp_verify T B r cst csc last pf h = Some (wit, nc, h') -> length (rp_evals pf) = S (S (length vs)) ->
  Forall2 claim_true (cin :: cout :: chs) (map snd wit) -> length chs = length vs ->
  (claim_true cout last /\ mle cin p = vi /\ mle cout p = vo /\ evals_at chs q = vs /\
   cl_point nc = sc_point T n 2 (EvSample :: EvBytes lbl_requant :: h2) (rp_acc pf) /\
   recombine_claims B r (mle cin (cl_point nc)) (evals_at chs (cl_point nc)) = Some (cl_eval nc)) \/
  rq_fooled T n (cl_point last) p q (cl_eval last) vo vi vs cin cout chs pf h2.
Proof.
  intros Hch Hn Lp Hvs E1 E2 Hv Le Hw Lc. unfold rqp_verify in Hv. rewrite E1 in Hv. cbn [obind] in Hv. rewrite E2 in Hv. cbn [obind] in Hv. unfold get_challenge in Hv.
  set (a := T (EvBytes lbl_requant :: h2)) in *. set (h3 := EvSample :: EvBytes lbl_requant :: h2) in *.
  destruct vs as [|v0 vs0] eqn:Evs; [now destruct Hvs|]. rewrite <- Evs in *. assert (Es0 : nth_error (map (mkClaim q) vs) 0 = Some (mkClaim q v0)) by (rewrite Evs; reflexivity).
  rewrite Es0 in Hv. cbn [nth_error obind cl_point cl_eval] in Hv. rewrite map_map in Hv. cbn [cl_eval] in Hv. rewrite map_id in Hv. rewrite initial_ok in Hv. rewrite Lp in Hv.
  match type of Hv with obind (verify _ ?c _ _ _ _) _ = _ => set (claimed := c) in * end.
  destruct (verify T claimed (rp_acc pf) n 2 h3) as [[[zp e] h4]|] eqn:Ev; [|discriminate Hv]. cbn [obind] in Hv.
  destruct (M_Basefold.eq_xy_eval (cl_point last) zp) as [lb|] eqn:Elb; [|discriminate Hv]. cbn [obind] in Hv. apply eq_xy_eqp in Elb as [Llz ->].
  destruct (M_Basefold.eq_xy_eval p zp) as [cb|] eqn:Ecb; [|discriminate Hv]. cbn [obind] in Hv. apply eq_xy_eqp in Ecb as [Lpz ->].
  destruct (M_Basefold.eq_xy_eval q zp) as [sb|] eqn:Esb; [|discriminate Hv]. cbn [obind] in Hv. apply eq_xy_eqp in Esb as [Lqz ->].
  assert (Hzp : zp = sc_point T n 2 h3 (rp_acc pf)) by (now apply verify_point in Ev).
  assert (Lz : length zp = n) by lia.
  destruct (rp_evals pf) as [|w0 [|w1 ws]]; cbn [length] in Le; try discriminate Le. cbn [nth_error obind skipn] in Hv.
  destruct (feqb _ e) eqn:Ee in Hv; [|discriminate Hv]. apply feqb_true in Ee. rewrite calc_ok in Ee.
  destruct (recombine_claims B r w0 ws) as [next|] eqn:En; [|discriminate Hv]. cbn [obind] in Hv.
  assert (Ewit : wit = map (fun p0 => (snd p0, mkClaim zp (fst p0))) (combine (w0 :: w1 :: ws) (rp_comms pf))) by congruence.
  assert (Enc : nc = mkClaim zp next) by congruence. clear Hv. subst wit nc. cbn [cl_point cl_eval].
  assert (HE : w0 = mle cin zp /\ w1 = mle cout zp /\ ws = evals_at chs zp /\ length cout = (2 ^ n)%nat).
  { assert (L5 := F2_len _ _ _ Hw). rewrite !map_length, combine_length in L5. cbn [length] in L5.
    destruct (rp_comms pf) as [|k0 [|k1 ks]]; cbn [length] in L5; try lia. cbn [combine map fst snd] in Hw.
    inversion Hw as [|? ? ? ? [_ Q0] Hw1]. inversion Hw1 as [|? ? ? ? [Q1a Q1] Hw2]. cbn [cl_point cl_eval] in Q0, Q1, Q1a. split; [exact Q0|]. split; [exact Q1|]. split; [|rewrite Q1a, Lz; reflexivity].
    clear - Hw2 L5 Le Lc. assert (L6 : length ws = length chs) by lia. assert (L7 : (length ws <= length ks)%nat) by lia. clear - Hw2 L6 L7. revert ws ks Hw2 L6 L7.
    induction chs as [|c chs IH]; intros [|w ws] ks Hw2 L6 L7; cbn [length] in *; try discriminate L6; [reflexivity|]. destruct ks as [|k ks]; cbn [length] in L7; [lia|].
    cbn [combine map fst snd] in Hw2. inversion Hw2 as [|? ? ? ? [_ Q] H3]. cbn [cl_point cl_eval] in Q. cbn [evals_at map]. f_equal; [exact Q|]. apply (IH ws ks); auto; lia. }
  destruct HE as (-> & -> & -> & Lco).
  set (lp := cl_point last) in *. set (F := rq_poly lp p q cin cout chs a).
  assert (EF : e = F zp) by (rewrite <- Ee; reflexivity).
  destruct (feq_dec claimed (hsum n F)) as [Ec|Nc].
  2: { right. right. apply (verify_sound T claimed (rp_acc pf) n 2 h3 zp e h4 F); auto. apply rq_poly_deg. }
  unfold F in Ec. rewrite hsum_rq in Ec by lia.
  set (D := diffs2 (mle cout lp :: mle cout p :: mle cin p :: evals_at chs q) (cl_eval last :: vo :: vi :: vs)).
  assert (LD : length (mle cout lp :: mle cout p :: mle cin p :: evals_at chs q) = length (cl_eval last :: vo :: vi :: vs)) by (cbn [length]; unfold evals_at; rewrite map_length; lia).
  assert (PD : peval D a = 0) by (unfold D; rewrite diffs2_peval by exact LD; rewrite <- Ec; unfold claimed; ring).
  destruct (all0_dec D) as [HD|HD]; [|right; left; split; auto].
  left. apply diffs2_all0 in HD; [|exact LD]. assert (HD2 : mle cout lp = cl_eval last /\ mle cout p = vo /\ mle cin p = vi /\ evals_at chs q = vs) by (repeat split; congruence).
  destruct HD2 as (D1 & D2 & D3 & D4). assert (Lln : n = length lp) by (rewrite Llz; symmetry; exact Lz). split; [split; [fold lp; rewrite Lco, <- Lln; reflexivity|symmetry; exact D1]|]. split; [exact D3|]. split; [exact D2|]. split; [exact D4|]. split; [exact Hzp|]. exact En.
Qed.
End P.
