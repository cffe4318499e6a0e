(** Proofs about the pooling verifier. *)
From Coq Require Import List Arith Lia Bool ZArith Ring Field.
From Verif Require Import ListAux FieldDef PolyList MleMath M_Mle P_Mle P_Eq M_Interp P_Interp M_Sumcheck P_ScVerify P_ScProve P_ScProve2 P_ScBatch P_ScFinal M_ScParallel
  P_ScParallel P_ScApi M_SamePoly P_SamePoly M_LogUp P_LogUp3 P_LogUp4 P_LogUp9 M_Tensor P_Tensor M_Layers P_Layers P_Layers2 P_Layers3 P_Transformer P_Transformer2 M_Sop P_Sop P_Code3 M_Pooling.
From Verif Require M_Basefold P_Basefold.
Import ListNotations.

Section P.
Context {K : field} {C : Type}.
Local Open Scope F_scope.
Add Field Kf_pool : (fth K).

(** ** The input point *)
(** Entry [i] of the sub-table [k] = 2b + a of an input with rows of 2^(g+1) entries: offset [b] in the column, [a] in the row. *)
Definition strided (g n k : nat) (X : list K) : list K :=
  map (fun i => nth (k / 2 + 2 * (i mod 2 ^ g) + 2 ^ S g * (k mod 2) + 2 ^ S (S g) * (i / 2 ^ g)) X 0) (seq 0 (2 ^ n)).
Lemma strided_length g n k X : length (strided g n k X) = (2 ^ n)%nat.
Proof. unfold strided. now rewrite map_length, seq_length. Qed.

Lemma mle_input_point g n (X zp : list K) r1 r2 : length zp = n -> (g <= n)%nat ->
  mle X ([r1] ++ firstn g zp ++ [r2] ++ skipn g zp)
  = (1 - r1) * (1 - r2) * mle (strided g n 0 X) zp + (1 - r1) * r2 * mle (strided g n 1 X) zp
    + r1 * (1 - r2) * mle (strided g n 2 X) zp + r1 * r2 * mle (strided g n 3 X) zp.
Proof.
  intros Lz Hg. set (lo := firstn g zp). set (hi := skipn g zp). assert (Ez : zp = lo ++ hi) by (symmetry; apply firstn_skipn).
  assert (Ll : length lo = g) by (unfold lo; rewrite firstn_length; lia). assert (Lh : length hi = (n - g)%nat) by (unfold hi; rewrite skipn_length; lia).
  assert (Hs : forall k, mle (strided g n k X) zp = mlef (fun j => mlef (fun i => nth (k / 2 + 2 * i + 2 ^ S g * (k mod 2) + 2 ^ S (S g) * j) X 0) lo) hi).
  { intros k. unfold strided. rewrite mle_map_seq by auto. rewrite Ez. rewrite mlef_app. apply mlef_ext. intros j _. apply mlef_ext. intros i Hi. rewrite Ll in *.
    rewrite (Nat.mul_comm (2 ^ g) j). assert (P2 : (2 ^ g <> 0)%nat) by (apply Nat.pow_nonzero; lia). rewrite (Nat.mod_add i j) by exact P2. rewrite (Nat.div_add i j) by exact P2. rewrite (Nat.mod_small i), (Nat.div_small i) by exact Hi. reflexivity. }
  rewrite !Hs. clear Hs. unfold mle. change ([r1] ++ lo ++ [r2] ++ hi) with (r1 :: (lo ++ r2 :: hi)). rewrite mlef_cons, mlef_app.
  rewrite mlef_cons. rewrite <- !mlef_scal. rewrite <- !mlef_add. apply mlef_ext. intros j _. rewrite Ll.
  rewrite <- mlef_sub, <- mlef_scal, <- mlef_add, <- !mlef_scal, <- !mlef_add. apply mlef_ext. intros i _.
  change (0 / 2)%nat with 0%nat. change (1 / 2)%nat with 0%nat. change (2 / 2)%nat with 1%nat. change (3 / 2)%nat with 1%nat.
  change (0 mod 2)%nat with 0%nat. change (1 mod 2)%nat with 1%nat. change (2 mod 2)%nat with 0%nat. change (3 mod 2)%nat with 1%nat.
  replace (0 + 2 * i + 2 ^ S g * 0 + 2 ^ S (S g) * j)%nat with (2 * (i + 2 ^ g * (2 * j)))%nat by (cbn [Nat.pow]; lia).
  replace (0 + 2 * i + 2 ^ S g * 1 + 2 ^ S (S g) * j)%nat with (2 * (i + 2 ^ g * (2 * j + 1)))%nat by (cbn [Nat.pow]; lia).
  replace (1 + 2 * i + 2 ^ S g * 0 + 2 ^ S (S g) * j)%nat with (2 * (i + 2 ^ g * (2 * j)) + 1)%nat by (cbn [Nat.pow]; lia).
  replace (1 + 2 * i + 2 ^ S g * 1 + 2 ^ S (S g) * j)%nat with (2 * (i + 2 ^ g * (2 * j + 1)) + 1)%nat by (cbn [Nat.pow]; lia).
  ring.
Qed.

(** ** The sum over the cube *)
Definition prod4 (n : nat) (d0 d1 d2 d3 : list K) : list K := map (fun i => nth i d0 0 * nth i d1 0 * nth i d2 0 * nth i d3 0) (seq 0 (2 ^ n)).
Definition pool_poly (p lp : list K) (d0 d1 d2 d3 out : list K) (a : K) (x : list K) : K :=
  eqp p x * (mle d0 x * mle d1 x * mle d2 x * mle d3 x)
  + eqp p x * (a * mle d0 x + a * a * mle d1 x + a * a * a * mle d2 x + a * a * a * a * mle d3 x)
  + a * a * a * a * a * (eqp lp x * mle out x).
Lemma hsum_eqp n p f (l : list K) : length p = n -> (forall b, (b < 2 ^ n)%nat -> f (bpt n b) = nth b l 0) -> hsum n (fun x => eqp p x * f x) = mle l p.
Proof.
  intros Lp Hf. unfold hsum, mle, mlef. rewrite Lp. apply sumn_ext. intros b Hb. rewrite eqp_sym, eqp_bpt by auto. rewrite Hf by auto. ring.
Qed.
Lemma hsum_add n (f g : list K -> K) : hsum n (fun x => f x + g x) = hsum n f + hsum n g.
Proof. unfold hsum. now rewrite sumn_add. Qed.
Lemma hsum_scal n c (f : list K -> K) : hsum n (fun x => c * f x) = c * hsum n f.
Proof. unfold hsum. now rewrite sumn_scal. Qed.
Lemma mle_bool_at n (l : list K) b : (b < 2 ^ n)%nat -> mle l (bpt n b) = nth b l 0.
Proof. intros Hb. unfold mle. now rewrite mlef_bool. Qed.
Lemma hsum_pool n p lp d0 d1 d2 d3 out a : length p = n -> length lp = n ->
  hsum n (pool_poly p lp d0 d1 d2 d3 out a)
  = mle (prod4 n d0 d1 d2 d3) p + (a * mle d0 p + a * a * mle d1 p + a * a * a * mle d2 p + a * a * a * a * mle d3 p) + a * a * a * a * a * mle out lp.
Proof.
  intros Lp Ll. unfold pool_poly. rewrite hsum_add. rewrite hsum_scal. rewrite (hsum_eqp n lp (mle out) out) by (auto using mle_bool_at). rewrite hsum_add.
  f_equal. f_equal.
  - apply hsum_eqp; [auto|]. intros b Hb. rewrite !mle_bool_at by auto. unfold prod4. rewrite nth_map_seq by auto. reflexivity.
  - transitivity (hsum n (fun x => a * (eqp p x * mle d0 x) + a * a * (eqp p x * mle d1 x) + a * a * a * (eqp p x * mle d2 x) + a * a * a * a * (eqp p x * mle d3 x))).
    + apply hsum_ext. intros x _. ring.
    + rewrite !hsum_add, !hsum_scal. rewrite (hsum_eqp n p (mle d0) d0), (hsum_eqp n p (mle d1) d1), (hsum_eqp n p (mle d2) d2), (hsum_eqp n p (mle d3) d3) by (auto using mle_bool_at). reflexivity.
Qed.
Lemma pool_poly_deg n p lp d0 d1 d2 d3 out a : indiv_deg 5 n (pool_poly p lp d0 d1 d2 d3 out a).
Proof.
  intros u v _. unfold pool_poly. apply is_poly_add; [apply is_poly_add|].
  - eapply is_poly_ext; [|apply (is_poly_fprod [eqp p; mle d0; mle d1; mle d2; mle d3] (fun f x => f (u ++ x :: v)))]; [intros x; cbn [map fprod]; ring|].
    intros f [<-|[<-|[<-|[<-|[<-|[]]]]]]; [apply multilin_eqp|apply multilin_mle|apply multilin_mle|apply multilin_mle|apply multilin_mle].
  - apply (is_poly_le (1 + 1)); [lia|]. apply is_poly_mul; [apply multilin_eqp|]. repeat apply is_poly_add; apply is_poly_scal; apply multilin_mle.
  - apply is_poly_scal. apply (is_poly_le (1 + 1)); [lia|]. apply is_poly_mul; [apply multilin_eqp|apply multilin_mle].
Qed.
Lemma eq_xy_eqp (x y : list K) e : M_Basefold.eq_xy_eval x y = Some e -> length x = length y /\ e = eqp x y.
Proof.
  unfold M_Basefold.eq_xy_eval. intros H. assert (H' : (if (length x =? length y)%nat then Some (fprod (map (fun p : K * K => fst p * snd p + fst p * snd p + 1 - fst p - snd p) (combine x y))) else None) = Some e).
  { destruct x; [discriminate H|exact H]. } clear H. destruct (Nat.eqb_spec (length x) (length y)) as [L|]; [|discriminate H']. injection H' as <-. split; [exact L|].
  revert y L. induction x as [|a x IH]; intros [|b y] L; cbn [length] in L; try discriminate L; [reflexivity|]. injection L as L. cbn [combine map fprod fst snd eqp]. rewrite IH by exact L. ring.
Qed.
Lemma eq_xy_ok (x y : list K) : x <> [] -> length x = length y -> M_Basefold.eq_xy_eval x y = Some (eqp x y).
Proof.
  intros Hx L. destruct (M_Basefold.eq_xy_eval x y) as [e|] eqn:E; [now apply eq_xy_eqp in E as [_ ->]|]. exfalso. unfold M_Basefold.eq_xy_eval in E. destruct x; [easy|].
  rewrite L, Nat.eqb_refl in E. discriminate E.
Qed.

(** ** Soundness *)
(** A polynomial with a non-zero coefficient that vanishes at the challenge. *)
Definition poly_event (cs : list K) (r : K) : Prop := ~ all0 cs /\ peval cs r = 0.
(** A table that is not zero but whose extension vanishes at the point. *)
Definition table_event (l pt : list K) : Prop := ~ all0 l /\ mle l pt = 0.
Definition err (n : nat) (d0 d1 : list K) : list K := map (fun i => nth i d0 0 - nth i d1 0) (seq 0 (2 ^ n)).
Lemma mle_err n d0 d1 pt : length pt = n -> mle (err n d0 d1) pt = mle d0 pt - mle d1 pt.
Proof. intros L. unfold err. rewrite mle_map_seq by auto. apply mlef_sub. Qed.
Definition add2 (n : nat) (d0 d1 : list K) : list K := map (fun i => nth i d0 0 + nth i d1 0) (seq 0 (2 ^ n)).
Lemma mle_add2 n d0 d1 pt : length pt = n -> mle (add2 n d0 d1) pt = mle d0 pt + mle d1 pt.
Proof. intros L. unfold add2. rewrite mle_map_seq by auto. apply mlef_add. Qed.
(** What the columns say about the input, minus what the input says: offsets (0, 0), the sum of (1, 0) and (0, 1), and (1, 1). *)
Definition dev (g n : nat) (out d X : list K) (k : nat) : list K := err n (err n out d) (strided g n k X).
Lemma mle_dev g n out d X k pt : length pt = n -> mle (dev g n out d X k) pt = mle out pt - mle d pt - mle (strided g n k X) pt.
Proof. intros L. unfold dev. rewrite !mle_err by auto. reflexivity. Qed.
Definition pool_fooled (T : @hist K -> K) (g n : nat) (p lp : list K) (v0 v1 v2 v3 v4 : K) (d0 d1 d2 d3 out X : list K) (pf : @pool_proof K C) (h1 : hist) : Prop :=
  let a := T (EvBytes lbl_pool :: h1) in let h2 := EvSample :: EvBytes lbl_pool :: h1 in
  let zp := sc_point T n 5 h2 (pl_sumcheck pf) in
  poly_event [mle (prod4 n d0 d1 d2 d3) p; mle d0 p - v0; mle d1 p - v1; mle d2 p - v2; mle d3 p - v3; mle out lp - v4] a \/
  root_event T n 5 (pool_poly p lp d0 d1 d2 d3 out a) h2 (pl_sumcheck pf) \/
  table_event (prod4 n d0 d1 d2 d3) p \/
  (exists claimed e h3, verify T claimed (pl_sumcheck pf) n 5 h2 = Some (zp, e, h3) /\
     let r := T (EvBytes lbl_input :: h3) in
     let e0 := mle (dev g n out d0 X 0) zp in let e12 := mle (add2 n (dev g n out d1 X 1) (dev g n out d2 X 2)) zp in let e3 := mle (dev g n out d3 X 3) zp in
     poly_event [e0; e12 - e0 - e0; e0 - e12 + e3] r) \/
  table_event (dev g n out d0 X 0) zp \/ table_event (add2 n (dev g n out d1 X 1) (dev g n out d2 X 2)) zp \/ table_event (dev g n out d3 X 3) zp.

Lemma all0_nth (l : list K) i : all0 l -> nth i l 0 = 0.
Proof. intros H. revert i. induction H as [|x l Hx H IH]; intros [|i]; cbn; auto. Qed.
Lemma all0_map n (f : nat -> K) i : all0 (map f (seq 0 n)) -> (i < n)%nat -> f i = 0.
Proof. intros H Hi. apply (all0_nth _ i) in H. rewrite nth_map_seq in H by auto. exact H. Qed.

Lemma pool_sound (T : @hist K -> K) cst csc n (last : claim) (pf : @pool_proof K C) h p v0 v1 v2 v3 nums dens h1 wit cin h' d0 d1 d2 d3 out X g :
  char_gt K 5 -> (0 < n)%nat ->
  verify_logup T (pl_lookup pf) 4 cst csc h = Some ([mkClaim p v0; mkClaim p v1; mkClaim p v2; mkClaim p v3], nums, dens, h1) ->
  pool_verify T cst csc n last pf h = Some (wit, cin, h') -> length (pl_evals pf) = 5%nat -> pl_gap pf = g ->
  Forall2 claim_true [d0; d1; d2; d3; out] (map snd wit) -> claim_true X cin ->
  (mle d0 p = v0 /\ mle d1 p = v1 /\ mle d2 p = v2 /\ mle d3 p = v3 /\ mle out (cl_point last) = cl_eval last /\
   forall i, (i < 2 ^ n)%nat -> nth i d0 0 * nth i d1 0 * nth i d2 0 * nth i d3 0 = 0 /\
     nth i out 0 - nth i d0 0 = nth i (strided g n 0 X) 0 /\ nth i out 0 - nth i d3 0 = nth i (strided g n 3 X) 0 /\
     (nth i out 0 - nth i d1 0) + (nth i out 0 - nth i d2 0) = nth i (strided g n 1 X) 0 + nth i (strided g n 2 X) 0) \/
  pool_fooled T g n p (cl_point last) v0 v1 v2 v3 (cl_eval last) d0 d1 d2 d3 out X pf h1.
Proof.
  intros Hch Hn Elu Hv Le Hg Hw [LX EX]. unfold pool_verify in Hv. rewrite Elu in Hv. cbn [obind] in Hv. unfold get_challenge in Hv. cbn [fold_left cl_eval cl_point nth_error obind] in Hv.
  set (a := T (EvBytes lbl_pool :: h1)) in *. set (h2 := EvSample :: EvBytes lbl_pool :: h1) in *.
  match type of Hv with obind (verify _ ?c _ _ _ _) _ = _ => set (claimed := c) in * end.
  destruct (verify T claimed (pl_sumcheck pf) n 5 h2) as [[[zp e] h3]|] eqn:Ev; [|discriminate Hv]. cbn [obind] in Hv.
  destruct (M_Basefold.eq_xy_eval p zp) as [be|] eqn:Eb; [|discriminate Hv]. cbn [obind] in Hv. apply eq_xy_eqp in Eb as [Lpz ->].
  destruct (M_Basefold.eq_xy_eval (cl_point last) zp) as [lbe|] eqn:Elb; [|discriminate Hv]. cbn [obind] in Hv. apply eq_xy_eqp in Elb as [Llz ->].
  assert (Hzp : zp = sc_point T n 5 h2 (pl_sumcheck pf)) by (now apply verify_point in Ev).
  assert (Lz : length zp = n) by (rewrite Hzp; unfold sc_point; rewrite map_length, seq_length; auto).
  destruct (pl_evals pf) as [|w0 [|w1 [|w2 [|w3 [|w4 [|? ?]]]]]]; cbn [length] in Le; try discriminate Le. clear Le.
  change (csub (length [w0; w1; w2; w3; w4]) 1) with (Some 4%nat) in Hv. cbn [obind firstn fold_left nth_error] in Hv.
  match type of Hv with (if ?b then _ else _) = _ => destruct b eqn:Ee end; [|discriminate Hv]. apply feqb_true in Ee.
  set (r := T (EvBytes lbl_input :: h3)) in *. unfold input_point in Hv. rewrite Hg, Lz in Hv. destruct (Nat.leb_spec g n) as [Hgn|]; [|discriminate Hv]. cbn [obind] in Hv.
  assert (Ewit : wit = map (fun p0 => (snd p0, mkClaim zp (fst p0))) (combine [w0; w1; w2; w3; w4] (pl_comms pf))) by congruence.
  assert (Ecin : cin = mkClaim ([r] ++ firstn g zp ++ [r] ++ skipn g zp) (input_eval r r w4 [w0; w1; w2; w3])) by congruence.
  clear Hv. subst wit cin. cbn [cl_point cl_eval] in EX, LX.
  assert (Lcm : (5 <= length (pl_comms pf))%nat).
  { pose proof (F2_len _ _ _ Hw) as L. rewrite !map_length, combine_length in L. cbn [length] in L. lia. }
  destruct (pl_comms pf) as [|k0 [|k1 [|k2 [|k3 [|k4 ks]]]]]; cbn [length] in Lcm; try lia. cbn [combine map fst snd] in Hw.
  inversion Hw as [|? ? ? ? [_ Q0] Hw1]. inversion Hw1 as [|? ? ? ? [_ Q1] Hw2]. inversion Hw2 as [|? ? ? ? [_ Q2] Hw3]. inversion Hw3 as [|? ? ? ? [_ Q3] Hw4]. inversion Hw4 as [|? ? ? ? [_ Q4] _].
  cbn [cl_point cl_eval] in Q0, Q1, Q2, Q3, Q4. clear Hw Hw1 Hw2 Hw3 Hw4.
  set (lp := cl_point last) in *. set (F := pool_poly p lp d0 d1 d2 d3 out a).
  assert (EF : e = F zp) by (rewrite <- Ee; unfold F, pool_poly; rewrite Q0, Q1, Q2, Q3, Q4; ring).
  destruct (feq_dec claimed (hsum n F)) as [Ec|Nc].
  2: { right. right. left. apply (verify_sound T claimed (pl_sumcheck pf) n 5 h2 zp e h3 F); auto. apply pool_poly_deg. }
  unfold F in Ec. rewrite hsum_pool in Ec by lia.
  set (A := [mle (prod4 n d0 d1 d2 d3) p; mle d0 p - v0; mle d1 p - v1; mle d2 p - v2; mle d3 p - v3; mle out lp - cl_eval last]).
  assert (PA : peval A a = 0).
  { unfold A. cbn [peval]. transitivity ((mle (prod4 n d0 d1 d2 d3) p + (a * mle d0 p + a * a * mle d1 p + a * a * a * mle d2 p + a * a * a * a * mle d3 p) + a * a * a * a * a * mle out lp) - claimed); [unfold claimed; ring|]. rewrite <- Ec. ring. }
  destruct (all0_dec A) as [HA|HA]; [|right; left; split; auto].
  pose proof (all0_nth A 0 HA) as A0. pose proof (all0_nth A 1 HA) as A1. pose proof (all0_nth A 2 HA) as A2. pose proof (all0_nth A 3 HA) as A3. pose proof (all0_nth A 4 HA) as A4. pose proof (all0_nth A 5 HA) as A5.
  cbn [A nth] in A0, A1, A2, A3, A4, A5. clear HA PA.
  destruct (all0_dec (prod4 n d0 d1 d2 d3)) as [HP|HP]; [|right; right; right; left; split; auto].
  rewrite (mle_input_point g n) in EX by auto. unfold input_eval, multiplicands in EX. cbn [combine fold_left fst snd] in EX. rewrite Q0, Q1, Q2, Q3, Q4 in EX.
  set (E0 := dev g n out d0 X 0). set (E12 := add2 n (dev g n out d1 X 1) (dev g n out d2 X 2)). set (E3 := dev g n out d3 X 3).
  set (Bq := [mle E0 zp; mle E12 zp - mle E0 zp - mle E0 zp; mle E0 zp - mle E12 zp + mle E3 zp]).
  assert (PB : peval Bq r = 0).
  { unfold Bq, E0, E12, E3. cbn [peval]. rewrite mle_add2, !mle_dev by auto. apply fsub_0 in EX || idtac.
    match type of EX with ?l = ?rr => transitivity (l - rr); [ring|rewrite EX; ring] end. }
  unfold pool_fooled. fold a h2 lp. rewrite <- Hzp.
  destruct (all0_dec Bq) as [HB|HB].
  2: { right. right. right. right. left. exists claimed, e, h3. split; [exact Ev|]. split; [exact HB|exact PB]. }
  pose proof (all0_nth Bq 0 HB) as B0. pose proof (all0_nth Bq 1 HB) as B1. pose proof (all0_nth Bq 2 HB) as B2. cbn [Bq nth] in B0, B1, B2. clear HB PB.
  assert (Z12 : mle E12 zp = 0) by (transitivity (mle E12 zp - mle E0 zp - mle E0 zp + mle E0 zp + mle E0 zp); [ring|]; rewrite B1, B0; ring).
  assert (Z3 : mle E3 zp = 0) by (transitivity (mle E0 zp - mle E12 zp + mle E3 zp - mle E0 zp + mle E12 zp); [ring|]; rewrite B2, B0, Z12; ring).
  destruct (all0_dec E0) as [HE0|HE0]; [|do 5 right; left; split; auto].
  destruct (all0_dec E12) as [HE12|HE12]; [|do 6 right; left; split; auto].
  destruct (all0_dec E3) as [HE3|HE3]; [|do 7 right; split; auto].
  left. do 5 (split; [now apply fsub_0|]). intros i Hi. split; [unfold prod4 in HP; now apply (all0_map _ _ i HP)|]. split; [|split].
  - pose proof (all0_map _ _ i HE0 Hi) as X0. cbv beta in X0. unfold err in X0. rewrite nth_map_seq in X0 by auto. now apply fsub_0.
  - pose proof (all0_map _ _ i HE3 Hi) as X0. cbv beta in X0. unfold err in X0. rewrite nth_map_seq in X0 by auto. now apply fsub_0.
  - pose proof (all0_map _ _ i HE12 Hi) as X0. cbv beta in X0. unfold dev, err in X0. rewrite !nth_map_seq in X0 by auto. apply fsub_0. etransitivity; [|exact X0]. ring.
Qed.
End P.
