(** Proofs about [M_Qkv]: soundness of the QKV layer's proof. *)
From Coq Require Import List Arith Lia Bool ZArith Field Permutation.
From Verif Require Import ListAux FieldDef PolyList MleMath M_Mle P_Mle P_Eq M_Interp P_Interp M_Sumcheck
  P_ScVerify P_ScProve P_ScProve2 P_ScBatch P_ScFinal M_ScParallel P_ScParallel P_ScApi P_Count M_SamePoly P_SamePoly
  M_Tensor P_Tensor P_Tensor2 P_Tensor3 M_Pad P_Pad P_Pad2 P_Pad3 M_Layers P_Layers P_Layers2 P_Layers3 M_Sop P_Sop M_Qkv.
Import ListNotations.

Section P.
Context {K : field}.
Add Field Kf_qkv : (fth K).
Local Open Scope F_scope.

(** *** Specification *)
(** The three outputs are the products of the input [X] (2^m rows, 2^k columns) with the three weights (2^n columns),
    each with its bias added to every row. *)
Definition qkv_outputs (m k n : nat) (X : list K) (ws bs ys : list (list K)) : Prop :=
  length ws = 3%nat /\ length bs = 3%nat /\ length ys = 3%nat /\
  forall i, (i < 3)%nat -> matprod false m k n X (nth i ws []) (Some (nth i bs [])) (nth i ys []).

(** The product of the [i]-th sumcheck term at the points of the [i]-th output claim. *)
Definition qkv_term (n : nat) (X : list K) (W : list K) (c : @claim K) (pt : list K) : K :=
  mle X (pt ++ skipn n (cl_point c)) * mle W (firstn n (cl_point c) ++ pt).
Definition qkv_poly (n : nat) (X : list K) (ws : list (list K)) (lasts : list (@claim K)) (chs : list K) (pt : list K) : K :=
  sumn 3 (fun i => nth i chs 0 * qkv_term n X (nth i ws []) (nth i lasts dcl) pt).
(** How far the stated values before the bias are from the products. *)
Definition qkv_errs (k n : nat) (X : list K) (ws : list (list K)) (lasts : list (@claim K)) (pre : list K) : list K :=
  map (fun i => nth i pre 0 - hsum k (qkv_term n X (nth i ws []) (nth i lasts dcl))) (seq 0 3).
(** The input claims of the aggregation: the [i]-th is at the sumcheck point followed by the row part of the [i]-th output claim. *)
Definition qkv_in_claims (n : nat) (lasts : list (@claim K)) (ind : list (K * K)) (rs : list K) : list (@claim K) :=
  map (fun i => mkClaim (rs ++ skipn n (cl_point (nth i lasts dcl))) (fst (nth i ind (0, 0)))) (seq 0 3).

(** The accepted run in which a false output goes unnoticed: the challenges of the batching, of the sumcheck or of the
    aggregation hit a zero of an equation fixed before them. *)
Definition qkv_fooled (T : @hist K -> K) (m k n : nat) (X : list K) (ws : list (list K)) (lasts : list (@claim K)) (pf : @qkv_proof K) (h h2 : hist) : Prop :=
  let chs := fst (qkv_challenges T lasts (qp_pre pf) h) in
  let h1 := snd (qkv_challenges T lasts (qp_pre pf) h) in
  let es := qkv_errs k n X ws lasts (qp_pre pf) in
  let ic := qkv_in_claims n lasts (qp_ind pf) (sc_point T k 2 h1 (qp_sumcheck pf)) in
  let cs := fst (read_challenges T 3 h2) in let h3 := snd (read_challenges T 3 h2) in
  ((exists i, nth i es 0 <> 0) /\ P_Count.dot chs es = 0) \/
  root_event T k 2 (qkv_poly n X ws lasts chs) h1 (qp_sumcheck pf) \/
  ((exists i, nth i (errs X ic) 0 <> 0) /\ P_Count.dot cs (errs X ic) = 0) \/
  root_event T (m + k) 2 (agg_poly (m + k) X cs ic) h3 (sp_sumcheck (qp_agg pf)).

Lemma F2_three {A B} (P : A -> B -> Prop) a b c x y z : Forall2 P [a; b; c] [x; y; z] -> P a x /\ P b y /\ P c z.
Proof. intros H. inversion H as [|? ? ? ? Hx Hr]. destruct (F2_two _ _ _ _ _ Hr). auto. Qed.
Lemma qkv_poly_deg n X ws lasts chs q : indiv_deg 2 q (qkv_poly n X ws lasts chs).
Proof.
  intros a b Hab. unfold qkv_poly. apply (is_poly_sumn 2 3 (fun i x => nth i chs 0 * qkv_term n X (nth i ws []) (nth i lasts dcl) (a ++ x :: b))).
  intros i _. apply is_poly_scal. unfold qkv_term. change 2%nat with (1 + 1)%nat.
  apply (is_poly_mul 1 1 (fun x => mle X ((a ++ x :: b) ++ skipn n (cl_point (nth i lasts dcl))))
           (fun x => mle (nth i ws []) (firstn n (cl_point (nth i lasts dcl)) ++ a ++ x :: b))).
  - apply (multilin_mle_suffix X (skipn n (cl_point (nth i lasts dcl))) a b).
  - apply (multilin_mle_prefix (nth i ws []) (firstn n (cl_point (nth i lasts dcl))) a b).
Qed.
Lemma qkv_poly_hsum k n X ws lasts chs :
  hsum k (qkv_poly n X ws lasts chs) = sumn 3 (fun i => nth i chs 0 * hsum k (qkv_term n X (nth i ws []) (nth i lasts dcl))).
Proof.
  unfold hsum, qkv_poly. rewrite sumn_swap. apply sumn_ext. intros i _. rewrite sumn_scal. reflexivity.
Qed.

(** A matrix product with a bias, at one claim. *)
Lemma qkv_matprod m k n X W b Y c : matprod false m k n X W (Some b) Y -> length (cl_point c) = (m + n)%nat ->
  mle Y (cl_point c) = hsum k (qkv_term n X W c) + mle b (firstn n (cl_point c)).
Proof.
  intros Hp Hl. rewrite <- (firstn_skipn n (cl_point c)) at 1.
  rewrite (matprod_mle false m k n X W (Some b) Y) by (auto; rewrite ?skipn_length, ?firstn_length; lia).
  f_equal. apply hsum_ext. intros pt _. unfold prodf, qkv_term, right_point. cbn [map fprod]. ring.
Qed.

Lemma qkv_chs_len (T : @hist K -> K) lasts pre h : length (fst (qkv_challenges T lasts pre h)) = 3%nat.
Proof.
  unfold qkv_challenges. pose proof (read_challenges_length T 2 (qkv_absorb lasts pre h)) as H.
  destruct (read_challenges T 2 (qkv_absorb lasts pre h)) as [cs h']. cbn [fst length] in *. lia.
Qed.

Lemma qkv_split_inv (pt : list K) m n r c : qkv_split pt (m, n) = Some (r, c) -> length pt = (m + n)%nat /\ r = skipn n pt /\ c = firstn n pt.
Proof.
  unfold qkv_split. cbn [fst snd]. destruct (Nat.eqb_spec (length pt) (m + n)) as [E|]; [|discriminate]. intros H.
  assert (r = skipn n pt) by congruence. assert (c = firstn n pt) by congruence. auto.
Qed.
Lemma qkv_split_ok (pt : list K) m n : length pt = (m + n)%nat -> qkv_split pt (m, n) = Some (skipn n pt, firstn n pt).
Proof. intros H. unfold qkv_split. cbn [fst snd]. rewrite H, Nat.eqb_refl. reflexivity. Qed.

Lemma omapM_len {A B} (f : A -> option B) : forall l r, omapM f l = Some r -> length r = length l.
Proof.
  induction l as [|x l IH]; intros r H; cbn [omapM] in H; [injection H as <-; reflexivity|].
  destruct (f x); [|discriminate]. cbn [obind] in H. destruct (omapM f l) as [q|]; [|discriminate]. cbn [obind] in H. injection H as <-.
  cbn [length]. rewrite (IH q); auto.
Qed.

(** What an accepted run consists of. *)
Lemma qkv_verify_inv (T : @hist K -> K) m k n osr lasts pf h c wc bc h' :
  qkv_verify T k [[2 ^ m; 2 ^ k]%nat] ([2 ^ m; 2 ^ n]%nat :: osr) lasts pf h = Some (c, wc, bc, h') ->
  let chs := fst (qkv_challenges T lasts (qp_pre pf) h) in
  let h1 := snd (qkv_challenges T lasts (qp_pre pf) h) in
  let rs := sc_point T k 2 h1 (qp_sumcheck pf) in
  exists l0 l1 l2 p0 p1 p2 pr e h2, lasts = [l0; l1; l2] /\ qp_pre pf = p0 :: p1 :: p2 :: pr /\
    Forall (fun l => length (cl_point l) = (m + n)%nat) lasts /\
    bc = [mkClaim (firstn n (cl_point l0)) (cl_eval l0 - p0); mkClaim (firstn n (cl_point l1)) (cl_eval l1 - p1);
          mkClaim (firstn n (cl_point l2)) (cl_eval l2 - p2)] /\
    wc = [mkClaim (firstn n (cl_point l0) ++ rs) (snd (qp_q pf)); mkClaim (firstn n (cl_point l1) ++ rs) (snd (qp_k pf));
          mkClaim (firstn n (cl_point l2) ++ rs) (snd (qp_v pf))] /\
    verify T (p0 * nth 0 chs 0 + p1 * nth 1 chs 0 + p2 * nth 2 chs 0) (qp_sumcheck pf) k 2 h1 = Some (rs, e, h2) /\
    fst (qp_q pf) * snd (qp_q pf) * nth 0 chs 0 + fst (qp_k pf) * snd (qp_k pf) * nth 1 chs 0 + fst (qp_v pf) * snd (qp_v pf) * nth 2 chs 0 = e /\
    sp_verify T (m + k) (qkv_in_claims n lasts (qp_ind pf) rs) (qp_agg pf) h2 = Some (c, h').
Proof.
  intros Hv chs h1 rs. unfold qkv_verify in Hv.
  destruct (Nat.eqb (length ([2 ^ m; 2 ^ n]%nat :: osr)) 3 && Nat.eqb (length lasts) 3) eqn:El; [|discriminate].
  apply andb_prop in El. destruct El as [_ El]. apply Nat.eqb_eq in El.
  destruct lasts as [|l0 [|l1 [|l2 [|]]]]; try discriminate El. clear El.
  set (lasts := [l0; l1; l2]) in *.
  cbn [nth_error obind] in Hv. rewrite !ilog2_pow in Hv. cbn [obind] in Hv.
  rewrite (surjective_pairing (qkv_challenges T lasts (qp_pre pf) h)) in Hv. fold chs h1 in Hv.
  destruct (omapM _ (combine lasts (qp_pre pf))) as [bias|] eqn:Eb; [|discriminate]. cbn [obind] in Hv.
  pose proof (qkv_chs_len T lasts (qp_pre pf) h) as Lch. fold chs in Lch.
  destruct (verify T _ (qp_sumcheck pf) k 2 h1) as [[[rs0 e] h2]|] eqn:Ev; [|discriminate]. cbn [obind] in Hv.
  assert (Ers : rs0 = rs) by (apply verify_point in Ev; exact Ev). subst rs0.
  destruct (qkv_claims lasts (qp_ind pf) rs (m, n)) as [cls|] eqn:Ec; [|discriminate]. cbn [obind] in Hv.
  destruct (Nat.leb 3 (length bias)) eqn:E3; [|discriminate]. apply Nat.leb_le in E3.
  destruct (qkv_virtual (qp_ind pf) chs =? e) eqn:Ee; [|discriminate]. apply feqb_true in Ee.
  cbn [fold_right] in Hv. rewrite Nat.mul_1_r, <- Nat.pow_add_r, ilog2_pow in Hv. cbn [obind] in Hv.
  destruct (sp_verify T (m + k) (map fst cls) (qp_agg pf) h2) as [[c' h3]|] eqn:Es; [|discriminate]. cbn [obind] in Hv.
  assert (c' = c) by congruence. assert (map snd cls = wc) by congruence. assert (bias = bc) by congruence. assert (h3 = h') by congruence.
  clear Hv. subst c' wc bias h3.
  destruct chs as [|c0 [|c1 [|c2 [|]]]] eqn:Echs; try discriminate Lch.
  assert (Hp : exists p0 p1 p2 pr, qp_pre pf = p0 :: p1 :: p2 :: pr).
  { apply omapM_len in Eb. unfold lasts in Eb. rewrite combine_length in Eb. cbn [length] in Eb.
    destruct (qp_pre pf) as [|p0 [|p1 [|p2 pr]]]; cbn [length] in Eb; try lia. eauto. }
  destruct Hp as (p0 & p1 & p2 & pr & Ep). rewrite Ep in Eb, Ev. unfold lasts in Eb, Ec. cbn [combine omapM qp_ind] in Eb, Ec, Ev.
  unfold qkv_claims, qp_ind, qkv_points in Ec. cbn [combine omapM] in Ec.
  destruct (qkv_split (cl_point l0) (m, n)) as [[r0 q0]|] eqn:S0; [|discriminate]. apply qkv_split_inv in S0. destruct S0 as (L0 & -> & ->).
  cbn [obind] in Eb, Ec.
  destruct (qkv_split (cl_point l1) (m, n)) as [[r1 q1]|] eqn:S1; [|discriminate]. apply qkv_split_inv in S1. destruct S1 as (L1 & -> & ->).
  cbn [obind] in Eb, Ec.
  destruct (qkv_split (cl_point l2) (m, n)) as [[r2 q2]|] eqn:S2; [|discriminate]. apply qkv_split_inv in S2. destruct S2 as (L2 & -> & ->).
  cbn [obind fst snd] in Eb, Ec.
  injection Eb as <-. injection Ec as <-.
  exists l0, l1, l2, p0, p1, p2, pr, e, h2. split; [reflexivity|]. split; [exact Ep|]. split; [repeat constructor; auto|].
  split; [reflexivity|]. split; [reflexivity|]. split.
  { assert (En : combine pr (@nil K) = []) by (destruct pr; reflexivity). rewrite En in Ev. cbn [fold_left nth] in Ev |- *. rewrite <- Ev. f_equal. ring. }
  split. { rewrite <- Ee. unfold qkv_virtual, qp_ind. cbn [combine fold_left nth]. ring. }
  exact Es.
Qed.

Lemma qkv_sound (T : @hist K -> K) m k n X ws bs ys osr lasts pf h c wc bc h' :
  char_gt K 2 -> (0 < k)%nat -> qkv_outputs m k n X ws bs ys ->
  qkv_verify T k [[2 ^ m; 2 ^ k]%nat] ([2 ^ m; 2 ^ n]%nat :: osr) lasts pf h = Some (c, wc, bc, h') ->
  claim_true X c -> Forall2 claim_true ws wc -> Forall2 claim_true bs bc ->
  exists claimed rs e h2, verify T claimed (qp_sumcheck pf) k 2 (snd (qkv_challenges T lasts (qp_pre pf) h)) = Some (rs, e, h2) /\
    (pf_point (sp_sumcheck (qp_agg pf)) = sc_point T (m + k) 2 (snd (read_challenges T 3 h2)) (sp_sumcheck (qp_agg pf)) ->
     Forall2 claim_true ys lasts \/ qkv_fooled T m k n X ws lasts pf h h2).
Proof.
  intros Hch Hk (Lw & Lb & Ly & Hm) Hv [LX EX] Hw Hb.
  destruct (qkv_verify_inv T m k n osr lasts pf h c wc bc h' Hv) as (l0 & l1 & l2 & p0 & p1 & p2 & pr & e & h2 & El & Ep & Hl & Ebc & Ewc & Ev & Ee & Es).
  do 4 eexists. split; [exact Ev|]. intros Hpt. unfold qkv_fooled.
  set (chs := fst (qkv_challenges T lasts (qp_pre pf) h)) in *. set (h1 := snd (qkv_challenges T lasts (qp_pre pf) h)) in *.
  set (rs := sc_point T k 2 h1 (qp_sumcheck pf)) in *.
  pose proof (qkv_chs_len T lasts (qp_pre pf) h) as Lch. fold chs in Lch.
  assert (Lrs : length rs = k) by (unfold rs, sc_point; rewrite map_length, seq_length; reflexivity).
  destruct ws as [|w0 [|w1 [|w2 [|]]]]; try discriminate Lw. destruct bs as [|b0 [|b1 [|b2 [|]]]]; try discriminate Lb.
  destruct ys as [|y0 [|y1 [|y2 [|]]]]; try discriminate Ly.
  pose proof (Hm 0%nat ltac:(lia)) as M0. pose proof (Hm 1%nat ltac:(lia)) as M1. pose proof (Hm 2%nat ltac:(lia)) as M2. cbn [nth] in M0, M1, M2.
  assert (LX' : length X = 2 ^ (m + k)) by apply M0.
  set (ic := qkv_in_claims n lasts (qp_ind pf) rs) in *.
  assert (Hagg := sp_sound T (m + k) X ic (qp_agg pf) h2 c h' Hch ltac:(lia) LX' Es).
  cbv zeta in Hagg. change (length ic) with 3%nat in Hagg. specialize (Hagg Hpt EX).
  destruct Hagg as [Hin|[Hin|Hin]]; [|auto|auto].
  rewrite El in Hl. pose proof (Forall_inv Hl) as L0. pose proof (Forall_inv (Forall_inv_tail Hl)) as L1.
  pose proof (Forall_inv (Forall_inv_tail (Forall_inv_tail Hl))) as L2. clear Hl. cbv beta in L0, L1, L2.
  rewrite Ewc in Hw. rewrite Ebc in Hb.
  assert (I0 : fst (qp_q pf) = mle X (rs ++ skipn n (cl_point l0))).
  { specialize (Hin (nth 0 ic dcl)). unfold ic, qkv_in_claims in Hin. rewrite El in Hin. apply Hin. left. reflexivity. }
  assert (I1 : fst (qp_k pf) = mle X (rs ++ skipn n (cl_point l1))).
  { specialize (Hin (nth 1 ic dcl)). unfold ic, qkv_in_claims in Hin. rewrite El in Hin. apply Hin. right; left. reflexivity. }
  assert (I2 : fst (qp_v pf) = mle X (rs ++ skipn n (cl_point l2))).
  { specialize (Hin (nth 2 ic dcl)). unfold ic, qkv_in_claims in Hin. rewrite El in Hin. apply Hin. right; right; left. reflexivity. }
  apply F2_three in Hw. destruct Hw as ([_ W0] & [_ W1] & [_ W2]). apply F2_three in Hb. destruct Hb as ([_ B0] & [_ B1] & [_ B2]).
  cbn [cl_point cl_eval] in W0, W1, W2, B0, B1, B2.
  set (ws := [w0; w1; w2]) in *.
  set (es := qkv_errs k n X ws lasts (qp_pre pf)).
  destruct (feq_dec (p0 * nth 0 chs 0 + p1 * nth 1 chs 0 + p2 * nth 2 chs 0) (hsum k (qkv_poly n X ws lasts chs))) as [E|N].
  - assert (Hd : P_Count.dot chs es = 0).
    { rewrite P_Count.dot_sumn by (unfold es, qkv_errs; rewrite map_length, seq_length; auto). rewrite Lch.
      rewrite qkv_poly_hsum in E. unfold es, qkv_errs. rewrite Ep. cbn [sumn seq map nth] in E |- *.
      set (s0 := hsum k (qkv_term n X (nth 0 ws []) (nth 0 lasts dcl))) in *. set (s1 := hsum k (qkv_term n X (nth 1 ws []) (nth 1 lasts dcl))) in *.
      set (s2 := hsum k (qkv_term n X (nth 2 ws []) (nth 2 lasts dcl))) in *. 
      transitivity (p0 * nth 0 chs 0 + p1 * nth 1 chs 0 + p2 * nth 2 chs 0 - (nth 0 chs 0 * s0 + nth 1 chs 0 * s1 + nth 2 chs 0 * s2)); [ring|].
      rewrite E. ring. }
    assert (Hdec : (exists i, nth i es 0 <> 0) \/ nth 0 es 0 = 0 /\ nth 1 es 0 = 0 /\ nth 2 es 0 = 0).
    { destruct (feq_dec (nth 0 es 0) 0); [|left; eauto]. destruct (feq_dec (nth 1 es 0) 0); [|left; eauto].
      destruct (feq_dec (nth 2 es 0) 0); [|left; eauto]. right. auto. }
    destruct Hdec as [Hx|(Z0 & Z1 & Z2)]; [right; left; auto|]. left.
    unfold es, qkv_errs in Z0, Z1, Z2. rewrite Ep in Z0, Z1, Z2. cbn [seq map nth] in Z0, Z1, Z2. unfold ws in Z0, Z1, Z2. rewrite El in Z0, Z1, Z2. cbn [nth] in Z0, Z1, Z2.
    assert (Hone : forall l p b w y, matprod false m k n X w (Some b) y -> length (cl_point l) = (m + n)%nat ->
       p - hsum k (qkv_term n X w l) = 0 -> cl_eval l - p = mle b (firstn n (cl_point l)) -> claim_true y l).
    { intros l p b w y My Lp Zp Bp. split; [rewrite Lp; apply My|]. rewrite (qkv_matprod m k n X w b y l My Lp), <- Bp.
      transitivity (hsum k (qkv_term n X w l) + (cl_eval l - p) + (p - hsum k (qkv_term n X w l))); [ring|rewrite Zp; ring]. }
    rewrite El. constructor; [apply (Hone l0 p0 b0 w0 y0); auto|]. constructor; [apply (Hone l1 p1 b1 w1 y1); auto|].
    constructor; [apply (Hone l2 p2 b2 w2 y2); auto|constructor].
  - right; right; left. eapply (verify_sound T _ _ k 2 h1 rs); eauto.
    + apply qkv_poly_deg.
    + unfold qkv_poly, qkv_term, ws. rewrite El. cbn [sumn nth]. rewrite <- I0, <- I1, <- I2, <- W0, <- W1, <- W2.
      rewrite <- Ee. ring.
Qed.

(** Few challenges satisfy the equation of the batching. *)
Lemma batch_count (S d : list K) (d0 : K) : NoDup S -> (d0 <> 0 \/ exists i, nth i d 0 <> 0) ->
  length (filter (fun a => d0 + P_Count.dot a d =? 0) (vecs S (length d))) <= length S ^ (length d - 1).
Proof.
  intros HS Hd.
  assert (Hdec : (exists i, nth i d 0 <> 0) \/ forall i, nth i d 0 = 0).
  { clear. induction d as [|x d IH]; [right; intros [|i]; reflexivity|].
    destruct (feq_dec x 0) as [->|N]; [|left; exists 0%nat; auto]. destruct IH as [[i Hi]|H]; [left; exists (Datatypes.S i); auto|right; intros [|i]; cbn; auto]. }
  destruct Hdec as [Hx|Hz].
  - rewrite (filter_ext_len _ (fun a => P_Count.dot a d =? - d0)); [apply linear_count_aff; auto|].
    intros a. destruct (P_Count.dot a d =? - d0) eqn:E.
    + apply feqb_true in E. rewrite E. apply feqb_spec. ring.
    + apply feqb_false. apply feqb_false in E. intros H. apply E. transitivity (d0 + P_Count.dot a d - d0); [ring|rewrite H; ring].
  - destruct Hd as [Hd|[i Hi]]; [|exfalso; apply Hi; auto].
    assert (Hdot : forall a, P_Count.dot a d = 0).
    { clear -Hz. induction d as [|x d IH]; intros [|y a]; cbn [P_Count.dot]; try reflexivity. pose proof (Hz 0%nat) as H0. cbn in H0. rewrite H0, IH; [ring|].
      intros i. apply (Hz (Datatypes.S i)). }
    replace (filter _ _) with (@nil (list K)); [cbn; lia|]. symmetry. clear -Hd Hdot. induction (vecs S (length d)) as [|a l IH]; [reflexivity|].
    cbn [filter]. rewrite Hdot. replace (d0 + 0 =? 0) with false; [exact IH|]. symmetry. apply feqb_false. intros H. apply Hd. rewrite <- H. ring.
Qed.
End P.
