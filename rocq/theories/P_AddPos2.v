(** Proofs about M_AddPos, part 2: the learned positional encoding. *)
From Coq Require Import List Arith Lia Bool ZArith Field.
From Verif Require Import ListAux FieldDef MleMath M_Mle M_Sumcheck M_SamePoly M_Tensor M_Layers P_Tensor P_Mle P_SamePoly P_Eq P_Code4 P_Layers2 P_LayerNorm5 M_AddPos P_AddPos.
Import ListNotations.

Section P.
Context {K : field}.
Add Field Kf_ap2 : (fth K).
Local Open Scope F_scope.

(** *** Specification.  The rows 2^k .. 2^(k+1) of a table cut into blocks of one entry. *)
Definition block (k : nat) (P : list K) : list K := firstn (2 ^ k) (skipn (2 ^ k) P).
(** The evaluations a prover should send: of the sub-matrices that double the [2 ^ n] entries added to the input, each at
    the part of the point that addresses it. *)
Definition subs_true (n d : nat) (P pt subs : list K) : Prop :=
  length subs = d /\ forall i, i < d -> nth i subs 0 = mle (block (n + i) P) (firstn (n + i) pt).
(** The part of the positional matrix added to an input of [2 ^ n] entries. *)
Definition pos_part (n : nat) (P : list K) : list K := firstn (2 ^ n) P.
(** The extra coordinates of a proof. *)
Definition extra (T : @hist K -> K) (nv : nat) (last : claim) (pf : pos_proof) (h : hist) : list K :=
  fst (pos_coords T (nv - length (cl_point last)) last (mkClaim (cl_point last) (ap_right (pp_add pf))) h).

Lemma nth_firstn_lt {A} (d : A) : forall m i (l : list A), i < m -> nth i (firstn m l) d = nth i l d.
Proof. induction m; intros [|i] [|a l] H; try lia; cbn; auto. apply IHm. lia. Qed.
Lemma nth_skipn' {A} (d : A) : forall m i (l : list A), nth i (skipn m l) d = nth (m + i) l d.
Proof. induction m; intros i [|a l]; cbn; auto. destruct i; reflexivity. Qed.
Lemma mle_part (P p : list K) : mle (pos_part (length p) P) p = mlef (fun i => nth i P 0) p.
Proof. apply mlef_ext. intros i Hi. apply nth_firstn_lt. exact Hi. Qed.
Lemma mle_block (P p : list K) : mle (block (length p) P) p = mlef (fun i => nth (2 ^ length p + i) P 0) p.
Proof. apply mlef_ext. intros i Hi. unfold block. rewrite nth_firstn_lt by exact Hi. apply nth_skipn'. Qed.
Lemma mle_double (P p : list K) x : mlef (fun i => nth i P 0) (p ++ [x]) = mle (pos_part (length p) P) p * (1 - x) + mle (block (length p) P) p * x.
Proof. rewrite mle_part, mle_block, mlef_snoc, mlef_add, mlef_scal, mlef_sub. ring. Qed.

(** *** What the verifier computes from the evaluations of the sub-matrices. *)
Definition comb_step (e : K) (sx : K * K) : K := let '(s, x) := sx in e * (1 - x) + s * x.
Lemma fold_subs (P : list K) : forall (xs p subs : list K) (e : K),
  subs_true (length p) (length xs) P (p ++ xs) subs ->
  fold_left comb_step (combine subs xs) e = mlef (fun i => nth i P 0) (p ++ xs) + (e - mle (pos_part (length p) P) p) * fprod (map (fun x => 1 - x) xs).
Proof.
  induction xs as [|x xs IH]; intros p subs e (Ls & Hs).
  - destruct subs; [|discriminate]. cbn [combine fold_left map fprod]. rewrite app_nil_r, mle_part. cbn. ring.
  - destruct subs as [|s subs]; [discriminate|]. cbn [combine fold_left].
    assert (E0 : s = mle (block (length p) P) p).
    { specialize (Hs O ltac:(cbn; lia)). cbn [nth] in Hs. rewrite Nat.add_0_r in Hs. rewrite Hs. f_equal. rewrite firstn_app, firstn_all, Nat.sub_diag. cbn. apply app_nil_r. }
    rewrite (IH (p ++ [x]) subs).
    + rewrite <- app_assoc. cbn [app map fprod]. rewrite mle_part, mle_double. unfold comb_step. rewrite <- E0. cbn [fprod fold_right]. ring.
    + rewrite app_length. cbn [length] in *. split; [lia|]. intros i Hi. specialize (Hs (S i) ltac:(lia)). cbn [nth] in Hs. rewrite Hs.
      rewrite <- app_assoc. cbn [app]. replace (length p + 1 + i)%nat with (length p + S i)%nat by lia. reflexivity.
Qed.
Lemma fold_comb (l : list (K * K)) (e : K) : fold_left (fun e '(s, x) => e * (1 - x) + s * x) l e = fold_left comb_step l e.
Proof. revert e; induction l as [|[s x] l IH]; intros e; [reflexivity|]. cbn [fold_left]. apply IH. Qed.

Lemma pos_coords_len (T : @hist K -> K) n out sub h : length (fst (pos_coords T n out sub h)) = n.
Proof. unfold pos_coords. apply read_challenges_length. Qed.
Lemma pos_verify1_inv (T : @hist K -> K) c nv (last : claim) pf h ic pc h' : pos_verify1 T c nv last pf h = Some (ic, pc, h') ->
  let n := length (cl_point last) in let pt := cl_point last ++ extra T nv last pf h in
  n <= nv /\ length pt = nv /\ length (pp_subs pf) <= nv /\ add_verify c last (pp_add pf) = Some ([ic; mkClaim (cl_point last) (ap_right (pp_add pf))], None) /\
  ic = mkClaim (cl_point last) (ap_left (pp_add pf)) /\
  pc = mkClaim pt (fold_left comb_step (combine (pp_subs pf) (skipn (nv - length (pp_subs pf)) pt)) (ap_right (pp_add pf))) /\
  h' = snd (pos_coords T (nv - n) last (mkClaim (cl_point last) (ap_right (pp_add pf))) h).
Proof.
  unfold pos_verify1, extra. destruct (add_verify c last (pp_add pf)) as [[ics op]|] eqn:V; [|discriminate]. cbn [obind fst].
  destruct (add_verify_inv _ _ _ _ _ V) as (E & E1 & E2). destruct (ad_static c); [subst ics; discriminate|]. subst ics op. cbn [cl_point].
  unfold csub. destruct (Nat.leb_spec (length (cl_point last)) nv); [|discriminate]. cbn [obind].
  destruct (pos_coords T _ _ _ h) as [xs h1] eqn:Ex. cbn [fst snd].
  assert (Lx : length xs = (nv - length (cl_point last))%nat) by (pose proof (pos_coords_len T (nv - length (cl_point last)) last (mkClaim (cl_point last) (ap_right (pp_add pf))) h) as G; rewrite Ex in G; exact G).
  unfold pos_matrix_claim, csub. rewrite app_length. replace (length (cl_point last) + length xs)%nat with nv by lia.
  destruct (Nat.leb_spec (length (pp_subs pf)) nv); [|discriminate]. cbn [obind cl_eval]. rewrite fold_comb. intros H1. injection H1 as <- <- <-.
  repeat split; auto.
Qed.

(** *** Guarded soundness: with evaluations of the sub-matrices that are right, and extra coordinates different from one, the
    claim about the output follows from those about the input and the positional matrix. *)
Lemma pos_sound (T : @hist K -> K) c nv (last : claim) pf h ic pc h' (X P O : list K) : pos_verify1 T c nv last pf h = Some (ic, pc, h') ->
  let n := length (cl_point last) in let xs := extra T nv last pf h in
  subs_true n (nv - n) P (cl_point last ++ xs) (pp_subs pf) -> (forall x, In x xs -> x <> 1) ->
  scaled_sum (fZ (ad_left c)) (fZ (ad_right c)) X (pos_part n P) O ->
  claim_true X ic -> claim_true P pc -> claim_true O last.
Proof.
  intros V n xs Hs Hx S TX TP. destruct (pos_verify1_inv _ _ _ _ _ _ _ _ _ V) as (Hn & Lp & Ls & Va & -> & -> & _). fold n in Hn. fold xs in Lp, TP.
  assert (Lxs : length xs = (nv - n)%nat) by (rewrite app_length in Lp; fold n in Lp; lia).
  assert (Lsub := proj1 Hs). rewrite Lsub in TP. replace (nv - (nv - n))%nat with n in TP by lia.
  rewrite skipn_app, skipn_all2 in TP by (unfold n; lia). fold n in TP. rewrite Nat.sub_diag in TP. cbn [app skipn] in TP. destruct TP as (LP & EP). cbn [cl_point cl_eval] in LP, EP.
  rewrite Lp in LP. rewrite <- Lxs in Hs. unfold n in Hs. rewrite (fold_subs P xs (cl_point last) _ _ Hs) in EP. fold n in EP.
  assert (Z0 : (ap_right (pp_add pf) - mle (pos_part n P) (cl_point last)) * fprod (map (fun x => 1 - x) xs) = 0).
  { transitivity (mle P (cl_point last ++ xs) - mle P (cl_point last ++ xs)); [|ring]. rewrite <- EP at 1. unfold mle at 3. ring. }
  apply fmul_0 in Z0. destruct Z0 as [Z0|Z0].
  - apply (add_sound c last (pp_add pf) _ _ X (pos_part n P) O Va S).
    + destruct (ad_static c) eqn:St.
      { destruct (add_verify_inv _ _ _ _ _ Va) as (_ & E & _). rewrite St in E. discriminate. }
      repeat constructor; try apply TX; cbn [cl_point cl_eval]; fold n.
      * unfold pos_part. rewrite firstn_length. apply Nat.min_l. rewrite LP. apply Nat.pow_le_mono_r; lia.
      * apply fsub_0. exact Z0.
    + intros oc E. discriminate.
  - exfalso. clear - Z0 Hx. induction xs as [|x xs IH]; cbn in Z0; [exact (f1_neq_0 Z0)|].
    apply fmul_0 in Z0. destruct Z0 as [Z0|Z0]; [|apply IH; auto; intros; apply Hx; right; auto].
    apply (Hx x); [left; reflexivity|]. symmetry. apply fsub_0. exact Z0.
Qed.

(** *** The forgery. *)
Lemma fold_zeros : forall (xs : list K) m (s x e : K), length xs = m ->
  fold_left comb_step (combine (repeat 0 m ++ [s]) (xs ++ [x])) e = e * fprod (map (fun x => 1 - x) xs) * (1 - x) + s * x.
Proof.
  induction xs as [|y xs IH]; intros m s x e L; destruct m; try discriminate.
  - cbn. ring.
  - cbn [repeat app combine fold_left]. rewrite (IH m) by (cbn in L; lia). cbn [map fprod fold_right comb_step]. ring.
Qed.
Lemma skipn_snoc {A} (d : A) (l : list A) k : 1 <= k <= length l -> exists a, skipn (length l - k) l = a ++ [nth (length l - 1) l d] /\ length a = (k - 1)%nat.
Proof.
  intros H. exists (firstn (k - 1) (skipn (length l - k) l)). assert (L : length (skipn (length l - k) l) = k) by (rewrite skipn_length; lia).
  split; [|rewrite firstn_length; lia]. rewrite <- (firstn_skipn (k - 1) (skipn (length l - k) l)) at 1. f_equal.
  assert (L1 : length (skipn (k - 1) (skipn (length l - k) l)) = 1%nat) by (rewrite skipn_length; lia).
  remember (skipn (k - 1) (skipn (length l - k) l)) as w eqn:Ew. destruct w as [|a [|]]; try discriminate. f_equal.
  assert (E : nth 0 [a] d = nth 0 (skipn (k - 1) (skipn (length l - k) l)) d) by (rewrite Ew; reflexivity). cbn [nth] in E. rewrite E, !nth_skipn'. f_equal. lia.
Qed.
(** For every claim about the output, true or false, every input and every positional matrix, with any number [k] of
    evaluations from one to the number of variables, there is an accepted proof whose claims about the input and the positional
    matrix hold; only the last coordinate must not be zero. *)
Lemma pos_forge (T : @hist K -> K) c (last : claim) k (X P : list K) h nv : ad_static c = false -> @fZ K (ad_right c) <> 0 ->
  let n := length (cl_point last) in
  let re := (cl_eval last - mle X (cl_point last) * fZ (ad_left c)) / fZ (ad_right c) in
  let pt := cl_point last ++ fst (pos_coords T (nv - n) last (mkClaim (cl_point last) re) h) in
  length X = (2 ^ n)%nat -> length P = (2 ^ nv)%nat -> n <= nv -> 1 <= k <= nv -> nth (nv - 1) pt 0 <> 0 ->
  exists pf ic pc h', pos_verify1 T c nv last pf h = Some (ic, pc, h') /\ length (pp_subs pf) = k /\ claim_true X ic /\ claim_true P pc.
Proof.
  intros St Hr n re pt LX LP Hn Hk Hx.
  assert (Lpt : length pt = nv) by (unfold pt; rewrite app_length, pos_coords_len; fold n; lia).
  destruct (skipn_snoc 0 pt k) as (a & Ea & La); [lia|]. rewrite Lpt in Ea. set (x := nth (nv - 1) pt 0) in *.
  set (s := (mle P pt - re * fprod (map (fun x => 1 - x) a) * (1 - x)) / x).
  assert (Lsubs : length (repeat 0 (k - 1) ++ [s]) = k) by (rewrite app_length, repeat_length; cbn [length]; lia).
  exists (mkPp (repeat 0 (k - 1) ++ [s]) (mkAp (mle X (cl_point last)) re)). unfold pos_verify1, add_verify. cbn [pp_add pp_subs ap_left ap_right].
  assert (E : (mle X (cl_point last) * fZ (ad_left c) + re * fZ (ad_right c) =? cl_eval last) = true) by (apply feqb_spec; unfold re; field; exact Hr).
  rewrite E, St. cbn [obind fst cl_point cl_eval]. unfold csub. fold n. destruct (Nat.leb_spec n nv); [|lia]. cbn [obind].
  rewrite (surjective_pairing (pos_coords T (nv - n) last (mkClaim (cl_point last) re) h)). fold pt.
  unfold pos_matrix_claim, csub. rewrite Lsubs, Lpt. destruct (Nat.leb_spec k nv); [|lia]. cbn [obind]. rewrite fold_comb, Ea.
  fold x. rewrite (fold_zeros a (k - 1) s x re La).
  exists (mkClaim (cl_point last) (mle X (cl_point last))). do 2 eexists. split; [reflexivity|]. split; [reflexivity|]. split; [split; [exact LX|reflexivity]|].
  split; cbn [cl_point cl_eval]; [rewrite Lpt; exact LP|]. unfold s. field. exact Hx.
Qed.
End P.
