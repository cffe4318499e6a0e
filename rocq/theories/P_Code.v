(** Bit reversal, hypercube interpolation and butterfly passes of M_Code. *)
From Coq Require Import List Arith Lia Bool.
From Verif Require Import ListAux FieldDef MleMath M_Mle M_Tensor M_Fft M_Merkle M_Code P_Fft P_Hash P_Layers2 P_Tensor P_Graph4 P_Mle P_Verifier P_Pad2.
Import ListNotations.

Lemma reverse_bits_brev k i : reverse_bits k i = brev k i.
Proof. reflexivity. Qed.

Section Lists.
Context {A : Type}.
Implicit Types a b l : list A.
Fixpoint inter a b : list A := match a, b with x :: a', y :: b' => x :: y :: inter a' b' | _, _ => [] end.
Lemma inter_length a b : length a = length b -> length (inter a b) = 2 * length a.
Proof. revert b; induction a as [|x a IH]; intros [|y b] H; try discriminate H; [reflexivity|]. cbn [inter length]. rewrite IH by (cbn in H; lia). cbn [length]. lia. Qed.
Lemma nth_inter a b d i : length a = length b -> nth (2 * i) (inter a b) d = nth i a d /\ nth (2 * i + 1) (inter a b) d = nth i b d.
Proof.
  revert b i; induction a as [|x a IH]; intros [|y b] i H; try discriminate H.
  - destruct i; split; cbn; try reflexivity; now destruct (i + S (i + 0)), (i + S (i + 0) + 1).
  - destruct i as [|i]; [split; reflexivity|]. destruct (IH b i ltac:(cbn in H; lia)) as [E1 E2].
    replace (2 * S i) with (S (S (2 * i))) by lia. replace (S (S (2 * i)) + 1) with (S (S (2 * i + 1))) by lia. cbn [inter nth]. auto.
Qed.
Fixpoint br (k : nat) l : list A := match k with O => l | S k' => inter (br k' (firstn (2 ^ k') l)) (br k' (skipn (2 ^ k') l)) end.
Lemma half_lengths l k : length l = 2 ^ S k -> length (firstn (2 ^ k) l) = 2 ^ k /\ length (skipn (2 ^ k) l) = 2 ^ k.
Proof. intros H. rewrite Nat.pow_succ_r' in H. rewrite firstn_length, skipn_length. lia. Qed.
Lemma br_length k : forall l, length l = 2 ^ k -> length (br k l) = 2 ^ k.
Proof.
  induction k as [|k IH]; intros l H; [exact H|]. destruct (half_lengths l k H) as [H1 H2]. cbn [br].
  rewrite inter_length; rewrite !IH by assumption; [|reflexivity]. now rewrite Nat.pow_succ_r'.
Qed.
Lemma br_nth k : forall l d i, length l = 2 ^ k -> i < 2 ^ k -> nth i (br k l) d = nth (brev k i) l d.
Proof.
  induction k as [|k IH]; intros l d i H Hi; [assert (i = 0) by (cbn in Hi; lia); now subst|].
  destruct (half_lengths l k H) as [H1 H2]. rewrite Nat.pow_succ_r' in Hi. cbn [br].
  assert (Hl : length (br k (firstn (2 ^ k) l)) = length (br k (skipn (2 ^ k) l))) by now rewrite !br_length by assumption.
  pose proof (Nat.div_mod i 2 ltac:(lia)) as Ei. assert (Hm := Nat.mod_upper_bound i 2 ltac:(lia)).
  destruct (nth_inter _ _ d (i / 2) Hl) as [E1 E2]. assert (Hd : i / 2 < 2 ^ k) by (apply Nat.div_lt_upper_bound; lia).
  assert (Hc : i mod 2 = 0 \/ i mod 2 = 1) by lia. destruct Hc as [Hc | Hc].
  - replace i with (2 * (i / 2)) at 1 by lia. rewrite E1, IH by assumption. cbn [brev]. rewrite Hc, Nat.mul_0_l, Nat.add_0_l.
    pose proof (brev_lt k (i / 2)). now rewrite nth_firstn_lt.
  - replace i with (2 * (i / 2) + 1) at 1 by lia. rewrite E2, IH by assumption. cbn [brev]. rewrite Hc, Nat.mul_1_l. now rewrite nth_skipn.
Qed.
Lemma log2_strict_pow k : log2_strict (2 ^ k) = Some k.
Proof. unfold log2_strict. now rewrite is_pow2_pow, Nat.log2_pow2 by lia. Qed.
Lemma reverse_ok l k : length l = 2 ^ k -> reverse_index_bits l = Some (br k l).
Proof.
  intros H. unfold reverse_index_bits. rewrite H, log2_strict_pow. cbn [obind].
  destruct l as [|d l]; [exfalso; cbn in H; pose proof (Nat.pow_nonzero 2 k); lia|]. set (l' := d :: l) in *.
  rewrite (omapM_range _ (fun i => nth (brev k i) l' d)).
  - f_equal. apply (nth_ext_all _ _ d); [now rewrite map_length, seq_length, br_length|]. rewrite map_length, seq_length.
    intros i Hi. rewrite nth_map_seq by assumption. now rewrite br_nth.
  - intros i Hi. rewrite reverse_bits_brev. apply nth_error_nth'. rewrite H. apply brev_lt.
Qed.
Lemma reverse_inv l m : reverse_index_bits l = Some m -> exists k, length l = 2 ^ k /\ m = br k l.
Proof.
  intros H. unfold reverse_index_bits, log2_strict in H. destruct (is_pow2 (length l)) eqn:E; [|discriminate H].
  apply P_Pad2.is_pow2_iff in E. destruct E as [k E]. exists k. split; [exact E|].
  assert (R := reverse_ok l k E). unfold reverse_index_bits, log2_strict in R. rewrite E, is_pow2_pow in R. rewrite E in H. rewrite R in H. now injection H.
Qed.
Lemma br_invol k l : length l = 2 ^ k -> br k (br k l) = l.
Proof.
  intros H. destruct l as [|d l]; [exfalso; cbn in H; pose proof (Nat.pow_nonzero 2 k); lia|]. set (l' := d :: l) in *.
  apply (nth_ext_all _ _ d); [rewrite !br_length; auto using br_length|]. rewrite br_length by (now apply br_length).
  intros i Hi. pose proof (brev_lt k i). rewrite !br_nth; auto using br_length. now rewrite brev_invol.
Qed.
Lemma br_app k a b : length a = 2 ^ k -> length b = 2 ^ k -> br (S k) (a ++ b) = inter (br k a) (br k b).
Proof. intros Ha Hb. cbn [br]. now rewrite firstn_app, skipn_app, <- Ha, firstn_all, skipn_all, Nat.sub_diag, firstn_O, skipn_O, app_nil_r. Qed.
Lemma br_inter k a b : length a = 2 ^ k -> length b = 2 ^ k -> br (S k) (inter a b) = br k a ++ br k b.
Proof.
  intros Ha Hb. rewrite <- (br_invol k a Ha) at 1. rewrite <- (br_invol k b Hb) at 1. rewrite <- br_app by now apply br_length.
  apply br_invol. rewrite app_length, !br_length by assumption. cbn; lia.
Qed.
Lemma pairs2_inter a b : length a = length b -> pairs2 (inter a b) = combine a b.
Proof. revert b; induction a as [|x a IH]; intros [|y b] H; try discriminate H; [reflexivity|]. cbn [inter pairs2 combine]. now rewrite IH by (cbn in H; lia). Qed.
Lemma split_half l k : length l = 2 ^ S k -> exists a b, l = a ++ b /\ length a = 2 ^ k /\ length b = 2 ^ k.
Proof. intros H. exists (firstn (2 ^ k) l), (skipn (2 ^ k) l). now rewrite firstn_skipn; destruct (half_lengths l k H). Qed.
Fixpoint evens l : list A := match l with x :: _ :: r => x :: evens r | _ => [] end.
Fixpoint odds l : list A := match l with _ :: y :: r => y :: odds r | _ => [] end.
Lemma inter_eo n : forall l, length l = 2 * n -> l = inter (evens l) (odds l) /\ length (evens l) = n /\ length (odds l) = n.
Proof.
  induction n as [|n IH]; intros l H; [destruct l; [auto|discriminate H]|]. destruct l as [|x [|y l]]; [cbn in H; lia|cbn in H; lia|].
  destruct (IH l ltac:(cbn in H; lia)) as (E1 & E2 & E3). cbn [evens odds inter length]. rewrite <- E1. auto.
Qed.
Lemma split_inter l k : length l = 2 ^ S k -> exists a b, l = inter a b /\ length a = 2 ^ k /\ length b = 2 ^ k.
Proof. intros H. rewrite Nat.pow_succ_r' in H. exists (evens l), (odds l). now apply inter_eo. Qed.
End Lists.

Section Lists2.
Context {A C : Type}.
Lemma inter_map (f : A -> C) a b : map f (inter a b) = inter (map f a) (map f b).
Proof. revert b; induction a as [|x a IH]; intros [|y b]; cbn [map inter]; try reflexivity. now rewrite IH. Qed.
Lemma br_map (f : A -> C) k : forall l, br k (map f l) = map f (br k l).
Proof. induction k as [|k IH]; intros l; [reflexivity|]. cbn [br]. now rewrite inter_map, <- !IH, firstn_map, skipn_map. Qed.
Definition zipw {X} (f : A -> C -> X) (a : list A) (b : list C) : list X := map (fun p => f (fst p) (snd p)) (combine a b).
Lemma zipw_length {X} (f : A -> C -> X) a b : length a = length b -> length (zipw f a b) = length a.
Proof. intros H. unfold zipw. rewrite map_length, combine_length. lia. Qed.
Lemma zipw_cons {X} (f : A -> C -> X) x a y b : zipw f (x :: a) (y :: b) = f x y :: zipw f a b.
Proof. reflexivity. Qed.
Lemma zipw_app {X} (f : A -> C -> X) a a' b b' : length a = length b -> zipw f (a ++ a') (b ++ b') = zipw f a b ++ zipw f a' b'.
Proof. revert b; induction a as [|x a IH]; intros [|y b] H; try discriminate H; [reflexivity|]. cbn [app]. now rewrite !zipw_cons, IH by (cbn in H; lia). Qed.
Lemma zipw_inter {X} (f : A -> C -> X) a a' b b' : length a = length b -> length a' = length b' -> length a = length a' ->
  zipw f (inter a a') (inter b b') = inter (zipw f a b) (zipw f a' b').
Proof.
  revert a' b b'; induction a as [|x a IH]; intros [|x' a'] [|y b] [|y' b'] H H1 H2; try discriminate; [reflexivity|].
  cbn [inter]. rewrite !zipw_cons. cbn [inter]. now rewrite IH by (cbn in *; lia).
Qed.
Lemma nth_zipw {X} (f : A -> C -> X) a b i d1 d2 d : length a = length b -> i < length a -> nth i (zipw f a b) d = f (nth i a d1) (nth i b d2).
Proof.
  intros H Hi. unfold zipw. rewrite (nth_indep _ d (f (fst (d1, d2)) (snd (d1, d2)))) by (rewrite map_length, combine_length; lia).
  rewrite (map_nth (fun p => f (fst p) (snd p))), combine_nth by assumption. reflexivity.
Qed.
End Lists2.
Lemma br_zipw {A C X} (f : A -> C -> X) k : forall a b, length a = 2 ^ k -> length b = 2 ^ k -> br k (zipw f a b) = zipw f (br k a) (br k b).
Proof.
  induction k as [|k IH]; intros a b Ha Hb; [reflexivity|].
  destruct (split_half a k Ha) as (a0 & a1 & -> & L1 & L2). destruct (split_half b k Hb) as (b0 & b1 & -> & L3 & L4).
  rewrite zipw_app by congruence. rewrite !br_app by (rewrite ?zipw_length; congruence). rewrite !IH by assumption.
  symmetry. apply zipw_inter; rewrite !br_length; auto.
Qed.

(** Passes over chunks. *)
Section Passes.
Context {A : Type}.
Variables (h : nat) (f : list A -> option (list A)).
Definition pass (v : list A) : option (list A) := cs <- omapM f (chunks h v) ;; Some (concat cs).
Lemma pass_nil : pass [] = Some [].
Proof. reflexivity. Qed.
Lemma pass_one v : v <> [] -> length v = h -> pass v = f v.
Proof. intros Hv H. unfold pass. rewrite chunks_short by (auto; lia). cbn [omapM]. destruct (f v); cbn; [now rewrite app_nil_r|reflexivity]. Qed.
Lemma pass_app k a b : 0 < h -> length a = h * k -> pass (a ++ b) = (a' <- pass a ;; b' <- pass b ;; Some (a' ++ b')).
Proof.
  intros Hh Ha. unfold pass. rewrite (chunks_app_mult h k) by assumption. rewrite P_Verifier.omapM_app.
  destruct (omapM f (chunks h a)) as [x|]; cbn [obind]; [|reflexivity]. destruct (omapM f (chunks h b)) as [y|]; cbn [obind]; [|reflexivity]. now rewrite concat_app.
Qed.
End Passes.

Lemma halves_ofold {A} (g : list A -> nat -> option (list A)) N ns :
  (forall i v v', In i ns -> length v = N -> g v i = Some v' -> length v' = N) ->
  (forall i v w v' w', In i ns -> length v = N -> length w = N -> g v i = Some v' -> g w i = Some w' -> g (v ++ w) i = Some (v' ++ w')) ->
  forall a b a' b', length a = N -> length b = N -> ofold g ns a = Some a' -> ofold g ns b = Some b' -> ofold g ns (a ++ b) = Some (a' ++ b').
Proof.
  intros HL HS. induction ns as [|i ns IH]; intros a b a' b' La Lb Ea Eb; cbn [ofold] in *; [congruence|].
  destruct (g a i) as [a1|] eqn:Ga; [|discriminate Ea]. destruct (g b i) as [b1|] eqn:Gb; [|discriminate Eb]. cbn [obind] in Ea, Eb.
  rewrite (HS i a b a1 b1) by (auto; now left). cbn [obind]. apply IH; auto.
  - intros j v v' Hj. apply HL. now right.
  - intros j v w v' w' Hj. apply HS. now right.
  - apply (HL i a); auto; now left.
  - apply (HL i b); auto; now left.
Qed.
Lemma ofold_snoc {A S} (f : S -> A -> option S) l x s : ofold f (l ++ [x]) s = (t <- ofold f l s ;; f t x).
Proof. revert s; induction l as [|y l IH]; intros s; cbn [app ofold obind]; [now destruct (f s x)|]. destruct (f s y); cbn [obind]; auto. Qed.

Section Hc.
Context {K : field}.
Local Open Scope F_scope.
Add Field Kf_hc : (fth K).
Implicit Types a b l v : list K.

Definition zsub a b := zipw fsub a b.
(** The interpolation of a table of 2^n values, by halves. *)
Fixpoint hcI (n : nat) l : list K := match n with O => l | S n' =>
  hcI n' (firstn (2 ^ n') l) ++ zsub (hcI n' (skipn (2 ^ n') l)) (hcI n' (firstn (2 ^ n') l)) end.
Lemma hcI_length n : forall l, length l = (2 ^ n)%nat -> length (hcI n l) = (2 ^ n)%nat.
Proof.
  induction n as [|n IH]; intros l H; [exact H|]. destruct (half_lengths l n H) as [H1 H2]. cbn [hcI].
  unfold zsub. rewrite app_length, zipw_length; rewrite !IH by assumption; [|reflexivity]. cbn; lia.
Qed.
Lemma hcI_app n a b : length a = (2 ^ n)%nat -> hcI (S n) (a ++ b) = hcI n a ++ zsub (hcI n b) (hcI n a).
Proof. intros Ha. cbn [hcI]. now rewrite firstn_app, skipn_app, <- Ha, firstn_all, skipn_all, Nat.sub_diag, firstn_O, skipn_O, app_nil_r. Qed.
Lemma map_nth_seq a d : map (fun j => nth j a d) (seq 0 (length a)) = a.
Proof. apply (nth_ext_all _ _ d); [now rewrite map_length, seq_length|]. rewrite map_length, seq_length. intros i Hi. now rewrite nth_map_seq. Qed.
Lemma hc_chunk_app a b : length a = length b -> hc_chunk (length a) (a ++ b) = Some (a ++ zsub b a).
Proof.
  intros H. unfold hc_chunk. rewrite app_length, <- H. replace (length a + length a =? 2 * length a)%nat with true by (symmetry; apply Nat.eqb_eq; lia).
  f_equal. f_equal.
  - etransitivity; [|apply (map_nth_seq a 0)]. apply map_ext_in. intros j Hj. apply in_seq in Hj. now rewrite app_nth1 by lia.
  - apply (nth_ext_all _ _ 0); [unfold zsub; rewrite map_length, seq_length, zipw_length; auto|]. rewrite map_length, seq_length. intros i Hi.
    rewrite nth_map_seq by assumption. unfold zsub. rewrite (nth_zipw fsub b a i 0 0 0) by lia. rewrite app_nth2 by lia. rewrite app_nth1 by lia. do 2 f_equal. lia.
Qed.
Lemma hc_pass_len v i v' : hc_pass v i = Some v' -> length v' = length v.
Proof.
  unfold hc_pass. intros H. destruct (omapM _ _) as [cs|] eqn:E; [|discriminate H]. injection H as <-.
  assert (Ec : concat (chunks (2 ^ i) v) = v) by (apply chunks_concat; pose proof (Nat.pow_nonzero 2 i); lia).
  etransitivity; [|exact (f_equal (@length _) Ec)]. clear Ec. revert cs E. induction (chunks (2 ^ i) v) as [|c l IH]; intros cs E; cbn [omapM] in E; [now injection E as <-|].
  destruct (hc_chunk _ c) as [c'|] eqn:Ec; [|discriminate E]. cbn [obind] in E. destruct (omapM _ l) as [l'|] eqn:El; [|discriminate E]. injection E as <-.
  cbn [concat]. rewrite !app_length, (IH l' eq_refl). f_equal. unfold hc_chunk in Ec. destruct (length c =? _)%nat eqn:Elen; [|discriminate Ec].
  apply Nat.eqb_eq in Elen. injection Ec as <-. rewrite app_length, !map_length, seq_length. lia.
Qed.
Lemma hc_passes n : forall l, length l = (2 ^ n)%nat -> ofold hc_pass (seq 1 n) l = Some (hcI n l).
Proof.
  induction n as [|n IH]; intros l H; [reflexivity|].
  destruct (split_half l n H) as (a & b & -> & La & Lb). rewrite seq_S, ofold_snoc.
  rewrite (halves_ofold hc_pass (2 ^ n) (seq 1 n)) with (a' := hcI n a) (b' := hcI n b); auto.
  - cbn [obind]. unfold hc_pass. rewrite chunks_short.
    + replace (1 + n - 1)%nat with n by lia. cbn [omapM]. assert (E := hc_chunk_app (hcI n a) (hcI n b)).
      rewrite !hcI_length in E by assumption. rewrite E by reflexivity. cbn [obind concat]. now rewrite app_nil_r, hcI_app.
    + intros E. apply (f_equal (@length _)) in E. rewrite app_length, !hcI_length in E by assumption. cbn in E. pose proof (Nat.pow_nonzero 2 n). lia.
    + rewrite app_length, !hcI_length by assumption. cbn; lia.
  - intros i v v' _ Hv E. now rewrite (hc_pass_len _ _ _ E).
  - intros i v w v' w' Hi Hv Hw Ev Ew. apply in_seq in Hi.
    change (pass (2 ^ i) (hc_chunk (2 ^ (i - 1))) (v ++ w) = Some (v' ++ w')). change (pass (2 ^ i) (hc_chunk (2 ^ (i - 1))) v = Some v') in Ev.
    change (pass (2 ^ i) (hc_chunk (2 ^ (i - 1))) w = Some w') in Ew.
    rewrite (pass_app _ _ (2 ^ (n - i))) by (try (rewrite Hv, <- Nat.pow_add_r; f_equal; lia); pose proof (Nat.pow_nonzero 2 i); lia).
    now rewrite Ev, Ew.
Qed.
Lemma interpolate_ok n l : (0 < n)%nat -> length l = (2 ^ n)%nat -> interpolate_hc l = Some (hcI n l).
Proof.
  intros Hn H. unfold interpolate_hc. rewrite H, log2_strict_pow. cbn [obind]. rewrite <- (hc_passes n l H).
  destruct n as [|n]; [lia|]. cbn [seq ofold]. now rewrite Nat.sub_succ, Nat.sub_0_r.
Qed.
Lemma interpolate_one l : length l = 1%nat -> interpolate_hc l = None.
Proof. intros H. destruct l as [|x [|]]; try discriminate H. reflexivity. Qed.

(** The coefficients: the value at a point is the sum of the coefficients times the monomials. *)
Fixpoint mono (r : list K) (i : nat) : K := match r with [] => 1 | x :: r' => (if Nat.odd i then x else 1) * mono r' (i / 2) end.
Definition cval (c : list K) (r : list K) : K := sumn (length c) (fun i => nth i c 0 * mono r i).

(** Folding the last variable of a coefficient vector. *)
Definition cfold a b (c : K) := zipw (fun x y => x + c * y) a b.
Lemma hcI_map2 (f : K -> K -> K) n : (forall x y u v : K, f x y - f u v = f (x - u) (y - v)) -> forall a b, length a = (2 ^ n)%nat -> length b = (2 ^ n)%nat ->
  hcI n (zipw f a b) = zipw f (hcI n a) (hcI n b).
Proof.
  intros Hf. induction n as [|n IH]; intros a b Ha Hb; [reflexivity|].
  destruct (split_half a n Ha) as (a0 & a1 & -> & L1 & L2). destruct (split_half b n Hb) as (b0 & b1 & -> & L3 & L4).
  rewrite zipw_app by congruence. rewrite !hcI_app by (rewrite ?zipw_length; congruence). rewrite !IH by assumption.
  rewrite zipw_app by (rewrite !hcI_length; congruence). f_equal.
  pose proof (hcI_length n a0 L1) as M1. pose proof (hcI_length n a1 L2) as M2. pose proof (hcI_length n b0 L3) as M3. pose proof (hcI_length n b1 L4) as M4.
  unfold zsub. apply (nth_ext_all _ _ 0); [rewrite !zipw_length; rewrite ?zipw_length; congruence|]. intros i Hi.
  rewrite zipw_length in Hi by (rewrite !zipw_length; congruence). rewrite zipw_length in Hi by congruence.
  rewrite (nth_zipw fsub _ _ i 0 0 0) by (rewrite !zipw_length; try congruence; lia).
  rewrite !(nth_zipw f _ _ i 0 0 0) by (unfold zsub; rewrite ?zipw_length; try congruence; lia).
  rewrite !(nth_zipw fsub _ _ i 0 0 0) by (try congruence; lia). apply Hf.
Qed.
Lemma mono_even x r i : mono (x :: r) (2 * i) = mono r i.
Proof. unfold mono; fold mono. replace (2 * i)%nat with (i * 2)%nat by lia. rewrite Nat.div_mul by lia. replace (Nat.odd (i * 2)) with false; [ring|]. rewrite Nat.odd_mul. cbn. now rewrite andb_false_r. Qed.
Lemma mono_odd x r i : mono (x :: r) (2 * i + 1) = x * mono r i.
Proof.
  unfold mono; fold mono. replace ((2 * i + 1) / 2)%nat with i by (apply Nat.div_unique with 1%nat; lia).
  replace (Nat.odd (2 * i + 1)) with true; [ring|]. rewrite Nat.add_1_r, Nat.odd_succ. symmetry. apply Nat.even_spec. now exists i.
Qed.
Lemma mono_app r s i j : (i < 2 ^ length r)%nat -> mono (r ++ s) (i + 2 ^ length r * j)%nat = mono r i * mono s j.
Proof.
  revert i j. induction r as [|x r IH]; intros i j Hi.
  - cbn in Hi. assert (i = 0)%nat by lia. subst. cbn [length app Nat.pow]. replace (0 + 1 * j)%nat with j by lia. cbn [mono]. ring.
  - cbn [length app]. cbn [length] in Hi. rewrite Nat.pow_succ_r' in *.
    destruct (Nat.Even_or_Odd i) as [[m Hm]|[m Hm]]; subst i.
    + replace (2 * m + 2 * 2 ^ length r * j)%nat with (2 * (m + 2 ^ length r * j))%nat by lia. rewrite !mono_even. rewrite IH by lia. reflexivity.
    + replace (2 * m + 1 + 2 * 2 ^ length r * j)%nat with (2 * (m + 2 ^ length r * j) + 1)%nat by lia. rewrite !mono_odd. rewrite IH by lia. ring.
Qed.
Lemma cval_app (r : list K) x a b : length a = (2 ^ length r)%nat -> length b = (2 ^ length r)%nat -> cval (a ++ b) (r ++ [x]) = cval a r + x * cval b r.
Proof.
  intros Ha Hb. unfold cval. rewrite app_length, sumn_split. f_equal.
  - apply sumn_ext. intros i Hi. rewrite app_nth1 by assumption. f_equal. replace i with (i + 2 ^ length r * 0)%nat at 1 by lia. rewrite mono_app by lia. cbn. ring.
  - rewrite <- sumn_scal. apply sumn_ext. intros i Hi. rewrite app_nth2 by lia. replace (length a + i - length a)%nat with i by lia.
    replace (length a + i)%nat with (i + 2 ^ length r * 1)%nat by lia. rewrite mono_app by lia. cbn. ring.
Qed.
Lemma cval_zsub (r : list K) a b : length a = length b -> cval (zsub a b) r = cval a r - cval b r.
Proof.
  intros H. unfold cval, zsub. rewrite zipw_length by assumption. rewrite <- H, <- sumn_sub. apply sumn_ext. intros i Hi.
  rewrite (nth_zipw fsub a b i 0 0 0) by assumption. ring.
Qed.
Lemma cval_ok (r : list K) : forall l, length l = (2 ^ length r)%nat -> cval (hcI (length r) l) r = mle l r.
Proof.
  induction r as [|x r IH] using rev_ind; intros l H.
  - cbn [length hcI]. cbn in H. unfold cval, mle. rewrite H, mlef_nil. cbn. ring.
  - rewrite app_length in *. cbn [length] in *. rewrite Nat.add_1_r in *. destruct (split_half l _ H) as (a & b & -> & La & Lb).
    rewrite hcI_app by assumption. pose proof (hcI_length _ a La) as Ma. pose proof (hcI_length _ b Lb) as Mb.
    rewrite cval_app by (unfold zsub; rewrite ?zipw_length; congruence). rewrite cval_zsub by congruence. rewrite !IH by assumption.
    unfold mle. rewrite mlef_snoc, mlef_add, mlef_scal, mlef_sub.
    assert (E1 : mlef (fun i => nth i (a ++ b) 0) r = mlef (fun i => nth i a 0) r) by (apply mlef_ext; intros i Hi; now rewrite app_nth1 by lia).
    assert (E2 : mlef (fun i => nth (2 ^ length r + i) (a ++ b) 0) r = mlef (fun i => nth i b 0) r).
    { apply mlef_ext; intros i Hi. rewrite app_nth2 by lia. f_equal. lia. }
    rewrite E1, E2. reflexivity.
Qed.
(** Interpolation commutes with the reversal of the indices. *)
Lemma hcI_inter n : forall a b, length a = (2 ^ n)%nat -> length b = (2 ^ n)%nat -> hcI (S n) (inter a b) = inter (hcI n a) (hcI n (zsub b a)).
Proof.
  induction n as [|n IH]; intros a b Ha Hb.
  - destruct a as [|x [|]]; try discriminate Ha. destruct b as [|y [|]]; try discriminate Hb. reflexivity.
  - destruct (split_half a n Ha) as (a0 & a1 & -> & L1 & L2). destruct (split_half b n Hb) as (b0 & b1 & -> & L3 & L4).
    assert (Ei : inter (a0 ++ a1) (b0 ++ b1) = inter a0 b0 ++ inter a1 b1).
    { assert (G : forall (u u' w w' : list K), length u = length w -> inter (u ++ u') (w ++ w') = inter u w ++ inter u' w').
      { induction u as [|x u IHu]; intros u' [|y w] w' E; try discriminate E; [reflexivity|]. cbn [app inter]. rewrite IHu by (cbn in E; lia). reflexivity. }
      apply G. congruence. }
    rewrite Ei, hcI_app by (rewrite inter_length by congruence; rewrite Nat.pow_succ_r'; lia).
    rewrite !IH by assumption. assert (Ez : zsub (b0 ++ b1) (a0 ++ a1) = zsub b0 a0 ++ zsub b1 a1) by (unfold zsub; apply zipw_app; congruence). rewrite Ez.
    assert (M0 : length (zsub b0 a0) = (2 ^ n)%nat) by (unfold zsub; rewrite zipw_length; congruence).
    assert (M1 : length (zsub b1 a1) = (2 ^ n)%nat) by (unfold zsub; rewrite zipw_length; congruence).
    rewrite !hcI_app by assumption.
    assert (G : forall (u u' w w' : list K), length u = length w -> inter (u ++ u') (w ++ w') = inter u w ++ inter u' w').
    { induction u as [|x u IHu]; intros u' [|y w] w' E; try discriminate E; [reflexivity|]. cbn [app inter]. rewrite IHu by (cbn in E; lia). reflexivity. }
    rewrite G by (rewrite !hcI_length; congruence). f_equal. apply (zipw_inter fsub); rewrite !hcI_length; congruence.
Qed.
Lemma hcI_br n : forall l, length l = (2 ^ n)%nat -> hcI n (br n l) = br n (hcI n l).
Proof.
  induction n as [|n IH]; intros l H; [reflexivity|]. destruct (split_half l n H) as (a & b & -> & La & Lb).
  rewrite br_app by assumption. rewrite hcI_inter by now apply br_length. rewrite hcI_app by assumption.
  pose proof (hcI_length n a La) as Ma. pose proof (hcI_length n b Lb) as Mb.
  rewrite br_app by (unfold zsub; rewrite ?zipw_length; congruence). rewrite IH by assumption. f_equal.
  unfold zsub. rewrite <- br_zipw by assumption. rewrite IH by (rewrite zipw_length; congruence). f_equal.
  apply hcI_map2; auto. intros; ring.
Qed.
End Hc.
