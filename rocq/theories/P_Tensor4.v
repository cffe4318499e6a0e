(** Concatenation, slicing, broadcasting and expansion of the tensor model. *)
From Coq Require Import List Arith Lia Bool.
From Verif Require Import ListAux FieldDef M_Mle M_Tensor P_Tensor P_Tensor2 P_Tensor3.
Import ListNotations.

Lemma flat_app : forall s i s' j, length i = length s -> flat (s ++ s') (i ++ j) = flat s i * sprod s' + flat s' j.
Proof.
  induction s as [|a s IH]; intros [|x i] s' j L; try discriminate; [reflexivity|]. cbn [app]. rewrite !flat_cons, IH by (cbn in L; lia).
  rewrite sprod_app. ring.
Qed.

Lemma ten_eta {A} (t : ten A) : mkTen (sh t) (dat t) = t. Proof. destruct t; reflexivity. Qed.

Section Concat.
Context {A : Type} (d : A).
Implicit Types t o c : ten A.

(** The compatible operands: the same trailing dimensions; the second operand may be one slice. *)
Definition joins (st so : list nat) (s0 k : nat) (r : list nat) : Prop :=
  st = s0 :: r /\ (so = k :: r \/ (so = r /\ k = 1)).

Lemma forallb_refl (l : list nat) n : forallb (fun p => fst p =? snd p) (firstn n (combine l l)) = true.
Proof. apply forallb_forall. intros [x y] H. apply (incl_appl (skipn n (combine l l)) (incl_refl _)) in H. rewrite firstn_skipn in H.
  assert (x = y); [|subst; apply Nat.eqb_refl]. clear n. induction l; cbn in H; [contradiction|]. destruct H as [H|H]; [congruence|auto]. Qed.
Lemma combine_snoc (l : list nat) x : firstn (length l) (combine (l ++ [x]) l) = firstn (length l) (combine l l).
Proof.
  assert (G : forall (u v : list nat) y, length u = length v -> combine (u ++ [y]) v = combine u v).
  { induction u as [|a u IH]; intros [|b v] y H; try discriminate; [reflexivity|]. cbn. f_equal. apply IH. cbn in H; lia. }
  rewrite G; auto.
Qed.

Lemma tconcat_joins t o s0 k r : joins (sh t) (sh o) s0 k r -> tconcat t o = Some (mkTen (s0 + k :: r) (dat t ++ dat o)).
Proof.
  intros [E H]. unfold tconcat. rewrite E. destruct H as [H|[H ->]]; rewrite H.
  - cbn [length]. rewrite Nat.min_id, Nat.ltb_irrefl, Nat.eqb_refl. reflexivity.
  - cbn [length]. rewrite Nat.min_r by lia. rewrite (proj2 (Nat.ltb_lt _ _)) by lia. cbn [rev].
    rewrite <- (rev_length r) at 1. rewrite combine_snoc, forallb_refl. rewrite (proj2 (Nat.eqb_eq _ _)) by lia. reflexivity.
Qed.

Lemma joins_len t o s0 k r : wft t -> wft o -> joins (sh t) (sh o) s0 k r ->
  length (dat t) = s0 * sprod r /\ length (dat o) = k * sprod r.
Proof.
  intros Wt Wo [E H]. unfold wft in *. rewrite E in Wt. split; [exact Wt|]. destruct H as [H|[H ->]]; rewrite H in Wo; rewrite Wo; [reflexivity|].
  unfold sprod. lia.
Qed.

Theorem concat_ok t o s0 k r : wft t -> wft o -> joins (sh t) (sh o) s0 k r ->
  exists c, tconcat t o = Some c /\ sh c = s0 + k :: r /\ wft c /\
    (forall i idx, i < s0 -> inb r idx -> entry d c (i :: idx) = entry d t (i :: idx)) /\
    (forall i idx, i < k -> inb r idx ->
       entry d c (s0 + i :: idx) = nth (i * fold_right Nat.mul 1 r + flat r idx) (dat o) d).
Proof.
  intros Wt Wo J. destruct (joins_len _ _ _ _ _ Wt Wo J) as [Lt Lo]. rewrite (tconcat_joins _ _ _ _ _ J).
  eexists. split; [reflexivity|]. split; [reflexivity|]. split; [unfold wft; cbn [sh dat]; rewrite app_length, Lt, Lo; change (fold_right Nat.mul 1 (s0 + k :: r)) with ((s0 + k) * sprod r); lia|].
  destruct J as [E H]. split; intros i idx Hi I; assert (B := flat_lt _ _ I).
  - unfold entry. cbn [sh dat]. rewrite E, !flat_cons. apply app_nth1. rewrite Lt. nia.
  - unfold entry. cbn [sh dat]. rewrite flat_cons. rewrite app_nth2 by (rewrite Lt; nia). f_equal. rewrite Lt. change (fold_right Nat.mul 1 r) with (sprod r). nia.
Qed.

(** Slices of a concatenation. *)
Lemma slice_app_l {B} (x y : list B) a : a = length x -> slice 0 a (x ++ y) = Some x.
Proof.
  intros ->. unfold slice. rewrite app_length. rewrite (proj2 (Nat.leb_le 0 _)), (proj2 (Nat.leb_le _ _)) by lia. cbn [andb skipn].
  rewrite Nat.sub_0_r, firstn_app, firstn_all, Nat.sub_diag. cbn [firstn]. rewrite app_nil_r. reflexivity.
Qed.
Lemma slice_app_r {B} (x y : list B) a b : a = length x -> b = length x + length y -> slice a b (x ++ y) = Some y.
Proof.
  intros -> ->. unfold slice. rewrite app_length. rewrite !(proj2 (Nat.leb_le _ _)) by lia. cbn [andb].
  rewrite skipn_app, skipn_all, Nat.sub_diag. cbn [skipn app]. f_equal. apply firstn_all2. lia.
Qed.

Theorem concat_slices_2d t o a k n : wft t -> wft o -> sh t = [a; n] -> sh o = [k; n] ->
  (c <- tconcat t o ;; slice_2d c 0 a) = Some t /\ (c <- tconcat t o ;; slice_2d c a (a + k)) = Some o.
Proof.
  intros Wt Wo Et Eo. assert (J : joins (sh t) (sh o) a k [n]) by (split; [auto|left; auto]).
  rewrite (tconcat_joins _ _ _ _ _ J). destruct (joins_len _ _ _ _ _ Wt Wo J) as [Lt Lo]. cbn [obind]. unfold slice_2d. cbn [sh dat].
  assert (Sn : sprod [n] = n) by (cbn; lia). rewrite Sn in *. rewrite Nat.mul_0_l.
  rewrite slice_app_l, slice_app_r by (rewrite ?Lt, ?Lo; lia). cbn [obind]. unfold csub.
  rewrite !(proj2 (Nat.leb_le _ _)) by lia. cbn [obind]. rewrite Nat.sub_0_r. replace (a + k - a) with k by lia.
  rewrite <- Et, <- Eo. split; f_equal; apply ten_eta.
Qed.
Theorem concat_slices_3d t o a k m n : wft t -> wft o -> sh t = [a; m; n] -> sh o = [k; m; n] -> 0 < a -> 0 < k ->
  (c <- tconcat t o ;; slice_3d c 0 a) = Some t /\ (c <- tconcat t o ;; slice_3d c a (a + k)) = Some o.
Proof.
  intros Wt Wo Et Eo Ha Hk. assert (J : joins (sh t) (sh o) a k [m; n]) by (split; [auto|left; auto]).
  rewrite (tconcat_joins _ _ _ _ _ J). destruct (joins_len _ _ _ _ _ Wt Wo J) as [Lt Lo]. cbn [obind]. unfold slice_3d. cbn [sh dat].
  assert (Sn : sprod [m; n] = m * n) by (cbn; lia). rewrite Sn in *. rewrite Nat.mul_0_r.
  rewrite (proj2 (Nat.ltb_lt 0 _)), (proj2 (Nat.leb_le a _)), (proj2 (Nat.ltb_lt a _)), Nat.leb_refl by lia. cbn [andb].
  rewrite slice_app_l, slice_app_r by (rewrite ?Lt, ?Lo; lia). cbn [obind]. rewrite Nat.sub_0_r. replace (a + k - a) with k by lia.
  rewrite <- Et, <- Eo. split; f_equal; apply ten_eta.
Qed.

(** Rejections: an operand with fewer trailing dimensions, or different ones. *)
Theorem concat_rejects t o : sh t = [] \/
  (length (sh o) < length (sh t) /\ sh o <> tl (sh t)) -> tconcat t o = None.
Proof.
  intros [H|[H H']].
  - unfold tconcat. rewrite H. cbn [length Nat.min]. destruct (_ <? _); [destruct (forallb _ _); [destruct (_ =? _)|]; reflexivity|].
    destruct (_ =? _); [|reflexivity]. destruct (sh o); reflexivity.
  - destruct (sh t) as [|s0 r] eqn:E; [cbn in H; lia|]. cbn [tl] in H'. unfold tconcat. rewrite E. rewrite Nat.min_r by lia.
    rewrite (proj2 (Nat.ltb_lt _ _)) by lia. destruct (forallb _ _) eqn:F; [|reflexivity].
    destruct (Nat.eqb_spec (length (sh o) + 1) (length (s0 :: r))) as [L|L]; [|reflexivity]. exfalso. apply H'.
    cbn [length] in L. assert (L' : length (sh o) = length r) by lia. cbn [rev] in F.
    assert (Q : length (rev (sh o)) = length (rev r)) by (rewrite !rev_length; auto). rewrite <- (rev_length (sh o)) in F.
    assert (G : forall (u v : list nat) y, length u = length v ->
      forallb (fun p => fst p =? snd p) (firstn (length u) (combine (v ++ [y]) u)) = true -> u = v).
    { clear. induction u as [|x u IH]; intros [|z v] y L F; try discriminate; auto. cbn in F. apply andb_true_iff in F as [F1 F2].
      apply Nat.eqb_eq in F1. f_equal; [auto|]. apply (IH v y); [cbn in L; lia|auto]. }
    apply G in F; auto. rewrite <- (rev_involutive (sh o)), F, rev_involutive. reflexivity.
Qed.

(** ... but operands of the same or a higher rank are never compared. *)
Theorem concat_unchecked t o (s0 : nat) (r : list nat) (o0 : nat) (r' : list nat) : sh t = s0 :: r -> sh o = o0 :: r' -> length r <= length r' ->
  tconcat t o = Some (mkTen (s0 + o0 :: r) (dat t ++ dat o)) /\
  (wft t -> wft o -> 0 < o0 -> sprod r <> sprod r' -> ~ wft (mkTen (s0 + o0 :: r) (dat t ++ dat o))).
Proof.
  intros Et Eo L. split.
  - unfold tconcat. rewrite Et, Eo. cbn [length]. rewrite Nat.min_l by lia. rewrite Nat.ltb_irrefl, Nat.eqb_refl. reflexivity.
  - intros Wt Wo Ho Hn W. unfold wft in *. cbn [sh dat] in W. rewrite app_length, Wt, Wo, Et, Eo in W.
    change (s0 * sprod r + o0 * sprod r' = (s0 + o0) * sprod r) in W. apply Hn. nia.
Qed.

(** Stacking a list. *)
Definition heads (ts : list (ten A)) : list nat := map (fun t => hd 0 (sh t)) ts.
Definition sumlist (l : list nat) : nat := fold_right Nat.add 0 l.
Lemma stack_fold r : forall ts t s0, sh t = s0 :: r -> Forall (fun u => exists k, sh u = k :: r) ts ->
  ofold tconcat ts t = Some (mkTen (s0 + sumlist (heads ts) :: r) (dat t ++ concat (map dat ts))).
Proof.
  induction ts as [|u ts IH]; intros t s0 E F.
  - cbn. rewrite app_nil_r, Nat.add_0_r, <- E. destruct t; reflexivity.
  - inversion F as [|? ? [k Ek] F']; subst. cbn [ofold]. rewrite (tconcat_joins t u s0 k r) by (split; auto). cbn [obind].
    rewrite (IH _ (s0 + k)) by auto. cbn [sh dat map concat heads sumlist fold_right]. rewrite Ek. cbn [hd].
    fold (heads ts). fold (sumlist (heads ts)). rewrite app_assoc, Nat.add_assoc. reflexivity.
Qed.
Theorem stack_all_ok r ts : ts <> [] -> Forall (fun u => wft u /\ exists k, sh u = k :: r) ts ->
  exists c, stack_all ts = Some c /\ sh c = sumlist (heads ts) :: r /\ wft c /\
    forall j t i idx, nth_error ts j = Some t -> i < hd 0 (sh t) -> inb r idx ->
      entry d c (sumlist (firstn j (heads ts)) + i :: idx) = entry d t (i :: idx).
Proof.
  intros N F. destruct ts as [|t ts]; [congruence|]. assert (F1 := F). inversion F1 as [|? ? [W [s0 E]] F']; subst.
  cbn [stack_all]. rewrite (stack_fold r ts t s0 E); [|eapply Forall_impl; [|exact F']; cbn; tauto].
  eexists. split; [reflexivity|]. cbn [sh dat].
  assert (Eh : s0 + sumlist (heads ts) = sumlist (heads (t :: ts))) by (cbn; rewrite E; reflexivity). rewrite Eh.
  split; [reflexivity|]. change (dat t ++ concat (map dat ts)) with (concat (map dat (t :: ts))).
  set (us := t :: ts) in *. clearbody us. clear - F.
  assert (Len : forall us, Forall (fun u : ten A => wft u /\ exists k, sh u = k :: r) us -> length (concat (map dat us)) = sumlist (heads us) * sprod r).
  { clear. induction 1 as [|u us [W [k E]] F IH]; [reflexivity|]. cbn [map concat heads sumlist fold_right]. fold (heads us). fold (sumlist (heads us)).
    rewrite app_length, IH. unfold wft in W. rewrite W, E. cbn [hd]. change (fold_right Nat.mul 1 (k :: r)) with (k * sprod r). lia. }
  split; [exact (Len us F)|].
  intros j t i idx Hj Hi I. unfold entry. cbn [sh dat]. assert (B := flat_lt _ _ I).
  revert j t Hj Hi. induction F as [|u us [W [k E]] F IH]; intros j t Hj Hi; [destruct j; discriminate|].
  assert (Lu : length (dat u) = k * sprod r) by (unfold wft in W; rewrite W, E; reflexivity).
  destruct j as [|j].
  - injection Hj as <-. cbn [map concat firstn sumlist fold_right Nat.add]. rewrite E in *. cbn [hd] in Hi. rewrite !flat_cons. apply app_nth1. rewrite Lu. nia.
  - cbn [nth_error] in Hj. cbn [map concat heads firstn sumlist fold_right]. fold (heads us). rewrite E. cbn [hd].
    fold (sumlist (firstn j (heads us))). rewrite <- (IH j t Hj Hi), !flat_cons, app_nth2 by (rewrite Lu; nia). f_equal. rewrite Lu. nia.
Qed.

(** [slice_on_dim]: one slice for each value of the leading indices. *)
Theorem slice_on_dim_ok t dim : wft t -> Forall (lt 0) (sh t) -> dim + 1 < length (sh t) ->
  exists ss, slice_on_dim t dim = Some (ss, skipn (dim + 1) (sh t)) /\ length ss = sprod (firstn (dim + 1) (sh t)) /\
    forall i1 i2, inb (firstn (dim + 1) (sh t)) i1 -> inb (skipn (dim + 1) (sh t)) i2 ->
      nth (flat (skipn (dim + 1) (sh t)) i2) (nth (flat (firstn (dim + 1) (sh t)) i1) ss []) d = entry d t (i1 ++ i2).
Proof.
  intros W P L. unfold slice_on_dim. rewrite (proj2 (Nat.ltb_lt _ _)) by lia. rewrite (proj2 (Nat.ltb_lt dim _)) by lia.
  set (s1 := firstn (dim + 1) (sh t)). set (s2 := skipn (dim + 1) (sh t)).
  assert (Es : sh t = s1 ++ s2) by (symmetry; apply firstn_skipn).
  assert (P2 : 0 < sprod s2) by (apply sprod_pos; rewrite Es in P; apply Forall_app in P; tauto).
  unfold ochunks. destruct (Nat.eqb_spec (sprod s2) 0); [lia|]. cbn [obind]. eexists. split; [reflexivity|].
  assert (Ld : length (dat t) = sprod s1 * sprod s2) by (unfold wft in W; rewrite W; change (sprod (sh t) = sprod s1 * sprod s2); rewrite Es, sprod_app; auto).
  destruct (chunks_nth (sprod s2) (sprod s1) (dat t) P2 Ld) as [Lc Hc]. split; [exact Lc|].
  intros i1 i2 I1 I2. assert (B1 := flat_lt _ _ I1). assert (B2 := flat_lt _ _ I2).
  rewrite (nth_error_nth _ _ _ (Hc _ B1)). rewrite nth_firstn_lt by auto. rewrite nth_skipn.
  unfold entry. rewrite Es, flat_app by (apply inb_len; auto). f_equal.
Qed.
End Concat.

(** *** Broadcasting *)
Section Broadcast.
(** Dimension [i] counted from the right; missing dimensions count as 1. *)
Definition rdim (s : list nat) (i : nat) : nat := nth i (rev s) 1.
Definition dim_ok (x y : nat) : Prop := x = y \/ x = 1 \/ y = 1.

Lemma compat_some x y : dim_ok x y -> 0 < x -> 0 < y -> compatibility x y = Some (Nat.max x y).
Proof.
  unfold compatibility, dim_ok. destruct (Nat.eqb_spec x 1); [intros; f_equal; lia|].
  destruct (Nat.eqb_spec y 1); [intros; f_equal; lia|]. destruct (Nat.eqb_spec x y); [intros; f_equal; lia|]. lia.
Qed.
Lemma compat_comm x y : compatibility x y = compatibility y x.
Proof. unfold compatibility. destruct (Nat.eqb_spec x 1), (Nat.eqb_spec y 1); subst; auto. rewrite (Nat.eqb_sym y x). destruct (Nat.eqb_spec x y); congruence. Qed.
Lemma compat_none x y : compatibility x y = None <-> ~ dim_ok x y.
Proof.
  unfold compatibility, dim_ok. destruct (Nat.eqb_spec x 1); [split; [discriminate|tauto]|].
  destruct (Nat.eqb_spec y 1); [split; [discriminate|tauto]|]. destruct (Nat.eqb_spec x y); [split; [discriminate|tauto]|]. split; [lia|auto].
Qed.

Definition fill (n : nat) (s : list nat) : list nat := repeat 1 (n - length s) ++ s.
Lemma fill_len n s : length s <= n -> length (fill n s) = n.
Proof. intros H. unfold fill. rewrite app_length, repeat_length. lia. Qed.
Lemma omapM_ext_in {A B} (f g : A -> option B) l : (forall x, In x l -> f x = g x) -> omapM f l = omapM g l.
Proof. induction l as [|x l IH]; intros H; [reflexivity|]. cbn [omapM]. rewrite H by (left; auto). rewrite IH by (intros; apply H; right; auto). reflexivity. Qed.
Lemma omapM_combine_swap (f : nat -> nat -> option nat) : (forall x y, f x y = f y x) -> forall a b, length a = length b ->
  omapM (fun p => f (snd p) (fst p)) (combine b a) = omapM (fun p => f (fst p) (snd p)) (combine b a) /\
  omapM (fun p => f (fst p) (snd p)) (combine b a) = omapM (fun p => f (fst p) (snd p)) (combine a b).
Proof.
  intros Hf. induction a as [|x a IH]; intros [|y b] L; try discriminate; [split; reflexivity|]. cbn [combine omapM fst snd].
  destruct (IH b) as [H1 H2]; [cbn in L; lia|]. rewrite H1, H2, (Hf x y). split; reflexivity.
Qed.
(** One formula for the three cases. *)
Lemma broadcast_fill a b : get_broadcasted_shape a b =
  let n := Nat.max (length a) (length b) in omapM (fun p => compatibility (fst p) (snd p)) (combine (fill n a) (fill n b)).
Proof.
  cbv zeta. unfold get_broadcasted_shape. destruct (Nat.compare_spec (length a) (length b)) as [H|H|H].
  - rewrite H, Nat.max_id. unfold fill. rewrite H, Nat.sub_diag. cbn [repeat app].
    destruct (omapM_combine_swap compatibility compat_comm a b H) as [H1 H2]. rewrite H1, H2. reflexivity.
  - rewrite Nat.max_r by lia. fold (fill (length b) a). assert (Eb : fill (length b) b = b) by (unfold fill; rewrite Nat.sub_diag; reflexivity). rewrite Eb.
    destruct (omapM_combine_swap compatibility compat_comm (fill (length b) a) b) as [H1 H2]; [apply fill_len; lia|]. rewrite H1, H2. reflexivity.
  - rewrite Nat.max_l by lia. fold (fill (length a) b). assert (Ea : fill (length a) a = a) by (unfold fill; rewrite Nat.sub_diag; reflexivity). rewrite Ea. reflexivity.
Qed.
Theorem broadcast_comm a b : get_broadcasted_shape a b = get_broadcasted_shape b a.
Proof.
  rewrite !broadcast_fill. cbv zeta. rewrite (Nat.max_comm (length b)). set (n := Nat.max _ _).
  apply (omapM_combine_swap compatibility compat_comm). rewrite !fill_len; auto; lia.
Qed.

Lemma nth_all (l : list nat) i : (forall x, In x l -> x = 1) -> nth i l 1 = 1.
Proof. intros H. destruct (nth_in_or_default i l 1); auto. Qed.
Lemma rdim_fill n s i : length s <= n -> nth i (rev (fill n s)) 1 = rdim s i.
Proof.
  intros H. unfold fill, rdim. rewrite rev_app_distr. destruct (Nat.lt_ge_cases i (length (rev s))) as [Hi|Hi].
  - apply app_nth1; auto.
  - rewrite app_nth2, (nth_overflow (rev s)) by auto. apply nth_all. intros x Hx. apply in_rev in Hx. exact (repeat_spec _ _ _ Hx).
Qed.
End Broadcast.

Section Broadcast2.
Implicit Types a b u v : list nat.

Lemma omapM_none {A B} (f : A -> option B) l : omapM f l = None <-> exists x, In x l /\ f x = None.
Proof.
  induction l as [|x l IH]; cbn [omapM]; [split; [discriminate|intros (x & [] & _)]|].
  destruct (f x) as [y|] eqn:E; cbn [obind].
  - destruct (omapM f l) as [r|] eqn:El; cbn [obind].
    + split; [discriminate|]. intros (z & [<-|Hz] & E'); [congruence|]. assert (X : Some r = None) by (apply IH; eauto). discriminate.
    + split; [intros _|auto]. destruct (proj1 IH eq_refl) as (z & Hz & Ez). exists z. split; [right|]; auto.
  - split; [intros _; exists x; split; [left|]; auto|auto].
Qed.

Lemma combine_rev {A B} : forall (u : list A) (v : list B), length u = length v -> combine (rev u) (rev v) = rev (combine u v).
Proof.
  assert (G : forall (u : list A) (v : list B) x y, length u = length v -> combine (u ++ [x]) (v ++ [y]) = combine u v ++ [(x, y)]).
  { induction u as [|p u IH]; intros [|q v] x y H; try discriminate; [reflexivity|]. cbn. f_equal. apply IH. cbn in H; lia. }
  induction u as [|x u IH]; intros [|y v] H; try discriminate; [reflexivity|]. cbn [rev combine]. rewrite G by (rewrite !rev_length; cbn in H; lia).
  rewrite IH by (cbn in H; lia). reflexivity.
Qed.
Lemma pairs_index u v n x y : length u = n -> length v = n ->
  In (x, y) (combine u v) <-> exists i, i < n /\ nth i (rev u) 1 = x /\ nth i (rev v) 1 = y.
Proof.
  intros Lu Lv. rewrite in_rev, <- combine_rev by lia. split.
  - intros H. apply (In_nth _ _ (1, 1)) in H as (i & Hi & E). rewrite combine_length, !rev_length in Hi.
    rewrite combine_nth in E by (rewrite !rev_length; lia). exists i. split; [lia|]. injection E as -> ->. auto.
  - intros (i & Hi & <- & <-). rewrite <- combine_nth by (rewrite !rev_length; lia). apply nth_In. rewrite combine_length, !rev_length. lia.
Qed.

Theorem broadcast_rejects a b : get_broadcasted_shape a b = None <-> exists i, ~ dim_ok (rdim a i) (rdim b i).
Proof.
  rewrite broadcast_fill. cbv zeta. set (n := Nat.max (length a) (length b)). rewrite omapM_none. split.
  - intros ([x y] & Hin & E). apply (pairs_index _ _ n) in Hin as (i & Hi & <- & <-); try (apply fill_len; lia).
    rewrite !rdim_fill in E by lia. apply compat_none in E. eauto.
  - intros [i Hi]. exists (rdim a i, rdim b i). split; [|apply compat_none; auto].
    apply (pairs_index _ _ n); try (apply fill_len; lia). exists i. rewrite !rdim_fill by lia. repeat split; auto.
    destruct (Nat.lt_ge_cases i n) as [H|H]; auto. exfalso. apply Hi. left. unfold rdim. rewrite !nth_overflow by (rewrite rev_length; lia). reflexivity.
Qed.
Theorem broadcast_ok a b : Forall (lt 0) a -> Forall (lt 0) b -> (forall i, dim_ok (rdim a i) (rdim b i)) ->
  exists r, get_broadcasted_shape a b = Some r /\ length r = Nat.max (length a) (length b) /\
    forall i, rdim r i = Nat.max (rdim a i) (rdim b i).
Proof.
  intros Pa Pb H. assert (Pr : forall s i, Forall (lt 0) s -> 0 < rdim s i).
  { intros s i P. unfold rdim. destruct (nth_in_or_default i (rev s) 1) as [I| ->]; [|lia]. apply in_rev in I. rewrite Forall_forall in P. auto. }
  rewrite broadcast_fill. cbv zeta. set (n := Nat.max (length a) (length b)).
  set (u := fill n a). set (v := fill n b). assert (Lu : length u = n) by (apply fill_len; lia). assert (Lv : length v = n) by (apply fill_len; lia).
  assert (E : omapM (fun p => compatibility (fst p) (snd p)) (combine u v) = Some (map (fun p => Nat.max (fst p) (snd p)) (combine u v))).
  { assert (G : forall x y, In (x, y) (combine u v) -> compatibility x y = Some (Nat.max x y)).
    { intros x y I. apply (pairs_index _ _ n) in I as (i & Hi & <- & <-); auto. unfold u, v. rewrite !rdim_fill by lia. apply compat_some; auto. }
    clear -G. induction (combine u v) as [|[x y] l IH]; [reflexivity|]. cbn [omapM map fst snd]. rewrite G by (left; auto). cbn [obind].
    rewrite IH by (intros; apply G; right; auto). reflexivity. }
  rewrite E. eexists. split; [reflexivity|]. split; [rewrite map_length, combine_length; lia|].
  intros i. unfold rdim at 1. rewrite <- map_rev, <- combine_rev by lia. destruct (Nat.lt_ge_cases i n) as [Hi|Hi].
  - rewrite (nth_map_lt _ _ _ (1, 1)) by (rewrite combine_length, !rev_length; lia).
    rewrite combine_nth by (rewrite !rev_length; lia). cbn [fst snd]. unfold u, v. rewrite !rdim_fill by lia. reflexivity.
  - rewrite nth_overflow by (rewrite map_length, combine_length, !rev_length; lia). unfold rdim.
    rewrite !nth_overflow by (rewrite rev_length; lia). reflexivity.
Qed.
End Broadcast2.

(** *** Expansion *)
Section Expand.
Context {A : Type} (d : A).
Implicit Types t : ten A.

(** The index read: 0 on an expanded dimension. *)
Definition clamp (s idx : list nat) : list nat := map (fun p => if fst p =? 1 then 0 else snd p) (combine s idx).
Lemma clamp_cons a s i idx : clamp (a :: s) (i :: idx) = (if a =? 1 then 0 else i) :: clamp s idx. Proof. reflexivity. Qed.
Lemma clamp_app s s' i i' : length s = length i -> clamp (s ++ s') (i ++ i') = clamp s i ++ clamp s' i'.
Proof. revert i. induction s as [|a s IH]; intros [|x i] L; try discriminate; [reflexivity|]. cbn [app]. rewrite !clamp_cons, IH by (cbn in L; lia). reflexivity. Qed.

Lemma nth_flat_map_rep (cs : list (list A)) x E q j r : (forall c, In c cs -> length c = E) -> q < length cs -> j < x -> r < E ->
  nth (q * (x * E) + j * E + r) (flat_map (fun c => concat (repeat c x)) cs) d = nth r (nth q cs []) d.
Proof.
  intros L. assert (Lr : forall c, In c cs -> length (concat (repeat c x)) = x * E).
  { intros c Hc. rewrite <- (L c Hc). clear. induction x; cbn; auto. rewrite app_length, IHx. lia. }
  assert (Nr : forall c j, In c cs -> j < x -> r < E -> nth (j * E + r) (concat (repeat c x)) d = nth r c d).
  { intros c j' Hc. specialize (L c Hc). clear -L. revert j'. induction x as [|x IH]; intros j Hj Hr; [lia|]. cbn [repeat concat].
    destruct j as [|j]; [apply app_nth1; lia|]. rewrite app_nth2 by nia. rewrite <- (IH j) by lia. f_equal. nia. }
  intros Hq Hj Hr. revert q Hq. induction cs as [|c cs IH]; intros q Hq; [cbn in Hq; lia|]. cbn [flat_map]. destruct q as [|q].
  - rewrite app_nth1 by (rewrite Lr by (left; auto); nia). cbn [nth]. rewrite <- (Nr c j) by (auto; left; auto). f_equal.
  - rewrite app_nth2 by (rewrite Lr by (left; auto); nia). rewrite Lr by (left; auto). cbn [nth]. rewrite <- IH; try (intros; apply L || apply Lr || apply Nr; auto; right; auto; fail).
    + f_equal. nia.
    + cbn in Hq. lia.
Qed.
Lemma flat_map_rep_len (cs : list (list A)) x E : (forall c, In c cs -> length c = E) ->
  length (flat_map (fun c => concat (repeat c x)) cs) = length cs * (x * E).
Proof.
  induction cs as [|c cs IH]; intros L; [reflexivity|]. cbn [flat_map length]. rewrite app_length, IH by (intros; apply L; right; auto).
  assert (length (concat (repeat c x)) = x * E); [|lia]. rewrite <- (L c) by (left; auto). clear. induction x; cbn; auto. rewrite app_length, IHx. lia.
Qed.

Definition exp_inv (data0 : list A) (p1 p2 e2 : list nat) (st : list A * nat) : Prop :=
  snd st = sprod e2 /\ length (fst st) = sprod p1 * sprod e2 /\
  forall i1 i2, inb p1 i1 -> inb e2 i2 ->
    nth (flat p1 i1 * sprod e2 + flat e2 i2) (fst st) d = nth (flat p1 i1 * sprod p2 + flat p2 (clamp p2 i2)) data0 d.

Lemma inb_app s s' i i' : length i = length s -> inb (s ++ s') (i ++ i') <-> inb s i /\ inb s' i'.
Proof.
  revert i. induction s as [|a s IH]; intros [|x i] L; try discriminate; cbn [app].
  - split; [intros H; split; [constructor|auto]|tauto].
  - rewrite !inb_cons, IH by (cbn in L; lia). tauto.
Qed.

Lemma expand_step_ok data0 p1 c p2 x e2 st : expand_ok (x, c) = true -> Forall (lt 0) e2 ->
  exp_inv data0 (p1 ++ [c]) p2 e2 st -> exists st', expand_step st (x, c) = Some st' /\ exp_inv data0 p1 (c :: p2) (x :: e2) st'.
Proof.
  intros Ok Pe (H1 & H2 & H3). destruct st as [data cs]. cbn [fst snd] in *. unfold expand_step.
  assert (S1 : sprod (p1 ++ [c]) = sprod p1 * c) by (rewrite sprod_app; cbn; lia). rewrite S1 in *.
  assert (PE : 0 < sprod e2) by (apply sprod_pos; auto).
  assert (Fl : forall i1 j i2, inb p1 i1 -> flat (p1 ++ [c]) (i1 ++ [j]) * sprod e2 + i2 = flat p1 i1 * (c * sprod e2) + (j * sprod e2 + i2)).
  { intros i1 j i2 I. rewrite flat_app by (apply inb_len; auto). cbn [flat sprod fold_right]. nia. }
  unfold expand_ok in Ok. destruct (Nat.eqb_spec x 0) as [|Nx]; [discriminate|]. destruct (Nat.eqb_spec c x) as [Ecx|Ncx].
  - subst x. eexists. split; [reflexivity|]. unfold exp_inv. cbn [fst snd]. rewrite sprod_cons. split; [rewrite H1; lia|]. split; [rewrite H2; lia|].
    intros i1 i2 I1 I2. apply inb_inv in I2 as (j & i2' & -> & Hj & I2). rewrite flat_cons, <- Fl by auto.
    rewrite H3; [|apply inb_app; [apply inb_len; auto|split; [auto|apply inb_cons; split; [auto|constructor]]]|auto].
    rewrite flat_app by (apply inb_len; auto).
    assert (Fc : flat [c] [j] = j) by (cbn; lia). assert (Sc : sprod [c] = c) by (cbn; lia). rewrite Fc, Sc, clamp_cons, flat_cons, sprod_cons.
    assert (Ej : (if c =? 1 then 0 else j) = j) by (destruct (Nat.eqb_spec c 1); lia). rewrite Ej. f_equal. ring.
  - assert (Ec : c = 1) by (destruct (Nat.eqb_spec c 1); [auto|]; cbn in Ok; discriminate). subst c.
    unfold ochunks. rewrite H1. destruct (Nat.eqb_spec (sprod e2) 0); [lia|]. cbn [obind]. eexists. split; [reflexivity|].
    destruct (chunks_nth (sprod e2) (sprod p1 * 1) data PE H2) as [Lc Hc].
    assert (Lens : forall c, In c (chunks (sprod e2) data) -> length c = sprod e2).
    { intros c Hin. apply (In_nth_error) in Hin as [i Hi]. assert (Hi' : i < sprod p1 * 1) by (rewrite <- Lc; apply nth_error_Some; congruence).
      rewrite Hc in Hi by auto. injection Hi as <-. apply (chunk_len _ _ _ _ H2 Hi'). }
    unfold exp_inv. cbn [fst snd]. rewrite sprod_cons. split; [lia|]. split; [rewrite (flat_map_rep_len _ _ (sprod e2)), Lc by auto; lia|].
    intros i1 i2 I1 I2. apply inb_inv in I2 as (j & i2' & -> & Hj & I2). rewrite flat_cons, Nat.add_assoc.
    assert (B1 := flat_lt _ _ I1). assert (B2 := flat_lt _ _ I2).
    rewrite (nth_flat_map_rep _ _ (sprod e2)) by (auto; lia). rewrite (nth_error_nth _ _ _ (Hc (flat p1 i1) ltac:(lia))).
    rewrite nth_firstn_lt, nth_skipn by auto. specialize (H3 (i1 ++ [0]) i2').
    rewrite Fl in H3 by auto. rewrite clamp_cons, flat_cons, sprod_cons. cbn [Nat.eqb].
    replace (flat p1 i1 * sprod e2 + flat e2 i2') with (flat p1 i1 * (1 * sprod e2) + (0 * sprod e2 + flat e2 i2')) by lia.
    rewrite H3; [|apply inb_app; [apply inb_len; auto|split; [auto|apply inb_cons; split; [lia|constructor]]]|auto].
    f_equal. rewrite flat_app by (apply inb_len; auto). cbn [flat sprod fold_right]. nia.
Qed.

Lemma expand_fold data0 : forall e1 p1 e2 p2 st, length e1 = length p1 -> Forall (lt 0) (e1 ++ e2) ->
  forallb expand_ok (combine e1 p1) = true -> exp_inv data0 p1 p2 e2 st ->
  exists st', ofold expand_step (rev (combine e1 p1)) st = Some st' /\ exp_inv data0 [] (p1 ++ p2) (e1 ++ e2) st'.
Proof.
  intros e1. remember (length e1) as n eqn:Hn. revert e1 Hn. induction n as [|n IH]; intros e1 Hn p1 e2 p2 st L P F I.
  - destruct e1; [|discriminate]. destruct p1; [|discriminate]. exists st. split; [reflexivity|exact I].
  - destruct (rev_snoc_inv e1 n (eq_sym Hn)) as (e1' & x & -> & Le). destruct (rev_snoc_inv p1 n (eq_sym L)) as (p1' & c & -> & Lp).
    assert (Ec : combine (e1' ++ [x]) (p1' ++ [c]) = combine e1' p1' ++ [(x, c)]).
    { assert (G : forall (u v : list nat) x y, length u = length v -> combine (u ++ [x]) (v ++ [y]) = combine u v ++ [(x, y)]).
      { clear. induction u as [|p u IH]; intros [|q v] x y H; try discriminate; [reflexivity|]. cbn. f_equal. apply IH. cbn in H; lia. }
      apply G; lia. }
    rewrite Ec in *. rewrite forallb_app in F. apply andb_true_iff in F as [F1 F2]. cbn [forallb] in F2. rewrite andb_true_r in F2.
    rewrite rev_app_distr. cbn [rev app ofold]. rewrite <- app_assoc in P. cbn [app] in P.
    destruct (expand_step_ok data0 p1' c p2 x e2 st F2) as (st1 & E1 & I1); [apply Forall_app in P as [_ P]; inversion P; auto|auto|].
    rewrite E1. cbn [obind]. destruct (IH e1' ltac:(lia) p1' (x :: e2) (c :: p2) st1) as (st2 & E2 & I2); auto.
    exists st2. split; [exact E2|]. rewrite <- !app_assoc. exact I2.
Qed.

Lemma expand_ok_pos (es ps : list nat) : length es = length ps -> forallb expand_ok (combine es ps) = true -> Forall (lt 0) es.
Proof.
  revert ps. induction es as [|x es IH]; intros [|c ps] L F; try discriminate; constructor.
  - cbn in F. apply andb_true_iff in F as [F _]. destruct (Nat.eqb_spec x 0); [discriminate|lia].
  - cbn [combine forallb] in F. apply andb_true_iff in F as [_ F]. apply (IH ps); auto; cbn in L; lia.
Qed.

(** A shape expands into [es]: no fewer dimensions; aligned on the right each one is equal or 1; no zero. *)
Definition expands (s es : list nat) : Prop :=
  length s <= length es /\ Forall (lt 0) es /\ forall i, i < length es -> rdim s i = rdim es i \/ rdim s i = 1.

Lemma expands_fill s es : length s <= length es ->
  forallb expand_ok (combine es (repeat 1 (length es - length s) ++ s)) = true <->
  (Forall (lt 0) es /\ forall i, i < length es -> rdim s i = rdim es i \/ rdim s i = 1).
Proof.
  intros L. fold (fill (length es) s). assert (Lf := fill_len (length es) s L). split.
  - intros F. split; [eapply expand_ok_pos; [|exact F]; auto|]. intros i Hi. rewrite forallb_forall in F.
    assert (I : In (rdim es i, rdim s i) (combine es (fill (length es) s))).
    { apply (pairs_index _ _ (length es)); auto. exists i. rewrite rdim_fill by auto. auto. }
    specialize (F _ I). unfold expand_ok in F. destruct (rdim es i =? 0); [discriminate|]. destruct (Nat.eqb_spec (rdim s i) 1); [auto|].
    cbn in F. apply Nat.eqb_eq in F. auto.
  - intros [P H]. apply forallb_forall. intros [x c] I. assert (Hx : 0 < x). { apply in_combine_l in I. rewrite Forall_forall in P. auto. }
    apply (pairs_index _ _ (length es)) in I as (i & Hi & E1 & E2); auto. rewrite rdim_fill in E2 by auto. fold (rdim es i) in E1.
    specialize (H i Hi). rewrite E1, E2 in H. unfold expand_ok. destruct (Nat.eqb_spec x 0); [lia|].
    destruct (Nat.eqb_spec c 1); [reflexivity|]. cbn. apply Nat.eqb_eq. lia.
Qed.

Theorem expand_correct t es : wft t -> expands (sh t) es ->
  exists t', expand t es = Some t' /\ sh t' = es /\ wft t' /\
    forall idx, inb es idx -> entry d t' idx = entry d t (clamp (sh t) (skipn (length es - length (sh t)) idx)).
Proof.
  intros W (L & P & H). unfold expand. rewrite (proj2 (Nat.ltb_ge _ _)) by lia.
  assert (F := proj2 (expands_fill (sh t) es L) (conj P H)). rewrite F. fold (fill (length es) (sh t)) in *.
  set (ps := fill (length es) (sh t)) in *. assert (Lp : length ps = length es) by (apply fill_len; auto).
  assert (Sp : sprod ps = sprod (sh t)).
  { unfold ps, fill. rewrite sprod_app. assert (sprod (repeat 1 (length es - length (sh t))) = 1); [|lia].
    clear. induction (length es - length (sh t)); cbn; auto. rewrite Nat.add_0_r. exact IHn. }
  destruct (expand_fold (dat t) es ps [] [] (dat t, 1)) as (st & E & I).
  - auto. - rewrite app_nil_r; auto. - auto.
  - split; [reflexivity|]. cbn [fst snd]. split; [rewrite W; change (sprod (sh t) = sprod ps * 1); lia|].
    intros i1 i2 I1 I2. apply inb_nil_inv in I2. subst i2. reflexivity.
  - rewrite E. cbn [obind]. destruct I as (I1 & I2 & I3). rewrite !app_nil_r in *. cbn [sprod fold_right] in I2. rewrite Nat.mul_1_l in I2.
    unfold tensor_new. change (fold_right Nat.mul 1 es) with (sprod es) in I2. rewrite I2, Nat.eqb_refl. eexists. split; [reflexivity|]. split; [reflexivity|]. split; [exact I2|].
    intros idx Ix. specialize (I3 [] idx ltac:(constructor) Ix). cbn [flat] in I3. rewrite !Nat.mul_0_l, !Nat.add_0_l in I3.
    unfold entry at 1. cbn [sh dat]. rewrite I3. unfold entry. f_equal.
    assert (Ei : idx = firstn (length es - length (sh t)) idx ++ skipn (length es - length (sh t)) idx) by (symmetry; apply firstn_skipn).
    assert (Lf : length (firstn (length es - length (sh t)) idx) = length es - length (sh t)) by (rewrite firstn_length, (inb_len _ _ Ix); lia).
    rewrite Ei at 1. unfold ps, fill. rewrite clamp_app by (rewrite repeat_length; auto).
    rewrite flat_app. 2:{ unfold clamp. rewrite map_length, combine_length, repeat_length. lia. }
    assert (Z : forall n l, length l = n -> flat (repeat 1 n) (clamp (repeat 1 n) l) = 0).
    { clear. induction n as [|n IH]; intros [|x l] Ll; try discriminate; [reflexivity|]. cbn [repeat]. rewrite clamp_cons, flat_cons, IH by (cbn in Ll; lia). reflexivity. }
    rewrite Z by auto. lia.
Qed.
Theorem expand_rejects t es : ~ expands (sh t) es -> expand t es = None.
Proof.
  intros N. unfold expand. destruct (Nat.ltb_spec (length es) (length (sh t))) as [H|H]; [reflexivity|].
  destruct (forallb _ _) eqn:F; [|reflexivity]. exfalso. apply N. split; [auto|]. apply expands_fill; auto.
Qed.
End Expand.

(** The strides send the multi-indices of a shape one-to-one onto the positions of its data. *)
Theorem strides_bijection (s : list nat) :
  (forall idx, inb s idx -> dot idx (strides s) < fold_right Nat.mul 1 s) /\
  (forall i j, inb s i -> inb s j -> dot i (strides s) = dot j (strides s) -> i = j) /\
  (forall o, o < fold_right Nat.mul 1 s -> exists idx, inb s idx /\ dot idx (strides s) = o).
Proof.
  split; [|split].
  - intros idx I. rewrite strides_flat by (apply inb_len; auto). apply flat_lt; auto.
  - intros i j Hi Hj. rewrite !strides_flat by (apply inb_len; auto). apply flat_inj; auto.
  - intros o Ho. exists (unflat s o). assert (I : inb s (unflat s o)) by (apply unflat_inb; exact Ho). split; auto.
    rewrite strides_flat by (apply inb_len; auto). apply flat_unflat; exact Ho.
Qed.
