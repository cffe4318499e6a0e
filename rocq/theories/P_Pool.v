(** Max pooling: the window maxima, the declared shape, and the difference columns. *)
From Coq Require Import List Arith Lia Bool ZArith.
From Verif Require Import ListAux FieldDef M_Mle P_Eq M_Tensor P_Tensor P_Tensor2 P_Tensor3 P_Tensor4 M_Pool.
Import ListNotations.

(** [m] is the maximum of the values [v a b] for [a, b < k]. *)
Definition is_max2 (k : nat) (v : nat -> nat -> Z) (m : Z) : Prop :=
  (forall a b, a < k -> b < k -> (v a b <= m)%Z) /\ exists a b, a < k /\ b < k /\ v a b = m.

Lemma cmp_max_max a b : cmp_max a b = Z.max a b.
Proof. unfold cmp_max. destruct (Z.compare_spec a b); lia. Qed.
Lemma fold_max (l : list Z) : forall m0, exists m, fold_left cmp_max l m0 = m /\ (m0 <= m)%Z /\ (forall x, In x l -> (x <= m)%Z) /\ (m = m0 \/ In m l).
Proof.
  induction l as [|x l IH]; intros m0; cbn [fold_left].
  - exists m0. split; [auto|]. split; [lia|]. split; [intros ? []|auto].
  - destruct (IH (cmp_max m0 x)) as (m & E & H1 & H2 & H3). rewrite cmp_max_max in H1, H3. exists m. split; [exact E|]. split; [lia|]. split.
    + intros y [<-|Hy]; [lia|auto].
    + destruct H3 as [H3|H3]; [|right; right; auto]. destruct (Z.max_spec m0 x) as [[_ Q]|[_ Q]]; [right; left; lia|left; lia].
Qed.
Lemma ofold_fold {S P} (f : S -> P -> option S) (g : S -> P -> S) l : (forall p s, In p l -> f s p = Some (g s p)) ->
  forall s, ofold f l s = Some (fold_left g l s).
Proof. induction l as [|p l IH]; intros H s; [reflexivity|]. cbn [ofold fold_left]. rewrite H by (left; auto). cbn [obind]. apply IH. intros; apply H; right; auto. Qed.
Lemma fold_left_map' {S P Q} (g : S -> Q -> S) (h : P -> Q) l : forall s, fold_left (fun s p => g s (h p)) l s = fold_left g (map h l) s.
Proof. induction l as [|p l IH]; intros s; [reflexivity|]. cbn. apply IH. Qed.

Section Maxpool.
Implicit Types t o : ten Z.

Lemma out_bound h k s i a : 0 < s -> k <= h -> i < (h - k) / s + 1 -> a < k -> i * s + a < h.
Proof. intros Hs Hk Hi Ha. assert (i * s <= (h - k) / s * s) by (apply Nat.mul_le_mono_r; lia). assert (Q := Nat.mul_div_le (h - k) s). rewrite (Nat.mul_comm s) in Q. lia. Qed.
Lemma nth_app2 {B} (pre : list B) l i d : nth (length pre + i) (pre ++ l) d = nth i l d.
Proof. rewrite app_nth2 by lia. f_equal. lia. Qed.
Lemma upd_app2 {B} (pre : list B) l i x : upd (length pre + i) x (pre ++ l) = pre ++ upd i x l.
Proof. induction pre; cbn; auto. rewrite IHpre. reflexivity. Qed.

Theorem maxpool2d_ok t pre h w k s : wft t -> sh t = pre ++ [h; w] -> 0 < k -> 0 < s -> k <= h -> k <= w ->
  exists o, maxpool2d t k s = Some o /\ sh o = pre ++ [(h - k) / s + 1; (w - k) / s + 1] /\ wft o /\
    forall ip i j, inb pre ip -> i < (h - k) / s + 1 -> j < (w - k) / s + 1 ->
      is_max2 k (fun a b => entry 0%Z t (ip ++ [i * s + a; j * s + b])) (entry 0%Z o (ip ++ [i; j])).
Proof.
  intros W E Hk Hs Hh Hw. unfold maxpool2d, csub. rewrite E. rewrite app_length. cbn [length].
  rewrite (proj2 (Nat.leb_le 2 _)) by lia. cbn [obind]. replace (length pre + 2 - 2) with (length pre + 0) by lia.
  rewrite nth_app2. replace (length pre + 0 + 1) with (length pre + 1) by lia. rewrite nth_app2. cbn [nth].
  rewrite (proj2 (Nat.leb_le k h)), (proj2 (Nat.leb_le k w)) by lia. cbn [obind]. destruct (Nat.eqb_spec s 0); [lia|].
  set (oh := (h - k) / s + 1). set (ow := (w - k) / s + 1). replace (length pre + 0) with (length pre) by lia.
  rewrite firstn_app, Nat.sub_diag, firstn_all. cbn [firstn]. rewrite app_nil_r.
  assert (Ld : length (dat t) = sprod pre * (h * w)). { unfold wft in W. rewrite W, E. change (sprod (pre ++ [h; w]) = sprod pre * (h * w)). rewrite sprod_app. cbn. nia. }
  assert (Bd : forall n i j a b, n < sprod pre -> i < oh -> j < ow -> a < k -> b < k -> n * (h * w) + (i * s + a) * w + (j * s + b) < length (dat t)).
  { intros n' i j a b Hn Hi Hj Ha Hb. assert (B1 := out_bound h k s i a Hs Hh Hi Ha). assert (B2 := out_bound w k s j b Hs Hw Hj Hb). rewrite Ld.
    assert ((i * s + a + 1) * w <= h * w) by (apply Nat.mul_le_mono_r; lia). assert ((n' + 1) * (h * w) <= sprod pre * (h * w)) by (apply Nat.mul_le_mono_r; lia). lia. }
  set (F := fun n i j => fold_left cmp_max (map (fun p : nat * nat => nth (n * (h * w) + (i * s + fst p) * w + (j * s + snd p)) (dat t) 0%Z)
                            (list_prod (seq 0 k) (seq 0 k))) (nth (n * (h * w) + i * s * w + j * s) (dat t) 0%Z)).
  rewrite (omapM_range _ (fun idx => F (idx / (oh * ow)) ((idx / ow) mod oh) (idx mod ow))).
  2:{ intros idx Hi. cbv zeta. assert (Hoh : 0 < oh) by (unfold oh; lia). assert (How : 0 < ow) by (unfold ow; lia).
      set (n' := idx / (oh * ow)). set (i := (idx / ow) mod oh). set (j := idx mod ow).
      assert (Hn : n' < sprod pre) by (apply Nat.div_lt_upper_bound; nia).
      assert (Hi' : i < oh) by (apply Nat.mod_upper_bound; lia). assert (Hj : j < ow) by (apply Nat.mod_upper_bound; lia).
      rewrite (nth_error_some 0%Z). 2:{ specialize (Bd n' i j 0 0 Hn Hi' Hj Hk Hk). rewrite !Nat.add_0_r in Bd. exact Bd. }
      cbn [obind]. unfold F. rewrite <- fold_left_map'. apply ofold_fold. intros [a b] m Hin. apply in_prod_iff in Hin as [Ha Hb].
      apply in_seq in Ha, Hb. cbn [fst snd]. rewrite (nth_error_some 0%Z) by (apply Bd; auto; lia). reflexivity. }
  cbn [obind]. assert (U0 : upd (length pre) oh (pre ++ [h; w]) = pre ++ [oh; w]) by (rewrite <- (Nat.add_0_r (length pre)) at 1; rewrite upd_app2; reflexivity).
  rewrite U0, upd_app2. cbn [upd].
  eexists. split; [reflexivity|]. split; [reflexivity|]. split.
  - unfold wft. cbn [sh dat]. rewrite map_length, seq_length. change (sprod pre * oh * ow = sprod (pre ++ [oh; ow])). rewrite sprod_app. cbn. nia.
  - intros ip i j I Hi Hj. assert (B := flat_lt _ _ I). unfold entry at 2. cbn [sh dat].
    rewrite (flat_app pre ip [oh; ow]) by (apply inb_len; auto). rewrite flat2. assert (Sp : sprod [oh; ow] = oh * ow) by (cbn; lia). rewrite Sp.
    fold oh in Hi. fold ow in Hj.
    rewrite (nth_map_lt _ _ _ 0) by (rewrite seq_length; nia). rewrite seq_nth by nia. rewrite Nat.add_0_l.
    assert (E1 : (flat pre ip * (oh * ow) + (i * ow + j)) / (oh * ow) = flat pre ip).
    { rewrite Nat.div_add_l by nia. rewrite Nat.div_small by nia. lia. }
    assert (E2 : ((flat pre ip * (oh * ow) + (i * ow + j)) / ow) mod oh = i).
    { replace (flat pre ip * (oh * ow) + (i * ow + j)) with ((flat pre ip * oh + i) * ow + j) by ring.
      rewrite Nat.div_add_l, Nat.div_small by lia. rewrite Nat.add_0_r, Nat.add_comm, Nat.mod_add, Nat.mod_small by lia. reflexivity. }
    assert (E3 : (flat pre ip * (oh * ow) + (i * ow + j)) mod ow = j).
    { replace (flat pre ip * (oh * ow) + (i * ow + j)) with (j + (flat pre ip * oh + i) * ow) by ring. rewrite Nat.mod_add, Nat.mod_small by lia. reflexivity. }
    rewrite E1, E2, E3. unfold F. clear E1 E2 E3.
    assert (V : forall a b, entry 0%Z t (ip ++ [i * s + a; j * s + b]) = nth (flat pre ip * (h * w) + (i * s + a) * w + (j * s + b)) (dat t) 0%Z).
    { intros a b. unfold entry. rewrite E, (flat_app pre ip [h; w]) by (apply inb_len; auto). rewrite flat2. f_equal. cbn. lia. }
    set (L := map _ (list_prod _ _)). destruct (fold_max L (nth (flat pre ip * (h * w) + i * s * w + j * s) (dat t) 0%Z)) as (m & Em & H1 & H2 & H3).
    rewrite Em. assert (HL : forall a b, a < k -> b < k -> In (entry 0%Z t (ip ++ [i * s + a; j * s + b])) L).
    { intros a b Ha Hb. rewrite V. unfold L. apply (in_map (fun p : nat * nat => nth (flat pre ip * (h * w) + (i * s + fst p) * w + (j * s + snd p)) (dat t) 0%Z) _ (a, b)).
      apply in_prod_iff. rewrite !in_seq. lia. }
    split; [intros a b Ha Hb; apply H2; auto|].
    destruct H3 as [H3|H3].
    + exists 0, 0. split; [auto|]. split; [auto|]. rewrite V, H3, !Nat.add_0_r. reflexivity.
    + unfold L in H3. apply in_map_iff in H3 as ([a b] & H3 & Hin). apply in_prod_iff in Hin as [Ha Hb]. apply in_seq in Ha, Hb.
      exists a, b. rewrite V. cbn [fst snd] in H3. repeat split; auto; lia.
Qed.

(** Inputs smaller than the kernel, and a zero stride, are rejected. *)
Theorem maxpool2d_rejects t pre h w k s : sh t = pre ++ [h; w] -> h < k \/ w < k \/ s = 0 -> maxpool2d t k s = None.
Proof.
  intros E H. unfold maxpool2d, csub. rewrite E. rewrite app_length. cbn [length].
  rewrite (proj2 (Nat.leb_le 2 _)) by lia. cbn [obind]. replace (length pre + 2 - 2) with (length pre + 0) by lia.
  rewrite nth_app2. replace (length pre + 0 + 1) with (length pre + 1) by lia. rewrite nth_app2. cbn [nth].
  destruct (Nat.leb_spec k h); cbn [obind]; [|reflexivity]. destruct (Nat.leb_spec k w); cbn [obind]; [|reflexivity].
  destruct (Nat.eqb_spec s 0); [reflexivity|]. lia.
Qed.

(** The declared output shape. *)
Lemma half_sub h : 2 <= h -> (h - 2) / 2 + 1 = h / 2.
Proof. intros H. replace h with ((h - 2) + 1 * 2) at 2 by lia. rewrite Nat.div_add by lia. reflexivity. Qed.
Theorem declared_shape_ok t c h : wft t -> sh t = [c; h; h] -> 2 <= h ->
  exists o, maxpool2d t 2 2 = Some o /\ maxpool2d_shape (sh t) = Some (sh o) /\ sh o = [c; h / 2; h / 2].
Proof.
  intros W E H. destruct (maxpool2d_ok t [c] h h 2 2 W E) as (o & Eo & So & _); try lia. exists o. split; [auto|].
  rewrite So. cbn [app]. rewrite half_sub by auto. split; [|reflexivity].
  unfold maxpool2d_shape, csub. rewrite E. cbn [nth_error obind]. rewrite (proj2 (Nat.leb_le _ _)) by lia. cbn [obind].
  rewrite (proj2 (Nat.leb_le _ _)) by lia. cbn [obind]. replace (h + 2 * 0 - 1 * (2 - 1) - 1) with (h - 2) by lia. rewrite half_sub by auto. reflexivity.
Qed.
Theorem declared_shape_wrong t c h w : wft t -> sh t = [c; h; w] -> 2 <= h -> 2 <= w -> h / 2 <> w / 2 ->
  exists o s, maxpool2d t 2 2 = Some o /\ maxpool2d_shape (sh t) = Some s /\ s <> sh o.
Proof.
  intros W E Hh Hw N. destruct (maxpool2d_ok t [c] h w 2 2 W E) as (o & Eo & So & _); try lia. exists o, [c; h / 2; h / 2]. split; [auto|].
  rewrite So. cbn [app]. rewrite !half_sub by auto. split; [|congruence].
  unfold maxpool2d_shape, csub. rewrite E. cbn [nth_error obind]. rewrite (proj2 (Nat.leb_le _ _)) by lia. cbn [obind].
  rewrite (proj2 (Nat.leb_le _ _)) by lia. cbn [obind]. replace (h + 2 * 0 - 1 * (2 - 1) - 1) with (h - 2) by lia. rewrite half_sub by auto. reflexivity.
Qed.
End Maxpool.

(** *** The difference columns *)
Section Polys.

Lemma list_of_nth {A} (d : A) (l : list A) n (f : nat -> A) : (forall i, nth_error l i = if i <? n then Some (f i) else None) -> l = map f (seq 0 n).
Proof.
  intros H. assert (L : length l = n).
  { destruct (Nat.lt_trichotomy (length l) n) as [Q|[Q|Q]]; auto.
    - specialize (H (length l)). rewrite (proj2 (nth_error_None l (length l))) in H by lia. rewrite (proj2 (Nat.ltb_lt _ _)) in H by auto. discriminate.
    - specialize (H n). rewrite Nat.ltb_irrefl in H. apply nth_error_None in H. lia. }
  apply (nth_ext _ _ d d); [rewrite map_length, seq_length; auto|]. intros i Hi. rewrite (nth_map_lt _ _ _ 0) by (rewrite seq_length; lia).
  rewrite seq_nth by lia. specialize (H i). rewrite (proj2 (Nat.ltb_lt _ _)) in H by lia. cbn. exact (nth_error_nth _ _ _ H).
Qed.
Lemma chunks_cons {A} n (x : A) l : 0 < n -> chunks n (x :: l) = firstn n (x :: l) :: chunks n (skipn n (x :: l)).
Proof.
  intros Hn. unfold chunks. cbn [length chunks_fuel]. f_equal.
  assert (G : forall f f' (l : list A), length l <= f -> length l <= f' -> chunks_fuel f n l = chunks_fuel f' n l).
  { clear -Hn. induction f as [|f IH]; intros [|f'] [|x l] H H'; try reflexivity; cbn [length] in *; try lia. cbn [chunks_fuel]. f_equal.
    apply IH; rewrite skipn_length; cbn [length]; lia. }
  apply G; rewrite skipn_length; cbn [length]; lia.
Qed.
Lemma step_by_nth {A} n : 0 < n -> forall r (l : list A), nth_error (step_by n l) r = nth_error l (r * n).
Proof.
  intros Hn. induction r as [|r IH]; intros [|x l].
  - reflexivity.
  - unfold step_by. rewrite chunks_cons by auto. destruct n; [lia|]. reflexivity.
  - destruct (S r * n); reflexivity.
  - unfold step_by. rewrite chunks_cons by auto. cbn [flat_map]. fold (step_by n (skipn n (x :: l))).
    assert (E : firstn n (x :: l) = x :: firstn (n - 1) l) by (destruct n; [lia|]; cbn [firstn Nat.sub]; rewrite ?Nat.sub_0_r; reflexivity).
    rewrite E. cbn [app nth_error]. fold (nth_error (skipn n (x :: l))). rewrite IH.
    assert (G : forall n m (l : list A), nth_error (skipn n l) m = nth_error l (n + m)).
    { clear. induction n; intros m [|x l]; cbn; auto. destruct m; reflexivity. }
    rewrite G. f_equal.
Qed.
Lemma nth_error_map_seq {A} (f : nat -> A) n i : nth_error (map f (seq 0 n)) i = if i <? n then Some (f i) else None.
Proof.
  destruct (Nat.ltb_spec i n) as [H|H].
  - rewrite nth_error_map. rewrite (nth_error_nth' _ 0) by (rewrite seq_length; auto). rewrite seq_nth by auto. reflexivity.
  - apply nth_error_None. rewrite map_length, seq_length. auto.
Qed.
Lemma nth_error_skipn {A} : forall n m (l : list A), nth_error (skipn n l) m = nth_error l (n + m).
Proof. induction n; intros m [|x l]; cbn; auto. destruct m; reflexivity. Qed.

Lemma map_seq_ext {A} (f g : nat -> A) n : (forall i, i < n -> f i = g i) -> map f (seq 0 n) = map g (seq 0 n).
Proof. intros H. apply map_ext_in. intros i Hi. apply in_seq in Hi. apply H. lia. Qed.
Lemma skipn_map_seq {A} (f : nat -> A) a n : skipn a (map f (seq 0 n)) = map (fun i => f (a + i)) (seq 0 (n - a)).
Proof.
  destruct (Nat.le_gt_cases n a) as [H|H].
  - rewrite skipn_all2 by (rewrite map_length, seq_length; auto). replace (n - a) with 0 by lia. reflexivity.
  - destruct n as [|n]; [lia|]. apply (list_of_nth (f 0)). intros i. rewrite nth_error_skipn, nth_error_map_seq.
    destruct (Nat.ltb_spec (a + i) (S n)), (Nat.ltb_spec i (S n - a)); auto; lia.
Qed.
Lemma firstn_map_seq {A} (f : nat -> A) a n : a <= n -> firstn a (map f (seq 0 n)) = map f (seq 0 a).
Proof. intros H. replace n with (a + (n - a)) by lia. rewrite seq_app, map_app, firstn_app, map_length, seq_length, Nat.sub_diag. cbn [firstn]. rewrite app_nil_r. apply firstn_all2. rewrite map_length, seq_length. lia. Qed.
Lemma step_by_map_seq {A} (f : nat -> A) k n : 0 < k -> step_by k (map f (seq 0 (n * k))) = map (fun i => f (i * k)) (seq 0 n).
Proof.
  intros Hk. destruct n as [|n]; [reflexivity|]. apply (list_of_nth (f 0)). intros i. rewrite step_by_nth, nth_error_map_seq by auto.
  destruct (Nat.ltb_spec (i * k) (S n * k)), (Nat.ltb_spec i (S n)); auto; nia.
Qed.
Lemma step_by_skip (l : list Z) k R i : 0 < k -> length l = R * k -> i < k ->
  step_by k (skipn i l) = map (fun r => nth (i + r * k) l 0%Z) (seq 0 R).
Proof.
  intros Hk L Hi. apply (list_of_nth 0%Z). intros r. rewrite step_by_nth, nth_error_skipn by auto.
  destruct (Nat.ltb_spec r R).
  - apply nth_error_some. rewrite L. nia.
  - apply nth_error_None. rewrite L. nia.
Qed.
Lemma interleave_nth {A} : forall (l h : list A), length l = length h -> forall q,
  nth_error (interleave l h) q = nth_error (if Nat.even q then l else h) (q / 2).
Proof.
  induction l as [|x l IH]; intros [|y h] L q; try discriminate.
  - cbn. destruct (Nat.even q); destruct q; cbn; auto; destruct (_ / 2) || idtac; auto; destruct (fst _); reflexivity.
  - destruct q as [|[|q]]; [reflexivity|reflexivity|]. cbn [interleave nth_error]. rewrite IH by (cbn in L; lia).
    change (Nat.even (S (S q))) with (Nat.even q). replace (S (S q)) with (q + 1 * 2) by lia. rewrite Nat.div_add by lia.
    rewrite Nat.add_1_r. destruct (Nat.even q); reflexivity.
Qed.
Lemma interleave_map_seq (a b : nat -> Z) R : interleave (map a (seq 0 R)) (map b (seq 0 R)) =
  map (fun q => if Nat.even q then a (q / 2) else b (q / 2)) (seq 0 (2 * R)).
Proof.
  apply (list_of_nth 0%Z). intros q. rewrite interleave_nth by (rewrite !map_length; auto).
  assert (Q := Nat.div_mod q 2 ltac:(lia)). assert (M : q mod 2 < 2) by (apply Nat.mod_upper_bound; lia).
  destruct (Nat.even q) eqn:Ev; rewrite nth_error_map_seq; destruct (Nat.ltb_spec (q / 2) R), (Nat.ltb_spec q (2 * R)); auto; lia.
Qed.
Lemma even_mod q : Nat.even q = (q mod 2 =? 0).
Proof.
  destruct (Nat.even q) eqn:E; symmetry.
  - apply Nat.eqb_eq. apply Nat.even_spec in E as [k ->]. rewrite Nat.mul_comm. apply Nat.mod_mul. lia.
  - apply Nat.eqb_neq. intros H. assert (Nat.even q = true); [|congruence]. apply Nat.even_spec. exists (q / 2). assert (Q := Nat.div_mod q 2 ltac:(lia)). lia.
Qed.

Lemma merge_ok : forall m R (g : nat -> nat -> Z),
  ofold merge_pass (rev (seq 0 m)) (map (fun c => map (g c) (seq 0 R)) (seq 0 (2 ^ m))) =
  Some [map (fun q => g (q mod 2 ^ m) (q / 2 ^ m)) (seq 0 (R * 2 ^ m))].
Proof.
  induction m as [|m IH]; intros R g.
  - cbn [seq rev ofold Nat.pow map]. rewrite Nat.mul_1_r. apply (f_equal (fun l => Some [l])). apply map_seq_ext. intros q _. rewrite Nat.mod_1_r, Nat.div_1_r. reflexivity.
  - rewrite seq_S. rewrite rev_app_distr. cbn [rev app Nat.add ofold]. unfold merge_pass at 1. rewrite map_length, seq_length.
    assert (P : 0 < 2 ^ m) by apply pow2_pos. assert (Ep : 2 ^ S m = 2 ^ m + 2 ^ m) by (cbn; lia). rewrite Ep.
    rewrite (proj2 (Nat.leb_le _ _)) by lia. cbn [obind]. rewrite firstn_map_seq, skipn_map_seq by lia.
    replace (2 ^ m + 2 ^ m - 2 ^ m) with (2 ^ m) by lia.
    assert (Ec : map (fun p => interleave (fst p) (snd p))
        (combine (map (fun c => map (g c) (seq 0 R)) (seq 0 (2 ^ m))) (map (fun i => map (g (2 ^ m + i)) (seq 0 R)) (seq 0 (2 ^ m))))
      = map (fun c => map (fun q => if Nat.even q then g c (q / 2) else g (2 ^ m + c) (q / 2)) (seq 0 (2 * R))) (seq 0 (2 ^ m))).
    { generalize (seq 0 (2 ^ m)). induction l as [|c l IHl]; [reflexivity|]. cbn [map combine fst snd]. rewrite interleave_map_seq, IHl. reflexivity. }
    rewrite Ec, IH. apply (f_equal (fun l => Some [l])). replace (2 * R * 2 ^ m) with (R * (2 ^ m + 2 ^ m)) by ring. apply map_seq_ext. intros q Hq.
    rewrite even_mod. rewrite Nat.div_div by lia. replace (2 ^ m * 2) with (2 ^ m + 2 ^ m) by lia.
    assert (Q := Nat.mod_mul_r q (2 ^ m) 2 ltac:(lia) ltac:(lia)). replace (2 ^ m * 2) with (2 ^ m + 2 ^ m) in Q by lia. rewrite Q.
    assert (M : (q / 2 ^ m) mod 2 < 2) by (apply Nat.mod_upper_bound; lia).
    destruct (Nat.eqb_spec ((q / 2 ^ m) mod 2) 0) as [Z|Z].
    + rewrite Z, Nat.mul_0_r, Nat.add_0_r. reflexivity.
    + replace ((q / 2 ^ m) mod 2) with 1 by lia. rewrite Nat.mul_1_r, (Nat.add_comm (2 ^ m)). reflexivity.
Qed.

Lemma chunks_two {A} c (a b : list A) : 0 < c -> length a = c -> length b = c -> chunks c (a ++ b) = [a; b].
Proof.
  intros Hc La Lb. destruct a as [|x a]; [cbn in La; lia|]. destruct b as [|y b]; [cbn in Lb; lia|].
  assert (E : (x :: a) ++ (y :: b) = x :: (a ++ y :: b)) by reflexivity. rewrite E, chunks_cons, <- E by auto.
  rewrite firstn_app, skipn_app, La, Nat.sub_diag. cbn [firstn skipn app]. rewrite app_nil_r.
  rewrite firstn_all2, skipn_all2 by lia. cbn [app]. rewrite chunks_cons by auto. rewrite firstn_all2, skipn_all2 by lia. reflexivity.
Qed.

Lemma npow2_double k : 0 < k -> npow2 (2 * k) = 2 * npow2 k.
Proof. intros H. unfold npow2. destruct (Nat.eq_dec k 1) as [->|N]; [reflexivity|]. rewrite Nat.log2_up_double by lia. reflexivity. Qed.

(** One pair of chunks. *)
Lemma chunk_diffs_ok m R (ge go : nat -> nat -> Z) out : length out = R * 2 ^ m ->
  chunk_diffs (2 * 2 ^ m) out (map (fun c => map (ge c) (seq 0 R)) (seq 0 (2 ^ m)), map (fun c => map (go c) (seq 0 R)) (seq 0 (2 ^ m))) =
  Some (map (fun q => (nth q out 0 - ge (q mod 2 ^ m)%nat (q / 2 ^ m)%nat)%Z) (seq 0 (R * 2 ^ m)),
        map (fun q => (nth q out 0 - go (q mod 2 ^ m)%nat (q / 2 ^ m)%nat)%Z) (seq 0 (R * 2 ^ m))).
Proof.
  intros L. unfold chunk_diffs. replace (2 * 2 ^ m) with (2 ^ S m) by reflexivity. rewrite ceil_log2_pow2. cbn [obind]. unfold csub.
  rewrite (proj2 (Nat.leb_le _ _)) by lia. cbn [obind fst snd]. replace (S m - 1) with m by lia. rewrite !merge_ok. cbn [obind nth_error].
  f_equal.
  assert (Eo : out = map (fun q => nth q out 0%Z) (seq 0 (R * 2 ^ m))).
  { apply (nth_ext _ _ 0%Z 0%Z); [rewrite map_length, seq_length; auto|]. intros i Hi. rewrite (nth_map_lt _ _ _ 0) by (rewrite seq_length; lia). rewrite seq_nth by lia. reflexivity. }
  rewrite Eo at 1. set (n := R * 2 ^ m). clearbody n. generalize (seq 0 n). induction l as [|q l IHl]; [reflexivity|].
  cbn [map combine List.split]. rewrite IHl. reflexivity.
Qed.

Theorem compute_polys_ok t c h w : wft t -> sh t = [c; 2 * h; 2 * w] -> 0 < c -> 0 < h -> 0 < w ->
  exists inp o out polys,
    pad_next_power_of_two 0%Z t = Some inp /\ maxpool2d t 2 2 = Some o /\ pad_next_power_of_two 0%Z o = Some out /\
    sh inp = [npow2 c; 2 * npow2 h; 2 * npow2 w] /\ sh out = [npow2 c; npow2 h; npow2 w] /\
    compute_polys 2 2 t = Some polys /\ length polys = 4 /\
    (forall k, k < 4 -> length (nth k polys []) = npow2 c * npow2 h * npow2 w) /\
    (forall a b z i j, a < 2 -> b < 2 -> z < npow2 c -> i < npow2 h -> j < npow2 w ->
      nth (flat [npow2 c; npow2 h; npow2 w] [z; i; j]) (nth (2 * b + a) polys []) 0%Z =
      (entry 0 out [z; i; j] - entry 0 inp [z; 2 * i + a; 2 * j + b]%nat)%Z).
Proof.
  intros W E Hc Hh Hw.
  assert (P : Forall (lt 0) (sh t)) by (rewrite E; repeat constructor; lia).
  destruct (generic_pad_ok 0%Z t W) as (inp & Ei & Si & Wi & Hi); [rewrite E; discriminate|auto|].
  destruct (maxpool2d_ok t [c] (2 * h) (2 * w) 2 2 W E) as (o & Eo & So & Wo & Ho); try lia.
  rewrite !half_sub in So by lia. rewrite !(Nat.mul_comm 2), !Nat.div_mul in So by lia. cbn [app] in So.
  destruct (generic_pad_ok 0%Z o Wo) as (out & Et & St & Wt & Ht); [rewrite So; discriminate|rewrite So; repeat constructor; lia|].
  rewrite E in Si. rewrite So in St. cbn [shape_npow2 map] in Si, St. rewrite !npow2_double in Si by auto.
  exists inp, o, out. set (C := npow2 c) in *. set (H := npow2 h) in *. set (Wd := npow2 w) in *.
  assert (EW : exists m, Wd = 2 ^ m) by (exists (Nat.log2_up w); reflexivity). destruct EW as [m EW].
  assert (PW : 0 < Wd) by apply npow2_pos.
  set (R := C * H). set (data := dat inp). assert (Ld : length data = R * (2 * Wd * 2)).
  { unfold data. unfold wft in Wi. rewrite Wi, Si. cbn. unfold R. nia. }
  set (fixedf := fun i => map (fun r => nth (i + r * (2 * Wd * 2)) data 0%Z) (seq 0 R)).
  set (ge := fun rp cc r => nth ((rp * Wd + cc) * 2 + r * (2 * Wd * 2)) data 0%Z).
  set (go := fun rp cc r => nth (1 + (rp * Wd + cc) * 2 + r * (2 * Wd * 2)) data 0%Z).
  set (col := fun (g : nat -> nat -> nat -> Z) rp => map (fun q => (nth q (dat out) 0 - g rp (q mod 2 ^ m)%nat (q / 2 ^ m)%nat)%Z) (seq 0 (R * 2 ^ m))).
  assert (EP : compute_polys 2 2 t = Some [col ge 0; col ge 1; col go 0; col go 1]).
  { unfold compute_polys. unfold pad_next_power_of_two. rewrite Ei. cbn [obind]. unfold maxpool_op. cbn [Nat.eqb]. rewrite Eo. cbn [obind].
    rewrite Et. cbn [obind]. rewrite Si. cbn [nth_error obind]. fold data.
    assert (E1 : map (fun i => step_by (2 * Wd * 2) (skipn i data)) (seq 0 (2 * Wd * 2)) = map fixedf (seq 0 (2 * Wd * 2))).
    { apply map_seq_ext. intros i Hlt. apply step_by_skip; lia. }
    rewrite E1. rewrite step_by_map_seq by lia.
    assert (E2 : step_by 2 (skipn 1 (map fixedf (seq 0 (2 * Wd * 2)))) = map (fun i => fixedf (1 + i * 2)) (seq 0 (2 * Wd))).
    { apply (list_of_nth []). intros i. rewrite step_by_nth, nth_error_skipn, nth_error_map_seq by lia.
      destruct (Nat.ltb_spec (1 + i * 2) (2 * Wd * 2)), (Nat.ltb_spec i (2 * Wd)); auto; lia. }
    rewrite E2. replace (2 * Wd / 2) with Wd by (rewrite Nat.mul_comm, Nat.div_mul; lia).
    unfold ochunks. destruct (Nat.eqb_spec Wd 0); [lia|]. cbn [obind].
    assert (Sh : forall (F : nat -> list Z), map F (seq Wd Wd) = map (fun i => F (Wd + i)) (seq 0 Wd)).
    { intros F. rewrite <- (Nat.add_0_r Wd) at 1. rewrite <- (map_map (fun i => Wd + i) F). f_equal. generalize Wd at 1 3. generalize 0. clear. induction Wd as [|v IH]; intros n u; [reflexivity|]. cbn. f_equal. rewrite <- IH. f_equal. lia. }
    assert (Es2 : forall (F : nat -> list Z), map F (seq 0 (2 * Wd)) = map F (seq 0 Wd) ++ map (fun i => F (Wd + i)) (seq 0 Wd)).
    { intros F. replace (2 * Wd) with (Wd + Wd) by lia. rewrite seq_app, map_app, Nat.add_0_l, Sh. reflexivity. }
    rewrite !Es2. rewrite !chunks_two by (rewrite ?map_length, ?seq_length; lia). cbn [obind combine].
    assert (Lo : length (dat out) = R * 2 ^ m). { unfold wft in Wt. rewrite Wt, St, <- EW. cbn. unfold R. nia. }
    assert (K : forall rp, chunk_diffs (2 * Wd) (dat out) (map (fun i => fixedf ((rp * Wd + i) * 2)) (seq 0 Wd), map (fun i => fixedf (1 + (rp * Wd + i) * 2)) (seq 0 Wd)) = Some (col ge rp, col go rp)).
    { intros rp. rewrite EW at 1. assert (Es : seq 0 Wd = seq 0 (2 ^ m)) by (rewrite EW; auto). rewrite Es. exact (chunk_diffs_ok m R (ge rp) (go rp) (dat out) Lo). }
    assert (K0 := K 0). assert (K1 := K 1). rewrite Nat.mul_0_l in K0. rewrite Nat.mul_1_l in K1. cbn [omapM].
    change (fun i => fixedf ((0 + i) * 2)) with (fun i => fixedf (i * 2)) in K0. change (fun i => fixedf (1 + (0 + i) * 2)) with (fun i => fixedf (1 + i * 2)) in K0.
    rewrite K0. cbn [obind]. rewrite K1. reflexivity. }
  exists [col ge 0; col ge 1; col go 0; col go 1].
  do 3 (split; [assumption|]). split; [exact Si|]. split; [exact St|]. split; [exact EP|]. split; [reflexivity|].
  assert (Lcol : forall g rp, length (col g rp) = C * H * Wd) by (intros; unfold col; rewrite map_length, seq_length, <- EW; reflexivity).
  split.
  - intros k Hk. destruct k as [|[|[|[|k]]]]; cbn [nth]; try apply Lcol. lia.
  - intros a b z i j Ha Hb Hz Hi' Hj.
    assert (B : flat [C; H; Wd] [z; i; j] < R * 2 ^ m). { assert (I : inb [C; H; Wd] [z; i; j]) by (apply inb3; auto). apply flat_lt in I. rewrite <- EW. cbn [sprod fold_right] in I. unfold R. lia. }
    assert (Fq : flat [C; H; Wd] [z; i; j] = (z * H + i) * Wd + j) by (rewrite flat3; ring).
    assert (Emod : flat [C; H; Wd] [z; i; j] mod 2 ^ m = j). { rewrite <- EW, Fq, Nat.add_comm, Nat.mod_add, Nat.mod_small by lia. reflexivity. }
    assert (Ediv : flat [C; H; Wd] [z; i; j] / 2 ^ m = z * H + i). { rewrite <- EW, Fq, Nat.div_add_l, Nat.div_small by lia. lia. }
    assert (Col : forall g rp, nth (flat [C; H; Wd] [z; i; j]) (col g rp) 0%Z = (nth (flat [C; H; Wd] [z; i; j]) (dat out) 0 - g rp j (z * H + i)%nat)%Z).
    { intros g rp. unfold col. rewrite (nth_map_lt _ _ _ 0) by (rewrite seq_length; auto). rewrite seq_nth by auto. rewrite Nat.add_0_l, Emod, Ediv. reflexivity. }
    unfold entry. rewrite Si, St. fold data.
    assert (Fin : flat [C; 2 * H; 2 * Wd] [z; 2 * i + a; 2 * j + b] = b + (a * Wd + j) * 2 + (z * H + i) * (2 * Wd * 2)) by (rewrite flat3; ring).
    rewrite Fin. destruct b as [|[|b]]; [| |lia]; (destruct a as [|[|a]]; [| |lia]); cbn [nth Nat.mul Nat.add]; rewrite Col; reflexivity.
Qed.

(** The differences are non-negative and one of them is zero; and this pins the output down. *)
Theorem polys_sound t c h w inp out polys : wft t -> sh t = [c; 2 * h; 2 * w] -> 0 < c -> 0 < h -> 0 < w ->
  pad_next_power_of_two 0%Z t = Some inp -> (o <- maxpool2d t 2 2 ;; pad_next_power_of_two 0%Z o) = Some out ->
  compute_polys 2 2 t = Some polys ->
  forall z i j, z < npow2 c -> i < npow2 h -> j < npow2 w ->
    let q := flat [npow2 c; npow2 h; npow2 w] [z; i; j] in
    (forall k, k < 4 -> (0 <= nth q (nth k polys []) 0)%Z) /\
    (nth q (nth 0 polys []) 0 * nth q (nth 1 polys []) 0 * nth q (nth 2 polys []) 0 * nth q (nth 3 polys []) 0 = 0)%Z /\
    is_max2 2 (fun a b => entry 0%Z inp [z; 2 * i + a; 2 * j + b]) (entry 0%Z out [z; i; j]).
Proof.
  intros W E Hc Hh Hw Ei Eo Ep z i j Hz Hi Hj q.
  destruct (compute_polys_ok t c h w W E Hc Hh Hw) as (inp' & o & out' & polys' & E1 & E2 & E3 & S1 & S2 & E4 & L4 & _ & V).
  rewrite E1 in Ei. injection Ei as <-. rewrite E2 in Eo. cbn [obind] in Eo. rewrite E3 in Eo. injection Eo as <-. rewrite E4 in Ep. injection Ep as <-.
  destruct (generic_pad_ok 0%Z t W) as (inp2 & F1 & Sp & Wp & Hp); [rewrite E; discriminate|rewrite E; repeat constructor; lia|].
  unfold pad_next_power_of_two in E1. rewrite E1 in F1. injection F1 as <-.
  destruct (maxpool2d_ok t [c] (2 * h) (2 * w) 2 2 W E) as (o2 & F2 & So & Wo & Ho); try lia. rewrite E2 in F2. injection F2 as <-.
  rewrite !half_sub in So, Ho by lia. rewrite !(Nat.mul_comm 2), !Nat.div_mul in So, Ho by lia. cbn [app] in So.
  destruct (generic_pad_ok 0%Z o Wo) as (out2 & F3 & St & Wt & Ht); [rewrite So; discriminate|rewrite So; repeat constructor; lia|].
  unfold pad_next_power_of_two in E3. rewrite E3 in F3. injection F3 as <-.
  assert (M : is_max2 2 (fun a b => entry 0%Z inp' [z; 2 * i + a; 2 * j + b]) (entry 0%Z out' [z; i; j])).
  { rewrite So in Ht, St. cbn [shape_npow2 map] in Ht, St. rewrite E in Hp. cbn [shape_npow2 map] in Hp. rewrite !npow2_double in Hp by auto.
    assert (Io : inb [npow2 c; npow2 h; npow2 w] [z; i; j]) by (apply inb3; auto). destruct (Ht _ Io) as [Ht1 Ht2].
    assert (Iin : forall a b, a < 2 -> b < 2 -> inb [npow2 c; 2 * npow2 h; 2 * npow2 w] [z; 2 * i + a; 2 * j + b]) by (intros; apply inb3; lia).
    destruct (inb_dec [c; h; w] [z; i; j]) as [I|I].
    - rewrite Ht1 by auto. apply inb3 in I as (Iz & Ii & Ij).
      assert (Hm := Ho [z] i j). cbn [app] in Hm. rewrite !(Nat.mul_comm _ 2) in Hm.
      specialize (Hm ltac:(apply inb_cons; split; [auto|constructor]) Ii Ij).
      assert (Ev : forall a b, a < 2 -> b < 2 -> entry 0%Z inp' [z; 2 * i + a; 2 * j + b] = entry 0%Z t [z; 2 * i + a; 2 * j + b]).
      { intros a b Ha Hb. apply (Hp _ (Iin a b Ha Hb)). apply inb3. lia. }
      destruct Hm as [Hm1 (a & b & Ha & Hb & Hm2)]. split.
      + intros a' b' Ha' Hb'. rewrite Ev by auto. apply Hm1; auto.
      + exists a, b. rewrite Ev by auto. auto.
    - rewrite Ht2 by auto.
      assert (Z0 : forall a b, a < 2 -> b < 2 -> entry 0%Z inp' [z; 2 * i + a; 2 * j + b] = 0%Z).
      { intros a b Ha Hb. apply (Hp _ (Iin a b Ha Hb)). rewrite inb3. intros Q. apply I, inb3. lia. }
      split; [intros a b Ha Hb; rewrite Z0 by auto; lia|]. exists 0, 0. rewrite Z0 by lia. auto. }
  assert (D : forall k, k < 4 -> exists a b, a < 2 /\ b < 2 /\ k = 2 * b + a /\ nth q (nth k polys' []) 0%Z = (entry 0 out' [z; i; j] - entry 0 inp' [z; 2 * i + a; 2 * j + b]%nat)%Z).
  { intros k Hk. exists (k mod 2), (k / 2). assert (Q := Nat.div_mod k 2 ltac:(lia)). assert (M2 : k mod 2 < 2) by (apply Nat.mod_upper_bound; lia).
    assert (k / 2 < 2) by (apply Nat.div_lt_upper_bound; lia). split; [auto|]. split; [auto|]. split; [auto|]. rewrite <- V by auto. rewrite <- Q. reflexivity. }
  destruct M as [M1 (a & b & Ha & Hb & M2)]. split; [|split].
  - intros k Hk. destruct (D k Hk) as (a' & b' & Ha' & Hb' & _ & Ed). rewrite Ed. specialize (M1 a' b' Ha' Hb'). cbv beta in M1. lia.
  - assert (Z0 : nth q (nth (2 * b + a) polys' []) 0%Z = 0%Z) by (unfold q; rewrite V by auto; lia).
    destruct a as [|[|a]]; [| |lia]; (destruct b as [|[|b]]; [| |lia]); cbn [Nat.mul Nat.add] in Z0; rewrite Z0; ring.
  - split; [auto|]. exists a, b. auto.
Qed.
(** Conversely: differences that are non-negative with product zero determine the maximum. *)
Theorem polys_max (v : nat -> nat -> Z) (x : Z) :
  ((forall a b, a < 2 -> b < 2 -> (0 <= x - v a b)%Z) /\ ((x - v 0%nat 0%nat) * (x - v 1%nat 0%nat) * (x - v 0%nat 1%nat) * (x - v 1%nat 1%nat) = 0)%Z) <-> is_max2 2 v x.
Proof.
  split.
  - intros [H1 H2]. split; [intros a b Ha Hb; specialize (H1 a b Ha Hb); lia|].
    apply Z.mul_eq_0 in H2 as [H2|H2]; [apply Z.mul_eq_0 in H2 as [H2|H2]; [apply Z.mul_eq_0 in H2 as [H2|H2]|]|].
    + exists 0, 0. repeat split; try lia. + exists 1, 0. repeat split; try lia. + exists 0, 1. repeat split; try lia. + exists 1, 1. repeat split; try lia.
  - intros [H1 (a & b & Ha & Hb & H2)]. split; [intros a' b' Ha' Hb'; specialize (H1 a' b' Ha' Hb'); lia|].
    destruct a as [|[|a]]; [| |lia]; (destruct b as [|[|b]]; [| |lia]); rewrite H2; ring.
Qed.
End Polys.
