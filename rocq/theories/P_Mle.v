(** Proofs about [M_Mle]: fixing variables and evaluating. *)
From Coq Require Import List Arith Lia Bool ZArith Field Permutation.
From Verif Require Import ListAux FieldDef PolyList MleMath M_Mle.
Import ListNotations.

Section P.
Context {K : field}.
Add Field Kf_pm : (fth K).
Local Open Scope F_scope.

Definition at_ (l : list K) (i : nat) : K := nth i l 0.

(** Table with the low variables fixed: entry [i] is the MLE of block [i]. *)
Definition plow (f : nat -> K) (pp : list K) (i : nat) : K :=
  mlef (fun j => f (j + 2 ^ length pp * i)%nat) pp.
(** Table of [2^n] values with the high variables fixed. *)
Definition phigh (n : nat) (f : nat -> K) (pp : list K) (i : nat) : K :=
  mlef (fun j => f (i + 2 ^ (n - length pp) * j)%nat) pp.

Definition fold_lo (p : K) (f : nat -> K) (i : nat) : K :=
  f (2 * i)%nat + p * (f (2 * i + 1)%nat - f (2 * i)%nat).
Definition fold_hi (p : K) (half : nat) (f : nat -> K) (i : nat) : K :=
  f i + p * (f (half + i)%nat - f i).

Lemma plow_nil f i : plow f [] i = f i.
Proof. unfold plow. rewrite mlef_nil. f_equal. simpl. lia. Qed.
Lemma plow_cons f p pp i : plow f (p :: pp) i = plow (fold_lo p f) pp i.
Proof.
  unfold plow. rewrite mlef_cons. apply mlef_ext. intros j Hj. unfold fold_lo.
  cbn [length]. rewrite Nat.pow_succ_r'.
  replace (2 * j + 2 * 2 ^ length pp * i)%nat with (2 * (j + 2 ^ length pp * i))%nat by lia.
  replace (2 * j + 1 + 2 * 2 ^ length pp * i)%nat with (2 * (j + 2 ^ length pp * i) + 1)%nat by lia.
  reflexivity.
Qed.
Lemma plow_ext f g pp i m :
  (forall k, k < 2 ^ length pp * m -> f k = g k) -> i < m -> plow f pp i = plow g pp i.
Proof.
  intros H Hi. apply mlef_ext. intros j Hj. apply H.
  pose proof (Nat.mul_le_mono_l (S i) m (2 ^ length pp) Hi). lia.
Qed.
Lemma plow_all f pp : plow f pp 0 = mlef f pp.
Proof. apply mlef_ext. intros j Hj. f_equal. lia. Qed.

Lemma phigh_nil n f i : phigh n f [] i = f i.
Proof. unfold phigh. rewrite mlef_nil. f_equal. lia. Qed.
Lemma phigh_snoc n f pp p i : S (length pp) <= n ->
  phigh n f (pp ++ [p]) i = phigh (n - 1) (fold_hi p (2 ^ (n - 1)) f) pp i.
Proof.
  intros Hn. unfold phigh. rewrite mlef_snoc. apply mlef_ext. intros j Hj. unfold fold_hi.
  rewrite app_length. cbn [length].
  replace (n - (length pp + 1))%nat with (n - 1 - length pp)%nat by lia.
  assert (E : (2 ^ (n - 1) = 2 ^ (n - 1 - length pp) * 2 ^ length pp)%nat).
  { rewrite <- Nat.pow_add_r. f_equal. lia. }
  rewrite E.
  replace (i + 2 ^ (n - 1 - length pp) * (2 ^ length pp + j))%nat with
    (2 ^ (n - 1 - length pp) * 2 ^ length pp + (i + 2 ^ (n - 1 - length pp) * j))%nat by lia.
  reflexivity.
Qed.
Lemma phigh_ext n f g pp i : length pp <= n ->
  (forall k, k < 2 ^ n -> f k = g k) -> i < 2 ^ (n - length pp) -> phigh n f pp i = phigh n g pp i.
Proof.
  intros Hn H Hi. apply mlef_ext. intros j Hj. apply H.
  assert (E : (2 ^ n = 2 ^ (n - length pp) * 2 ^ length pp)%nat).
  { rewrite <- Nat.pow_add_r. f_equal. lia. }
  rewrite E. pose proof (Nat.mul_le_mono_l (S j) (2 ^ length pp) (2 ^ (n - length pp)) Hj). lia.
Qed.

(** *** Copying step *)
Lemma chunk_fix_spec p : forall m l, length l = (2 * m)%nat ->
  exists l', chunk_fix p l = Some l' /\ length l' = m /\
    forall i, i < m -> at_ l' i = fold_lo p (at_ l) i.
Proof.
  induction m as [|m IH]; intros l Hl.
  - destruct l; [|discriminate]. exists []. simpl. repeat split; auto. intros; lia.
  - destruct l as [|a [|b l]]; try (cbn [length] in Hl; lia).
    destruct (IH l) as (l' & E & Hl' & Hn). { cbn [length] in Hl. lia. }
    exists ((p * (b - a) + a) :: l'). simpl. rewrite E. simpl. repeat split; auto.
    intros [|i] Hi.
    + unfold fold_lo, at_. simpl. ring.
    + unfold fold_lo, at_ in *.
      replace (2 * S i)%nat with (S (S (2 * i))) by lia.
      replace (S (S (2 * i)) + 1)%nat with (S (S (2 * i + 1))) by lia.
      cbn [nth]. apply Hn. lia.
Qed.

Lemma chunk_fix_odd p : forall m (l : list K), length l = (2 * m + 1)%nat -> chunk_fix p l = None.
Proof.
  induction m as [|m IH]; intros l Hl.
  - destruct l as [|a [|b l]]; try discriminate. reflexivity.
  - destruct l as [|a [|b l]]; try (cbn [length] in Hl; lia).
    cbn [chunk_fix]. rewrite (IH l); auto. cbn [length] in Hl. lia.
Qed.

(** *** In-place step *)
Lemma ofold_app {A S} (f : S -> A -> option S) l1 l2 s :
  ofold f (l1 ++ l2) s = (s' <- ofold f l1 s ;; ofold f l2 s').
Proof.
  revert s; induction l1 as [|a l1 IH]; intros s; simpl; auto.
  destruct (f s a); simpl; auto.
Qed.

Lemma evens_even m : evens (2 * m) = map (fun i => 2 * i)%nat (seq 0 m).
Proof.
  unfold evens. f_equal. f_equal.
  replace (2 * m + 1)%nat with (1 + m * 2)%nat by lia. rewrite Nat.div_add by lia. reflexivity.
Qed.

Lemma nth_error_at l i : i < length l -> nth_error l i = Some (at_ l i).
Proof. intros H. apply nth_error_nth'. auto. Qed.

Lemma at_upd l i x j : i < length l -> at_ (upd i x l) j = if Nat.eqb j i then x else at_ l j.
Proof.
  intros H. unfold at_. destruct (Nat.eqb_spec j i) as [->|Hne].
  - apply nth_upd_eq; auto.
  - apply nth_upd_neq; auto.
Qed.

Lemma in_place_spec p m l : length l = (2 * m)%nat ->
  exists l', ofold (in_place_step p) (evens (length l)) l = Some l' /\ length l' = length l /\
    (forall i, i < m -> at_ l' i = fold_lo p (at_ l) i).
Proof.
  intros Hl. rewrite Hl, evens_even.
  assert (G : forall k, k <= m ->
    exists l', ofold (in_place_step p) (map (fun i => 2 * i)%nat (seq 0 k)) l = Some l' /\
      length l' = (2 * m)%nat /\
      forall i, at_ l' i = if Nat.ltb i k then fold_lo p (at_ l) i else at_ l i).
  { induction k as [|k IH]; intros Hk.
    - exists l. simpl. repeat split; auto.
    - destruct IH as (l' & E & Hl' & Hn); [lia|].
      rewrite seq_S, map_app, ofold_app, E. cbn [obind map ofold Nat.add].
      unfold in_place_step.
      rewrite !nth_error_at by lia.
      replace (2 * k / 2)%nat with k by (rewrite Nat.mul_comm, Nat.div_mul; lia).
      eexists. split; [reflexivity|]. rewrite upd_length. split; auto.
      intros i. rewrite at_upd by lia. rewrite !Hn.
      destruct (Nat.eqb_spec i k) as [->|Hne].
      + destruct (Nat.ltb_spec (2 * k) k) as [H1|H1]; [lia|].
        destruct (Nat.ltb_spec (2 * k + 1) k) as [H2|H2]; [lia|].
        destruct (Nat.ltb_spec k (S k)); [|lia]. unfold fold_lo. ring.
      + destruct (Nat.ltb_spec i k), (Nat.ltb_spec i (S k)); auto; lia. }
  destruct (G m (le_n m)) as (l' & E & Hl' & Hn). exists l'. repeat split; auto.
  intros i Hi. rewrite Hn. destruct (Nat.ltb_spec i m); [auto|lia].
Qed.

Lemma fvip_steps pp : forall l h, length l = (2 ^ length pp * h)%nat -> 0 < h ->
  forall c, length pp <= c -> length l = (2 ^ c)%nat ->
  exists l', ofold fvip_step pp (Ext l) = Some (Ext l') /\ length l' = length l /\
    forall i, i < h -> at_ l' i = plow (at_ l) pp i.
Proof.
  induction pp as [|p pp IH]; intros l h Hl Hh c Hc Hp.
  - exists l. simpl. repeat split; auto. intros i Hi. rewrite plow_nil. reflexivity.
  - cbn [length] in *. destruct c as [|c]; [lia|]. rewrite Nat.pow_succ_r' in Hl, Hp.
    destruct (in_place_spec p (2 ^ c) l Hp) as (l1 & E1 & Hl1 & Hn1).
    cbn [ofold fvip_step]. rewrite E1. cbn [obind].
    destruct c as [|c].
    { destruct pp; [|cbn [length] in *; lia]. exists l1. simpl. repeat split; auto.
      intros i Hi. rewrite plow_cons, plow_nil. apply Hn1. simpl in *. lia. }
    (* the vector keeps its full length; only its first half is meaningful *)
    (* restrict the statement to the meaningful prefix via plow_ext *)
    assert (Hlen : exists l', ofold fvip_step pp (Ext l1) = Some (Ext l') /\ length l' = length l1 /\
      forall i, i < 2 * h -> at_ l' i = plow (at_ l1) pp i).
    { apply (IH l1 (2 * h)%nat) with (c := S (S c)); rewrite ?Nat.pow_succ_r' in *; try lia. }
    destruct Hlen as (l' & E & Hl' & Hn). exists l'. rewrite E. repeat split; auto; try lia.
    intros i Hi. rewrite plow_cons. rewrite Hn by lia.
    apply (plow_ext _ _ _ _ h); auto. intros k Hk. apply Hn1.
    rewrite Nat.pow_succ_r' in *. lia.
Qed.

Lemma firstn_table m (l : list K) (g : nat -> K) :
  m <= length l -> (forall i, i < m -> at_ l i = g i) -> firstn m l = map g (seq 0 m).
Proof.
  intros Hm H. apply nth_ext_all with (d := 0).
  - rewrite firstn_length, map_length, seq_length. lia.
  - intros i Hi. rewrite firstn_length in Hi.
    rewrite nth_firstn_lt by lia. rewrite nth_map_seq by lia. apply H. lia.
Qed.

Lemma table_eq (l : list K) (g : nat -> K) m :
  length l = m -> (forall i, i < m -> at_ l i = g i) -> l = map g (seq 0 m).
Proof.
  intros Hm H. rewrite <- (firstn_all l) at 1. rewrite Hm. apply firstn_table; auto. lia.
Qed.

Lemma pow2_split n k : k <= n -> (2 ^ n = 2 ^ k * 2 ^ (n - k))%nat.
Proof. intros H. rewrite <- Nat.pow_add_r. f_equal. lia. Qed.

(** The table a partial point leaves behind. *)
Definition low_table (n : nat) (l pp : list K) : list K :=
  map (plow (at_ l) pp) (seq 0 (2 ^ (n - length pp))).
Definition high_table (n : nat) (l pp : list K) : list K :=
  map (phigh n (at_ l) pp) (seq 0 (2 ^ (n - length pp))).

Lemma fvip_ext n l pp : length l = 2 ^ n -> length pp <= n ->
  fix_variables_in_place (mkMle (Ext l) n) pp = Some (mkMle (Ext (low_table n l pp)) (n - length pp)).
Proof.
  intros Hl Hpp. unfold fix_variables_in_place. cbn [num_vars evaluations].
  destruct (Nat.leb_spec (length pp) n); [|lia].
  destruct (fvip_steps pp l (2 ^ (n - length pp)) ltac:(rewrite Hl; apply pow2_split; lia) (pow2_pos _) n Hpp Hl)
    as (l' & E & Hl' & Hn).
  rewrite E. cbn [obind]. f_equal. f_equal. f_equal. unfold low_table.
  apply firstn_table; auto. rewrite Hl', Hl. apply Nat.pow_le_mono_r; lia.
Qed.

Lemma fvip_base n l p pp : length l = 2 ^ n -> length (p :: pp) <= n ->
  fix_variables_in_place (mkMle (Base l) n) (p :: pp)
  = Some (mkMle (Ext (low_table n l (p :: pp))) (n - length (p :: pp))).
Proof.
  intros Hl Hpp. unfold fix_variables_in_place. cbn [num_vars evaluations].
  destruct (Nat.leb_spec (length (p :: pp)) n); [|lia].
  cbn [length] in *. destruct n as [|n]; [lia|]. rewrite Nat.pow_succ_r' in Hl.
  cbn [ofold fvip_step].
  destruct (chunk_fix_spec p (2 ^ n) l Hl) as (l1 & E1 & Hl1 & Hn1).
  rewrite E1. cbn [obind].
  destruct (fvip_steps pp l1 (2 ^ (n - length pp)) ltac:(rewrite Hl1; apply pow2_split; lia) (pow2_pos _) n ltac:(lia) Hl1)
    as (l' & E & Hl' & Hn).
  rewrite E. cbn [obind]. f_equal. replace (S n - S (length pp))%nat with (n - length pp)%nat by lia.
  f_equal. f_equal. unfold low_table. cbn [length].
  replace (S n - S (length pp))%nat with (n - length pp)%nat by lia.
  apply firstn_table.
  - rewrite Hl', Hl1. apply Nat.pow_le_mono_r; lia.
  - intros i Hi. rewrite plow_cons, Hn by auto.
    apply (plow_ext _ _ _ _ (2 ^ (n - length pp))); auto. intros k Hk. apply Hn1.
    rewrite <- pow2_split in Hk by lia. auto.
Qed.

Lemma low_table_length n l pp : length (low_table n l pp) = 2 ^ (n - length pp).
Proof. unfold low_table. rewrite map_length, seq_length. reflexivity. Qed.
Lemma high_table_length n l pp : length (high_table n l pp) = 2 ^ (n - length pp).
Proof. unfold high_table. rewrite map_length, seq_length. reflexivity. Qed.
Lemma low_table_at n l pp i : i < 2 ^ (n - length pp) -> at_ (low_table n l pp) i = plow (at_ l) pp i.
Proof. intros H. unfold low_table, at_. rewrite nth_map_seq by auto. reflexivity. Qed.
Lemma high_table_at n l pp i : i < 2 ^ (n - length pp) -> at_ (high_table n l pp) i = phigh n (at_ l) pp i.
Proof. intros H. unfold high_table, at_. rewrite nth_map_seq by auto. reflexivity. Qed.

Lemma low_table_app n l p pp : length l = 2 ^ n -> length (p :: pp) <= n ->
  low_table n l (p :: pp) = low_table (n - 1) (low_table n l [p]) pp.
Proof.
  intros Hl Hpp. cbn [length] in *. apply nth_ext_all with (d := 0).
  - rewrite !low_table_length. cbn [length]. f_equal. lia.
  - intros i Hi. rewrite low_table_length in Hi. cbn [length] in Hi.
    change (at_ (low_table n l (p :: pp)) i = at_ (low_table (n - 1) (low_table n l [p]) pp) i).
    rewrite !low_table_at by (cbn [length]; auto; replace (n - 1 - length pp)%nat with (n - S (length pp))%nat by lia; auto).
    rewrite plow_cons. apply (plow_ext _ _ _ _ (2 ^ (n - S (length pp)))); auto.
    intros k Hk. rewrite low_table_at, plow_cons, plow_nil; auto.
    cbn [length]. rewrite (pow2_split (n - 1) (length pp)) by lia.
    replace (n - 1 - length pp)%nat with (n - S (length pp))%nat by lia. auto.
Qed.

Lemma low_table_nil n l : length l = 2 ^ n -> low_table n l [] = l.
Proof.
  intros Hl. unfold low_table. cbn [length]. rewrite Nat.sub_0_r. symmetry. apply table_eq; auto.
  intros. rewrite plow_nil. reflexivity.
Qed.

Lemma mkExt_ok n (l : list K) : length l = 2 ^ n -> from_evaluations_ext_vec n l = Some (mkMle (Ext l) n).
Proof. intros H. unfold from_evaluations_ext_vec. rewrite H, Nat.eqb_refl. reflexivity. Qed.

Lemma chunk_fix_table n l p : length l = 2 ^ S n -> chunk_fix p l = Some (low_table (S n) l [p]).
Proof.
  intros Hl. rewrite Nat.pow_succ_r' in Hl.
  destruct (chunk_fix_spec p (2 ^ n) l Hl) as (l1 & E1 & Hl1 & Hn1). rewrite E1. f_equal.
  unfold low_table. cbn [length]. replace (S n - 1)%nat with n by lia. apply table_eq; auto.
  intros i Hi. rewrite plow_cons, plow_nil. auto.
Qed.

Definition is_table (m : dmle K) (n : nat) (l : list K) : Prop :=
  num_vars m = n /\ (evaluations m = Base l \/ evaluations m = Ext l) /\ length l = 2 ^ n.

Lemma is_table_slice m n l : is_table m n l -> op_slice m = Some l.
Proof. intros (_ & [E|E] & _); unfold op_slice; rewrite E; reflexivity. Qed.

Lemma fv_rest pp : forall n l, length l = 2 ^ n -> length pp <= n ->
  ofold (fun m p => fix_variables_in_place m [p]) pp (mkMle (Ext l) n)
  = Some (mkMle (Ext (low_table n l pp)) (n - length pp)).
Proof.
  induction pp as [|p pp IH]; intros n l Hl Hpp.
  - simpl. rewrite low_table_nil, Nat.sub_0_r by auto. reflexivity.
  - cbn [ofold]. cbn [length] in *. rewrite fvip_ext by (cbn [length]; auto; lia). cbn [obind length].
    rewrite IH; [|rewrite low_table_length; cbn [length]; auto|lia].
    rewrite <- low_table_app by (cbn [length]; auto; lia).
    do 2 f_equal. lia.
Qed.

Lemma fix_variables_spec m n l pp : is_table m n l -> length pp <= n -> pp <> [] ->
  fix_variables m pp = Some (mkMle (Ext (low_table n l pp)) (n - length pp)).
Proof.
  intros Hm Hpp Hne. pose proof (is_table_slice _ _ _ Hm) as Hs. destruct Hm as (Hn & He & Hl).
  unfold fix_variables. rewrite Hn. destruct (Nat.leb_spec (length pp) n); [|lia].
  destruct pp as [|p pp]; [contradiction|]. cbn [length] in *. destruct n as [|n]; [lia|].
  rewrite Hs. cbn [obind]. rewrite (chunk_fix_table n) by auto. cbn [obind].
  replace (S n - 1)%nat with n by lia.
  rewrite mkExt_ok by (rewrite low_table_length; cbn [length]; f_equal; lia). cbn [obind].
  rewrite fv_rest; [|rewrite low_table_length; cbn [length]; f_equal; lia|lia].
  cbn [obind num_vars]. replace (S n - S (length pp))%nat with (n - length pp)%nat by lia.
  rewrite Nat.eqb_refl. rewrite (low_table_app (S n) l p pp) by (cbn [length]; auto; lia).
  replace (S n - 1)%nat with n by lia. reflexivity.
Qed.

Lemma fix_variables_nil m n l : is_table m n l -> fix_variables m [] = Some m.
Proof.
  intros (Hn & _). unfold fix_variables. rewrite Hn. simpl. rewrite Hn, Nat.sub_0_r, Nat.eqb_refl. reflexivity.
Qed.

(** *** High variables *)
Lemma zip_fix_spec p m l : length l = (2 * m)%nat ->
  zip_fix p (firstn m l) (skipn m l) = map (fold_hi p m (at_ l)) (seq 0 m).
Proof.
  intros Hl. unfold zip_fix.
  assert (Hc : length (combine (firstn m l) (skipn m l)) = m).
  { rewrite combine_length, firstn_length, skipn_length. lia. }
  apply nth_ext_all with (d := 0).
  - rewrite !map_length, seq_length. auto.
  - intros i Hi. rewrite map_length, Hc in Hi. rewrite nth_map_seq by auto.
    rewrite nth_map_lt with (d := (0, 0)) by lia.
    rewrite combine_nth by (rewrite firstn_length, skipn_length; lia).
    rewrite nth_firstn_lt, nth_skipn by auto. unfold fold_hi, at_. ring.
Qed.

Lemma combine_nth_lt {A B} (a : list A) (b : list B) i da db :
  i < length a -> i < length b -> nth i (combine a b) (da, db) = (nth i a da, nth i b db).
Proof.
  revert b i; induction a as [|x a IH]; intros [|y b] [|i] Ha Hb; cbn [length] in *; try lia; auto.
  simpl. apply IH; lia.
Qed.

Lemma high_in_place_spec p m l : 2 * m <= length l ->
  exists l', high_in_place p m l = Some l' /\ length l' = length l /\
    forall i, i < m -> at_ l' i = fold_hi p m (at_ l) i.
Proof.
  intros Hl. unfold high_in_place. destruct (Nat.leb_spec m (length l)); [|lia].
  assert (Hc : length (combine (firstn m l) (skipn m l)) = m).
  { rewrite combine_length, firstn_length, skipn_length. lia. }
  rewrite Hc. eexists. split; [reflexivity|]. split.
  - rewrite app_length, map_length, Hc, skipn_length. lia.
  - intros i Hi. unfold at_ at 1. rewrite app_nth1 by (rewrite map_length, Hc; auto).
    rewrite nth_map_lt with (d := (0, 0)) by lia.
    rewrite combine_nth_lt by (rewrite ?firstn_length, ?skipn_length; lia).
    rewrite nth_firstn_lt, nth_skipn by auto. unfold fold_hi, at_. ring.
Qed.

Lemma fhvip_step_ext (p : K) l cur : fhvip_step (Ext l, cur) p
  = (l' <- high_in_place p (cur / 2) l ;; Some (Ext l', cur / 2)%nat).
Proof. reflexivity. Qed.
Lemma fhvip_step_base (p : K) l cur : fhvip_step (Base l, cur) p
  = (if Nat.leb (cur / 2) (length l)
     then Some (Ext (zip_fix p (firstn (cur / 2) l) (skipn (cur / 2) l)), cur / 2)%nat else None).
Proof. reflexivity. Qed.

Lemma fhvip_steps pp : forall c l, length pp <= c -> 2 ^ c <= length l ->
  exists l', ofold fhvip_step (rev pp) (Ext l, 2 ^ c)%nat = Some (Ext l', 2 ^ (c - length pp))%nat /\
    length l' = length l /\
    forall i, i < 2 ^ (c - length pp) -> at_ l' i = phigh c (at_ l) pp i.
Proof.
  induction pp as [|p pp IH] using rev_ind; intros c l Hc Hl.
  - exists l. cbn [length rev ofold]. rewrite Nat.sub_0_r. repeat split; auto.
    intros i Hi. rewrite phigh_nil. reflexivity.
  - rewrite app_length in *. cbn [length] in *. rewrite rev_app_distr. cbn [rev app ofold].
    destruct c as [|c]; [lia|].
    assert (E2 : (2 ^ S c / 2 = 2 ^ c)%nat).
    { rewrite Nat.pow_succ_r', Nat.mul_comm. apply Nat.div_mul. lia. }
    rewrite fhvip_step_ext, E2. rewrite Nat.pow_succ_r' in Hl.
    destruct (high_in_place_spec p (2 ^ c) l Hl) as (l1 & E1 & Hl1 & Hn1).
    rewrite E1. cbn [obind].
    destruct (IH c l1 ltac:(lia) ltac:(lia)) as (l' & E & Hl' & Hn).
    exists l'. rewrite E. replace (S c - (length pp + 1))%nat with (c - length pp)%nat by lia.
    repeat split; auto; try lia.
    intros i Hi. rewrite phigh_snoc by lia. replace (S c - 1)%nat with c by lia.
    rewrite Hn by auto. apply phigh_ext; auto. lia.
Qed.

Lemma high_table_snoc n l p pp : length l = 2 ^ n -> length (pp ++ [p]) <= n ->
  high_table n l (pp ++ [p]) = high_table (n - 1) (high_table n l [p]) pp.
Proof.
  intros Hl Hpp. rewrite app_length in Hpp. cbn [length] in *.
  assert (E : (n - (length pp + 1) = n - 1 - length pp)%nat) by lia.
  apply nth_ext_all with (d := 0).
  - rewrite !high_table_length, app_length. cbn [length]. rewrite E. reflexivity.
  - intros i Hi. rewrite high_table_length, app_length in Hi. cbn [length] in Hi.
    change (at_ (high_table n l (pp ++ [p])) i = at_ (high_table (n - 1) (high_table n l [p]) pp) i).
    rewrite !high_table_at by (rewrite ?app_length; cbn [length]; rewrite <- ?E; auto).
    rewrite phigh_snoc by lia. apply phigh_ext; try lia.
    + intros k Hk. rewrite high_table_at by (cbn [length]; auto).
      change [p] with ([] ++ [p]). rewrite phigh_snoc by (cbn [length]; lia).
      rewrite phigh_nil. reflexivity.
    + rewrite <- E. auto.
Qed.

Lemma high_table_nil n l : length l = 2 ^ n -> high_table n l [] = l.
Proof.
  intros Hl. unfold high_table. cbn [length]. rewrite Nat.sub_0_r. symmetry. apply table_eq; auto.
  intros. rewrite phigh_nil. reflexivity.
Qed.

Lemma fhvip_ext n l pp : length l = 2 ^ n -> length pp <= n ->
  fix_high_variables_in_place (mkMle (Ext l) n) pp
  = Some (mkMle (Ext (high_table n l pp)) (n - length pp)).
Proof.
  intros Hl Hpp. unfold fix_high_variables_in_place. cbn [num_vars evaluations ft_len].
  destruct (Nat.leb_spec (length pp) n); [|lia]. rewrite Hl.
  destruct (fhvip_steps pp n l Hpp ltac:(lia)) as (l' & E & Hl' & Hn).
  rewrite E. cbn [obind]. do 3 f_equal. unfold high_table. apply firstn_table; auto.
  rewrite Hl', Hl. apply Nat.pow_le_mono_r; lia.
Qed.

Lemma half_pow n : (2 ^ S n / 2 = 2 ^ n)%nat.
Proof. rewrite Nat.pow_succ_r', Nat.mul_comm. apply Nat.div_mul. lia. Qed.

Lemma zip_fix_table n l p : length l = 2 ^ S n ->
  zip_fix p (firstn (2 ^ n) l) (skipn (2 ^ n) l) = high_table (S n) l [p].
Proof.
  intros Hl. rewrite zip_fix_spec by (rewrite Hl, Nat.pow_succ_r'; reflexivity).
  unfold high_table. cbn [length]. replace (S n - 1)%nat with n by lia. apply map_ext. intros i.
  change [p] with ([] ++ [p]). rewrite phigh_snoc by (cbn [length]; lia). rewrite phigh_nil.
  replace (S n - 1)%nat with n by lia. reflexivity.
Qed.

Lemma fhvip_base n l pp p : length l = 2 ^ n -> length (pp ++ [p]) <= n ->
  fix_high_variables_in_place (mkMle (Base l) n) (pp ++ [p])
  = Some (mkMle (Ext (high_table n l (pp ++ [p]))) (n - length (pp ++ [p]))).
Proof.
  intros Hl Hpp. unfold fix_high_variables_in_place. cbn [num_vars evaluations ft_len].
  destruct (Nat.leb_spec (length (pp ++ [p])) n); [|lia]. rewrite Hl.
  rewrite app_length in *. cbn [length] in *. destruct n as [|n]; [lia|].
  rewrite rev_app_distr. cbn [rev app ofold]. rewrite fhvip_step_base, half_pow.
  destruct (Nat.leb_spec (2 ^ n) (length l)) as [H0|H0];
    [|rewrite Hl, Nat.pow_succ_r' in H0; lia].
  cbn [obind]. rewrite (zip_fix_table n) by auto.
  assert (Hh : length (high_table (S n) l [p]) = 2 ^ n).
  { rewrite high_table_length. cbn [length]. f_equal. lia. }
  destruct (fhvip_steps pp n (high_table (S n) l [p]) ltac:(lia) ltac:(lia)) as (l' & E & Hl' & Hn).
  rewrite E. cbn [obind]. f_equal. replace (S n - (length pp + 1))%nat with (n - length pp)%nat by lia.
  f_equal. f_equal. rewrite high_table_snoc by (auto; rewrite app_length; cbn [length]; lia).
  replace (S n - 1)%nat with n by lia. unfold high_table at 1. apply firstn_table; auto.
  rewrite Hl', Hh. apply Nat.pow_le_mono_r; lia.
Qed.

Lemma fhvip_nil m n l : is_table m n l -> fix_high_variables_in_place m [] = Some m.
Proof.
  intros (Hn & He & Hl). unfold fix_high_variables_in_place. simpl. destruct m as [e nv]. simpl in *. subst nv.
  rewrite Nat.sub_0_r. destruct He as [-> | ->]; auto. simpl. rewrite firstn_all. reflexivity.
Qed.

Lemma fhv_rest pp : forall n l, length l = 2 ^ n -> length pp <= n ->
  ofold (fun m p => fix_high_variables_in_place m [p]) (rev pp) (mkMle (Ext l) n)
  = Some (mkMle (Ext (high_table n l pp)) (n - length pp)).
Proof.
  induction pp as [|p pp IH] using rev_ind; intros n l Hl Hpp.
  - simpl. rewrite high_table_nil, Nat.sub_0_r by auto. reflexivity.
  - rewrite rev_app_distr. cbn [rev app ofold]. rewrite app_length in *. cbn [length] in *.
    rewrite fhvip_ext by (cbn [length]; auto; lia). cbn [obind length].
    rewrite IH; [|rewrite high_table_length; cbn [length]; auto|lia].
    rewrite <- high_table_snoc by (auto; rewrite app_length; cbn [length]; lia).
    do 2 f_equal. lia.
Qed.

Lemma fix_high_variables_spec m n l pp : is_table m n l -> length pp <= n -> pp <> [] ->
  fix_high_variables m pp = Some (mkMle (Ext (high_table n l pp)) (n - length pp)).
Proof.
  intros Hm Hpp Hne. pose proof (is_table_slice _ _ _ Hm) as Hs. destruct Hm as (Hn & He & Hl).
  assert (Hlen : ft_len (evaluations m) = 2 ^ n).
  { destruct He as [-> | ->]; auto. }
  unfold fix_high_variables. rewrite Hn, Hlen. destruct (Nat.leb_spec (length pp) n); [|lia].
  destruct (exists_last Hne) as (pp' & p & ->). rewrite rev_app_distr. cbn [rev app].
  rewrite app_length in *. cbn [length] in *. destruct n as [|n]; [lia|].
  rewrite Hs. cbn [obind]. rewrite half_pow. replace (S n - 1)%nat with n by lia.
  rewrite (zip_fix_table n) by auto.
  rewrite mkExt_ok by (rewrite high_table_length; cbn [length]; f_equal; lia). cbn [obind].
  rewrite fhv_rest; [|rewrite high_table_length; cbn [length]; f_equal; lia|lia].
  cbn [obind num_vars]. replace (S n - (length pp' + 1))%nat with (n - length pp')%nat by lia.
  rewrite Nat.eqb_refl. rewrite (high_table_snoc (S n) l p pp') by (auto; rewrite app_length; cbn [length]; lia).
  replace (S n - 1)%nat with n by lia. reflexivity.
Qed.

(** *** Parallel in-place step *)
Lemma par_chunk_step_at (p : K) l c : 2 * c + 1 < length l ->
  par_chunk_step p l c = Some (upd (2 * c) (at_ l (2 * c) + (at_ l (2 * c + 1) - at_ l (2 * c)) * p) l).
Proof. intros H. unfold par_chunk_step. rewrite !nth_error_at by lia. reflexivity. Qed.

Lemma par_chunks_spec p m order : forall l, length l = (2 * m)%nat -> NoDup order ->
  (forall c, In c order -> c < m) ->
  exists l1, ofold (par_chunk_step p) order l = Some l1 /\ length l1 = length l /\
    forall i, at_ l1 i = if existsb (fun c => Nat.eqb (2 * c) i) order
                         then at_ l i + (at_ l (i + 1) - at_ l i) * p else at_ l i.
Proof.
  induction order as [|c order IH]; intros l Hl Hnd Hin.
  - exists l. simpl. repeat split; auto.
  - inversion Hnd as [|? ? Hc Hnd']; subst.
    assert (Hcm : c < m) by (apply Hin; left; auto).
    cbn [ofold]. rewrite par_chunk_step_at by lia. cbn [obind].
    destruct (IH (upd (2 * c) (at_ l (2 * c) + (at_ l (2 * c + 1) - at_ l (2 * c)) * p) l))
      as (l1 & E & Hl1 & Hn1); auto.
    { rewrite upd_length. auto. }
    { intros d Hd. apply Hin. right; auto. }
    exists l1. rewrite E. repeat split.
    { rewrite Hl1, upd_length. reflexivity. }
    intros i. rewrite Hn1. cbn [existsb]. rewrite !at_upd by lia.
    destruct (Nat.eqb_spec (2 * c) i) as [Ei|Hne]; [subst i|].
    + replace (existsb (fun c0 => 2 * c0 =? 2 * c)%nat order) with false.
      * cbn [orb]. rewrite Nat.eqb_refl. reflexivity.
      * symmetry. apply not_true_iff_false. intros H. apply existsb_exists in H.
        destruct H as (d & Hd & Ed). apply Nat.eqb_eq in Ed. assert (d = c) by lia. subst. contradiction.
    + cbn [orb]. destruct (Nat.eqb_spec i (2 * c)); [lia|].
      destruct (existsb (fun c0 => 2 * c0 =? i)%nat order) eqn:Ex; auto.
      apply existsb_exists in Ex. destruct Ex as (d & Hd & Ed). apply Nat.eqb_eq in Ed.
      destruct (Nat.eqb_spec (i + 1) (2 * c)); [lia|]. reflexivity.
Qed.

Lemma compact_spec h : forall l, 2 * h <= length l ->
  exists l1, ofold compact_step (seq 0 h) l = Some l1 /\ length l1 = length l /\
    forall i, at_ l1 i = if Nat.ltb i h then at_ l (2 * i) else at_ l i.
Proof.
  induction h as [|h IH]; intros l Hl.
  - exists l. simpl. repeat split; auto.
  - destruct (IH l ltac:(lia)) as (l1 & E & Hl1 & Hn1).
    rewrite seq_S, ofold_app, E. cbn [obind ofold Nat.add]. unfold compact_step.
    rewrite !nth_error_at by lia. eexists. split; [reflexivity|]. rewrite upd_length. split; auto.
    intros i. rewrite at_upd by lia. rewrite !Hn1.
    destruct (Nat.eqb_spec i h) as [->|Hne].
    + destruct (Nat.ltb_spec (2 * h) h) as [H1|H1]; [lia|].
      destruct (Nat.ltb_spec h (S h)); [auto|lia].
    + destruct (Nat.ltb_spec i h), (Nat.ltb_spec i (S h)); auto; lia.
Qed.

(** [order] schedules each chunk of a vector of length [len] exactly once. *)
Definition valid_order (len : nat) (order : list nat) : Prop :=
  Permutation order (seq 0 (len / 2)).

Lemma fvipp_step_spec order p m h c l : valid_order (length l) order ->
  length l = (2 * m)%nat -> 2 ^ (c - 1) = h -> h <= m ->
  exists l', fvipp_step order c (Ext l) p = Some (Ext l') /\ length l' = length l /\
    forall i, i < h -> at_ l' i = fold_lo p (at_ l) i.
Proof.
  intros Hv Hl Hh Hm. unfold valid_order in Hv. rewrite Hl in Hv.
  replace (2 * m / 2)%nat with m in Hv by (rewrite Nat.mul_comm, Nat.div_mul; lia).
  unfold fvipp_step.
  destruct (par_chunks_spec p m order l Hl) as (l1 & E1 & Hl1 & Hn1).
  { eapply Permutation_NoDup; [apply Permutation_sym; exact Hv|apply seq_NoDup]. }
  { intros d Hd. apply (Permutation_in _ Hv) in Hd. apply in_seq in Hd. lia. }
  rewrite E1. cbn [obind]. rewrite Hh.
  destruct (compact_spec h l1) as (l2 & E2 & Hl2 & Hn2); [lia|].
  rewrite E2. cbn [obind]. eexists. split; [reflexivity|]. split; [lia|].
  intros i Hi. rewrite Hn2. destruct (Nat.ltb_spec i h); [|lia]. rewrite Hn1.
  replace (existsb (fun c0 => 2 * c0 =? 2 * i)%nat order) with true.
  - unfold fold_lo. ring.
  - symmetry. apply existsb_exists. exists i. split; [|apply Nat.eqb_refl].
    apply (Permutation_in _ (Permutation_sym Hv)). apply in_seq. lia.
Qed.

Lemma fvipp_steps pp : forall sched nv i l h c,
  (forall k, valid_order (length l) (sched k)) ->
  length l = 2 ^ c -> 0 < h ->
  (nv - i = length pp + Nat.log2 h)%nat -> h = 2 ^ Nat.log2 h -> (2 ^ length pp * h <= length l)%nat ->
  exists l', fvipp_loop sched nv i pp (Ext l) = Some (Ext l') /\ length l' = length l /\
    forall i, i < h -> at_ l' i = plow (at_ l) pp i.
Proof.
  induction pp as [|p pp IH]; intros sched nv i l h c Hv Hc Hh Hni Hlog Hle.
  - exists l. simpl. repeat split; auto. intros j Hj. rewrite plow_nil. reflexivity.
  - cbn [length] in *. rewrite Nat.pow_succ_r' in Hle.
    destruct c as [|c].
    { exfalso. rewrite Hc in Hle. simpl in Hle. pose proof (pow2_pos (length pp)).
      assert (1 * 1 <= 2 ^ length pp * h)%nat by (apply Nat.mul_le_mono; lia). lia. }
    assert (Hc' := Hc). rewrite Nat.pow_succ_r' in Hc'.
    assert (Hh1 : (2 ^ (nv - i - 1) = 2 ^ length pp * h)%nat).
    { rewrite Hlog at 1. rewrite <- Nat.pow_add_r. f_equal. lia. }
    destruct (fvipp_step_spec (sched i) p (2 ^ c) (2 ^ length pp * h)%nat (nv - i) l)
      as (l1 & E1 & Hl1 & Hn1); auto; try lia.
    cbn [fvipp_loop]. rewrite E1. cbn [obind].
    destruct (IH sched nv (S i) l1 h (S c)) as (l' & E & Hl' & Hn); auto; try lia.
    { intros k. rewrite Hl1. apply Hv. }
    exists l'. rewrite E. repeat split; auto; try lia.
    intros j Hj. rewrite plow_cons, Hn by auto. apply (plow_ext _ _ _ _ h); auto.
Qed.

Lemma fvipp_ext sched n l pp : length l = 2 ^ n -> length pp <= n ->
  (forall k, valid_order (length l) (sched k)) ->
  fix_variables_in_place_parallel sched (mkMle (Ext l) n) pp
  = Some (mkMle (Ext (low_table n l pp)) (n - length pp)).
Proof.
  intros Hl Hpp Hv. unfold fix_variables_in_place_parallel. cbn [num_vars evaluations].
  destruct (Nat.leb_spec (length pp) n); [|lia].
  destruct (fvipp_steps pp sched n 0 l (2 ^ (n - length pp)) n) as (l' & E & Hl' & Hn); auto.
  - apply pow2_pos.
  - rewrite Nat.log2_pow2 by lia. lia.
  - rewrite Nat.log2_pow2 by lia. reflexivity.
  - rewrite Hl, <- pow2_split by lia. auto.
  - rewrite E. cbn [obind]. do 3 f_equal. apply firstn_table; auto.
    rewrite Hl', Hl. apply Nat.pow_le_mono_r; lia.
Qed.

Lemma fvipp_base sched n l p pp : length l = 2 ^ n -> length (p :: pp) <= n ->
  (forall k, valid_order (length l / 2) (sched k)) ->
  fix_variables_in_place_parallel sched (mkMle (Base l) n) (p :: pp)
  = Some (mkMle (Ext (low_table n l (p :: pp))) (n - length (p :: pp))).
Proof.
  intros Hl Hpp Hv. unfold fix_variables_in_place_parallel. cbn [num_vars evaluations].
  destruct (Nat.leb_spec (length (p :: pp)) n); [|lia].
  cbn [length] in *. destruct n as [|n]; [lia|].
  cbn [fvipp_loop fvipp_step]. rewrite (chunk_fix_table n) by auto. cbn [obind].
  assert (Hh : length (low_table (S n) l [p]) = 2 ^ n).
  { rewrite low_table_length. cbn [length]. f_equal. lia. }
  destruct (fvipp_steps pp sched (S n) 1 (low_table (S n) l [p]) (2 ^ (n - length pp)) n)
    as (l' & E & Hl' & Hn); auto.
  - intros k. rewrite Hh. rewrite Hl, half_pow in Hv. apply Hv.
  - apply pow2_pos.
  - rewrite Nat.log2_pow2 by lia. lia.
  - rewrite Nat.log2_pow2 by lia. reflexivity.
  - rewrite Hh, <- pow2_split by lia. auto.
  - rewrite E. cbn [obind]. f_equal. replace (S n - S (length pp))%nat with (n - length pp)%nat by lia.
    f_equal. f_equal. rewrite low_table_app by (cbn [length]; auto; lia).
    replace (S n - 1)%nat with n by lia. unfold low_table at 1. apply firstn_table; auto.
    rewrite Hl', Hh. apply Nat.pow_le_mono_r; lia.
Qed.

Lemma fvp_rest sched pp : forall i n l, length l = 2 ^ n -> length pp <= n ->
  (forall k, k < length pp -> valid_order (2 ^ (n - k)) (sched (i + k)%nat)) ->
  fvp_loop sched i pp (mkMle (Ext l) n) = Some (mkMle (Ext (low_table n l pp)) (n - length pp)).
Proof.
  induction pp as [|p pp IH]; intros i n l Hl Hpp Hv.
  - simpl. rewrite low_table_nil, Nat.sub_0_r by auto. reflexivity.
  - cbn [fvp_loop]. cbn [length] in *. rewrite fvipp_ext; [|auto|cbn [length]; lia|].
    + cbn [obind length]. rewrite IH; [|rewrite low_table_length; cbn [length]; auto|lia|].
      * rewrite <- low_table_app by (cbn [length]; auto; lia). do 2 f_equal. lia.
      * intros k Hk. replace (S i + k)%nat with (i + S k)%nat by lia.
        replace (n - 1 - k)%nat with (n - S k)%nat by lia. apply Hv. lia.
    + intros _. rewrite Hl. specialize (Hv 0%nat ltac:(lia)).
      rewrite Nat.sub_0_r, Nat.add_0_r in Hv. auto.
Qed.

(** Schedules for [fix_variables_parallel] on a table of [n] variables: round [i] works on a vector
    of length [2^(n-i)]. *)
Definition valid_sched (n : nat) (sched : nat -> list nat) : Prop :=
  forall i, 0 < i <= n -> valid_order (2 ^ (n - i)) (sched i).

Lemma fix_variables_parallel_spec sched m n l pp : is_table m n l -> length pp <= n -> pp <> [] ->
  valid_sched n sched ->
  fix_variables_parallel sched m pp = Some (mkMle (Ext (low_table n l pp)) (n - length pp)).
Proof.
  intros Hm Hpp Hne Hv. pose proof (is_table_slice _ _ _ Hm) as Hs. destruct Hm as (Hn & He & Hl).
  unfold fix_variables_parallel. rewrite Hn. destruct (Nat.leb_spec (length pp) n); [|lia].
  destruct pp as [|p pp]; [contradiction|]. cbn [length] in *. destruct n as [|n]; [lia|].
  rewrite Hs. cbn [obind]. rewrite (chunk_fix_table n) by auto. cbn [obind].
  replace (S n - 1)%nat with n by lia.
  rewrite mkExt_ok by (rewrite low_table_length; cbn [length]; f_equal; lia). cbn [obind].
  rewrite fvp_rest; [|rewrite low_table_length; cbn [length]; f_equal; lia|lia|].
  - cbn [obind num_vars]. replace (S n - S (length pp))%nat with (n - length pp)%nat by lia.
    rewrite Nat.eqb_refl. rewrite (low_table_app (S n) l p pp) by (cbn [length]; auto; lia).
    replace (S n - 1)%nat with n by lia. reflexivity.
  - intros k Hk. replace (n - k)%nat with (S n - (1 + k))%nat by lia. apply Hv. lia.
Qed.

Lemma fix_variables_parallel_nil sched m n l : is_table m n l -> fix_variables_parallel sched m [] = Some m.
Proof.
  intros (Hn & _). unfold fix_variables_parallel. rewrite Hn. simpl. rewrite Hn, Nat.sub_0_r, Nat.eqb_refl. reflexivity.
Qed.

Lemma evaluate_spec sched m n l pt : is_table m n l -> length pt = n -> valid_sched n sched ->
  evaluate sched m pt = Some (mle l pt).
Proof.
  intros Hm Hpt Hv. pose proof (is_table_slice _ _ _ Hm) as Hs. assert (Hm' := Hm).
  destruct Hm as (Hn & He & Hl).
  unfold evaluate. rewrite Hn, Hpt, Nat.eqb_refl.
  destruct pt as [|p pt].
  - rewrite (fix_variables_parallel_nil sched m n l Hm'). cbn [obind]. rewrite Hs. cbn [obind].
    cbn [length] in Hpt. rewrite <- Hpt in Hl. cbn [Nat.pow] in Hl. destruct l as [|x [|y l]]; try discriminate.
    unfold mle. rewrite mlef_nil. reflexivity.
  - rewrite (fix_variables_parallel_spec sched m n l) by (auto; try lia; discriminate).
    cbn [obind op_slice evaluations]. unfold low_table. rewrite Hpt, Nat.sub_diag.
    cbn [Nat.pow seq map]. rewrite plow_all. reflexivity.
Qed.

Lemma evaluate_wrong_len sched m pt : num_vars m <> length pt -> @evaluate K sched m pt = None.
Proof. intros H. unfold evaluate. destruct (Nat.eqb_spec (num_vars m) (length pt)); [contradiction|auto]. Qed.

(** The composition laws. *)
Lemma low_then_eval n l pp rest : length l = 2 ^ n -> length (pp ++ rest) = n ->
  mle (low_table n l pp) rest = mle l (pp ++ rest).
Proof.
  intros Hl Hn. rewrite app_length in Hn. unfold mle. rewrite mlef_app. apply mlef_ext.
  intros i Hi. change (at_ (low_table n l pp) i = plow (at_ l) pp i). apply low_table_at.
  replace (n - length pp)%nat with (length rest) by lia. auto.
Qed.
Lemma mlef_swap (f : nat -> nat -> K) r s :
  mlef (fun i => mlef (fun j => f i j) s) r = mlef (fun j => mlef (fun i => f i j) r) s.
Proof.
  revert f; induction r as [|x r IH]; intros f.
  - rewrite mlef_nil. apply mlef_ext. intros. rewrite mlef_nil. reflexivity.
  - rewrite mlef_cons. transitivity
      (mlef (fun i => mlef (fun j => f (2 * i)%nat j + x * (f (2 * i + 1)%nat j - f (2 * i)%nat j)) s) r).
    + apply mlef_ext. intros. rewrite mlef_add, mlef_scal, mlef_sub. reflexivity.
    + rewrite IH. apply mlef_ext. intros. rewrite mlef_cons. reflexivity.
Qed.
Lemma high_then_eval n l pp rest : length l = 2 ^ n -> length (rest ++ pp) = n ->
  mle (high_table n l pp) rest = mle l (rest ++ pp).
Proof.
  intros Hl Hn. rewrite app_length in Hn. unfold mle. rewrite mlef_app.
  transitivity (mlef (fun i => phigh n (at_ l) pp i) rest).
  - apply mlef_ext. intros i Hi. change (at_ (high_table n l pp) i = phigh n (at_ l) pp i).
    apply high_table_at. replace (n - length pp)%nat with (length rest) by lia. auto.
  - unfold phigh. rewrite mlef_swap. apply mlef_ext. intros j Hj. apply mlef_ext. intros i Hi.
    unfold at_. f_equal. replace (n - length pp)%nat with (length rest) by lia. reflexivity.
Qed.
End P.
