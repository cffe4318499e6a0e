(** Proofs about the Merkle tree model. *)
From Coq Require Import List Arith Lia Bool.
From Verif Require Import ListAux M_Mle M_Merkle P_Tensor.
Import ListNotations.

(** * Specification *)
Section Spec.
Context {B D : Type} (hb : list B -> D) (h2 : D -> D -> D).
(** The root of the binary tree over [2 ^ k] digests. *)
Fixpoint tree_root (k : nat) (l : list D) (d : D) : D :=
  match k with
  | O => hd d l
  | S k' => h2 (tree_root k' (firstn (2 ^ k') l) d) (tree_root k' (skipn (2 ^ k') l) d)
  end.
(** Calls of the two hash functions, and what a collision is. *)
Inductive query := QBases (l : list B) | QTwo (a b : D).
Definition answer (q : query) : D := match q with QBases l => hb l | QTwo a b => h2 a b end.
Definition collision (q1 q2 : query) : Prop :=
  q1 <> q2 /\ answer q1 = answer q2 /\
  match q1, q2 with QBases _, QBases _ | QTwo _ _, QTwo _ _ => True | _, _ => False end.
(** The calls made on the way from a leaf digest (at node [x] of its level) to the root. *)
Fixpoint walk_queries (path : list D) (h : D) (x : nat) : list query :=
  match path with
  | [] => []
  | p :: r => let q := if Nat.even x then QTwo h p else QTwo p h in q :: walk_queries r (answer q) (Nat.div2 x)
  end.
Definition some_collision (l1 l2 : list query) : Prop := exists q1 q2, In q1 l1 /\ In q2 l2 /\ collision q1 q2.
End Spec.
Arguments some_collision {B D} hb h2 l1 l2.

(** * Arithmetic of indices *)
Lemma lxor_even a : Nat.lxor (2 * a) 1 = 2 * a + 1.
Proof.
  apply Nat.bits_inj. intros n. rewrite Nat.lxor_spec. destruct n as [|n].
  - rewrite Nat.testbit_even_0, Nat.testbit_odd_0. reflexivity.
  - rewrite Nat.testbit_even_succ, Nat.testbit_odd_succ by lia. change 1 with (2 * 0 + 1). rewrite Nat.testbit_odd_succ by lia.
    rewrite Nat.bits_0. apply xorb_false_r.
Qed.
Lemma lxor_odd a : Nat.lxor (2 * a + 1) 1 = 2 * a.
Proof. rewrite <- lxor_even, Nat.lxor_assoc, Nat.lxor_nilpotent, Nat.lxor_0_r. reflexivity. Qed.
Lemma shiftr_1 x : Nat.shiftr x 1 = Nat.div2 x.
Proof. reflexivity. Qed.
Lemma shiftr_S x n : Nat.shiftr x (S n) = Nat.div2 (Nat.shiftr x n).
Proof. reflexivity. Qed.
Lemma shiftr_lt x k n : x < 2 ^ (k + n) -> Nat.shiftr x n < 2 ^ k.
Proof.
  intros H. rewrite Nat.shiftr_div_pow2. apply Nat.div_lt_upper_bound; [apply Nat.pow_nonzero; lia|].
  rewrite <- Nat.pow_add_r. now replace (n + k) with (k + n) by lia.
Qed.

Section P.
Context {B E D : Type} (as_bases : E -> list B) (emb : B -> E) (hb : list B -> D) (h2 : D -> D -> D) (deqb : D -> D -> bool).
Hypothesis deqb_ok : forall x y, deqb x y = true <-> x = y.
Notation pair_up := (pair_up h2).
Notation layers := (layers h2).
Notation walk := (walk h2).

(** * The tree *)
Lemma pair_up_length : forall n l, length l = 2 * n -> length (pair_up l) = n.
Proof.
  induction n as [|n IH]; intros l H.
  - destruct l; [reflexivity|cbn in H; lia].
  - destruct l as [|a [|b l]]; cbn in H; try lia. cbn. f_equal. apply IH. lia.
Qed.
Lemma pair_up_nth : forall i l d, 2 * i + 1 < length l -> nth i (pair_up l) d = h2 (nth (2 * i) l d) (nth (2 * i + 1) l d).
Proof.
  induction i as [|i IH]; intros l d H; destruct l as [|a [|b l]]; cbn [length] in H; try lia; [reflexivity|].
  cbn [M_Merkle.pair_up nth]. rewrite IH by lia. replace (2 * S i) with (S (S (2 * i))) by lia. replace (S (S (2 * i)) + 1) with (S (S (2 * i + 1))) by lia. reflexivity.
Qed.
Lemma pair_up_app : forall n l1 l2, length l1 = 2 * n -> pair_up (l1 ++ l2) = pair_up l1 ++ pair_up l2.
Proof.
  induction n as [|n IH]; intros l1 l2 H.
  - destruct l1; [reflexivity|cbn in H; lia].
  - destruct l1 as [|a [|b l]]; cbn in H; try lia. cbn. f_equal. apply IH. lia.
Qed.
Fixpoint level (j : nat) (l : list D) : list D := match j with O => l | S j' => pair_up (level j' l) end.
Lemma level_length k : forall j l, length l = 2 ^ (k + j) -> length (level j l) = 2 ^ k.
Proof.
  intros j. revert k. induction j as [|j IH]; intros k l H; cbn [level].
  - now rewrite Nat.add_0_r in H.
  - apply pair_up_length. rewrite (IH (S k)).
    + cbn [Nat.pow]. lia.
    + rewrite H. f_equal. lia.
Qed.
Lemma level_pair j l : level j (pair_up l) = level (S j) l.
Proof. induction j as [|j IH]; [reflexivity|]. cbn [level] in *. now rewrite IH. Qed.
Lemma level_app j : forall k l1 l2, length l1 = 2 ^ (k + j) -> level j (l1 ++ l2) = level j l1 ++ level j l2.
Proof.
  induction j as [|j IH]; intros k l1 l2 H; [reflexivity|]. rewrite <- !level_pair. rewrite (pair_up_app (2 ^ (k + j))).
  - apply (IH k). apply pair_up_length. rewrite H. replace (k + S j) with (S (k + j)) by lia. reflexivity.
  - rewrite H. replace (k + S j) with (S (k + j)) by lia. reflexivity.
Qed.
Lemma level_root d : forall k l, length l = 2 ^ k -> level k l = [tree_root h2 k l d].
Proof.
  induction k as [|k IH]; intros l H.
  - destruct l as [|a [|b l]]; cbn in H; try lia. reflexivity.
  - cbn [tree_root]. rewrite <- (firstn_skipn (2 ^ k) l) at 1.
    assert (L1 : length (firstn (2 ^ k) l) = 2 ^ k) by (rewrite firstn_length, H; cbn [Nat.pow]; lia).
    assert (L2 : length (skipn (2 ^ k) l) = 2 ^ k) by (rewrite skipn_length, H; cbn [Nat.pow]; lia).
    cbn [level].
    rewrite (level_app k 0) by exact L1. rewrite (IH _ L1), (IH _ L2). reflexivity.
Qed.
Lemma layers_spec first : forall k, layers (S k) first = map (fun j => level j first) (seq 0 (S k)).
Proof.
  intros k. unfold layers, M_Merkle.layers. replace (S k - 1) with k by lia. induction k as [|k IH]; [reflexivity|].
  replace (seq 1 (S k)) with (seq 1 k ++ [S k]) by (rewrite <- (Nat.add_1_r k) at 2; rewrite seq_app; reflexivity).
  rewrite fold_left_app, IH. cbn [fold_left]. rewrite (seq_S (S k) 0), map_app. f_equal. cbn [map]. f_equal.
  replace (S k - 1) with k by lia. rewrite nth_map_seq by lia. reflexivity.
Qed.

(** * Paths *)
Lemma walk_fold : forall path h x, walk path h x = fst (fold_left (fun s p => ((if Nat.even (snd s) then h2 (fst s) p else h2 p (fst s)), Nat.div2 (snd s))) path (h, Nat.div2 x)).
Proof.
  intros path h x. unfold walk, M_Merkle.walk. f_equal. rewrite shiftr_1. generalize (h, Nat.div2 x). induction path as [|p path IH]; intros [a y]; [reflexivity|]. cbn. apply IH.
Qed.
Definition sibling (x : nat) : nat := if Nat.even x then x + 1 else x - 1.
Lemma lxor_1 x : Nat.lxor x 1 = sibling x.
Proof.
  unfold sibling. destruct (Nat.even x) eqn:Ev.
  - apply Nat.even_spec in Ev. destruct Ev as [a ->]. apply lxor_even.
  - assert (O : Nat.odd x = true) by (unfold Nat.odd; now rewrite Ev). apply Nat.odd_spec in O. destruct O as [a ->]. rewrite lxor_odd. lia.
Qed.
Lemma div2_cases x : (Nat.even x = true /\ x = 2 * Nat.div2 x) \/ (Nat.even x = false /\ x = 2 * Nat.div2 x + 1).
Proof.
  destruct (Nat.even x) eqn:Ev.
  - left. split; auto. apply Nat.even_spec in Ev. destruct Ev as [a ->]. rewrite Nat.div2_double. reflexivity.
  - right. split; auto. assert (O : Nat.odd x = true) by (unfold Nat.odd; now rewrite Ev). apply Nat.odd_spec in O. destruct O as [a ->].
    replace (2 * a + 1) with (S (2 * a)) by lia. rewrite Nat.div2_succ_double. lia.
Qed.
Definition honest_path (first : list D) (d : D) (k x : nat) : list D :=
  map (fun j => nth (sibling (Nat.shiftr x (j + 1))) (level j first) d) (seq 0 k).
Lemma walk_honest first d k x : length first = 2 ^ k -> x < 2 ^ (S k) ->
  forall m j, m + j <= k ->
  fold_left (fun s p => ((if Nat.even (snd s) then h2 (fst s) p else h2 p (fst s)), Nat.div2 (snd s)))
    (map (fun j => nth (sibling (Nat.shiftr x (j + 1))) (level j first) d) (seq j m)) (nth (Nat.shiftr x (j + 1)) (level j first) d, Nat.shiftr x (j + 1))
  = (nth (Nat.shiftr x (m + j + 1)) (level (m + j) first) d, Nat.shiftr x (m + j + 1)).
Proof.
  intros Hl Hx. induction m as [|m IH]; intros j Hj; [reflexivity|]. cbn [seq map fold_left fst snd].
  set (y := Nat.shiftr x (j + 1)).
  assert (Hy : y < 2 ^ (k - j)) by (apply shiftr_lt; replace (k - j + (j + 1)) with (S k) by lia; auto).
  assert (Ll : length (level j first) = 2 ^ (k - j)) by (apply level_length; rewrite Hl; f_equal; lia).
  assert (P2 : 2 ^ (k - j) = 2 * 2 ^ (k - S j)) by (replace (k - j) with (S (k - S j)) by lia; reflexivity).
  assert (Estep : (if Nat.even y then h2 (nth y (level j first) d) (nth (sibling y) (level j first) d) else h2 (nth (sibling y) (level j first) d) (nth y (level j first) d)) = nth (Nat.div2 y) (level (S j) first) d).
  { unfold sibling. destruct (div2_cases y) as [[-> Ey]|[-> Ey]]; cbn [level]; rewrite pair_up_nth by lia; f_equal; f_equal; lia. }
  rewrite Estep. replace (Nat.div2 y) with (Nat.shiftr x (S j + 1)) by (unfold y; rewrite !Nat.add_1_r; reflexivity).
  rewrite IH by lia. replace (m + S j) with (S m + j) by lia. reflexivity.
Qed.
Lemma walk_root first d k x : length first = 2 ^ k -> x < 2 ^ (S k) ->
  walk (honest_path first d k x) (nth (Nat.div2 x) first d) x = tree_root h2 k first d.
Proof.
  intros Hl Hx. rewrite walk_fold. unfold honest_path. pose proof (walk_honest first d k x Hl Hx k 0 ltac:(lia)) as W.
  cbn [level] in W. change (Nat.shiftr x (0 + 1)) with (Nat.div2 x) in W. rewrite W. cbn [fst].
  rewrite Nat.add_0_r. rewrite (level_root d) by auto.
  assert (Nat.shiftr x (k + 1) < 2 ^ 0) by (apply shiftr_lt; replace (0 + (k + 1)) with (S k) by lia; auto).
  cbn [Nat.pow] in *. replace (Nat.shiftr x (k + 1)) with 0 by lia. reflexivity.
Qed.
(** The path of a tree. *)
Lemma combine_map_self {X Y} (f : X -> Y) l : combine l (map f l) = map (fun x => (x, f x)) l.
Proof. induction l; cbn; [reflexivity|]. now f_equal. Qed.
Lemma merkle_path_ok (v0 : @col B E) vs first d k x : col_len v0 = 2 ^ (S k) -> length first = 2 ^ k -> x < 2 ^ (S k) ->
  merkle_path (mkMt (layers (S k) first) (v0 :: vs)) x = Some (honest_path first d k x).
Proof.
  intros Hc Hl Hx. unfold merkle_path. cbn [mt_leaves mt_inner]. rewrite Hc. replace (x <? 2 ^ S k) with true by (symmetry; apply Nat.ltb_lt; auto).
  rewrite layers_spec. rewrite map_length, seq_length. replace (S k - 1) with k by lia.
  rewrite (seq_S k 0), map_app. rewrite firstn_app. rewrite map_length, seq_length, Nat.sub_diag. cbn [firstn]. rewrite app_nil_r.
  rewrite firstn_all2 by (rewrite map_length, seq_length; lia). rewrite combine_map_self.
  assert (G : forall l, (forall j, In j l -> j < k) ->
    omapM (fun p : nat * list D => nth_error (snd p) (Nat.lxor (Nat.shiftr x (fst p + 1)) 1)) (map (fun j => (j, level j first)) l)
    = Some (map (fun j => nth (sibling (Nat.shiftr x (j + 1))) (level j first) d) l)).
  { induction l as [|j l IH]; intros Hj; [reflexivity|]. cbn [map omapM fst snd]. rewrite lxor_1.
    assert (Hjk : j < k) by (apply Hj; now left).
    assert (Hy : Nat.shiftr x (j + 1) < 2 ^ (k - j)) by (apply shiftr_lt; replace (k - j + (j + 1)) with (S k) by lia; auto).
    assert (Ll : length (level j first) = 2 ^ (k - j)) by (apply level_length; rewrite Hl; f_equal; lia).
    assert (P2 : 2 ^ (k - j) = 2 * 2 ^ (k - S j)) by (replace (k - j) with (S (k - S j)) by lia; reflexivity).
    rewrite (nth_error_some d).
    - cbn [obind]. rewrite IH by (intros; apply Hj; now right). reflexivity.
    - rewrite Ll. unfold sibling. destruct (div2_cases (Nat.shiftr x (j + 1))) as [[-> Ey]|[-> Ey]]; lia. }
  apply G. intros j Hj. apply in_seq in Hj. lia.
Qed.

(** * Binding of the walk *)
Lemma walk_cons p path h x : walk (p :: path) h x =
  walk path (if Nat.even (Nat.div2 x) then h2 h p else h2 p h) (Nat.div2 x).
Proof. rewrite !walk_fold. reflexivity. Qed.
Notation queries := (walk_queries hb h2).
Lemma some_coll_app (a b c d : list (@query B D)) : some_collision hb h2 b d -> some_collision hb h2 (a ++ b) (c ++ d).
Proof. intros (q1 & q2 & I1 & I2 & C). exists q1, q2. repeat split; try apply C; apply in_or_app; now right. Qed.
Lemma dec (a b : D) : {a = b} + {a <> b}.
Proof. destruct (deqb a b) eqn:Eq; [left; now apply deqb_ok|right; intros C; apply deqb_ok in C; congruence]. Qed.
Lemma walk_binding : forall p1 p2 g1 g2 x, length p1 = length p2 -> walk p1 g1 x = walk p2 g2 x ->
  (g1 = g2 /\ p1 = p2) \/ some_collision hb h2 (queries p1 g1 (Nat.div2 x)) (queries p2 g2 (Nat.div2 x)).
Proof.
  induction p1 as [|p p1 IH]; intros [|p' p2] g1 g2 x Hl Hw; try discriminate; [left; auto|].
  rewrite !walk_cons in Hw. apply IH in Hw; auto. cbn [walk_queries].
  set (q1 := if Nat.even (Nat.div2 x) then QTwo g1 p else QTwo p g1).
  set (q2 := if Nat.even (Nat.div2 x) then QTwo g2 p' else QTwo p' g2).
  assert (A1 : answer hb h2 q1 = if Nat.even (Nat.div2 x) then h2 g1 p else h2 p g1) by (unfold q1; destruct Nat.even; reflexivity).
  assert (A2 : answer hb h2 q2 = if Nat.even (Nat.div2 x) then h2 g2 p' else h2 p' g2) by (unfold q2; destruct Nat.even; reflexivity).
  rewrite <- A1, <- A2 in Hw. destruct Hw as [[Ha Hp]|Hw].
  - destruct (dec g1 g2) as [->|Hg]; [destruct (dec p p') as [->|Hp']|].
    + left. subst. auto.
    + right. exists q1, q2. split; [now left|split; [now left|]]. split; [|split; [exact Ha|]].
      * unfold q1, q2. destruct Nat.even; intros C; injection C; auto.
      * unfold q1, q2. destruct Nat.even; exact I.
    + right. exists q1, q2. split; [now left|split; [now left|]]. split; [|split; [exact Ha|]].
      * unfold q1, q2. destruct Nat.even; intros C; injection C; auto.
      * unfold q1, q2. destruct Nat.even; exact I.
  - right. destruct Hw as (a & b & I1 & I2 & C). exists a, b. split; [now right|split; [now right|exact C]].
Qed.
End P.
