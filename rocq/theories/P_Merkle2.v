(** Completeness and binding of Merkle openings, for the four kinds of leaves. *)
From Coq Require Import List Arith Lia Bool.
From Verif Require Import ListAux M_Mle M_Merkle P_Tensor P_Merkle.
Import ListNotations.

Lemma omapM_map {A C X} (f : A -> option C) (g : X -> A) (r : X -> C) (l : list X) :
  (forall x, In x l -> f (g x) = Some (r x)) -> omapM f (map g l) = Some (map r l).
Proof.
  induction l as [|x l IH]; intros H; [reflexivity|]. cbn [map omapM]. rewrite (H x) by now left. cbn [obind].
  rewrite IH by (intros; apply H; now right). reflexivity.
Qed.
Lemma flat_map_inj {A C} (f : A -> list C) n : (forall x, length (f x) = n) -> (forall x y, f x = f y -> x = y) ->
  forall l1 l2, length l1 = length l2 -> flat_map f l1 = flat_map f l2 -> l1 = l2.
Proof.
  intros Hn Hf. induction l1 as [|a l1 IH]; intros [|b l2] Hl H; try discriminate; [reflexivity|]. cbn [flat_map] in H.
  assert (E1 : f a = f b).
  { apply (f_equal (firstn n)) in H. rewrite <- (Hn a) in H at 1. rewrite <- (Hn b) in H. rewrite !firstn_app, !firstn_all in H.
    rewrite !Nat.sub_diag in H. cbn [firstn] in H. now rewrite !app_nil_r in H. }
  rewrite E1 in H. apply app_inv_head in H. apply Hf in E1. subst. f_equal. apply IH; auto.
Qed.

Section P.
Context {B E D : Type} (as_bases : E -> list B) (emb : B -> E) (hb : list B -> D) (h2 : D -> D -> D) (deqb : D -> D -> bool).
Hypothesis deqb_ok : forall x y, deqb x y = true <-> x = y.
Notation from_batch_leaves := (from_batch_leaves as_bases emb hb h2).
Notation authenticate := (authenticate as_bases hb h2 deqb).
Notation authenticate_batch := (authenticate_batch as_bases hb h2 deqb).

(** * Completeness *)
(** Entry [i] of a column, as an extension element. *)
Definition ext_at (e : E) (c : @col B E) (i : nat) : E :=
  match c with CExt l => nth i l e | CBase l => match nth_error l i with Some b => emb b | None => e end end.
Lemma index_ext_ok e (c : @col B E) i : i < col_len c -> index_ext emb c i = Some (ext_at e c i).
Proof.
  destruct c as [l|l]; cbn [col_len index_ext ext_at]; intros H.
  - destruct (nth_error l i) eqn:N; [reflexivity|]. apply nth_error_None in N. lia.
  - now apply nth_error_some.
Qed.
(** The leaf digest of the pair number [i]. *)
Definition pair_digest_base (b : B) (ls : list (list B)) (i : nat) : D :=
  match ls with
  | [l] => hb [nth (2 * i) l b; nth (2 * i + 1) l b]
  | _ => h2 (hb (map (fun l => nth (2 * i) l b) ls)) (hb (map (fun l => nth (2 * i + 1) l b) ls))
  end.
Definition pair_digest_ext (e : E) (vs : list (@col B E)) (i : nat) : D :=
  match vs with
  | [v] => hb (as_bases (ext_at e v (2 * i)) ++ as_bases (ext_at e v (2 * i + 1)))
  | _ => h2 (hb (flat_map as_bases (map (fun v => ext_at e v (2 * i)) vs))) (hb (flat_map as_bases (map (fun v => ext_at e v (2 * i + 1)) vs)))
  end.
Lemma leaf_hash_base b ls n i : ls <> [] -> (forall l, In l ls -> length l = n) -> 2 * i + 1 < n ->
  leaf_hash as_bases emb hb h2 (map (fun l => CBase l) ls) i = Some (pair_digest_base b ls i).
Proof.
  intros Hne Hl Hi. destruct ls as [|l1 [|l2 ls]]; [congruence| |].
  - cbn [map leaf_hash]. rewrite !(nth_error_some b) by (rewrite (Hl l1 (or_introl eq_refl)); lia). reflexivity.
  - unfold leaf_hash. cbn [map].
    change (CBase l1 :: CBase l2 :: map (fun l => CBase l) ls) with (map (fun l : list B => @CBase B E l) (l1 :: l2 :: ls)).
    rewrite (omapM_map _ _ (fun l => nth (2 * i) l b)) by (intros l Il; apply nth_error_some; rewrite (Hl l Il); lia).
    rewrite (omapM_map _ _ (fun l => nth (2 * i + 1) l b)) by (intros l Il; apply nth_error_some; rewrite (Hl l Il); lia).
    reflexivity.
Qed.
Lemma leaf_hash_ext e l0 vs n i : (forall v, In v (CExt l0 :: vs) -> col_len v = n) -> 2 * i + 1 < n ->
  leaf_hash as_bases emb hb h2 (CExt l0 :: vs) i = Some (pair_digest_ext e (CExt l0 :: vs) i).
Proof.
  intros Hl Hi. destruct vs as [|v vs].
  - cbn [leaf_hash]. specialize (Hl (CExt l0) (or_introl eq_refl)). cbn [col_len] in Hl. rewrite !(nth_error_some e) by lia. reflexivity.
  - unfold leaf_hash.
    assert (O : forall j, j < n -> omapM (fun v => index_ext emb v j) (CExt l0 :: v :: vs) = Some (map (fun v => ext_at e v j) (CExt l0 :: v :: vs))).
    { intros j Hj. rewrite <- (map_id (CExt l0 :: v :: vs)) at 1. apply omapM_map. intros w Hw. apply index_ext_ok. rewrite (Hl w Hw). lia. }
    rewrite !O by lia. reflexivity.
Qed.
Lemma merkelize_gen (v0 : @col B E) vs k F : col_len v0 = 2 ^ S k -> (forall i, i < 2 ^ k -> leaf_hash as_bases emb hb h2 (v0 :: vs) i = Some (F i)) ->
  from_batch_leaves (v0 :: vs) = Some (mkMt (layers h2 (S k) (map F (seq 0 (2 ^ k)))) (v0 :: vs)).
Proof.
  intros Hl HF. unfold M_Merkle.from_batch_leaves, merkelize. rewrite Hl. unfold log2_strict.
  assert (P : is_pow2 (2 ^ S k) = true).
  { unfold is_pow2. rewrite Nat.log2_pow2 by lia. rewrite Nat.eqb_refl. assert (2 ^ S k <> 0) by (apply Nat.pow_nonzero; lia).
    replace (0 <? 2 ^ S k) with true; [reflexivity|]. symmetry. apply Nat.ltb_lt. lia. }
  rewrite P. rewrite Nat.log2_pow2 by lia. cbn [obind]. replace (2 ^ S k / 2) with (2 ^ k) by (cbn [Nat.pow]; rewrite Nat.mul_comm, Nat.div_mul; lia).
  rewrite <- (map_id (seq 0 (2 ^ k))) at 1. rewrite (omapM_map _ _ F); [reflexivity|]. intros i Hi. apply in_seq in Hi. apply HF. lia.
Qed.
Lemma root_gen (vs : list (@col B E)) k first d : length first = 2 ^ k -> mt_root (mkMt (layers h2 (S k) first) vs) = Some (tree_root h2 k first d).
Proof.
  intros Hl. unfold mt_root. cbn [mt_inner]. rewrite layers_spec. rewrite seq_S, map_app, rev_app_distr. cbn [map rev app Nat.add].
  rewrite (level_root _ d) by auto. reflexivity.
Qed.
Lemma half_bounds x k : x < 2 ^ S k -> Nat.div2 x < 2 ^ k /\ 2 * Nat.div2 x + 1 < 2 ^ S k.
Proof. intros H. destruct (div2_cases x) as [[_ Ex]|[_ Ex]]; cbn [Nat.pow] in *; lia. Qed.

Lemma path_complete_base b ls k x : ls <> [] -> (forall l, In l ls -> length l = 2 ^ S k) -> x < 2 ^ S k ->
  exists t path root,
    from_batch_leaves (map (fun l => CBase l) ls) = Some t /\ merkle_path t x = Some path /\ mt_root t = Some root /\
    length path = k /\
    get_leaf_as_base t (2 * (x / 2)) = Some (map (fun l => nth (2 * (x / 2)) l b) ls) /\
    get_leaf_as_base t (2 * (x / 2) + 1) = Some (map (fun l => nth (2 * (x / 2) + 1) l b) ls) /\
    authenticate_batch path (CBase (map (fun l => nth (2 * (x / 2)) l b) ls)) (CBase (map (fun l => nth (2 * (x / 2) + 1) l b) ls)) x root = Some tt /\
    (forall l, ls = [l] -> authenticate path (CBase [nth (2 * (x / 2)) l b; nth (2 * (x / 2) + 1) l b]) x root = Some tt).
Proof.
  intros Hne Hl Hx. destruct (half_bounds x k Hx) as [Hh1 Hh2].
  assert (X2 : x / 2 = Nat.div2 x) by (rewrite Nat.div2_div; reflexivity). rewrite X2.
  set (F := pair_digest_base b ls). set (first := map F (seq 0 (2 ^ k))).
  assert (Lf : length first = 2 ^ k) by (unfold first; now rewrite map_length, seq_length).
  destruct ls as [|l0 ls']; [congruence|]. set (ls := l0 :: ls') in *.
  exists (mkMt (layers h2 (S k) first) (map (fun l => CBase l) ls)), (honest_path h2 first (F 0) k x), (tree_root h2 k first (F 0)).
  assert (W : walk h2 (honest_path h2 first (F 0) k x) (F (Nat.div2 x)) x = tree_root h2 k first (F 0)).
  { rewrite <- (walk_root h2 first (F 0) k x Lf Hx). f_equal. unfold first. rewrite nth_map_seq by auto. reflexivity. }
  assert (DQ : deqb (tree_root h2 k first (F 0)) (tree_root h2 k first (F 0)) = true) by now apply deqb_ok.
  split; [|split; [|split; [|split; [|split; [|split; [|split]]]]]].
  - change (map (fun l => CBase l) ls) with (@CBase B E l0 :: map (fun l => CBase l) ls'). apply merkelize_gen.
    + cbn [col_len]. apply Hl. now left.
    + intros i Hi. apply (leaf_hash_base b ls (2 ^ S k)); auto. cbn [Nat.pow]. lia.
  - apply merkle_path_ok; auto. cbn [col_len]. apply Hl. now left.
  - now apply root_gen.
  - unfold honest_path. now rewrite map_length, seq_length.
  - unfold get_leaf_as_base. cbn [mt_leaves map ls]. change (@CBase B E l0 :: map (fun l => CBase l) ls') with (map (fun l => @CBase B E l) ls).
    refine (omapM_map _ _ (fun l => nth (2 * Nat.div2 x) l b) ls _). intros l Il. apply nth_error_some. rewrite (Hl l Il). lia.
  - unfold get_leaf_as_base. cbn [mt_leaves map ls]. change (@CBase B E l0 :: map (fun l => CBase l) ls') with (map (fun l => @CBase B E l) ls).
    refine (omapM_map _ _ (fun l => nth (2 * Nat.div2 x + 1) l b) ls _). intros l Il. apply nth_error_some. rewrite (Hl l Il). lia.
  - unfold M_Merkle.authenticate_batch.
    assert (BL : batch_leaf as_bases hb h2 (CBase (map (fun l => nth (2 * Nat.div2 x) l b) ls)) (CBase (map (fun l => nth (2 * Nat.div2 x + 1) l b) ls)) = Some (F (Nat.div2 x))).
    { unfold batch_leaf. cbn [col_len]. rewrite map_length. unfold F, pair_digest_base, ls. destruct ls' as [|l1 ls']; reflexivity. }
    rewrite BL. cbn [obind]. rewrite W, DQ. reflexivity.
  - intros l Hll. unfold M_Merkle.authenticate. cbn [obind]. unfold hash_two_leaves_base.
    replace (hb [nth (2 * Nat.div2 x) l b; nth (2 * Nat.div2 x + 1) l b]) with (F (Nat.div2 x)) by (unfold F, pair_digest_base; rewrite Hll; reflexivity).
    rewrite W, DQ. reflexivity.
Qed.
Lemma path_complete_ext e l0 vs k x : (forall v, In v (CExt l0 :: vs) -> col_len v = 2 ^ S k) -> x < 2 ^ S k ->
  exists t path root lft rgt,
    from_batch_leaves (CExt l0 :: vs) = Some t /\ merkle_path t x = Some path /\ mt_root t = Some root /\
    length path = k /\
    get_leaf_as_extension emb t (2 * (x / 2)) = Some lft /\ get_leaf_as_extension emb t (2 * (x / 2) + 1) = Some rgt /\
    lft = map (fun v => ext_at e v (2 * (x / 2))) (CExt l0 :: vs) /\ rgt = map (fun v => ext_at e v (2 * (x / 2) + 1)) (CExt l0 :: vs) /\
    authenticate_batch path (CExt lft) (CExt rgt) x root = Some tt /\
    (vs = [] -> authenticate path (CExt [nth (2 * (x / 2)) l0 e; nth (2 * (x / 2) + 1) l0 e]) x root = Some tt).
Proof.
  intros Hl Hx. destruct (half_bounds x k Hx) as [Hh1 Hh2].
  assert (X2 : x / 2 = Nat.div2 x) by (rewrite Nat.div2_div; reflexivity). rewrite X2.
  set (F := pair_digest_ext e (CExt l0 :: vs)). set (first := map F (seq 0 (2 ^ k))).
  assert (Lf : length first = 2 ^ k) by (unfold first; now rewrite map_length, seq_length).
  assert (C0 : col_len (@CExt B E l0) = 2 ^ S k) by (apply Hl; now left).
  exists (mkMt (layers h2 (S k) first) (CExt l0 :: vs)), (honest_path h2 first (F 0) k x), (tree_root h2 k first (F 0)),
    (map (fun v => ext_at e v (2 * Nat.div2 x)) (CExt l0 :: vs)), (map (fun v => ext_at e v (2 * Nat.div2 x + 1)) (CExt l0 :: vs)).
  assert (W : walk h2 (honest_path h2 first (F 0) k x) (F (Nat.div2 x)) x = tree_root h2 k first (F 0)).
  { rewrite <- (walk_root h2 first (F 0) k x Lf Hx). f_equal. unfold first. rewrite nth_map_seq by auto. reflexivity. }
  assert (DQ : deqb (tree_root h2 k first (F 0)) (tree_root h2 k first (F 0)) = true) by now apply deqb_ok.
  assert (O : forall j, j < 2 ^ S k -> omapM (fun v => index_ext emb v j) (CExt l0 :: vs) = Some (map (fun v => ext_at e v j) (CExt l0 :: vs))).
  { intros j Hj. rewrite <- (map_id (CExt l0 :: vs)) at 1. apply omapM_map. intros w Hw. apply index_ext_ok. rewrite (Hl w Hw). lia. }
  split; [|split; [|split; [|split; [|split; [|split; [|split; [|split; [|split]]]]]]]]; try reflexivity.
  - apply merkelize_gen; auto. intros i Hi. apply (leaf_hash_ext e l0 vs (2 ^ S k)); auto. cbn [Nat.pow]. lia.
  - now apply merkle_path_ok.
  - now apply root_gen.
  - unfold honest_path. now rewrite map_length, seq_length.
  - unfold get_leaf_as_extension. cbn [mt_leaves]. apply O. lia.
  - unfold get_leaf_as_extension. cbn [mt_leaves]. apply O. lia.
  - unfold M_Merkle.authenticate_batch.
    assert (BL : batch_leaf as_bases hb h2 (CExt (map (fun v => ext_at e v (2 * Nat.div2 x)) (CExt l0 :: vs))) (CExt (map (fun v => ext_at e v (2 * Nat.div2 x + 1)) (CExt l0 :: vs))) = Some (F (Nat.div2 x))).
    { unfold batch_leaf. cbn [col_len]. rewrite map_length. unfold F, pair_digest_ext. destruct vs as [|v1 vs']; reflexivity. }
    rewrite BL. cbn [obind]. rewrite W, DQ. reflexivity.
  - intros ->. unfold M_Merkle.authenticate. cbn [obind]. unfold hash_two_leaves.
    change (hb (as_bases (nth (2 * Nat.div2 x) l0 e) ++ as_bases (nth (2 * Nat.div2 x + 1) l0 e))) with (F (Nat.div2 x)).
    rewrite W, DQ. reflexivity.
Qed.
(** The root is the hash tree of the leaf pairs, for every index the same. *)
Lemma root_spec_base b ls k : ls <> [] -> (forall l, In l ls -> length l = 2 ^ S k) ->
  exists t, from_batch_leaves (map (fun l => CBase l) ls) = Some t /\
    mt_root t = Some (tree_root h2 k (map (fun i => match ls with
      | [l] => hb [nth (2 * i) l b; nth (2 * i + 1) l b]
      | _ => h2 (hb (map (fun l => nth (2 * i) l b) ls)) (hb (map (fun l => nth (2 * i + 1) l b) ls)) end) (seq 0 (2 ^ k))) (hb [])).
Proof.
  intros Hne Hl. destruct ls as [|l0 ls']; [congruence|].
  exists (mkMt (layers h2 (S k) (map (pair_digest_base b (l0 :: ls')) (seq 0 (2 ^ k)))) (map (fun l => CBase l) (l0 :: ls'))). split.
  - cbn [map]. apply merkelize_gen.
    + cbn [col_len]. apply Hl. now left.
    + intros i Hi. apply (leaf_hash_base b (l0 :: ls') (2 ^ S k)); auto. cbn [Nat.pow]. lia.
  - apply root_gen. now rewrite map_length, seq_length.
Qed.

(** * Binding *)
Definition leaf_queries_base (a b : list B) : list (@query B D) :=
  if 1 <? length a then [QBases a; QBases b; QTwo (hb a) (hb b)] else [QBases (a ++ b)].
Definition open_queries_base (path : list D) (a b : list B) (x : nat) : list (@query B D) :=
  leaf_queries_base a b ++ walk_queries hb h2 path (if 1 <? length a then h2 (hb a) (hb b) else hb (a ++ b)) (x / 2).
Definition ebases (l : list E) : list B := flat_map as_bases l.
Definition open_queries_ext (path : list D) (a b : list E) (x : nat) : list (@query B D) :=
  (if 1 <? length a then [QBases (ebases a); QBases (ebases b); QTwo (hb (ebases a)) (hb (ebases b))] else [QBases (ebases a ++ ebases b)])
  ++ walk_queries hb h2 path (if 1 <? length a then h2 (hb (ebases a)) (hb (ebases b)) else hb (ebases a ++ ebases b)) (x / 2).

Lemma app_inv_len {A} (a b c d : list A) : length a = length c -> a ++ b = c ++ d -> a = c /\ b = d.
Proof.
  revert c. induction a as [|x a IH]; intros [|y c] Hl H; try discriminate; [auto|]. cbn in H. injection H as -> H.
  destruct (IH c) as [-> ->]; auto.
Qed.
(** Two batches of base elements with equal digests. *)
Lemma two_collision (a1 b1 a2 b2 : D) : h2 a1 b1 = h2 a2 b2 -> (a1 = a2 /\ b1 = b2) \/ collision hb h2 (QTwo a1 b1) (QTwo a2 b2).
Proof.
  intros H. destruct (dec deqb deqb_ok a1 a2) as [->|Ha]; [destruct (dec deqb deqb_ok b1 b2) as [->|Hb]|]; [left; auto| |];
    right; (split; [|split; [exact H|exact I]]); intros C; injection C; auto.
Qed.
Lemma bases_eq_or_collision (bdec : forall x y : B, {x = y} + {x <> y}) (a1 a2 : list B) : hb a1 = hb a2 -> a1 = a2 \/ collision hb h2 (QBases a1) (QBases a2).
Proof.
  intros H. destruct (list_eq_dec bdec a1 a2) as [->|Hn]; [left; auto|]. right. split; [|split; [exact H|exact I]]. intros C. injection C; auto.
Qed.
Lemma open_binding (bdec : forall x y : B, {x = y} + {x <> y}) (many : bool) p1 p2 (u1 v1 u2 v2 : list B) x :
  length p1 = length p2 -> length u1 = length u2 ->
  let g := fun (u v : list B) => if many then h2 (hb u) (hb v) else hb (u ++ v) in
  let lq := fun (u v : list B) => if many then [QBases u; QBases v; QTwo (hb u) (hb v)] else [QBases (u ++ v)] in
  walk h2 p1 (g u1 v1) x = walk h2 p2 (g u2 v2) x ->
  (u1 = u2 /\ v1 = v2 /\ p1 = p2) \/
  some_collision hb h2 (lq u1 v1 ++ walk_queries hb h2 p1 (g u1 v1) (Nat.div2 x)) (lq u2 v2 ++ walk_queries hb h2 p2 (g u2 v2) (Nat.div2 x)).
Proof.
  intros Hp Hu g lq Hw. apply (walk_binding hb h2 deqb deqb_ok) in Hw; auto. destruct Hw as [[Hg ->]|C]; [|right; now apply some_coll_app].
  unfold g, lq in *. destruct many.
  - apply two_collision in Hg. destruct Hg as [[Ha Hb]|C].
    + apply (bases_eq_or_collision bdec) in Ha, Hb. destruct Ha as [->|C]; [destruct Hb as [->|C]; [left; auto|]|].
      * right. exists (QBases v1), (QBases v2). split; [|split; [|exact C]]; cbn; auto.
      * right. exists (QBases u1), (QBases u2). split; [|split; [|exact C]]; cbn; auto.
    + right. eexists _, _. split; [|split; [|exact C]]; cbn; auto.
  - apply (bases_eq_or_collision bdec) in Hg. destruct Hg as [Hg|C].
    + apply app_inv_len in Hg; auto. destruct Hg as [-> ->]. left; auto.
    + right. eexists _, _. split; [|split; [|exact C]]; cbn; auto.
Qed.
Lemma auth_batch_base_walk path (a b : list B) x root : length a = length b -> authenticate_batch path (CBase a) (CBase b) x root = Some tt ->
  a <> [] /\ walk h2 path (if 1 <? length a then h2 (hb a) (hb b) else hb (a ++ b)) x = root.
Proof.
  intros Hl. unfold M_Merkle.authenticate_batch, batch_leaf. cbn [col_len]. destruct (1 <? length a) eqn:L.
  - cbn [obind]. unfold hash_two_leaves_batch_base. destruct (deqb _ _) eqn:Q; [|discriminate]. intros _. apply deqb_ok in Q. split; auto.
    intros ->. discriminate.
  - apply Nat.ltb_ge in L. destruct a as [|a0 [|a1 a]]; cbn [length] in *; try lia; [discriminate|].
    destruct b as [|b0 [|b1 b]]; cbn [length] in *; try lia. cbn [nth_error obind]. unfold hash_two_leaves_base.
    destruct (deqb _ _) eqn:Q; [|discriminate]. intros _. apply deqb_ok in Q. split; [discriminate|auto].
Qed.
Lemma auth_batch_ext_walk path (a b : list E) x root : length a = length b -> authenticate_batch path (CExt a) (CExt b) x root = Some tt ->
  a <> [] /\ walk h2 path (if 1 <? length a then h2 (hb (ebases a)) (hb (ebases b)) else hb (ebases a ++ ebases b)) x = root.
Proof.
  intros Hl. unfold M_Merkle.authenticate_batch, batch_leaf. cbn [col_len]. destruct (1 <? length a) eqn:L.
  - cbn [obind]. unfold hash_two_leaves_batch_ext. destruct (deqb _ _) eqn:Q; [|discriminate]. intros _. apply deqb_ok in Q. split; auto.
    intros ->. discriminate.
  - apply Nat.ltb_ge in L. destruct a as [|a0 [|a1 a]]; cbn [length] in *; try lia; [discriminate|].
    destruct b as [|b0 [|b1 b]]; cbn [length] in *; try lia. cbn [nth_error obind]. unfold hash_two_leaves.
    destruct (deqb _ _) eqn:Q; [|discriminate]. intros _. apply deqb_ok in Q. split; [discriminate|].
    unfold ebases. cbn [flat_map]. rewrite !app_nil_r. auto.
Qed.
Lemma batch_binding_base (bdec : forall x y : B, {x = y} + {x <> y}) p1 p2 a1 b1 a2 b2 x root :
  length p1 = length p2 -> length a1 = length a2 -> length a1 = length b1 -> length a2 = length b2 ->
  authenticate_batch p1 (CBase a1) (CBase b1) x root = Some tt -> authenticate_batch p2 (CBase a2) (CBase b2) x root = Some tt ->
  (a1 = a2 /\ b1 = b2 /\ p1 = p2) \/ some_collision hb h2 (open_queries_base p1 a1 b1 x) (open_queries_base p2 a2 b2 x).
Proof.
  intros Hp Ha H1 H2 A1 A2. apply auth_batch_base_walk in A1, A2; auto. destruct A1 as [_ A1], A2 as [_ A2].
  unfold open_queries_base, leaf_queries_base. rewrite <- Nat.div2_div. rewrite <- Ha in *.
  apply (open_binding bdec (1 <? length a1)); auto. congruence.
Qed.
Lemma batch_binding_ext (bdec : forall x y : B, {x = y} + {x <> y}) n p1 p2 a1 b1 a2 b2 x root :
  (forall e, length (as_bases e) = n) -> (forall e e', as_bases e = as_bases e' -> e = e') ->
  length p1 = length p2 -> length a1 = length a2 -> length a1 = length b1 -> length a2 = length b2 ->
  authenticate_batch p1 (CExt a1) (CExt b1) x root = Some tt -> authenticate_batch p2 (CExt a2) (CExt b2) x root = Some tt ->
  (a1 = a2 /\ b1 = b2 /\ p1 = p2) \/ some_collision hb h2 (open_queries_ext p1 a1 b1 x) (open_queries_ext p2 a2 b2 x).
Proof.
  intros Hn Hi Hp Ha H1 H2 A1 A2. apply auth_batch_ext_walk in A1, A2; auto. destruct A1 as [_ A1], A2 as [_ A2].
  unfold open_queries_ext. rewrite <- Nat.div2_div. rewrite <- Ha in *.
  assert (Le : forall l : list E, length (ebases l) = n * length l).
  { intros l. unfold ebases. induction l as [|y l IH]; cbn [flat_map length]; [lia|]. rewrite app_length, Hn, IH. lia. }
  pose proof (open_binding bdec (1 <? length a1) p1 p2 (ebases a1) (ebases b1) (ebases a2) (ebases b2) x Hp) as O. cbv zeta in O.
  rewrite !Le in O. destruct O as [(E1 & E2 & E3)|C]; [congruence|congruence| |right; exact C].
  left. split; [|split; [|exact E3]]; apply (flat_map_inj as_bases n Hn Hi); auto; congruence.
Qed.
(** The functions for a single column. *)
Lemma authenticate_as_batch_base path a b x root : authenticate path (CBase [a; b]) x root = authenticate_batch path (CBase [a]) (CBase [b]) x root.
Proof. reflexivity. Qed.
Lemma authenticate_as_batch_ext path a b x root : authenticate path (CExt [a; b]) x root = authenticate_batch path (CExt [a]) (CExt [b]) x root.
Proof. reflexivity. Qed.
Lemma single_binding_base (bdec : forall x y : B, {x = y} + {x <> y}) p1 p2 a1 b1 a2 b2 x root : length p1 = length p2 ->
  authenticate p1 (CBase [a1; b1]) x root = Some tt -> authenticate p2 (CBase [a2; b2]) x root = Some tt ->
  (a1 = a2 /\ b1 = b2 /\ p1 = p2) \/ some_collision hb h2 (open_queries_base p1 [a1] [b1] x) (open_queries_base p2 [a2] [b2] x).
Proof.
  intros Hp A1 A2. destruct (batch_binding_base bdec p1 p2 [a1] [b1] [a2] [b2] x root) as [(E1 & E2 & E3)|C]; auto.
  left. injection E1 as ->. injection E2 as ->. auto.
Qed.
Lemma single_binding_ext (bdec : forall x y : B, {x = y} + {x <> y}) n p1 p2 a1 b1 a2 b2 x root :
  (forall e, length (as_bases e) = n) -> (forall e e', as_bases e = as_bases e' -> e = e') -> length p1 = length p2 ->
  authenticate p1 (CExt [a1; b1]) x root = Some tt -> authenticate p2 (CExt [a2; b2]) x root = Some tt ->
  (a1 = a2 /\ b1 = b2 /\ p1 = p2) \/ some_collision hb h2 (open_queries_ext p1 [a1] [b1] x) (open_queries_ext p2 [a2] [b2] x).
Proof.
  intros Hn Hi Hp A1 A2. destruct (batch_binding_ext bdec n p1 p2 [a1] [b1] [a2] [b2] x root) as [(E1 & E2 & E3)|C]; auto.
  left. injection E1 as ->. injection E2 as ->. auto.
Qed.

(** * Missing checks *)
(** The right batch of an opening with one column may carry any further values. *)
Lemma width_unchecked path a b junk x root :
  authenticate_batch path (CBase [a]) (CBase (b :: junk)) x root = authenticate_batch path (CBase [a]) (CBase [b]) x root.
Proof. reflexivity. Qed.
(** Only the low bits of the index are used. *)
Lemma walk_index : forall path h x y, x / 2 mod 2 ^ length path = y / 2 mod 2 ^ length path -> walk h2 path h x = walk h2 path h y.
Proof.
  assert (G : forall path h x y, x mod 2 ^ length path = y mod 2 ^ length path ->
    fst (fold_left (fun s p => ((if Nat.even (snd s) then h2 (fst s) p else h2 p (fst s)), Nat.div2 (snd s))) path (h, x)) =
    fst (fold_left (fun s p => ((if Nat.even (snd s) then h2 (fst s) p else h2 p (fst s)), Nat.div2 (snd s))) path (h, y))).
  { induction path as [|p path IH]; intros h x y H; [reflexivity|]. cbn [fold_left fst snd length Nat.pow] in *.
    assert (Hz : 2 ^ length path <> 0) by (apply Nat.pow_nonzero; lia).
    assert (M : forall z, z mod (2 * 2 ^ length path) = z mod 2 + 2 * ((z / 2) mod 2 ^ length path)) by (intros z; apply Nat.mod_mul_r; lia).
    rewrite !M in H. pose proof (Nat.mod_upper_bound x 2 ltac:(lia)). pose proof (Nat.mod_upper_bound y 2 ltac:(lia)).
    assert (Ee : Nat.even x = Nat.even y).
    { destruct (div2_cases x) as [[-> Ex]|[-> Ex]], (div2_cases y) as [[-> Ey]|[-> Ey]]; auto; exfalso;
        pose proof (Nat.div2_div x); pose proof (Nat.div2_div y); pose proof (Nat.div_mod_eq x 2); pose proof (Nat.div_mod_eq y 2); lia. }
    rewrite Ee. apply IH. rewrite !Nat.div2_div. lia. }
  intros path h x y H. rewrite !walk_fold. apply G. now rewrite !Nat.div2_div.
Qed.
End P.
