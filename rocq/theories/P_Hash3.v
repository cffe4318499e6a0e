(** Merkle trees with the Poseidon hasher: binding down to the permutation, and what the missing length and kind checks allow. *)
From Coq Require Import List Arith Lia Bool ZArith.
From Verif Require Import ListAux FieldDef M_Mle M_Hash M_Merkle P_Tensor P_Merkle P_Merkle2 P_Hash P_Hash2.
Import ListNotations.

Section PM.
Context {F E : Type} (zero : F) (perm : list F -> list F) (as_bases : E -> list F) (of_bases : F -> F -> E) (emb : F -> E) (deqb : list F -> list F -> bool).
Hypothesis perm_len : forall s, length s = 8 -> length (perm s) = 8.
Hypothesis deqb_ok : forall x y, deqb x y = true <-> x = y.
Hypothesis bases_ok : forall a b, as_bases (of_bases a b) = [a; b].

(** mpcs/src/util/hash.rs:52-57, the two functions of [PoseidonHasher]; both always return a digest. *)
Definition pos_hash (xs : list F) : list F := match hash_or_noop zero perm xs with Some d => d | None => [] end.
Definition pos_two (x y : list F) : list F := match compress zero perm x y with Some d => d | None => [] end.
Lemma pos_hash_some xs : hash_or_noop zero perm xs = Some (pos_hash xs) /\ length (pos_hash xs) = 4.
Proof. unfold pos_hash. destruct (hash_or_noop_total zero perm perm_len xs) as (d & -> & L). auto. Qed.
Lemma pos_two_some x y : compress zero perm x y = Some (pos_two x y) /\ length (pos_two x y) = 4.
Proof. unfold pos_two. destruct (compress_total zero perm perm_len x y) as (d & -> & L). auto. Qed.
Lemma pos_hash_4 d : length d = 4 -> pos_hash d = d.
Proof. intros H. unfold pos_hash, hash_or_noop, digest_width. rewrite H. cbn [Nat.leb]. unfold from_partial, digest_width. rewrite H. cbn. apply app_nil_r. Qed.

Notation authenticate := (authenticate as_bases pos_hash pos_two deqb).
Notation authenticate_batch := (authenticate_batch as_bases pos_hash pos_two deqb).
Notation from_batch_leaves := (from_batch_leaves as_bases emb pos_hash pos_two).

(** * Binding *)
Definition query_inputs (q : @query F (list F)) : list (list F) :=
  match q with QBases l => hash_inputs zero perm l | QTwo a b => perm_inputs perm (zeros zero) [a; b] end.
Definition run_inputs (l : list (@query F (list F))) : list (list F) := flat_map query_inputs l.
Lemma walk_queries_lens : forall path h x, length h = 4 -> Forall (fun d => length d = 4) path ->
  forall q, In q (walk_queries pos_hash pos_two path h x) -> match q with QBases _ => False | QTwo a b => length a = 4 /\ length b = 4 end.
Proof.
  induction path as [|p path IH]; intros h x Hh Hp q; [intros []|]. inversion Hp; subst. cbn [walk_queries]. intros [<-|Hq].
  - destruct (Nat.even x); auto.
  - apply IH in Hq; auto. destruct (Nat.even x); apply pos_two_some.
Qed.
Lemma collide_lift n (l1 l2 : list (@query F (list F))) (F_dec : forall x y : F, {x = y} + {x <> y}) :
  (forall q, In q l1 -> match q with QBases l => length l = n | QTwo a b => length a = 4 /\ length b = 4 end) ->
  (forall q, In q l2 -> match q with QBases l => length l = n | QTwo a b => length a = 4 /\ length b = 4 end) ->
  some_collision pos_hash pos_two l1 l2 -> runs_collide perm (run_inputs l1) (run_inputs l2).
Proof.
  intros H1 H2 (q1 & q2 & I1 & I2 & Hn & Ha & Hk).
  assert (C : runs_collide perm (query_inputs q1) (query_inputs q2)).
  { specialize (H1 q1 I1). specialize (H2 q2 I2). destruct q1 as [x|a b], q2 as [y|c d]; try contradiction; cbn [answer query_inputs] in *.
    - destruct (hash_binding zero perm perm_len F_dec x y) as [->|C]; [congruence| |congruence|exact C].
      destruct (pos_hash_some x) as [-> _], (pos_hash_some y) as [-> _]. now rewrite Ha.
    - destruct (compress_binding zero perm perm_len F_dec a b c d) as [[-> ->]|C]; try tauto.
      destruct (pos_two_some a b) as [-> _], (pos_two_some c d) as [-> _]. now rewrite Ha. }
  destruct C as (s1 & s2 & J1 & J2 & C). exists s1, s2. split; [|split; [|exact C]]; apply in_flat_map; eauto.
Qed.
Lemma pos_binding_base (F_dec : forall x y : F, {x = y} + {x <> y}) p1 p2 a1 b1 a2 b2 x root :
  Forall (fun d => length d = 4) p1 -> Forall (fun d => length d = 4) p2 ->
  length p1 = length p2 -> length a1 = length a2 -> length a1 = length b1 -> length a2 = length b2 ->
  authenticate_batch p1 (CBase a1) (CBase b1) x root = Some tt -> authenticate_batch p2 (CBase a2) (CBase b2) x root = Some tt ->
  (a1 = a2 /\ b1 = b2 /\ p1 = p2) \/
  runs_collide perm (run_inputs (open_queries_base pos_hash pos_two p1 a1 b1 x)) (run_inputs (open_queries_base pos_hash pos_two p2 a2 b2 x)).
Proof.
  intros P1 P2 Hp Ha H1 H2 A1 A2.
  destruct (batch_binding_base as_bases pos_hash pos_two deqb deqb_ok F_dec p1 p2 a1 b1 a2 b2 x root) as [L|C]; auto. right.
  assert (G : forall p a b, Forall (fun d => length d = 4) p -> length a = length a1 -> length b = length a1 -> forall q, In q (open_queries_base pos_hash pos_two p a b x) ->
    match q with QBases l => length l = (if 1 <? length a1 then length a1 else 2 * length a1) | QTwo a b => length a = 4 /\ length b = 4 end).
  { intros p a b Hq La Lb q I. unfold open_queries_base, leaf_queries_base in I. rewrite La in I. apply in_app_or in I. destruct I as [I|I].
    - destruct (1 <? length a1); cbn in I.
      + destruct I as [<-|[<-|[<-|[]]]]; auto. split; apply pos_hash_some.
      + destruct I as [<-|[]]. rewrite app_length. lia.
    - apply walk_queries_lens in I; auto; [destruct q; tauto|]. destruct (1 <? length a1); [apply pos_two_some|apply pos_hash_some]. }
  refine (collide_lift _ _ _ F_dec (G p1 a1 b1 _ _ _) (G p2 a2 b2 _ _ _) C); auto; congruence.
Qed.
Lemma pos_binding_ext (F_dec : forall x y : F, {x = y} + {x <> y}) p1 p2 a1 b1 a2 b2 x root :
  (forall e, length (as_bases e) = 2) -> (forall e e', as_bases e = as_bases e' -> e = e') ->
  Forall (fun d => length d = 4) p1 -> Forall (fun d => length d = 4) p2 ->
  length p1 = length p2 -> length a1 = length a2 -> length a1 = length b1 -> length a2 = length b2 ->
  authenticate_batch p1 (CExt a1) (CExt b1) x root = Some tt -> authenticate_batch p2 (CExt a2) (CExt b2) x root = Some tt ->
  (a1 = a2 /\ b1 = b2 /\ p1 = p2) \/
  runs_collide perm (run_inputs (open_queries_ext as_bases pos_hash pos_two p1 a1 b1 x)) (run_inputs (open_queries_ext as_bases pos_hash pos_two p2 a2 b2 x)).
Proof.
  intros Hn Hi P1 P2 Hp Ha H1 H2 A1 A2.
  destruct (batch_binding_ext as_bases pos_hash pos_two deqb deqb_ok F_dec 2 p1 p2 a1 b1 a2 b2 x root) as [L|C]; auto. right.
  assert (Le : forall l : list E, length (ebases as_bases l) = 2 * length l).
  { intros l. unfold ebases. induction l as [|y l IH]; cbn [flat_map length]; [lia|]. rewrite app_length, Hn, IH. lia. }
  assert (G : forall p a b, Forall (fun d => length d = 4) p -> length a = length a1 -> length b = length a1 -> forall q, In q (open_queries_ext as_bases pos_hash pos_two p a b x) ->
    match q with QBases l => length l = (if 1 <? length a1 then 2 * length a1 else 4 * length a1) | QTwo a b => length a = 4 /\ length b = 4 end).
  { intros p a b Hq La Lb q I. unfold open_queries_ext in I. rewrite La in I. apply in_app_or in I. destruct I as [I|I].
    - destruct (1 <? length a1); cbn in I.
      + destruct I as [<-|[<-|[<-|[]]]]; rewrite ?Le; try lia. split; apply pos_hash_some.
      + destruct I as [<-|[]]. rewrite app_length, !Le. lia.
    - apply walk_queries_lens in I; auto; [destruct q; tauto|]. destruct (1 <? length a1); [apply pos_two_some|apply pos_hash_some]. }
  refine (collide_lift _ _ _ F_dec (G p1 a1 b1 _ _ _) (G p2 a2 b2 _ _ _) C); auto; congruence.
Qed.

(** * The kind of the opened values is not bound *)
Lemma kind_unchecked path a b x root :
  authenticate path (CExt [of_bases a b; of_bases zero zero]) x root = authenticate path (CBase [a; b]) x root.
Proof.
  unfold M_Merkle.authenticate. cbn [obind]. unfold hash_two_leaves, hash_two_leaves_base. rewrite !bases_ok. cbn [app].
  replace (pos_hash [a; b; zero; zero]) with (pos_hash [a; b]); [reflexivity|].
  unfold pos_hash, hash_or_noop, digest_width, from_partial. reflexivity.
Qed.

(** * The length of the path is not checked *)
Lemma open_digest path d0 d1 d2 d3 x root : walk pos_two path [d0; d1; d2; d3] x = root ->
  authenticate path (CExt [of_bases d0 d1; of_bases d2 d3]) x root = Some tt.
Proof.
  intros H. unfold M_Merkle.authenticate. cbn [obind]. unfold hash_two_leaves. rewrite !bases_ok. cbn [app].
  rewrite pos_hash_4 by reflexivity. rewrite H. replace (deqb root root) with true; [reflexivity|]. symmetry. now apply deqb_ok.
Qed.
Lemma from_batch_inv (vs : list (@col F E)) t k : from_batch_leaves vs = Some t -> match vs with v0 :: _ => col_len v0 = 2 ^ S k | [] => True end ->
  exists first, length first = 2 ^ k /\ mt_inner t = layers pos_two (S k) first.
Proof.
  intros Ht Hk. unfold M_Merkle.from_batch_leaves, merkelize in Ht. destruct vs as [|v0 vs]; [discriminate|]. rewrite Hk in Ht. unfold log2_strict in Ht.
  destruct (is_pow2 (2 ^ S k)); [|discriminate]. cbn [obind] in Ht. rewrite Nat.log2_pow2 in Ht by lia.
  replace (2 ^ S k / 2) with (2 ^ k) in Ht by (cbn [Nat.pow]; rewrite Nat.mul_comm, Nat.div_mul; lia).
  destruct (omapM (leaf_hash as_bases emb pos_hash pos_two (v0 :: vs)) (seq 0 (2 ^ k))) as [first|] eqn:Eo; [|discriminate].
  cbn [obind] in Ht. exists first. split.
  - assert (G : forall (f : nat -> option (list F)) l r, omapM f l = Some r -> length r = length l).
    { intros f. induction l as [|y l IH]; intros r Hr; cbn [omapM] in Hr; [assert (r = []) by congruence; now subst|].
      destruct (f y); [|discriminate]. cbn [obind] in Hr. destruct (omapM f l) as [r'|]; [|discriminate]. cbn [obind] in Hr. assert (r = l0 :: r') by congruence. subst. cbn. f_equal. now apply IH. }
    apply G in Eo. now rewrite seq_length in Eo.
  - assert (t = mkMt (layers pos_two (S k) first) (v0 :: vs)) by congruence. now subst.
Qed.
Lemma level_digests first k j : length first = 2 ^ k -> 1 <= j <= k -> forall i, i < 2 ^ (k - j) -> length (nth i (level pos_two j first) []) = 4.
Proof.
  intros Hl Hj i Hi. destruct j as [|j]; [lia|]. cbn [level].
  assert (L : length (level pos_two j first) = 2 ^ (k - j)) by (apply level_length; rewrite Hl; f_equal; lia).
  rewrite pair_up_nth; [apply pos_two_some|]. rewrite L. replace (k - j) with (S (k - S j)) by lia. cbn [Nat.pow]. lia.
Qed.
(** At every index one can open, instead of the leaf pair, the digest of an inner node. *)
Lemma short_path_forgery (vs : list (@col F E)) t k j x : from_batch_leaves vs = Some t ->
  match vs with v0 :: _ => col_len v0 = 2 ^ S k | [] => True end -> 1 <= j <= k ->
  exists root path lft rgt, mt_root t = Some root /\ length path = k - j /\ authenticate path (CExt [lft; rgt]) x root = Some tt /\
    as_bases lft ++ as_bases rgt = nth (x / 2 mod 2 ^ (k - j)) (nth j (mt_inner t) []) [].
Proof.
  intros Ht Hk Hj. destruct (from_batch_inv vs t k Ht Hk) as (first & Lf & Ei). set (y := x / 2 mod 2 ^ (k - j)).
  assert (Hp : 2 ^ (k - j) <> 0) by (apply Nat.pow_nonzero; lia).
  assert (Hy : y < 2 ^ (k - j)) by (apply Nat.mod_upper_bound; auto).
  set (x0 := y * 2 ^ (j + 1)).
  assert (Hx0 : x0 < 2 ^ S k).
  { unfold x0. replace (S k) with (k - j + (j + 1)) by lia. rewrite (Nat.pow_add_r 2 (k - j)). apply Nat.mul_lt_mono_pos_r; auto. assert (2 ^ (j + 1) <> 0) by (apply Nat.pow_nonzero; lia). lia. }
  assert (S0 : Nat.shiftr x0 (j + 1) = y) by (unfold x0; rewrite Nat.shiftr_div_pow2; apply Nat.div_mul; apply Nat.pow_nonzero; lia).
  pose proof (walk_honest pos_two first [] k x0 Lf Hx0 (k - j) j ltac:(lia)) as W. rewrite S0 in W.
  set (path := map (fun j => nth (sibling (Nat.shiftr x0 (j + 1))) (level pos_two j first) []) (seq j (k - j))) in *.
  assert (Lp : length path = k - j) by (unfold path; now rewrite map_length, seq_length).
  assert (Ld : length (nth y (level pos_two j first) []) = 4) by (apply (level_digests first k j); auto).
  destruct (nth y (level pos_two j first) []) as [|d0 [|d1 [|d2 [|d3 [|d4 dr]]]]] eqn:Ed; cbn in Ld; try lia.
  exists (tree_root pos_two k first []), path, (of_bases d0 d1), (of_bases d2 d3). split; [|split; [exact Lp|split]].
  - unfold mt_root. rewrite Ei. apply (root_gen (B := F) (E := E) pos_two [] k first []). exact Lf.
  - apply open_digest. rewrite (walk_index pos_two path _ x (2 * y)) by (rewrite Lp; rewrite (Nat.mul_comm 2 y), Nat.div_mul by lia; fold y; symmetry; apply Nat.mod_small; auto).
    rewrite walk_fold. rewrite Nat.div2_double. rewrite W. cbn [fst]. replace (k - j + j) with k by lia. rewrite (level_root pos_two []) by auto.
    assert (Nat.shiftr x0 (k + 1) < 2 ^ 0) by (apply shiftr_lt; replace (0 + (k + 1)) with (S k) by lia; auto).
    cbn [Nat.pow] in *. replace (Nat.shiftr x0 (k + 1)) with 0 by lia. reflexivity.
  - rewrite !bases_ok. rewrite Ei, layers_spec, nth_map_seq by lia. rewrite Ed. reflexivity.
Qed.
End PM.
