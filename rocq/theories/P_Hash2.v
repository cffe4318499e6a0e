(** The sponge: totality, the digest as a fold over blocks, collisions, and the transcript as a function of its history. *)
From Coq Require Import List Arith Lia Bool ZArith.
From Verif Require Import ListAux FieldDef M_Mle M_Sumcheck M_Hash P_Tensor2 P_Hash.
Import ListNotations.

Section Sponge.
Context {F : Type} (zero : F) (perm : list F -> list F).
Hypothesis perm_len : forall s, length s = 8 -> length (perm s) = 8.
Notation duplexing := (duplexing perm).
Notation observe := (observe perm).
Notation observe_slice := (observe_slice perm).
Notation sample := (sample perm).
Notation sample_vec := (sample_vec perm).

(** * Totality *)
Definition dwf (d : duplex (F := F)) : Prop := length (d_state d) = 8 /\ length (d_in d) < 4 /\ length (d_out d) <= 4.
Lemma dup_new_wf : dwf (dup_new zero).
Proof. split; [reflexivity|]. cbn. lia. Qed.
Lemma duplexing_len d : length (d_state d) = 8 -> length (d_in d) <= 4 -> length (d_state (duplexing d)) = 8 /\ d_in (duplexing d) = [] /\ length (d_out (duplexing d)) = 4.
Proof.
  intros H1 H2. unfold M_Hash.duplexing. cbn [d_state d_in d_out].
  assert (L : length (perm (d_in d ++ skipn (length (d_in d)) (d_state d))) = 8) by (apply perm_len; rewrite app_length, skipn_length; lia).
  split; [exact L|split; [reflexivity|]]. rewrite firstn_length, L. reflexivity.
Qed.
Lemma observe_wf d x : dwf d -> dwf (observe d x).
Proof.
  intros (H1 & H2 & H3). unfold M_Hash.observe. cbn [d_in]. destruct (_ =? rate) eqn:Q.
  - apply Nat.eqb_eq in Q. unfold rate in Q.
    destruct (duplexing_len (mkDup (d_state d) (d_in d ++ [x]) [])) as (A & B & C); cbn [d_state d_in]; try lia.
    unfold dwf. rewrite A, B, C. cbn. lia.
  - apply Nat.eqb_neq in Q. unfold rate in Q. split; [exact H1|]. cbn [d_in d_out]. rewrite app_length in *. cbn [length] in *. lia.
Qed.
Lemma observe_slice_wf : forall xs d, dwf d -> dwf (observe_slice d xs).
Proof. induction xs as [|x xs IH]; intros d H; [exact H|]. cbn. apply IH. now apply observe_wf. Qed.
Lemma sample_total d : dwf d -> exists x d', sample d = Some (x, d') /\ dwf d'.
Proof.
  intros (H1 & H2 & H3). unfold M_Hash.sample.
  assert (G : forall d1, length (d_state d1) = 8 -> length (d_in d1) < 4 -> length (d_out d1) <= 4 -> d_out d1 <> [] ->
    exists x d', match rev (d_out d1) with [] => None | x :: r => Some (x, mkDup (d_state d1) (d_in d1) (rev r)) end = Some (x, d') /\ dwf d').
  { intros d1 A B C N. destruct (rev (d_out d1)) as [|y r] eqn:Er.
    - apply (f_equal (@rev F)) in Er. rewrite rev_involutive in Er. cbn in Er. congruence.
    - exists y, (mkDup (d_state d1) (d_in d1) (rev r)). split; [reflexivity|]. split; [exact A|split; [exact B|]]. cbn [d_out].
      rewrite rev_length. apply (f_equal (@length F)) in Er. rewrite rev_length in Er. cbn [length] in Er. lia. }
  destruct (duplexing_len d H1 ltac:(lia)) as (A & B & C).
  assert (Cn : d_out (duplexing d) <> []) by (intros N; rewrite N in C; discriminate).
  destruct (d_in d) eqn:Ei; [destruct (d_out d) eqn:Eo|].
  - apply G; auto; try (rewrite B; cbn; lia); rewrite C; lia.
  - apply G; auto; rewrite ?Ei, ?Eo; cbn [length] in *; try lia. discriminate.
  - apply G; auto; try (rewrite B; cbn; lia); rewrite C; lia.
Qed.
Lemma sample_vec_total : forall n d, dwf d -> exists xs d', sample_vec n d = Some (xs, d') /\ dwf d' /\ length xs = n.
Proof.
  induction n as [|n IH]; intros d H; [exists [], d; auto|]. cbn [M_Hash.sample_vec]. destruct (sample_total d H) as (x & d1 & E & W).
  rewrite E. cbn [obind]. destruct (IH d1 W) as (xs & d2 & E2 & W2 & L2). rewrite E2. cbn [obind]. exists (x :: xs), d2. cbn. auto.
Qed.

(** * The digest *)
(** One block of at most four elements overwrites the front of the state, which is then permuted. *)
Definition absorb_block (st c : list F) : list F := perm (c ++ skipn (length c) st).
Definition absorb_all (st : list F) (cs : list (list F)) : list F := fold_left absorb_block cs st.
Definition zeros : list F := repeat zero 8.

Lemma observe_short : forall xs d, xs <> [] -> length (d_in d) + length xs < 4 -> observe_slice d xs = mkDup (d_state d) (d_in d ++ xs) [].
Proof.
  induction xs as [|x xs IH]; intros d Hne Hl; [congruence|]. cbn [M_Hash.observe_slice fold_left]. cbn [length] in Hl.
  assert (E : observe d x = mkDup (d_state d) (d_in d ++ [x]) []).
  { unfold M_Hash.observe. cbn [d_in]. replace (length (d_in d ++ [x]) =? rate) with false; [reflexivity|]. symmetry. apply Nat.eqb_neq. rewrite app_length. unfold rate. cbn. lia. }
  rewrite E. destruct xs as [|y xs]; [reflexivity|]. fold (observe_slice (mkDup (d_state d) (d_in d ++ [x]) []) (y :: xs)).
  rewrite IH; [|discriminate|cbn [d_in]; rewrite app_length; cbn [length] in *; lia]. cbn [d_state d_in]. now rewrite <- app_assoc.
Qed.
Lemma observe_four xs d : length xs = 4 -> d_in d = [] -> observe_slice d xs = duplexing (mkDup (d_state d) xs []).
Proof.
  intros Hl Hi. destruct xs as [|a [|b [|c [|e [|g xs]]]]]; cbn in Hl; try lia.
  change [a; b; c; e] with ([a; b; c] ++ [e]) at 1. unfold M_Hash.observe_slice at 1. rewrite fold_left_app. fold (observe_slice d [a; b; c]).
  rewrite observe_short by (try discriminate; rewrite Hi; cbn; lia). rewrite Hi. cbn [app fold_left]. reflexivity.
Qed.
Lemma sample_all st o : length o = 4 -> exists d', sample_vec 4 (mkDup st [] o) = Some (rev o, d').
Proof.
  intros Hl. destruct o as [|a [|b [|c [|e [|g o]]]]]; cbn in Hl; try lia. eexists. reflexivity.
Qed.
Lemma sample_pending d : dwf d -> d_in d <> [] -> sample_vec 4 d = sample_vec 4 (duplexing d).
Proof.
  intros (H1 & H2 & H3) Hi. cbn [M_Hash.sample_vec]. assert (E : sample d = sample (duplexing d)); [|now rewrite E].
  destruct (duplexing_len d H1 ltac:(lia)) as (A & B & C).
  unfold M_Hash.sample. destruct (d_in d) as [|y i] eqn:Ei; [congruence|].
  rewrite B. destruct (d_out (duplexing d)) as [|z o] eqn:Eo; [discriminate|]. rewrite Eo. reflexivity.
Qed.
Lemma absorb_block_len st c : length st = 8 -> length c <= 4 -> length (absorb_block st c) = 8.
Proof. intros. apply perm_len. rewrite app_length, skipn_length. lia. Qed.
(** Sampling a digest after observing [xs] on an empty input buffer. *)
Lemma digest_gen : forall n xs st o, length xs <= n -> xs <> [] -> length st = 8 -> length o <= 4 ->
  exists d', sample_vec 4 (observe_slice (mkDup st [] o) xs) = Some (rev (firstn 4 (absorb_all st (chunks 4 xs))), d').
Proof.
  induction n as [|n IH]; intros xs st o Hn Hne Hs Ho; [destruct xs; [congruence|cbn in Hn; lia]|].
  destruct (lt_dec (length xs) 4) as [Hx|Hx].
  - rewrite chunks_short by (auto; lia). rewrite observe_short by (cbn; auto). cbn [d_state d_in app].
    rewrite sample_pending; [|split; [exact Hs|cbn; lia]|exact Hne]. unfold M_Hash.duplexing. cbn [d_state d_in].
    change (absorb_all st [xs]) with (perm (xs ++ skipn (length xs) st)). apply sample_all. rewrite firstn_length. pose proof (absorb_block_len st xs Hs ltac:(lia)) as L. unfold absorb_block in L. rewrite L. reflexivity.
  - rewrite <- (firstn_skipn 4 xs). set (c := firstn 4 xs). set (t := skipn 4 xs).
    assert (Lc : length c = 4) by (unfold c; rewrite firstn_length; lia). rewrite chunks_app by (auto; lia).
    unfold M_Hash.observe_slice. rewrite fold_left_app. fold (observe_slice (mkDup st [] o) c).
    rewrite (observe_four c) by auto. cbn [d_state]. unfold M_Hash.duplexing. cbn [d_state d_in]. fold (absorb_block st c).
    set (st1 := absorb_block st c). assert (L1 : length st1 = 8) by (apply absorb_block_len; lia).
    assert (Lf : length (firstn 4 st1) = 4) by (rewrite firstn_length, L1; reflexivity).
    destruct t as [|y t'] eqn:Et.
    + cbn [fold_left absorb_all chunks chunks_fuel length]. apply sample_all. exact Lf.
    + rewrite <- Et in *. cbn [absorb_all fold_left]. fold (absorb_all st1 (chunks 4 t)). change rate with 4.
      apply (IH t st1 (firstn 4 st1)); auto; try lia.
      * unfold t. rewrite skipn_length. lia.
      * rewrite Et. discriminate.
Qed.
Lemma hash_digest xs : xs <> [] -> hash_n_to_m_no_pad zero perm xs 4 = Some (rev (firstn 4 (absorb_all zeros (chunks 4 xs)))).
Proof.
  intros H. unfold hash_n_to_m_no_pad. destruct (digest_gen (length xs) xs zeros [] (le_n _) H eq_refl ltac:(cbn; lia)) as (d' & E).
  change (dup_new zero) with (mkDup zeros [] (@nil F)). rewrite E. reflexivity.
Qed.
Lemma compress_digest x y : length x = 4 -> length y = 4 ->
  compress zero perm x y = Some (rev (firstn 4 (perm (y ++ skipn 4 (perm (x ++ skipn 4 zeros)))))).
Proof.
  intros Hx Hy. unfold compress, M_Hash.observe_slice. rewrite <- fold_left_app. fold (observe_slice (dup_new zero) (x ++ y)).
  destruct (digest_gen (length (x ++ y)) (x ++ y) zeros [] (le_n _)) as (d' & E); [intros N; apply (f_equal (@length F)) in N; rewrite app_length in N; cbn in N; lia|reflexivity|cbn; lia|].
  change (dup_new zero) with (mkDup zeros [] (@nil F)). unfold digest_width. rewrite E. cbn [obind fst].
  rewrite chunks_app by (auto; lia). rewrite chunks_short by (try lia; intros ->; cbn in Hy; lia). cbn [absorb_all fold_left]. unfold absorb_block. rewrite Hx, Hy. reflexivity.
Qed.
(** Eight elements hash to the same digest as the two digests made of their halves: no domain separation. *)
Lemma hash_is_compress x y : length x = 4 -> length y = 4 -> hash_or_noop zero perm (x ++ y) = compress zero perm x y.
Proof.
  intros Hx Hy. rewrite compress_digest by auto. unfold hash_or_noop, digest_width. rewrite app_length, Hx, Hy. cbn [Nat.add Nat.leb].
  rewrite hash_digest by (destruct x; [cbn in Hx; lia|discriminate]). rewrite chunks_app by (auto; lia).
  rewrite chunks_short by (try lia; intros ->; cbn in Hy; lia). cbn [absorb_all fold_left]. unfold absorb_block. rewrite Hx, Hy. reflexivity.
Qed.
Lemma hash_or_noop_total xs : exists d, hash_or_noop zero perm xs = Some d /\ length d = 4.
Proof.
  unfold hash_or_noop, digest_width. destruct (length xs <=? 4) eqn:Q.
  - apply Nat.leb_le in Q. exists (from_partial zero xs). split; auto. unfold from_partial, digest_width. rewrite app_length, repeat_length. lia.
  - unfold hash_n_to_m_no_pad. destruct (sample_vec_total 4 (observe_slice (dup_new zero) xs)) as (ys & d' & E & _ & L); [apply observe_slice_wf, dup_new_wf|].
    rewrite E. exists ys. auto.
Qed.
Lemma compress_total x y : exists d, compress zero perm x y = Some d /\ length d = 4.
Proof.
  unfold compress. destruct (sample_vec_total 4 (observe_slice (observe_slice (dup_new zero) x) y)) as (ys & d' & E & _ & L); [apply observe_slice_wf, observe_slice_wf, dup_new_wf|].
  unfold digest_width. rewrite E. exists ys. auto.
Qed.

(** * Collisions *)
(** The states to which the permutation is applied while absorbing. *)
Fixpoint perm_inputs (st : list F) (cs : list (list F)) : list (list F) :=
  match cs with [] => [] | c :: r => (c ++ skipn (length c) st) :: perm_inputs (absorb_block st c) r end.
(** Two different inputs of the permutation whose outputs agree on one half of the state. *)
Definition half_collision (s1 s2 : list F) : Prop :=
  s1 <> s2 /\ (firstn 4 (perm s1) = firstn 4 (perm s2) \/ skipn 4 (perm s1) = skipn 4 (perm s2)).
Definition runs_collide (l1 l2 : list (list F)) : Prop := exists s1 s2, In s1 l1 /\ In s2 l2 /\ half_collision s1 s2.
Hypothesis F_dec : forall x y : F, {x = y} + {x <> y}.

Lemma skipn_le_eq {A} (a b : list A) n m : n <= m -> skipn n a = skipn n b -> skipn m a = skipn m b.
Proof.
  intros H E. replace m with ((m - n) + n) by lia. rewrite <- !skipn_skipn'. now rewrite E.
Qed.
Lemma app_len_inv {A} (a b c d : list A) : length a = length c -> a ++ b = c ++ d -> a = c /\ b = d.
Proof.
  revert c. induction a as [|x a IH]; intros [|y c] Hl H; try discriminate; [auto|]. cbn in H. injection H as -> H.
  destruct (IH c) as [-> ->]; auto.
Qed.
Lemma diverged : forall cs1 cs2 s1 s2, Forall2 (fun a b => length a = length b /\ length a <= 4) cs1 cs2 -> s1 <> s2 ->
  firstn 4 (absorb_all (perm s1) cs1) = firstn 4 (absorb_all (perm s2) cs2) ->
  runs_collide (s1 :: perm_inputs (perm s1) cs1) (s2 :: perm_inputs (perm s2) cs2).
Proof.
  induction cs1 as [|c1 cs1 IH]; intros cs2 s1 s2 H2 Hn He; inversion H2 as [|? c2 ? cs2' [Hc Hc4] Hr]; subst.
  - exists s1, s2. split; [now left|split; [now left|]]. split; auto.
  - destruct (list_eq_dec F_dec (skipn 4 (perm s1)) (skipn 4 (perm s2))) as [Q|Q].
    + exists s1, s2. split; [now left|split; [now left|]]. split; auto.
    + cbn [perm_inputs]. set (t1 := c1 ++ skipn (length c1) (perm s1)) in *. set (t2 := c2 ++ skipn (length c2) (perm s2)) in *.
      assert (Ht : t1 <> t2).
      { intros E. apply Q. apply app_len_inv in E; auto. destruct E as [_ E]. rewrite <- Hc in E. apply (skipn_le_eq _ _ (length c1)); auto. }
      cbn [absorb_all fold_left] in He. fold (absorb_all (absorb_block (perm s1) c1) cs1) in He. fold (absorb_all (absorb_block (perm s2) c2) cs2') in He.
      destruct (IH cs2' t1 t2 Hr Ht He) as (a & b & I1 & I2 & C). exists a, b. split; [now right|split; [now right|exact C]].
Qed.
Lemma absorb_collision : forall cs1 cs2 st, Forall2 (fun a b => length a = length b /\ length a <= 4) cs1 cs2 -> cs1 <> cs2 ->
  firstn 4 (absorb_all st cs1) = firstn 4 (absorb_all st cs2) -> runs_collide (perm_inputs st cs1) (perm_inputs st cs2).
Proof.
  induction cs1 as [|c1 cs1 IH]; intros cs2 st H2 Hn He; inversion H2 as [|? c2 ? cs2' [Hc Hc4] Hr]; subst; [congruence|].
  cbn [perm_inputs absorb_all fold_left] in *. destruct (list_eq_dec F_dec c1 c2) as [->|Hd].
  - destruct (IH cs2' (absorb_block st c2)) as (a & b & I1 & I2 & C); auto; [congruence|]. exists a, b. split; [now right|split; [now right|exact C]].
  - apply diverged; auto. intros E. apply app_len_inv in E; auto. now destruct E.
Qed.
Lemma chunks_same_shape n : 0 < n -> forall m (x y : list F), length x <= m -> length x = length y ->
  Forall2 (fun a b => length a = length b /\ length a <= n) (chunks n x) (chunks n y).
Proof.
  intros Hn. induction m as [|m IH]; intros x y Hm Hl; [destruct x; [destruct y; [constructor|discriminate]|cbn in Hm; lia]|].
  destruct x as [|a x]; [destruct y; [constructor|discriminate]|]. destruct y as [|b y]; [discriminate|].
  unfold chunks. cbn [length chunks_fuel]. constructor; [rewrite !firstn_length; cbn [length] in *; lia|].
  rewrite (chunks_fuel_more n Hn (length x) (length (skipn n (a :: x)))) by (rewrite ?skipn_length; cbn [length]; lia).
  rewrite (chunks_fuel_more n Hn (length y) (length (skipn n (b :: y)))) by (rewrite ?skipn_length; cbn [length]; lia).
  apply IH; rewrite !skipn_length; cbn [length] in *; lia.
Qed.
Definition hash_inputs (xs : list F) : list (list F) := if length xs <=? 4 then [] else perm_inputs zeros (chunks 4 xs).
Lemma hash_binding x y : length x = length y -> hash_or_noop zero perm x = hash_or_noop zero perm y ->
  x = y \/ runs_collide (hash_inputs x) (hash_inputs y).
Proof.
  intros Hl. unfold hash_or_noop, hash_inputs, digest_width. rewrite <- Hl. destruct (length x <=? 4) eqn:Q.
  - intros E. left. assert (E' : from_partial zero x = from_partial zero y) by congruence. unfold from_partial, digest_width in E'. rewrite Hl in E'. now apply app_inv_tail in E'.
  - apply Nat.leb_gt in Q. intros E. destruct (list_eq_dec F_dec x y) as [->|Hn]; [now left|right].
    rewrite !hash_digest in E by (destruct x, y; cbn in *; try lia; discriminate).
    assert (E' : rev (firstn 4 (absorb_all zeros (chunks 4 x))) = rev (firstn 4 (absorb_all zeros (chunks 4 y)))) by congruence.
    apply (f_equal (@rev F)) in E'. rewrite !rev_involutive in E'. apply absorb_collision; auto.
    + apply (chunks_same_shape 4 ltac:(lia) (length x)); auto.
    + intros C. apply Hn. rewrite <- (chunks_concat 4 x), <- (chunks_concat 4 y) by lia. now rewrite C.
Qed.
Lemma compress_binding x1 y1 x2 y2 : length x1 = 4 -> length y1 = 4 -> length x2 = 4 -> length y2 = 4 ->
  compress zero perm x1 y1 = compress zero perm x2 y2 ->
  (x1 = x2 /\ y1 = y2) \/ runs_collide (perm_inputs zeros [x1; y1]) (perm_inputs zeros [x2; y2]).
Proof.
  intros H1 H2 H3 H4 E. rewrite <- !hash_is_compress in E by auto. apply hash_binding in E; [|rewrite !app_length; lia].
  destruct E as [E|C].
  - left. apply app_len_inv in E; auto. congruence.
  - right. unfold hash_inputs in C. rewrite !app_length, H1, H2, H3, H4 in C. cbn [Nat.add Nat.leb] in C.
    rewrite !chunks_app in C by (auto; lia). rewrite (chunks_short 4 y1), (chunks_short 4 y2) in C by (try lia; intros N; rewrite N in *; cbn in *; lia). exact C.
Qed.

(** * No padding *)
Lemma no_padding xs : 4 < length xs -> length xs mod 4 <> 0 -> exists ys, ys <> [] /\ hash_or_noop zero perm (xs ++ ys) = hash_or_noop zero perm xs.
Proof.
  intros H4 Hm. destruct (blocks_rest 4 xs) as (b & r & Ex & Hb & Hr); [lia|].
  assert (Hr4 : length r < 4) by (rewrite Hr; apply Nat.mod_upper_bound; lia).
  assert (Hr0 : r <> []) by (intros ->; cbn [length] in Hr; lia).
  set (st := absorb_all zeros (chunks 4 b)).
  assert (Ls : length st = 8).
  { unfold st. clear -perm_len. assert (G : forall cs st, length st = 8 -> (forall c, In c cs -> length c <= 4) -> length (absorb_all st cs) = 8).
    { induction cs as [|c cs IH]; intros st Hs Hc; [exact Hs|]. cbn. apply IH; [apply absorb_block_len; auto; apply Hc; now left|intros; apply Hc; now right]. }
    apply G; [reflexivity|]. intros c Hc. apply chunks_in in Hc; [apply Hc|lia]. }
  exists (firstn (4 - length r) (skipn (length r) st)). split.
  - intros N. apply (f_equal (@length F)) in N. rewrite firstn_length, skipn_length, Ls in N. cbn [length] in N. lia.
  - set (ys := firstn (4 - length r) (skipn (length r) st)).
    assert (Ly : length ys = 4 - length r) by (unfold ys; rewrite firstn_length, skipn_length; lia).
    unfold hash_or_noop, digest_width. rewrite app_length.
    replace (length xs + length ys <=? 4) with false by (symmetry; apply Nat.leb_gt; lia). replace (length xs <=? 4) with false by (symmetry; apply Nat.leb_gt; lia).
    rewrite !hash_digest by (destruct xs; [cbn in H4; lia|discriminate]). do 3 f_equal. rewrite Ex, <- app_assoc.
    rewrite (chunks_app_mult 4 (length xs / 4) ltac:(lia) b (r ++ ys)), (chunks_app_mult 4 (length xs / 4) ltac:(lia) b r) by auto.
    unfold absorb_all. rewrite !fold_left_app. fold (absorb_all zeros (chunks 4 b)). fold st.
    rewrite (chunks_short 4 r Hr0) by lia. rewrite (chunks_short 4 (r ++ ys)) by (try (rewrite app_length; lia); intros N; apply app_eq_nil in N; tauto).
    cbn [fold_left]. unfold absorb_block. f_equal. rewrite <- app_assoc. f_equal. rewrite app_length, Ly.
    replace (length r + (4 - length r)) with ((4 - length r) + length r) by lia. rewrite <- skipn_skipn'. unfold ys. now rewrite firstn_skipn.
Qed.
Lemma short_padding xs : length xs < 4 -> hash_or_noop zero perm (xs ++ [zero]) = hash_or_noop zero perm xs.
Proof.
  intros H. unfold hash_or_noop, digest_width. rewrite app_length. cbn [length]. replace (length xs + 1 <=? 4) with true by (symmetry; apply Nat.leb_le; lia).
  replace (length xs <=? 4) with true by (symmetry; apply Nat.leb_le; lia). f_equal. unfold from_partial, digest_width. rewrite app_length. cbn [length].
  rewrite <- app_assoc. f_equal. replace (4 - length xs) with (S (4 - (length xs + 1))) by lia. reflexivity.
Qed.
End Sponge.
