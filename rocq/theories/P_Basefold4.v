(** Basefold: what an accepted opening has checked, oracles of the honest commit phase, and openings that lie about positions. *)
From Coq Require Import List Arith Lia Bool ZArith Field.
From Verif Require Import ListAux FieldDef MleMath M_Mle M_Tensor M_Sumcheck M_Fft M_Merkle M_Code M_Basefold P_Mle P_Eq P_Tensor P_Graph4 P_Hash P_Layers2 P_Merkle P_Merkle2 P_Commit2 P_Basefold P_Fft P_Code P_Code2 P_Code3 P_Code4 P_Code5 P_Basefold2 P_Basefold3.
Import ListNotations.

Section Checked.
Context {K : field} {B D : Type} (as_bases : K -> list B) (emb : B -> K) (hash_bases : list B -> D)
  (hash_two_digests : D -> D -> D) (deqb : D -> D -> bool) (dig : D -> list (@ev K)) (T : @hist K -> K) (to_usize : K -> nat)
  (nbits : nat) (scm : @scheme K).
Hypothesis deqb_ok : forall x y : D, deqb x y = true <-> x = y.
Local Open Scope F_scope.
Add Field Kf_b4 : (fth K).
Notation rate := (sc_rate scm). Notation msg := (sc_msg scm). Notation mx := (sc_max scm).
Notation leaves l := (from_batch_leaves as_bases emb hash_bases hash_two_digests [CExt l]).
Notation commit := (commit as_bases emb hash_bases hash_two_digests scm).
Notation open := (open as_bases emb hash_bases hash_two_digests dig T to_usize nbits scm).
Notation verify := (verify as_bases emb hash_bases hash_two_digests deqb dig T to_usize nbits scm).
Notation check_path := (check_merkle_path as_bases hash_bases hash_two_digests deqb).

(** ** Small polynomials *)
Lemma trivial_complete (evals point : list K) sched h : (0 < length point <= msg)%nat -> (length point <= mx)%nat -> length evals = (2 ^ length point)%nat -> valid_sched (length point) sched ->
  exists cw comm pf, commit (length point) evals = Some cw /\ to_commitment cw = Some comm /\
    open (length point) evals cw point h = Some (pf, h) /\ verify sched comm point (mle evals point) pf h = Some h.
Proof.
  intros Hm Hx Le Hs. set (n := length point) in *.
  destruct (tree_ok as_bases emb hash_bases hash_two_digests deqb deqb_ok evals (n - 1)) as (t0 & r0 & Et & Er & El & _); [rewrite Le; f_equal; lia|].
  unfold commit, M_Basefold.commit. replace (mx <? n)%nat with false by (symmetry; apply Nat.ltb_ge; lia). replace (n <=? msg)%nat with true by (symmetry; apply Nat.leb_le; lia).
  rewrite Et. cbn [obind]. eexists. exists (mkComm r0 (Some n) false (Some 1%nat)), (mkBp [] [] [] (QSingle []) None [CExt evals]). split; [reflexivity|]. unfold to_commitment. cbn [cw_tree cw_nv]. rewrite Er. cbn [obind]. split; [reflexivity|]. split.
  - unfold M_Basefold.open. cbn [cw_nv]. replace (n <=? msg)%nat with true by (symmetry; apply Nat.leb_le; lia). reflexivity.
  - unfold M_Basefold.verify. cbn [bp_trivial]. unfold verify_trivial. rewrite Et. cbn [obind]. rewrite Er. cbn [obind bc_root]. rewrite (proj2 (deqb_ok r0 r0) eq_refl).
    rewrite (evaluate_spec sched _ n evals point); [cbn [obind]; now rewrite feqb_refl| |reflexivity|exact Hs].
    cbn [col_ftype col_len]. rewrite Le, Nat.log2_pow2 by lia. split; [reflexivity|]. split; [now right|exact Le].
Qed.

(** ** What an accepted opening has checked *)
(** A collision between an accepted opening of a pair of leaves and the tree's own opening at that index. *)
Definition opening_collision (q : @qres K B D) (l : list K) : Prop :=
  exists t path, leaves l = Some t /\ merkle_path t (q_index q) = Some path /\
    some_collision hash_bases hash_two_digests
      (open_queries_ext as_bases hash_bases hash_two_digests (q_path q) [fst (as_ext emb (q_pts q))] [snd (as_ext emb (q_pts q))] (q_index q))
      (open_queries_ext as_bases hash_bases hash_two_digests path [nth (2 * (q_index q / 2)) l 0] [nth (2 * (q_index q / 2) + 1) l 0] (q_index q)).
(** The opened pair is an extension pair at the position of [y], with a path of the height of the tree. *)
Definition placed (q : @qres K B D) (y k : nat) : Prop :=
  (q_index q / 2 = y / 2)%nat /\ length (q_path q) = k /\ exists a b, q_pts q = PExt a b.

Lemma or_list {A} (P Q : A -> Prop) l : (forall x, In x l -> P x \/ Q x) -> (forall x, In x l -> P x) \/ exists x, In x l /\ Q x.
Proof.
  induction l as [|a l IH]; intros H; [left; intros x []|]. destruct IH as [IH|(x & Hx & HQ)]; [intros x Hx; apply H; now right| |right; exists x; split; [now right|exact HQ]].
  destruct (H a ltac:(now left)) as [Ha|Ha]; [left; intros x [<-|Hx]; auto|right; exists a; split; [now left|exact Ha]].
Qed.
Lemma div2_lt y q k : (q / 2 = y / 2)%nat -> (y < 2 ^ S k)%nat -> (q < 2 ^ S k)%nat.
Proof.
  intros E H. pose proof (Nat.div_mod q 2 ltac:(lia)). pose proof (Nat.mod_upper_bound q 2 ltac:(lia)). pose proof (Nat.mul_div_le y 2 ltac:(lia)). rewrite Nat.pow_succ_r' in *.
  assert (y / 2 < 2 ^ k)%nat by (apply Nat.div_lt_upper_bound; lia). lia.
Qed.
Lemma check_path_at (bdec : forall x y : B, {x = y} + {x <> y}) nb (q : @qres K B D) r k l t y :
  (forall e, length (as_bases e) = nb) -> (forall e e', as_bases e = as_bases e' -> e = e') ->
  length l = (2 ^ S k)%nat -> leaves l = Some t -> mt_root t = Some r -> check_path q r = Some tt ->
  (y < 2 ^ S k)%nat -> placed q y k ->
  as_ext emb (q_pts q) = (nth (2 * (y / 2)) l 0, nth (2 * (y / 2) + 1) l 0) \/ opening_collision q l.
Proof.
  intros Hb Hi Ll Et Er Hc Hy (Hq & Lp & a & b & Ep).
  assert (Hl1 : forall v : @col B K, In v (CExt l :: []) -> col_len v = (2 ^ S k)%nat) by (intros v [<- | []]; exact Ll).
  pose proof (div2_lt y (q_index q) k Hq Hy) as Hqi.
  destruct (path_complete_ext as_bases emb hash_bases hash_two_digests deqb deqb_ok 0 l [] k (q_index q) Hl1 Hqi) as (t' & path & r' & lft & rgt & Et' & Epa & Er' & Lpa & _ & _ & _ & _ & _ & Ea).
  rewrite Et in Et'. injection Et' as <-. rewrite Er in Er'. injection Er' as <-. specialize (Ea eq_refl).
  unfold check_merkle_path in Hc. rewrite Ep in Hc. cbn [pcol] in Hc.
  destruct (single_binding_ext as_bases hash_bases hash_two_digests deqb deqb_ok bdec nb (q_path q) path a b _ _ (q_index q) r Hb Hi ltac:(congruence) Hc Ea) as [(E1 & E2 & _)|C].
  - left. rewrite Ep. cbn [as_ext]. rewrite E1, E2, Hq. reflexivity.
  - right. exists t, path. split; [exact Et|]. split; [exact Epa|]. rewrite Ep. cbn [as_ext fst snd]. exact C.
Qed.

(** The fold of the word [O i] with the challenge [cs i] agrees with the word [O (S i)] at the position of [x]. *)
Definition fold_at (n : nat) (O : nat -> list K) (cs : list K) (i x : nat) : Prop :=
  exists x0 x1 wt, sc_vcoef scm (n + rate - i - 1) (x / 2 ^ S i) = Some (x0, x1, wt) /\
    interpolate2_weights x0 (nth (2 * (x / 2 ^ S i)) (O i) 0) x1 (nth (2 * (x / 2 ^ S i) + 1) (O i) 0) wt (nth i cs 0) = nth (x / 2 ^ S i) (O (S i)) 0.

Lemma ofold_steps {A S0} (f : S0 -> A -> option S0) (P : nat -> S0 -> Prop) (R : nat -> Prop) l : forall k s s',
  (forall i a s s1, nth_error l i = Some a -> P (k + i)%nat s -> f s a = Some s1 -> P (k + i + 1)%nat s1 /\ R (k + i)%nat) ->
  P k s -> ofold f l s = Some s' -> forall i, (i < length l)%nat -> R (k + i)%nat.
Proof.
  induction l as [|a l IH]; intros k s s' H HP E i Hi; [cbn in Hi; lia|]. cbn [ofold] in E. destruct (f s a) as [s1|] eqn:Ef; [|discriminate E].
  destruct (H 0%nat a s s1 eq_refl ltac:(now rewrite Nat.add_0_r) Ef) as [P1 R1]. rewrite Nat.add_0_r in *. destruct i as [|i]; [now rewrite Nat.add_0_r|].
  replace (k + S i)%nat with (k + 1 + i)%nat by lia. apply (IH (k + 1)%nat s1 s'); auto; [|cbn in Hi; lia]. intros j b u u1 Hj Hu Eu. replace (k + 1 + j)%nat with (k + S j)%nat in * by lia. now apply (H (S j) b u).
Qed.
Lemma rounds_checked n nr cs O (qs : list (@qres K B D)) x s fc : (0 < nr <= length cs)%nat -> (nr <= n + rate)%nat -> (x < 2 ^ (n + rate))%nat ->
  fc = O nr -> length (O nr) = (2 ^ (n + rate - nr))%nat ->
  (forall j, (j < nr - 1)%nat -> exists q, nth_error qs j = Some q /\ as_ext emb (q_pts q) = (nth (2 * (x / 2 ^ S j / 2)) (O (S j)) 0, nth (2 * (x / 2 ^ S j / 2) + 1) (O (S j)) 0)) ->
  check_rounds emb scm cs nr n fc qs (nth (2 * (x / 2)) (O 0%nat) 0, nth (2 * (x / 2) + 1) (O 0%nat) 0) x = Some s ->
  forall i, (i < nr)%nat -> fold_at n O cs i x.
Proof.
  intros Hnr Hn Hx -> Lo Hq E i Hi. unfold check_rounds in E. rewrite Nat.min_l in E by lia. cbn [fst snd] in E. rewrite lor_1 in E. replace (2 * (x / 2) + 1 - 1)%nat with (2 * (x / 2))%nat in E by lia.
  refine (ofold_steps (check_round emb scm cs nr n (O nr) qs)
    (fun i s => (i < nr)%nat -> let y := (x / 2 ^ i)%nat in s = (nth (2 * (y / 2)) (O i) 0, nth (2 * (y / 2) + 1) (O i) 0, (2 * (y / 2))%nat, (2 * (y / 2) + 1)%nat))
    (fun i => fold_at n O cs i x) (seq 0 nr) 0%nat _ _ _ _ E i _); [| |now rewrite seq_length].
  - clear i Hi E. intros i a u u1 Ha HP Eu. apply nth_error_seq0 in Ha. destruct Ha as [Hi ->]. cbn [Nat.add] in *. specialize (HP Hi). cbv zeta in HP. subst u.
    set (y := (x / 2 ^ i)%nat) in *. unfold check_round in Eu. rewrite (nth_error_nth' cs 0) in Eu by lia. cbn [obind] in Eu. destruct (div2_lor y) as [D1 D2]. rewrite D1, D2 in Eu.
    assert (Ey : (y / 2 = x / 2 ^ S i)%nat) by (unfold y; rewrite Nat.div_div by (try apply Nat.pow_nonzero; lia); f_equal; rewrite Nat.pow_succ_r'; lia).
    unfold fold_at. rewrite <- Ey. unfold level_of in Eu. destruct (sc_vcoef scm (n + rate - i - 1) (y / 2)) as [[[x0 x1] wt]|] eqn:Ec; [|discriminate Eu]. cbn [obind] in Eu.
    set (res := interpolate2_weights _ _ _ _ _ _) in Eu. destruct (i <? nr - 1)%nat eqn:El1.
    + apply Nat.ltb_lt in El1. destruct (Hq i El1) as (q & Eq & Ep). rewrite Eq in Eu. cbn [obind] in Eu. rewrite Ep, <- Ey in Eu. set (z := (y / 2)%nat) in *.
      assert (Ez : (if Nat.even z then nth (2 * (z / 2)) (O (S i)) 0 else nth (2 * (z / 2) + 1) (O (S i)) 0) = nth z (O (S i)) 0).
      { destruct (Nat.even z) eqn:Ee.
        - apply Nat.even_spec in Ee. destruct Ee as [v ->]. f_equal. rewrite (Nat.mul_comm 2 v), Nat.div_mul by lia. lia.
        - f_equal. assert (Ho : Nat.odd z = true) by (unfold Nat.odd; now rewrite Ee). apply Nat.odd_spec in Ho. destruct Ho as [v ->]. replace ((2 * v + 1) / 2)%nat with v by (apply Nat.div_unique with 1%nat; lia). reflexivity. }
      rewrite Ez in Eu. destruct (res =? nth z (O (S i)) 0) eqn:Er; [|discriminate Eu]. apply feqb_true in Er. injection Eu as <-. split.
      * intros Hi2. cbv zeta. replace (i + 1)%nat with (S i) by lia. rewrite <- Ey. fold z. rewrite lor_1. replace (2 * (z / 2) + 1 - 1)%nat with (2 * (z / 2))%nat by lia. reflexivity.
      * exists x0, x1, wt. split; [reflexivity|]. exact Er.
    + apply Nat.ltb_ge in El1. assert (ES : S i = nr) by lia. rewrite ES in *.
      assert (Hz : (y / 2 < length (O nr))%nat) by (rewrite Lo, Ey; apply Nat.div_lt_upper_bound; [apply Nat.pow_nonzero; lia|]; rewrite <- Nat.pow_add_r; replace (nr + (n + rate - nr))%nat with (n + rate)%nat by lia; exact Hx).
      rewrite (nth_error_nth' _ 0) in Eu by exact Hz. cbn [obind] in Eu. destruct (res =? nth (y / 2) (O nr) 0) eqn:Er; [|discriminate Eu]. apply feqb_true in Er. split; [intros Hi2; lia|].
      exists x0, x1, wt. split; [reflexivity|]. exact Er.
  - intros _. cbv zeta. cbn [Nat.pow]. rewrite Nat.div_1_r. reflexivity.
Qed.

Lemma vr_len m k : forall i msgs roots h cs h1, verifier_rounds dig T m i k msgs roots h = Some (cs, h1) -> length cs = k.
Proof.
  induction k as [|k IH]; intros i msgs roots h cs h1 E; [injection E as <- _; reflexivity|].
  rewrite vr_S in E. destruct (nth_error msgs i); [|discriminate E]. cbn [obind] in E. destruct (get_challenge T lbl_commit _) as [c h2].
  destruct (i <? m - 1)%nat; [destruct (nth_error roots i); [|discriminate E]|]; cbn [obind] in E;
    (destruct (verifier_rounds dig T m (S i) k _ _ _) as [[cs' h3]|] eqn:E2; [|discriminate E]; cbn [obind fst snd] in E; injection E as <- _; cbn [length]; f_equal; eapply IH; exact E2).
Qed.
(** Every sampled position has been checked, provided the proof carries one query per sampled position and its Merkle openings
    are at the sampled positions: neither is checked by the verifier. *)
Lemma accepted_queries (bdec : forall x y : B, {x = y} + {x <> y}) nb sched comm (point : list K) e (pf : @bproof K B D) h h' qs (O : nat -> list K) (trees : nat -> @mtree B K D) :
  (forall e, length (as_bases e) = nb) -> (forall e e', as_bases e = as_bases e' -> e = e') ->
  let n := length point in let nr := (n - msg)%nat in
  verify sched comm point e pf h = Some h' -> bp_trivial pf = [] -> (msg < n)%nat -> bp_queries pf = QSingle qs -> length qs = sc_nq scm ->
  (forall i, (i < nr)%nat -> length (O i) = (2 ^ (n + rate - i))%nat /\ leaves (O i) = Some (trees i)) ->
  mt_root (trees 0%nat) = Some (bc_root comm) -> (forall j, (j < nr - 1)%nat -> mt_root (trees (S j)) = nth_error (bp_roots pf) j) ->
  final_codeword_single scm (bp_final pf) = Some (O nr) -> length (O nr) = (2 ^ (n + rate - nr))%nat ->
  (forall x q, In (x, q) qs -> placed (sq_comm q) x (n + rate - 1) /\ length (sq_oracle q) = (nr - 1)%nat /\
     forall j o, nth_error (sq_oracle q) j = Some o -> placed o (x / 2 ^ S j) (n + rate - S j - 1)) ->
  exists cs h1, verifier_rounds dig T nr 0 nr (bp_msgs pf) (bp_roots pf) h = Some (cs, h1) /\
    ((forall x, In x (fst (query_indices T to_usize scm n (absorb h1 (bp_final pf)))) -> forall i, (i < nr)%nat -> fold_at n O cs i x) \/
     exists x q, In (x, q) qs /\ (opening_collision (sq_comm q) (O 0%nat) \/ exists j o, nth_error (sq_oracle q) j = Some o /\ opening_collision o (O (S j)))).
Proof.
  intros Hnb Hinj n nr Hv Ht Hn Hqs Lq HO Hr0 Hr Hf Lf Hpl. unfold M_Basefold.verify in Hv. rewrite Ht in Hv. fold n in Hv.
  destruct (negb _); [discriminate Hv|]. rewrite csub_ok in Hv by lia. cbn [obind] in Hv. fold nr in Hv.
  destruct (verifier_rounds dig T nr 0 nr (bp_msgs pf) (bp_roots pf) h) as [[cs h1]|] eqn:Ev; [|discriminate Hv]. cbn [obind] in Hv.
  exists cs, h1. split; [reflexivity|]. destruct (query_indices T to_usize scm n (absorb h1 (bp_final pf))) as [xs h2] eqn:Ex. rewrite Hqs in Hv. cbn [obind fst] in Hv |- *.
  destruct (partial_eq_of nbits point cs) as [eq|]; [|discriminate Hv]. cbn [obind] in Hv. rewrite Hf in Hv. cbn [obind] in Hv.
  destruct (queries_check _ _ _ _ _ _ _ _ _ _ _ _ _ _) as [u|] eqn:Eq; [|discriminate Hv]. clear Hv.
  assert (Lxs : length xs = sc_nq scm).
  { unfold query_indices in Ex. destruct (challenges T lbl_query (sc_nq scm) _) as [qc h3] eqn:Ec. injection Ex as <- _. rewrite map_length. pose proof (challenges_len T lbl_query (sc_nq scm) (absorb h1 (bp_final pf))) as Lc. rewrite Ec in Lc. exact Lc. }
  assert (Hxs : forall x, In x xs -> (x < 2 ^ (n + rate))%nat).
  { unfold query_indices in Ex. destruct (challenges T lbl_query (sc_nq scm) _) as [qc h3]. injection Ex as <- _. intros x Hx. apply in_map_iff in Hx. destruct Hx as (y & <- & _). apply Nat.mod_upper_bound, Nat.pow_nonzero. lia. }
  assert (Lcs : length cs = nr) by (eapply vr_len; exact Ev).
  (* pair every sampled index with its query *)
  assert (Hall : forall p, In p (combine qs xs) -> snd p = fst (fst p) /\ single_check as_bases emb hash_bases hash_two_digests deqb scm cs nr n (O nr) (bp_roots pf) comm (fst (fst p)) (snd (fst p)) = Some tt).
  { intros p Hp. unfold queries_check in Eq. destruct (omapM_in_l _ _ _ p Eq Hp) as (v & _ & Ep). cbv beta in Ep. destruct (snd p =? fst (fst p))%nat eqn:E; [|discriminate Ep]. apply Nat.eqb_eq in E. split; [exact E|]. rewrite Ep. now destruct v. }
  set (good := fun p : nat * @squery K B D * nat => forall i, (i < nr)%nat -> fold_at n O cs i (snd p)).
  set (bad := fun p : nat * @squery K B D * nat => opening_collision (sq_comm (snd (fst p))) (O 0%nat) \/ exists j o, nth_error (sq_oracle (snd (fst p))) j = Some o /\ opening_collision o (O (S j))).
  destruct (or_list good bad (combine qs xs)) as [Hg|((xq & x) & Hp & Hb)].
  - intros [[x q] x'] Hp. destruct (Hall _ Hp) as [E Hs]. cbn [fst snd] in E, Hs. subst x'. unfold good, bad. cbn [fst snd].
    assert (Hin : In (x, q) qs) by (apply (in_combine_l _ _ _ _ Hp)). assert (Hx : (x < 2 ^ (n + rate))%nat) by (apply Hxs, (in_combine_r _ _ _ _ Hp)).
    destruct (Hpl x q Hin) as (Pc & Lo & Po). unfold single_check in Hs.
    destruct (check_merkle_paths _ _ _ _ _ _) as [l1|] eqn:Em; [|discriminate Hs]. cbn [obind] in Hs. destruct (check_merkle_path _ _ _ _ _ _) as [[]|] eqn:Ec; [|discriminate Hs]. cbn [obind] in Hs.
    destruct (check_rounds _ _ _ _ _ _ _ _ _) as [s|] eqn:Er; [|discriminate Hs]. clear Hs.
    destruct (HO 0%nat ltac:(lia)) as [L0 T0]. rewrite Nat.sub_0_r in L0.
    assert (Sn : S (n + rate - 1) = (n + rate)%nat) by lia.
    destruct (check_path_at bdec nb (sq_comm q) (bc_root comm) (n + rate - 1) (O 0%nat) (trees 0%nat) x Hnb Hinj ltac:(rewrite L0; f_equal; lia) T0 Hr0 Ec ltac:(rewrite Sn; exact Hx) Pc) as [Eb|C]; [|right; left; exact C].
    assert (Hor : forall j, In j (seq 0 (nr - 1)) -> (exists o, nth_error (sq_oracle q) j = Some o /\ as_ext emb (q_pts o) = (nth (2 * (x / 2 ^ S j / 2)) (O (S j)) 0, nth (2 * (x / 2 ^ S j / 2) + 1) (O (S j)) 0)) \/
       exists o, nth_error (sq_oracle q) j = Some o /\ opening_collision o (O (S j))).
    { intros j Hj. apply in_seq in Hj. destruct (nth_error (sq_oracle q) j) as [o|] eqn:Eo; [|apply nth_error_None in Eo; lia].
      destruct (HO (S j) ltac:(lia)) as [Lj Tj]. pose proof (Hr j ltac:(lia)) as Hrj.
      destruct (nth_error (bp_roots pf) j) as [r|] eqn:Erj.
      2: { exfalso. destruct (tree_ok as_bases emb hash_bases hash_two_digests deqb deqb_ok (O (S j)) (n + rate - S j - 1)) as (t1 & r1 & Et1 & Er1 & _); [rewrite Lj; f_equal; lia|]. rewrite Tj in Et1. injection Et1 as <-. rewrite Er1 in Hrj. discriminate Hrj. }
      assert (Hc : check_path o r = Some tt).
      { unfold check_merkle_paths in Em. assert (Hcomb : nth_error (combine (sq_oracle q) (bp_roots pf)) j = Some (o, r)).
        { clear -Eo Erj. revert Eo Erj. generalize (bp_roots pf). generalize (sq_oracle q). induction j as [|j IH]; intros [|a l] [|b l'] H1 H2; try discriminate H1; try discriminate H2; cbn [nth_error combine] in *; [congruence|]. now apply IH. }
        destruct (omapM_in_l _ _ _ (o, r) Em (nth_error_In _ _ Hcomb)) as (v & _ & Ev'). cbn [fst snd] in Ev'. rewrite Ev'. now destruct v. }
      assert (Hxj : (x / 2 ^ S j < 2 ^ (n + rate - S j))%nat) by (apply Nat.div_lt_upper_bound; [apply Nat.pow_nonzero; lia|]; rewrite <- Nat.pow_add_r; replace (S j + (n + rate - S j))%nat with (n + rate)%nat by lia; exact Hx).
      destruct (check_path_at bdec nb o r (n + rate - S j - 1) (O (S j)) (trees (S j)) (x / 2 ^ S j) Hnb Hinj ltac:(rewrite Lj; f_equal; lia) Tj Hrj Hc ltac:(replace (S (n + rate - S j - 1)) with (n + rate - S j)%nat by lia; exact Hxj) (Po j o Eo)) as [Eo2|C];
        [left|right]; exists o; auto. }
    destruct (or_list _ _ _ Hor) as [Hgood|(j & _ & o & Eo & C)]; [|right; right; exists j, o; auto].
    left. rewrite Eb in Er. apply (rounds_checked n nr cs O (sq_oracle q) x s (O nr)); auto; try lia. intros j Hj. apply Hgood, in_seq. lia.
  - left. intros x Hx i Hi. destruct (In_nth _ _ 0%nat Hx) as (p & Hp & Ep). destruct (nth_error qs p) as [xq|] eqn:Exq; [|apply nth_error_None in Exq; lia].
    assert (Hc : In (xq, x) (combine qs xs)).
    { apply nth_error_In with p. clear -Exq Ep Hp. revert p xs Exq Ep Hp. induction qs as [|a l IH]; intros [|p] [|b l'] H1 H2 H3; try discriminate H1; cbn [nth_error combine nth length] in *; try lia; [congruence|]. apply IH; auto. lia. }
    exact (Hg _ Hc i Hi).
  - right. destruct xq as [x' q]. exists x', q. split; [apply (in_combine_l _ _ _ _ Hp)|]. exact Hb.
Qed.
End Checked.

Section Honest.
Context {K : field} {B D : Type} (as_bases : K -> list B) (emb : B -> K) (hash_bases : list B -> D)
  (hash_two_digests : D -> D -> D) (deqb : D -> D -> bool) (dig : D -> list (@ev K)) (T : @hist K -> K) (to_usize : K -> nat)
  (nbits : nat) (scm : @scheme K) (wd : nat -> list K -> list K).
Hypothesis deqb_ok : forall x y : D, deqb x y = true <-> x = y.
Hypothesis code : code_ok scm wd.
Local Open Scope F_scope.
Add Field Kf_b4h : (fth K).
Notation rate := (sc_rate scm). Notation msg := (sc_msg scm). Notation mx := (sc_max scm).
Notation leaves l := (from_batch_leaves as_bases emb hash_bases hash_two_digests [CExt l]).
Notation commit := (commit as_bases emb hash_bases hash_two_digests scm).
Notation open := (open as_bases emb hash_bases hash_two_digests dig T to_usize nbits scm).
Notation verify := (verify as_bases emb hash_bases hash_two_digests deqb dig T to_usize nbits scm).
Notation check_path := (check_merkle_path as_bases hash_bases hash_two_digests deqb).

Lemma table_of_mle n (l : list K) : length l = (2 ^ n)%nat -> l = map (fun b => mle l (bpt n b)) (seq 0 (2 ^ n)).
Proof.
  intros Hl. apply (nth_ext_all _ _ 0); [now rewrite map_length, seq_length|]. intros i Hi. rewrite nth_map_seq by lia. unfold mle. rewrite mlef_bool by lia. reflexivity.
Qed.
(** The table [f] with its last variables fixed to the challenges, the last one first. *)
Definition fixed (n : nat) (f cs : list K) : list K := map (fun b => mle f (bpt (n - length cs) b ++ rev cs)) (seq 0 (2 ^ (n - length cs))).
Lemma phase_fixed n k f g trees msgs roots final cs F G : phase as_bases emb hash_bases hash_two_digests wd n k f g trees msgs roots final cs F G -> (k <= n)%nat -> length f = (2 ^ n)%nat ->
  forall i, (i <= k)%nat -> F i = fixed n f (firstn i cs).
Proof.
  intros P Hkn Lf. destruct P as [P1 P2 P3 P4 P5 P6 P7 P8 P9 P10].
  assert (HM : forall i, (i <= k)%nat -> forall r, length r = (n - i)%nat -> mle (F i) r = mle f (r ++ rev (firstn i cs))).
  { induction i as [|i IH]; intros Hi r Lr; [cbn [firstn rev]; rewrite app_nil_r, P5; reflexivity|].
    destruct (P8 i ltac:(lia)) as (-> & _ & _). rewrite mle_linh by (try (destruct (P7 i ltac:(lia)) as [-> _]; f_equal); lia). rewrite IH by (try rewrite app_length; cbn [length]; lia).
    f_equal. rewrite <- app_assoc. f_equal. cbn [app].
    assert (E3 : firstn (S i) cs = firstn i cs ++ [nth i cs 0]).
    { assert (Hm : (i < length cs)%nat) by lia. clear -Hm. revert cs Hm. induction i as [|m IH]; intros [|x point] Hm; cbn [length] in Hm; try lia; [reflexivity|]. cbn [firstn nth app]. f_equal. apply IH. lia. }
    rewrite E3, rev_app_distr. reflexivity. }
  intros i Hi. unfold fixed. rewrite firstn_length, Nat.min_l by lia. rewrite (table_of_mle (n - i) (F i)) at 1 by (apply P7; lia).
  apply map_ext_in. intros b _. apply HM; [exact Hi|]. apply bpt_length.
Qed.
(** Codeword of a table: interpolate, encode, reverse the indices. *)
Lemma evals_codeword_ok n f : (0 < n)%nat -> (msg <= n <= mx)%nat -> length f = (2 ^ n)%nat -> evals_codeword scm f = Some (br n f, wd n (hcI n f)).
Proof.
  intros Hn Hm Lf. unfold evals_codeword. rewrite (interpolate_ok n) by (auto; lia). cbn [obind]. pose proof (co_enc _ _ code n (hcI n f) ltac:(lia) (hcI_length _ _ Lf)) as E. unfold mbr in E.
  assert (Em : (if sc_even_odd scm then reverse_index_bits (hcI n f) else Some (hcI n f)) = Some (if sc_even_odd scm then br n (hcI n f) else hcI n f)).
  { destruct (sc_even_odd scm); [|reflexivity]. rewrite (reverse_ok _ n) by now apply hcI_length. reflexivity. }
  rewrite Em. cbn [obind]. destruct (sc_encode scm _) as [cw|]; [|discriminate E]. cbn [obind] in *. rewrite (reverse_ok f n) by assumption. cbn [obind]. rewrite E. reflexivity.
Qed.
(** Honest oracles are codewords of the partially evaluated polynomial. *)
Lemma commit_phase_oracles (point evals : list K) h : (0 < msg < length point)%nat -> (length point <= mx)%nat -> length evals = (2 ^ length point)%nat ->
  let n := length point in let k := (n - msg)%nat in
  exists bh oracle0 trees msgs roots final h' cs h1,
    evals_codeword scm evals = Some (bh, oracle0) /\
    commit_phase as_bases emb hash_bases hash_two_digests dig T nbits scm point oracle0 bh k h = Some (trees, msgs, roots, final, h') /\
    verifier_rounds dig T k 0 k msgs roots h = Some (cs, h1) /\ h' = absorb h1 final /\ length cs = k /\ final = fixed n evals cs /\
    forall j, (j < k - 1)%nat -> exists t oracle r, nth_error trees j = Some t /\ mt_leaves t = [CExt oracle] /\ mt_root t = Some r /\ nth_error roots j = Some r /\
      exists bh', evals_codeword scm (fixed n evals (firstn (S j) cs)) = Some (bh', oracle).
Proof.
  intros Hm Hx Le n k. fold n in Hm, Hx, Le. pose proof (eq_table_length point) as Lq. fold n in Lq.
  assert (If : exists ef, one_level_interp_hc (br n evals) = Some ef).
  { destruct n as [|m]; [lia|]. destruct (split_half evals m Le) as (a & b & -> & La & Lb). rewrite interp_br by assumption. eauto. }
  assert (Ig : exists eg, one_level_interp_hc (br n (eq_table point)) = Some eg).
  { destruct n as [|m]; [lia|]. destruct (split_half (eq_table point) m Lq) as (a & b & -> & La & Lb). rewrite interp_br by assumption. eauto. }
  destruct If as [ef If]. destruct Ig as [eg Ig].
  destruct (commit_rounds_ok as_bases emb hash_bases hash_two_digests deqb dig T scm wd deqb_ok code k n evals (eq_table point) ef eg h ltac:(lia) ltac:(lia) ltac:(lia) Le Lq If Ig) as (trees & msgs & roots & final & cs & h1 & F & G & E & P & V).
  assert (Em : parallel_pi ef eg = Some (bmsgh (n - 1) evals (eq_table point))).
  { clear -If Ig Le Lq Hm. destruct n as [|m]; [lia|]. replace (S m - 1)%nat with m by lia. destruct (split_half evals m Le) as (a & b & -> & La & Lb). destruct (split_half (eq_table point) m Lq) as (p & q & Epq & Lp & Lq').
    rewrite Epq in *. rewrite interp_br in If, Ig by assumption. injection If as <-. injection Ig as <-. rewrite parallel_pi_ok by assumption. f_equal. symmetry. now apply bmsgh_app. }
  pose proof (phase_fixed n k evals _ trees msgs roots final cs F G P ltac:(lia) Le) as HF.
  assert (Hph := P). destruct Hph as [P1 P2 P3 P4 P5 P6 P7 P8 P9 P10].
  exists (br n evals), (wd n (hcI n evals)), trees, msgs, roots, final, (absorb h1 final), cs, h1.
  split; [apply evals_codeword_ok; auto; lia|]. split.
  { unfold commit_phase. rewrite build_eq_par_spec. cbn [obind]. rewrite (reverse_ok _ n) by assumption. cbn [obind]. rewrite Ig. cbn [obind]. rewrite If. cbn [obind]. rewrite Em. cbn [obind]. exact E. }
  split; [exact (V 0%nat [] [] k eq_refl eq_refl eq_refl)|]. split; [reflexivity|]. split; [exact P2|]. split.
  { rewrite P9, (HF k) by lia. f_equal. apply firstn_all2. lia. }
  intros j Hj. destruct (P10 j Hj) as (t & r & Et & El & Er & Eroot). exists t, (orc wd (n - S j) (F (S j))), r. split; [exact Et|]. split.
  { unfold from_batch_leaves in El. destruct (merkelize _ _ _ _ _); [|discriminate El]. cbn [obind] in El. injection El as <-. reflexivity. }
  split; [exact Er|]. split; [exact Eroot|]. exists (br (n - S j) (F (S j))). rewrite <- HF by lia. unfold orc. apply evals_codeword_ok; try lia. apply P7. lia.
Qed.

(** ** Openings that lie about positions *)
Lemma replace_queries sched comm comm' (point : list K) e (pf : @bproof K B D) h h' qs (rep : @squery K B D -> @qres K B D) :
  verify sched comm point e pf h = Some h' -> bp_trivial pf = [] -> bp_queries pf = QSingle qs -> bc_nv comm' = bc_nv comm ->
  (forall x q, In (x, q) qs -> as_ext emb (q_pts (rep q)) = as_ext emb (q_pts (sq_comm q)) /\ check_path (rep q) (bc_root comm') = Some tt) ->
  verify sched comm' point e (mkBp (bp_msgs pf) (bp_roots pf) (bp_final pf) (QSingle (map (fun xq => (fst xq, mkSq (sq_oracle (snd xq)) (rep (snd xq)))) qs)) (bp_sumcheck pf) []) h = Some h'.
Proof.
  intros Hv Ht Hqs Hnv Hrep. unfold M_Basefold.verify in *. cbn [bp_trivial bp_msgs bp_roots bp_final bp_queries]. rewrite Ht in Hv. rewrite Hnv. destruct (negb _); [discriminate Hv|].
  destruct (csub _ _) as [nr|]; [|discriminate Hv]. cbn [obind] in *. destruct (verifier_rounds _ _ _ _ _ _ _ _) as [[cs h1]|]; [|discriminate Hv]. cbn [obind] in *.
  destruct (query_indices _ _ _ _ _) as [xs h2]. rewrite Hqs in Hv. cbn [obind] in *. destruct (partial_eq_of nbits point cs) as [eq|]; [|discriminate Hv]. cbn [obind] in *.
  destruct (final_codeword_single scm _) as [fc|]; [|discriminate Hv]. cbn [obind] in *.
  assert (EQ : queries_check as_bases emb hash_bases hash_two_digests deqb scm cs nr (length point) fc (bp_roots pf) comm xs qs <> None -> queries_check as_bases emb hash_bases hash_two_digests deqb scm cs nr (length point) fc (bp_roots pf) comm' xs (map (fun xq => (fst xq, mkSq (sq_oracle (snd xq)) (rep (snd xq)))) qs) =
     queries_check as_bases emb hash_bases hash_two_digests deqb scm cs nr (length point) fc (bp_roots pf) comm xs qs).
  { unfold queries_check. clear Hv Hqs. revert xs. induction qs as [|[x q] l IH]; intros [|x' xs] Hne; try reflexivity. cbn [map combine omapM fst snd] in *.
    destruct (x' =? x)%nat; [|reflexivity]. destruct (Hrep x q ltac:(now left)) as [E1 E2].
    assert (ES : single_check as_bases emb hash_bases hash_two_digests deqb scm cs nr (length point) fc (bp_roots pf) comm x q <> None -> single_check as_bases emb hash_bases hash_two_digests deqb scm cs nr (length point) fc (bp_roots pf) comm' x (mkSq (sq_oracle q) (rep q)) =
      single_check as_bases emb hash_bases hash_two_digests deqb scm cs nr (length point) fc (bp_roots pf) comm x q).
    { unfold single_check. cbn [sq_oracle sq_comm]. destruct (check_merkle_paths _ _ _ _ _ _); [|cbn [obind]; intros X; now destruct X]. cbn [obind]. rewrite E2. cbn [obind]. rewrite E1. destruct (check_path (sq_comm q) (bc_root comm)); cbn [obind]; [reflexivity|intros X; now destruct X]. }
    destruct (single_check as_bases emb hash_bases hash_two_digests deqb scm cs nr (length point) fc (bp_roots pf) comm x q) as [u|] eqn:Es; [|cbn [obind] in Hne; congruence].
    rewrite ES by discriminate. cbn [obind]. rewrite (IH ltac:(intros y q' Hq'; apply (Hrep y); now right)); [reflexivity|]. cbn [obind] in Hne. destruct (omapM _ _) in Hne |- *; [discriminate|exact Hne]. }
  destruct (queries_check as_bases emb hash_bases hash_two_digests deqb scm cs nr (length point) fc (bp_roots pf) comm xs qs) as [u|] eqn:E; [|discriminate Hv].
  rewrite EQ by discriminate. exact Hv.
Qed.
Lemma nth_repeat_lt (v d : K) n i : (i < n)%nat -> nth i (repeat v n) d = v.
Proof. revert i. induction n as [|n IH]; intros [|i] Hi; try lia; [reflexivity|]. cbn [repeat nth]. apply IH. lia. Qed.
Lemma mle_repeat v (point : list K) : mle (repeat v (2 ^ length point)) point = v.
Proof.
  rewrite <- dot_eq_table by apply repeat_length. unfold dot.
  assert (E : forall n (l : list K), length l = n -> fsum (map (fun p => fst p * snd p) (combine (repeat v n) l)) = v * fsum l).
  { induction n as [|n IH]; intros [|x l] H; try discriminate H; cbn [repeat combine map fst snd fsum]; [ring|]. rewrite IH by (cbn in H; lia). ring. }
  rewrite E by apply eq_table_length. rewrite eq_table_sum. ring.
Qed.
(** Constant polynomials have constant codewords. *)
Definition const_words : Prop := forall n v, (msg <= n <= mx)%nat -> orc wd n (repeat v (2 ^ n)) = repeat v (2 ^ (n + rate)).
Lemma position_forgery (Hc : const_words) (point : list K) O t r a v sched h :
  (0 < msg < length point)%nat -> (length point <= mx)%nat -> length O = (2 ^ (length point + rate))%nat -> leaves O = Some t -> mt_root t = Some r ->
  (2 * a + 1 < 2 ^ (length point + rate))%nat -> nth (2 * a) O 0 = v -> nth (2 * a + 1) O 0 = v ->
  exists pf h' qs, verify sched (mkComm r (Some (length point)) false (Some 1%nat)) point v pf h = Some h' /\
    bp_trivial pf = [] /\ bp_queries pf = QSingle qs /\ length qs = sc_nq scm.
Proof.
  intros Hm Hx LO Et Er Ha V0 V1. set (n := length point) in *.
  destruct (open_complete as_bases emb hash_bases hash_two_digests deqb dig T to_usize nbits scm wd deqb_ok code (repeat v (2 ^ n)) point sched h Hm Hx (repeat_length _ _))
    as (cw & comm & pf & h' & _ & _ & _ & Hv & Hnv & Htr & qs & Hqs & Lqs & Fqs).
  destruct (tree_ok as_bases emb hash_bases hash_two_digests deqb deqb_ok O (n + rate - 1)) as (t' & r' & Et' & Er' & _ & HQ); [rewrite LO; f_equal; lia|].
  rewrite Et in Et'. injection Et' as <-. rewrite Er in Er'. injection Er' as <-.
  destruct (HQ (2 * a)%nat) as (q0 & _ & Ep & _ & Ec); [replace (S (n + rate - 1)) with (n + rate)%nat by lia; lia|].
  rewrite lor_1 in Ep. replace (2 * a / 2)%nat with a in Ep by (rewrite Nat.mul_comm, Nat.div_mul; lia). replace (2 * a + 1 - 1)%nat with (2 * a)%nat in Ep by lia. rewrite V0, V1 in Ep.
  eexists. exists h'. eexists. split; [|split; [|split]].
  - unfold n in Hv. rewrite mle_repeat in Hv. fold n in Hv.
    refine (replace_queries sched comm (mkComm r (Some n) false (Some 1%nat)) point v pf h h' qs (fun _ => q0) Hv Htr Hqs _ _); [symmetry; exact Hnv|].
    intros x q Hin. split; [|exact Ec]. rewrite Ep. pose proof (proj1 (Forall_forall _ _) Fqs _ Hin) as [Hx' Hp]. cbn [fst snd] in Hp, Hx'. rewrite Hp. fold n. fold n in Hx'. rewrite Hc by lia. cbn [as_ext].
    assert (Hl : (Nat.lor x 1 < 2 ^ (n + rate))%nat).
    { rewrite lor_1. replace (n + rate)%nat with (S (n + rate - 1)) in * by lia. rewrite Nat.pow_succ_r' in *. assert (x / 2 < 2 ^ (n + rate - 1))%nat by (apply Nat.div_lt_upper_bound; lia). lia. }
    rewrite !nth_repeat_lt by lia. reflexivity.
  - reflexivity.
  - reflexivity.
  - now rewrite map_length.
Qed.
(** Two openings of one commitment to different values at the same point, both with the full number of queries. *)
Lemma position_equivocation (Hc : const_words) (point : list K) v0 v1 sched h :
  (0 < msg < length point)%nat -> (length point <= mx)%nat ->
  exists comm pf0 pf1 h0 h1 qs0 qs1, verify sched comm point v0 pf0 h = Some h0 /\ verify sched comm point v1 pf1 h = Some h1 /\
    bp_trivial pf0 = [] /\ bp_trivial pf1 = [] /\ bp_queries pf0 = QSingle qs0 /\ bp_queries pf1 = QSingle qs1 /\ length qs0 = sc_nq scm /\ length qs1 = sc_nq scm.
Proof.
  intros Hm Hx. set (n := length point) in *. set (O := v0 :: v0 :: repeat v1 (2 ^ (n + rate) - 2)).
  assert (H4 : (4 <= 2 ^ (n + rate))%nat) by (change 4%nat with (2 ^ 2)%nat; apply Nat.pow_le_mono_r; lia).
  assert (LO : length O = (2 ^ (n + rate))%nat) by (unfold O; cbn [length]; rewrite repeat_length; lia).
  destruct (tree_ok as_bases emb hash_bases hash_two_digests deqb deqb_ok O (n + rate - 1)) as (t & r & Et & Er & _); [rewrite LO; f_equal; lia|].
  destruct (position_forgery Hc point O t r 0 v0 sched h Hm Hx LO Et Er ltac:(fold n; lia) eq_refl eq_refl) as (pf0 & h0 & qs0 & V0 & T0 & Q0 & L0).
  destruct (position_forgery Hc point O t r 1 v1 sched h Hm Hx LO Et Er ltac:(fold n; lia)) as (pf1 & h1 & qs1 & V1 & T1 & Q1 & L1);
    [unfold O; change (2 * 1)%nat with 2%nat; cbn [nth]; apply nth_repeat_lt; lia|unfold O; change (2 * 1 + 1)%nat with 3%nat; cbn [nth]; apply nth_repeat_lt; lia|].
  eexists. exists pf0, pf1, h0, h1, qs0, qs1. split; [exact V0|]. split; [exact V1|]. auto 10.
Qed.
End Honest.

Section Const.
Context {K : field}.
Local Open Scope F_scope.
Add Field Kf_cst : (fth K).
Lemma zsub_self (l : list K) : zsub l l = repeat 0 (length l).
Proof. unfold zsub. induction l as [|a l IH]; [reflexivity|]. rewrite zipw_cons, IH. cbn [length repeat]. f_equal. ring. Qed.
Lemma hcI_const n (v : K) : hcI n (repeat v (2 ^ n)) = v :: repeat 0 (2 ^ n - 1).
Proof.
  induction n as [|n IH]; [reflexivity|].
  assert (E : repeat v (2 ^ S n) = repeat v (2 ^ n) ++ repeat v (2 ^ n)) by (rewrite <- repeat_app; f_equal; rewrite Nat.pow_succ_r'; lia).
  pose proof (Nat.pow_nonzero 2 n ltac:(lia)). rewrite E, hcI_app by apply repeat_length. rewrite zsub_self, hcI_length by apply repeat_length. rewrite IH. cbn [app]. f_equal. rewrite <- repeat_app. f_equal. rewrite Nat.pow_succ_r'. lia.
Qed.
Lemma horner_const (v x : K) m : horner (v :: repeat 0 m) x = v.
Proof. rewrite horner_cons. assert (E : horner (repeat 0 m) x = (0 : K)) by (induction m as [|m IH]; [reflexivity|cbn [repeat]; rewrite horner_cons, IH; ring]). rewrite E. ring. Qed.
Lemma br_repeat n (v : K) : br n (repeat v (2 ^ n)) = repeat v (2 ^ n).
Proof.
  induction n as [|n IH]; [reflexivity|]. assert (E : repeat v (2 ^ S n) = repeat v (2 ^ n) ++ repeat v (2 ^ n)) by (rewrite <- repeat_app; f_equal; rewrite Nat.pow_succ_r'; lia).
  rewrite E at 1. rewrite br_app by apply repeat_length. rewrite IH. rewrite E. clear. generalize (2 ^ n)%nat as m. clear n. induction m as [|m IH]; [reflexivity|]. cbn [repeat inter app]. rewrite IH. f_equal. rewrite <- repeat_app. change (v :: repeat v (m + m)) with (repeat v (S (m + m))). change (v :: repeat v m) with (repeat v (S m)). rewrite <- repeat_app. f_equal. lia.
Qed.
Lemma br_head n (v : K) : br n (v :: repeat 0 (2 ^ n - 1)) = v :: repeat 0 (2 ^ n - 1).
Proof.
  induction n as [|n IH]; [reflexivity|]. pose proof (Nat.pow_nonzero 2 n ltac:(lia)).
  assert (E : v :: repeat (0 : K) (2 ^ S n - 1) = (v :: repeat 0 (2 ^ n - 1)) ++ repeat 0 (2 ^ n)) by (cbn [app]; f_equal; rewrite <- repeat_app; f_equal; rewrite Nat.pow_succ_r'; lia).
  rewrite E at 1. rewrite br_app by (cbn [length]; rewrite ?repeat_length; lia). rewrite IH, br_repeat. destruct (2 ^ n)%nat as [|m] eqn:Em; [lia|]. rewrite Nat.pow_succ_r', Em.
  replace (2 * S m - 1)%nat with (S (m + m))%nat by lia. replace (S m - 1)%nat with m by lia. cbn [repeat inter]. do 2 f_equal. clear. induction m as [|m IH]; [reflexivity|]. cbn [repeat inter]. rewrite IH. rewrite <- !plus_n_Sm. reflexivity.
Qed.
Lemma map_const {A} (f : A -> K) v l : (forall x, f x = v) -> map f l = repeat v (length l).
Proof. intros H. induction l as [|a l IH]; [reflexivity|]. cbn. now rewrite H, IH. Qed.
Lemma rs_const g32 GEN rate max (sc : @scheme K) : sc_rate sc = rate -> const_words sc (fun n c => br (n + rate) (rs_word g32 GEN rate max n (br n c))).
Proof.
  intros Hr n v Hn. unfold orc. rewrite hcI_const, br_head. unfold rs_word. rewrite (map_const _ v) by (intros; apply horner_const). rewrite seq_length, Hr. replace (rate + n)%nat with (n + rate)%nat by lia. apply br_repeat.
Qed.
Lemma bw_const flat rate msg k : forall v : K, bw flat rate msg k (v :: repeat 0 (2 ^ (msg + k) - 1)) = repeat v (2 ^ (msg + k + rate)).
Proof.
  induction k as [|k IH]; intros v.
  - cbn [bw]. unfold bword. rewrite (map_const _ v) by (intros; apply horner_const). rewrite seq_length. f_equal. rewrite <- Nat.pow_add_r. f_equal. lia.
  - cbn [bw]. pose proof (Nat.pow_nonzero 2 (msg + k) ltac:(lia)) as Hp. replace (msg + S k)%nat with (S (msg + k)) by lia. rewrite Nat.pow_succ_r'.
    assert (E : v :: repeat (0 : K) (2 * 2 ^ (msg + k) - 1) = (v :: repeat 0 (2 ^ (msg + k) - 1)) ++ (0 :: repeat 0 (2 ^ (msg + k) - 1))).
    { change (0 :: repeat (0 : K) (2 ^ (msg + k) - 1)) with (repeat (0 : K) (S (2 ^ (msg + k) - 1))). cbn [app]. f_equal. rewrite <- repeat_app. f_equal. lia. }
    rewrite E. rewrite firstn_app, skipn_app. cbn [length]. rewrite repeat_length. replace (S (2 ^ (msg + k) - 1)) with (2 ^ (msg + k))%nat by lia. rewrite Nat.sub_diag, firstn_all2, skipn_all2 by (cbn [length]; rewrite repeat_length; lia).
    cbn [firstn skipn]. rewrite app_nil_r. cbn [app]. rewrite !IH. rewrite repeat_length.
    set (R := bc_row flat (msg + k + rate)). set (N := (2 ^ (msg + k + rate))%nat).
    assert (E1 : forall s : K -> K -> K, (forall x y, s x (0 * y) = x) -> map (fun j => s (nth j (repeat v N) 0) (nth j (repeat 0 N) 0 * nth j R 0)) (seq 0 N) = repeat v N).
    { intros s Hs. rewrite (map_ext_in _ (fun _ => v)); [rewrite (map_const _ v) by reflexivity; now rewrite seq_length|]. intros j Hj. apply in_seq in Hj. rewrite !nth_repeat_lt by lia. apply Hs. }
    rewrite (E1 (fun x y => x + y)) by (intros; ring). rewrite (E1 (fun x y => x - y)) by (intros; ring). rewrite <- repeat_app. f_equal. unfold N. cbn [Nat.add]. rewrite (Nat.pow_succ_r' 2 (msg + k + rate)). lia.
Qed.
Lemma bc_const flat rate msg (sc : @scheme K) : sc_rate sc = rate -> sc_msg sc = msg -> const_words sc (fun n c => br (n + rate) (bw flat rate msg (n - msg) c)).
Proof.
  intros Hr Hm n v Hn. unfold orc. rewrite hcI_const. pose proof (bw_const flat rate msg (n - msg) v) as E. replace (msg + (n - msg))%nat with n in E by lia. rewrite E, Hr. apply br_repeat.
Qed.
End Const.
