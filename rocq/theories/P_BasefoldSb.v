(** Basefold: what an accepted simple batched opening has checked. *)
From Coq Require Import List Arith Lia Bool ZArith Field.
From Verif Require Import ListAux FieldDef PolyList MleMath M_Mle M_Tensor M_Sumcheck M_Fft M_Merkle M_Code M_Basefold P_Mle P_Eq P_Tensor P_Graph4 P_Hash P_Layers2 P_Merkle P_Merkle2 P_Commit2 P_Basefold P_Fft P_Code P_Code2 P_Code3 P_Code4 P_Code5 P_Basefold2 P_Basefold3 P_Basefold4.
Import ListNotations.

Section Batch.
Context {K : field} {B D : Type} (as_bases : K -> list B) (emb : B -> K) (hash_bases : list B -> D)
  (hash_two_digests : D -> D -> D) (deqb : D -> D -> bool) (dig : D -> list (@ev K)) (T : @hist K -> K) (to_usize : K -> nat)
  (nbits : nat) (scm : @scheme K).
Hypothesis deqb_ok : forall x y : D, deqb x y = true <-> x = y.
Local Open Scope F_scope.
Add Field Kf_bsb : (fth K).
Notation rate := (sc_rate scm). Notation msg := (sc_msg scm).
Notation from_batch_leaves := (from_batch_leaves as_bases emb hash_bases hash_two_digests).
Notation leaves l := (from_batch_leaves [CExt l]).
Notation check_path := (check_merkle_path as_bases hash_bases hash_two_digests deqb).
Notation placed := (@placed K B D).
Notation opening_collision := (opening_collision as_bases emb hash_bases hash_two_digests).
Notation simple_batch_verify := (simple_batch_verify as_bases emb hash_bases hash_two_digests deqb dig T to_usize nbits scm).

(** The combination of the columns with the coefficients, at one position. *)
Definition combined (coeffs : list K) (cols : list (list K)) (p : nat) : K :=
  fsum (map (fun kc => nth (fst kc) coeffs 0 * nth p (snd kc) 0) (combine (seq 0 (length cols)) cols)).

(** The openings of the rounds. *)
Lemma oracles_at (bdec : forall x y : B, {x = y} + {x <> y}) nb n nr (O : nat -> list K) (trees : nat -> @mtree B K D) (oracle : list (@qres K B D)) roots us x :
  (forall e, length (as_bases e) = nb) -> (forall e e', as_bases e = as_bases e' -> e = e') -> (nr <= n)%nat ->
  (forall i, (0 < i < nr)%nat -> length (O i) = (2 ^ (n + rate - i))%nat /\ leaves (O i) = Some (trees i)) ->
  (forall j, (j < nr - 1)%nat -> mt_root (trees (S j)) = nth_error roots j) ->
  check_merkle_paths as_bases hash_bases hash_two_digests deqb oracle roots = Some us -> length oracle = (nr - 1)%nat -> (x < 2 ^ (n + rate))%nat ->
  (forall j o, nth_error oracle j = Some o -> placed o (x / 2 ^ S j) (n + rate - S j - 1)) ->
  (forall j, (j < nr - 1)%nat -> exists o, nth_error oracle j = Some o /\ as_ext emb (q_pts o) = (nth (2 * (x / 2 ^ S j / 2)) (O (S j)) 0, nth (2 * (x / 2 ^ S j / 2) + 1) (O (S j)) 0)) \/
  exists j o, nth_error oracle j = Some o /\ opening_collision o (O (S j)).
Proof.
  intros Hnb Hinj Hnr HO Hr Em Lo Hx Po.
  assert (Hor : forall j, In j (seq 0 (nr - 1)) -> (exists o, nth_error oracle j = Some o /\ as_ext emb (q_pts o) = (nth (2 * (x / 2 ^ S j / 2)) (O (S j)) 0, nth (2 * (x / 2 ^ S j / 2) + 1) (O (S j)) 0)) \/
     exists o, nth_error oracle j = Some o /\ opening_collision o (O (S j))).
  { intros j Hj. apply in_seq in Hj. destruct (nth_error oracle j) as [o|] eqn:Eo; [|apply nth_error_None in Eo; lia].
    destruct (HO (S j) ltac:(lia)) as [Lj Tj]. pose proof (Hr j ltac:(lia)) as Hrj.
    destruct (nth_error roots j) as [r|] eqn:Erj.
    2: { exfalso. destruct (tree_ok as_bases emb hash_bases hash_two_digests deqb deqb_ok (O (S j)) (n + rate - S j - 1)) as (t1 & r1 & Et1 & Er1 & _); [rewrite Lj; f_equal; lia|]. rewrite Tj in Et1. injection Et1 as <-. rewrite Er1 in Hrj. discriminate Hrj. }
    assert (Hc : check_path o r = Some tt).
    { unfold check_merkle_paths in Em. assert (Hcomb : nth_error (combine oracle roots) j = Some (o, r)).
      { clear -Eo Erj. revert Eo Erj. generalize roots. generalize oracle. induction j as [|j IH]; intros [|a l] [|b l'] H1 H2; try discriminate H1; try discriminate H2; cbn [nth_error combine] in *; [congruence|]. now apply IH. }
      destruct (omapM_in_l _ _ _ (o, r) Em (nth_error_In _ _ Hcomb)) as (v & _ & Ev'). cbn [fst snd] in Ev'. rewrite Ev'. now destruct v. }
    assert (Hxj : (x / 2 ^ S j < 2 ^ (n + rate - S j))%nat) by (apply Nat.div_lt_upper_bound; [apply Nat.pow_nonzero; lia|]; rewrite <- Nat.pow_add_r; replace (S j + (n + rate - S j))%nat with (n + rate)%nat by lia; exact Hx).
    destruct (check_path_at as_bases emb hash_bases hash_two_digests deqb deqb_ok bdec nb o r (n + rate - S j - 1) (O (S j)) (trees (S j)) (x / 2 ^ S j) Hnb Hinj ltac:(rewrite Lj; f_equal; lia) Tj Hrj Hc ltac:(replace (S (n + rate - S j - 1)) with (n + rate - S j)%nat by lia; exact Hxj) (Po j o Eo)) as [Eo2|C];
      [left|right]; exists o; auto. }
  destruct (or_list _ _ _ Hor) as [Hgood|(j & _ & o & Eo & C)]; [left|right; exists j, o; auto]. intros j Hj. apply Hgood, in_seq. lia.
Qed.

(** ** The columns *)
Definition batch_collision (q : @sbqres K B D) (l : list (K * K)) (cols : list (list K)) : Prop :=
  exists t path, from_batch_leaves (map CExt cols) = Some t /\ merkle_path t (sb_index q) = Some path /\
    some_collision hash_bases hash_two_digests
      (open_queries_ext as_bases hash_bases hash_two_digests (sb_path q) (map fst l) (map snd l) (sb_index q))
      (open_queries_ext as_bases hash_bases hash_two_digests path (map (fun c => nth (2 * (sb_index q / 2)) c 0) cols) (map (fun c => nth (2 * (sb_index q / 2) + 1) c 0) cols) (sb_index q)).
(** As [placed]: one pair of extension values for each column, at the position of [y]. *)
Definition sb_placed (q : @sbqres K B D) (l : list (K * K)) (y k m : nat) : Prop :=
  (sb_index q / 2 = y / 2)%nat /\ length (sb_path q) = k /\ sb_leaves q = LExt l /\ length l = m.
Lemma batch_path_at (bdec : forall x y : B, {x = y} + {x <> y}) nb (q : @sbqres K B D) l r k cols t y :
  (forall e, length (as_bases e) = nb) -> (forall e e', as_bases e = as_bases e' -> e = e') -> cols <> [] ->
  (forall c, In c cols -> length c = (2 ^ S k)%nat) -> from_batch_leaves (map CExt cols) = Some t -> mt_root t = Some r ->
  sb_check_path as_bases hash_bases hash_two_digests deqb q r = Some tt -> (y < 2 ^ S k)%nat -> sb_placed q l y k (length cols) ->
  l = map (fun c => (nth (2 * (y / 2)) c 0, nth (2 * (y / 2) + 1) c 0)) cols \/ batch_collision q l cols.
Proof.
  intros Hb Hi Hne Ll Et Er Hc Hy (Hq & Lp & Ep & Lm). destruct cols as [|l0 vs]; [contradiction|]. set (cols := l0 :: vs) in *.
  pose proof (div2_lt y (sb_index q) k Hq Hy) as Hqi.
  assert (Hl1 : forall v : @col B K, In v (CExt l0 :: map CExt vs) -> col_len v = (2 ^ S k)%nat).
  { intros v Hv. change (CExt l0 :: map CExt vs) with (map (@CExt B K) cols) in Hv. apply in_map_iff in Hv. destruct Hv as (c & <- & Hc'). cbn [col_len]. now apply Ll. }
  destruct (path_complete_ext as_bases emb hash_bases hash_two_digests deqb deqb_ok 0 l0 (map CExt vs) k (sb_index q) Hl1 Hqi) as (t' & path & r' & lft & rgt & Et' & Epa & Er' & Lpa & _ & _ & EL & ER & Ea & _).
  change (CExt l0 :: map CExt vs) with (map (@CExt B K) cols) in *. rewrite Et in Et'. injection Et' as <-. rewrite Er in Er'. injection Er' as <-.
  rewrite map_map in EL, ER. cbn [ext_at] in EL, ER. unfold sb_check_path in Hc. rewrite Ep in Hc. subst lft rgt.
  assert (L1 : length (sb_path q) = length path) by congruence.
  set (A1 := map (fun c => nth (2 * (sb_index q / 2)) c 0) cols) in *. set (A2 := map (fun c => nth (2 * (sb_index q / 2) + 1) c 0) cols) in *.
  assert (L2 : length (map fst l) = length A1) by (unfold A1; rewrite !map_length; exact Lm).
  assert (L3 : length (map fst l) = length (map snd l)) by now rewrite !map_length.
  assert (L4 : length A1 = length A2) by (unfold A1, A2; now rewrite !map_length).
  destruct (batch_binding_ext as_bases hash_bases hash_two_digests deqb deqb_ok bdec nb (sb_path q) path (map fst l) (map snd l) A1 A2 (sb_index q) r Hb Hi L1 L2 L3 L4 Hc Ea) as [(E1 & E2 & _)|C].
  - left. rewrite <- Hq. unfold A1, A2 in *. clear -E1 E2. revert l E1 E2. generalize cols. induction cols0 as [|c cols0 IH]; intros [|[a b] l] E1 E2; try discriminate E1; [reflexivity|]. cbn [map fst snd] in *. injection E1 as -> E1. injection E2 as -> E2. f_equal. now apply IH.
  - right. exists t, path. split; [exact Et|]. split; [exact Epa|exact C].
Qed.
Lemma lp_batch_gen (coeffs : list K) : forall l s acc r,
  ofold (fun acc (ip : nat * (K * K)) => c <- nth_error coeffs (fst ip) ;; Some (fst acc + c * fst (snd ip), snd acc + c * snd (snd ip))) (combine (seq s (length l)) l) acc = Some r ->
  r = (fst acc + fsum (map (fun ip => nth (fst ip) coeffs 0 * fst (snd ip)) (combine (seq s (length l)) l)), snd acc + fsum (map (fun ip => nth (fst ip) coeffs 0 * snd (snd ip)) (combine (seq s (length l)) l))).
Proof.
  induction l as [|p l IH]; intros s acc r E.
  - cbn in E. injection E as <-. destruct acc as [u v]. cbn. f_equal; ring.
  - cbn [length seq combine ofold fst snd map] in *. destruct (nth_error coeffs s) as [c|] eqn:Ec; [|discriminate E]. cbn [obind] in E. apply IH in E. rewrite E. cbn [fst snd]. apply (nth_error_nth _ _ 0) in Ec. rewrite Ec. unfold fsum. cbn [fold_right]. f_equal; ring.
Qed.
Lemma lp_batch_cols coeffs cols a b r : lp_batch emb (@LExt K B (map (fun c => (nth a c 0, nth b c 0)) cols)) coeffs = Some r -> r = (combined coeffs cols a, combined coeffs cols b).
Proof.
  unfold lp_batch. cbn [lp_ext]. intros E. apply lp_batch_gen in E. rewrite E. cbn [fst snd]. rewrite map_length. unfold combined. generalize (length cols) as k, 0%nat as s. intros k s. clear.
  assert (H : forall g : K * K -> K, fsum (map (fun ip => nth (fst ip) coeffs 0 * g (snd ip)) (combine (seq s k) (map (fun c => (nth a c 0, nth b c 0)) cols))) = fsum (map (fun kc => nth (fst kc) coeffs 0 * g (nth a (snd kc) 0, nth b (snd kc) 0)) (combine (seq s k) cols))).
  { intros g. f_equal. revert s k. induction cols as [|c cols IH]; intros s [|k]; try reflexivity. cbn [seq combine map fst snd]. f_equal. apply IH. }
  rewrite (H fst), (H snd). cbn [fst snd]. f_equal; ring.
Qed.

(** Every sampled position has been checked, from the combined columns down to the final codeword. *)
Lemma accepted_batch_queries (bdec : forall x y : B, {x = y} + {x <> y}) nb comm (point evals : list K) (pf : @bproof K B D) h h' qs (cols : list (list K)) t0 (O : nat -> list K) (trees : nat -> @mtree B K D) :
  (forall e, length (as_bases e) = nb) -> (forall e e', as_bases e = as_bases e' -> e = e') ->
  let n := length point in let nr := (n - msg)%nat in
  simple_batch_verify comm point evals pf h = Some h' -> bp_trivial pf = [] -> (msg < n)%nat -> bp_queries pf = QSimpleBatched qs -> length qs = sc_nq scm ->
  cols <> [] -> (forall c, In c cols -> length c = (2 ^ (n + rate))%nat) -> from_batch_leaves (map CExt cols) = Some t0 -> mt_root t0 = Some (bc_root comm) ->
  (forall i, (0 < i < nr)%nat -> length (O i) = (2 ^ (n + rate - i))%nat /\ leaves (O i) = Some (trees i)) ->
  (forall j, (j < nr - 1)%nat -> mt_root (trees (S j)) = nth_error (bp_roots pf) j) ->
  final_codeword_batch scm (bp_final pf) = Some (O nr) -> length (O nr) = (2 ^ (n + rate - nr))%nat ->
  (forall x q, In (x, q) qs -> (exists l, sb_placed (sbq_comm q) l x (n + rate - 1) (length cols)) /\ length (sbq_oracle q) = (nr - 1)%nat /\
     forall j o, nth_error (sbq_oracle q) j = Some o -> placed o (x / 2 ^ S j) (n + rate - S j - 1)) ->
  exists ts h0 coeffs cs h1, challenges T lbl_batch (Nat.log2_up (length evals)) h = (ts, h0) /\ coeffs = firstn (length evals) (eq_table ts) /\
    verifier_rounds dig T nr 0 nr (bp_msgs pf) (bp_roots pf) h0 = Some (cs, h1) /\
    (O 0%nat = map (combined coeffs cols) (seq 0 (2 ^ (n + rate))) ->
    (forall x, In x (fst (query_indices T to_usize scm n (absorb h1 (bp_final pf)))) -> forall i, (i < nr)%nat -> fold_at scm n O cs i x) \/
     exists x q, In (x, q) qs /\ ((exists l, batch_collision (sbq_comm q) l cols) \/ exists j o, nth_error (sbq_oracle q) j = Some o /\ opening_collision o (O (S j)))).
Proof.
  intros Hnb Hinj n nr Hv Ht Hn Hqs Lq Hne Lc Et0 Er0 HO Hr Hf Lf Hpl. unfold M_Basefold.simple_batch_verify in Hv.
  destruct (negb _); [discriminate Hv|]. rewrite Ht in Hv. fold n in Hv. destruct (negb _); [discriminate Hv|]. rewrite csub_ok in Hv by lia. cbn [obind] in Hv. fold nr in Hv.
  destruct (challenges T lbl_batch (Nat.log2_up (length evals)) h) as [ts h0] eqn:Ech.
  destruct (build_eq_par nbits ts) as [eqt|] eqn:Eeq; [|discriminate Hv]. cbn [obind] in Hv.
  destruct (slice 0 (length evals) eqt) as [coeffs|] eqn:Esl; [|discriminate Hv]. cbn [obind] in Hv.
  destruct (verifier_rounds dig T nr 0 nr (bp_msgs pf) (bp_roots pf) h0) as [[cs h1]|] eqn:Ev; [|discriminate Hv]. cbn [obind] in Hv.
  exists ts, h0, coeffs, cs, h1. split; [reflexivity|].
  assert (Eco : coeffs = firstn (length evals) (eq_table ts)).
  { rewrite build_eq_par_spec in Eeq. injection Eeq as <-. unfold slice in Esl. destruct (_ && _) in Esl; [|discriminate Esl]. injection Esl as <-. now rewrite Nat.sub_0_r. }
  split; [exact Eco|]. split; [first [reflexivity | exact Ev]|]. intros HO0.
  destruct (query_indices T to_usize scm n (absorb h1 (bp_final pf))) as [xs h2] eqn:Ex. rewrite Hqs in Hv. cbn [obind fst] in Hv |- *.
  destruct (partial_eq_of nbits point cs) as [eq|]; [|discriminate Hv]. cbn [obind] in Hv. rewrite Hf in Hv. cbn [obind] in Hv.
  destruct (sb_queries_check _ _ _ _ _ _ _ _ _ _ _ _ _ _ _) as [u|] eqn:Eq; [|discriminate Hv]. clear Hv.
  assert (Lxs : length xs = sc_nq scm).
  { unfold query_indices in Ex. destruct (challenges T lbl_query (sc_nq scm) _) as [qc h3] eqn:Ec. injection Ex as <- _. rewrite map_length. pose proof (challenges_len T lbl_query (sc_nq scm) (absorb h1 (bp_final pf))) as Lcc. rewrite Ec in Lcc. exact Lcc. }
  assert (Hxs : forall x, In x xs -> (x < 2 ^ (n + rate))%nat).
  { unfold query_indices in Ex. destruct (challenges T lbl_query (sc_nq scm) _) as [qc h3]. injection Ex as <- _. intros x Hx. apply in_map_iff in Hx. destruct Hx as (y & <- & _). apply Nat.mod_upper_bound, Nat.pow_nonzero. lia. }
  assert (Lcs : length cs = nr) by (eapply vr_len; exact Ev).
  set (good := fun p : nat * @sbquery K B D * nat => forall i, (i < nr)%nat -> fold_at scm n O cs i (snd p)).
  set (bad := fun p : nat * @sbquery K B D * nat => (exists l, batch_collision (sbq_comm (snd (fst p))) l cols) \/ exists j o, nth_error (sbq_oracle (snd (fst p))) j = Some o /\ opening_collision o (O (S j))).
  destruct (or_list good bad (combine qs xs)) as [Hg|((xq & x) & Hp & Hb)].
  - intros [[x q] x'] Hp. unfold sb_queries_check in Eq. destruct (omapM_in_l _ _ _ _ Eq Hp) as (v & _ & Hs). cbv beta in Hs. cbn [fst snd] in Hs. destruct (x' =? x)%nat eqn:E; [|discriminate Hs]. apply Nat.eqb_eq in E. subst x'. unfold good, bad. cbn [fst snd].
    assert (Hin : In (x, q) qs) by (apply (in_combine_l _ _ _ _ Hp)). assert (Hx : (x < 2 ^ (n + rate))%nat) by (apply Hxs, (in_combine_r _ _ _ _ Hp)).
    destruct (Hpl x q Hin) as ((l & Pc) & Lo & Po). unfold sb_check in Hs.
    destruct (check_merkle_paths _ _ _ _ _ _) as [l1|] eqn:Em; [|discriminate Hs]. cbn [obind] in Hs. destruct (sb_check_path _ _ _ _ _ _) as [[]|] eqn:Ec; [|discriminate Hs]. cbn [obind] in Hs.
    destruct (lp_batch _ _ _) as [lr|] eqn:Elp; [|discriminate Hs]. cbn [obind] in Hs.
    destruct (check_rounds _ _ _ _ _ _ _ _ _) as [s|] eqn:Er; [|discriminate Hs]. clear Hs.
    assert (Sn : S (n + rate - 1) = (n + rate)%nat) by lia.
    destruct (batch_path_at bdec nb (sbq_comm q) l (bc_root comm) (n + rate - 1) cols t0 x Hnb Hinj Hne ltac:(rewrite Sn; exact Lc) Et0 Er0 Ec ltac:(rewrite Sn; exact Hx) Pc) as [Eb|C]; [|right; left; exists l; exact C].
    destruct (oracles_at bdec nb n nr O trees (sbq_oracle q) (bp_roots pf) l1 x Hnb Hinj ltac:(lia) HO Hr Em Lo Hx Po) as [Hgood|C]; [|right; right; exact C].
    left. destruct Pc as (_ & _ & Pl & _). rewrite Pl, Eb in Elp. apply lp_batch_cols in Elp.
    assert (Hx2 : (2 * (x / 2) + 1 < 2 ^ (n + rate))%nat).
    { rewrite <- Sn in Hx |- *. rewrite Nat.pow_succ_r' in *. assert (x / 2 < 2 ^ (n + rate - 1))%nat by (apply Nat.div_lt_upper_bound; lia). lia. }
    assert (E0 : lr = (nth (2 * (x / 2)) (O 0%nat) 0, nth (2 * (x / 2) + 1) (O 0%nat) 0)) by (rewrite Elp, HO0, !nth_map_seq by lia; reflexivity).
    rewrite E0 in Er. apply (rounds_checked emb scm n nr cs O (sbq_oracle q) x s (O nr)); auto; lia.
  - left. intros x Hx i Hi. destruct (In_nth _ _ 0%nat Hx) as (p & Hp & Ep). destruct (nth_error qs p) as [xq|] eqn:Exq; [|apply nth_error_None in Exq; lia].
    assert (Hc : In (xq, x) (combine qs xs)).
    { apply nth_error_In with p. clear -Exq Ep Hp. revert p xs Exq Ep Hp. induction qs as [|a l IH]; intros [|p] [|b l'] H1 H2 H3; try discriminate H1; cbn [nth_error combine nth length] in *; try lia; [congruence|]. apply IH; auto. lia. }
    exact (Hg _ Hc i Hi).
  - right. destruct xq as [x' q]. exists x', q. split; [apply (in_combine_l _ _ _ _ Hp)|]. exact Hb.
Qed.
End Batch.
