(** Basefold: what the queries of an accepted general batched opening have checked. *)
From Coq Require Import List Arith Lia Bool ZArith Field.
From Verif Require Import ListAux FieldDef PolyList MleMath M_Mle M_Tensor M_Sumcheck M_Fft M_Merkle M_Code M_Basefold P_Mle P_Eq P_Tensor P_Graph4 P_Hash P_Layers2 P_Merkle P_Merkle2 P_Commit2 P_Basefold P_Fft P_Code P_Code2 P_Code3 P_Code4 P_Code5 P_Basefold2 P_Basefold3 P_Basefold4 P_BasefoldSb.
Import ListNotations.

Section GeneralQueries.
Context {K : field} {B D : Type} (as_bases : K -> list B) (emb : B -> K) (hash_bases : list B -> D)
  (hash_two_digests : D -> D -> D) (deqb : D -> D -> bool) (dig : D -> list (@ev K)) (T : @hist K -> K) (to_usize : K -> nat)
  (nbits : nat) (scm : @scheme K).
Hypothesis deqb_ok : forall x y : D, deqb x y = true <-> x = y.
Local Open Scope F_scope.
Add Field Kf_bgq : (fth K).
Notation rate := (sc_rate scm). Notation msg := (sc_msg scm).
Notation from_batch_leaves := (from_batch_leaves as_bases emb hash_bases hash_two_digests).
Notation leaves l := (from_batch_leaves [CExt l]).
Notation check_path := (check_merkle_path as_bases hash_bases hash_two_digests deqb).
Notation check_paths := (check_merkle_paths as_bases hash_bases hash_two_digests deqb).
Notation placed := (@placed K B D).
Notation opening_collision := (opening_collision as_bases emb hash_bases hash_two_digests).
Notation batch_verify := (batch_verify as_bases emb hash_bases hash_two_digests deqb dig T to_usize nbits scm).

(** The combination, at position [p], of the committed words of the polynomials with [m] variables. *)
Definition level_sum (comms : list (@commitment D)) (coeffs : list K) (W : nat -> list K) (m p : nat) : K :=
  fsum (map (fun j => nth p (W j) 0 * nth j coeffs 0) (matching comms m)).
(** The word of round [i], with the words of the polynomials that enter there added, folds at the position of [x] to the word of round [S i]; polynomials as small as the final message are added in the last round. *)
Definition gfold_at (n nr : nat) (comms : list (@commitment D)) (coeffs : list K) (W O : nat -> list K) (cs : list K) (i x : nat) : Prop :=
  let y := (x / 2 ^ S i)%nat in
  exists x0 x1 wt, sc_vcoef scm (n + rate - i - 1) y = Some (x0, x1, wt) /\
    interpolate2_weights x0 (nth (2 * y) (O i) 0 + level_sum comms coeffs W (n - i) (2 * y)) x1 (nth (2 * y + 1) (O i) 0 + level_sum comms coeffs W (n - i) (2 * y + 1)) wt (nth i cs 0) +
      (if (i <? nr - 1)%nat then 0 else level_sum comms coeffs W (n - i - 1) y) = nth y (O (S i)) 0.

Lemma matching_in (comms : list (@commitment D)) m j : In j (matching comms m) -> exists c, nth_error comms j = Some c /\ bc_nv c = Some m.
Proof.
  unfold matching. intros H. apply in_map_iff in H. destruct H as ((j' & c) & Ej & H). cbn [fst] in Ej. subst j'. apply filter_In in H. destruct H as [H E]. cbn [snd] in E.
  exists c. split; [|destruct (bc_nv c) as [k|]; [apply Nat.eqb_eq in E; congruence|discriminate E]].
  apply In_nth_error in H. destruct H as [k H].
  assert (G : forall (l : list (@commitment D)) s k j c, nth_error (combine (seq s (length l)) l) k = Some (j, c) -> j = (s + k)%nat /\ nth_error l k = Some c).
  { clear. induction l as [|a l IH]; intros s [|k] j c E; cbn [length seq combine nth_error] in E; try discriminate E; [injection E as <- <-; split; [lia|reflexivity]|]. apply IH in E. destruct E as [-> E]. split; [lia|exact E]. }
  apply G in H. destruct H as [-> H]. exact H.
Qed.
Lemma paths_nth (qs : list (@qres K B D)) roots us j q r : check_paths qs roots = Some us -> nth_error qs j = Some q -> nth_error roots j = Some r -> check_path q r = Some tt.
Proof.
  intros Em Eo Er. unfold check_merkle_paths in Em. assert (Hcomb : nth_error (combine qs roots) j = Some (q, r)).
  { clear -Eo Er. revert Eo Er. generalize roots. generalize qs. induction j as [|j IH]; intros [|a l] [|b l'] H1 H2; try discriminate H1; try discriminate H2; cbn [nth_error combine] in *; [congruence|]. now apply IH. }
  destruct (omapM_in_l _ _ _ (q, r) Em (nth_error_In _ _ Hcomb)) as (v & _ & Ev'). cbn [fst snd] in Ev'. rewrite Ev'. now destruct v.
Qed.

Section Query.
Variables (bdec : forall x y : B, {x = y} + {x <> y}) (nb : nat).
Hypothesis Hnb : forall e, length (as_bases e) = nb.
Hypothesis Hinj : forall e e', as_bases e = as_bases e' -> e = e'.
Hypothesis Hrate : (0 < rate)%nat.
Variables (comms : list (@commitment D)) (coeffs : list K) (W : nat -> list K) (tW : nat -> @mtree B K D).
Hypothesis HW : forall j c m, nth_error comms j = Some c -> bc_nv c = Some m -> length (W j) = (2 ^ (m + rate))%nat /\ leaves (W j) = Some (tW j) /\ mt_root (tW j) = Some (bc_root c).
Variables (cqs : list (@qres K B D)) (us : list unit).
Hypothesis Hpaths : check_paths cqs (map bc_root comms) = Some us.
Hypothesis Hkind : forall j q c m, nth_error cqs j = Some q -> nth_error comms j = Some c -> bc_nv c = Some m -> length (q_path q) = (m + rate - 1)%nat /\ exists a b, q_pts q = PExt a b.

Lemma add_matching_at m pos l r res : (pos < 2 ^ (m + rate - 1))%nat -> add_matching emb comms coeffs cqs m pos (l, r) = Some res ->
  res = (l + level_sum comms coeffs W m (2 * pos), r + level_sum comms coeffs W m (2 * pos + 1)) \/ exists j q, nth_error cqs j = Some q /\ opening_collision q (W j).
Proof.
  intros Hpos. unfold add_matching, level_sum. assert (Hin : forall j, In j (matching comms m) -> exists c, nth_error comms j = Some c /\ bc_nv c = Some m) by (intros j; apply matching_in).
  revert l r res Hin. induction (matching comms m) as [|j js IH]; intros l r res Hin E.
  - cbn in E. injection E as <-. left. cbn. f_equal; ring.
  - cbn [ofold] in E. destruct (nth_error cqs j) as [q|] eqn:Eq; [|discriminate E]. cbn [obind] in E. destruct (nth_error coeffs j) as [cf|] eqn:Ecf; [|discriminate E]. cbn [obind] in E.
    destruct (Nat.shiftr (q_index q) 1 =? pos)%nat eqn:Ep; [|discriminate E]. apply Nat.eqb_eq in Ep. rewrite Nat.shiftr_div_pow2 in Ep. change (2 ^ 1)%nat with 2%nat in Ep.
    destruct (Hin j ltac:(now left)) as (c & Ec & Em). destruct (HW j c m Ec Em) as (L1 & L2 & L3). destruct (Hkind j q c m Eq Ec Em) as (P1 & P2).
    assert (Hc : check_path q (bc_root c) = Some tt) by (apply (paths_nth cqs (map bc_root comms) us j q); auto; now apply map_nth_error).
    assert (S1 : S (m + rate - 1) = (m + rate)%nat) by lia.
    assert (D2 : (2 * pos / 2 = pos)%nat) by (rewrite Nat.mul_comm; apply Nat.div_mul; lia).
    destruct (check_path_at as_bases emb hash_bases hash_two_digests deqb deqb_ok bdec nb q (bc_root c) (m + rate - 1) (W j) (tW j) (2 * pos) Hnb Hinj ltac:(rewrite S1; exact L1) L2 L3 Hc ltac:(rewrite Nat.pow_succ_r'; lia)) as [Ev|C].
    { split; [rewrite D2; exact Ep|]. split; [exact P1|exact P2]. }
    2: { right. exists j, q. split; [exact Eq|exact C]. }
    rewrite D2 in Ev. rewrite Ev in E. cbn [fst snd] in E. apply IH in E; [|intros j' Hj'; apply Hin; now right]. destruct E as [E|E]; [left|right; exact E]. rewrite E. apply (nth_error_nth _ _ 0) in Ecf.
    unfold fsum. cbn [map fold_right]. rewrite Ecf. f_equal; ring.
Qed.

Lemma general_rounds n nr cs (O : nat -> list K) oracle roots x s : (0 < nr <= length cs)%nat -> (nr <= n)%nat -> (x < 2 ^ (n + rate))%nat ->
  O 0%nat = repeat 0 (2 ^ (n + rate)) -> length (O nr) = (2 ^ (n + rate - nr))%nat ->
  (forall j, (j < nr - 1)%nat -> exists q, nth_error oracle j = Some q /\ as_ext emb (q_pts q) = (nth (2 * (x / 2 ^ S j / 2)) (O (S j)) 0, nth (2 * (x / 2 ^ S j / 2) + 1) (O (S j)) 0)) ->
  b_check as_bases emb hash_bases hash_two_digests deqb scm cs nr n (O nr) roots comms coeffs x (mkBq oracle cqs) = Some s ->
  (forall i, (i < nr)%nat -> gfold_at n nr comms coeffs W O cs i x) \/ exists j q, nth_error cqs j = Some q /\ opening_collision q (W j).
Proof.
  intros Hnr Hn Hx HO0 Lo Hq Hb. set (bad := exists j q, nth_error cqs j = Some q /\ opening_collision q (W j)). unfold b_check in Hb. cbn [bq_oracle bq_comms] in Hb.
  destruct (check_paths oracle roots) as [up|]; [|discriminate Hb]. cbn [obind] in Hb. rewrite Hpaths in Hb. cbn [obind] in Hb.
  destruct (ofold _ _ _) as [s'|] eqn:E; [|discriminate Hb]. clear Hb. rewrite Nat.min_l in E by lia. rewrite lor_1 in E. replace (2 * (x / 2) + 1 - 1)%nat with (2 * (x / 2))%nat in E by lia.
  assert (Hall : forall i, In i (seq 0 nr) -> gfold_at n nr comms coeffs W O cs i x \/ bad).
  { intros i0 Hi0. apply in_seq in Hi0.
    refine (ofold_steps (b_round emb scm cs nr n (O nr) comms coeffs (mkBq oracle cqs))
      (fun i s => ((i < nr)%nat -> let y := (x / 2 ^ i)%nat in s = (nth (2 * (y / 2)) (O i) 0, nth (2 * (y / 2) + 1) (O i) 0, (2 * (y / 2))%nat, (2 * (y / 2) + 1)%nat)) \/ bad)
      (fun i => gfold_at n nr comms coeffs W O cs i x \/ bad) (seq 0 nr) 0%nat _ _ _ _ E i0 _); [| |rewrite seq_length; lia].
    - clear i0 Hi0 E. intros i a u u1 Ha HP Eu. apply nth_error_seq0 in Ha. destruct Ha as [Hi ->]. cbn [Nat.add] in *. destruct HP as [HP|HP]; [|split; right; exact HP]. specialize (HP Hi). cbv zeta in HP. subst u.
      set (y := (x / 2 ^ i)%nat) in *. unfold b_round in Eu. rewrite (nth_error_nth' cs 0) in Eu by lia. cbn [obind bq_comms bq_oracle] in Eu. destruct (div2_lor y) as [D1 D2]. rewrite D1, D2 in Eu.
      assert (Ey : (y / 2 = x / 2 ^ S i)%nat) by (unfold y; rewrite Nat.div_div by (try apply Nat.pow_nonzero; lia); f_equal; rewrite Nat.pow_succ_r'; lia).
      assert (Hz0 : (y / 2 < 2 ^ (n - i + rate - 1))%nat).
      { rewrite Ey. apply Nat.div_lt_upper_bound; [apply Nat.pow_nonzero; lia|]. rewrite <- Nat.pow_add_r. replace (S i + (n - i + rate - 1))%nat with (n + rate)%nat by lia. exact Hx. }
      destruct (add_matching emb comms coeffs cqs (n - i) (y / 2) _) as [lr|] eqn:Ea; [|discriminate Eu]. cbn [obind] in Eu.
      destruct (add_matching_at _ _ _ _ _ Hz0 Ea) as [El|C]; [|split; right; exact C]. subst lr. cbn [fst snd] in Eu.
      unfold gfold_at. rewrite <- Ey. unfold level_of in Eu. destruct (sc_vcoef scm (n + rate - i - 1) (y / 2)) as [[[x0 x1] wt]|] eqn:Ec; [|discriminate Eu]. cbn [obind] in Eu.
      set (res := interpolate2_weights _ _ _ _ _ _) in Eu. set (z := (y / 2)%nat) in *.
      assert (Hsel : forall l : list K, (if Nat.even z then nth (2 * (z / 2)) l 0 else nth (2 * (z / 2) + 1) l 0) = nth z l 0).
      { intros l. destruct (Nat.even z) eqn:Ee.
        - apply Nat.even_spec in Ee. destruct Ee as [v ->]. f_equal. rewrite (Nat.mul_comm 2 v), Nat.div_mul by lia. lia.
        - f_equal. assert (Ho : Nat.odd z = true) by (unfold Nat.odd; now rewrite Ee). apply Nat.odd_spec in Ho. destruct Ho as [v ->]. replace ((2 * v + 1) / 2)%nat with v by (apply Nat.div_unique with 1%nat; lia). reflexivity. }
      destruct (i <? nr - 1)%nat eqn:El1.
      + apply Nat.ltb_lt in El1. destruct (Hq i El1) as (q & Eq & Ep). rewrite Eq in Eu. cbn [obind] in Eu. rewrite Ep, <- Ey in Eu. fold z in Eu. rewrite Hsel in Eu.
        destruct (res =? nth z (O (S i)) 0) eqn:Er; [|discriminate Eu]. apply feqb_true in Er. injection Eu as <-. split; left.
        * intros Hi2. cbv zeta. replace (i + 1)%nat with (S i) by lia. rewrite <- Ey. fold z. rewrite lor_1. replace (2 * (z / 2) + 1 - 1)%nat with (2 * (z / 2))%nat by lia. reflexivity.
        * exists x0, x1, wt. split; [reflexivity|]. fold res. rewrite <- Er. ring.
      + apply Nat.ltb_ge in El1. assert (ES : S i = nr) by lia.
        destruct (add_matching emb comms coeffs cqs (n - i - 1) (Nat.shiftr z 1) _) as [ad|] eqn:Ea2; [|discriminate Eu]. cbn [obind] in Eu. rewrite Nat.shiftr_div_pow2 in Ea2. change (2 ^ 1)%nat with 2%nat in Ea2.
        assert (Hz : (z < 2 ^ (n + rate - nr))%nat) by (rewrite <- ES; replace (n + rate - S i)%nat with (n - i + rate - 1)%nat by lia; exact Hz0).
        assert (Hz2 : (z / 2 < 2 ^ (n - i - 1 + rate - 1))%nat).
        { apply Nat.div_lt_upper_bound; [lia|]. rewrite <- Nat.pow_succ_r'. replace (S (n - i - 1 + rate - 1)) with (n + rate - nr)%nat by lia. exact Hz. }
        destruct (add_matching_at _ _ _ _ _ Hz2 Ea2) as [El|C]; [|split; right; exact C]. subst ad. cbn [fst snd] in Eu.
        rewrite (nth_error_nth' _ 0) in Eu by (rewrite Lo; exact Hz). cbn [obind] in Eu.
        destruct (feqb _ (nth z (O nr) 0)) eqn:Er in Eu; [|discriminate Eu]. apply feqb_true in Er. split; left; [intros Hi2; lia|].
        exists x0, x1, wt. split; [reflexivity|]. fold res. rewrite ES, <- Er.
        assert (Hs2 : forall g : nat -> K, (if Nat.even z then res + g (2 * (z / 2))%nat else res + g (2 * (z / 2) + 1)%nat) = res + g z).
        { intros g. destruct (Nat.even z) eqn:Ee.
          - apply Nat.even_spec in Ee. destruct Ee as [v ->]. do 2 f_equal. rewrite (Nat.mul_comm 2 v), Nat.div_mul by lia. lia.
          - do 2 f_equal. assert (Ho : Nat.odd z = true) by (unfold Nat.odd; now rewrite Ee). apply Nat.odd_spec in Ho. destruct Ho as [v ->]. replace ((2 * v + 1) / 2)%nat with v by (apply Nat.div_unique with 1%nat; lia). reflexivity. }
        symmetry. apply (Hs2 (level_sum comms coeffs W (n - i - 1))).
    - left. intros _. cbv zeta. cbn [Nat.pow]. rewrite Nat.div_1_r, HO0. now rewrite !nth_repeat. }
  destruct (or_list _ (fun _ => bad) (seq 0 nr) Hall) as [H|(i & _ & H)]; [left|right; exact H]. intros i Hi. apply H, in_seq. lia.
Qed.
End Query.

(** The weight of polynomial [j]: over the evaluations of it, the batching coefficient times the indicator of the evaluation's point. *)
Definition poly_weight (points : list (list K)) (evals : list (@evaluation K)) (bs vp : list K) (j : nat) : K :=
  fsum (map (fun p => if (ev_poly (fst p) =? j)%nat then (let pt := nth (ev_point (fst p)) points [] in eqs (firstn (length pt) vp) pt) * snd p else 0) (combine evals bs)).
Lemma eq_xy_eval_some (x y : list K) v : eq_xy_eval x y = Some v -> v = eqs x y.
Proof. intros E. assert (Hx : x <> []) by (intros ->; discriminate E). assert (Hl : length x = length y) by (unfold eq_xy_eval in E; destruct x; [contradiction|]; destruct (_ =? _)%nat eqn:El in E; [now apply Nat.eqb_eq|discriminate E]). rewrite (eq_xy_eval_eqs x y Hx Hl) in E. congruence. Qed.
Lemma weights_ok (points : list (list K)) vp eqe : omapM (fun p => eq_xy_eval (firstn (length p) vp) p) points = Some eqe ->
  forall (l : list (@evaluation K * K)) acc r,
  ofold (fun cs (ex : @evaluation K * K) => c <- nth_error cs (ev_poly (fst ex)) ;; q <- nth_error eqe (ev_point (fst ex)) ;; Some (upd (ev_poly (fst ex)) (c + q * snd ex) cs)) l acc = Some r ->
  length r = length acc /\ forall j, nth j r 0 = nth j acc 0 +
    fsum (map (fun p => if (ev_poly (fst p) =? j)%nat then (let pt := nth (ev_point (fst p)) points [] in eqs (firstn (length pt) vp) pt) * snd p else 0) l).
Proof.
  intros He. induction l as [|[e b] l IH]; intros acc r E.
  - cbn in E. injection E as <-. split; [reflexivity|]. intros j. cbn. ring.
  - cbn [ofold fst snd] in E. destruct (nth_error acc (ev_poly e)) as [c|] eqn:Ec; [|discriminate E]. cbn [obind] in E. destruct (nth_error eqe (ev_point e)) as [q|] eqn:Eq; [|discriminate E]. cbn [obind] in E.
    apply IH in E. destruct E as [L H]. rewrite upd_length in L. split; [exact L|]. intros j. rewrite H. cbn [map fst snd]. unfold fsum. cbn [fold_right].
    assert (Hpt : exists pt, nth_error points (ev_point e) = Some pt /\ eq_xy_eval (firstn (length pt) vp) pt = Some q).
    { destruct (omapM_nth_some _ _ _ [] 0 He) as [Le Hn]. assert (Hi : (ev_point e < length points)%nat) by (rewrite <- Le; apply nth_error_Some; congruence).
      exists (nth (ev_point e) points []). split; [now apply nth_error_nth'|]. apply (nth_error_nth _ _ 0) in Eq. rewrite <- Eq. exact (Hn _ Hi). }
    destruct Hpt as (pt & Ept & Eqv). apply eq_xy_eval_some in Eqv. apply (nth_error_nth _ _ []) in Ept. rewrite Ept. cbv zeta. rewrite <- Eqv.
    assert (Hlt : (ev_poly e < length acc)%nat) by (apply nth_error_Some; congruence). apply (nth_error_nth _ _ 0) in Ec.
    destruct (ev_poly e =? j)%nat eqn:Ej; [apply Nat.eqb_eq in Ej; subst j; rewrite nth_upd_eq by exact Hlt; rewrite Ec; ring|apply Nat.eqb_neq in Ej; rewrite nth_upd_neq by exact Ej; ring].
Qed.

(** Every sampled position has been checked in every round. *)
Lemma accepted_general_queries (bdec : forall x y : B, {x = y} + {x <> y}) nb comms (points : list (list K)) (evals : list (@evaluation K)) (pf : @bproof K B D) h h' qs (W : nat -> list K) (tW : nat -> @mtree B K D) (O : nat -> list K) (trees : nat -> @mtree B K D) :
  (forall e, length (as_bases e) = nb) -> (forall e e', as_bases e = as_bases e' -> e = e') -> (0 < rate)%nat ->
  let n := fold_left Nat.max (map (@length K) points) 0%nat in let nr := (n - msg)%nat in
  batch_verify comms points evals pf h = Some h' -> points <> [] -> (msg < n)%nat -> bp_queries pf = QBatched qs -> length qs = sc_nq scm ->
  (forall j c m, nth_error comms j = Some c -> bc_nv c = Some m -> length (W j) = (2 ^ (m + rate))%nat /\ leaves (W j) = Some (tW j) /\ mt_root (tW j) = Some (bc_root c)) ->
  O 0%nat = repeat 0 (2 ^ (n + rate)) ->
  (forall i, (0 < i < nr)%nat -> length (O i) = (2 ^ (n + rate - i))%nat /\ leaves (O i) = Some (trees i)) ->
  (forall j, (j < nr - 1)%nat -> mt_root (trees (S j)) = nth_error (bp_roots pf) j) ->
  final_codeword_batch scm (bp_final pf) = Some (O nr) -> length (O nr) = (2 ^ (n + rate - nr))%nat ->
  (forall x q, In (x, q) qs -> length (bq_oracle q) = (nr - 1)%nat /\ (forall j o, nth_error (bq_oracle q) j = Some o -> placed o (x / 2 ^ S j) (n + rate - S j - 1)) /\
     forall j o c m, nth_error (bq_comms q) j = Some o -> nth_error comms j = Some c -> bc_nv c = Some m -> length (q_path o) = (m + rate - 1)%nat /\ exists a b, q_pts o = PExt a b) ->
  exists ts h1 rounds target nt vp h2 coeffs cs h3, challenges T lbl_batch (Nat.log2_up (length evals)) h = (ts, h1) /\ bp_sumcheck pf = Some rounds /\
    sc_verify T n target rounds h1 = Some (nt, vp, h2) /\
    length coeffs = length comms /\ (forall j, nth j coeffs 0 = poly_weight points evals (eq_table ts) vp j) /\
    verifier_rounds dig T nr 0 nr (bp_msgs pf) (bp_roots pf) h2 = Some (cs, h3) /\
    ((forall x, In x (fst (query_indices T to_usize scm n (absorb h3 (bp_final pf)))) -> forall i, (i < nr)%nat -> gfold_at n nr comms coeffs W O cs i x) \/
     exists x q, In (x, q) qs /\ ((exists j o, nth_error (bq_comms q) j = Some o /\ opening_collision o (W j)) \/ exists j o, nth_error (bq_oracle q) j = Some o /\ opening_collision o (O (S j)))).
Proof.
  intros Hnb Hinj Hrate n nr Hv Hpts Hn Hqs Lq HW HO0 HO Hr Hf Lf Hpl. unfold M_Basefold.batch_verify in Hv.
  destruct points as [|p0 points']; [contradiction|]. set (points := p0 :: points') in *. change (length points =? 0)%nat with false in Hv. rewrite andb_false_r, !andb_false_l in Hv. fold n in Hv. rewrite csub_ok in Hv by lia. cbn [obind] in Hv. fold nr in Hv.
  destruct (omapM bc_nv comms) as [pnv|]; [|discriminate Hv]. cbn [obind] in Hv. destruct (omapM _ evals) as [us|] in Hv; [|discriminate Hv]. cbn [obind] in Hv.
  destruct (length comms =? 0)%nat; [discriminate Hv|]. destruct (negb _); [discriminate Hv|]. destruct (negb _); [discriminate Hv|].
  destruct (challenges T lbl_batch (Nat.log2_up (length evals)) h) as [ts h1]. rewrite build_eq_par_spec in Hv. cbn [obind] in Hv.
  destruct (omapM _ evals) as [scales|] in Hv; [|discriminate Hv]. cbn [obind] in Hv.
  destruct (inner_product_three _ _ _) as [tg|]; [|discriminate Hv]. cbn [obind] in Hv.
  destruct (bp_sumcheck pf) as [rounds|]; [|discriminate Hv]. cbn [obind] in Hv. destruct (sc_verify T n tg rounds h1) as [[[nt vp] h2]|] eqn:Esv; [|discriminate Hv]. cbn [obind] in Hv.
  destruct (omapM _ points) as [eqe|] eqn:Eeq in Hv; [|discriminate Hv]. cbn [obind] in Hv. destruct (ofold _ _ _) as [coeffs|] eqn:Eco in Hv; [|discriminate Hv]. cbn [obind] in Hv.
  destruct (weights_ok points vp eqe Eeq _ _ _ Eco) as [Lco Hco]. rewrite repeat_length in Lco.
  destruct (verifier_rounds dig T nr 0 nr (bp_msgs pf) (bp_roots pf) h2) as [[cs h3]|] eqn:Ev; [|discriminate Hv]. cbn [obind] in Hv.
  exists ts, h1, rounds, tg, nt, vp, h2, coeffs, cs, h3. split; [reflexivity|]. split; [reflexivity|]. split; [exact Esv|]. split; [exact Lco|].
  split; [intros j; rewrite Hco, nth_repeat; unfold poly_weight; ring|]. split; [first [reflexivity | exact Ev]|].
  destruct (query_indices T to_usize scm n (absorb h3 (bp_final pf))) as [xs h4] eqn:Ex. rewrite Hqs in Hv. cbn [obind fst] in Hv |- *.
  destruct (partial_eq_of nbits vp cs) as [eq|]; [|discriminate Hv]. cbn [obind] in Hv. rewrite Hf in Hv. cbn [obind] in Hv.
  destruct (b_queries_check _ _ _ _ _ _ _ _ _ _ _ _ _ _ _) as [u|] eqn:Eq; [|discriminate Hv]. clear Hv.
  assert (Lxs : length xs = sc_nq scm).
  { unfold query_indices in Ex. destruct (challenges T lbl_query (sc_nq scm) _) as [qc h5] eqn:Ec. injection Ex as <- _. rewrite map_length. pose proof (challenges_len T lbl_query (sc_nq scm) (absorb h3 (bp_final pf))) as Lcc. rewrite Ec in Lcc. exact Lcc. }
  assert (Hxs : forall x, In x xs -> (x < 2 ^ (n + rate))%nat).
  { unfold query_indices in Ex. destruct (challenges T lbl_query (sc_nq scm) _) as [qc h5]. injection Ex as <- _. intros x Hx. apply in_map_iff in Hx. destruct Hx as (y & <- & _). apply Nat.mod_upper_bound, Nat.pow_nonzero. lia. }
  assert (Lcs : length cs = nr) by (eapply vr_len; exact Ev).
  set (good := fun p : nat * @bquery K B D * nat => forall i, (i < nr)%nat -> gfold_at n nr comms coeffs W O cs i (snd p)).
  set (bad := fun p : nat * @bquery K B D * nat => (exists j o, nth_error (bq_comms (snd (fst p))) j = Some o /\ opening_collision o (W j)) \/ exists j o, nth_error (bq_oracle (snd (fst p))) j = Some o /\ opening_collision o (O (S j))).
  destruct (or_list good bad (combine qs xs)) as [Hg|((xq & x) & Hp & Hb)].
  - intros [[x q] x'] Hp. unfold b_queries_check in Eq. destruct (omapM_in_l _ _ _ _ Eq Hp) as (v & _ & Hs). cbv beta in Hs. cbn [fst snd] in Hs. destruct (x' =? x)%nat eqn:E; [|discriminate Hs]. apply Nat.eqb_eq in E. subst x'. unfold good, bad. cbn [fst snd].
    assert (Hin : In (x, q) qs) by (apply (in_combine_l _ _ _ _ Hp)). assert (Hx : (x < 2 ^ (n + rate))%nat) by (apply Hxs, (in_combine_r _ _ _ _ Hp)).
    destruct (Hpl x q Hin) as (Lo & Po & Pk). destruct q as [oracle cqs]. cbn [bq_oracle bq_comms] in *.
    pose proof Hs as Hs'. unfold b_check in Hs'. cbn [bq_oracle bq_comms] in Hs'.
    destruct (check_paths oracle (bp_roots pf)) as [l1|] eqn:Em; [|discriminate Hs']. cbn [obind] in Hs'. destruct (check_paths cqs (map bc_root comms)) as [l2|] eqn:Em2; [|discriminate Hs']. clear Hs'.
    destruct (oracles_at as_bases emb hash_bases hash_two_digests deqb scm deqb_ok bdec nb n nr O trees oracle (bp_roots pf) l1 x Hnb Hinj ltac:(lia) HO Hr Em Lo Hx Po) as [Hgood|C]; [|right; right; exact C].
    destruct (general_rounds bdec nb Hnb Hinj Hrate comms coeffs W tW HW cqs l2 Em2 Pk n nr cs O oracle (bp_roots pf) x v ltac:(lia) ltac:(lia) Hx HO0 Lf Hgood Hs) as [H|C]; [left; exact H|right; left; exact C].
  - left. intros x Hx i Hi. destruct (In_nth _ _ 0%nat Hx) as (p & Hp & Ep). destruct (nth_error qs p) as [xq|] eqn:Exq; [|apply nth_error_None in Exq; lia].
    assert (Hc : In (xq, x) (combine qs xs)).
    { apply nth_error_In with p. clear -Exq Ep Hp. revert p xs Exq Ep Hp. induction qs as [|a l IH]; intros [|p] [|b l'] H1 H2 H3; try discriminate H1; cbn [nth_error combine nth length] in *; try lia; [congruence|]. apply IH; auto. lia. }
    exact (Hg _ Hc i Hi).
  - right. destruct xq as [x' q]. exists x', q. split; [apply (in_combine_l _ _ _ _ Hp)|]. exact Hb.
Qed.
End GeneralQueries.
