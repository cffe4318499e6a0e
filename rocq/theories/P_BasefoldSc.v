(** Basefold: what the sum-check messages of an accepted opening say about the claimed value. *)
From Coq Require Import List Arith Lia Bool ZArith Field.
From Verif Require Import ListAux FieldDef PolyList MleMath M_Mle M_Tensor M_Sumcheck M_Fft M_Merkle M_Code M_Basefold P_Mle P_Eq P_Tensor P_Graph4 P_Hash P_Layers2 P_Merkle P_Merkle2 P_Commit2 P_Basefold P_Fft P_Code P_Code2 P_Code3 P_Code4 P_Code5 P_Basefold2 P_Basefold3 P_Basefold4.
Import ListNotations.

Section Messages.
Context {K : field} {B D : Type} (as_bases : K -> list B) (emb : B -> K) (hash_bases : list B -> D)
  (hash_two_digests : D -> D -> D) (deqb : D -> D -> bool) (dig : D -> list (@ev K)) (T : @hist K -> K) (to_usize : K -> nat)
  (nbits : nat) (scm : @scheme K).
Local Open Scope F_scope.
Add Field Kf_bsc : (fth K).
Notation verify := (verify as_bases emb hash_bases hash_two_digests deqb dig T to_usize nbits scm).

Lemma fixed_length n (f l : list K) : length (fixed n f l) = (2 ^ (n - length l))%nat.
Proof. unfold fixed. now rewrite map_length, seq_length. Qed.
Lemma fixed_nil n (f : list K) : length f = (2 ^ n)%nat -> fixed n f [] = f.
Proof. intros Lf. rewrite (table_of_mle n f Lf) at 2. unfold fixed. cbn [length rev]. rewrite Nat.sub_0_r. apply map_ext. intros b. now rewrite app_nil_r. Qed.
Lemma fixed_all n (f : list K) : length f = (2 ^ n)%nat -> forall l, (length l <= n)%nat ->
  forall r, length r = (n - length l)%nat -> mle (fixed n f l) r = mle f (r ++ rev l).
Proof.
  intros Lf. induction l as [|c l IH] using rev_ind; intros Hl r Lr.
  - cbn [length rev] in *. rewrite app_nil_r. now rewrite fixed_nil.
  - rewrite app_length in *. cbn [length] in *.
    assert (E : fixed n f (l ++ [c]) = linh (n - (length l + 1)) (fixed n f l) c).
    { assert (L : length (fixed n f l) = (2 ^ S (n - (length l + 1)))%nat) by (rewrite fixed_length; f_equal; lia).
      rewrite (table_of_mle (n - (length l + 1)) (linh (n - (length l + 1)) (fixed n f l) c)) by (now apply linh_length).
      unfold fixed at 1. rewrite app_length. cbn [length]. apply map_ext. intros b. rewrite mle_linh by (auto; apply bpt_length).
      rewrite IH by (try rewrite app_length, bpt_length; cbn [length]; lia). f_equal. rewrite rev_app_distr, <- app_assoc. reflexivity. }
    rewrite E, mle_linh by (try (rewrite fixed_length; f_equal); lia). rewrite IH by (try rewrite app_length; cbn [length]; lia). f_equal. rewrite rev_app_distr, <- app_assoc. reflexivity.
Qed.
Lemma fixed_linh n (f : list K) l c : length f = (2 ^ n)%nat -> (length l < n)%nat -> fixed n f (l ++ [c]) = linh (n - S (length l)) (fixed n f l) c.
Proof.
  intros Lf Hl. assert (L : length (fixed n f l) = (2 ^ S (n - S (length l)))%nat) by (rewrite fixed_length; f_equal; lia).
  rewrite (table_of_mle (n - S (length l)) (linh (n - S (length l)) (fixed n f l) c)) by (now apply linh_length).
  unfold fixed at 1. rewrite app_length. cbn [length]. rewrite Nat.add_1_r. apply map_ext. intros b. rewrite mle_linh by (auto; apply bpt_length).
  rewrite fixed_all by (try rewrite app_length, bpt_length; cbn [length]; auto; lia). f_equal. rewrite rev_app_distr, <- app_assoc. reflexivity.
Qed.
Lemma firstn_snoc (l : list K) m : (m < length l)%nat -> firstn (S m) l = firstn m l ++ [nth m l 0].
Proof. revert l. induction m as [|m IH]; intros [|x l] Hm; cbn [length] in Hm; try lia; [reflexivity|]. cbn [firstn nth app]. f_equal. apply IH. lia. Qed.
Lemma skipn_cons (l : list K) m : (m < length l)%nat -> skipn m l = nth m l 0 :: skipn (S m) l.
Proof. revert l. induction m as [|m IH]; intros [|x l] Hm; cbn [length] in Hm; try lia; [reflexivity|]. cbn [nth]. change (skipn (S m) (x :: l)) with (skipn m l). rewrite IH by lia. reflexivity. Qed.
Lemma fixed_eq (point : list K) : forall l, (length l <= length point)%nat ->
  fixed (length point) (eq_table point) l = map (fun e => e * eqs (rev (skipn (length point - length l) point)) l) (eq_table (firstn (length point - length l) point)).
Proof.
  induction l as [|c l IH] using rev_ind; intros Hl.
  - cbn [length]. rewrite fixed_nil by apply eq_table_length. rewrite Nat.sub_0_r, skipn_all2, firstn_all2 by lia. cbn [rev]. rewrite <- (map_id (eq_table point)) at 1. apply map_ext. intros e. unfold eqs. cbn. ring.
  - rewrite app_length in *. cbn [length] in *. rewrite fixed_linh by (try apply eq_table_length; lia). rewrite IH by lia.
    set (m := (length point - S (length l))%nat). replace (length point - length l)%nat with (S m) by lia. replace (length point - (length l + 1))%nat with m by lia.
    rewrite (firstn_snoc point m) by lia. pose proof (linh_eq (firstn m point) (nth m point 0) (eqs (rev (skipn (S m) point)) l) c) as EL. rewrite firstn_length, Nat.min_l in EL by lia. rewrite EL.
    apply map_ext. intros e. f_equal. rewrite (skipn_cons point m) by lia. cbn [rev].
    rewrite eqs_app by (rewrite rev_length, skipn_length; lia). unfold eqs at 3. cbn. ring.
Qed.
Lemma dot_scaled (f g : list K) k : dot f (map (fun e => e * k) g) = dot f g * k.
Proof. unfold dot. revert g. induction f as [|x f IH]; intros [|y g]; cbn [map combine fsum fst snd]; try (cbn; ring). unfold fsum in *. cbn [fold_right map fst snd]. rewrite IH. ring. Qed.

(** The honest polynomial of round [i]: the sum over the remaining variables of [f] times the indicator of [point], with the last variables fixed to the challenges so far and to [x]. *)
Definition round_value (f point cs : list K) (i : nat) (x : K) : K :=
  dot (fixed (length point) f (firstn i cs ++ [x])) (fixed (length point) (eq_table point) (firstn i cs ++ [x])).

Lemma check_eq_some (a b : option K) : check_eq a b = Some tt -> exists x, a = Some x /\ b = Some x.
Proof. unfold check_eq. destruct a as [x|]; [|discriminate]. destruct b as [y|]; [|discriminate]. cbn [obind]. destruct (x =? y) eqn:E; [|discriminate]. intros _. apply feqb_true in E. subst y. eauto. Qed.

Section Round.
Variables (f point cs : list K).
Hypothesis Lf : length f = (2 ^ length point)%nat.
Variable i : nat.
Hypothesis Hi : (i < length cs)%nat.
Hypothesis Hcs : (length cs <= length point)%nat.
Let F := fixed (length point) f (firstn i cs).
Let G := fixed (length point) (eq_table point) (firstn i cs).
Let hm := bmsgh (length point - S i) F G.
Lemma round_lens : length F = (2 ^ S (length point - S i))%nat /\ length G = (2 ^ S (length point - S i))%nat.
Proof. unfold F, G. rewrite !fixed_length, firstn_length, Nat.min_l by lia. split; f_equal; lia. Qed.
Lemma round_eval x : degree_2_eval hm x = Some (round_value f point cs i x).
Proof.
  destruct round_lens as [L1 L2]. unfold hm. rewrite bmsgh_eval by assumption. unfold round_value, F, G. rewrite !fixed_linh by (try apply eq_table_length; try exact Lf; rewrite firstn_length; lia).
  rewrite firstn_length, Nat.min_l by lia. reflexivity.
Qed.
Lemma round_sum : degree_2_zero_plus_one hm = Some (dot F G) /\ dot F G = round_value f point cs i 0 + round_value f point cs i 1.
Proof.
  destruct round_lens as [L1 L2]. pose proof (bmsgh_sum (length point - S i) F G L1 L2) as E. fold hm in E. split; [exact E|].
  pose proof (round_eval 0) as E0. pose proof (round_eval 1) as E1. unfold hm, bmsgh, bmsg in E, E0, E1. unfold degree_2_eval, degree_2_zero_plus_one in *. cbn [nth_error obind] in *.
  injection E as <-. injection E0 as <-. injection E1 as <-. ring.
Qed.
Lemma round_roots m l : degree_2_zero_plus_one m <> Some (round_value f point cs i 0 + round_value f point cs i 1) -> NoDup l ->
  (forall x, In x l -> degree_2_eval m x = Some (round_value f point cs i x)) -> (length l <= 2)%nat.
Proof.
  intros Hs Hnd Hr. destruct l as [|x0 l0] eqn:El; [cbn; lia|]. rewrite <- El in *. assert (H0 : In x0 l) by (rewrite El; now left). clear El l0.
  pose proof (Hr x0 H0) as E0. unfold degree_2_eval in E0.
  destruct (nth_error m 0) as [a|] eqn:Ea; [|discriminate E0]. destruct (nth_error m 1) as [b|] eqn:Eb; [|discriminate E0]. destruct (nth_error m 2) as [c|] eqn:Ec; [|discriminate E0]. clear E0.
  destruct round_sum as [S1 S2]. rewrite <- S2 in Hs. remember hm as q eqn:Eq. unfold hm, bmsgh, bmsg in Eq.
  match type of Eq with q = [?u; ?v; ?w] => set (a' := u) in Eq; set (b' := v) in Eq; set (c' := w) in Eq end.
  assert (HR : forall x, In x l -> peval [a - a'; b - b'; c - c'] x = 0).
  { intros x Hx. pose proof (Hr x Hx) as E1. rewrite <- round_eval in E1. fold hm in E1. unfold hm, bmsgh, bmsg in E1. fold a' b' c' in E1. unfold degree_2_eval in E1. rewrite Ea, Eb, Ec in E1. cbn [nth_error obind] in E1. injection E1 as E1. cbn [peval].
    replace (a - a' + x * (b - b' + x * (c - c' + x * 0))) with ((a + x * b + x * x * c) - (a' + x * b' + x * x * c')) by ring. rewrite E1. ring. }
  enough (length l < 3)%nat by lia. change 3%nat with (length [a - a'; b - b'; c - c']). apply poly_roots; [|exact Hnd|exact HR].
  intros A. inversion A as [|? ? A1 A']; subst. inversion A' as [|? ? A2 A'']; subst. inversion A'' as [|? ? A3 _]; subst.
  apply Hs. unfold degree_2_zero_plus_one in *. rewrite Ea, Eb, Ec. cbn [nth_error obind] in *. rewrite <- S1. f_equal.
  replace a with (a' + (a - a')) by ring. replace b with (b' + (b - b')) by ring. replace c with (c' + (c - c')) by ring. rewrite A1, A2, A3. ring.
Qed.
End Round.

Lemma chain_checked (msgs : list (list K)) (cs final point : list K) e k :
  let n := length point in let nr := (n - k)%nat in (k < n)%nat -> length cs = nr ->
  final_checks msgs cs final (map (fun e => e * eqs (rev (skipn k point)) cs) (eq_table (firstn k point))) e = Some tt ->
  forall f, length f = (2 ^ n)%nat -> mle final (firstn k point) = mle f (firstn k point ++ rev cs) ->
    e = mle f point \/
      exists i m, (i < nr)%nat /\ nth_error msgs i = Some m /\
        degree_2_zero_plus_one m <> Some (round_value f point cs i 0 + round_value f point cs i 1) /\
        degree_2_eval m (nth i cs 0) = Some (round_value f point cs i (nth i cs 0)) /\
        forall l, NoDup l -> (forall x, In x l -> degree_2_eval m x = Some (round_value f point cs i x)) -> (length l <= 2)%nat.
Proof.
  intros n nr Hn Lcs Ef.
  intros f Lf Hfin. unfold final_checks in Ef.
  destruct (nth_error msgs 0) as [m0|] eqn:Em0; [|discriminate Ef]. cbn [obind] in Ef.
  destruct (check_eq (Some e) _) as [[]|] eqn:E0; [|discriminate Ef]. cbn [obind] in Ef. rewrite csub_ok in Ef by lia. cbn [obind] in Ef. rewrite Lcs in Ef.
  destruct (omapM _ (seq 0 (nr - 1))) as [us|] eqn:Eo; [|discriminate Ef]. cbn [obind] in Ef.
  destruct (nth_error cs (nr - 1)) as [cl|] eqn:Ecl; [|discriminate Ef]. cbn [obind] in Ef. destruct (nth_error msgs (nr - 1)) as [ml|] eqn:Eml; [|discriminate Ef]. cbn [obind] in Ef.
  apply check_eq_some in E0. destruct E0 as (e0 & E0 & Es0). injection E0 as <-. apply check_eq_some in Ef. destruct Ef as (vl & Evl & Eip).
  apply (nth_error_nth _ _ 0) in Ecl. subst cl.
  set (FF := fun i => fixed n f (firstn i cs)). set (GG := fun i => fixed n (eq_table point) (firstn i cs)).
  assert (Hn1 : (length cs <= length point)%nat) by (fold n; lia).
  (* the last check gives the honest value *)
  assert (Hlast : vl = dot (FF nr) (GG nr)).
  { unfold inner_product in Eip. destruct (_ =? _)%nat eqn:El in Eip; [|discriminate Eip]. apply Nat.eqb_eq in El. rewrite map_length, eq_table_length in El. injection Eip as <-.
    match goal with |- fsum (map _ (combine ?a ?b)) = _ => change (dot a b = dot (FF nr) (GG nr)) end. unfold FF, GG. rewrite <- Lcs, firstn_all. unfold n. rewrite fixed_eq by exact Hn1. rewrite !dot_scaled.
    replace (length point - length cs)%nat with (k) by (fold n; lia). f_equal. rewrite !dot_eq_table.
    - rewrite Hfin. symmetry. apply fixed_all; [exact Lf|exact Hn1|]. rewrite firstn_length. fold n. lia.
    - rewrite fixed_length, firstn_length. f_equal. fold n. lia.
    - exact El. }
  assert (Hstep : forall i, (i < nr - 1)%nat -> exists a b v, nth_error msgs i = Some a /\ nth_error msgs (S i) = Some b /\ degree_2_eval a (nth i cs 0) = Some v /\ degree_2_zero_plus_one b = Some v).
  { intros i Hi. assert (Hin : In i (seq 0 (nr - 1))) by (apply in_seq; lia). destruct (omapM_in_l _ _ _ i Eo Hin) as (v & _ & Ei). cbv beta in Ei. destruct v.
    destruct (nth_error cs i) as [ci|] eqn:Eci; [|discriminate Ei]. cbn [obind] in Ei. destruct (nth_error msgs i) as [a|] eqn:Ea; [|discriminate Ei]. cbn [obind] in Ei.
    rewrite Nat.add_1_r in Ei. destruct (nth_error msgs (S i)) as [b|] eqn:Eb; [|discriminate Ei]. cbn [obind] in Ei. apply (nth_error_nth _ _ 0) in Eci. subst ci.
    apply check_eq_some in Ei. destruct Ei as (v & E1 & E2). exists a, b, v. repeat split; auto. }
  assert (Hround : forall i, (i < nr)%nat -> round_value f point cs i (nth i cs 0) = dot (FF (S i)) (GG (S i)) /\ dot (FF i) (GG i) = round_value f point cs i 0 + round_value f point cs i 1).
  { intros i Hi. split; [unfold round_value, FF, GG; rewrite (firstn_snoc cs i) by lia; reflexivity|]. apply (round_sum f point cs Lf i ltac:(lia) Hn1). }
  set (bad := exists i m, (i < nr)%nat /\ nth_error msgs i = Some m /\ degree_2_zero_plus_one m <> Some (round_value f point cs i 0 + round_value f point cs i 1) /\
        degree_2_eval m (nth i cs 0) = Some (round_value f point cs i (nth i cs 0)) /\
        forall l, NoDup l -> (forall x, In x l -> degree_2_eval m x = Some (round_value f point cs i x)) -> (length l <= 2)%nat).
  assert (Hone : forall i m, (i < nr)%nat -> nth_error msgs i = Some m -> degree_2_eval m (nth i cs 0) = Some (dot (FF (S i)) (GG (S i))) ->
     degree_2_zero_plus_one m = Some (dot (FF i) (GG i)) \/ bad).
  { intros i m Hi Em Ee. destruct (Hround i Hi) as [R1 R2]. assert (Hd : degree_2_zero_plus_one m = Some (dot (FF i) (GG i)) \/ degree_2_zero_plus_one m <> Some (dot (FF i) (GG i))).
    { destruct (degree_2_zero_plus_one m) as [v|]; [|right; discriminate]. destruct (feq_dec v (dot (FF i) (GG i))) as [->|N]; [now left|right; congruence]. }
    destruct Hd as [Hd|Hd]; [now left|right]. rewrite R2 in Hd. exists i, m. repeat split; auto; [now rewrite R1|]. intros l. exact (round_roots f point cs Lf i ltac:(lia) Hn1 m l Hd). }
  assert (Hall : forall d i m, (i + d = nr - 1)%nat -> nth_error msgs i = Some m -> degree_2_zero_plus_one m = Some (dot (FF i) (GG i)) \/ bad).
  { induction d as [|d IH]; intros i m Hd Em.
    - replace i with (nr - 1)%nat in * by lia. rewrite Eml in Em. injection Em as <-. apply Hone; [lia|exact Eml|]. rewrite Evl, Hlast. now replace (S (nr - 1)) with nr by lia.
    - destruct (Hstep i ltac:(lia)) as (a & b & v & Ea & Eb & E1 & E2). rewrite Em in Ea. injection Ea as <-. destruct (IH (S i) b ltac:(lia) Eb) as [Hb|Hb]; [|now right].
      apply Hone; [lia|exact Em|]. rewrite E1, <- E2. exact Hb. }
  destruct (Hall (nr - 1)%nat 0%nat m0 ltac:(lia) Em0) as [H0|H0]; [left|right; exact H0].
  rewrite Es0 in H0. injection H0 as ->. unfold FF, GG. cbn [firstn]. rewrite !fixed_nil by (try apply eq_table_length; exact Lf). apply dot_eq_table. exact Lf.
Qed.

Lemma accepted_messages sched comm (point : list K) e (pf : @bproof K B D) h h' :
  let n := length point in let nr := (n - sc_msg scm)%nat in
  verify sched comm point e pf h = Some h' -> bp_trivial pf = [] -> (sc_msg scm < n)%nat ->
  exists cs h1, verifier_rounds dig T nr 0 nr (bp_msgs pf) (bp_roots pf) h = Some (cs, h1) /\ length cs = nr /\
    forall f, length f = (2 ^ n)%nat -> mle (bp_final pf) (firstn (sc_msg scm) point) = mle f (firstn (sc_msg scm) point ++ rev cs) ->
      e = mle f point \/
      exists i m, (i < nr)%nat /\ nth_error (bp_msgs pf) i = Some m /\
        degree_2_zero_plus_one m <> Some (round_value f point cs i 0 + round_value f point cs i 1) /\
        degree_2_eval m (nth i cs 0) = Some (round_value f point cs i (nth i cs 0)) /\
        forall l, NoDup l -> (forall x, In x l -> degree_2_eval m x = Some (round_value f point cs i x)) -> (length l <= 2)%nat.
Proof.
  intros n nr Hv Ht Hn. unfold M_Basefold.verify in Hv. rewrite Ht in Hv. fold n in Hv.
  destruct (negb _); [discriminate Hv|]. rewrite csub_ok in Hv by lia. cbn [obind] in Hv. fold nr in Hv.
  destruct (verifier_rounds dig T nr 0 nr (bp_msgs pf) (bp_roots pf) h) as [[cs h1]|] eqn:Ev; [|discriminate Hv]. cbn [obind] in Hv.
  exists cs, h1. split; [reflexivity|]. assert (Lcs : length cs = nr) by (eapply vr_len; exact Ev). split; [exact Lcs|].
  destruct (query_indices T to_usize scm n (absorb h1 (bp_final pf))) as [xs h2]. destruct (match bp_queries pf with QSingle qs => Some qs | _ => None end) as [qs|]; [|discriminate Hv]. cbn [obind] in Hv.
  destruct (partial_eq_of nbits point cs) as [eq|] eqn:Ep; [|discriminate Hv]. cbn [obind] in Hv. rewrite (partial_eq_ok nbits point cs (sc_msg scm)) in Ep by (fold n; lia). injection Ep as <-.
  destruct (final_codeword_single scm (bp_final pf)) as [fc|]; [|discriminate Hv]. cbn [obind] in Hv.
  destruct (queries_check _ _ _ _ _ _ _ _ _ _ _ _ _ _) as [u|]; [|discriminate Hv]. cbn [obind] in Hv.
  destruct (final_checks _ _ _ _ _) as [[]|] eqn:Ef; [|discriminate Hv]. clear Hv.
  intros f Lf Hfin. exact (chain_checked (bp_msgs pf) cs (bp_final pf) point e (sc_msg scm) Hn Lcs Ef f Lf Hfin).
Qed.

(** The same for several polynomials under one commitment: the combination of the claimed values. *)
Lemma accepted_batch_messages comm (point evals : list K) (pf : @bproof K B D) h h' :
  let n := length point in let nr := (n - sc_msg scm)%nat in
  simple_batch_verify as_bases emb hash_bases hash_two_digests deqb dig T to_usize nbits scm comm point evals pf h = Some h' -> bp_trivial pf = [] -> (sc_msg scm < n)%nat ->
  exists ts h0 cs h1, challenges T lbl_batch (Nat.log2_up (length evals)) h = (ts, h0) /\
    verifier_rounds dig T nr 0 nr (bp_msgs pf) (bp_roots pf) h0 = Some (cs, h1) /\ length cs = nr /\
    forall f, length f = (2 ^ n)%nat -> mle (bp_final pf) (firstn (sc_msg scm) point) = mle f (firstn (sc_msg scm) point ++ rev cs) ->
      fsum (map (fun p => fst p * snd p) (combine (eq_table ts) evals)) = mle f point \/
      exists i m, (i < nr)%nat /\ nth_error (bp_msgs pf) i = Some m /\
        degree_2_zero_plus_one m <> Some (round_value f point cs i 0 + round_value f point cs i 1) /\
        degree_2_eval m (nth i cs 0) = Some (round_value f point cs i (nth i cs 0)) /\
        forall l, NoDup l -> (forall x, In x l -> degree_2_eval m x = Some (round_value f point cs i x)) -> (length l <= 2)%nat.
Proof.
  intros n nr Hv Ht Hn. unfold M_Basefold.simple_batch_verify in Hv.
  destruct (negb _); [discriminate Hv|]. rewrite Ht in Hv. fold n in Hv. destruct (negb _); [discriminate Hv|]. rewrite csub_ok in Hv by lia. cbn [obind] in Hv. fold nr in Hv.
  destruct (challenges T lbl_batch (Nat.log2_up (length evals)) h) as [ts h0] eqn:Ech.
  rewrite build_eq_par_spec in Hv. cbn [obind] in Hv.
  destruct (slice 0 (length evals) (eq_table ts)) as [coeffs|] eqn:Esl; [|discriminate Hv]. cbn [obind] in Hv.
  destruct (verifier_rounds dig T nr 0 nr (bp_msgs pf) (bp_roots pf) h0) as [[cs h1]|] eqn:Ev; [|discriminate Hv]. cbn [obind] in Hv.
  exists ts, h0, cs, h1. split; [reflexivity|]. split; [first [reflexivity | exact Ev]|]. assert (Lcs : length cs = nr) by (eapply vr_len; exact Ev). split; [exact Lcs|].
  destruct (query_indices T to_usize scm n (absorb h1 (bp_final pf))) as [xs h2]. destruct (match bp_queries pf with QSimpleBatched qs => Some qs | _ => None end) as [qs|]; [|discriminate Hv]. cbn [obind] in Hv.
  destruct (partial_eq_of nbits point cs) as [eq|] eqn:Ep; [|discriminate Hv]. cbn [obind] in Hv. rewrite (partial_eq_ok nbits point cs (sc_msg scm)) in Ep by (fold n; lia). injection Ep as <-.
  destruct (final_codeword_batch scm (bp_final pf)) as [fc|]; [|discriminate Hv]. cbn [obind] in Hv.
  destruct (sb_queries_check _ _ _ _ _ _ _ _ _ _ _ _ _ _ _) as [u|]; [|discriminate Hv]. cbn [obind] in Hv.
  destruct (inner_product coeffs evals) as [tg|] eqn:Etg; [|discriminate Hv]. cbn [obind] in Hv.
  destruct (final_checks _ _ _ _ _) as [[]|] eqn:Ef; [|discriminate Hv]. clear Hv.
  assert (E : tg = fsum (map (fun p => fst p * snd p) (combine (eq_table ts) evals))).
  { unfold inner_product in Etg. destruct (_ =? _)%nat eqn:El in Etg; [|discriminate Etg]. injection Etg as <-. unfold slice in Esl. destruct (_ && _) in Esl; [|discriminate Esl]. injection Esl as <-. rewrite Nat.sub_0_r. cbn [skipn].
    do 2 f_equal. generalize (eq_table ts) as l. clear. intros l. revert l. induction evals as [|v vs IH]; intros [|x l]; cbn [length firstn combine]; try reflexivity. f_equal. apply IH. }
  rewrite <- E. intros f Lf Hfin. exact (chain_checked (bp_msgs pf) cs (bp_final pf) point tg (sc_msg scm) Hn Lcs Ef f Lf Hfin).
Qed.

(** A message of an opening that is not the honest one for [f], but agrees with it at its challenge. *)
Definition lucky_opening (f point : list K) (pf : @bproof K B D) (h : @hist K) : Prop :=
  let nr := (length point - sc_msg scm)%nat in
  exists cs h1 i m, verifier_rounds dig T nr 0 nr (bp_msgs pf) (bp_roots pf) h = Some (cs, h1) /\ (i < nr)%nat /\ nth_error (bp_msgs pf) i = Some m /\
    degree_2_zero_plus_one m <> Some (round_value f point cs i 0 + round_value f point cs i 1) /\ degree_2_eval m (nth i cs 0) = Some (round_value f point cs i (nth i cs 0)) /\
    forall l, NoDup l -> (forall x, In x l -> degree_2_eval m x = Some (round_value f point cs i x)) -> (length l <= 2)%nat.
(** The final message of an opening is that of [f]. *)
Definition final_of (f point : list K) (pf : @bproof K B D) (h : @hist K) : Prop :=
  let nr := (length point - sc_msg scm)%nat in
  forall cs h1, verifier_rounds dig T nr 0 nr (bp_msgs pf) (bp_roots pf) h = Some (cs, h1) -> mle (bp_final pf) (firstn (sc_msg scm) point) = mle f (firstn (sc_msg scm) point ++ rev cs).
(** Two accepted openings whose final messages are those of one polynomial have the same value. *)
Lemma one_value sched sched' comm comm' (point f : list K) e e' (pf pf' : @bproof K B D) h h' h1 h1' :
  verify sched comm point e pf h = Some h1 -> verify sched' comm' point e' pf' h' = Some h1' -> bp_trivial pf = [] -> bp_trivial pf' = [] ->
  (sc_msg scm < length point)%nat -> length f = (2 ^ length point)%nat -> final_of f point pf h -> final_of f point pf' h' ->
  e = e' \/ lucky_opening f point pf h \/ lucky_opening f point pf' h'.
Proof.
  intros V V' Tr Tr' Hn Lf F F'. destruct (accepted_messages _ _ _ _ _ _ _ V Tr Hn) as (cs & g & E & _ & A). destruct (accepted_messages _ _ _ _ _ _ _ V' Tr' Hn) as (cs' & g' & E' & _ & A').
  destruct (A f Lf (F cs g E)) as [->|(i & m & H1 & H2 & H3 & H4 & H5)]; [|right; left; exists cs, g, i, m; repeat split; auto].
  destruct (A' f Lf (F' cs' g' E')) as [->|(i & m & H1 & H2 & H3 & H4 & H5)]; [left; reflexivity|right; right; exists cs', g', i, m; repeat split; auto].
Qed.
End Messages.
