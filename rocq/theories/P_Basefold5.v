(** Basefold: openings that are accepted although nothing was checked about the claimed values. *)
From Coq Require Import List Arith Lia Bool ZArith Field.
From Verif Require Import ListAux FieldDef MleMath M_Mle M_Tensor M_Sumcheck M_Fft M_Merkle M_Code M_Basefold P_Mle P_Eq P_Tensor P_Graph4 P_Hash P_Layers2 P_Merkle P_Merkle2 P_Basefold P_Basefold2 P_Basefold3.
Import ListNotations.

Section Unchecked.
Context {K : field} {B D : Type} (as_bases : K -> list B) (emb : B -> K) (hash_bases : list B -> D)
  (hash_two_digests : D -> D -> D) (deqb : D -> D -> bool) (dig : D -> list (@ev K)) (T : @hist K -> K) (to_usize : K -> nat)
  (nbits : nat) (scm : @scheme K).
Hypothesis deqb_ok : forall x y : D, deqb x y = true <-> x = y.
Local Open Scope F_scope.
Add Field Kf_b5 : (fth K).
Notation leaves l := (from_batch_leaves as_bases emb hash_bases hash_two_digests [CExt l]).
Notation verify := (verify as_bases emb hash_bases hash_two_digests deqb dig T to_usize nbits scm).
Notation simple_batch_verify := (simple_batch_verify as_bases emb hash_bases hash_two_digests deqb dig T to_usize nbits scm).
Notation batch_verify := (batch_verify as_bases emb hash_bases hash_two_digests deqb dig T to_usize nbits scm).

(** A batched opening of small polynomials: any values at any point. *)
Lemma sb_trivial_any (c0 : @col B K) cols t r (point evals : list K) h :
  from_batch_leaves as_bases emb hash_bases hash_two_digests (c0 :: cols) = Some t -> mt_root t = Some r -> length evals = S (length cols) ->
  simple_batch_verify (mkComm r (Some (Nat.log2 (col_len c0))) false (Some (S (length cols)))) point evals (mkBp [] [] [] (QSimpleBatched []) None (c0 :: cols)) h = Some h.
Proof.
  intros Et Er Le. unfold M_Basefold.simple_batch_verify. cbn [bc_polys bp_trivial]. rewrite Le, Nat.eqb_refl. cbn [negb]. rewrite Et. cbn [obind]. rewrite Er. cbn [obind bc_root].
  rewrite (proj2 (deqb_ok r r) eq_refl). reflexivity.
Qed.

(** ** Values that can be changed after the fact *)
Lemma shift_two (w : list K) (e0 e1 : K) es : (2 <= length w)%nat ->
  exists d0 d1, (d0 <> 0 \/ d1 <> 0) /\ fsum (map (fun p => fst p * snd p) (combine w ((e0 + d0) :: (e1 + d1) :: es))) = fsum (map (fun p => fst p * snd p) (combine w (e0 :: e1 :: es))).
Proof.
  intros Hw. destruct w as [|w0 [|w1 w]]; cbn [length] in Hw; try lia. destruct (feq_dec w0 0) as [Hz|Hz].
  - exists 1, 0. split; [left; apply f1_neq_0|]. cbn [combine map fst snd fsum]. rewrite Hz. ring.
  - exists (- w1), w0. split; [right; exact Hz|]. cbn [combine map fst snd fsum]. ring.
Qed.
Lemma add_neq (e d : K) : d <> 0 -> e + d <> e.
Proof. intros Hd E. apply Hd. replace d with (e + d - e) by ring. rewrite E. ring. Qed.
Lemma shift_neq (e0 e1 d0 d1 : K) es : d0 <> 0 \/ d1 <> 0 -> (e0 + d0) :: (e1 + d1) :: es <> e0 :: e1 :: es.
Proof. intros [H|H] E; [apply (f_equal (hd 0)) in E|apply (f_equal (fun l => hd 0 (tl l))) in E]; cbn [hd tl] in E; now apply add_neq in E. Qed.

(** With two or more polynomials an accepted batched opening is also accepted for other values. *)
Lemma sb_malleable comm (point evals : list K) (pf : @bproof K B D) h h' : (2 <= length evals)%nat ->
  simple_batch_verify comm point evals pf h = Some h' ->
  exists evals', evals' <> evals /\ length evals' = length evals /\ simple_batch_verify comm point evals' pf h = Some h'.
Proof.
  intros He Hv. destruct evals as [|e0 [|e1 es]]; cbn [length] in He; try lia.
  unfold M_Basefold.simple_batch_verify in Hv.
  set (N := length (e0 :: e1 :: es)) in *.
  assert (HN : forall d0 d1, length ((e0 + d0) :: (e1 + d1) :: es) = N) by reflexivity.
  destruct (negb (match bc_polys comm with Some n => (n =? N)%nat | None => true end)) eqn:E0; [discriminate Hv|].
  destruct (bp_trivial pf) as [|c0 cs] eqn:Et.
  - destruct (challenges T lbl_batch (Nat.log2_up N) h) as [t h0] eqn:Ec.
    destruct (negb (match bc_nv comm with Some n => _ | None => true end)) eqn:E1; [discriminate Hv|].
    destruct (csub (length point) (sc_msg scm)) as [nr|] eqn:E2; [|discriminate Hv]. cbn [obind] in Hv. rewrite build_eq_par_spec in Hv. cbn [obind] in Hv.
    destruct (slice 0 N (eq_table t)) as [w|] eqn:Es; [|discriminate Hv]. cbn [obind] in Hv.
    assert (Lw : length w = N).
    { clear -Es. clearbody N. unfold slice in Es. destruct ((0 <=? N) && (N <=? length (eq_table t)))%nat eqn:Eb; [|discriminate Es]. injection Es as <-. cbn [skipn]. apply andb_prop in Eb. destruct Eb as [_ Eb]. apply Nat.leb_le in Eb. rewrite firstn_length. lia. }
    destruct (shift_two w e0 e1 es) as (d0 & d1 & Hd & Es2); [rewrite Lw; unfold N; cbn [length]; lia|].
    exists ((e0 + d0) :: (e1 + d1) :: es). split; [now apply shift_neq|]. split; [reflexivity|].
    unfold M_Basefold.simple_batch_verify. rewrite HN, E0, Et, E1, E2. cbn [obind]. rewrite Ec, build_eq_par_spec. cbn [obind]. rewrite Es. cbn [obind].
    replace (inner_product w ((e0 + d0) :: (e1 + d1) :: es)) with (inner_product w (e0 :: e1 :: es)); [exact Hv|].
    unfold inner_product. rewrite HN. fold N. destruct (length w =? N)%nat; [|reflexivity]. f_equal. symmetry. exact Es2.
  - exists ((e0 + 1) :: (e1 + 0) :: es). split; [apply shift_neq; left; apply f1_neq_0|]. split; [reflexivity|].
    unfold M_Basefold.simple_batch_verify. rewrite HN, E0, Et. exact Hv.
Qed.

Definition set_value (e : @evaluation K) (v : K) : evaluation := mkEval (ev_poly e) (ev_point e) v.
Lemma omapM_congr {A C} (f g : A -> option C) l l' : Forall2 (fun a b => f a = g b) l l' -> omapM f l = omapM g l'.
Proof. induction 1 as [|a b l l' H _ IH]; [reflexivity|]. cbn [omapM]. now rewrite H, IH. Qed.
(** The same for openings of several commitments at several points. *)
Lemma batch_malleable comms (points : list (list K)) e0 e1 es (pf : @bproof K B D) h h' :
  batch_verify comms points (e0 :: e1 :: es) pf h = Some h' ->
  exists v0 v1, (v0 <> ev_value e0 \/ v1 <> ev_value e1) /\ batch_verify comms points (set_value e0 v0 :: set_value e1 v1 :: es) pf h = Some h'.
Proof.
  intros Hv. unfold M_Basefold.batch_verify in Hv. set (N := length (e0 :: e1 :: es)) in *.
  destruct ((length comms =? 0) && (length points =? 0) && (N =? 0) && (length (bp_trivial pf) =? 0))%nat eqn:E0.
  { apply andb_prop in E0. destruct E0 as [E0 _]. apply andb_prop in E0. destruct E0 as [_ E0]. discriminate E0. }
  destruct (length points =? 0)%nat eqn:E1; [discriminate Hv|].
  set (nv := fold_left Nat.max (map (@length K) points) 0%nat) in *.
  destruct (csub nv (sc_msg scm)) as [nr|] eqn:E2; [|discriminate Hv]. cbn [obind] in Hv.
  destruct (omapM (@bc_nv D) comms) as [pnv|] eqn:E3; [|discriminate Hv]. cbn [obind] in Hv.
  set (F := fun e : @evaluation K => p <- nth_error points (ev_point e) ;; n <- nth_error pnv (ev_poly e) ;; if (length p =? n)%nat then Some tt else None) in *.
  destruct (omapM F (e0 :: e1 :: es)) as [u|] eqn:E4; [|discriminate Hv]. cbn [obind] in Hv.
  destruct (length comms =? 0)%nat eqn:E5; [discriminate Hv|]. destruct (negb (forallb _ pnv)) eqn:E6; [discriminate Hv|]. destruct (negb (length (bp_trivial pf) =? 0)%nat) eqn:E7; [discriminate Hv|].
  destruct (challenges T lbl_batch (Nat.log2_up N) h) as [t h1] eqn:Ec. rewrite build_eq_par_spec in Hv. cbn [obind] in Hv.
  set (SC := fun e : @evaluation K => p <- nth_error points (ev_point e) ;; Some (@fnat K (2 ^ (nv - length p)))) in *.
  destruct (omapM SC (e0 :: e1 :: es)) as [scs|] eqn:E8; [|discriminate Hv]. cbn [obind] in Hv.
  set (eqx := firstn N (eq_table t)) in *.
  destruct (inner_product_three (map (@ev_value K) (e0 :: e1 :: es)) scs eqx) as [tg|] eqn:E9; [|discriminate Hv]. cbn [obind] in Hv.
  assert (Hw : exists v0 v1, (v0 <> ev_value e0 \/ v1 <> ev_value e1) /\ inner_product_three (map (@ev_value K) (set_value e0 v0 :: set_value e1 v1 :: es)) scs eqx = Some tg).
  { unfold inner_product_three in *. cbn [map set_value ev_value] in *. cbn [length] in *. rewrite map_length in *.
    destruct ((S (S (length es)) =? length scs) && (S (S (length es)) =? length eqx))%nat eqn:El; [|discriminate E9]. apply andb_prop in El. destruct El as [L1 L2]. apply Nat.eqb_eq in L1, L2.
    destruct scs as [|s0 [|s1 scs']]; cbn [length] in L1; try lia. destruct eqx as [|q0 [|q1 eqx']]; cbn [length] in L2; try lia.
    destruct (feq_dec (s0 * q0) 0) as [Hz|Hz].
    - exists (ev_value e0 + 1), (ev_value e1). split; [left; apply add_neq, f1_neq_0|]. rewrite <- E9. f_equal. cbn [combine map fst snd fsum]. replace ((ev_value e0 + 1) * s0 * q0) with (ev_value e0 * s0 * q0 + s0 * q0) by ring. rewrite Hz. ring.
    - exists (ev_value e0 - s1 * q1), (ev_value e1 + s0 * q0). split; [right; now apply add_neq|]. rewrite <- E9. f_equal. cbn [combine map fst snd fsum]. ring. }
  destruct Hw as (v0 & v1 & Hne & Hip). exists v0, v1. split; [exact Hne|].
  assert (F2 : forall C (G : @evaluation K -> option C), (forall e v, G (set_value e v) = G e) -> omapM G (set_value e0 v0 :: set_value e1 v1 :: es) = omapM G (e0 :: e1 :: es)).
  { intros C G HG. cbn [omapM]. now rewrite !HG. }
  unfold M_Basefold.batch_verify. change (length (set_value e0 v0 :: set_value e1 v1 :: es)) with N. rewrite E5. cbn [andb]. rewrite E1. fold nv. rewrite E2. cbn [obind]. rewrite E3. cbn [obind]. fold F.
  rewrite (F2 _ F) by reflexivity. rewrite E4. cbn [obind]. rewrite E6, E7, Ec, build_eq_par_spec. cbn [obind]. fold SC. rewrite (F2 _ SC) by reflexivity. rewrite E8. cbn [obind]. fold eqx. rewrite Hip. cbn [obind].
  destruct (bp_sumcheck pf) as [rounds|]; [|discriminate Hv]. cbn [obind] in *. destruct (sc_verify T nv tg rounds h1) as [[[nt vp] h2]|]; [|discriminate Hv]. cbn [obind] in *.
  destruct (omapM (fun p => eq_xy_eval (firstn (length p) vp) p) points) as [eqe|]; [|discriminate Hv]. cbn [obind] in *.
  match goal with |- context[ofold ?f (combine (set_value e0 v0 :: _) ?x) ?s] => assert (EO : ofold f (combine (set_value e0 v0 :: set_value e1 v1 :: es) x) s = ofold f (combine (e0 :: e1 :: es) x) s) by (clear; destruct (eq_table t) as [|y0 [|y1 y]]; reflexivity) end.
  rewrite EO. exact Hv.
Qed.

(** ** A column of digests *)
Context (sp : D -> K * K).
(** A pair of elements is its own digest: [hash_or_noop] on at most four elements (poseidon_hash.rs:22-28). *)
Hypothesis noop : forall d, hash_bases (as_bases (fst (sp d)) ++ as_bases (snd (sp d))) = d.
Definition pair_dig (l : list K) (i : nat) : D := hash_bases (as_bases (nth (2 * i) l 0) ++ as_bases (nth (2 * i + 1) l 0)).
(** The digests one level above the leaf pairs, written as a column of half the length. *)
Definition digest_column (k : nat) (l : list K) : list K :=
  flat_map (fun i => let d := hash_two_digests (pair_dig l (2 * i)) (pair_dig l (2 * i + 1)) in [fst (sp d); snd (sp d)]) (seq 0 (2 ^ k)).
Lemma root_ext l k d : length l = (2 ^ S k)%nat -> exists t, leaves l = Some t /\ mt_root t = Some (tree_root hash_two_digests k (map (pair_dig l) (seq 0 (2 ^ k))) d).
Proof.
  intros Hl. assert (Hl1 : forall v : @col B K, In v (CExt l :: []) -> col_len v = (2 ^ S k)%nat) by (intros v [<- | []]; exact Hl).
  eexists. split.
  - apply (merkelize_gen as_bases emb hash_bases hash_two_digests (CExt l) [] k (pair_dig l)); [exact Hl|]. intros i Hi.
    rewrite (leaf_hash_ext as_bases emb hash_bases hash_two_digests 0 l [] (2 ^ S k) i Hl1) by (cbn [Nat.pow]; lia). reflexivity.
  - apply root_gen. now rewrite map_length, seq_length.
Qed.
Lemma flat2_len {A} (f : nat -> A * A) n s : length (flat_map (fun i => [fst (f i); snd (f i)]) (seq s n)) = (2 * n)%nat.
Proof. revert s. induction n as [|n IH]; intros s; [reflexivity|]. cbn [seq flat_map app length]. rewrite IH. lia. Qed.
Lemma flat2_nth {A} (f : nat -> A * A) n : forall s i d, (i < n)%nat ->
  nth (2 * i) (flat_map (fun i => [fst (f i); snd (f i)]) (seq s n)) d = fst (f (s + i)%nat) /\ nth (2 * i + 1) (flat_map (fun i => [fst (f i); snd (f i)]) (seq s n)) d = snd (f (s + i)%nat).
Proof.
  induction n as [|n IH]; intros s i d Hi; [lia|]. cbn [seq flat_map app]. destruct i as [|i]; [rewrite Nat.add_0_r; split; reflexivity|].
  replace (2 * S i)%nat with (S (S (2 * i))) by lia. replace (S (S (2 * i)) + 1)%nat with (S (S (2 * i + 1))) by lia. cbn [nth]. replace (s + S i)%nat with (S s + i)%nat by lia. apply IH. lia.
Qed.
Lemma digest_column_length k l : length (digest_column k l) = (2 ^ S k)%nat.
Proof. unfold digest_column. cbv zeta. rewrite (flat2_len (fun i => sp (hash_two_digests (pair_dig l (2 * i)) (pair_dig l (2 * i + 1))))). rewrite Nat.pow_succ_r'. reflexivity. Qed.
(** It has the root of the column it was made from. *)
Lemma digest_column_root k l t r : length l = (2 ^ S (S k))%nat -> leaves l = Some t -> mt_root t = Some r ->
  exists t', leaves (digest_column k l) = Some t' /\ mt_root t' = Some r.
Proof.
  intros Hl Et Er. destruct (root_ext l (S k) r Hl) as (t1 & Et1 & Er1). rewrite Et in Et1. injection Et1 as <-. rewrite Er in Er1. injection Er1 as Er1.
  destruct (root_ext (digest_column k l) k r (digest_column_length k l)) as (t2 & Et2 & Er2). exists t2. split; [exact Et2|]. rewrite Er2. f_equal.
  set (L1 := map (pair_dig l) (seq 0 (2 ^ S k))) in *. set (L2 := map (pair_dig (digest_column k l)) (seq 0 (2 ^ k))) in *.
  assert (LL1 : length L1 = (2 ^ S k)%nat) by (unfold L1; now rewrite map_length, seq_length). assert (LL2 : length L2 = (2 ^ k)%nat) by (unfold L2; now rewrite map_length, seq_length).
  assert (E : L2 = pair_up hash_two_digests L1).
  { assert (Lp : length (pair_up hash_two_digests L1) = (2 ^ k)%nat) by (apply pair_up_length; rewrite LL1, Nat.pow_succ_r'; reflexivity).
    apply (nth_ext _ _ r r); [congruence|]. intros i Hi. rewrite LL2 in Hi. rewrite pair_up_nth by (rewrite LL1, Nat.pow_succ_r'; lia). unfold L1, L2. rewrite !nth_map_seq by (rewrite ?Nat.pow_succ_r'; lia).
    unfold pair_dig at 1. unfold digest_column. cbv zeta. destruct (flat2_nth (fun i => sp (hash_two_digests (pair_dig l (2 * i)) (pair_dig l (2 * i + 1)))) (2 ^ k) 0 i 0 Hi) as [-> ->]. rewrite noop. reflexivity. }
  assert (H1 := level_root hash_two_digests r (S k) L1 LL1). assert (H2 := level_root hash_two_digests r k L2 LL2). rewrite E, level_pair, H1 in H2. injection H2 as H2. rewrite E, <- H2. symmetry. exact Er1.
Qed.
Fixpoint digest_columns (d k : nat) (l : list K) : list K := match d with O => l | S d' => digest_columns d' k (digest_column (k + d') l) end.
Lemma digest_columns_root d : forall k l t r, length l = (2 ^ (S k + d))%nat -> leaves l = Some t -> mt_root t = Some r ->
  length (digest_columns d k l) = (2 ^ S k)%nat /\ exists t', leaves (digest_columns d k l) = Some t' /\ mt_root t' = Some r.
Proof.
  induction d as [|d IH]; intros k l t r Hl Et Er; cbn [digest_columns]; [rewrite Nat.add_0_r in Hl; eauto|].
  destruct (digest_column_root (k + d) l t r) as (t' & Et' & Er'); auto; [rewrite Hl; f_equal; lia|]. apply (IH k _ t' r); auto. rewrite digest_column_length. f_equal.
Qed.
(** Every commitment to a codeword also opens, at every point, to the value of a table of digests. *)
Lemma digest_forgery comm (point O : list K) t sched h : (0 < length point)%nat -> length O = (2 ^ (length point + sc_rate scm))%nat -> leaves O = Some t -> mt_root t = Some (bc_root comm) ->
  valid_sched (length point) sched ->
  let C := digest_columns (sc_rate scm) (length point - 1) O in
  verify sched comm point (mle C point) (mkBp [] [] [] (QSingle []) None [CExt C]) h = Some h.
Proof.
  intros Hn LO Et Er Hs C. destruct (digest_columns_root (sc_rate scm) (length point - 1) O t (bc_root comm)) as (LC & t' & Et' & Er'); auto; [rewrite LO; f_equal; lia|]. fold C in LC, Et'.
  replace (S (length point - 1)) with (length point) in LC by lia.
  unfold M_Basefold.verify. cbn [bp_trivial]. unfold verify_trivial. rewrite Et'. cbn [obind]. rewrite Er'. cbn [obind]. rewrite (proj2 (deqb_ok _ _) eq_refl).
  rewrite (evaluate_spec sched _ (length point) C point); [cbn [obind]; now rewrite feqb_refl| |reflexivity|exact Hs].
  cbn [col_ftype col_len]. rewrite LC, Nat.log2_pow2 by lia. split; [reflexivity|]. split; [now right|exact LC].
Qed.
End Unchecked.
