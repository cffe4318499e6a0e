(** Proofs about M_Pad: padded layers compute the unpadded result. *)
From Coq Require Import List Arith Lia Bool.
From Verif Require Import ListAux FieldDef M_Mle P_Graph4 M_Tensor P_Tensor P_Tensor2 P_Tensor3 P_Tensor4 M_Pad.
Import ListNotations.

(** Agreement on the entries of the smaller tensor; entries outside are arbitrary. *)
Definition agrees {A} (d : A) (t t' : ten A) : Prop :=
  forall idx, inb (sh t) idx -> entry d t' idx = entry d t idx.

Lemma pad_minimum_ge n : n <= pad_minimum n.
Proof. unfold pad_minimum. assert (H := npow2_ge n). destruct (Nat.ltb_spec (npow2 n) 4); cbv zeta; lia. Qed.
Lemma pad_minimum_4 n : 4 <= pad_minimum n.
Proof. unfold pad_minimum. cbv zeta. destruct (Nat.ltb_spec (npow2 n) 4); lia. Qed.
Lemma pad_minimum_pow2 n : is_pow2 (pad_minimum n) = true.
Proof. unfold pad_minimum. cbv zeta. destruct (Nat.ltb_spec (npow2 n) 4); [reflexivity|apply is_pow2_of]. Qed.
Lemma pad_minimum_id n : is_pow2 n = true -> 4 <= n -> pad_minimum n = n.
Proof. intros P H. unfold pad_minimum. cbv zeta. rewrite is_pow2_npow2 by auto. destruct (Nat.ltb_spec n 4); lia. Qed.

Lemma inb1 n i : inb [n] [i] <-> i < n.
Proof. rewrite inb_cons. split; [tauto|]. intros; split; auto. constructor. Qed.
Lemma inb1_inv n idx : inb [n] idx -> exists i, idx = [i] /\ i < n.
Proof. intros H. apply inb_inv in H as (i & r & -> & Hi & H). apply inb_nil_inv in H. subst. eauto. Qed.
Lemma flat1 n i : flat [n] [i] = i. Proof. cbn. lia. Qed.
Lemma lt2 m n i j : i < m -> j < n -> i * n + j < m * n.
Proof. intros. assert (S i * n <= m * n) by (apply Nat.mul_le_mono_r; lia). lia. Qed.


(** The positions of the entries of a small shape inside a large one, in increasing order. *)
Definition spread (og pad : list nat) (o : nat) : nat := flat pad (unflat og o).
Lemma spread_rtgt og pad o : length og = length pad -> o < sprod og -> spread og pad o = rtgt (rev og) (rev pad) o.
Proof.
  intros L H. unfold spread, rtgt. rewrite rval_flat by (rewrite rdig_len, !rev_length; auto).
  rewrite <- unflat_rdig by auto. rewrite !rev_involutive. reflexivity.
Qed.
Lemma spread_facts og pad : Forall (lt 0) og -> Forall2 le og pad ->
  (forall i j, i < j -> j < sprod og -> spread og pad i < spread og pad j) /\
  (forall i, i < sprod og -> spread og pad i < sprod pad) /\
  (forall q, q < sprod pad -> (forall i, i < sprod og -> spread og pad i <> q) -> ~ inb og (unflat pad q)).
Proof.
  intros P F. assert (L := Forall2_le_len _ _ _ F).
  assert (F' : Forall2 (fun a b => 0 < a <= b) (rev og) (rev pad)) by (apply Forall2_rev', F2_conj; auto).
  split; [|split].
  - intros i j Hi Hj. rewrite !spread_rtgt by (auto; lia). apply rtgt_mono; auto. rewrite sprod_rev. auto.
  - intros i Hi. rewrite spread_rtgt by auto. rewrite <- (sprod_rev pad). apply rtgt_lt; auto.
  - intros q Hq Hn I. apply (Hn (flat og (unflat pad q))); [apply flat_lt; auto|].
    unfold spread. rewrite unflat_flat by auto. apply flat_unflat; auto.
Qed.

Section Sums.
Context {A : Type}.
Variable zero : A.
Variables add mul : A -> A -> A.
Hypothesis add_0_r : forall x, add x zero = x.

(** Sum of [f 0, ..., f (n-1)], added from the left. *)
Fixpoint sumto (n : nat) (f : nat -> A) : A := match n with O => zero | S n' => add (sumto n' f) (f n') end.

Lemma tsum_map f n : tsum zero add (map f (seq 0 n)) = sumto n f.
Proof.
  unfold tsum. induction n as [|n IH]; [reflexivity|]. rewrite seq_S, map_app, fold_left_app, IH. reflexivity.
Qed.
Lemma sumto_ext n f g : (forall i, i < n -> f i = g i) -> sumto n f = sumto n g.
Proof. induction n as [|n IH]; intros H; [reflexivity|]. cbn [sumto]. rewrite IH, H by auto. reflexivity. Qed.
Lemma sumto_zero n f : (forall i, i < n -> f i = zero) -> sumto n f = zero.
Proof. induction n as [|n IH]; intros H; [reflexivity|]. cbn [sumto]. rewrite IH, H by auto. apply add_0_r. Qed.
(** Terms that are zero may be skipped: no associativity or commutativity is used. *)
Lemma sum_skip : forall P n f tg,
  (forall i j, i < j -> j < n -> tg i < tg j) -> (forall i, i < n -> tg i < P) ->
  (forall q, q < P -> (forall i, i < n -> tg i <> q) -> f q = zero) ->
  sumto P f = sumto n (fun i => f (tg i)).
Proof.
  induction P as [|P IH]; intros n f tg Hm Hb Hz.
  - destruct n; [reflexivity|]. specialize (Hb 0). lia.
  - cbn [sumto]. destruct n as [|n].
    + cbn [sumto]. rewrite (IH 0 f tg); [|lia|lia|intros; apply Hz; auto; lia]. cbn [sumto]. rewrite Hz by (auto; lia). apply add_0_r.
    + destruct (Nat.eq_dec (tg n) P) as [E|N].
      * cbn [sumto]. rewrite E. f_equal. apply IH; [intros; apply Hm; lia| |].
        -- intros i Hi. assert (tg i < tg n) by (apply Hm; lia). lia.
        -- intros q Hq Hn. apply Hz; [lia|]. intros i Hi. destruct (Nat.eq_dec i n) as [->|]; [lia|apply Hn; lia].
      * rewrite (IH (S n) f tg); auto.
        -- rewrite (Hz P); [apply add_0_r|lia|]. intros i Hi Hc. assert (i = n \/ i < n) as [->|Hlt] by lia; [auto|].
           assert (tg i < tg n) by (apply Hm; lia). specialize (Hb n). lia.
        -- intros i Hi. assert (tg i < S P) by auto. destruct (Nat.eq_dec i n) as [->|]; [lia|].
           assert (tg i < tg n) by (apply Hm; lia). specialize (Hb n). lia.
Qed.
Lemma sum_trail n P f : n <= P -> (forall q, n <= q < P -> f q = zero) -> sumto P f = sumto n f.
Proof.
  intros H Hz. rewrite (sum_skip P n f (fun i => i)); auto; [intros; lia|].
  intros q Hq Hn. apply Hz. split; auto. destruct (Nat.le_gt_cases n q); auto. exfalso. apply (Hn q); auto.
Qed.

Lemma sum_spread og pad f : Forall (lt 0) og -> Forall2 le og pad ->
  (forall q, q < sprod pad -> ~ inb og (unflat pad q) -> f q = zero) ->
  sumto (sprod pad) f = sumto (sprod og) (fun i => f (spread og pad i)).
Proof. intros P F Hz. destruct (spread_facts og pad P F) as (A1 & A2 & A3). apply sum_skip; auto. Qed.

(** *** Entries of the products. *)
Implicit Types t o w : ten A.
Notation at2 t i j := (entry zero t [i; j]).
Notation at1 t i := (entry zero t [i]).

Lemma wf1 t n : wft t -> sh t = [n] -> length (dat t) = n.
Proof. unfold wft. intros W E. rewrite W, E. cbn. lia. Qed.
Lemma grid_ok m n (F : nat -> nat -> A) :
  let u := mkTen [m; n] (map (fun idx => F (idx / n) (idx mod n)) (seq 0 (m * n))) in
  wft u /\ forall i j, i < m -> j < n -> at2 u i j = F i j.
Proof.
  cbv zeta. split; [unfold wft; cbn [sh dat]; rewrite map_length, seq_length; cbn; lia|].
  intros i j Hi Hj. unfold entry. cbn [sh dat]. rewrite flat2. assert (L := lt2 m n i j Hi Hj).
  rewrite (nth_map_lt _ _ _ 0) by (rewrite seq_length; auto). rewrite seq_nth by auto. cbn [plus].
  rewrite Nat.div_add_l, Nat.div_small, Nat.add_0_r by lia. rewrite Nat.add_comm, Nat.mod_add, Nat.mod_small by lia. reflexivity.
Qed.
Lemma row_ok m (F : nat -> A) :
  let u := mkTen [m] (map F (seq 0 m)) in wft u /\ forall i, i < m -> at1 u i = F i.
Proof.
  cbv zeta. split; [unfold wft; cbn [sh dat]; rewrite map_length, seq_length; cbn; lia|].
  intros i Hi. unfold entry. cbn [sh dat]. rewrite flat1. rewrite (nth_map_lt _ _ _ 0) by (rewrite seq_length; auto). rewrite seq_nth by auto. reflexivity.
Qed.

Lemma matmul_ok t o m n p : wft t -> sh t = [m; n] -> wft o -> sh o = [n; p] ->
  exists u, matmul zero add mul t o = Some u /\ sh u = [m; p] /\ wft u /\
    forall i j, i < m -> j < p -> at2 u i j = sumto n (fun k => mul (at2 t i k) (at2 o k j)).
Proof.
  intros Wt Et Wo Eo. assert (Lt := wf2 t m n Wt Et). assert (Lo := wf2 o n p Wo Eo).
  unfold matmul. rewrite Et, Eo, Nat.eqb_refl.
  set (F := fun i j => sumto n (fun k => mul (at2 t i k) (at2 o k j))).
  rewrite (omapM_range _ (fun idx => F (idx / p) (idx mod p))).
  - cbn [obind]. eexists. split; [reflexivity|]. split; [reflexivity|]. apply (grid_ok m p F).
  - intros idx Hi. cbv zeta. assert (p <> 0) by (intros ->; lia).
    assert (Hj : idx mod p < p) by (apply Nat.mod_upper_bound; auto).
    assert (Hq : idx / p < m) by (apply Nat.div_lt_upper_bound; lia).
    rewrite (omapM_range _ (fun k => mul (at2 t (idx / p) k) (at2 o k (idx mod p)))).
    + cbn [obind]. rewrite tsum_map. reflexivity.
    + intros k Hk. unfold entry. rewrite Et, Eo, !flat2.
      rewrite (nth_error_some zero) by (rewrite Lt; apply lt2; auto). cbn [obind].
      rewrite (nth_error_some zero) by (rewrite Lo; apply lt2; auto). reflexivity.
Qed.
Lemma matvec_ok t v m n : wft t -> sh t = [m; n] -> wft v -> sh v = [n] ->
  exists u, matvec zero add mul t v = Some u /\ sh u = [m] /\ wft u /\
    forall i, i < m -> at1 u i = sumto n (fun k => mul (at2 t i k) (at1 v k)).
Proof.
  intros Wt Et Wo Eo. assert (Lt := wf2 t m n Wt Et). assert (Lo := wf1 v n Wo Eo).
  unfold matvec, is_vector. rewrite Et, Eo, Nat.eqb_refl. cbn [andb].
  rewrite (omapM_range _ (fun i => sumto n (fun k => mul (at2 t i k) (at1 v k)))).
  - cbn [obind]. eexists. split; [reflexivity|]. split; [reflexivity|]. apply row_ok.
  - intros i Hi. rewrite (omapM_range _ (fun k => mul (at2 t i k) (at1 v k))).
    + cbn [obind]. rewrite tsum_map. reflexivity.
    + intros k Hk. unfold entry. rewrite Et, Eo, flat1, flat2.
      rewrite (nth_error_some zero) by (rewrite Lt; apply lt2; auto). cbn [obind].
      rewrite (nth_error_some zero) by (rewrite Lo; auto). reflexivity.
Qed.
Lemma matvec_rejects t v m n n' : sh t = [m; n] -> sh v = [n'] -> n <> n' -> matvec zero add mul t v = None.
Proof. intros E E' N. unfold matvec, is_vector. rewrite E, E'. destruct (Nat.eqb_spec n n'); [contradiction|reflexivity]. Qed.
Lemma tadd_ok t o : wft t -> wft o -> sprod (sh t) = sprod (sh o) ->
  exists u, tadd add t o = Some u /\ sh u = sh t /\ wft u /\ forall k, k < sprod (sh t) -> nth k (dat u) zero = add (nth k (dat t) zero) (nth k (dat o) zero).
Proof.
  intros Wt Wo E. unfold tadd. rewrite E, Nat.eqb_refl. unfold wft in *. change (length (dat t) = sprod (sh t)) in Wt. change (length (dat o) = sprod (sh o)) in Wo.
  rewrite (omapM_range _ (fun k => add (nth k (dat t) zero) (nth k (dat o) zero))).
  - cbn [obind]. eexists. split; [reflexivity|]. split; [reflexivity|]. cbn [sh dat]. rewrite map_length, seq_length, Wt. split; [reflexivity|].
    intros k Hk. rewrite (nth_map_lt _ _ _ 0) by (rewrite seq_length; lia). rewrite seq_nth by lia. reflexivity.
  - intros k Hk. rewrite (nth_error_some zero) by auto. cbn [obind]. rewrite (nth_error_some zero) by lia. reflexivity.
Qed.
Lemma tadd1_ok t o n : wft t -> wft o -> sh t = [n] -> sh o = [n] ->
  exists u, tadd add t o = Some u /\ sh u = [n] /\ wft u /\ forall i, i < n -> at1 u i = add (at1 t i) (at1 o i).
Proof.
  intros Wt Wo Et Eo. destruct (tadd_ok t o Wt Wo) as (u & -> & Su & Wu & Hu); [congruence|].
  exists u. split; [reflexivity|]. split; [congruence|]. split; auto. intros i Hi. unfold entry. rewrite Su, Et, Eo, !flat1. apply Hu. rewrite Et. cbn. lia.
Qed.
Lemma add_dim2_ok t o m n : wft t -> wft o -> sh t = [m; n] -> sh o = [n] -> 0 < n ->
  exists u, add_dim2 add t o = Some u /\ sh u = [m; n] /\ wft u /\ forall i j, i < m -> j < n -> at2 u i j = add (at2 t i j) (at1 o j).
Proof.
  intros Wt Wo Et Eo Hn. assert (Lt := wf2 t m n Wt Et). assert (Lo := wf1 o n Wo Eo).
  unfold add_dim2. rewrite Et, Eo, Nat.eqb_refl. unfold ochunks. destruct (Nat.eqb_spec n 0); [lia|]. cbn [obind].
  destruct (chunks_nth n m (dat t) Hn Lt) as [Cl Cn].
  set (g := fun c : list A => map (fun p => add (fst p) (snd p)) (combine c (dat o))).
  eexists. split; [reflexivity|]. split; [reflexivity|].
  assert (G : forall i, i < m -> nth i (chunks n (dat t)) [] = firstn n (skipn (i * n) (dat t))).
  { intros i Hi. apply nth_error_nth. apply Cn; auto. }
  assert (U : forall c, In c (map g (chunks n (dat t))) -> length c = n).
  { intros c Hc. apply in_map_iff in Hc as (c0 & <- & Hc). apply (In_nth _ _ []) in Hc as (i & Hi & <-).
    rewrite Cl in Hi. unfold g. rewrite map_length, combine_length, G by auto. rewrite (chunk_len n m) by auto. lia. }
  rewrite flat_map_concat_map. split.
  - unfold wft. cbn [sh dat]. rewrite (length_concat_uniform _ n) by auto. rewrite map_length, Cl. cbn. lia.
  - intros i j Hi Hj. unfold entry. rewrite Et, Eo. cbn [sh dat]. rewrite !flat2, flat1.
    replace (i * n + j) with (j + n * i) by lia. rewrite (nth_concat_uniform _ n); auto; [|now rewrite map_length, Cl].
    rewrite (nth_map_lt _ _ _ []) by lia. rewrite G by auto. unfold g.
    rewrite (nth_map_lt _ _ _ (zero, zero)) by (rewrite combine_length, (chunk_len n m) by auto; lia).
    rewrite combine_nth by (rewrite (chunk_len n m) by auto; lia). cbn [fst snd]. f_equal.
    rewrite nth_firstn_lt by auto. rewrite nth_skipn. f_equal. lia.
Qed.
End Sums.
