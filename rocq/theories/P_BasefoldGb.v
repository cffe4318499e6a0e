(** Basefold: what the messages of an accepted general batched opening say about the claimed values. *)
From Coq Require Import List Arith Lia Bool ZArith Field.
From Verif Require Import ListAux FieldDef PolyList MleMath M_Mle M_Tensor M_Sumcheck M_Fft M_Merkle M_Code M_Basefold P_Mle P_Eq P_Tensor P_Graph4 P_Hash P_Layers2 P_Merkle P_Merkle2 P_Commit2 P_Basefold P_Fft P_Code P_Code2 P_Code3 P_Code4 P_Code5 P_Basefold2 P_Basefold3 P_Basefold4 P_BasefoldSc.
Import ListNotations.

Section General.
Context {K : field} {B D : Type} (as_bases : K -> list B) (emb : B -> K) (hash_bases : list B -> D)
  (hash_two_digests : D -> D -> D) (deqb : D -> D -> bool) (dig : D -> list (@ev K)) (T : @hist K -> K) (to_usize : K -> nat)
  (nbits : nat) (scm : @scheme K).
Local Open Scope F_scope.
Add Field Kf_bgb : (fth K).
Notation batch_verify := (batch_verify as_bases emb hash_bases hash_two_digests deqb dig T to_usize nbits scm).

(** The sum of [g] over the cube of [n] bits. *)
Fixpoint csum (n : nat) (g : list K -> K) : K :=
  match n with O => g [] | S m => csum m (fun b => g (0 :: b)) + csum m (fun b => g (1 :: b)) end.
(** The honest polynomial of round [i]. *)
Definition round_sum_of (n : nat) (g : list K -> K) (cs : list K) (i : nat) (x : K) : K := csum (n - S i) (fun b => g (firstn i cs ++ x :: b)).
(** A message that is not the honest one, but agrees with it at the challenge. *)
Definition lucky_round (n : nat) (g : list K -> K) (cs : list K) (i : nat) (m : list K) : Prop :=
  msg_sum m <> Some (round_sum_of n g cs i 0 + round_sum_of n g cs i 1) /\ horner m (nth i cs 0) = round_sum_of n g cs i (nth i cs 0) /\
  forall d l, is_poly d (round_sum_of n g cs i) -> (length m <= S d)%nat -> NoDup l -> (forall x, In x l -> horner m x = round_sum_of n g cs i x) -> (length l <= d)%nat.

Lemma horner_peval m (x : K) : horner m x = peval m x.
Proof. induction m as [|a m IH]; [reflexivity|]. rewrite horner_cons, IH. cbn [peval]. ring. Qed.
Lemma msg_sum_val m (s : K) : msg_sum m = Some s -> s = horner m 0 + horner m 1.
Proof.
  unfold msg_sum. destruct m as [|a m]; [discriminate|]. cbn [nth_error obind]. intros E. injection E as <-. rewrite !horner_peval. cbn [peval].
  assert (H : forall l : list K, peval l 1 = fsum l) by (induction l as [|y l IH]; [reflexivity|]; cbn [peval]; rewrite IH; unfold fsum; cbn [fold_right]; ring).
  rewrite H. unfold fsum. cbn [fold_right]. ring.
Qed.
Lemma lucky_few n g (cs : list K) i m d l (s : K) : msg_sum m = Some s -> s <> round_sum_of n g cs i 0 + round_sum_of n g cs i 1 ->
  is_poly d (round_sum_of n g cs i) -> (length m <= S d)%nat -> NoDup l -> (forall x, In x l -> horner m x = round_sum_of n g cs i x) -> (length l <= d)%nat.
Proof.
  intros Es Hs Hp Hm Hnd Hl. apply (is_poly_roots d (fun x => horner m x - round_sum_of n g cs i x)); [| |exact Hnd|].
  - apply is_poly_sub; [|exact Hp]. exists m. split; [exact Hm|apply horner_peval].
  - destruct (feq_dec (horner m 0 - round_sum_of n g cs i 0) 0) as [E0|N]; [|exists 0; exact N]. destruct (feq_dec (horner m 1 - round_sum_of n g cs i 1) 0) as [E1|N]; [|exists 1; exact N].
    exfalso. apply Hs. rewrite (msg_sum_val m s Es). transitivity ((horner m 0 - round_sum_of n g cs i 0) + (horner m 1 - round_sum_of n g cs i 1) + (round_sum_of n g cs i 0 + round_sum_of n g cs i 1)); [ring|]. rewrite E0, E1. ring.
  - intros r Hr. rewrite Hl by exact Hr. ring.
Qed.
Lemma classic_fold : forall (ms : list (list K)) (cs : list K) (s nt : K), length ms = length cs ->
  ofold (fun s (mc : list K * K) => x <- msg_sum (fst mc) ;; if feqb s x then Some (horner (fst mc) (snd mc)) else None) (combine ms cs) s = Some nt ->
  forall g, s = csum (length cs) g \/ nt <> g cs \/ exists j m, nth_error ms j = Some m /\ lucky_round (length cs) g cs j m.
Proof.
  induction ms as [|m ms IH]; intros [|c cs] s nt Hl E g; try discriminate Hl.
  - cbn in E. injection E as <-. cbn [length csum]. destruct (feq_dec s (g [])) as [e|e]; [now left|right; now left].
  - cbn [combine ofold fst snd] in E. destruct (msg_sum m) as [s'|] eqn:Es; [|discriminate E]. cbn [obind] in E. destruct (s =? s') eqn:Ee; [|discriminate E]. apply feqb_true in Ee. subst s'.
    cbn [length] in *. destruct (IH cs _ _ ltac:(lia) E (fun b => g (c :: b))) as [H|[H|(j & m' & Ej & H1 & H2 & H3)]].
    + destruct (feq_dec s (csum (S (length cs)) g)) as [e|e]; [now left|]. right; right. exists 0%nat, m. split; [reflexivity|].
      assert (R : forall x, round_sum_of (S (length cs)) g (c :: cs) 0 x = csum (length cs) (fun b => g (x :: b))) by (intros x; unfold round_sum_of; cbn [firstn app]; now rewrite Nat.sub_succ, Nat.sub_0_r).
      split; [rewrite !R; cbn [csum] in e; congruence|]. split; [cbn [nth]; rewrite R; exact H|]. intros d l. apply (lucky_few (S (length cs)) g (c :: cs) 0 m d l s Es). rewrite !R. cbn [csum] in e. exact e.
    + right; now left.
    + right; right. exists (S j), m'. split; [exact Ej|].
      assert (R : forall x, round_sum_of (S (length cs)) g (c :: cs) (S j) x = round_sum_of (length cs) (fun b => g (c :: b)) cs j x) by (intros x; unfold round_sum_of; now rewrite Nat.sub_succ).
      split; [rewrite !R; exact H1|]. split; [rewrite R; exact H2|]. intros d l Hp Hm Hnd Hl'. apply (H3 d l); auto.
Qed.
Lemma sc_challenges_ok (rounds : list (list K)) : forall k i h ms cs h', sc_challenges T k i rounds h = Some (ms, cs, h') ->
  length ms = k /\ length cs = k /\ forall j m, nth_error ms j = Some m -> nth_error rounds (i + j) = Some m.
Proof.
  induction k as [|k IH]; intros i h ms cs h' E.
  - injection E as <- <- _. repeat split. intros [|j] m H; discriminate H.
  - cbn [sc_challenges] in E. destruct (nth_error rounds i) as [m0|] eqn:Em; [|discriminate E]. cbn [obind] in E. destruct (get_challenge T lbl_sumcheck (absorb h m0)) as [c h1].
    destruct (sc_challenges T k (S i) rounds h1) as [[[ms' cs'] h2]|] eqn:E2; [|discriminate E]. cbn [obind] in E. injection E as <- <- _. destruct (IH _ _ _ _ _ E2) as (L1 & L2 & H). cbn [length]. repeat split; try lia.
    intros [|j] m Hj; [rewrite Nat.add_0_r; cbn in Hj; congruence|]. replace (i + S j)%nat with (S i + j)%nat by lia. now apply H.
Qed.
(** The classic sum-check: the claimed sum is that of [g], or the reduced claim is not the value of [g], or some message was lucky. *)
Lemma classic_checked n (s : K) rounds h nt vp h2 : sc_verify T n s rounds h = Some (nt, vp, h2) -> length vp = n /\
  forall g, s = csum n g \/ nt <> g vp \/ exists j m, (j < n)%nat /\ nth_error rounds j = Some m /\ lucky_round n g vp j m.
Proof.
  unfold sc_verify. destruct (sc_challenges T n 0 rounds h) as [[[ms cs] h1]|] eqn:Ec; [|discriminate]. cbn [obind]. intros E.
  destruct (ofold _ (combine ms cs) s) as [s'|] eqn:Ef; [|discriminate E]. cbn [obind] in E. injection E as <- <- _. destruct (sc_challenges_ok rounds _ _ _ _ _ _ Ec) as (L1 & L2 & H). split; [exact L2|].
  intros g. destruct (classic_fold ms cs s s' ltac:(congruence) Ef g) as [H1|[H1|(j & m & Ej & H1)]]; try rewrite L2 in H1; [now left|right; now left|right; right]. exists j, m. split; [|split; [apply (H j m Ej)|exact H1]].
  rewrite <- L1. apply nth_error_Some. congruence.
Qed.

(** The claimed values, each counted for the variables its polynomial lacks, combined with the coefficients. *)
Definition batch_claim (n : nat) (points : list (list K)) (evals : list (@evaluation K)) (coeffs : list K) : K :=
  fsum (map (fun p => ev_value (fst p) * fnat (2 ^ (n - length (nth (ev_point (fst p)) points []))) * snd p) (combine evals coeffs)).
Lemma target_ok n (points : list (list K)) : forall evals scales (l : list K),
  omapM (fun e => p <- nth_error points (ev_point e) ;; Some (fnat (2 ^ (n - length p)))) evals = Some scales ->
  fsum (map (fun p => fst (fst p) * snd (fst p) * snd p) (combine (combine (map ev_value evals) scales) (firstn (length evals) l))) = batch_claim n points evals l.
Proof.
  unfold batch_claim. induction evals as [|e evals IH]; intros scales l E; [reflexivity|]. cbn [omapM] in E.
  destruct (nth_error points (ev_point e)) as [p|] eqn:Ep; [|discriminate E]. cbn [obind] in E. destruct (omapM _ evals) as [sc'|] eqn:E2; [|discriminate E]. cbn [obind] in E. injection E as <-.
  destruct l as [|x l]; [reflexivity|]. cbn [map length firstn combine fst snd]. apply (nth_error_nth _ _ []) in Ep. rewrite Ep. specialize (IH sc' l eq_refl). unfold fsum in *. cbn [fold_right]. now rewrite IH.
Qed.
Lemma accepted_general_messages comms (points : list (list K)) (evals : list (@evaluation K)) (pf : @bproof K B D) h h' :
  let n := fold_left Nat.max (map (@length K) points) 0%nat in let nr := (n - sc_msg scm)%nat in
  batch_verify comms points evals pf h = Some h' -> points <> [] -> (sc_msg scm < n)%nat ->
  exists ts h1 rounds nt vp h2 cs h3, challenges T lbl_batch (Nat.log2_up (length evals)) h = (ts, h1) /\ bp_sumcheck pf = Some rounds /\
    sc_verify T n (batch_claim n points evals (eq_table ts)) rounds h1 = Some (nt, vp, h2) /\ length vp = n /\
    verifier_rounds dig T nr 0 nr (bp_msgs pf) (bp_roots pf) h2 = Some (cs, h3) /\ length cs = nr /\
    forall g f, length f = (2 ^ n)%nat -> mle (bp_final pf) (firstn (sc_msg scm) vp) = mle f (firstn (sc_msg scm) vp ++ rev cs) -> mle f vp = g vp ->
      batch_claim n points evals (eq_table ts) = csum n g \/
      (exists j m, (j < n)%nat /\ nth_error rounds j = Some m /\ lucky_round n g vp j m) \/
      exists i m, (i < nr)%nat /\ nth_error (bp_msgs pf) i = Some m /\
        degree_2_zero_plus_one m <> Some (round_value f vp cs i 0 + round_value f vp cs i 1) /\
        degree_2_eval m (nth i cs 0) = Some (round_value f vp cs i (nth i cs 0)) /\
        forall l, NoDup l -> (forall x, In x l -> degree_2_eval m x = Some (round_value f vp cs i x)) -> (length l <= 2)%nat.
Proof.
  intros n nr Hv Hpts Hn. unfold M_Basefold.batch_verify in Hv.
  destruct points as [|p0 points']; [contradiction|]. set (points := p0 :: points') in *. change (length points =? 0)%nat with false in Hv. rewrite andb_false_r, !andb_false_l in Hv. fold n in Hv. rewrite csub_ok in Hv by lia. cbn [obind] in Hv. fold nr in Hv.
  destruct (omapM bc_nv comms) as [pnv|]; [|discriminate Hv]. cbn [obind] in Hv. destruct (omapM _ evals) as [us|] in Hv; [|discriminate Hv]. cbn [obind] in Hv.
  destruct (length comms =? 0)%nat; [discriminate Hv|]. destruct (negb _); [discriminate Hv|]. destruct (negb _); [discriminate Hv|].
  destruct (challenges T lbl_batch (Nat.log2_up (length evals)) h) as [ts h1]. rewrite build_eq_par_spec in Hv. cbn [obind] in Hv.
  destruct (omapM _ evals) as [scales|] eqn:Esc in Hv; [|discriminate Hv]. cbn [obind] in Hv.
  destruct (inner_product_three _ _ _) as [tg|] eqn:Etg; [|discriminate Hv]. cbn [obind] in Hv.
  destruct (bp_sumcheck pf) as [rounds|]; [|discriminate Hv]. cbn [obind] in Hv. destruct (sc_verify T n tg rounds h1) as [[[nt vp] h2]|] eqn:Esv; [|discriminate Hv]. cbn [obind] in Hv.
  assert (Et : tg = batch_claim n points evals (eq_table ts)).
  { rewrite <- (target_ok n points evals scales (eq_table ts) Esc). unfold inner_product_three in Etg. destruct (_ && _) in Etg; [|discriminate Etg]. now injection Etg as <-. }
  destruct (omapM _ points) as [eqe|] in Hv; [|discriminate Hv]. cbn [obind] in Hv. destruct (ofold _ _ _) as [coeffs|] in Hv; [|discriminate Hv]. cbn [obind] in Hv.
  destruct (verifier_rounds dig T nr 0 nr (bp_msgs pf) (bp_roots pf) h2) as [[cs h3]|] eqn:Ev; [|discriminate Hv]. cbn [obind] in Hv.
  assert (Lcs : length cs = nr) by (eapply vr_len; exact Ev). destruct (classic_checked n tg rounds h1 nt vp h2 Esv) as [Lvp Hcl].
  destruct (query_indices T to_usize scm n (absorb h3 (bp_final pf))) as [xs h4]. destruct (match bp_queries pf with QBatched qs => Some qs | _ => None end) as [qs|]; [|discriminate Hv]. cbn [obind] in Hv.
  destruct (partial_eq_of nbits vp cs) as [eq|] eqn:Ep; [|discriminate Hv]. cbn [obind] in Hv. rewrite (partial_eq_ok nbits vp cs (sc_msg scm)) in Ep by lia. injection Ep as <-.
  destruct (final_codeword_batch scm (bp_final pf)) as [fc|]; [|discriminate Hv]. cbn [obind] in Hv.
  destruct (b_queries_check _ _ _ _ _ _ _ _ _ _ _ _ _ _ _) as [u|]; [|discriminate Hv]. cbn [obind] in Hv.
  destruct (final_checks _ _ _ _ _) as [[]|] eqn:Ef; [|discriminate Hv]. clear Hv.
  exists ts, h1, rounds, nt, vp, h2, cs, h3. rewrite <- Et. repeat (split; [first [reflexivity | assumption]|]).
  intros g f Lf Hfin Hg. pose proof (chain_checked (bp_msgs pf) cs (bp_final pf) vp nt (sc_msg scm)) as C. cbv zeta in C. rewrite Lvp in C. fold nr in C. specialize (C Hn Lcs Ef f Lf Hfin).
  destruct C as [C|C]; [|right; right; exact C]. destruct (Hcl g) as [H|[H|H]]; [now left|exfalso; apply H; congruence|right; now left].
Qed.
End General.
