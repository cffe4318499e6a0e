(** Soundness of the LogUp-GKR verifier: algebra of one round. *)
From Coq Require Import List Arith Lia Bool ZArith Field.
From Verif Require Import ListAux FieldDef PolyList MleMath M_Mle P_Mle P_Eq M_Interp P_Interp M_Sumcheck
  P_ScVerify P_ScProve P_ScApi M_ScParallel M_SamePoly P_SamePoly M_LogUp P_LogUp.
Import ListNotations.

Section P.
Context {K : field}.
Add Field Kf_lu2 : (fth K).
Local Open Scope F_scope.

(** Weighted sum with powers of [a]. *)
Lemma some4 {A B C D} (a a' : A) (b b' : B) (c c' : C) (d d' : D) : a = a' -> b = b' -> c = c' -> d = d' -> Some (a, b, c, d) = Some (a', b', c', d').
Proof. congruence. Qed.
Lemma some2 {A B} (a a' : A) (b b' : B) : a = a' -> b = b' -> Some (a, b) = Some (a', b').
Proof. congruence. Qed.
Fixpoint wsum (a : K) (l : list K) : K := match l with [] => 0 | x :: t => x + a * wsum a t end.
Lemma wsum_ext {A} (f g : A -> K) a l : (forall x, In x l -> f x = g x) -> wsum a (map f l) = wsum a (map g l).
Proof. induction l as [|x l IH]; intros H; cbn [map wsum]; [auto|]. rewrite H by (left; auto). rewrite IH by (intros; apply H; right; auto). auto. Qed.
Lemma wsum_sub {A} (f g : A -> K) a l : wsum a (map f l) - wsum a (map g l) = wsum a (map (fun x => f x - g x) l).
Proof. induction l as [|x l IH]; cbn [map wsum]; [ring|]. rewrite <- IH. ring. Qed.
Lemma wsum_add {A} (f g : A -> K) a l : wsum a (map f l) + wsum a (map g l) = wsum a (map (fun x => f x + g x) l).
Proof. induction l as [|x l IH]; cbn [map wsum]; [ring|]. rewrite <- IH. ring. Qed.
Lemma wsum_scal {A} (f : A -> K) c a l : wsum a (map (fun x => c * f x) l) = c * wsum a (map f l).
Proof. induction l as [|x l IH]; cbn [map wsum]; [ring|]. rewrite IH. ring. Qed.
Lemma wsum_poly {A} d (f : A -> K -> K) a l : (forall p, In p l -> is_poly d (f p)) -> is_poly d (fun x => wsum a (map (fun p => f p x) l)).
Proof.
  induction l as [|p l IH]; intros H; cbn [map wsum]; [apply is_poly_const|].
  apply (is_poly_add d (f p) (fun x => a * wsum a (map (fun p => f p x) l))); [apply H; left; auto|].
  apply is_poly_scal. apply IH. intros; apply H; right; auto.
Qed.
Lemma wsum_sumn {A} n (f : A -> nat -> K) a l : sumn n (fun b => wsum a (map (fun p => f p b) l)) = wsum a (map (fun p => sumn n (f p)) l).
Proof.
  induction l as [|p l IH]; cbn [map wsum].
  - transitivity (sumn n (fun _ : nat => (0:K))); [apply sumn_ext; auto|]. clear. induction n as [|n IHn]; cbn [sumn]; [auto|rewrite IHn; ring].
  - rewrite <- IH, <- sumn_scal, <- sumn_add. apply sumn_ext. auto.
Qed.

(** *** The four evaluations of a layer *)
Definition quad := (K * K * K * K)%type.
Definition q_next (b nl : K) (q : quad) : K := let '(e0, e1, e2, e3) := q in b * (e2 - e0) + e0 + nl * (b * (e1 - e3) + e3).
Definition q_gate (la : K) (q : quad) : K := let '(e0, e1, e2, e3) := q in e0 * e1 + e2 * e3 + la * e3 * e1.
Lemma combine4_spec evals b na nl al la eqv : combine4 evals b na nl al la eqv =
  (qs <- omapM get4 (chunks 4 evals) ;; Some (wsum na (map (q_next b nl) qs), eqv * wsum al (map (q_gate la) qs))).
Proof.
  unfold combine4. generalize (chunks 4 evals). intros l.
  assert (G : forall l nx nac sc pa,
    ofold (fun '(nx, nac, sc, pa) e => q <- get4 e ;; let '(e0, e1, e2, e3) := q in
         Some (nx + nac * (b * (e2 - e0) + e0 + nl * (b * (e1 - e3) + e3)), nac * na,
               sc + pa * (eqv * (e0 * e1 + e2 * e3 + la * e3 * e1)), pa * al)) l (nx, nac, sc, pa)
    = (qs <- omapM get4 l ;; Some (nx + nac * wsum na (map (q_next b nl) qs), nac * fpow na (length qs), sc + pa * (eqv * wsum al (map (q_gate la) qs)), pa * fpow al (length qs)))).
  { clear l. induction l as [|e l IH]; intros nx nac sc pa; cbn [ofold omapM].
    - cbn [obind map wsum length fpow]. apply some4; ring.
    - destruct (get4 e) as [[[[e0 e1] e2] e3]|]; [|reflexivity]. cbn [obind]. rewrite IH. destruct (omapM get4 l) as [qs|]; [|reflexivity].
      cbn [obind map wsum length fpow q_next q_gate]. apply some4; ring. }
  rewrite G. destruct (omapM get4 l) as [qs|]; [|reflexivity]. cbn [obind]. apply some2; ring.
Qed.
Definition p_next (b : K) (p : K * K) : K := b * (fst p - snd p) + snd p.
Definition emb (p : K * K) : quad := (- (1), fst p, - (1), snd p).
Lemma combine2_spec evals b na nl al la eqv : combine2 evals b na nl al la eqv =
  (ps <- omapM get2 (chunks 2 evals) ;; Some (wsum na (map (p_next b) ps), eqv * wsum al (map (fun p => q_gate la (emb p)) ps))).
Proof.
  unfold combine2. generalize (chunks 2 evals). intros l.
  assert (G : forall l nx nac sc pa,
    ofold (fun '(nx, nac, sc, pa) e => q <- get2 e ;; let '(e0, e1) := q in
         Some (nx + nac * (b * (e0 - e1) + e1), nac * na, sc + pa * eqv * (- e1 - e0 + la * e0 * e1), pa * al)) l (nx, nac, sc, pa)
    = (qs <- omapM get2 l ;; Some (nx + nac * wsum na (map (p_next b) qs), nac * fpow na (length qs), sc + pa * (eqv * wsum al (map (fun p => q_gate la (emb p)) qs)), pa * fpow al (length qs)))).
  { clear l. induction l as [|e l IH]; intros nx nac sc pa; cbn [ofold omapM].
    - cbn [obind map wsum length fpow]. apply some4; ring.
    - destruct (get2 e) as [[e0 e1]|]; [|reflexivity]. cbn [obind]. rewrite IH. destruct (omapM get2 l) as [qs|]; [|reflexivity].
      cbn [obind map wsum length fpow]. set (W := wsum al (map _ qs)). set (V := wsum na (map _ qs)). unfold p_next, q_gate, emb; cbn [fst snd]. apply some4; ring. }
  rewrite G. destruct (omapM get2 l) as [qs|]; [|reflexivity]. cbn [obind]. apply some2; ring.
Qed.
(** The initial claim. *)
Definition o_val (b la : K) (q : quad) : K := let '(e0, e1, e2, e3) := q in b * (e1 - e0) + e0 + la * (b * (e3 - e2) + e2).
Lemma initial_claim_spec outs b al la : initial_claim outs b al la = (qs <- omapM get4 outs ;; Some (wsum al (map (o_val b la) qs))).
Proof.
  unfold initial_claim.
  assert (G : forall l acc ac, ofold (fun '(acc, ac) e => q <- get4 e ;; let '(e0, e1, e2, e3) := q in
         Some (acc + ac * (b * (e1 - e0) + e0 + la * (b * (e3 - e2) + e2)), ac * al)) l (acc, ac)
    = (qs <- omapM get4 l ;; Some (acc + ac * wsum al (map (o_val b la) qs), ac * fpow al (length qs)))).
  { induction l as [|e l IH]; intros acc ac; cbn [ofold omapM].
    - cbn [obind map wsum length fpow]. apply some2; ring.
    - destruct (get4 e) as [[[[e0 e1] e2] e3]|]; [|reflexivity]. cbn [obind]. rewrite IH. destruct (omapM get4 l) as [qs|]; [|reflexivity].
      cbn [obind map wsum length fpow o_val]. apply some2; ring. }
  rewrite G. destruct (omapM get4 outs) as [qs|]; [|reflexivity]. cbn [obind fst]. f_equal. ring.
Qed.

(** *** The true values *)
Definition lo {A} (m : nat) (l : list A) := firstn (2 ^ m) l.
Definition hi {A} (m : nat) (l : list A) := skipn (2 ^ m) l.
(** The four halves of a layer with 2^(m+1) entries, evaluated at a point of [m] coordinates. *)
Definition tq (m : nat) (p : list K * list K) (x : list K) : quad :=
  (mle (lo m (fst p)) x, mle (hi m (snd p)) x, mle (hi m (fst p)) x, mle (lo m (snd p)) x).
(** Claimed quantity for the layers [ls] at [x]. *)
Definition lay_val (al la : K) (ls : list (list K * list K)) (x : list K) : K :=
  wsum al (map (fun p => mle (fst p) x + la * mle (snd p) x) ls).
Definition gate_poly (m : nat) (al la : K) (pt : list K) (ls : list (list K * list K)) (x : list K) : K :=
  eqp pt x * wsum al (map (fun p => q_gate la (tq m p x)) ls).

Lemma mle_lohi m (l : list K) x b : length l = 2 ^ S m -> length x = m ->
  mle l (x ++ [b]) = mle (lo m l) x + b * (mle (hi m l) x - mle (lo m l) x).
Proof.
  intros Hl Hx. unfold mle. rewrite mlef_snoc. rewrite mlef_add, mlef_scal, mlef_sub. rewrite Hx.
  assert (E : mlef (fun i => nth i l 0) x = mlef (fun i => nth i (lo m l) 0) x).
  { apply mlef_ext. intros i Hi. unfold lo. rewrite nth_firstn_lt; auto. rewrite Hx in Hi. auto. }
  rewrite E. f_equal. f_equal. f_equal. apply mlef_ext. intros i Hi. unfold hi. rewrite nth_skipn. auto.
Qed.
Lemma q_next_true m p x b nl : wf_lay (S m) p -> length x = m -> q_next b nl (tq m p x) = mle (fst p) (x ++ [b]) + nl * mle (snd p) (x ++ [b]).
Proof. intros [H1 H2] Hx. rewrite !(mle_lohi m) by auto. unfold q_next, tq. ring. Qed.
Lemma tq_bool m p i : wf_lay (S m) p -> i < 2 ^ m ->
  tq m p (bpt m i) = (nth i (fst p) 0, nth (2 ^ m + i) (snd p) 0, nth (2 ^ m + i) (fst p) 0, nth i (snd p) 0).
Proof.
  intros [H1 H2] Hi. unfold tq, mle, lo, hi. rewrite !mlef_bool by auto. rewrite !nth_firstn_lt, !nth_skipn by auto. reflexivity.
Qed.
Lemma gate_hsum m al la pt ls : length pt = m -> (forall p, In p ls -> wf_lay (S m) p) ->
  hsum m (gate_poly m al la pt ls) = lay_val al la (map halve ls) pt.
Proof.
  intros Hp Hw. unfold hsum, gate_poly, lay_val. rewrite map_map.
  rewrite (sumn_ext _ _ (fun b => wsum al (map (fun p => eqp pt (bpt m b) * q_gate la (tq m p (bpt m b))) ls))).
  2: { intros b Hb. rewrite wsum_scal. reflexivity. }
  rewrite wsum_sumn. apply wsum_ext. intros p Hin. specialize (Hw p Hin). rewrite (halve_spec m p Hw). cbn [fst snd].
  rewrite !mle_map_seq by auto. unfold mlef. rewrite Hp. rewrite <- sumn_scal, <- sumn_add. apply sumn_ext. intros i Hi.
  rewrite eqp_sym, eqp_bpt by auto. rewrite tq_bool by auto. unfold q_gate. ring.
Qed.
Lemma gate_deg m al la pt ls n : indiv_deg 3 n (gate_poly m al la pt ls).
Proof.
  intros a b Hab. unfold gate_poly. change 3%nat with (1 + 2)%nat.
  apply (is_poly_mul 1 2 (fun x => eqp pt (a ++ x :: b)) (fun x => wsum al (map (fun p => q_gate la (tq m p (a ++ x :: b))) ls))); [apply eqp_is_poly|].
  apply (wsum_poly 2 (fun p x => q_gate la (tq m p (a ++ x :: b)))). intros p _. unfold q_gate, tq.
  assert (M : forall l : list K, is_poly 1 (fun x => mle l (a ++ x :: b))) by (intros l; unfold mle; apply (mlef_is_poly _ a b)).
  assert (M2 : forall l1 l2 : list K, is_poly 2 (fun x => mle l1 (a ++ x :: b) * mle l2 (a ++ x :: b))) by (intros l1 l2; apply (is_poly_mul 1 1); auto).
  apply is_poly_add; [apply is_poly_add; auto|].
  apply (is_poly_ext 2 (fun x => la * (mle (lo m (snd p)) (a ++ x :: b) * mle (hi m (snd p)) (a ++ x :: b)))); [intros; ring|].
  apply is_poly_scal. auto.
Qed.
End P.
