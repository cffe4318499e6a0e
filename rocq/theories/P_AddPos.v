(** Proofs about M_AddPos, part 1: the addition layer. *)
From Coq Require Import List Arith Lia Bool ZArith Field.
From Verif Require Import ListAux FieldDef MleMath M_Mle M_Sumcheck M_SamePoly M_Tensor M_Layers P_Tensor P_Mle P_SamePoly P_Eq P_Code4 P_Layers2 P_LayerNorm5 M_AddPos.
Import ListNotations.

(** The specification of the layer on tables. *)
Definition scaled_sum {K : field} (a b : K) (L R O : list K) : Prop :=
  length O = length L /\ forall i, i < length L -> nth i O 0%F = (nth i L 0 * a + nth i R 0 * b)%F.
(** A tensor of integers as field elements. *)
Definition to_f {K : field} (t : ten Z) : ten K := mkTen (sh t) (map fZ (dat t)).

Section A.
Context {K : field}.
Add Field Kf_ap : (fth K).
Local Open Scope F_scope.

Lemma mle_scaled_sum (a b : K) (L R O : list K) (pt : list K) : length L = (2 ^ length pt)%nat -> scaled_sum a b L R O ->
  mle O pt = mle L pt * a + mle R pt * b.
Proof.
  intros HL (HO & E). unfold mle.
  transitivity (mlef (fun i => nth i L 0 * a + nth i R 0 * b) pt).
  - apply mlef_ext. intros i Hi. apply E. lia.
  - rewrite mlef_add. f_equal; apply mlef_scal_r.
Qed.

(** *** Soundness on tables. *)
Lemma F2_cons_inv {A B} (P : A -> B -> Prop) a b l l' : Forall2 P (a :: l) (b :: l') -> P a b /\ Forall2 P l l'.
Proof. intros H. inversion H; subst. auto. Qed.
Lemma add_verify_inv (c : add_ctx) (last : @claim K) pf ics op : add_verify c last pf = Some (ics, op) ->
  ap_left pf * fZ (ad_left c) + ap_right pf * fZ (ad_right c) = cl_eval last /\
  (ics = if ad_static c then [mkClaim (cl_point last) (ap_left pf)] else [mkClaim (cl_point last) (ap_left pf); mkClaim (cl_point last) (ap_right pf)]) /\
  (op = if ad_static c then Some (mkClaim (cl_point last) (ap_right pf)) else None).
Proof.
  unfold add_verify. destruct (feqb _ _) eqn:E; [|discriminate]. apply feqb_true in E. intros H. split; [exact E|].
  destruct (ad_static c); injection H as <- <-; auto.
Qed.
Lemma add_sound (c : add_ctx) (last : @claim K) pf ics op (L R O : list K) : add_verify c last pf = Some (ics, op) ->
  scaled_sum (fZ (ad_left c)) (fZ (ad_right c)) L R O ->
  Forall2 claim_true (if ad_static c then [L] else [L; R]) ics ->
  (forall oc, op = Some oc -> claim_true R oc) ->
  claim_true O last.
Proof.
  intros V S F Op. destruct (add_verify_inv _ _ _ _ _ V) as (E & -> & ->).
  assert (G : claim_true L (mkClaim (cl_point last) (ap_left pf)) /\ claim_true R (mkClaim (cl_point last) (ap_right pf))).
  { destruct (ad_static c).
    - split; [exact (proj1 (F2_cons_inv _ _ _ _ _ F))|apply Op; reflexivity].
    - destruct (F2_cons_inv _ _ _ _ _ F) as (F1 & F2). split; [exact F1|]. exact (proj1 (F2_cons_inv _ _ _ _ _ F2)). }
  destruct G as ((LL & EL) & (LR & ER)). cbn [cl_point cl_eval] in *. split.
  - destruct S as (-> & _). exact LL.
  - rewrite (mle_scaled_sum _ _ L R O _ LL S), <- EL, <- ER. symmetry. exact E.
Qed.

(** *** The integer layer. *)
Lemma nth_fZ (l : list Z) i : nth i (map (@fZ K) l) 0 = fZ (nth i l 0%Z).
Proof. change (0 : K) with (@fZ K 0%Z) at 1. apply map_nth. Qed.
Lemma nth_tscale a (t : ten Z) i : nth i (dat (tscale a t)) 0%Z = (nth i (dat t) 0 * a)%Z.
Proof. unfold tscale. cbn [dat]. change 0%Z with ((fun x => x * a) 0)%Z at 1. apply map_nth. Qed.
Lemma tadd_nth (t o u : ten Z) : tadd Z.add t o = Some u -> sh u = sh t /\ length (dat u) = length (dat t) /\
  forall i, i < length (dat t) -> i < length (dat o) /\ nth i (dat u) 0%Z = (nth i (dat t) 0 + nth i (dat o) 0)%Z.
Proof.
  unfold tadd. destruct (Nat.eqb _ _); [|discriminate].
  set (f := fun i => x <- nth_error (dat t) i ;; y <- nth_error (dat o) i ;; Some (x + y)%Z).
  destruct (omapM f (seq 0 (length (dat t)))) as [d|] eqn:E; [|discriminate]. cbn [obind]. intros H. injection H as <-. cbn [sh dat].
  destruct (omapM_nth_some f _ _ O 0%Z E) as (Ld & Hd). rewrite seq_length in Ld, Hd. split; [reflexivity|]. split; [exact Ld|]. intros i Hi. specialize (Hd i Hi).
  rewrite seq_nth in Hd by auto. cbn [Nat.add] in Hd. unfold f in Hd.
  destruct (nth_error (dat t) i) as [x|] eqn:Ex; [|discriminate]. cbn [obind] in Hd.
  destruct (nth_error (dat o) i) as [y|] eqn:Ey; [|discriminate]. cbn [obind] in Hd. injection Hd as Hd.
  split; [apply nth_error_Some; congruence|]. rewrite <- Hd. f_equal; symmetry; apply nth_error_nth; auto.
Qed.
Lemma add_evaluate_spec (c : add_ctx) operand inputs O : add_evaluate c operand inputs = Some O ->
  exists L R, nth_error inputs 0 = Some L /\ (match operand with Some o => R = o | None => inputs = [L; R] end) /\
    sh O = sh L /\ length (dat O) = length (dat L) /\
    (forall i, i < length (dat L) -> i < length (dat R) /\ nth i (dat O) 0%Z = (nth i (dat L) 0 * ad_left c + nth i (dat R) 0 * ad_right c)%Z).
Proof.
  unfold add_evaluate. destruct (nth_error inputs 0) as [L|] eqn:EL; [|discriminate]. cbn [obind].
  intros H. assert (G : exists R, (match operand with Some o => R = o | None => inputs = [L; R] end) /\ tadd Z.add (tscale (ad_left c) L) (tscale (ad_right c) R) = Some O).
  { destruct operand as [o|]; [exists o; auto|]. destruct inputs as [|a [|b [|]]]; try discriminate. cbn in EL. injection EL as ->. exists b. auto. }
  destruct G as (R & HR & HT). exists L, R. split; [reflexivity|]. split; [exact HR|]. destruct (tadd_nth _ _ _ HT) as (S1 & S2 & S3).
  assert (LL : length (dat (tscale (ad_left c) L)) = length (dat L)) by apply map_length.
  assert (LR : length (dat (tscale (ad_right c) R)) = length (dat R)) by apply map_length.
  split; [exact S1|]. rewrite LL in S2, S3. split; [exact S2|]. intros i Hi. destruct (S3 i Hi) as (S4 & S5). rewrite LR in S4. split; [exact S4|].
  rewrite S5, !nth_tscale. reflexivity.
Qed.
Lemma add_evaluate_scaled (c : add_ctx) operand inputs O L R : add_evaluate c operand inputs = Some O -> nth_error inputs 0 = Some L ->
  (match operand with Some o => R = o | None => inputs = [L; R] end) ->
  scaled_sum (@fZ K (ad_left c)) (fZ (ad_right c)) (map fZ (dat L)) (map fZ (dat R)) (map fZ (dat O)).
Proof.
  intros H HL HR. destruct (add_evaluate_spec _ _ _ _ H) as (L' & R' & HL' & HR' & _ & S2 & S3). assert (L' = L) by congruence. subst L'.
  assert (R' = R) by (destruct operand; [congruence|]; rewrite HR in HR'; congruence). subst R'.
  split; [rewrite !map_length; exact S2|]. rewrite map_length. intros i Hi. destruct (S3 i Hi) as (_ & E). rewrite !nth_fZ, E, fZ_add, !fZ_mul. reflexivity.
Qed.
(** Whatever proof is accepted: if the claims returned for the inputs and for the static operand hold, the claim about the
    output holds of what the layer computes. *)
Lemma add_layer_sound (c : add_ctx) operand inputs O (last : @claim K) pf ics op : add_evaluate c operand inputs = Some O ->
  ad_static c = (match operand with Some _ => true | None => false end) ->
  add_verify c last pf = Some (ics, op) ->
  Forall2 claim_true (map (fun t => map fZ (dat t)) (match operand with Some _ => firstn 1 inputs | None => inputs end)) ics ->
  (forall o oc, operand = Some o -> op = Some oc -> claim_true (map fZ (dat o)) oc) ->
  claim_true (map fZ (dat O)) last.
Proof.
  intros H St V F Op. destruct (add_evaluate_spec _ _ _ _ H) as (L & R & HL & HR & _).
  apply (add_sound c last pf ics op (map fZ (dat L)) (map fZ (dat R)) _ V (add_evaluate_scaled _ _ _ _ _ _ H HL HR)); rewrite ?St.
  - destruct operand as [o|]; [|rewrite HR in F; exact F]. destruct inputs as [|a l]; [discriminate|]. cbn in HL. injection HL as ->. exact F.
  - intros oc E. destruct operand as [o|]; [subst R; apply (Op o); auto|]. destruct (add_verify_inv _ _ _ _ _ V) as (_ & _ & Eo). rewrite St in Eo. congruence.
Qed.

(** *** Completeness. *)
Lemma add_complete es (c : add_ctx) (L R : ten K) inputs (O : list K) (last : @claim K) : (forall n, valid_sched n (es n)) ->
  nth_error inputs 0 = Some L -> (ad_static c = false -> nth_error inputs 1 = Some R) -> (ad_static c = true -> @fZ K (ad_right c) <> 0) ->
  length (dat L) = length (dat R) -> scaled_sum (fZ (ad_left c)) (fZ (ad_right c)) (dat L) (dat R) O -> claim_true O last ->
  exists ics op pf, add_prove es c inputs last = Some (ics, op, pf) /\ add_verify c last pf = Some (ics, op) /\
    Forall2 claim_true (if ad_static c then [dat L] else [dat L; dat R]) ics /\
    (if ad_static c then exists oc, op = Some oc /\ claim_true (dat R) oc else op = None).
Proof.
  intros He HL HR Hn Elr S (LO & EO). set (n := length (cl_point last)) in *.
  assert (LL : length (dat L) = (2 ^ n)%nat) by (destruct S as (S1 & _); congruence).
  assert (LR : length (dat R) = (2 ^ n)%nat) by congruence.
  assert (ES := mle_scaled_sum _ _ _ _ _ (cl_point last) LL S). rewrite <- EO in ES.
  assert (TL : claim_true (dat L) (mkClaim (cl_point last) (mle (dat L) (cl_point last)))) by (split; [exact LL|reflexivity]).
  assert (TR : claim_true (dat R) (mkClaim (cl_point last) (mle (dat R) (cl_point last)))) by (split; [exact LR|reflexivity]).
  assert (V : (mle (dat L) (cl_point last) * fZ (ad_left c) + mle (dat R) (cl_point last) * fZ (ad_right c) =? cl_eval last) = true) by (apply feqb_spec; auto).
  unfold add_prove, add_verify. rewrite HL. cbn [obind]. rewrite (into_mle_ext_ok n) by auto. cbn [obind num_vars]. rewrite (evaluate_ext (es n) n) by auto. cbn [obind].
  destruct (ad_static c).
  - specialize (Hn eq_refl). rewrite (finv_some _ Hn). cbn [obind].
    assert (Er : (cl_eval last - mle (dat L) (cl_point last) * fZ (ad_left c)) * / fZ (ad_right c) = mle (dat R) (cl_point last)) by (rewrite ES; field; exact Hn).
    rewrite Er. do 3 eexists. split; [reflexivity|]. cbn [ap_left ap_right]. rewrite V. split; [reflexivity|]. split; [repeat constructor; apply TL|].
    eexists. split; [reflexivity|exact TR].
  - rewrite (HR eq_refl). cbn [obind]. rewrite (into_mle_ext_ok n) by auto. cbn [obind num_vars]. rewrite (evaluate_ext (es n) n) by auto. cbn [obind].
    do 3 eexists. split; [reflexivity|]. cbn [ap_left ap_right]. rewrite V. split; [reflexivity|]. split; [|reflexivity]. repeat constructor; first [apply TL|apply TR].
Qed.
(** The honest prover on the integer layer. *)
Lemma add_honest es (c : add_ctx) operand inputs O (last : @claim K) : (forall n, valid_sched n (es n)) -> add_evaluate c operand inputs = Some O ->
  ad_static c = (match operand with Some _ => true | None => false end) ->
  (forall L R, nth_error inputs 0 = Some L -> (match operand with Some o => R = o | None => nth_error inputs 1 = Some R end) -> length (dat L) = length (dat R)) ->
  (ad_static c = true -> @fZ K (ad_right c) <> 0) -> claim_true (map fZ (dat O)) last ->
  exists ics op pf, add_prove es c (map to_f inputs) last = Some (ics, op, pf) /\ add_verify c last pf = Some (ics, op) /\
    Forall2 claim_true (map (fun t => map fZ (dat t)) (match operand with Some _ => firstn 1 inputs | None => inputs end)) ics /\
    (match operand with Some o => exists oc, op = Some oc /\ claim_true (map fZ (dat o)) oc | None => op = None end).
Proof.
  intros He H St Hlen Hn HO. destruct (add_evaluate_spec _ _ _ _ H) as (L & R & HL & HR & _).
  destruct (add_complete es c (to_f L) (to_f R) (map to_f inputs) (map fZ (dat O)) last) as (ics & op & pf & A1 & A2 & A3 & A4); auto.
  - rewrite nth_error_map, HL. reflexivity.
  - intros E. rewrite St in E. destruct operand; [discriminate|]. rewrite HR. reflexivity.
  - unfold to_f. cbn [dat]. rewrite !map_length. apply Hlen; [exact HL|]. destruct operand; [exact HR|rewrite HR; reflexivity].
  - apply (add_evaluate_scaled c operand inputs); auto.
  - exists ics, op, pf. split; [exact A1|]. split; [exact A2|]. rewrite St in A3, A4. destruct operand as [o|].
    + subst R. split; [|exact A4]. destruct inputs as [|a l]; [discriminate|]. cbn in HL. injection HL as ->. exact A3.
    + split; [|exact A4]. rewrite HR. exact A3.
Qed.
(** A static operand that is multiplied by zero: the prover panics whatever the input. *)
Lemma add_zero_panics es (c : add_ctx) inputs (last : @claim K) : ad_static c = true -> @fZ K (ad_right c) = 0 -> add_prove es c inputs last = None.
Proof.
  intros St E. unfold add_prove. destruct (nth_error inputs 0); [|reflexivity]. cbn [obind]. destruct (into_mle_ext _) as [m|]; [|reflexivity]. cbn [obind].
  destruct (evaluate _ _ _); [|reflexivity]. cbn [obind]. rewrite St, E. unfold finv_opt. rewrite feqb_refl. reflexivity.
Qed.
End A.
