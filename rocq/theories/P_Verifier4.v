(** What the final lookup check counts, and what the transcript does not bind. *)
From Coq Require Import String.
From Coq Require Import List Arith Lia Bool ZArith Permutation Field.
From Verif Require Import ListAux FieldDef MleMath PolyList M_Mle P_Mle M_Sumcheck M_SamePoly M_LogUp P_LogUp M_Lookup P_Lookup P_Lookup2 P_Lookup3 M_Tables M_Graph P_Graph P_Graph2 P_Graph3 P_Graph4 P_Graph5 M_Verifier P_Verifier P_Verifier2 P_Verifier3.
Import ListNotations.

Lemma combine_app {A B} : forall (a b : list A) (c d : list B), length a = length c -> combine (a ++ b) (c ++ d) = (combine a c ++ combine b d)%list.
Proof. induction a as [|x a IH]; intros b [|y c] d H; cbn in *; try discriminate; auto. rewrite IH by lia. auto. Qed.
Lemma combine_over {A B} : forall (a b : list A) (c : list B), length c <= length a -> combine (a ++ b) c = combine a c.
Proof. induction a as [|x a IH]; intros b [|y c] H; cbn in *; auto; try lia. - destruct b; auto. - rewrite IH by lia. auto. Qed.

Section Counted.
Context {K : field}.
Add Field Kf_v4 : (fth K).
Local Open Scope F_scope.
Notation claim := (@claim K).
Notation tensor := (@tensor K).
Notation hist := (@M_Sumcheck.hist K).
Variable T : hist -> K.
Variable esch : nat -> nat -> list nat.
Variable FL : floats.
Context {Ctx LP St Sh Cm CP : Type}.
Variable is_logits has_proof provable : Ctx -> bool.
Variable lookup_data : LP -> option (list K * list K).
Variable shape_steps : @nodes Ctx -> list (list nat) -> option Sh.
Variable layer_verify : nat -> Ctx -> option LP -> list claim -> list tensor -> Sh -> @storage K -> St -> hist -> option (list claim * (St * hist)).
Variable B : nat.
Variable add_witness : St -> Cm -> claim -> option St.
Variable add_table : St -> table_type -> claim -> option St.
Variable special : Ctx -> option (list tensor -> list claim -> bool).
Variable st0 : St.
Variable open_ok : St -> CP -> hist -> bool.
Notation checks := (verify_checks T esch FL is_logits has_proof provable lookup_data shape_steps layer_verify B add_witness add_table special st0 open_ok).
Notation verify := (verify_model T esch FL is_logits has_proof provable lookup_data shape_steps layer_verify B add_witness add_table special st0 open_ok).
Notation nverify := (node_verify is_logits has_proof provable layer_verify).
Notation vtable := (verify_table T esch B add_witness add_table).
Notation run_of := (run_of T esch FL is_logits has_proof provable shape_steps layer_verify st0).
(** Numerators and denominators come in pairs (structs.rs [fractional_outputs]). *)
Definition paired : Prop := forall p a b, lookup_data p = Some (a, b) -> length a = length b.

(** The fractions of one node and of one table proof. *)
Definition node_fr (ns : @nodes Ctx) (steps : list (nat * LP)) (i : nat) : list (K * K) :=
  match get ns i with
  | Some n => if has_proof (n_op n) then match get steps i with
                | Some p => match lookup_data p with Some (a, b) => combine a b | None => [] end
                | None => [] end else []
  | None => []
  end.
Definition table_fr (p : @table_proof K Cm) : list (K * K) :=
  match fractional_outputs (tp_lookup p) with Some (a, b) => combine a b | None => [] end.

Lemma node_fractions_spec (Hp : paired) ns steps : forall ids nf, node_fractions has_proof lookup_data ns steps ids = Some nf ->
  length (fst nf) = length (snd nf) /\ combine (fst nf) (snd nf) = flat_map (node_fr ns steps) ids.
Proof.
  induction ids as [|i t IH]; intros nf H; cbn [node_fractions flat_map] in *; [injection H as <-; auto|].
  unfold node_fr at 1. destruct (get ns i) as [n|]; [|discriminate]. cbn [obind] in H. destruct (has_proof (n_op n)).
  - destruct (get steps i) as [p|]; [|discriminate]. cbn [obind] in H. destruct (lookup_data p) as [[a b]|] eqn:D; [|discriminate]. cbn [obind fst snd] in H.
    destruct (node_fractions has_proof lookup_data ns steps t) as [r|]; [|discriminate]. cbn [obind] in H. injection H as <-. cbn [fst snd].
    destruct (IH r eq_refl) as [L E]. pose proof (Hp _ _ _ D) as La. split; [rewrite !app_length; lia|]. rewrite combine_app by auto. rewrite E. auto.
  - apply (IH nf H).
Qed.
Lemma fractional_len pf (a b : list K) : fractional_outputs pf = Some (a, b) -> length a = length b.
Proof.
  unfold fractional_outputs. destruct (omapM _ (lp_outputs pf)) as [l|]; [|discriminate]. cbn [obind]. intros H. injection H as H.
  pose proof (split_length_l l) as A. pose proof (split_length_r l) as C. rewrite H in A, C. cbn in A, C. congruence.
Qed.
Lemma proof_fractions_spec : forall l tf, proof_fractions l = Some tf -> length (fst tf) = length (snd tf) /\ combine (fst tf) (snd tf) = flat_map table_fr l.
Proof.
  induction l as [|p l IH]; intros tf H; cbn [proof_fractions flat_map] in *; [injection H as <-; auto|].
  unfold table_fr at 1. destruct (fractional_outputs (tp_lookup p)) as [[a b]|] eqn:D; [|discriminate]. cbn [obind fst snd] in H.
  destruct (proof_fractions l) as [r|]; [|discriminate]. cbn [obind] in H. injection H as <-. cbn [fst snd].
  destruct (IH r eq_refl) as [L E]. pose proof (fractional_len _ _ _ D) as La. split; [rewrite !app_length; lia|]. rewrite combine_app by auto. rewrite E. auto.
Qed.
Lemma node_fractions_get ns steps : forall ids nf i n, node_fractions has_proof lookup_data ns steps ids = Some nf -> In i ids -> get ns i = Some n -> has_proof (n_op n) = true ->
  exists p d, get steps i = Some p /\ lookup_data p = Some d.
Proof.
  induction ids as [|j t IH]; intros nf i n H I G P; [destruct I|]. cbn [node_fractions] in H. destruct (get ns j) as [m|] eqn:Gj; [|discriminate]. cbn [obind] in H.
  destruct (has_proof (n_op m)) eqn:Hm.
  - destruct (get steps j) as [p|] eqn:Gp; [|discriminate]. cbn [obind] in H. destruct (lookup_data p) as [d|] eqn:D; [|discriminate]. cbn [obind] in H.
    destruct (node_fractions has_proof lookup_data ns steps t) as [r|]; [|discriminate].
    destruct I as [->|I]; [eauto|apply (IH _ _ _ eq_refl I G P)].
  - destruct I as [->|I]; [congruence|apply (IH _ _ _ H I G P)].
Qed.
Lemma verify_tables_nth stg : forall l s s' k p t, verify_tables T esch FL B add_witness add_table stg l s = Some s' -> nth_error l k = Some (p, t) ->
  exists ch sk sk', challenges_by_name stg (table_name FL t) = Some ch /\ verify_tables T esch FL B add_witness add_table stg (firstn k l) s = Some sk /\ vtable p t (fst ch) (snd ch) sk = Some sk'.
Proof.
  induction l as [|[p0 t0] l IH]; intros s s' k p t H E; [destruct k; discriminate|]. cbn [verify_tables] in H.
  destruct (challenges_by_name stg (table_name FL t0)) as [ch|] eqn:C; [|discriminate]. cbn [obind] in H.
  destruct (vtable p0 t0 (fst ch) (snd ch) s) as [s1|] eqn:V; [|discriminate]. cbn [obind] in H.
  destruct k as [|k]; cbn [nth_error] in E; [injection E as <- <-; exists ch, s, s1; auto|].
  cbn [firstn verify_tables]. rewrite C. cbn [obind]. rewrite V. cbn [obind]. apply (IH _ _ _ _ _ H E).
Qed.

(** Guarded: every fraction of an accepting run comes from a verified sub-proof, no denominator vanishes, and they sum to zero. *)
Lemma counted (Hp : paired) order c pf ins outs h : let ns := vc_nodes c in
  valid ns -> (forall i n, get ns i = Some n -> has_proof (n_op n) = true -> provable (n_op n) = true) ->
  length (vp_tables pf) = length (vc_tables c) -> verify order c pf ins outs h = true ->
  exists stg oc h2 sh bwd ic fwd fr bn sn, run_of order c pf ins outs h stg oc h2 sh bwd ic /\ Permutation fwd (keys ns) /\
    fr = (flat_map (node_fr ns (vp_steps pf)) fwd ++ flat_map table_fr (vp_tables pf))%list /\
    (forall x, In x fr -> snd x <> 0) /\ fsum (map (fun x => fst x * / snd x) fr) = 0 /\
    (forall i n, get ns i = Some n -> has_proof (n_op n) = true -> exists p d cl si r, get (vp_steps pf) i = Some p /\ lookup_data p = Some d /\
       checked (nverify (vp_steps pf) outs sh stg) ns oc (st0, h2) bwd i n cl si r /\
       layer_verify i (n_op n) (Some p) cl (if is_logits (n_op n) then outs else []) sh stg (fst si) (snd si) = Some r) /\
    claim_loop (nverify (vp_steps pf) outs sh stg) ns oc [] (st0, h2) bwd = Some (bn, sn) /\
    (forall k tp, nth_error (vp_tables pf) k = Some tp -> exists t ch s s', nth_error (vc_tables c) k = Some t /\
       challenges_by_name stg (table_name FL t) = Some ch /\
       verify_tables T esch FL B add_witness add_table stg (firstn k (combine (vp_tables pf) (vc_tables c))) sn = Some s /\ vtable tp t (fst ch) (snd ch) s = Some s').
Proof.
  intros ns Va Hpr Lt V. apply verify_inv in V. destruct V as (d & V & Nd).
  destruct (checks_inv _ _ _ _ _ _ _ _ _ _ _ _ _ _ _ _ _ _ _ _ _ _ V) as (stg & h1 & fwd & bwd & nf & tf & bw & on & oc & h2 & sh & bn & sn & s & ic & E1 & E2 & E3 & E4 & E5 & E6 & E7 & E8 & E9 & E10 & E11 & E12 & E13 & E14 & Eq).
  fold ns in E2, E3, E4, E6, E8, E9, E10, E12, E13. pose proof Va as (ND & Cs & Ac).
  assert (Pf : Permutation fwd (keys ns)) by (apply (iter_complete true ns fwd ND E2); auto).
  assert (Pb : Permutation bwd (keys ns)) by (apply (iter_complete false ns bwd ND E3); apply valid_backward; auto).
  destruct (node_fractions_spec Hp _ _ _ _ E4) as [Ln En]. destruct (proof_fractions_spec _ _ E5) as [Lt' Et].
  rewrite combine_app, En, Et, final_sum_frac in Eq by auto.
  set (fr := (flat_map (node_fr ns (vp_steps pf)) fwd ++ flat_map table_fr (vp_tables pf))%list) in *.
  assert (Sn : snd (frac_list fr) <> 0) by (rewrite <- Eq; auto). assert (Fz : fst (frac_list fr) = 0) by (rewrite <- Eq; auto).
  assert (Dn : forall x, In x fr -> snd x <> 0).
  { intros x Ix Z. apply Sn. rewrite frac_list_snd. clear -Ix Z. induction fr as [|y l IH]; [destruct Ix|]. cbn [map fprod].
    destruct Ix as [->|Ix]; [rewrite Z; ring|rewrite IH by auto; ring]. }
  exists stg, oc, h2, sh, bwd, ic, fwd, fr, bn, sn. split; [exists h1, fwd, bw, on, bn, sn; do 8 (split; [assumption|]); assumption|].
  split; [auto|]. split; [auto|]. split; [auto|]. split; [|split; [|split; [auto|]]].
  - rewrite frac_list_value in Fz by auto. destruct (feq_dec (fsum (map (fun x => fst x * / snd x) fr)) 0) as [|N]; auto. exfalso. apply (fmul_neq_0 _ _ Sn N). auto.
  - intros i n G Hi. assert (If : In i fwd) by (apply (Permutation_in _ (Permutation_sym Pf)); apply get_keys with (1 := G)).
    assert (Ib : In i bwd) by (apply (Permutation_in _ (Permutation_sym Pb)); apply get_keys with (1 := G)).
    destruct (node_fractions_get _ _ _ _ _ _ E4 If G Hi) as (p & dd & Gp & Dp).
    assert (NDb : NoDup bwd) by (apply (Permutation_NoDup (Permutation_sym Pb)); auto).
    destruct (loop_checked _ ns oc (st0, h2) bwd bn sn i E10 NDb Ib) as (n' & cl & si & r & Ck & _).
    pose proof Ck as (l1 & l2 & bn1 & _ & _ & Gn' & _ & Cv). assert (n' = n) by congruence. subst n'.
    exists p, dd, cl, si, r. split; [auto|]. split; [auto|]. split; [auto|]. unfold node_verify in Cv. rewrite Hi, Gp in Cv. cbn [obind] in Cv. rewrite (Hpr i n G Hi) in Cv. auto.
  - intros k tp Ek. assert (Lk : k < length (vp_tables pf)) by (apply nth_error_Some; congruence).
    destruct (nth_error (vc_tables c) k) as [t|] eqn:Etk; [|apply nth_error_None in Etk; lia].
    assert (Ec : nth_error (combine (vp_tables pf) (vc_tables c)) k = Some (tp, t)).
    { clear -Ek Etk. revert k Ek Etk. generalize (vp_tables pf) (vc_tables c). induction l as [|x l IH]; intros [|y m] [|k] A C; cbn in *; try discriminate; auto. congruence. }
    destruct (verify_tables_nth _ _ _ _ _ _ _ E11 Ec) as (ch & sk & sk' & C1 & C2 & C3). exists t, ch, sk, sk'. auto.
Qed.

(** ** Attacks on the final check *)
(** A LogUp proof whose only output fraction is n/d. *)
Definition fake_lookup (n d : K) : @logup_proof K := mkLp [] [] [] [[n; 0; d; 1]] PtTable.
Lemma proof_fractions_app : forall a b : list (@table_proof K Cm), proof_fractions (a ++ b) =
  (x <- proof_fractions a ;; y <- proof_fractions b ;; Some ((fst x ++ fst y)%list, (snd x ++ snd y)%list)).
Proof.
  induction a as [|p a IH]; intros b; cbn [app proof_fractions].
  - destruct (proof_fractions b) as [[]|]; auto.
  - destruct (fractional_outputs (tp_lookup p)); [|auto]. cbn [obind]. rewrite IH. destruct (proof_fractions a); [|auto]. cbn [obind].
    destruct (proof_fractions b); [|auto]. cbn [obind fst snd]. rewrite !app_assoc. auto.
Qed.
(** One more table proof at the end is counted but never verified: it can hold whatever makes the sum zero. *)
Lemma extra_table (Hp : paired) order c pf ins outs h n d cm : checks order c pf ins outs h = Some (n, d) -> d <> 0 ->
  length (vc_tables c) <= length (vp_tables pf) ->
  verify order c (mkVproof (vp_steps pf) (vp_tables pf ++ [mkTp cm (fake_lookup (- n) d)])%list (vp_open pf)) ins outs h = true.
Proof.
  intros V Nd Lt.
  destruct (checks_inv _ _ _ _ _ _ _ _ _ _ _ _ _ _ _ _ _ _ _ _ _ _ V) as (stg & h1 & fwd & bwd & nf & tf & bw & on & oc & h2 & sh & bn & sn & s & ic & E1 & E2 & E3 & E4 & E5 & E6 & E7 & E8 & E9 & E10 & E11 & E12 & E13 & E14 & Eq).
  unfold verify_model, verify_checks. cbn [vp_steps vp_tables vp_open]. rewrite E1, E2. cbn [obind]. rewrite E3. cbn [obind]. rewrite E4. cbn [obind].
  rewrite proof_fractions_app, E5. cbn [obind proof_fractions tp_lookup fake_lookup fractional_outputs lp_outputs omapM get4 List.split fst snd].
  cbn [fractional_outputs fake_lookup lp_outputs omapM get4 obind List.split fst snd app].
  rewrite E6. cbn [obind]. rewrite E7. cbn [obind]. rewrite E8. cbn [obind fst snd]. rewrite E9. cbn [obind]. rewrite E10. cbn [obind fst snd].
  rewrite combine_over by auto. rewrite E11. cbn [obind]. rewrite E12. cbn [obind]. rewrite E13, E14. cbn [andb].
  rewrite !app_assoc. destruct (node_fractions_spec Hp _ _ _ _ E4) as [Ln En]. destruct (proof_fractions_spec _ _ E5) as [Lt' Et].
  rewrite combine_app by (rewrite !app_length; congruence). rewrite final_sum_frac, frac_list_app, <- final_sum_frac, <- Eq.
  unfold frac_list, frac_zero, frac_add. cbn [combine fold_right fst snd].
  replace (n * (d * 1 * 1) + d * ((- n * 1 + 0 * d) * 1 + d * 1 * 0)) with (0 : K) by ring. rewrite feqb_refl. cbn [andb].
  apply negb_true_iff, feqb_false. replace (d * (d * 1 * 1)) with (d * d) by ring. apply fmul_neq_0; auto.
Qed.

(** Fractions of a list of nodes when one step proof is replaced. *)
Lemma node_fractions_put ns steps i p' : forall ids nf, node_fractions has_proof lookup_data ns steps ids = Some nf ->
  (exists d', lookup_data p' = Some d') -> exists nf', node_fractions has_proof lookup_data ns (put steps i p') ids = Some nf'.
Proof.
  induction ids as [|j t IH]; intros nf H [d' D']; cbn [node_fractions] in *; [eauto|]. destruct (get ns j) as [m|]; [|discriminate]. cbn [obind] in *.
  destruct (has_proof (n_op m)).
  - rewrite get_put. destruct (get steps j) as [p|]; [|discriminate]. cbn [obind] in H. destruct (lookup_data p) as [d|] eqn:D; [|discriminate]. cbn [obind] in H.
    destruct (node_fractions has_proof lookup_data ns steps t) as [r|]; [|discriminate]. destruct (IH r eq_refl) as [r' R']; [eauto|].
    destruct (Nat.eqb j i); cbn [obind]; [rewrite D'|rewrite D]; cbn [obind]; rewrite R'; cbn [obind]; eauto.
  - apply (IH nf H). eauto.
Qed.
Lemma node_fr_put ns steps i p' j : j <> i -> node_fr ns (put steps i p') j = node_fr ns steps j.
Proof. intros N. unfold node_fr. rewrite get_put. destruct (Nat.eqb_spec j i); [contradiction|]. auto. Qed.
Lemma flat_map_other {A C} (f g : A -> list C) l : (forall x, In x l -> f x = g x) -> flat_map f l = flat_map g l.
Proof. intros H. induction l as [|x l IH]; cbn; auto. rewrite H by (left; auto). rewrite IH; auto. intros y Hy. apply H. right; auto. Qed.
Lemma loop_ext {S : Type} (f g : nat -> node Ctx -> list claim -> S -> option (list claim * S)) ns outc :
  (forall i n cl s, get ns i = Some n -> f i n cl s = g i n cl s) ->
  forall ids bn s, claim_loop f ns outc bn s ids = claim_loop g ns outc bn s ids.
Proof.
  intros E. induction ids as [|i t IH]; intros bn s; cbn [claim_loop]; auto. destruct (get ns i) as [n|] eqn:G; [|auto]. cbn [obind].
  destruct (claims_for_node bn outc n); [|auto]. cbn [obind]. rewrite E by auto. destruct (g i n l s); [|auto]. cbn [obind]. apply IH.
Qed.
(** A node counted as having a proof but never verified (Reshape) can carry any fraction. *)
Lemma unproved_node (Hp : paired) order c pf ins outs h n d i nd p p' a b : let ns := vc_nodes c in
  checks order c pf ins outs h = Some (n, d) -> d <> 0 -> valid ns ->
  get ns i = Some nd -> has_proof (n_op nd) = true -> provable (n_op nd) = false ->
  get (vp_steps pf) i = Some p -> lookup_data p = Some (a, b) -> lookup_data p' = Some ((a ++ [- n])%list, (b ++ [d])%list) ->
  verify order c (mkVproof (put (vp_steps pf) i p') (vp_tables pf) (vp_open pf)) ins outs h = true.
Proof.
  intros ns V Nd Va G Hi Pi Gp Dp Dp'.
  destruct (checks_inv _ _ _ _ _ _ _ _ _ _ _ _ _ _ _ _ _ _ _ _ _ _ V) as (stg & h1 & fwd & bwd & nf & tf & bw & on & oc & h2 & sh & bn & sn & s & ic & E1 & E2 & E3 & E4 & E5 & E6 & E7 & E8 & E9 & E10 & E11 & E12 & E13 & E14 & Eq).
  fold ns in E2, E3, E4, E6, E8, E9, E10, E12, E13. pose proof Va as (ND & Cs & Ac).
  destruct (iter_order _ _ _ E2) as (NDf & If & _).
  assert (Pf : Permutation fwd (keys ns)) by (apply (iter_complete true ns fwd ND E2); auto).
  assert (Ii : In i fwd) by (apply (Permutation_in _ (Permutation_sym Pf)); apply get_keys with (1 := G)).
  destruct (node_fractions_put _ _ i p' _ _ E4) as [nf' E4']; [eauto|].
  unfold verify_model, verify_checks. cbn [vp_steps vp_tables vp_open]. rewrite E1. fold ns. rewrite E2. cbn [obind]. rewrite E3. cbn [obind]. rewrite E4'. cbn [obind].
  rewrite E5. cbn [obind]. rewrite E6. cbn [obind]. rewrite E7. cbn [obind]. rewrite E8. cbn [obind fst snd]. rewrite E9. cbn [obind].
  rewrite (loop_ext _ (nverify (vp_steps pf) outs sh stg)).
  2: { intros j m cl s1 Gj. unfold node_verify. rewrite get_put. destruct (Nat.eqb_spec j i) as [->|]; [|auto].
       assert (m = nd) by congruence. subst m. rewrite Hi, Gp, Pi. auto. }
  rewrite E10. cbn [obind fst snd]. rewrite E11. cbn [obind]. rewrite E12. cbn [obind]. rewrite E13, E14. cbn [andb].
  destruct (node_fractions_spec Hp _ _ _ _ E4) as [Ln En]. destruct (node_fractions_spec Hp _ _ _ _ E4') as [Ln' En']. destruct (proof_fractions_spec _ _ E5) as [Lt' Et].
  rewrite combine_app in Eq |- * by auto. rewrite En in Eq. rewrite En'. rewrite final_sum_frac in Eq |- *.
  assert (P : Permutation (flat_map (node_fr ns (put (vp_steps pf) i p')) fwd) (flat_map (node_fr ns (vp_steps pf)) fwd ++ [(- n, d)])).
  { apply in_split in Ii. destruct Ii as (l1 & l2 & El). rewrite El in *. apply NoDup_remove_2 in NDf. rewrite !flat_map_app. cbn [flat_map].
    rewrite (flat_map_other (node_fr ns (put (vp_steps pf) i p')) (node_fr ns (vp_steps pf)) l1) by (intros x Hx; apply node_fr_put; intros ->; apply NDf, in_or_app; auto).
    rewrite (flat_map_other (node_fr ns (put (vp_steps pf) i p')) (node_fr ns (vp_steps pf)) l2) by (intros x Hx; apply node_fr_put; intros ->; apply NDf, in_or_app; auto).
    assert (Ea : node_fr ns (put (vp_steps pf) i p') i = (node_fr ns (vp_steps pf) i ++ [(- n, d)])%list).
    { unfold node_fr. rewrite G, Hi, get_put, Nat.eqb_refl, Gp, Dp, Dp'. rewrite combine_app by (apply (Hp _ _ _ Dp)). reflexivity. }
    rewrite Ea. rewrite <- !app_assoc. apply Permutation_app_head, Permutation_app_head. cbn [app]. apply Permutation_cons_append. }
  assert (P2 : Permutation (flat_map (node_fr ns (put (vp_steps pf) i p')) fwd ++ combine (fst tf) (snd tf)) ((flat_map (node_fr ns (vp_steps pf)) fwd ++ combine (fst tf) (snd tf)) ++ [(- n, d)])).
  { eapply Permutation_trans; [apply Permutation_app_tail, P|]. rewrite <- !app_assoc. apply Permutation_app_head. apply Permutation_app_comm. }
  rewrite (frac_list_perm _ _ P2), frac_list_app, <- Eq.
  unfold frac_list, frac_zero, frac_add. cbn [fold_right fst snd].
  replace (n * (d * 1) + d * (- n * 1 + d * 0)) with (0 : K) by ring. rewrite feqb_refl. cbn [andb].
  apply negb_true_iff, feqb_false. replace (d * (d * 1)) with (d * d) by ring. apply fmul_neq_0; auto.
Qed.

(** ** Challenges are fixed before the proof *)
Lemma challenges_fixed order order' c (pf pf' : @vproof K LP Cm CP) ins ins' outs outs' h stg stg' oc oc' h2 h2' sh sh' bwd bwd' ic ic' :
  run_of order c pf ins outs h stg oc h2 sh bwd ic -> run_of order' c pf' ins' outs' h stg' oc' h2' sh' bwd' ic' -> stg = stg'.
Proof. intros (h1 & ? & ? & ? & ? & ? & E & _) (h1' & ? & ? & ? & ? & ? & E' & _). congruence. Qed.
End Counted.

Section Forge.
Context {K : field}.
Add Field Kf_v4b : (fth K).
Local Open Scope F_scope.
Lemma sumn_single n (f : nat -> K) : 0 < n -> (forall i, 0 < i < n -> f i = 0) -> sumn n f = f 0%nat.
Proof.
  induction n as [|n IH]; intros H Z; [lia|]. destruct n as [|n]; [cbn; ring|]. cbn [sumn]. change (sumn n f + f n) with (sumn (S n) f).
  rewrite IH by (try lia; intros; apply Z; lia). rewrite (Z (S n)) by lia. ring.
Qed.
(** Knowing the challenges, multiplicities can be chosen so that any looked-up values, in the table or not, balance. *)
Lemma forged_multiplicities (insts : list (list (list K))) (tcols : list (list K)) cst csc k : tcols <> [] -> (forall c, In c tcols -> length c = 2 ^ S k) ->
  (forall i, i < 2 ^ S k -> row_val cst csc tcols i <> 0) ->
  (forall cols, In cols insts -> cols <> [] /\ exists k', (forall c, In c cols -> length c = 2 ^ S (S k')) /\ forall i, i < 2 ^ S (S k') -> row_val cst csc cols i <> 0) ->
  exists mult fr, length mult = 2 ^ S k /\ table_fractions insts tcols mult cst csc = Some fr /\ final_check fr = true.
Proof.
  intros Ht Hk Hr Hi.
  assert (A : exists ls, omapM (fun cols => c <- new_lookup_circuit cols cst csc ;; circuit_fraction c) insts = Some ls /\ forall x, In x ls -> snd x <> 0).
  { induction insts as [|cols insts IH]; [exists []; split; [reflexivity|intros ? []]|].
    destruct IH as (ls & E & N); [intros; apply Hi; right; auto|]. destruct (Hi cols (or_introl eq_refl)) as (Hc & k' & Hl & Hv).
    destruct (lookup_value cols cst csc k' Hc Hl Hv) as (n & d & E1 & Nd & _). exists ((n, d) :: ls). cbn [omapM]. rewrite E1. cbn [obind]. rewrite E. cbn [obind].
    split; auto. intros x [<-|I]; auto. }
  destruct A as (ls & E & N). set (sv := fsum (map (fun x => fst x * / snd x) ls)).
  set (mult := (- sv * row_val cst csc tcols 0) :: repeat (0 : K) (2 ^ S k - 1)).
  assert (Lm : length mult = (2 ^ S k)%nat) by (unfold mult; cbn [length]; rewrite repeat_length; pose proof (pow2_pos (S k)); lia).
  destruct (table_value tcols mult cst csc k Ht Hk Lm Hr) as (n & d & E1 & Nd & Ev).
  exists mult, (ls ++ [(n, d)])%list. split; [auto|]. split.
  - unfold table_fractions. rewrite E. cbn [obind]. rewrite E1. auto.
  - apply final_check_spec. assert (Na : forall x, In x (ls ++ [(n, d)]) -> snd x <> 0) by (intros x I; apply in_app_or in I; destruct I as [I|[<-|[]]]; auto).
    split.
    + rewrite frac_list_value by auto. rewrite map_app, fsum_app. cbn [map fsum fst snd]. fold sv. rewrite Ev.
      rewrite sumn_single.
      * unfold mult. cbn [nth]. assert (R0 : row_val cst csc tcols 0 <> 0) by (apply Hr; apply pow2_pos). 
        replace (sv + (- sv * row_val cst csc tcols 0 * / row_val cst csc tcols 0 + 0)) with (0 : K) by (field; auto). ring.
      * apply pow2_pos.
      * intros i Hi'. unfold mult. destruct i as [|i]; [lia|]. cbn [nth]. rewrite nth_repeat. ring.
    + rewrite frac_list_snd. apply fprod_neq_0. intros x I. apply in_map_iff in I. destruct I as (y & <- & I). auto.
Qed.
End Forge.

(** *** The transcript behind each lookup challenge *)
Section Draws.
Context {K : field}.
Local Open Scope F_scope.
Notation hist := (@M_Sumcheck.hist K).
(** What drawing the challenges of [ts] appends (newest first). *)
Definition draw_events (ts : list table_type) : hist :=
  flat_map (fun t => match table_label t with Some l => [EvSample; EvBytes l] | None => [] end) (rev ts).
Lemma draw_events_cons t ts : draw_events (t :: ts) = (draw_events ts ++ draw_events [t])%list.
Proof. unfold draw_events. cbn [rev]. rewrite flat_map_app. reflexivity. Qed.
Lemma draw_spec (T : hist -> K) FL : forall ts h,
  snd (draw_challenges T FL ts h) = (draw_events ts ++ h)%list /\
  fst (draw_challenges T FL ts h) =
    map (fun i => (table_name FL (nth i ts TRange),
                   match table_label (nth i ts TRange) with
                   | Some l => T (EvBytes l :: draw_events (firstn i ts) ++ h)%list
                   | None => 1 end)) (seq 0 (length ts)).
Proof.
  induction ts as [|t ts IH]; intros h; [split; reflexivity|]. cbn [draw_challenges length].
  assert (Hg : generate_challenge T t h = (match table_label t with Some l => T (EvBytes l :: h) | None => 1 end, (draw_events [t] ++ h)%list)).
  { unfold generate_challenge, draw_events. cbn [rev app flat_map]. destruct (table_label t); reflexivity. }
  rewrite Hg. specialize (IH (draw_events [t] ++ h)%list). destruct (draw_challenges T FL ts (draw_events [t] ++ h)) as [m h2].
  cbn [fst snd] in *. destruct IH as [E1 E2]. split; [rewrite E1, (draw_events_cons t ts), app_assoc; reflexivity|].
  cbn [seq map nth firstn]. f_equal. rewrite E2, <- seq_shift, map_map. apply map_ext. intros i. cbn [nth firstn].
  rewrite (draw_events_cons t (firstn i ts)), <- app_assoc. reflexivity.
Qed.
Lemma setup_spec (T : hist -> K) FL {Ctx} (c : @vctx K Ctx) h : let h0 := (vc_absorb c ++ h)%list in
  (vc_tables c = [] -> setup T FL c h = ((0, []), h0)) /\
  (vc_tables c <> [] -> let h1 := EvSample :: EvBytes lbl_tc :: h0 in
    setup T FL c h = ((T (EvBytes lbl_tc :: h0),
       map (fun i => (table_name FL (nth i (vc_tables c) TRange),
                   match table_label (nth i (vc_tables c) TRange) with
                   | Some l => T (EvBytes l :: draw_events (firstn i (vc_tables c)) ++ h1)%list
                   | None => 1 end)) (seq 0 (length (vc_tables c)))), (draw_events (vc_tables c) ++ h1)%list)).
Proof.
  intros h0. unfold setup. fold h0. split; [intros ->; reflexivity|]. intros Hne. cbv zeta. unfold init_challenges, get_challenge. set (h1 := EvSample :: EvBytes lbl_tc :: h0).
  destruct (draw_spec T FL (vc_tables c) h1) as [E1 E2]. destruct (vc_tables c) as [|t ts]; [congruence|].
  destruct (draw_challenges T FL (t :: ts) h1) as [m h2]. cbn [fst snd] in E1, E2. rewrite E1, E2. reflexivity.
Qed.
End Draws.
