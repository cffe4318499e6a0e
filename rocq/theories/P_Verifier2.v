(** A nonzero multilinear polynomial has few roots; composition of the layers' soundness along the claims. *)
From Coq Require Import String.
From Coq Require Import List Arith Lia Bool ZArith Permutation Field.
From Verif Require Import ListAux FieldDef MleMath PolyList P_ScVerify P_Count M_Mle P_Mle M_Sumcheck M_SamePoly M_Graph P_Graph P_Graph2 P_Graph3 P_Graph4 P_Graph5 M_Verifier P_Verifier.
Import ListNotations.

Section Count.
Context {K : field}.
Add Field Kf_v2 : (fth K).
Local Open Scope F_scope.

Lemma filter_flat_map_two {A B} (f : B -> bool) (g : A -> list B) (P : A -> Prop) : forall l b1 b2,
  NoDup l -> (forall a b, In a l -> In b l -> P a -> P b -> a = b) -> (forall a, P a \/ ~ P a) ->
  (forall a, In a l -> length (filter f (g a)) <= b1) ->
  (forall a, In a l -> ~ P a -> length (filter f (g a)) <= b2) ->
  length (filter f (flat_map g l)) <= b1 + length l * b2.
Proof.
  induction l as [|a l IH]; intros b1 b2 Hn Hu Hd H1 H2; [simpl; lia|].
  cbn [flat_map]. rewrite filter_app, app_length. inversion Hn as [|? ? Ha Hn']; subst.
  destruct (Hd a) as [Pa|Pa].
  - assert (E : length (filter f (flat_map g l)) <= length l * b2).
    { apply filter_flat_map. intros b Hb. apply H2; [right; auto|]. intros Pb. apply Ha. rewrite (Hu a b); auto; [left; auto|right; auto]. }
    specialize (H1 a (or_introl eq_refl)). cbn [length]. lia.
  - assert (E : length (filter f (flat_map g l)) <= b1 + length l * b2).
    { apply IH; auto; intros; [apply Hu; auto; right; auto|apply H1; right; auto|apply H2; auto; right; auto]. }
    specialize (H2 a (or_introl eq_refl) Pa). cbn [length]. lia.
Qed.

Lemma mlef_count (S : list K) : NoDup S -> forall n f, (exists i, i < 2 ^ n /\ f i <> 0) ->
  length (filter (fun r => mlef f r =? 0) (vecs S n)) <= n * length S ^ (n - 1).
Proof.
  intros ND. induction n as [|n IH]; intros f (i & Hi & Hf).
  - cbn in Hi. assert (i = 0%nat) by lia. subst i. cbn [vecs filter]. rewrite mlef_nil. rewrite (proj2 (feqb_false (f 0%nat) 0) Hf). cbn. lia.
  - cbn [vecs]. rewrite Nat.pow_succ_r' in Hi. set (p := (i / 2)%nat).
    assert (Hp : (i = 2 * p \/ i = 2 * p + 1)%nat) by (pose proof (Nat.div_mod i 2); pose proof (Nat.mod_upper_bound i 2); unfold p; lia).
    clearbody p.
    set (P := fun x => f (2 * p)%nat + x * (f (2 * p + 1)%nat - f (2 * p)%nat) = 0).
    assert (B : length (filter (fun r => mlef f r =? 0) (flat_map (fun r => map (cons r) (vecs S n)) S)) <= length S ^ n + length S * (n * length S ^ (n - 1))).
    { apply (filter_flat_map_two _ _ P); auto.
      - intros a b _ _ Pa Pb. unfold P in Pa, Pb. destruct (feq_dec a b) as [|N]; auto. exfalso.
        set (d := f (2 * p + 1)%nat - f (2 * p)%nat) in *.
        assert (Z : (a - b) * d = 0). { replace ((a - b) * d) with ((f (2 * p)%nat + a * d) - (f (2 * p)%nat + b * d)) by ring. rewrite Pa, Pb. ring. }
        assert (D : d = 0). { destruct (feq_dec d 0); auto. exfalso. apply (fmul_neq_0 (a - b) d); auto. apply fsub_neq; auto. }
        assert (E0 : f (2 * p)%nat = 0). { rewrite D in Pa. rewrite <- Pa. ring. }
        assert (E1 : f (2 * p + 1)%nat = 0). { replace (f (2 * p + 1)%nat) with (d + f (2 * p)%nat) by (unfold d; ring). rewrite D, E0. ring. }
        destruct Hp as [->| ->]; congruence.
      - intros x. unfold P. destruct (feq_dec (f (2 * p)%nat + x * (f (2 * p + 1)%nat - f (2 * p)%nat)) 0); auto.
      - intros x _. rewrite <- vecs_length. etransitivity; [apply filter_length_le|]. rewrite map_length. lia.
      - intros x _ NP. rewrite filter_map_length. rewrite (filter_ext_len _ (fun r => mlef (fun j => f (2 * j)%nat + x * (f (2 * j + 1)%nat - f (2 * j)%nat)) r =? 0)).
        + apply IH. exists p. split; [|exact NP]. lia.
        + intros r. rewrite mlef_cons. auto. }
    etransitivity; [exact B|]. replace (Datatypes.S n - 1)%nat with n by lia. destruct n as [|n]; [cbn; lia|].
    replace (Datatypes.S n - 1)%nat with n by lia. rewrite Nat.pow_succ_r'. nia.
Qed.
(** Two different tables of size [2^n] have the same evaluation at few points. *)
Lemma mle_agree_count (S a b : list K) n : NoDup S -> length a = (2 ^ n)%nat -> length b = (2 ^ n)%nat -> a <> b ->
  length (filter (fun r => mle a r =? mle b r) (vecs S n)) <= n * length S ^ (n - 1).
Proof.
  intros ND La Lb N. rewrite (filter_ext_len _ (fun r => mlef (fun i => nth i a 0 - nth i b 0) r =? 0)).
  - apply mlef_count; auto. 
    assert (D : forall m, m <= 2 ^ n -> (exists i, i < 2 ^ n /\ nth i a 0 - nth i b 0 <> 0) \/ forall i, i < m -> nth i a 0 = nth i b 0).
    { induction m as [|m IH]; intros Hm; [right; intros; lia|]. destruct IH as [|H]; [lia|auto|].
      destruct (feq_dec (nth m a 0) (nth m b 0)) as [E|Ne].
      - right. intros i Hi. destruct (Nat.eq_dec i m) as [->|]; auto. apply H. lia.
      - left. exists m. split; [lia|]. apply fsub_neq; auto. }
    destruct (D (2 ^ n)%nat (le_n _)) as [|H]; auto. exfalso. apply N. apply (nth_ext_all _ _ 0); [lia|]. intros i Hi. apply H. lia.
  - intros r. unfold mle. rewrite mlef_sub. destruct (feq_dec (mlef (fun i => nth i a 0) r) (mlef (fun i => nth i b 0) r)) as [E|Ne].
    + rewrite E, feqb_refl. symmetry. replace (mlef (fun i => nth i b 0) r - mlef (fun i => nth i b 0) r) with (0 : K) by ring. apply feqb_refl.
    + rewrite (proj2 (feqb_false _ _) Ne). symmetry. apply feqb_false. apply fsub_neq; auto.
Qed.
End Count.

(** * Claims along the graph *)
Section Loop.
Context {K : field} {Ctx S : Type}.
Notation claim := (@claim K).
Notation tensor := (@tensor K).
Variable check : nat -> node Ctx -> list claim -> S -> option (list claim * S).

(** In the run of the loop over [ids] node [i] is checked against the claims [cl] in state [si], with result [r]. *)
Definition checked (ns : @nodes Ctx) (outc : list claim) (s0 : S) (ids : list nat) (i : nat) (n : node Ctx) (cl : list claim) (si : S) (r : list claim * S) : Prop :=
  exists l1 l2 bn, ids = (l1 ++ i :: l2)%list /\ claim_loop check ns outc [] s0 l1 = Some (bn, si) /\ get ns i = Some n /\
    claims_for_node bn outc n = Some cl /\ check i n cl si = Some r.

Lemma loop_app ns outc : forall l1 l2 bn s, claim_loop check ns outc bn s (l1 ++ l2) =
  (r <- claim_loop check ns outc bn s l1 ;; claim_loop check ns outc (fst r) (snd r) l2).
Proof.
  induction l1 as [|i l1 IH]; intros l2 bn s; cbn [app claim_loop]; [auto|].
  destruct (get ns i); [|auto]. cbn [obind]. destruct (claims_for_node bn outc n); [|auto]. cbn [obind].
  destruct (check i n l s); [|auto]. cbn [obind]. apply IH.
Qed.
Lemma loop_keep ns outc : forall ids bn s bn' s' j, claim_loop check ns outc bn s ids = Some (bn', s') -> ~ In j ids -> get bn' j = get bn j.
Proof.
  induction ids as [|i ids IH]; intros bn s bn' s' j H N; cbn [claim_loop] in H; [injection H as <- <-; auto|].
  destruct (get ns i); [|discriminate]. cbn [obind] in H. destruct (claims_for_node bn outc n); [|discriminate]. cbn [obind] in H.
  destruct (check i n l s) as [r|]; [|discriminate]. cbn [obind] in H. rewrite (IH _ _ _ _ _ H) by (intros Q; apply N; right; auto).
  rewrite get_put. destruct (Nat.eqb_spec j i) as [->|]; auto. exfalso. apply N. left; auto.
Qed.
Lemma loop_keys ns outc : forall ids bn s bn' s' j l, claim_loop check ns outc bn s ids = Some (bn', s') -> get bn' j = Some l -> In j ids \/ get bn j = Some l.
Proof.
  intros ids bn s bn' s' j l H G. destruct (in_dec Nat.eq_dec j ids); auto. right. rewrite <- (loop_keep _ _ _ _ _ _ _ _ H n). auto.
Qed.
Lemma loop_checked ns outc s0 ids bn' s' i : claim_loop check ns outc [] s0 ids = Some (bn', s') -> NoDup ids -> In i ids ->
  exists n cl si r, checked ns outc s0 ids i n cl si r /\ get bn' i = Some (fst r).
Proof.
  intros H ND I. apply in_split in I. destruct I as (l1 & l2 & E). subst ids. rewrite loop_app in H.
  destruct (claim_loop check ns outc [] s0 l1) as [[bn si]|] eqn:E1; [|discriminate]. cbn [obind fst snd claim_loop] in H.
  destruct (get ns i) as [n|] eqn:G; [|discriminate]. cbn [obind] in H. destruct (claims_for_node bn outc n) as [cl|] eqn:C; [|discriminate]. cbn [obind] in H.
  destruct (check i n cl si) as [r|] eqn:Ck; [|discriminate]. cbn [obind] in H.
  exists n, cl, si, r. split.
  - exists l1, l2, bn. repeat (split; [auto|]). auto.
  - rewrite (loop_keep _ _ _ _ _ _ _ i H). + rewrite get_put, Nat.eqb_refl. auto.
    + apply NoDup_remove_2 in ND. intros Q. apply ND. apply in_or_app. auto.
Qed.
(** The claims handed to a node are those its consumers returned at the end of the run. *)
Lemma checked_claims ns outc s0 ids bn' s' i n cl si r j k idx : consistent ns -> claim_loop check ns outc [] s0 ids = Some (bn', s') -> NoDup ids ->
  checked ns outc s0 ids i n cl si r -> inp ns j k = Some (mkEdge (Some i) idx) ->
  exists c lj, nth_error cl idx = Some c /\ get bn' j = Some lj /\ nth_error lj k = Some c.
Proof.
  intros Cs H ND (l1 & l2 & bn & E & E1 & G & C & _) I. destruct (claims_routed ns i n bn outc cl Cs G C) as (_ & R & _).
  destruct (R j k idx I) as (c & lj & A & B & D). exists c, lj. split; [auto|]. split; [|auto].
  subst ids. rewrite loop_app, E1 in H. cbn [obind fst snd] in H. rewrite (loop_keep _ _ _ _ _ _ _ j H); auto.
  destruct (loop_keys _ _ _ _ _ _ _ _ _ E1 B) as [I1|]; [|discriminate].
  intros I2. clear -ND I1 I2. induction l1 as [|x l1 IH]; [destruct I1|]. cbn in ND. inversion ND as [|? ? X Y]; subst.
  destruct I1 as [->|I1]; [apply X; apply in_or_app; auto|auto].
Qed.
(** Two checks of the same node in a run are the same. *)
Lemma checked_fun ns outc s0 ids i n cl si r n' cl' si' r' : NoDup ids -> checked ns outc s0 ids i n cl si r -> checked ns outc s0 ids i n' cl' si' r' ->
  n = n' /\ cl = cl' /\ si = si' /\ r = r'.
Proof.
  intros ND (l1 & l2 & bn & E & E1 & G & C & Ck) (l1' & l2' & bn' & E' & E1' & G' & C' & Ck').
  assert (l1 = l1'). { clear -E E' ND. subst ids. revert l1' E' ND. induction l1 as [|x l1 IH]; intros [|y l1'] E ND; cbn in *; auto.
    - exfalso. injection E as -> ->. inversion ND; subst. apply H1. apply in_or_app. right; left; auto.
    - exfalso. injection E as -> E. inversion ND; subst. apply H1. apply in_or_app. right; left; auto.
    - injection E as -> E. f_equal. apply IH; auto. inversion ND; auto. }
  subst l1'. assert (bn = bn' /\ si = si') as [<- <-] by (split; congruence). assert (n = n') by congruence. subst. assert (cl = cl') by congruence. subst. assert (r = r') by congruence. auto.
Qed.
End Loop.

(** A claim holds of a tensor when it is the evaluation of the tensor's data at the claim's point. *)
Definition holds {K : field} (c : @claim K) (v : @tensor K) : Prop :=
  length (t_data v) = 2 ^ length (cl_point c) /\ mle (t_data v) (cl_point c) = cl_eval c.
Lemma holds_dec {K : field} (c : @claim K) v : holds c v \/ ~ holds c v.
Proof.
  unfold holds. destruct (Nat.eq_dec (length (t_data v)) (2 ^ length (cl_point c))); [|tauto].
  destruct (feq_dec (mle (t_data v) (cl_point c)) (cl_eval c)); tauto.
Qed.

Section Inputs.
Context {K : field} {Ctx : Type}.
Notation claim := (@claim K).
Notation tensor := (@tensor K).
Variable esch : nat -> nat -> list nat.
Hypothesis Hs : forall n, valid_sched n (esch n).
Variable special : Ctx -> option (list tensor -> list claim -> bool).

Lemma node_inputs_In (cl : list claim) : forall es i nc, node_input_claims cl i es = Some nc ->
  forall k e, nth_error es k = Some e -> e_node e = None -> exists c, nth_error cl (i + k) = Some c /\ In (e_index e, c) nc.
Proof.
  induction es as [|e0 es IH]; intros i nc H k e E N; [destruct k; discriminate|]. cbn [node_input_claims] in H.
  destruct (e_node e0) eqn:N0.
  - destruct k as [|k]; cbn in E; [congruence|]. destruct (IH _ _ H _ _ E N) as (c & A & B). exists c. split; auto. rewrite <- A. f_equal. lia.
  - destruct (nth_error cl i) as [c0|] eqn:C0; [|discriminate]. cbn [obind] in H. destruct (node_input_claims cl (S i) es) as [r|] eqn:R; [|discriminate].
    cbn [obind] in H. injection H as <-. destruct k as [|k]; cbn in E.
    + injection E as ->. exists c0. rewrite Nat.add_0_r. split; [auto|left; auto].
    + destruct (IH _ _ R _ _ E N) as (c & A & B). exists c. split; [|right; auto]. rewrite <- A. f_equal. lia.
Qed.
Lemma input_claims_In (ns : @nodes Ctx) (bn : list (nat * list claim)) : forall ids r, input_claims_of ns bn ids = Some r ->
  forall i n k e, In i ids -> get ns i = Some n -> nth_error (n_inputs n) k = Some e -> e_node e = None ->
  exists cl nc c, get bn i = Some cl /\ In (i, nc) r /\ nth_error cl k = Some c /\ In (e_index e, c) nc.
Proof.
  induction ids as [|j ids IH]; intros r H i n k e I G E N; [destruct I|]. cbn [input_claims_of] in H.
  destruct (get ns j) as [m|] eqn:Gj; [|discriminate]. cbn [obind] in H.
  destruct (existsb is_out (n_inputs m)) eqn:X.
  - destruct (get bn j) as [cl|] eqn:B; [|discriminate]. cbn [obind] in H. destruct (node_input_claims cl 0 (n_inputs m)) as [nc|] eqn:Nc; [|discriminate]. cbn [obind] in H.
    destruct (input_claims_of ns bn ids) as [r'|] eqn:R; [|discriminate]. cbn [obind] in H. injection H as <-.
    destruct I as [->|I].
    + assert (m = n) by congruence. subst m. destruct (node_inputs_In _ _ _ _ Nc _ _ E N) as (c & A & Bc). exists cl, nc, c. repeat split; auto. left; auto.
    + destruct (IH _ eq_refl _ _ _ _ I G E N) as (cl' & nc' & c & A & Bb & Cc & D). exists cl', nc', c. repeat split; auto. right; auto.
  - destruct I as [->|I]; [|apply (IH _ H _ _ _ _ I G E N)]. exfalso. assert (m = n) by congruence. subst m.
    assert (existsb is_out (n_inputs n) = true); [|congruence]. apply existsb_exists. exists e. split; [apply nth_error_In with (1 := E)|]. unfold is_out. rewrite N. auto.
Qed.
Lemma input_ok_holds x (c : claim) : input_ok esch x c = true -> holds c x.
Proof.
  unfold input_ok. destruct (mle_eval esch (t_data x) (cl_point c)) as [e|] eqn:E; [|discriminate]. intros H. apply feqb_true in H. subst e.
  destruct (mle_eval_inv esch Hs _ _ _ E). split; auto.
Qed.
Lemma verify_inputs_In (ns : @nodes Ctx) ins : forall l i ics, verify_inputs esch special ns ins l = true -> In (i, ics) l ->
  exists n vs, get ns i = Some n /\ omapM (fun ic => nth_error ins (fst ic)) ics = Some vs /\ verify_input_claim esch special (n_op n) vs (map snd ics) = true.
Proof.
  induction l as [|[j jcs] l IH]; intros i ics H I; [destruct I|]. cbn [verify_inputs] in H.
  destruct (omapM (fun ic => nth_error ins (fst ic)) jcs) as [vs|] eqn:V; [|discriminate]. destruct (get ns j) as [n|] eqn:G; [|discriminate].
  apply andb_true_iff in H. destruct H as [H1 H2]. destruct I as [I|I]; [|apply IH; auto]. injection I as <- <-. eauto.
Qed.
(** Every claim on a model input is about the stated input, unless a layer's own input check let a wrong one through. *)
Lemma inputs_hold (ns : @nodes Ctx) ins bn fwd ic : input_claims ns bn fwd = Some ic -> verify_inputs esch special ns ins ic = true ->
  forall i n k e, In i fwd -> get ns i = Some n -> nth_error (n_inputs n) k = Some e -> e_node e = None ->
  exists cl c v, get bn i = Some cl /\ nth_error cl k = Some c /\ nth_error ins (e_index e) = Some v /\
    (holds c v \/ exists f ics vs, special (n_op n) = Some f /\ In (i, ics) ic /\ omapM (fun x => nth_error ins (fst x)) ics = Some vs /\
       f vs (map snd ics) = true /\ In (v, c) (combine vs (map snd ics))).
Proof.
  unfold input_claims. destruct (input_claims_of ns bn fwd) as [r|] eqn:R; [|discriminate]. cbn [obind]. intros H. cbv zeta in H.
  destruct (keys_ok _); [|discriminate]. injection H as <-. intros V i n k e I G E N.
  destruct (input_claims_In _ _ _ _ R _ _ _ _ I G E N) as (cl & nc & c & A & B & C & D).
  destruct (verify_inputs_In _ _ _ _ _ V B) as (n' & vs & G' & Ov & Vc). assert (n' = n) by congruence. subst n'.
  destruct (In_nth_error _ _ D) as [q Eq]. destruct (omapM_nth _ _ _ Ov) as [Lv Nv]. destruct (Nv _ _ Eq) as (v & Ev & Ei). cbn [fst] in Ei.
  assert (Ic : In (v, c) (combine vs (map snd nc))).
  { apply nth_error_In with (n := q). clear -Ev Eq. revert nc q Ev Eq. induction vs as [|x vs IH]; intros [|y nc] [|q] Ev Eq; cbn in *; try discriminate; auto.
    injection Ev as ->. injection Eq as ->. auto. }
  exists cl, c, v. repeat (split; [auto|]).
  unfold verify_input_claim in Vc. destruct (special (n_op n)) as [f|] eqn:Sp.
  - right. exists f, nc, vs. auto.
  - left. apply andb_true_iff in Vc. destruct Vc as [_ Vc]. rewrite forallb_forall in Vc. apply input_ok_holds. apply (Vc (v, c)). auto.
Qed.
End Inputs.
