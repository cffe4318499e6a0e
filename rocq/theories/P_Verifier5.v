(** Inputs and outputs are not bound: a proof accepted for one output tensor is accepted for others. *)
From Coq Require Import String.
From Coq Require Import List Arith Lia Bool ZArith Permutation Field.
From Verif Require Import ListAux FieldDef FpInst MleMath PolyList M_Mle P_Mle M_Sumcheck M_SamePoly M_LogUp M_Lookup M_Tables M_Graph P_Graph P_Graph2 P_Graph3 P_Graph4 P_Graph5 M_Verifier P_Verifier P_Verifier2 P_Verifier3 P_Verifier4.
Import ListNotations.

Section Twin.
Context {K : field}.
Add Field Kf_v5 : (fth K).
Local Open Scope F_scope.
Notation tensor := (@tensor K).

(** Another table with the same evaluation at [r]. *)
Lemma twin (l r : list K) : length l = 2 ^ length r -> r <> [] -> exists l', length l' = length l /\ l' <> l /\ mle l' r = mle l r.
Proof.
  intros L Nr. destruct r as [|x r]; [congruence|]. set (d := fun i => match i with 0%nat => x | 1%nat => x - 1 | _ => 0 end).
  exists (map (fun i => nth i l 0 + d i) (seq 0 (length l))). split; [rewrite map_length, seq_length; auto|].
  assert (L2 : 2 <= length l). { rewrite L. cbn [length]. rewrite Nat.pow_succ_r'. pose proof (pow2_pos (length r)). lia. }
  split.
  - intros E. assert (E0 : nth 0 l 0 + d 0%nat = nth 0 l 0) by (rewrite <- E at 2; rewrite nth_map_seq by lia; auto).
    assert (E1 : nth 1 l 0 + d 1%nat = nth 1 l 0) by (rewrite <- E at 2; rewrite nth_map_seq by lia; auto).
    cbn [d] in E0, E1. assert (X0 : x = 0) by (replace x with ((nth 0 l 0 + x) - nth 0 l 0) by ring; rewrite E0; ring).
    assert (X1 : x - 1 = 0) by (replace (x - 1) with ((nth 1 l 0 + (x - 1)) - nth 1 l 0) by ring; rewrite E1; ring).
    apply (@f1_neq_0 K). replace (1 : K) with (x - (x - 1)) by ring. rewrite X1, X0. ring.
  - rewrite L. rewrite mle_map_seq by auto. rewrite mlef_add. unfold mle.
    assert (Z : mlef d (x :: r) = 0).
    { rewrite mlef_cons. rewrite (mlef_ext _ (fun _ => 0)); [apply mlef_const|]. intros i Hi. destruct i as [|i]; [cbn; ring|].
      replace (2 * S i)%nat with (S (S (2 * i))) by lia. cbn [d]. replace (S (S (2 * i)) + 1)%nat with (S (S (2 * i + 1))) by lia. cbn [d]. ring. }
    rewrite Z. ring.
Qed.

Variable T : @M_Sumcheck.hist K -> K.
Variable esch : nat -> nat -> list nat.
Hypothesis Hs : forall n, valid_sched n (esch n).
Lemma twin_tensor (x : tensor) (r : list K) : 1 < length (t_data x) -> exists x', t_shape x' = t_shape x /\ x' <> x /\ mle_eval esch (t_data x') r = mle_eval esch (t_data x) r.
Proof.
  intros L. destruct x as [sh l]. cbn [t_data] in *. destruct (mle_eval esch l r) as [e|] eqn:E.
  - destruct (mle_eval_inv esch Hs _ _ _ E) as [Ll He]. destruct (twin l r Ll) as (l' & A & C & D).
    { intros ->. cbn in Ll. lia. }
    exists (mkT sh l'). split; [auto|]. split; [congruence|]. cbn [t_data]. rewrite (mle_eval_ok esch Hs (length r)) by (auto; congruence). congruence.
  - destruct l as [|a [|b l]]; cbn in L; try lia. exists (mkT sh ((a + 1) :: b :: l)). split; [auto|]. split.
    + intros X. injection X as X. apply (@f1_neq_0 K). replace (1 : K) with ((a + 1) - a) by ring. rewrite X. ring.
    + cbn [t_data]. destruct (mle_eval esch ((a + 1) :: b :: l) r) as [e|] eqn:E'; [|auto]. exfalso.
      destruct (mle_eval_inv esch Hs _ _ _ E') as [Ll He]. rewrite (mle_eval_ok esch Hs (length r)) in E; [discriminate|exact Ll|auto].
Qed.
Lemma twin_out (x : tensor) h : 1 < length (t_data x) -> exists x', t_shape x' = t_shape x /\ x' <> x /\ out_claim T esch x' h = out_claim T esch x h.
Proof.
  intros L. unfold out_claim. destruct (read_challenges T (Nat.log2 (length (t_data x))) h) as [r h1] eqn:R.
  destruct x as [sh l]. cbn [t_data t_shape] in *.
  destruct (mle_eval esch l r) as [e|] eqn:E.
  - destruct (mle_eval_inv esch Hs _ _ _ E) as [Ll He]. destruct (twin l r Ll) as (l' & A & C & D). { intros ->. cbn in Ll. lia. }
    exists (mkT sh l'). split; [auto|]. split; [congruence|]. cbn [t_data]. rewrite A, R. rewrite (mle_eval_ok esch Hs (length r)) by (auto; congruence). rewrite D, <- He. auto.
  - destruct l as [|a [|b l]]; cbn in L; try lia. exists (mkT sh ((a + 1) :: b :: l)). split; [auto|]. split.
    + intros X. injection X as X. apply (@f1_neq_0 K). replace (1 : K) with ((a + 1) - a) by ring. rewrite X. ring.
    + cbn [t_data]. cbn [length] in *. rewrite R. destruct (mle_eval esch ((a + 1) :: b :: l) r) as [e|] eqn:E'; [|auto]. exfalso.
      destruct (mle_eval_inv esch Hs _ _ _ E') as [Ll He]. rewrite (mle_eval_ok esch Hs (length r)) in E; [discriminate|exact Ll|auto].
Qed.
Lemma twin_outs : forall (vals : list tensor) k v h, nth_error vals k = Some v -> 1 < length (t_data v) ->
  exists v', t_shape v' = t_shape v /\ v' <> v /\ out_claims T esch (upd k v' vals) h = out_claims T esch vals h.
Proof.
  induction vals as [|x vals IH]; intros k v h E L; [destruct k; discriminate|]. destruct k as [|k]; cbn [nth_error] in E.
  - injection E as ->. destruct (twin_out v h L) as (v' & A & C & D). exists v'. split; [auto|]. split; [auto|]. cbn [upd out_claims]. rewrite D. auto.
  - cbn [upd out_claims]. destruct (out_claim T esch x h) as [c|].
    + destruct (IH k v (snd c) E L) as (v' & A & C & D). exists v'. split; [auto|]. split; [auto|]. cbn [obind]. rewrite D. auto.
    + destruct (IH k v h E L) as (v' & A & C & _). exists v'. auto.
Qed.
Lemma omapM_upd {A} : forall (idx : list nat) (outs : list A) vals o k y, NoDup idx -> omapM (nth_error outs) idx = Some vals -> nth_error idx k = Some o ->
  omapM (nth_error (upd o y outs)) idx = Some (upd k y vals).
Proof.
  assert (U : forall (outs : list A) o y i, i <> o -> nth_error (upd o y outs) i = nth_error outs i).
  { induction outs as [|x outs IH]; intros [|o] y [|i] N; cbn; auto; congruence. }
  assert (Un : forall (idx : list nat) (outs : list A) o y, ~ In o idx -> omapM (nth_error (upd o y outs)) idx = omapM (nth_error outs) idx).
  { induction idx as [|i idx IH]; intros outs o y N; cbn [omapM]; auto. rewrite U by (intros ->; apply N; left; auto). rewrite IH by (intros Q; apply N; right; auto). auto. }
  induction idx as [|i idx IH]; intros outs vals o k y ND H E; [destruct k; discriminate|]. cbn [omapM] in *. inversion ND as [|? ? Ni ND']; subst.
  destruct (nth_error outs i) as [v|] eqn:V; [|discriminate]. cbn [obind] in H. destruct (omapM (nth_error outs) idx) as [r|] eqn:R; [|discriminate]. cbn [obind] in H. injection H as <-.
  destruct k as [|k]; cbn [nth_error] in E.
  - injection E as ->. rewrite Un by auto. rewrite R.
    assert (Z : nth_error (upd o y outs) o = Some y). { clear -V. revert o V. induction outs as [|x outs IH]; intros [|o] V; cbn in *; try discriminate; auto. }
    rewrite Z. reflexivity.
  - rewrite U by (intros ->; apply Ni; apply nth_error_In with (1 := E)). rewrite V. cbn [obind]. rewrite (IH _ _ _ _ y ND' R E). reflexivity.
Qed.
Lemma omapM_upd_other {A} (y : A) o : forall (idx : list nat) (outs : list A), ~ In o idx -> omapM (nth_error (upd o y outs)) idx = omapM (nth_error outs) idx.
Proof.
  assert (U : forall (outs : list A) i, i <> o -> nth_error (upd o y outs) i = nth_error outs i).
  { intros outs. revert o. induction outs as [|x outs IH]; intros [|o] [|i] N; cbn; auto; congruence. }
  induction idx as [|i idx IH]; intros outs N; cbn [omapM]; auto. rewrite U by (intros ->; apply N; left; auto). rewrite IH by (intros Q; apply N; right; auto). auto.
Qed.
End Twin.

Section Malleable.
Context {K : field}.
Local Open Scope F_scope.
Notation claim := (@claim K).
Notation tensor := (@tensor K).
Notation hist := (@M_Sumcheck.hist K).
Variable T : hist -> K.
Variable esch : nat -> nat -> list nat.
Hypothesis Hs : forall n, valid_sched n (esch n).
Variable FL : floats.
Context {Ctx LP St Sh Cm CP : Type}.
Variable is_logits has_proof provable : Ctx -> bool.
Variable lookup_data : LP -> option (list K * list K).
Variable shape_steps : @nodes Ctx -> list (list nat) -> option Sh.
Variable layer_verify : nat -> Ctx -> option LP -> list claim -> list tensor -> Sh -> @storage K -> St -> hist -> option (list claim * (St * hist)).
Variable B : nat.
Variable add_witness : St -> Cm -> claim -> option St.
Variable add_table : St -> table_type -> claim -> option St.
Variable special : Ctx -> option (list tensor -> list claim -> bool).
Variable st0 : St.
Variable open_ok : St -> CP -> hist -> bool.
Notation checks := (verify_checks T esch FL is_logits has_proof provable lookup_data shape_steps layer_verify B add_witness add_table special st0 open_ok).
Notation verify := (verify_model T esch FL is_logits has_proof provable lookup_data shape_steps layer_verify B add_witness add_table special st0 open_ok).
Notation nverify := (node_verify is_logits has_proof provable layer_verify).

Lemma out_malleable order c (pf : @vproof K LP Cm CP) ins outs h o y : let ns := vc_nodes c in
  (forall m, Permutation (order m) m) -> valid ns -> ns <> [] -> no_logits is_logits ns ->
  (forall i n, In (i, n) ns -> single_out n) -> NoDup (concat (map (fun p => node_outs (snd p)) ns)) -> length (concat (map (fun p => node_outs (snd p)) ns)) = length outs ->
  verify order c pf ins outs h = true -> nth_error outs o = Some y -> 1 < length (t_data y) ->
  exists y', y' <> y /\ t_shape y' = t_shape y /\ verify order c pf ins (upd o y' outs) h = true.
Proof.
  intros ns Po Va Ne NL So No Lo V Ey Ly. apply verify_inv in V. destruct V as (d & V & Nd).
  destruct (checks_inv _ _ _ _ _ _ _ _ _ _ _ _ _ _ _ _ _ _ _ _ _ _ V) as (stg & h1 & fwd & bwd & nf & tf & bw & on & oc & h2 & sh & bn & sn & s & ic & E1 & E2 & E3 & E4 & E5 & E6 & E7 & E8 & E9 & E10 & E11 & E12 & E13 & E14 & Eq).
  fold ns in E2, E3, E4, E6, E8, E9, E10, E12, E13.
  destruct (bound_spec order ns bwd bw on _ Po Va Ne So No Lo E3 E6 E7) as (Ncon & Sub & Bd).
  assert (Hk : forall i, In i (map fst (order on)) -> In i (keys ns)).
  { intros i I. apply in_map_iff in I. destruct I as ([j l] & Ej & I). cbn in Ej. subst j. destruct (Sub _ _ I) as (n & G & _). apply get_keys with (1 := G). }
  set (idx := concat (map snd (order on))) in *.
  assert (X : exists y', y' <> y /\ t_shape y' = t_shape y /\
     verifier_out_claims T esch is_logits ns (upd o y' outs) (order on) (repeat default_claim (length outs)) h1 =
     verifier_out_claims T esch is_logits ns outs (order on) (repeat default_claim (length outs)) h1).
  { destruct (in_dec Nat.eq_dec o idx) as [I|I].
    - destruct (In_nth_error _ _ I) as [k Ek].
      assert (Ov : exists vals, omapM (nth_error outs) idx = Some vals).
      { pose proof E8 as E8'. rewrite (verifier_flat T esch is_logits) in E8' by auto. fold idx in E8'. destruct (omapM (nth_error outs) idx); [eauto|discriminate]. }
      destruct Ov as [vals Ov]. destruct (omapM_nth _ _ _ Ov) as [Lv Nv]. destruct (Nv _ _ Ek) as (v & Ev & Eo). assert (v = y) by congruence. subst v.
      destruct (twin_outs T esch Hs vals k y h1 Ev Ly) as (y' & A & C & D). exists y'. split; [auto|]. split; [auto|].
      rewrite !(verifier_flat T esch is_logits) by auto. fold idx. rewrite Ov, (omapM_upd _ _ _ _ _ y' Ncon Ov Ek). cbn [obind]. rewrite D. auto.
    - destruct (twin_out T esch Hs y h1 Ly) as (y' & A & C & _). exists y'. split; [auto|]. split; [auto|].
      rewrite !(verifier_flat T esch is_logits) by auto. fold idx. rewrite omapM_upd_other by auto. auto. }
  destruct X as (y' & Ny & Sy & Ec). exists y'. split; [auto|]. split; [auto|].
  unfold verify_model, verify_checks. rewrite E1. fold ns. rewrite E2. cbn [obind]. rewrite E3. cbn [obind]. rewrite E4. cbn [obind].
  rewrite E5. cbn [obind]. rewrite E6. cbn [obind]. rewrite !upd_length. rewrite E7. cbn [obind]. rewrite Ec, E8. cbn [obind fst snd]. rewrite E9. cbn [obind].
  rewrite (loop_ext _ (nverify (vp_steps pf) outs sh stg)).
  2: { intros j m cl s1 Gj. unfold node_verify. rewrite (NL _ _ Gj). auto. }
  rewrite E10. cbn [obind fst snd]. rewrite E11. cbn [obind]. rewrite E12. cbn [obind]. rewrite E13, E14. cbn [andb].
  rewrite <- Eq. rewrite feqb_refl. cbn [andb]. apply negb_true_iff, feqb_false. auto.
Qed.

(** ** Inputs *)
Lemma nth_error_upd {A} (l : list A) j x i : nth_error (upd j x l) i = if Nat.eqb i j then (match nth_error l j with Some _ => Some x | None => None end) else nth_error l i.
Proof.
  revert j i. induction l as [|a l IH]; intros [|j] [|i]; cbn; auto. - destruct (Nat.eqb i j); auto.
Qed.
Lemma inputs_change (ns : @nodes Ctx) ins j x x' : nth_error ins j = Some x -> (forall i n, get ns i = Some n -> special (n_op n) = None) ->
  forall ic, (forall i ics c, In (i, ics) ic -> In (j, c) ics -> input_ok esch x' c = input_ok esch x c) ->
  verify_inputs esch special ns (upd j x' ins) ic = verify_inputs esch special ns ins ic.
Proof.
  intros Ej Sp. induction ic as [|[i ics] ic IH]; intros H; cbn [verify_inputs]; auto.
  rewrite IH by (intros i' ics' c I J; apply (H i' ics' c); [right; auto|auto]).
  assert (A : forall ics, (forall c, In (j, c) ics -> input_ok esch x' c = input_ok esch x c) ->
    match omapM (fun ic => nth_error ins (fst ic)) ics with
    | Some vs => exists vs', omapM (fun ic => nth_error (upd j x' ins) (fst ic)) ics = Some vs' /\ length vs' = length vs /\
                   forallb (fun '(x, c) => input_ok esch x c) (combine vs' (map snd ics)) = forallb (fun '(x, c) => input_ok esch x c) (combine vs (map snd ics))
    | None => omapM (fun ic => nth_error (upd j x' ins) (fst ic)) ics = None end).
  { clear -Ej. induction ics as [|[a c] ics IH]; intros H; cbn [omapM]; [exists []; auto|]. cbn [fst].
    rewrite nth_error_upd. specialize (IH ltac:(intros; apply H; right; auto)).
    destruct (Nat.eqb_spec a j) as [->|N].
    - rewrite Ej. cbn [obind]. destruct (omapM (fun ic => nth_error ins (fst ic)) ics) as [vs|]; [|rewrite IH; reflexivity].
      destruct IH as (vs' & E1 & E2 & E3). rewrite E1. cbn [obind]. exists (x' :: vs'). split; [auto|]. split; [cbn; auto|]. cbn [map snd combine forallb].
      rewrite E3, (H c) by (left; auto). auto.
    - destruct (nth_error ins a) as [v|]; [|reflexivity]. cbn [obind]. destruct (omapM (fun ic => nth_error ins (fst ic)) ics) as [vs|]; [|rewrite IH; reflexivity].
      destruct IH as (vs' & E1 & E2 & E3). rewrite E1. cbn [obind]. exists (v :: vs'). split; [auto|]. split; [cbn; auto|]. cbn [map snd combine forallb]. rewrite E3. auto. }
  specialize (A ics ltac:(intros c I; apply (H i ics); [left; auto|auto])).
  destruct (omapM (fun ic => nth_error ins (fst ic)) ics) as [vs|]; [|rewrite A; auto].
  destruct A as (vs' & E1 & E2 & E3). rewrite E1. destruct (get ns i) as [n|] eqn:G; auto. f_equal.
  unfold verify_input_claim. rewrite (Sp _ _ G), E2, E3. auto.
Qed.
(** The claims on input [j] come from edges that read it. *)
Lemma node_inputs_inv (cl : list claim) : forall es i nc j c, node_input_claims cl i es = Some nc -> In (j, c) nc ->
  exists k, nth_error es k = Some (mkEdge None j) /\ nth_error cl (i + k) = Some c.
Proof.
  induction es as [|e es IH]; intros i nc j c H I; cbn [node_input_claims] in H; [injection H as <-; destruct I|].
  destruct (e_node e) eqn:N.
  - destruct (IH _ _ _ _ H I) as (k & A & C). exists (S k). split; auto. rewrite <- C. f_equal. lia.
  - destruct (nth_error cl i) as [c0|] eqn:C0; [|discriminate]. cbn [obind] in H. destruct (node_input_claims cl (S i) es) as [r|] eqn:R; [|discriminate]. cbn [obind] in H. injection H as <-.
    destruct I as [I|I].
    + injection I as <- <-. exists 0%nat. rewrite Nat.add_0_r. split; auto. destruct e; cbn in *; congruence.
    + destruct (IH _ _ _ _ R I) as (k & A & C). exists (S k). split; auto. rewrite <- C. f_equal. lia.
Qed.
Lemma input_claims_inv (ns : @nodes Ctx) (bn : list (nat * list claim)) : forall ids r i ics j c, input_claims_of ns bn ids = Some r -> In (i, ics) r -> In (j, c) ics ->
  exists cl k, get bn i = Some cl /\ inp ns i k = Some (mkEdge None j) /\ nth_error cl k = Some c.
Proof.
  induction ids as [|a ids IH]; intros r i ics j c H I J; cbn [input_claims_of] in H; [injection H as <-; destruct I|].
  destruct (get ns a) as [m|] eqn:G; [|discriminate]. cbn [obind] in H. destruct (existsb is_out (n_inputs m)).
  - destruct (get bn a) as [cl|] eqn:Gb; [|discriminate]. cbn [obind] in H. destruct (node_input_claims cl 0 (n_inputs m)) as [nc|] eqn:Nc; [|discriminate]. cbn [obind] in H.
    destruct (input_claims_of ns bn ids) as [r'|] eqn:R; [|discriminate]. cbn [obind] in H. injection H as <-.
    destruct I as [I|I]; [|apply (IH _ _ _ _ _ eq_refl I J)]. injection I as <- <-.
    destruct (node_inputs_inv _ _ _ _ _ _ Nc J) as (k & A & C). exists cl, k. split; [auto|]. split; [unfold inp; rewrite G; auto|auto].
  - apply (IH _ _ _ _ _ H I J).
Qed.

Lemma map_upd_same {A C} (f : A -> C) : forall (l : list A) j x y, nth_error l j = Some x -> f y = f x -> map f (upd j y l) = map f l.
Proof. induction l as [|a l IH]; intros [|j] x y E F; cbn in *; try discriminate; auto. - injection E as ->. congruence. - rewrite (IH j x y); auto. Qed.

Lemma in_malleable order c (pf : @vproof K LP Cm CP) ins outs h j x : let ns := vc_nodes c in
  (forall i n, get ns i = Some n -> special (n_op n) = None) ->
  (forall i k i' k', inp ns i k = Some (mkEdge None j) -> inp ns i' k' = Some (mkEdge None j) -> i = i' /\ k = k') ->
  verify order c pf ins outs h = true -> nth_error ins j = Some x -> 1 < length (t_data x) ->
  exists x', x' <> x /\ t_shape x' = t_shape x /\ verify order c pf (upd j x' ins) outs h = true.
Proof.
  intros ns Sp Un V Ex Lx. apply verify_inv in V. destruct V as (d & V & Nd).
  destruct (checks_inv _ _ _ _ _ _ _ _ _ _ _ _ _ _ _ _ _ _ _ _ _ _ V) as (stg & h1 & fwd & bwd & nf & tf & bw & on & oc & h2 & sh & bn & sn & s & ic & E1 & E2 & E3 & E4 & E5 & E6 & E7 & E8 & E9 & E10 & E11 & E12 & E13 & E14 & Eq).
  fold ns in E2, E3, E4, E6, E8, E9, E10, E12, E13.
  assert (X : exists x', x' <> x /\ t_shape x' = t_shape x /\ forall i ics c, In (i, ics) ic -> In (j, c) ics -> input_ok esch x' c = input_ok esch x c).
  { pose proof E12 as E12'. unfold input_claims in E12'. destruct (input_claims_of ns bn fwd) as [r|] eqn:R; [|discriminate]. cbn [obind] in E12'. cbv zeta in E12'.
    destruct (keys_ok _); [|discriminate]. injection E12' as ->.
    assert (U : forall i ics c i' ics' c', In (i, ics) ic -> In (j, c) ics -> In (i', ics') ic -> In (j, c') ics' -> c = c').
    { intros i ics c0 i' ics' c0' I J I' J'. destruct (input_claims_inv _ _ _ _ _ _ _ _ R I J) as (cl & k & A1 & A2 & A3).
      destruct (input_claims_inv _ _ _ _ _ _ _ _ R I' J') as (cl' & k' & A1' & A2' & A3'). destruct (Un _ _ _ _ A2 A2') as [-> ->]. congruence. }
    assert (D : (exists i ics c, In (i, ics) ic /\ In (j, c) ics) \/ (forall i ics c, In (i, ics) ic -> ~ In (j, c) ics)).
    { clear. induction ic as [|[i ics] ic IH]; [right; intros ? ? ? []|].
      assert (D1 : (exists c, In (j, c) ics) \/ forall c, ~ In (j, c) ics).
      { clear. induction ics as [|[a c] ics IH]; [right; intros ? []|]. destruct (Nat.eq_dec a j) as [->|N]; [left; exists c; left; auto|].
        destruct IH as [[c' I]|IH]; [left; exists c'; right; auto|right]. intros c' [Q|Q]; [congruence|apply (IH c'); auto]. }
      destruct D1 as [[c I]|D1]; [left; exists i, ics, c; split; [left; auto|auto]|].
      destruct IH as [(i' & ics' & c & I & J)|IH]; [left; exists i', ics', c; split; [right; auto|auto]|].
      right. intros i' ics' c [Q|Q]; [injection Q as <- <-; auto|apply (IH i' ics' c Q)]. }
    destruct D as [(i & ics & c0 & I & J)|D].
    - destruct (twin_tensor esch Hs x (cl_point c0) Lx) as (x' & A & C & F). exists x'. split; [auto|]. split; [auto|].
      intros i' ics' c' I' J'. rewrite (U _ _ _ _ _ _ I' J' I J). unfold input_ok. rewrite F. auto.
    - destruct (twin_tensor esch Hs x [] Lx) as (x' & A & C & F). exists x'. split; [auto|]. split; [auto|]. intros i ics c0 I J. exfalso. apply (D i ics c0 I J). }
  destruct X as (x' & Nx & Sx & Hx). exists x'. split; [auto|]. split; [auto|].
  unfold verify_model, verify_checks. rewrite E1. fold ns. rewrite E2. cbn [obind]. rewrite E3. cbn [obind]. rewrite E4. cbn [obind].
  rewrite E5. cbn [obind]. rewrite E6. cbn [obind]. rewrite E7. cbn [obind]. rewrite E8. cbn [obind fst snd].
  rewrite (map_upd_same t_shape ins j x x' Ex Sx). rewrite E9. cbn [obind].
  rewrite E10. cbn [obind fst snd]. rewrite E11. cbn [obind]. rewrite E12. cbn [obind]. rewrite (inputs_change ns ins j x x' Ex Sp ic Hx). rewrite E13, E14. cbn [andb].
  rewrite <- Eq. rewrite feqb_refl. cbn [andb]. apply negb_true_iff, feqb_false. auto.
Qed.
End Malleable.
