(** The whole verifier with the commitment verifier of commit/context.rs: an accepted proof opens every commitment of the model. *)
From Coq Require Import String.
From Coq Require Import List Arith Lia Bool ZArith Permutation.
From Verif Require Import ListAux FieldDef M_Mle M_Sumcheck M_SamePoly M_LogUp M_Lookup M_Tables M_Graph P_Graph M_Verifier P_Verifier P_Verifier3 M_Commit P_Commit P_Commit2.
Import ListNotations.

Section Top.
Context {K : field} {CW Cm Prf : Type}.
Notation claim := (@claim K).
Notation hist := (@M_Sumcheck.hist K).
Notation tensor := (@tensor K).
Context (pure : CW -> Cm) (trivial_nv : nat).
Context (pcs_verify : Cm -> list K -> K -> Prf -> bool).
Context (pcs_batch_verify : list Cm -> list (list K) -> list (nat * nat * K) -> Prf -> hist -> bool).
Notation vstate := (@vstate K Cm).
Notation vop := (@vop K Cm).
Variable T : hist -> K.
Variable esch : nat -> nat -> list nat.
Variable FL : floats.
Context {Ctx LP Sh : Type}.
Variable is_logits has_proof provable : Ctx -> bool.
Variable lookup_data : LP -> option (list K * list K).
Variable shape_steps : @nodes Ctx -> list (list nat) -> option Sh.
Variable layer_verify : nat -> Ctx -> option LP -> list claim -> list tensor -> Sh -> @storage K -> vstate -> hist -> option (list claim * (vstate * hist)).
Variable B : nat.
Variable special : Ctx -> option (list tensor -> list claim -> bool).

(** The interface the verifier of a model uses. *)
Definition add_w (s : vstate) (c : Cm) (cl : claim) : option vstate := Some (v_witness trivial_nv c cl s).
Definition add_t (s : vstate) (t : table_type) (cl : claim) : option vstate := match v_table trivial_nv t cl s with (true, s') => Some s' | _ => None end.
Definition open_all (s : vstate) (p : Prf * list Prf) (h : hist) : bool := v_verify pcs_verify pcs_batch_verify s p h.
Notation verify x := (verify_model T esch FL is_logits has_proof provable lookup_data shape_steps layer_verify B add_w add_t special (v_new pure x) open_all).

Definition reach (f : vop -> Prop) (s s' : vstate) : Prop := exists ops, v_run trivial_nv ops s = Some s' /\ Forall f ops.
Lemma run_app ops1 : forall ops2 (s : vstate), v_run trivial_nv (ops1 ++ ops2) s = match v_run trivial_nv ops1 s with Some s1 => v_run trivial_nv ops2 s1 | None => None end.
Proof. induction ops1 as [|o ops1 IH]; intros ops2 s; cbn [app v_run]; [reflexivity|]. destruct (v_step trivial_nv o s) as [[|] s1]; [apply IH|reflexivity]. Qed.
Lemma reach_refl f s : reach f s s. Proof. exists []; split; [reflexivity|constructor]. Qed.
Lemma reach_trans f s1 s2 s3 : reach f s1 s2 -> reach f s2 s3 -> reach f s1 s3.
Proof. intros (o1 & R1 & F1) (o2 & R2 & F2). exists (o1 ++ o2). rewrite run_app, R1. split; [exact R2|apply Forall_app; auto]. Qed.
Lemma reach_impl (f g : vop -> Prop) s s' : (forall o, f o -> g o) -> reach f s s' -> reach g s s'.
Proof. intros H (o & R & F). exists o. split; [exact R|]. eapply Forall_impl; [exact H|exact F]. Qed.
(** What a layer may do: claims about witnesses, and about the polynomials of its own node. *)
Definition own (i : nat) (o : vop) : Prop := match o with OpWitness _ _ => True | OpCommon n _ => n = i | OpTable _ _ => False end.
Definition layers_own : Prop := forall i c p cl outs sh stg s h cls s' h', layer_verify i c p cl outs sh stg s h = Some (cls, (s', h')) -> reach (own i) s s'.
(** What the verifier of a model may do. *)
Definition of_model (ns : @nodes Ctx) (ts : list table_type) (o : vop) : Prop :=
  match o with OpWitness _ _ => True | OpCommon n _ => exists nd, get ns n = Some nd /\ provable (n_op nd) = true | OpTable t _ => In t ts end.

Lemma loop_reach (Hl : layers_own) ts steps outs sh stg ns outc : forall ids bn s bn' s', claim_loop (node_verify is_logits has_proof provable layer_verify steps outs sh stg) ns outc bn s ids = Some (bn', s') ->
  reach (of_model ns ts) (fst s) (fst s').
Proof.
  induction ids as [|i ids IH]; intros bn s bn' s' H; cbn [claim_loop] in H; [injection H as _ <-; apply reach_refl|].
  destruct (get ns i) as [n|] eqn:En; cbn [obind] in H; [|discriminate].
  destruct (claims_for_node bn outc n) as [cl|]; cbn [obind] in H; [|discriminate].
  destruct (node_verify is_logits has_proof provable layer_verify steps outs sh stg i n cl s) as [r|] eqn:Er; cbn [obind] in H; [|discriminate].
  apply (reach_trans _ _ (fst (snd r))); [|exact (IH _ _ _ _ H)].
  unfold node_verify in Er. destruct (if has_proof (n_op n) then _ else _) as [p|]; cbn [obind] in Er; [|discriminate].
  destruct (provable (n_op n)) eqn:Ep; [|injection Er as <-; apply reach_refl].
  destruct r as [cls [s1 h1]]. apply Hl in Er. cbn [fst snd]. revert Er. apply reach_impl. intros [c0 cl0|m cl0|t cl0]; cbn [own of_model]; [auto|intros ->; eauto|tauto].
Qed.
Lemma tables_reach ns ts stg : forall l s s', verify_tables T esch FL B add_w add_t stg l s = Some s' -> (forall p, In p l -> In (snd p) ts) -> reach (of_model ns ts) (fst s) (fst s').
Proof.
  induction l as [|[pf t] l IH]; intros s s' H Hi; cbn [verify_tables] in H; [injection H as <-; apply reach_refl|].
  destruct (challenges_by_name stg (table_name FL t)) as [ch|]; cbn [obind] in H; [|discriminate].
  destruct (verify_table T esch B add_w add_t pf t (fst ch) (snd ch) s) as [s1|] eqn:E; cbn [obind] in H; [|discriminate].
  apply (reach_trans _ _ (fst s1)); [|apply (IH _ _ H); intros p Hp; apply Hi; now right].
  unfold verify_table in E. destruct (verify_logup T (tp_lookup pf) 1 (fst ch) (snd ch) (snd s)) as [[[[claims ?] ?] h1]|]; cbn [obind] in E; [|discriminate].
  destruct claims as [|c0 cols]; [discriminate|]. unfold add_w at 1 in E. cbn [obind] in E.
  destruct (table_claims t (c0 :: cols)) as [tc|]; cbn [obind] in E; [|discriminate].
  assert (W : reach (of_model ns ts) (fst s) (v_witness trivial_nv (tp_commit pf) c0 (fst s))).
  { exists [OpWitness (tp_commit pf) c0]. split; [reflexivity|]. repeat constructor. }
  destruct tc as [|c1 [|c2 tc]]; [| |discriminate].
  - cbn [obind] in E. destruct (evaluate_table_columns _ _ _ _) as [ex|]; cbn [obind] in E; [|discriminate]. destruct (_ && _); [|discriminate]. injection E as <-. exact W.
  - destruct (add_t (v_witness trivial_nv (tp_commit pf) c0 (fst s)) t c1) as [s2|] eqn:E2; cbn [obind] in E; [|discriminate].
    destruct (evaluate_table_columns _ _ _ _) as [ex|]; cbn [obind] in E; [|discriminate]. destruct (_ && _); [|discriminate]. injection E as <-. cbn [fst].
    apply (reach_trans _ _ _ _ W). unfold add_t in E2. destruct (v_table trivial_nv t c1 _) as [[|] s3] eqn:E3; [|discriminate]. injection E2 as <-.
    exists [OpTable t c1]. split; [cbn [v_run v_step]; rewrite E3; reflexivity|]. constructor; [|constructor]. cbn [of_model]. apply (Hi (pf, t)). now left.
Qed.
Lemma model_opened (Hl : layers_own) x order (c : @vctx K Ctx) pf ins outs h : maps_ok x -> verify x order c pf ins outs h = true ->
  exists ops h', Forall (of_model (vc_nodes c) (vc_tables c)) ops /\
  (forall n polys, In (n, polys) (cx_model x) -> exists pre cls post, ops = (pre ++ OpCommon n cls :: post)%list /\ cls <> [] /\
     (forall cls', In (OpCommon n cls') (pre ++ post) -> cls' = []) /\
     (forall id cw m, In (id, (cw, m)) polys -> exists cl, In (id, cl) cls /\ opened trivial_nv pcs_verify pcs_batch_verify (vp_open pf) h' (pure cw) cl)) /\
  (forall t cw m, In (t, (cw, m)) (cx_tables x) -> exists pre cl post, ops = (pre ++ OpTable t cl :: post)%list /\
     (forall cl', ~ In (OpTable t cl') (pre ++ post)) /\ opened trivial_nv pcs_verify pcs_batch_verify (vp_open pf) h' (pure cw) cl) /\
  (forall cm cl, In (OpWitness cm cl) ops -> opened trivial_nv pcs_verify pcs_batch_verify (vp_open pf) h' cm cl).
Proof.
  intros W V. destruct (P_Verifier3.verify_inv _ _ _ _ _ _ _ _ _ _ _ _ _ _ _ _ _ _ _ _ _ V) as (d & C & _).
  destruct (checks_inv _ _ _ _ _ _ _ _ _ _ _ _ _ _ _ _ _ _ _ _ _ _ C) as (stg & h1 & fwd & bwd & nf & tf & bw & on & oc & h2 & sh & bn & sn & s & ic & _ & _ & _ & _ & _ & _ & _ & _ & _ & CL & VT & _ & _ & OP & _).
  pose proof (loop_reach Hl (vc_tables c) _ _ _ _ _ _ _ _ _ _ _ CL) as R1. cbn [fst] in R1.
  pose proof (tables_reach (vc_nodes c) (vc_tables c) stg _ _ _ VT) as R2.
  destruct (reach_trans _ _ _ _ R1 (R2 ltac:(intros [p t] Hp; apply in_combine_r in Hp; exact Hp))) as (ops & R & F).
  exists ops, (snd s). split; [exact F|]. exact (all_opened pure trivial_nv pcs_verify pcs_batch_verify x ops (fst s) (vp_open pf) (snd s) W R OP).
Qed.
(** A node with registered polynomials that the graph does not contain, or that has no verifier: nothing is accepted. *)
Lemma foreign_node_rejected (Hl : layers_own) x order (c : @vctx K Ctx) pf ins outs h n : maps_ok x -> In n (map fst (cx_model x)) ->
  (forall nd, get (vc_nodes c) n = Some nd -> provable (n_op nd) = false) -> verify x order c pf ins outs h = false.
Proof.
  intros W Hn Hp. destruct (verify x order c pf ins outs h) eqn:V; [exfalso|reflexivity].
  destruct (model_opened Hl _ _ _ _ _ _ _ W V) as (ops & h' & F & A & _). apply in_map_iff in Hn. destruct Hn as ([n' polys] & <- & Hi). cbn [fst] in *.
  destruct (A _ _ Hi) as (pre & cls & post & -> & _). rewrite Forall_forall in F. specialize (F (OpCommon n' cls) ltac:(apply in_app_iff; right; now left)).
  destruct F as (nd & G & P). rewrite (Hp _ G) in P. discriminate.
Qed.
End Top.
