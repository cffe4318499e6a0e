(** Property C43: every commitment of the model is opened exactly once, at a claim of its own node. *)
From Coq Require Import String.
From Coq Require Import List Arith Lia Bool ZArith Permutation.
From Verif Require Import ListAux FieldDef FpInst MleMath M_Mle M_Sumcheck M_SamePoly M_LogUp M_Lookup M_Tables M_Graph M_Verifier M_Commit P_Commit P_Commit2 P_Commit3.
Import ListNotations.

(** A scheme for the examples: the commitment is the table of values, and opening evaluates it. *)
Definition z (n : Z) : F101 := @fZ F101 n.
Definition vals (m : dmle F101) : list F101 := match evaluations m with Base l | Ext l => l | Unreachable => [] end.
Definition xcommit (m : dmle F101) : option (list F101) := Some (vals m).
Definition xverify (c : list F101) (pt : list F101) (e : F101) (p : unit) : bool := feqb (mle c pt) e.
Definition xbatch (cs : list (list F101)) (ps : list (list F101)) (es : list (nat * nat * F101)) (p : unit) (h : @hist F101) : bool :=
  forallb (fun e => feqb (mle (nth (fst (fst e)) cs []) (nth (snd (fst e)) ps [])) (snd e)) es.
Definition xopen (m : dmle F101) (c : list F101) (pt : list F101) (e : F101) (h : @hist F101) : option (unit * @hist F101) := Some (tt, h).
Definition xbopen (ms : list (dmle F101)) (cs : list (list F101)) (ps : list (list F101)) (es : list (nat * nat * F101)) (h : @hist F101) : option unit := Some tt.
Definition W : dmle F101 := mkMle (Base [z 3; z 1; z 4; z 1]) 2.
Definition Bi : dmle F101 := mkMle (Base [z 5; z 9]) 1.
Definition Q : dmle F101 := mkMle (Base [z 2; z 6; z 5; z 3]) 2.
Definition Tc : dmle F101 := mkMle (Base [z 1; z 2; z 3; z 4]) 2.
Local Open Scope string_scope. Local Open Scope list_scope.
Definition xnodes : list (nat * poly_action (dmle F101)) := [(0, SetPolys [("weight", W); ("bias", Bi)]); (1, ClearPolys); (2, SetPolys [("matrix", Q)])].
Definition xcols (t : table_type) : option (dmle F101) := match t with TGELU _ _ _ => Some Tc | _ => None end.
Definition gelu : table_type := TGELU 1 2 3.
Definition xctx : @cctx F101 (list F101) := match cctx_new xcommit (register xnodes) xcols [TRelu; gelu] with Some x => x | None => mkCctx [] [] end.
Definition xp : list F101 := [z 7; z 11].
Definition cw : @claim F101 := mkClaim xp (mle (vals W) xp).
Definition cb : @claim F101 := mkClaim [z 7] (mle (vals Bi) [z 7]).
Definition cq : @claim F101 := mkClaim xp (mle (vals Q) xp).
Definition ct : @claim F101 := mkClaim xp (mle (vals Tc) xp).
Definition xops : list (@pop F101 (list F101)) :=
  [POpCommon 2 [("matrix", cq)]; POpWitness (vals Bi) Bi cb; POpCommon 1 []; POpCommon 0 [("weight", cw); ("bias", cb)]; POpTable gelu ct].
Notation xstrip := (map (strip (fun c : list F101 => c))).
Definition accepted (ops : list (@vop F101 (list F101))) (p : unit * list unit) : bool :=
  match v_run 1 ops (v_new (fun c => c) xctx) with Some s => v_verify xverify xbatch s p [] | None => false end.
(** The names of a BTreeMap come in order; the table without committed columns has no commitment. *)
Example C43_ex_ctx : cctx_new xcommit (register xnodes) xcols [TRelu; gelu] = Some xctx /\ map (fun n => (fst n, map fst (snd n))) (cx_model xctx) = [(0, ["bias"; "weight"]); (2, ["matrix"])] /\
  map fst (cx_tables xctx) = [gelu].
Proof. repeat split; reflexivity. Qed.
(** The honest prover runs, two claims are trivial, and the verifier accepts; leaving one operation out, repeating one, leaving
    one claim out or changing a value makes it fail. *)
Example C43_ex_run :
  match p_run 1 xctx xops p_new with
  | Some ps => (length (ps_claims ps), length (ps_trivial ps)) = (3, 2) /\ p_prove xopen xbopen ps [] = Some (tt, [tt; tt])
  | None => False end /\ Forall (fits xctx) xops /\
  accepted (xstrip xops) (tt, [tt; tt]) = true /\ accepted (xstrip (tl xops)) (tt, [tt; tt]) = false /\
  accepted (xstrip (xops ++ [POpTable gelu ct])) (tt, [tt; tt]) = false /\ accepted (xstrip xops) (tt, [tt]) = false /\
  accepted [OpCommon 2 [("matrix", cq)]; OpCommon 0 [("weight", cw)]; OpTable gelu ct] (tt, []) = false /\
  accepted [OpCommon 2 [("matrix", mkClaim xp (z 1))]; OpCommon 0 [("weight", cw); ("bias", cb)]; OpTable gelu ct] (tt, [tt]) = false.
Proof.
  split; [vm_compute; auto|]. split; [|vm_compute; repeat split; reflexivity]. repeat constructor; cbn [fits].
  - intros polys id c m cl [E|[E|[]]]; [apply (f_equal fst) in E; discriminate E|]. apply (f_equal snd) in E; cbn [snd] in E; subst polys.
    intros [E|[]] [E2|[]]; apply (f_equal (fun y => snd (snd y))) in E; apply (f_equal snd) in E2; cbn [snd] in *; subst m cl; reflexivity.
  - intros polys id c m cl _ _ [].
  - intros polys id c m cl [E|[E|[]]]; [|apply (f_equal fst) in E; discriminate E]. apply (f_equal snd) in E; cbn [snd] in E; subst polys.
    intros [E|[E|[]]] [E2|[E2|[]]]; pose proof (f_equal fst E) as F1; pose proof (f_equal fst E2) as F2; cbn [fst] in F1, F2; try (rewrite <- F1 in F2; discriminate F2);
    apply (f_equal (fun y => snd (snd y))) in E; apply (f_equal snd) in E2; cbn [snd] in *; subst m cl; reflexivity.
  - intros c m [E|[]]. apply (f_equal (fun y => snd (snd y))) in E; cbn [snd] in *; subst m; reflexivity.
Qed.
Example C43_ex_maps : maps_ok xctx.
Proof. apply (new_maps_ok xcommit (register xnodes) xcols [TRelu; gelu] xctx); [reflexivity|]. repeat constructor; cbn [In]; intros H; repeat destruct H as [H|H]; try discriminate H; exact H. Qed.

(** The maps built from a model have distinct keys. *)
Theorem C43_maps :
  forall (K : field) (CW : Type) (pcs_commit : dmle K -> option CW)
    (polys : list (nat * list (string * dmle K))) (cols : table_type -> option (dmle K)) 
    (ts : list table_type) (x : cctx), cctx_new pcs_commit polys cols ts = Some x -> NoDup ts -> maps_ok x.
Proof. exact @new_maps_ok. Qed.
Print Assumptions C43_maps.

(** Committed are exactly the polynomials handed over, each under its node and name, and the tables with committed columns for which the commitment succeeds. *)
Theorem C43_contents :
  forall (K : field) (CW : Type) (pcs_commit : dmle K -> option CW)
    (polys : list (nat * list (string * dmle K))) (cols : table_type -> option (dmle K)) 
    (ts : list table_type) (x : cctx),
  cctx_new pcs_commit polys cols ts = Some x ->
  NoDup (map fst polys) ->
  (forall (n : nat) (l : list (string * dmle K)), In (n, l) polys -> NoDup (map fst l)) ->
  (forall n : nat, In n (map fst (cx_model x)) <-> In n (map fst polys)) /\
  (forall (n : nat) (id : string) (c : CW) (m : dmle K),
   (exists l : list (string * (CW * dmle K)), In (n, l) (cx_model x) /\ In (id, (c, m)) l) <->
   (exists l : list (string * dmle K), In (n, l) polys /\ In (id, m) l /\ pcs_commit m = Some c)) /\
  (forall (t : table_type) (c : CW) (m : dmle K),
   In (t, (c, m)) (cx_tables x) <-> In t ts /\ cols t = Some m /\ pcs_commit m = Some c).
Proof. exact @new_contents. Qed.
Print Assumptions C43_contents.

(** C43.  If the operations on the commitment verifier succeed and the opening proof is accepted, then every committed node got claims exactly once, each of its polynomials was opened at the claim given for it, every table commitment was opened exactly once, and every witness claim was opened. *)
Theorem C43_all_opened :
  forall (K : field) (CW Cm Prf : Type) (pure : CW -> Cm) (trivial_nv : nat)
    (pcs_verify : Cm -> list K -> K -> Prf -> bool)
    (pcs_batch_verify : list Cm -> list (list K) -> list (nat * nat * K) -> Prf -> hist -> bool) 
    (x : cctx) (ops : list vop) (s : vstate) (proof : Prf * list Prf) (h : hist),
  maps_ok x ->
  v_run trivial_nv ops (v_new pure x) = Some s ->
  v_verify pcs_verify pcs_batch_verify s proof h = true ->
  (forall (n : nat) (polys : list (string * (CW * dmle K))),
   In (n, polys) (cx_model x) ->
   exists (pre : list vop) (cls : list (string * claim)) (post : list vop),
     ops = pre ++ OpCommon n cls :: post /\
     cls <> [] /\
     (forall cls' : list (string * claim), In (OpCommon n cls') (pre ++ post) -> cls' = []) /\
     (forall (id : string) (cw : CW) (m : dmle K),
      In (id, (cw, m)) polys ->
      exists cl : claim, In (id, cl) cls /\ opened trivial_nv pcs_verify pcs_batch_verify proof h (pure cw) cl)) /\
  (forall (t : table_type) (cw : CW) (m : dmle K),
   In (t, (cw, m)) (cx_tables x) ->
   exists (pre : list vop) (cl : claim) (post : list vop),
     ops = pre ++ OpTable t cl :: post /\
     (forall cl' : claim, ~ In (OpTable t cl') (pre ++ post)) /\
     opened trivial_nv pcs_verify pcs_batch_verify proof h (pure cw) cl) /\
  (forall (c : Cm) (cl : claim),
   In (OpWitness c cl) ops -> opened trivial_nv pcs_verify pcs_batch_verify proof h c cl).
Proof. exact @all_opened. Qed.
Print Assumptions C43_all_opened.

(** Acceptance of the opening proof, exactly: one operation per node and table, and all claims put forward (read off the operations and the context) checked, the small ones one by one and the rest as one batch, in order. *)
Theorem C43_checked_exactly :
  forall (K : field) (CW Cm Prf : Type) (pure : CW -> Cm) (trivial_nv : nat)
    (pcs_verify : Cm -> list K -> K -> Prf -> bool)
    (pcs_batch_verify : list Cm -> list (list K) -> list (nat * nat * K) -> Prf -> hist -> bool) 
    (x : cctx) (ops : list vop) (s : vstate) (proof : Prf * list Prf) (h : hist),
  maps_ok x ->
  v_run trivial_nv ops (v_new pure x) = Some s ->
  let all := flat_map (op_claims (new_model pure x) (new_tables pure x)) ops in
  let small := filter (fun y : Cm * claim => negb (big trivial_nv y)) all in
  let large := filter (big trivial_nv) all in
  v_verify pcs_verify pcs_batch_verify s proof h = true <->
  (forall n : nat, In n (map fst (cx_model x)) -> count (uses_node n) ops = 1) /\
  (forall t : table_type, In t (map fst (cx_tables x)) -> count (uses_table t) ops = 1) /\
  Datatypes.length small = Datatypes.length (snd proof) /\
  (forall (i : nat) (c : Cm) (cl : claim) (pr : Prf),
   nth_error small i = Some (c, cl) ->
   nth_error (snd proof) i = Some pr -> pcs_verify c (cl_point cl) (cl_eval cl) pr = true) /\
  pcs_batch_verify (map fst large) (map (fun p : Cm * claim => cl_point (snd p)) large)
    (map (fun ip : nat * (Cm * claim) => (fst ip, fst ip, cl_eval (snd (snd ip))))
       (combine (seq 0 (Datatypes.length large)) large)) (fst proof) h = true.
Proof. exact @checked_exactly. Qed.
Print Assumptions C43_checked_exactly.

(** The operations succeed exactly when no node or table is used twice or unknown, and every polynomial of a node that gets claims has one. *)
Theorem C43_errors :
  forall (K : field) (CW Cm : Type) (pure : CW -> Cm) (trivial_nv : nat) (x : cctx) (ops : list vop),
  maps_ok x ->
  (exists s : vstate, v_run trivial_nv ops (v_new pure x) = Some s) <->
  (forall n : nat, count (uses_node n) ops <= (if assoc Nat.eqb n (cx_model x) then 1 else 0)) /\
  (forall t : table_type, count (uses_table t) ops <= (if assoc tt_eqb t (cx_tables x) then 1 else 0)) /\
  (forall (n : nat) (cls : list (string * claim)) (polys : list (string * (CW * dmle K))),
   In (OpCommon n cls) ops ->
   cls <> [] ->
   assoc Nat.eqb n (cx_model x) = Some polys -> forall id : string, In id (map fst polys) -> In id (map fst cls)).
Proof. exact @run_ok_iff. Qed.
Print Assumptions C43_errors.

(** A committed node without claims: every proof is rejected. *)
Theorem C43_omitted_node :
  forall (K : field) (CW Cm Prf : Type) (pure : CW -> Cm) (trivial_nv : nat)
    (pcs_verify : Cm -> list K -> K -> Prf -> bool)
    (pcs_batch_verify : list Cm -> list (list K) -> list (nat * nat * K) -> Prf -> hist -> bool) 
    (x : cctx) (ops : list vop) (s : vstate) (proof : Prf * list Prf) (h : hist) (n : nat),
  maps_ok x ->
  v_run trivial_nv ops (v_new pure x) = Some s ->
  In n (map fst (cx_model x)) ->
  (forall cls : list (string * claim), In (OpCommon n cls) ops -> cls = []) ->
  v_verify pcs_verify pcs_batch_verify s proof h = false.
Proof. exact @omitted_rejected. Qed.
Print Assumptions C43_omitted_node.

(** A committed table without claim: every proof is rejected. *)
Theorem C43_omitted_table :
  forall (K : field) (CW Cm Prf : Type) (pure : CW -> Cm) (trivial_nv : nat)
    (pcs_verify : Cm -> list K -> K -> Prf -> bool)
    (pcs_batch_verify : list Cm -> list (list K) -> list (nat * nat * K) -> Prf -> hist -> bool) 
    (x : cctx) (ops : list vop) (s : vstate) (proof : Prf * list Prf) (h : hist) (t : table_type),
  maps_ok x ->
  v_run trivial_nv ops (v_new pure x) = Some s ->
  In t (map fst (cx_tables x)) ->
  (forall cl : claim, ~ In (OpTable t cl) ops) -> v_verify pcs_verify pcs_batch_verify s proof h = false.
Proof. exact @omitted_table_rejected. Qed.
Print Assumptions C43_omitted_table.

(** C43 for the verifier of a whole model, when each layer makes claims only about witnesses and about its own node: an accepted proof opens every commitment of the model. *)
Theorem C43_model :
  forall (K : field) (CW Cm Prf : Type) (pure : CW -> Cm) (trivial_nv : nat)
    (pcs_verify : Cm -> list K -> K -> Prf -> bool)
    (pcs_batch_verify : list Cm -> list (list K) -> list (nat * nat * K) -> Prf -> hist -> bool) 
    (T : hist -> K) (esch : nat -> nat -> list nat) (FL : floats) (Ctx LP Sh : Type)
    (is_logits has_proof provable : Ctx -> bool) (lookup_data : LP -> option (list K * list K))
    (shape_steps : nodes -> list (list nat) -> option Sh)
    (layer_verify : nat ->
                    Ctx ->
                    option LP ->
                    list claim ->
                    list tensor -> Sh -> storage -> vstate -> hist -> option (list claim * (vstate * hist)))
    (B : nat) (special : Ctx -> option (list tensor -> list claim -> bool)),
  layers_own trivial_nv layer_verify ->
  forall (x : cctx) (order : list (nat * list nat) -> list (nat * list nat)) (c : vctx) 
    (pf : vproof) (ins outs : list tensor) (h : hist),
  maps_ok x ->
  verify_model T esch FL is_logits has_proof provable lookup_data shape_steps layer_verify B 
    (add_w trivial_nv) (add_t trivial_nv) special (v_new pure x) (open_all pcs_verify pcs_batch_verify) order c
    pf ins outs h = true ->
  exists (ops : list vop) (h' : hist),
    Forall (of_model provable (vc_nodes c) (vc_tables c)) ops /\
    (forall (n : nat) (polys : list (string * (CW * dmle K))),
     In (n, polys) (cx_model x) ->
     exists (pre : list vop) (cls : list (string * claim)) (post : list vop),
       ops = pre ++ OpCommon n cls :: post /\
       cls <> [] /\
       (forall cls' : list (string * claim), In (OpCommon n cls') (pre ++ post) -> cls' = []) /\
       (forall (id : string) (cw : CW) (m : dmle K),
        In (id, (cw, m)) polys ->
        exists cl : claim,
          In (id, cl) cls /\ opened trivial_nv pcs_verify pcs_batch_verify (vp_open pf) h' (pure cw) cl)) /\
    (forall (t : table_type) (cw : CW) (m : dmle K),
     In (t, (cw, m)) (cx_tables x) ->
     exists (pre : list vop) (cl : claim) (post : list vop),
       ops = pre ++ OpTable t cl :: post /\
       (forall cl' : claim, ~ In (OpTable t cl') (pre ++ post)) /\
       opened trivial_nv pcs_verify pcs_batch_verify (vp_open pf) h' (pure cw) cl) /\
    (forall (cm : Cm) (cl : claim),
     In (OpWitness cm cl) ops -> opened trivial_nv pcs_verify pcs_batch_verify (vp_open pf) h' cm cl).
Proof. exact @model_opened. Qed.
Print Assumptions C43_model.

(** Polynomials registered for a node without a verifier make every proof fail. *)
Theorem C43_foreign_node :
  forall (K : field) (CW Cm Prf : Type) (pure : CW -> Cm) (trivial_nv : nat)
    (pcs_verify : Cm -> list K -> K -> Prf -> bool)
    (pcs_batch_verify : list Cm -> list (list K) -> list (nat * nat * K) -> Prf -> hist -> bool) 
    (T : hist -> K) (esch : nat -> nat -> list nat) (FL : floats) (Ctx LP Sh : Type)
    (is_logits has_proof provable : Ctx -> bool) (lookup_data : LP -> option (list K * list K))
    (shape_steps : nodes -> list (list nat) -> option Sh)
    (layer_verify : nat ->
                    Ctx ->
                    option LP ->
                    list claim ->
                    list tensor -> Sh -> storage -> vstate -> hist -> option (list claim * (vstate * hist)))
    (B : nat) (special : Ctx -> option (list tensor -> list claim -> bool)),
  layers_own trivial_nv layer_verify ->
  forall (x : cctx) (order : list (nat * list nat) -> list (nat * list nat)) (c : vctx) 
    (pf : vproof) (ins outs : list tensor) (h : hist) (n : nat),
  maps_ok x ->
  In n (map fst (cx_model x)) ->
  (forall nd : node Ctx, get (vc_nodes c) n = Some nd -> provable (n_op nd) = false) ->
  verify_model T esch FL is_logits has_proof provable lookup_data shape_steps layer_verify B 
    (add_w trivial_nv) (add_t trivial_nv) special (v_new pure x) (open_all pcs_verify pcs_batch_verify) order c
    pf ins outs h = false.
Proof. exact @foreign_node_rejected. Qed.
Print Assumptions C43_foreign_node.

(** Completeness: the verifier that gets the same claims as the prover accepts, if every node and table gets its claims once, points have the length of their polynomials, the scheme is complete and trivial openings leave the transcript alone. *)
Theorem C43_complete :
  forall (K : field) (CW Cm Prf : Type) (pure : CW -> Cm) (trivial_nv : nat)
    (pcs_verify : Cm -> list K -> K -> Prf -> bool)
    (pcs_batch_verify : list Cm -> list (list K) -> list (nat * nat * K) -> Prf -> hist -> bool)
    (pcs_open : dmle K -> CW -> list K -> K -> hist -> option (Prf * hist))
    (pcs_batch_open : list (dmle K) -> list CW -> list (list K) -> list (nat * nat * K) -> hist -> option Prf)
    (x : cctx) (ops : list pop) (ps : pstate) (h : hist),
  maps_ok x ->
  p_run trivial_nv x ops p_new = Some ps ->
  Forall (fits x) ops ->
  (forall n : nat, In n (map fst (cx_model x)) -> count (uses_node n) (map (strip pure) ops) = 1) ->
  (forall t : table_type, In t (map fst (cx_tables x)) -> count (uses_table t) (map (strip pure) ops) = 1) ->
  (forall (c : CW) (m : dmle K) (cl : claim),
   In (c, m, cl) (ps_trivial ps) ->
   exists pr : Prf,
     pcs_open m c (cl_point cl) (cl_eval cl) h = Some (pr, h) /\
     pcs_verify (pure c) (cl_point cl) (cl_eval cl) pr = true) ->
  (exists b : Prf,
     pcs_batch_open (map (fun y : CW * dmle K * claim => snd (fst y)) (ps_claims ps))
       (map (fun y : CW * dmle K * claim => fst (fst y)) (ps_claims ps))
       (map (fun y : CW * dmle K * claim => cl_point (snd y)) (ps_claims ps))
       (map (fun iy : nat * (CW * dmle K * claim) => (fst iy, fst iy, cl_eval (snd (snd iy))))
          (combine (seq 0 (Datatypes.length (ps_claims ps))) (ps_claims ps))) h = Some b /\
     pcs_batch_verify (map (fun y : CW * dmle K * claim => pure (fst (fst y))) (ps_claims ps))
       (map (fun y : CW * dmle K * claim => cl_point (snd y)) (ps_claims ps))
       (map (fun iy : nat * (CW * dmle K * claim) => (fst iy, fst iy, cl_eval (snd (snd iy))))
          (combine (seq 0 (Datatypes.length (ps_claims ps))) (ps_claims ps))) b h = true) ->
  exists (proof : Prf * list Prf) (vs : vstate),
    p_prove pcs_open pcs_batch_open ps h = Some proof /\
    v_run trivial_nv (map (strip pure) ops) (v_new pure x) = Some vs /\
    v_verify pcs_verify pcs_batch_verify vs proof h = true.
Proof. exact @honest_accepted. Qed.
Print Assumptions C43_complete.

(** The hypotheses of the completeness theorem hold in the example. *)
Example C43_ex_complete : exists proof vs ps, p_run 1 xctx xops p_new = Some ps /\ p_prove xopen xbopen ps [] = Some proof /\
  v_run 1 (xstrip xops) (v_new (fun c => c) xctx) = Some vs /\ v_verify xverify xbatch vs proof [] = true.
Proof.
  destruct C43_ex_run as (_ & F & _). set (ps := mkPst [(vals Q, Q, cq); (vals W, W, cw); (vals Tc, Tc, ct)] [(vals Bi, Bi, cb); (vals Bi, Bi, cb)]).
  assert (E : p_run 1 xctx xops p_new = Some ps) by reflexivity.
  destruct (honest_accepted (fun c => c) 1 xverify xbatch xopen xbopen xctx xops ps [] C43_ex_maps E F) as (pf & vs & A1 & A2 & A3); [| | | |eauto 8].
  - intros n [<-|[<-|[]]]; reflexivity.
  - intros t0 [<-|[]]; reflexivity.
  - intros c m cl Hi. exists tt. split; [reflexivity|]. unfold xverify. destruct Hi as [Hi|[Hi|[]]]; pose proof (f_equal (fun y => fst (fst y)) Hi) as H1; pose proof (f_equal snd Hi) as H2; cbn [fst snd] in H1, H2; subst c cl; vm_compute; reflexivity.
  - exists tt. split; [reflexivity|]. vm_compute. reflexivity.
Qed.

(** What is not checked: claims for names that are not polynomials of the node are dropped silently; the resulting state is the same. *)
Theorem C43_extra_claims_ignored : forall (K : field) (CW Cm : Type) (pure : CW -> Cm) (trivial_nv : nat) (x : @cctx K CW) (ops1 : list (@vop K Cm)) (n : nat)
    (cls extra : list (string * @claim K)) (ops2 : list (@vop K Cm)) (s : @vstate K Cm),
  maps_ok x -> v_run trivial_nv (ops1 ++ OpCommon n cls :: ops2) (v_new pure x) = Some s -> cls <> [] ->
  v_run trivial_nv (ops1 ++ OpCommon n (cls ++ extra) :: ops2) (v_new pure x) = Some s.
Proof. exact @extra_dropped. Qed.
Print Assumptions C43_extra_claims_ignored.

Theorem C43_extra_claim_refuted : exists ops c, accepted ops (tt, [tt]) = true /\ In (OpCommon 2 [("matrix", cq); ("bias", c)]) ops /\ xverify (vals Bi) (cl_point c) (cl_eval c) tt = false.
Proof.
  exists [OpCommon 2 [("matrix", cq); ("bias", mkClaim [z 7] (z 0))]; OpCommon 0 [("weight", cw); ("bias", cb)]; OpTable gelu ct], (mkClaim [z 7] (z 0)).
  split; [vm_compute; reflexivity|]. split; [now left|vm_compute; reflexivity].
Qed.
Print Assumptions C43_extra_claim_refuted.

(** A failed call for a node still marks the node as used. *)
Theorem C43_failed_call_removes : forall (K : field) (Cm : Type) (trivial_nv n : nat) (cls : list (string * @claim K)) (s s' : @vstate K Cm),
  NoDup (map fst (vs_model s)) -> v_step trivial_nv (OpCommon n cls) s = (false, s') -> In n (map fst (vs_model s)) ->
  ~ In n (map fst (vs_model s')) /\ length (vs_model s') < length (vs_model s).
Proof. exact @failed_removes. Qed.
Print Assumptions C43_failed_call_removes.

(** So a caller that went on after the error would have the model accepted with both polynomials of node 0 unopened. *)
Theorem C43_ignored_error_refuted : exists s1 s2 s3, v_step 1 (OpCommon 0 [("nothing", cw)]) (v_new (fun c : list F101 => c) xctx) = (false, s1) /\
  v_step 1 (OpCommon 2 [("matrix", cq)]) s1 = (true, s2) /\ v_step 1 (OpTable gelu ct) s2 = (true, s3) /\ v_verify xverify xbatch s3 (tt, []) [] = true /\
  ~ In (vals W) (map fst (vs_claims s3 ++ vs_trivial s3)).
Proof.
  do 3 eexists. split; [reflexivity|]. split; [reflexivity|]. split; [reflexivity|]. split; [vm_compute; reflexivity|].
  intros [H|[H|[]]]; apply (f_equal (fun l => fpv 101 (hd (z 0) l))) in H; vm_compute in H; discriminate H.
Qed.
Print Assumptions C43_ignored_error_refuted.

(** Registration: a node is registered with the polynomials its layer sets; and also, with none, if its layer does not touch the field and the last layer that did has set polynomials. *)
Theorem C43_registered :
  forall (P : Type) (nodes : list (nat * poly_action P)) (id : nat) (l : list (string * P)),
  In (id, l) (register nodes) <->
  In (id, SetPolys l) nodes \/
  l = [] /\
  (exists
     (pre : list (nat * poly_action P)) (id0 : nat) (l0 : list (string * P)) (mid
                                                                              post : 
                                                                              list (nat * poly_action P)),
     nodes = pre ++ (id0, SetPolys l0) :: mid ++ (id, LeavePolys) :: post /\
     (forall n : nat * poly_action P, In n mid -> snd n = LeavePolys)).
Proof. exact @registered. Qed.
Print Assumptions C43_registered.

(** In the second case no proof of the model is ever accepted, however honest. *)
Theorem C43_leftover_rejected :
  forall (K : field) (CW Cm Prf : Type) (pure : CW -> Cm) (trivial_nv : nat) (pcs_commit : dmle K -> option CW)
    (pcs_verify : Cm -> list K -> K -> Prf -> bool)
    (pcs_batch_verify : list Cm -> list (list K) -> list (nat * nat * K) -> Prf -> hist -> bool)
    (nodes pre : list (nat * poly_action (dmle K))) (i : nat) (l : list (string * dmle K))
    (mid : list (nat * poly_action (dmle K))) (j : nat) (post : list (nat * poly_action (dmle K)))
    (cols : table_type -> option (dmle K)) (ts : list table_type) (x : cctx) (ops : list vop) 
    (s : vstate) (proof : Prf * list Prf) (h : hist),
  NoDup (map fst nodes) ->
  NoDup ts ->
  (forall (n : nat) (q : list (string * dmle K)), In (n, SetPolys q) nodes -> NoDup (map fst q)) ->
  nodes = pre ++ (i, SetPolys l) :: mid ++ (j, LeavePolys) :: post ->
  (forall n : nat * poly_action (dmle K), In n mid -> snd n = LeavePolys) ->
  cctx_new pcs_commit (register nodes) cols ts = Some x ->
  (forall cls : list (string * claim), In (OpCommon j cls) ops -> cls = []) ->
  v_run trivial_nv ops (v_new pure x) = Some s -> v_verify pcs_verify pcs_batch_verify s proof h = false.
Proof. exact @leftover_rejected. Qed.
Print Assumptions C43_leftover_rejected.

(** Embeddings followed by a reshape: the operations all succeed, yet the opening proof is rejected. *)
Definition ynodes : list (nat * poly_action (dmle F101)) := [(0, SetPolys [("matrix", Q)]); (1, LeavePolys); (2, ClearPolys)].
Definition yctx : @cctx F101 (list F101) := match cctx_new xcommit (register ynodes) xcols [] with Some x => x | None => mkCctx [] [] end.
Theorem C43_empty_registration_refuted : cctx_new xcommit (register ynodes) xcols [] = Some yctx /\ map fst (cx_model yctx) = [0; 1] /\
  exists s, v_run 1 [OpCommon 1 []; OpCommon 0 [("matrix", cq)]] (v_new (fun c : list F101 => c) yctx) = Some s /\ (forall proof h, v_verify xverify xbatch s proof h = false) /\
  xverify (vals Q) (cl_point cq) (cl_eval cq) tt = true.
Proof. split; [reflexivity|]. split; [reflexivity|]. eexists. split; [reflexivity|]. split; [intros proof h; reflexivity|vm_compute; reflexivity]. Qed.
Print Assumptions C43_empty_registration_refuted.

(** A table whose commitment fails has none in the context, and no error is reported. *)
Theorem C43_dropped_table :
  forall (K : field) (CW : Type) (pcs_commit : dmle K -> option CW)
    (polys : list (nat * list (string * dmle K))) (cols : table_type -> option (dmle K)) 
    (ts : list table_type) (x : cctx) (t : table_type) (m : dmle K),
  cctx_new pcs_commit polys cols ts = Some x ->
  cols t = Some m -> pcs_commit m = None -> ~ In t (map fst (cx_tables x)).
Proof. exact @dropped_table. Qed.
Print Assumptions C43_dropped_table.

