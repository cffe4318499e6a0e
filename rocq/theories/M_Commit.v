(** Model of the commitments of a model (zkml/src/commit/context.rs) and of the registration of the polynomials of the nodes
    (zkml/src/iop/context.rs:217-303).  Citations of context.rs without a directory are to the former.

    The commitment scheme is a section parameter: commitments [CW] with witness and [Cm] without, proofs [Prf], and the functions
    of mpcs/src/lib.rs:111-226 that are used here.  Maps are association lists; a BTreeMap is kept in the order of its keys and
    the order of a HashMap is never observed.  Every operation returns the new state also when it fails, because the code has
    changed it by then. *)
From Coq Require Import String.
From Coq Require Import List Arith Bool ZArith.
From Verif Require Import ListAux FieldDef M_Mle M_Sumcheck M_SamePoly M_Tables.
Import ListNotations.

(** ** Maps *)
Section Maps.
Context {A V : Type} (cmp : A -> A -> comparison).
(** BTreeMap::insert: a present key gets the new value. *)
Fixpoint bt_insert (k : A) (v : V) (l : list (A * V)) : list (A * V) :=
  match l with
  | [] => [(k, v)]
  | (k', v') :: t => match cmp k k' with Lt => (k, v) :: l | Eq => (k, v) :: t | Gt => (k', v') :: bt_insert k v t end
  end.
(** FromIterator: inserts in order. *)
Definition bt_collect (l : list (A * V)) : list (A * V) := fold_left (fun m kv => bt_insert (fst kv) (snd kv) m) l [].
Definition key_eqb (a b : A) : bool := match cmp a b with Eq => true | _ => false end.
Fixpoint m_get (k : A) (l : list (A * V)) : option V :=
  match l with [] => None | (k', v) :: t => if key_eqb k k' then Some v else m_get k t end.
(** BTreeMap::remove, HashMap::remove. *)
Fixpoint m_remove (k : A) (l : list (A * V)) : option (V * list (A * V)) :=
  match l with
  | [] => None
  | (k', v) :: t => if key_eqb k k' then Some (v, t) else r <- m_remove k t ;; Some (fst r, (k', v) :: snd r)
  end.
End Maps.

Definition tt_cmp (eqb : table_type -> table_type -> bool) (a b : table_type) : comparison := if eqb a b then Eq else Lt.
(** Derived equality of [TableType] (lookup/context.rs:53). *)
Definition tt_eqb (a b : table_type) : bool :=
  match a, b with
  | TRelu, TRelu | TRange, TRange => true
  | TGELU a1 a2 a3, TGELU b1 b2 b3 => Z.eqb a1 b1 && Z.eqb a2 b2 && Z.eqb a3 b3
  | TClamping a1, TClamping b1 => Nat.eqb a1 b1
  | TSoftmax a1 a2 a3, TSoftmax b1 b2 b3 => Z.eqb a1 b1 && Nat.eqb a2 b2 && Z.eqb a3 b3
  | TError a1 a2, TError b1 b2 => Z.eqb a1 b1 && Z.eqb a2 b2
  | TZero a1, TZero b1 => Nat.eqb a1 b1
  | TInvSqrt a1 a2, TInvSqrt b1 b2 => Z.eqb a1 b1 && Nat.eqb a2 b2
  | _, _ => false
  end.

(** ** Registration *)
(** What the [step_info] of a layer does to [ContextAux::model_polys]: assigns polynomials (dense.rs:222-227,
    convolution.rs:535-540, ...), assigns None (activation.rs:188, requant.rs:169, ...), or leaves the field as it is
    (flatten.rs:62-67, reshape.rs:227-235, add.rs:505-525 without an operand, logits.rs, concat_matmul.rs). *)
Inductive poly_action (P : Type) := SetPolys (l : list (string * P)) | ClearPolys | LeavePolys.
Arguments SetPolys {P}. Arguments ClearPolys {P}. Arguments LeavePolys {P}.
Definition step_polys {P} (a : poly_action P) (aux : option (list (string * P))) : option (list (string * P)) :=
  match a with SetPolys l => Some l | ClearPolys => None | LeavePolys => aux end.
(** iop/context.rs:270-292: [drain] empties the map but leaves it in the auxiliary data. *)
Definition register_node {P} (id : nat) (a : poly_action P) (s : option (list (string * P)) * list (nat * list (string * P)))
  : option (list (string * P)) * list (nat * list (string * P)) :=
  match step_polys a (fst s) with
  | Some l => (Some [], snd s ++ [(id, l)])
  | None => (None, snd s)
  end.
(** iop/context.rs:127-132, 145-155, 175-186. *)
Definition register {P} (nodes : list (nat * poly_action P)) : list (nat * list (string * P)) :=
  snd (fold_left (fun s n => register_node (fst n) (snd n) s) nodes (None, [])).

Section Commit.
Context {K : field} {CW Cm Prf : Type}.
Context (pure : CW -> Cm) (trivial_nv : nat) (pcs_commit : dmle K -> option CW).
(** [Cm -> point -> eval -> proof]: acceptance by [PCS::verify] with a default transcript. *)
Context (pcs_verify : Cm -> list K -> K -> Prf -> bool).
Context (pcs_batch_verify : list Cm -> list (list K) -> list (nat * nat * K) -> Prf -> @hist K -> bool).
Context (pcs_open : dmle K -> CW -> list K -> K -> @hist K -> option (Prf * @hist K)).
Context (pcs_batch_open : list (dmle K) -> list CW -> list (list K) -> list (nat * nat * K) -> @hist K -> option Prf).

(** context.rs:36-50 [CommitmentContext]. *)
Record cctx := mkCctx { cx_model : list (nat * list (string * (CW * dmle K))); cx_tables : list (table_type * (CW * dmle K)) }.
(** context.rs:79-103. *)
Definition commit_node (n : nat * list (string * dmle K)) : option (nat * list (string * (CW * dmle K))) :=
  l <- omapM (fun ip => c <- pcs_commit (snd ip) ;; Some (fst ip, (c, snd ip))) (snd n) ;;
  Some (fst n, bt_collect String.compare l).
(** context.rs:105-107: a table whose commitment fails is left out. *)
Definition commit_tables (cols : table_type -> option (dmle K)) (ts : list table_type) : list (table_type * (CW * dmle K)) :=
  flat_map (fun t => match cols t with
                     | Some p => match pcs_commit p with Some c => [(t, (c, p))] | None => [] end
                     | None => [] end) ts.
(** context.rs:117-163 [new_with_params]; [new] (59-115) first computes the parameters. *)
Definition cctx_new (polys : list (nat * list (string * dmle K))) (cols : table_type -> option (dmle K)) (ts : list table_type) : option cctx :=
  m <- omapM commit_node polys ;;
  Some (mkCctx (bt_collect Nat.compare m) (commit_tables cols ts)).

(** ** Verifier *)
(** context.rs:424-434 [CommitmentVerifier]. *)
Record vstate := mkVst { vs_model : list (nat * list (string * Cm)); vs_tables : list (table_type * Cm);
                         vs_claims : list (Cm * @claim K); vs_trivial : list (Cm * @claim K) }.
(** context.rs:443-470 [new]. *)
Definition v_new (c : cctx) : vstate :=
  mkVst (map (fun n => (fst n, map (fun ip => (fst ip, pure (fst (snd ip)))) (snd n))) (cx_model c))
        (map (fun t => (fst t, pure (fst (snd t)))) (cx_tables c)) [] [].
(** context.rs:472-484 [add_witness_claim]. *)
Definition v_witness (c : Cm) (cl : @claim K) (s : vstate) : vstate :=
  if length (cl_point cl) <=? trivial_nv
  then mkVst (vs_model s) (vs_tables s) (vs_claims s) (vs_trivial s ++ [(c, cl)])
  else mkVst (vs_model s) (vs_tables s) (vs_claims s ++ [(c, cl)]) (vs_trivial s).
(** context.rs:501-508: stops at the first polynomial without a claim. *)
Fixpoint v_node_claims (polys : list (string * Cm)) (claims : list (string * @claim K)) (s : vstate) : bool * vstate :=
  match polys with
  | [] => (true, s)
  | (id, c) :: t =>
      match m_remove String.compare id claims with
      | None => (false, s)
      | Some (cl, rest) => v_node_claims t rest (v_witness c cl s)
      end
  end.
(** context.rs:486-509 [add_common_claims]. *)
Definition v_common (node : nat) (claims : list (string * @claim K)) (s : vstate) : bool * vstate :=
  match claims with
  | [] => (true, s)
  | _ => match m_remove Nat.compare node (vs_model s) with
         | None => (false, s)
         | Some (polys, rest) => v_node_claims polys claims (mkVst rest (vs_tables s) (vs_claims s) (vs_trivial s))
         end
  end.
(** context.rs:511-519 [add_table_claim]. *)
Definition v_table (t : table_type) (cl : @claim K) (s : vstate) : bool * vstate :=
  match m_remove (tt_cmp tt_eqb) t (vs_tables s) with
  | None => (false, s)
  | Some (c, rest) => (true, v_witness c cl (mkVst (vs_model s) rest (vs_claims s) (vs_trivial s)))
  end.
Inductive vop := OpWitness (c : Cm) (cl : @claim K) | OpCommon (node : nat) (claims : list (string * @claim K)) | OpTable (t : table_type) (cl : @claim K).
Definition v_step (o : vop) (s : vstate) : bool * vstate :=
  match o with
  | OpWitness c cl => (true, v_witness c cl s)
  | OpCommon n cls => v_common n cls s
  | OpTable t cl => v_table t cl s
  end.
(** Callers propagate the first error ([?]). *)
Fixpoint v_run (ops : list vop) (s : vstate) : option vstate :=
  match ops with
  | [] => Some s
  | o :: t => match v_step o s with (true, s') => v_run t s' | (false, _) => None end
  end.
(** context.rs:542-555. *)
Definition batch_parts (l : list (Cm * @claim K)) : list Cm * list (list K) * list (nat * nat * K) :=
  (map fst l, map (fun p => cl_point (snd p)) l, map (fun ip => (fst ip, fst ip, cl_eval (snd (snd ip)))) (combine (seq 0 (length l)) l)).
(** context.rs:521-599 [verify]; [proof] is the batch proof and the trivial proofs. *)
Definition v_verify (s : vstate) (proof : Prf * list Prf) (h : @hist K) : bool :=
  match vs_model s, vs_tables s with
  | [], [] =>
      let '(comms, points, evals) := batch_parts (vs_claims s) in
      (length (vs_trivial s) =? length (snd proof)) &&
      forallb (fun cp => pcs_verify (fst (fst cp)) (cl_point (snd (fst cp))) (cl_eval (snd (fst cp))) (snd cp)) (combine (vs_trivial s) (snd proof)) &&
      pcs_batch_verify comms points evals (fst proof) h
  | _, _ => false
  end.

(** ** Prover *)
(** context.rs:197-206, 262-274. *)
Record pstate := mkPst { ps_claims : list (CW * dmle K * @claim K); ps_trivial : list (CW * dmle K * @claim K) }.
Definition p_new : pstate := mkPst [] [].
(** context.rs:290-309 [add_witness_claim]. *)
Definition p_witness (c : CW) (m : dmle K) (cl : @claim K) (s : pstate) : pstate :=
  if num_vars m <=? trivial_nv
  then mkPst (ps_claims s) (ps_trivial s ++ [(c, m, cl)])
  else mkPst (ps_claims s ++ [(c, m, cl)]) (ps_trivial s).
(** context.rs:325-332. *)
Fixpoint p_node_claims (polys : list (string * (CW * dmle K))) (claims : list (string * @claim K)) (s : pstate) : option pstate :=
  match polys with
  | [] => Some s
  | (id, (c, m)) :: t => r <- m_remove String.compare id claims ;; p_node_claims t (snd r) (p_witness c m (fst r) s)
  end.
(** context.rs:311-333 [add_common_claims]. *)
Definition p_common (x : cctx) (node : nat) (claims : list (string * @claim K)) (s : pstate) : option pstate :=
  match claims with [] => Some s | _ => polys <- m_get Nat.compare node (cx_model x) ;; p_node_claims polys claims s end.
(** context.rs:336-352 [add_table_claim]. *)
Definition p_table (x : cctx) (t : table_type) (cl : @claim K) (s : pstate) : option pstate :=
  cm <- m_get (tt_cmp tt_eqb) t (cx_tables x) ;; Some (p_witness (fst cm) (snd cm) cl s).
Inductive pop := POpWitness (c : CW) (m : dmle K) (cl : @claim K) | POpCommon (node : nat) (claims : list (string * @claim K)) | POpTable (t : table_type) (cl : @claim K).
Definition p_step (x : cctx) (o : pop) (s : pstate) : option pstate :=
  match o with
  | POpWitness c m cl => Some (p_witness c m cl s)
  | POpCommon n cls => p_common x n cls s
  | POpTable t cl => p_table x t cl s
  end.
Definition p_run (x : cctx) (ops : list pop) (s : pstate) : option pstate := ofold (fun s o => p_step x o s) ops s.
(** context.rs:385-405. *)
Fixpoint p_open_trivial (l : list (CW * dmle K * @claim K)) (h : @hist K) : option (list Prf * @hist K) :=
  match l with
  | [] => Some ([], h)
  | (c, m, cl) :: t =>
      r <- pcs_open m c (cl_point cl) (cl_eval cl) h ;;
      r' <- p_open_trivial t (snd r) ;;
      Some (fst r :: fst r', snd r')
  end.
(** context.rs:354-418 [prove]. *)
Definition p_prove (s : pstate) (h : @hist K) : option (Prf * list Prf) :=
  let l := ps_claims s in
  t <- p_open_trivial (ps_trivial s) h ;;
  b <- pcs_batch_open (map (fun x => snd (fst x)) l) (map (fun x => fst (fst x)) l) (map (fun x => cl_point (snd x)) l)
         (map (fun ix => (fst ix, fst ix, cl_eval (snd (snd ix)))) (combine (seq 0 (length l)) l)) (snd t) ;;
  Some (b, fst t).
End Commit.
