(** Model of the data-parallel sumcheck prover [prove_parallel] (sumcheck/src/prover.rs:494-742), the
    one called by every zkml layer, with the parallel variant of the generated round code
    (sumcheck_macro/src/lib.rs, [parallalize = true]).

    Rayon splits an indexed iterator into contiguous segments and combines the partial results along
    a binary tree.  The tree is an argument of the model, one per parallel loop. *)
From Coq Require Import List Arith Lia Bool ZArith.
From Verif Require Import ListAux FieldDef M_Mle M_Interp M_Sumcheck.
Import ListNotations.

Inductive ptree (A : Type) := PLeaf (seg : list A) | PNode (l r : ptree A).
Arguments PLeaf {A}. Arguments PNode {A}.
Fixpoint flat {A} (t : ptree A) : list A :=
  match t with PLeaf s => s | PNode l r => flat l ++ flat r end.

Section Par.
Context {K : field}.
Local Open Scope F_scope.

(** [.map(row).sum::<AdditiveArray<_, n>>()] over a parallel iterator. *)
Fixpoint par_array_sum (n : nat) (row : nat -> list K) (t : ptree nat) : list K :=
  match t with
  | PLeaf s => array_sum n (map row s)
  | PNode l r => vec_add (par_array_sum n row l) (par_array_sum n row r)
  end.
(** sumcheck_macro/src/lib.rs:221-249 with [parallalize = true]: [t] splits the even indices. *)
Definition cg_sum_par (t : ptree nat) (nv round : nat) (vs : list (list K)) : option (list K) :=
  match vs with
  | [] => None
  | v1 :: _ =>
      if forallb (fun v => Nat.leb (length v1) (length v)) vs && Nat.ltb 0 (length v1) then
        let d := length vs in
        let res := if Nat.eqb (length v1) 1
                   then repeat (nth 0 (cg_row vs 0) 0) (d + 1)
                   else par_array_sum (d + 1) (cg_row vs) t in
        lg <- ceil_log2 (length v1) ;;
        let used := (Nat.max lg 1 + round - 1)%nat in
        if Nat.ltb nv used then None
        else let mult := (nv - used)%nat in
             Some (if Nat.ltb 0 mult then map (fun e => e * fnat (2 ^ mult)) res else res)
      else None
  end.

(** Schedule of one round: [rs_fix i] the task order of the in-place fold of table [i],
    [rs_sum q] the reduction tree of product number [q], [rs_prods] the tree over the products. *)
Record rsched := mkRs {
  rs_fix : nat -> list nat;
  rs_sum : nat -> ptree nat;
  rs_prods : ptree nat }.

(** prover.rs:700-729: contribution of product number [q]. *)
Definition product_contrib_par (ncpus : nat) (sc : rsched) (s : pstate) (q : nat) : option (list K) :=
  prod <- nth_error (vp_products (ps_poly s)) q ;;
  let '(c, ix) := prod in
  let d := length ix in
  let deg := vp_deg (ps_poly s) in
  if Nat.ltb 5 d then None
  else
    slices <- omapM (fun i => m <- nth_error (vp_mles (ps_poly s)) i ;; op_slice m) ix ;;
    sum0 <- cg_sum_par (rs_sum sc q) (vp_nv (ps_poly s)) (ps_round s) slices ;;
    let sum := map (fun x => x * c) sum0 in
    if Nat.ltb deg d then None
    else
      ext <- omapM (fun i => aux <- nth_error (ps_aux s) (d - 1) ;;
                             inner_extrapolate (Some ncpus) (fst aux) (snd aux) sum (fnat (d + 1 + i)))
                   (seq 0 (deg - d)) ;;
      Some (sum ++ ext).
(** prover.rs:694-733: [par_iter().fold_with(zeros, ..).reduce_with(+).unwrap()]. *)
Fixpoint round_message_tree (ncpus : nat) (sc : rsched) (s : pstate) (t : ptree nat) : option (list K) :=
  match t with
  | PLeaf seg => ofold (fun acc q => x <- product_contrib_par ncpus sc s q ;; Some (vec_add acc x))
                       seg (repeat 0 (vp_deg (ps_poly s) + 1))
  | PNode l r => a <- round_message_tree ncpus sc s l ;; b <- round_message_tree ncpus sc s r ;;
                 Some (vec_add a b)
  end.

(** prover.rs:659-684 *)
Definition fix_first_par (r : K) (m : dmle K) : option (dmle K) :=
  if Nat.ltb 0 (num_vars m) then fix_variables_parallel (fun _ => []) m [r] else None.
Definition fix_later_par (order : list nat) (r : K) (m : dmle K) : option (dmle K) :=
  if Nat.ltb 0 (num_vars m) then fix_variables_in_place_parallel (fun _ => order) m [r] else Some m.
Definition omapi {A B} (f : nat -> A -> option B) (l : list A) : option (list B) :=
  omapM (fun ia => f (fst ia) (snd ia)) (combine (seq 0 (length l)) l).

(** prover.rs:625-741 [prove_round_and_update_state_parallel]. *)
Definition prove_round_par (ncpus : nat) (sc : rsched) (s : pstate) (chal : option K)
  : option (list K * pstate) :=
  if Nat.ltb (ps_round s) (vp_nv (ps_poly s)) then
    s1 <- (if Nat.eqb (ps_round s) 0
           then match chal with None => Some s | Some _ => None end
           else match chal with
                | None => None
                | Some c =>
                    let chals := ps_chals s ++ [c] in
                    r <- nth_error chals (ps_round s - 1) ;;
                    ms <- (if Nat.eqb (length chals) 1
                           then omapM (fix_first_par r) (vp_mles (ps_poly s))
                           else omapi (fun i => fix_later_par (rs_fix sc i) r) (vp_mles (ps_poly s))) ;;
                    Some (mkPs chals (ps_round s) (with_mles (ps_poly s) ms) (ps_aux s))
                end) ;;
    let s2 := mkPs (ps_chals s1) (S (ps_round s1)) (ps_poly s1) (ps_aux s1) in
    msg <- round_message_tree ncpus sc s2 (rs_prods sc) ;;
    Some (msg, s2)
  else None.

Fixpoint par_rounds (T : hist -> K) (ncpus n i : nat) (scs : nat -> rsched) (s : pstate)
  (chal : option K) (h : hist) (msgs : list (list K)) : option (pstate * option K * hist * list (list K)) :=
  match n with
  | O => Some (s, chal, h, msgs)
  | S n' =>
      r <- prove_round_par ncpus (scs i) s chal ;;
      let '(c, h') := get_challenge T lbl_round (absorb h (fst r)) in
      par_rounds T ncpus n' (S i) scs (snd r) (Some c) h' (msgs ++ [fst r])
  end.

(** prover.rs:496-585 [prove_parallel] with [prover_init_parallel] (587-614).  [scs i] is the
    schedule of round [i]. *)
Definition prove_parallel (T : hist -> K) (ncpus : nat) (scs : nat -> rsched) (p : vp) (h : hist)
  : option (proof * pstate * hist) :=
  let nv := vp_nv p in
  if Nat.eqb nv 0 then Some (mkProof [] [], mkPs [] 0 p [], h)
  else
    let h0 := EvBytes (le_bytes8 (vp_deg p)) :: EvBytes (le_bytes8 nv) :: h in
    aux <- extrapolation_aux ncpus (vp_deg p) ;;
    r1 <- par_rounds T ncpus nv 0 scs (mkPs [] 0 p aux) None h0 [] ;;
    let '(s1, chal, h1, msgs) := r1 in
    s <- finish (finish_main nv) chal s1 ;;
    Some (mkProof (ps_chals s) msgs, s, h1).
End Par.
