(** Model of the sumcheck protocol: multilinear_extensions/src/virtual_poly.rs (virtual
    polynomials), sumcheck/src/verifier.rs, sumcheck/src/prover.rs and the round code generated by
    sumcheck_macro/src/lib.rs.

    The Fiat-Shamir transcript is a history of absorbed items (newest first) together with an
    arbitrary function [T] from histories to challenges. *)
From Coq Require Import List Arith Lia Bool ZArith.
From Verif Require Import ListAux FieldDef M_Mle M_Interp.
Import ListNotations.

Section Sumcheck.
Context {K : field}.
Local Open Scope F_scope.

(** ** Transcript (transcript/src/lib.rs:15-93) *)
Inductive ev := EvBytes (l : list Z) | EvFelt (x : K) | EvSample.
Definition hist := list ev.
Definition absorb (h : hist) (xs : list K) : hist := rev (map EvFelt xs) ++ h.
Definition le_bytes8 (n : nat) : list Z :=
  map (fun i => (Z.of_nat n / 256 ^ Z.of_nat i) mod 256)%Z (seq 0 8).
(** b"Internal round" *)
Definition lbl_round : list Z :=
  [73; 110; 116; 101; 114; 110; 97; 108; 32; 114; 111; 117; 110; 100]%Z.
(** transcript/src/lib.rs:70-78 [get_and_append_challenge]: append the label, then sample. *)
Definition get_challenge (T : hist -> K) (label : list Z) (h : hist) : K * hist :=
  let h1 := EvBytes label :: h in (T h1, EvSample :: h1).

(** ** Virtual polynomials (virtual_poly.rs:50-72) *)
Record vp := mkVp {
  vp_deg : nat;                       (* aux_info.max_degree *)
  vp_nv : nat;                        (* aux_info.max_num_variables *)
  vp_products : list (K * list nat);
  vp_mles : list (dmle K)            (* flattened_ml_extensions *)
}.
(** virtual_poly.rs:105-117 [new]. *)
Definition vp_new (nv : nat) : vp := mkVp 0 nv [] [].

(** virtual_poly.rs:147-180 [add_mle_list].  Every argument carries the address of its [Arc]; [tbl]
    is raw_pointers_lookup_table. *)
Definition ptr_tbl := list (nat * nat).
Fixpoint tbl_get (t : ptr_tbl) (p : nat) : option nat :=
  match t with [] => None | (q, i) :: r => if Nat.eqb p q then Some i else tbl_get r p end.
Definition add_one (s : ptr_tbl * list (dmle K) * list nat) (pm : nat * dmle K) :=
  let '(t, ms, ix) := s in
  match tbl_get t (fst pm) with
  | Some i => (t, ms, ix ++ [i])
  | None => ((fst pm, length ms) :: t, ms ++ [snd pm], ix ++ [length ms])
  end.
Definition add_mle_list (t : ptr_tbl) (p : vp) (l : list (nat * dmle K)) (c : K)
  : option (ptr_tbl * vp) :=
  match l with
  | [] => None
  | m0 :: _ =>
      if forallb (fun pm => Nat.leb (num_vars (snd pm)) (vp_nv p)) l
         && forallb (fun pm => Nat.eqb (num_vars (snd pm)) (num_vars (snd m0))) l
      then let '(t', ms, ix) := fold_left add_one l (t, vp_mles p, []) in
           Some (t', mkVp (Nat.max (vp_deg p) (length l)) (vp_nv p) (vp_products p ++ [(c, ix)]) ms)
      else None
  end.

(** A sequence of [add_mle_list] calls.  Each term is a coefficient and the addresses of the
    multiplied tables; [heap] gives the table stored at an address. *)
Fixpoint build (heap : nat -> dmle K) (terms : list (K * list nat)) (tp : ptr_tbl * vp) : option (ptr_tbl * vp) :=
  match terms with
  | [] => Some tp
  | (c, ps) :: r => tp' <- add_mle_list (fst tp) (snd tp) (map (fun a => (a, heap a)) ps) c ;; build heap r tp'
  end.

(** virtual_poly.rs:237-264 [evaluate]; [sched n] schedules the parallel evaluation of an [n]-variable
    table. *)
Definition vp_evaluate (sched : nat -> nat -> list nat) (p : vp) (pt : list K) : option K :=
  if Nat.eqb (vp_nv p) (length pt) then
    evals <- omapM (fun m => if Nat.leb (num_vars m) (length pt)
                             then evaluate (sched (num_vars m)) m (firstn (num_vars m) pt) else None) (vp_mles p) ;;
    terms <- omapM (fun '(c, ix) =>
               fs <- omapM (fun i => nth_error evals i) ix ;;
               Some (fold_left fmul fs 1 * c)) (vp_products p) ;;
    Some (fold_left fadd terms 0)
  else None.

(** ** Verifier (verifier.rs) *)
Record proof := mkProof { pf_point : list K; pf_proofs : list (list K) }.
Record vstate := mkVs {
  vs_round : nat; vs_nv : nat; vs_deg : nat; vs_finished : bool;
  vs_polys : list (list K); vs_chals : list K }.

(** verifier.rs:45-58 [verifier_init]. *)
Definition verifier_init (nv deg : nat) : vstate := mkVs 1 nv deg false [] [].

(** verifier.rs:66-102 [verify_round_and_update_state]. *)
Definition verify_round (T : hist -> K) (s : vstate) (msg : list K) (h : hist) : option (vstate * hist) :=
  if vs_finished s then None
  else
    let '(r, h') := get_challenge T lbl_round h in
    let fin := Nat.eqb (vs_round s) (vs_nv s) in
    Some (mkVs (if fin then vs_round s else S (vs_round s)) (vs_nv s) (vs_deg s) fin
               (vs_polys s ++ [msg]) (vs_chals s ++ [r]), h').

(** verifier.rs:112-168 [check_and_generate_subclaim]: first all interpolations (panicking on a
    wrong length), then the deferred consistency checks. *)
Definition check_and_generate_subclaim (s : vstate) (asserted : K) : option (list K * K) :=
  if negb (vs_finished s) then None
  else if negb (Nat.eqb (length (vs_polys s)) (vs_nv s)) then None
  else
    exps <- omapM (fun '(evs, r) =>
              if Nat.eqb (length evs) (vs_deg s + 1) then interpolate_uni_poly evs r else None)
              (combine (vs_polys s) (vs_chals s)) ;;
    let expected := asserted :: exps in
    _ <- omapM (fun '(evs, e) =>
           match nth_error evs 0, nth_error evs 1 with
           | Some a, Some b => if a + b =? e then Some tt else None
           | _, _ => None
           end) (firstn (vs_nv s) (combine (vs_polys s) expected)) ;;
    last <- nth_error expected (vs_nv s) ;;
    Some (vs_chals s, last).

(** verifier.rs:12-43 [verify]. *)
Definition verify_step (T : hist -> K) (pf : proof) (sh : vstate * hist) (i : nat)
  : option (vstate * hist) :=
  msg <- nth_error (pf_proofs pf) i ;;
  verify_round T (fst sh) msg (absorb (snd sh) msg).
Definition verify (T : hist -> K) (claimed : K) (pf : proof) (nv deg : nat) (h : hist)
  : option (list K * K * hist) :=
  if Nat.eqb nv 0 then Some ([], claimed, h)
  else
    let h0 := EvBytes (le_bytes8 deg) :: EvBytes (le_bytes8 nv) :: h in
    sh <- ofold (verify_step T pf) (seq 0 nv) (verifier_init nv deg, h0) ;;
    res <- check_and_generate_subclaim (fst sh) claimed ;;
    Some (res, snd sh).

(** ** Prover (prover.rs) *)
Record pstate := mkPs {
  ps_chals : list K; ps_round : nat; ps_poly : vp; ps_aux : list (list K * list K) }.

(** prover.rs:323-344 [prover_init_with_extrapolation_aux]. *)
Definition prover_init (p : vp) (aux : list (list K * list K)) : option pstate :=
  if Nat.eqb (vp_nv p) 0 || Nat.eqb (vp_deg p) 0 then None
  else if Nat.eqb (length aux) (vp_deg p - 1) then Some (mkPs [] 0 p aux) else None.

(** prover.rs:75-83: barycentric data for the degrees [1 .. max_degree-1]. *)
Definition extrapolation_aux (ncpus deg : nat) : option (list (list K * list K)) :=
  omapM (fun d => let points := map fnat (seq 0 (1 + d)) in
                  w <- barycentric_weights ncpus points ;; Some (points, w))
        (seq 1 (deg - 1)).

(** prover.rs:385-411: fixing the previous challenge.  The first time a fresh table is created (and
    a constant table panics), later the table is updated in place.  [Arc::get_mut] always succeeds
    after the first fix because the [Arc] was just created. *)
Definition fix_first (r : K) (m : dmle K) : option (dmle K) :=
  if Nat.ltb 0 (num_vars m) then fix_variables m [r] else None.
Definition fix_later (r : K) (m : dmle K) : option (dmle K) :=
  if Nat.ltb 0 (num_vars m) then fix_variables_in_place m [r] else Some m.

(** *** Code generated by [sumcheck_code_gen!] (sumcheck_macro/src/lib.rs:43-326).  The generated
    code first sorts the factors so that extension tables come first; the product is commutative
    and the reordering is not modelled. *)
(** sumcheck_macro/src/lib.rs:367-376 [idx_of_one_bits]. *)
Definition idx_of_one_bits (n : nat) : list nat :=
  filter (Nat.testbit n) (seq 0 (Nat.log2 n + 1)).
(** sumcheck_macro/src/lib.rs:145-167: c_0 = v[b+1] - v[b], c_j = c_(j-1) + c_(j-1). *)
Fixpoint cg_c (v : list K) (b j : nat) : K :=
  match j with
  | O => nth (b + 1) v 0 - nth b v 0
  | S j' => cg_c v b j' + cg_c v b j'
  end.
(** sumcheck_macro/src/lib.rs:174-208: row [i] (1-based) of the array, for one factor. *)
Definition cg_item (v : list K) (b i : nat) : K :=
  match i with
  | O | 1%nat => nth b v 0
  | 2%nat => nth (b + 1) v 0
  | _ => match idx_of_one_bits (i - 2) with
         | [] => nth (b + 1) v 0
         | j :: js => fold_left (fun acc k => acc + cg_c v b k) js (cg_c v b j) + nth (b + 1) v 0
         end
  end.
(** sumcheck_macro/src/lib.rs:348-350 [mul_exprs]: left-associated product. *)
Definition cg_row (vs : list (list K)) (b : nat) : list K :=
  map (fun i => reduce_mul (map (fun v => cg_item v b i) vs)) (seq 1 (length vs + 1)).
(** util.rs (sumcheck) AdditiveArray/AdditiveVec [+=]: zip, the longer accumulator keeps its tail. *)
Definition vec_add (acc rhs : list K) : list K :=
  map (fun '(a, b) => a + b) (combine acc rhs) ++ skipn (length rhs) acc.
Definition largest_even_below (n : nat) : nat := if Nat.even n then n else (n - 1)%nat.
(** [iter.reduce(+).unwrap_or_default()] *)
Definition array_sum (n : nat) (l : list (list K)) : list K :=
  match l with [] => repeat 0 n | x :: t => fold_left vec_add t x end.
(** sumcheck_macro/src/lib.rs:216-249: sum over the pairs (in reverse order), constant tables replicated, scaling by
    2^(missing variables). *)
Definition cg_sum (nv round : nat) (vs : list (list K)) : option (list K) :=
  match vs with
  | [] => None
  | v1 :: _ =>
      if forallb (fun v => Nat.leb (length v1) (length v)) vs && Nat.ltb 0 (length v1) then
        let d := length vs in
        let res := if Nat.eqb (length v1) 1
                   then repeat (nth 0 (cg_row vs 0) 0) (d + 1)
                   else array_sum (d + 1) (map (cg_row vs) (rev (evens (largest_even_below (length v1))))) in
        lg <- ceil_log2 (length v1) ;;
        let used := (Nat.max lg 1 + round - 1)%nat in
        if Nat.ltb nv used then None
        else let mult := (nv - used)%nat in
             Some (if Nat.ltb 0 mult then map (fun e => e * fnat (2 ^ mult)) res else res)
      else None
  end.

(** prover.rs:433-462: one product's contribution ... *)
Definition product_contrib (s : pstate) (prod : K * list nat) : option (list K) :=
  let '(c, ix) := prod in
  let d := length ix in
  let deg := vp_deg (ps_poly s) in
  if Nat.ltb 5 d then None
  else
    slices <- omapM (fun i => m <- nth_error (vp_mles (ps_poly s)) i ;; op_slice m) ix ;;
    sum0 <- cg_sum (vp_nv (ps_poly s)) (ps_round s) slices ;;
    let sum := map (fun x => x * c) sum0 in
    if Nat.ltb deg d then None
    else
      ext <- omapM (fun i => aux <- nth_error (ps_aux s) (d - 1) ;;
                             inner_extrapolate None (fst aux) (snd aux) sum (fnat (d + 1 + i)))
                   (seq 0 (deg - d)) ;;
      Some (sum ++ ext).
(** ... and the round message. *)
Definition round_message (s : pstate) : option (list K) :=
  ofold (fun acc prod => x <- product_contrib s prod ;; Some (vec_add acc x))
        (vp_products (ps_poly s)) (repeat 0 (vp_deg (ps_poly s) + 1)).

(** prover.rs:350-471 [prove_round_and_update_state]. *)
Definition with_mles (p : vp) (ms : list (dmle K)) : vp :=
  mkVp (vp_deg p) (vp_nv p) (vp_products p) ms.
Definition prove_round (s : pstate) (chal : option K) : option (list K * pstate) :=
  if Nat.ltb (ps_round s) (vp_nv (ps_poly s)) then
    s1 <- (if Nat.eqb (ps_round s) 0
           then match chal with None => Some s | Some _ => None end
           else match chal with
                | None => None
                | Some c =>
                    let chals := ps_chals s ++ [c] in
                    r <- nth_error chals (ps_round s - 1) ;;
                    ms <- omapM (if Nat.eqb (length chals) 1 then fix_first r else fix_later r)
                                (vp_mles (ps_poly s)) ;;
                    Some (mkPs chals (ps_round s) (with_mles (ps_poly s) ms) (ps_aux s))
                end) ;;
    let s2 := mkPs (ps_chals s1) (S (ps_round s1)) (ps_poly s1) (ps_aux s1) in
    msg <- round_message s2 ;;
    Some (msg, s2)
  else None.

(** prover.rs:473-490 [get_mle_final_evaluations]. *)
Definition get_mle_final_evaluations (s : pstate) : option (list K) :=
  omapM (fun m => l <- op_slice m ;; match l with [x] => Some x | _ => None end) (vp_mles (ps_poly s)).

(** One round of all threads (prover.rs:105-116, 155-185): every thread proves the round with the
    same challenge; the main thread is the last one; it adds its own message and then the workers'
    messages in their arrival order [ord]. *)
Definition batch_round (sts : list pstate) (ord : list nat) (chal : option K)
  : option (list K * list pstate) :=
  res <- omapM (fun s => prove_round s chal) sts ;;
  let main := (length sts - 1)%nat in
  mm <- nth_error res main ;;
  deg <- match sts with s :: _ => Some (vp_deg (ps_poly s)) | [] => None end ;;
  sum <- ofold (fun acc w => x <- nth_error res w ;; Some (vec_add acc (fst x)))
               ord (vec_add (repeat 0 (deg + 1)) (fst mm)) ;;
  Some (sum, map snd res).
(** All rounds of the first stage.  [ords i] is the arrival order in round [i]. *)
Fixpoint batch_rounds (T : hist -> K) (n i : nat) (ords : nat -> list nat) (sts : list pstate)
  (chal : option K) (h : hist) (msgs : list (list K)) : option (list pstate * option K * hist * list (list K)) :=
  match n with
  | O => Some (sts, chal, h, msgs)
  | S n' =>
      r <- batch_round sts (ords i) chal ;;
      let '(c, h') := get_challenge T lbl_round (absorb h (fst r)) in
      batch_rounds T n' (S i) ords (snd r) (Some c) h' (msgs ++ [fst r])
  end.

(** prover.rs:118-137 (workers) and 187-219 (main thread): push the last challenge and fix it. *)
Definition finish_main (nv : nat) (r : K) (m : dmle K) : option (dmle K) :=
  if Nat.eqb nv 1 then
    if Nat.ltb 0 (num_vars m) then fix_variables m [r]
    else match evaluations m with Base l => Some (mkMle (Base l) 0) | _ => None end
  else fix_later r m.
Definition finish (f : K -> dmle K -> option (dmle K)) (chal : option K) (s : pstate) : option pstate :=
  match chal with
  | None => Some s
  | Some r => ms <- omapM (f r) (vp_mles (ps_poly s)) ;;
              Some (mkPs (ps_chals s ++ [r]) (ps_round s) (with_mles (ps_poly s) ms) (ps_aux s))
  end.
Definition ps_default : pstate := mkPs [] 0 (mkVp 0 0 [] []) [].
(** prover.rs:221-232: states are received in some order and stored by thread index. *)
Definition collect_states (sts : list pstate) (ford : list nat) : list pstate :=
  fold_left (fun acc i => upd i (nth i sts ps_default) acc) ford (repeat ps_default (length sts)).

(** util.rs:215-243 [merge_sumcheck_polys]. *)
Definition ext_single (m : dmle K) : option K :=
  match evaluations m with Ext [x] => Some x | _ => None end.
Definition merge_sumcheck_polys (sts : list pstate) (L : nat) : option vp :=
  match sts with
  | [] => None
  | s0 :: _ =>
      ms <- omapM (fun i =>
              vals <- omapM (fun s => m <- nth_error (vp_mles (ps_poly s)) i ;; ext_single m) sts ;;
              from_evaluations_ext_vec L vals) (seq 0 (length (vp_mles (ps_poly s0)))) ;;
      Some (mkVp (vp_deg (ps_poly s0)) L (vp_products (ps_poly s0)) ms)
  end.

(** prover.rs:262-300: second stage, one thread. *)
Fixpoint stage2 (T : hist -> K) (n : nat) (s : pstate) (chal : option K) (h : hist)
  (msgs : list (list K)) : option (pstate * option K * hist * list (list K)) :=
  match n with
  | O => Some (s, chal, h, msgs)
  | S n' =>
      r <- prove_round s chal ;;
      let '(c, h') := get_challenge T lbl_round (absorb h (fst r)) in
      stage2 T n' (snd r) (Some c) h' (msgs ++ [fst r])
  end.

(** prover.rs:32-321 [prove_batch_polys].  [ords]: arrival orders of the workers' messages,
    [ford]: arrival order of the final states. *)
Definition prove_batch_polys (T : hist -> K) (ncpus : nat) (ords : nat -> list nat) (ford : list nat)
  (max_thread_id : nat) (polys : list vp) (h : hist) : option (proof * pstate * hist) :=
  match polys with
  | [] => None
  | p0 :: _ =>
      if negb (Nat.eqb (length polys) max_thread_id) || negb (is_pow2 max_thread_id)
         || negb (forallb (fun p => Nat.eqb (vp_nv p) (vp_nv p0) && Nat.eqb (vp_deg p) (vp_deg p0)) polys)
      then None
      else
        L <- ceil_log2 max_thread_id ;;
        let nv := vp_nv p0 in
        if Nat.eqb nv 0 then Some (mkProof [] [], mkPs [] 0 p0 [], h)
        else
          let h0 := EvBytes (le_bytes8 (vp_deg p0)) :: EvBytes (le_bytes8 (nv + L)) :: h in
          aux <- extrapolation_aux ncpus (vp_deg p0) ;;
          sts <- omapM (fun p => prover_init p aux) polys ;;
          r1 <- batch_rounds T nv 0 ords sts None h0 [] ;;
          let '(sts1, chal, h1, msgs1) := r1 in
          ws <- omapM (finish fix_later chal) (firstn (max_thread_id - 1) sts1) ;;
          mn <- omapM (finish (finish_main nv) chal) (skipn (max_thread_id - 1) sts1) ;;
          let sts2 := collect_states (ws ++ mn) ford in
          if Nat.eqb L 0 then
            s0 <- nth_error sts2 0 ;;
            Some (mkProof (ps_chals s0) msgs1, s0, h1)
          else
            mp <- merge_sumcheck_polys sts2 L ;;
            s <- prover_init mp aux ;;
            r2 <- stage2 T L s None h1 msgs1 ;;
            let '(s2, chal2, h2, msgs2) := r2 in
            s3 <- finish fix_later chal2 s2 ;;
            s0 <- nth_error sts2 0 ;;
            Some (mkProof (ps_chals s0 ++ ps_chals s3) msgs2, s3, h2)
  end.
End Sumcheck.
