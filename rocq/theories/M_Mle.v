(** Model of multilinear_extensions/src/mle.rs (DenseMultilinearExtension and
    RangedMultilinearExtension), multilinear_extensions/src/virtual_poly.rs (eq tables) and
    zkml/src/commit/mod.rs (beta tables).

    Conventions: a panic is [None]; usize is [nat] (no overflow: all sizes are lengths of vectors
    that exist in memory); a base-field vector is a vector over the same field [K] (the embedding
    of the base field in the extension is a field homomorphism and is left implicit), but the
    [Base]/[Ext] tag is kept because the code branches, and panics, on it. *)
From Coq Require Import List Arith Lia Bool ZArith.
From Verif Require Import ListAux FieldDef.
Import ListNotations.

Definition obind {A B} (o : option A) (f : A -> option B) : option B :=
  match o with Some a => f a | None => None end.
Notation "x <- e ;; f" := (obind e (fun x => f)) (at level 100, e at next level, right associativity).

(** Sequential loop with early panic. *)
Fixpoint ofold {A S} (f : S -> A -> option S) (l : list A) (s : S) : option S :=
  match l with [] => Some s | a :: t => s' <- f s a ;; ofold f t s' end.

(** multilinear_extensions/src/util.rs:16-21 [ceil_log2] (panics on 0). *)
Definition ceil_log2 (x : nat) : option nat :=
  match x with O => None | S _ => Some (Nat.log2_up x) end.
(** usize::is_power_of_two *)
Definition is_pow2 (x : nat) : bool := (0 <? x) && (2 ^ Nat.log2 x =? x).

Section Mle.
Context {K : field}.
Local Open Scope F_scope.

(** mle.rs:136-142 [FieldType]. *)
Inductive ftype := Base (l : list K) | Ext (l : list K) | Unreachable.
(** mle.rs:176-181 [DenseMultilinearExtension]. *)
Record dmle := mkMle { evaluations : ftype; num_vars : nat }.

(** mle.rs:145-151 [FieldType::len]. *)
Definition ft_len (e : ftype) : nat :=
  match e with Base l => length l | Ext l => length l | Unreachable => 0%nat end.

(** mle.rs:233-249 [from_evaluations_vec]. *)
Definition from_evaluations_vec (nv : nat) (l : list K) : option dmle :=
  if Nat.eqb (length l) (2 ^ nv) then Some (mkMle (Base l) nv) else None.
(** mle.rs:257-272 [from_evaluations_ext_vec]. *)
Definition from_evaluations_ext_vec (nv : nat) (l : list K) : option dmle :=
  if Nat.eqb (length l) (2 ^ nv) then Some (mkMle (Ext l) nv) else None.

(** [chunks(2).map(|buf| p * (buf[1] - buf[0]) + buf[0])] (mle.rs:470-473): a trailing chunk of
    length one makes [buf[1]] panic. *)
Fixpoint chunk_fix (p : K) (l : list K) : option (list K) :=
  match l with
  | [] => Some []
  | [_] => None
  | b0 :: b1 :: t => t' <- chunk_fix p t ;; Some ((p * (b1 - b0) + b0) :: t')
  end.

(** One iteration of the in-place loop (mle.rs:507-510): indices are bounds-checked. *)
Definition in_place_step (p : K) (ev : list K) (b : nat) : option (list K) :=
  match nth_error ev b, nth_error ev (b + 1) with
  | Some x, Some y => Some (upd (b / 2) (x + (y - x) * p) ev)
  | _, _ => None
  end.
(** [(0..n).step_by(2)] *)
Definition evens (n : nat) : list nat := map (fun i => 2 * i)%nat (seq 0 ((n + 1) / 2)).

(** mle.rs:486-525 [fix_variables_in_place]: the loop body for one coordinate ... *)
Definition fvip_step (e : ftype) (p : K) : option ftype :=
  match e with
  | Base l => l' <- chunk_fix p l ;; Some (Ext l')
  | Ext l => l' <- ofold (in_place_step p) (evens (length l)) l ;; Some (Ext l')
  | Unreachable => None
  end.
(** ... and the whole function: the vector is truncated only once, at the end. *)
Definition fix_variables_in_place (m : dmle) (pp : list K) : option dmle :=
  if Nat.leb (length pp) (num_vars m) then
    e <- ofold fvip_step pp (evaluations m) ;;
    match e with
    | Base _ => None                                     (* unreachable!() *)
    | Ext l => Some (mkMle (Ext (firstn (2 ^ (num_vars m - length pp)) l)) (num_vars m - length pp))
    | Unreachable => None
    end
  else None.

(** The slice the [op_mle!] macro (mle.rs:1012-1045) exposes for a dense MLE. *)
Definition op_slice (m : dmle) : option (list K) :=
  match evaluations m with Base l => Some l | Ext l => Some l | Unreachable => None end.

(** mle.rs:454-482 [fix_variables]: [Cow::Borrowed] until the first coordinate is processed. *)
Definition fix_variables (m : dmle) (pp : list K) : option dmle :=
  if Nat.leb (length pp) (num_vars m) then
    r <- match pp with
         | [] => Some m
         | p :: rest =>
             l <- op_slice m ;; l' <- chunk_fix p l ;;
             m' <- from_evaluations_ext_vec (num_vars m - 1) l' ;;
             ofold (fun m p => fix_variables_in_place m [p]) rest m'
         end ;;
    if Nat.eqb (num_vars r) (num_vars m - length pp) then Some r else None
  else None.

(** [lo.zip(hi).map(|(lo,hi)| p*(hi-lo)+lo)] after [split_at(half)] (mle.rs:544-549). [split_at]
    panics when [half > len]; [half] is always [len >> 1] here. *)
Definition zip_fix (p : K) (lo hi : list K) : list K :=
  map (fun '(a, b) => p * (b - a) + a) (combine lo hi).
(** In-place variant on the first [half] entries, the rest of the vector is left behind
    (mle.rs:584-589). *)
Definition high_in_place (p : K) (half : nat) (l : list K) : option (list K) :=
  if Nat.leb half (length l) then
    let lo := firstn half l in
    let hi := skipn half l in
    Some (map (fun '(a, b) => a + (b - a) * p) (combine lo hi)
          ++ skipn (length (combine lo hi)) l)
  else None.

(** mle.rs:562-603 [fix_high_variables_in_place]; the state of the loop is the vector and
    [current_eval_size]. *)
Definition fhvip_step (s : ftype * nat) (p : K) : option (ftype * nat) :=
  let '(e, cur) := s in
  let half := (cur / 2)%nat in
  match e with
  | Base l => if Nat.leb half (length l)
              then Some (Ext (zip_fix p (firstn half l) (skipn half l)), half) else None
  | Ext l => l' <- high_in_place p half l ;; Some (Ext l', half)
  | Unreachable => None
  end.
Definition fix_high_variables_in_place (m : dmle) (pp : list K) : option dmle :=
  if Nat.leb (length pp) (num_vars m) then
    s <- ofold fhvip_step (rev pp) (evaluations m, ft_len (evaluations m)) ;;
    let '(e, cur) := s in
    match e with
    | Base l => Some (mkMle (Base l) (num_vars m - length pp))
    | Ext l => Some (mkMle (Ext (firstn cur l)) (num_vars m - length pp))
    | Unreachable => None
    end
  else None.

(** mle.rs:529-558 [fix_high_variables]. *)
Definition fix_high_variables (m : dmle) (pp : list K) : option dmle :=
  if Nat.leb (length pp) (num_vars m) then
    r <- match rev pp with
         | [] => Some m
         | p :: rest =>
             l <- op_slice m ;;
             let half := (ft_len (evaluations m) / 2)%nat in
             m' <- from_evaluations_ext_vec (num_vars m - 1) (zip_fix p (firstn half l) (skipn half l)) ;;
             ofold (fun m p => fix_high_variables_in_place m [p]) rest m'
         end ;;
    if Nat.eqb (num_vars r) (num_vars m - length pp) then Some r else None
  else None.

(** mle.rs:688-699: the parallel in-place step.  Rayon runs one task per chunk, in an arbitrary
    order: [order] is the schedule, a list of chunk indices. *)
Definition par_chunk_step (p : K) (ev : list K) (c : nat) : option (list K) :=
  match nth_error ev (2 * c), nth_error ev (2 * c + 1) with
  | Some x, Some y => Some (upd (2 * c) (x + (y - x) * p) ev)
  | _, _ => None
  end.
(** mle.rs:696-698: [for index in 0..1 << (max_log2_size - 1) { ev[index] = ev[index << 1] }]. *)
Definition compact_step (ev : list K) (i : nat) : option (list K) :=
  match nth_error ev (2 * i), nth_error ev i with
  | Some x, Some _ => Some (upd i x ev)
  | _, _ => None
  end.
Definition fvipp_step (order : list nat) (log2_size : nat) (e : ftype) (p : K) : option ftype :=
  match e with
  | Base l => l' <- chunk_fix p l ;; Some (Ext l')
  | Ext l =>
      l1 <- ofold (par_chunk_step p) order l ;;
      l2 <- ofold compact_step (seq 0 (2 ^ (log2_size - 1))) l1 ;; Some (Ext l2)
  | Unreachable => None
  end.
(** mle.rs:663-712 [fix_variables_in_place_parallel]; [sched i] is the task order of round [i]. *)
Fixpoint fvipp_loop (sched : nat -> list nat) (nv i : nat) (pp : list K) (e : ftype) : option ftype :=
  match pp with
  | [] => Some e
  | p :: rest => e' <- fvipp_step (sched i) (nv - i) e p ;; fvipp_loop sched nv (S i) rest e'
  end.
Definition fix_variables_in_place_parallel (sched : nat -> list nat) (m : dmle) (pp : list K)
  : option dmle :=
  if Nat.leb (length pp) (num_vars m) then
    e <- fvipp_loop sched (num_vars m) 0 pp (evaluations m) ;;
    match e with
    | Base _ => None
    | Ext l => Some (mkMle (Ext (firstn (2 ^ (num_vars m - length pp)) l)) (num_vars m - length pp))
    | Unreachable => None
    end
  else None.

(** mle.rs:629-661 [fix_variables_parallel]; [sched i] is the task order used for coordinate [i]. *)
Fixpoint fvp_loop (sched : nat -> list nat) (i : nat) (pp : list K) (m : dmle) : option dmle :=
  match pp with
  | [] => Some m
  | p :: rest =>
      m' <- fix_variables_in_place_parallel (fun _ => sched i) m [p] ;;
      fvp_loop sched (S i) rest m'
  end.
Definition fix_variables_parallel (sched : nat -> list nat) (m : dmle) (pp : list K) : option dmle :=
  if Nat.leb (length pp) (num_vars m) then
    r <- match pp with
         | [] => Some m
         | p :: rest =>
             l <- op_slice m ;; l' <- chunk_fix p l ;;
             m' <- from_evaluations_ext_vec (num_vars m - 1) l' ;;
             fvp_loop sched 1 rest m'
         end ;;
    if Nat.eqb (num_vars r) (num_vars m - length pp) then Some r else None
  else None.

(** mle.rs:607-623 [evaluate]. *)
Definition evaluate (sched : nat -> list nat) (m : dmle) (point : list K) : option K :=
  if Nat.eqb (num_vars m) (length point) then
    m' <- fix_variables_parallel sched m point ;;
    l <- op_slice m' ;;
    match l with [x] => Some x | _ => None end
  else None.

(** mle.rs:740-762 [merge]. *)
Definition merge (m rhs : dmle) : option dmle :=
  match evaluations m, evaluations rhs with
  | Base e1, Base e2 => n <- ceil_log2 (length (e1 ++ e2)) ;; Some (mkMle (Base (e1 ++ e2)) n)
  | Ext e1, Ext e2 => n <- ceil_log2 (length (e1 ++ e2)) ;; Some (mkMle (Ext (e1 ++ e2)) n)
  | Unreachable, Base b => Some (mkMle (Base b) (num_vars rhs))
  | Unreachable, Ext b => Some (mkMle (Ext b) (num_vars rhs))
  | _, _ => None
  end.

(** mle.rs:814-838 [dup] (base field only): every instance of [old] values is repeated
    [num_dups] times. *)
Fixpoint cycle_take (n : nat) (l cur : list K) : list K :=
  match n with
  | O => []
  | S n' => match cur with
            | x :: t => x :: cycle_take n' l t
            | [] => match l with [] => [] | x :: t => x :: cycle_take n' l t end
            end
  end.
Definition dup (m : dmle) (num_instances num_dups : nat) : option dmle :=
  if is_pow2 num_dups && is_pow2 num_instances then
    match evaluations m with
    | Base l =>
        let old := (length l / num_instances)%nat in
        if Nat.eqb old 0 then None                        (* chunks(0) panics *)
        else
          k <- ceil_log2 num_dups ;;
          from_evaluations_vec (num_vars m + k)
            (firstn (2 ^ (num_vars m + k))
              (flat_map (fun c => cycle_take (old * num_dups) c c) (chunks old l)))
    | _ => None
    end
  else None.

(** mle.rs:841-846 [RangedMultilinearExtension]; mle.rs:764-774 [get_ranged_mle]. *)
Record ranged := mkRanged { rinner : dmle; rstart : nat; roffset : nat; rnum_vars : nat }.
Definition ranged_new (inner : dmle) (start offset : nat) : option ranged :=
  if Nat.leb offset (ft_len (evaluations inner)) then
    nv <- ceil_log2 offset ;; Some (mkRanged inner start offset nv)
  else None.
Definition get_ranged_mle (m : dmle) (num_range range_index : nat) : option ranged :=
  if Nat.ltb 0 num_range then
    let offset := (ft_len (evaluations m) / num_range)%nat in
    ranged_new m (offset * range_index) offset
  else None.
(** [evaluations[start..][..offset]] with its bounds checks. *)
Definition slice (l : list K) (start offset : nat) : option (list K) :=
  if Nat.leb start (length l) && Nat.leb offset (length l - start)
  then Some (firstn offset (skipn start l)) else None.

(** mle.rs:867-892 [Ranged::fix_variables]: [op_mle!] is applied to the inner dense MLE and the
    slice is taken by hand; with an empty partial point the whole inner table is returned. *)
Definition ranged_fix_variables (m : ranged) (pp : list K) : option dmle :=
  if Nat.leb (length pp) (rnum_vars m) then
    match pp with
    | [] => Some (rinner m)
    | p :: rest =>
        l <- op_slice (rinner m) ;; s <- slice l (rstart m) (roffset m) ;;
        l' <- chunk_fix p s ;;
        m' <- from_evaluations_ext_vec (rnum_vars m - 1) l' ;;
        fix_variables_in_place m' rest
    end
  else None.
(** mle.rs:898-923 [Ranged::fix_high_variables]. *)
Definition ranged_fix_high_variables (m : ranged) (pp : list K) : option dmle :=
  if Nat.leb (length pp) (rnum_vars m) then
    match rev pp with
    | [] => Some (rinner m)
    | p :: _ =>
        l <- op_slice (rinner m) ;; s <- slice l (rstart m) (roffset m) ;;
        let half := (roffset m / 2)%nat in
        m' <- from_evaluations_ext_vec (rnum_vars m - 1) (zip_fix p (firstn half s) (skipn half s)) ;;
        fix_high_variables_in_place m' (firstn (length pp - 1) pp)
    end
  else None.
(** mle.rs:929-931 [Ranged::evaluate]: delegates to the inner MLE. *)
Definition ranged_evaluate (sched : nat -> list nat) (m : ranged) (point : list K) : option K :=
  evaluate sched (rinner m) point.
(** mle.rs:937-939 [Ranged::fix_variables_parallel]: delegates to the inner MLE. *)
Definition ranged_fix_variables_parallel (sched : nat -> list nat) (m : ranged) (pp : list K) :=
  fix_variables_parallel sched (rinner m) pp.

(** ** Equality tables *)

(** virtual_poly.rs: [eq_eval] = prod (2xy - x - y + 1); asserts equal lengths. *)
Definition eq_eval (x y : list K) : option K :=
  if Nat.eqb (length x) (length y) then
    Some (fold_left (fun acc '(a, b) => acc * ((a * b + a * b) - a - b + 1)) (combine x y) 1)
  else None.

(** virtual_poly.rs:370-387 [build_eq_x_r_helper_sequential].  The buffer is uninitialised memory:
    it is a list of [option K], reading [None] would be undefined behaviour and is modelled as a
    failure of the whole function, as is an out-of-bounds index. *)
Definition eq_step (r : K) (buf : list (option K)) (index : nat) : option (list (option K)) :=
  match nth_error buf (index / 2) with
  | Some (Some prev) =>
      if Nat.ltb (index + 1) (length buf) then
        let tmp := r * prev in
        Some (upd index (Some (prev - tmp)) (upd (index + 1) (Some tmp) buf))
      else None
  | _ => None
  end.
Fixpoint eq_helper_loop (i : nat) (rs : list K) (buf : list (option K)) : option (list (option K)) :=
  match rs with
  | [] => Some buf
  | r :: rest =>
      buf' <- ofold (eq_step r) (rev (evens (2 ^ (i + 1)))) buf ;;
      eq_helper_loop (S i) rest buf'
  end.
Definition eq_helper (r : list K) (buf : list (option K)) (init : K) : option (list (option K)) :=
  match buf with
  | [] => None
  | _ :: t => eq_helper_loop 0 (rev r) (Some init :: t)
  end.
(** The final transmute: every cell must be initialised. *)
Fixpoint assume_init (buf : list (option K)) : option (list K) :=
  match buf with
  | [] => Some []
  | Some x :: t => t' <- assume_init t ;; Some (x :: t')
  | None :: _ => None
  end.
(** virtual_poly.rs:346-366 [build_eq_x_r_vec_sequential]. *)
Definition build_eq_seq (r : list K) : option (list K) :=
  match r with
  | [] => Some [1]
  | _ => b <- eq_helper r (repeat None (2 ^ length r)) 1 ;; assume_init b
  end.
(** virtual_poly.rs:414-453 [build_eq_x_r_vec] with [2^nbits] threads. Each thread fills its own
    chunk; [mapM] over the chunks (they are disjoint [&mut] slices, so order does not matter). *)
Fixpoint omapM {A B} (f : A -> option B) (l : list A) : option (list B) :=
  match l with [] => Some [] | a :: t => b <- f a ;; t' <- omapM f t ;; Some (b :: t') end.
Definition build_eq_par (nbits : nat) (r : list K) : option (list K) :=
  match r with
  | [] => Some [1]
  | _ =>
    if Nat.ltb (length r) nbits then build_eq_seq r
    else
      let m := (length r - nbits)%nat in
      eq_ts <- build_eq_seq (skipn m r) ;;
      cs <- omapM (fun tid => eq_t <- nth_error eq_ts tid ;;
                              eq_helper (firstn m r) (repeat None (2 ^ m)) eq_t)
                  (seq 0 (2 ^ nbits)) ;;
      assume_init (concat cs)
  end.

(** zkml/src/commit/mod.rs:10-28 [compute_betas_eval]. *)
Definition betas_inner (r_elem : K) (betas : list K) (ji : nat * K) : list K :=
  let '(j, item) := ji in
  let idx := (2 * j)%nat in
  let t := r_elem * item in
  upd (idx + 1) t (upd idx (item - t) betas).
Definition betas_step (r : list K) (betas : list K) (i : nat) : list K :=
  let temp := firstn (2 ^ i) betas in
  let r_elem := nth (length r - 1 - i) r 0 in
  fold_left (betas_inner r_elem) (combine (seq 0 (length temp)) temp) betas.
Definition compute_betas_eval (r : list K) : list K :=
  fold_left (betas_step r) (seq 0 (length r)) (upd 0 1 (repeat 0 (2 ^ length r))).

(** zkml/src/commit/mod.rs:45-53 [identity_eval]: truncates to the shorter of the two points. *)
Definition identity_eval (r1 r2 : list K) : K :=
  let m := Nat.min (length r1) (length r2) in
  fold_left (fun acc '(a, b) => acc * (a * b + (1 - a) * (1 - b)))
            (combine (firstn m r1) (firstn m r2)) 1.

(** zkml/src/commit/mod.rs:31-38 [aggregated_rlc]; rayon may split the fold anywhere: [splits] are
    the sizes of the pieces folded by the workers. *)
Definition rlc_fold (cs : list (K * K)) : K := fold_left (fun acc '(c, r) => acc + c * r) cs 0.
Fixpoint split_by {A} (sizes : list nat) (l : list A) : list (list A) :=
  match sizes with
  | [] => [l]
  | n :: t => firstn n l :: split_by t (skipn n l)
  end.
Definition aggregated_rlc (splits : list nat) (claims challenges : list K) : option K :=
  if Nat.eqb (length claims) (length challenges) then
    Some (fold_left fadd (map rlc_fold (split_by splits (combine claims challenges))) 0)
  else None.
End Mle.
Arguments ftype : clear implicits.
Arguments dmle : clear implicits.
Arguments ranged : clear implicits.
