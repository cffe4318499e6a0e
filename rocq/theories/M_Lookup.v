(** Model of the lookup bookkeeping: zkml/src/lookup/context.rs (element counts, multiplicities) and of
    the final fraction check of zkml/src/iop/verifier.rs.  [Element] is i64; it is an integer here, and
    range conditions are stated where they matter. *)
From Coq Require Import List Arith Lia Bool ZArith.
From Verif Require Import ListAux FieldDef M_Mle M_Interp M_Sumcheck M_ScParallel M_SamePoly M_LogUp.
Import ListNotations.

(** Counters: HashMap<Element, u64> / BTreeMap<Element, u64> as association lists; [None] = absent key. *)
Definition counter := list (Z * nat).
Fixpoint cnt_get (c : counter) (x : Z) : option nat :=
  match c with [] => None | (y, n) :: r => if Z.eqb x y then Some n else cnt_get r x end.
(** [*map.entry(x).or_default() += n] *)
Fixpoint cnt_add (c : counter) (x : Z) (n : nat) : counter :=
  match c with
  | [] => [(x, n)]
  | (y, m) :: r => if Z.eqb x y then (y, (m + n)%nat) :: r else (y, m) :: cnt_add r x n
  end.
(** context.rs:585-591 [count_elements]. *)
Definition count_elements (l : list Z) : counter := fold_left (fun c x => cnt_add c x 1) l [].
(** context.rs:603-619 [LookupWitnessGen::consume], for one table: the first node's counts are moved in,
    later ones are added entry by entry. *)
Definition consume (agg : option counter) (other : counter) : option counter :=
  match agg with
  | None => Some other
  | Some a => Some (fold_left (fun c '(x, n) => cnt_add c x n) other a)
  end.
Definition all_counts (nodes : list (list Z)) : counter :=
  match fold_left consume (map count_elements nodes) None with Some c => c | None => [] end.

(** context.rs:622 COLUMN_SEPARATOR and the merged key of a one- or two-column row. *)
Definition column_separator : Z := 2 ^ 32.
Definition merged_key (row : list Z) : Z :=
  match row with
  | [a] => a
  | [a; b] => a + b * column_separator
  | _ => 0
  end.

Section Lookup.
Context {K : field}.
Local Open Scope F_scope.

(** context.rs:696-720: multiplicities of the table rows; the inverse of zero panics. *)
Definition multiplicities (table_column : list Z) (lookups : counter) : option (list K) :=
  let table_map := count_elements table_column in
  omapM (fun v =>
           match cnt_get lookups v with
           | Some lookup_count =>
               table_count <- cnt_get table_map v ;;
               inv <- (if Nat.eqb table_count 1 then Some 1 else finv_opt (fnat table_count)) ;;
               Some (fnat lookup_count * inv)
           | None => Some 0
           end) table_column.

(** The fraction a LogUp circuit outputs (structs.rs:328-338 for one instance). *)
Definition circuit_fraction (c : list (@layer K)) : option (K * K) :=
  o <- outputs c ;; q <- get4 o ;; let '(a, b, d, e) := q in Some (a * e + b * d, d * e).

(** iop/verifier.rs:275-280: summing all fractions. *)
Definition final_sum (l : list (K * K)) : K * K :=
  fold_left (fun '(an, ad) '(n, d) => (an * d + n * ad, ad * d)) l (0, 1).
(** iop/verifier.rs:282-291. *)
Definition final_check (l : list (K * K)) : bool :=
  let '(n, d) := final_sum l in (n =? 0) && negb (d =? 0).

(** Columns of a list of rows, as field vectors ([to_base]). *)
Definition columns_of (w : nat) (rows : list (list Z)) : list (list K) :=
  map (fun j => map (fun r => fZ (nth j r 0%Z)) rows) (seq 0 w).

(** The fractions the verifier sums for one table: every instance looking values up in it, then the
    table itself. *)
Definition table_fractions (insts : list (list (list K))) (tcols : list (list K)) (mult : list K) (cst csc : K)
  : option (list (K * K)) :=
  ls <- omapM (fun cols => c <- new_lookup_circuit cols cst csc ;; circuit_fraction c) insts ;;
  t <- (c <- new_table_circuit tcols mult cst csc ;; circuit_fraction c) ;;
  Some (ls ++ [t]).
End Lookup.

(** The lookup part of iop/verifier.rs:84-103, 273-291 for several tables.  Every table has its own column
    separation challenge, but they all share one constant challenge (iop/mod.rs:74-90). *)
Record group {K : field} := mkGroup {
  g_insts : list (list (list K)); g_tcols : list (list K); g_mult : list K; g_csc : K }.
Arguments group : clear implicits.
Definition all_fractions {K : field} (gs : list (group K)) (cst : K) : option (list (K * K)) :=
  frs <- omapM (fun g => table_fractions (g_insts g) (g_tcols g) (g_mult g) cst (g_csc g)) gs ;;
  Some (concat frs).
