(** Property theorems C12-C14: the LogUp fraction circuit and the final fraction check.  Statements only. *)
From Coq Require Import List Arith Lia Bool ZArith Field.
From Verif Require Import ListAux FieldDef FpInst PolyList MleMath M_Mle M_Interp M_Sumcheck M_ScParallel M_SamePoly
  M_LogUp P_LogUp M_Lookup P_Lookup P_Lookup2 P_Lookup3.
Import ListNotations.
Local Open Scope F_scope.

(** C12.  A lookup circuit over any nonempty list of columns of length 2^(k+2) has four outputs; combined
    as the proof structure does, they are the sum of -1/(merged row) as one fraction: the denominator is the
    product of all merged rows and the numerator is the cross-multiplied sum. *)
Theorem C12_lookup_circuit : forall (K : field) (cols : list (list K)) cst csc k,
  cols <> [] -> (forall c, In c cols -> length c = 2 ^ S (S k)) ->
  let ds := map (row_val cst csc cols) (seq 0 (2 ^ S (S k))) in
  let l := map (fun d => (- (1), d)) ds in
  exists c n0 n1 d0 d1, new_lookup_circuit cols cst csc = Some c /\ outputs c = Some [n0; n1; d0; d1] /\
    n0 * d1 + n1 * d0 = cross_sum l /\ d0 * d1 = fprod ds.
Proof. exact @lookup_circuit. Qed.
Print Assumptions C12_lookup_circuit.

Theorem C12_table_circuit : forall (K : field) (cols : list (list K)) mult cst csc k,
  cols <> [] -> (forall c, In c cols -> length c = 2 ^ S k) -> length mult = 2 ^ S k ->
  let ds := map (row_val cst csc cols) (seq 0 (2 ^ S k)) in
  exists c n0 n1 d0 d1, new_table_circuit cols mult cst csc = Some c /\ outputs c = Some [n0; n1; d0; d1] /\
    n0 * d1 + n1 * d0 = cross_sum (combine mult ds) /\ d0 * d1 = fprod ds.
Proof. exact @table_circuit. Qed.
Print Assumptions C12_table_circuit.

(** When no merged row is zero the output fraction is the sum of the fractions. *)
Theorem C12_lookup_value : forall (K : field) (cols : list (list K)) cst csc k,
  cols <> [] -> (forall c, In c cols -> length c = 2 ^ S (S k)) ->
  (forall i, i < 2 ^ S (S k) -> row_val cst csc cols i <> 0) ->
  exists n d, (c <- new_lookup_circuit cols cst csc ;; circuit_fraction c) = Some (n, d) /\ d <> 0 /\
    n * / d = - sumn (2 ^ S (S k)) (fun i => / row_val cst csc cols i).
Proof. exact @lookup_value. Qed.
Print Assumptions C12_lookup_value.
Theorem C12_table_value : forall (K : field) (cols : list (list K)) mult cst csc k,
  cols <> [] -> (forall c, In c cols -> length c = 2 ^ S k) -> length mult = 2 ^ S k ->
  (forall i, i < 2 ^ S k -> row_val cst csc cols i <> 0) ->
  exists n d, (c <- new_table_circuit cols mult cst csc ;; circuit_fraction c) = Some (n, d) /\ d <> 0 /\
    n * / d = sumn (2 ^ S k) (fun i => nth i mult 0 * / row_val cst csc cols i).
Proof. exact @table_value. Qed.
Print Assumptions C12_table_value.

(** The code accepts lookup columns of length 2 but the circuit then has no numerators in its output, and
    reading the fraction panics. *)
Theorem C12_short_lookup_refuted : forall (K : field) (cols : list (list K)) cst csc,
  cols <> [] -> (forall c, In c cols -> length c = 2%nat) ->
  (c <- new_lookup_circuit cols cst csc ;; circuit_fraction c) = None.
Proof. exact @lookup_len2. Qed.
Print Assumptions C12_short_lookup_refuted.

Definition ex_cols : list (list F101) := [q_list [1; 2; 3; 4]%Z; q_list [5; 6; 7; 8]%Z].
Example C12_ex_shape : ex_cols <> [] /\ (forall c, In c ex_cols -> length c = 2 ^ S (S 0)).
Proof. split; [discriminate|]. intros c [<-|[<-|[]]]; reflexivity. Qed.
Example C12_ex_nonzero : forallb (fun i => negb (row_val (q 10) (q 3) ex_cols i =? 0)) (seq 0 4) = true.
Proof. vm_compute. reflexivity. Qed.
(** Rows 26, 30, 34, 38 merged with constant 10 and separation 3. *)
Example C12_ex_run :
  match (c <- new_lookup_circuit ex_cols (q 10) (q 3) ;; circuit_fraction c) with
  | Some (n, d) => fpv 101 d = (26 * 30 * 34 * 38 mod 101)%Z /\
                   fpv 101 n = ((- (30 * 34 * 38 + 26 * 34 * 38 + 26 * 30 * 38 + 26 * 30 * 34)) mod 101)%Z
  | None => False end.
Proof. vm_compute. auto. Qed.

(** C13.  [insts] are the rows every layer looks up in one table with rows [trows] (possibly repeated);
    [nodes] are the merged keys the layers counted.  Then the computed multiplicities make the fractions
    sum to zero for every challenge that is no pole of a table row. *)
Theorem C13_honest_lookups_balance : forall (K : field) w (cst csc : K) (insts : list (list (list Z))) (trows : list (list Z)) nodes,
  char_gt K (length trows) ->
  (forall rows, In rows insts -> rows_ok w rows /\ pow2_rows rows 2) -> rows_ok w trows -> pow2_rows trows 1 ->
  (forall rows r, In rows insts -> In r rows -> In r trows) ->
  concat nodes = map merged_key (concat insts) ->
  exists mult fr, multiplicities (map merged_key trows) (all_counts nodes) = Some mult /\
    table_fractions (map (columns_of w) insts) (columns_of w trows) mult cst csc = Some fr /\
    ((forall r, In r trows -> cst + sumn w (fun j => fZ (nth j r 0%Z) * fpow csc j) <> 0) -> final_check fr = true).
Proof. exact @honest_balance. Qed.
Print Assumptions C13_honest_lookups_balance.

(** Tables that balance one by one also balance together. *)
Theorem C13_tables_compose : forall (K : field) (gs : list (list (K * K))),
  (forall g, In g gs -> final_check g = true) -> final_check (concat gs) = true.
Proof. exact @final_check_groups. Qed.
Print Assumptions C13_tables_compose.

(** A table with a repeated row, two layers. *)
Definition ex_trows : list (list Z) := [[-1; 0]; [0; 0]; [1; 1]; [1; 1]]%Z.
Definition ex_insts : list (list (list Z)) := [[[1; 1]; [-1; 0]; [1; 1]; [1; 1]]; [[0; 0]; [0; 0]; [1; 1]; [-1; 0]]]%Z.
Example C13_ex_hyps : char_gt F101 (length ex_trows) /\
  (forall rows, In rows ex_insts -> rows_ok 2 rows /\ pow2_rows rows 2) /\ rows_ok 2 ex_trows /\ pow2_rows ex_trows 1 /\
  (forall rows r, In rows ex_insts -> In r rows -> In r ex_trows).
Proof.
  assert (Hr : forall rows, In rows (ex_trows :: ex_insts) -> rows_ok 2 rows).
  { intros rows Hin. split; [right; reflexivity|]. intros r Hr. cbn in Hin.
    repeat (destruct Hin as [<-|Hin]; [cbn in Hr; repeat (destruct Hr as [<-|Hr]; [split; [reflexivity|cbn; lia]|]); destruct Hr|]). destruct Hin. }
  split; [apply Fp_char; cbn; lia|].
  split; [intros rows Hin; split; [apply Hr; right; auto|]; exists 0%nat; destruct Hin as [<-|[<-|[]]]; reflexivity|].
  split; [apply Hr; left; auto|]. split; [exists 1%nat; reflexivity|].
  intros rows r Hin Hi. destruct Hin as [<-|[<-|[]]]; cbn in Hi |- *; intuition (subst; auto).
Qed.
Example C13_ex_run :
  match multiplicities (K:=F101) (map merged_key ex_trows) (all_counts (map (map merged_key) ex_insts)) with
  | Some mult => map (fpv 101) mult = [2; 2; 2; 2]%Z /\
      match table_fractions (map (columns_of 2) ex_insts) (columns_of 2 ex_trows) mult (q 40) (q 17) with
      | Some fr => final_check fr = true | None => False end
  | None => False end.
Proof. vm_compute. auto. Qed.

(** C14.  If the merged value of some looked-up row is the merged value of no row of any table, then
    whatever the multiplicities are, at most (number of lookups + number of table rows) values of the
    constant challenge pass the final check. *)
Theorem C14_missing_value_caught : forall (K : field) (S : list K) gs g cols i,
  NoDup S -> (forall g, In g gs -> group_ok g) -> char_gt K (g_lookups gs) ->
  In g gs -> In cols (g_insts g) -> i < length (nth 0 cols []) ->
  (forall g' j, In g' gs -> j < length (nth 0 (g_tcols g') []) -> rowv (g_csc g') (g_tcols g') j <> rowv (g_csc g) cols i) ->
  length (filter (fun c => match all_fractions gs c with Some fr => final_check fr | None => false end) S)
    <= g_lookups gs + g_rows gs.
Proof. exact @missing_value. Qed.
Print Assumptions C14_missing_value_caught.

(** Different rows of equal width have the same merged value for at most width - 1 column challenges. *)
Theorem C14_rows_told_apart : forall (K : field) (S : list K) (r r' : list K), NoDup S -> length r = length r' -> r <> r' ->
  length (filter (fun x => comb x r =? comb x r') S) <= length r - 1.
Proof. exact @row_collision. Qed.
Print Assumptions C14_rows_told_apart.

(** The hypothesis above speaks about all tables because the constant challenge is shared.  A pair (v, 0)
    merges to v whatever the column challenge is, which is also the merged value of the row v of a
    one-column table.  So looking up ReLU(1) = 0, which is not a row of the ReLU table, is accepted for
    every challenge that is no pole, if the Range table is also in use. *)
Theorem C14_cross_table_refuted : forall (K : field) (cst csc : K),
  (forall r, In r relu2_rows -> cst + (fZ (nth 0 r 0%Z) + fZ (nth 1 r 0%Z) * csc) <> 0) ->
  (forall r, In r range2_rows -> cst + fZ (nth 0 r 0%Z) <> 0) ->
  ~ In [1; 0]%Z relu2_rows /\
  exists fr, all_fractions (cross_groups csc) cst = Some fr /\ final_check fr = true.
Proof. exact @cross_table. Qed.
Print Assumptions C14_cross_table_refuted.

Definition ex_bad : list (group F101) :=
  [mkGroup F101 [columns_of 2 [[1; 0]; [1; 1]; [0; 0]; [0; 0]]%Z] (columns_of 2 relu2_rows) (q_list [0; 0; 2; 2]%Z) (q 17)].
Example C14_ex_hyps : (forall g, In g ex_bad -> group_ok g) /\ char_gt F101 (g_lookups ex_bad) /\
  forallb (fun j => negb (rowv (q 17) (columns_of 2 relu2_rows) j =? rowv (q 17) (columns_of 2 [[1; 0]; [1; 1]; [0; 0]; [0; 0]]%Z) 0)) (seq 0 4) = true.
Proof.
  split; [|split; [apply Fp_char; cbn; lia|vm_compute; reflexivity]].
  intros g [<-|[]]. split; cbn [g_insts g_tcols g_mult].
  - intros cols [<-|[]]. split; [discriminate|]. exists 0%nat. intros c [<-|[<-|[]]]; reflexivity.
  - split; [discriminate|]. exists 1%nat. split; [|reflexivity]. intros c [<-|[<-|[]]]; reflexivity.
Qed.
