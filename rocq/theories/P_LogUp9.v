(** The LogUp theorems in the form of the property statements, a sequential schedule, and the worked example. *)
From Coq Require Import List Arith Lia Bool ZArith Field Permutation.
From Verif Require Import ListAux FieldDef FpInst PolyList MleMath M_Mle P_Mle P_Eq M_Interp P_Interp M_Sumcheck
  P_ScVerify P_ScProve P_ScProve2 P_ScBatch P_ScFinal M_ScParallel P_ScParallel P_ScApi M_SamePoly P_SamePoly M_LogUp P_LogUp P_LogUp2 P_LogUp3 P_LogUp4 P_LogUp5 P_LogUp6 P_LogUp7 P_LogUp8.
Import ListNotations.

(** The sequential schedule for tables of [v] variables. *)
Definition seq_rsched (np v k : nat) : rsched :=
  mkRs (fun _ => seq 0 (2 ^ (v - (k - 1)) / 2)) (fun _ => PLeaf (evens (2 ^ (v - k)))) (PLeaf (seq 0 np)).
Lemma seq_logup_scheds lk k ni : logup_scheds lk k ni (seq_rsched (3 * ni)).
Proof.
  intros i Hi j Hj. constructor.
  - intros. apply Permutation_refl.
  - intros. apply Permutation_refl.
  - apply Permutation_refl.
Qed.

Section P.
Context {K : field}.
Local Open Scope F_scope.

(** One fraction for a list of fractions: cross-multiplied numerators over the product of denominators. *)
Definition one_frac (l : list (K * K)) : K * K := (cross_sum l, fprod (map snd l)).
Lemma one_frac_list l : frac_list l = one_frac l.
Proof. unfold one_frac. rewrite <- frac_list_fst, <- frac_list_snd. destruct (frac_list l); reflexivity. Qed.
Definition lookup_rows (cst csc : K) (k : nat) (cs : list (list K)) : list (K * K) := map (fun i => (- (1), row_val cst csc cs i)) (seq 0 (2 ^ k)).
Definition table_rows (cst csc : K) (k : nat) (mult : list K) (cs : list (list K)) : list (K * K) := map (fun i => (nth i mult 0, row_val cst csc cs i)) (seq 0 (2 ^ k)).

Lemma lookup_sound_p (T : @hist K -> K) k per insts pf cst csc h cls nums dens h' : char_gt K 3 ->
  0 < per -> insts <> [] -> (forall cs, In cs insts -> length cs = per /\ forall c, In c cs -> length c = 2 ^ S (S k)) ->
  verify_logup T pf (length insts) cst csc h = Some (cls, nums, dens, h') ->
  let bases := lk_bases cst csc (S (S k)) insts in
  shaped T true (S k) bases pf h -> claims_true T pf (length insts) (S k) h (concat insts) ->
  combine nums dens = map (fun cs => one_frac (lookup_rows cst csc (S (S k)) cs)) insts
  \/ run_lucky T true (S k) bases pf h.
Proof.
  intros Hch Hper Hne Hw Hv bases Hs Hc. destruct (lookup_sound T k per insts pf cst csc h cls nums dens h') as [E|E]; auto. left. rewrite E.
  apply map_ext. intros cs. apply one_frac_list.
Qed.
Lemma table_sound_p (T : @hist K -> K) k cols mult pf cst csc h cls nums dens h' : char_gt K 3 ->
  (forall c, In c cols -> length c = 2 ^ S k) -> length mult = 2 ^ S k ->
  verify_logup T pf 1 cst csc h = Some (cls, nums, dens, h') ->
  let bases := [tb_base cst csc (S k) mult cols] in
  shaped T false k bases pf h -> claims_true T pf 1 k h (mult :: cols) ->
  combine nums dens = [one_frac (table_rows cst csc (S k) mult cols)]
  \/ run_lucky T false k bases pf h.
Proof.
  intros Hch Hw Hm Hv bases Hs Hc. destruct (table_sound T k cols mult pf cst csc h cls nums dens h') as [E|E]; auto. left. rewrite E, one_frac_list. reflexivity.
Qed.
Lemma lookup_complete_p (T : @hist K -> K) ncpus scs esch k per insts cst csc h : char_gt K 3 -> 0 < ncpus ->
  0 < per -> insts <> [] -> (forall cs, In cs insts -> length cs = per /\ forall c, In c cs -> length c = 2 ^ S (S k)) ->
  logup_scheds true (S k) (length insts) scs -> valid_sched (S (S k)) esch ->
  exists pf h' nums dens x, batch_prove T ncpus scs esch (LookupIn (concat insts) cst csc per) h = Some (pf, h') /\
    lp_claims pf = map (fun c => mkClaim x (mle c x)) (concat insts) /\ length x = S (S k) /\ length (lp_sumchecks pf) = S k /\
    combine nums dens = map (fun cs => one_frac (lookup_rows cst csc (S (S k)) cs)) insts /\
    length nums = length insts /\ length dens = length insts /\
    ((forall p r, In p (lp_sumchecks pf) -> In r (pf_point p) -> not_node 3 r) ->
     verify_logup T pf (length insts) cst csc h = Some (lp_claims pf, nums, dens, h') /\
     shaped T true (S k) (lk_bases cst csc (S (S k)) insts) pf h /\ claims_true T pf (length insts) (S k) h (concat insts)).
Proof.
  intros. destruct (lookup_complete T ncpus scs esch k per insts cst csc h) as (pf & h' & nums & dens & x & E1 & E2 & E3 & E4 & E5 & E6 & E7 & E8); auto.
  exists pf, h', nums, dens, x. do 4 (split; [assumption|]). split; [|auto]. rewrite E5. apply map_ext. intros cs. apply one_frac_list.
Qed.
Lemma table_complete_p (T : @hist K -> K) ncpus scs esch k cols mult cst csc h : char_gt K 3 -> 0 < ncpus ->
  cols <> [] -> (forall c, In c cols -> length c = 2 ^ S k) -> length mult = 2 ^ S k ->
  logup_scheds false k 1 scs -> valid_sched (S k) esch ->
  exists pf h' n d x, batch_prove T ncpus scs esch (TableIn cols mult cst csc) h = Some (pf, h') /\
    lp_claims pf = map (fun c => mkClaim x (mle c x)) (mult :: cols) /\ length x = S k /\ length (lp_sumchecks pf) = k /\
    (n, d) = one_frac (table_rows cst csc (S k) mult cols) /\
    ((forall p r, In p (lp_sumchecks pf) -> In r (pf_point p) -> not_node 3 r) ->
     verify_logup T pf 1 cst csc h = Some (lp_claims pf, [n], [d], h') /\
     shaped T false k [tb_base cst csc (S k) mult cols] pf h /\ claims_true T pf 1 k h (mult :: cols)).
Proof.
  intros. destruct (table_complete T ncpus scs esch k cols mult cst csc h) as (pf & h' & n & d & x & E1 & E2 & E3 & E4 & E5 & E6); auto.
  exists pf, h', n, d, x. do 4 (split; [assumption|]). split; [|auto]. rewrite E5. apply one_frac_list.
Qed.
End P.

(** Worked example: two lookup instances of two columns with 4 rows, over the field with 101 elements. *)
Definition lT (h : @hist F101) : F101 := q (Z.of_nat (length h) + 5).
Definition l_insts : list (list (list F101)) :=
  [[q_list [1; 2; 3; 4]%Z; q_list [5; 6; 7; 8]%Z]; [q_list [9; 9; 2; 0]%Z; q_list [0; 1; 0; 3]%Z]].
Definition l_run := batch_prove lT 3 (seq_rsched 6) (@seq_sched 2) (LookupIn (concat l_insts) (q 10) (q 3) 2) [].
Definition l_ok : bool :=
  match l_run with
  | Some (pf, _) =>
      forallb (fun p => forallb (fun r => forallb (fun i => negb (r =? fnat i)%F) (seq 0 4)) (pf_point p)) (lp_sumchecks pf) &&
      match verify_logup lT pf 2 (q 10) (q 3) [] with
      | Some (_, nums, dens, _) =>
          match map (fun cs => one_frac (lookup_rows (q 10) (q 3) 2 cs)) l_insts, nums, dens with
          | [(a, b); (c, d)], [n1; n2], [d1; d2] => (a =? n1) && (b =? d1) && (c =? n2) && (d =? d2) && negb (a =? 0) && negb (d =? 0)
          | _, _, _ => false
          end%F
      | None => false
      end
  | None => false
  end.
Lemma l_ok_true : l_ok = true. Proof. vm_compute. reflexivity. Qed.

(** A table proof without rounds, and one with all shapes respected, both giving the fraction 0/1 for a table whose true fraction is not 0. *)
Definition f_cols : list (list F101) := [q_list [0; 1; 2; 3]%Z].
Definition f_mult : list F101 := q_list [1; 2; 0; 1]%Z.
Definition f_true : F101 * F101 := one_frac (table_rows (q 10) (q 3) 2 f_mult f_cols).
Lemma f_true_nonzero : negb (fst f_true =? 0)%F && negb (snd f_true =? 0)%F = true. Proof. vm_compute. reflexivity. Qed.
(** Hypotheses of [late_evals_forge] hold for this message. *)
Definition f_msg (c0 : F101) : list F101 := [(c0 * / (1 + 1))%F; (c0 * / (1 + 1))%F; (c0 * / (1 + 1))%F; (c0 * / (1 + 1))%F].
Definition f_hyps : bool :=
  let '(b0, al, la, h1) := three lT lbl_ib lbl_ia lbl_il (absorb_outputs 1 [[q 0; q 0; q 1; q 1]] []) in
  let c0 := o_val b0 la (q 0, q 0, q 1, q 1) in
  match verify lT c0 (mkProof [] [f_msg c0]) 1 3 (EvFelt c0 :: h1) with
  | Some ([r], _, h2) =>
      let '(b, _, _, _) := three lT lbl_lb lbl_la lbl_ll h2 in negb (b =? 0)%F && negb (eqp [b0] [r] =? 0)%F
  | _ => false
  end.
Lemma f_hyps_true : f_hyps = true. Proof. vm_compute. reflexivity. Qed.
