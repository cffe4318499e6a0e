(** Consequences used by the property theorems about lookups: fraction values, panics on short columns,
    and the confusion between tables that share a constant challenge. *)
From Coq Require Import List Arith Lia Bool ZArith Field.
From Verif Require Import ListAux FieldDef PolyList MleMath M_Mle P_Mle P_Eq M_Interp P_Interp M_Sumcheck
  P_ScVerify P_ScProve M_ScParallel M_SamePoly M_LogUp P_LogUp M_Lookup P_Lookup P_Lookup2.
Import ListNotations.

Section P.
Context {K : field}.
Add Field Kf_lk3 : (fth K).
Local Open Scope F_scope.

Lemma lookup_value (cols : list (list K)) cst csc k :
  cols <> [] -> (forall c, In c cols -> length c = 2 ^ S (S k)) ->
  (forall i, i < 2 ^ S (S k) -> row_val cst csc cols i <> 0) ->
  exists n d, (c <- new_lookup_circuit cols cst csc ;; circuit_fraction c) = Some (n, d) /\ d <> 0 /\
    n * / d = - sumn (2 ^ S (S k)) (fun i => / row_val cst csc cols i).
Proof.
  intros Hne Hk Hp. rewrite lookup_fraction by (split; auto; exists k; auto).
  set (l := lookup_fracs cst csc cols). exists (fst (frac_list l)), (snd (frac_list l)). split; [destruct (frac_list l); reflexivity|].
  assert (Hl : forall x, In x l -> snd x <> 0).
  { intros x Hx. unfold l, lookup_fracs in Hx. rewrite (head_len cols (2 ^ S (S k))) in Hx by auto. apply in_map_iff in Hx.
    destruct Hx as (i & <- & Hi). apply in_seq in Hi. cbn [snd]. apply Hp. lia. }
  assert (Hd : snd (frac_list l) <> 0).
  { rewrite frac_list_snd. apply fprod_neq_0. intros x Hx. apply in_map_iff in Hx. destruct Hx as (y & <- & Hy). auto. }
  split; auto. rewrite frac_list_value by auto. rewrite (map_ext_in (fun x => fst x * / snd x) (fun x => - (1) * / snd x)).
  - transitivity (fsum (map (fun x => - (1) * / snd x) l)); [field; auto|].
    unfold l, lookup_fracs. rewrite (head_len cols (2 ^ S (S k))) by auto. rewrite map_map. cbn [snd].
    rewrite fsum_map_seq. rewrite sumn_scal. ring.
  - intros x Hx. unfold l, lookup_fracs in Hx. apply in_map_iff in Hx. destruct Hx as (i & <- & _). cbn [fst snd]. reflexivity.
Qed.
Lemma table_value (cols : list (list K)) mult cst csc k :
  cols <> [] -> (forall c, In c cols -> length c = 2 ^ S k) -> length mult = 2 ^ S k ->
  (forall i, i < 2 ^ S k -> row_val cst csc cols i <> 0) ->
  exists n d, (c <- new_table_circuit cols mult cst csc ;; circuit_fraction c) = Some (n, d) /\ d <> 0 /\
    n * / d = sumn (2 ^ S k) (fun i => nth i mult 0 * / row_val cst csc cols i).
Proof.
  intros Hne Hk Hm Hp. rewrite table_fraction by (split; auto; exists k; auto).
  set (l := table_fracs cst csc cols mult). exists (fst (frac_list l)), (snd (frac_list l)). split; [destruct (frac_list l); reflexivity|].
  assert (Hlen : length (nth 0 cols []) = (2 ^ S k)%nat) by (apply head_len; auto).
  assert (El : l = map (fun i => (nth i mult 0, row_val cst csc cols i)) (seq 0 (2 ^ S k))).
  { unfold l, table_fracs. rewrite Hlen. apply nth_ext with (d := (0, 0)) (d' := (0, 0)).
    - rewrite combine_length, !map_length, !seq_length. lia.
    - intros i Hi. rewrite combine_length, map_length, seq_length in Hi.
      rewrite combine_nth by (rewrite map_length, seq_length; auto).
      rewrite (nth_map_lt _ _ _ 0%nat) by (rewrite seq_length; lia). rewrite (nth_map_lt _ _ _ 0%nat) by (rewrite seq_length; lia).
      rewrite seq_nth by lia. reflexivity. }
  assert (Hl : forall x, In x l -> snd x <> 0).
  { intros x Hx. rewrite El in Hx. apply in_map_iff in Hx.
    destruct Hx as (i & <- & Hi). apply in_seq in Hi. cbn [snd]. apply Hp. lia. }
  assert (Hd : snd (frac_list l) <> 0).
  { rewrite frac_list_snd. apply fprod_neq_0. intros x Hx. apply in_map_iff in Hx. destruct Hx as (y & <- & Hy). auto. }
  split; auto. rewrite frac_list_value by auto.
  transitivity (fsum (map (fun x => fst x * / snd x) l)); [field; auto|].
  rewrite El, map_map. cbn [fst snd]. rewrite fsum_map_seq. reflexivity.
Qed.

(** Columns of length 2 give a circuit whose output has only the two denominators, so reading the
    fraction panics. *)
Lemma lookup_len2 (cols : list (list K)) cst csc :
  cols <> [] -> (forall c, In c cols -> length c = 2%nat) ->
  (c <- new_lookup_circuit cols cst csc ;; circuit_fraction c) = None.
Proof.
  intros Hne Hc. unfold new_lookup_circuit. rewrite (merged_ok cols cst csc 2) by auto. cbn. reflexivity.
Qed.

(** Two tables with 4 rows each: 2-bit ReLU (rows (i, max i 0) for i = -2..1) and 2-bit Range (0..3).
    Four lookups of the pair (1, 0) in the ReLU table are paid for by the multiplicity of the Range row 1. *)
Definition relu2_rows : list (list Z) := [[-2; 0]; [-1; 0]; [0; 0]; [1; 1]]%Z.
Definition range2_rows : list (list Z) := [[0]; [1]; [2]; [3]]%Z.
Definition bad_lookups : list (list Z) := [[1; 0]; [1; 0]; [1; 0]; [1; 0]]%Z.
Definition cross_groups (csc : K) : list (group K) :=
  [mkGroup K [columns_of 2 bad_lookups] (columns_of 2 relu2_rows) [0; 0; 0; 0] csc;
   mkGroup K [] (columns_of 1 range2_rows) [0; fnat 4; 0; 0] 1].
Lemma cross_ok csc g : In g (cross_groups csc) -> group_ok g.
Proof.
  intros [<-|[<-|[]]]; split; cbn [g_insts g_tcols g_mult].
  - intros cols [<-|[]]. split; [discriminate|]. exists 0%nat. intros c [<-|[<-|[]]]; reflexivity.
  - split; [discriminate|]. exists 1%nat. split; [|reflexivity]. intros c [<-|[<-|[]]]; reflexivity.
  - intros cols [].
  - split; [discriminate|]. exists 1%nat. split; [|reflexivity]. intros c [<-|[]]; reflexivity.
Qed.
Lemma cross_table (cst csc : K) :
  (forall r, In r relu2_rows -> cst + (fZ (nth 0 r 0%Z) + fZ (nth 1 r 0%Z) * csc) <> 0) ->
  (forall r, In r range2_rows -> cst + fZ (nth 0 r 0%Z) <> 0) ->
  ~ In [1; 0]%Z relu2_rows /\
  exists fr, all_fractions (cross_groups csc) cst = Some fr /\ final_check fr = true.
Proof.
  intros H1 H2. split; [cbn; intuition congruence|].
  destruct (all_fractions_ok (cross_groups csc) cst (cross_ok csc)) as (fr & E & Ef). exists fr. split; auto.
  unfold final_check. rewrite final_sum_frac, Ef.
  set (l := at_c cst (concat (map g_pairs (cross_groups csc)))).
  assert (A1 : cst + (fZ (-2) + 0 * csc) <> 0) by (apply (H1 [-2; 0]%Z); cbn; auto).
  assert (A2 : cst + (fZ (-1) + 0 * csc) <> 0) by (apply (H1 [-1; 0]%Z); cbn; auto).
  assert (A3 : cst + (0 + 0 * csc) <> 0) by (apply (H1 [0; 0]%Z); cbn; auto).
  assert (A4 : cst + (fZ 1 + fZ 1 * csc) <> 0) by (apply (H1 [1; 1]%Z); cbn; auto).
  assert (B1 : cst + fZ 0 <> 0) by (apply (H2 [0]%Z); cbn; auto).
  assert (B2 : cst + fZ 1 <> 0) by (apply (H2 [1]%Z); cbn; auto).
  assert (B3 : cst + fZ 2 <> 0) by (apply (H2 [2]%Z); cbn; auto).
  assert (B4 : cst + fZ 3 <> 0) by (apply (H2 [3]%Z); cbn; auto).
  assert (El : l = [(- (1), cst + fZ 1); (- (1), cst + fZ 1); (- (1), cst + fZ 1); (- (1), cst + fZ 1);
    (0, cst + (fZ (-2) + 0 * csc)); (0, cst + (fZ (-1) + 0 * csc)); (0, cst + (0 + 0 * csc)); (0, cst + (fZ 1 + fZ 1 * csc));
    (0, cst + fZ 0); (fnat 4, cst + fZ 1); (0, cst + fZ 2); (0, cst + fZ 3)]).
  { unfold l. cbn -[fZ fnat]. rewrite !fZ_0. repeat f_equal; ring. }
  clearbody l. subst l.
  assert (Hd : forall x, In x [(- (1) : K, cst + fZ 1); (- (1), cst + fZ 1); (- (1), cst + fZ 1); (- (1), cst + fZ 1);
    (0, cst + (fZ (-2) + 0 * csc)); (0, cst + (fZ (-1) + 0 * csc)); (0, cst + (0 + 0 * csc)); (0, cst + (fZ 1 + fZ 1 * csc));
    (0, cst + fZ 0); (fnat 4, cst + fZ 1); (0, cst + fZ 2); (0, cst + fZ 3)] -> snd x <> 0).
  { intros x Hx. cbn [In] in Hx. repeat (destruct Hx as [<-|Hx]; [cbn [snd]; assumption|]). destruct Hx. }
  match goal with |- context[frac_list ?l] => pose proof (frac_list_value l Hd) as Hf; pose proof (frac_list_snd l) as Hs;
    destruct (frac_list l) as [n d] end.
  cbn [fst snd] in Hf, Hs. apply andb_true_iff. split.
  - rewrite Hf. replace (fsum _) with (0 : K); [replace (d * 0) with (0 : K) by ring; apply feqb_refl|].
    cbn [map fst snd fsum]. cbn [fnat]. ring.
  - apply negb_true_iff, feqb_false. rewrite Hs. apply fprod_neq_0. intros x Hx. apply in_map_iff in Hx. destruct Hx as (y & <- & Hy). auto.
Qed.
End P.
