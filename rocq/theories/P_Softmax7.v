(** The softmax evaluation's witness is accepted; forgeries. *)
From Coq Require Import List Arith Lia Bool ZArith Ring Field.
From Verif Require Import ListAux FieldDef PolyList MleMath M_Mle P_Mle P_Eq M_Interp P_Interp M_Sumcheck P_ScVerify P_ScProve P_ScProve2 P_ScBatch P_ScFinal M_ScParallel
  P_ScParallel P_ScApi M_SamePoly P_SamePoly M_LogUp P_LogUp3 P_LogUp4 P_LogUp8 P_LogUp9 M_Tensor P_Tensor M_Layers P_Layers P_Layers2 M_Transformer P_Transformer M_Sop P_Sop
  P_Pooling P_Pooling2 M_RequantP P_RequantP P_RequantP2 M_LayerNorm P_LayerNorm P_LayerNorm2 P_LayerNorm5 P_LayerNorm6 M_Softmax P_Softmax P_Softmax2 P_Softmax3 P_Softmax4 P_Softmax5 P_Softmax6.
From Verif Require M_Basefold.
Import ListNotations.

Section P.
Context {K : field} {C : Type}.
Local Open Scope F_scope.
Add Field Kf_sm7 : (fth K).

(** Columns of rows in the tables whose chunks make up the negated masked input. *)
Lemma comb_cells expf c s m cv n tv cells xs shift : n = (s + m)%nat -> length cells = (2 ^ n)%nat -> length xs = (2 ^ n)%nat -> length shift = (2 ^ m)%nat ->
  Forall (cell_ok expf (sm_bkm c) tv (sm_nz c) (sm_zv c)) cells -> (forall b, (b < 2 ^ n)%nat -> cell_val tv (sm_zv c) (nth b cells cell0) = - masked_int c s cv xs shift b)%Z ->
  (forall b, (b < 2 ^ n)%nat -> nth b (sm_comb_at (fZ (2 ^ 16)) (fZ (2 ^ 8)) tv (sm_zv c) n (ccol ce_in cells) (ccol ce_low cells) (ccol ce_high cells) (zcols (sm_nz c) cells)) 0
     = - nth b (sm_masked c s cv n (map fZ xs) (map fZ shift)) (0 : K)) /\
  sm_out (K := K) n (ccol ce_exp cells) (zcols (sm_nz c) cells) = map fZ (map (fun b => sm_weight expf (sm_bkm c) tv (- masked_int c s cv xs shift b)) (seq 0 (2 ^ n))).
Proof.
  intros En Lc Lx Ls Hc HE. split.
  - intros b Hb. rewrite (comb_nth _ _ expf (sm_bkm c)) by auto. rewrite (masked_nth c s m) by auto. rewrite <- fZ_opp. rewrite <- HE by exact Hb. reflexivity.
  - apply nth_ext with (d := 0) (d' := 0); [unfold sm_out; rewrite !map_length; reflexivity|]. intros b Hb. unfold sm_out in Hb. rewrite map_length, seq_length in Hb.
    rewrite (out_nth expf (sm_bkm c) tv (sm_nz c) (sm_zv c)) by auto. rewrite map_map, nth_map_seq by exact Hb. rewrite HE by exact Hb. reflexivity.
Qed.

(** The run on any rows in the tables, normalised over blocks of [2 ^ s] entries. *)
Lemma sm_run (T : @hist K -> K) ncpus sc es sca scm esh expf c ce cr cx cz pre tv k s cv hv cells (xs shift : list Z) (comms : list C) (last : @claim K) h :
  let m := S (S k) in let n := (s + m)%nat in let nz := sm_nz c in
  let out := map (fun b => sm_weight expf (sm_bkm c) tv (- masked_int c s cv xs shift b)) (seq 0 (2 ^ n)) in
  char_gt K (nz + 3) -> (0 < ncpus)%nat -> (nz <= 3)%nat -> (nz <> 0%nat -> (16 + tv < 64)%nat /\ (0 < sm_zv c < 64)%nat) -> (s < 64)%nat -> n = (cv + cv + hv)%nat -> sm_tv c = Some tv -> fZ (sm_scalar c) <> (0 : K) ->
  length cells = (2 ^ n)%nat -> length xs = (2 ^ n)%nat -> length shift = (2 ^ m)%nat ->
  Forall (cell_ok expf (sm_bkm c) tv nz (sm_zv c)) cells -> (forall b, (b < 2 ^ n)%nat -> cell_val tv (sm_zv c) (nth b cells cell0) = - masked_int c s cv xs shift b)%Z ->
  length comms = (5 + 2 * nz)%nat -> claim_true (map fZ out) last -> length (cl_point last) = n ->
  sm_scheds (K := K) k s nz sc es sca scm esh ->
  exists wit nc pf h' p q xp z h1,
    sm_prove T ncpus sc es sca scm esh nz ce cr cx cz (ccol ce_in cells) (ccol ce_exp cells) (ccol ce_low cells) (ccol ce_high cells) (zcols nz cells) (row_sums s m (map fZ out)) (map fZ shift)
      (sm_shifted c s n (map fZ xs) (map fZ shift)) (sm_tri cv n) (sm_bias c cv n) comms last h = Some (wit, nc, pf, h') /\
    map fst wit = comms /\ Forall2 claim_true (ccol ce_in cells :: ccol ce_exp cells :: ccol ce_low cells :: ccol ce_high cells :: map fZ shift :: zcols nz cells) (map snd wit) /\
    length (cl_point nc) = n /\ cl_eval nc = fZ (sm_scalar c) * mle (map fZ xs) (cl_point nc) /\
    (length p = n /\ length q = n /\ length xp = m /\ smp_comms pf = comms) /\
    ((forall pr x, In pr (flat_map (fun l => lp_sumchecks l) (smp_logups pf)) -> In x (pf_point pr) -> not_node 3 x) ->
     sm_lookups T c ce cr cx cz pf h = Some (sm_cls nz p q xp z (mle (ccol ce_in cells) p) (mle (ccol ce_exp cells) p) (mle (ccol ce_low cells) q) (mle (ccol ce_high cells) q)
        (mle (row_sums s m (map fZ out)) xp) (evals_at (zcols nz cells) z), h1) /\
     ((forall x, In x (pf_point (smp_acc pf)) -> not_node (nz + 2) x) -> (forall x, In x (pf_point (smp_mask pf)) -> not_node 3 x) ->
      eqp (cl_point nc) (pf_point (smp_acc pf)) * sm_tril cv (cl_point nc) <> 0 ->
      sm_verify T c ce cr cx cz (pre ++ [(2 ^ cv)%nat; (2 ^ cv)%nat]) last pf h = Some (wit, mkClaim (cl_point nc) (mle (map fZ xs) (cl_point nc)), h'))).
Proof.
  intros m n nz out Hch Hnc Hnz Hzv Hs Enc Htv Hscal Lc Lx Lsh Hc HE Lcm Hlast Ll Hsc.
  destruct (comb_cells expf c s m cv n tv cells xs shift eq_refl Lc Lx Lsh Hc HE) as [Hcomb Eo]. fold nz in Eo. fold out in Eo. rewrite <- Eo in *. 
  apply (sm_complete_at (fZ (2 ^ 16)) (fZ (2 ^ 8)) T ncpus sc es sca scm esh c ce cr cx cz pre tv k s cv hv); auto.
  - repeat (apply Forall_cons; [unfold ccol; rewrite map_length; exact Lc|]). apply Forall_forall. intros l Hl. unfold zcols in Hl. apply in_flat_map in Hl as (j & _ & [<-|[<-|[]]]); unfold ccol; rewrite map_length; exact Lc.
  - apply zcols_len.
  - rewrite map_length. exact Lsh.
  - rewrite map_length. exact Lx.
Qed.

(** The evaluation's cells are such rows. *)
Lemma eval_cells expf lse c data hv cv shifts shifted cells tv :
  length data = (2 ^ (cv + cv + hv))%nat -> sm_evaluate expf lse c [2 ^ hv; 2 ^ cv; 2 ^ cv]%nat data = Some (shifts, shifted, cells) -> sm_tv c = Some tv ->
  (forall b, (b < 2 ^ (cv + cv + hv))%nat -> (- 2 ^ Z.of_nat (16 + tv + sm_nz c * sm_zv c) < masked_int c cv cv data shifts b <= 0)%Z) ->
  length cells = (2 ^ (cv + cv + hv))%nat /\ length shifts = (2 ^ (cv + hv))%nat /\ Forall (cell_ok expf (sm_bkm c) tv (sm_nz c) (sm_zv c)) cells /\
  (forall b, (b < 2 ^ (cv + cv + hv))%nat -> cell_val tv (sm_zv c) (nth b cells cell0) = - masked_int c cv cv data shifts b /\ ce_out (nth b cells cell0) = sm_weight expf (sm_bkm c) tv (- masked_int c cv cv data shifts b))%Z.
Proof.
  intros Ld He Htv Hr. assert (Ep : (2 ^ (cv + cv + hv) = 2 ^ hv * 2 ^ cv * 2 ^ cv)%nat) by (rewrite !Nat.pow_add_r; lia).
  assert (Hsh : mask_shape [2 ^ hv; 2 ^ cv; 2 ^ cv]%nat (2 ^ hv) (2 ^ cv)) by (left; reflexivity).
  destruct (sm_eval_spec expf lse c _ data _ _ shifts shifted cells Hsh ltac:(rewrite Ld; exact Ep) He) as (tv' & Et & Hn & L1 & L2 & L3 & HE). rewrite Htv in Et. injection Et as <-.
  assert (HB : forall b, (b < 2 ^ (cv + cv + hv))%nat -> nth b cells cell0 = sm_elem (sm_table expf (sm_bkm c)) tv (sm_nz c) (sm_zv c) (masked_int c cv cv data shifts b)).
  { intros b Hb. assert (Hr0 : (b / 2 ^ cv < 2 ^ hv * 2 ^ cv)%nat) by (apply Nat.div_lt_upper_bound; [lia|rewrite Ep in Hb; lia]).
    assert (He0 : (b mod 2 ^ cv < 2 ^ cv)%nat) by (apply Nat.mod_upper_bound; lia). destruct (HE _ _ Hr0 He0) as (_ & E2 & E3).
    replace (b mod 2 ^ cv + 2 ^ cv * (b / 2 ^ cv))%nat with b in E2, E3 by (pose proof (Nat.div_mod b (2 ^ cv) ltac:(lia)); lia). rewrite E3. f_equal. unfold masked_int, above.
    destruct (_ <? _)%nat; [reflexivity|]. rewrite E2. ring. }
  assert (HQ : forall b, (b < 2 ^ (cv + cv + hv))%nat -> cell_ok expf (sm_bkm c) tv (sm_nz c) (sm_zv c) (nth b cells cell0) /\
     cell_val tv (sm_zv c) (nth b cells cell0) = (- masked_int c cv cv data shifts b)%Z /\ ce_out (nth b cells cell0) = sm_weight expf (sm_bkm c) tv (- masked_int c cv cv data shifts b)%Z).
  { intros b Hb. rewrite (HB b Hb). specialize (Hr b Hb). set (e := masked_int c cv cv data shifts b) in *.
    destruct (sm_elem_ok (sm_table expf (sm_bkm c)) tv (sm_nz c) (sm_zv c) e ltac:(lia)) as (S1 & S2 & S3 & S4 & S5 & S6 & S7 & S8 & S9). unfold cell_ok, cell_val. rewrite Z.abs_neq in S1, S9 by lia.
    split; [|split; [exact S1|]]. { do 6 (split; [assumption|]). assumption. }
    rewrite S9. unfold sm_weight. destruct (_ <? _)%Z; [|reflexivity]. reflexivity. }
  split; [rewrite L3, Ep; reflexivity|]. split; [rewrite L1, Nat.pow_add_r; lia|]. split.
  - apply Forall_forall. intros x Hx. apply (In_nth _ _ cell0) in Hx as (b & Hb & <-). apply HQ. rewrite Ep, <- L3. exact Hb.
  - intros b Hb. destruct (HQ b Hb) as (_ & H1 & H2). auto.
Qed.

Lemma sm_honest (T : @hist K -> K) ncpus sc es sca scm esh expf lse c ce cr cx cz pre tv k cv hv data shifts shifted cells (comms : list C) (last : @claim K) h :
  let m := S (S k) in let n := (cv + m)%nat in let nz := sm_nz c in
  m = (cv + hv)%nat -> char_gt K (nz + 3) -> (0 < ncpus)%nat -> (nz <= 3)%nat -> (nz <> 0%nat -> (16 + tv < 64)%nat /\ (0 < sm_zv c < 64)%nat) -> (cv < 64)%nat -> sm_tv c = Some tv -> fZ (sm_scalar c) <> (0 : K) ->
  length data = (2 ^ n)%nat -> sm_evaluate expf lse c [2 ^ hv; 2 ^ cv; 2 ^ cv]%nat data = Some (shifts, shifted, cells) ->
  (forall b, (b < 2 ^ n)%nat -> (- 2 ^ Z.of_nat (16 + tv + nz * sm_zv c) < masked_int c cv cv data shifts b <= 0)%Z) ->
  length comms = (5 + 2 * nz)%nat -> claim_true (ccol ce_out cells) last -> length (cl_point last) = n ->
  sm_scheds (K := K) k cv nz sc es sca scm esh ->
  exists wit nc pf h',
    sm_prove T ncpus sc es sca scm esh nz ce cr cx cz (ccol ce_in cells) (ccol ce_exp cells) (ccol ce_low cells) (ccol ce_high cells) (zcols nz cells) (row_sums cv m (ccol ce_out cells)) (map fZ shifts)
      (sm_shifted c cv n (map fZ data) (map fZ shifts)) (sm_tri cv n) (sm_bias c cv n) comms last h = Some (wit, nc, pf, h') /\
    map fst wit = comms /\ Forall2 claim_true (ccol ce_in cells :: ccol ce_exp cells :: ccol ce_low cells :: ccol ce_high cells :: map fZ shifts :: zcols nz cells) (map snd wit) /\
    length (cl_point nc) = n /\ cl_eval nc = fZ (sm_scalar c) * mle (map fZ data) (cl_point nc) /\
    ((forall pr x, In pr (flat_map (fun l => lp_sumchecks l) (smp_logups pf)) -> In x (pf_point pr) -> not_node 3 x) ->
     (forall x, In x (pf_point (smp_acc pf)) -> not_node (nz + 2) x) -> (forall x, In x (pf_point (smp_mask pf)) -> not_node 3 x) ->
     eqp (cl_point nc) (pf_point (smp_acc pf)) * sm_tril cv (cl_point nc) <> 0 ->
     exists nv, sm_verify T c ce cr cx cz (pre ++ [(2 ^ cv)%nat; (2 ^ cv)%nat]) last pf h = Some (wit, nv, h') /\ claim_true (map fZ data) nv /\ cl_point nv = cl_point nc).
Proof.
  intros m n nz Em Hch Hnc Hnz Hzv Hs Htv Hscal Ld He Hr Lcm Hlast Ll Hsc.
  assert (En : n = (cv + cv + hv)%nat) by (unfold n; lia). rewrite En in Ld, Hr.
  destruct (eval_cells expf lse c data hv cv shifts shifted cells tv Ld He Htv Hr) as (Lc & Lsh & Hc & HE).
  assert (Eo : ccol ce_out cells = map fZ (map (fun b => sm_weight expf (sm_bkm c) tv (- masked_int c cv cv data shifts b)) (seq 0 (2 ^ n))) :> list K).
  { apply nth_ext with (d := 0) (d' := 0); [unfold ccol; rewrite !map_length, seq_length, En; exact Lc|]. intros b Hb. unfold ccol in Hb. rewrite map_length, Lc in Hb. rewrite ccol_nth by lia. rewrite map_map, nth_map_seq by (rewrite En; exact Hb). destruct (HE b Hb) as [_ ->]. reflexivity. }
  rewrite Eo in *.
  destruct (sm_run T ncpus sc es sca scm esh expf c ce cr cx cz pre tv k cv cv hv cells data shifts comms last h) as (wit & nc & pf & h' & p & q & xp & z & h1 & R1 & R2 & R3 & R4 & R5 & _ & R6); auto.
  - fold m n. rewrite En. exact Lc.
  - fold m n. rewrite En. exact Ld.
  - fold m. rewrite Em. exact Lsh.
  - fold m n. rewrite En. intros b Hb. apply HE. exact Hb.
  - exists wit, nc, pf, h'. do 5 (split; [assumption|]). intros N0 N1 N2 Nt. destruct (R6 N0) as [_ R7]. eexists. split; [apply R7; auto|]. split; [|reflexivity]. split; cbn [cl_point cl_eval]; [rewrite map_length, R4, Ld; f_equal; fold m n; lia|reflexivity].
Qed.
End P.
