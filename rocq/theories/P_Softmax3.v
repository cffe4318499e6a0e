(** The softmax layer in integers: what an accepted proof says about the output. *)
From Coq Require Import List Arith Lia Bool ZArith Ring Field.
From Verif Require Import ListAux FieldDef PolyList MleMath M_Mle P_Mle P_Eq M_Interp P_Interp M_Sumcheck P_ScVerify P_ScProve P_ScProve2 P_ScBatch P_ScFinal M_ScParallel
  P_ScParallel P_ScApi M_SamePoly P_SamePoly M_LogUp P_LogUp3 M_Tensor P_Tensor M_Layers P_Layers P_Layers2 M_Transformer P_Transformer M_Sop P_Sop
  P_Pooling M_RequantP P_RequantP P_RequantP2 M_LayerNorm P_LayerNorm P_LayerNorm2 P_LayerNorm5 P_LayerNorm6 M_Softmax P_Softmax P_Softmax2.
From Verif Require M_Basefold.
Import ListNotations.

(** A row of the four lookups: the chunks in range, the exponential from its table, the flags from the zero table. *)
Definition cell_ok (expf : Z -> Z) (bkm : Z) (tv nz zv : nat) (c : sm_cell) : Prop :=
  (0 <= ce_low c < 2 ^ 8)%Z /\ (0 <= ce_high c < 2 ^ 8)%Z /\ (0 <= ce_in c < 2 ^ Z.of_nat tv)%Z /\ ce_exp c = sm_table expf bkm (ce_in c) /\
  length (ce_zin c) = nz /\ Forall (fun z => (0 <= z < 2 ^ Z.of_nat zv)%Z) (ce_zin c) /\ ce_zout c = map (fun z => if (z =? 0)%Z then 1%Z else 0%Z) (ce_zin c).
(** The value of the chunks of a row. *)
Definition cell_val (tv zv : nat) (c : sm_cell) : Z :=
  (ce_low c + 2 ^ 8 * ce_high c + 2 ^ 16 * ce_in c + 2 ^ Z.of_nat (16 + tv) * chunk_sum zv (ce_zin c))%Z.
Definition cell_flag (c : sm_cell) : Z := fold_right Z.mul 1%Z (ce_zout c).

Lemma flags_prod l : fold_right Z.mul 1%Z (map (fun z => if (z =? 0)%Z then 1%Z else 0%Z) l) = if forallb (Z.eqb 0) l then 1%Z else 0%Z.
Proof.
  induction l as [|z l IH]; cbn [map fold_right forallb]; [reflexivity|]. rewrite IH. rewrite (Z.eqb_sym 0 z). destruct (z =? 0)%Z; destruct (forallb _ l); reflexivity.
Qed.
Lemma chunk_sum_bound zv l : Forall (fun z => (0 <= z < 2 ^ Z.of_nat zv)%Z) l -> (0 <= chunk_sum zv l < 2 ^ Z.of_nat (length l * zv))%Z.
Proof.
  assert (P := zp zv). induction 1 as [|z l Hz Hl IH]; cbn [chunk_sum fold_right length]; [cbn; lia|]. fold (chunk_sum zv l).
  replace (S (length l) * zv)%nat with (zv + length l * zv)%nat by lia. rewrite Nat2Z.inj_add, Z.pow_add_r by lia. nia.
Qed.
Lemma cell_weight expf bkm tv nz zv c : cell_ok expf bkm tv nz zv c ->
  (0 <= cell_val tv zv c < 2 ^ Z.of_nat (16 + tv + nz * zv))%Z /\ (cell_flag c * ce_exp c)%Z = sm_weight expf bkm tv (cell_val tv zv c).
Proof.
  intros (H1 & H2 & H3 & H4 & H5 & H6 & H7). destruct (chunk_sum0 zv _ H6) as [S1 S2]. assert (S3 := chunk_sum_bound zv _ H6). rewrite H5 in S3.
  assert (P := zp tv). unfold cell_val, sm_weight, cell_flag. set (s := chunk_sum zv (ce_zin c)) in *.
  assert (Ea : (2 ^ Z.of_nat (16 + tv) = 2 ^ 16 * 2 ^ Z.of_nat tv)%Z) by (rewrite Nat2Z.inj_add, Z.pow_add_r by lia; reflexivity).
  assert (Eb : (2 ^ Z.of_nat (16 + tv + nz * zv) = 2 ^ 16 * 2 ^ Z.of_nat tv * 2 ^ Z.of_nat (nz * zv))%Z) by (rewrite Nat2Z.inj_add, Z.pow_add_r, Ea by lia; reflexivity).
  rewrite Ea, Eb. clear Ea Eb.
  set (u := (ce_low c + 2 ^ 8 * ce_high c + 2 ^ 16 * ce_in c + 2 ^ 16 * 2 ^ Z.of_nat tv * s)%Z).
  assert (Eu : (u / 2 ^ 16 = ce_in c + 2 ^ Z.of_nat tv * s)%Z).
  { symmetry. apply (Z.div_unique u (2 ^ 16) _ (ce_low c + 2 ^ 8 * ce_high c)); [left; lia|unfold u; ring]. }
  split.
  - unfold u. generalize dependent (2 ^ Z.of_nat tv)%Z. generalize dependent (2 ^ Z.of_nat (nz * zv))%Z. intros N S3 M Hi _ Pm _. 
    assert (M * s <= M * (N - 1))%Z by nia. assert (0 <= M * s)%Z by nia. lia.
  - rewrite Eu. rewrite H7, flags_prod. destruct (Z.eq_dec s 0) as [E|N].
    + assert (F := proj1 S2 E). replace (forallb (Z.eqb 0) (ce_zin c)) with true. 2: { symmetry. apply forallb_forall. intros z Hz. rewrite Forall_forall in F. rewrite (F z Hz). reflexivity. }
      rewrite E, Z.mul_0_r, Z.add_0_r. destruct (Z.ltb_spec (ce_in c) (2 ^ Z.of_nat tv)); [|lia]. rewrite H4. unfold sm_table. lia.
    + replace (forallb (Z.eqb 0) (ce_zin c)) with false. 2: { symmetry. destruct (forallb (Z.eqb 0) (ce_zin c)) eqn:Ef; [|reflexivity]. exfalso. apply N, S2. rewrite forallb_forall in Ef. rewrite Forall_forall. intros z Hz. apply Ef in Hz. lia. }
      destruct (Z.ltb_spec (ce_in c + 2 ^ Z.of_nat tv * s) (2 ^ Z.of_nat tv)); [nia|]. lia.
Qed.

Section P.
Context {K : field} {C : Type}.
Local Open Scope F_scope.
Add Field Kf_sm3 : (fth K).

Definition ccol (f : sm_cell -> Z) (cells : list sm_cell) : list K := map (fun c => fZ (f c)) cells.
(** The columns of the zero table lookup: input and flag of every chunk. *)
Definition zcols (nz : nat) (cells : list sm_cell) : list (list K) :=
  flat_map (fun j => [ccol (fun c => nth j (ce_zin c) 0%Z) cells; ccol (fun c => nth j (ce_zout c) 0%Z) cells]) (seq 0 nz).
(** The masked input of the layer, negative: what the exponential is taken of, entry [b]. *)
Definition masked_int (c : sm_ctx) (s cv : nat) (xs shift : list Z) (b : nat) : Z :=
  if above cv b then sm_neg_inf c else (sm_scalar c * nth b xs 0 + nth (b / 2 ^ s)%nat shift 0)%Z.

Lemma every2_flat {A B} (f g : A -> B) l : every2 (flat_map (fun j => [f j; g j]) l) = map f l /\ every2 (skipn 1 (flat_map (fun j => [f j; g j]) l)) = map g l.
Proof.
  induction l as [|x l [I1 I2]]; [auto|]. cbn [flat_map app every2 skipn map]. split; [f_equal; exact I1|].
  destruct l as [|y l]; [reflexivity|]. cbn [flat_map app] in *. change (every2 (g x :: f y :: g y :: flat_map (fun j => [f j; g j]) l)) with (g x :: every2 (g y :: flat_map (fun j => [f j; g j]) l)).
  cbn [skipn] in I2. rewrite I2. reflexivity.
Qed.
Lemma zcols_len nz cells : length (zcols nz cells) = (2 * nz)%nat.
Proof. unfold zcols. assert (Q : forall {A} (f : nat -> A) g k, length (flat_map (fun j => [f j; g j]) (seq k nz)) = (2 * nz)%nat) by (intros A f g; induction nz as [|nz IH]; intros k; [reflexivity|]; cbn [seq flat_map app length]; rewrite IH; lia). apply Q. Qed.
Lemma nth_all {A} (l : list A) d : map (fun j => nth j l d) (seq 0 (length l)) = l.
Proof. apply nth_ext with (d := d) (d' := d); [rewrite map_length, seq_length; reflexivity|]. intros i Hi. rewrite map_length, seq_length in Hi. rewrite nth_map_seq by exact Hi. reflexivity. Qed.
Lemma ccol_nth f cells b : (b < length cells)%nat -> nth b (ccol f cells) 0 = fZ (f (nth b cells cell0)).
Proof. intros H. unfold ccol. rewrite (nth_map_lt _ cells b cell0) by exact H. reflexivity. Qed.
Lemma fprod_fZ (l : list Z) : fprod (map fZ l) = (fZ (fold_right Z.mul 1%Z l) : K).
Proof. induction l as [|x l IH]; cbn [map fold_right]; [symmetry; apply fZ_1|]. change (fZ x * fprod (map fZ l) = (fZ (x * fold_right Z.mul 1%Z l) : K)). rewrite IH, fZ_mul. reflexivity. Qed.
Lemma peval_fZ zv (l : list Z) : peval (map fZ l) (fZ (2 ^ Z.of_nat zv)) = (fZ (chunk_sum zv l) : K).
Proof. induction l as [|x l IH]; cbn [map peval chunk_sum fold_right]; [reflexivity|]. fold (chunk_sum zv l). rewrite IH, fZ_add, fZ_mul. reflexivity. Qed.

Lemma out_nth expf bkm tv nz zv n cells b : length cells = (2 ^ n)%nat -> Forall (cell_ok expf bkm tv nz zv) cells -> (b < 2 ^ n)%nat ->
  nth b (sm_out n (ccol ce_exp cells) (zcols nz cells)) 0 = fZ (sm_weight expf bkm tv (cell_val tv zv (nth b cells cell0))).
Proof.
  intros L H Hb. unfold sm_out. rewrite nth_map_seq by exact Hb. unfold zcols. rewrite (proj2 (every2_flat _ _ _)). rewrite ccol_nth by lia. rewrite map_map.
  rewrite (map_ext _ (fun j => fZ (nth j (ce_zout (nth b cells cell0)) 0%Z))) by (intros j; apply ccol_nth; lia).
  rewrite Forall_forall in H. assert (Hb' : (b < length cells)%nat) by lia. assert (Hc := H (nth b cells cell0) (nth_In _ _ Hb')). destruct (cell_weight _ _ _ _ _ _ Hc) as [_ <-].
  rewrite <- (map_map (fun j => nth j (ce_zout (nth b cells cell0)) 0%Z) fZ). destruct Hc as (_ & _ & _ & _ & Hl & _ & Ho).
  replace nz with (length (ce_zout (nth b cells cell0))) by (rewrite Ho, map_length; exact Hl). rewrite nth_all, fprod_fZ, fZ_mul. reflexivity.
Qed.
Lemma comb_nth w16 w8 expf bkm tv nz zv n cells b : length cells = (2 ^ n)%nat -> Forall (cell_ok expf bkm tv nz zv) cells -> (b < 2 ^ n)%nat ->
  nth b (sm_comb_at (fZ w16) (fZ w8) tv zv n (ccol ce_in cells) (ccol ce_low cells) (ccol ce_high cells) (zcols nz cells)) 0 =
  fZ (let c := nth b cells cell0 in ce_low c + w8 * ce_high c + w16 * ce_in c + 2 ^ Z.of_nat (16 + tv) * chunk_sum zv (ce_zin c))%Z.
Proof.
  intros L H Hb. unfold sm_comb_at. rewrite nth_map_seq by exact Hb. unfold zcols. rewrite (proj1 (every2_flat _ _ _)). rewrite !ccol_nth by lia. rewrite map_map.
  rewrite (map_ext _ (fun j => fZ (nth j (ce_zin (nth b cells cell0)) 0%Z))) by (intros j; apply ccol_nth; lia).
  rewrite Forall_forall in H. assert (Hb' : (b < length cells)%nat) by lia. assert (Hc := H (nth b cells cell0) (nth_In _ _ Hb')).
  rewrite <- (map_map (fun j => nth j (ce_zin (nth b cells cell0)) 0%Z) fZ). destruct Hc as (_ & _ & _ & _ & Hl & _ & _).
  rewrite <- Hl at 1. rewrite nth_all, peval_fZ. cbn zeta. rewrite !fZ_add, !fZ_mul. reflexivity.
Qed.
Lemma masked_nth c s m cv n xs shift b : n = (s + m)%nat -> length xs = (2 ^ n)%nat -> length shift = (2 ^ m)%nat -> (b < 2 ^ n)%nat ->
  nth b (sm_masked c s cv n (map fZ xs) (map fZ shift)) 0 = (fZ (masked_int c s cv xs shift b) : K).
Proof.
  intros En Lx Ls Hb. unfold sm_masked. rewrite nth_map_seq by exact Hb. unfold masked_int. destruct (above cv b); [reflexivity|].
  rewrite (nth_map_lt _ xs b 0%Z) by lia. rewrite (nth_map_lt _ shift (b / 2 ^ s)%nat 0%Z). rewrite fZ_add, fZ_mul. reflexivity.
  rewrite Ls. apply Nat.div_lt_upper_bound; [apply Nat.pow_nonzero; lia|]. rewrite <- Nat.pow_add_r, <- En. exact Hb.
Qed.

Lemma neg_l (x : K) : - x + x = 0.
Proof. ring. Qed.
Lemma sm_layer_sound (T : @hist K -> K) P V expf c ce cr cx cz pre tv s m cv hv n (last : @claim K) (pf : @sm_proof K C) h p q xp z vi vo vl vh vx vz h1 wit nc h' cells shift xs :
  small_inj (K := K) P -> char_gt K (sm_nz c + 3) -> (0 < n)%nat -> length p = n -> length xp = m -> n = (s + m)%nat -> n = (cv + cv + hv)%nat -> sm_tv c = Some tv ->
  sm_lookups T c ce cr cx cz pf h = Some (sm_cls (sm_nz c) p q xp z vi vo vl vh vx vz, h1) -> length vz = (2 * sm_nz c)%nat ->
  sm_verify T c ce cr cx cz (pre ++ [(2 ^ cv)%nat; (2 ^ cv)%nat]) last pf h = Some (wit, nc, h') ->
  Forall2 claim_true (ccol ce_in cells :: ccol ce_exp cells :: ccol ce_low cells :: ccol ce_high cells :: map fZ shift :: zcols (sm_nz c) cells) (map snd wit) ->
  Forall (cell_ok expf (sm_bkm c) tv (sm_nz c) (sm_zv c)) cells ->
  claim_true (map fZ xs) nc -> (forall b, (b < 2 ^ n)%nat -> (Z.abs (masked_int c s cv xs shift b) <= V)%Z) -> (V + 2 ^ Z.of_nat (16 + tv + sm_nz c * sm_zv c) <= P)%Z ->
  (let out := map (fun b => sm_weight expf (sm_bkm c) tv (- masked_int c s cv xs shift b)) (seq 0 (2 ^ n)) in
   claim_true (map fZ out) last /\
   (forall b, (b < 2 ^ n)%nat -> (- 2 ^ Z.of_nat (16 + tv + sm_nz c * sm_zv c) < masked_int c s cv xs shift b <= 0)%Z) /\
   (forall b, (b < 2 ^ n)%nat -> above cv b = true -> nth b out 0%Z = 0%Z) /\
   mle (row_sums s m (map fZ out)) xp = vx /\
   mle (ccol ce_in cells) p = vi /\ mle (ccol ce_exp cells) p = vo /\ mle (ccol ce_low cells) q = vl /\ mle (ccol ce_high cells) q = vh /\ evals_at (zcols (sm_nz c) cells) z = vz) \/
  sm_fooled T c s cv n p q xp z vi vo vl vh vx vz last pf h1 (ccol ce_in cells) (ccol ce_exp cells) (ccol ce_low cells) (ccol ce_high cells) (map fZ shift) (zcols (sm_nz c) cells) (map fZ xs) \/
  table_event (add2 n (sm_comb tv (sm_zv c) n (ccol ce_in cells) (ccol ce_low cells) (ccol ce_high cells) (zcols (sm_nz c) cells)) (sm_masked c s cv n (map fZ xs) (map fZ shift)))
              (sm_ap T n (sm_nz c) pf h1).
Proof.
  intros HI Hch Hn Lp Lx Enm Enc Htv El Lvz Hv Hw Hc Hx HV HP.
  destruct (sm_sound T c ce cr cx cz pre tv s m cv hv n last pf h p q xp z vi vo vl vh vx vz h1 wit nc h' _ _ _ _ _ _ (map fZ xs) Hch Hn Lp Lx Enm Enc Htv El Lvz Hv Hw (zcols_len _ _) Hx) as [[Hlen Lsh] HS].
  inversion Hlen as [|? ? L1 Hlen1]. clear Hlen. rewrite Forall_forall in Hlen1. assert (L5 : length (map fZ xs : list K) = (2 ^ n)%nat) by (apply Hlen1; cbn [In]; tauto).
  unfold ccol in L1. rewrite map_length in L1, L5, Lsh. clear Hlen1.
  destruct HS as [(S1 & S2 & S3 & S4 & S5 & S6 & S7 & La & S8)|]; [|tauto].
  set (ap := sm_ap T n (sm_nz c) pf h1) in *. unfold sm_comb in *.
  match goal with |- _ \/ _ \/ table_event ?t _ => set (D := t) end.
  assert (ED : mle D ap = 0) by (unfold D, add2; rewrite mle_map_seq by auto; rewrite mlef_add; fold (mle (sm_comb_at (fZ (2 ^ 16)) (fZ (2 ^ 8)) tv (sm_zv c) n (ccol ce_in cells) (ccol ce_low cells) (ccol ce_high cells) (zcols (sm_nz c) cells)) ap); fold (mle (sm_masked c s cv n (map fZ xs) (map fZ shift)) ap); rewrite S8; apply neg_l).
  destruct (all0_dec D) as [HD0|HD0]; [|right; right; split; auto].
  left. clear S8 ED Hv El.
  assert (HE : forall b, (b < 2 ^ n)%nat -> cell_val tv (sm_zv c) (nth b cells cell0) = (- masked_int c s cv xs shift b)%Z).
  { intros b Hb. assert (Q := all0_nth D b HD0). unfold D, add2 in Q. rewrite nth_map_seq in Q by exact Hb.
    rewrite (comb_nth _ _ expf (sm_bkm c)) in Q by auto. rewrite (masked_nth c s m) in Q by auto. rewrite <- fZ_add in Q.
    assert (Hcb := cell_weight expf (sm_bkm c) tv (sm_nz c) (sm_zv c) (nth b cells cell0)). destruct Hcb as [Hcb _]; [rewrite Forall_forall in Hc; apply Hc, nth_In; lia|].
    specialize (HV b Hb). apply HI in Q; unfold cell_val in *; cbn zeta in *; lia. }
  assert (Eo : sm_out n (ccol ce_exp cells) (zcols (sm_nz c) cells) = map fZ (map (fun b => sm_weight expf (sm_bkm c) tv (- masked_int c s cv xs shift b)) (seq 0 (2 ^ n)))).
  { apply nth_ext with (d := 0) (d' := 0); [unfold sm_out; rewrite !map_length; reflexivity|]. intros b Hb. unfold sm_out in Hb. rewrite map_length, seq_length in Hb.
    rewrite (out_nth expf (sm_bkm c) tv (sm_nz c) (sm_zv c)) by auto. rewrite map_map, nth_map_seq by exact Hb. rewrite HE by exact Hb. reflexivity. }
  cbn zeta. rewrite <- Eo. split; [exact S1|]. split; [|split; [|split; [exact S7|tauto]]].
  - intros b Hb. rewrite Forall_forall in Hc. destruct (cell_weight expf (sm_bkm c) tv (sm_nz c) (sm_zv c) (nth b cells cell0)) as [Q _]; [apply Hc, nth_In; lia|]. rewrite HE in Q by exact Hb. lia.
  - intros b Hb Ha. rewrite nth_map_seq by exact Hb. unfold masked_int. rewrite Ha. unfold sm_weight, sm_neg_inf. rewrite Z.shiftl_mul_pow2 by lia. replace (- (- (Z.shiftr (sm_bkm c) 16 + 1) * 2 ^ 16))%Z with ((Z.shiftr (sm_bkm c) 16 + 1) * 2 ^ 16)%Z by ring.
    rewrite Z.div_mul by lia. rewrite Z.shiftr_div_pow2 by lia. destruct (_ <? _)%Z; [|reflexivity]. destruct (Z.leb_spec (sm_bkm c) (2 ^ 16 * (sm_bkm c / 2 ^ 16 + 1))); [reflexivity|].
    pose proof (Z.mod_pos_bound (sm_bkm c) (2 ^ 16) ltac:(lia)). pose proof (Z.div_mod (sm_bkm c) (2 ^ 16) ltac:(lia)). lia.
Qed.
End P.
