(** Proofs about the layer normalisation proof: recombination of the range-checked part, and soundness for integers. *)
From Coq Require Import List Arith Lia Bool ZArith Ring Field Znumtheory.
From Verif Require Import ListAux FieldDef PolyList MleMath M_Mle P_Mle P_Eq M_Interp P_Interp M_Sumcheck P_ScVerify P_ScProve P_ScProve2 P_ScBatch P_ScFinal M_ScParallel
  P_ScParallel P_ScApi M_SamePoly P_SamePoly M_LogUp P_LogUp3 P_LogUp4 P_LogUp8 P_LogUp9 M_Tensor P_Tensor M_Layers P_Layers P_Layers2 P_Layers3 P_Transformer P_Transformer2 M_Sop P_Sop P_Code3
  M_Tables P_Tables P_Tables2 M_Quant M_Requant P_Requant P_Requant2 P_Pooling P_Pooling2 M_RequantP P_RequantP P_RequantP2 M_LayerNorm P_LayerNorm P_LayerNorm2.
From Verif Require M_Basefold P_Basefold.
Import ListNotations.

Section P.
Context {K : field} {C : Type}.
Local Open Scope F_scope.
Add Field Kf_ln3 : (fth K).

(** ** The recombined value *)
Definition recomb (B rcb tsl k : nat) (a0 : K) (vs : list K) : K :=
  a0 * fZ (2 ^ Z.of_nat rcb) + digits_f B (firstn (k - 1) vs) + nth (k - 1) vs 0 * / fZ (2 ^ Z.of_nat tsl) * fpow (fZ (2 ^ Z.of_nat B)) (k - 1).
Lemma recomb_fold B (l : list K) : forall a w,
  fold_left (fun '(acc, pow) e => (acc + e * pow, pow * fZ (2 ^ Z.of_nat B))) l (a, w) = (a + w * digits_f B l, w * fpow (fZ (2 ^ Z.of_nat B)) (length l)).
Proof. induction l as [|x l IH]; intros a w; cbn [fold_left digits_f length fpow]; [f_equal; ring|]. rewrite IH. f_equal; ring. Qed.
Lemma ln_recombine_val B c k (a0 a1 : K) (vs : list K) : (0 < k)%nat -> length vs = k -> (B < 64)%nat -> (ln_rcb c < 64)%nat -> (ln_tsl c < 64)%nat ->
  fZ (2 ^ Z.of_nat (ln_tsl c)) <> (0 : K) ->
  ln_recombine B c k (a0 :: a1 :: vs) = Some (recomb B (ln_rcb c) (ln_tsl c) k a0 vs).
Proof.
  intros Hk Lv HB Hr Ht Hn. unfold ln_recombine, pow2u. destruct (Nat.ltb_spec B 64); [|lia]. destruct (Nat.ltb_spec (ln_rcb c) 64); [|lia]. destruct (Nat.ltb_spec (ln_tsl c) 64); [|lia].
  change (nth_error (a0 :: a1 :: vs) 0) with (Some a0). cbn [obind]. unfold csub at 1. destruct (Nat.leb_spec 1 k); [|lia]. cbn [obind skipn]. rewrite recomb_fold.
  unfold finv_opt. apply feqb_false in Hn. rewrite Hn. cbn [obind]. unfold csub. change (length (a0 :: a1 :: vs)) with (S (S (length vs))). change (1 <=? S (S (length vs)))%nat with true. cbn [obind].
  replace (S (S (length vs)) - 1)%nat with (S (S (k - 1))) by lia. change (nth_error (a0 :: a1 :: vs) (S (S (k - 1)))) with (nth_error vs (k - 1)).
  rewrite (nth_error_nth' vs 0) by lia. cbn [obind]. unfold recomb. rewrite firstn_length. replace (Nat.min (k - 1) (length vs)) with (k - 1)%nat by lia. f_equal. ring.
Qed.
(** Recombination of columns at a point is the interpolation of the rows' recombinations. *)
Lemma digits_mle B (cols : list (list K)) pt : digits_f B (evals_at cols pt) = mlef (fun j => digits_f B (map (fun c => nth j c 0) cols)) pt.
Proof.
  induction cols as [|c cols IH]; cbn [evals_at map digits_f]; [symmetry; apply mlef_const|]. fold (evals_at cols pt). rewrite IH. unfold mle. rewrite <- mlef_scal, <- mlef_add. apply mlef_ext. intros; reflexivity.
Qed.
Lemma recomb_mle B rcb tsl k (lin : list K) (rcs : list (list K)) pt : (0 < k)%nat -> length rcs = k ->
  recomb B rcb tsl k (mle lin pt) (evals_at rcs pt) = mlef (fun j => recomb B rcb tsl k (nth j lin 0) (map (fun c => nth j c 0) rcs)) pt.
Proof.
  intros Hk L. unfold recomb. rewrite !mlef_add, !mlef_scal_r. unfold evals_at at 1. rewrite firstn_map. change (map (fun c => mle c pt) (firstn (k - 1) rcs)) with (evals_at (firstn (k - 1) rcs) pt).
  rewrite digits_mle. unfold evals_at. rewrite (nth_map_lt _ rcs (k - 1) []) by lia. unfold mle.
  f_equal; [f_equal|].
  - apply mlef_ext. intros j _. rewrite firstn_map. reflexivity.
  - f_equal. f_equal. apply mlef_ext. intros j _. rewrite (nth_map_lt _ rcs (k - 1) []) by lia. reflexivity.
Qed.

(** ** One row, in integers *)
(** The slack of the range check: the top chunk is not checked to be a multiple of its scale. *)
Definition ln_slack (B tsl k : nat) : Z := if (tsl =? 0)%nat then 0%Z else (2 ^ Z.of_nat ((k - 1) * B))%Z.
Lemma fpow_2B B n : fpow (fZ (2 ^ Z.of_nat B)) n = (fZ (2 ^ Z.of_nat (n * B)) : K).
Proof. induction n as [|n IH]; cbn [fpow]; [change (2 ^ Z.of_nat (0 * B))%Z with 1%Z; now rewrite fZ_1|]. rewrite IH, <- fZ_mul. f_equal. replace (S n * B)%nat with (B + n * B)%nat by lia. rewrite Nat2Z.inj_add, Z.pow_add_r by lia. reflexivity. Qed.
Lemma digits_snoc B (l : list Z) t : digits_val B (l ++ [t]) = (digits_val B l + 2 ^ Z.of_nat (length l * B) * t)%Z.
Proof.
  induction l as [|c l IH]; cbn [app digits_val length]; [change (2 ^ Z.of_nat (0 * B))%Z with 1%Z; ring|]. rewrite IH. replace (S (length l) * B)%nat with (B + length l * B)%nat by lia. rewrite Nat2Z.inj_add, Z.pow_add_r by lia. ring.
Qed.
Lemma recomb_fZ B rcb tsl k i chs : (0 < k)%nat -> length chs = k -> fZ (2 ^ Z.of_nat tsl) <> (0 : K) ->
  fZ (2 ^ Z.of_nat tsl) * recomb B rcb tsl k (fZ i) (map fZ chs)
  = (fZ (2 ^ Z.of_nat tsl * (i * 2 ^ Z.of_nat rcb + digits_val B (firstn (k - 1) chs)) + nth (k - 1) chs 0%Z * 2 ^ Z.of_nat ((k - 1) * B)) : K).
Proof.
  intros Hk L Hn. unfold recomb. rewrite firstn_map, digits_f_fZ, fpow_2B. rewrite (nth_map_lt _ chs (k - 1) 0%Z) by lia. rewrite fZ_add, !fZ_mul, fZ_add, fZ_mul. field. exact Hn.
Qed.
Lemma zpow_split a b c d : (a + b = c + d)%nat -> (2 ^ Z.of_nat a * 2 ^ Z.of_nat b = 2 ^ Z.of_nat c * 2 ^ Z.of_nat d)%Z.
Proof. intros E. rewrite <- !Z.pow_add_r by lia. f_equal. lia. Qed.
Lemma row_top (T2 R W BB t : Z) : (0 <= W)%Z -> (W * BB = T2 * R)%Z -> (0 <= t < BB)%Z -> (0 <= t * W <= T2 * R - W)%Z.
Proof. intros. nia. Qed.
Lemma row_small (T2 R W V M v i low tW : Z) : (1 <= T2)%Z -> (1 <= R)%Z -> (Z.abs v <= V)%Z -> (Z.abs i <= M)%Z -> (0 <= low < W)%Z -> (W <= R)%Z -> (0 <= tW <= T2 * R - W)%Z ->
  (Z.abs (T2 * v - (T2 * (i * R + low) + tW)) <= T2 * (V + (M + 2) * R))%Z.
Proof.
  intros H1 H2 Hv Hi Hl HW Ht.
  assert (B1 : (Z.abs (T2 * v) <= T2 * V)%Z) by (rewrite Z.abs_mul, (Z.abs_eq T2) by lia; apply Z.mul_le_mono_nonneg_l; lia).
  assert (B0 : (Z.abs (i * R) <= M * R)%Z) by (rewrite Z.abs_mul, (Z.abs_eq R) by lia; apply Z.mul_le_mono_nonneg_r; lia).
  assert (B2 : (Z.abs (T2 * (i * R)) <= T2 * (M * R))%Z) by (rewrite Z.abs_mul, (Z.abs_eq T2) by lia; apply Z.mul_le_mono_nonneg_l; lia).
  assert (B3 : (0 <= T2 * low <= T2 * R)%Z) by (split; [apply Z.mul_nonneg_nonneg; lia|apply Z.mul_le_mono_nonneg_l; lia]).
  assert (B4 : (T2 * (V + (M + 2) * R) = T2 * V + T2 * (M * R) + 2 * (T2 * R))%Z) by ring. assert (B5 : (T2 * (i * R + low) = T2 * (i * R) + T2 * low)%Z) by ring.
  rewrite B4, B5. lia.
Qed.
Lemma row_quot (T2 R W i v low t : Z) : (1 <= T2)%Z -> (0 <= low < W)%Z -> (0 <= t * W <= T2 * R - W)%Z -> (T2 * v = T2 * (i * R + low) + t * W)%Z ->
  (i * R <= v < (i + 1) * R + W)%Z.
Proof.
  intros H1 Hl Ht E. assert (E2 : (T2 * (v - i * R - low) = t * W)%Z) by (rewrite !Z.mul_sub_distr_l, E; ring). set (d := (v - i * R - low)%Z) in *.
  assert (0 <= d)%Z by nia. assert (d < R)%Z by nia. unfold d in *. lia.
Qed.
Lemma ln_row_sound P B rcb tsl k v i chs V M : small_inj (K := K) P ->
  (0 < k)%nat -> length chs = k -> Forall (in_range B) chs -> (rcb + tsl = k * B)%nat -> (tsl < B)%nat ->
  (Z.abs v <= V)%Z -> (Z.abs i <= M)%Z -> (2 ^ Z.of_nat tsl * (V + (M + 2) * 2 ^ Z.of_nat rcb) < P)%Z ->
  recomb B rcb tsl k (fZ i) (map fZ chs) = (fZ v : K) ->
  (i * 2 ^ Z.of_nat rcb <= v < (i + 1) * 2 ^ Z.of_nat rcb + ln_slack B tsl k)%Z.
Proof.
  intros HI Hk L HR Hkb Ht Hv Hi HP H.
  set (T2 := (2 ^ Z.of_nat tsl)%Z) in *. set (R := (2 ^ Z.of_nat rcb)%Z) in *. assert (HT : (1 <= T2)%Z) by (unfold T2; pose proof (Z.pow_pos_nonneg 2 (Z.of_nat tsl)); lia). assert (HRp : (1 <= R)%Z) by (unfold R; pose proof (Z.pow_pos_nonneg 2 (Z.of_nat rcb)); lia).
  assert (HVM : (1 <= V + (M + 2) * R)%Z) by nia. assert (HTP : (T2 < P)%Z) by (eapply Z.le_lt_trans; [|exact HP]; nia).
  assert (Hn : fZ T2 <> (0 : K)) by (intros X; pose proof (HI _ X) as X0; assert (T2 = 0%Z) by (apply X0; lia); lia).
  pose proof (recomb_fZ B rcb tsl k i chs Hk L) as Q. fold T2 R in Q. specialize (Q Hn). rewrite H in Q. rewrite <- fZ_mul in Q.
  set (low := digits_val B (firstn (k - 1) chs)) in *. set (W := (2 ^ Z.of_nat ((k - 1) * B))%Z) in *. set (t := nth (k - 1) chs 0%Z) in *.
  assert (Hlow : (0 <= low < W)%Z).
  { unfold low, W. replace (k - 1)%nat with (length (firstn (k - 1) chs)) at 3 by (rewrite firstn_length; lia). apply digits_bound. apply Forall_forall. intros x Hx. rewrite Forall_forall in HR. apply HR. rewrite <- (firstn_skipn (k - 1) chs). apply in_or_app. now left. }
  assert (HB2 : (0 <= t < 2 ^ Z.of_nat B)%Z). { rewrite Forall_forall in HR. apply HR. apply nth_In. lia. }
  assert (HW : (W * 2 ^ Z.of_nat B = T2 * R)%Z).
  { unfold W, T2, R. apply zpow_split. destruct k as [|k]; [lia|]. cbn [Nat.sub]. rewrite Nat.sub_0_r. lia. }
  assert (HWR : (W <= R)%Z). { unfold W, R. apply Z.pow_le_mono_r; [lia|]. destruct k as [|k]; [lia|]. cbn [Nat.sub]. rewrite Nat.sub_0_r. lia. }
  set (BB := (2 ^ Z.of_nat B)%Z) in *.
  assert (HtW : (0 <= t * W <= T2 * R - W)%Z) by (apply (row_top T2 R W BB t); auto; lia).
  assert (E : (T2 * v = T2 * (i * R + low) + t * W)%Z).
  { assert (E0 : fZ (T2 * v - (T2 * (i * R + low) + t * W)) = (0 : K)) by (rewrite fZ_sub, Q; ring). pose proof (HI _ E0) as E1.
    apply Z.sub_move_0_r. apply E1. eapply Z.le_lt_trans; [|exact HP]. apply (row_small T2 R W); auto; lia. }
  unfold ln_slack. destruct (Nat.eqb_spec tsl 0) as [E0|E0].
  - assert (H1 : T2 = 1%Z) by (unfold T2; rewrite E0; reflexivity). clear -H1 E Hlow HtW HWR. rewrite H1 in *. lia.
  - fold W. apply (row_quot T2 R W i v low t); auto.
Qed.
(** Conversely every value of the remainder below the slack is accepted with a quotient that is too small. *)
Definition digits_of (B n : nat) (x : Z) : list Z := map (fun j => (x / 2 ^ Z.of_nat (j * B)) mod 2 ^ Z.of_nat B)%Z (seq 0 n).
Lemma digits_of_ok B n x : (0 <= x < 2 ^ Z.of_nat (n * B))%Z -> digits_val B (digits_of B n x) = x /\ Forall (in_range B) (digits_of B n x) /\ length (digits_of B n x) = n.
Proof.
  intros Hx. unfold digits_of. rewrite digits_div by lia. change (2 ^ Z.of_nat (0 * B))%Z with 1%Z. rewrite Z.div_1_r, Z.mod_small by lia. split; [reflexivity|]. rewrite map_length, seq_length. split; [|reflexivity].
  apply Forall_forall. intros y Hy. apply in_map_iff in Hy as (j & <- & _). apply Z.mod_pos_bound. apply Z.pow_pos_nonneg; lia.
Qed.
Lemma ln_row_slack B rcb tsl k v : (1 < k)%nat -> (rcb + tsl = k * B)%nat -> (0 < tsl < B)%nat -> fZ (2 ^ Z.of_nat tsl) <> (0 : K) ->
  (v mod 2 ^ Z.of_nat rcb < 2 ^ Z.of_nat ((k - 1) * B) - 2 ^ Z.of_nat ((k - 1) * B - tsl))%Z ->
  exists chs, length chs = k /\ Forall (in_range B) chs /\ recomb B rcb tsl k (fZ (v / 2 ^ Z.of_nat rcb - 1)) (map fZ chs) = (fZ v : K).
Proof.
  intros Hk Hkb Ht Hn Hv. set (T2 := (2 ^ Z.of_nat tsl)%Z) in *. set (R := (2 ^ Z.of_nat rcb)%Z) in *. set (W := (2 ^ Z.of_nat ((k - 1) * B))%Z) in *. set (W2 := (2 ^ Z.of_nat ((k - 1) * B - tsl))%Z) in *.
  assert (HR : (0 < R)%Z) by (unfold R; apply Z.pow_pos_nonneg; lia). assert (HW2 : (0 < W2)%Z) by (unfold W2; apply Z.pow_pos_nonneg; lia).
  assert (Hle : (tsl <= (k - 1) * B)%nat) by (destruct k as [|[|k]]; [lia|lia|]; cbn [Nat.sub]; nia).
  assert (EW : (W = T2 * W2)%Z). { unfold W, T2, W2. rewrite <- Z.pow_add_r by lia. f_equal. lia. }
  pose proof (Z.mod_pos_bound v R HR) as Hm. set (r := (v mod R)%Z) in *.
  assert (Hlow : (0 <= r + W2 < 2 ^ Z.of_nat ((k - 1) * B))%Z) by (fold W; lia).
  destruct (digits_of_ok B (k - 1) (r + W2) Hlow) as (D1 & D2 & D3).
  exists (digits_of B (k - 1) (r + W2) ++ [2 ^ Z.of_nat B - 1])%Z. assert (Lc : length (digits_of B (k - 1) (r + W2) ++ [2 ^ Z.of_nat B - 1])%Z = k) by (rewrite app_length, D3; cbn [length]; lia).
  split; [exact Lc|]. split.
  { apply Forall_app. split; [exact D2|]. constructor; [|constructor]. unfold in_range. pose proof (Z.pow_pos_nonneg 2 (Z.of_nat B)). lia. }
  assert (Q := recomb_fZ B rcb tsl k (v / R - 1) (digits_of B (k - 1) (r + W2) ++ [2 ^ Z.of_nat B - 1])%Z ltac:(lia) Lc). fold T2 R W in Q. specialize (Q Hn).
  rewrite firstn_app, D3, Nat.sub_diag in Q. cbn [firstn] in Q. rewrite app_nil_r, firstn_all2 in Q by lia. rewrite D1 in Q. rewrite app_nth2 in Q by lia. rewrite D3, Nat.sub_diag in Q. cbn [nth] in Q.
  assert (EB : (W * 2 ^ Z.of_nat B = T2 * R)%Z).
  { unfold W, T2, R. apply zpow_split. destruct k as [|k]; [lia|]. cbn [Nat.sub]. rewrite Nat.sub_0_r. lia. }
  assert (Ev : (v = R * (v / R) + r)%Z) by (apply Z.div_mod; lia).
  assert (EZ : (T2 * ((v / R - 1) * R + (r + W2)) + (2 ^ Z.of_nat B - 1) * W = T2 * v)%Z).
  { set (BB := (2 ^ Z.of_nat B)%Z) in *. set (qq := (v / R)%Z) in *. transitivity (T2 * (R * qq + r) - T2 * R + T2 * W2 + W * BB - W)%Z; [ring|]. rewrite EB, <- EW, <- Ev. ring. }
  rewrite EZ, fZ_mul in Q. apply (fmul_cancel_l (fZ T2)); auto.
Qed.

(** ** The layer, in integers *)
Lemma fZ_zsum (l : list Z) : (fZ (zsum l) : K) = fsum (map fZ l).
Proof.
  unfold zsum. assert (G : forall a, (fZ (fold_left Z.add l a) : K) = fZ a + fsum (map fZ l)).
  { induction l as [|x l IH]; intros a; cbn [fold_left map]; [unfold fsum; cbn [fold_right]; ring|]. rewrite IH, fZ_add. change (fsum (fZ x :: map fZ l)) with (fZ x + fsum (map fZ l) : K). ring. }
  rewrite G, fZ_0. ring.
Qed.
Lemma sum_fZ (l : list Z) n (f : Z -> Z) : length l = n -> FieldDef.sumn n (fun i => fZ (f (nth i l 0%Z))) = (fZ (zsum (map f l)) : K).
Proof.
  intros L. rewrite fZ_zsum, map_map. rewrite (fsum_nth (map (fun x => fZ (f x)) l)). rewrite map_length, L. apply sumn_ext. intros i Hi. rewrite (nth_map_lt _ l i 0%Z) by lia. reflexivity.
Qed.
Section Rows.
Variables (s m : nat) (data : list Z).
Hypothesis Ld : length data = (2 ^ (s + m))%nat.
Lemma rows_ok : length (chunks (2 ^ s) data) = (2 ^ m)%nat /\ (forall r, In r (chunks (2 ^ s) data) -> length r = (2 ^ s)%nat) /\ concat (chunks (2 ^ s) data) = data.
Proof.
  assert (Hp : (0 < 2 ^ s)%nat) by (pose proof (Nat.pow_nonzero 2 s); lia).
  destruct (chunks_length (2 ^ s)%nat (2 ^ m)%nat data Hp) as [L1 L2]; [rewrite Ld, Nat.pow_add_r; reflexivity|]. split; [exact L1|]. split; [exact L2|]. apply chunks_concat. exact Hp.
Qed.
Let rw j := nth j (chunks (2 ^ s) data) [].
Lemma rw_len j : (j < 2 ^ m)%nat -> length (rw j) = (2 ^ s)%nat.
Proof. intros Hj. destruct rows_ok as (L1 & L2 & _). apply L2. apply nth_In. rewrite L1. exact Hj. Qed.
Lemma ent_fZ j i : (j < 2 ^ m)%nat -> (i < 2 ^ s)%nat -> ent s (map fZ data) j i = (fZ (nth i (rw j) 0%Z) : K).
Proof.
  intros Hj Hi. destruct rows_ok as (L1 & L2 & L3). unfold ent, rw. rewrite <- L3 at 1. rewrite concat_map. rewrite nth_concat_uniform; [|intros r Hr; apply in_map_iff in Hr as (r0 & <- & Hr0); rewrite map_length; auto|rewrite map_length, L1; exact Hj|exact Hi].
  rewrite (nth_map_lt _ _ j []) by (rewrite L1; exact Hj). rewrite (nth_map_lt _ _ i 0%Z); [reflexivity|]. rewrite L2; [exact Hi|]. apply nth_In. rewrite L1. exact Hj.
Qed.
Lemma row_sum_fZ j : (j < 2 ^ m)%nat -> row_sum s (map fZ data) j = (fZ (zsum (rw j)) : K).
Proof.
  intros Hj. unfold row_sum. rewrite <- (map_id (rw j)). rewrite <- (sum_fZ (rw j) (2 ^ s) (fun x => x)) by (now apply rw_len). apply sumn_ext. intros i Hi. now apply ent_fZ.
Qed.
Lemma ln_var_fZ (c : ln_ctx) j : (j < 2 ^ m)%nat -> fZ (ln_mult c) * ln_var (fZ (Z.of_nat (ln_dim c))) s (map fZ data) j = (fZ (ln_value c (rw j)) : K).
Proof.
  intros Hj. unfold ln_var, ln_value. rewrite row_sum_fZ by auto.
  assert (E : FieldDef.sumn (2 ^ s) (fun i => ent s (map fZ data) j i * ent s (map fZ data) j i) = (fZ (zsum (map (fun x => (x * x)%Z) (rw j))) : K)).
  { rewrite <- (sum_fZ (rw j) (2 ^ s) (fun x => (x * x)%Z)) by (now apply rw_len). apply sumn_ext. intros i Hi. rewrite ent_fZ, fZ_mul by auto. reflexivity. }
  rewrite E, fZ_sub, !fZ_mul. ring.
Qed.
Lemma ln_out_length (c : ln_ctx) (gamma beta : list Z) ch d : length ch = (2 ^ s)%nat -> length gamma = (2 ^ s)%nat -> length beta = (2 ^ s)%nat -> length (ln_out c gamma beta ch d) = (2 ^ s)%nat.
Proof. intros. unfold ln_out. rewrite map_length, !combine_length. lia. Qed.
Lemma ln_table_fZ (c : ln_ctx) (gamma beta dens : list Z) : length gamma = (2 ^ s)%nat -> length beta = (2 ^ s)%nat -> length dens = (2 ^ m)%nat ->
  ln_table (fZ (Z.of_nat (ln_dim c))) s m (map fZ data) (map fZ gamma) (map fZ beta) (map fZ dens)
  = (map fZ (concat (map (fun '(ch, d) => ln_out c gamma beta ch d) (combine (chunks (2 ^ s) data) dens))) : list K).
Proof.
  intros Lg Lb Lde. destruct rows_ok as (L1 & L2 & L3). assert (Hp : (2 ^ s <> 0)%nat) by (apply Nat.pow_nonzero; lia).
  set (os := map (fun '(ch, d) => ln_out c gamma beta ch d) (combine (chunks (2 ^ s) data) dens)).
  assert (Los : length os = (2 ^ m)%nat) by (unfold os; rewrite map_length, combine_length; lia).
  assert (Lo : forall o, In o os -> length o = (2 ^ s)%nat) by (intros o Ho; apply in_map_iff in Ho as ([ch d] & <- & Hc); apply ln_out_length; auto; apply L2; eapply in_combine_l; exact Hc).
  apply nth_ext_all with (d := 0).
  { unfold ln_table. rewrite !map_length, seq_length, (length_concat_uniform _ _ Lo), Los, Nat.pow_add_r. reflexivity. }
  intros b Hb. unfold ln_table in Hb |- *. rewrite map_length, seq_length in Hb. rewrite nth_map_seq by exact Hb. unfold ln_entry.
  assert (Hi : (b mod 2 ^ s < 2 ^ s)%nat) by (apply Nat.mod_upper_bound; exact Hp). assert (Hj : (b / 2 ^ s < 2 ^ m)%nat) by (apply Nat.div_lt_upper_bound; [exact Hp|]; rewrite <- Nat.pow_add_r; exact Hb).
  assert (Eb : b = (b mod 2 ^ s + 2 ^ s * (b / 2 ^ s))%nat) by (rewrite Nat.add_comm; apply Nat.div_mod; exact Hp).
  set (i := (b mod 2 ^ s)%nat) in *. set (j := (b / 2 ^ s)%nat) in *.
  rewrite row_sum_fZ by exact Hj. assert (Ee : nth b (map fZ data) 0 = (fZ (nth i (rw j) 0%Z) : K)) by (rewrite Eb; apply ent_fZ; auto). rewrite Ee.
  rewrite (nth_map_lt _ dens j 0%Z), (nth_map_lt _ gamma i 0%Z), (nth_map_lt _ beta i 0%Z) by lia.
  rewrite (nth_map_lt _ _ b 0%Z) by (rewrite (length_concat_uniform _ _ Lo), Los, <- Nat.pow_add_r; exact Hb).
  assert (Ec : nth b (concat os) 0%Z = nth i (nth j os []) 0%Z) by (rewrite Eb; apply nth_concat_uniform; auto; rewrite Los; exact Hj). rewrite Ec.
  unfold os. rewrite (nth_map_lt _ _ j ([], 0%Z)) by (rewrite combine_length; lia). rewrite combine_nth by lia. fold (rw j). unfold ln_out. rewrite (nth_map_lt _ _ i (0%Z, (0%Z, 0%Z))) by (rewrite !combine_length, rw_len; lia).
  rewrite combine_nth by (rewrite combine_length, rw_len; lia). rewrite combine_nth by lia. rewrite fZ_add, !fZ_mul, fZ_sub, fZ_mul. ring.
Qed.
End Rows.

(** What the proof shows of the denominator of a row whose value is [v]: it is a table output for a quotient of [v]; with a scaled top
    chunk the quotient can be too small. *)
Definition den_ok (lut : Z -> Z) (rcb : nat) (slack v d : Z) : Prop :=
  exists i, (i * 2 ^ Z.of_nat rcb <= v < (i + 1) * 2 ^ Z.of_nat rcb + slack)%Z /\ d = lut i.
Definition ln_recombs (B : nat) (c : ln_ctx) (k : nat) (ws : list row) : list K := map (fun w => recomb B (ln_rcb c) (ln_tsl c) k (fZ (r_in w)) (map fZ (snd w))) ws.
Definition ln_values (s : nat) (c : ln_ctx) (data : list Z) : list Z := map (ln_value c) (chunks (2 ^ s) data).

Lemma ln_layer_sound (T : @hist K -> K) P B FL ls eb c c1 s1 c2 s2 s m nb k (last : claim) (pf : @ln_proof K C) h lp1 lp2 p q vi vo vs n1 d1 h1 n2 d2 h2 rec wit nc gc bc h' rows (ws : list row) (data gamma beta : list Z) V :
  small_inj (K := K) P -> char_gt K 4 -> (0 < m)%nat -> length p = m -> vs <> [] -> length vs = k ->
  ln_nrc B c = Some (length vs) -> ceil_log2 (ln_dim c) = Some s -> (s < 64)%nat -> ceil_log2 (2 + length vs) = Some nb ->
  (0 < B < 64)%nat -> (ln_rcb c < 64)%nat -> (ln_rcb c + ln_tsl c = k * B)%nat -> (ln_tsl c < B)%nat ->
  (2 ^ Z.of_nat (ln_tsl c) * (V + (2 ^ Z.of_nat (2 * (B - 1)) + 2) * 2 ^ Z.of_nat (ln_rcb c)) < P)%Z ->
  lnp_logups pf = [lp1; lp2] ->
  verify_logup T lp1 1 c1 s1 h = Some ([mkClaim p vi; mkClaim p vo], n1, d1, h1) ->
  verify_logup T lp2 (length vs) c2 s2 h1 = Some (map (mkClaim q) vs, n2, d2, h2) ->
  ln_verify T B c c1 s1 c2 s2 last pf h = Some (wit, nc, (gc, bc), h') ->
  length (lnp_evals pf) = (4 + length vs)%nat -> length (lnp_acc_evals pf) = (2 + length vs)%nat ->
  (forall i, (i < 2 + length vs)%nat -> i <> 1%nat -> nth i (lnp_acc_evals pf) 0 = nth i (lnp_evals pf) 0) ->
  ln_recombine B c (length vs) (lnp_acc_evals pf) = Some rec ->
  Forall2 claim_true (col r_in ws :: col r_out ws :: chunk_cols k ws) (map snd wit) ->
  table_rows B FL ls (TInvSqrt eb (ln_rcb c)) = Some rows ->
  Forall (fun w => In [r_in w; r_out w] rows /\ length (snd w) = k /\ Forall (in_range B) (snd w)) ws ->
  claim_true (map fZ gamma) gc -> claim_true (map fZ beta) bc -> claim_true (map fZ data) nc ->
  Forall (fun v => (Z.abs v <= V)%Z) (ln_values s c data) ->
  (exists dens, Forall2 (den_ok (fun i => fl_isqrt FL eb (i * 2 ^ Z.of_nat (ln_rcb c)))%Z (ln_rcb c) (ln_slack B (ln_tsl c) k)) (ln_values s c data) dens /\
     claim_true (map fZ (concat (map (fun '(ch, d) => ln_out c gamma beta ch d) (combine (chunks (2 ^ s) data) dens)))) last) \/
  ln_fooled T c s m nb last pf h2 p q vi vo vs rec (col r_in ws) (col r_out ws) (chunk_cols k ws) (map fZ data) (map fZ gamma) (map fZ beta) \/
  table_event (err m (ln_recombs B c k ws) (map fZ (ln_values s c data))) (f_ap T m nb pf h2).
Proof.
  intros HI Hch Hm Lp Hvs Lvs Hnr Hs Hs64 Hnb HB Hr64 Hkb Hts HP Elp E1 E2 Hv Le La Hlink Hrec Hw Htab Hrow Hg Hb Hx Hval.
  assert (Hk : (0 < k)%nat) by (destruct vs; [now destruct Hvs|cbn [length] in Lvs; lia]).
  assert (Lch : length (chunk_cols (K := K) k ws) = length vs) by (unfold chunk_cols; rewrite map_length, seq_length; auto).
  destruct (ln_sound T B c c1 s1 c2 s2 s m nb last pf h lp1 lp2 p q vi vo vs n1 d1 h1 n2 d2 h2 rec wit nc gc bc h' (col r_in ws) (col r_out ws) (chunk_cols k ws) (map fZ data) (map fZ gamma) (map fZ beta))
    as [(Lw & _ & Lx & Lg & Lb) [(Hl & _ & _ & _ & Hr)|Hfool]]; auto.
  unfold col in Lw. rewrite map_length in Lw, Lx, Lg, Lb. cbv zeta in Hr. set (ap := f_ap T m nb pf h2) in *.
  assert (Lap : length ap = m) by (unfold ap, f_ap, sc_point; rewrite map_length, seq_length; auto).
  assert (HT1 : (1 <= 2 ^ Z.of_nat (ln_tsl c))%Z) by (pose proof (Z.pow_pos_nonneg 2 (Z.of_nat (ln_tsl c))); lia). assert (HR1 : (1 <= 2 ^ Z.of_nat (ln_rcb c))%Z) by (pose proof (Z.pow_pos_nonneg 2 (Z.of_nat (ln_rcb c))); lia).
  assert (HM1 : (0 < 2 ^ Z.of_nat (2 * (B - 1)))%Z) by (apply Z.pow_pos_nonneg; lia).
  destruct (rows_ok s m data Lx) as (Lr1 & Lr2 & Lr3).
  assert (Lvv : length (ln_values s c data) = (2 ^ m)%nat) by (unfold ln_values; rewrite map_length; exact Lr1).
  assert (HV : (0 <= V)%Z). { destruct (ln_values s c data) as [|v0 vv] eqn:Ev; [cbn [length] in Lvv; pose proof (Nat.pow_nonzero 2 m); lia|]. inversion Hval; subst. lia. }
  assert (Hn : fZ (2 ^ Z.of_nat (ln_tsl c)) <> (0 : K)).
  { intros X. pose proof (HI _ X) as X0. assert (2 ^ Z.of_nat (ln_tsl c) = 0)%Z; [|lia]. apply X0. rewrite Z.abs_eq by lia. eapply Z.le_lt_trans; [|exact HP]. set (T2 := (2 ^ Z.of_nat (ln_tsl c))%Z) in *. set (R := (2 ^ Z.of_nat (ln_rcb c))%Z) in *. set (M := (2 ^ Z.of_nat (2 * (B - 1)))%Z) in *.
    clear -HT1 HR1 HM1 HV. assert (1 <= V + (M + 2) * R)%Z by nia. nia. }
  assert (Lts : (ln_tsl c < 64)%nat) by lia.
  rewrite ln_recombine_val in Hr; [|lia|unfold evals_at; rewrite map_length; exact Lch|lia|lia|lia|exact Hn].
  assert (Hr' := f_equal (fun o => match o with Some x => x | None => 0 end) Hr). cbv beta iota in Hr'. clear Hr. rewrite recomb_mle in Hr' by lia.
  set (vals := ln_values s c data) in *.
  assert (Em : mle (err m (ln_recombs B c k ws) (map fZ vals)) ap = 0).
  { rewrite mle_err by exact Lap. assert (G : forall a b : K, a = b -> a - b = 0) by (intros a b ->; ring). apply G. clear G.
    etransitivity; [|etransitivity; [exact Hr'|]].
    - unfold mle. apply mlef_ext. rewrite Lap. intros j Hj. unfold ln_recombs. rewrite (nth_map_lt _ ws j (0%Z, 0%Z, [])) by lia. rewrite Lvs. f_equal.
      + unfold col. rewrite (nth_map_lt _ ws j (0%Z, 0%Z, [])) by lia. reflexivity.
      + unfold chunk_cols. rewrite map_map. apply nth_ext_all with (d := 0).
        * rewrite Forall_forall in Hrow. destruct (Hrow (nth j ws (0%Z, 0%Z, []))) as (_ & Lk & _); [apply nth_In; lia|]. rewrite !map_length, seq_length. exact Lk.
        * intros i Hi. rewrite Forall_forall in Hrow. destruct (Hrow (nth j ws (0%Z, 0%Z, []))) as (_ & Lk & _); [apply nth_In; lia|]. rewrite map_length, Lk in Hi.
          rewrite (nth_map_lt _ _ i 0%Z) by lia. rewrite nth_map_seq by exact Hi. unfold col. rewrite (nth_map_lt _ ws j (0%Z, 0%Z, [])) by lia. reflexivity.
    - unfold mle. rewrite <- mlef_scal. apply mlef_ext. rewrite Lap. intros j Hj. unfold ln_vars. rewrite nth_map_seq by exact Hj. rewrite (ln_var_fZ s m data Lx c j Hj).
      unfold vals, ln_values. rewrite map_map. rewrite (nth_map_lt _ _ j []) by lia. reflexivity. }
  destruct (all0_dec (err m (ln_recombs B c k ws) (map fZ vals))) as [H0|H0]; [|right; right; split; auto].
  left. exists (map r_out ws). split.
  - assert (HE : forall j, (j < 2 ^ m)%nat -> den_ok (fun i => fl_isqrt FL eb (i * 2 ^ Z.of_nat (ln_rcb c)))%Z (ln_rcb c) (ln_slack B (ln_tsl c) k) (nth j vals 0%Z) (r_out (nth j ws (0%Z, 0%Z, [])))).
    { intros j Hj. pose proof (all0_nth (err m (ln_recombs B c k ws) (map fZ vals)) j H0) as Q. unfold err in Q. rewrite nth_map_seq in Q by exact Hj. apply fsub_0 in Q.
      unfold ln_recombs in Q. rewrite (nth_map_lt _ ws j (0%Z, 0%Z, [])) in Q by lia. rewrite (nth_map_lt _ vals j 0%Z) in Q by lia.
      set (w := nth j ws (0%Z, 0%Z, [])) in *. rewrite Forall_forall in Hrow. destruct (Hrow w) as (Hin & Lk & Hr2); [apply nth_In; lia|].
      destruct (coverage B FL ls (TInvSqrt eb (ln_rcb c))) as (rows' & Er & Hrow'); [lia|cbn [table_ok]; lia|discriminate|]. rewrite Htab in Er. assert (rows' = rows) by congruence. subst rows'.
      apply Hrow' in Hin. cbn [table_spec] in Hin. destruct Hin as (x & Hx0 & Ec). assert (Ex : r_in w = x) by congruence. assert (Eo : r_out w = fl_isqrt FL eb (x * 2 ^ Z.of_nat (ln_rcb c))) by congruence.
      exists x. split; [|exact Eo]. rewrite <- Ex in *. apply (ln_row_sound P B (ln_rcb c) (ln_tsl c) k _ _ (snd w) V (2 ^ Z.of_nat (2 * (B - 1)))%Z HI); auto; try lia.
      rewrite Forall_forall in Hval. apply Hval. apply nth_In. lia. }
    clear - HE Lvv Lw. assert (L : length vals = length ws) by lia. rewrite <- Lvv in HE. clear Lvv Lw. clearbody vals. revert ws L HE. induction vals as [|v t IH]; intros [|w ws] L HE; cbn [length] in L; try discriminate L; cbn [map]; constructor.
    + exact (HE 0%nat ltac:(cbn [length]; lia)).
    + apply IH; [lia|]. intros i Hi. exact (HE (S i) ltac:(cbn [length]; lia)).
  - replace (map fZ (concat _)) with (ln_table (fZ (Z.of_nat (ln_dim c))) s m (map fZ data) (map fZ gamma) (map fZ beta) (col r_out ws) : list K); [exact Hl|].
    unfold col. rewrite <- (map_map r_out fZ). apply ln_table_fZ; auto. rewrite map_length. exact Lw.
Qed.

(** Without slack the outputs are those of the evaluation. *)
Lemma den_exact lut rcb v d : den_ok lut rcb 0 v d -> d = lut (Z.shiftr v (Z.of_nat rcb)).
Proof.
  intros (i & Hi & ->). f_equal. rewrite Z.shiftr_div_pow2 by lia. assert (Hp : (0 < 2 ^ Z.of_nat rcb)%Z) by (apply Z.pow_pos_nonneg; lia). set (R := (2 ^ Z.of_nat rcb)%Z) in *. apply (Z.div_unique v R i (v - i * R)); [left; lia|ring].
Qed.
Lemma ln_exact lut (c : ln_ctx) (gamma beta data dens : list Z) s :
  Forall2 (den_ok lut (ln_rcb c) 0) (ln_values s c data) dens ->
  ln_evaluate lut c gamma beta (2 ^ s) data
  = Some (concat (map (fun '(ch, d) => ln_out c gamma beta ch d) (combine (chunks (2 ^ s) data) dens)), map (ln_row lut c) (chunks (2 ^ s) data)).
Proof.
  intros H. unfold ln_evaluate. destruct (2 ^ s)%nat as [|fd] eqn:E2; [pose proof (Nat.pow_nonzero 2 s); lia|]. rewrite <- E2. do 2 f_equal. f_equal. unfold ln_values in H. revert H. generalize (chunks (2 ^ s) data). intros cs. revert dens.
  induction cs as [|ch cs IH]; intros dens H; cbn [map] in H; [reflexivity|]. destruct dens as [|d dens]; [inversion H|]. assert (Hd : den_ok lut (ln_rcb c) 0 (ln_value c ch) d) by (inversion H; auto). assert (Ht : Forall2 (den_ok lut (ln_rcb c) 0) (map (ln_value c) cs) dens) by (inversion H; auto).
  cbn [map combine]. f_equal; [|now apply IH]. apply den_exact in Hd. unfold ln_row. cbn [fst snd]. now rewrite Hd.
Qed.
(** With an unscaled top chunk the last claim is true of the outputs the layer computes. *)
Lemma ln_layer_exact (T : @hist K -> K) P B FL ls eb c c1 s1 c2 s2 s m nb k (last : claim) (pf : @ln_proof K C) h lp1 lp2 p q vi vo vs n1 d1 h1 n2 d2 h2 rec wit nc gc bc h' rows (ws : list row) (data gamma beta outs : list Z) lrows V :
  small_inj (K := K) P -> char_gt K 4 -> (0 < m)%nat -> length p = m -> vs <> [] -> length vs = k ->
  ln_nrc B c = Some (length vs) -> ceil_log2 (ln_dim c) = Some s -> (s < 64)%nat -> ceil_log2 (2 + length vs) = Some nb ->
  (0 < B < 64)%nat -> (ln_rcb c < 64)%nat -> (ln_rcb c = k * B)%nat -> ln_tsl c = 0%nat ->
  (V + (2 ^ Z.of_nat (2 * (B - 1)) + 2) * 2 ^ Z.of_nat (ln_rcb c) < P)%Z ->
  lnp_logups pf = [lp1; lp2] ->
  verify_logup T lp1 1 c1 s1 h = Some ([mkClaim p vi; mkClaim p vo], n1, d1, h1) ->
  verify_logup T lp2 (length vs) c2 s2 h1 = Some (map (mkClaim q) vs, n2, d2, h2) ->
  ln_verify T B c c1 s1 c2 s2 last pf h = Some (wit, nc, (gc, bc), h') ->
  length (lnp_evals pf) = (4 + length vs)%nat -> length (lnp_acc_evals pf) = (2 + length vs)%nat ->
  (forall i, (i < 2 + length vs)%nat -> i <> 1%nat -> nth i (lnp_acc_evals pf) 0 = nth i (lnp_evals pf) 0) ->
  ln_recombine B c (length vs) (lnp_acc_evals pf) = Some rec ->
  Forall2 claim_true (col r_in ws :: col r_out ws :: chunk_cols k ws) (map snd wit) ->
  table_rows B FL ls (TInvSqrt eb (ln_rcb c)) = Some rows ->
  Forall (fun w => In [r_in w; r_out w] rows /\ length (snd w) = k /\ Forall (in_range B) (snd w)) ws ->
  claim_true (map fZ gamma) gc -> claim_true (map fZ beta) bc -> claim_true (map fZ data) nc ->
  Forall (fun v => (Z.abs v <= V)%Z) (ln_values s c data) ->
  ln_evaluate (fun i => fl_isqrt FL eb (i * 2 ^ Z.of_nat (ln_rcb c)))%Z c gamma beta (2 ^ s) data = Some (outs, lrows) ->
  claim_true (map fZ outs) last \/
  ln_fooled T c s m nb last pf h2 p q vi vo vs rec (col r_in ws) (col r_out ws) (chunk_cols k ws) (map fZ data) (map fZ gamma) (map fZ beta) \/
  table_event (err m (ln_recombs B c k ws) (map fZ (ln_values s c data))) (f_ap T m nb pf h2).
Proof.
  intros HI Hch Hm Lp Hvs Lvs Hnr Hs Hs64 Hnb HB Hr64 Hkb Hts HP Elp E1 E2 Hv Le La Hlink Hrec Hw Htab Hrow Hg Hb Hx Hval Hev.
  assert (H0 : (ln_rcb c + ln_tsl c = k * B)%nat) by lia. assert (H1 : (ln_tsl c < B)%nat) by lia.
  assert (HP' : (2 ^ Z.of_nat (ln_tsl c) * (V + (2 ^ Z.of_nat (2 * (B - 1)) + 2) * 2 ^ Z.of_nat (ln_rcb c)) < P)%Z) by (rewrite Hts; change (2 ^ Z.of_nat 0)%Z with 1%Z; rewrite Z.mul_1_l; exact HP).
  destruct (ln_layer_sound T P B FL ls eb c c1 s1 c2 s2 s m nb k last pf h lp1 lp2 p q vi vo vs n1 d1 h1 n2 d2 h2 rec wit nc gc bc h' rows ws data gamma beta V
    HI Hch Hm Lp Hvs Lvs Hnr Hs Hs64 Hnb HB Hr64 H0 H1 HP' Elp E1 E2 Hv Le La Hlink Hrec Hw Htab Hrow Hg Hb Hx Hval) as [(dens & Hd & Hc)|[F|F]]; [left|now right; left|now right; right].
  unfold ln_slack in Hd. rewrite Hts in Hd. cbn [Nat.eqb] in Hd. pose proof (ln_exact _ c gamma beta data dens s Hd) as Q. rewrite Hev in Q.
  assert (outs = concat (map (fun '(ch, d) => ln_out c gamma beta ch d) (combine (chunks (2 ^ s) data) dens))) as -> by congruence. exact Hc.
Qed.
(** The sizes the quantiser picks meet the hypotheses of [ln_layer_sound]. *)
Lemma ln_sizes_ok B dim mult c : (0 < B)%nat -> ln_sizes B dim mult = Some c ->
  exists k, (0 < k)%nat /\ ln_nrc B c = Some k /\ (ln_rcb c + ln_tsl c = k * B)%nat /\ (ln_tsl c < B)%nat.
Proof.
  intros HB H. unfold ln_sizes in H. destruct (ceil_log2 dim) as [ld|]; [|discriminate H]. destruct (ceil_log2 (Z.to_nat mult)) as [lm|]; [|discriminate H]. cbn [obind] in H.
  unfold csub in H. destruct (Nat.leb_spec 1 B) as [H1|]; [|lia]. cbn [obind] in H. destruct (Nat.leb_spec (2 * (B - 1)) (2 * (ld + B - 1) + lm + 1)) as [H2|]; [|discriminate H]. cbn [obind] in H.
  set (rcb := (2 * (ld + B - 1) + lm + 1 - 2 * (B - 1))%nat) in *. assert (Hr : (0 < rcb)%nat) by (unfold rcb; lia). clearbody rcb.
  set (tsl := if (rcb mod B =? 0)%nat then 0%nat else (B - rcb mod B)%nat) in *. assert (Hc : ln_rcb c = rcb) by (replace c with (mkLnCtx dim rcb tsl mult) by congruence; reflexivity). assert (Ht : ln_tsl c = tsl) by (replace c with (mkLnCtx dim rcb tsl mult) by congruence; reflexivity).
  exists ((rcb - 1) / B + 1)%nat. rewrite Hc, Ht. unfold ln_nrc, csub. rewrite Hc. destruct (Nat.leb_spec 1 rcb); [|lia]. cbn [obind]. split; [lia|]. split; [reflexivity|].
  pose proof (Nat.div_mod rcb B ltac:(lia)) as Q. pose proof (Nat.mod_upper_bound rcb B ltac:(lia)) as Q2. unfold tsl. destruct (Nat.eqb_spec (rcb mod B) 0) as [E|E].
  - split; [|lia]. rewrite E in Q. assert (E3 : ((rcb - 1) / B = rcb / B - 1)%nat).
    { symmetry. apply (Nat.div_unique (rcb - 1) B (rcb / B - 1) (B - 1)); [lia|]. destruct (rcb / B)%nat as [|n] eqn:En; [lia|]. cbn [Nat.sub]. rewrite Nat.sub_0_r. rewrite Q. nia. }
    rewrite E3. destruct (rcb / B)%nat as [|n]; [lia|]. cbn [Nat.sub]. rewrite Nat.sub_0_r. lia.
  - split; [|lia]. assert (E3 : ((rcb - 1) / B = rcb / B)%nat) by (symmetry; apply (Nat.div_unique (rcb - 1) B (rcb / B) (rcb mod B - 1)); lia). rewrite E3. lia.
Qed.
End P.
