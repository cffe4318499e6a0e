(** Requantisation: rounding, monotonicity, error (C24) and the lookup decomposition (C25). *)
From Coq Require Import List Arith Lia Bool ZArith QArith Qround Qabs Lqa Znumtheory.
From Verif Require Import ListAux FieldDef FpInst FpGold MleMath M_Mle P_Mle P_Eq P_Interp M_LogUp M_Lookup M_Tables P_Tables P_Tables2 M_Quant P_Quant M_Requant.
Import ListNotations.
Local Open Scope Z_scope.

Lemma i64_some z w : i64 z = Some w -> w = z /\ - 2 ^ 63 <= z < 2 ^ 63.
Proof.
  unfold i64. destruct (Z.leb_spec (- 2 ^ 63) z), (Z.ltb_spec z (2 ^ 63)); cbn; intros H1; try discriminate. injection H1 as <-. auto.
Qed.
Lemma i64_ok z : - 2 ^ 63 <= z < 2 ^ 63 -> i64 z = Some z.
Proof. intros H. unfold i64. destruct (Z.leb_spec (- 2 ^ 63) z), (Z.ltb_spec z (2 ^ 63)); try lia. reflexivity. Qed.
Lemma shl1_ok n : (n < 63)%nat -> shl1 n = Some (2 ^ Z.of_nat n).
Proof. intros H. unfold shl1. destruct (Nat.ltb_spec n 63); [reflexivity|lia]. Qed.
Lemma shr_some z n w : shr z n = Some w -> (n < 64)%nat /\ w = z / 2 ^ Z.of_nat n.
Proof. unfold shr. destruct (Nat.ltb_spec n 64); [|discriminate]. intros [= <-]. split; auto. apply Z.shiftr_div_pow2. lia. Qed.
Lemma shr_ok z n : (n < 64)%nat -> shr z n = Some (z / 2 ^ Z.of_nat n).
Proof. intros H. unfold shr. destruct (Nat.ltb_spec n 64); [|lia]. f_equal. apply Z.shiftr_div_pow2. lia. Qed.
Lemma zpow_pos n : 0 < 2 ^ Z.of_nat n.
Proof. apply Z.pow_pos_nonneg; lia. Qed.
Lemma zpow_S n : 2 ^ Z.of_nat (S n) = 2 * 2 ^ Z.of_nat n.
Proof. rewrite Nat2Z.inj_succ, Z.pow_succ_r by lia. reflexivity. Qed.

(** [u] is n / d rounded to the nearest integer, halves up. *)
Definition rounds (n d u : Z) : Prop := 2 * u * d - d <= 2 * n < 2 * u * d + d.
Lemma rounds_unique n d u u' : 0 < d -> rounds n d u -> rounds n d u' -> u = u'.
Proof. unfold rounds. intros. nia. Qed.
Lemma rounds_mono n n' d u u' : 0 < d -> n <= n' -> rounds n d u -> rounds n' d u' -> u <= u'.
Proof. unfold rounds. intros. nia. Qed.
Lemma rounds_div n sh : rounds n (2 ^ Z.of_nat (S sh)) ((2 ^ Z.of_nat sh + n) / 2 ^ Z.of_nat (S sh)).
Proof.
  unfold rounds. pose proof (zpow_pos sh) as P. rewrite zpow_S. set (h := 2 ^ Z.of_nat sh) in *. clearbody h.
  pose proof (Z.div_mod (h + n) (2 * h) ltac:(lia)) as E. pose proof (Z.mod_pos_bound (h + n) (2 * h) ltac:(lia)) as M.
  set (u := (h + n) / (2 * h)) in *. set (w := (h + n) mod (2 * h)) in *. clearbody u w. nia.
Qed.
Definition zpow2 (n : nat) : Z := 2 ^ Z.of_nat n.

Section R.
Variable B : nat.
Hypothesis HB : (0 < B)%nat.
Notation MAX := (q_max B).

Lemma MAX_nonneg : 0 <= MAX.
Proof. unfold q_max. assert (0 < 2 ^ (Z.of_nat B - 1)) by (apply Z.pow_pos_nonneg; lia). lia. Qed.

(** What the operation returns whenever it returns. *)
Lemma apply_rounds r e y : rq_apply B r e = Some y ->
  exists u, (rq_shift r < 64)%nat /\ rounds (e * rq_fpm r) (zpow2 (rq_shift r)) u /\ y = z_clamp (- MAX) MAX u.
Proof.
  unfold rq_apply, zpow2. destruct (rq_shift r) as [|sh]; [discriminate|]. intros H.
  destruct (shl1 sh) as [rd|] eqn:E1; [|discriminate]. cbn [obind] in H.
  destruct (i64 (e * rq_fpm r)) as [m|] eqn:E2; [|discriminate]. cbn [obind] in H. apply i64_some in E2. destruct E2 as [-> B2].
  destruct (i64 (rd + e * rq_fpm r)) as [s|] eqn:E3; [|discriminate]. cbn [obind] in H. apply i64_some in E3. destruct E3 as [-> B3].
  destruct (shr _ _) as [u|] eqn:E4; [|discriminate]. cbn [obind] in H. apply shr_some in E4. destruct E4 as [Hs E4].
  unfold shl1 in E1. destruct (Nat.ltb_spec sh 63); [|destruct (Nat.eqb_spec sh 63); [|discriminate]; lia]. injection E1 as <-.
  destruct (i64 (Z.abs u)) as [a|] eqn:E5; [|discriminate]. cbn [obind] in H. apply i64_some in E5. destruct E5 as [-> _].
  exists u. split; [lia|]. split; [subst u; apply rounds_div|]. pose proof MAX_nonneg.
  unfold z_clamp. rewrite !Z.geb_leb in H. destruct (Z.leb_spec MAX (Z.abs u)), (Z.leb_spec 0 u); injection H as <-; lia.
Qed.
Lemma op_bound r e y : rq_op1 B r e = Some y -> (rq_ibs r < 63)%nat /\ Z.abs e <= zpow2 (rq_ibs r) /\ rq_apply B r e = Some y.
Proof.
  unfold rq_op1. intros H. destruct (shl1 (rq_ibs r)) as [b|] eqn:E1; [|discriminate]. cbn [obind] in H.
  destruct (i64 (Z.abs e)) as [a|] eqn:E2; [|discriminate]. cbn [obind] in H. apply i64_some in E2. destruct E2 as [-> B2].
  destruct (Z.leb_spec (Z.abs e) b); [|discriminate]. unfold shl1 in E1.
  destruct (Nat.ltb_spec (rq_ibs r) 63); [|destruct (Nat.eqb_spec (rq_ibs r) 63); [|discriminate]; injection E1 as <-; lia].
  injection E1 as <-. auto.
Qed.
Lemma op_rounds r e y : rq_op1 B r e = Some y ->
  Z.abs e <= zpow2 (rq_ibs r) /\ exists u, rounds (e * rq_fpm r) (zpow2 (rq_shift r)) u /\ y = z_clamp (- MAX) MAX u.
Proof. intros H. apply op_bound in H. destruct H as (_ & H1 & H2). apply apply_rounds in H2. destruct H2 as (u & _ & H3). eauto. Qed.
Lemma op_range r e y : rq_op1 B r e = Some y -> - MAX <= y <= MAX.
Proof. intros H. apply op_rounds in H. destruct H as (_ & u & _ & ->). pose proof MAX_nonneg. unfold z_clamp. lia. Qed.
Lemma op_mono r e e' y y' : 0 <= rq_fpm r -> e <= e' -> rq_op1 B r e = Some y -> rq_op1 B r e' = Some y' -> y <= y'.
Proof.
  intros Hf H H1 H2. apply op_rounds in H1, H2. destruct H1 as (_ & u & R1 & ->), H2 as (_ & u' & R2 & ->).
  assert (u <= u') by (eapply rounds_mono; [apply zpow_pos| |exact R1|exact R2]; nia). unfold z_clamp. lia.
Qed.
(** Inputs beyond the announced bit size are refused. *)
Lemma op_rejects r e : (rq_ibs r < 63)%nat -> zpow2 (rq_ibs r) < Z.abs e -> rq_op1 B r e = None.
Proof.
  intros Hi H. destruct (rq_op1 B r e) as [y|] eqn:E; auto. apply op_bound in E. lia.
Qed.

(** Parameters for which no element overflows. *)
Definition rq_ok (r : requant) : Prop :=
  (0 < rq_shift r < 63)%nat /\ (rq_ibs r < 63)%nat /\ 0 < rq_fpm r /\ zpow2 (rq_ibs r) * rq_fpm r + zpow2 (rq_shift r - 1) < 2 ^ 63.
Lemma apply_total r e : rq_ok r -> Z.abs e <= zpow2 (rq_ibs r) -> exists y, rq_apply B r e = Some y.
Proof.
  intros (Hs & Hi & Hf & Hb) He. unfold rq_apply, zpow2 in *. destruct (rq_shift r) as [|sh] eqn:Es; [lia|].
  replace (S sh - 1)%nat with sh in Hb by lia. pose proof (zpow_pos sh) as P.
  rewrite shl1_ok by lia. cbn [obind]. assert (A : Z.abs (e * rq_fpm r) <= 2 ^ Z.of_nat (rq_ibs r) * rq_fpm r) by (rewrite Z.abs_mul; nia).
  rewrite i64_ok by lia. cbn [obind]. rewrite i64_ok by lia. cbn [obind]. rewrite shr_ok by lia. cbn [obind].
  set (n := 2 ^ Z.of_nat sh + e * rq_fpm r). assert (Hn : - 2 ^ 63 <= n < 2 ^ 63) by (unfold n; lia). clearbody n.
  pose proof (zpow_pos (S sh)) as P2. assert (P3 : 2 <= 2 ^ Z.of_nat (S sh)) by (rewrite zpow_S; lia).
  rewrite i64_ok; [cbn [obind]; destruct (_ >=? _); eauto|].
  assert (n / 2 ^ Z.of_nat (S sh) < 2 ^ 63) by (apply Z.div_lt_upper_bound; nia).
  assert (- 2 ^ 62 <= n / 2 ^ Z.of_nat (S sh)) by (apply Z.div_le_lower_bound; nia). lia.
Qed.
Lemma op_total r e : rq_ok r -> Z.abs e <= zpow2 (rq_ibs r) -> exists y, rq_op1 B r e = Some y.
Proof.
  intros Hok He. destruct (apply_total r e Hok He) as [y Hy]. exists y. destruct Hok as (Hs & Hi & Hf & Hb). unfold rq_op1, zpow2 in *.
  rewrite shl1_ok by lia. cbn [obind].
  assert (2 ^ Z.of_nat (rq_ibs r) <= 2 ^ 62) by (apply Z.pow_le_mono_r; lia). rewrite i64_ok by lia. cbn [obind].
  destruct (Z.leb_spec (Z.abs e) (2 ^ Z.of_nat (rq_ibs r))); [auto|lia].
Qed.

(** Construction. *)
Lemma next_multiple_spec n m k : next_multiple_of n m = Some k -> exists c, k = (c * m)%nat /\ (n <= k < n + m)%nat.
Proof.
  intros H. assert (Hm : (0 < m)%nat) by (destruct m; [discriminate|lia]).
  assert (E : next_multiple_of n m = Some (m * ((n + m - 1) / m))%nat) by (destruct m; [lia|reflexivity]).
  rewrite E in H. assert (Ek : k = (m * ((n + m - 1) / m))%nat) by congruence. subst k. clear E H. exists ((n + m - 1) / m)%nat.
  split; [apply Nat.mul_comm|]. pose proof (Nat.div_mod (n + m - 1) m ltac:(lia)). pose proof (Nat.mod_upper_bound (n + m - 1) m ltac:(lia)).
  set (q := ((n + m - 1) / m)%nat) in *. clearbody q. lia.
Qed.
Lemma from_multiplier_inv ip eps ibs r : from_multiplier B ip eps ibs = Some r ->
  rq_right_shift r = ip /\ rq_ibs r = ibs /\ (25 <= rq_fp_scale r < 25 + B)%nat /\ (rq_fp_scale r < 64)%nat /\
  (exists c, rq_shift r = (c * B)%nat) /\ rq_fpm r = q_round (eps * inject_Z (zpow2 (rq_fp_scale r))) /\
  (ibs + rq_fp_scale r <= 63)%nat.
Proof.
  unfold from_multiplier. destruct (next_multiple_of (ip + 25) B) as [k|] eqn:E; [|discriminate]. cbn [obind].
  apply next_multiple_spec in E. destruct E as (c & Ek & Hk).
  destruct (Nat.leb_spec 64 (k - ip)); [discriminate|]. destruct (Nat.leb_spec (ibs + (k - ip)) 63); [|discriminate].
  intros [= <-]. unfold rq_shift. cbn [rq_right_shift rq_ibs rq_fp_scale rq_fpm]. repeat split; try lia. exists c. lia.
Qed.
Lemma fpm_bounds (eps : Q) n : (1 # 2 <= eps <= 1)%Q -> zpow2 n <= 2 * q_round (eps * inject_Z (zpow2 (S n))) /\ q_round (eps * inject_Z (zpow2 n)) <= zpow2 n.
Proof.
  intros He. assert (P : (0 < inject_Z (zpow2 n))%Q) by (change 0%Q with (inject_Z 0); rewrite <- Zlt_Qlt; apply zpow_pos).
  assert (E : (inject_Z (zpow2 (S n)) == 2 * inject_Z (zpow2 n))%Q) by (unfold zpow2; rewrite zpow_S, inject_Z_mult; reflexivity).
  split.
  - assert (zpow2 n <= q_round (eps * inject_Z (zpow2 (S n)))); [|pose proof (zpow_pos n); unfold zpow2 in *; lia].
    apply q_round_ge. rewrite E. set (w := inject_Z (zpow2 n)) in *. clearbody w. nra.
  - apply q_round_le. set (w := inject_Z (zpow2 n)) in *. clearbody w. nra.
Qed.
(** Every multiplier at most 1 gives parameters without overflow, if one bit is kept spare. *)
Lemma from_multiplier_ok ip eps ibs r : (1 # 2 <= eps <= 1)%Q -> from_multiplier B ip eps ibs = Some r ->
  (ibs + rq_fp_scale r <= 62)%nat -> (rq_shift r <= 62)%nat -> rq_ok r.
Proof.
  intros He H H1 H2. apply from_multiplier_inv in H. destruct H as (Hr & Hi & Hfp & _ & _ & Hm & _).
  destruct (rq_fp_scale r) as [|n] eqn:En; [lia|].
  assert (Hlo : zpow2 n <= 2 * rq_fpm r) by (rewrite Hm; apply fpm_bounds; auto).
  assert (Hhi : rq_fpm r <= zpow2 (S n)) by (rewrite Hm; apply fpm_bounds; auto).
  pose proof (zpow_pos n). unfold rq_ok, zpow2 in *. rewrite Hi. unfold rq_shift in *. rewrite En in *.
  split; [lia|]. split; [lia|]. split; [lia|].
  assert (2 ^ Z.of_nat ibs * 2 ^ Z.of_nat (S n) <= 2 ^ 62) by (rewrite <- Z.pow_add_r by lia; apply Z.pow_le_mono_r; lia).
  assert (2 ^ Z.of_nat (S n + rq_right_shift r - 1) <= 2 ^ 61) by (apply Z.pow_le_mono_r; lia).
  pose proof (zpow_pos ibs). nia.
Qed.

(** Distance from exact scaling by the real multiplier eps / 2^ip. *)
Lemma op_error ip eps ibs r e y : from_multiplier B ip eps ibs = Some r -> rq_op1 B r e = Some y ->
  exists u, y = z_clamp (- MAX) MAX u /\
    (Qabs (inject_Z u - inject_Z e * (eps / inject_Z (zpow2 ip))) <= (1 # 2) + inject_Z (Z.abs e) / inject_Z (2 * zpow2 (rq_shift r)))%Q.
Proof.
  intros H Hy. apply op_rounds in Hy. destruct Hy as (_ & u & R & Ey). exists u. split; auto.
  apply from_multiplier_inv in H. destruct H as (Hr & _ & _ & _ & _ & Hm & _).
  pose proof (q_round_bounds (eps * inject_Z (zpow2 (rq_fp_scale r)))) as Rb. rewrite <- Hm in Rb.
  unfold rounds in R. set (D := zpow2 (rq_shift r)) in *.
  assert (ED : (inject_Z D == inject_Z (zpow2 (rq_fp_scale r)) * inject_Z (zpow2 ip))%Q).
  { rewrite <- inject_Z_mult. unfold D, rq_shift, zpow2. rewrite Hr, Nat2Z.inj_add, Z.pow_add_r by lia. reflexivity. }
  assert (PF : (0 < inject_Z (zpow2 (rq_fp_scale r)))%Q) by (change 0%Q with (inject_Z 0); rewrite <- Zlt_Qlt; apply zpow_pos).
  assert (PI : (0 < inject_Z (zpow2 ip))%Q) by (change 0%Q with (inject_Z 0); rewrite <- Zlt_Qlt; apply zpow_pos).
  assert (PD : (0 < inject_Z D)%Q) by (change 0%Q with (inject_Z 0); rewrite <- Zlt_Qlt; apply zpow_pos).
  assert (R1 : (2 * inject_Z u * inject_Z D - inject_Z D <= 2 * (inject_Z e * inject_Z (rq_fpm r)))%Q).
  { rewrite <- !(inject_Z_mult e). change 2%Q with (inject_Z 2). rewrite <- !inject_Z_mult. unfold Qminus. rewrite <- inject_Z_opp, <- inject_Z_plus. rewrite <- Zle_Qle. lia. }
  assert (R2 : (2 * (inject_Z e * inject_Z (rq_fpm r)) <= 2 * inject_Z u * inject_Z D + inject_Z D)%Q).
  { change 2%Q with (inject_Z 2). rewrite <- !inject_Z_mult, <- inject_Z_plus. rewrite <- Zle_Qle. lia. }
  assert (EA : (inject_Z (Z.abs e) == Qabs (inject_Z e))%Q) by reflexivity. rewrite EA.
  rewrite inject_Z_mult. change (inject_Z 2) with 2%Q.
  set (F := inject_Z (zpow2 (rq_fp_scale r))) in *. set (P := inject_Z (zpow2 ip)) in *. set (f := inject_Z (rq_fpm r)) in *.
  set (x := inject_Z e) in *. set (w := inject_Z u) in *. set (d := inject_Z D) in *. clearbody F P f x w d. clear - R1 R2 Rb ED PF PI PD.
  (* multiply through by d *)
  assert (G : (Qabs ((w - x * (eps / P)) * d) <= ((1 # 2) + Qabs x / (2 * d)) * d)%Q).
  { assert (E1 : ((w - x * (eps / P)) * d == (w * d - x * f) + x * (f - eps * F))%Q) by (rewrite ED; field; lra).
    assert (E2 : (((1 # 2) + Qabs x / (2 * d)) * d == (1 # 2) * d + (1 # 2) * Qabs x)%Q) by (field; lra).
    rewrite E1, E2. eapply Qle_trans; [apply Qabs_triangle|]. apply Qplus_le_compat.
    - apply Qabs_Qle_condition. lra.
    - rewrite Qabs_Qmult. rewrite Qmult_comm. apply Qmult_le_compat_r; [apply Qabs_Qle_condition; lra|apply Qabs_nonneg]. }
  rewrite Qabs_Qmult, (Qabs_pos d) in G by lra. apply Qmult_lt_0_le_reg_r in G; auto.
Qed.
End R.
