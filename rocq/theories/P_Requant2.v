(** The lookup decomposition of requantisation (C25). *)
From Coq Require Import List Arith Lia Bool ZArith QArith Znumtheory Field.
From Verif Require Import ListAux FieldDef FpInst FpGold MleMath M_Mle P_Mle P_Eq P_Interp M_LogUp M_Lookup M_Tables P_Tables P_Tables2 M_Quant P_Quant M_Requant P_Requant.
Import ListNotations.
Local Open Scope Z_scope.

(** The number with the given digits in base 2^B, lowest first. *)
Fixpoint digits_val (B : nat) (l : list Z) : Z :=
  match l with [] => 0 | c :: t => c + 2 ^ Z.of_nat B * digits_val B t end.
Definition in_range (B : nat) (c : Z) : Prop := 0 <= c < 2 ^ Z.of_nat B.

Lemma digits_bound B l : Forall (in_range B) l -> 0 <= digits_val B l < 2 ^ Z.of_nat (length l * B).
Proof.
  induction 1 as [|c t Hc Ht IH]; cbn [digits_val length]; [cbn; lia|]. unfold in_range in Hc.
  replace (S (length t) * B)%nat with (B + length t * B)%nat by lia. rewrite Nat2Z.inj_add, Z.pow_add_r by lia. nia.
Qed.
Lemma digits_div B n : forall s x, 0 <= x -> digits_val B (map (fun j => (x / 2 ^ Z.of_nat (j * B)) mod 2 ^ Z.of_nat B) (seq s n))
  = (x / 2 ^ Z.of_nat (s * B)) mod 2 ^ Z.of_nat (n * B).
Proof.
  induction n as [|n IH]; intros s x Hx; cbn [seq map digits_val].
  - cbn [Nat.mul]. rewrite Z.mod_1_r. reflexivity.
  - rewrite IH by auto. replace (S n * B)%nat with (B + n * B)%nat by lia. rewrite (Nat2Z.inj_add B), Z.pow_add_r by lia.
    pose proof (zpow_pos B). pose proof (zpow_pos (n * B)). rewrite Z.rem_mul_r by lia. f_equal. f_equal. f_equal.
    replace (S s * B)%nat with (s * B + B)%nat by lia. rewrite Nat2Z.inj_add, Z.pow_add_r by lia. rewrite Z.div_div; [reflexivity|pose proof (zpow_pos (s * B)); lia|lia].
Qed.

Lemma land_mask x n : Z.land x (2 ^ Z.of_nat n - 1) = x mod 2 ^ Z.of_nat n.
Proof. replace (2 ^ Z.of_nat n - 1) with (Z.ones (Z.of_nat n)) by (rewrite Z.ones_equiv; lia). apply Z.land_ones. lia. Qed.

Lemma chunk_shift B n j : (0 < B)%nat -> (n < 64)%nat -> In j (seq 0 (n / B)) -> (j * B < 64)%nat.
Proof.
  intros HB Hn Hj. apply in_seq in Hj. assert (S j * B <= n)%nat; [|lia].
  apply Nat.le_trans with (n / B * B)%nat; [apply Nat.mul_le_mono_r; lia|]. rewrite Nat.mul_comm. apply Nat.mul_div_le. lia.
Qed.
Section W.
Variable B : nat.
Hypothesis HB : (0 < B)%nat.

(** What the witness generator produces whenever it succeeds. *)
Lemma witness_spec r v c o ch : rq_witness1 B r v = Some (c, o, ch) ->
  rounds (v * rq_fpm r) (zpow2 (rq_shift r)) c /\ o = z_clamp (- q_max B) (q_max B) c /\
  length ch = (rq_shift r / B)%nat /\ Forall (in_range B) ch /\ (0 < rq_shift r < 63)%nat /\
  (forall k, rq_shift r = (k * B)%nat -> v * rq_fpm r + zpow2 (rq_shift r - 1) = c * zpow2 (rq_shift r) + digits_val B ch).
Proof.
  unfold rq_witness1, zpow2. destruct (rq_shift r) as [|sh] eqn:Es; [discriminate|]. intros H. replace (S sh - 1)%nat with sh by lia.
  destruct (shl1 sh) as [rd|] eqn:E1; [|discriminate]. cbn [obind] in H.
  destruct (shl1 (S sh)) as [one|] eqn:E2; [|discriminate]. cbn [obind] in H.
  destruct (i64 (one - 1)) as [mask|] eqn:E3; [|discriminate]. cbn [obind] in H. apply i64_some in E3. destruct E3 as [-> B3].
  assert (Hs : (S sh < 63)%nat).
  { unfold shl1 in E2. destruct (Nat.ltb_spec (S sh) 63); auto. destruct (Nat.eqb_spec (S sh) 63); [|discriminate]. injection E2 as <-. lia. }
  rewrite shl1_ok in E1 by lia. rewrite shl1_ok in E2 by lia.
  assert (Erd : rd = 2 ^ Z.of_nat sh) by congruence. assert (Eone : one = 2 ^ Z.of_nat (S sh)) by congruence. subst rd one.
  destruct (i64 (v * rq_fpm r)) as [m|] eqn:E4; [|discriminate]. cbn [obind] in H. apply i64_some in E4. destruct E4 as [-> B4].
  destruct (i64 (v * rq_fpm r + 2 ^ Z.of_nat sh)) as [t|] eqn:E5; [|discriminate]. cbn [obind] in H. apply i64_some in E5. destruct E5 as [-> B5].
  rewrite shr_ok in H by lia. cbn [obind] in H. set (N := v * rq_fpm r + 2 ^ Z.of_nat sh) in *. rewrite land_mask in H.
  pose proof (zpow_pos (S sh)) as P.
  assert (Hmk : 0 <= N mod 2 ^ Z.of_nat (S sh)) by (apply Z.mod_pos_bound; lia). set (x := N mod 2 ^ Z.of_nat (S sh)) in *.
  rewrite (omapM_all _ (fun j => (x / 2 ^ Z.of_nat (j * B)) mod 2 ^ Z.of_nat B)) in H.
  2: { intros j Hj. apply chunk_shift in Hj; [|lia|lia]. rewrite shr_ok by lia. cbn [obind]. rewrite land_mask. reflexivity. }
  cbn [obind] in H. assert (E : N / 2 ^ Z.of_nat (S sh) = c /\ (if c <? q_min B then q_min B else if q_max B <? c then q_max B else c) = o /\
    map (fun j => (x / 2 ^ Z.of_nat (j * B)) mod 2 ^ Z.of_nat B) (seq 0 (S sh / B)) = ch).
  { set (cc := N / 2 ^ Z.of_nat (S sh)) in *. set (l := map _ _) in *. clearbody l cc. injection H as -> <- ->. auto. }
  destruct E as (Ec & Eo & El). clear H. split.
  { rewrite <- Ec. unfold N. rewrite (Z.add_comm (v * rq_fpm r)). apply rounds_div. }
  split.
  { rewrite <- Eo. pose proof (MAX_nonneg B HB). assert (q_min B = - q_max B) by (unfold q_min, q_max; lia).
    unfold z_clamp. destruct (Z.ltb_spec c (q_min B)), (Z.ltb_spec (q_max B) c); lia. }
  split; [rewrite <- El, map_length, seq_length; reflexivity|]. split.
  { rewrite <- El. apply Forall_forall. intros y Hy. apply in_map_iff in Hy. destruct Hy as (j & <- & _). apply Z.mod_pos_bound. apply zpow_pos. }
  split; [lia|]. intros k Hk. rewrite <- El. rewrite digits_div by auto. cbn [Nat.mul]. change (2 ^ Z.of_nat 0) with 1. rewrite Z.div_1_r.
  assert (Hq : (S sh / B * B = S sh)%nat) by (rewrite Hk, Nat.div_mul by lia; reflexivity). rewrite Hq.
  assert (Hx : x mod 2 ^ Z.of_nat (S sh) = x) by (unfold x; apply Z.mod_mod; lia). rewrite Hx. fold N. rewrite <- Ec. unfold x.
  rewrite (Z.div_mod N (2 ^ Z.of_nat (S sh))) at 1 by lia. ring.
Qed.
(** The clamping output is the layer's output. *)
Lemma witness_output r v c o ch y : rq_witness1 B r v = Some (c, o, ch) -> rq_op1 B r v = Some y -> o = y.
Proof.
  intros H Hy. apply witness_spec in H. destruct H as (Hr & -> & _). apply op_rounds in Hy; auto. destruct Hy as (_ & u & Hu & ->).
  rewrite (rounds_unique _ _ _ _ (zpow_pos _) Hr Hu). reflexivity.
Qed.
(** It succeeds on every accepted element of a layer without overflow. *)
Lemma witness_total r v : rq_ok r -> Z.abs v <= zpow2 (rq_ibs r) -> exists w, rq_witness1 B r v = Some w.
Proof.
  intros (Hs & Hi & Hf & Hb) He. unfold rq_witness1, zpow2 in *. destruct (rq_shift r) as [|sh] eqn:Es; [lia|].
  replace (S sh - 1)%nat with sh in Hb by lia. pose proof (zpow_pos sh) as P. pose proof (zpow_pos (S sh)) as P2.
  assert (2 ^ Z.of_nat (S sh) <= 2 ^ 62) by (apply Z.pow_le_mono_r; lia).
  assert (A : Z.abs (v * rq_fpm r) <= 2 ^ Z.of_nat (rq_ibs r) * rq_fpm r) by (rewrite Z.abs_mul; nia).
  rewrite !shl1_ok by lia. cbn [obind]. rewrite i64_ok by lia. cbn [obind]. rewrite i64_ok by lia. cbn [obind]. rewrite i64_ok by lia. cbn [obind].
  rewrite shr_ok by lia. cbn [obind].
  rewrite (omapM_all _ (fun j => (Z.land (v * rq_fpm r + 2 ^ Z.of_nat sh) (2 ^ Z.of_nat (S sh) - 1) / 2 ^ Z.of_nat (j * B)) mod 2 ^ Z.of_nat B)).
  { cbn [obind]. eauto. }
  intros j Hj. apply chunk_shift in Hj; [|lia|lia]. rewrite shr_ok by lia. cbn [obind]. rewrite land_mask. reflexivity.
Qed.
(** The clamping pair is a row of the clamping table as long as the scaled value fits half of it. *)
Lemma witness_clamp_row FL ls r v c o ch cs : rq_witness1 B r v = Some (c, o, ch) -> clamping_size r = Some cs -> (0 < cs)%nat ->
  Z.abs (v * rq_fpm r) + zpow2 (rq_shift r - 1) < zpow2 (cs - 1 + rq_shift r) ->
  exists rows, table_rows B FL ls (TClamping cs) = Some rows /\ In [c; o] rows.
Proof.
  intros H Hcs Hc Hb. apply witness_spec in H. destruct H as (Hr & Ho & _ & _ & Hs & _). destruct cs as [|s]; [lia|].
  destruct (coverage B FL ls (TClamping (S s))) as (rows & Er & Hrow); auto; [discriminate|]. exists rows. split; auto. apply Hrow. cbn [table_spec].
  replace (Z.of_nat (S s) - 1) with (Z.of_nat s) by lia. replace (S s - 1 + rq_shift r)%nat with (s + rq_shift r)%nat in Hb by lia.
  unfold zpow2 in Hb. rewrite Nat2Z.inj_add, Z.pow_add_r in Hb by lia. pose proof (zpow_pos s) as P. unfold rounds, zpow2 in *.
  destruct (rq_shift r) as [|sh] eqn:Es; [lia|]. replace (S sh - 1)%nat with sh in Hb by lia. rewrite zpow_S in *. pose proof (zpow_pos sh) as P2.
  set (h := 2 ^ Z.of_nat sh) in *. set (M := 2 ^ Z.of_nat s) in *. set (x := v * rq_fpm r) in *. clearbody h M x.
  exists c. split; [|rewrite Ho; unfold z_clamp; unfold q_max; reflexivity].
  assert (x < 2 * M * h - h) by lia. assert (- (2 * M * h) + h < x) by lia. nia.
Qed.
End W.

Section F.
Context {K : field}.
Add Field Kf_rq : (fth K).
Local Open Scope F_scope.
Lemma mul_inv_cancel (a b : K) : b <> 0 -> a * b * / b = a.
Proof. intros H. field. auto. Qed.
Lemma mul_inv_some (a b d : K) : d <> 0 -> Some (a * / d) = Some b -> b * d = a.
Proof. intros H [= <-]. field. auto. Qed.
Variable B : nat.

Fixpoint digits_f (l : list K) : K := match l with [] => 0 | c :: t => c + fZ (2 ^ Z.of_nat B) * digits_f t end.
Lemma recombine_fold (l : list K) : forall a w,
  fst (fold_left (fun '(acc, pow_two) v => (acc + v * pow_two, pow_two * fZ (2 ^ Z.of_nat B))) l (a, w)) = a + w * digits_f l.
Proof. induction l as [|c t IH]; intros a w; cbn [fold_left digits_f]; [cbn; ring|]. rewrite IH. ring. Qed.
Lemma recombine_val r (c : K) ch : (0 < rq_shift r < 64)%nat -> fZ (rq_fpm r) <> (0 : K) ->
  recombine_claims B r c ch = Some ((fZ (2 ^ Z.of_nat (rq_shift r)) * c + digits_f ch - fZ (2 ^ Z.of_nat (rq_shift r - 1))) * / fZ (rq_fpm r)).
Proof.
  intros Hs Hf. unfold recombine_claims. destruct (rq_shift r) as [|sh] eqn:E; [lia|]. destruct (Nat.leb_spec 64 (S sh)); [lia|].
  match goal with |- context [fold_left ?f ?l ?a] => pose proof (recombine_fold l (fst a) (snd a)) as R; destruct (fold_left f l a) as [full w] eqn:Ef end.
  cbn [fst snd] in R. rewrite Ef in R. cbn [fst] in R. unfold finv_opt. apply feqb_false in Hf. rewrite Hf. cbn [obind].
  replace (S sh - 1)%nat with sh by lia. rewrite R. f_equal. ring.
Qed.
Lemma digits_f_fZ l : digits_f (map fZ l) = fZ (digits_val B l).
Proof. induction l as [|c t IH]; cbn [map digits_f digits_val]; [reflexivity|]. rewrite IH, fZ_add, fZ_mul. reflexivity. Qed.
(** Recombination commutes with multilinear evaluation, so a claim about the recombined column follows from the
    claims about the parts. *)
Lemma recombine_mle r (cin vals : list K) (chs : list (list K)) pt :
  (forall i, (i < 2 ^ length pt)%nat -> recombine_claims B r (nth i cin 0) (map (fun c => nth i c 0) chs) = Some (nth i vals 0)) ->
  recombine_claims B r (mle cin pt) (map (fun c => mle c pt) chs) = Some (mle vals pt).
Proof.
  intros H. assert (H0 := H 0%nat (pow2_pos _)).
  assert (Hs : (0 < rq_shift r < 64)%nat).
  { unfold recombine_claims in H0. destruct (rq_shift r) as [|sh]; [discriminate|]. destruct (Nat.leb_spec 64 (S sh)); [discriminate|lia]. }
  assert (Hf : fZ (rq_fpm r) <> (0 : K)).
  { intros E. unfold recombine_claims in H0. rewrite E in H0. destruct (rq_shift r) as [|sh]; [lia|]. destruct (64 <=? S sh)%nat; [discriminate|].
    destruct (fold_left _ _ _). unfold finv_opt in H0. rewrite feqb_refl in H0. discriminate. }
  rewrite recombine_val by auto. f_equal.
  assert (Hv : forall i, (i < 2 ^ length pt)%nat -> nth i vals 0 = (fZ (2 ^ Z.of_nat (rq_shift r)) * nth i cin 0 + digits_f (map (fun c => nth i c 0) chs) - fZ (2 ^ Z.of_nat (rq_shift r - 1))) * / fZ (rq_fpm r)).
  { intros i Hi. specialize (H i Hi). rewrite recombine_val in H by auto. congruence. }
  unfold mle at 3. rewrite (mlef_ext _ _ _ Hv). rewrite mlef_scal_r, mlef_sub, mlef_const, mlef_add, mlef_scal. f_equal. f_equal. f_equal.
  clear. induction chs as [|c t IH]; cbn [map digits_f]; [rewrite mlef_const; reflexivity|]. rewrite IH, mlef_add, mlef_scal. reflexivity.
Qed.
End F.

(** Completeness: recombining the columns of the honest witness gives the input column, at every point. *)
Section C.
Context {K : field}.
Variable B : nat.
Hypothesis HB : (0 < B)%nat.
Lemma recombine_honest r (vals : list Z) (ws : list (Z * Z * list Z)) (pt : list K) k :
  rq_shift r = (k * B)%nat -> fZ (rq_fpm r) <> (@f0 K) -> length vals = (2 ^ length pt)%nat ->
  omapM (rq_witness1 B r) vals = Some ws ->
  recombine_claims B r (mle (map (fun w => fZ (fst (fst w))) ws) pt)
    (map (fun j => mle (map (fun w => fZ (nth j (snd w) 0)) ws) pt) (seq 0 k))
  = Some (mle (map fZ vals) pt).
Proof.
  intros Hk Hf Hl Hw.
  assert (Hws : length ws = length vals /\ forall i, (i < length vals)%nat -> rq_witness1 B r (nth i vals 0) = Some (nth i ws (0, 0, []))).
  { clear Hl. revert ws Hw. induction vals as [|v t IH]; intros ws Hw; cbn [omapM] in Hw.
    - injection Hw as <-. split; [reflexivity|]. intros i Hi. cbn in Hi. lia.
    - destruct (rq_witness1 B r v) as [w|] eqn:E; [|discriminate]. cbn [obind] in Hw. destruct (omapM _ t) as [ws'|] eqn:E2; [|discriminate].
      cbn [obind] in Hw. injection Hw as <-. destruct (IH ws' eq_refl) as [L N]. split; [cbn; lia|]. intros [|i] Hi; cbn [nth]; auto. apply N. cbn in Hi. lia. }
  destruct Hws as [Lw Nw]. rewrite <- (map_map (fun j => map (fun w => fZ (nth j (snd w) 0)) ws) (fun c => mle c pt)).
  apply recombine_mle. intros i Hi. rewrite <- Hl in Hi. specialize (Nw i Hi).
  destruct (nth i ws (0, 0, [])) as [[c o] ch] eqn:Ei. apply witness_spec in Nw; auto. destruct Nw as (_ & _ & Lc & _ & Hs & Hd). specialize (Hd k Hk).
  rewrite map_map. rewrite (nth_map_lt _ _ _ (0, 0, [])) by lia. rewrite Ei. cbn [fst].
  rewrite (map_ext_in _ (fun j => fZ (nth j ch 0))).
  2: { intros j _. rewrite (nth_map_lt _ _ _ (0, 0, [])) by lia. rewrite Ei. reflexivity. }
  rewrite <- (map_map (fun j => nth j ch 0) fZ). replace (map (fun j => nth j ch 0) (seq 0 k)) with ch.
  2: { rewrite Hk, Nat.div_mul in Lc by lia. rewrite <- Lc. symmetry. apply nth_ext_all with (d := 0); [rewrite map_length, seq_length; auto|].
       intros j Hj. rewrite map_length, seq_length in Hj. rewrite nth_map_seq by auto. reflexivity. }
  rewrite recombine_val; auto; [|lia]. rewrite (nth_map_lt _ _ _ 0) by auto. f_equal. rewrite digits_f_fZ, <- fZ_mul, <- fZ_add, <- fZ_sub.
  unfold zpow2 in Hd. replace (2 ^ Z.of_nat (rq_shift r) * c + digits_val B ch - 2 ^ Z.of_nat (rq_shift r - 1)) with (nth i vals 0 * rq_fpm r) by lia.
  rewrite fZ_mul. apply mul_inv_cancel. auto.
Qed.
End C.

(** Soundness over a prime field. *)
Lemma requant_sound p (Hp : prime (Zpos p)) B r v V c ch cs k :
  (0 < B)%nat -> rq_shift r = (k * B)%nat -> (0 < rq_shift r < 64)%nat -> 0 < rq_fpm r < Zpos p -> Z.abs v <= V ->
  length ch = k -> Forall (in_range B) ch -> - 2 ^ Z.of_nat cs <= c < 2 ^ Z.of_nat cs ->
  V * rq_fpm r + zpow2 (rq_shift r) + zpow2 (cs + rq_shift r) <= Zpos p ->
  recombine_claims (K := Fp_field p Hp) B r (fZ c) (map fZ ch) = Some (fZ v) ->
  rounds (v * rq_fpm r) (zpow2 (rq_shift r)) c.
Proof.
  intros HB Hk Hs Hf Hv Hl Hc Hcs Hb H.
  assert (Hfn : fZ (rq_fpm r) <> @f0 (Fp_field p Hp)).
  { intros E. rewrite fZ_mk in E. apply (f_equal (fpv p)) in E. rewrite fpv_mk in E. change (fpv p (@f0 (Fp_field p Hp))) with (0 mod Zpos p) in E.
    rewrite !Z.mod_small in E by lia. lia. }
  rewrite recombine_val in H by auto. rewrite digits_f_fZ in H.
  assert (E : fmul (fZ v) (fZ (rq_fpm r)) = @fsub (Fp_field p Hp) (fadd (fmul (fZ (2 ^ Z.of_nat (rq_shift r))) (fZ c)) (fZ (digits_val B ch))) (fZ (2 ^ Z.of_nat (rq_shift r - 1)))).
  { apply (mul_inv_some _ _ _ Hfn H). }
  rewrite <- !fZ_mul, <- fZ_add, <- fZ_sub in E. rewrite !fZ_mk in E. apply (f_equal (fpv p)) in E. rewrite !fpv_mk in E.
  pose proof (digits_bound B ch Hc) as D. rewrite Hl, <- Hk in D.
  unfold zpow2 in *. rewrite Nat2Z.inj_add, Z.pow_add_r in Hb by lia. unfold rounds.
  destruct (rq_shift r) as [|sh] eqn:Es; [lia|]. replace (S sh - 1)%nat with sh in E by lia. rewrite zpow_S in *. pose proof (zpow_pos sh) as P.
  set (h := 2 ^ Z.of_nat sh) in *. set (M := 2 ^ Z.of_nat cs) in *. set (d := digits_val B ch) in *. set (f := rq_fpm r) in *.
  assert (Hvf : Z.abs (v * f) <= V * f) by (rewrite Z.abs_mul; nia).
  assert (Hcm : - (M * (2 * h)) <= 2 * h * c <= M * (2 * h) - 2 * h) by nia.
  (* both sides are equal as integers *)
  assert (Eq : v * f = 2 * h * c + d - h).
  { assert (Dv : (Zpos p | v * f - (2 * h * c + d - h))).
    { apply Z.mod_divide; [lia|]. rewrite Zminus_mod, E, Z.sub_diag. apply Z.mod_0_l. lia. }
    destruct Dv as [q Hq]. assert (q = 0 \/ 1 <= q \/ q <= -1) as [->|[Q|Q]] by lia; [lia| |].
    - assert (Zpos p <= q * Zpos p) by nia. lia.
    - assert (q * Zpos p <= - Zpos p) by nia. lia. }
  clearbody h M d f. nia.
Qed.

(** With the clamping row looked up as well, the output is the requantised input. *)
Lemma requant_sound_output p (Hp : prime (Zpos p)) B r v V c o ch cs k FL ls rows :
  (0 < B)%nat -> rq_shift r = (k * B)%nat -> (0 < rq_shift r < 64)%nat -> 0 < rq_fpm r < Zpos p -> Z.abs v <= V ->
  length ch = k -> Forall (in_range B) ch ->
  (0 < cs)%nat -> table_rows B FL ls (TClamping cs) = Some rows -> In [c; o] rows ->
  V * rq_fpm r + zpow2 (rq_shift r) + zpow2 (cs - 1 + rq_shift r) <= Zpos p ->
  recombine_claims (K := Fp_field p Hp) B r (fZ c) (map fZ ch) = Some (fZ v) ->
  (exists u, rounds (v * rq_fpm r) (zpow2 (rq_shift r)) u /\ o = z_clamp (- q_max B) (q_max B) u) /\
  forall y, rq_op1 B r v = Some y -> o = y.
Proof.
  intros HB Hk Hs Hf Hv Hl Hc Hcs Ht Hin Hb H.
  destruct (coverage B FL ls (TClamping cs)) as (rows' & Er & Hrow); auto; [discriminate|]. rewrite Ht in Er. assert (rows' = rows) by congruence. subst rows'.
  apply Hrow in Hin. cbn [table_spec] in Hin. destruct Hin as (c' & Hc' & E). assert (Ec : c' = c /\ o = z_clamp (- q_max B) (q_max B) c).
  { split; [congruence|]. assert (Ex : c = c') by congruence. rewrite Ex. unfold z_clamp, q_max. congruence. }
  destruct Ec as [-> Eo]. replace (Z.of_nat cs - 1) with (Z.of_nat (cs - 1)) in Hc' by lia.
  assert (R : rounds (v * rq_fpm r) (zpow2 (rq_shift r)) c) by exact (requant_sound p Hp B r v V c ch (cs - 1) k HB Hk Hs Hf Hv Hl Hc Hc' Hb H).
  split; [eauto|]. intros y Hy. apply op_rounds in Hy; auto. destruct Hy as (_ & u & Hu & ->). rewrite Eo. f_equal.
  apply (rounds_unique _ _ _ _ (zpow_pos _) R Hu).
Qed.
Lemma omapM_Forall2 {A C} (f : A -> option C) l : forall l', omapM f l = Some l' <-> Forall2 (fun a b => f a = Some b) l l'.
Proof.
  induction l as [|a t IH]; intros l'; cbn [omapM].
  - split; [intros [= <-]; constructor|]. intros H. inversion H. reflexivity.
  - split.
    + intros H. destruct (f a) as [b|] eqn:E; [|discriminate]. cbn [obind] in H. destruct (omapM f t) as [t'|] eqn:E2; [|discriminate].
      cbn [obind] in H. injection H as <-. constructor; auto. apply IH. reflexivity.
    + intros H. inversion H as [|? ? ? ? H1 H2]; subst. rewrite H1. cbn [obind]. apply IH in H2. rewrite H2. reflexivity.
Qed.
(** The tensor operation is the element operation on every element. *)
Lemma op_tensor B r l l' : rq_op B r l = Some l' <-> Forall2 (fun e y => rq_op1 B r e = Some y) l l'.
Proof. apply omapM_Forall2. Qed.
(** A value the layer accepts whose clamping input is outside its clamping table. *)
Lemma clamp_row_missing : exists r v y c o ch cs, from_multiplier 8 7 1 20 = Some r /\ rq_op1 8 r v = Some y /\
  rq_witness1 8 r v = Some (c, o, ch) /\ clamping_size r = Some cs /\
  forall FL ls rows, table_rows 8 FL ls (TClamping cs) = Some rows -> ~ In [c; o] rows.
Proof.
  exists (mkRequant 7 (2 ^ 25) 25 20), (2 ^ 20), 127, (2 ^ 13), 127, [0; 0; 0; 128], 13%nat.
  split; [reflexivity|]. split; [vm_compute; reflexivity|]. split; [vm_compute; reflexivity|]. split.
  { unfold clamping_size. cbn [rq_fpm]. replace (Z.to_nat (2 ^ 25)) with (2 ^ 25)%nat by (rewrite Z2Nat.inj_pow by lia; reflexivity).
    rewrite ceil_log2_pow2. reflexivity. }
  intros FL ls rows Ht Hin. destruct (coverage 8 FL ls (TClamping 13)) as (rows' & Er & Hrow); [lia|cbn; lia|discriminate|].
  rewrite Ht in Er. assert (rows' = rows) by congruence. subst rows'. apply Hrow in Hin. cbn [table_spec] in Hin.
  destruct Hin as (c & Hc & E). assert (2 ^ 13 = c) by congruence. cbn in Hc. lia.
Qed.
(** In terms of the layer's own parameters: a quarter of the accepted range is always covered. *)
Lemma witness_clamp_row_quarter B FL ls r v c o ch cs : (0 < B)%nat -> rq_witness1 B r v = Some (c, o, ch) -> clamping_size r = Some cs ->
  (2 <= cs)%nat -> 0 < rq_fpm r -> 4 * Z.abs v <= zpow2 (rq_ibs r) ->
  exists rows, table_rows B FL ls (TClamping cs) = Some rows /\ In [c; o] rows.
Proof.
  intros HB Hw Hcs Hc Hf Hv. apply (witness_clamp_row B HB FL ls r v c o ch cs); auto; [lia|].
  apply witness_spec in Hw; auto. destruct Hw as (_ & _ & _ & _ & Hs & _).
  unfold clamping_size in Hcs. destruct (ceil_log2 (Z.to_nat (rq_fpm r))) as [k|] eqn:Ek; [|discriminate]. cbn [obind] in Hcs.
  assert (Hk : rq_fpm r <= zpow2 k).
  { unfold zpow2. rewrite Zpow2_of_nat. destruct (Z.to_nat (rq_fpm r)) as [|n] eqn:En; [discriminate|]. assert (k = Nat.log2_up (S n)) by (cbn in Ek; congruence). subst k.
    replace (rq_fpm r) with (Z.of_nat (S n)) by lia. apply Nat2Z.inj_le. destruct (Nat.eq_dec n 0) as [->|N]; [cbn; lia|]. apply Nat.log2_up_spec. lia. }
  destruct (Nat.leb_spec (rq_shift r) (rq_ibs r + k)); [|discriminate]. assert (E : cs = (rq_ibs r + k - rq_shift r)%nat) by congruence.
  assert (Et : 4 * zpow2 (rq_shift r - 1) <= zpow2 (cs - 1 + rq_shift r)).
  { unfold zpow2. change 4 with (2 ^ 2). rewrite <- Z.pow_add_r by lia. apply Z.pow_le_mono_r; lia. }
  assert (Ei : 2 * zpow2 (cs - 1 + rq_shift r) = zpow2 (rq_ibs r) * zpow2 k).
  { unfold zpow2. rewrite <- Z.pow_add_r by lia. rewrite <- Z.pow_succ_r by lia. f_equal. lia. }
  rewrite Z.abs_mul, (Z.abs_eq (rq_fpm r)) by lia. pose proof (zpow_pos (cs - 1 + rq_shift r)) as P. fold (zpow2 (cs - 1 + rq_shift r)) in P.
  assert (4 * (Z.abs v * rq_fpm r) <= zpow2 (rq_ibs r) * zpow2 k).
  { rewrite Z.mul_assoc. apply Z.mul_le_mono_nonneg; lia. }
  lia.
Qed.
