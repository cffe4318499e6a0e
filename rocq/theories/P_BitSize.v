(** The announced bit sizes bound the outputs (C26). *)
From Coq Require Import List Arith Lia Bool ZArith.
From Verif Require Import ListAux FieldDef M_Mle P_Eq M_LogUp M_Lookup M_Tables P_Tables P_Tables2 M_Quant M_Requant P_Requant M_BitSize.
Import ListNotations.
Local Open Scope Z_scope.

(** The mathematical inner product. *)
Definition zdot (xs ws : list Z) : Z := fold_right (fun '(x, w) s => x * w + s) 0 (combine xs ws).
Definition bounded (m : Z) (l : list Z) : Prop := Forall (fun x => Z.abs x <= m) l.

Lemma zdot_bound a b xs : forall ws, 0 <= a -> 0 <= b -> bounded a xs -> bounded b ws ->
  Z.abs (zdot xs ws) <= Z.of_nat (length xs) * (a * b).
Proof.
  induction xs as [|x xs IH]; intros ws Ha Hb Hx Hw; [cbn; lia|]. destruct ws as [|w ws].
  { unfold zdot. cbn [combine fold_right]. change (Z.abs 0) with 0. apply Z.mul_nonneg_nonneg; [lia|]. apply Z.mul_nonneg_nonneg; auto. }
  inversion Hx; inversion Hw; subst. specialize (IH ws Ha Hb ltac:(auto) ltac:(auto)). unfold zdot in *. cbn [combine fold_right]. cbn [length].
  assert (Z.abs (x * w) <= a * b) by (rewrite Z.abs_mul; nia). rewrite Nat2Z.inj_succ. lia.
Qed.
Lemma dot_i64_exact a b xs : forall ws acc, 0 <= a -> 0 <= b -> bounded a xs -> bounded b ws ->
  Z.abs acc + Z.of_nat (length xs) * (a * b) < 2 ^ 63 -> dot_i64 acc xs ws = Some (acc + zdot xs ws).
Proof.
  induction xs as [|x xs IH]; intros ws acc Ha Hb Hx Hw H; [cbn; f_equal; lia|]. destruct ws as [|w ws]; [cbn; f_equal; lia|].
  inversion Hx; inversion Hw; subst. cbn [dot_i64]. cbn [length] in H. rewrite Nat2Z.inj_succ in H.
  assert (A : Z.abs (x * w) <= a * b) by (rewrite Z.abs_mul; nia). assert (0 <= Z.of_nat (length xs) * (a * b)) by nia.
  rewrite i64_ok by lia. cbn [obind]. rewrite i64_ok by lia. cbn [obind]. rewrite IH by (auto; lia). unfold zdot. cbn [combine fold_right]. f_equal. lia.
Qed.
Lemma dot_bias_bound a b c bits xs ws bias : 0 <= a -> 0 <= b -> bounded a xs -> bounded b ws -> Z.abs bias <= c ->
  Z.of_nat (length xs) * (a * b) + c <= zpow2 bits -> (bits <= 62)%nat ->
  exists y, dot_bias xs ws bias = Some y /\ y = zdot xs ws + bias /\ Z.abs y <= zpow2 bits.
Proof.
  intros Ha Hb Hx Hw Hc H Hbits. assert (P : zpow2 bits <= 2 ^ 62) by (apply Z.pow_le_mono_r; lia). pose proof (zdot_bound a b xs ws Ha Hb Hx Hw).
  unfold dot_bias. rewrite (dot_i64_exact a b) by (auto; lia). cbn [obind]. rewrite i64_ok by lia. eexists. split; [reflexivity|]. lia.
Qed.

Lemma ceil_log2_bound n c : ceil_log2 n = Some c -> (0 < n)%nat /\ Z.of_nat n <= zpow2 c.
Proof.
  destruct n as [|n]; [discriminate|]. intros [= <-]. split; [lia|]. unfold zpow2. rewrite Zpow2_of_nat. apply Nat2Z.inj_le.
  destruct (Nat.eq_dec n 0) as [->|N]; [cbn; lia|]. apply Nat.log2_up_spec. lia.
Qed.
Lemma q_max_pow B : (0 < B)%nat -> q_max B = zpow2 (B - 1) - 1.
Proof. intros H. unfold q_max, zpow2. rewrite Nat2Z.inj_sub by lia. reflexivity. Qed.
Lemma zpow2_add a b : zpow2 (a + b) = zpow2 a * zpow2 b.
Proof. unfold zpow2. rewrite Nat2Z.inj_add, Z.pow_add_r by lia. reflexivity. Qed.
Lemma zpow2_1 n : 1 <= zpow2 n.
Proof. unfold zpow2. pose proof (zpow_pos n). lia. Qed.

(** Dense, with a bias that is a product of two quantised values. *)
Lemma dense_bits B xs ws bias bits : (0 < B)%nat -> length xs = length ws -> bounded (q_max B) xs -> bounded (q_max B) ws ->
  dense_bitsize B (length ws) = Some bits -> (bits <= 62)%nat ->
  (Z.abs bias <= q_max B * q_max B \/ (2 <= length ws)%nat /\ Z.abs bias < zpow2 (2 * B - 1)) ->
  exists y, dot_bias ws xs bias = Some y /\ y = zdot ws xs + bias /\ Z.abs y <= zpow2 bits.
Proof.
  intros HB Hl Hx Hw Hb Hbits Hbias. unfold dense_bitsize in Hb. destruct (ceil_log2 (length ws)) as [c|] eqn:Ec; [|discriminate].
  cbn [obind] in Hb. apply ceil_log2_bound in Ec as Ec'. destruct Ec' as [Hn Hc]. assert (Eb : bits = (2 * (B - 1) + c + 1)%nat) by congruence.
  pose proof (MAX_nonneg B HB). assert (HM : q_max B * q_max B <= zpow2 (2 * (B - 1))).
  { replace (2 * (B - 1))%nat with ((B - 1) + (B - 1))%nat by lia. rewrite zpow2_add, q_max_pow by auto. pose proof (zpow2_1 (B - 1)). nia. }
  apply (dot_bias_bound (q_max B) (q_max B) (zpow2 (2 * (B - 1) + c))); auto.
  - pose proof (zpow2_1 (2 * (B - 1))) as P1. pose proof (zpow2_1 c) as P2. rewrite zpow2_add. destruct Hbias as [Hbias|[H2 Hbias]]; [nia|].
    destruct c as [|c]; [destruct (length ws) as [|[|n]]; [lia|lia|]; cbn in Hc; lia|].
    replace (2 * B - 1)%nat with (2 * (B - 1) + 1)%nat in Hbias by lia. rewrite zpow2_add in Hbias. replace (S c) with (1 + c)%nat by lia.
    rewrite (zpow2_add 1 c). pose proof (zpow2_1 c). nia.
  - rewrite Eb, !zpow2_add. rewrite <- zpow2_add. change (zpow2 1) with 2.
    set (Q := zpow2 (2 * (B - 1))) in *. set (M := q_max B * q_max B) in *. pose proof (zpow2_1 c). rewrite !zpow2_add. fold Q.
    assert (Z.of_nat (length ws) * M <= zpow2 c * Q) by (apply Z.mul_le_mono_nonneg; nia). nia.
Qed.
Lemma conv_bits B kc kh kw xs ws bias bits : (0 < B)%nat -> length ws = (kh * kw * kc)%nat -> bounded (q_max B) xs -> bounded (q_max B) ws ->
  conv_bitsize B kc kh kw = Some bits -> (bits <= 62)%nat -> Z.abs bias <= q_max B * q_max B ->
  exists y, dot_bias ws xs bias = Some y /\ y = zdot ws xs + bias /\ Z.abs y <= zpow2 bits.
Proof.
  intros HB Hl Hx Hw Hb Hbits Hbias. unfold conv_bitsize in Hb. destruct (ceil_log2 (kh * kw * kc + 1)) as [c|] eqn:Ec; [|discriminate].
  cbn [obind] in Hb. apply ceil_log2_bound in Ec. destruct Ec as [_ Hc]. rewrite <- Hl in Hc. assert (Eb : bits = (2 * (B - 1) + c)%nat) by congruence.
  pose proof (MAX_nonneg B HB). assert (HM : q_max B * q_max B <= zpow2 (2 * (B - 1))).
  { replace (2 * (B - 1))%nat with ((B - 1) + (B - 1))%nat by lia. rewrite zpow2_add, q_max_pow by auto. pose proof (zpow2_1 (B - 1)). nia. }
  apply (dot_bias_bound (q_max B) (q_max B) (q_max B * q_max B)); auto.
  rewrite Eb, zpow2_add. pose proof (zpow2_1 c). rewrite Nat2Z.inj_add in Hc. change (Z.of_nat 1) with 1 in Hc. set (M := q_max B * q_max B) in *. nia.
Qed.
Lemma log2_max B : (2 <= B)%nat -> ilog2 (q_max B) = Some (B - 2)%nat.
Proof.
  intros H. assert (E : q_max B = 2 * zpow2 (B - 2) - 1).
  { rewrite q_max_pow by lia. replace (B - 1)%nat with (1 + (B - 2))%nat by lia. rewrite zpow2_add. reflexivity. }
  pose proof (zpow2_1 (B - 2)). unfold ilog2. destruct (Z.leb_spec (q_max B) 0); [lia|]. f_equal.
  rewrite (Z.log2_unique (q_max B) (Z.of_nat (B - 2))); [lia|lia|]. unfold zpow2 in *. rewrite Z.pow_succ_r by lia. lia.
Qed.
Lemma matmul_bits B xs ws bias bits : (2 <= B)%nat -> (0 < length xs)%nat -> bounded (q_max B) xs -> bounded (q_max B) ws ->
  matmul_bitsize (q_min B) (q_max B) (Some (length xs)) = Some bits -> (bits <= 62)%nat -> Z.abs bias <= q_max B * q_max B ->
  exists y, dot_bias xs ws bias = Some y /\ y = zdot xs ws + bias /\ Z.abs y <= zpow2 bits.
Proof.
  intros HB Hl Hx Hw Hb Hbits Hbias. unfold matmul_bitsize in Hb. pose proof (MAX_nonneg B ltac:(lia)).
  assert (Em : Z.abs (q_min B) = q_max B) by (unfold q_min, q_max in *; lia). rewrite Em, (Z.abs_eq (q_max B)), (log2_max B) in Hb by auto. cbn [obind] in Hb.
  unfold ilog2 in Hb. destruct (Z.leb_spec (Z.of_nat (length xs)) 0); [lia|]. cbn [obind] in Hb.
  set (f := Z.to_nat (Z.log2 (Z.of_nat (length xs)))) in *. assert (Eb : bits = ((B - 1) + (B - 1) + (f + 1))%nat).
  { assert (bits = (B - 2 + 1 + (B - 2 + 1) + f + 1)%nat) by congruence. lia. }
  assert (Hf : Z.of_nat (length xs) + 1 <= zpow2 (f + 1)).
  { pose proof (Z.log2_spec (Z.of_nat (length xs)) ltac:(lia)) as [_ L]. unfold zpow2, f. rewrite Nat2Z.inj_add, Z2Nat.id by apply Z.log2_nonneg.
    change (Z.of_nat 1) with 1. rewrite Z.add_1_r. lia. }
  apply (dot_bias_bound (q_max B) (q_max B) (q_max B * q_max B)); auto.
  rewrite Eb, !zpow2_add. rewrite <- zpow2_add. rewrite q_max_pow by lia. pose proof (zpow2_1 (B - 1)). set (h := zpow2 (B - 1)) in *.
  assert ((h - 1) * (h - 1) <= h * h) by nia. rewrite zpow2_add. fold h. rewrite zpow2_add in Hf. set (g := zpow2 f * zpow2 1) in *.
  set (M := (h - 1) * (h - 1)) in *. assert (0 <= M) by (unfold M; nia). nia.
Qed.
(** The general form: ranges of both sides. *)
Lemma shape_bits B r1 r2 R1 R2 xs ws bias bits : (0 < B)%nat ->
  R1 = match r1 with None => q_max B | Some n => Z.of_nat n end -> R2 = match r2 with None => q_max B | Some n => Z.of_nat n end ->
  bounded R1 xs -> bounded R2 ws -> shape_matmul_bitsize B r1 r2 (length xs) = Some bits -> (bits <= 62)%nat -> Z.abs bias <= R1 * R2 ->
  exists y, dot_bias xs ws bias = Some y /\ y = zdot xs ws + bias /\ Z.abs y <= zpow2 bits.
Proof.
  intros HB E1 E2 Hx Hw Hb Hbits Hbias. 
  set (f := fun r => match r with None => Some (B - 1)%nat | Some n => ceil_log2 n end).
  change (shape_matmul_bitsize B r1 r2 (length xs)) with (a <- f r1 ;; b <- f r2 ;; c <- ceil_log2 (length xs) ;; Some (a + b + c + 1)%nat) in Hb.
  assert (G : forall r R a, R = match r with None => q_max B | Some n => Z.of_nat n end ->
    f r = Some a -> 0 <= R <= zpow2 a).
  { intros [n|] R a -> H; unfold f in H; [apply ceil_log2_bound in H; lia|]. assert (a = (B - 1)%nat) by congruence. subst a. pose proof (MAX_nonneg B HB). rewrite q_max_pow in * by auto. lia. }
  destruct (f r1) as [a|] eqn:Ea; [|discriminate].
  destruct (f r2) as [b|] eqn:Eb; [|discriminate]. cbn [obind] in Hb.
  apply (G _ _ _ E1) in Ea. apply (G _ _ _ E2) in Eb. destruct (ceil_log2 (length xs)) as [c|] eqn:Ec; [|discriminate]. cbn [obind] in Hb.
  apply ceil_log2_bound in Ec. destruct Ec as [_ Hc]. assert (Ebits : bits = (a + b + c + 1)%nat) by congruence.
  apply (dot_bias_bound R1 R2 (R1 * R2)); auto; try lia. rewrite Ebits, !zpow2_add. change (zpow2 1) with 2.
  set (A := zpow2 a) in *. set (D := zpow2 b) in *. set (C := zpow2 c) in *. assert (1 <= C) by apply zpow2_1. clearbody A D C. clear G Hb.
  assert (0 <= R1 * R2 <= A * D) by nia. set (M := R1 * R2) in *. set (Q := A * D) in *. nia.
Qed.
Lemma layer_requant B r bits y : (0 < B)%nat -> rq_ok r -> rq_ibs r = bits -> Z.abs y <= zpow2 bits -> exists z, rq_op1 B r y = Some z.
Proof. intros HB Hr <- Hy. apply op_total; auto. Qed.

(** Addition, when both scales are at most 2^-(B-2) (values of absolute value below 2). *)
Lemma add_common_ge B a b c k rq : 0 <= a -> 0 <= b -> 0 <= c -> add_common B a b c = (k, rq) -> a <= k /\ b <= k.
Proof.
  intros Ha Hb Hc. unfold add_common. rewrite !Z.abs_eq by lia.
  assert (G : forall h l, 0 <= h -> 0 <= l -> l <= h ->
    match h ?= c with
    | Lt => if Z.of_nat B <=? c - h then (c, false) else (h + Z.of_nat B, true)
    | Eq => if Z.of_nat B <=? c - l then (c, false) else (h + Z.of_nat B, true)
    | Gt => if 8 <=? h - l then (h, true) else (h + 8, true)
    end = (k, rq) -> h <= k).
  { intros h l Hh Hl Hle. destruct (Z.compare_spec h c).
    - destruct (_ <=? _); intros [= <- <-]; lia.
    - destruct (_ <=? _); intros [= <- <-]; lia.
    - destruct (_ <=? _); intros [= <- <-]; lia. }
  destruct (Z.compare_spec a b); intros Hk; apply G in Hk; lia.
Qed.
Lemma add_bits B a b c k rq x y : (2 <= B)%nat -> Z.of_nat B - 2 <= a -> Z.of_nat B - 2 <= b -> 0 <= c ->
  add_common B a b c = (k, rq) -> Z.abs x <= q_max B -> Z.abs y <= q_max B -> (add_bitsize k <= 62)%nat ->
  exists z, add_elem (add_multiplier k a) (add_multiplier k b) x y = Some z /\ z = x * 2 ^ (k - a) + y * 2 ^ (k - b) /\ Z.abs z <= zpow2 (add_bitsize k).
Proof.
  intros HB Ha Hb Hc Hk Hx Hy Hbits. apply add_common_ge in Hk; [|lia|lia|lia].
  assert (M : forall s, Z.of_nat B - 2 <= s -> s <= k -> add_multiplier k s = 2 ^ (k - s) /\ 0 < 2 ^ (k - s) /\ (q_max B + 1) * 2 ^ (k - s) <= 2 ^ (k + 1)).
  { intros s Hs Hsk. unfold add_multiplier. destruct (Z.leb_spec 0 (k - s)); [|lia]. split; auto. split; [apply Z.pow_pos_nonneg; lia|].
    unfold q_max. replace (2 ^ (Z.of_nat B - 1) - 1 + 1) with (2 ^ (Z.of_nat B - 1)) by lia. rewrite <- Z.pow_add_r by lia. apply Z.pow_le_mono_r; lia. }
  destruct (M a) as (-> & Pa & La); [lia|lia|]. destruct (M b) as (-> & Pb & Lb); [lia|lia|].
  assert (Eb : zpow2 (add_bitsize k) = 2 * 2 ^ (k + 1)).
  { unfold zpow2, add_bitsize. rewrite Nat2Z.inj_add, Z2Nat.id, Z.abs_eq by lia. rewrite <- Z.pow_succ_r by lia. f_equal. lia. }
  assert (P : zpow2 (add_bitsize k) <= 2 ^ 62) by (apply Z.pow_le_mono_r; lia). rewrite Eb in *.
  assert (Ax : Z.abs (x * 2 ^ (k - a)) <= 2 ^ (k + 1)) by (rewrite Z.abs_mul, (Z.abs_eq (2 ^ (k - a))) by lia; nia).
  assert (Ay : Z.abs (y * 2 ^ (k - b)) <= 2 ^ (k + 1)) by (rewrite Z.abs_mul, (Z.abs_eq (2 ^ (k - b))) by lia; nia).
  unfold add_elem. rewrite i64_ok by lia. cbn [obind]. rewrite i64_ok by lia. cbn [obind]. rewrite i64_ok by lia. eexists. split; [reflexivity|]. lia.
Qed.
