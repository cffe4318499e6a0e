(** Keys (C19), honest lookups of the activation tables (C20) and the failing cases of C20 and C21. *)
From Coq Require Import String Ascii.
From Coq Require Import List Arith Lia Bool ZArith.
From Verif Require Import ListAux FieldDef M_Mle P_Mle P_Eq M_LogUp M_Lookup P_Lookup M_Tables P_Tables P_Tables2 P_Tables3.
Import ListNotations.

Lemma keys_injective a b a' b' : (Z.abs a < 2 ^ 31)%Z -> (Z.abs a' < 2 ^ 31)%Z ->
  merged_key [a; b] = merged_key [a'; b'] -> a = a' /\ b = b'.
Proof.
  intros H H' E. assert (E2 : unmerge (merged_key [a; b]) = unmerge (merged_key [a'; b'])) by (rewrite E; reflexivity).
  rewrite !unmerge_key in E2 by lia. injection E2; auto.
Qed.
Lemma keys_bound a b : (Z.abs a < 2 ^ 31)%Z -> (Z.abs b < 2 ^ 31)%Z -> (- 2 ^ 63 <= merged_key [a; b] < 2 ^ 63)%Z.
Proof. intros H H'. unfold merged_key, column_separator. lia. Qed.
Lemma keys_collide : merged_key [2 ^ 31; 0]%Z = merged_key [- 2 ^ 31; 1]%Z.
Proof. reflexivity. Qed.

Lemma relu_inputs B FL ls x : 0 < B -> (q_min B <= x <= q_max B)%Z ->
  exists rows, table_rows B FL ls TRelu = Some rows /\ In [x; relu_apply x] rows.
Proof.
  intros HB Hx. eexists. split; [reflexivity|]. apply in_range_rows. exists x. split; [lia|reflexivity].
Qed.
Lemma gelu_inputs B FL ls mu t x : 0 < B <= 8 -> gelu_quantize mu = Some t -> (q_min B <= x <= q_max B)%Z ->
  exists a b rows, gelu_lookup FL t x = Some (a, b) /\ a = (x * mu)%Z /\ table_rows B FL ls t = Some rows /\ In [a; b] rows.
Proof.
  intros HB Hq Hx. unfold gelu_quantize in Hq. destruct (Z.ltb_spec mu 0); [discriminate|].
  destruct (ceil_log2 (Z.to_nat mu)) as [c|] eqn:E; [|discriminate]. cbn [obind] in Hq.
  assert (HP : (2 ^ Z.of_nat (7 + c))%Z = (128 * 2 ^ Z.of_nat c)%Z) by (rewrite Nat2Z.inj_add, Z.pow_add_r by lia; reflexivity).
  set (P := (2 ^ Z.of_nat (7 + c))%Z) in *. clearbody P.
  destruct (Z.leb _ _); [|discriminate]. injection Hq as <-. apply ceil_log2_le in E. destruct E as [E _].
  assert (Hm : (mu <= 2 ^ Z.of_nat c)%Z) by (rewrite Zpow2_of_nat; lia).
  assert (Hx2 : (- 127 <= x <= 127)%Z).
  { unfold q_min, q_max in Hx. assert (2 ^ (Z.of_nat B - 1) <= 2 ^ 7)%Z by (apply Z.pow_le_mono_r; lia). lia. }
  assert (Hp : (0 < 2 ^ Z.of_nat c)%Z) by (apply Z.pow_pos_nonneg; lia).
  assert (Hr : (- P <= x * mu < P)%Z) by (subst P; nia).
  cbn [gelu_lookup table_rows]. replace (Z.leb _ (x * mu) && Z.leb (x * mu) _) with true.
  2: { symmetry. apply andb_true_iff. split; apply Z.leb_le; lia. }
  do 3 eexists. split; [reflexivity|]. split; [reflexivity|]. split; [reflexivity|]. apply in_range_rows. eauto.
Qed.
(** With 9 bits an accepted input lies outside the table. *)
Lemma gelu_9_bits FL ls : exists t x a b rows, gelu_quantize 4 = Some t /\ (q_min 9 <= x <= q_max 9)%Z /\
  gelu_lookup FL t x = Some (a, b) /\ table_rows 9 FL ls t = Some rows /\ ~ In [a; b] rows.
Proof.
  exists (TGELU 4 (-512) 512), 128%Z, 512%Z, (fl_gelu FL 512). eexists. split; [reflexivity|]. split; [vm_compute; split; discriminate|].
  split; [reflexivity|]. split; [reflexivity|]. intros H. apply in_range_rows in H. destruct H as (x & Hx & E). injection E. lia.
Qed.

(** The error table is right exactly when the number of values 2 * ae + 1 and the table size agree up to
    the one extra padding row. *)
Lemma error_missing FL ls B q1 k : exists rows, table_rows B FL ls (TError q1 (2 ^ Z.of_nat k)) = Some rows /\
  ~ In [q1 + 2 ^ Z.of_nat k]%Z rows.
Proof.
  assert (Hp : (0 < 2 ^ Z.of_nat k)%Z) by (apply Z.pow_pos_nonneg; lia).
  destruct (error_rows_ok FL ls B q1 (2 ^ Z.of_nat k) Hp) as (nv & rows & E & Hr & Hle & H). exists rows. split; auto.
  assert (Hnv : nv = S k).
  { unfold error_vars in E. destruct (Z.ltb_spec (2 ^ Z.of_nat k) 0); [lia|].
    replace (Z.to_nat (2 * 2 ^ Z.of_nat k)) with (2 ^ S k)%nat in E by (rewrite Zpow2_of_nat; cbn [Nat.pow]; lia).
    rewrite ceil_log2_pow2 in E. congruence. }
  subst nv. intros Hi. apply H in Hi. replace (2 ^ Z.of_nat (S k))%Z with (2 * 2 ^ Z.of_nat k)%Z in * by (rewrite Nat2Z.inj_succ, Z.pow_succ_r by lia; reflexivity).
  destruct Hi as [(x & H1 & H2 & H3)|[H1 _]]; [injection H3; lia|lia].
Qed.
Lemma error_extra FL ls B : exists rows, table_rows B FL ls (TError 128 5) = Some rows /\ In [0]%Z rows /\ ~ (128 - 5 <= 0 <= 128 + 5)%Z.
Proof. eexists. split; [reflexivity|]. split; [vm_compute; tauto|lia]. Qed.
(** No allowable error above 1 gives a table with the intended rows. *)
Lemma error_never FL ls B q1 ae : (1 < ae)%Z -> (ae < q1)%Z ->
  exists rows, table_rows B FL ls (TError q1 ae) = Some rows /\ ~ (forall row, In row rows <-> table_spec B FL ls (TError q1 ae) row).
Proof.
  intros Ha Hq. destruct (error_rows_ok FL ls B q1 ae) as (nv & rows & E & Hr & Hle & H); [lia|]. exists rows. split; auto.
  intros Hs. destruct (Z.lt_trichotomy (2 * ae + 1) (2 ^ Z.of_nat nv)) as [Hc|[Hc|Hc]].
  - assert (Hi : In [0%Z] rows) by (apply H; right; auto). apply Hs in Hi. destruct Hi as (x & Hx & Ex). injection Ex. lia.
  - destruct nv as [|nv]; [cbn in Hc; lia|]. rewrite Nat2Z.inj_succ, Z.pow_succ_r in Hc by lia. lia.
  - assert (Hi : In [(q1 + ae)%Z] rows) by (apply Hs; exists (q1 + ae)%Z; split; [lia|reflexivity]). apply H in Hi.
    destruct Hi as [(x & H1 & H2 & H3)|[H1 _]]; [injection H3; lia|lia].
Qed.

Lemma names_distinct FL t t' : (forall b, no_comma (fl_show FL b)) -> (forall b b', fl_show FL b = fl_show FL b' -> b = b') ->
  (forall m lo hi m' lo' hi', t = TGELU m lo hi -> t' = TGELU m' lo' hi' -> t = t') ->
  (forall fb s k s' k', t = TSoftmax fb s k -> t' = TSoftmax fb s' k' -> t = t') ->
  table_name FL t = table_name FL t' -> t = t'.
Proof.
  intros Hc Hs Hg Hx E. apply names in E; auto. destruct t, t'; cbn [same_name] in E; try discriminate E; auto.
  - eapply Hg; eauto.
  - apply Hs in E. subst. eapply Hx; eauto.
  - destruct E as [E ->]. apply Hs in E. subst. reflexivity.
Qed.
Lemma names_clash FL : (exists t t', t <> t' /\ table_ok 8 t /\ table_ok 8 t' /\ gelu_quantize 4 = Some t /\ gelu_quantize 3 = Some t' /\
    table_name FL t = table_name FL t') /\
  (forall fb k, TSoftmax fb 8 k <> TSoftmax fb 9 k /\ table_name FL (TSoftmax fb 8 k) = table_name FL (TSoftmax fb 9 k)).
Proof.
  split.
  - exists (TGELU 4 (-512) 512), (TGELU 3 (-512) 512). split; [discriminate|]. split; [exists 9%nat; auto|]. split; [exists 9%nat; auto|].
    split; [reflexivity|]. split; reflexivity.
  - intros fb k. split; [discriminate|reflexivity].
Qed.
