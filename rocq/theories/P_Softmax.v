(** The quantised softmax evaluation: what every entry of the output is, masking, and the sizes of the chunks. *)
From Coq Require Import List Arith Lia Bool ZArith.
From Verif Require Import ListAux M_Mle M_Tensor M_Transformer M_Softmax P_Code4 P_Tensor2 P_Transformer P_LayerNorm6.
Import ListNotations.

(** Little-endian value of chunks of [zv] bits. *)
Definition chunk_sum (zv : nat) (l : list Z) : Z := fold_right (fun z acc => z + 2 ^ Z.of_nat zv * acc)%Z 0%Z l.

Lemma zero_chunks_ok zv : forall nz r, (0 <= r < 2 ^ Z.of_nat (nz * zv))%Z ->
  length (zero_chunks nz zv r) = nz /\ Forall (fun z => (0 <= z < 2 ^ Z.of_nat zv)%Z) (zero_chunks nz zv r) /\ chunk_sum zv (zero_chunks nz zv r) = r.
Proof.
  induction nz as [|nz IH]; intros r Hr.
  - cbn in Hr. cbn. split; [reflexivity|]. split; [constructor|lia].
  - cbn [zero_chunks]. assert (P := zp zv). assert (P2 := zp (nz * zv)).
    assert (E : (2 ^ Z.of_nat (S nz * zv) = 2 ^ Z.of_nat zv * 2 ^ Z.of_nat (nz * zv))%Z).
    { replace (S nz * zv)%nat with (zv + nz * zv)%nat by lia. rewrite Nat2Z.inj_add, Z.pow_add_r by lia. reflexivity. }
    rewrite land_mod, Z.shiftr_div_pow2 by lia.
    destruct (IH (r / 2 ^ Z.of_nat zv)%Z) as (I1 & I2 & I3).
    { split; [apply Z.div_pos; lia|]. apply Z.div_lt_upper_bound; lia. }
    split; [cbn [length]; lia|]. split; [constructor; [apply Z.mod_pos_bound; lia|exact I2]|].
    cbn [chunk_sum fold_right]. fold (chunk_sum zv (zero_chunks nz zv (r / 2 ^ Z.of_nat zv))). rewrite I3.
    pose proof (Z.div_mod r (2 ^ Z.of_nat zv)). lia.
Qed.
Lemma chunk_sum0 zv l : Forall (fun z => (0 <= z < 2 ^ Z.of_nat zv)%Z) l -> (0 <= chunk_sum zv l)%Z /\ (chunk_sum zv l = 0%Z <-> Forall (fun z => z = 0%Z) l).
Proof.
  assert (P := zp zv). induction 1 as [|z l Hz Hl IH]; cbn [chunk_sum fold_right].
  - split; [lia|]. split; [constructor|reflexivity].
  - fold (chunk_sum zv l). destruct IH as [I1 I2]. split; [nia|]. split.
    + intros H. assert (z = 0%Z) by nia. constructor; [assumption|]. apply I2. nia.
    + intros H. inversion H as [|? ? Hz0 Hl0]. subst. rewrite (proj2 I2 Hl0). lia.
Qed.
Lemma mul_fold l : forall a, fold_left Z.mul (map (fun z => if (z =? 0)%Z then 1%Z else 0%Z) l) a = if forallb (fun z => (z =? 0)%Z) l then a else 0%Z.
Proof.
  induction l as [|z l IH]; intros a; cbn [map fold_left forallb]; [reflexivity|]. rewrite IH.
  destruct (z =? 0)%Z; cbn [andb]; destruct (forallb _ l); lia.
Qed.

(** The chunks of one element recombine to its absolute value, are in the ranges of their tables, and the output is the
    table's value when no zero chunk is set. *)
Lemma sm_elem_ok lut tv nz zv e : (Z.abs e < 2 ^ Z.of_nat (16 + tv + nz * zv))%Z ->
  let c := sm_elem lut tv nz zv e in
  (ce_low c + 2 ^ 8 * ce_high c + 2 ^ 16 * ce_in c + 2 ^ Z.of_nat (16 + tv) * chunk_sum zv (ce_zin c) = Z.abs e)%Z /\
  (0 <= ce_low c < 2 ^ 8)%Z /\ (0 <= ce_high c < 2 ^ 8)%Z /\ (0 <= ce_in c < 2 ^ Z.of_nat tv)%Z /\
  length (ce_zin c) = nz /\ Forall (fun z => (0 <= z < 2 ^ Z.of_nat zv)%Z) (ce_zin c) /\
  ce_exp c = lut (ce_in c) /\ ce_zout c = map (fun z => if (z =? 0)%Z then 1%Z else 0%Z) (ce_zin c) /\
  ce_out c = (if Z.abs e / 2 ^ 16 <? 2 ^ Z.of_nat tv then lut (Z.abs e / 2 ^ 16) else 0)%Z.
Proof.
  intros He. unfold sm_elem. cbn zeta. cbn [ce_low ce_high ce_in ce_exp ce_zin ce_zout ce_out].
  set (u := Z.abs e) in *. assert (Hu : (0 <= u)%Z) by (unfold u; lia).
  change 255%Z with (2 ^ Z.of_nat 8 - 1)%Z. rewrite !land_mod. rewrite !Z.shiftr_div_pow2 by lia. change (2 ^ Z.of_nat 8)%Z with 256%Z. change (2 ^ 8)%Z with 256%Z.
  change (2 ^ 16)%Z with 65536%Z. rewrite (Z.div_div u 256 256) by lia. change (256 * 256)%Z with 65536%Z.
  set (b := (u / 65536)%Z). assert (P := zp tv). assert (P2 := zp (nz * zv)).
  assert (Hb : (0 <= b)%Z) by (apply Z.div_pos; lia).
  assert (Ez : (2 ^ Z.of_nat (16 + tv + nz * zv) = 65536 * (2 ^ Z.of_nat tv * 2 ^ Z.of_nat (nz * zv)))%Z).
  { rewrite !Nat2Z.inj_add, !Z.pow_add_r by lia. change (2 ^ Z.of_nat 16)%Z with 65536%Z. lia. }
  assert (Et : (2 ^ Z.of_nat (16 + tv) = 65536 * 2 ^ Z.of_nat tv)%Z) by (rewrite Nat2Z.inj_add, Z.pow_add_r by lia; reflexivity).
  assert (Hb2 : (b < 2 ^ Z.of_nat tv * 2 ^ Z.of_nat (nz * zv))%Z) by (apply Z.div_lt_upper_bound; lia).
  set (q := (b / 2 ^ Z.of_nat tv)%Z).
  assert (Hq : (0 <= q < 2 ^ Z.of_nat (nz * zv))%Z).
  { split; [apply Z.div_pos; lia|]. apply Z.div_lt_upper_bound; lia. }
  destruct (zero_chunks_ok zv nz q Hq) as (Z1 & Z2 & Z3). rewrite Z3, Et.
  pose proof (Z.div_mod u 256 ltac:(lia)) as D1. pose proof (Z.div_mod (u / 256) 256 ltac:(lia)) as D2. rewrite Z.div_div in D2 by lia. change (256 * 256)%Z with 65536%Z in D2. fold b in D2.
  pose proof (Z.div_mod b (2 ^ Z.of_nat tv) ltac:(lia)) as D3. fold q in D3.
  pose proof (Z.mod_pos_bound u 256 ltac:(lia)). pose proof (Z.mod_pos_bound (u / 256) 256 ltac:(lia)). pose proof (Z.mod_pos_bound b (2 ^ Z.of_nat tv) ltac:(lia)) as M3.
  split; [nia|]. split; [assumption|]. split; [assumption|]. split; [assumption|]. split; [exact Z1|]. split; [exact Z2|]. split; [reflexivity|]. split; [reflexivity|].
  rewrite mul_fold. destruct (chunk_sum0 zv _ Z2) as [_ Hz]. rewrite Z3 in Hz.
  destruct (Z.ltb_spec b (2 ^ Z.of_nat tv)).
  - assert (Q0 : q = 0%Z) by (apply Z.div_small; lia). replace (forallb _ _) with true.
    + f_equal. apply Z.mod_small. lia.
    + symmetry. apply forallb_forall. intros z Iz. apply Z.eqb_eq. apply (proj1 (Forall_forall _ _) (proj1 Hz Q0) z Iz).
  - replace (forallb _ _) with false; [reflexivity|]. symmetry. destruct (forallb _ _) eqn:Ef; [|reflexivity]. exfalso.
    assert (q = 0%Z). { apply Hz. apply Forall_forall. intros z Iz. apply Z.eqb_eq. apply (proj1 (forallb_forall _ _) Ef z Iz). }
    assert (b = b mod 2 ^ Z.of_nat tv)%Z by lia. lia.
Qed.

(** ** The mask *)
Lemma firstn_repeat {A} (x : A) : forall n k, firstn n (repeat x k) = repeat x (min n k).
Proof. induction n as [|n IH]; intros k; [reflexivity|]. destruct k; [reflexivity|]. cbn. f_equal. apply IH. Qed.
Lemma nth_repeat_in {A} (x d : A) : forall n i, (i < n)%nat -> nth i (repeat x n) d = x.
Proof. induction n; intros i Hi; [lia|]. destruct i; [reflexivity|]. cbn. apply IHn. lia. Qed.
Lemma tri_row {A} (l u : A) n i : (i < n)%nat -> firstn n (repeat l (S i) ++ repeat u n) = map (fun e => if (i <? e)%nat then u else l) (seq 0 n).
Proof.
  intros Hi. apply (nth_ext _ _ u u).
  - rewrite firstn_length, app_length, !repeat_length, map_length, seq_length. lia.
  - rewrite firstn_length, app_length, !repeat_length. intros e He. assert (He' : (e < n)%nat) by lia.
    rewrite (nth_map_lt _ _ e O u) by (rewrite seq_length; lia). rewrite seq_nth by lia. cbn [Nat.add].
    rewrite nth_firstn_lt by lia. destruct (Nat.ltb_spec i e).
    + rewrite app_nth2 by (rewrite repeat_length; lia). rewrite repeat_length. apply nth_repeat_in. lia.
    + rewrite app_nth1 by (rewrite repeat_length; lia). apply nth_repeat_in. lia.
Qed.
Lemma flat_map_ext_seq {A} (f g : nat -> list A) n : (forall i, (i < n)%nat -> f i = g i) -> flat_map f (seq 0 n) = flat_map g (seq 0 n).
Proof. intros H. rewrite !flat_map_concat_map. f_equal. apply map_ext_in. intros i Hi. apply in_seq in Hi. apply H. lia. Qed.
Lemma tri_dat {A} (l u : A) n m : dat (tri n m l u) = mask_dat (fun q e => if (q <? e)%nat then u else l) m n n.
Proof. cbn [tri dat]. unfold mask_dat. apply flat_map_ext_seq. intros _ _. apply flat_map_ext_seq. intros i Hi. apply tri_row. exact Hi. Qed.
Lemma tri_nth {A} (l u d : A) n m r e : (r < m * n)%nat -> (e < n)%nat -> nth (e + n * r) (dat (tri n m l u)) d = if (r mod n <? e)%nat then u else l.
Proof.
  intros Hr He. rewrite tri_dat. pose proof (Nat.div_mod r n ltac:(lia)) as D. replace r with (r mod n + n * (r / n))%nat at 1 by lia.
  apply (mask_nth (fun q e => if (q <? e)%nat then u else l)); [apply Nat.div_lt_upper_bound; lia|apply Nat.mod_upper_bound; lia|exact He].
Qed.
Lemma tri_len {A} (l u : A) n m : length (dat (tri n m l u)) = (n * n * m)%nat.
Proof. rewrite tri_dat. apply mask_len. Qed.

Definition mask_shape (shape : list nat) (m n : nat) : Prop := shape = [m; n; n] \/ (m = 1%nat /\ shape = [n; n]).
Lemma mask_new_ok shape m n ninf : mask_shape shape m n -> mask_new shape ninf = Some (tri n m 1%Z 0%Z, tri n m 0%Z ninf).
Proof. intros [->|[-> ->]]; cbn [mask_new]; rewrite Nat.eqb_refl; reflexivity. Qed.
Lemma mask_new_shape shape ninf x : mask_new shape ninf = Some x -> exists m n, mask_shape shape m n.
Proof.
  unfold mask_new, mask_shape. destruct shape as [|a [|b [|d [|? ?]]]]; try discriminate.
  - destruct (Nat.eqb_spec a b); [|discriminate]. intros _. exists 1%nat, b. right. subst. auto.
  - destruct (Nat.eqb_spec b d); [|discriminate]. intros _. exists a, d. left. subst. auto.
Qed.
Definition cell0 : sm_cell := mkCell 0 0 0 0 [] [] 0.
Lemma idx_lt m n r e : (r < m * n)%nat -> (e < n)%nat -> (e + n * r < m * n * n)%nat.
Proof. intros H1 H2. nia. Qed.

Lemma sm_eval_spec expf lse c shape data m n shifts shifted cells :
  mask_shape shape m n -> length data = (m * n * n)%nat -> sm_evaluate expf lse c shape data = Some (shifts, shifted, cells) ->
  exists tv, sm_tv c = Some tv /\ (0 < n)%nat /\ length shifts = (m * n)%nat /\ length shifted = (m * n * n)%nat /\ length cells = (m * n * n)%nat /\
  forall r e, (r < m * n)%nat -> (e < n)%nat ->
    sm_shift lse (sm_scalar c) n r (firstn n (skipn (r * n) data)) = Some (nth r shifts 0%Z) /\
    nth (e + n * r) shifted 0%Z = (nth (e + n * r) data 0 * sm_scalar c + nth r shifts 0)%Z /\
    nth (e + n * r) cells cell0 = sm_elem (sm_table expf (sm_bkm c)) tv (sm_nz c) (sm_zv c) (if (r mod n <? e)%nat then sm_neg_inf c else nth (e + n * r) shifted 0%Z).
Proof.
  intros Hs Hl H. unfold sm_evaluate in H. rewrite (mask_new_ok _ m n) in H by exact Hs. cbn [obind] in H.
  assert (En : nth_error shape (length shape - 1) = Some n) by (destruct Hs as [->|[_ ->]]; reflexivity).
  assert (Es : nth_error shape (length shape - 2) = Some n) by (destruct Hs as [->|[_ ->]]; reflexivity).
  rewrite En in H. cbn [obind] in H. rewrite Es in H. cbn [obind] in H. destruct n as [|n']; [discriminate H|]. set (n := S n') in *.
  assert (Hn : (0 < n)%nat) by (unfold n; lia).
  destruct (chunks_nth n (m * n) data Hn Hl) as [Cl Cn].
  destruct (omapM _ _) as [shs|] eqn:Eo in H; [|discriminate H]. cbn [obind] in H.
  destruct (sm_tv c) as [tv|] eqn:Etv; [|discriminate H]. cbn [obind] in H. injection H as <- <- <-.
  destruct (omapM_nth_some _ _ _ (0%nat, []) 0%Z Eo) as [Lo No]. rewrite combine_length, seq_length, Nat.min_id, Cl in Lo, No.
  set (rows := chunks n data) in *. set (g := fun '(row, s) => map (fun x => (x * sm_scalar c + s)%Z) row).
  assert (Hrow : forall r, (r < m * n)%nat -> nth r rows [] = firstn n (skipn (r * n) data)).
  { intros r Hr. apply nth_error_nth. apply Cn. exact Hr. }
  assert (Lg : forall ch, In ch (map g (combine rows shs)) -> length ch = n).
  { intros ch Hch. apply in_map_iff in Hch as ((row & s) & <- & Hin). cbn [g]. rewrite map_length. apply in_combine_l in Hin.
    apply (In_nth _ _ []) in Hin as (i & Hi & <-). rewrite Cl in Hi. rewrite Hrow by exact Hi. apply (chunk_len n (m * n)); auto. }
  assert (Lsh : length (concat (map g (combine rows shs))) = (m * n * n)%nat).
  { clear - Lg Lo Cl. assert (L : length (map g (combine rows shs)) = (m * n)%nat) by (rewrite map_length, combine_length; lia). revert Lg. rewrite <- L. generalize (map g (combine rows shs)).
    induction l as [|x l IH]; intros Lg; [reflexivity|]. cbn [concat length]. rewrite app_length, IH; [|intros; apply Lg; right; assumption]. rewrite (Lg x) by (left; reflexivity). lia. }
  assert (Nsh : forall r e, (r < m * n)%nat -> (e < n)%nat -> nth (e + n * r) (concat (map g (combine rows shs))) 0%Z = (nth (e + n * r) data 0 * sm_scalar c + nth r shs 0)%Z).
  { intros r e Hr He. rewrite (nth_concat_uniform _ n) by (auto; rewrite map_length, combine_length; lia).
    rewrite (nth_map_lt _ _ _ ([], 0%Z)) by (rewrite combine_length; lia). rewrite combine_nth by lia. cbn [g]. rewrite Hrow by exact Hr.
    rewrite (nth_map_lt _ _ _ 0%Z) by (rewrite (chunk_len n (m * n)) by auto; exact He).
    rewrite nth_firstn_lt by exact He. rewrite nth_skipn. replace (r * n + e)%nat with (e + n * r)%nat by lia. reflexivity. }
  exists tv. split; [reflexivity|]. split; [exact Hn|]. split; [exact Lo|]. split; [exact Lsh|].
  assert (Lm : length (mask_apply (tri n m 1%Z 0%Z, tri n m 0%Z (sm_neg_inf c)) (concat (map g (combine rows shs)))) = (m * n * n)%nat).
  { unfold mask_apply. cbn [fst snd]. rewrite map_length, !combine_length, !tri_len, Lsh. nia. }
  split; [rewrite map_length; exact Lm|]. intros r e Hr He. assert (Hi := idx_lt _ _ _ _ Hr He).
  split.
  { specialize (No r Hr). rewrite combine_nth in No by (rewrite seq_length; symmetry; exact Cl). rewrite seq_nth in No by lia. cbn [Nat.add] in No. rewrite Hrow in No by exact Hr. exact No. }
  split; [apply Nsh; assumption|].
  rewrite (nth_map_lt _ _ _ 0%Z) by (rewrite Lm; exact Hi). f_equal. unfold mask_apply. cbn [fst snd].
  rewrite (nth_map_lt _ _ _ (0%Z, (0%Z, 0%Z))) by (rewrite !combine_length, !tri_len, Lsh; nia).
  rewrite combine_nth by (rewrite combine_length, !tri_len, Lsh; nia). rewrite combine_nth by (rewrite !tri_len; reflexivity).
  rewrite !tri_nth by assumption. destruct (Nat.ltb_spec (r mod n) e); lia.
Qed.

Lemma tv_spec c tv : sm_tv c = Some tv -> (1 <= Z.shiftr (sm_bkm c) 16 <= 2 ^ Z.of_nat tv)%Z /\ (2 <= Z.shiftr (sm_bkm c) 16 -> 1 <= Z.of_nat tv)%Z /\ (sm_bkm c < 2 ^ 16 * (Z.shiftr (sm_bkm c) 16 + 1))%Z.
Proof.
  unfold sm_tv, ceil_log2. set (B := Z.shiftr (sm_bkm c) 16). destruct (Z.to_nat B) as [|k] eqn:E; [discriminate|]. intros [= <-].
  assert (HB : B = Z.of_nat (S k)) by lia. split; [|split].
  - split; [lia|]. rewrite HB. replace (2 ^ Z.of_nat (Nat.log2_up (S k)))%Z with (Z.of_nat (2 ^ Nat.log2_up (S k))) by (rewrite Nat2Z.inj_pow; reflexivity).
    apply inj_le. apply Nat.log2_log2_up_spec. lia.
  - intros H2. assert (1 <= Nat.log2_up (S k))%nat; [|lia]. destruct k as [|k]; [lia|]. assert (0 < Nat.log2_up (S (S k)))%nat; [|lia]. apply Nat.log2_up_pos. lia.
  - unfold B. rewrite Z.shiftr_div_pow2 by lia. pose proof (Z.div_mod (sm_bkm c) (2 ^ 16) ltac:(lia)). pose proof (Z.mod_pos_bound (sm_bkm c) (2 ^ 16) ltac:(lia)). lia.
Qed.
Lemma neg_inf_abs c tv : sm_tv c = Some tv -> Z.abs (sm_neg_inf c) = (2 ^ 16 * (Z.shiftr (sm_bkm c) 16 + 1))%Z.
Proof. intros H. apply tv_spec in H as [[H1 _] _]. unfold sm_neg_inf. rewrite Z.shiftl_mul_pow2 by lia. set (B := Z.shiftr (sm_bkm c) 16) in *. lia. Qed.

(** What an entry at distance [u] below the normalised maximum should become. *)
Definition sm_weight (expf : Z -> Z) (bkm : Z) (tv : nat) (u : Z) : Z :=
  (if u / 2 ^ 16 <? 2 ^ Z.of_nat tv then if bkm <=? 2 ^ 16 * (u / 2 ^ 16) then 0 else expf (u / 2 ^ 16) else 0)%Z.

Lemma sm_entries expf lse c shape data m n shifts shifted cells tv :
  mask_shape shape m n -> length data = (m * n * n)%nat -> sm_evaluate expf lse c shape data = Some (shifts, shifted, cells) -> sm_tv c = Some tv ->
  length cells = (m * n * n)%nat /\
  forall r e, (r < m * n)%nat -> (e < n)%nat ->
    let x := nth (e + n * r) data 0%Z in let s := nth r shifts 0%Z in let cell := nth (e + n * r) cells cell0 in
    ((e <= r mod n)%nat -> (Z.abs (sm_scalar c * x + s) < 2 ^ Z.of_nat (16 + tv + sm_nz c * sm_zv c))%Z ->
       ce_out cell = sm_weight expf (sm_bkm c) tv (Z.abs (sm_scalar c * x + s))) /\
    ((r mod n < e)%nat -> ((Z.shiftr (sm_bkm c) 16 + 1 < 2 ^ Z.of_nat tv)%Z \/ ((0 < sm_nz c * sm_zv c)%nat /\ (2 <= Z.shiftr (sm_bkm c) 16)%Z)) ->
       ce_out cell = 0%Z).
Proof.
  intros Hs Hl H Htv. destruct (sm_eval_spec _ _ _ _ _ _ _ _ _ _ Hs Hl H) as (tv' & Htv' & Hn & L1 & L2 & L3 & HE). rewrite Htv in Htv'. injection Htv' as <-.
  split; [exact L3|]. intros r e Hr He. cbn zeta. destruct (HE r e Hr He) as (_ & E2 & E3). rewrite E3, E2. split.
  - intros Hq Hb. destruct (Nat.ltb_spec (r mod n) e); [lia|]. rewrite (Z.mul_comm (nth (e + n * r) data 0)%Z). apply (sm_elem_ok (sm_table expf (sm_bkm c))) in Hb. apply Hb.
  - intros Hq Hb. destruct (Nat.ltb_spec (r mod n) e); [|lia]. destruct (tv_spec c tv Htv) as ([T1 T2] & T3 & T4). assert (Ha := neg_inf_abs c tv Htv).
    set (B := Z.shiftr (sm_bkm c) 16) in *. assert (P := zp tv).
    assert (Hlt : (Z.abs (sm_neg_inf c) < 2 ^ Z.of_nat (16 + tv + sm_nz c * sm_zv c))%Z).
    { rewrite Ha, !Nat2Z.inj_add, !Z.pow_add_r by lia. change (2 ^ Z.of_nat 16)%Z with (2 ^ 16)%Z. rewrite <- Z.mul_assoc. apply Z.mul_lt_mono_pos_l; [lia|].
      destruct Hb as [Hb|[Hb1 Hb2]]; [assert (P2 := zp (sm_nz c * sm_zv c)); nia|].
      assert (1 < 2 ^ Z.of_nat tv)%Z by (apply Z.pow_gt_1; specialize (T3 Hb2); lia).
      assert (2 ^ 1 <= 2 ^ Z.of_nat (sm_nz c * sm_zv c))%Z by (apply Z.pow_le_mono_r; lia). nia. }
    destruct (sm_elem_ok (sm_table expf (sm_bkm c)) _ _ _ _ Hlt) as (_ & _ & _ & _ & _ & _ & _ & _ & ->). rewrite Ha.
    replace (2 ^ 16 * (B + 1) / 2 ^ 16)%Z with (B + 1)%Z by (rewrite Z.mul_comm, Z.div_mul; lia).
    destruct (_ <? _)%Z; [|reflexivity]. unfold sm_table. destruct (Z.leb_spec (sm_bkm c) (2 ^ 16 * (B + 1))); [reflexivity|lia].
Qed.

(** The shifts: they make every unmasked entry non-positive, and not too negative. *)
Lemma zmax_fold : forall r x, (x <= fold_left Z.max r x)%Z /\ (forall y, In y r -> (y <= fold_left Z.max r x)%Z) /\ (fold_left Z.max r x = x \/ In (fold_left Z.max r x) r).
Proof.
  induction r as [|y r IH]; intros x; cbn [fold_left]; [split; [lia|]; split; [intros ? []|auto]|].
  destruct (IH (Z.max x y)) as (I1 & I2 & I3). split; [lia|]. split; [intros z [->|Hz]; [lia|apply I2; exact Hz]|].
  destruct I3 as [I3|I3]; [|right; right; exact I3]. destruct (Z.max_spec x y) as [[_ E]|[_ E]]; rewrite I3, E; [right; left; reflexivity|left; reflexivity].
Qed.
Lemma zmax_ok l m : zmax_list l = Some m -> In m l /\ forall y, In y l -> (y <= m)%Z.
Proof.
  destruct l as [|x r]; [discriminate|]. intros [= <-]. destruct (zmax_fold r x) as (I1 & I2 & I3). split.
  - destruct I3 as [->|I3]; [left; reflexivity|right; exact I3].
  - intros y [->|Hy]; [exact I1|apply I2; exact Hy].
Qed.
(** What is known of the logarithm of a row's sum: its argument is a row with maximum 0. *)
Definition lse_between (lse : list Z -> Z) (L : Z) : Prop := forall l, In 0%Z l -> (forall x, In x l -> (x <= 0)%Z) -> (0 <= lse l <= L)%Z.
Lemma sm_shift_bound expf lse c shape data m n shifts shifted cells L lo hi :
  mask_shape shape m n -> length data = (m * n * n)%nat -> sm_evaluate expf lse c shape data = Some (shifts, shifted, cells) ->
  lse_between lse L -> (0 <= sm_scalar c)%Z -> (forall x, In x data -> (lo <= x <= hi)%Z) ->
  forall r e, (r < m * n)%nat -> (e <= r mod n)%nat ->
    let v := (sm_scalar c * nth (e + n * r) data 0 + nth r shifts 0)%Z in
    (- (sm_scalar c * (hi - lo)) - L <= v <= 0)%Z /\ ((r mod n = 0)%nat -> v = 0%Z).
Proof.
  intros Hs Hl H HL Hsc Hd r e Hr He. cbn zeta. destruct (sm_eval_spec _ _ _ _ _ _ _ _ _ _ Hs Hl H) as (tv & _ & Hn & L1 & _ & _ & HE).
  assert (Hen : (e < n)%nat) by (pose proof (Nat.mod_upper_bound r n ltac:(lia)); lia).
  destruct (HE r e Hr Hen) as (E1 & _ & _). unfold sm_shift in E1. destruct n as [|n']; [lia|]. set (n := S n') in *.
  assert (L0 : (0 <= L)%Z) by (destruct (HL [0%Z]); [left; reflexivity|intros x [<-|[]]; lia|lia]).
  set (ch := firstn n (skipn (r * n) data)) in *.
  assert (Hch : forall i, (i < n)%nat -> nth i ch 0%Z = nth (i + n * r) data 0%Z).
  { intros i Hi. unfold ch. rewrite nth_firstn_lt by exact Hi. rewrite nth_skipn. f_equal. lia. }
  assert (Lch : length ch = n) by (apply (chunk_len n (m * n)); auto).
  assert (Hin : forall x, In x ch -> (lo <= x <= hi)%Z).
  { intros x Hx. apply Hd. apply In_nth with (d := 0%Z) in Hx as (i & Hi & <-). rewrite Lch in Hi. rewrite Hch by exact Hi. apply nth_In. rewrite Hl. apply idx_lt; assumption. }
  rewrite <- (Hch e Hen).
  assert (Ie : In (nth e ch 0%Z) (firstn (r mod n + 1) ch)).
  { rewrite <- (nth_firstn_lt (r mod n + 1)) by lia. apply nth_In. rewrite firstn_length, Lch. lia. }
  destruct (Nat.eqb_spec (r mod n) 0) as [R0|R0].
  - assert (e = 0)%nat by lia. subst e. destruct ch as [|x ch']; [cbn in Lch; lia|]. injection E1 as <-. cbn [nth]. assert (B := Hin x (or_introl eq_refl)). split; [nia|intros _; lia].
  - destruct (zmax_list _) as [mx|] eqn:Em in E1; [|discriminate E1]. cbn [obind] in E1. injection E1 as <-. apply zmax_ok in Em as [M1 M2].
    split; [|intros; lia]. set (x := nth e ch 0%Z) in *. assert (X1 := M2 x Ie).
    assert (firstn_in : forall y, In y (firstn (r mod n + 1) ch) -> In y ch) by (intros y Hy; rewrite <- (firstn_skipn (r mod n + 1) ch); apply in_or_app; left; exact Hy).
    assert (X2 := Hin mx (firstn_in _ M1)). assert (X3 := Hin x (firstn_in _ Ie)).
    assert (HL2 : (0 <= lse (map (fun x => (x - mx)%Z) (firstn (r mod n + 1) ch)) <= L)%Z).
    { apply HL; [apply in_map_iff; exists mx; split; [lia|exact M1]|]. intros y Hy. apply in_map_iff in Hy as (z & <- & Hz). specialize (M2 z Hz). lia. }
    set (q := lse _) in *. assert (Y1 : (0 <= sm_scalar c * (mx - x))%Z) by (apply Z.mul_nonneg_nonneg; lia).
    assert (Y2 : (sm_scalar c * (mx - x) <= sm_scalar c * (hi - lo))%Z) by (apply Z.mul_le_mono_nonneg_l; lia). lia.
Qed.
(** The masked entries when there is no zero chunk and the sizes are on the boundary. *)
Lemma sm_mask_leak expf lse c shape data m n shifts shifted cells tv :
  mask_shape shape m n -> length data = (m * n * n)%nat -> sm_evaluate expf lse c shape data = Some (shifts, shifted, cells) -> sm_tv c = Some tv -> sm_nz c = 0%nat ->
  (Z.shiftr (sm_bkm c) 16 + 1 = 2 ^ Z.of_nat tv)%Z ->
  forall r e, (r < m * n)%nat -> (r mod n < e < n)%nat ->
    let cell := nth (e + n * r) cells cell0 in ce_out cell = expf 0%Z /\ ce_low cell = 0%Z /\ ce_high cell = 0%Z /\ ce_in cell = 0%Z.
Proof.
  intros Hs Hl H Htv Hnz HB r e Hr [He1 He2]. destruct (sm_eval_spec _ _ _ _ _ _ _ _ _ _ Hs Hl H) as (tv' & Htv' & Hn & L1 & L2 & L3 & HE). rewrite Htv in Htv'. injection Htv' as <-.
  cbn zeta. destruct (HE r e Hr He2) as (_ & _ & E3). rewrite E3. destruct (Nat.ltb_spec (r mod n) e); [|lia]. rewrite Hnz. unfold sm_elem. cbn zeta. cbn [ce_low ce_high ce_in ce_out zero_chunks map fold_left].
  destruct (tv_spec c tv Htv) as ([T1 T2] & T3 & T4). rewrite (neg_inf_abs c tv Htv). set (B := Z.shiftr (sm_bkm c) 16) in *. rewrite HB.
  change 255%Z with (2 ^ Z.of_nat 8 - 1)%Z. rewrite !land_mod. rewrite !Z.shiftr_div_pow2 by lia. change (2 ^ Z.of_nat 8)%Z with 256%Z. change (2 ^ 8)%Z with 256%Z. change (2 ^ 16)%Z with 65536%Z in *.
  rewrite Z.div_div by lia. change (256 * 256)%Z with 65536%Z.
  replace (65536 * 2 ^ Z.of_nat tv / 65536)%Z with (2 ^ Z.of_nat tv)%Z by (rewrite Z.mul_comm, Z.div_mul; lia). rewrite Z.mod_same by (pose proof (zp tv); lia).
  split; [|split; [|split; [|reflexivity]]].
  - unfold sm_table. destruct (Z.leb_spec (sm_bkm c) (2 ^ 16 * 0)); [|reflexivity]. exfalso. unfold B in T1. rewrite Z.shiftr_div_pow2 in T1 by lia.
    pose proof (Z.div_mod (sm_bkm c) (2 ^ 16) ltac:(lia)). pose proof (Z.mod_pos_bound (sm_bkm c) (2 ^ 16) ltac:(lia)). lia.
  - replace (65536 * 2 ^ Z.of_nat tv)%Z with (256 * 2 ^ Z.of_nat tv * 256)%Z by lia. apply Z.mod_mul. lia.
  - replace (65536 * 2 ^ Z.of_nat tv)%Z with (256 * 2 ^ Z.of_nat tv * 256)%Z by lia. rewrite Z.div_mul by lia. rewrite Z.mul_comm. apply Z.mod_mul. lia.
Qed.

(** The sizes cover every value above the smallest input, unless that is a power of two times [2 ^ 16]. *)
Lemma up2 k : (Z.of_nat (S k) <= 2 ^ Z.of_nat (Nat.log2_up (S k)))%Z.
Proof. replace (2 ^ Z.of_nat (Nat.log2_up (S k)))%Z with (Z.of_nat (2 ^ Nat.log2_up (S k))) by (rewrite Nat2Z.inj_pow; reflexivity). apply inj_le. apply Nat.log2_log2_up_spec. lia. Qed.
Lemma sm_sizes_ok min tv nz zv v : (min <= 0)%Z -> sm_sizes min tv = Some (nz, zv) -> (min < v <= 0)%Z ->
  (Z.abs v < 2 ^ Z.of_nat (16 + tv + nz * zv))%Z.
Proof.
  intros Hm H Hv. unfold sm_sizes in H. rewrite Z.shiftr_div_pow2 in H by lia. set (S0 := (min / 2 ^ 16)%Z) in *.
  pose proof (Z.div_mod min (2 ^ 16) ltac:(lia)) as D. fold S0 in D. pose proof (Z.mod_pos_bound min (2 ^ 16) ltac:(lia)) as M.
  unfold ceil_log2 in H. destruct (Z.to_nat (Z.abs S0)) as [|k] eqn:Ek; [discriminate H|]. cbn [obind] in H. assert (U := up2 k). set (bits := Nat.log2_up (S k)) in *.
  assert (HS : (- S0 <= 2 ^ Z.of_nat bits)%Z) by lia.
  assert (Hb : (bits <= tv + nz * zv)%nat).
  { destruct (Nat.ltb_spec tv bits); [|lia]. destruct tv as [|t]; [discriminate H|]. set (tv := S t) in *.
    pose proof (Nat.div_mod (bits - tv - 1) tv ltac:(unfold tv; lia)) as DD. revert H DD. generalize ((bits - tv - 1) / tv)%nat. intros dv H DD. injection H as <- <-.
    destruct (Nat.eqb_spec (dv + 1) 1) as [E|E]; [rewrite E; lia|]. pose proof (Nat.mod_upper_bound (bits - tv - 1) tv ltac:(unfold tv; lia)). nia. }
  assert (2 ^ Z.of_nat (16 + bits) <= 2 ^ Z.of_nat (16 + tv + nz * zv))%Z by (apply Z.pow_le_mono_r; lia).
  rewrite Nat2Z.inj_add, Z.pow_add_r in H0 by lia. change (2 ^ Z.of_nat 16)%Z with (2 ^ 16)%Z in H0. change (2 ^ 16)%Z with 65536%Z in *. lia.
Qed.
(** The smallest input itself is not covered in that case: the chunks lose its top bit. *)
Lemma sm_sizes_edge lut tv nz zv : sm_sizes (- 2 ^ Z.of_nat (17 + tv)) tv = Some (nz, zv) -> (0 < tv)%nat ->
  let cell := sm_elem lut tv nz zv (- 2 ^ Z.of_nat (17 + tv)) in
  (ce_low cell + 2 ^ 8 * ce_high cell + 2 ^ 16 * ce_in cell + 2 ^ Z.of_nat (16 + tv) * chunk_sum zv (ce_zin cell) = 0)%Z /\ ce_out cell = lut 0%Z.
Proof.
  intros H Ht. assert (P := zp (S tv)). unfold sm_sizes in H.
  assert (E17 : (2 ^ Z.of_nat (17 + tv) = 2 ^ Z.of_nat (S tv) * 2 ^ 16)%Z) by (replace (17 + tv)%nat with (S tv + 16)%nat by lia; rewrite Nat2Z.inj_add, Z.pow_add_r by lia; reflexivity).
  rewrite E17 in *. rewrite Z.shiftr_div_pow2 in H by lia.
  replace (- (2 ^ Z.of_nat (S tv) * 2 ^ 16) / 2 ^ 16)%Z with (- 2 ^ Z.of_nat (S tv))%Z in H by (rewrite <- Z.mul_opp_l, Z.div_mul; lia).
  rewrite Z.abs_opp, Z.abs_eq in H by lia. replace (2 ^ Z.of_nat (S tv))%Z with (Z.of_nat (2 ^ S tv)) in H by (rewrite Nat2Z.inj_pow; reflexivity). rewrite Nat2Z.id in H.
  unfold ceil_log2 in H. destruct (2 ^ S tv)%nat as [|k] eqn:Ep; [pose proof (Nat.pow_nonzero 2 (S tv)); lia|]. rewrite <- Ep in H. rewrite Nat.log2_up_pow2 in H by lia. cbn [obind] in H.
  destruct (Nat.ltb_spec tv (S tv)); [|lia]. destruct tv as [|t]; [lia|]. set (tv := S t) in *. replace (S tv - tv)%nat with 1%nat in H by lia. cbn [Nat.sub] in H.
  rewrite Nat.div_0_l in H by (unfold tv; lia). cbn [Nat.add] in H. change (1 =? 1)%nat with true in H. cbv iota in H. injection H as <- <-.
  cbn zeta. unfold sm_elem. cbn zeta. cbn [ce_low ce_high ce_in ce_zin ce_out zero_chunks map fold_left]. change 255%Z with (2 ^ Z.of_nat 8 - 1)%Z. rewrite !land_mod, Z.abs_opp, Z.abs_eq by lia.
  rewrite !Z.shiftr_div_pow2 by lia. change (2 ^ Z.of_nat 8)%Z with 256%Z. change (2 ^ 8)%Z with 256%Z. change (2 ^ 16)%Z with 65536%Z. rewrite Z.div_div by lia. change (256 * 256)%Z with 65536%Z.
  rewrite Z.div_mul by lia. replace (2 ^ Z.of_nat (S tv))%Z with (2 * 2 ^ Z.of_nat tv)%Z by (rewrite Nat2Z.inj_succ, Z.pow_succ_r by lia; lia).
  assert (P2 := zp tv). rewrite Z.mod_mul, Z.div_mul by lia.
  replace (2 * 2 ^ Z.of_nat tv * 65536)%Z with (2 * 2 ^ Z.of_nat tv * 256 * 256)%Z by lia. rewrite Z.mod_mul, Z.div_mul by lia. rewrite Z.mod_mul by lia.
  change (2 mod 2 ^ Z.of_nat 1)%Z with 0%Z. cbn [chunk_sum fold_right Z.eqb]. split; lia.
Qed.
