(** The Reed-Solomon code of M_Code: encoding is evaluation on a coset; folding a codeword folds the message. *)
From Coq Require Import List Arith Lia Bool.
From Verif Require Import ListAux FieldDef MleMath M_Mle M_Tensor M_Fft M_Merkle M_Code P_Fft P_Hash P_Layers2 P_Tensor P_Graph4 P_Mle P_Verifier P_Pad2 P_Code.
Import ListNotations.

Section Rs1.
Context {K : field}.
Local Open Scope F_scope.
Add Field Kf_rs : (fth K).
Implicit Types a b v m : list K.

Lemma horner_cons c m x : horner (c :: m) x = c + x * horner m x.
Proof. unfold horner. cbn [rev]. rewrite fold_left_app. cbn [fold_left]. ring. Qed.
Lemma horner_nil x : horner (@nil K) x = 0.
Proof. reflexivity. Qed.
Lemma horner_inter a : forall b x, length a = length b -> horner (inter a b) x = horner a (x * x) + x * horner b (x * x).
Proof.
  induction a as [|c a IH]; intros [|d b] x H; try discriminate H; [cbn [inter]; rewrite !horner_nil; ring|].
  cbn [inter]. rewrite !horner_cons, IH by (cbn in H; lia). ring.
Qed.
Lemma horner_scale s m : forall acc x, horner (map (fun p => fst p * snd p) (combine m (pow_table s acc (length m)))) x = acc * horner m (s * x).
Proof.
  induction m as [|c m IH]; intros acc x; [cbn; ring|]. cbn [length pow_table combine map fst snd]. rewrite !horner_cons, IH. ring.
Qed.
Lemma horner_zipw (c : K) a : forall b x, length a = length b -> horner (cfold a b c) x = horner a x + c * horner b x.
Proof.
  induction a as [|u a IH]; intros [|v b] x H; try discriminate H; [cbn; ring|].
  unfold cfold in *. rewrite zipw_cons, !horner_cons, IH by (cbn in H; lia). ring.
Qed.
Lemma horner_sum m x : horner m x = sumn (length m) (fun i => nth i m 0 * fpow x i).
Proof.
  induction m as [|c m IH]; [reflexivity|]. rewrite horner_cons, IH. cbn [length].
  change (S (length m)) with (1 + length m)%nat. rewrite sumn_split.
  assert (E : sumn (length m) (fun i => nth (1 + i) (c :: m) 0 * fpow x (1 + i)) = x * sumn (length m) (fun i => nth i m 0 * fpow x i)).
  { rewrite <- sumn_scal. apply sumn_ext. intros i Hi. cbn [Nat.add nth fpow]. ring. }
  rewrite E. cbn [sumn nth fpow]. ring.
Qed.

(** Butterflies *)
Lemma bfly_app row a b : length a = length b -> (length a <= length row)%nat ->
  bfly row (length a) (a ++ b) = Some (map (fun j => nth j a 0 + nth j b 0 * nth j row 0) (seq 0 (length a)) ++
                                       map (fun j => nth j a 0 - nth j b 0 * nth j row 0) (seq 0 (length a))).
Proof.
  intros H Hr. unfold bfly. rewrite app_length, <- H. replace (length a + length a =? 2 * length a)%nat with true by (symmetry; apply Nat.eqb_eq; lia).
  apply Nat.leb_le in Hr. rewrite Hr. cbn [andb]. f_equal. f_equal; apply map_ext_in; intros j Hj; apply in_seq in Hj;
    rewrite app_nth1 by lia; rewrite app_nth2 by lia; now replace (j + length a - length a)%nat with j by lia.
Qed.
Lemma bfly_pass_len row half v v' : (0 < half)%nat -> bfly_pass row half v = Some v' -> length v' = length v.
Proof.
  unfold bfly_pass. intros Hh H. destruct (omapM _ _) as [cs|] eqn:E; [|discriminate H]. injection H as <-.
  assert (Ec : concat (chunks (2 * half) v) = v) by (apply chunks_concat; lia).
  etransitivity; [|exact (f_equal (@length _) Ec)]. clear Ec. revert cs E. induction (chunks (2 * half) v) as [|c l IH]; intros cs E; cbn [omapM] in E; [now injection E as <-|].
  destruct (bfly row half c) as [c'|] eqn:Ec; [|discriminate E]. cbn [obind] in E. destruct (omapM _ l) as [l'|] eqn:El; [|discriminate E]. injection E as <-.
  cbn [concat]. rewrite !app_length, (IH l' eq_refl). f_equal. unfold bfly in Ec. destruct (_ && _)%bool eqn:Elen; [|discriminate Ec].
  apply andb_true_iff in Elen. destruct Elen as [Elen _]. apply Nat.eqb_eq in Elen. injection Ec as <-. rewrite app_length, !map_length, seq_length. lia.
Qed.
Lemma bfly_pass_app row half k v w v' w' : (0 < half)%nat -> length v = (2 * half * k)%nat -> bfly_pass row half v = Some v' -> bfly_pass row half w = Some w' ->
  bfly_pass row half (v ++ w) = Some (v' ++ w').
Proof.
  intros Hh Hv Ev Ew. change (pass (2 * half) (bfly row half) v = Some v') in Ev. change (pass (2 * half) (bfly row half) w = Some w') in Ew.
  change (pass (2 * half) (bfly row half) (v ++ w) = Some (v' ++ w')). rewrite (pass_app _ _ k) by (assumption || lia). now rewrite Ev, Ew.
Qed.
Lemma bfly_pass_one row a b : length a = length b -> (0 < length a)%nat -> (length a <= length row)%nat ->
  bfly_pass row (length a) (a ++ b) = Some (map (fun j => nth j a 0 + nth j b 0 * nth j row 0) (seq 0 (length a)) ++
                                            map (fun j => nth j a 0 - nth j b 0 * nth j row 0) (seq 0 (length a))).
Proof.
  intros H H0 Hr. change (pass (2 * length a) (bfly row (length a)) (a ++ b) = Some (map (fun j => nth j a 0 + nth j b 0 * nth j row 0) (seq 0 (length a)) ++
                                            map (fun j => nth j a 0 - nth j b 0 * nth j row 0) (seq 0 (length a)))).
  rewrite pass_one; [now apply bfly_app| |rewrite app_length; lia]. intros E. apply (f_equal (@length _)) in E. rewrite app_length in E. cbn in E. lia.
Qed.

(** The FFT. *)
Section Fft.
Variable w : nat -> K.
Variable lim : nat.
Hypothesis w0 : w 0%nat = - (1).
Hypothesis ws : forall l, (S l < lim)%nat -> w (S l) * w (S l) = w l.
Definition W (t : nat) : K := match t with O => 1 | S l => w l end.
Lemma W_sq t : (t < lim)%nat -> W (S t) * W (S t) = W t.
Proof. destruct t as [|t]; cbn [W]; intros H; [rewrite w0; ring|now apply ws]. Qed.
Lemma w_half l : (l < lim)%nat -> fpow (w l) (2 ^ l) = - (1).
Proof.
  induction l as [|l IH]; intros H; [cbn; rewrite w0; ring|]. rewrite Nat.pow_succ_r', fpow_mul.
  replace (fpow (w (S l)) 2) with (w l); [apply IH; lia|]. rewrite <- ws by assumption. cbn. ring.
Qed.
Lemma W_full t : (t <= lim)%nat -> fpow (W t) (2 ^ t) = 1.
Proof.
  destruct t as [|t]; intros H; [cbn; ring|]. cbn [W]. rewrite Nat.pow_succ_r', Nat.mul_comm, fpow_mul, w_half by lia. cbn. ring.
Qed.
Definition row_ok (l : nat) (row : list K) : Prop := (2 ^ l <= length row)%nat /\ forall i, (i < 2 ^ l)%nat -> nth i row 0 = fpow (w l) i.
Definition table_ok (n : nat) (table : list (list K)) : Prop := forall l, (l < n)%nat -> exists row, nth_error table l = Some row /\ row_ok l row.
Definition rep (r : nat) v : list K := flat_map (fun x => repeat x (2 ^ r)) v.
Lemma rep_app r a b : rep r (a ++ b) = rep r a ++ rep r b.
Proof. apply flat_map_app. Qed.
Lemma rep_length r v : length (rep r v) = (2 ^ r * length v)%nat.
Proof. induction v as [|x v IH]; [cbn; lia|]. unfold rep in *. cbn [flat_map]. rewrite app_length, repeat_length, IH. cbn [length]. lia. Qed.
Lemma nth_rep r v : forall i d, (i < 2 ^ r * length v)%nat -> nth i (rep r v) d = nth (i / 2 ^ r) v d.
Proof.
  pose proof (Nat.pow_nonzero 2 r ltac:(lia)) as Hr. induction v as [|x v IH]; intros i d H; [cbn in H; lia|]. cbn [length] in H.
  unfold rep in *. cbn [flat_map]. destruct (Nat.lt_ge_cases i (2 ^ r)) as [Hi | Hi].
  - rewrite app_nth1 by now rewrite repeat_length. rewrite Nat.div_small by assumption. cbn [nth].
    rewrite (nth_indep _ d x) by now rewrite repeat_length. apply nth_repeat.
  - rewrite app_nth2 by now rewrite repeat_length. rewrite repeat_length, IH by lia.
    replace (i / 2 ^ r)%nat with (S ((i - 2 ^ r) / 2 ^ r)); [reflexivity|]. replace i with (i - 2 ^ r + 1 * 2 ^ r)%nat at 2 by lia. rewrite Nat.div_add by assumption. lia.
Qed.
Lemma inner_spec r table : forall k m, (r + k <= lim)%nat -> table_ok (r + k) table -> length m = (2 ^ k)%nat ->
  fft_classic_inner r (r + k) table (rep r (br k m)) = Some (map (fun j => horner m (fpow (W (r + k)) j)) (seq 0 (2 ^ (r + k)))).
Proof.
  induction k as [|k IH]; intros m Hl Ht Hm.
  - unfold fft_classic_inner. rewrite Nat.add_0_r, Nat.sub_diag. cbn [seq ofold br]. destruct m as [|c [|]]; try discriminate Hm.
    f_equal. unfold rep. cbn [flat_map]. rewrite app_nil_r. generalize (2 ^ r)%nat as N. intros N.
    apply (nth_ext_all _ _ 0); [now rewrite repeat_length, map_length, seq_length|]. rewrite repeat_length. intros i Hi.
    rewrite nth_map_seq by assumption. rewrite horner_cons, horner_nil. rewrite (nth_indep _ 0 c) by now rewrite repeat_length. rewrite nth_repeat. ring.
  - destruct (split_inter m k Hm) as (a & b & -> & La & Lb). rewrite br_inter by assumption. rewrite rep_app.
    pose proof (IH a ltac:(lia) ltac:(intros l Hl'; apply Ht; lia) La) as Ea. pose proof (IH b ltac:(lia) ltac:(intros l Hl'; apply Ht; lia) Lb) as Eb.
    replace (r + S k)%nat with (S (r + k)) by lia. unfold fft_classic_inner in *. replace (S (r + k) - r)%nat with (S (r + k - r)) by lia.
    rewrite seq_S, ofold_snoc.
    rewrite (halves_ofold _ (2 ^ (r + k)) (seq r (r + k - r))) with (5 := Ea) (6 := Eb).
    + cbn [obind]. replace (r + (r + k - r))%nat with (r + k)%nat by lia. destruct (Ht (r + k)%nat ltac:(lia)) as (row & Er & Hrl & Hrn). rewrite Er. cbn [obind].
      set (A := map _ _). set (B := map _ _). assert (LA : length A = (2 ^ (r + k))%nat) by (unfold A; now rewrite map_length, seq_length).
      assert (LB : length B = (2 ^ (r + k))%nat) by (unfold B; now rewrite map_length, seq_length).
      pose proof (Nat.pow_nonzero 2 (r + k) ltac:(lia)). pose proof (bfly_pass_one row A B) as E. rewrite LA, LB in E. rewrite E by lia. clear E. f_equal.
      rewrite Nat.pow_succ_r'. replace (2 * 2 ^ (r + k))%nat with (2 ^ (r + k) + 2 ^ (r + k))%nat by lia. rewrite seq_app, map_app.
      assert (Hsq : W (S (r + k)) * W (S (r + k)) = W (r + k)) by (apply W_sq; lia).
      assert (Hsqj : forall j, fpow (W (S (r + k))) j * fpow (W (S (r + k))) j = fpow (W (r + k)) j) by (intros j; now rewrite <- fpow_mul_base, Hsq).
      f_equal.
      * apply map_ext_in. intros j Hj. apply in_seq in Hj. rewrite horner_inter by congruence. rewrite Hsqj. unfold A, B. rewrite !nth_map_seq by lia. rewrite Hrn by lia. cbn [W]. ring.
      * rewrite Nat.add_0_l. apply (nth_ext_all _ _ 0); [now rewrite !map_length, !seq_length|]. rewrite map_length, seq_length. intros j Hj.
        rewrite nth_map_seq by assumption. rewrite (nth_map_lt _ _ _ 0%nat 0) by now rewrite seq_length. rewrite seq_nth by assumption.
        rewrite horner_inter by congruence. rewrite Hsqj. rewrite fpow_add, W_full by lia.
        rewrite fpow_add. cbn [W]. rewrite w_half by lia. unfold A, B. rewrite !nth_map_seq by lia. rewrite Hrn by lia.
        replace (1 * fpow (W (r + k)) j) with (fpow (W (r + k)) j) by ring. ring.
    + intros i v v' Hi Hv E. destruct (nth_error table i) as [row|]; [|discriminate E]. cbn [obind] in E. apply bfly_pass_len in E; [congruence|]. pose proof (Nat.pow_nonzero 2 i); lia.
    + intros i v u v' u' Hi Hv Hu Ev Eu. apply in_seq in Hi. destruct (nth_error table i) as [row|]; [|discriminate Ev]. cbn [obind] in *.
      apply (bfly_pass_app row (2 ^ i) (2 ^ (r + k - i - 1))); auto; [pose proof (Nat.pow_nonzero 2 i); lia|].
      rewrite <- Nat.pow_succ_r', <- Nat.pow_add_r, Hv. f_equal. lia.
    + rewrite rep_length, br_length by assumption. symmetry. apply Nat.pow_add_r.
    + rewrite rep_length, br_length by assumption. symmetry. apply Nat.pow_add_r.
Qed.

Lemma brev_shift k r q : brev (k + r) (2 ^ r * q) = brev k q.
Proof.
  induction r as [|r IH]; [cbn [Nat.pow]; now rewrite Nat.add_0_r, Nat.mul_1_l|]. rewrite Nat.pow_succ_r'. replace (2 * 2 ^ r * q)%nat with (2 * (2 ^ r * q))%nat by lia.
  replace (k + S r)%nat with (S (k + r)) by lia. now rewrite brev_even.
Qed.
Lemma copy_spec r v : exists v1, ofold (fun v i => x <- nth_error v (2 ^ r * (i / 2 ^ r))%nat ;; Some (upd i x v)) (seq 0 (length v)) v = Some v1 /\
  length v1 = length v /\ forall i, (i < length v)%nat -> nth i v1 0 = nth (2 ^ r * (i / 2 ^ r)) v 0.
Proof.
  pose proof (Nat.pow_nonzero 2 r ltac:(lia)) as Hr.
  destruct (ofold_inv (fun v i => x <- nth_error v (2 ^ r * (i / 2 ^ r))%nat ;; Some (upd i x v))
    (fun n u => length u = length v /\ forall i, (i < length v)%nat -> nth i u 0 = if (i <? n)%nat then nth (2 ^ r * (i / 2 ^ r)) v 0 else nth i v 0)
    (seq 0 (length v)) 0%nat v) as (v1 & E & L & H).
  - intros i0 j u Hj [Lu Hu]. apply nth_error_seq0 in Hj. destruct Hj as [Hi Hij]. rewrite Nat.add_0_l in *. subst j. rename i0 into j.
    pose proof (Nat.mul_div_le j (2 ^ r) Hr) as Hle. rewrite (nth_error_nth' u 0) by lia. cbn [obind]. eexists. split; [reflexivity|]. rewrite upd_length. split; [exact Lu|].
    intros i Hiv. destruct (Nat.eq_dec j i) as [-> | Hne].
    + rewrite nth_upd_eq by lia. rewrite Hu by lia. replace (i <? i + 1)%nat with true by (symmetry; apply Nat.ltb_lt; lia).
      destruct (_ <? i)%nat eqn:Eb; [|reflexivity]. rewrite (Nat.mul_comm (2 ^ r) (i / 2 ^ r)), Nat.div_mul by assumption. f_equal. lia.
    + rewrite nth_upd_neq by assumption. rewrite Hu by assumption. destruct (Nat.ltb_spec i j), (Nat.ltb_spec i (j + 1)); try reflexivity; lia.
  - split; [reflexivity|]. intros i Hi. now replace (i <? 0)%nat with false by (symmetry; apply Nat.ltb_ge; lia).
  - exists v1. split; [exact E|]. split; [exact L|]. intros i Hi. rewrite H by assumption. rewrite seq_length. now replace (i <? 0 + length v)%nat with true by (symmetry; apply Nat.ltb_lt; lia).
Qed.
Lemma rs_fft_spec r k m z table : (r + k <= lim)%nat -> length table = (r + k)%nat -> table_ok (r + k) table -> length m = (2 ^ k)%nat ->
  length (m ++ z) = (2 ^ (r + k))%nat ->
  (r = 0%nat -> z = []) ->
  rs_fft r table (m ++ z) = Some (map (fun j => horner m (fpow (W (r + k)) j)) (seq 0 (2 ^ (r + k)))).
Proof.
  intros Hl Lt Ht Lm Lz Hz. unfold rs_fft. rewrite (reverse_ok _ (r + k)) by assumption. cbn [obind]. rewrite br_length by assumption.
  rewrite log2_strict_pow. cbn [obind]. rewrite Lt, Nat.eqb_refl. cbn [negb].
  enough (E : (if (0 <? r)%nat then ofold (fun v i => x <- nth_error v (2 ^ r * (i / 2 ^ r))%nat ;; Some (upd i x v)) (seq 0 (2 ^ (r + k))) (br (r + k) (m ++ z))
    else Some (br (r + k) (m ++ z))) = Some (rep r (br k m))) by (rewrite E; now apply inner_spec).
  destruct r as [|r0].
  - rewrite Hz by reflexivity. rewrite app_nil_r. cbn [Nat.ltb Nat.leb Nat.add]. f_equal. unfold rep. cbn [Nat.pow repeat]. induction (br k m); cbn; congruence.
  - set (r := S r0) in *. replace (0 <? r)%nat with true by reflexivity. pose proof (Nat.pow_nonzero 2 r ltac:(lia)) as Hr.
    destruct (copy_spec r (br (r + k) (m ++ z))) as (v1 & E & L & H). rewrite br_length in E, L, H by assumption. rewrite E. f_equal.
    apply (nth_ext_all _ _ 0); [rewrite L, rep_length, br_length by assumption; apply Nat.pow_add_r|]. rewrite L. intros i Hi. rewrite H by assumption.
    assert (Hi2 : (i < 2 ^ r * 2 ^ k)%nat) by now rewrite <- Nat.pow_add_r. assert (Hq : (i / 2 ^ r < 2 ^ k)%nat) by (apply Nat.div_lt_upper_bound; lia).
    rewrite nth_rep by now rewrite br_length. rewrite !br_nth by (assumption || (rewrite Nat.pow_add_r; nia)).
    replace (r + k)%nat with (k + r)%nat by lia. rewrite brev_shift. pose proof (brev_lt k (i / 2 ^ r)). now rewrite app_nth1 by lia.
Qed.
End Fft.
End Rs1.
