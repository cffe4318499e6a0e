(** The Reed-Solomon scheme: parameters, folding coefficients and the folding theorem. *)
From Coq Require Import List Arith Lia Bool Field.
From Verif Require Import ListAux FieldDef MleMath M_Mle M_Tensor M_Fft M_Merkle M_Code P_Fft P_Hash P_Layers2 P_Tensor P_Graph4 P_Mle P_Verifier P_Pad2 P_Merkle2 P_Code P_Code2.
Import ListNotations.

Lemma omapM_pre {A B C} (f : B -> option C) (g : A -> B) l : omapM f (map g l) = omapM (fun x => f (g x)) l.
Proof. induction l as [|x l IH]; [reflexivity|]. cbn [map omapM]. now rewrite IH. Qed.
Lemma csub_ok a b : b <= a -> csub a b = Some (a - b).
Proof. intros H. unfold csub. apply Nat.leb_le in H. now rewrite H. Qed.

Section Rs2.
Context {K : field}.
Local Open Scope F_scope.
Add Field Kf_rs2 : (fth K).

(** Folding one codeword, for any code whose halves are [e + x o] and [e - x o]. *)
Lemma one_round_generic (coef : nat -> nat -> option (K * K * K)) L (X Y : list K) (xs es os : nat -> K) c :
  length X = (2 ^ L)%nat -> length Y = (2 ^ L)%nat ->
  (forall i, (i < 2 ^ L)%nat -> exists wt, coef L i = Some (xs (brev L i), - xs (brev L i), wt) /\ wt * (- xs (brev L i) - xs (brev L i)) = 1) ->
  (forall j, (j < 2 ^ L)%nat -> nth j X 0 = es j + os j * xs j /\ nth j Y 0 = es j - os j * xs j) ->
  one_round coef L (br (S L) (X ++ Y)) c = Some (br L (map (fun j => es j + c * os j) (seq 0 (2 ^ L)))).
Proof.
  intros LX LY Hc HXY. unfold one_round. rewrite br_app by assumption. rewrite pairs2_inter by (rewrite !br_length; auto).
  rewrite combine_length, !br_length, Nat.min_id by assumption.
  assert (Lc : length (combine (br L X) (br L Y)) = (2 ^ L)%nat) by (rewrite combine_length, !br_length, Nat.min_id; auto).
  set (ps := combine (br L X) (br L Y)) in *.
  assert (Es : combine (seq 0 (2 ^ L)) ps = map (fun i => (i, nth i ps (0, 0))) (seq 0 (2 ^ L))).
  { apply (nth_ext_all _ _ (0%nat, (0, 0))); [rewrite combine_length, seq_length, map_length, seq_length; lia|]. rewrite combine_length, seq_length, Lc, Nat.min_id. intros i Hi.
    rewrite combine_nth by (rewrite seq_length; lia). rewrite seq_nth by assumption. now rewrite (nth_map_seq (fun i => (i, nth i ps (0, 0)))). }
  rewrite Es. rewrite omapM_pre. rewrite (omapM_range _ (fun i => es (brev L i) + c * os (brev L i))).
  - f_equal. apply (nth_ext_all _ _ 0); [rewrite br_length; rewrite map_length, seq_length; reflexivity|]. rewrite map_length, seq_length. intros i Hi.
    rewrite nth_map_seq by assumption. pose proof (brev_lt L i). rewrite br_nth by (rewrite ?map_length, ?seq_length; auto). now rewrite nth_map_seq.
  - intros i Hi. unfold fold_pair. cbn [fst snd]. destruct (Hc i Hi) as (wt & E & Hw). rewrite E. cbn [obind]. f_equal.
    unfold ps. rewrite combine_nth by (rewrite !br_length; auto). cbn [fst snd]. rewrite !br_nth by assumption. pose proof (brev_lt L i) as Hb.
    destruct (HXY _ Hb) as [E1 E2]. rewrite E1, E2. unfold interpolate2_weights.
    set (e := es (brev L i)). set (o := os (brev L i)) in *. set (x := xs (brev L i)) in *.
    transitivity (e + o * x + (c - x) * o * (wt * (- x - x))); [ring|]. rewrite Hw. ring.
Qed.

Variables generator32 GENERATOR : K.
Hypothesis gen_order : exp_power_of_2 generator32 31 = - (1).
Hypothesis gen_nz : GENERATOR <> 0.
Hypothesis two_nz : (1 + 1 : K) <> 0.

Lemma exp_add (x : K) a b : exp_power_of_2 (exp_power_of_2 x a) b = exp_power_of_2 x (a + b).
Proof.
  rewrite Nat.add_comm. induction b as [|b IH]; [reflexivity|]. cbn [Nat.add].
  change (exp_power_of_2 (exp_power_of_2 x a) (S b)) with (exp_power_of_2 (exp_power_of_2 x a) b * exp_power_of_2 (exp_power_of_2 x a) b). rewrite IH. reflexivity.
Qed.
Lemma exp_S (x : K) n : exp_power_of_2 x (S n) = exp_power_of_2 x n * exp_power_of_2 x n.
Proof. reflexivity. Qed.
Lemma exp_nz (x : K) n : x <> 0 -> exp_power_of_2 x n <> 0.
Proof. intros H. induction n as [|n IH]; [exact H|]. rewrite exp_S. intros E. destruct (fmul_0 _ _ E); auto. Qed.
Lemma exp_inv (x : K) n : exp_power_of_2 (/ x) n = / exp_power_of_2 x n \/ x = 0.
Proof. destruct (feq_dec x 0) as [E | E]; [now right|left]. induction n as [|n IH]; [reflexivity|]. rewrite !exp_S, IH. pose proof (exp_nz x n E). field. assumption. Qed.
Lemma squares_nth n : forall (x : K) i, (i < n)%nat -> nth_error (squares x n) i = Some (exp_power_of_2 x i).
Proof.
  induction n as [|n IH]; intros x i Hi; [lia|]. destruct i as [|i]; [reflexivity|]. cbn [squares nth_error]. rewrite IH by lia. f_equal.
  change (x * x) with (exp_power_of_2 x 1). now rewrite exp_add.
Qed.
Lemma squares_length n : forall x : K, length (squares x n) = n.
Proof. induction n as [|n IH]; intros x; cbn; auto. Qed.

Definition w (l : nat) : K := exp_power_of_2 generator32 (31 - l).
Lemma w_0 : w 0%nat = - (1).
Proof. exact gen_order. Qed.
Lemma w_S l : (S l < 32)%nat -> w (S l) * w (S l) = w l.
Proof. intros H. unfold w. rewrite <- exp_S. f_equal. lia. Qed.
Lemma w_nz l : (l < 32)%nat -> w l <> 0.
Proof. intros H E. pose proof (w_half w 32 w_0 w_S l H) as Hh. rewrite E, fpow_0 in Hh by (pose proof (Nat.pow_nonzero 2 l); lia). apply (@f1_neq_0 K). transitivity (- - (1:K)); [ring|]. rewrite <- Hh. ring. Qed.

Definition full_row (l : nat) : list K := pow_table (w l) 1 (Nat.max (2 ^ l) 2).
Lemma root_table_ok n : (n <= 32)%nat -> fft_root_table generator32 n = Some (map full_row (seq 0 n)).
Proof.
  intros H. unfold fft_root_table, two_adic_generator. rewrite csub_ok by assumption. cbn [obind].
  replace (seq 1 n) with (map S (seq 0 n)) by apply seq_shift. rewrite omapM_pre. rewrite (omapM_range _ full_row); [reflexivity|].
  intros l Hl. rewrite squares_nth by lia. cbn [obind]. rewrite exp_add. unfold full_row, w. do 3 f_equal; [lia|]. now rewrite Nat.sub_succ, Nat.sub_0_r.
Qed.
Lemma full_row_ok l : row_ok w l (full_row l).
Proof.
  unfold row_ok, full_row. rewrite pow_table_len. split; [lia|]. intros i Hi. rewrite pow_table_nth by lia. ring.
Qed.

Section Params.
Variables rate msg nq setup_max max : nat.
Hypothesis Hmsg : (msg <= max)%nat.
Hypothesis Hmax : (max <= setup_max)%nat.
Hypothesis Hlim : (setup_max + rate <= 32)%nat.

Definition gammas : list K := squares GENERATOR (Nat.max 1 (max + rate)).
Definition gamma_inv2s : list K := map (fun x => x * / (1 + 1)) (squares (/ GENERATOR) (Nat.max 1 (max + rate))).
Definition rs_pp : rs_params := mkRs (map full_row (seq 0 (max + rate))) gammas gamma_inv2s max.
Definition v_row (l : nat) : list K := if (l <? msg + rate)%nat then full_row l else [w l].
Definition rs_vp : rs_params := mkRs (map v_row (seq 0 (max + rate))) gammas gamma_inv2s max.
Lemma full_row_1 l : nth_error (full_row l) 1 = Some (w l).
Proof. unfold full_row. rewrite (nth_error_nth' _ 0) by (rewrite pow_table_len; lia). rewrite pow_table_nth by lia. f_equal. cbn [fpow]. ring. Qed.
Lemma firstn_map_seq {A} (f : nat -> A) n m : (n <= m)%nat -> firstn n (map f (seq 0 m)) = map f (seq 0 n).
Proof. intros H. replace m with (n + (m - n))%nat by lia. rewrite seq_app, map_app, firstn_app, map_length, seq_length, Nat.sub_diag, firstn_O, app_nil_r. apply firstn_all2. now rewrite map_length, seq_length. Qed.
Lemma skipn_map_seq {A} (f : nat -> A) n m : (n <= m)%nat -> skipn n (map f (seq 0 m)) = map f (seq n (m - n)).
Proof.
  intros H. replace m with (n + (m - n))%nat at 1 by lia. rewrite seq_app, map_app, skipn_app, map_length, seq_length, Nat.sub_diag, skipn_O.
  rewrite skipn_all2 by now rewrite map_length, seq_length. reflexivity.
Qed.
Lemma omapM_map_some {A B} (f : A -> option B) (g : A -> B) l : (forall x, In x l -> f x = Some (g x)) -> omapM f l = Some (map g l).
Proof. induction l as [|x l IH]; intros H; [reflexivity|]. cbn [omapM map]. rewrite (H x) by now left. cbn [obind]. rewrite IH; [reflexivity|]. intros y Hy. apply H. now right. Qed.
Lemma setup_trim_ok : rs_setup_trim generator32 GENERATOR rate msg setup_max max = Some (rs_pp, rs_vp).
Proof.
  unfold rs_setup_trim. rewrite root_table_ok by assumption. cbn [obind]. unfold rs_trim. rewrite map_length, seq_length.
  replace (setup_max + rate <? max + rate)%nat with false by (symmetry; apply Nat.ltb_ge; lia). replace (max <? msg)%nat with false by (symmetry; apply Nat.ltb_ge; lia).
  unfold finv_opt. apply feqb_false in gen_nz. rewrite gen_nz. cbn [obind]. apply feqb_false in two_nz. rewrite two_nz. cbn [obind].
  rewrite firstn_map_seq by lia. rewrite map_length, seq_length. replace (max + rate <? msg + rate)%nat with false by (symmetry; apply Nat.ltb_ge; lia).
  rewrite skipn_map_seq by lia. rewrite omapM_pre. rewrite (omapM_map_some _ (fun l => [w l])).
  - cbn [obind]. rewrite firstn_map_seq by lia. unfold rs_pp, rs_vp, gammas, gamma_inv2s. do 3 f_equal.
    replace (map v_row (seq 0 (max + rate))) with (map v_row (seq 0 (msg + rate)) ++ map v_row (seq (msg + rate) (max + rate - (msg + rate)))).
    + f_equal; apply map_ext_in; intros l Hl; apply in_seq in Hl; unfold v_row.
      * now replace (l <? msg + rate)%nat with true by (symmetry; apply Nat.ltb_lt; lia).
      * now replace (l <? msg + rate)%nat with false by (symmetry; apply Nat.ltb_ge; lia).
    + rewrite <- map_app, <- (seq_app (msg + rate)). do 2 f_equal. lia.
  - intros l Hl. now rewrite full_row_1.
Qed.

Definition gshift (n : nat) : K := exp_power_of_2 GENERATOR (max - n).
(** Encoding is evaluation on the coset. *)
Definition rs_word (n : nat) (c : list K) : list K := map (fun j => horner c (gshift n * fpow (W w (rate + n)) j)) (seq 0 (2 ^ (rate + n))).
Lemma rs_internal_ok (rowf : nat -> list K) n c : (n <= max)%nat -> length c = (2 ^ n)%nat -> (forall l, (l < n + rate)%nat -> rowf l = full_row l) ->
  rs_encode_internal GENERATOR rate (map rowf (seq 0 (max + rate))) max c = Some (rs_word n c).
Proof.
  intros Hn Lc Hrow. unfold rs_encode_internal. rewrite Lc, log2_strict_pow. cbn [obind]. unfold slice. rewrite map_length, seq_length.
  replace (n + rate <=? max + rate)%nat with true by (symmetry; apply Nat.leb_le; lia). cbn [Nat.leb andb obind skipn]. rewrite Nat.sub_0_r.
  replace (n <=? max)%nat with true by (symmetry; apply Nat.leb_le; lia). cbn [negb]. rewrite firstn_map_seq by lia.
  rewrite (map_ext_in rowf full_row) by (intros l Hl; apply in_seq in Hl; apply Hrow; lia).
  unfold coset_fft. set (s := exp_power_of_2 GENERATOR (max - n)). rewrite app_length, repeat_length, Lc.
  assert (E2 : (2 ^ n + 2 ^ n * (2 ^ rate - 1) = 2 ^ (rate + n))%nat) by (rewrite Nat.pow_add_r; pose proof (Nat.pow_nonzero 2 rate); nia).
  rewrite E2.
  assert (Esc : map (fun p => fst p * snd p) (combine (c ++ repeat 0 (2 ^ n * (2 ^ rate - 1))) (pow_table s 1 (2 ^ (rate + n)))) =
    map (fun p => fst p * snd p) (combine c (pow_table s 1 (length c))) ++ repeat 0 (2 ^ n * (2 ^ rate - 1))).
  { apply (nth_ext_all _ _ 0); [rewrite map_length, combine_length, !app_length, !repeat_length, map_length, combine_length, !pow_table_len; lia|].
    rewrite map_length, combine_length, app_length, repeat_length, pow_table_len. intros i Hi.
    rewrite (nth_map_lt _ _ _ (0, 0) 0) by (rewrite combine_length, app_length, repeat_length, pow_table_len; lia).
    rewrite combine_nth by (rewrite app_length, repeat_length, pow_table_len; lia). cbn [fst snd]. destruct (Nat.lt_ge_cases i (length c)) as [Hc | Hc].
    - rewrite !app_nth1 by (rewrite ?map_length, ?combine_length, ?pow_table_len; lia).
      rewrite (nth_map_lt _ _ _ (0, 0) 0) by (rewrite combine_length, pow_table_len; lia). rewrite combine_nth by now rewrite pow_table_len.
      cbn [fst snd]. rewrite !pow_table_nth by lia. reflexivity.
    - rewrite !app_nth2 by (rewrite ?map_length, ?combine_length, ?pow_table_len; lia). rewrite !nth_repeat. ring. }
  rewrite Esc. rewrite (rs_fft_spec w 32 w_0 w_S rate n).
  - f_equal. unfold rs_word. apply map_ext. intros j. rewrite horner_scale. fold s. unfold gshift. fold s. ring.
  - lia.
  - rewrite map_length, seq_length. lia.
  - intros l Hl. exists (full_row l). split; [|apply full_row_ok]. rewrite (nth_error_nth' _ []) by (rewrite map_length, seq_length; lia). f_equal. now rewrite nth_map_seq by lia.
  - rewrite map_length, combine_length, pow_table_len. lia.
  - rewrite app_length, map_length, combine_length, pow_table_len, repeat_length. lia.
  - intros ->. cbn [Nat.pow]. rewrite Nat.sub_diag, Nat.mul_0_r. reflexivity.
Qed.
Lemma rs_encode_ok n c : (msg <= n <= max)%nat -> length c = (2 ^ n)%nat -> rs_encode GENERATOR rate msg rs_pp c = Some (rs_word n c).
Proof.
  intros Hn Lc. unfold rs_encode. rewrite Lc, log2_strict_pow. cbn [obind]. replace (msg <=? n)%nat with true by (symmetry; apply Nat.leb_le; lia).
  apply rs_internal_ok; auto; lia.
Qed.
Lemma rs_encode_small_ok n c : (n <= msg)%nat -> length c = (2 ^ n)%nat -> rs_encode_small GENERATOR rate rs_vp c = Some (rs_word n c).
Proof.
  intros Hn Lc. unfold rs_encode_small. apply rs_internal_ok; auto; [lia|]. intros l Hl. unfold v_row. now replace (l <? msg + rate)%nat with true by (symmetry; apply Nat.ltb_lt; lia).
Qed.
(** The folding coefficients. *)
Definition rs_x (level j : nat) : K := fpow (w level) j * exp_power_of_2 GENERATOR (max + rate - level - 1).
Lemma nth_row (rowf : nat -> list K) l : (l < max + rate)%nat -> nth_error (map rowf (seq 0 (max + rate))) l = Some (rowf l).
Proof. intros H. rewrite (nth_error_nth' _ []) by (rewrite map_length, seq_length; lia). f_equal. now rewrite nth_map_seq by lia. Qed.
Lemma full_row_nth l i : (i < 2 ^ l)%nat -> nth_error (full_row l) i = Some (fpow (w l) i).
Proof. intros H. unfold full_row. rewrite (nth_error_nth' _ 0) by (rewrite pow_table_len; lia). rewrite pow_table_nth by lia. f_equal. ring. Qed.
Lemma rs_x_nz l j : (l < 32)%nat -> rs_x l j <> 0.
Proof. intros H E. unfold rs_x in E. destruct (fmul_0 _ _ E) as [E1 | E1]; [|now apply (exp_nz _ _ gen_nz) in E1]. apply (fpow_neq_0 (w l) j); [now apply w_nz|exact E1]. Qed.
Lemma root_inv_ok l j : (l < 32)%nat -> (j < 2 ^ l)%nat -> root_inv_at (full_row l) l j = Some (/ fpow (w l) j).
Proof.
  intros Hl Hj. unfold root_inv_at. destruct (Nat.eqb_spec j 0) as [-> | Hj0]; [f_equal; cbn; field; apply f1_neq_0|].
  pose proof Hj as Hj'. apply Nat.ltb_lt in Hj'. rewrite Hj'. rewrite full_row_nth by lia. cbn [obind]. f_equal.
  assert (Hn : fpow (w l) j <> 0) by (apply fpow_neq_0; now apply w_nz).
  assert (E : fpow (w l) (2 ^ l - j) * fpow (w l) j = - (1)) by (rewrite <- fpow_add; replace (2 ^ l - j + j)%nat with (2 ^ l)%nat by lia; now apply (w_half w 32 w_0 w_S)).
  apply (fmul_cancel_l (fpow (w l) j)); [exact Hn|]. transitivity (- (fpow (w l) (2 ^ l - j) * fpow (w l) j)); [ring|]. rewrite E. field. exact Hn.
Qed.
Lemma weight_ok l j : (l < max + rate)%nat -> - (exp_power_of_2 (/ GENERATOR) (max + rate - l - 1) * / (1 + 1)) * / fpow (w l) j = / (- rs_x l j - rs_x l j).
Proof.
  intros Hl. assert (Hl32 : (l < 32)%nat) by lia. unfold rs_x. set (n := (max + rate - l - 1)%nat). destruct (exp_inv GENERATOR n) as [E | E]; [|contradiction]. rewrite E.
  pose proof (exp_nz GENERATOR n gen_nz) as Hg. assert (Hn : fpow (w l) j <> 0) by (apply fpow_neq_0; now apply w_nz).
  set (u := fpow (w l) j) in *. set (g := exp_power_of_2 GENERATOR n) in *.
  replace (- (u * g) - u * g) with (- ((1 + 1) * (u * g))) by ring.
  set (t := 1 + 1) in *. assert (Hd : - (t * (u * g)) <> 0).
  { intros E0. assert (E1 : t * (u * g) = 0) by (transitivity (- - (t * (u * g))); [ring|rewrite E0; ring]).
    destruct (fmul_0 _ _ E1) as [E2 | E2]; [contradiction|]. destruct (fmul_0 _ _ E2); contradiction. }
  apply (fmul_cancel_l (- (t * (u * g)))); [exact Hd|]. rewrite (finv_r _ Hd).
  transitivity ((g * / g) * (t * / t) * (u * / u)); [ring|]. rewrite !finv_r by assumption. ring.
Qed.
Lemma gamma_nth g : (g < max + rate)%nat -> nth_error gammas g = Some (exp_power_of_2 GENERATOR g).
Proof. intros H. unfold gammas. rewrite squares_nth by lia. reflexivity. Qed.
Lemma gamma_inv_nth g : (g < max + rate)%nat -> nth_error gamma_inv2s g = Some (exp_power_of_2 (/ GENERATOR) g * / (1 + 1)).
Proof. intros H. unfold gamma_inv2s. rewrite nth_error_map, squares_nth by lia. reflexivity. Qed.
Lemma rs_pcoef_ok l i : (l < max + rate)%nat ->
  rs_pcoef rate rs_pp l i = Some (rs_x l (brev l i), - rs_x l (brev l i), / (- rs_x l (brev l i) - rs_x l (brev l i))).
Proof.
  intros Hl. unfold rs_pcoef. cbv zeta. cbn [rs_table rs_full rs_gamma rs_gamma_inv2 rs_pp]. rewrite reverse_bits_brev. pose proof (brev_lt l i) as Hj.
  rewrite nth_row by assumption. cbn [obind]. rewrite csub_ok by lia. cbn [obind]. rewrite csub_ok by lia. cbn [obind].
  unfold root_at. pose proof Hj as Hj'. apply Nat.ltb_lt in Hj'. rewrite Hj', full_row_nth by assumption. cbn [obind].
  rewrite gamma_nth by lia. cbn [obind]. rewrite gamma_inv_nth by lia. cbn [obind]. rewrite root_inv_ok by lia. cbn [obind].
  rewrite <- weight_ok by assumption. reflexivity.
Qed.
Lemma rs_vcoef_ok l i : (l < max + rate)%nat -> rs_vcoef rate msg rs_vp l i = rs_pcoef rate rs_pp l i.
Proof.
  intros Hl. rewrite rs_pcoef_ok by assumption. unfold rs_vcoef. cbv zeta. cbn [rs_table rs_full rs_gamma rs_gamma_inv2 rs_vp]. rewrite reverse_bits_brev. pose proof (brev_lt l i) as Hj.
  rewrite nth_row by assumption. cbn [obind]. rewrite csub_ok by lia. cbn [obind]. rewrite csub_ok by lia. cbn [obind].
  rewrite gamma_nth, gamma_inv_nth by lia. unfold v_row. destruct (l <? msg + rate)%nat.
  - unfold root_at. pose proof Hj as Hj'. apply Nat.ltb_lt in Hj'. rewrite Hj', full_row_nth by assumption. cbn [obind].
    rewrite root_inv_ok by lia. cbn [obind]. rewrite <- weight_ok by assumption. reflexivity.
  - cbn [nth_error obind]. assert (E2 : (brev l i <= 2 ^ (l + 1))%nat) by (rewrite Nat.add_1_r, Nat.pow_succ_r'; lia). rewrite csub_ok by exact E2. cbn [obind].
    rewrite <- weight_ok by assumption. unfold rs_x. do 3 f_equal.
    assert (Hn : fpow (w l) (brev l i) <> 0) by (apply fpow_neq_0; apply w_nz; lia).
    apply (fmul_cancel_l (fpow (w l) (brev l i))); [exact Hn|]. rewrite <- fpow_add. replace (brev l i + (2 ^ (l + 1) - brev l i))%nat with (2 ^ (l + 1))%nat by lia.
    rewrite Nat.add_1_r. pose proof (W_full w 32 w_0 w_S (S l) ltac:(lia)) as EW. cbn [W] in EW. rewrite EW. field. exact Hn.
Qed.
(** Folding. *)
Lemma rs_fold n a b c : (msg <= n < max)%nat -> length a = (2 ^ n)%nat -> length b = (2 ^ n)%nat ->
  one_round (rs_pcoef rate rs_pp) (rate + n) (br (rate + S n) (rs_word (S n) (inter a b))) c = Some (br (rate + n) (rs_word n (cfold a b c))).
Proof.
  intros Hn La Lb. unfold rs_word at 1. replace (rate + S n)%nat with (S (rate + n)) by lia.
  rewrite Nat.pow_succ_r'. replace (2 * 2 ^ (rate + n))%nat with (2 ^ (rate + n) + 2 ^ (rate + n))%nat by lia. rewrite seq_app, map_app. rewrite Nat.add_0_l.
  assert (Hsq : forall j, gshift (S n) * fpow (W w (S (rate + n))) j * (gshift (S n) * fpow (W w (S (rate + n))) j) = gshift n * fpow (W w (rate + n)) j).
  { intros j. transitivity (gshift (S n) * gshift (S n) * fpow (W w (S (rate + n)) * W w (S (rate + n))) j); [rewrite fpow_mul_base; ring|].
    rewrite (W_sq w 32 w_0 w_S) by lia. f_equal. unfold gshift. rewrite <- exp_S. f_equal. lia. }
  assert (Ex : forall j, gshift (S n) * fpow (W w (S (rate + n))) j = rs_x (rate + n) j).
  { intros j. unfold rs_x, gshift. cbn [W]. replace (max + rate - (rate + n) - 1)%nat with (max - S n)%nat by lia. ring. }
  rewrite (one_round_generic _ (rate + n) _ _ (rs_x (rate + n)) (fun j => horner a (gshift n * fpow (W w (rate + n)) j)) (fun j => horner b (gshift n * fpow (W w (rate + n)) j))).
  - f_equal. f_equal. unfold rs_word. apply map_ext. intros j. now rewrite horner_zipw by congruence.
  - now rewrite map_length, seq_length.
  - now rewrite map_length, seq_length.
  - intros i Hi. eexists. split; [apply rs_pcoef_ok; lia|]. apply finv_l. pose proof (rs_x_nz (rate + n) (brev (rate + n) i) ltac:(lia)) as Hx. intros E.
    apply Hx. assert (E3 : (1 + 1) * rs_x (rate + n) (brev (rate + n) i) = 0) by (transitivity (- (- rs_x (rate + n) (brev (rate + n) i) - rs_x (rate + n) (brev (rate + n) i))); [ring|rewrite E; ring]).
    destruct (fmul_0 _ _ E3) as [E4 | E4]; [now apply two_nz in E4|exact E4].
  - intros j Hj. rewrite nth_map_seq by assumption. rewrite (nth_map_lt _ _ _ 0%nat 0) by now rewrite seq_length. rewrite seq_nth by assumption.
    rewrite !horner_inter by congruence. rewrite !Hsq. rewrite !Ex. split; [ring|].
    rewrite !fpow_add. rewrite (W_full w 32 w_0 w_S) by lia.
    assert (E5 : rs_x (rate + n) (2 ^ (rate + n) + j) = - rs_x (rate + n) j) by (unfold rs_x; rewrite fpow_add, (w_half w 32 w_0 w_S) by lia; ring). rewrite E5.
    replace (1 * fpow (W w (rate + n)) j) with (fpow (W w (rate + n)) j) by ring. ring.
Qed.
End Params.
End Rs2.
