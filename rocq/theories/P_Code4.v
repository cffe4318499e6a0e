(** The random foldable code (basecode): encoding by halves, folding, and the common interface of the two codes. *)
From Coq Require Import List Arith Lia Bool Field.
From Verif Require Import ListAux FieldDef MleMath M_Mle M_Tensor M_Fft M_Merkle M_Code P_Fft P_Hash P_Layers2 P_Tensor P_Graph4 P_Mle P_Verifier P_Pad2 P_Merkle2 P_LogUp3 P_Code P_Code2 P_Code3.
Import ListNotations.

Lemma cfold_app {K : field} (a a' b b' : list K) c : length a = length b -> cfold (a ++ a') (b ++ b') c = cfold a b c ++ cfold a' b' c.
Proof. intros H. apply zipw_app. exact H. Qed.

Lemma chunks_count {A} n m (l : list A) : 0 < n -> length l = n * m -> length (chunks n l) = m.
Proof. intros H H1. now apply (P_LogUp3.chunks_length n m l). Qed.

Lemma nth_error_map_seq {A} (f : nat -> A) n l : l < n -> nth_error (map f (seq 0 n)) l = Some (f l).
Proof. intros H. rewrite nth_error_map. rewrite (nth_error_nth' (seq 0 n) 0) by now rewrite seq_length. cbn [option_map]. now rewrite seq_nth. Qed.

Section Bc.
Context {K : field}.
Local Open Scope F_scope.
Add Field Kf_bc : (fth K).
Variable flat : nat -> K.
Variables rate msg nq max : nat.
Variables (table : list (list K)) (wtable : list (list (K * K))).
Hypothesis Htab : bc_tables flat (max + rate) = Some (table, wtable).

Definition bc_row (l : nat) : list K := map (fun j => flat (2 ^ l + j)%nat) (seq 0 (2 ^ l)).
Lemma bc_lg : (0 < max + rate)%nat.
Proof. unfold bc_tables in Htab. destruct (omapM _ _) as [ws|]; [|discriminate Htab]. cbn [obind] in Htab. destruct (Nat.eqb_spec (max + rate) 0); [discriminate Htab|lia]. Qed.
Lemma omapM_nth_some {A B} (f : A -> option B) l r d d' : omapM f l = Some r -> length r = length l /\ forall i, (i < length l)%nat -> f (nth i l d) = Some (nth i r d').
Proof.
  revert r. induction l as [|x l IH]; intros r H; cbn [omapM] in H; [injection H as <-; split; [reflexivity|intros i Hi; cbn in Hi; lia]|].
  destruct (f x) as [y|] eqn:E; [|discriminate H]. cbn [obind] in H. destruct (omapM f l) as [r'|]; [|discriminate H]. injection H as <-.
  destruct (IH r' eq_refl) as [L E2]. split; [cbn; now rewrite L|]. intros [|i] Hi; [exact E|]. cbn [nth]. apply E2. cbn in Hi. lia.
Qed.
Lemma bc_tables_inv :
  (forall i, (i < 2 ^ (max + rate))%nat -> 0 - flat i - flat i <> 0) /\
  table = map bc_row (seq 0 (max + rate)) /\
  wtable = map (fun l => br l (map (fun j => (flat (2 ^ l + j)%nat, / (0 - flat (2 ^ l + j)%nat - flat (2 ^ l + j)%nat))) (seq 0 (2 ^ l)))) (seq 0 (max + rate)).
Proof.
  pose proof bc_lg as Hlg. pose proof Htab as H. unfold bc_tables in H. destruct (omapM _ _) as [ws|] eqn:Ew; [|discriminate H]. cbn [obind] in H.
  destruct (Nat.eqb_spec (max + rate) 0) as [E0|_]; [lia|]. destruct (omapM_nth_some _ _ _ 0%nat 0 Ew) as [Lw Hw]. rewrite seq_length in Lw, Hw.
  assert (Hw' : forall i, (i < 2 ^ (max + rate))%nat -> 0 - flat i - flat i <> 0 /\ nth i ws 0 = / (0 - flat i - flat i)).
  { intros i Hi. specialize (Hw i Hi). rewrite seq_nth in Hw by assumption. apply finv_opt_some in Hw. exact Hw. }
  assert (Hrow : forall l j, (l < max + rate)%nat -> (j < 2 ^ l)%nat -> (2 ^ l + j < 2 ^ (max + rate))%nat).
  { intros l j Hl Hj. apply Nat.lt_le_trans with (2 ^ S l)%nat; [rewrite Nat.pow_succ_r'; lia|]. apply Nat.pow_le_mono_r; lia. }
  rewrite (omapM_map_some _ (fun i => br i (map (fun j => (flat (2 ^ i + j)%nat, nth (2 ^ i + j)%nat ws 0)) (seq 0 (2 ^ i))))) in H
    by (intros l Hl; apply reverse_ok; now rewrite map_length, seq_length).
  cbn [obind] in H. injection H as <- <-. split; [intros i Hi; now apply Hw'|].
  assert (Es : seq 0 (max + rate) = 0%nat :: seq 1 (max + rate - 1)) by (destruct (max + rate)%nat; [lia|cbn; now rewrite Nat.sub_0_r]). rewrite Es. cbn [map]. split.
  - f_equal.
  - f_equal.
    + cbn [br Nat.pow Nat.add seq map]. destruct (Hw' 1%nat) as [_ ->]; [|reflexivity]. apply (Hrow 0%nat 0%nat); cbn; lia.
    + apply map_ext_in. intros l Hl. apply in_seq in Hl. f_equal. apply map_ext_in. intros j Hj. apply in_seq in Hj.
      destruct (Hw' (2 ^ l + j)%nat) as [_ ->]; [apply Hrow; lia|reflexivity].
Qed.

Definition bword (c : list K) : list K := map (fun i => horner c (fnat (i + 1))) (seq 0 (2 ^ msg * 2 ^ rate)).
Fixpoint bw (k : nat) (c : list K) : list K := match k with O => bword c | S k' =>
  let A := bw k' (firstn (2 ^ (msg + k')) c) in let B := bw k' (skipn (2 ^ (msg + k')) c) in
  let row := bc_row (msg + k' + rate) in
  map (fun j => nth j A 0 + nth j B 0 * nth j row 0) (seq 0 (length A)) ++ map (fun j => nth j A 0 - nth j B 0 * nth j row 0) (seq 0 (length A)) end.
Lemma bw_length k : forall c, length (bw k c) = (2 ^ (msg + k + rate))%nat.
Proof.
  induction k as [|k IH]; intros c; cbn [bw].
  - unfold bword. rewrite map_length, seq_length, Nat.add_0_r. symmetry. apply Nat.pow_add_r.
  - cbv zeta. rewrite app_length, !map_length, seq_length, !IH. replace (msg + S k + rate)%nat with (S (msg + k + rate)) by lia. rewrite Nat.pow_succ_r'. lia.
Qed.
Lemma bw_app k a b : length a = (2 ^ (msg + k))%nat -> bw (S k) (a ++ b) =
  map (fun j => nth j (bw k a) 0 + nth j (bw k b) 0 * flat (2 ^ (msg + k + rate) + j)%nat) (seq 0 (2 ^ (msg + k + rate))) ++
  map (fun j => nth j (bw k a) 0 - nth j (bw k b) 0 * flat (2 ^ (msg + k + rate) + j)%nat) (seq 0 (2 ^ (msg + k + rate))).
Proof.
  intros Ha. cbn [bw]. cbv zeta. rewrite firstn_app, skipn_app, <- Ha, firstn_all, skipn_all, Nat.sub_diag, firstn_O, skipn_O, app_nil_r. cbn [app].
  rewrite bw_length. f_equal; apply map_ext_in; intros j Hj; apply in_seq in Hj; unfold bc_row; rewrite nth_map_seq by lia; reflexivity.
Qed.
Lemma bw_fold (c : K) k : forall a b, length a = (2 ^ (msg + k))%nat -> length b = (2 ^ (msg + k))%nat -> bw k (cfold a b c) = cfold (bw k a) (bw k b) c.
Proof.
  induction k as [|k IH]; intros a b Ha Hb.
  - cbn [bw]. apply (nth_ext_all _ _ 0); [unfold cfold; rewrite zipw_length; unfold bword; now rewrite ?map_length|]. unfold bword at 1. rewrite map_length, seq_length. intros i Hi.
    unfold cfold at 2. rewrite (nth_zipw _ _ _ _ 0 0) by (unfold bword; now rewrite !map_length, ?seq_length). unfold bword. rewrite !nth_map_seq by assumption. rewrite horner_zipw by congruence. reflexivity.
  - rewrite !Nat.add_succ_r in Ha, Hb. destruct (split_half a _ Ha) as (a0 & a1 & -> & L1 & L2). destruct (split_half b _ Hb) as (b0 & b1 & -> & L3 & L4).
    rewrite cfold_app by congruence.
    assert (M1 : length (cfold a0 b0 c) = (2 ^ (msg + k))%nat) by (unfold cfold; rewrite zipw_length; congruence).
    rewrite !bw_app by assumption. rewrite !IH by assumption. rewrite cfold_app by now rewrite !map_length.
    pose proof (bw_length k a0) as N1. pose proof (bw_length k a1) as N2. pose proof (bw_length k b0) as N3. pose proof (bw_length k b1) as N4.
    f_equal; (apply (nth_ext_all _ _ 0); [unfold cfold; rewrite zipw_length; now rewrite !map_length|]);
      rewrite map_length, seq_length; intros i Hi; unfold cfold; rewrite (nth_zipw _ _ _ _ 0 0) by (now rewrite !map_length, ?seq_length); rewrite !nth_map_seq by assumption;
      rewrite !(nth_zipw _ _ _ _ 0 0) by (try congruence; lia); ring.
Qed.

Lemma bc_passes k : forall c, (msg + k <= max)%nat -> length c = (2 ^ (msg + k))%nat ->
  ofold (fun v i => level <- nth_error table (i + rate)%nat ;;
                    if (length level =? 2 ^ (msg + rate) * 2 ^ (i - msg))%nat
                    then bfly_pass level (2 ^ (msg + rate) * 2 ^ (i - msg)) v else None)
        (seq msg k) (concat (map bword (chunks (2 ^ msg) c))) = Some (bw k c).
Proof.
  destruct bc_tables_inv as (_ & Et & _).
  assert (Hp : forall n, (0 < 2 ^ n)%nat) by (intros n; pose proof (Nat.pow_nonzero 2 n); lia).
  induction k as [|k IH]; intros c Hk Lc.
  - cbn [seq ofold bw]. rewrite Nat.add_0_r in Lc. rewrite chunks_short by (try (intros ->; cbn in Lc; specialize (Hp msg)); lia). cbn [map concat]. now rewrite app_nil_r.
  - rewrite Nat.add_succ_r in Lc. destruct (split_half c _ Lc) as (a & b & -> & La & Lb). rewrite seq_S, ofold_snoc.
    rewrite (chunks_app_mult (2 ^ msg) (2 ^ k)) by (try (rewrite <- Nat.pow_add_r; assumption); apply Hp). rewrite map_app, concat_app.
    assert (Lw : forall u, length u = (2 ^ (msg + k))%nat -> length (concat (map bword (chunks (2 ^ msg) u))) = (2 ^ (msg + k + rate))%nat).
    { intros u Hu. rewrite (length_concat_uniform (map bword (chunks (2 ^ msg) u)) (2 ^ msg * 2 ^ rate)%nat) by (intros x Hx; apply in_map_iff in Hx; destruct Hx as (y & <- & _); unfold bword; now rewrite map_length, seq_length).
      rewrite map_length, (chunks_count (2 ^ msg) (2 ^ k)) by (try (rewrite Hu, Nat.pow_add_r; lia); apply Hp).
      rewrite !Nat.pow_add_r. lia. }
    rewrite (halves_ofold _ (2 ^ (msg + k + rate)) (seq msg k)) with (5 := IH a ltac:(lia) La) (6 := IH b ltac:(lia) Lb); auto.
    + cbn [obind]. rewrite Et. rewrite nth_error_map_seq by lia. cbn [obind]. unfold bc_row. rewrite map_length, seq_length.
      replace (2 ^ (msg + rate) * 2 ^ (msg + k - msg))%nat with (2 ^ (msg + k + rate))%nat by (rewrite <- Nat.pow_add_r; f_equal; lia). rewrite Nat.eqb_refl.
      pose proof (bw_length k a) as N1. pose proof (bw_length k b) as N2. pose proof (bfly_pass_one (bc_row (msg + k + rate)) (bw k a) (bw k b)) as E. rewrite N1, N2 in E. unfold bc_row in E at 1. rewrite map_length, seq_length in E.
      specialize (Hp (msg + k + rate)%nat). unfold bc_row in E. rewrite E by lia. rewrite bw_app by assumption. do 2 f_equal; apply map_ext_in; intros j Hj; apply in_seq in Hj; rewrite nth_map_seq by lia; reflexivity.
    + intros i v v' Hi Hv E. destruct (nth_error table _) as [row|]; [|discriminate E]. cbn [obind] in E. destruct (_ =? _)%nat; [|discriminate E].
      apply bfly_pass_len in E; [congruence|]. rewrite <- Nat.pow_add_r. apply Hp.
    + intros i v u v' u' Hi Hv Hu Ev Eu. apply in_seq in Hi. destruct (nth_error table _) as [row|]; [|discriminate Ev]. cbn [obind] in *. destruct (_ =? _)%nat; [|discriminate Ev].
      apply (bfly_pass_app row _ (2 ^ (msg + k - i - 1))); auto; [rewrite <- Nat.pow_add_r; apply Hp|].
      rewrite Hv, <- Nat.mul_assoc, <- !Nat.pow_add_r, <- Nat.pow_succ_r'. f_equal. lia.
Qed.
Lemma bc_encode_ok k c : (msg + k <= max)%nat -> length c = (2 ^ (msg + k))%nat -> bc_encode rate msg table c = Some (bw k c).
Proof.
  intros Hk Lc. assert (Hp : forall n, (0 < 2 ^ n)%nat) by (intros n; pose proof (Nat.pow_nonzero 2 n); lia).
  unfold bc_encode, evaluate_foldable, get_basecode. rewrite Lc, !log2_strict_pow. cbn [obind].
  rewrite firstn_all2 by (rewrite (chunks_count (2 ^ msg) (2 ^ k)) by (try (rewrite Lc, Nat.pow_add_r; lia); apply Hp); rewrite Nat.pow_add_r, Nat.mul_comm, Nat.div_mul by (specialize (Hp msg); lia); lia).
  change (map (fun chunk => map (fun i => horner chunk (fnat (i + 1))) (seq 0 (2 ^ msg * 2 ^ rate))) (chunks (2 ^ msg) c)) with (map bword (chunks (2 ^ msg) c)).
  assert (E0 : exists c0, nth_error (map bword (chunks (2 ^ msg) c)) 0 = Some c0 /\ length c0 = (2 ^ (msg + rate))%nat).
  { assert (Lk := chunks_count (2 ^ msg) (2 ^ k) c). destruct (chunks (2 ^ msg) c) as [|c0 cs].
    - exfalso. cbn in Lk. specialize (Lk (Hp msg)). rewrite Lc, Nat.pow_add_r in Lk. specialize (Hp k). lia.
    - exists (bword c0). split; [reflexivity|]. unfold bword. rewrite map_length, seq_length. symmetry. apply Nat.pow_add_r. }
  destruct E0 as (c0 & E0 & L0). rewrite E0. cbn [obind]. rewrite L0. replace (msg + k - msg)%nat with k by lia. now apply bc_passes.
Qed.
Lemma bc_encode_small_ok c : length c = (2 ^ msg)%nat -> bc_encode_small rate c = Some (bw 0 c).
Proof.
  intros Lc. unfold bc_encode_small, get_basecode. destruct c as [|x c']; [cbn in Lc; pose proof (Nat.pow_nonzero 2 msg); lia|]. set (c := x :: c') in *.
  rewrite Nat.div_same by (unfold c; cbn; lia). rewrite chunks_short by (unfold c; (discriminate || lia)). cbn [firstn map]. rewrite Lc. reflexivity.
Qed.
Definition bc_x (l j : nat) : K := flat (2 ^ l + j)%nat.
Lemma bc_x_nz l j : (l < max + rate)%nat -> (j < 2 ^ l)%nat -> - bc_x l j - bc_x l j <> 0.
Proof.
  intros Hl Hj. destruct bc_tables_inv as (H & _). unfold bc_x. replace (- flat (2 ^ l + j)%nat - flat (2 ^ l + j)%nat) with (0 - flat (2 ^ l + j)%nat - flat (2 ^ l + j)%nat) by ring.
  apply H. apply Nat.lt_le_trans with (2 ^ S l)%nat; [rewrite Nat.pow_succ_r'; lia|]. apply Nat.pow_le_mono_r; lia.
Qed.
Lemma bc_pcoef_ok l i : (l < max + rate)%nat -> (i < 2 ^ l)%nat -> bc_pcoef wtable l i = Some (bc_x l (brev l i), - bc_x l (brev l i), / (- bc_x l (brev l i) - bc_x l (brev l i))).
Proof.
  intros Hl Hi. destruct bc_tables_inv as (_ & _ & Ew). unfold bc_pcoef. rewrite Ew. rewrite (nth_error_nth' _ []) by (rewrite map_length, seq_length; lia). cbn [obind].
  rewrite nth_map_seq by assumption. rewrite (nth_error_nth' _ (0, 0)) by (rewrite br_length by (now rewrite map_length, seq_length); assumption). cbn [obind].
  rewrite br_nth by (rewrite ?map_length, ?seq_length; auto). pose proof (brev_lt l i). rewrite nth_map_seq by assumption. cbn [fst snd]. unfold bc_x. do 4 f_equal. ring.
Qed.
Lemma bc_offset l : fold_left (fun o lg_m => o + 2 ^ (lg_m - 1))%nat (seq 1 l) 1%nat = (2 ^ l)%nat.
Proof. induction l as [|l IH]; [reflexivity|]. rewrite seq_S, fold_left_app, IH. cbn [fold_left]. replace (1 + l - 1)%nat with l by lia. rewrite Nat.pow_succ_r'. lia. Qed.
Lemma bc_vcoef_ok l i : (l < max + rate)%nat -> (i < 2 ^ l)%nat -> bc_vcoef flat l i = bc_pcoef wtable l i.
Proof.
  intros Hl Hi. rewrite bc_pcoef_ok by assumption. unfold bc_vcoef. cbv zeta. rewrite bc_offset, reverse_bits_brev. fold (bc_x l (brev l i)). unfold finv_opt.
  pose proof (bc_x_nz l (brev l i) Hl (brev_lt l i)) as H. apply feqb_false in H. rewrite H. reflexivity.
Qed.
Lemma bc_fold_ok k a b c : (msg + k < max)%nat -> length a = (2 ^ (msg + k))%nat -> length b = (2 ^ (msg + k))%nat ->
  one_round (bc_pcoef wtable) (msg + k + rate) (br (msg + S k + rate) (bw (S k) (a ++ b))) c = Some (br (msg + k + rate) (bw k (cfold a b c))).
Proof.
  intros Hk La Lb. rewrite bw_app by assumption. replace (msg + S k + rate)%nat with (S (msg + k + rate)) by lia. set (L := (msg + k + rate)%nat).
  rewrite (one_round_generic _ L _ _ (bc_x L) (fun j => nth j (bw k a) 0) (fun j => nth j (bw k b) 0)).
  - f_equal. f_equal. rewrite bw_fold by assumption. apply (nth_ext_all _ _ 0); [unfold cfold; rewrite map_length, seq_length, zipw_length; now rewrite !bw_length|].
    rewrite map_length, seq_length. intros i Hi. rewrite nth_map_seq by assumption. unfold cfold. rewrite (nth_zipw _ _ _ _ 0 0) by (rewrite !bw_length; auto). reflexivity.
  - now rewrite map_length, seq_length.
  - now rewrite map_length, seq_length.
  - intros i Hi. eexists. split; [apply bc_pcoef_ok; [unfold L; lia|assumption]|]. apply finv_l. apply bc_x_nz; [unfold L; lia|apply brev_lt].
  - intros j Hj. rewrite !nth_map_seq by assumption. unfold bc_x. auto.
Qed.
End Bc.
