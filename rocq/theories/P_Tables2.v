(** Closed forms (C18), coverage (C20) and names (C21) of the lookup tables. *)
From Coq Require Import String Ascii.
From Coq Require Import List Arith Lia Bool ZArith Field.
From Verif Require Import ListAux FieldDef PolyList MleMath M_Mle P_Mle P_Eq M_Interp P_Interp M_Sumcheck
  P_ScVerify P_ScProve M_ScParallel M_SamePoly P_SamePoly M_LogUp P_LogUp M_Lookup P_Lookup M_Tables P_Tables.
Import ListNotations.

(** Parameters the code constructs: the GELU range of activation.rs:640-653, a nonzero clamping size, a
    positive error. *)
Definition table_ok (B : nat) (t : table_type) : Prop :=
  match t with
  | TGELU _ lo hi => exists s, lo = (- 2 ^ Z.of_nat s)%Z /\ hi = (2 ^ Z.of_nat s)%Z
  | TClamping size => 0 < size
  | TError _ ae => (0 < ae)%Z
  | TRelu | TInvSqrt _ _ => 0 < B
  | _ => True
  end.

Section F.
Context {K : field}.
Add Field Kf_tb2 : (fth K).
Local Open Scope F_scope.

Lemma error_vars_ok ae : (0 < ae)%Z -> exists n, error_vars ae = Some n.
Proof.
  intros H. unfold error_vars. replace (Z.ltb ae 0) with false by (symmetry; apply Z.ltb_ge; lia).
  unfold ceil_log2. destruct (Z.to_nat (2 * ae)) eqn:E; [lia|]. eauto.
Qed.
Lemma nv_len (pt : list K) n : length pt = n -> negb (Nat.eqb (length pt) n) = false.
Proof. intros ->. rewrite Nat.eqb_refl. reflexivity. Qed.

Lemma closed_forms B FL ls t : table_ok B t ->
  exists nv cols cc, table_vars B t = Some nv /\ table_columns (K:=K) B FL ls t = Some cols /\
    length cols = table_width t /\ (forall c, In c cols -> length c = 2 ^ nv) /\
    committed_columns B FL ls t = Some cc /\
    forall esch pt, length pt = nv -> valid_sched nv esch ->
      exists evs, evaluate_table_columns B esch t pt = Some evs /\
        match cc with
        | None => evs = map (fun c => mle c pt) cols
        | Some m => exists e, evaluate esch m pt = Some e /\ evs ++ [e] = map (fun c => mle c pt) cols
        end.
Proof.
  destruct t as [|mu lo hi| |size|fb size bkm|q1 ae|bits|eb rcb]; intros Hok; cbn [table_ok] in Hok;
    unfold table_columns; cbn [table_rows table_width table_vars committed_columns obind].
  - (* Relu *) destruct B as [|n]; [lia|]. exists (S n). do 2 eexists. split; [reflexivity|]. split; [reflexivity|].
    assert (E1 : (q_min (S n) - 1)%Z = (- 2 ^ Z.of_nat n)%Z) by (unfold q_min; replace (Z.of_nat (S n) - 1)%Z with (Z.of_nat n) by lia; lia).
    assert (E2 : (q_max (S n) + 1)%Z = (2 ^ Z.of_nat n)%Z) by (unfold q_max; replace (Z.of_nat (S n) - 1)%Z with (Z.of_nat n) by lia; lia).
    rewrite E1, E2, columns_two. split; [reflexivity|]. split.
    { intros c [<-|[<-|[]]]; rewrite map_length, zrange_length, sym_range_length; reflexivity. }
    split; [reflexivity|]. intros esch pt Hp _. eexists. cbn [evaluate_table_columns]. rewrite nv_len by auto. cbn [half_of obind].
    split; [reflexivity|]. destruct (exists_last (l := pt)) as (r & x & ->); [intros ->; discriminate|].
    rewrite app_length in Hp. cbn [length] in Hp. cbn [map]. f_equal; [|f_equal].
    + rewrite mle_identity by (rewrite sym_range_length, app_length; cbn [length]; f_equal; lia). rewrite fZ_opp. ring.
    + rewrite relu_fold with (n := n) by lia. symmetry. apply relu_col. lia.
  - (* GELU *) destruct Hok as (s & -> & ->). rewrite gelu_size_ok. exists (S s). do 2 eexists. split; [reflexivity|]. split; [reflexivity|].
    rewrite columns_two. split; [reflexivity|]. split.
    { intros c [<-|[<-|[]]]; rewrite map_length, zrange_length, sym_range_length; reflexivity. }
    rewrite from_vec_ok by (rewrite map_length, zrange_length, sym_range_length; reflexivity). cbn [obind]. split; [reflexivity|].
    intros esch pt Hp Hs. eexists. cbn [evaluate_table_columns]. rewrite gelu_size_ok, nv_len by auto. cbn [half_of obind].
    split; [reflexivity|]. eexists. split.
    + apply eval_base; auto. rewrite map_length, zrange_length, sym_range_length; reflexivity.
    + cbn [map app]. f_equal. rewrite mle_identity by (rewrite sym_range_length, Hp; reflexivity). rewrite fZ_opp. ring.
  - (* Range *) exists B. do 2 eexists. split; [reflexivity|]. split; [reflexivity|].
    rewrite columns_one. split; [reflexivity|]. split.
    { intros c [<-|[]]. rewrite map_length, zrange_length, Z.sub_0_r. apply Zpow2_nat. }
    split; [reflexivity|]. intros esch pt Hp _. eexists. cbn [evaluate_table_columns]. rewrite nv_len by auto.
    split; [reflexivity|]. cbn [map]. f_equal. rewrite mle_identity by (rewrite Hp, Z.sub_0_r; apply Zpow2_nat). rewrite fZ_0. ring.
  - (* Clamping *) destruct size as [|s]; [lia|]. exists (S s). do 2 eexists. split; [reflexivity|]. split; [reflexivity|].
    rewrite columns_two. split; [reflexivity|]. split.
    { intros c [<-|[<-|[]]]; rewrite map_length, zrange_length, sym_range_length; reflexivity. }
    split; [reflexivity|]. intros esch pt Hp Hs. eexists. cbn [evaluate_table_columns]. rewrite nv_len by auto. cbn [half_of obind].
    rewrite (into_mle_base_ok (S s)) by (rewrite map_length, zrange_length, sym_range_length; reflexivity). cbn [obind].
    rewrite eval_base by (auto; rewrite map_length, zrange_length, sym_range_length; reflexivity). cbn [obind].
    split; [reflexivity|]. cbn [map]. f_equal. rewrite mle_identity by (rewrite sym_range_length, Hp; reflexivity). rewrite fZ_opp. ring.
  - (* Softmax *) exists size. do 2 eexists. split; [reflexivity|]. split; [reflexivity|].
    assert (Hz : Z.to_nat (2 ^ Z.of_nat size - 0) = 2 ^ size) by (rewrite Z.sub_0_r; apply Zpow2_nat).
    rewrite columns_two. split; [reflexivity|]. split.
    { intros c [<-|[<-|[]]]; rewrite map_length, zrange_length, Hz; reflexivity. }
    rewrite from_vec_ok by (rewrite map_length, zrange_length, Hz; reflexivity). cbn [obind]. split; [reflexivity|].
    intros esch pt Hp Hs. eexists. cbn [evaluate_table_columns]. rewrite nv_len by auto.
    split; [reflexivity|]. eexists. split.
    + apply eval_base; auto. rewrite map_length, zrange_length, Hz; reflexivity.
    + cbn [map app]. f_equal. rewrite mle_identity by (rewrite Hz, Hp; reflexivity). rewrite fZ_0. ring.
  - (* Error *) destruct (error_vars_ok ae Hok) as [n E]. rewrite E. cbn [obind]. exists n. do 2 eexists. split; [reflexivity|]. split; [reflexivity|].
    rewrite columns_one. split; [reflexivity|]. split.
    { intros c [<-|[]]. rewrite map_length, pad_take_length. reflexivity. }
    rewrite from_vec_ok by (rewrite map_length, pad_take_length; reflexivity). cbn [obind]. split; [reflexivity|].
    intros esch pt Hp Hs. eexists. split; [reflexivity|]. eexists. split.
    + apply eval_base; auto. rewrite map_length, pad_take_length; reflexivity.
    + reflexivity.
  - (* Zero *) exists bits. do 2 eexists. split; [reflexivity|]. split; [reflexivity|].
    assert (Hz : Z.to_nat (2 ^ Z.of_nat bits - 0) = 2 ^ bits) by (rewrite Z.sub_0_r; apply Zpow2_nat).
    rewrite (columns_two (fun i => if Z.eqb i 0 then 1 else 0)%Z). split; [reflexivity|]. split.
    { intros c [<-|[<-|[]]]; rewrite map_length, zrange_length, Hz; reflexivity. }
    split; [reflexivity|]. intros esch pt Hp Hs. eexists. cbn [evaluate_table_columns]. rewrite nv_len by auto.
    rewrite zero_fold. split; [reflexivity|]. cbn [map]. f_equal; [|f_equal].
    + rewrite mle_identity by (rewrite Hz, Hp; reflexivity). rewrite fZ_0, weight_sum_formula. cbn [Nat.add]. ring.
    + rewrite <- Hp. rewrite zero_col. ring.
  - (* InvSqrt *) set (n := (2 * (B - 1))%nat). replace (n + 1)%nat with (S n) by lia. exists (S n). do 2 eexists. split; [reflexivity|]. split; [reflexivity|].
    rewrite columns_two. split; [reflexivity|]. split.
    { intros c [<-|[<-|[]]]; rewrite map_length, zrange_length, sym_range_length; reflexivity. }
    rewrite from_vec_ok by (rewrite map_length, zrange_length, sym_range_length; reflexivity). cbn [obind]. split; [reflexivity|].
    intros esch pt Hp Hs. eexists. cbn [evaluate_table_columns]. fold n. replace (n + 1)%nat with (S n) by lia. rewrite nv_len by auto.
    split; [reflexivity|]. eexists. split.
    + apply eval_base; auto. rewrite map_length, zrange_length, sym_range_length; reflexivity.
    + cbn [map app]. f_equal. rewrite mle_identity by (rewrite sym_range_length, Hp; reflexivity). rewrite fZ_opp. ring.
Qed.

Lemma closed_forms_len B t esch (pt : list K) nv : table_vars B t = Some nv -> length pt <> nv ->
  (forall q a, t <> TError q a) -> evaluate_table_columns B esch t pt = None.
Proof.
  intros Hv Hl Hne. destruct t; cbn [table_vars evaluate_table_columns] in *; try (injection Hv as <-);
    try (replace (Nat.eqb (length pt) _) with false by (symmetry; apply Nat.eqb_neq; auto); reflexivity).
  exfalso. eapply Hne; eauto.
Qed.
End F.

(** *** Coverage *)
(** What each table is supposed to relate. *)
Definition table_spec (B : nat) (FL : floats) (ls : nat) (t : table_type) (row : list Z) : Prop :=
  match t with
  | TRelu => exists x, (- 2 ^ (Z.of_nat B - 1) <= x < 2 ^ (Z.of_nat B - 1))%Z /\ row = [x; Z.max x 0]
  | TGELU _ lo hi => exists x, (lo <= x < hi)%Z /\ row = [x; fl_gelu FL x]
  | TRange => exists x, (0 <= x < 2 ^ Z.of_nat B)%Z /\ row = [x]
  | TClamping size => exists x, (- 2 ^ (Z.of_nat size - 1) <= x < 2 ^ (Z.of_nat size - 1))%Z /\
      row = [x; Z.max (- (2 ^ (Z.of_nat B - 1) - 1)) (Z.min (2 ^ (Z.of_nat B - 1) - 1) x)]
  | TSoftmax fb size bkm => exists x, (0 <= x < 2 ^ Z.of_nat size)%Z /\
      row = [x; if Z.leb bkm (2 ^ Z.of_nat ls * x) then 0 else fl_exp FL fb (2 ^ Z.of_nat ls * x)]%Z
  | TError q1 ae => exists x, (q1 - ae <= x <= q1 + ae)%Z /\ row = [x]
  | TZero bits => exists x, (0 <= x < 2 ^ Z.of_nat bits)%Z /\ (row = [x; 1]%Z /\ x = 0%Z \/ row = [x; 0]%Z /\ x <> 0%Z)
  | TInvSqrt eb rcb => exists x, (- 2 ^ Z.of_nat (2 * (B - 1)) <= x < 2 ^ Z.of_nat (2 * (B - 1)))%Z /\
      row = [x; fl_isqrt FL eb (x * 2 ^ Z.of_nat rcb)]
  end.

Lemma in_range_rows (f : Z -> list Z) lo hi row :
  In row (map f (zrange lo hi)) <-> exists x, (lo <= x < hi)%Z /\ row = f x.
Proof.
  rewrite in_map_iff. split.
  - intros (x & <- & H). apply zrange_In in H. exists x. auto.
  - intros (x & H & ->). exists x. split; auto. apply zrange_In. auto.
Qed.
Lemma coverage B FL ls t : 0 < B -> table_ok B t -> (forall q a, t <> TError q a) ->
  exists rows, table_rows B FL ls t = Some rows /\ forall row, In row rows <-> table_spec B FL ls t row.
Proof.
  intros HB Hok Hne. destruct B as [|b]; [lia|]. assert (Hb : (Z.of_nat (S b) - 1 = Z.of_nat b)%Z) by lia.
  assert (Hp : (0 < 2 ^ Z.of_nat b)%Z) by (apply Z.pow_pos_nonneg; lia).
  destruct t as [|mu lo hi| |size|fb size bkm|q1 ae|bits|eb rcb]; cbn [table_ok] in Hok; cbn [table_rows table_spec].
  - eexists. split; [reflexivity|]. intros row. rewrite in_range_rows. unfold q_min, q_max. rewrite Hb.
    assert (Hr : forall x, relu_apply x = Z.max x 0) by (intros x; unfold relu_apply; destruct (Z.ltb_spec x 0); lia).
    split; intros (x & Hx & ->); exists x; rewrite Hr; split; auto; lia.
  - eexists. split; [reflexivity|]. intros row. rewrite in_range_rows. reflexivity.
  - eexists. split; [reflexivity|]. intros row. rewrite in_range_rows. reflexivity.
  - destruct size as [|s]; [lia|]. eexists. split; [reflexivity|]. intros row. rewrite in_range_rows.
    replace (Z.of_nat (S s) - 1)%Z with (Z.of_nat s) by lia. rewrite Hb.
    assert (Hr : forall x, clamp_out (S b) x = Z.max (- (2 ^ Z.of_nat b - 1)) (Z.min (2 ^ Z.of_nat b - 1) x)).
    { intros x. unfold clamp_out, q_min, q_max. rewrite Hb. destruct (Z.ltb_spec x (- 2 ^ Z.of_nat b + 1)), (Z.ltb_spec (2 ^ Z.of_nat b - 1) x); lia. }
    split; intros (x & Hx & ->); exists x; rewrite Hr; split; auto.
  - eexists. split; [reflexivity|]. intros row. rewrite in_range_rows. reflexivity.
  - exfalso. eapply Hne; eauto.
  - eexists. split; [reflexivity|]. intros row. rewrite (in_range_rows (fun i => [i; if Z.eqb i 0 then 1 else 0]%Z)).
    split; intros (x & Hx & H); exists x; split; auto.
    + subst row. destruct (Z.eqb_spec x 0); auto.
    + destruct H as [[-> ->]|[-> N]]; [reflexivity|]. destruct (Z.eqb_spec x 0); [contradiction|reflexivity].
  - eexists. split; [reflexivity|]. intros row. rewrite in_range_rows. reflexivity.
Qed.

(** The error table. *)
Lemma ceil_log2_le x n : ceil_log2 x = Some n -> x <= 2 ^ n /\ (forall m, x <= 2 ^ m -> n <= m).
Proof.
  unfold ceil_log2. destruct x as [|x']; [discriminate|]. set (x := S x'). assert (N : x <> 0) by (unfold x; lia). clearbody x.
  intros [= <-]. split.
  - destruct (Nat.eq_dec x 1) as [->|]; [cbn; lia|]. apply Nat.log2_up_spec. lia.
  - intros m Hm. apply Nat.log2_up_le_pow2; lia.
Qed.
Lemma error_rows_ok FL ls B q1 ae : (0 < ae)%Z ->
  exists nv rows, error_vars ae = Some nv /\ table_rows B FL ls (TError q1 ae) = Some rows /\ (2 * ae <= 2 ^ Z.of_nat nv)%Z /\
    forall row, In row rows <->
      ((exists x, (q1 - ae <= x <= q1 + ae)%Z /\ (x < q1 - ae + 2 ^ Z.of_nat nv)%Z /\ row = [x]) \/ (2 * ae + 1 < 2 ^ Z.of_nat nv)%Z /\ row = [0%Z]).
Proof.
  intros H. destruct (error_vars_ok ae H) as [nv E]. exists nv. cbn [table_rows]. rewrite E. cbn [obind]. eexists. split; [reflexivity|]. split; [reflexivity|].
  assert (Hc : ceil_log2 (Z.to_nat (2 * ae)) = Some nv).
  { unfold error_vars in E. destruct (Z.ltb_spec ae 0); [lia|]. auto. }
  apply ceil_log2_le in Hc. destruct Hc as [H1 _].
  assert (H2 : (2 * ae <= 2 ^ Z.of_nat nv)%Z) by (rewrite Zpow2_of_nat; lia). split; [exact H2|].
  intros row. rewrite in_map_iff. set (l := zrange (q1 - ae) (q1 + ae + 1)).
  assert (Hl : length l = Z.to_nat (2 * ae + 1)) by (unfold l; rewrite zrange_length; f_equal; lia).
  rewrite Zpow2_of_nat in *. unfold pad_take. rewrite firstn_app. split.
  - intros (x & <- & Hi). apply in_app_iff in Hi. destruct Hi as [Hi|Hi].
    + left. exists x. assert (Hx : In x l) by (eapply In_firstn'; eauto). unfold l in Hx. apply zrange_In in Hx. split; [lia|]. split; [|reflexivity].
      apply In_nth with (d := 0%Z) in Hi. destruct Hi as (i & Hi & Hn). rewrite firstn_length in Hi. rewrite nth_firstn_lt in Hn by lia.
      unfold l in Hn. rewrite zrange_nth in Hn by lia. lia.
    + right. assert (Hx : x = 0%Z) by (apply In_firstn' in Hi; apply repeat_spec in Hi; auto). subst x. split; [|reflexivity].
      destruct (Nat.le_gt_cases (2 ^ nv) (length l)) as [Hle|Hgt]; [|lia]. replace (2 ^ nv - length l)%nat with 0%nat in Hi by lia. destruct Hi.
  - intros [(x & Hx & Hlt & ->)|[Hlt ->]].
    + exists x. split; auto. apply in_app_iff. left. set (i := Z.to_nat (x - (q1 - ae))).
      assert (Hn : nth i l 0%Z = x) by (unfold l; rewrite zrange_nth by lia; lia). rewrite <- Hn.
      rewrite <- (nth_firstn_lt (2 ^ nv) i l 0%Z) by lia. apply nth_In. rewrite firstn_length. lia.
    + exists 0%Z. split; auto. apply in_app_iff. right.
      replace 0%Z with (nth 0 (firstn (2 ^ nv - length l) (repeat 0%Z (2 ^ nv))) 0%Z) at 1; [apply nth_In; rewrite firstn_length, repeat_length; lia|].
      rewrite nth_firstn_lt by lia. apply nth_repeat.
Qed.
