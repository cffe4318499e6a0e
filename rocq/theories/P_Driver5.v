(** Proofs about the cache ([M_Driver]) filled with the rows of a projection. *)
From Coq Require Import List Arith Lia Bool ZArith.
From Verif Require Import ListAux FieldDef M_Mle M_Tensor P_Tensor P_Tensor2 P_Tensor3 M_Pad P_Pad P_Hash P_Code3 M_Driver P_Driver P_Driver2.
Import ListNotations.

(** One row of a projection with bias. *)
Definition proj_row (p : nat) (w b : ten Z) (row : list Z) : list Z :=
  map (fun j => (sumto 0 Z.add (length row) (fun k => nth k row 0 * entry 0 w [k; j]) + entry 0 b [j])%Z) (seq 0 p).

Lemma qkv_rows n a p w b x : 0 < a -> 0 < p -> lin_ok a p w b -> mat n a x ->
  qkv_eval 0%Z Z.add Z.mul w b x = Some (mkTen [n; p] (concat (map (proj_row p w b) (chunks a (dat x))))).
Proof.
  intros Ha Hp ([Sw Ww] & So & Wo) [S W]. destruct (matmul_ok 0%Z Z.add Z.mul x w n a p W S Ww Sw) as (u & Eu & Su & Wu & Hu).
  destruct (add_dim2_ok 0%Z Z.add u b n p Wu Wo Su So Hp) as (v & Ev & Sv & Wv & Hv). unfold qkv_eval. rewrite Eu. cbn [obind]. rewrite Ev. f_equal.
  rewrite <- (P_Tensor4.ten_eta v), Sv. f_equal. pose proof (wf2 x n a W S) as Lx. destruct (chunks_nth a n (dat x) Ha Lx) as [C N].
  assert (U : forall c, In c (map (proj_row p w b) (chunks a (dat x))) -> length c = p).
  { intros c Hc. apply in_map_iff in Hc. destruct Hc as (r & <- & _). unfold proj_row. rewrite map_length, seq_length. reflexivity. }
  pose proof (wf2 v n p Wv Sv) as Lv.
  apply (nth_ext _ _ 0%Z 0%Z). { rewrite Lv, (concat_length p), map_length, C; [reflexivity|]. apply Forall_forall. exact U. }
  intros k Hk. rewrite Lv in Hk. assert (Hi : k / p < n) by (apply Nat.div_lt_upper_bound; lia). assert (Hj : k mod p < p) by (apply Nat.mod_upper_bound; lia).
  assert (Ek : k = k mod p + p * (k / p)) by (rewrite (Nat.div_mod k p) at 1 by lia; lia).
  set (i := k / p) in *. set (j := k mod p) in *. clearbody i j. subst k. rewrite (nth_concat_uniform _ p 0%Z U) by (rewrite ?map_length, ?C; assumption).
  specialize (Hv i j Hi Hj). unfold entry at 1 in Hv. rewrite Sv, flat2 in Hv. replace (i * p + j) with (j + p * i) in Hv by lia. rewrite Hv, Hu by assumption.
  rewrite (nth_indep _ [] (proj_row p w b [])) by (rewrite map_length, C; exact Hi). rewrite map_nth. rewrite (nth_error_nth _ _ [] (N i Hi)).
  unfold proj_row. rewrite (nth_map_lt _ _ _ 0) by (rewrite seq_length; exact Hj).
  rewrite seq_nth by exact Hj. cbn [Nat.add]. rewrite (chunk_len a n i _ Lx Hi). f_equal. apply sumto_ext. intros k Hk2. f_equal.
  unfold entry. rewrite S, flat2. rewrite nth_firstn_lt by exact Hk2. rewrite nth_skipn. reflexivity.
Qed.

(** The cache filled row by row holds the keys and the values of the whole text. *)
Lemma cache_qkv n a p wk bk wv bv x : 0 < n -> 0 < a -> 0 < p -> lin_ok a p wk bk -> lin_ok a p wv bv -> mat n a x ->
  exists kvs k v,
    omapM (fun row => kr <- qkv_eval 0%Z Z.add Z.mul wk bk (mkTen [1; a] row) ;; vr <- qkv_eval 0%Z Z.add Z.mul wv bv (mkTen [1; a] row) ;; Some (kr, vr)) (chunks a (dat x)) = Some kvs /\
    qkv_eval 0%Z Z.add Z.mul wk bk x = Some k /\ qkv_eval 0%Z Z.add Z.mul wv bv x = Some v /\
    cache_run cache_new kvs = Some (mkCache k v true).
Proof.
  intros Hn Ha Hp Ok Ov M. pose proof M as [S W]. destruct (chunks_all a n (dat x) Ha (wf2 x n a W S)) as [F C].
  exists (map (fun row => (mkTen [1; p] (proj_row p wk bk row), mkTen [1; p] (proj_row p wv bv row))) (chunks a (dat x))). do 2 eexists.
  split; [|split; [apply (qkv_rows n a p); assumption|split; [apply (qkv_rows n a p); assumption|]]].
  - apply omapM_map_some. intros row Hr. rewrite Forall_forall in F. specialize (F row Hr).
    assert (M1 : mat 1 a (mkTen [1; a] row)) by (split; [reflexivity|unfold wft; cbn [sh dat fold_right]; lia]).
    rewrite (qkv_rows 1 a p wk bk _ Ha Hp Ok M1), (qkv_rows 1 a p wv bv _ Ha Hp Ov M1). cbn [obind dat].
    rewrite (chunks_short a row) by (try lia; intros E; rewrite E in F; cbn in F; lia). cbn [map concat]. rewrite !app_nil_r. reflexivity.
  - rewrite (cache_rows p).
    + rewrite !map_length, C, !map_map. reflexivity.
    + intros E. apply (f_equal (@length _)) in E. rewrite map_length, C in E. cbn in E. lia.
    + apply Forall_forall. intros q Hq. apply in_map_iff in Hq. destruct Hq as (r & <- & _). split; reflexivity.
Qed.
