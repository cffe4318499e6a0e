(** Proofs about M_Pad, continued: padded weight matrices and dense layers. *)
From Coq Require Import List Arith Lia Bool.
From Verif Require Import ListAux FieldDef M_Mle P_Graph4 M_Tensor P_Tensor P_Tensor2 P_Tensor3 P_Tensor4 M_Pad P_Pad.
Import ListNotations.

Lemma is_pow2_iff n : is_pow2 n = true <-> exists k, n = 2 ^ k.
Proof.
  split.
  - unfold is_pow2. rewrite andb_true_iff. intros [_ H]. apply Nat.eqb_eq in H. eauto.
  - intros [k ->]. unfold is_pow2. rewrite andb_true_iff. split; [apply Nat.ltb_lt, pow2_pos|]. apply Nat.eqb_eq. rewrite Nat.log2_pow2; lia.
Qed.
Lemma sprod_pow2 s : shape_is_pow2 s = true -> is_pow2 (sprod s) = true.
Proof.
  unfold shape_is_pow2. induction s as [|a s IH]; intros H; [reflexivity|]. cbn [forallb] in H. apply andb_true_iff in H as [Ha H].
  apply IH in H. apply is_pow2_iff in Ha as [k ->]. apply is_pow2_iff in H as [k' E]. rewrite sprod_cons, E. apply is_pow2_iff. exists (k + k'). symmetry. apply Nat.pow_add_r.
Qed.

Section Mats.
Context {A : Type}.
Variable zero : A.
Implicit Types t o w x y : ten A.
Notation at2 t i j := (entry zero t [i; j]).
Notation at1 t i := (entry zero t [i]).

Lemma nrows_ok t r c : sh t = [r; c] -> 0 < r -> nrows_2d t = Some r.
Proof. intros E H. unfold nrows_2d. rewrite E. destruct (Nat.eqb_spec r 0); [lia|reflexivity]. Qed.
Lemma ncols_ok t r c : sh t = [r; c] -> 0 < c -> ncols_2d t = Some c.
Proof. intros E H. unfold ncols_2d. rewrite E. destruct (Nat.eqb_spec c 0); [lia|reflexivity]. Qed.

Lemma new_grid m n (F : nat -> nat -> A) :
  tensor_new [m; n] (map (fun idx => F (idx / n) (idx mod n)) (seq 0 (m * n))) =
  Some (mkTen [m; n] (map (fun idx => F (idx / n) (idx mod n)) (seq 0 (m * n)))).
Proof. unfold tensor_new. rewrite map_length, seq_length. cbn [sprod fold_right]. rewrite Nat.mul_1_r, Nat.eqb_refl. reflexivity. Qed.

Theorem reshape_to_fit_ok t r c r' c' : wft t -> sh t = [r; c] -> 0 < r -> 0 < c -> r <= r' -> c <= c' ->
  exists t', reshape_to_fit_2d zero t [r'; c'] = Some t' /\ padded_with zero t [r'; c'] t'.
Proof.
  intros W E Hr Hc Lr Lc. unfold reshape_to_fit_2d. rewrite (nrows_ok t r c), (ncols_ok t r c) by auto. cbn [obind].
  destruct (Nat.leb_spec r r'); [|lia]. destruct (Nat.leb_spec c c'); [|lia]. cbn [andb].
  set (F := fun i j => if (i <? r) && (j <? c) then at2 t i j else zero).
  rewrite (omapM_range _ (fun idx => F (idx / c') (idx mod c'))).
  - cbn [obind]. rewrite new_grid. eexists. split; [reflexivity|]. destruct (grid_ok zero r' c' F) as [Wg Eg].
    split; [reflexivity|]. split; [exact Wg|]. intros idx I. apply inb2_inv in I as (i & j & -> & Hi & Hj). rewrite Eg by auto. rewrite E.
    unfold F. rewrite inb2. destruct (Nat.ltb_spec i r); destruct (Nat.ltb_spec j c); cbn [andb]; split; intros; auto; exfalso; lia.
  - intros idx Hi. cbv zeta. unfold F. destruct (Nat.ltb_spec (idx / c') r); cbn [andb]; [|reflexivity].
    destruct (Nat.ltb_spec (idx mod c') c); [|reflexivity]. unfold entry. rewrite E, flat2. apply nth_error_some.
    rewrite (wf2 t r c) by auto. apply lt2; auto.
Qed.
(** The same result as [pad_to_shape]. *)
Theorem reshape_to_fit_is_pad t r c r' c' : wft t -> sh t = [r; c] -> 0 < r -> 0 < c -> r <= r' -> c <= c' ->
  reshape_to_fit_2d zero t [r'; c'] = pad_to_shape zero t [r'; c'].
Proof.
  intros W E Hr Hc Lr Lc. destruct (reshape_to_fit_ok t r c r' c') as (t1 & -> & P1); auto.
  destruct (pad_to_shape_ok zero t [r'; c']) as (t2 & -> & P2); auto; try (rewrite E; repeat constructor; auto).
  f_equal. eapply padded_with_unique; eauto.
Qed.
Lemma reshape_to_fit_rejects t r c r' c' : sh t = [r; c] -> r' < r \/ c' < c -> reshape_to_fit_2d zero t [r'; c'] = None.
Proof.
  intros E H. unfold reshape_to_fit_2d, nrows_2d, ncols_2d. rewrite E.
  destruct (r =? 0); [reflexivity|]. destruct (c =? 0); [reflexivity|]. cbn [obind].
  destruct (Nat.leb_spec r r'); destruct (Nat.leb_spec c c'); cbn [andb]; try reflexivity. lia.
Qed.
Lemma pad_1d_ok t n n' : wft t -> sh t = [n] -> n <= n' -> exists t', pad_1d zero t n' = Some t' /\ padded_with zero t [n'] t'.
Proof.
  intros W E L. unfold pad_1d. rewrite E. cbn [length Nat.eqb]. eexists. split; [reflexivity|].
  assert (Ln := wf1 t n W E). destruct (resize_nth n' zero (dat t)) as (R1 & R2 & R3); [lia|].
  split; [reflexivity|]. split; [unfold wft; cbn [sh dat]; rewrite R1; cbn; lia|].
  intros idx I. apply inb1_inv in I as (i & -> & Hi). rewrite E, inb1. unfold entry. rewrite E. cbn [sh dat]. rewrite !flat1.
  split; intros H; [apply R2|apply R3]; lia.
Qed.

(** Digits of a position, whatever whole number of blocks precedes it. *)
Lemma digits3 a b c q loc : q < a * b * c -> loc mod (a * b * c) = q ->
  (loc / (b * c)) mod a = q / (b * c) /\ (loc / c) mod b = (q / c) mod b /\ loc mod c = q mod c.
Proof.
  intros Hq E. assert (Hp : a * b * c <> 0) by lia. assert (a <> 0) by (intros ->; cbn in *; lia).
  assert (b <> 0) by (intros ->; rewrite Nat.mul_0_r in *; cbn in *; lia). assert (c <> 0) by (intros ->; lia).
  rewrite (Nat.div_mod_eq loc (a * b * c)), E. set (m := loc / (a * b * c)). repeat split.
  - replace (a * b * c * m + q) with ((a * m) * (b * c) + q) by ring. rewrite Nat.div_add_l by lia.
    rewrite (Nat.mul_comm a m), Nat.add_comm, Nat.mod_add by auto. apply Nat.mod_small. apply Nat.div_lt_upper_bound; lia.
  - replace (a * b * c * m + q) with ((a * b * m) * c + q) by ring. rewrite Nat.div_add_l by lia.
    replace (a * b * m + q / c) with (q / c + (a * m) * b) by ring. apply Nat.mod_add; auto.
  - replace (a * b * c * m + q) with (q + (a * b * m) * c) by ring. apply Nat.mod_add; auto.
Qed.
Lemma unflat3 a b c q : q < a * b * c -> unflat [a; b; c] q = [q / (b * c); (q / c) mod b; q mod c].
Proof.
  intros Hq. assert (b <> 0) by (intros ->; rewrite Nat.mul_0_r in *; cbn in *; lia). assert (c <> 0) by (intros ->; lia).
  cbn [unflat sprod fold_right]. rewrite !Nat.mul_1_r, Nat.div_1_r. do 2 f_equal.
  - rewrite (Nat.mul_comm b c), Nat.mod_mul_r by auto. rewrite Nat.mul_comm, Nat.div_add by auto. rewrite (Nat.div_small (q mod c) c); [lia|apply Nat.mod_upper_bound; auto].
  - f_equal. rewrite (Nat.mul_comm b c), Nat.mod_mul_r by auto. rewrite (Nat.mul_comm c (_ mod b)), Nat.mod_add by auto. apply Nat.mod_mod; auto.
Qed.
Lemma unflat2 a b q : q < a * b -> unflat [a; b] q = [q / b; q mod b].
Proof. intros H. cbn [unflat sprod fold_right]. rewrite !Nat.mul_1_r, Nat.div_1_r. reflexivity. Qed.

(** The matrix that ignores the garbage of a padded three-dimensional input: column [q] of the result
    is the column of the original entry stored at position [q], or zero. *)
Theorem ignore_garbage_ok t r og pad mp0 : wft t -> length og = 3 -> Forall (lt 0) og -> Forall2 le og pad ->
  sh t = [r; sprod og] -> r <= mp0 ->
  exists t', pad_matrix_to_ignore_garbage zero t og pad [mp0; sprod pad] = Some t' /\
    sh t' = [mp0; sprod pad] /\ wft t' /\
    forall i q, i < mp0 -> q < sprod pad ->
      at2 t' i q = if inb_dec og (unflat pad q) then if i <? r then at2 t i (flat og (unflat pad q)) else zero else zero.
Proof.
  intros W L Pog F E Lr. assert (Lp := Forall2_le_len _ _ _ F).
  destruct og as [|o0 [|o1 [|o2 [|]]]]; try discriminate. destruct pad as [|d0 [|d1 [|d2 [|]]]]; try discriminate.
  assert (Es : sprod [o0; o1; o2] = o0 * o1 * o2) by (cbn [sprod fold_right]; ring).
  assert (Ep : sprod [d0; d1; d2] = d0 * d1 * d2) by (cbn [sprod fold_right]; ring). rewrite Es in *. rewrite Ep.
  assert (Hd : 0 < d0 * d1 * d2).
  { rewrite <- Ep. apply sprod_pos. apply (F2_le_pos _ _ F Pog). }
  unfold pad_matrix_to_ignore_garbage. rewrite E. destruct (Nat.eqb_spec (d0 * d1 * d2) 0); [lia|]. rewrite orb_true_r.
  set (F' := fun i q => if inb_dec [o0; o1; o2] (unflat [d0; d1; d2] q) then if i <? r then at2 t i (flat [o0; o1; o2] (unflat [d0; d1; d2] q)) else zero else zero).
  rewrite (omapM_range _ (fun idx => F' (idx / (d0 * d1 * d2)) (idx mod (d0 * d1 * d2)))).
  - cbn [obind]. rewrite new_grid. destruct (grid_ok zero mp0 (d0 * d1 * d2) F') as [Wg Eg]. eexists. split; [reflexivity|].
    split; [reflexivity|]. split; [exact Wg|]. intros i q Hi Hq. rewrite Eg by auto. reflexivity.
  - intros loc Hl. cbv zeta. unfold F'. assert (Hm : loc mod (d0 * d1 * d2) < d0 * d1 * d2) by (apply Nat.mod_upper_bound; lia).
    destruct (digits3 d0 d1 d2 _ loc Hm eq_refl) as (D1 & D2 & D3). rewrite D1, D2, D3, unflat3 by auto. set (q := loc mod _) in *.
    set (a := q / (d1 * d2)). set (b := (q / d2) mod d1). set (e := q mod d2).
    destruct (inb_dec [o0; o1; o2] [a; b; e]) as [I|I]; rewrite inb3 in I.
    + destruct (Nat.ltb_spec (loc / (d0 * d1 * d2)) r) as [Hr|]; cbn [andb]; [|reflexivity].
      destruct (Nat.ltb_spec a o0); [|lia]. destruct (Nat.ltb_spec b o1); [|lia]. destruct (Nat.ltb_spec e o2); [|lia]. cbn [andb].
      unfold entry. rewrite E, flat2, flat3. set (row := loc / (d0 * d1 * d2)) in *.
      replace (a * o1 * o2 + b * o2 + e + row * (o0 * o1 * o2)) with (row * (o0 * o1 * o2) + (a * o1 * o2 + b * o2 + e)) by lia.
      apply nth_error_some. rewrite (wf2 t r (o0 * o1 * o2)) by auto. apply lt2; auto.
      rewrite <- Es, <- (flat3 o0). apply flat_lt. apply inb3; auto.
    + destruct (loc / (d0 * d1 * d2) <? r); cbn [andb]; [|reflexivity].
      destruct (Nat.ltb_spec a o0); destruct (Nat.ltb_spec b o1); destruct (Nat.ltb_spec e o2); cbn [andb]; try reflexivity. lia.
Qed.

(** The matrix that ignores the garbage of a multi-head attention output: row [q] of the result. *)
Theorem ignore_mha_ok t nh hd pnh phd c c' s0 s0' mp0 : wft t -> sh t = [nh * hd; c] -> nh <= pnh -> hd <= phd -> 0 < phd ->
  mp0 <= pnh * phd -> c <= c' ->
  exists t', pad_matrix_to_ignore_mha_garbage zero t [s0; nh; hd] [s0'; pnh; phd] [mp0; c'] = Some t' /\
    sh t' = [pnh * phd; c'] /\ wft t' /\
    forall q j, q < pnh * phd -> j < c' ->
      at2 t' q j = if inb_dec [nh; hd] (unflat [pnh; phd] q) then if j <? c then at2 t (flat [nh; hd] (unflat [pnh; phd] q)) j else zero else zero.
Proof.
  intros W E L1 L2 Hp Lm Lc. unfold pad_matrix_to_ignore_mha_garbage. rewrite E. cbv zeta. rewrite Nat.max_r by auto.
  destruct (Nat.eqb_spec phd 0); [lia|]. rewrite orb_true_r.
  set (F' := fun q j => if inb_dec [nh; hd] (unflat [pnh; phd] q) then if j <? c then at2 t (flat [nh; hd] (unflat [pnh; phd] q)) j else zero else zero).
  rewrite (omapM_range _ (fun idx => F' (idx / c') (idx mod c'))).
  - cbn [obind]. rewrite new_grid. destruct (grid_ok zero (pnh * phd) c' F') as [Wg Eg]. eexists. split; [reflexivity|].
    split; [reflexivity|]. split; [exact Wg|]. intros i q Hi Hq. rewrite Eg by auto. reflexivity.
  - intros idx Hi. unfold F'. assert (c' <> 0) by (intros ->; lia). assert (Hq : idx / c' < pnh * phd) by (apply Nat.div_lt_upper_bound; lia).
    rewrite unflat2 by auto. set (row := idx / c') in *. set (j := idx mod c').
    destruct (inb_dec [nh; hd] [row / phd; row mod phd]) as [I|I]; rewrite inb2 in I.
    + destruct (Nat.ltb_spec (row mod phd) hd); [|lia]. destruct (Nat.ltb_spec (row / phd) nh); [|lia]. cbn [andb].
      destruct (Nat.ltb_spec j c); [|reflexivity]. unfold entry. rewrite E, !flat2. apply nth_error_some.
      rewrite (wf2 t (nh * hd) c) by auto. apply lt2; auto. apply lt2; tauto.
    + destruct (Nat.ltb_spec (row mod phd) hd); destruct (Nat.ltb_spec (row / phd) nh); cbn [andb]; try reflexivity. lia.
Qed.
End Mats.

Section Dense.
Context {A : Type}.
Variable zero : A.
Variables add mul : A -> A -> A.
Hypothesis add_0_r : forall x, add x zero = x.
Hypothesis mul_0_l : forall x, mul zero x = zero.
Implicit Types t o w x y : ten A.
Implicit Types d : dense (A:=A).
Notation at2 t i j := (entry zero t [i; j]).
Notation at1 t i := (entry zero t [i]).

Definition wf_dense d (r c : nat) : Prop :=
  sh (d_mat d) = [r; c] /\ wft (d_mat d) /\ sh (d_bias d) = [r] /\ wft (d_bias d) /\ 0 < r /\ 0 < c.

Lemma dense_eval_ok d r c x : wf_dense d r c -> wft x -> sh x = [c] ->
  exists y, dense_eval zero add mul d x = Some y /\ sh y = [r] /\ wft y /\
    forall i, i < r -> at1 y i = add (sumto zero add c (fun k => mul (at2 (d_mat d) i k) (at1 x k))) (at1 (d_bias d) i).
Proof.
  intros (E & W & Eb & Wb & Hr & Hc) Wx Ex. unfold dense_eval. rewrite Ex. cbn [length Nat.eqb].
  destruct (matvec_ok zero add mul (d_mat d) x r c) as (y & -> & Sy & Wy & Hy); auto. cbn [obind].
  destruct (tadd1_ok zero add y (d_bias d) r) as (u & -> & Su & Wu & Hu); auto. exists u. split; [reflexivity|]. split; auto. split; auto.
  intros i Hi. rewrite Hu, Hy by auto. reflexivity.
Qed.
Lemma dense_eval_flat d r c x : wf_dense d r c -> wft x -> sprod (sh x) = c -> length (sh x) <> 1 ->
  dense_eval zero add mul d x = dense_eval zero add mul d (flatten x).
Proof.
  intros (E & W & Eb & Wb & Hr & Hc) Wx Ex L. unfold dense_eval. cbn [flatten sh length Nat.eqb].
  destruct (Nat.eqb_spec (length (sh x)) 1); [contradiction|]. rewrite (ncols_ok (d_mat d) r c) by auto. cbn [obind].
  unfold wft in Wx. change (length (dat x) = sprod (sh x)) in Wx. rewrite Wx, Ex, Nat.eqb_refl. reflexivity.
Qed.

(** Padded dense layer on a vector whose entries beyond the original ones are arbitrary. *)
Theorem dense_padded d r c P : wf_dense d r c -> is_pow2 P = true -> 4 <= P -> c <= P ->
  forall og, exists d', pad_dense zero d (mkSd [P] None og) = Some (d', mkSd [pad_minimum r] None [r]) /\
    wf_dense d' (pad_minimum r) P /\
    forall x x', wft x -> sh x = [c] -> wft x' -> sh x' = [P] -> agrees zero x x' ->
    exists y y', dense_eval zero add mul d x = Some y /\ dense_eval zero add mul d' x' = Some y' /\
      padded_with zero y [pad_minimum r] y'.
Proof.
  intros Wd HP H4 Hc og. destruct Wd as (E & W & Eb & Wb & Hr & Hcp) eqn:EW. clear EW.
  assert (Lb := wf1 _ r Wb Eb). unfold pad_dense. rewrite E, Lb, Nat.eqb_refl. cbn [sd_padded sd_garbage sd_og].
  unfold shape_is_pow2. cbn [forallb]. rewrite HP. cbn [andb length Nat.eqb nth]. rewrite (ncols_ok (d_mat d) r c) by auto. cbn [obind].
  destruct (Nat.leb_spec c P); [|lia]. rewrite (nrows_ok (d_mat d) r c) by auto. cbn [obind]. rewrite (pad_minimum_id P) by auto.
  set (r' := pad_minimum r). assert (Hr' : r <= r') by apply pad_minimum_ge.
  destruct (reshape_to_fit_ok zero (d_mat d) r c r' P) as (m & Em & Sm & Wm & Pm); auto. rewrite Em. cbn [obind].
  destruct (pad_1d_ok zero (d_bias d) r r') as (b & Ebb & Sb & Wbb & Pb); auto. rewrite Ebb. cbn [obind].
  assert (Wd' : wf_dense (mkDense m b) r' P) by (unfold wf_dense; cbn [d_mat d_bias]; do 4 (split; [assumption|]); lia).
  eexists. split; [reflexivity|]. split; [exact Wd'|].
  intros x x' Wx Ex Wx' Ex' Ag.
  destruct (dense_eval_ok d r c x) as (y & Hy & Sy & Wy & Ey); [exact Wd|auto|auto|].
  destruct (dense_eval_ok _ r' P x' Wd' Wx' Ex') as (y' & Hy' & Sy' & Wy' & Ey').
  exists y, y'. split; auto. split; auto. split; auto. split; auto.
  intros idx I. apply inb1_inv in I as (i & -> & Hi). rewrite Sy, inb1. cbn [d_mat d_bias] in Ey'. split; intros Hi'.
  - rewrite Ey', Ey by auto. rewrite (sum_trail zero add add_0_r c P) by (auto; intros q Hq; rewrite (proj2 (Pm [i; q] ltac:(apply inb2; lia))) by (rewrite E, inb2; lia); apply mul_0_l).
    f_equal.
    + apply sumto_ext. intros k Hk. rewrite (proj1 (Pm [i; k] ltac:(apply inb2; lia))) by (rewrite E; apply inb2; auto).
      rewrite (Ag [k]) by (rewrite Ex; apply inb1; auto). reflexivity.
    + apply Pb; [apply inb1; auto|]. rewrite Eb. apply inb1; auto.
  - rewrite Ey' by auto. rewrite (proj2 (Pb [i] ltac:(apply inb1; auto))) by (rewrite Eb, inb1; auto). rewrite add_0_r.
    apply sumto_zero; auto. intros k Hk. rewrite (proj2 (Pm [i; k] ltac:(apply inb2; lia))) by (rewrite E, inb2; lia). apply mul_0_l.
Qed.

(** Padded dense layer after [Flatten], on a three-dimensional input whose padding positions hold
    arbitrary garbage (the padded output of a convolution or pooling layer). *)
Theorem dense_after_flatten d r og pad : length og = 3 -> Forall (lt 0) og -> Forall2 le og pad ->
  shape_is_pow2 pad = true -> 4 <= sprod pad ->
  wf_dense d r (sprod og) ->
  exists d', pad_dense zero d (pad_flatten (mkSd pad None og)) = Some (d', mkSd [pad_minimum r] None [r]) /\
    wf_dense d' (pad_minimum r) (sprod pad) /\
    forall x x', wft x -> sh x = og -> wft x' -> sh x' = pad -> agrees zero x x' ->
    exists y y', dense_eval zero add mul d (flatten x) = Some y /\ dense_eval zero add mul d' (flatten x') = Some y' /\
      padded_with zero y [pad_minimum r] y'.
Proof.
  intros Lo Pog F HP H4 Wd. assert (HPp := sprod_pow2 pad HP). destruct Wd as (E & W & Eb & Wb & Hr & Hcp) eqn:EW. clear EW.
  assert (Lp := Forall2_le_len _ _ _ F). assert (Lb := wf1 _ r Wb Eb). unfold pad_dense, pad_flatten. rewrite E, Lb, Nat.eqb_refl. cbn [sd_padded sd_garbage sd_og].
  rewrite HP. destruct (Nat.eqb_spec (length pad) 1); [lia|]. rewrite (ncols_ok (d_mat d) r (sprod og)) by auto. cbn [obind].
  assert (Hle : sprod og <= sprod pad).
  { destruct (spread_facts og pad Pog F) as (A1 & A2 & _). clear - A1 A2.
    assert (G : forall i, i < sprod og -> i <= spread og pad i).
    { induction i as [|i IH]; intros Hi; [lia|]. assert (spread og pad i < spread og pad (S i)) by (apply A1; lia). specialize (IH ltac:(lia)). lia. }
    destruct (sprod og) as [|n] eqn:En; [lia|]. specialize (G n). specialize (A2 n). lia. }
  destruct (Nat.leb_spec (sprod og) (sprod pad)); [|lia]. rewrite (nrows_ok (d_mat d) r (sprod og)) by auto. cbn [obind]. rewrite (pad_minimum_id (sprod pad)) by auto.
  set (r' := pad_minimum r). assert (Hr' : r <= r') by apply pad_minimum_ge.
  cbn [ignore_garbage]. destruct (ignore_garbage_ok zero (d_mat d) r og pad r') as (m & Em & Sm & Wm & Pm); auto. rewrite Em. cbn [obind].
  destruct (pad_1d_ok zero (d_bias d) r r') as (b & Ebb & Sb & Wbb & Pb); auto. rewrite Ebb. cbn [obind].
  assert (Wd' : wf_dense (mkDense m b) r' (sprod pad)) by (unfold wf_dense; cbn [d_mat d_bias]; do 4 (split; [assumption|]); lia).
  eexists. split; [reflexivity|]. split; [exact Wd'|].
  intros x x' Wx Ex Wx' Ex' Ag.
  assert (Lx : length (dat x) = sprod og) by (rewrite <- Ex; exact Wx). assert (Lx' : length (dat x') = sprod pad) by (rewrite <- Ex'; exact Wx').
  destruct (dense_eval_ok d r (sprod og) (flatten x)) as (y & Hy & Sy & Wy & Ey); [exact Wd|unfold wft; cbn; lia|cbn; congruence|].
  destruct (dense_eval_ok _ r' (sprod pad) (flatten x') Wd') as (y' & Hy' & Sy' & Wy' & Ey'); [unfold wft; cbn; lia|cbn; congruence|].
  exists y, y'. split; auto. split; auto. split; auto. split; auto.
  intros idx I. apply inb1_inv in I as (i & -> & Hi). rewrite Sy, inb1. cbn [d_mat d_bias] in Ey'. split; intros Hi'.
  - rewrite Ey', Ey by auto. rewrite (sum_spread zero add add_0_r og pad) by (auto; intros q Hq Hn; rewrite Pm by auto; destruct (inb_dec og (unflat pad q)); solve [contradiction|apply mul_0_l]).
    f_equal.
    + apply sumto_ext. intros k Hk. destruct (spread_facts og pad Pog F) as (_ & A2 & _).
      assert (I' : inb pad (unflat og k)) by (apply (inb_mono og); auto; apply unflat_inb; auto).
      rewrite Pm by auto. unfold spread. rewrite unflat_flat by auto.
      destruct (inb_dec og (unflat og k)) as [Ik|N]; [|exfalso; apply N, unflat_inb; auto].
      destruct (Nat.ltb_spec i r); [|lia]. rewrite flat_unflat by auto. f_equal.
      specialize (Ag (unflat og k)). rewrite Ex in Ag. specialize (Ag Ik). unfold entry in *. rewrite Ex, Ex' in Ag. rewrite flat_unflat in Ag by auto.
      cbn [flatten sh dat]. rewrite !flat1. exact Ag.
    + apply Pb; [apply inb1; auto|]. rewrite Eb. apply inb1; auto.
  - rewrite Ey' by auto. rewrite (proj2 (Pb [i] ltac:(apply inb1; auto))) by (rewrite Eb, inb1; auto). rewrite add_0_r.
    apply sumto_zero; auto. intros k Hk. rewrite Pm by auto. destruct (Nat.ltb_spec i r); [lia|]. destruct (inb_dec og (unflat pad k)); apply mul_0_l.
Qed.
End Dense.
