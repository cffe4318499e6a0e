(** The mathematics behind [M_Conv]: the Fourier matrix with one argument replaced by a point, as a product, and the tables of the
    delegation. *)
From Coq Require Import List Arith Lia Bool ZArith Field.
From Verif Require Import ListAux FieldDef PolyList MleMath M_Mle P_Mle P_Eq M_Interp M_Sumcheck P_ScVerify P_ScProve P_ScProve2 P_ScApi
  M_SamePoly P_SamePoly M_Tensor M_Pool M_Fft P_Fft P_Fft2 M_Layers P_Layers P_Layers2 P_Pooling M_Conv.
Import ListNotations.

Section Math.
Context {K : field}.
Add Field Kf_conv1 : (fth K).
Local Open Scope F_scope.
Local Notation hist := (@hist K).

(** The multilinear extension of k -> y^k at x, as a product. *)
Fixpoint rowp (y : K) (x : list K) : K := match x with [] => 1 | a :: x' => (1 - a + a * y) * rowp (y * y) x' end.
Lemma rowp_mlef : forall x y, mlef (fun k => fpow y k) x = rowp y x.
Proof.
  induction x as [|a x IH]; intros y; [rewrite mlef_nil; reflexivity|]. rewrite mlef_cons. cbn [rowp]. rewrite <- IH, <- mlef_scal.
  apply mlef_ext. intros i _. replace (fpow y (2 * i)) with (fpow (y * y) i). 2: { rewrite fpow_mul_base, <- fpow_add. f_equal. lia. }
  replace (fpow y (2 * i + 1)) with (y * fpow (y * y) i). 2: { rewrite fpow_mul_base, <- fpow_add. replace (2 * i + 1)%nat with (S (i + i)) by lia. reflexivity. }
  ring.
Qed.

(** The table after j rounds. *)
Definition Ftab (w : K) (n : nat) (x : list K) (scale : K) (j b : nat) : K := scale * rowp (fpow w (b * 2 ^ (n - j))) (skipn (n - j) x).
Lemma Ftab_0 w n x s b : length x = n -> Ftab w n x s 0 b = s.
Proof. intros L. unfold Ftab. rewrite Nat.sub_0_r, skipn_all2 by lia. cbn [rowp]. ring. Qed.
Lemma Ftab_n w n x s b : Ftab w n x s n b = s * mlef (fun k => fpow w (k * b)) x.
Proof.
  unfold Ftab. rewrite Nat.sub_diag. cbn [skipn Nat.pow]. rewrite Nat.mul_1_r, <- rowp_mlef. f_equal. apply mlef_ext. intros i _. rewrite <- fpow_mul. f_equal. lia.
Qed.
Lemma skipn_cons_nth (x : list K) i : (i < length x)%nat -> skipn i x = nth i x 0 :: skipn (S i) x.
Proof. revert i. induction x as [|a x IH]; intros i H; [cbn in H; lia|]. destruct i; [reflexivity|]. cbn [skipn nth]. apply IH. cbn in H. lia. Qed.
Lemma Ftab_S w n x s j b : length x = n -> (j < n)%nat ->
  Ftab w n x s (S j) b = Ftab w n x s j b * (1 - nth (n - S j) x 0 + nth (n - S j) x 0 * fpow w (b * 2 ^ (n - S j))).
Proof.
  intros L H. unfold Ftab. rewrite (skipn_cons_nth x (n - S j)) by lia. replace (S (n - S j))%nat with (n - j)%nat by lia. cbn [rowp].
  rewrite <- fpow_add. replace (b * 2 ^ (n - S j) + b * 2 ^ (n - S j))%nat with (b * 2 ^ (n - j))%nat; [ring|].
  replace (n - j)%nat with (S (n - S j)) by lia. rewrite Nat.pow_succ_r'. lia.
Qed.
(** The second half of a table. *)
Lemma Ftab_hi w n x s j b : length x = n -> (j < n)%nat -> fpow w (2 ^ (n - 1)) = - (1) ->
  Ftab w n x s (S j) (2 ^ j + b) = Ftab w n x s j b * (1 - nth (n - S j) x 0 - nth (n - S j) x 0 * fpow w (b * 2 ^ (n - S j))).
Proof.
  intros L H Hw. rewrite Ftab_S by auto. rewrite Nat.mul_add_distr_r, fpow_add, <- Nat.pow_add_r. replace (j + (n - S j))%nat with (n - 1)%nat by lia. rewrite Hw.
  replace (Ftab w n x s j (2 ^ j + b)) with (Ftab w n x s j b); [ring|]. unfold Ftab. do 2 f_equal.
  rewrite Nat.mul_add_distr_r, fpow_add, <- Nat.pow_add_r. replace (j + (n - j))%nat with (S (n - 1)) by lia. rewrite Nat.pow_succ_r'.
  replace (2 * 2 ^ (n - 1))%nat with (2 ^ (n - 1) + 2 ^ (n - 1))%nat by lia. rewrite fpow_add, Hw. ring.
Qed.
(** The first table has two entries. *)
Lemma Ftab_1 w n x s p : length x = n -> (0 < n)%nat -> fpow w (2 ^ (n - 1)) = - (1) ->
  mlef (Ftab w n x s 1) [p] = s * (1 - (1 + 1) * nth (n - 1) x 0 * p).
Proof.
  intros L H Hw. rewrite mlef_cons, mlef_nil. rewrite !(Ftab_S w n x s 0) by (auto; lia). rewrite !Ftab_0 by auto.
  replace (2 * 0 + 1)%nat with 1%nat by lia. rewrite !Nat.mul_0_r, Nat.mul_0_l, Nat.mul_1_l, Hw. cbn [fpow]. ring.
Qed.

(** The table phi of a round, and its extension. *)
Definition phi_mid (a l y : K) (b : nat) : K := 1 - a + (1 - (1 + 1) * l) * a * fpow y b.
Definition phi_first (a l y : K) (b : nat) : K := (1 - l) * (1 - a + a * fpow y b).
Lemma phi_mid_mlef a l y pt : mlef (phi_mid a l y) pt = 1 - a + (1 - (1 + 1) * l) * a * rowp y pt.
Proof. unfold phi_mid. rewrite (mlef_add (fun _ => 1 - a)), mlef_const, mlef_scal, rowp_mlef. reflexivity. Qed.
Lemma phi_first_mlef a l y pt : mlef (phi_first a l y) pt = (1 - l) * (1 - a + a * rowp y pt).
Proof. unfold phi_first. rewrite mlef_scal, (mlef_add (fun _ => 1 - a)), mlef_const, mlef_scal, rowp_mlef. reflexivity. Qed.

Lemma hsum_3 j p (f g : nat -> K) : length p = j ->
  hsum j (prodf [eqp p; mlef f; mlef g]) = mlef (fun b => f b * g b) p.
Proof.
  intros L. unfold hsum, mlef at 3. rewrite L. apply sumn_ext. intros b Hb. unfold prodf. cbn [map fprod fold_right]. rewrite eqp_sym, eqp_bpt by auto.
  rewrite !mlef_bool by auto. cbn. ring.
Qed.
(** A round of the delegation: the extension of the table of j+1 rounds is a sum over the table of j rounds. *)
Lemma deleg_mid w n x s j p l : length x = n -> (j < n)%nat -> fpow w (2 ^ (n - 1)) = - (1) -> length p = j ->
  mlef (Ftab w n x s (S j)) (p ++ [l])
  = hsum j (prodf [eqp p; mlef (phi_mid (nth (n - S j) x 0) l (fpow w (2 ^ (n - S j)))); mlef (Ftab w n x s j)]).
Proof.
  intros L H Hw Lp. rewrite hsum_3 by auto. rewrite mlef_snoc. apply mlef_ext. intros b Hb. rewrite Lp, Ftab_hi, Ftab_S by auto.
  unfold phi_mid. rewrite <- fpow_mul, (Nat.mul_comm (2 ^ (n - S j))). ring.
Qed.
(** The first round of the forward transform, whose table is zero in the upper half. *)
Definition Gtab (w : K) (n : nat) (x : list K) (s : K) (b : nat) : K := if (b <? 2 ^ (n - 1))%nat then Ftab w n x s n b else 0.
Lemma deleg_first w n x s p l : length x = n -> (0 < n)%nat -> length p = (n - 1)%nat ->
  mlef (Gtab w n x s) (p ++ [l])
  = hsum (n - 1) (prodf [eqp p; mlef (phi_first (nth 0 x 0) l w); mlef (Ftab w n x s (n - 1))]).
Proof.
  intros L H Lp. rewrite hsum_3 by auto. rewrite mlef_snoc. apply mlef_ext. intros b Hb. rewrite Lp in *. unfold Gtab.
  destruct (Nat.ltb_spec b (2 ^ (n - 1))); [|lia]. destruct (Nat.ltb_spec (2 ^ (n - 1) + b) (2 ^ (n - 1))); [lia|].
  replace (Ftab w n x s n b) with (Ftab w n x s (S (n - 1)) b) by (f_equal; lia). rewrite Ftab_S by (auto; lia).
  replace (n - S (n - 1))%nat with 0%nat by lia. cbn [Nat.pow]. rewrite Nat.mul_1_r. unfold phi_first. ring.
Qed.

(** *** The evaluation of phi by the verifier *)
Lemma squares_length : forall k (x : K), length (squares k x) = k.
Proof. induction k as [|k IH]; intros x; cbn; auto. Qed.
Lemma squares_nth : forall k (x : K) i, (i < k)%nat -> nth_error (squares k x) i = Some (fpow x (2 ^ i)).
Proof.
  induction k as [|k IH]; intros x i H; [lia|]. destruct i; [cbn; f_equal; ring|]. cbn [squares nth_error]. rewrite IH by lia. f_equal.
  rewrite fpow_mul_base, <- fpow_add. f_equal. rewrite Nat.pow_succ_r'. lia.
Qed.
Lemma fold_left_fmul' : forall (l : list K) a, fold_left fmul l a = a * fprod l.
Proof. induction l as [|x l IH]; intros a; cbn; [ring|]. rewrite IH. unfold fprod. ring. Qed.
Lemma rowp_prod : forall (r : list K) y k, exists fs,
  (forall ex d, (forall i, (i < length r)%nat -> nth_error ex (d + i)%nat = Some (fpow y (2 ^ (k + i)))) ->
     omapM (fun i => e <- nth_error ex (d + i)%nat ;; x <- nth_error r i ;; Some (1 - x + x * e)) (seq 0 (length r)) = Some fs) /\
  fprod fs = rowp (fpow y (2 ^ k)) r.
Proof.
  induction r as [|a r IH]; intros y k; [exists []; split; reflexivity|]. destruct (IH y (S k)) as (fs & Hf & Hp).
  exists ((1 - a + a * fpow y (2 ^ k)) :: fs). split.
  - intros ex d H. cbn [length seq omapM]. rewrite (H 0%nat) by (cbn; lia). cbn [obind nth_error]. rewrite (Nat.add_0_r k).
    rewrite <- seq_shift.
    assert (E : forall l, omapM (fun i => e <- nth_error ex (d + i)%nat ;; x <- nth_error (a :: r) i ;; Some (1 - x + x * e)) (map S l)
      = omapM (fun i => e <- nth_error ex (S d + i)%nat ;; x <- nth_error r i ;; Some (1 - x + x * e)) l).
    { induction l as [|i l IHl]; [reflexivity|]. cbn [map omapM nth_error]. rewrite Nat.add_succ_r. cbn [Nat.add]. rewrite IHl. reflexivity. }
    rewrite E. rewrite (Hf ex (S d)); [reflexivity|]. intros i Hi. replace (S d + i)%nat with (d + S i)%nat by lia. rewrite H by (cbn; lia). do 3 f_equal. lia.
  - cbn [fprod fold_right rowp]. change (fold_right fmul 1 fs) with (fprod fs). rewrite Hp. f_equal.
    replace (fpow y (2 ^ S k)) with (fpow y (2 ^ k) * fpow y (2 ^ k)); [reflexivity|]. rewrite Nat.pow_succ_r', <- fpow_add. f_equal. lia.
Qed.
Lemma phi_eval_ok (r : list K) r1 r2 y k first : (length r <= k)%nat ->
  phi_eval r r1 r2 (squares k y) first
  = Some (mlef ((if first : bool then phi_first else phi_mid) r1 r2 (fpow y (2 ^ (k - length r)))) r).
Proof.
  intros H. unfold phi_eval. rewrite squares_length. unfold csub. destruct (Nat.leb_spec (length r) k); [|lia]. cbn [obind].
  destruct (rowp_prod r y (k - length r)) as (fs & Hf & Hp). rewrite (Hf (squares k y) (k - length r)%nat).
  2: { intros i Hi. apply squares_nth. lia. } cbn [obind]. rewrite fold_left_fmul', Hp. f_equal.
  destruct first; [rewrite phi_first_mlef|rewrite phi_mid_mlef]; cbn [fnat]; ring.
Qed.
End Math.
