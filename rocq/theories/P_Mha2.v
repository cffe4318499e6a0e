(** What the multi-head attention layer computes: causal attention, row by row, for all sizes. *)
From Coq Require Import List Arith Lia Bool ZArith Permutation.
From Verif Require Import ListAux FieldDef M_Mle M_Tensor P_Pad P_Tensor P_Tensor2 P_Tensor3 P_Tensor4 P_Fft3 M_Layers P_Layers P_Layers2 P_Layers4 P_Layers5 M_Softmax P_Softmax M_Mha P_Mha.
Import ListNotations.

(** ** The specification *)
Definition zplus (l : list Z) : Z := fold_right Z.add 0%Z l.
(** Entry [d] of head [h] at position [i], for [nh] heads of dimension [hd]. *)
Definition at_head (nh hd : nat) (t : ten Z) (i h d : nat) : Z := nth (i * (nh * hd) + h * hd + d) (dat t) 0%Z.
(** The score of position [j] for position [i]. *)
Definition score (nh hd : nat) (q k : ten Z) (h i j : nat) : Z := zplus (map (fun d => at_head nh hd q i h d * at_head nh hd k j h d)%Z (seq 0 hd)).
(** The shift of a row, from the scores that it may see. *)
Definition row_shift (lse : list Z -> Z) (scalar : Z) (ss : list Z) : Z :=
  match ss with
  | [] => 0%Z
  | [x] => (- x * scalar)%Z
  | x :: r => let mx := fold_left Z.max r x in (- lse (map (fun y => (y - mx)%Z) ss) - mx * scalar)%Z
  end.
(** The weights of a row: only of positions up to its own. *)
Definition row_weights (expf : Z -> Z) (lse : list Z -> Z) (c : sm_ctx) (tv : nat) (ss : list Z) : list Z :=
  map (fun x => ce_out (sm_elem (sm_table expf (sm_bkm c)) tv (sm_nz c) (sm_zv c) (x * sm_scalar c + row_shift lse (sm_scalar c) ss))) ss.
Definition attention (expf : Z -> Z) (lse : list Z -> Z) (c : sm_ctx) (tv nh hd : nat) (q k v : ten Z) (i h d : nat) : Z :=
  let ss := map (score nh hd q k h i) (seq 0 (S i)) in
  zplus (map (fun '(w, x) => (w * x)%Z) (combine (row_weights expf lse c tv ss) (map (fun j => at_head nh hd v j h d) (seq 0 (S i))))).
(** The mask value loses no bit. *)
Definition mask_fits (c : sm_ctx) (tv : nat) : Prop := (Z.shiftr (sm_bkm c) 16 + 1 < 2 ^ Z.of_nat tv)%Z \/ ((0 < sm_nz c * sm_zv c)%nat /\ (2 <= Z.shiftr (sm_bkm c) 16)%Z).

(** ** Sums *)
Lemma zplus_app a b : zplus (a ++ b) = (zplus a + zplus b)%Z.
Proof. unfold zplus. induction a as [|x a IH]; cbn [app fold_right]; [reflexivity|]. rewrite IH. lia. Qed.
Lemma sumto_zplus n f : sumto 0%Z Z.add n f = zplus (map f (seq 0 n)).
Proof. induction n as [|n IH]; [reflexivity|]. cbn [sumto]. rewrite IH, seq_S, map_app, zplus_app. cbn. lia. Qed.
Lemma zplus_zero {A} (f : A -> Z) l : (forall x, In x l -> f x = 0%Z) -> zplus (map f l) = 0%Z.
Proof. induction l as [|x l IH]; intros H; [reflexivity|]. cbn [map zplus fold_right]. rewrite H by (left; reflexivity). unfold zplus in IH. rewrite IH; [reflexivity|]. intros y Hy. apply H. right. exact Hy. Qed.
Lemma combine_map2 {A B C} (f : A -> B) (g : A -> C) l : combine (map f l) (map g l) = map (fun x => (f x, g x)) l.
Proof. induction l as [|x l IH]; [reflexivity|]. cbn. now rewrite IH. Qed.

Lemma firstn_row {A} (d : A) n r k l : k <= n -> n * r + n <= length l -> firstn k (firstn n (skipn (r * n) l)) = map (fun j => nth (r * n + j) l d) (seq 0 k).
Proof.
  intros H1 H2. apply nth_ext with (d := d) (d' := d); [rewrite !firstn_length, skipn_length, map_length, seq_length; nia|].
  intros j Hj. rewrite !firstn_length, skipn_length in Hj. rewrite nth_firstn_lt by lia. rewrite nth_firstn_lt by lia. rewrite nth_skipn.
  rewrite (nth_map_lt _ _ _ 0) by (rewrite seq_length; lia). rewrite seq_nth by lia. reflexivity.
Qed.

Lemma shift_row lse scalar n r l s : 0 < n -> n * r + n <= length l -> sm_shift lse scalar n r (firstn n (skipn (r * n) l)) = Some s ->
  s = row_shift lse scalar (map (fun j => nth (r * n + j) l 0%Z) (seq 0 (S (r mod n)))).
Proof.
  intros Hn Hl H. assert (Hm : r mod n < n) by (apply Nat.mod_upper_bound; lia). unfold sm_shift in H. destruct n as [|n']; [discriminate|]. set (n := S n') in *.
  destruct (Nat.eqb_spec (r mod n) 0) as [E|E].
  - rewrite E. assert (F := firstn_row 0%Z n r 1 l ltac:(unfold n; lia) Hl). destruct (firstn n (skipn (r * n) l)) as [|x rest]; [discriminate F|]. cbn [firstn] in F. rewrite <- F. injection H as <-. reflexivity.
  - rewrite Nat.add_1_r in H. rewrite (firstn_row 0%Z) in H by lia. destruct (map _ _) as [|x [|y r']] eqn:Ess.
    + discriminate H.
    + apply (f_equal (@length Z)) in Ess. rewrite map_length, seq_length in Ess. change (length [x]) with 1 in Ess. injection Ess as Ess. contradiction.
    + cbn [zmax_list obind] in H. injection H as <-. reflexivity.
Qed.

Lemma flat_head nh hd (t : ten Z) n i h d : entry 0%Z (mkTen [n; nh; hd] (dat t)) [i; h; d] = at_head nh hd t i h d.
Proof. unfold entry, at_head. cbn [sh dat]. rewrite flat3. f_equal. ring. Qed.

Lemma subspace_eval_gen n nh hd (t : ten Z) : sh t = [n; nh * hd] -> subspace_eval 1 2 [nh; hd] t = Some (mkTen [n; nh; hd] (dat t)).
Proof.
  intros E. unfold subspace_eval, subspace, splice. rewrite E. cbn [length Nat.leb andb obind firstn skipn app sprod fold_right].
  replace (n * (nh * (hd * 1))) with (n * (nh * hd * 1)) by ring. rewrite Nat.eqb_refl. cbn [obind]. unfold reshape. rewrite E. cbn [sprod fold_right].
  replace (n * (nh * (hd * 1))) with (n * (nh * hd * 1)) by ring. rewrite Nat.eqb_refl. reflexivity.
Qed.

(** The layer computes causal attention. *)
Lemma mha_causal expf lse c tv n nh hd (q k v : ten Z) : 0 < n -> 0 < nh -> sm_tv c = Some tv -> mask_fits c tv ->
  wft q -> wft k -> wft v -> sh q = [n; nh * hd] -> sh k = [n; nh * hd] -> sh v = [n; nh * hd] ->
  forall s e o y out, mha_evaluate expf lse c nh hd q k v = Some (s, e, o, y, out) ->
  sh out = [n; nh * hd] /\ wft out /\ forall i h d, i < n -> h < nh -> d < hd -> at_head nh hd out i h d = attention expf lse c tv nh hd q k v i h d.
Proof.
  intros Hn Hh Htv Hfit Wq Wk Wv Sq Sk Sv s e o y out H.
  assert (W3 : forall t : ten Z, wft t -> sh t = [n; nh * hd] -> wft (mkTen [n; nh; hd] (dat t))).
  { intros t W E. unfold wft in *. rewrite E in W. cbn [sh dat]. rewrite W. cbn [sprod fold_right]. ring. }
  unfold mha_evaluate in H. rewrite !(subspace_eval_gen n) in H by assumption. cbn [obind] in H.
  destruct (concat_eval_ok 0%Z Z.add Z.mul qk_perm (mkTen [n; nh; hd] (dat q)) (mkTen [n; nh; hd] (dat k)) nh hd n n good_qk (W3 q Wq Sq) eq_refl (W3 k Wk Sk) eq_refl Hh) as (s' & Es & Ss & Ws & Hs).
  rewrite Es in H. cbn [obind] in H. change (permuted qk_perm [nh; n; n]) with [nh; n; n] in Ss.
  destruct (sm_evaluate expf lse c (sh s') (dat s')) as [[[shifts shifted] cells]|] eqn:Ee; [|discriminate H]. cbn [obind snd] in H.
  assert (Ls : length (dat s') = nh * n * n) by (unfold wft in Ws; rewrite Ws, Ss; cbn [sprod fold_right]; ring).
  rewrite Ss in Ee.
  destruct (sm_eval_spec expf lse c [nh; n; n] (dat s') nh n shifts shifted cells (or_introl eq_refl) Ls Ee) as (tv' & Etv & _ & L1 & L2 & L3 & HE).
  rewrite Htv in Etv. injection Etv as <-.
  destruct (sm_entries expf lse c [nh; n; n] (dat s') nh n shifts shifted cells tv (or_introl eq_refl) Ls Ee Htv) as [_ HZ].
  assert (Wo : wft (mkTen (sh s') (map ce_out cells))) by (unfold wft; cbn [sh dat]; rewrite map_length, L3, Ss; cbn [sprod fold_right]; ring).
  destruct (concat_eval_ok 0%Z Z.add Z.mul fm_perm (mkTen (sh s') (map ce_out cells)) (mkTen [n; nh; hd] (dat v)) nh n n hd good_fm Wo Ss (W3 v Wv Sv) eq_refl Hh) as (y' & Ey & Sy & Wy & Hy).
  rewrite Ey in H. cbn [obind] in H. change (permuted fm_perm [nh; n; hd]) with [n; nh; hd] in Sy.
  unfold subspace_eval, subspace, splice in H. rewrite Sy in H. cbn [length Nat.leb andb obind firstn skipn app] in H.
  destruct (sprod [n; nh * hd] =? sprod [n; nh; hd])%nat eqn:Ep in H; [|discriminate H]. cbn [obind] in H. unfold reshape in H. rewrite Sy in H. rewrite Nat.eqb_sym, Ep in H. cbn [obind] in H.
  injection H as <- <- <- <- <-. split; [reflexivity|].
  split; [unfold wft in *; cbn [sh dat]; rewrite Wy, Sy; cbn [sprod fold_right]; ring|].
  intros i h d Hi Hd1 Hd2.
  assert (Eo : at_head nh hd (mkTen [n; nh * hd] (dat y')) i h d = entry 0%Z y' [i; h; d]).
  { rewrite <- (flat_head nh hd _ n). cbn [dat]. unfold entry. cbn [sh dat]. rewrite Sy. reflexivity. }
  rewrite Eo. specialize (Hy h i d Hd1 Hi Hd2). change (permuted fm_perm [h; i; d]) with [i; h; d] in Hy. rewrite Hy. clear Hy Eo.
  rewrite sumto_zplus. replace n with (S i + (n - S i)) at 1 by lia. rewrite seq_app, map_app, zplus_app.
  set (r := h * n + i). assert (Hr : r < nh * n) by (unfold r; nia). assert (Emod : r mod n = i) by (unfold r; rewrite Nat.add_comm, Nat.mod_add by lia; apply Nat.mod_small; lia).
  assert (Fo : forall t, t < n -> entry 0%Z (mkTen (sh s') (map ce_out cells)) (place (cp_left fm_perm) h t i) = ce_out (nth (t + n * r) cells cell0)).
  { intros t Ht. unfold entry. cbn [sh dat]. rewrite Ss. change (place (cp_left fm_perm) h t i) with [h; i; t]. rewrite flat3.
    replace ((h * n + i) * n + t) with (t + n * r) by (unfold r; ring). rewrite (nth_map_lt _ _ _ cell0) by (rewrite L3; nia). reflexivity. }
  assert (Fs : forall t, t < n -> nth (r * n + t) (dat s') 0%Z = score nh hd q k h i t).
  { intros t Ht. specialize (Hs h i t Hd1 Hi Ht). change (permuted qk_perm [h; i; t]) with [h; i; t] in Hs. unfold entry at 1 in Hs. rewrite Ss, flat3 in Hs. fold r in Hs. rewrite Hs, sumto_zplus.
    unfold score. f_equal. apply map_ext. intros u. change (place (cp_left qk_perm) h u i) with [i; h; u]. change (place (cp_right qk_perm) h u t) with [t; h; u]. rewrite !flat_head. reflexivity. }
  assert (Z2 : zplus (map (fun t => (entry 0%Z (mkTen (sh s') (map ce_out cells)) (place (cp_left fm_perm) h t i) * entry 0%Z (mkTen [n; nh; hd] (dat v)) (place (cp_right fm_perm) h t d))%Z) (seq (0 + S i) (n - S i))) = 0%Z).
  { apply zplus_zero. intros t Ht. apply in_seq in Ht. rewrite Fo by lia. destruct (HZ r t Hr ltac:(lia)) as [_ HZ']. cbn zeta in HZ'. rewrite HZ' by (auto; rewrite Emod; lia). lia. }
  rewrite Z2, Z.add_0_r. unfold attention. cbn zeta. unfold row_weights. rewrite map_map, combine_map2, map_map. f_equal. apply map_ext_in. intros t Ht. apply in_seq in Ht.
  rewrite Fo by lia. change (place (cp_right fm_perm) h t d) with [t; h; d]. rewrite flat_head. f_equal.
  destruct (HE r t Hr ltac:(lia)) as (E1 & E2 & E3). rewrite E3, E2. rewrite Emod. destruct (Nat.ltb_spec i t); [lia|].
  apply shift_row in E1; [|lia|nia]. rewrite Emod in E1.
  assert (Em : map (fun j => nth (r * n + j) (dat s') 0%Z) (seq 0 (S i)) = map (score nh hd q k h i) (seq 0 (S i))) by (apply map_ext_in; intros j Hj; apply in_seq in Hj; apply Fs; lia).
  rewrite Em in E1. rewrite E1. replace (t + n * r) with (r * n + t) by ring. rewrite Fs by lia. reflexivity.
Qed.

Lemma omapM_total {A B} (f : A -> option B) l : (forall x, In x l -> exists y, f x = Some y) -> exists r, omapM f l = Some r.
Proof. induction l as [|x l IH]; intros H; [eexists; reflexivity|]. destruct (H x) as [y Hy]; [left; reflexivity|]. destruct IH as [r Hr]; [intros z Hz; apply H; right; exact Hz|]. cbn [omapM]. rewrite Hy. cbn [obind]. rewrite Hr. eexists. reflexivity. Qed.
(** The layer does not fail. *)
Lemma mha_total expf lse c tv n nh hd (q k v : ten Z) : 0 < n -> 0 < nh -> sm_tv c = Some tv ->
  wft q -> wft k -> wft v -> sh q = [n; nh * hd] -> sh k = [n; nh * hd] -> sh v = [n; nh * hd] ->
  exists s e o y out, mha_evaluate expf lse c nh hd q k v = Some (s, e, o, y, out).
Proof.
  intros Hn Hh Htv Wq Wk Wv Sq Sk Sv.
  assert (W3 : forall t : ten Z, wft t -> sh t = [n; nh * hd] -> wft (mkTen [n; nh; hd] (dat t))).
  { intros t W E. unfold wft in *. rewrite E in W. cbn [sh dat]. rewrite W. cbn [sprod fold_right]. ring. }
  unfold mha_evaluate. rewrite !(subspace_eval_gen n) by assumption. cbn [obind].
  destruct (concat_eval_ok 0%Z Z.add Z.mul qk_perm (mkTen [n; nh; hd] (dat q)) (mkTen [n; nh; hd] (dat k)) nh hd n n good_qk (W3 q Wq Sq) eq_refl (W3 k Wk Sk) eq_refl Hh) as (s' & Es & Ss & Ws & _).
  rewrite Es. cbn [obind]. change (permuted qk_perm [nh; n; n]) with [nh; n; n] in Ss.
  assert (Ls : length (dat s') = nh * n * n) by (unfold wft in Ws; rewrite Ws, Ss; cbn [sprod fold_right]; ring).
  assert (Ee : exists e, sm_evaluate expf lse c (sh s') (dat s') = Some e).
  { unfold sm_evaluate. rewrite Ss, (mask_new_ok _ nh n) by (left; reflexivity). cbn [obind length nth_error Nat.sub]. destruct n as [|n']; [lia|]. set (n := S n') in *.
    destruct (chunks_nth n (nh * n) (dat s') Hn Ls) as [Cl Cn].
    destruct (omapM_total (fun '(i, ch) => sm_shift lse (sm_scalar c) n i ch) (combine (seq 0 (length (chunks n (dat s')))) (chunks n (dat s')))) as [shs Eo].
    { intros [i ch] Hin. apply in_combine_r in Hin. apply (In_nth _ _ []) in Hin as (j & Hj & <-). rewrite Cl in Hj. rewrite (nth_error_nth _ _ _ (Cn j Hj)).
      assert (Lc := chunk_len n (nh * n) j (dat s') Ls Hj). destruct (firstn n (skipn (j * n) (dat s'))) as [|x rest]; [cbn in Lc; unfold n in Lc; lia|].
      unfold sm_shift, n. fold n. destruct (i mod n =? 0)%nat; [eauto|]. rewrite Nat.add_1_r. cbn [firstn zmax_list obind]. eauto. }
    rewrite Eo. cbn [obind]. rewrite Htv. cbn [obind]. eauto. }
  destruct Ee as [[[shifts shifted] cells] Ee]. rewrite Ee. cbn [obind snd]. rewrite Ss in Ee.
  destruct (sm_eval_spec expf lse c [nh; n; n] (dat s') nh n shifts shifted cells (or_introl eq_refl) Ls Ee) as (tv' & _ & _ & _ & _ & L3 & _).
  assert (Wo : wft (mkTen (sh s') (map ce_out cells))) by (unfold wft; cbn [sh dat]; rewrite map_length, L3, Ss; cbn [sprod fold_right]; ring).
  destruct (concat_eval_ok 0%Z Z.add Z.mul fm_perm (mkTen (sh s') (map ce_out cells)) (mkTen [n; nh; hd] (dat v)) nh n n hd good_fm Wo Ss (W3 v Wv Sv) eq_refl Hh) as (y' & Ey & Sy & Wy & Hy).
  rewrite Ey. cbn [obind]. change (permuted fm_perm [nh; n; hd]) with [n; nh; hd] in Sy.
  unfold subspace_eval, subspace, splice. rewrite Sy. cbn [length Nat.leb andb obind firstn skipn app].
  assert (Ep : (sprod [n; nh * hd] =? sprod [n; nh; hd])%nat = true) by (apply Nat.eqb_eq; cbn [sprod fold_right]; ring).
  rewrite Ep. cbn [obind]. unfold reshape. rewrite Sy. rewrite Nat.eqb_sym, Ep. cbn [obind]. repeat eexists.
Qed.

(** A prefix of the output depends on the same prefix of the inputs only, whatever follows and however much. *)
Lemma at_head_prefix nh hd t (a b : ten Z) i h d : firstn (t * (nh * hd)) (dat a) = firstn (t * (nh * hd)) (dat b) -> i < t -> h < nh -> d < hd -> at_head nh hd a i h d = at_head nh hd b i h d.
Proof.
  intros E Hi Hh Hd. unfold at_head. assert (Hlt : i * (nh * hd) + h * hd + d < t * (nh * hd)).
  { apply Nat.lt_le_trans with ((i + 1) * (nh * hd)); [|apply Nat.mul_le_mono_r; lia]. assert (h * hd + d < nh * hd) by nia. lia. }
  assert (F : forall l : list Z, nth (i * (nh * hd) + h * hd + d) l 0%Z = nth (i * (nh * hd) + h * hd + d) (firstn (t * (nh * hd)) l) 0%Z) by (intros l; rewrite nth_firstn_lt by exact Hlt; reflexivity).
  rewrite (F (dat a)), (F (dat b)), E. reflexivity.
Qed.

Lemma mha_prefix expf lse c tv n n' nh hd t (q k v q' k' v' : ten Z) : 0 < nh -> sm_tv c = Some tv -> mask_fits c tv -> 0 < t -> t <= n -> t <= n' ->
  wft q -> wft k -> wft v -> sh q = [n; nh * hd] -> sh k = [n; nh * hd] -> sh v = [n; nh * hd] ->
  wft q' -> wft k' -> wft v' -> sh q' = [n'; nh * hd] -> sh k' = [n'; nh * hd] -> sh v' = [n'; nh * hd] ->
  (forall a b, In (a, b) [(q, q'); (k, k'); (v, v')] -> firstn (t * (nh * hd)) (dat a) = firstn (t * (nh * hd)) (dat b)) ->
  forall s e o y out s' e' o' y' out', mha_evaluate expf lse c nh hd q k v = Some (s, e, o, y, out) -> mha_evaluate expf lse c nh hd q' k' v' = Some (s', e', o', y', out') ->
  firstn (t * (nh * hd)) (dat out) = firstn (t * (nh * hd)) (dat out').
Proof.
  intros Hh Htv Hf Ht Hn Hn' Wq Wk Wv Sq Sk Sv Wq' Wk' Wv' Sq' Sk' Sv' HP s e o y out s' e' o' y' out' H H'.
  destruct (mha_causal expf lse c tv n nh hd q k v ltac:(lia) Hh Htv Hf Wq Wk Wv Sq Sk Sv _ _ _ _ _ H) as (S1 & W1 & C1).
  destruct (mha_causal expf lse c tv n' nh hd q' k' v' ltac:(lia) Hh Htv Hf Wq' Wk' Wv' Sq' Sk' Sv' _ _ _ _ _ H') as (S2 & W2 & C2).
  assert (Pq := HP q q' ltac:(left; reflexivity)). assert (Pk := HP k k' ltac:(right; left; reflexivity)). assert (Pv := HP v v' ltac:(right; right; left; reflexivity)).
  assert (L1 : t * (nh * hd) <= length (dat out)) by (unfold wft in W1; rewrite W1, S1; cbn [sprod fold_right]; nia).
  assert (L2 : t * (nh * hd) <= length (dat out')) by (unfold wft in W2; rewrite W2, S2; cbn [sprod fold_right]; nia).
  apply nth_ext with (d := 0%Z) (d' := 0%Z); [rewrite !firstn_length; lia|]. intros x Hx. rewrite firstn_length in Hx. assert (Hx' : x < t * (nh * hd)) by lia.
  assert (Hw : 0 < nh * hd) by nia. assert (Hhd : 0 < hd) by nia.
  set (i := x / (nh * hd)). set (h := x mod (nh * hd) / hd). set (d := x mod (nh * hd) mod hd).
  assert (Ex : x = i * (nh * hd) + h * hd + d).
  { rewrite (Nat.div_mod x (nh * hd)) at 1 by lia. fold i. rewrite (Nat.div_mod (x mod (nh * hd)) hd) at 1 by lia. fold h d. ring. }
  assert (Bi : i < t) by (apply Nat.div_lt_upper_bound; [lia|]; rewrite Nat.mul_comm; exact Hx').
  assert (Bh : h < nh) by (apply Nat.div_lt_upper_bound; [lia|]; rewrite Nat.mul_comm; apply Nat.mod_upper_bound; lia).
  assert (Bd : d < hd) by (apply Nat.mod_upper_bound; lia).
  rewrite !nth_firstn_lt by lia. rewrite Ex. change (at_head nh hd out i h d = at_head nh hd out' i h d). rewrite C1, C2 by lia. unfold attention. cbn zeta.
  assert (Es : map (score nh hd q k h i) (seq 0 (S i)) = map (score nh hd q' k' h i) (seq 0 (S i))).
  { apply map_ext_in. intros j Hj. apply in_seq in Hj. unfold score. f_equal. apply map_ext_in. intros u Hu. apply in_seq in Hu.
    rewrite (at_head_prefix nh hd t q q') by (auto; lia). rewrite (at_head_prefix nh hd t k k') by (auto; lia). reflexivity. }
  rewrite Es. f_equal. f_equal. f_equal. apply map_ext_in. intros j Hj. apply in_seq in Hj. apply (at_head_prefix nh hd t v v'); auto; lia.
Qed.
