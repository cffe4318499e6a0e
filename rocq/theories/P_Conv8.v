(** The tables that the convolution prover builds: the data of the evaluation of the layer, the combinations of filters and the
    tables of the transforms. *)
From Coq Require Import List Arith Lia Bool ZArith Field.
From Verif Require Import ListAux FieldDef PolyList MleMath P_Graph4 P_Tensor2 P_Tensor3 P_Tensor4 P_LogUp3 M_Mle P_Mle P_Eq M_Interp M_Sumcheck P_ScVerify P_ScProve P_ScProve2 P_ScApi
  M_SamePoly P_SamePoly M_Tensor P_Tensor M_Pool M_Fft P_Fft P_Fft2 P_Fft3 M_Layers P_Layers P_Layers2 P_Layers5 P_Pooling M_Conv P_Conv P_Conv2 P_Conv3 P_Conv4.
Import ListNotations.

Section Gen.
Context {K : field}.
Add Field Kf_conv8 : (fth K).
Local Open Scope F_scope.
Variable emb : Z -> K.

(** A list of rows as one table. *)
Lemma concat_at (ls : list (list K)) n k (F : nat -> nat -> K) i : length ls = (2 ^ k)%nat -> (forall x, In x ls -> length x = (2 ^ n)%nat) ->
  (forall j q, (j < 2 ^ k)%nat -> (q < 2 ^ n)%nat -> nth q (nth j ls []) 0 = F j q) -> (i < 2 ^ (n + k))%nat ->
  nth i (concat ls) 0 = F (i / 2 ^ n)%nat (i mod 2 ^ n)%nat.
Proof.
  intros L U HF Hi. pose proof (pow2_pos n) as Pn. rewrite Nat.pow_add_r in Hi.
  assert (H1 : (i / 2 ^ n < 2 ^ k)%nat) by (apply Nat.div_lt_upper_bound; lia). assert (H2 : (i mod 2 ^ n < 2 ^ n)%nat) by (apply Nat.mod_upper_bound; lia).
  rewrite (Nat.div_mod i (2 ^ n)) at 1 by lia. rewrite Nat.add_comm. rewrite (nth_concat_uniform ls (2 ^ n) 0 U) by (try lia; rewrite L; lia). apply HF; auto.
Qed.
Lemma concat_len (ls : list (list K)) n k : length ls = (2 ^ k)%nat -> (forall x, In x ls -> length x = (2 ^ n)%nat) -> length (concat ls) = (2 ^ (n + k))%nat.
Proof. intros L U. rewrite (length_concat_uniform ls (2 ^ n)) by auto. rewrite L, Nat.pow_add_r. lia. Qed.
Lemma concat_mle (ls : list (list K)) n k (F : nat -> nat -> K) pt : length ls = (2 ^ k)%nat -> (forall x, In x ls -> length x = (2 ^ n)%nat) ->
  (forall j q, (j < 2 ^ k)%nat -> (q < 2 ^ n)%nat -> nth q (nth j ls []) 0 = F j q) -> length pt = (n + k)%nat ->
  mle (concat ls) pt = mlef (fun i => F (i / 2 ^ n)%nat (i mod 2 ^ n)%nat) pt.
Proof. intros L U HF Lp. unfold mle. apply mlef_ext. rewrite Lp. intros i Hi. apply (concat_at ls n k F); auto. Qed.
(** Fixing the row index at [hi]. *)
Lemma high_concat (ls : list (list K)) n k (F : nat -> nat -> K) hi : length ls = (2 ^ k)%nat -> (forall x, In x ls -> length x = (2 ^ n)%nat) ->
  (forall j q, (j < 2 ^ k)%nat -> (q < 2 ^ n)%nat -> nth q (nth j ls []) 0 = F j q) -> length hi = k ->
  exists f fm, into_mle_ext (concat ls) = Some f /\ fix_high_variables_in_place f hi = Some (mkMle (Ext fm) n) /\ length fm = (2 ^ n)%nat /\
    forall lo, length lo = n -> mle fm lo = mlef (fun q => mlef (fun j => F j q) hi) lo.
Proof.
  intros L U HF Lh. assert (Lc := concat_len ls n k L U). exists (mkMle (Ext (concat ls)) (n + k)), (high_table (n + k) (concat ls) hi). split; [|split; [|split]].
  - apply into_mle_ext_ok. auto.
  - rewrite fhvip_ext by (auto; lia). rewrite Lh. do 2 f_equal. lia.
  - rewrite high_table_length. f_equal. lia.
  - intros lo Ll. rewrite high_then_eval by (auto; rewrite app_length; lia). rewrite (concat_mle ls n k F) by (auto; rewrite app_length; lia).
    rewrite (mlef_two F) by auto. apply mlef_swap.
Qed.

Lemma ofold_sum (g : nat -> option K) (G : nat -> K) n (a0 : K) : (forall j, (j < n)%nat -> g j = Some (G j)) ->
  ofold (fun acc j => v <- g j ;; Some (acc + v)) (seq 0 n) a0 = Some (a0 + sumn n G).
Proof.
  induction n as [|n IH]; intros H; [cbn; f_equal; ring|]. rewrite seq_S, ofold_app, IH by (intros; apply H; lia). cbn [obind ofold Nat.add]. rewrite H by lia. cbn [obind sumn].
  f_equal. ring.
Qed.
Lemma ofold_ext {A B} (f g : A -> B -> option A) l : (forall a x, f a x = g a x) -> forall a, ofold f l a = ofold g l a.
Proof. intros H. induction l as [|x l IH]; intros a; [reflexivity|]. cbn [ofold]. rewrite H. destruct (g a x); cbn [obind]; auto. Qed.
Lemma combine_ok data fsz step i (r : list K) : (forall j t, (j < 2 ^ length r)%nat -> (t < fsz)%nat -> ((j * step + i) * fsz + t < length data)%nat) ->
  combine_filters emb data fsz step i (2 ^ length r) (compute_betas_eval r)
  = Some (map (fun t => mlef (fun j => emb (nth ((j * step + i) * fsz + t) data 0%Z)) r) (seq 0 fsz)).
Proof.
  intros H. unfold combine_filters. rewrite compute_betas_spec. apply omapM_range. intros t Ht.
  rewrite (ofold_ext _ (fun acc j => v <- (b <- nth_error (eq_table r) j ;; v <- nth_error data ((j * step + i) * fsz + t)%nat ;; Some (b * emb v)) ;; Some (acc + v))).
  2: { intros acc j. destruct (nth_error (eq_table r) j); cbn [obind]; [|reflexivity]. destruct (nth_error data _); reflexivity. }
  rewrite (ofold_sum _ (fun j => emb (nth ((j * step + i) * fsz + t) data 0%Z) * eqw j r)).
  - f_equal. unfold mlef. ring.
  - intros j Hj. rewrite (nth_error_some 0) by (rewrite eq_table_length; auto). cbn [obind]. rewrite (nth_error_some 0%Z) by (apply H; auto). cbn [obind]. f_equal.
    rewrite eq_table_at by auto. ring.
Qed.
Lemma index_wf_ok (P : nat -> K) rn n len :
  index_wf (map P (seq 0 (rn * rn))) rn n len
  = Some (map (fun s => if ((s / n <? rn) && (s mod n <? rn))%nat then P (s / n * rn + s mod n)%nat else 0) (seq 0 len)).
Proof.
  unfold index_wf. apply omapM_range. intros s Hs. cbv zeta. destruct (Nat.ltb_spec (s / n) rn) as [A|A]; [|reflexivity].
  destruct (Nat.ltb_spec (s mod n) rn) as [B|B]; [|reflexivity]. cbn [andb]. assert (s / n * rn + s mod n < rn * rn)%nat by nia.
  rewrite (nth_error_some 0) by (rewrite map_length, seq_length; auto). rewrite nth_map_seq by auto. reflexivity.
Qed.
End Gen.

Section Data.
Context {K : field}.
Add Field Kf_conv8b : (fth K).
Local Open Scope F_scope.
Variable gen : K.
Hypothesis gen_root : fpow gen (2 ^ 31) = - (1).
Hypothesis char2 : (1 + 1 : K) <> 0.
Variable emb : Z -> K.
Variable unemb : K -> Z.
Hypothesis emb_0 : emb 0 = 0.
Hypothesis emb_add : forall x y : Z, emb (x + y) = emb x + emb y.
Hypothesis emb_mul : forall x y : Z, emb (x * y) = emb x * emb y.
Hypothesis emb_unemb : forall z, emb (unemb (emb z)) = emb z.
Variables (l c a b : nat).
Hypothesis Hl : (2 * l + 1 <= 32)%nat.
Hypothesis Hc : (c <= l)%nat.
Variables (fd xd bd : list Z).
Hypothesis Lf : length fd = (2 ^ b * 2 ^ a * (2 ^ c * 2 ^ c))%nat.
Hypothesis Lx : length xd = (2 ^ a * (2 ^ l * 2 ^ l))%nat.
Hypothesis Lb : length bd = (2 ^ b)%nat.
Let n := (2 * l + 1)%nat.
Let N := (2 ^ l * 2 ^ l)%nat.
Let k := (2 ^ c)%nat.

Lemma two_pow : (2 * 2 ^ l * 2 ^ l = 2 ^ n)%nat.
Proof. unfold n. rewrite Nat.add_1_r, Nat.pow_succ_r', <- Nat.mul_assoc, <- Nat.pow_add_r. do 2 f_equal. lia. Qed.

(** What the layer's data must contain. *)
Definition data_ok (d : @conv_data K) : Prop :=
  (length (cd_input d) = 2 ^ a /\ (forall x, In x (cd_input d) -> length x = 2 ^ (2 * l)) /\
   forall j s, j < 2 ^ a -> s < 2 ^ (2 * l) -> nth s (nth j (cd_input d) []) 0%F = xr emb l xd j s)%nat /\
  (length (cd_input_fft d) = 2 ^ a /\ (forall x, In x (cd_input_fft d) -> length x = 2 ^ n) /\
   forall j q, j < 2 ^ a -> q < 2 ^ n -> nth q (nth j (cd_input_fft d) []) 0%F = xhat gen emb l xd j q)%nat /\
  (length (cd_prod d) = 2 ^ b /\ (forall x, In x (cd_prod d) -> length x = 2 ^ n) /\
   forall o q, o < 2 ^ b -> q < 2 ^ n -> nth q (nth o (cd_prod d) []) 0%F = prodq gen emb l c a fd xd o q)%nat /\
  (length (cd_output d) = 2 ^ b /\ forall x, In x (cd_output d) -> length x = 2 ^ n)%nat /\
  map emb (cd_elems d) = uncleared emb l c a b fd xd bd.

Definition img (v : K) : Prop := exists z, v = emb z.
Lemma img_0 : img 0.
Proof. exists 0%Z. auto. Qed.
Lemma img_sumn p (f : nat -> K) : (forall i, (i < p)%nat -> img (f i)) -> img (sumn p f).
Proof.
  induction p as [|p IH]; intros H; [apply img_0|]. destruct IH as [u Eu]; [intros; apply H; lia|]. destruct (H p ltac:(lia)) as [v Ev]. exists (u + v)%Z. cbn [sumn]. rewrite emb_add, Eu, Ev. ring.
Qed.
Lemma cv_img o i : img (cv emb l c a fd xd o i).
Proof.
  unfold cv, cval. apply img_sumn. intros j _. apply img_sumn. intros t _. destruct (_ <? _)%nat; [|apply img_0]. unfold wcoef. destruct (_ && _).
  - unfold xval. rewrite <- emb_mul. eexists. reflexivity.
  - exists 0%Z. rewrite emb_0. ring.
Qed.
Lemma cv_unemb o i : emb (unemb (cv emb l c a fd xd o i)) = cv emb l c a fd xd o i.
Proof. destruct (cv_img o i) as [z ->]. auto. Qed.

Lemma conv_op_data_ok cvl x : sh (cv_filter cvl) = [2 ^ b; 2 ^ a; 2 ^ l; 2 ^ l]%nat -> dat (cv_filter cvl) = fd -> nth_error (cv_og cvl) 2 = Some k ->
  dat (cv_bias cvl) = bd -> sh x = [2 ^ a; 2 ^ l; 2 ^ l]%nat -> dat x = xd ->
  exists d, conv_op_data gen emb unemb cvl x = Some d /\ data_ok d.
Proof.
  intros Sf Df Og Db Sx Dx. assert (PP : N = (2 ^ (2 * l))%nat) by (unfold N; rewrite <- Nat.pow_add_r; f_equal; lia).
  assert (Kl : (k <= 2 ^ l)%nat) by (apply Nat.pow_le_mono_r; lia). assert (P := pow2_pos l).
  unfold conv_op_data. cbv zeta. rewrite Sf, Og, Sx, Df, Dx. cbn [nth_error obind]. rewrite npow2_pow2.
  destruct (x_vec_ok gen gen_root emb l k (2 ^ b) (2 ^ a) Hl Kl fd xd Lf Lx) as (xv & Ev & Lv & Nv). rewrite Ev. cbn [obind].
  assert (Pr : forall o, (o < 2 ^ b)%nat -> exists p, ofold (conv_acc gen emb fd (2 ^ a) k (2 ^ l) o xv) (seq 0 (2 ^ a)) (repeat 0 (2 * 2 ^ l * 2 ^ l)) = Some p /\ length p = (2 ^ n)%nat /\
    forall q, (q < 2 ^ n)%nat -> nth q p 0 = prodq gen emb l c a fd xd o q).
  { intros o Ho. destruct (conv_acc_ok gen gen_root emb l k (2 ^ b) (2 ^ a) Hl Kl fd xd Lf Lx o xv Ho Lv) as (p & Ep & Lp & Np); [intros j Hj; apply Nv; auto|].
    exists p. split; [exact Ep|]. split; auto. intros q Hq. fold n in Np. rewrite Np by auto. unfold prodq. apply sumn_ext. intros j Hj.
    destruct (Nv j Hj) as [_ X]. fold n in X. rewrite X by auto. unfold what, xhat. fold n. match goal with |- ?u * ?v = _ => transitivity (v * u); [ring|reflexivity] end. }
  destruct (omapM_ex (fun i => ofold (conv_acc gen emb fd (2 ^ a) k (2 ^ l) i xv) (seq 0 (2 ^ a)) (repeat 0 (2 * 2 ^ l * 2 ^ l))) (seq 0 (2 ^ b))) as (pr & Ep & Lp).
  { intros o Ho. apply in_seq in Ho. destruct (Pr o ltac:(lia)) as (p & E & _). exists p. exact E. }
  rewrite Ep. cbn [obind]. rewrite seq_length in Lp.
  assert (Np : forall o, (o < 2 ^ b)%nat -> length (nth o pr []) = (2 ^ n)%nat /\ forall q, (q < 2 ^ n)%nat -> nth q (nth o pr []) 0 = prodq gen emb l c a fd xd o q).
  { intros o Ho. destruct (Pr o Ho) as (p & E & L & R). destruct (omapM_nth _ _ _ Ep) as [_ X].
    destruct (X o o) as (y & Ey & Fy). { rewrite (nth_error_some 0%nat) by (rewrite seq_length; auto). rewrite seq_nth by exact Ho. reflexivity. }
    cbv beta in Fy. apply nth_error_nth with (d := []) in Ey. assert (Y : nth o pr [] = p) by congruence. rewrite Y. auto. }
  assert (Up : forall p, In p pr -> length p = (2 ^ n)%nat). { intros p Hp. apply (In_nth _ _ []) in Hp. destruct Hp as (o & Ho & <-). apply Np. lia. }
  assert (Fb : forall p, In p pr -> exists u, fft gen true p = Some u /\ length u = (2 ^ n)%nat).
  { intros p Hp. destruct (fft_backward gen gen_root char2 n p ltac:(unfold n; lia) (Up p Hp)) as (u & E & L & _). eauto. }
  destruct (omapM_ex (fft gen true) pr) as (out & Eo & Lo). { intros p Hp. destruct (Fb p Hp) as (u & E & _). eauto. }
  rewrite Eo. cbn [obind].
  assert (Uo : forall e, In e out -> length e = (2 ^ n)%nat).
  { intros e He. apply (In_nth _ _ []) in He. destruct He as (o & Ho & <-). destruct (omapM_nth _ _ _ Eo) as [_ X].
    destruct (X o (nth o pr [])) as (y & Ey & Fy); [apply nth_error_some; lia|]. apply nth_error_nth with (d := []) in Ey.
    destruct (Fb (nth o pr []) ltac:(apply nth_In; lia)) as (u & E & L). congruence. }
  destruct (fft_conv_ok gen gen_root char2 emb unemb l k (2 ^ b) (2 ^ a) Hl Kl fd xd Lf Lx (cv_filter cvl) (cv_og cvl) x (2 ^ l)%nat (2 ^ l)%nat Sf Df Og) as (t & Et & St & Wt & Nt).
  { rewrite Sx. reflexivity. } { apply npow2_pow2. } { exact Dx. }
  rewrite Et. cbn [obind]. destruct (add_bias_ok (cv_bias cvl) t (2 ^ b) (2 ^ l) (2 ^ b) Wt St) as (u & Eu & Su & Wu & Nu); [lia|congruence|auto|]. rewrite Eu. cbn [obind].
  eexists. split; [reflexivity|]. unfold data_ok. cbn [cd_input cd_input_fft cd_prod cd_output cd_elems]. fold N.
  destruct (P_LogUp3.chunks_length N (2 ^ a) (map emb xd) ltac:(unfold N; nia) ltac:(rewrite map_length, Lx; unfold N; lia)) as [Lc Uc].
  split; [|split; [|split; [|split]]].
  - rewrite map_length. split; [exact Lc|]. split.
    + intros y Hy. apply in_map_iff in Hy. destruct Hy as (z & <- & Hz). rewrite rev_length, <- PP. auto.
    + intros j s Hj Hs. rewrite <- PP in Hs. rewrite (nth_map_lt _ _ _ []) by lia. pose proof (Uc (nth j (chunks N (map emb xd)) []) ltac:(apply nth_In; lia)) as Lj. rewrite rev_nth by lia. rewrite Lj.
      replace (N - S s)%nat with (N - 1 - s)%nat by lia. unfold xr. fold N. destruct (Nat.ltb_spec s N); [|lia].
      transitivity (nth (N - 1 - s + N * j) (map emb xd) 0).
      * rewrite <- (nth_concat_uniform _ N 0 Uc) by lia. rewrite chunks_concat by lia. reflexivity.
      * unfold xval. fold N. rewrite (nth_map_lt _ _ _ 0%Z). { f_equal. f_equal. lia. } rewrite Lx. fold N. nia.
  - split; [auto|]. split.
    + intros y Hy. apply (In_nth _ _ []) in Hy. destruct Hy as (j & Hj & <-). apply Nv. lia.
    + intros j q Hj Hq. destruct (Nv j Hj) as [_ X]. fold n in X. rewrite X by auto. reflexivity.
  - split; [auto|]. split; [auto|]. intros o q Ho Hq. apply Np; auto.
  - split; [lia|auto].
  - assert (Lu : length (dat u) = (2 ^ (b + 2 * l))%nat). { unfold wft in Wu. rewrite Wu, Su. cbn [fold_right]. rewrite <- size_pow. lia. }
    unfold uncleared. apply (nth_ext_all _ _ 0); [rewrite !map_length, seq_length; auto|]. rewrite map_length, Lu. intros i Hi.
    rewrite (nth_map_lt _ _ _ 0%Z) by lia. rewrite nth_map_seq by exact Hi. rewrite <- PP.
    set (o := (i / N)%nat). set (r := (i mod N / 2 ^ l)%nat). set (q := (i mod N mod 2 ^ l)%nat).
    assert (HN : (0 < N)%nat) by (unfold N; nia). assert (Hm : (i mod N < N)%nat) by (apply Nat.mod_upper_bound; lia).
    assert (Ho : (o < 2 ^ b)%nat). { apply Nat.div_lt_upper_bound; [lia|]. rewrite PP, Nat.mul_comm, <- Nat.pow_add_r. auto. }
    assert (Hr : (r < 2 ^ l)%nat) by (apply Nat.div_lt_upper_bound; [lia|exact Hm]). assert (Hq : (q < 2 ^ l)%nat) by (apply Nat.mod_upper_bound; lia).
    assert (Em : (i mod N = 2 ^ l * r + q)%nat) by (apply Nat.div_mod; lia). assert (Ei : (i = N * o + i mod N)%nat) by (apply Nat.div_mod; lia).
    assert (En := Nu o r q Ho Hr Hq). unfold entry in En. rewrite Su, St in En.
    assert (Ef : forall (s : list nat), flat [2 ^ b; 2 ^ l; 2 ^ l]%nat [o; r; q] = i). { intros _. cbn. unfold N in *. nia. }
    rewrite (Ef []) in En. rewrite En. rewrite emb_add. rewrite Ei at 1. rewrite (Nat.mul_comm N o). fold N in Nt. rewrite Nt by auto. change (cval emb l k (2 ^ a) fd xd o (i mod N)) with (cv emb l c a fd xd o (i mod N)). rewrite cv_unemb, Db. ring.
Qed.

(** *** The combinations of filters *)
Lemma filter_range g t : (g < 2 ^ b * 2 ^ a)%nat -> (t < k * k)%nat -> (g * (k * k) + t < length fd)%nat.
Proof. intros H1 H2. rewrite Lf. fold k. assert ((g + 1) * (k * k) <= 2 ^ b * 2 ^ a * (k * k))%nat by (apply Nat.mul_le_mono_r; lia). lia. Qed.
Lemma wf_at g s : wf emb l c fd g s = if ((s / 2 ^ l <? k) && (s mod 2 ^ l <? k))%nat then emb (nth (g * (k * k) + (s / 2 ^ l * k + s mod 2 ^ l)) fd 0%Z) else 0.
Proof.
  unfold wf, wcoef. fold k. destruct (_ && _) eqn:E; [|reflexivity]. apply andb_prop in E. destruct E as [E1 E2]. apply Nat.ltb_lt in E1, E2. f_equal.
  rewrite nth_firstn_lt; [apply nth_skipn|]. nia.
Qed.

(** The table of the product: the transforms of the filters combined over the outputs. *)
Lemma agg_ok (r1 : list K) : length r1 = b ->
  exists agg, omapM (fun i => w <- combine_filters emb fd (k * k) (2 ^ a) i (2 ^ b) (compute_betas_eval r1) ;; wi <- index_wf w k (2 ^ l) (2 * 2 ^ l * 2 ^ l) ;; fft gen false wi) (seq 0 (2 ^ a)) = Some agg /\
    length agg = (2 ^ a)%nat /\ (forall x, In x agg -> length x = (2 ^ n)%nat) /\
    forall j q, (j < 2 ^ a)%nat -> (q < 2 ^ n)%nat -> nth q (nth j agg []) 0 = f1t gen emb l c a fd r1 j q.
Proof.
  intros Lr. rewrite two_pow.
  match goal with |- context [omapM ?g _] => set (f := g) end.
  assert (S : forall j, (j < 2 ^ a)%nat -> exists u, f j = Some u /\ length u = (2 ^ n)%nat /\ forall q, (q < 2 ^ n)%nat -> nth q u 0 = f1t gen emb l c a fd r1 j q).
  { intros j Hj. unfold f. rewrite <- Lr. rewrite combine_ok. 2: { intros o t Ho Ht. apply filter_range; auto. rewrite Lr in Ho. nia. }
    cbn [obind]. rewrite index_wf_ok. cbn [obind].
    match goal with |- context [fft gen false ?v] => destruct (fft_forward gen gen_root n v ltac:(unfold n; lia)) as (u & Eu & Lu & Nu) end; [rewrite map_length, seq_length; reflexivity|].
    exists u. split; [exact Eu|]. split; auto. intros q Hq. rewrite Nu by auto. unfold f1t, what. fold n. rewrite <- (dft_lin (root_of gen n) (2 ^ n) (fun o s => wf emb l c fd (o * 2 ^ a + j) s)).
    unfold dft. apply sumn_ext. intros s Hs. f_equal. rewrite nth_map_seq by auto.
    symmetry. etransitivity; [apply (mlef_ext _ (fun o => if ((s / 2 ^ l <? k) && (s mod 2 ^ l <? k))%nat then emb (nth ((o * 2 ^ a + j) * (k * k) + (s / 2 ^ l * k + s mod 2 ^ l)) fd 0%Z) else 0) r1); intros; apply wf_at|].
    destruct (_ && _); [reflexivity|]. apply mlef_const. }
  destruct (omapM_ex f (seq 0 (2 ^ a))) as (agg & Ea & La). { intros j Hj. apply in_seq in Hj. destruct (S j ltac:(lia)) as (u & E & _). eauto. }
  rewrite seq_length in La. exists agg. split; [exact Ea|]. split; [auto|].
  assert (Na : forall j, (j < 2 ^ a)%nat -> length (nth j agg []) = (2 ^ n)%nat /\ forall q, (q < 2 ^ n)%nat -> nth q (nth j agg []) 0 = f1t gen emb l c a fd r1 j q).
  { intros j Hj. destruct (S j Hj) as (u & E & L & R). destruct (omapM_nth _ _ _ Ea) as [_ X].
    destruct (X j j) as (y & Ey & Fy). { rewrite (nth_error_some 0%nat) by (rewrite seq_length; auto). rewrite seq_nth by exact Hj. reflexivity. }
    apply nth_error_nth with (d := []) in Ey. assert (Y : nth j agg [] = u) by congruence. rewrite Y. auto. }
  split; [|intros; apply Na; auto]. intros y Hy. apply (In_nth _ _ []) in Hy. destruct Hy as (j & Hj & <-). apply Na. lia.
Qed.

(** The table of the transform of the filter: the filters combined over the outputs and channels. *)
Lemma weights_table_ok (fp : list K) : length fp = (a + b)%nat ->
  combine_filters emb fd (k * k) 1 0 (2 ^ b * 2 ^ a) (compute_betas_eval fp) = Some (map (part emb c fd fp) (seq 0 (k * k))) /\
  index_wf (map (part emb c fd fp) (seq 0 (k * k))) k (2 ^ l) (2 * 2 ^ l * 2 ^ l) = Some (map (wm emb l c fd fp) (seq 0 (2 ^ n))).
Proof.
  intros Lp. split.
  - replace (2 ^ b * 2 ^ a)%nat with (2 ^ length fp)%nat by (rewrite Lp, Nat.pow_add_r; lia). rewrite combine_ok.
    + f_equal. apply map_ext. intros t. unfold part. fold k. apply mlef_ext. intros g _. do 3 f_equal. lia.
    + intros g t Hg Ht. replace (g * 1 + 0)%nat with g by lia. apply filter_range; auto. rewrite Lp, Nat.pow_add_r in Hg. lia.
  - rewrite two_pow, index_wf_ok. f_equal. apply map_ext. intros s. rewrite (wm_part emb l c a b Hl Hc fd xd Lf Lx) by auto. reflexivity.
Qed.
End Data.
