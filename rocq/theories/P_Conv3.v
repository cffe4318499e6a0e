(** The equations that link the sumchecks of [verify_convolution]: transforms of tables, the combination over channels and filters,
    and the reversal of the input and of the output. *)
From Coq Require Import List Arith Lia Bool ZArith Field.
From Verif Require Import ListAux FieldDef PolyList MleMath M_Mle P_Mle P_Eq M_Interp M_Sumcheck P_ScVerify P_ScProve P_ScProve2 P_ScApi
  M_SamePoly P_SamePoly M_Tensor P_Tensor M_Pool M_Fft P_Fft P_Fft2 M_Layers P_Layers P_Layers2 P_Pooling M_Conv P_Conv P_Conv2.
Import ListNotations.

Section Tr.
Context {K : field}.
Add Field Kf_conv3 : (fth K).
Local Open Scope F_scope.

Lemma mlef_flip : forall (p : list K) f, mlef (fun s => f (2 ^ length p - 1 - s)%nat) p = mlef f (map (fun x => 1 - x) p).
Proof.
  induction p as [|a p IH]; intros f; [cbn [map]; rewrite !mlef_nil; reflexivity|]. cbn [map]. rewrite !mlef_cons. rewrite <- IH. apply mlef_ext. intros i Hi.
  cbn [length]. rewrite Nat.pow_succ_r'. set (M := (2 ^ length p)%nat) in *.
  replace (2 * M - 1 - 2 * i)%nat with (2 * (M - 1 - i) + 1)%nat by lia. replace (2 * M - 1 - (2 * i + 1))%nat with (2 * (M - 1 - i))%nat by lia. ring.
Qed.
Lemma sumn_cut p q (f : nat -> K) : (q <= p)%nat -> (forall i, (q <= i < p)%nat -> f i = 0) -> sumn p f = sumn q f.
Proof.
  intros Hb H. replace p with (q + (p - q))%nat by lia. rewrite sumn_split. rewrite (sumn_0 (p - q)); [ring|]. intros i Hi. apply H. lia.
Qed.
Lemma hsum_2 n (f g : nat -> K) : hsum n (prodf [mlef f; mlef g]) = sumn (2 ^ n) (fun b => f b * g b).
Proof.
  unfold hsum. apply sumn_ext. intros b Hb. unfold prodf. cbn [map fprod fold_right]. rewrite !mlef_bool by auto. cbn. ring.
Qed.
Lemma dft_mlef w N (a : nat -> K) x : mlef (dft w N a) x = sumn N (fun b => a b * mlef (fun k => fpow w (k * b)) x).
Proof. unfold dft. rewrite mlef_sumn. apply sumn_ext. intros b _. apply mlef_scal. Qed.
(** The forward transform of a table whose upper half is zero. *)
Lemma fwd_hsum w n x (a : nat -> K) : (forall b, (2 ^ (n - 1) <= b < 2 ^ n)%nat -> a b = 0) ->
  hsum n (prodf [mlef a; mlef (Gtab w n x 1)]) = mlef (dft w (2 ^ n) a) x.
Proof.
  intros Ha. rewrite hsum_2, dft_mlef. apply sumn_ext. intros b Hb. unfold Gtab. destruct (Nat.ltb_spec b (2 ^ (n - 1))).
  - rewrite Ftab_n. ring.
  - rewrite Ha by lia. ring.
Qed.
Lemma inv_hsum w n x s (a : nat -> K) :
  hsum n (prodf [mlef a; mlef (Ftab w n x s n)]) = s * mlef (dft w (2 ^ n) a) x.
Proof. rewrite hsum_2, dft_mlef, <- sumn_scal. apply sumn_ext. intros b Hb. rewrite Ftab_n. ring. Qed.
Lemma dft_lin w N (f : nat -> nat -> K) r q : dft w N (fun s => mlef (fun j => f j s) r) q = mlef (fun j => dft w N (f j) q) r.
Proof.
  unfold dft. rewrite mlef_sumn. apply sumn_ext. intros s _. rewrite mlef_scal_r. reflexivity.
Qed.
Lemma mlef_two (f : nat -> nat -> K) lo hi n : length lo = n ->
  mlef (fun i => f (i / 2 ^ n)%nat (i mod 2 ^ n)%nat) (lo ++ hi) = mlef (fun j => mlef (fun i => f j i) lo) hi.
Proof.
  intros L. rewrite mlef_app, L. apply mlef_ext. intros j _. apply mlef_ext. rewrite L. intros i Hi.
  rewrite (Nat.mul_comm _ j), Nat.div_add, Nat.mod_add by lia. rewrite (Nat.div_small i) by auto. rewrite (Nat.mod_small i) by auto. reflexivity.
Qed.
(** A table whose upper half is zero. *)
Lemma mlef_low (f : nat -> K) p t : (forall b, (2 ^ length p <= b < 2 * 2 ^ length p)%nat -> f b = 0) -> mlef f (p ++ [t]) = (1 - t) * mlef f p.
Proof. intros H. rewrite mlef_snoc, <- mlef_scal. apply mlef_ext. intros i Hi. rewrite (H (2 ^ length p + i)%nat) by lia. ring. Qed.
(** The product of two tables over channels, against an extended equality. *)
Lemma had_hsum n a p (f g : nat -> nat -> K) : length p = n ->
  hsum (n + a) (prodf [mlef (fun i => f (i / 2 ^ n)%nat (i mod 2 ^ n)%nat); mlef (fun i => g (i / 2 ^ n)%nat (i mod 2 ^ n)%nat); eqp p])
  = mlef (fun q => sumn (2 ^ a) (fun j => f j q * g j q)) p.
Proof.
  intros L. unfold hsum. rewrite Nat.pow_add_r, sumn_mul_split. rewrite mlef_sumn. apply sumn_ext. intros j Hj. unfold mlef at 3. rewrite L. apply sumn_ext. intros i Hi.
  assert (B : bpt (n + a) (i + 2 ^ n * j) = (bpt n i ++ bpt a j : list K)%list).
  { rewrite <- bpt_app by auto. f_equal. }
  unfold prodf. cbn [map fprod fold_right]. rewrite !mlef_bool by (rewrite Nat.pow_add_r; nia). rewrite B.
  replace (eqp p (bpt n i ++ bpt a j)) with (eqw i p).
  2: { transitivity (eqp (p ++ []) (bpt n i ++ bpt a j)%list); [|rewrite app_nil_r; reflexivity]. rewrite eqp_app by (rewrite bpt_length; auto). rewrite eqp_sym, eqp_bpt by auto. cbn. ring. }
  rewrite (Nat.mul_comm _ j), Nat.div_add, Nat.mod_add by lia. rewrite (Nat.div_small i) by auto. rewrite (Nat.mod_small i) by auto. cbn [Nat.add]. cbn. ring.
Qed.
End Tr.

Section Tables.
Context {K : field}.
Add Field Kf_conv3b : (fth K).
Local Open Scope F_scope.
Variable gen : K.
Hypothesis gen_root : fpow gen (2 ^ 31) = - (1).
Hypothesis char2 : (1 + 1 : K) <> 0.
Variable emb : Z -> K.
(** The sizes: an input grid of side 2^l, filters of side 2^c <= 2^l, 2^a channels and 2^b filters. *)
Variables (l c a b : nat).
Hypothesis Hl : (2 * l + 1 <= 32)%nat.
Hypothesis Hc : (c <= l)%nat.
Variables (fd xd : list Z).
Hypothesis Lf : length fd = (2 ^ b * 2 ^ a * (2 ^ c * 2 ^ c))%nat.
Hypothesis Lx : length xd = (2 ^ a * (2 ^ l * 2 ^ l))%nat.
Let m := (2 * l)%nat.
Let n := (2 * l + 1)%nat.
Let N := (2 ^ l * 2 ^ l)%nat.
Let w := root_of gen n.
Let k := (2 ^ c)%nat.

Lemma N_pow : N = (2 ^ m)%nat.
Proof. unfold N, m. rewrite <- Nat.pow_add_r. f_equal. lia. Qed.
Lemma n_pow : (2 ^ n = 2 * 2 ^ m)%nat.
Proof. unfold n, m. rewrite Nat.add_1_r, Nat.pow_succ_r'. reflexivity. Qed.

(** Channel j of the input, reversed and padded, and its transform. *)
Definition xr (j s : nat) : K := if (s <? N)%nat then xval emb l xd j (N - 1 - s) else 0.
Definition xhat (j q : nat) : K := dft w (2 ^ n) (xr j) q.
(** The filter of flat index g, padded, and its transform. *)
Definition wf (g t : nat) : K := wcoef emb (2 ^ l) k (firstn (k * k) (skipn (g * (k * k)) fd)) t.
Definition what (g q : nat) : K := dft w (2 ^ n) (wf g) q.
Definition prodq (o q : nat) : K := sumn (2 ^ a) (fun j => what (o * 2 ^ a + j) q * xhat j q).
(** The convolution, position i of output o. *)
Definition cv (o i : nat) : K := cval emb l k (2 ^ a) fd xd o i.

Lemma xr_hi j s : (2 ^ m <= s)%nat -> xr j s = 0.
Proof. intros H. unfold xr. rewrite N_pow. destruct (Nat.ltb_spec s (2 ^ m)); [lia|reflexivity]. Qed.
Lemma wf_hi g s : (2 ^ m <= s)%nat -> wf g s = 0.
Proof.
  intros H. unfold wf, wcoef. assert (k <= s / 2 ^ l)%nat.
  { apply Nat.le_trans with (2 ^ l)%nat; [apply Nat.pow_le_mono_r; lia|]. apply Nat.div_le_lower_bound; [pose proof (pow2_pos l); lia|]. fold N. rewrite N_pow. auto. }
  destruct (Nat.ltb_spec (s / 2 ^ l) k); [lia|reflexivity].
Qed.

(** *** The input *)
Definition xm (hi : list K) (s : nat) : K := mlef (fun j => xr j s) hi.
Lemma xm_eval hi p t : length hi = a -> length p = m -> mlef (xm hi) (p ++ [t]) = (1 - t) * mle (map emb xd) (map (fun x => 1 - x) p ++ hi).
Proof.
  intros Lh Lp. rewrite mlef_low. 2: { rewrite Lp. intros s Hs. unfold xm. transitivity (mlef (fun _ : nat => (0 : K)) hi); [|apply mlef_const]. apply mlef_ext. intros. apply xr_hi. lia. }
  f_equal. unfold xm. rewrite mlef_swap. unfold mle. rewrite mlef_app, map_length, Lp. apply mlef_ext. intros j Hj. rewrite <- mlef_flip. apply mlef_ext. rewrite Lp. intros s Hs.
  unfold xr. rewrite N_pow. destruct (Nat.ltb_spec s (2 ^ m)); [|lia]. unfold xval. change (2 ^ l * 2 ^ l)%nat with N. rewrite N_pow.
  rewrite (nth_map_lt _ _ _ 0%Z). { do 2 f_equal. lia. } rewrite Lx. fold N. rewrite N_pow. rewrite Lh in Hj. nia.
Qed.
Lemma xm_dft hi lo : length hi = a -> length lo = n ->
  mlef (dft w (2 ^ n) (xm hi)) lo = mlef (fun i => xhat (i / 2 ^ n) (i mod 2 ^ n)) (lo ++ hi).
Proof.
  intros Lh Ll. rewrite (mlef_two xhat) by auto. rewrite mlef_swap. apply mlef_ext. intros q _. unfold xm. apply dft_lin.
Qed.

(** *** The filters *)
Definition part (fp : list K) (i : nat) : K := mlef (fun g => emb (nth (g * (k * k) + i) fd 0%Z)) fp.
Definition wm (fp : list K) (s : nat) : K := mlef (fun g => wf g s) fp.
Lemma wm_part fp s : length fp = (a + b)%nat ->
  wm fp s = if ((s / 2 ^ l <? k) && (s mod 2 ^ l <? k))%nat then part fp (s / 2 ^ l * k + s mod 2 ^ l) else 0.
Proof.
  intros Lp. unfold wm, part, wf, wcoef. destruct (_ && _) eqn:E; [|apply mlef_const]. apply andb_prop in E. destruct E as [E1 E2].
  apply Nat.ltb_lt in E1, E2. apply mlef_ext. intros g Hg. f_equal. rewrite nth_firstn_lt; [apply nth_skipn|]. nia.
Qed.
Lemma eqw_low r t i : (i < 2 ^ length r)%nat -> @eqw K i (r ++ [t]) = (1 - t) * eqw i r.
Proof.
  intros H. replace i with (i + 2 ^ length r * 0)%nat at 1 by lia. rewrite eqw_app by auto. change 0%nat with (2 * 0)%nat at 1. rewrite eqw_even, eqw_nil. ring.
Qed.
Lemma sumn_grid p q (f : nat -> K) : sumn (p * q) f = sumn p (fun i => sumn q (fun j => f (i * q + j)%nat)).
Proof. rewrite Nat.mul_comm, sumn_mul_split. apply sumn_ext. intros i _. apply sumn_ext. intros j _. f_equal. lia. Qed.
Lemma wm_eval fp p t : length fp = (a + b)%nat -> length p = m ->
  mlef (wm fp) (p ++ [t]) = (1 - t) * sumn (k * k) (fun i => part fp i * eqw (i / k * 2 ^ l + i mod k) p).
Proof.
  intros Lp Lm. rewrite mlef_low.
  2: { rewrite Lm. intros s Hs. unfold wm. transitivity (mlef (fun _ : nat => (0 : K)) fp); [|apply mlef_const]. apply mlef_ext. intros. apply wf_hi. lia. }
  f_equal. unfold mlef. rewrite Lm, <- N_pow. unfold N. assert (Kl : (k <= 2 ^ l)%nat) by (apply Nat.pow_le_mono_r; lia). pose proof (pow2_pos l) as Pl. pose proof (pow2_pos c) as Pc. fold k in Pc.
  rewrite !sumn_grid. rewrite (sumn_cut (2 ^ l) k); auto.
  - apply sumn_ext. intros i Hi. rewrite (sumn_cut (2 ^ l) k); auto.
    + apply sumn_ext. intros j Hj. rewrite wm_part by auto. rewrite !(Nat.add_comm (i * _) j), !Nat.div_add, !Nat.mod_add by lia.
      rewrite (Nat.div_small j (2 ^ l)), (Nat.mod_small j (2 ^ l)) by lia. rewrite (Nat.div_small j k), (Nat.mod_small j k) by lia. cbn [Nat.add].
      destruct (Nat.ltb_spec i k); [|lia]. destruct (Nat.ltb_spec j k); [|lia]. cbn [andb]. rewrite !(Nat.add_comm j). reflexivity.
    + intros j Hj. rewrite wm_part by auto. rewrite (Nat.add_comm (i * _) j), Nat.div_add, Nat.mod_add by lia.
      rewrite (Nat.div_small j (2 ^ l)), (Nat.mod_small j (2 ^ l)) by lia. destruct (Nat.ltb_spec j k); [lia|]. rewrite andb_false_r. ring.
  - intros i Hi. apply sumn_0. intros j Hj. rewrite wm_part by auto. rewrite (Nat.add_comm (i * _) j), Nat.div_add by lia. rewrite (Nat.div_small j (2 ^ l)) by lia.
    cbn [Nat.add]. destruct (Nat.ltb_spec i k); [lia|]. cbn [andb]. ring.
Qed.
Lemma part_eval fp wr : length fp = (a + b)%nat -> length wr = (2 * c)%nat -> mle (map emb fd) (wr ++ fp) = mlef (part fp) wr.
Proof.
  intros Lp Lw. assert (Kk : (k * k = 2 ^ (2 * c))%nat) by (unfold k; rewrite <- Nat.pow_add_r; f_equal; lia). unfold part. rewrite mlef_swap. unfold mle. rewrite mlef_app. apply mlef_ext. intros g Hg. apply mlef_ext. intros i Hi. rewrite Lw, Lp in *.
  rewrite (nth_map_lt _ _ _ 0%Z). { do 2 f_equal. rewrite Kk. lia. } rewrite Lf. fold k. rewrite Kk, <- Nat.pow_add_r. rewrite (Nat.add_comm b a). nia.
Qed.
Definition f1t (r1 : list K) (j q : nat) : K := mlef (fun o => what (o * 2 ^ a + j) q) r1.
Lemma wm_dft hi r1 lo : length hi = a -> length lo = n ->
  mlef (dft w (2 ^ n) (wm (hi ++ r1))) lo = mlef (fun i => f1t r1 (i / 2 ^ n) (i mod 2 ^ n)) (lo ++ hi).
Proof.
  intros Lh Ll. rewrite (mlef_two (f1t r1)) by auto. rewrite mlef_swap. apply mlef_ext. intros q _. unfold wm. rewrite (dft_lin w (2 ^ n) wf). rewrite mlef_app.
  unfold f1t. rewrite mlef_swap. apply mlef_ext. intros j Hj. apply mlef_ext. intros o _. unfold what. rewrite Lh. do 2 f_equal. lia.
Qed.

(** *** The product and the inverse transform *)
Definition pm (r1 : list K) (q : nat) : K := mlef (fun o => prodq o q) r1.
Lemma had_pm r1 p : length p = n ->
  hsum (n + a) (prodf [mlef (fun i => f1t r1 (i / 2 ^ n) (i mod 2 ^ n)); mlef (fun i => xhat (i / 2 ^ n) (i mod 2 ^ n)); eqp p]) = mlef (pm r1) p.
Proof.
  intros Lp. rewrite had_hsum by auto. apply mlef_ext. intros q _. unfold pm, prodq, f1t. rewrite mlef_sumn. apply sumn_ext. intros j _. rewrite mlef_scal_r. reflexivity.
Qed.
Lemma prodq_inv o i : (o < 2 ^ b)%nat -> (i < N)%nat -> dft (/ w) (2 ^ n) (prodq o) (N - 1 - i) * / fnat (2 ^ n) = cv o i.
Proof.
  intros Ho Hi. set (p := map (prodq o) (seq 0 (2 ^ n))). assert (Lp : length p = (2 ^ n)%nat) by (unfold p; rewrite map_length, seq_length; auto).
  assert (Kl : (k <= 2 ^ l)%nat) by (apply Nat.pow_le_mono_r; lia).
  destruct (out_ok gen gen_root char2 emb l k (2 ^ b) (2 ^ a) Hl Kl fd xd Lf Lx o p) as (u & Eu & Lu & Nu); auto.
  { intros q Hq. fold n in Hq |- *. unfold p. rewrite nth_map_seq by auto. unfold prodq. apply sumn_ext. intros j Hj. unfold what, xhat. fold w. transitivity (dft w (2 ^ n) (xr j) q * dft w (2 ^ n) (wf (o * 2 ^ a + j)) q); [ring|]. reflexivity. }
  fold N in Nu. unfold cv. rewrite <- (Nu i Hi). destruct (fft_backward gen gen_root char2 n p ltac:(unfold n; lia) Lp) as (u' & Eu' & Lu' & Nu').
  assert (u' = u) by congruence. subst u'. rewrite Nu'. 2: { rewrite n_pow, <- N_pow. lia. } fold w. f_equal. unfold dft at 1 2. apply sumn_ext. intros t Ht. f_equal. unfold p. rewrite nth_map_seq by auto. reflexivity.
Qed.
Lemma pm_inv lp r1 : length lp = m -> length r1 = b ->
  / fnat (2 ^ n) * mlef (dft (/ w) (2 ^ n) (pm r1)) (map (fun x => 1 - x) lp ++ [0]) = mlef (fun i => cv (i / 2 ^ m) (i mod 2 ^ m)) (lp ++ r1).
Proof.
  intros Ll Lr. rewrite (mlef_two cv) by auto.
  rewrite mlef_snoc. rewrite (mlef_ext _ (dft (/ w) (2 ^ n) (pm r1))) by (intros; ring). rewrite <- mlef_flip. rewrite <- mlef_scal. rewrite <- (mlef_swap (fun i o => cv o i)). apply mlef_ext.
  rewrite Ll. intros i Hi. unfold pm. rewrite (dft_lin (/ w) (2 ^ n) prodq). rewrite <- mlef_scal. apply mlef_ext. rewrite Lr. intros o Ho. rewrite <- prodq_inv by (auto; rewrite N_pow; auto). rewrite N_pow. ring.
Qed.
End Tables.
