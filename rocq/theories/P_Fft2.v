(** Proofs about M_Fft: the convolution computed through the FFT. *)
From Coq Require Import List Arith Lia Bool ZArith.
From Verif Require Import ListAux FieldDef M_Mle P_Graph4 M_Tensor P_Tensor P_Tensor2 P_Tensor3 P_Tensor4 P_Pad P_LogUp3 M_Fft P_Fft.
Import ListNotations.

Lemma omapM_spec {A} (d : A) (f : nat -> option A) (F : nat -> A) n : (forall i, i < n -> f i = Some (F i)) ->
  exists l, omapM f (seq 0 n) = Some l /\ length l = n /\ forall i, i < n -> nth i l d = F i.
Proof.
  intros H. exists (map F (seq 0 n)). split.
  - rewrite (omapM_range f F n) by auto. reflexivity.
  - rewrite map_length, seq_length. split; auto. intros i Hi. apply nth_map_seq. auto.
Qed.
Lemma nth_repeat' {A} (x d : A) n i : i < n -> nth i (repeat x n) d = x.
Proof. revert i; induction n; intros [|i] H; cbn; auto; try lia. apply IHn. lia. Qed.

(** Integer sums. *)
Definition zsum (n : nat) (f : nat -> Z) : Z := sumto 0%Z Z.add n f.

Section Conv.
Context {K : field}.
Add Field Kf_fft2 : (fth K).
Local Open Scope F_scope.
Variable gen : K.
Hypothesis gen_root : fpow gen (2 ^ 31) = - (1).
Hypothesis char2 : (1 + 1 : K) <> 0.
Variable emb : Z -> K.
Variable unemb : K -> Z.

Lemma npow2_pow2 l : npow2 (2 ^ l) = (2 ^ l)%nat.
Proof. unfold npow2. rewrite Nat.log2_up_pow2 by lia. reflexivity. Qed.

Lemma x_fft_ok m (c : list K) : 1 <= m <= 32 -> length c <= 2 ^ m ->
  exists r, x_fft gen (2 ^ m) c = Some r /\ length r = (2 ^ m)%nat /\
    forall j, j < 2 ^ m -> nth j r 0 = dft (root_of gen m) (2 ^ m) (fun t => nth t (rev c) 0) j.
Proof.
  intros Hm Hc. unfold x_fft. set (v := resize (2 ^ m) 0 (rev c)).
  assert (Ev : v = rev c ++ repeat 0 (2 ^ m - length c)). { unfold v, resize. rewrite firstn_all2 by (rewrite rev_length; auto). rewrite rev_length. reflexivity. }
  destruct (fft_forward gen gen_root m v Hm) as (r & E & L & N).
  { rewrite Ev, app_length, rev_length, repeat_length. lia. }
  exists r. split; [exact E|]. split; auto. intros j Hj. rewrite N by auto. unfold dft. apply sumn_ext. intros t Ht. f_equal.
  rewrite Ev. destruct (lt_dec t (length c)) as [H|H].
  - rewrite app_nth1 by (rewrite rev_length; auto). reflexivity.
  - rewrite app_nth2 by (rewrite rev_length; lia). rewrite rev_length, nth_repeat' by lia. rewrite nth_overflow by (rewrite rev_length; lia). reflexivity.
Qed.

(** The filter coefficient at flat position t of an n x n grid. *)
Definition wcoef (n k : nat) (ws : list Z) (t : nat) : K :=
  if ((t / n <? k) && (t mod n <? k))%nat then emb (nth (t / n * k + t mod n) ws 0%Z) else 0.
Lemma index_w_ok ws k n len : length ws = (k * k)%nat ->
  exists r, index_w emb ws k n len = Some r /\ length r = len /\ forall t, t < len -> nth t r 0 = wcoef n k ws t.
Proof.
  intros Lw. unfold index_w. apply omapM_spec. intros t Ht. cbv zeta. unfold wcoef.
  destruct (Nat.ltb_spec (t / n) k) as [A|A]; cbn [andb]; [|reflexivity].
  destruct (Nat.ltb_spec (t mod n) k) as [B|B]; [|reflexivity].
  rewrite (nth_error_some 0%Z); [reflexivity|]. rewrite Lw. apply lt2; auto.
Qed.

Section Run.
Variables (l k kw kx : nat).
Let n := (2 ^ l)%nat.
Let N := (n * n)%nat.
Hypothesis Hl : 2 * l + 1 <= 32.
Hypothesis Hk : k <= n.
Variables (fd xd : list Z).
Hypothesis Lf : length fd = (kw * kx * (k * k))%nat.
Hypothesis Lx : length xd = (kx * N)%nat.

Let m := (2 * l + 1)%nat.
Lemma two_N : (2 * n * n)%nat = (2 ^ m)%nat.
Proof. unfold n, m. rewrite Nat.pow_add_r, Nat.pow_mul_r. change (2 ^ 1)%nat with 2%nat. rewrite Nat.pow_mul_l || idtac. replace ((2 ^ 2) ^ l)%nat with (2 ^ l * 2 ^ l)%nat; [lia|]. rewrite <- Nat.pow_mul_l. reflexivity. Qed.
Lemma Npos : (0 < N)%nat.
Proof. unfold N, n. pose proof (pow2_pos l). apply Nat.mul_pos_pos; auto. Qed.

(** Filter o, channel j, as a list; input channel j, value at flat position c. *)
Definition fslice (o j : nat) : list Z := firstn (k * k) (skipn ((o * kx + j) * (k * k)) fd).
Definition xval (j c : nat) : K := emb (nth (j * N + c) xd 0%Z).

Lemma fslice_len o j : o < kw -> j < kx -> length (fslice o j) = (k * k)%nat.
Proof.
  intros Ho Hj. unfold fslice. rewrite firstn_length, skipn_length, Lf. apply Nat.min_l.
  assert (A : (o * kx + j + 1 <= kw * kx)%nat) by (pose proof (lt2 kw kx o j Ho Hj); lia).
  apply (Nat.mul_le_mono_r _ _ (k * k)) in A. lia.
Qed.
Lemma fslice_nth o j i : i < k * k -> nth i (fslice o j) 0%Z = nth ((o * kx + j) * (k * k) + i) fd 0%Z.
Proof. intros Hi. unfold fslice. rewrite nth_firstn_lt by auto. apply nth_skipn. Qed.

Lemma x_vec_ok : exists x_vec, omapM (x_fft gen (2 * n * n)) (chunks (n * n) (map emb xd)) = Some x_vec /\ length x_vec = kx /\
  forall j, j < kx -> length (nth j x_vec []) = (2 ^ m)%nat /\
    forall q, q < 2 ^ m -> nth q (nth j x_vec []) 0 = dft (root_of gen m) (2 ^ m) (fun s => if (s <? N)%nat then xval j (N - 1 - s) else 0) q.
Proof.
  fold N. rewrite two_N. pose proof Npos as HN.
  destruct (chunks_length N kx (map emb xd) HN ltac:(rewrite map_length, Lx; lia)) as [Lc Uc].
  assert (HNm : (2 * N = 2 ^ m)%nat) by (rewrite <- two_N; unfold N; lia).
  assert (B : forall c, In c (chunks N (map emb xd)) -> length c <= 2 ^ m) by (intros c Hc; rewrite (Uc c Hc); lia).
  destruct (omapM_ex (x_fft gen (2 ^ m)) (chunks N (map emb xd))) as (xv & E & L).
  { intros c Hc. destruct (x_fft_ok m c ltac:(unfold m; lia) (B c Hc)) as (r & Er & _). exists r. exact Er. }
  exists xv. split; [exact E|]. split; [lia|]. intros j Hj.
  set (c := nth j (chunks N (map emb xd)) []). assert (Hc : In c (chunks N (map emb xd))) by (apply nth_In; lia).
  destruct (x_fft_ok m c ltac:(unfold m; lia) (B c Hc)) as (r & Er & Lr & Nr).
  assert (Ej : nth j xv [] = r).
  { destruct (omapM_nth _ _ _ E) as [_ X]. destruct (X j c) as (y & Ey & Fy); [apply nth_error_some; lia|].
    apply nth_error_nth with (d := []) in Ey. congruence. }
  rewrite Ej. split; auto. intros q Hq. rewrite Nr by auto. unfold dft. apply sumn_ext. intros s Hs. f_equal.
  pose proof (Uc c Hc) as Lcc. destruct (Nat.ltb_spec s N) as [A|A].
  - rewrite rev_nth by lia. rewrite Lcc. replace (N - S s)%nat with (N - 1 - s)%nat by lia.
    transitivity (nth (N - 1 - s + N * j) (map emb xd) 0).
    + rewrite <- (chunks_concat N (map emb xd)) at 1 by lia. rewrite (nth_concat_uniform _ N 0 Uc) by lia. reflexivity.
    + unfold xval. rewrite (nth_map_lt _ _ _ 0%Z). { f_equal. f_equal. lia. }
      rewrite Lx. pose proof (lt2 kx N j (N - 1 - s) Hj ltac:(lia)). lia.
  - apply nth_overflow. rewrite rev_length. lia.
Qed.

Lemma conv_acc_ok o x_vec : o < kw -> length x_vec = kx -> (forall j, j < kx -> length (nth j x_vec []) = (2 ^ m)%nat) ->
  exists p, ofold (conv_acc gen emb fd kx k n o x_vec) (seq 0 kx) (repeat 0 (2 * n * n)) = Some p /\ length p = (2 ^ m)%nat /\
    forall q, q < 2 ^ m -> nth q p 0 = sumn kx (fun j => nth q (nth j x_vec []) 0 * dft (root_of gen m) (2 ^ m) (wcoef n k (fslice o j)) q).
Proof.
  intros Ho Lv Uv. rewrite two_N.
  destruct (ofold_inv (conv_acc gen emb fd kx k n o x_vec)
    (fun i p => length p = (2 ^ m)%nat /\ forall q, q < 2 ^ m -> nth q p 0 = sumn i (fun j => nth q (nth j x_vec []) 0 * dft (root_of gen m) (2 ^ m) (wcoef n k (fslice o j)) q))
    (seq 0 kx) 0%nat (repeat 0 (2 ^ m))) as (p & E & L & R).
  - intros i a p Ha [Lp Rp]. apply nth_error_seq0 in Ha. destruct Ha as [Hi ->]. rewrite !Nat.add_0_l in *.
    unfold conv_acc. cbv zeta.
    replace (o * kx * k * k + i * k * k)%nat with ((o * kx + i) * (k * k))%nat by lia.
    replace (o * kx * k * k + (i + 1) * k * k)%nat with ((o * kx + i) * (k * k) + k * k)%nat by lia.
    unfold slice. pose proof (lt2 kw kx o i Ho Hi) as A.
    destruct (Nat.leb_spec ((o * kx + i) * (k * k)) ((o * kx + i) * (k * k) + k * k)); [|lia].
    destruct (Nat.leb_spec ((o * kx + i) * (k * k) + k * k) (length fd)) as [B|B].
    2:{ exfalso. rewrite Lf in B. assert (A' : (o * kx + i + 1 <= kw * kx)%nat) by lia. apply (Nat.mul_le_mono_r _ _ (k * k)) in A'. lia. }
    cbn [andb obind]. replace ((o * kx + i) * (k * k) + k * k - (o * kx + i) * (k * k))%nat with (k * k)%nat by lia.
    fold (fslice o i). destruct (index_w_ok (fslice o i) k n (2 * n * n) (fslice_len o i Ho Hi)) as (wi & Ei & Li & Ni).
    rewrite Ei. cbn [obind]. rewrite two_N in Li, Ni.
    destruct (fft_forward gen gen_root m wi ltac:(unfold m; lia) Li) as (wf & Ef & Lwf & Nwf). rewrite Ef. cbn [obind]. rewrite Lp.
    destruct (omapM_spec 0 (fun q => a <- nth_error p q;; xj <- nth_error x_vec i;; y <- nth_error xj q;; z <- nth_error wf q;; Some (a + y * z))
       (fun q => nth q p 0 + nth q (nth i x_vec []) 0 * nth q wf 0) (2 ^ m)) as (p' & Ep & Lp' & Np').
    { intros q Hq. rewrite (nth_error_some 0) by lia. cbn [obind]. rewrite (nth_error_some []) by lia. cbn [obind].
      rewrite (nth_error_some 0) by (rewrite Uv; auto). cbn [obind]. rewrite (nth_error_some 0) by lia. reflexivity. }
    exists p'. split; [exact Ep|]. split; auto. intros q Hq. rewrite Np', Rp, Nwf by auto. rewrite Nat.add_1_r. cbn [sumn]. f_equal. f_equal.
    unfold dft. apply sumn_ext. intros t Ht. rewrite Ni by auto. reflexivity.
  - split; [apply repeat_length|]. intros q Hq. rewrite nth_repeat' by auto. reflexivity.
  - rewrite seq_length in R. exists p. auto.
Qed.

Lemma sumn_trunc a b (f : nat -> K) : b <= a -> (forall i, b <= i < a -> f i = 0) -> sumn a f = sumn b f.
Proof.
  intros Hb H. replace a with (b + (a - b))%nat by lia. rewrite sumn_split. rewrite (sumn_0 (a - b)); [ring|]. intros i Hi. apply H. lia.
Qed.

(** The value at flat output position i: sum over the channels and the flat filter positions. *)
Definition cval (o i : nat) : K :=
  sumn kx (fun j => sumn N (fun t => if (i + t <? N)%nat then wcoef n k (fslice o j) t * xval j (i + t) else 0)).

Lemma out_ok o p : length p = (2 ^ m)%nat -> o < kw ->
  (forall q, q < 2 ^ m -> nth q p 0 = sumn kx (fun j => dft (root_of gen m) (2 ^ m) (fun s => if (s <? N)%nat then xval j (N - 1 - s) else 0) q
                                              * dft (root_of gen m) (2 ^ m) (wcoef n k (fslice o j)) q)) ->
  exists u, fft gen true p = Some u /\ length u = (2 ^ m)%nat /\ forall i, i < N -> nth (N - 1 - i) u 0 = cval o i.
Proof.
  intros Lp Ho Np. destruct (fft_backward gen gen_root char2 m p ltac:(unfold m; lia) Lp) as (u & Eu & Lu & Nu).
  exists u. split; [exact Eu|]. split; auto. intros i Hi.
  assert (HNm : (2 * N = 2 ^ m)%nat) by (rewrite <- two_N; unfold N; lia).
  rewrite Nu by lia. set (pos := (N - 1 - i)%nat). set (M := (2 ^ m)%nat) in *.
  set (A := fun j s => if (s <? N)%nat then xval j (N - 1 - s) else 0). set (B := fun j => wcoef n k (fslice o j)).
  transitivity (sumn kx (fun j => dft (/ root_of gen m) M (fun q => dft (root_of gen m) M (A j) q * dft (root_of gen m) M (B j) q) pos * / fnat M)).
  { rewrite (sumn_scal_r kx). f_equal. unfold dft at 1.
    rewrite (sumn_ext M _ (fun t => sumn kx (fun j => dft (root_of gen m) M (A j) t * dft (root_of gen m) M (B j) t * fpow (/ root_of gen m) (pos * t)))).
    - rewrite sumn_swap. reflexivity.
    - intros t Ht. rewrite Np by auto. rewrite <- sumn_scal_r. reflexivity. }
  unfold cval. apply sumn_ext. intros j Hj. unfold M. rewrite conv_theorem by (auto; unfold m, pos in *; lia). fold M.
  rewrite sumn_swap.
  assert (Bz : forall t, N <= t -> t < M -> B j t = 0).
  { intros t H1 H2. unfold B, wcoef. assert (k <= t / n).
    { apply Nat.le_trans with n; auto. apply Nat.div_le_lower_bound; [unfold n; pose proof (pow2_pos l); lia|]. exact H1. }
    destruct (Nat.ltb_spec (t / n) k); [lia|]. reflexivity. }
  rewrite (sumn_trunc M N) by (try lia; intros t Ht; apply sumn_0; intros s Hs; rewrite Bz by lia; destruct (_ || _); ring).
  apply sumn_ext. intros t Ht. destruct (Nat.ltb_spec (i + t) N) as [C|C].
  - rewrite (FieldDef.sumn_single M (pos - t)).
    + replace (pos - t + t)%nat with pos by (unfold pos; lia). rewrite Nat.eqb_refl. cbn [orb]. unfold A.
      destruct (Nat.ltb_spec (pos - t) N); [|unfold pos in *; lia]. replace (N - 1 - (pos - t))%nat with (i + t)%nat by (unfold pos; lia). unfold B. ring.
    + unfold pos. lia.
    + intros s Hs Hn. destruct (Nat.eqb_spec (s + t) pos); [unfold pos in *; lia|]. cbn [orb].
      destruct (Nat.eqb_spec (s + t) (pos + M)) as [D|D]; [|reflexivity]. unfold A. destruct (Nat.ltb_spec s N); [|ring]. unfold pos in *; lia.
  - apply sumn_0. intros s Hs. destruct (Nat.eqb_spec (s + t) pos); [unfold pos in *; lia|]. cbn [orb].
    destruct (Nat.eqb_spec (s + t) (pos + M)) as [D|D]; [|reflexivity]. unfold A. destruct (Nat.ltb_spec s N); [|ring]. unfold pos in *; lia.
Qed.

Lemma index_u_ok (u : list K) : length u = (2 ^ m)%nat ->
  exists r, index_u u n = Some r /\ length r = N /\ forall i, i < N -> nth i r 0 = nth (N - 1 - i) u 0.
Proof.
  intros Lu. unfold index_u. fold N. assert (HNm : (2 * N = 2 ^ m)%nat) by (rewrite <- two_N; unfold N; lia).
  rewrite Lu, <- HNm, Nat.mul_comm, Nat.div_mul by lia. apply omapM_spec. intros i Hi.
  unfold csub. destruct (Nat.leb_spec 1 N); [|lia]. cbn [obind]. destruct (Nat.leb_spec i (N - 1)); [|lia]. cbn [obind].
  apply nth_error_some. lia.
Qed.

Lemma fft_conv_ok f og x d3 x2 : sh f = [kw; kx; n; d3] -> dat f = fd -> nth_error og 2 = Some k ->
  nth_error (sh x) 1 = Some x2 -> npow2 x2 = n -> dat x = xd ->
  exists t, fft_conv gen emb unemb f og x = Some t /\ sh t = [kw; n; n] /\ wft t /\
    forall o i, o < kw -> i < N -> nth (o * N + i) (dat t) 0%Z = unemb (cval o i).
Proof.
  intros Sf Df Og Sx Ex Dx. unfold fft_conv. rewrite Sf, Df, Og, Sx, Dx. cbn [nth_error obind]. rewrite Ex.
  destruct x_vec_ok as (xv & Ev & Lv & Nv). rewrite Ev. cbn [obind].
  (* products *)
  assert (P : forall o, o < kw -> exists p, ofold (conv_acc gen emb fd kx k n o xv) (seq 0 kx) (repeat 0 (2 * n * n)) = Some p /\ length p = (2 ^ m)%nat /\
    forall q, q < 2 ^ m -> nth q p 0 = sumn kx (fun j => dft (root_of gen m) (2 ^ m) (fun s => if (s <? N)%nat then xval j (N - 1 - s) else 0) q
                                              * dft (root_of gen m) (2 ^ m) (wcoef n k (fslice o j)) q)).
  { intros o Ho. destruct (conv_acc_ok o xv Ho Lv) as (p & Ep & Lp & Np); [intros j Hj; apply Nv; auto|].
    exists p. split; [exact Ep|]. split; auto. intros q Hq. rewrite Np by auto. apply sumn_ext. intros j Hj.
    destruct (Nv j Hj) as [_ X]. rewrite X by auto. reflexivity. }
  destruct (omapM_ex (fun i => ofold (conv_acc gen emb fd kx k n i xv) (seq 0 kx) (repeat 0 (2 * n * n))) (seq 0 kw)) as (pr & Ep & Lp).
  { intros o Ho. apply in_seq in Ho. destruct (P o ltac:(lia)) as (p & E & _). exists p. exact E. }
  rewrite Ep. cbn [obind]. rewrite seq_length in Lp.
  assert (Np : forall o, o < kw -> exists u, fft gen true (nth o pr []) = Some u /\ length u = (2 ^ m)%nat /\ forall i, i < N -> nth (N - 1 - i) u 0 = cval o i).
  { intros o Ho. destruct (P o Ho) as (p & E & L & R). destruct (omapM_nth _ _ _ Ep) as [_ X].
    destruct (X o o) as (y & Ey & Fy). { rewrite (nth_error_some 0%nat) by (rewrite seq_length; auto). rewrite seq_nth by exact Ho. reflexivity. }
    cbv beta in Fy. apply nth_error_nth with (d := []) in Ey. assert (Y : nth o pr [] = p) by congruence. rewrite Y. exact (out_ok o p L Ho R). }
  destruct (omapM_ex (fft gen true) pr) as (out & Eo & Lo).
  { intros p Hp. apply (In_nth _ _ []) in Hp. destruct Hp as (o & Ho & <-). destruct (Np o ltac:(lia)) as (u & E & _). exists u. exact E. }
  rewrite Eo. cbn [obind].
  assert (No : forall o, o < kw -> length (nth o out []) = (2 ^ m)%nat /\ forall i, i < N -> nth (N - 1 - i) (nth o out []) 0 = cval o i).
  { intros o Ho. destruct (Np o Ho) as (u & E & L & R). destruct (omapM_nth _ _ _ Eo) as [_ X].
    destruct (X o (nth o pr [])) as (y & Ey & Fy); [apply nth_error_some; lia|]. apply nth_error_nth with (d := []) in Ey.
    assert (Y : nth o out [] = u) by congruence. rewrite Y. auto. }
  assert (IU : forall e, length e = (2 ^ m)%nat -> exists r, (us <- index_u e n;; Some (map unemb us)) = Some r /\ length r = N /\
     forall i, i < N -> nth i r 0%Z = unemb (nth (N - 1 - i) e 0)).
  { intros e Le. destruct (index_u_ok e Le) as (us & E & L & R). rewrite E. cbn [obind]. eexists. split; [reflexivity|]. rewrite map_length.
    split; auto. intros i Hi. rewrite (nth_map_lt _ _ _ 0) by lia. rewrite R by auto. reflexivity. }
  assert (Uo : forall e, In e out -> length e = (2 ^ m)%nat).
  { intros e He. apply (In_nth _ _ []) in He. destruct He as (o & Ho & <-). apply No. lia. }
  destruct (omapM_ex (fun e => us <- index_u e n;; Some (map unemb us)) out) as (el & Ee & Le).
  { intros e He. destruct (IU e (Uo e He)) as (r & E & _). exists r. exact E. }
  rewrite Ee. cbn [obind].
  assert (Ne : forall o, o < kw -> length (nth o el []) = N /\ forall i, i < N -> nth i (nth o el []) 0%Z = unemb (cval o i)).
  { intros o Ho. destruct (No o Ho) as [L R]. destruct (IU _ L) as (r & E & Lr & Rr). destruct (omapM_nth _ _ _ Ee) as [_ X].
    destruct (X o (nth o out [])) as (y & Ey & Fy); [apply nth_error_some; lia|]. apply nth_error_nth with (d := []) in Ey.
    cbv beta in Fy. assert (Y : nth o el [] = r) by congruence. rewrite Y. split; auto. intros i Hi. rewrite Rr, R by auto. reflexivity. }
  assert (Ue : forall e, In e el -> length e = N).
  { intros e He. apply (In_nth _ _ []) in He. destruct He as (o & Ho & <-). apply Ne. lia. }
  pose proof (length_concat_uniform el N Ue) as Lc.
  unfold tensor_new. replace (sprod [kw; n; n]) with (length (concat el)). 2:{ rewrite Lc. cbn [sprod fold_right]. unfold N. rewrite Le, Lo, Lp. lia. }
  rewrite Nat.eqb_refl. eexists. split; [reflexivity|]. split; [reflexivity|]. split.
  - unfold wft. cbn [sh dat fold_right]. rewrite Lc, Le, Lo, Lp. unfold N. lia.
  - intros o i Ho Hi. cbn [dat]. rewrite <- (proj2 (Ne o Ho) i Hi). replace (o * N + i)%nat with (i + N * o)%nat by lia.
    apply nth_concat_uniform; auto. lia.
Qed.
End Run.
End Conv.
