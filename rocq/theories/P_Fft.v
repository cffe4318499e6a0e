(** Proofs about the FFT of M_Fft: it is the discrete Fourier transform, and its inverse undoes it. *)
From Coq Require Import List Arith Lia Bool.
From Verif Require Import ListAux FieldDef M_Mle P_Graph4 M_Tensor P_Tensor P_LogUp3 M_Fft.
Import ListNotations.

(** Bit reversal on j bits. *)
Fixpoint brev (j c : nat) : nat := match j with O => 0 | S j' => (c mod 2) * 2 ^ j' + brev j' (c / 2) end.

Lemma brev_lt j : forall c, brev j c < 2 ^ j.
Proof.
  induction j as [|j IH]; intros c; cbn [brev]; [cbn; lia|]. specialize (IH (c / 2)).
  assert (c mod 2 < 2) by (apply Nat.mod_upper_bound; lia). rewrite Nat.pow_succ_r'.
  assert (c mod 2 * 2 ^ j <= 1 * 2 ^ j) by (apply Nat.mul_le_mono_r; lia). lia.
Qed.
Lemma brev_high j : forall c b, c < 2 ^ j -> b < 2 -> brev (S j) (c + b * 2 ^ j) = 2 * brev j c + b.
Proof.
  induction j as [|j IH]; intros c b Hc Hb.
  - cbn in Hc. assert (c = 0) by lia. subst. destruct b as [|[|b]]; [reflexivity|reflexivity|lia].
  - rewrite Nat.pow_succ_r' in *. change (brev (S (S j)) (c + b * (2 * 2 ^ j))) with
      ((c + b * (2 * 2 ^ j)) mod 2 * 2 ^ S j + brev (S j) ((c + b * (2 * 2 ^ j)) / 2)).
    replace (c + b * (2 * 2 ^ j)) with (c + b * 2 ^ j * 2) by lia. rewrite Nat.mod_add, Nat.div_add by lia.
    rewrite IH; [|apply Nat.div_lt_upper_bound; lia|lia]. cbn [brev]. rewrite Nat.pow_succ_r'. lia.
Qed.
Lemma brev_even j c : brev (S j) (2 * c) = brev j c.
Proof. cbn [brev]. rewrite (Nat.mul_comm 2 c), Nat.mod_mul, Nat.div_mul by lia. lia. Qed.
Lemma brev_odd j c : brev (S j) (2 * c + 1) = 2 ^ j + brev j c.
Proof.
  cbn [brev]. replace (2 * c + 1) with (1 + c * 2) by lia. rewrite Nat.mod_add, Nat.div_add by lia.
  change (1 mod 2) with 1. change (1 / 2) with 0. rewrite Nat.add_0_l. lia.
Qed.
Lemma brev_invol j : forall c, c < 2 ^ j -> brev j (brev j c) = c.
Proof.
  induction j as [|j IH]; intros c Hc; [cbn in *; lia|].
  rewrite Nat.pow_succ_r' in Hc. change (brev (S j) c) with (c mod 2 * 2 ^ j + brev j (c / 2)).
  rewrite Nat.add_comm, brev_high; [|apply brev_lt|apply Nat.mod_upper_bound; lia].
  rewrite IH by (apply Nat.div_lt_upper_bound; lia). pose proof (Nat.div_mod c 2). lia.
Qed.
Lemma lor_add a b s : a < 2 ^ s -> Nat.lor a (Nat.shiftl b s) = a + b * 2 ^ s.
Proof.
  intros H. rewrite Nat.shiftl_mul_pow2. assert (E : Nat.land a (b * 2 ^ s) = 0).
  { apply Nat.bits_inj. intros i. rewrite Nat.land_spec, Nat.bits_0. destruct (le_lt_dec s i) as [L|L].
    - assert (Nat.testbit a i = false) as ->; [|reflexivity].
      destruct (Nat.eq_dec a 0) as [->|Na]; [apply Nat.bits_0|]. apply Nat.bits_above_log2.
      apply Nat.log2_lt_pow2; [lia|]. apply Nat.lt_le_trans with (2 ^ s); [auto|apply Nat.pow_le_mono_r; lia].
    - rewrite Nat.mul_pow2_bits_low by auto. apply andb_false_r. }
  rewrite <- Nat.lxor_lor by auto. symmetry. apply Nat.add_nocarry_lxor. auto.
Qed.

Lemma ofold_inv {A St} (f : St -> A -> option St) (P : nat -> St -> Prop) (l : list A) : forall k s,
  (forall i a s, nth_error l i = Some a -> P (k + i) s -> exists s', f s a = Some s' /\ P (k + i + 1) s') ->
  P k s -> exists s', ofold f l s = Some s' /\ P (k + length l) s'.
Proof.
  induction l as [|a l IH]; intros k s H Hs.
  - exists s. cbn. rewrite Nat.add_0_r. auto.
  - destruct (H 0 a s eq_refl) as (s1 & E1 & P1); [rewrite Nat.add_0_r; auto|].
    destruct (IH (k + 1) s1) as (s2 & E2 & P2).
    + intros i b t Hi Ht. replace (k + 1 + i) with (k + S i) in * by lia. apply H; auto.
    + rewrite Nat.add_0_r in P1. auto.
    + exists s2. cbn [ofold]. rewrite E1. cbn [obind]. split; auto. cbn [length].
      replace (k + S (length l)) with (k + 1 + length l) by lia. auto.
Qed.
Lemma nth_error_seq0 n i a b : nth_error (seq b n) i = Some a -> i < n /\ a = b + i.
Proof.
  intros E. assert (L : i < n) by (rewrite <- (seq_length n b); apply nth_error_Some; congruence).
  split; auto. apply (nth_error_nth _ _ 0) in E. rewrite seq_nth in E by auto. auto.
Qed.

Lemma rev_table_ok m : 1 <= m -> exists rv, rev_table (2 ^ m) m = Some rv /\ length rv = 2 ^ m /\ forall i, i < 2 ^ m -> nth i rv 0 = brev m i.
Proof.
  intros Hm. unfold rev_table. assert (Hp := pow2_pos m). destruct (Nat.eqb_spec (2 ^ m) 0); [lia|].
  destruct (ofold_inv
    (fun rv i => s <- csub m 1 ;; h <- nth_error rv (i / 2) ;; Some (upd i (Nat.lor (Nat.shiftr h 1) (Nat.shiftl (i mod 2) s)) rv))
    (fun k rv => length rv = 2 ^ m /\ forall i, i < k -> nth i rv 0 = brev m i) (seq 1 (2 ^ m - 1)) 1 (repeat 0 (2 ^ m))) as (rv & E & L & R).
  - intros i a rv Ha [L R]. apply nth_error_seq0 in Ha. destruct Ha as [Hi ->].
    unfold csub. destruct (Nat.leb_spec 1 m); [|lia]. cbn [obind].
    assert (D : (1 + i) / 2 < 1 + i) by (apply Nat.div_lt; lia).
    rewrite (nth_error_some 0) by lia. cbn [obind]. eexists. split; [reflexivity|]. rewrite upd_length. split; auto.
    intros j Hj. destruct (Nat.eq_dec j (1 + i)) as [->|Hn].
    + rewrite nth_upd_eq by lia. rewrite R by auto.
      destruct m as [|m']; [lia|]. rewrite Nat.pow_succ_r' in *.
      assert (Q : (1 + i) / 2 < 2 ^ m') by (apply Nat.div_lt_upper_bound; lia).
      pose proof (brev_high m' ((1 + i) / 2) 0 Q ltac:(lia)) as B. rewrite Nat.mul_0_l, Nat.add_0_r in B. rewrite B.
      rewrite Nat.add_0_r, <- Nat.div2_spec. rewrite Nat.div2_double.
      replace (S m' - 1) with m' by lia. rewrite lor_add by apply brev_lt. cbn [brev]. lia.
    + rewrite nth_upd_neq by lia. apply R. lia.
  - split; [apply repeat_length|]. intros i Hi. assert (i = 0) by lia. subst. destruct (2 ^ m) eqn:P2; [lia|]. cbn [repeat nth].
    symmetry. clear - m. induction m as [|m IH]; [reflexivity|]. cbn [brev]. change (0 mod 2) with 0. change (0 / 2) with 0. rewrite IH. reflexivity.
  - exists rv. rewrite seq_length in R. split; [exact E|]. split; auto. intros i Hi. apply R. lia.
Qed.

Section Swaps.
Context {A : Type} (d : A).
(** After the first k positions have been processed. *)
Lemma swaps_ok m rv (v : list A) : length rv = 2 ^ m -> (forall i, i < 2 ^ m -> nth i rv 0 = brev m i) -> length v = 2 ^ m ->
  exists v', ofold (fun c p => swap (fst p) (snd p) c) (rev_swaps rv) v = Some v' /\ length v' = 2 ^ m /\
             forall i, i < 2 ^ m -> nth i v' d = nth (brev m i) v d.
Proof.
  intros Lr R Lv. unfold rev_swaps. rewrite Lr.
  assert (C : combine (seq 0 (2 ^ m)) rv = map (fun i => (i, brev m i)) (seq 0 (2 ^ m))).
  { apply (nth_ext_all _ _ (0, 0)).
    - rewrite combine_length, map_length, seq_length. lia.
    - intros i Hi. rewrite combine_length, seq_length in Hi. rewrite combine_nth by (rewrite seq_length; lia).
      rewrite seq_nth by lia. rewrite nth_map_seq by lia. rewrite R by lia. reflexivity. }
  rewrite C.
  assert (G : forall k, k <= 2 ^ m -> exists v',
     ofold (fun c p => swap (fst p) (snd p) c) (filter (fun p => snd p <? fst p) (map (fun i => (i, brev m i)) (seq 0 k))) v = Some v' /\
     length v' = 2 ^ m /\
     forall i, i < 2 ^ m -> nth i v' d = if (i <? k) && (brev m i <? k) then nth (brev m i) v d else nth i v d).
  { induction k as [|k IH]; intros Hk.
    - exists v. split; [reflexivity|]. split; auto.
    - destruct IH as (v1 & E1 & L1 & N1); [lia|]. rewrite seq_S, Nat.add_0_l, map_app, filter_app, ofold_app, E1. cbn [obind map filter fst snd].
      destruct (Nat.ltb_spec (brev m k) k) as [Hb|Hb].
      + cbn [ofold fst snd]. unfold swap. rewrite !(nth_error_some d) by lia. cbn [obind].
        eexists. split; [reflexivity|]. rewrite !upd_length. split; auto.
        intros i Hi. pose proof (brev_invol m k ltac:(lia)) as I1. pose proof (brev_invol m i Hi) as I2. assert (Bi := brev_lt m i).
        destruct (Nat.eq_dec i (brev m k)) as [Ei|Ni].
        * rewrite Ei, nth_upd_eq by (rewrite upd_length; lia). rewrite I1.
          destruct (Nat.ltb_spec (brev m k) (S k)); [|lia]. destruct (Nat.ltb_spec k (S k)); [|lia]. cbn [andb].
          rewrite N1 by lia. destruct (Nat.ltb_spec k k); [lia|]. reflexivity.
        * rewrite nth_upd_neq by auto. destruct (Nat.eq_dec i k) as [->|Nk].
          -- rewrite nth_upd_eq by lia. destruct (Nat.ltb_spec k (S k)); [|lia]. destruct (Nat.ltb_spec (brev m k) (S k)); [|lia]. cbn [andb].
             rewrite N1 by lia. rewrite I1. destruct (Nat.ltb_spec k k); [lia|]. rewrite andb_false_r. reflexivity.
          -- rewrite nth_upd_neq by auto. rewrite N1 by auto.
             assert (brev m i <> k) by (intros X; apply Ni; rewrite <- X; auto).
             replace (i <? S k) with (i <? k); [replace (brev m i <? S k) with (brev m i <? k); [reflexivity|]|].
             ++ destruct (Nat.ltb_spec (brev m i) k), (Nat.ltb_spec (brev m i) (S k)); auto; lia.
             ++ destruct (Nat.ltb_spec i k), (Nat.ltb_spec i (S k)); auto; lia.
      + cbn [ofold]. exists v1. split; [reflexivity|]. split; auto. intros i Hi. rewrite N1 by auto.
        pose proof (brev_invol m i Hi) as I2.
        destruct (Nat.eq_dec i k) as [->|Nk].
        * destruct (Nat.ltb_spec k k); [lia|]. destruct (Nat.ltb_spec k (S k)); [|lia]. cbn [andb].
          destruct (Nat.ltb_spec (brev m k) (S k)) as [X|X]; auto. assert (brev m k = k) as -> by lia. reflexivity.
        * destruct (Nat.eq_dec (brev m i) k) as [Ek|Ek].
          -- assert (i > k). { rewrite Ek in I2. rewrite I2 in Hb. lia. }
             destruct (Nat.ltb_spec i k); [lia|]. destruct (Nat.ltb_spec i (S k)); [lia|]. reflexivity.
          -- replace (i <? S k) with (i <? k); [replace (brev m i <? S k) with (brev m i <? k); [reflexivity|]|].
             ++ destruct (Nat.ltb_spec (brev m i) k), (Nat.ltb_spec (brev m i) (S k)); auto; lia.
             ++ destruct (Nat.ltb_spec i k), (Nat.ltb_spec i (S k)); auto; lia. }
  destruct (G (2 ^ m) (le_n _)) as (v' & E & L & N). exists v'. split; [exact E|]. split; auto.
  intros i Hi. rewrite N by auto. destruct (Nat.ltb_spec i (2 ^ m)); [|lia]. destruct (Nat.ltb_spec (brev m i) (2 ^ m)) as [X|X]; [reflexivity|].
  pose proof (brev_lt m i). lia.
Qed.
End Swaps.

Section Dft.
Context {K : field}.
Add Field Kf_fft : (fth K).
Local Open Scope F_scope.

(** The discrete Fourier transform of a_0, ..., a_{n-1} at the root w. *)
Definition dft (w : K) (n : nat) (a : nat -> K) (j : nat) : K := sumn n (fun t => a t * fpow w (j * t)).

Lemma pow_table_len x : forall n acc, length (pow_table x acc n : list K) = n.
Proof. induction n; intros; cbn; auto. Qed.
Lemma pow_table_nth x : forall n (acc : K) i, i < n -> nth i (pow_table x acc n) 0 = acc * fpow x i.
Proof.
  induction n as [|n IH]; intros acc i Hi; [lia|]. destruct i as [|i]; cbn [pow_table nth fpow]; [ring|].
  rewrite IH by lia. ring.
Qed.

Lemma butterfly_ok (w c : list K) n h : length c = (2 * h)%nat -> length w = n -> (0 < h)%nat ->
  (forall k, k < h -> n / (2 * h) * k < n)%nat ->
  exists c', butterfly w n (2 * h) c = Some c' /\ length c' = (2 * h)%nat /\
    forall k, k < h ->
      nth k c' 0 = nth k c 0 + nth (k + h) c 0 * nth (n / (2 * h) * k) w 0 /\
      nth (k + h) c' 0 = nth k c 0 - nth (k + h) c 0 * nth (n / (2 * h) * k) w 0.
Proof.
  intros Lc Lw Hh Hw. unfold butterfly. replace (2 * h / 2)%nat with h by (rewrite Nat.mul_comm, Nat.div_mul; lia).
  set (F := fun (c0 : list K) (k : nat) => _).
  destruct (ofold_inv F
    (fun j x => length x = (2 * h)%nat /\ forall k, k < h ->
        (k < j -> nth k x 0 = nth k c 0 + nth (k + h) c 0 * nth (n / (2 * h) * k) w 0 /\
                  nth (k + h) x 0 = nth k c 0 - nth (k + h) c 0 * nth (n / (2 * h) * k) w 0) /\
        (j <= k -> nth k x 0 = nth k c 0 /\ nth (k + h) x 0 = nth (k + h) c 0)) (seq 0 h) 0%nat c) as (c' & E & L & R).
  - intros i a x Ha [Lx Rx]. apply nth_error_seq0 in Ha. destruct Ha as [Hi ->]. rewrite !Nat.add_0_l in *.
    subst F. cbv beta. rewrite !(nth_error_some 0) by (try (specialize (Hw i Hi)); lia). cbn [obind].
    eexists. split; [reflexivity|]. rewrite !upd_length. split; auto. intros k Hk.
    destruct (Rx i Hi) as [_ Ri]. destruct (Ri (le_n _)) as [Ri1 Ri2].
    split; intros Hki.
    + destruct (Nat.eq_dec k i) as [->|N].
      * rewrite nth_upd_neq by lia. rewrite nth_upd_eq by lia. rewrite nth_upd_eq by (rewrite upd_length; lia).
        rewrite Ri1, Ri2. auto.
      * rewrite !nth_upd_neq by lia. apply Rx; lia.
    + rewrite !nth_upd_neq by lia. apply Rx; lia.
  - split; auto. intros k Hk. split; [lia|auto].
  - rewrite seq_length in R. exists c'. split; [exact E|]. split; auto. intros k Hk. apply R; auto.
Qed.

Section Loop.
Variables (m : nat) (w1 : K) (a : nat -> K).
Hypothesis root : fpow w1 (2 ^ (m - 1)) = - (1).
Let n := (2 ^ m)%nat.
Let w := pow_table w1 1 n.

(** After the pass with chunk size 2^s, chunk c holds the transform of every 2^(m-s)-th value. *)
Definition fft_inv (s : nat) (v : list K) : Prop :=
  length v = n /\
  forall c k, c < 2 ^ (m - s) -> k < 2 ^ s ->
    nth (k + 2 ^ s * c) v 0 = dft (fpow w1 (2 ^ (m - s))) (2 ^ s) (fun t => a (t * 2 ^ (m - s) + brev (m - s) c)%nat) k.

Lemma pass_ok s v : s < m -> fft_inv s v ->
  exists cs, omapM (butterfly w n (2 ^ S s)) (chunks (2 ^ S s) v) = Some cs /\ fft_inv (S s) (concat cs).
Proof.
  intros Hs [Lv Iv]. set (i := (2 ^ S s)%nat). set (h := (2 ^ s)%nat).
  assert (Ei : i = (2 * h)%nat) by (apply Nat.pow_succ_r').
  assert (Hh : (0 < h)%nat) by apply pow2_pos.
  set (q := (2 ^ (m - S s))%nat). assert (Hq : (0 < q)%nat) by apply pow2_pos.
  assert (En : n = (i * q)%nat). { unfold n, i, q. rewrite <- Nat.pow_add_r. f_equal. lia. }
  assert (Eq2 : (2 ^ (m - s))%nat = (2 * q)%nat). { unfold q. rewrite <- Nat.pow_succ_r'. f_equal. lia. }
  assert (Eni : (n / (2 * h))%nat = q). { rewrite En, Ei, Nat.mul_comm, Nat.div_mul; lia. }
  destruct (chunks_length i q v ltac:(lia) ltac:(lia)) as [Lcs Ucs].
  assert (Hw : forall k, k < h -> (n / (2 * h) * k < n)%nat).
  { intros k Hk. rewrite Eni, En, Ei. rewrite (Nat.mul_comm q k). apply Nat.mul_lt_mono_pos_r; lia. }
  assert (Hwn : forall k, k < h -> nth (n / (2 * h) * k) w 0 = fpow w1 (q * k)).
  { intros k Hk. unfold w. rewrite pow_table_nth by auto. rewrite Eni. ring. }
  assert (Bok : forall c, In c (chunks i v) -> exists c', butterfly w n i c = Some c' /\ length c' = i /\
    forall k, k < h -> nth k c' 0 = nth k c 0 + nth (k + h) c 0 * nth (n / (2 * h) * k) w 0 /\
                       nth (k + h) c' 0 = nth k c 0 - nth (k + h) c 0 * nth (n / (2 * h) * k) w 0).
  { intros c Hc. rewrite Ei. apply butterfly_ok; [rewrite <- Ei; auto|apply pow_table_len|exact Hh|exact Hw]. }
  destruct (omapM_ex (butterfly w n i) (chunks i v)) as (cs & Ecs & Lc2).
  { intros c Hc. destruct (Bok c Hc) as (c' & E & _). exists c'. exact E. }
  exists cs. split; [exact Ecs|].
  assert (F2 : forall j, j < q -> butterfly w n i (nth j (chunks i v) []) = Some (nth j cs [])).
  { intros j Hj. destruct (omapM_nth _ _ _ Ecs) as [_ X]. destruct (X j (nth j (chunks i v) [])) as (y & Ey & Fy).
    - apply nth_error_some. lia.
    - rewrite Fy. f_equal. symmetry. apply nth_error_nth. exact Ey. }
  assert (U2 : forall c, In c cs -> length c = i).
  { intros c Hc. apply (In_nth _ _ []) in Hc. destruct Hc as (j & Hj & <-). assert (Hj' : j < q) by lia.
    assert (Hin : In (nth j (chunks i v) []) (chunks i v)) by (apply nth_In; lia).
    destruct (Bok _ Hin) as (c' & E & L & _). rewrite (F2 j Hj') in E. assert (X : nth j cs [] = c') by congruence. rewrite X. exact L. }
  split.
  - rewrite (length_concat_uniform cs i U2). lia.
  - intros c k Hc Hk. fold q in Hc. fold i in Hk.
    fold i. rewrite (nth_concat_uniform cs i 0 U2) by lia.
    assert (Hin : In (nth c (chunks i v) []) (chunks i v)) by (apply nth_In; lia).
    destruct (Bok _ Hin) as (c' & E & L & R). rewrite (F2 c Hc) in E. assert (Ec : nth c cs [] = c') by congruence. rewrite Ec. clear E Ec.
    assert (V : forall j, j < i -> nth j (nth c (chunks i v) []) 0 = nth (j + i * c) v 0).
    { intros j Hj. rewrite <- (nth_concat_uniform (chunks i v) i 0 Ucs) by lia. rewrite chunks_concat by lia. reflexivity. }
    (* the two half-size transforms *)
    set (ev := fun k0 => dft (fpow w1 (2 * q)) h (fun t => a ((2 * t) * q + brev (m - S s) c)%nat) k0).
    set (od := fun k0 => dft (fpow w1 (2 * q)) h (fun t => a ((2 * t + 1) * q + brev (m - S s) c)%nat) k0).
    assert (VE : forall k0, k0 < h -> nth k0 (nth c (chunks i v) []) 0 = ev k0).
    { intros k0 Hk0. rewrite V by lia. replace (k0 + i * c)%nat with (k0 + h * (2 * c))%nat by lia. unfold h.
      rewrite Iv by (rewrite ?Eq2; fold h; lia). rewrite Eq2. unfold ev, dft. fold h. apply sumn_ext. intros t Ht.
      replace (m - s)%nat with (S (m - S s)) by lia. rewrite brev_even. f_equal. f_equal. lia. }
    assert (VO : forall k0, k0 < h -> nth (k0 + h) (nth c (chunks i v) []) 0 = od k0).
    { intros k0 Hk0. rewrite V by lia. replace (k0 + h + i * c)%nat with (k0 + h * (2 * c + 1))%nat by lia. unfold h.
      rewrite Iv by (rewrite ?Eq2; fold h; lia). rewrite Eq2. unfold od, dft. fold h. apply sumn_ext. intros t Ht.
      replace (m - s)%nat with (S (m - S s)) by lia. rewrite brev_odd. fold q. f_equal. f_equal. lia. }
    assert (SP : forall k0, dft (fpow w1 q) i (fun t => a (t * q + brev (m - S s) c)%nat) k0 =
              dft (fpow w1 (2 * q)) h (fun t => a ((2 * t) * q + brev (m - S s) c)%nat) k0 +
              dft (fpow w1 (2 * q)) h (fun t => a ((2 * t + 1) * q + brev (m - S s) c)%nat) k0 * fpow w1 (q * k0)).
    { intros k0. unfold dft. rewrite Ei, sumn_even_odd, <- sumn_scal_r. f_equal; apply sumn_ext; intros t Ht;
      rewrite <- !fpow_mul.
      - f_equal. f_equal. lia.
      - transitivity (a ((2 * t + 1) * q + brev (m - S s) c)%nat * (fpow w1 (2 * q * (k0 * t)) * fpow w1 (q * k0))); [|ring].
        rewrite <- fpow_add. f_equal. f_equal. lia. }
    assert (Rt : fpow w1 (q * h) = - (1)). { rewrite <- root. f_equal. unfold q, h. rewrite <- Nat.pow_add_r. f_equal. lia. }
    assert (R1 : fpow w1 (2 * q * h) = 1). { replace (2 * q * h)%nat with (q * h + q * h)%nat by lia. rewrite fpow_add, Rt. ring. }
    rewrite SP. destruct (lt_dec k h) as [Hkh|Hkh].
    + destruct (R k Hkh) as [R' _]. rewrite R', VE, VO, Hwn by auto. reflexivity.
    + assert (Ek : exists k', k = (k' + h)%nat /\ k' < h) by (exists (k - h)%nat; lia). destruct Ek as (k' & -> & Hk').
      destruct (R k' Hk') as [_ R']. rewrite R', VE, VO, Hwn by auto.
      assert (P : forall f, dft (fpow w1 (2 * q)) h f (k' + h) = dft (fpow w1 (2 * q)) h f k').
      { intros f. unfold dft. apply sumn_ext. intros t _. f_equal. rewrite Nat.mul_add_distr_r, fpow_add.
        rewrite (fpow_mul _ h t), <- (fpow_mul w1 (2 * q) h), R1, fpow_1. ring. }
      rewrite !P. fold (ev k') (od k'). rewrite Nat.mul_add_distr_l, fpow_add, Rt. ring.
Qed.

Lemma loop_ok : forall (d s fuel : nat) v, (s + d = m)%nat -> d <= fuel -> fft_inv s v ->
  exists v', fft_loop fuel (2 ^ S s) n w v = Some v' /\ fft_inv m v'.
Proof.
  induction d as [|d IH]; intros s fuel v Hs Hf Hv.
  - assert (s = m) by lia. subst s. exists v. split; auto. destruct fuel; [reflexivity|]. cbn [fft_loop].
    destruct (Nat.leb_spec (2 ^ S m) n); [|reflexivity]. unfold n in *. rewrite Nat.pow_succ_r' in *. pose proof (pow2_pos m). lia.
  - destruct fuel as [|fuel]; [lia|]. cbn [fft_loop]. destruct (Nat.leb_spec (2 ^ S s) n) as [L|L].
    2:{ unfold n in L. exfalso. assert (2 ^ S s <= 2 ^ m)%nat by (apply Nat.pow_le_mono_r; lia). lia. }
    destruct (pass_ok s v ltac:(lia) Hv) as (cs & E & I). rewrite E. cbn [obind]. rewrite <- Nat.pow_succ_r'.
    apply IH; auto; lia.
Qed.
End Loop.

(** ** The transform *)
Variable gen : K.
Hypothesis gen_root : fpow gen (2 ^ 31) = - (1).
Hypothesis char2 : (1 + 1 : K) <> 0.

(** The 2^m-th root used for vectors of length 2^m. *)
Definition root_of (m : nat) : K := fpow gen (2 ^ (32 - m)).

Lemma iter_square s : Nat.iter s (fun r => r * r) gen = fpow gen (2 ^ s).
Proof.
  induction s as [|s IH]; [cbn; ring|]. change (Nat.iter (S s) (fun r : K => r * r) gen) with
    ((fun r : K => r * r) (Nat.iter s (fun r : K => r * r) gen)). cbv beta. rewrite IH, <- fpow_add. f_equal. rewrite Nat.pow_succ_r'. lia.
Qed.
Lemma get_root_ok m : m <= 32 -> get_root_of_unity gen m = Some (root_of m).
Proof. intros H. unfold get_root_of_unity, csub. destruct (Nat.leb_spec m 32); [|lia]. cbn [obind]. rewrite iter_square. reflexivity. Qed.
Lemma get_root_big m : 32 < m -> get_root_of_unity gen m = None.
Proof. intros H. unfold get_root_of_unity, csub. destruct (Nat.leb_spec m 32); [lia|]. reflexivity. Qed.
Lemma root_half m : 1 <= m <= 32 -> fpow (root_of m) (2 ^ (m - 1)) = - (1).
Proof.
  intros H. unfold root_of. rewrite <- fpow_mul, <- Nat.pow_add_r. replace (32 - m + (m - 1))%nat with 31%nat by lia. exact gen_root.
Qed.
Lemma root_full m : m <= 32 -> fpow (root_of m) (2 ^ m) = 1.
Proof.
  intros H. unfold root_of. rewrite <- fpow_mul, <- Nat.pow_add_r. replace (32 - m + m)%nat with 32%nat by lia.
  change 32%nat with (S 31). rewrite Nat.pow_succ_r'. replace (2 * 2 ^ 31)%nat with (2 ^ 31 + 2 ^ 31)%nat by lia.
  rewrite fpow_add, gen_root. ring.
Qed.
Lemma neg1_neq_1 : - (1) <> (1 : K).
Proof. intros E. apply char2. transitivity (1 - - (1) : K); [ring|]. rewrite E. ring. Qed.
Lemma root_nz m : m <= 32 -> root_of m <> 0.
Proof.
  intros H E. pose proof (root_full m H) as R. rewrite E, fpow_0 in R by apply pow2_pos. apply (@f1_neq_0 K). auto.
Qed.
(** The root is primitive: no smaller positive power is one. *)
Lemma root_prim m d : m <= 32 -> 0 < d < 2 ^ m -> fpow (root_of m) d <> 1.
Proof.
  revert d. induction m as [|m IH]; intros d Hm Hd; [cbn in Hd; lia|].
  destruct (Nat.Even_or_Odd d) as [[e ->]|[e ->]].
  - rewrite fpow_mul. replace (fpow (root_of (S m)) 2) with (root_of m).
    + apply IH; [lia|]. rewrite Nat.pow_succ_r' in Hd. lia.
    + unfold root_of. rewrite <- fpow_mul. f_equal. replace (32 - m)%nat with (S (32 - S m)) by lia. rewrite Nat.pow_succ_r'. lia.
  - intros E. apply (f_equal (fun z => fpow z (2 ^ m))) in E. rewrite fpow_1, <- fpow_mul in E.
    pose proof (root_half (S m) ltac:(lia)) as R. replace (S m - 1)%nat with m in R by lia.
    pose proof (root_full (S m) ltac:(lia)) as Rf.
    rewrite (Nat.mul_comm _ (2 ^ m)), fpow_mul, R in E. rewrite fpow_add, fpow_mul in E.
    replace (fpow (- (1)) 2) with (1 : K) in E by (cbn; ring). rewrite fpow_1 in E. cbn [fpow] in E. apply neg1_neq_1.
    transitivity (1 * (- (1) * 1) : K); [ring|]. exact E.
Qed.
Lemma fnat_pow2_nz m : @fnat K (2 ^ m) <> 0.
Proof. rewrite fnat_pow. apply fpow_neq_0. cbn [fnat]. intros E. apply char2. transitivity (0 + 1 + 1 : K); [ring|exact E]. Qed.

Lemma log2_up_pow2' m : Nat.log2_up (2 ^ m) = m.
Proof. apply Nat.log2_up_pow2. lia. Qed.

Lemma fft_run m w1 (v : list K) rv : 1 <= m -> fpow w1 (2 ^ (m - 1)) = - (1) -> length v = (2 ^ m)%nat ->
  rev_table (2 ^ m) m = Some rv -> length rv = (2 ^ m)%nat -> (forall i, i < 2 ^ m -> nth i rv 0%nat = brev m i) ->
  exists v1 v2, ofold (fun c p => swap (fst p) (snd p) c) (rev_swaps rv) v = Some v1 /\
    fft_loop (2 ^ m) 2 (2 ^ m) (pow_table w1 1 (2 ^ m)) v1 = Some v2 /\ length v2 = (2 ^ m)%nat /\
    forall j, j < 2 ^ m -> nth j v2 0 = dft w1 (2 ^ m) (fun t => nth t v 0) j.
Proof.
  intros Hm Hr Lv E Lr R. destruct (swaps_ok 0 m rv v Lr R Lv) as (v1 & E1 & L1 & N1).
  destruct (loop_ok m w1 (fun t => nth t v 0) Hr m 0 (2 ^ m) v1) as (v2 & E2 & L2 & I2); [lia|..].
  - apply Nat.lt_le_incl, Nat.pow_gt_lin_r. lia.
  - split; auto. intros c k Hc Hk. rewrite Nat.sub_0_r in *. cbn in Hk. assert (k = 0%nat) by lia. subst k.
    change (2 ^ 0)%nat with 1%nat. rewrite Nat.mul_1_l, Nat.add_0_l, N1 by auto. unfold dft. cbn [sumn Nat.mul Nat.add fpow]. ring.
  - exists v1, v2. split; [exact E1|]. split; [exact E2|]. split; auto. intros j Hj.
    specialize (I2 0%nat j). rewrite Nat.sub_diag in I2. rewrite Nat.mul_0_r, Nat.add_0_r in I2. rewrite I2 by (cbn; lia).
    unfold dft. apply sumn_ext. intros t Ht. change (2 ^ 0)%nat with 1%nat. cbn [brev fpow]. rewrite Nat.mul_1_r, Nat.add_0_r. f_equal. f_equal. ring.
Qed.

Lemma fft_forward m (v : list K) : 1 <= m <= 32 -> length v = (2 ^ m)%nat ->
  exists r, fft gen false v = Some r /\ length r = (2 ^ m)%nat /\
            forall j, j < 2 ^ m -> nth j r 0 = dft (root_of m) (2 ^ m) (fun t => nth t v 0) j.
Proof.
  intros Hm Lv. unfold fft. rewrite Lv, log2_up_pow2'. destruct (rev_table_ok m ltac:(lia)) as (rv & E & Lr & R). rewrite E. cbn [obind].
  rewrite get_root_ok by lia. cbn [obind]. destruct (Nat.ltb_spec (2 ^ m) 2) as [X|X].
  { exfalso. assert (Y : (2 ^ 1 <= 2 ^ m)%nat) by (apply Nat.pow_le_mono_r; lia). change (2 ^ 1)%nat with 2%nat in Y. lia. }
  destruct (fft_run m (root_of m) v rv ltac:(lia) (root_half m ltac:(lia)) Lv E Lr R) as (v1 & v2 & E1 & E2 & L2 & N2).
  rewrite E1. cbn [obind]. rewrite E2. cbn [obind]. exists v2. auto.
Qed.
Lemma fft_backward m (v : list K) : 1 <= m <= 32 -> length v = (2 ^ m)%nat ->
  exists r, fft gen true v = Some r /\ length r = (2 ^ m)%nat /\
            forall j, j < 2 ^ m -> nth j r 0 = dft (/ root_of m) (2 ^ m) (fun t => nth t v 0) j * / fnat (2 ^ m).
Proof.
  intros Hm Lv. unfold fft. rewrite Lv, log2_up_pow2'. destruct (rev_table_ok m ltac:(lia)) as (rv & E & Lr & R). rewrite E. cbn [obind].
  rewrite get_root_ok by lia. cbn [obind]. destruct (Nat.ltb_spec (2 ^ m) 2) as [X|X].
  { exfalso. assert (Y : (2 ^ 1 <= 2 ^ m)%nat) by (apply Nat.pow_le_mono_r; lia). change (2 ^ 1)%nat with 2%nat in Y. lia. }
  assert (Rz : root_of m <> 0) by (apply root_nz; lia).
  assert (Fi : finv_opt (root_of m) = Some (/ root_of m)).
  { unfold finv_opt. destruct (root_of m =? 0) eqn:Z; auto. apply feqb_true in Z. contradiction. }
  assert (Fn : finv_opt (fnat (2 ^ m)) = Some (/ fnat (2 ^ m) : K)).
  { unfold finv_opt. destruct (fnat (2 ^ m) =? 0) eqn:Z; auto. apply feqb_true in Z. destruct (fnat_pow2_nz m Z). }
  rewrite Fi. cbn [obind].
  assert (Hh : fpow (/ root_of m) (2 ^ (m - 1)) = - (1)).
  { apply (fmul_cancel_l (fpow (root_of m) (2 ^ (m - 1)))); [apply fpow_neq_0; auto|].
    rewrite <- fpow_mul_base, finv_r by auto. rewrite fpow_1, root_half by lia. ring. }
  destruct (fft_run m (/ root_of m) v rv ltac:(lia) Hh Lv E Lr R) as (v1 & v2 & E1 & E2 & L2 & N2).
  rewrite E1. cbn [obind]. rewrite E2. cbn [obind]. rewrite Fn. cbn [obind]. eexists. split; [reflexivity|].
  rewrite map_length. split; auto. intros j Hj. rewrite (nth_map_lt _ _ _ 0) by lia. rewrite N2 by auto. reflexivity.
Qed.

(** Orthogonality of the powers of the root. *)
Lemma geom_sum (x : K) n : (x - 1) * sumn n (fun j => fpow x j) = fpow x n - 1.
Proof. induction n as [|n IH]; cbn [sumn fpow]; [ring|]. transitivity ((x - 1) * sumn n (fun j => fpow x j) + (x - 1) * fpow x n); [ring|]. rewrite IH. ring. Qed.
Lemma orth (x : K) n : x <> 1 -> fpow x n = 1 -> sumn n (fun j => fpow x j) = 0.
Proof.
  intros Hx Hn. pose proof (geom_sum x n) as G. rewrite Hn in G. assert (Z : (x - 1) * sumn n (fun j => fpow x j) = 0) by (rewrite G; ring).
  apply fmul_0 in Z. destruct Z as [Z|Z]; auto. apply fsub_0 in Z. contradiction.
Qed.
Lemma inv_pow m k : m <= 32 -> k <= 2 ^ m -> fpow (/ root_of m) k = fpow (root_of m) (2 ^ m - k).
Proof.
  intros Hm Hk. apply (fmul_cancel_l (fpow (root_of m) k)); [apply fpow_neq_0, root_nz; auto|].
  rewrite <- fpow_mul_base, finv_r by (apply root_nz; auto). rewrite fpow_1, <- fpow_add.
  replace (k + (2 ^ m - k))%nat with (2 ^ m)%nat by lia. rewrite root_full by auto. reflexivity.
Qed.
(** sum_j w^{-pj} w^{sj} is n if p = s mod n and 0 otherwise; s < 2n suffices here. *)
Lemma kron m p s : m <= 32 -> p < 2 ^ m -> s < 2 * 2 ^ m ->
  sumn (2 ^ m) (fun j => fpow (/ root_of m) (p * j) * fpow (root_of m) (s * j)) =
  if (s =? p)%nat || (s =? p + 2 ^ m)%nat then fnat (2 ^ m) else 0.
Proof.
  intros Hm Hp Hs. set (W := root_of m). set (n := (2 ^ m)%nat) in *.
  assert (Wn : fpow W n = 1) by (apply root_full; auto).
  assert (E : forall j, fpow (/ W) (p * j) * fpow W (s * j) = fpow (fpow W (n - p + s)) j).
  { intros j. rewrite !fpow_mul, <- fpow_mul_base. f_equal. unfold W, n in *. rewrite inv_pow by lia. rewrite <- fpow_add. reflexivity. }
  rewrite (sumn_ext n _ (fun j => fpow (fpow W (n - p + s)) j)) by (intros; apply E).
  destruct (Nat.eqb_spec s p) as [Esp|N1]; cbn [orb].
  { subst s. replace (n - p + p)%nat with n by lia. rewrite Wn. rewrite (sumn_ext n _ (fun _ => 1)) by (intros; apply fpow_1). rewrite sumn_const. ring. }
  destruct (Nat.eqb_spec s (p + n)) as [Esp|N2].
  { subst s. replace (n - p + (p + n))%nat with (n + n)%nat by lia. rewrite fpow_add, Wn.
    rewrite (sumn_ext n _ (fun _ => 1)) by (intros; rewrite fpow_mul_base, !fpow_1; ring). rewrite sumn_const. ring. }
  apply orth.
  - destruct (lt_dec (n - p + s) n) as [L|L]; [apply root_prim; fold n; lia|].
    destruct (lt_dec (n - p + s) (2 * n)) as [L2|L2].
    + replace (n - p + s)%nat with (n + (s - p))%nat by lia. rewrite fpow_add, Wn.
      intros X. apply (root_prim m (s - p) Hm); [fold n; lia|]. etransitivity; [|exact X]. fold W. ring.
    + replace (n - p + s)%nat with (n + (n + (s - p - n)))%nat by lia. rewrite !fpow_add, Wn.
      intros X. apply (root_prim m (s - p - n) Hm); [fold n; lia|]. etransitivity; [|exact X]. fold W. ring.
  - rewrite <- fpow_mul, Nat.mul_comm, fpow_mul, Wn. apply fpow_1.
Qed.
Lemma inverse_dft m (a : nat -> K) p : m <= 32 -> p < 2 ^ m ->
  dft (/ root_of m) (2 ^ m) (fun j => dft (root_of m) (2 ^ m) a j) p * / fnat (2 ^ m) = a p.
Proof.
  intros Hm Hp. set (n := (2 ^ m)%nat). unfold dft.
  rewrite (sumn_ext n _ (fun j => sumn n (fun t => a t * (fpow (/ root_of m) (p * j) * fpow (root_of m) (t * j))))).
  2:{ intros j _. rewrite <- sumn_scal_r. apply sumn_ext. intros t _. rewrite (Nat.mul_comm j t). ring. }
  rewrite sumn_swap. rewrite (sumn_ext n _ (fun t => a t * (if (t =? p)%nat || (t =? p + n)%nat then fnat n else 0))).
  2:{ intros t Ht. rewrite sumn_scal. f_equal. apply kron; fold n; lia. }
  rewrite (FieldDef.sumn_single n p).
  2:{ exact Hp. }
  2:{ intros t Ht Hn. destruct (Nat.eqb_spec t p); [lia|]. destruct (Nat.eqb_spec t (p + n)); [lia|]. cbn [orb]. ring. }
  rewrite Nat.eqb_refl. cbn [orb]. transitivity (a p * (fnat n * / fnat n)); [ring|]. rewrite finv_r by apply fnat_pow2_nz. ring.
Qed.

Theorem fft_round_trip m (v r : list K) : 1 <= m <= 32 -> length v = (2 ^ m)%nat -> fft gen false v = Some r -> fft gen true r = Some v.
Proof.
  intros Hm Lv E. destruct (fft_forward m v Hm Lv) as (r' & E' & Lr & N). assert (r' = r) by congruence. subst r'.
  destruct (fft_backward m r Hm Lr) as (u & Eu & Lu & Nu). rewrite Eu. f_equal. apply (nth_ext_all _ _ 0); [lia|].
  intros p Hp. rewrite Lu in Hp. rewrite Nu by auto. rewrite <- (inverse_dft m (fun t => nth t v 0) p) by lia. f_equal.
  unfold dft at 1 2. apply sumn_ext. intros j Hj. rewrite N by auto. reflexivity.
Qed.
(** Cyclic convolution. *)
Theorem conv_theorem m (a b : nat -> K) p : m <= 32 -> p < 2 ^ m ->
  dft (/ root_of m) (2 ^ m) (fun j => dft (root_of m) (2 ^ m) a j * dft (root_of m) (2 ^ m) b j) p * / fnat (2 ^ m) =
  sumn (2 ^ m) (fun s => sumn (2 ^ m) (fun t => if (s + t =? p)%nat || (s + t =? p + 2 ^ m)%nat then a s * b t else 0)).
Proof.
  intros Hm Hp. set (n := (2 ^ m)%nat) in *. unfold dft.
  rewrite (sumn_ext n _ (fun j => sumn n (fun s => sumn n (fun t => a s * b t * (fpow (/ root_of m) (p * j) * fpow (root_of m) ((s + t) * j)))))).
  2:{ intros j _. rewrite <- !sumn_scal_r. apply sumn_ext. intros s _.
      transitivity (a s * fpow (root_of m) (j * s) * fpow (/ root_of m) (p * j) * sumn n (fun t => b t * fpow (root_of m) (j * t))); [ring|].
      rewrite <- sumn_scal. apply sumn_ext. intros t _. rewrite Nat.mul_add_distr_r, fpow_add, (Nat.mul_comm s j), (Nat.mul_comm t j). ring. }
  rewrite sumn_swap. rewrite <- sumn_scal_r. apply sumn_ext. intros s Hs. rewrite sumn_swap, <- sumn_scal_r. apply sumn_ext. intros t Ht.
  rewrite sumn_scal. unfold n at 1. rewrite kron by (fold n; lia). fold n. destruct ((s + t =? p)%nat || (s + t =? p + n)%nat); [|ring].
  transitivity (a s * b t * (fnat n * / fnat n)); [ring|]. rewrite finv_r by apply fnat_pow2_nz. ring.
Qed.
End Dft.
