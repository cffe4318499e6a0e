(** Proofs about M_BitRev.v: the copying, in-place, chunked and transposing bit reversals. *)
From Coq Require Import List Arith Lia Bool NArith.
From Verif Require Import ListAux M_Mle M_Merkle M_Code P_Fft P_Pad2 P_Verifier5 P_Code M_BitRev.
Import ListNotations.

(** * Numbers *)
Lemma p2 k : 0 < 2 ^ k. Proof. pose proof (Nat.pow_nonzero 2 k). lia. Qed.
Lemma dm q m r : r < m -> (q * m + r) / m = q /\ (q * m + r) mod m = r.
Proof. intros H. rewrite (Nat.add_comm (q * m)). rewrite Nat.div_add, Nat.mod_add by lia. rewrite Nat.div_small, Nat.mod_small by lia. lia. Qed.
Lemma dm_eq k m : 0 < m -> k = (k / m) * m + k mod m.
Proof. intros H. rewrite (Nat.div_mod k m) at 1 by lia. lia. Qed.
Lemma brev_0 b : brev b 0 = 0.
Proof. induction b as [|b IH]; [reflexivity|]. cbn [brev]. rewrite Nat.mod_0_l, Nat.div_0_l, IH by lia. reflexivity. Qed.
Lemma brev_split a : forall b r c, c < 2 ^ a -> brev (a + b) (r * 2 ^ a + c) = brev a c * 2 ^ b + brev b r.
Proof.
  induction a as [|a IH]; intros b r c Hc.
  - assert (c = 0) by (cbn in Hc; lia). subst. cbn [brev]. rewrite Nat.add_0_l, Nat.pow_0_r, Nat.mul_1_r, Nat.add_0_r, Nat.mul_0_l, Nat.add_0_l. reflexivity.
  - rewrite Nat.pow_succ_r' in Hc. cbn [Nat.add brev].
    assert (Hd : c / 2 < 2 ^ a) by (apply Nat.div_lt_upper_bound; lia).
    assert (E : r * 2 ^ S a + c = 2 * (r * 2 ^ a) + c) by (rewrite Nat.pow_succ_r'; lia). rewrite E.
    replace ((2 * (r * 2 ^ a) + c) mod 2) with (c mod 2) by (rewrite Nat.add_comm, (Nat.mul_comm 2), Nat.mod_add by lia; reflexivity).
    replace ((2 * (r * 2 ^ a) + c) / 2) with (r * 2 ^ a + c / 2) by (rewrite (Nat.add_comm _ c), (Nat.mul_comm 2), Nat.div_add by lia; lia).
    rewrite IH by exact Hd. rewrite Nat.pow_add_r. lia.
Qed.
Lemma brev_shift_down w lb n : lb <= w -> n < 2 ^ lb -> brev w n / 2 ^ (w - lb) = brev lb n.
Proof.
  intros L H. pose proof (brev_split lb (w - lb) 0 n H) as E. rewrite Nat.mul_0_l, Nat.add_0_l, brev_0, Nat.add_0_r in E.
  replace (lb + (w - lb)) with w in E by lia. rewrite E. apply Nat.div_mul. pose proof (p2 (w - lb)). lia.
Qed.
Lemma nrev_brev b : forall n, N.to_nat (nrev b (N.of_nat n)) = brev b n.
Proof.
  induction b as [|b IH]; intros n; [reflexivity|]. cbn [nrev brev].
  rewrite N2Nat.inj_add, N2Nat.inj_mul, N2Nat.inj_pow, Nat2N.id.
  replace (N.of_nat n / 2)%N with (N.of_nat (n / 2)) by (rewrite Nat2N.inj_div; reflexivity).
  replace (N.of_nat n mod 2)%N with (N.of_nat (n mod 2)) by (rewrite Nat2N.inj_mod; reflexivity).
  rewrite IH, Nat2N.id. reflexivity.
Qed.
Lemma nrev_shr w lb n : lb <= w -> n < 2 ^ lb -> N.to_nat (N.shiftr (nrev w (N.of_nat n)) (N.of_nat (w - lb))) = brev lb n.
Proof.
  intros L H. rewrite N.shiftr_div_pow2, N2Nat.inj_div, N2Nat.inj_pow, nrev_brev, Nat2N.id. apply brev_shift_down; auto.
Qed.
Lemma rev_shr_ok lb n : lb <= 64 -> n < 2 ^ lb -> rev_shr lb n = brev lb n.
Proof.
  intros L H. unfold rev_shr. destruct (Nat.eq_dec lb 0) as [->|N0].
  - assert (n = 0) by (cbn in H; lia). subst n. vm_compute. reflexivity.
  - rewrite (Nat.mod_small (64 - lb) 64) by lia. apply nrev_shr; auto.
Qed.
Lemma table_ok i : i < 64 -> nth_error BIT_REVERSE_6BIT i = Some (brev 6 i).
Proof.
  intros H. assert (E : forallb (fun i => match nth_error BIT_REVERSE_6BIT i with Some t => t =? brev 6 i | None => false end) (seq 0 64) = true) by (vm_compute; reflexivity).
  rewrite forallb_forall in E. specialize (E i). rewrite in_seq in E. specialize (E ltac:(lia)).
  destruct (nth_error BIT_REVERSE_6BIT i); [|discriminate]. apply Nat.eqb_eq in E. congruence.
Qed.

(** * Folds *)
Lemma ofold_ext {S B} (f g : S -> B -> option S) l : (forall s x, In x l -> f s x = g s x) -> forall s, ofold f l s = ofold g l s.
Proof.
  induction l as [|x l IH]; intros H s; [reflexivity|]. cbn [ofold]. rewrite (H s x (or_introl eq_refl)). destruct (g s x); [|reflexivity].
  cbn [obind]. apply IH. intros. apply H. right; auto.
Qed.
Lemma ofold_app' {S B} (f : S -> B -> option S) a b s : ofold f (a ++ b) s = (s' <- ofold f a s ;; ofold f b s').
Proof. revert s; induction a as [|x a IH]; intros s; [reflexivity|]. cbn [app ofold]. destruct (f s x); [|reflexivity]. cbn [obind]. apply IH. Qed.
Lemma ofold_map {S B C} (f : S -> B -> option S) (g : C -> B) l s : ofold f (map g l) s = ofold (fun s x => f s (g x)) l s.
Proof. revert s; induction l as [|x l IH]; intros s; [reflexivity|]. cbn [map ofold]. destruct (f s (g x)); [|reflexivity]. cbn [obind]. apply IH. Qed.
Lemma ofold_nest {S B C} (f : S -> C -> option S) (L : B -> list C) l s : ofold (fun s i => ofold f (L i) s) l s = ofold f (flat_map L l) s.
Proof.
  revert s; induction l as [|x l IH]; intros s; [reflexivity|]. cbn [flat_map ofold]. rewrite ofold_app'. destruct (ofold f (L x) s); [|reflexivity]. cbn [obind]. apply IH.
Qed.
Lemma flat_seq m : forall q b, flat_map (fun c => map (fun t => c * m + t) (seq 0 m)) (seq b q) = seq (b * m) (q * m).
Proof.
  induction q as [|q IH]; intros b; [reflexivity|]. cbn [seq flat_map Nat.mul]. rewrite IH. rewrite seq_app. f_equal; [|f_equal; lia].
  generalize (b * m). intros k. assert (G : forall n j, map (fun t => k + t) (seq j n) = seq (k + j) n).
  { induction n as [|n G]; intros j; [reflexivity|]. cbn [seq map]. rewrite G. f_equal. f_equal. lia. }
  rewrite G. f_equal. lia.
Qed.
Lemma NoDup_pairs {B C} (L : B -> list C) l : NoDup l -> (forall x, NoDup (L x)) -> NoDup (flat_map (fun i => map (pair i) (L i)) l).
Proof.
  intros H HL. induction H as [|x l N H IH]; [constructor|]. cbn [flat_map].
  assert (G : forall a b : list (B * C), NoDup a -> NoDup b -> (forall p, In p a -> ~ In p b) -> NoDup (a ++ b)).
  { induction a as [|p a Ga]; intros b Ha Hb D; [exact Hb|]. cbn [app]. inversion Ha; subst. constructor.
    - rewrite in_app_iff. intros [|I]; [contradiction|]. exact (D p (or_introl eq_refl) I).
    - apply Ga; auto. intros p' I. apply D. right; auto. }
  apply G; [|exact IH|].
  - specialize (HL x). induction HL as [|y r Ny Hr IHr]; [constructor|]. cbn [map]. constructor; [|exact IHr].
    rewrite in_map_iff. intros (z & E & I). injection E as ->. contradiction.
  - intros p I J. apply in_map_iff in I. destruct I as (c & <- & _). apply in_flat_map in J. destruct J as (i & I1 & I2). apply in_map_iff in I2.
    destruct I2 as (c' & E & _). injection E as -> ->. contradiction.
Qed.
Lemma NoDup_map_in {B C} (f : B -> C) l : NoDup l -> (forall x y, In x l -> In y l -> f x = f y -> x = y) -> NoDup (map f l).
Proof.
  induction 1 as [|x l N H IH]; intros J; [constructor|]. cbn [map]. constructor.
  - rewrite in_map_iff. intros (y & E & I). assert (y = x) by (apply J; [right; auto|left; auto|auto]). subst. contradiction.
  - apply IH. intros a b Ia Ib. apply J; right; auto.
Qed.
Lemma in_pairs {B C} (L : B -> list C) l i j : In (i, j) (flat_map (fun i => map (pair i) (L i)) l) <-> In i l /\ In j (L i).
Proof.
  rewrite in_flat_map. split.
  - intros (x & I & J). apply in_map_iff in J. destruct J as (y & E & K). injection E as -> ->. auto.
  - intros [I J]. exists i. split; [exact I|]. apply in_map_iff. exists j. auto.
Qed.

(** * Sequences of exchanges *)
Section Swaps.
Context {A : Type}.
Implicit Types arr : list A.
Definition swaps (ps : list (nat * nat)) arr : option (list A) := ofold (fun arr p => swap arr (fst p) (snd p)) ps arr.
Lemma swap_spec arr a b : a < length arr -> b < length arr -> exists r, swap arr a b = Some r /\ length r = length arr /\
  forall k, nth_error r k = if k =? a then nth_error arr b else if k =? b then nth_error arr a else nth_error arr k.
Proof.
  intros Ha Hb. unfold swap. destruct (nth_error arr a) as [x|] eqn:Ea; [|apply nth_error_None in Ea; lia].
  destruct (nth_error arr b) as [y|] eqn:Eb; [|apply nth_error_None in Eb; lia]. cbn [obind]. eexists. split; [reflexivity|].
  split; [rewrite !upd_length; reflexivity|]. intros k. rewrite !nth_error_upd. rewrite Eb, Ea.
  destruct (Nat.eqb_spec k a) as [Ka|Ka]; destruct (Nat.eqb_spec k b) as [Kb|Kb]; destruct (Nat.eqb_spec b a) as [Kc|Kc]; destruct (Nat.eqb_spec a b) as [Kd|Kd];
    subst; try congruence; try (rewrite Eb); try (rewrite Ea); try congruence; try reflexivity.
Qed.
(** If every exchange is between a position and its image under an involution, and no position occurs twice, each position ends with the element of its
    image if it occurs and with its own otherwise. *)
Lemma swaps_touched (f : nat -> nat) n : (forall k, k < n -> f k < n /\ f (f k) = k) -> forall ps arr, length arr = n ->
  Forall (fun p => fst p < n /\ snd p = f (fst p)) ps -> NoDup (map fst ps) -> (forall a, In a (map fst ps) -> ~ In (f a) (map fst ps)) ->
  exists r, swaps ps arr = Some r /\ length r = n /\ forall k, k < n ->
    (In k (map fst ps) \/ In (f k) (map fst ps) -> nth_error r k = nth_error arr (f k)) /\
    (~ In k (map fst ps) -> ~ In (f k) (map fst ps) -> nth_error r k = nth_error arr k).
Proof.
  intros F. induction ps as [|[a b] ps IH]; intros arr Ln P ND X.
  - exists arr. split; [reflexivity|]. split; [exact Ln|]. intros k Hk. split; [intros [[]|[]]|reflexivity].
  - inversion P as [|? ? [Pa Pb] P']; subst. cbn [fst snd map] in *. inversion ND as [|? ? Na ND']; subst.
    destruct (F a Pa) as [Fa Ffa]. destruct (swap_spec arr a (f a) Pa Fa) as (l1 & E1 & L1 & N1).
    destruct (IH l1 L1 P' ND') as (r & Er & Lr & Nr).
    { intros c Ic If. apply (X c (or_intror Ic)). right; auto. }
    exists r. unfold swaps in *. cbn [ofold fst snd]. rewrite E1. cbn [obind]. split; [exact Er|]. split; [exact Lr|].
    intros k Hk. destruct (Nr k Hk) as [T U]. destruct (F k Hk) as [Fk Ffk].
    assert (Xa : ~ In (f a) (map fst ps)) by (intros I; apply (X a (or_introl eq_refl)); right; exact I).
    assert (Naf : f a <> a) by (intros E; apply (X a (or_introl eq_refl)); left; auto).
    split.
    + intros H. destruct (Nat.eq_dec k a) as [->|Ka].
      * rewrite U by auto. rewrite N1, Nat.eqb_refl. reflexivity.
      * destruct (Nat.eq_dec k (f a)) as [->|Kf].
        -- rewrite U; [|exact Xa|rewrite Ffa; exact Na]. rewrite N1. destruct (Nat.eqb_spec (f a) a); [congruence|]. rewrite Nat.eqb_refl, Ffa. reflexivity.
        -- rewrite T.
           ++ rewrite N1. destruct (Nat.eqb_spec (f k) a) as [E|_]; [exfalso; apply Kf; congruence|].
              destruct (Nat.eqb_spec (f k) (f a)) as [E|_]; [exfalso; apply Ka; congruence|]. reflexivity.
           ++ destruct H as [[E|I]|[E|I]]; auto; [congruence|exfalso; apply Kf; congruence].
    + intros H1 H2. rewrite U; [|intros I; apply H1; right; exact I|intros I; apply H2; right; exact I]. rewrite N1. destruct (Nat.eqb_spec k a) as [E|_]; [exfalso; apply H1; left; congruence|].
      destruct (Nat.eqb_spec k (f a)) as [E9|_]; [|reflexivity]. exfalso. apply H2. left. congruence.
Qed.
Lemma swaps_involution (f : nat -> nat) n ps arr : (forall k, k < n -> f k < n /\ f (f k) = k) -> length arr = n ->
  Forall (fun p => fst p < n /\ snd p = f (fst p)) ps -> NoDup (map fst ps) -> (forall a, In a (map fst ps) -> ~ In (f a) (map fst ps)) ->
  (forall k, k < n -> f k = k \/ In k (map fst ps) \/ In (f k) (map fst ps)) ->
  exists r, swaps ps arr = Some r /\ length r = n /\ forall k, k < n -> nth_error r k = nth_error arr (f k).
Proof.
  intros F Ln P ND X C. destruct (swaps_touched f n F ps arr Ln P ND X) as (r & E & Lr & N). exists r. split; [exact E|]. split; [exact Lr|].
  intros k Hk. destruct (N k Hk) as [T U]. destruct (in_dec Nat.eq_dec k (map fst ps)); [auto|]. destruct (in_dec Nat.eq_dec (f k) (map fst ps)); [auto|].
  destruct (C k Hk) as [E'|[|]]; [|contradiction|contradiction]. rewrite E'. auto.
Qed.
(** The conditional exchanges of a whole range. *)
Lemma ofold_swap_if (g : nat -> nat) L arr : ofold (fun arr s => swap_if arr s (g s)) L arr = swaps (filter (fun p => fst p <? snd p) (map (fun s => (s, g s)) L)) arr.
Proof.
  revert arr; induction L as [|s L IH]; intros arr; [reflexivity|]. cbn [ofold map filter fst snd]. unfold swap_if at 1.
  destruct (s <? g s); [|cbn [obind]; apply IH]. unfold swaps. cbn [ofold fst snd]. destruct (swap arr s (g s)); [|reflexivity]. cbn [obind]. apply IH.
Qed.
Lemma in_firsts (g : nat -> nat) n k : In k (map fst (filter (fun p : nat * nat => fst p <? snd p) (map (fun s => (s, g s)) (seq 0 n)))) <-> k < n /\ k < g k.
Proof.
  rewrite in_map_iff. split.
  - intros (p & <- & I). apply filter_In in I. destruct I as [I C]. apply in_map_iff in I. destruct I as (s & <- & I). apply in_seq in I. cbn [fst snd] in *. apply Nat.ltb_lt in C. lia.
  - intros [H1 H2]. exists (k, g k). split; [reflexivity|]. apply filter_In. split; [|apply Nat.ltb_lt; exact H2]. apply in_map_iff. exists k. split; [reflexivity|]. apply in_seq. lia.
Qed.
Lemma swap_if_range (g : nat -> nat) n arr : (forall k, k < n -> g k < n /\ g (g k) = k) -> length arr = n ->
  exists r, ofold (fun arr s => swap_if arr s (g s)) (seq 0 n) arr = Some r /\ length r = n /\ forall k, k < n -> nth_error r k = nth_error arr (g k).
Proof.
  intros G Ln. rewrite ofold_swap_if. apply swaps_involution; auto.
  - apply Forall_forall. intros p I. apply filter_In in I. destruct I as [I _]. apply in_map_iff in I. destruct I as (s & <- & I). apply in_seq in I. cbn [fst snd]. split; [lia|reflexivity].
  - assert (N : NoDup (seq 0 n)) by apply seq_NoDup. induction N as [|s L Ns N IH]; [constructor|]. cbn [map filter fst snd].
    destruct (s <? g s); [|exact IH]. cbn [map fst]. constructor; [|exact IH]. intros I. apply in_map_iff in I. destruct I as (p & E & I). apply filter_In in I. destruct I as [I _].
    apply in_map_iff in I. destruct I as (s' & <- & I). cbn [fst] in E. congruence.
  - intros a Ia If. apply in_firsts in Ia. apply in_firsts in If. destruct (G a ltac:(lia)) as [_ E]. rewrite E in If. lia.
  - intros k Hk. destruct (G k Hk) as [G1 G2]. rewrite !in_firsts, G2. lia.
Qed.

(** * The branch for small arrays *)
Lemma brev_inv n k : k < 2 ^ n -> brev n k < 2 ^ n /\ brev n (brev n k) = k.
Proof. intros H. split; [apply brev_lt|apply brev_invol; exact H]. Qed.
Lemma small_ok lb arr : lb <= 64 -> length arr = 2 ^ lb ->
  exists r, in_place_small arr lb = Some r /\ length r = 2 ^ lb /\ forall k, k < 2 ^ lb -> nth_error r k = nth_error arr (brev lb k).
Proof.
  intros L64 Ln. pose proof (swap_if_range (brev lb) (2 ^ lb) arr (brev_inv lb) Ln) as G. unfold in_place_small. destruct (Nat.leb_spec lb 6).
  - rewrite (ofold_ext _ (fun arr s => swap_if arr s (brev lb s))); [rewrite Ln; exact G|]. intros s x I. apply in_seq in I. rewrite Ln in I.
    assert (2 ^ lb <= 2 ^ 6) by (apply Nat.pow_le_mono_r; lia). change (2 ^ 6) with 64 in *. rewrite table_ok by lia. cbn [obind]. rewrite brev_shift_down by lia. reflexivity.
  - assert (E64 : 2 ^ lb = 2 ^ (lb - 6) * 64) by (change 64 with (2 ^ 6); rewrite <- Nat.pow_add_r; f_equal; lia).
    assert (Eq : length arr / 64 = 2 ^ (lb - 6)) by (rewrite Ln, E64; apply Nat.div_mul; lia). rewrite Eq.
    assert (R : forall s, ofold (fun arr0 src_chunk => ofold (fun arr1 src_lo => t <- nth_error BIT_REVERSE_6BIT src_lo ;; swap_if arr1 (src_chunk * 64 + src_lo) (t * 2 ^ (lb - 6) + rev_shr (lb - 6) src_chunk)) (seq 0 64) arr0) (seq 0 (2 ^ (lb - 6))) s
        = ofold (fun arr s => swap_if arr s (brev lb s)) (seq 0 (2 ^ lb)) s).
    { intros s. rewrite E64. change (seq 0 (2 ^ (lb - 6) * 64)) with (seq (0 * 64) (2 ^ (lb - 6) * 64)). rewrite <- flat_seq, <- ofold_nest. apply ofold_ext. intros a c Ic. apply in_seq in Ic.
      rewrite ofold_map. apply ofold_ext. intros a' t It. apply in_seq in It. rewrite table_ok by lia. cbn [obind]. f_equal.
      replace lb with (6 + (lb - 6)) at 3 by lia. change 64 with (2 ^ 6) at 1. rewrite brev_split by (change (2 ^ 6) with 64; lia). rewrite rev_shr_ok by lia. reflexivity. }
    cbv zeta. rewrite R. exact G.
Qed.
Lemma small_aarch64_ok lb arr : lb <= 64 -> length arr = 2 ^ lb ->
  exists r, in_place_small_aarch64 arr lb = Some r /\ length r = 2 ^ lb /\ forall k, k < 2 ^ lb -> nth_error r k = nth_error arr (brev lb k).
Proof.
  intros L64 Ln. unfold in_place_small_aarch64. rewrite (ofold_ext _ (fun arr s => swap_if arr s (brev lb s))).
  - rewrite Ln. exact (swap_if_range (brev lb) (2 ^ lb) arr (brev_inv lb) Ln).
  - intros s x I. apply in_seq in I. rewrite rev_shr_ok by lia. reflexivity.
Qed.

(** * The exchange of chunks *)
Definition rho (h cs k : nat) : nat := brev h (k / 2 ^ cs) * 2 ^ cs + k mod 2 ^ cs.
Lemma rho_at h cs r c : c < 2 ^ cs -> rho h cs (r * 2 ^ cs + c) = brev h r * 2 ^ cs + c.
Proof. intros H. unfold rho. destruct (dm r (2 ^ cs) c H) as [-> ->]. reflexivity. Qed.
Lemma split_at h cs k : k < 2 ^ h * 2 ^ cs -> exists r c, k = r * 2 ^ cs + c /\ r < 2 ^ h /\ c < 2 ^ cs.
Proof.
  intros H. exists (k / 2 ^ cs), (k mod 2 ^ cs). pose proof (p2 cs). split; [apply dm_eq; auto|]. split; [apply Nat.div_lt_upper_bound; lia|apply Nat.mod_upper_bound; lia].
Qed.
Lemma cell_lt r c R C : r < R -> c < C -> r * C + c < R * C.
Proof. intros. assert (S r * C <= R * C) by (apply Nat.mul_le_mono_r; lia). cbn in *. lia. Qed.
Lemma cell_inj r c r' c' C : c < C -> c' < C -> r * C + c = r' * C + c' -> r = r' /\ c = c'.
Proof. intros H H' E. destruct (dm r C c H) as [A1 A2]. destruct (dm r' C c' H') as [B1 B2]. rewrite E in A1, A2. split; congruence. Qed.
Lemma chunks_ok h cs arr : h <= 64 -> length arr = 2 ^ h * 2 ^ cs ->
  exists r, in_place_chunks arr h cs = Some r /\ length r = 2 ^ h * 2 ^ cs /\ forall k, k < 2 ^ h * 2 ^ cs -> nth_error r k = nth_error arr (rho h cs k).
Proof.
  intros H64 Ln. set (L := fun i => if i <? brev h i then seq 0 (2 ^ cs) else []).
  set (ps := map (fun p : nat * nat => (fst p * 2 ^ cs + snd p, brev h (fst p) * 2 ^ cs + snd p)) (flat_map (fun i => map (pair i) (L i)) (seq 0 (2 ^ h)))).
  assert (E : in_place_chunks arr h cs = swaps ps arr).
  { unfold in_place_chunks, swaps, ps. rewrite ofold_map. rewrite <- (ofold_nest (fun s x => swap s (fst (fst x * 2 ^ cs + snd x, brev h (fst x) * 2 ^ cs + snd x)) (snd (fst x * 2 ^ cs + snd x, brev h (fst x) * 2 ^ cs + snd x))) (fun i => map (pair i) (L i))).
    apply ofold_ext. intros a i Ii. apply in_seq in Ii. cbv zeta. rewrite rev_shr_ok by lia. rewrite ofold_map. cbn [fst snd]. unfold L. destruct (Nat.ltb_spec i (brev h i)) as [Lt|Ge]; [|reflexivity].
    unfold swap_nonoverlapping. assert (S i * 2 ^ cs <= brev h i * 2 ^ cs) by (apply Nat.mul_le_mono_r; lia). cbn [Nat.mul] in *.
    destruct (Nat.leb_spec (i * 2 ^ cs + 2 ^ cs) (brev h i * 2 ^ cs)); [|lia]. reflexivity. }
  assert (M : forall r c, c < 2 ^ cs -> (In (r * 2 ^ cs + c) (map fst ps) <-> r < 2 ^ h /\ r < brev h r)).
  { intros r c Hc. unfold ps. rewrite map_map. cbn [fst]. rewrite in_map_iff. split.
    - intros ([i t] & E1 & I). apply in_pairs in I. destruct I as [I1 I2]. apply in_seq in I1. unfold L in I2. destruct (Nat.ltb_spec i (brev h i)); [|destruct I2]. apply in_seq in I2.
      cbn [fst snd] in E1. apply cell_inj in E1; [|lia|lia]. destruct E1; subst. lia.
    - intros [H1 H2]. exists (r, c). split; [reflexivity|]. apply in_pairs. split; [apply in_seq; lia|]. unfold L. destruct (Nat.ltb_spec r (brev h r)); [|lia]. apply in_seq. lia. }
  assert (RI : forall k, k < 2 ^ h * 2 ^ cs -> rho h cs k < 2 ^ h * 2 ^ cs /\ rho h cs (rho h cs k) = k).
  { intros k Hk. destruct (split_at h cs k Hk) as (r & c & -> & Hr & Hc). rewrite rho_at by auto. split; [apply cell_lt; auto; apply brev_lt|]. rewrite rho_at by auto. rewrite brev_invol by auto. reflexivity. }
  assert (FS : forall a, In a (map fst ps) -> a < 2 ^ h * 2 ^ cs).
  { intros a I. unfold ps in I. rewrite map_map in I. cbn [fst] in I. apply in_map_iff in I. destruct I as ([i t] & <- & I). apply in_pairs in I. destruct I as [I1 I2]. apply in_seq in I1. unfold L in I2.
    destruct (i <? brev h i); [|destruct I2]. apply in_seq in I2. cbn [fst snd]. apply cell_lt; lia. }
  rewrite E. apply swaps_involution; auto.
  - apply Forall_forall. intros p I. assert (fst p < 2 ^ h * 2 ^ cs) by (apply FS; apply in_map; exact I). split; [auto|]. unfold ps in I. apply in_map_iff in I. destruct I as ([i t] & <- & I).
    apply in_pairs in I. destruct I as [_ I2]. unfold L in I2. destruct (i <? brev h i); [|destruct I2]. apply in_seq in I2. cbn [fst snd]. rewrite rho_at by lia. reflexivity.
  - unfold ps. rewrite map_map. cbn [fst]. apply NoDup_map_in.
    + apply NoDup_pairs; [apply seq_NoDup|]. intros i. unfold L. destruct (i <? brev h i); [apply seq_NoDup|constructor].
    + intros [i t] [i' t'] I I' E1. cbn [fst snd] in E1. apply in_pairs in I. apply in_pairs in I'. destruct I as [_ I]. destruct I' as [_ I']. unfold L in I, I'.
      destruct (i <? brev h i); [|destruct I]. destruct (i' <? brev h i'); [|destruct I']. apply in_seq in I. apply in_seq in I'. apply cell_inj in E1; [|lia|lia]. destruct E1; subst. reflexivity.
  - intros a Ia. pose proof (FS a Ia) as Ha. destruct (split_at h cs a Ha) as (r & c & -> & Hr & Hc). rewrite rho_at by auto. rewrite M by auto. apply M in Ia; auto. rewrite brev_invol by auto. lia.
  - intros k Hk. destruct (split_at h cs k Hk) as (r & c & -> & Hr & Hc). rewrite !rho_at by auto. rewrite !M by auto. rewrite brev_invol by auto. pose proof (brev_lt h r).
    destruct (lt_eq_lt_dec r (brev h r)) as [[|E1]|]; [right; left; auto|left; rewrite <- E1; reflexivity|right; right; auto].
Qed.

(** * The transposition *)
Section Transpose.
Variable cs : nat.
Definition square (s x y : nat) : list (nat * nat) := flat_map (fun i => map (pair i) (seq y (2 ^ s))) (seq x (2 ^ s)).
Definition below (s x : nat) : list (nat * nat) := flat_map (fun i => map (pair i) (seq x (i - x))) (seq (x + 1) (2 ^ s - 1)).
Fixpoint psw (s x y : nat) : list (nat * nat) :=
  match s with
  | S ((S (S (S _))) as b) => psw b x y ++ psw b (x + 2 ^ b) y ++ psw b x (y + 2 ^ b) ++ psw b (x + 2 ^ b) (y + 2 ^ b)
  | _ => square s x y
  end.
Fixpoint pin (s x : nat) : list (nat * nat) :=
  match s with
  | S ((S (S (S _))) as b) => pin b x ++ psw b x (x + 2 ^ b) ++ pin b (x + 2 ^ b)
  | _ => below s x
  end.
Lemma psw_step b x y : 3 <= b -> psw (S b) x y = psw b x y ++ psw b (x + 2 ^ b) y ++ psw b x (y + 2 ^ b) ++ psw b (x + 2 ^ b) (y + 2 ^ b).
Proof. intros H. destruct b as [|[|[|b]]]; [lia|lia|lia|reflexivity]. Qed.
Lemma psw_base s x y : s <= 3 -> psw s x y = square s x y.
Proof. intros H. destruct s as [|[|[|[|s]]]]; try reflexivity. lia. Qed.
Lemma pin_step b x : 3 <= b -> pin (S b) x = pin b x ++ psw b x (x + 2 ^ b) ++ pin b (x + 2 ^ b).
Proof. intros H. destruct b as [|[|[|b]]]; [lia|lia|lia|reflexivity]. Qed.
Lemma pin_base s x : s <= 3 -> pin s x = below s x.
Proof. intros H. destruct s as [|[|[|[|s]]]]; try reflexivity. lia. Qed.
Lemma tsw_step b x y arr : 3 <= b -> transpose_swap_square cs (S b) x y arr =
  (a1 <- transpose_swap_square cs b x y arr ;; a2 <- transpose_swap_square cs b (x + 2 ^ b) y a1 ;; a3 <- transpose_swap_square cs b x (y + 2 ^ b) a2 ;; transpose_swap_square cs b (x + 2 ^ b) (y + 2 ^ b) a3).
Proof. intros H. destruct b as [|[|[|b]]]; [lia|lia|lia|reflexivity]. Qed.
Lemma tsw_base s x y arr : s <= 3 -> transpose_swap_square cs s x y arr = transpose_swap_square_small cs s x y arr.
Proof. intros H. destruct s as [|[|[|[|s]]]]; try reflexivity. lia. Qed.
Lemma tin_step b x arr : 3 <= b -> transpose_in_place_square cs (S b) x arr =
  (a1 <- transpose_in_place_square cs b x arr ;; a2 <- transpose_swap_square cs b x (x + 2 ^ b) a1 ;; transpose_in_place_square cs b (x + 2 ^ b) a2).
Proof. intros H. destruct b as [|[|[|b]]]; [lia|lia|lia|reflexivity]. Qed.
Lemma tin_base s x arr : s <= 3 -> transpose_in_place_square cs s x arr = transpose_in_place_square_small cs s x arr.
Proof. intros H. destruct s as [|[|[|[|s]]]]; try reflexivity. lia. Qed.

Lemma tsw_pairs s : forall x y arr, transpose_swap_square cs s x y arr = ofold (swap_ij cs) (psw s x y) arr.
Proof.
  induction s as [|b IH]; intros x y arr; [|destruct (le_lt_dec 3 b) as [Hb|Hb]].
  2: { rewrite tsw_step, psw_step by auto. rewrite !ofold_app'. rewrite IH. destruct (ofold (swap_ij cs) (psw b x y) arr) as [a1|]; [|reflexivity]. cbn [obind]. rewrite IH, ofold_app'.
       destruct (ofold (swap_ij cs) (psw b (x + 2 ^ b) y) a1) as [a2|]; [|reflexivity]. cbn [obind]. rewrite IH, ofold_app'. destruct (ofold (swap_ij cs) (psw b x (y + 2 ^ b)) a2) as [a3|]; [|reflexivity].
       cbn [obind]. apply IH. }
  all: rewrite tsw_base, psw_base by lia; unfold transpose_swap_square_small, square; rewrite <- ofold_nest; apply ofold_ext; intros; rewrite ofold_map; reflexivity.
Qed.
Lemma tin_pairs s : forall x arr, transpose_in_place_square cs s x arr = ofold (swap_ij cs) (pin s x) arr.
Proof.
  induction s as [|b IH]; intros x arr; [|destruct (le_lt_dec 3 b) as [Hb|Hb]].
  2: { rewrite tin_step, pin_step by auto. rewrite !ofold_app'. rewrite IH. destruct (ofold (swap_ij cs) (pin b x) arr) as [a1|]; [|reflexivity]. cbn [obind]. rewrite tsw_pairs, ofold_app'.
       destruct (ofold (swap_ij cs) (psw b x (x + 2 ^ b)) a1) as [a2|]; [|reflexivity]. cbn [obind]. apply IH. }
  all: rewrite tin_base, pin_base by lia; unfold transpose_in_place_square_small, below; rewrite <- ofold_nest; apply ofold_ext; intros; rewrite ofold_map; reflexivity.
Qed.
Lemma psw_in s : forall x y i j, In (i, j) (psw s x y) <-> (x <= i < x + 2 ^ s) /\ (y <= j < y + 2 ^ s).
Proof.
  induction s as [|b IH]; intros x y i j; [|destruct (le_lt_dec 3 b) as [Hb|Hb]].
  2: { rewrite psw_step, !in_app_iff, !IH, Nat.pow_succ_r' by auto. lia. }
  all: rewrite psw_base by lia; unfold square; rewrite in_pairs, !in_seq; reflexivity.
Qed.
Lemma NoDup_app' {B} (a b : list B) : NoDup a -> NoDup b -> (forall p, In p a -> ~ In p b) -> NoDup (a ++ b).
Proof.
  induction a as [|p a Ga]; intros Ha Hb D; [exact Hb|]. cbn [app]. inversion Ha; subst. constructor.
  - rewrite in_app_iff. intros [|I]; [contradiction|]. exact (D p (or_introl eq_refl) I).
  - apply Ga; auto. intros p' I. apply D. right; auto.
Qed.
Lemma psw_nodup s : forall x y, NoDup (psw s x y).
Proof.
  induction s as [|b IH]; intros x y; [|destruct (le_lt_dec 3 b) as [Hb|Hb]].
  2: { rewrite psw_step by auto. repeat (apply NoDup_app'; auto). all: intros [i j] I; rewrite ?in_app_iff; rewrite !psw_in in *; lia. }
  all: rewrite psw_base by lia; unfold square; apply NoDup_pairs; intros; apply seq_NoDup.
Qed.
Lemma pin_range s : forall x i j, In (i, j) (pin s x) -> (x <= i < x + 2 ^ s) /\ (x <= j < x + 2 ^ s) /\ i <> j.
Proof.
  induction s as [|b IH]; intros x i j; [|destruct (le_lt_dec 3 b) as [Hb|Hb]].
  2: { rewrite pin_step by auto. rewrite !in_app_iff, psw_in, Nat.pow_succ_r'. intros [I|[I|I]]; [apply IH in I; lia|lia|apply IH in I; lia]. }
  all: rewrite pin_base by lia; unfold below; rewrite in_pairs, !in_seq; lia.
Qed.
Lemma pin_one s : forall x i j, In (i, j) (pin s x) -> ~ In (j, i) (pin s x).
Proof.
  induction s as [|b IH]; intros x i j; [|destruct (le_lt_dec 3 b) as [Hb|Hb]].
  2: { rewrite pin_step by auto. rewrite !in_app_iff, !psw_in. intros I J. destruct I as [I|[I|I]]; destruct J as [J|[J|J]].
       all: try (apply (IH _ _ _ I J)). all: try (pose proof (pin_range _ _ _ _ I)); try (pose proof (pin_range _ _ _ _ J)); lia. }
  all: rewrite pin_base by lia; unfold below; rewrite !in_pairs, !in_seq; lia.
Qed.
Lemma pin_all s : forall x i j, x <= i < x + 2 ^ s -> x <= j < x + 2 ^ s -> i <> j -> In (i, j) (pin s x) \/ In (j, i) (pin s x).
Proof.
  induction s as [|b IH]; intros x i j Hi Hj N; [|destruct (le_lt_dec 3 b) as [Hb|Hb]].
  2: { rewrite pin_step by auto. rewrite !in_app_iff, !psw_in. rewrite Nat.pow_succ_r' in *.
       destruct (le_lt_dec (x + 2 ^ b) i) as [Ci|Ci]; destruct (le_lt_dec (x + 2 ^ b) j) as [Cj|Cj].
       - destruct (IH (x + 2 ^ b) i j) as [I|I]; [lia|lia|auto| |]; tauto.
       - right. right. left. lia.
       - left. right. left. lia.
       - destruct (IH x i j) as [I|I]; [lia|lia|auto| |]; tauto. }
  all: rewrite pin_base by lia; unfold below; rewrite !in_pairs, !in_seq; destruct (lt_eq_lt_dec i j) as [[|]|]; [right; lia|congruence|left; lia].
Qed.
Lemma pin_nodup s : forall x, NoDup (pin s x).
Proof.
  induction s as [|b IH]; intros x; [|destruct (le_lt_dec 3 b) as [Hb|Hb]].
  2: { rewrite pin_step by auto. apply NoDup_app'; [apply IH|apply NoDup_app'; [apply psw_nodup|apply IH|]|].
       - intros [i j] I J. apply psw_in in I. apply pin_range in J. lia.
       - intros [i j] I. rewrite in_app_iff, psw_in. apply pin_range in I. intros [J|J]; [lia|]. apply pin_range in J. lia. }
  all: rewrite pin_base by lia; unfold below; apply NoDup_pairs; intros; apply seq_NoDup.
Qed.

Definition tau (h k : nat) : nat :=
  if (k / 2 ^ cs <? 2 ^ h) && (k mod 2 ^ cs <? 2 ^ h) then (k mod 2 ^ cs) * 2 ^ cs + k / 2 ^ cs else k.
Lemma tau_in h r c : r < 2 ^ h -> c < 2 ^ h -> h <= cs -> tau h (r * 2 ^ cs + c) = c * 2 ^ cs + r.
Proof.
  intros Hr Hc H. assert (2 ^ h <= 2 ^ cs) by (apply Nat.pow_le_mono_r; lia). unfold tau. destruct (dm r (2 ^ cs) c ltac:(lia)) as [-> ->].
  destruct (Nat.ltb_spec r (2 ^ h)); [|lia]. destruct (Nat.ltb_spec c (2 ^ h)); [|lia]. reflexivity.
Qed.
Lemma tau_out h r c : c < 2 ^ cs -> 2 ^ h <= c -> tau h (r * 2 ^ cs + c) = r * 2 ^ cs + c.
Proof.
  intros Hc H. unfold tau. destruct (dm r (2 ^ cs) c Hc) as [-> ->]. destruct (Nat.ltb_spec c (2 ^ h)); [lia|]. rewrite andb_false_r. reflexivity.
Qed.
Lemma transpose_ok h arr : h <= cs -> (2 ^ h - 1) * 2 ^ cs + 2 ^ h <= length arr ->
  exists r, transpose_in_place_square cs h 0 arr = Some r /\ length r = length arr /\ forall k, k < length arr -> nth_error r k = nth_error arr (tau h k).
Proof.
  intros H Ln. assert (Hle : 2 ^ h <= 2 ^ cs) by (apply Nat.pow_le_mono_r; lia). pose proof (p2 h) as Hp. pose proof (p2 cs) as Cp.
  set (ps := map (fun p : nat * nat => (snd p * 2 ^ cs + fst p, fst p * 2 ^ cs + snd p)) (pin h 0)).
  assert (E : transpose_in_place_square cs h 0 arr = swaps ps arr).
  { rewrite tin_pairs. unfold swaps, ps. rewrite ofold_map. apply ofold_ext. intros a p _. unfold swap_ij. cbn [fst snd]. f_equal. lia. }
  assert (B : forall r c, r < 2 ^ h -> c < 2 ^ h -> r * 2 ^ cs + c < length arr).
  { intros r c Hr Hc. assert (r * 2 ^ cs <= (2 ^ h - 1) * 2 ^ cs) by (apply Nat.mul_le_mono_r; lia). lia. }
  assert (M : forall r c, r < 2 ^ h -> c < 2 ^ h -> (In (r * 2 ^ cs + c) (map fst ps) <-> In (c, r) (pin h 0))).
  { intros r c Hr Hc. unfold ps. rewrite map_map. cbn [fst]. rewrite in_map_iff. split.
    - intros ([i j] & E1 & I). pose proof (pin_range _ _ _ _ I). cbn [fst snd] in E1. apply cell_inj in E1; [|lia|lia]. destruct E1; subst. exact I.
    - intros I. exists (c, r). split; [reflexivity|exact I]. }
  assert (SP : forall k, (exists r c, k = r * 2 ^ cs + c /\ r < 2 ^ h /\ c < 2 ^ h) \/ tau h k = k).
  { intros k. unfold tau. destruct (Nat.ltb_spec (k / 2 ^ cs) (2 ^ h)); [|right; reflexivity]. destruct (Nat.ltb_spec (k mod 2 ^ cs) (2 ^ h)); [|right; reflexivity].
    left. exists (k / 2 ^ cs), (k mod 2 ^ cs). split; [apply dm_eq; auto|auto]. }
  assert (FS : forall a, In a (map fst ps) -> exists r c, a = r * 2 ^ cs + c /\ r < 2 ^ h /\ c < 2 ^ h /\ In (c, r) (pin h 0)).
  { intros a I. unfold ps in I. rewrite map_map in I. cbn [fst] in I. apply in_map_iff in I. destruct I as ([i j] & <- & I). pose proof (pin_range _ _ _ _ I). exists j, i. cbn [fst snd].
    split; [reflexivity|]. split; [lia|]. split; [lia|exact I]. }
  rewrite E. apply swaps_involution; auto.
  - intros k Hk. destruct (SP k) as [(r & c & -> & Hr & Hc)|E1]; [|rewrite !E1; auto]. rewrite tau_in by auto. split; [apply B; auto|]. apply tau_in; auto.
  - apply Forall_forall. intros p I. unfold ps in I. apply in_map_iff in I. destruct I as ([i j] & <- & I). pose proof (pin_range _ _ _ _ I). cbn [fst snd]. split; [apply B; lia|]. symmetry. apply tau_in; lia.
  - unfold ps. rewrite map_map. cbn [fst]. apply NoDup_map_in; [apply pin_nodup|]. intros [i j] [i' j'] I I' E1. pose proof (pin_range _ _ _ _ I). pose proof (pin_range _ _ _ _ I'). cbn [fst snd] in E1.
    apply cell_inj in E1; [|lia|lia]. destruct E1; subst. reflexivity.
  - intros a Ia. destruct (FS a Ia) as (r & c & -> & Hr & Hc & I). rewrite tau_in by auto. rewrite M by auto. apply pin_one. exact I.
  - intros k Hk. destruct (SP k) as [(r & c & -> & Hr & Hc)|E1]; [|left; exact E1]. rewrite tau_in by auto. rewrite !M by auto. destruct (Nat.eq_dec r c) as [->|N]; [left; reflexivity|].
    right. apply pin_all; lia.
Qed.
End Transpose.

(** * The branch for large arrays *)
Lemma brev_1 m : m < 2 -> brev 1 m = m.
Proof. intros H. destruct m as [|[|m]]; [reflexivity|reflexivity|lia]. Qed.
Lemma large_ok lb arr : lb <= 64 -> length arr = 2 ^ lb ->
  exists r, in_place_large arr lb = Some r /\ length r = 2 ^ lb /\ forall k, k < 2 ^ lb -> nth_error r k = nth_error arr (brev lb k).
Proof.
  intros L64 Ln. unfold in_place_large. cbv zeta. pose proof (Nat.div_mod lb 2 ltac:(lia)) as D. pose proof (Nat.mod_upper_bound lb 2 ltac:(lia)) as Dm.
  set (h := lb / 2) in *. set (cs := lb - h). assert (Hcs : cs = h \/ cs = S h) by (unfold cs; lia). assert (Hlb : lb = cs + h) by (unfold cs; lia). clearbody cs h. clear D Dm.
  assert (Hn : 2 ^ lb = 2 ^ h * 2 ^ cs) by (rewrite Hlb, Nat.pow_add_r; lia). rewrite Hn in *. pose proof (p2 h) as Hp. pose proof (p2 cs) as Cp.
  assert (Hle : 2 ^ h <= 2 ^ cs) by (apply Nat.pow_le_mono_r; lia).
  assert (Hm : 2 ^ h * 2 ^ cs = (2 ^ h - 1) * 2 ^ cs + 2 ^ cs) by (rewrite Nat.mul_sub_distr_r; assert (1 * 2 ^ cs <= 2 ^ h * 2 ^ cs) by (apply Nat.mul_le_mono_r; lia); lia).
  destruct (chunks_ok h cs arr ltac:(lia) Ln) as (a1 & E1 & L1 & N1). rewrite E1. cbn [obind].
  destruct (transpose_ok cs h a1 ltac:(lia) ltac:(lia)) as (a2 & E2 & L2 & N2). rewrite E2. cbn [obind].
  (* the permutation made by the transpositions: row r, half m, column c0 -> row c0, half m, column r *)
  assert (T : exists a3, (if h =? cs then Some a2 else if length a2 <? 2 ^ h then None
                          else t <- transpose_in_place_square cs h 0 (skipn (2 ^ h) a2) ;; Some (firstn (2 ^ h) a2 ++ t)) = Some a3 /\
    length a3 = 2 ^ h * 2 ^ cs /\ forall r m c0, r < 2 ^ h -> c0 < 2 ^ h -> m * 2 ^ h + c0 < 2 ^ cs ->
      nth_error a3 (r * 2 ^ cs + (m * 2 ^ h + c0)) = nth_error a1 (c0 * 2 ^ cs + (m * 2 ^ h + r))).
  { destruct Hcs as [->|Hcs].
    - rewrite Nat.eqb_refl. exists a2. split; [reflexivity|]. split; [congruence|]. intros r m c0 Hr Hc Hmc. assert (m = 0) by (destruct m; [reflexivity|cbn in Hmc; lia]). subst m. rewrite !Nat.mul_0_l, !Nat.add_0_l.
      rewrite N2 by (rewrite L1; apply cell_lt; lia). rewrite tau_in by lia. reflexivity.
    - destruct (Nat.eqb_spec h cs); [lia|]. assert (HC : 2 ^ cs = 2 * 2 ^ h) by (rewrite Hcs, Nat.pow_succ_r'; lia).
      destruct (Nat.ltb_spec (length a2) (2 ^ h)); [lia|].
      assert (Ls : length (skipn (2 ^ h) a2) = 2 ^ h * 2 ^ cs - 2 ^ h) by (rewrite skipn_length; lia).
      destruct (transpose_ok cs h (skipn (2 ^ h) a2) ltac:(lia) ltac:(lia)) as (t & E3 & L3 & N3). rewrite E3. cbn [obind]. eexists. split; [reflexivity|].
      assert (Lf : length (firstn (2 ^ h) a2) = 2 ^ h) by (rewrite firstn_length; lia).
      split; [rewrite app_length, Lf; lia|]. intros r m c0 Hr Hc Hmc. assert (Hm2 : m = 0 \/ m = 1) by (destruct m as [|[|m]]; [auto|auto|cbn in Hmc; lia]).
      pose proof (cell_lt r (m * 2 ^ h + c0) (2 ^ h) (2 ^ cs) Hr Hmc) as Bk. assert (Hmr : m * 2 ^ h + r < 2 ^ cs) by (destruct Hm2; subst m; lia).
      pose proof (cell_lt c0 (m * 2 ^ h + r) (2 ^ h) (2 ^ cs) Hc Hmr) as Bk'.
      assert (Sk : forall k, nth_error (skipn (2 ^ h) a2) k = nth_error a2 (2 ^ h + k)).
      { intros k. rewrite <- (firstn_skipn (2 ^ h) a2) at 2. rewrite nth_error_app2 by lia. rewrite Lf. f_equal. lia. }
      destruct Hm2 as [->| ->].
      + rewrite !Nat.mul_0_l, !Nat.add_0_l in *. destruct r as [|r].
        * rewrite Nat.mul_0_l, Nat.add_0_l in *. rewrite nth_error_app1 by lia. rewrite <- (N2 c0 ltac:(lia)) || idtac.
          assert (F : nth_error (firstn (2 ^ h) a2) c0 = nth_error a2 c0) by (rewrite <- (firstn_skipn (2 ^ h) a2) at 2; rewrite nth_error_app1 by lia; reflexivity).
          rewrite F, N2 by lia. pose proof (tau_in cs h 0 c0 ltac:(lia) Hc ltac:(lia)) as Q. rewrite Nat.mul_0_l, Nat.add_0_l in Q. rewrite Q. reflexivity.
        * cbn [Nat.mul] in *. rewrite nth_error_app2 by lia. rewrite Lf. replace (2 ^ cs + r * 2 ^ cs + c0 - 2 ^ h) with (r * 2 ^ cs + (2 ^ h + c0)) by lia.
          rewrite N3 by lia. rewrite tau_out by lia. rewrite Sk. replace (2 ^ h + (r * 2 ^ cs + (2 ^ h + c0))) with (S r * 2 ^ cs + c0) by (cbn [Nat.mul]; lia).
          rewrite N2 by (cbn [Nat.mul]; lia). rewrite tau_in by lia. reflexivity.
      + rewrite !Nat.mul_1_l in *. rewrite nth_error_app2 by lia. rewrite Lf. replace (r * 2 ^ cs + (2 ^ h + c0) - 2 ^ h) with (r * 2 ^ cs + c0) by lia.
        rewrite N3 by lia. rewrite tau_in by lia. rewrite Sk. replace (2 ^ h + (c0 * 2 ^ cs + r)) with (c0 * 2 ^ cs + (2 ^ h + r)) by lia. rewrite N2 by lia. rewrite tau_out by lia. reflexivity. }
  destruct T as (a3 & E3 & L3 & N3). rewrite E3. cbn [obind]. destruct (chunks_ok h cs a3 ltac:(lia) L3) as (a4 & E4 & L4 & N4). exists a4. split; [exact E4|]. split; [exact L4|].
  intros k Hk. rewrite N4 by exact Hk. destruct (split_at h cs k Hk) as (r & c & -> & Hr & Hc). rewrite rho_at by exact Hc.
  pose proof (brev_lt h r) as Br. pose proof (Nat.mod_upper_bound c (2 ^ h) ltac:(lia)) as Mc. pose proof (dm_eq c (2 ^ h) Hp) as Ec. set (m := c / 2 ^ h) in *. set (c0 := c mod 2 ^ h) in *. clearbody m c0. subst c.
  assert (Hmr : m * 2 ^ h + brev h r < 2 ^ cs) by (destruct Hcs as [->|Hcs]; [destruct m; [lia|cbn in Hc; lia]|rewrite Hcs, Nat.pow_succ_r' in *; destruct m as [|[|m]]; cbn in *; lia]).
  rewrite N3 by auto. rewrite N1 by (apply cell_lt; auto). rewrite rho_at by exact Hmr. f_equal. rewrite Hlb, brev_split by exact Hc.
  destruct Hcs as [->|Hcs].
  - assert (m = 0) by (destruct m; [reflexivity|cbn in Hc; lia]). subst m. rewrite !Nat.mul_0_l, !Nat.add_0_l. reflexivity.
  - assert (Hm2 : m < 2) by (rewrite Hcs, Nat.pow_succ_r' in Hc; destruct m as [|[|m]]; [lia|lia|cbn in Hc; lia]).
    replace cs with (h + 1) at 2 by lia. rewrite brev_split by exact Mc. rewrite brev_1 by exact Hm2. rewrite Hcs, Nat.pow_succ_r'. change (2 ^ 1) with 2. lia.
Qed.
Lemma log2_strict_some n k : log2_strict n = Some k -> n = 2 ^ k.
Proof.
  unfold log2_strict. destruct (is_pow2 n) eqn:E; [|discriminate]. intros H. injection H as <-. apply is_pow2_iff in E. destruct E as [j ->]. rewrite Nat.log2_pow2 by lia. reflexivity.
Qed.
Lemma in_place_with_ok small size arr lb : (forall a, length a = 2 ^ lb ->
    exists r, small a lb = Some r /\ length r = 2 ^ lb /\ forall k, k < 2 ^ lb -> nth_error r k = nth_error a (brev lb k)) ->
  lb <= 64 -> length arr = 2 ^ lb ->
  exists r, in_place_with small size arr = Some r /\ length r = 2 ^ lb /\ forall k, k < 2 ^ lb -> nth_error r k = nth_error arr (brev lb k).
Proof.
  intros Hs L64 Ln. unfold in_place_with. rewrite Ln, log2_strict_pow. cbn [obind].
  destruct (N.leb_spec (size * 2 ^ N.of_nat lb) 65536); [cbn [orb]; apply Hs; exact Ln|]. destruct (N.leb_spec 16384 size); [cbn [orb]; apply Hs; exact Ln|]. cbn [orb].
  destruct (Nat.ltb_spec (2 ^ lb) 4) as [L4|G4]; [|apply large_ok; auto]. exfalso.
  assert (lb = 0 \/ lb = 1) as [->| ->] by (destruct lb as [|[|lb]]; [auto|auto|rewrite !Nat.pow_succ_r' in L4; pose proof (p2 lb); lia]).
  - change (2 ^ N.of_nat 0)%N with 1%N in *. lia.
  - change (2 ^ N.of_nat 1)%N with 2%N in *. lia.
Qed.
End Swaps.

(** * All versions agree *)
Section Final.
Context {A : Type}.
Implicit Types l : list A.
Lemma eq_by_nth l r k : length l = 2 ^ k -> length r = 2 ^ k -> (forall i, i < 2 ^ k -> nth_error r i = nth_error l (brev k i)) -> M_Code.reverse_index_bits l = Some r.
Proof.
  intros Ll Lr H. unfold M_Code.reverse_index_bits. rewrite Ll, log2_strict_pow. cbn [obind]. rewrite <- Lr. 
  assert (G : forall q b, (forall i, i < length q -> nth_error q i = nth_error l (M_Code.reverse_bits k (b + i))) -> omapM (fun i => nth_error l (M_Code.reverse_bits k i)) (seq b (length q)) = Some q).
  { induction q as [|x q IH]; intros b Hq; [reflexivity|]. cbn [length seq omapM]. pose proof (Hq 0 ltac:(cbn; lia)) as H0. rewrite Nat.add_0_r in H0. cbn [nth_error] in H0. rewrite <- H0. cbn [obind].
    rewrite IH; [reflexivity|]. intros i Hi. pose proof (Hq (S i) ltac:(cbn; lia)) as H1. cbn [nth_error] in H1. rewrite H1. do 2 f_equal. lia. }
  apply G. intros i Hi. rewrite Nat.add_0_l. rewrite Lr in Hi. apply H. exact Hi.
Qed.
Lemma word_bound l lb : (N.of_nat (length l) < 2 ^ 64)%N -> length l = 2 ^ lb -> lb <= 64.
Proof.
  intros W E. destruct (le_lt_dec lb 64) as [|G]; [assumption|exfalso]. rewrite E, Nat2N.inj_pow in W. change (N.of_nat 2) with 2%N in W.
  apply N.pow_lt_mono_r_iff in W; lia.
Qed.
Lemma in_place_eq size l : (N.of_nat (length l) < 2 ^ 64)%N -> reverse_index_bits_in_place size l = M_Code.reverse_index_bits l.
Proof.
  intros W. destruct (log2_strict (length l)) as [k|] eqn:E.
  - apply log2_strict_some in E. pose proof (word_bound l k W E) as K. unfold reverse_index_bits_in_place.
    destruct (in_place_with_ok in_place_small size l k) as (r & Er & Lr & Nr); [intros a La; apply small_ok; auto|exact K|exact E|]. rewrite Er. symmetry. apply (eq_by_nth l r k); auto.
  - unfold reverse_index_bits_in_place, in_place_with, M_Code.reverse_index_bits. rewrite E. reflexivity.
Qed.
Lemma in_place_aarch64_eq size l : (N.of_nat (length l) < 2 ^ 64)%N -> reverse_index_bits_in_place_aarch64 size l = M_Code.reverse_index_bits l.
Proof.
  intros W. destruct (log2_strict (length l)) as [k|] eqn:E.
  - apply log2_strict_some in E. pose proof (word_bound l k W E) as K. unfold reverse_index_bits_in_place_aarch64.
    destruct (in_place_with_ok in_place_small_aarch64 size l k) as (r & Er & Lr & Nr); [intros a La; apply small_aarch64_ok; auto|exact K|exact E|]. rewrite Er. symmetry. apply (eq_by_nth l r k); auto.
  - unfold reverse_index_bits_in_place_aarch64, in_place_with, M_Code.reverse_index_bits. rewrite E. reflexivity.
Qed.
Lemma omapM_ext {B C} (f g : B -> option C) (l : list B) : (forall x, In x l -> f x = g x) -> omapM f l = omapM g l.
Proof. induction l as [|x l IH]; intros H; [reflexivity|]. cbn [omapM]. rewrite (H x (or_introl eq_refl)), IH; [reflexivity|]. intros; apply H; right; auto. Qed.
Lemma omapM_app {B C} (f : B -> option C) a b : omapM f (a ++ b) = (x <- omapM f a ;; y <- omapM f b ;; Some (x ++ y)).
Proof.
  induction a as [|u a IH]; [cbn; destruct (omapM f b); reflexivity|]. cbn [app omapM]. destruct (f u); [|reflexivity]. cbn [obind]. rewrite IH.
  destruct (omapM f a); [|reflexivity]. cbn [obind]. destruct (omapM f b); reflexivity.
Qed.
Lemma omapM_map {B C D} (f : C -> option D) (g : B -> C) (l : list B) : omapM f (map g l) = omapM (fun x => f (g x)) l.
Proof. induction l as [|x l IH]; [reflexivity|]. cbn [map omapM]. rewrite IH. reflexivity. Qed.
Lemma omapM_concat {B C D} (f : C -> option D) (L : B -> list C) (l : list B) : (r <- omapM (fun i => omapM f (L i)) l ;; Some (concat r)) = omapM f (flat_map L l).
Proof.
  induction l as [|x l IH]; [reflexivity|]. cbn [omapM flat_map]. rewrite omapM_app, <- IH. destruct (omapM f (L x)); [|reflexivity]. cbn [obind].
  destruct (omapM (fun i => omapM f (L i)) l); reflexivity.
Qed.
Lemma copy_eq l : (N.of_nat (length l) < 2 ^ 64)%N -> reverse_index_bits_copy l = M_Code.reverse_index_bits l.
Proof.
  intros W. unfold reverse_index_bits_copy, M_Code.reverse_index_bits. destruct (log2_strict (length l)) as [k|] eqn:E; [|reflexivity]. cbn [obind].
  apply log2_strict_some in E. pose proof (word_bound l k W E) as K. destruct (Nat.leb_spec k 6).
  - unfold reverse_index_bits_small. apply omapM_ext. intros i I. apply in_seq in I. rewrite E in I.
    assert (2 ^ k <= 2 ^ 6) by (apply Nat.pow_le_mono_r; lia). change (2 ^ 6) with 64 in *. rewrite table_ok by lia. cbn [obind]. rewrite brev_shift_down by lia. reflexivity.
  - assert (E64 : 2 ^ k = 2 ^ (k - 6) * 64) by (change 64 with (2 ^ 6); rewrite <- Nat.pow_add_r; f_equal; lia).
    unfold reverse_index_bits_large. rewrite E, E64, Nat.div_mul by lia. change (seq 0 (2 ^ (k - 6) * 64)) with (seq (0 * 64) (2 ^ (k - 6) * 64)). rewrite <- flat_seq, <- omapM_concat.
    f_equal. apply omapM_ext. intros c Ic. apply in_seq in Ic. cbv zeta. rewrite omapM_map. apply omapM_ext. intros t It. apply in_seq in It. rewrite table_ok by lia. cbn [obind]. f_equal.
    change M_Code.reverse_bits with brev. replace k with (6 + (k - 6)) at 3 by lia. change 64 with (2 ^ 6) at 1. rewrite brev_split by (change (2 ^ 6) with 64; lia). rewrite rev_shr_ok by lia. reflexivity.
Qed.
Lemma brev_testbit k : forall i b, b < k -> Nat.testbit (brev k i) b = Nat.testbit i (k - 1 - b).
Proof.
  induction k as [|k IH]; intros i b Hb; [lia|]. cbn [brev]. pose proof (brev_lt k (i / 2)) as Lt.
  destruct (Nat.eq_dec b k) as [->|N].
  - replace (S k - 1 - k) with 0 by lia. rewrite !Nat.testbit_eqb. destruct (dm (i mod 2) (2 ^ k) (brev k (i / 2)) Lt) as [-> _]. rewrite Nat.pow_0_r, Nat.div_1_r, Nat.mod_mod by lia. reflexivity.
  - rewrite <- (Nat.mod_pow2_bits_low _ k) by lia. destruct (dm (i mod 2) (2 ^ k) (brev k (i / 2)) Lt) as [_ ->]. rewrite IH by lia.
    replace (S k - 1 - b) with (S (k - 1 - b)) by lia. rewrite !Nat.testbit_eqb. rewrite Nat.div_div, <- Nat.pow_succ_r' by (try apply Nat.pow_nonzero; lia). reflexivity.
Qed.
(** A specification without the model's reversal: the index of the element that ends at [i] has the bits of [i] in the opposite order. *)
Definition reversed (k i j : nat) : Prop := j < 2 ^ k /\ forall b, b < k -> Nat.testbit j b = Nat.testbit i (k - 1 - b).
Lemma code_spec l r k i j : length l = 2 ^ k -> M_Code.reverse_index_bits l = Some r -> i < 2 ^ k -> reversed k i j -> nth_error r i = nth_error l j.
Proof.
  intros Ll E Hi [Hj B]. assert (J : j = brev k i).
  { apply Nat.bits_inj. intros b. destruct (le_lt_dec k b) as [G|G]; [|rewrite B, brev_testbit by auto; reflexivity].
    assert (Z : forall n, n < 2 ^ k -> Nat.testbit n b = false).
    { intros n Hn. rewrite Nat.testbit_eqb. rewrite Nat.div_small; [reflexivity|]. pose proof (Nat.pow_le_mono_r 2 k b). lia. }
    rewrite !Z by (auto; apply brev_lt). reflexivity. }
  subst j. unfold M_Code.reverse_index_bits in E. rewrite Ll, log2_strict_pow in E. cbn [obind] in E.
  assert (G : forall n q b, omapM (fun i => nth_error l (M_Code.reverse_bits k i)) (seq b n) = Some q -> forall i, i < n -> nth_error q i = nth_error l (brev k (b + i))).
  { induction n as [|n IH]; intros q b Eq i0 H0; [lia|]. cbn [seq omapM] in Eq. destruct (nth_error l (M_Code.reverse_bits k b)) as [x|] eqn:Ex; [|discriminate]. cbn [obind] in Eq.
    destruct (omapM (fun i => nth_error l (M_Code.reverse_bits k i)) (seq (S b) n)) as [q'|] eqn:Eq'; [|discriminate]. injection Eq as <-.
    destruct i0 as [|i0]; cbn [nth_error]; [rewrite Nat.add_0_r; symmetry; exact Ex|]. rewrite (IH q' (S b) Eq' i0) by lia. do 2 f_equal. lia. }
  rewrite (G _ _ _ E i Hi). reflexivity.
Qed.
Lemma in_place_spec size l r k i j : length l = 2 ^ k -> (N.of_nat (length l) < 2 ^ 64)%N -> reverse_index_bits_in_place size l = Some r -> i < 2 ^ k -> reversed k i j -> nth_error r i = nth_error l j.
Proof. intros Ll W. rewrite in_place_eq by exact W. apply code_spec. exact Ll. Qed.
Lemma in_place_total size l : (N.of_nat (length l) < 2 ^ 64)%N -> ((exists r, reverse_index_bits_in_place size l = Some r) <-> exists k, length l = 2 ^ k).
Proof.
  intros W. rewrite in_place_eq by exact W. split.
  - intros [r E]. unfold M_Code.reverse_index_bits in E. destruct (log2_strict (length l)) as [k|] eqn:Ek; [|discriminate]. exists k. apply log2_strict_some. exact Ek.
  - intros [k E]. exists (br k l). apply reverse_ok. exact E.
Qed.
Lemma in_place_involutive size size' l r : (N.of_nat (length l) < 2 ^ 64)%N -> reverse_index_bits_in_place size l = Some r -> length r = length l /\ reverse_index_bits_in_place size' r = Some l.
Proof.
  intros W E. destruct (proj1 (in_place_total size l W) (ex_intro _ r E)) as [k Lk]. rewrite in_place_eq in E by exact W. rewrite (reverse_ok l k Lk) in E. injection E as <-.
  assert (Lb : length (br k l) = 2 ^ k) by (apply br_length; exact Lk). split; [congruence|]. rewrite in_place_eq by (rewrite Lb, <- Lk; exact W). rewrite (reverse_ok _ k Lb), br_invol by exact Lk. reflexivity.
Qed.
Lemma transpose_spec lb_stride lb_size l : lb_size <= lb_stride -> (2 ^ lb_size - 1) * 2 ^ lb_stride + 2 ^ lb_size <= length l ->
  exists r, transpose_in_place_square lb_stride lb_size 0 l = Some r /\ length r = length l /\
    (forall i j, i < 2 ^ lb_size -> j < 2 ^ lb_size -> nth_error r (i * 2 ^ lb_stride + j) = nth_error l (j * 2 ^ lb_stride + i)) /\
    (forall i j, j < 2 ^ lb_stride -> 2 ^ lb_size <= i \/ 2 ^ lb_size <= j -> nth_error r (i * 2 ^ lb_stride + j) = nth_error l (i * 2 ^ lb_stride + j)).
Proof.
  intros H Ln. destruct (transpose_ok lb_stride lb_size l H Ln) as (r & E & Lr & N). exists r. split; [exact E|]. split; [exact Lr|]. split.
  - intros i j Hi Hj. rewrite N; [rewrite tau_in by auto; reflexivity|]. assert (i * 2 ^ lb_stride <= (2 ^ lb_size - 1) * 2 ^ lb_stride) by (apply Nat.mul_le_mono_r; lia). lia.
  - intros i j Hj Ho. destruct (le_lt_dec (length l) (i * 2 ^ lb_stride + j)) as [G|G].
    + rewrite (proj2 (nth_error_None r _)) by lia. rewrite (proj2 (nth_error_None l _)) by lia. reflexivity.
    + rewrite N by exact G. f_equal. unfold tau. destruct (dm i (2 ^ lb_stride) j Hj) as [-> ->].
      destruct (Nat.ltb_spec i (2 ^ lb_size)); destruct (Nat.ltb_spec j (2 ^ lb_size)); cbn [andb]; try reflexivity; lia.
Qed.
End Final.
