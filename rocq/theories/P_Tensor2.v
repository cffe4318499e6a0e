(** Padding: [pad_to_shape] and the power-of-two padding keep every entry at its multi-index. *)
From Coq Require Import List Arith Lia Bool ZArith.
From Verif Require Import ListAux FieldDef M_Mle M_Tensor P_Interp P_Graph4 P_LogUp3 P_Tensor.
Import ListNotations.

(** *** Specification of padding with the value [d]. *)
Definition padded_with {A} (d : A) (t : ten A) (ns : list nat) (t' : ten A) : Prop :=
  sh t' = ns /\ wft t' /\
  forall idx, inb ns idx ->
    (inb (sh t) idx -> entry d t' idx = entry d t idx) /\ (~ inb (sh t) idx -> entry d t' idx = d).

Lemma padded_with_unique {A} (d : A) t ns t1 t2 : padded_with d t ns t1 -> padded_with d t ns t2 -> t1 = t2.
Proof.
  intros (S1 & W1 & E1) (S2 & W2 & E2). apply (ten_ext d); auto; [congruence|]. intros idx H. rewrite S1 in H.
  destruct (E1 idx H) as [A1 B1]. destruct (E2 idx H) as [A2 B2].
  destruct (inb_dec (sh t) idx) as [I|I]; [rewrite A1, A2|rewrite B1, B2]; auto.
Qed.

Lemma inb_mono s n idx : Forall2 le s n -> inb s idx -> inb n idx.
Proof. intros F. revert idx. induction F; intros idx H'; inversion H'; subst; constructor; [lia|]. apply IHF; auto. Qed.

Lemma rev_map_combine (f : nat * nat -> nat) a b : length a = length b -> rev (map f (combine a b)) = map f (combine (rev a) (rev b)).
Proof.
  revert b. induction a as [|x a IH]; intros [|y b] H; try discriminate; [reflexivity|]. cbn [combine map rev].
  rewrite IH by (cbn in H; lia).
  assert (G : forall (u v : list nat) x y, length u = length v -> combine (u ++ [x]) (v ++ [y]) = combine u v ++ [(x, y)]).
  { clear. induction u as [|p u IH]; intros [|q v] x y H; try discriminate; [reflexivity|]. cbn. f_equal. apply IH. cbn in H; lia. }
  rewrite G by (rewrite !rev_length; cbn in H; lia). rewrite map_app. reflexivity.
Qed.
Lemma Forall2_le_len {A B} (R : A -> B -> Prop) l l' : Forall2 R l l' -> length l = length l'. Proof. induction 1; cbn; auto. Qed.

Lemma distance_ok s n : Forall2 le s n ->
  omapM (fun p => csub (snd p) (fst p)) (combine s n) = Some (map (fun p => snd p - fst p) (combine s n)).
Proof.
  induction 1; [reflexivity|]. cbn [combine omapM fst snd map]. unfold csub at 1. destruct (Nat.leb_spec x y); [|lia]. cbn [obind].
  rewrite IHForall2. reflexivity.
Qed.
Lemma coord_ok s : Forall (lt 0) s -> omapM (fun v => csub v 1) s = Some (map pred s).
Proof. induction 1; [reflexivity|]. cbn [omapM map]. unfold csub at 1. destruct (Nat.leb_spec 1 x); [|lia]. cbn [obind]. rewrite IHForall. cbn [obind]. do 2 f_equal. lia. Qed.
Lemma rdist_ok : forall rs rn u, length rs = length rn ->
  map (fun p => fst p * snd p) (combine (map (fun p => snd p - fst p) (combine rs rn)) (scan_mul u rn)) = rdist u rs rn.
Proof. induction rs as [|a rs IH]; intros [|b rn] u H; try discriminate; [reflexivity|]. cbn. f_equal. apply IH. cbn in H; lia. Qed.
Lemma rdig_last : forall rs, Forall (lt 0) rs -> rdig rs (sprod rs - 1) = map pred rs.
Proof.
  induction 1 as [|a rs Ha H IH]; [reflexivity|]. rewrite sprod_cons. cbn [rdig map].
  assert (P : 0 < sprod rs) by (apply sprod_pos; auto).
  assert (E : a * sprod rs - 1 = a * (sprod rs - 1) + (a - 1)). { rewrite Nat.mul_sub_distr_l. assert (a <= a * sprod rs) by (destruct (sprod rs); lia). lia. }
  f_equal.
  - symmetry. apply (Nat.mod_unique _ a (sprod rs - 1) (pred a)); lia.
  - rewrite <- IH. f_equal. symmetry. apply (Nat.div_unique _ a (sprod rs - 1) (a - 1)); lia.
Qed.

(** Chunks of a vector whose length is a multiple of the chunk size. *)
Lemma skipn_skipn' {A} : forall a b (l : list A), skipn a (skipn b l) = skipn (a + b) l.
Proof. intros a b. revert a. induction b as [|b IH]; intros a l; [rewrite Nat.add_0_r; reflexivity|]. rewrite Nat.add_succ_r. destruct l as [|x l]; cbn [skipn]; [destruct a; reflexivity|]. apply IH. Qed.
Lemma chunks_fuel_nth {A} c : 0 < c -> forall k fuel (data : list A), length data <= fuel -> length data = k * c ->
  length (chunks_fuel fuel c data) = k /\ forall i, i < k -> nth_error (chunks_fuel fuel c data) i = Some (firstn c (skipn (i * c) data)).
Proof.
  intros Hc. induction k as [|k IHk]; intros fuel data Hf Hk.
  - destruct data; [|cbn in Hk; lia]. destruct fuel; cbn; split; auto; lia.
  - destruct data as [|x data]; [cbn in Hk; lia|]. destruct fuel as [|fuel]; [cbn in Hf; lia|]. cbn [chunks_fuel].
    destruct (IHk fuel (skipn c (x :: data))) as [I1 I2].
    + rewrite skipn_length. cbn [length] in *. lia.
    + rewrite skipn_length. lia.
    + cbn [length]. split; [lia|]. intros [|i] Hi; [reflexivity|]. cbn [nth_error]. rewrite I2 by lia.
      rewrite skipn_skipn'. do 2 f_equal. f_equal. lia.
Qed.
Lemma chunks_nth {A} c k (data : list A) : 0 < c -> length data = k * c ->
  length (chunks c data) = k /\ forall i, i < k -> nth_error (chunks c data) i = Some (firstn c (skipn (i * c) data)).
Proof. intros Hc H. apply chunks_fuel_nth; auto. Qed.
Lemma chunk_len {A} c k i (data : list A) : length data = k * c -> i < k -> length (firstn c (skipn (i * c) data)) = c.
Proof. intros H Hi. rewrite firstn_length, skipn_length, H. assert (S i * c <= k * c) by (apply Nat.mul_le_mono_r; lia). lia. Qed.

Section Pad.
Context {A : Type}.
Variable zero : A.
Implicit Types t : ten A.

Lemma resize_nth_gen {B} n (d : B) l : length l <= n -> length (resize n d l) = n /\
  (forall i, i < length l -> nth_error (resize n d l) i = nth_error l i) /\ (forall i, length l <= i < n -> nth_error (resize n d l) i = Some d).
Proof.
  intros H. unfold resize. rewrite firstn_all2 by auto. rewrite app_length, repeat_length. repeat split; [lia| |].
  - intros i Hi. apply nth_error_app1; auto.
  - intros i Hi. rewrite nth_error_app2 by lia. apply nth_error_repeat. lia.
Qed.
Lemma resize_nth n (d : A) l : length l <= n -> length (resize n d l) = n /\
  (forall i, i < length l -> nth i (resize n d l) d = nth i l d) /\ (forall i, length l <= i -> nth i (resize n d l) d = d).
Proof.
  intros H. unfold resize. rewrite firstn_all2 by auto. rewrite app_length, repeat_length. repeat split; [lia| |].
  - intros i Hi. apply app_nth1; auto.
  - intros i Hi. rewrite app_nth2 by auto. apply nth_repeat.
Qed.

Lemma F2_conj s n : Forall (lt 0) s -> Forall2 le s n -> Forall2 (fun a b => 0 < a <= b) s n.
Proof. intros P F. induction F; inversion P; subst; constructor; auto. Qed.

Theorem pad_to_shape_ok t ns : wft t -> Forall (lt 0) (sh t) -> Forall2 le (sh t) ns ->
  exists t', pad_to_shape zero t ns = Some t' /\ padded_with zero t ns t'.
Proof.
  intros W P F. set (s := sh t) in *. assert (Hl := Forall2_le_len _ _ _ F).
  unfold pad_to_shape. fold s. rewrite <- Hl, Nat.eqb_refl, (distance_ok _ _ F). cbn [obind]. rewrite (coord_ok _ P). cbn [obind]. cbv zeta.
  rewrite rev_map_combine by (rewrite map_length, combine_length, strides_len; lia).
  assert (Hrd : rev (map (fun p => snd p - fst p) (combine s ns)) = map (fun p => snd p - fst p) (combine (rev s) (rev ns))) by (apply rev_map_combine; auto).
  rewrite Hrd. assert (Hst : rev (strides ns) = scan_mul 1 (rev ns)) by (unfold strides; apply rev_involutive). rewrite Hst, rdist_ok by (rewrite !rev_length; auto).
  change (fold_right Nat.add 0 (map (fun p => fst p * snd p) (combine (map pred s) (strides ns)))) with (dot (map pred s) (strides ns)).
  rewrite strides_flat by (rewrite map_length; auto).
  assert (F' : Forall2 (fun a b => 0 < a <= b) (rev s) (rev ns)) by (apply Forall2_rev', F2_conj; auto).
  assert (P' : Forall (lt 0) (rev s)) by (apply Forall_rev; auto).
  assert (Hc : rev (map pred s) = rdig (rev s) (sprod s - 1)). { rewrite <- map_rev, <- rdig_last, sprod_rev by auto. reflexivity. }
  assert (Ht : forall i, length i = length s -> flat ns i = rval (rev ns) (rev i)).
  { intros i Hi. rewrite rval_flat by (rewrite !rev_length; lia). rewrite !rev_involutive. reflexivity. }
  rewrite Ht by (rewrite map_length; auto). rewrite Hc.
  assert (Hp : 0 < sprod s) by (apply sprod_pos; auto).
  assert (Hpn : sprod s <= sprod ns).
  { assert (G := rtgt_ge _ _ F' (sprod s - 1)). rewrite sprod_rev in G. specialize (G ltac:(lia)).
    assert (G' := rtgt_lt (rev s) (rev ns) (sprod s - 1) F'). rewrite sprod_rev in G'. lia. }
  destruct (resize_nth (sprod ns) zero (dat t)) as (R1 & R2 & R3); [rewrite W; exact Hpn|].
  assert (Wl : length (dat t) = sprod s) by exact W.
  destruct (pad_loop_ok zero (rev s) (rev ns) (dat t) F' (sprod s - 1) (resize (sprod ns) zero (dat t))) as (d' & E & L & D1 & D2).
  { rewrite sprod_rev. lia. }
  { rewrite !sprod_rev. split; [auto|]. split; [intros; apply R2; lia|]. split; [intros; lia|]. intros; apply R3; lia. }
  replace (S (sprod s - 1)) with (sprod s) in E by lia. unfold rtgt at 1 in E. rewrite E. cbn [obind].
  eexists; split; [reflexivity|]. rewrite !sprod_rev in *. split; [reflexivity|]. split; [exact L|].
  intros idx Hi. unfold entry. cbn [sh dat]. split; intros Hs.
  - fold s. fold s in Hs. rewrite (Ht idx) by (apply inb_len; auto).
    rewrite <- (unflat_flat s idx Hs) at 1. rewrite unflat_rdig by (apply flat_lt; auto). apply D1. apply flat_lt; auto.
  - fold s in Hs. apply D2; [apply flat_lt; auto|]. intros q Hq Hcon. apply Hs. unfold rtgt in Hcon.
    rewrite <- unflat_rdig in Hcon by auto.
    assert (Hu := unflat_inb s q Hq). rewrite <- Ht in Hcon by (apply inb_len; auto).
    apply flat_inj in Hcon; [subst; auto|apply (inb_mono s); auto|auto].
Qed.

Lemma pad_to_shape_rejects t ns : length ns <> length (sh t) \/ Exists (fun p => snd p < fst p) (combine (sh t) ns) \/ Exists (eq 0) (sh t) ->
  pad_to_shape zero t ns = None.
Proof.
  intros H. unfold pad_to_shape. destruct (Nat.eqb_spec (length ns) (length (sh t))) as [El|]; [|reflexivity].
  destruct H as [H|[H|H]]; [contradiction| |].
  - assert (E : omapM (fun p => csub (snd p) (fst p)) (combine (sh t) ns) = None).
    { induction H as [p l H|p l H IH]; cbn [omapM].
      - unfold csub at 1. destruct (Nat.leb_spec (fst p) (snd p)); [lia|reflexivity].
      - rewrite IH. destruct (csub (snd p) (fst p)); reflexivity. }
    rewrite E. reflexivity.
  - assert (E : omapM (fun v => csub v 1) (sh t) = None).
    { clear El. induction H as [p l H|p l H IH]; cbn [omapM].
      - subst p. reflexivity.
      - rewrite IH. destruct (csub p 1); reflexivity. }
    rewrite E. destruct (omapM _ (combine (sh t) ns)); reflexivity.
Qed.

(** *** Padding to powers of two *)
Lemma npow2_ge n : n <= npow2 n.
Proof. unfold npow2. destruct n; [lia|]. destruct (Nat.le_gt_cases (S n) 1); [assert (n = 0) by lia; subst; cbn; lia|]. apply Nat.log2_up_spec. lia. Qed.
Lemma npow2_pos n : 0 < npow2 n. Proof. apply pow2_pos. Qed.
Lemma is_pow2_npow2 n : is_pow2 n = true -> npow2 n = n.
Proof.
  unfold is_pow2. rewrite andb_true_iff. intros [H1 H2]. apply Nat.ltb_lt in H1. apply Nat.eqb_eq in H2.
  unfold npow2. rewrite <- H2 at 1. rewrite Nat.log2_up_pow2 by lia. auto.
Qed.
Lemma is_pow2_of n : is_pow2 (npow2 n) = true.
Proof.
  unfold is_pow2. rewrite andb_true_iff. split; [apply Nat.ltb_lt, npow2_pos|]. apply Nat.eqb_eq. unfold npow2. rewrite Nat.log2_pow2 by lia. reflexivity.
Qed.
Lemma npow2_least n m : n <= 2 ^ m -> npow2 n <= 2 ^ m.
Proof. intros H. unfold npow2. apply Nat.pow_le_mono_r; [lia|]. rewrite <- (Nat.log2_up_pow2 m) by lia. apply Nat.log2_up_le_mono; auto. Qed.

(** [is_padded pv dims data data']: at every new multi-index the old entry, or the padding value. *)
Definition is_padded (pv : A) (dims ns : list nat) (data data' : list A) : Prop :=
  length data' = sprod ns /\ forall idx, inb ns idx ->
    (inb dims idx -> nth (flat ns idx) data' pv = nth (flat dims idx) data pv) /\
    (~ inb dims idx -> nth (flat ns idx) data' pv = pv).

Lemma recursive_pad_ok (pv : A) : forall dims data, dims <> [] -> Forall (lt 0) dims -> length data = sprod dims ->
  exists data', recursive_pad pv dims data = Some data' /\ is_padded pv dims (shape_npow2 dims) data data'.
Proof.
  induction dims as [|n rest IH]; intros data Hne P HL; [contradiction|]. inversion P as [|? ? Hn Pr]; subst.
  destruct rest as [|m rest].
  - cbn [recursive_pad]. eexists; split; [reflexivity|]. cbn [sprod fold_right] in HL.
    assert (Hge := npow2_ge n). split.
    + rewrite firstn_length, app_length, repeat_length. cbn. lia.
    + intros idx Hi. inversion Hi as [|i s' idx' l' Hin Hr]; subst. inversion Hr; subst. unfold shape_npow2. cbn [map]. rewrite !flat_cons. cbn [sprod fold_right flat map]. rewrite !Nat.mul_1_r, !Nat.add_0_r.
      rewrite nth_firstn_lt by lia. split.
      * intros Hs. inversion Hs; subst. rewrite app_nth1 by lia. reflexivity.
      * intros Hs. assert (~ i < n) by (intros G; apply Hs; constructor; auto). rewrite app_nth2 by lia. apply nth_repeat.
  - set (rs := m :: rest) in *.
    assert (Pr' : 0 < sprod rs) by (apply sprod_pos; auto).
    assert (Er : recursive_pad pv (n :: rs) data = (cs <- ochunks (sprod rs) data ;; us <- omapM (recursive_pad pv rs) cs ;;
      u0 <- nth_error us 0 ;; Some (concat (resize (npow2 n) (repeat pv (length u0)) us)))) by reflexivity.
    rewrite Er. unfold ochunks. destruct (Nat.eqb_spec (sprod rs) 0); [lia|]. cbn [obind].
    rewrite sprod_cons in HL.
    assert (Cl := chunks_nth (sprod rs) n data Pr' HL).
    destruct Cl as [Cl1 Cl2]. set (cs := chunks (sprod rs) data) in *.
    assert (Hcs : forall c, In c cs -> exists d', recursive_pad pv rs c = Some d' /\ is_padded pv rs (shape_npow2 rs) c d').
    { intros c Hin. apply In_nth_error in Hin. destruct Hin as [i Hi]. assert (i < n) by (rewrite <- Cl1; apply nth_error_Some; congruence).
      rewrite Cl2 in Hi by auto. injection Hi as <-. apply IH; auto; [discriminate|].
      apply (chunk_len _ n); auto. }
    destruct (omapM_some (recursive_pad pv rs) cs) as [us Eus]; [intros c Hc; destruct (Hcs c Hc) as (d' & Hd & _); eauto|].
    rewrite Eus. cbn [obind]. destruct (omapM_nth _ _ _ Eus) as [Ul Un].
    assert (Hu : forall i, i < n -> exists u, nth_error us i = Some u /\ is_padded pv rs (shape_npow2 rs) (firstn (sprod rs) (skipn (i * sprod rs) data)) u).
    { intros i Hi. specialize (Cl2 i Hi). destruct (Un i _ Cl2) as (u & Hu1 & Hu2). exists u. split; auto.
      destruct (Hcs _ (nth_error_In _ _ Cl2)) as (d' & Hd & Hp). congruence. }
    destruct (Hu 0 Hn) as (u0 & Hu0 & Hp0). rewrite Hu0. cbn [obind]. eexists; split; [reflexivity|].
    set (M := sprod (shape_npow2 rs)). assert (Lu0 : length u0 = M) by apply Hp0. rewrite Lu0.
    assert (Hge := npow2_ge n).
    destruct (resize_nth_gen (npow2 n) (repeat pv M) us) as (R1 & R2 & R3); [lia|].
    assert (Hall : forall x, In x (resize (npow2 n) (repeat pv M) us) -> length x = M).
    { intros x Hx. apply In_nth_error in Hx. destruct Hx as [i Hi]. assert (i < npow2 n) by (rewrite <- R1; apply nth_error_Some; congruence).
      destruct (Nat.lt_ge_cases i n) as [C|C].
      - rewrite R2 in Hi by lia. destruct (Hu i C) as (u & Hu1 & Hu2). rewrite Hu1 in Hi. injection Hi as <-. apply Hu2.
      - rewrite R3 in Hi by lia. injection Hi as <-. apply repeat_length. }
    split.
    + rewrite (length_concat_uniform _ M) by auto. rewrite R1. unfold shape_npow2. cbn [map]. rewrite sprod_cons. unfold M, shape_npow2. lia.
    + intros idx Hi. destruct (inb_inv _ _ _ Hi) as (i & idx' & -> & Hin & Hr). fold (shape_npow2 rs) in *. change (shape_npow2 (n :: rs)) with (npow2 n :: shape_npow2 rs).
      rewrite !flat_cons. fold M. assert (Lf := flat_lt _ _ Hr). fold M in Lf.
      replace (i * M + flat (shape_npow2 rs) idx') with (flat (shape_npow2 rs) idx' + M * i) by lia. rewrite nth_concat_uniform with (n := M) by (auto; rewrite R1; auto).
      assert (Lf2 : inb rs idx' -> flat rs idx' < sprod rs) by apply flat_lt.
      split.
      * intros Hs. apply inb_cons in Hs. destruct Hs as [Hs1 Hs2]. destruct (Hu i Hs1) as (u & Hu1 & Hu2).
        rewrite (nth_error_nth_some _ i u) by (rewrite R2 by lia; auto).
        destruct Hu2 as [_ Hu2]. destruct (Hu2 idx' Hr) as [Hu3 _]. rewrite Hu3 by auto.
        rewrite nth_firstn_lt by auto. rewrite nth_skipn. reflexivity.
      * intros Hs. destruct (Nat.lt_ge_cases i n) as [C|C].
        -- destruct (Hu i C) as (u & Hu1 & Hu2).
           rewrite (nth_error_nth_some _ i u) by (rewrite R2 by lia; auto).
           destruct Hu2 as [_ Hu2]. apply (Hu2 idx' Hr). intros G; apply Hs; constructor; auto.
        -- rewrite (nth_error_nth_some _ i (repeat pv M)) by (apply R3; lia). apply nth_repeat.
Qed.
End Pad.
