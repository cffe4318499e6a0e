(** Proofs about the sponge, the hashes and the transcript. *)
From Coq Require Import List Arith Lia Bool ZArith.
From Verif Require Import ListAux FieldDef M_Mle M_Sumcheck M_Hash.
Import ListNotations.

(** * Byte encoding *)
Section Bytes.
Open Scope Z_scope.
Lemma le_value_cons b l : le_value (b :: l) = b + 256 * le_value l.
Proof. reflexivity. Qed.
Lemma le_value_range l : Forall (fun b => 0 <= b < 256) l -> 0 <= le_value l < 256 ^ Z.of_nat (length l).
Proof.
  induction 1 as [|b l Hb _ IH]; [cbn; lia|]. rewrite le_value_cons. cbn [length]. rewrite Nat2Z.inj_succ, Z.pow_succ_r by lia. lia.
Qed.
Lemma le_value_nonneg l : Forall (fun b => 0 <= b < 256) l -> 0 <= le_value l.
Proof. intros H. apply le_value_range in H. lia. Qed.
Lemma le_value_ascii l : Forall (fun b => 0 <= b < 128) l -> (length l <= 8)%nat -> 0 <= le_value l < 2 ^ 63.
Proof.
  intros H Hl. assert (G : l <> [] -> 0 <= le_value l < 128 * 256 ^ Z.of_nat (length l - 1)).
  { clear Hl. induction H as [|b l Hb Hr IH]; intros Hne; [congruence|]. rewrite le_value_cons. cbn [length]. replace (S (length l) - 1)%nat with (length l) by lia.
    destruct l as [|c l]; [cbn; lia|]. specialize (IH ltac:(discriminate)). cbn [length] in *. replace (S (length l) - 1)%nat with (length l) in IH by lia.
    rewrite Nat2Z.inj_succ, Z.pow_succ_r by lia. lia. }
  destruct l as [|b l]; [cbn; lia|]. specialize (G ltac:(discriminate)). cbn [length] in *. replace (S (length l) - 1)%nat with (length l) in G by lia.
  assert (256 ^ Z.of_nat (length l) <= 256 ^ 7) by (apply Z.pow_le_mono_r; lia). lia.
Qed.
Lemma le_value_inj : forall l1 l2, Forall (fun b => 0 <= b < 256) l1 -> Forall (fun b => 0 <= b < 256) l2 -> length l1 = length l2 -> le_value l1 = le_value l2 -> l1 = l2.
Proof.
  induction l1 as [|a l1 IH]; intros [|b l2] H1 H2 Hl H; try discriminate; [reflexivity|]. rewrite !le_value_cons in H.
  inversion H1; inversion H2; subst. assert (a = b) by lia. subst. f_equal. apply IH; auto. lia.
Qed.
Lemma le_value_app l1 l2 : le_value (l1 ++ l2) = le_value l1 + 256 ^ Z.of_nat (length l1) * le_value l2.
Proof.
  induction l1 as [|b l1 IH]; [change ([] ++ l2) with l2; cbn [length]; change (le_value []) with 0; change (256 ^ Z.of_nat 0) with 1; lia|].
  cbn [app length]. rewrite !le_value_cons, IH, Nat2Z.inj_succ, Z.pow_succ_r by lia. ring.
Qed.
Lemma le_value_zeros n : le_value (repeat 0 n) = 0.
Proof. induction n as [|n IH]; [reflexivity|]. cbn [repeat]. rewrite le_value_cons, IH. reflexivity. Qed.
(** Without a trailing zero byte the value determines the bytes. *)
Lemma le_value_inj_strip : forall l1 l2, Forall (fun b => 0 <= b < 256) l1 -> Forall (fun b => 0 <= b < 256) l2 ->
  last l1 1 <> 0 -> last l2 1 <> 0 -> le_value l1 = le_value l2 -> l1 = l2.
Proof.
  assert (P : forall l, Forall (fun b => 0 <= b < 256) l -> last l 1 <> 0 -> l <> [] -> 0 < le_value l).
  { induction l as [|b l IH]; intros Hf Hz Hn; [congruence|]. inversion Hf; subst. rewrite le_value_cons. destruct l as [|c l].
    - cbn in *. lia.
    - assert (0 < le_value (c :: l)) by (apply IH; auto; discriminate). lia. }
  induction l1 as [|a l1 IH]; intros [|b l2] H1 H2 Z1 Z2 H; [reflexivity| | |].
  - assert (0 < le_value (b :: l2)) by (apply P; auto; discriminate). rewrite <- H in H0. cbn in H0. lia.
  - assert (0 < le_value (a :: l1)) by (apply P; auto; discriminate). rewrite H in H0. cbn in H0. lia.
  - rewrite !le_value_cons in H. inversion H1; inversion H2; subst. assert (a = b) by lia. subst. f_equal. apply IH; auto; try lia.
    + destruct l1; [cbn; lia|exact Z1].
    + destruct l2; [cbn; lia|exact Z2].
Qed.
End Bytes.

Lemma chunks_short {A} n (l : list A) : l <> [] -> length l <= n -> chunks n l = [l].
Proof.
  intros Hne Hl. unfold chunks. destruct l as [|x l]; [congruence|]. cbn [length chunks_fuel]. rewrite firstn_all2 by exact Hl. rewrite skipn_all2 by exact Hl.
  f_equal. destruct (length l); reflexivity.
Qed.
Lemma chunks_fuel_more {A} n : 0 < n -> forall f1 f2 (l : list A), length l <= f1 -> length l <= f2 -> chunks_fuel f1 n l = chunks_fuel f2 n l.
Proof.
  intros Hn. induction f1 as [|f1 IH]; intros [|f2] l H1 H2; try reflexivity.
  - destruct l; [reflexivity|cbn in H1; lia].
  - destruct l; [reflexivity|cbn in H2; lia].
  - cbn [chunks_fuel]. destruct l as [|x l]; [reflexivity|]. f_equal. apply IH; rewrite skipn_length; cbn [length] in *; lia.
Qed.
Lemma chunks_app {A} n (b l : list A) : 0 < n -> length b = n -> chunks n (b ++ l) = b :: chunks n l.
Proof.
  intros Hn Hb. unfold chunks. destruct b as [|x b]; [cbn in Hb; lia|]. cbn [app length chunks_fuel]. f_equal.
  - change (x :: b ++ l) with ((x :: b) ++ l). rewrite firstn_app, Hb, Nat.sub_diag, firstn_all2 by lia. cbn [firstn]. apply app_nil_r.
  - change (x :: b ++ l) with ((x :: b) ++ l). rewrite skipn_app, Hb, Nat.sub_diag, skipn_all2 by lia. cbn [skipn app].
    apply chunks_fuel_more; auto. rewrite app_length. lia.
Qed.
Lemma chunks_app_mult {A} n k : 0 < n -> forall (b l : list A), length b = n * k -> chunks n (b ++ l) = chunks n b ++ chunks n l.
Proof.
  intros Hn. induction k as [|k IH]; intros b l Hb.
  - destruct b; [reflexivity|cbn in Hb; lia].
  - rewrite <- (firstn_skipn n b). assert (L : length (firstn n b) = n) by (rewrite firstn_length; lia).
    rewrite <- app_assoc, (chunks_app n (firstn n b) (skipn n b ++ l)), (chunks_app n (firstn n b) (skipn n b)) by auto. rewrite IH by (rewrite skipn_length; lia). reflexivity.
Qed.
(** Every list is full blocks followed by a shorter rest. *)
Lemma blocks_rest {A} n (l : list A) : 0 < n -> exists b r, l = b ++ r /\ length b = n * (length l / n) /\ length r = length l mod n.
Proof.
  intros Hn. exists (firstn (n * (length l / n)) l), (skipn (n * (length l / n)) l). split; [now rewrite firstn_skipn|].
  pose proof (Nat.div_mod_eq (length l) n). split; [rewrite firstn_length; lia|rewrite skipn_length; lia].
Qed.

Section Encoding.
Context {F : Type} (of_u64 : Z -> F) (p : Z).
Hypothesis of_u64_inj : forall a b, (0 <= a < p)%Z -> (0 <= b < p)%Z -> of_u64 a = of_u64 b -> a = b.
Notation enc := (bytes_to_field_elements of_u64).
Definition byte (b : Z) : Prop := (0 <= b < 256)%Z.
(** Each group of eight bytes is below the modulus. *)
Definition canonical (m : list Z) : Prop := forall c, In c (chunks 8 m) -> (le_value c < p)%Z.

Lemma enc_app m1 m2 : length m1 mod 8 = 0 -> enc (m1 ++ m2) = enc m1 ++ enc m2.
Proof.
  intros H. unfold bytes_to_field_elements. rewrite (chunks_app_mult 8 (length m1 / 8)) by (try lia; pose proof (Nat.div_mod_eq (length m1) 8); lia).
  now rewrite map_app.
Qed.
Lemma enc_trailing_zero m k : 0 < length m mod 8 -> length m mod 8 + k <= 8 -> enc (m ++ repeat 0%Z k) = enc m.
Proof.
  intros Hm Hk. destruct (blocks_rest 8 m) as (b & r & Em & Hb & Hr); [lia|]. rewrite <- Hr in Hm, Hk. rewrite Em.
  assert (B8 : length b mod 8 = 0) by (rewrite Hb, Nat.mul_comm; apply Nat.mod_mul; lia).
  rewrite <- app_assoc, (enc_app b (r ++ repeat 0%Z k)), (enc_app b r) by auto. f_equal. unfold bytes_to_field_elements.
  assert (r <> []) by (intros ->; cbn in Hm; lia).
  rewrite (chunks_short 8 r), (chunks_short 8 (r ++ repeat 0%Z k)); auto; try (rewrite ?app_length, ?repeat_length; lia).
  - cbn [map]. rewrite le_value_app, le_value_zeros, Z.mul_0_r, Z.add_0_r. reflexivity.
  - destruct r; [congruence|discriminate].
Qed.
Lemma canonical_app b m : length b = 8 -> canonical (b ++ m) -> (le_value b < p)%Z /\ canonical m.
Proof. intros Hb H. unfold canonical in *. rewrite chunks_app in H by (auto; lia). split; [apply H; now left|intros c Hc; apply H; now right]. Qed.
Lemma enc_inj_gen : forall n m1 m2, length m1 <= n -> Forall byte m1 -> Forall byte m2 -> canonical m1 -> canonical m2 ->
  length m1 = length m2 \/ (last m1 1%Z <> 0%Z /\ last m2 1%Z <> 0%Z) -> enc m1 = enc m2 -> m1 = m2.
Proof.
  induction n as [|n IH]; intros m1 m2 Hn B1 B2 C1 C2 HL H.
  { destruct m1; [|cbn in Hn; lia]. destruct m2 as [|b m2]; [reflexivity|]. exfalso. apply (f_equal (@length F)) in H. unfold bytes_to_field_elements in H. rewrite !map_length in H.
    unfold chunks in H. cbn in H. lia. }
  destruct m1 as [|a m1']; [apply (IH [] m2); cbn; auto; lia|]. set (m1 := a :: m1') in *.
  destruct m2 as [|b m2']; [exfalso; apply (f_equal (@length F)) in H; unfold bytes_to_field_elements in H; rewrite !map_length in H; unfold chunks in H; cbn in H; lia|]. set (m2 := b :: m2') in *.
  destruct (le_lt_dec (length m1) 8) as [S1|S1].
  - (* one block *)
    assert (E1 : chunks 8 m1 = [m1]) by (apply chunks_short; auto; discriminate).
    destruct (le_lt_dec (length m2) 8) as [S2|S2].
    + assert (E2 : chunks 8 m2 = [m2]) by (apply chunks_short; auto; discriminate).
      assert (R1 : (le_value m1 < p)%Z) by (apply C1; rewrite E1; now left). assert (R2 : (le_value m2 < p)%Z) by (apply C2; rewrite E2; now left).
      unfold bytes_to_field_elements in H. rewrite E1, E2 in H. cbn [map] in H. apply (f_equal (hd (of_u64 0%Z))) in H. cbn [hd] in H.
      apply of_u64_inj in H; [|split; [now apply le_value_nonneg|auto]|split; [now apply le_value_nonneg|auto]].
      destruct HL as [HL|[Z1 Z2]]; [now apply le_value_inj|now apply le_value_inj_strip].
    + exfalso. rewrite <- (firstn_skipn 8 m2) in H. apply (f_equal (@length F)) in H. unfold bytes_to_field_elements in H.
      rewrite chunks_app in H by (try lia; rewrite firstn_length; lia). rewrite E1, !map_length in H. cbn [length] in H.
      destruct (skipn 8 m2) as [|c l] eqn:Es; [apply (f_equal (@length Z)) in Es; rewrite skipn_length in Es; cbn [length] in Es; lia|].
      unfold chunks in H. cbn in H. lia.
  - destruct (le_lt_dec (length m2) 8) as [S2|S2].
    + exfalso. assert (E2 : chunks 8 m2 = [m2]) by (apply chunks_short; auto; discriminate).
      rewrite <- (firstn_skipn 8 m1) in H. apply (f_equal (@length F)) in H. unfold bytes_to_field_elements in H.
      rewrite chunks_app in H by (try lia; rewrite firstn_length; lia). rewrite E2, !map_length in H. cbn [length] in H.
      destruct (skipn 8 m1) as [|c l] eqn:Es; [apply (f_equal (@length Z)) in Es; rewrite skipn_length in Es; cbn [length] in Es; lia|].
      unfold chunks in H. cbn in H. lia.
    + assert (Q : forall m : list Z, 8 < length m -> m = firstn 8 m ++ skipn 8 m /\ length (firstn 8 m) = 8 /\ skipn 8 m <> []).
      { intros m Hm. split; [now rewrite firstn_skipn|split; [rewrite firstn_length; lia|]]. intros Es. apply (f_equal (@length Z)) in Es. rewrite skipn_length in Es. cbn [length] in Es. lia. }
      destruct (Q m1 S1) as (D1 & L1 & N1), (Q m2 S2) as (D2 & L2 & N2). clear Q.
      set (f1 := firstn 8 m1) in *. set (f2 := firstn 8 m2) in *. set (t1 := skipn 8 m1) in *. set (t2 := skipn 8 m2) in *.
      assert (La : forall (u v : list Z), v <> [] -> last (u ++ v) 1%Z = last v 1%Z).
      { intros u v Hv. induction u as [|y u IHu]; [reflexivity|]. cbn [app]. rewrite <- IHu. destruct (u ++ v) eqn:Euv; [destruct u; [cbn in Euv; congruence|discriminate]|reflexivity]. }
      assert (HL' : length t1 = length t2 \/ (last t1 1%Z <> 0%Z /\ last t2 1%Z <> 0%Z)).
      { destruct HL as [HL|[Z1 Z2]]; [left; unfold t1, t2; rewrite !skipn_length; lia|right]. rewrite D1, La in Z1 by auto. rewrite D2, La in Z2 by auto. auto. }
      rewrite D1 in H, B1, C1 |- *. rewrite D2 in H, B2, C2 |- *.
      apply canonical_app in C1; auto. apply canonical_app in C2; auto. destruct C1 as [R1 C1], C2 as [R2 C2].
      apply Forall_app in B1, B2. destruct B1 as [B1 B1'], B2 as [B2 B2'].
      unfold bytes_to_field_elements in H. rewrite (chunks_app 8 f1), (chunks_app 8 f2) in H by (auto; lia). cbn [map] in H.
      assert (Hh : of_u64 (le_value f1) = of_u64 (le_value f2)) by (apply (f_equal (hd (of_u64 0%Z))) in H; exact H).
      assert (Ht : enc t1 = enc t2) by (apply (f_equal (@tl F)) in H; exact H).
      apply of_u64_inj in Hh; [|split; [now apply le_value_nonneg|auto]|split; [now apply le_value_nonneg|auto]].
      f_equal; [apply le_value_inj; auto; congruence|]. apply IH; auto. unfold t1. rewrite skipn_length. lia.
Qed.
Lemma enc_inj_length m1 m2 : Forall byte m1 -> Forall byte m2 -> canonical m1 -> canonical m2 -> length m1 = length m2 -> enc m1 = enc m2 -> m1 = m2.
Proof. intros. apply (enc_inj_gen (length m1)); auto. Qed.
Lemma enc_inj_strip m1 m2 : Forall byte m1 -> Forall byte m2 -> canonical m1 -> canonical m2 -> last m1 1%Z <> 0%Z -> last m2 1%Z <> 0%Z -> enc m1 = enc m2 -> m1 = m2.
Proof. intros. apply (enc_inj_gen (length m1)); auto. Qed.
Lemma chunks_in {A} n (l : list A) c : 0 < n -> In c (chunks n l) -> incl c l /\ length c <= n.
Proof.
  intros Hn. unfold chunks. generalize (length l) at 1. intros f. revert l. induction f as [|f IH]; intros l; [intros []|]. cbn [chunks_fuel]. destruct l as [|x l]; [intros []|]. intros [<-|H].
  - split; [|apply firstn_le_length]. intros y Hy. rewrite <- (firstn_skipn n (x :: l)). apply in_or_app. now left.
  - apply IH in H. destruct H as [H1 H2]. split; auto. intros y Hy. rewrite <- (firstn_skipn n (x :: l)). apply in_or_app. right. now apply H1.
Qed.
Lemma ascii_canonical m : (2 ^ 63 <= p)%Z -> Forall (fun b => 0 < b < 128)%Z m -> Forall byte m /\ canonical m /\ last m 1%Z <> 0%Z.
Proof.
  intros Hp H. split; [|split].
  - eapply Forall_impl; [|exact H]. unfold byte. cbn. intros; lia.
  - intros c Hc. apply chunks_in in Hc; [|lia]. destruct Hc as [Hi Hl]. assert (0 <= le_value c < 2 ^ 63)%Z; [|lia].
    apply le_value_ascii; auto. apply Forall_forall. intros y Hy. rewrite Forall_forall in H. specialize (H y (Hi y Hy)). cbn in H. lia.
  - clear Hp. induction H as [|b m Hb Hm IH]; [cbn; lia|]. destruct m; [cbn; lia|exact IH].
Qed.
Lemma enc_inj_ascii m1 m2 : (2 ^ 63 <= p)%Z -> Forall (fun b => 0 < b < 128)%Z m1 -> Forall (fun b => 0 < b < 128)%Z m2 -> enc m1 = enc m2 -> m1 = m2.
Proof.
  intros Hp H1 H2. destruct (ascii_canonical m1 Hp H1) as (A1 & A2 & A3), (ascii_canonical m2 Hp H2) as (B1 & B2 & B3). now apply enc_inj_strip.
Qed.
End Encoding.
