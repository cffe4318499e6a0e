(** Counting challenge vectors: a nonzero linear form vanishes on few of them. *)
From Coq Require Import List Arith Lia Bool ZArith Field.
From Verif Require Import ListAux FieldDef PolyList P_ScVerify.
Import ListNotations.

Section P.
Context {K : field}.
Add Field Kf_cnt : (fth K).
Local Open Scope F_scope.

Fixpoint dot (a c : list K) : K :=
  match a, c with x :: a', y :: c' => x * y + dot a' c' | _, _ => 0 end.

Lemma dot_sumn : forall a c, length a = length c -> dot a c = sumn (length a) (fun i => nth i a 0 * nth i c 0).
Proof.
  induction a as [|x a IH]; intros [|y c] H; cbn [length] in H; try discriminate; [reflexivity|].
  cbn [dot length]. rewrite sumn_S_l, IH by lia. reflexivity.
Qed.

Lemma filter_ext_len {A} (f g : A -> bool) l : (forall a, f a = g a) -> length (filter f l) = length (filter g l).
Proof. intros H. rewrite (filter_ext f g); auto. Qed.

Lemma filter_flat_map {A B} (f : B -> bool) (g : A -> list B) : forall l bound,
  (forall a, In a l -> length (filter f (g a)) <= bound) ->
  length (filter f (flat_map g l)) <= length l * bound.
Proof.
  induction l as [|a l IH]; intros bound H; [simpl; lia|]. cbn [flat_map length].
  rewrite filter_app, app_length. specialize (IH bound (fun x Hx => H x (or_intror Hx))).
  specialize (H a (or_introl eq_refl)). lia.
Qed.

(** At most one element of a duplicate-free list satisfies [P]. *)
Lemma filter_flat_map_one {A B} (f : B -> bool) (g : A -> list B) (P : A -> Prop) : forall l bound,
  NoDup l -> (forall a b, In a l -> In b l -> P a -> P b -> a = b) ->
  (forall a, In a l -> length (filter f (g a)) <= bound) ->
  (forall a, In a l -> ~ P a -> length (filter f (g a)) = 0%nat) -> (forall a, P a \/ ~ P a) ->
  length (filter f (flat_map g l)) <= bound.
Proof.
  induction l as [|a l IH]; intros bound Hn Hu Hb Hz Hd; [simpl; lia|].
  cbn [flat_map]. rewrite filter_app, app_length. inversion Hn as [|? ? Ha Hn']; subst.
  destruct (Hd a) as [Pa|Pa].
  - assert (E : length (filter f (flat_map g l)) = 0%nat).
    { assert (Hall : forall b, In b l -> length (filter f (g b)) <= 0).
      { intros b Hin. rewrite Hz; [lia|right; auto|]. intros Pb.
        apply Ha. rewrite (Hu a b); auto; [left; auto|right; auto]. }
      pose proof (filter_flat_map f g l 0 Hall). lia. }
    rewrite E. specialize (Hb a (or_introl eq_refl)). lia.
  - rewrite (Hz a); auto; [|left; auto]. apply IH; auto.
    + intros x y Hx Hy. apply Hu; right; auto.
    + intros x Hx. apply Hb. right; auto.
    + intros x Hx. apply Hz. right; auto.
Qed.

Lemma linear_count_aff (S : list K) : NoDup S -> forall c t, (exists i, nth i c 0 <> 0) ->
  length (filter (fun a => dot a c =? t) (vecs S (length c))) <= length S ^ (length c - 1).
Proof.
  intros HS. induction c as [|c0 c IH]; intros t [i Hi].
  - destruct i; simpl in Hi; congruence.
  - cbn [length vecs]. replace (Datatypes.S (length c) - 1)%nat with (length c) by lia.
    assert (Hdec : (exists j, nth j c 0 <> 0) \/ (forall j, nth j c 0 = 0)).
    { clear. induction c as [|x c IH]; [right; intros [|j]; reflexivity|].
      destruct (feq_dec x 0) as [->|Hx]; [|left; exists 0%nat; auto].
      destruct IH as [[j Hj]|H]; [left; exists (Datatypes.S j); auto|right; intros [|j]; simpl; auto]. }
    destruct Hdec as [Hc|Hc].
    + assert (Hlen : (length S ^ length c = length S * length S ^ (length c - 1))%nat).
      { destruct c as [|c1 c']; [destruct Hc as [[|j] Hj]; simpl in Hj; congruence|].
        cbn [length]. replace (Datatypes.S (length c') - 1)%nat with (length c') by lia. apply Nat.pow_succ_r'. }
      rewrite Hlen. apply filter_flat_map. intros r _. rewrite filter_map_length.
      rewrite (filter_ext_len _ (fun a => dot a c =? t - r * c0)).
      * apply IH. auto.
      * intros a. cbn [dot]. destruct (feq_dec (dot a c) (t - r * c0)) as [E|N].
        -- rewrite E, feqb_refl. replace (r * c0 + (t - r * c0)) with t by ring. apply feqb_refl.
        -- rewrite (proj2 (feqb_false (dot a c) (t - r * c0)) N). apply feqb_false. intros E. apply N. rewrite <- E. ring.
    + assert (Hc0 : c0 <> 0) by (destruct i as [|i]; simpl in Hi; auto; rewrite Hc in Hi; congruence).
      assert (Hd : forall a, dot a c = 0).
      { clear -Hc. induction c as [|x c IH]; intros [|y a]; simpl; auto.
        rewrite (IH (fun j => Hc (Datatypes.S j)) a). pose proof (Hc 0%nat) as H. simpl in H. rewrite H. ring. }
      apply (filter_flat_map_one _ _ (fun r => r * c0 = t)); auto.
      * intros a b _ _ Ha Hb. apply (fmul_cancel_l c0); auto.
        transitivity (a * c0); [ring|]. rewrite Ha, <- Hb. ring.
      * intros r _. rewrite filter_map_length. rewrite <- (vecs_length S (length c)). apply filter_length_le.
      * intros r _ Hr. rewrite filter_map_length. rewrite (filter_ext_len _ (fun _ => false)); [apply filter_false_length|].
        intros a. cbn [dot]. rewrite Hd. apply feqb_false. intros E. apply Hr. rewrite <- E. ring.
      * intros r. destruct (feq_dec (r * c0) t); auto.
Qed.
Lemma linear_count (S c : list K) : NoDup S -> (exists i, nth i c 0 <> 0) ->
  length (filter (fun a => dot a c =? 0) (vecs S (length c))) <= length S ^ (length c - 1).
Proof. intros. apply linear_count_aff; auto. Qed.
End P.
