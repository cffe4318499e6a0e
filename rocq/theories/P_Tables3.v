(** Names of the lookup tables (C21). *)
From Coq Require Import String Ascii Decimal DecimalString DecimalZ.
From Coq Require Import List Arith Lia Bool ZArith.
From Verif Require Import M_Tables.
Local Open Scope string_scope.

Fixpoint no_comma (s : string) : Prop :=
  match s with EmptyString => True | String c r => c <> ","%char /\ no_comma r end.
Lemma show_z_inj a b : show_z a = show_z b -> a = b.
Proof.
  unfold show_z. intros H. apply (f_equal NilEmpty.int_of_string) in H. rewrite !NilEmpty.isi in H. injection H as H.
  apply (f_equal Z.of_int) in H. rewrite !DecimalZ.of_to in H. exact H.
Qed.
Lemma uint_no_comma d : no_comma (NilEmpty.string_of_uint d).
Proof. induction d; cbn; auto; split; auto; discriminate. Qed.
Lemma show_z_no_comma z : no_comma (show_z z).
Proof.
  unfold show_z. destruct (Z.to_int z) as [d|d]; cbn; [apply uint_no_comma|]. split; [discriminate|apply uint_no_comma].
Qed.
Lemma split_comma a a' s s' : no_comma a -> no_comma a' -> a ++ String "," s = a' ++ String "," s' -> a = a' /\ s = s'.
Proof.
  revert a'. induction a as [|c a IH]; intros [|c' a'] Ha Ha' H; cbn in *.
  - injection H as H. auto.
  - injection H as H1 H2. destruct Ha' as [N _]. congruence.
  - injection H as H1 H2. destruct Ha as [N _]. congruence.
  - injection H as H1 H2. destruct (IH a') as [E1 E2]; try tauto. subst. auto.
Qed.
Lemma append_cancel p a b : p ++ a = p ++ b -> a = b.
Proof. induction p as [|c p IH]; cbn; intros H; [auto|]. injection H as H. auto. Qed.

(** The pairs of tables that share a name. *)
Definition same_name (FL : floats) (t t' : table_type) : Prop :=
  match t, t' with
  | TGELU _ _ _, TGELU _ _ _ => True
  | TSoftmax fb _ _, TSoftmax fb' _ _ => fl_show FL fb = fl_show FL fb'
  | TInvSqrt eb r, TInvSqrt eb' r' => fl_show FL eb = fl_show FL eb' /\ r = r'
  | _, _ => t = t'
  end.
Lemma names FL t t' : (forall b, no_comma (fl_show FL b)) -> table_name FL t = table_name FL t' <-> same_name FL t t'.
Proof.
  intros Hf. split.
  - destruct t, t'; intros H; cbn in H; try discriminate H; cbn [same_name]; auto.
    + repeat (injection H as H). apply show_z_inj in H. f_equal. lia.
    + repeat (injection H as H). exact H.
    + repeat match type of H with String _ _ = String _ _ => injection H as H end.
      apply split_comma in H; [|apply show_z_no_comma..]. destruct H as [H1 H2].
      repeat match type of H2 with String _ _ = String _ _ => injection H2 as H2 end.
      apply show_z_inj in H1, H2. subst. reflexivity.
    + repeat (injection H as H). apply show_z_inj in H. f_equal. lia.
    + repeat match type of H with String _ _ = String _ _ => injection H as H end.
      apply split_comma in H; auto. destruct H as [H1 H2].
      repeat match type of H2 with String _ _ = String _ _ => injection H2 as H2 end.
      apply show_z_inj in H2. split; auto. lia.
  - destruct t, t'; cbn [same_name]; intros H; try discriminate H; try (injection H; intros; subst; reflexivity);
      try reflexivity; cbn [table_name].
    + rewrite H. reflexivity.
    + destruct H as [-> ->]. reflexivity.
Qed.
