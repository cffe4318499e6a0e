(** List helpers shared by the models: in-place update, chunking, indexing. *)
From Coq Require Import List Arith Lia.
Import ListNotations.

Section ListAux.
Context {A : Type}.

(** [v[i] = x] on a Rust slice; out of range leaves the list unchanged
    (the models check bounds separately where a panic matters). *)
Fixpoint upd (i : nat) (x : A) (l : list A) : list A :=
  match l, i with
  | [], _ => []
  | _ :: t, O => x :: t
  | h :: t, S j => h :: upd j x t
  end.

Lemma upd_length i x l : length (upd i x l) = length l.
Proof. revert i; induction l as [|h t IH]; intros [|i]; simpl; auto. Qed.

Lemma nth_upd_eq i x l d : i < length l -> nth i (upd i x l) d = x.
Proof.
  revert i; induction l as [|h t IH]; intros [|i] H; simpl in *; try lia; auto.
  apply IH; lia.
Qed.

Lemma nth_upd_neq i j x l d : i <> j -> nth j (upd i x l) d = nth j l d.
Proof.
  revert i j; induction l as [|h t IH]; intros [|i] [|j] H; simpl; try lia; auto.
Qed.

(** Two lists with equal length and equal entries are equal. *)
Lemma nth_ext_all (l l' : list A) d :
  length l = length l' -> (forall i, i < length l -> nth i l d = nth i l' d) -> l = l'.
Proof. intros H1 H2. apply (nth_ext l l' d d H1 H2). Qed.

Lemma nth_firstn_lt n i (l : list A) d : i < n -> nth i (firstn n l) d = nth i l d.
Proof.
  revert n i; induction l as [|h t IH]; intros [|n] [|i] H; simpl; try lia; auto.
  apply IH; lia.
Qed.

Lemma nth_skipn n i (l : list A) d : nth i (skipn n l) d = nth (n + i) l d.
Proof.
  revert n; induction l as [|h t IH]; intros [|n]; simpl; auto.
  destruct i; reflexivity.
Qed.

Lemma nth_map_seq {B} (f : nat -> B) n i d : i < n -> nth i (map f (seq 0 n)) d = f i.
Proof.
  intros H. rewrite nth_indep with (d' := f 0) by (rewrite map_length, seq_length; auto).
  rewrite map_nth, seq_nth by auto. reflexivity.
Qed.

(** [slice.chunks(n)] of Rust: consecutive blocks of [n], the last may be shorter. *)
Fixpoint chunks_fuel (fuel n : nat) (l : list A) : list (list A) :=
  match fuel with
  | O => []
  | S f => match l with
           | [] => []
           | _ => firstn n l :: chunks_fuel f n (skipn n l)
           end
  end.
Definition chunks (n : nat) (l : list A) : list (list A) := chunks_fuel (length l) n l.

Lemma chunks_fuel_concat fuel n l : n > 0 -> length l <= fuel -> concat (chunks_fuel fuel n l) = l.
Proof.
  intros Hn; revert l; induction fuel as [|f IH]; intros l H; simpl.
  - destruct l; simpl in *; auto; lia.
  - destruct l as [|h t]; auto.
    simpl concat. rewrite IH.
    + apply firstn_skipn.
    + rewrite skipn_length. cbn [length] in *. lia.
Qed.

Lemma chunks_concat n l : n > 0 -> concat (chunks n l) = l.
Proof. intros; apply chunks_fuel_concat; auto. Qed.

End ListAux.

Lemma pow2_pos n : 0 < 2 ^ n.
Proof. induction n; simpl; lia. Qed.

Lemma list_ind2 {A} (P : list A -> Prop) :
  P [] -> (forall x, P [x]) -> (forall x y l, P l -> P (x :: y :: l)) -> forall l, P l.
Proof.
  intros H0 H1 H2 l.
  cut (P l /\ forall x, P (x :: l)); [tauto|].
  induction l as [|a l [IH1 IH2]]; split; auto.
Qed.

Lemma nth_map_lt {A B} (f : A -> B) l i d d' : i < length l -> nth i (map f l) d' = f (nth i l d).
Proof.
  revert i; induction l as [|x l IH]; intros [|i] H; simpl in *; try lia; auto. apply IH. lia.
Qed.

Lemma nth_concat_uniform {A} (cs : list (list A)) n d :
  (forall c, In c cs -> length c = n) ->
  forall j i, j < length cs -> i < n -> nth (i + n * j) (concat cs) d = nth i (nth j cs []) d.
Proof.
  induction cs as [|c cs IH]; intros Hn j i Hj Hi; simpl in Hj; [lia|].
  assert (Hc : length c = n) by (apply Hn; left; auto).
  destruct j as [|j]; simpl concat.
  - rewrite app_nth1 by lia. f_equal. lia.
  - rewrite app_nth2 by lia. replace (i + n * S j - length c) with (i + n * j) by lia.
    simpl. apply IH; try lia. intros; apply Hn; right; auto.
Qed.
Lemma length_concat_uniform {A} (cs : list (list A)) n :
  (forall c, In c cs -> length c = n) -> length (concat cs) = n * length cs.
Proof.
  induction cs as [|c cs IH]; intros Hn; simpl; [lia|].
  rewrite app_length, IH, Hn; try lia; intros; try apply Hn; simpl; auto.
Qed.
Lemma nth_error_nth_some {A} (l : list A) i x d : nth_error l i = Some x -> nth i l d = x.
Proof. intros H. apply nth_error_nth; auto. Qed.
Lemma divmod_pow2 n x : x = x mod 2 ^ n + 2 ^ n * (x / 2 ^ n).
Proof. pose proof (Nat.div_mod x (2 ^ n) (Nat.pow_nonzero 2 n ltac:(lia))). lia. Qed.

Lemma skipn_nth_error {A} (l : list A) i m : nth_error l i = Some m -> skipn i l = m :: skipn (S i) l.
Proof. revert i; induction l as [|a l IH]; intros [|i] E; try discriminate; simpl in *; [congruence|]. apply IH. auto. Qed.

Lemma In_firstn' {A} n (l : list A) a : In a (firstn n l) -> In a l.
Proof. intros H. rewrite <- (firstn_skipn n l). apply in_or_app. auto. Qed.
Lemma In_skipn' {A} n (l : list A) a : In a (skipn n l) -> In a l.
Proof. intros H. rewrite <- (firstn_skipn n l). apply in_or_app. auto. Qed.
