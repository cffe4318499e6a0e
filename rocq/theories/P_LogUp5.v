(** The batching challenges of the LogUp rounds: how many let wrong evaluations pass. *)
From Coq Require Import List Arith Lia Bool ZArith Field.
From Verif Require Import ListAux FieldDef PolyList MleMath M_Mle P_Mle M_Sumcheck P_ScVerify M_LogUp P_LogUp P_LogUp2 P_LogUp3 P_LogUp4.
Import ListNotations.

Section Gen.
Lemma filter_prod_count {A B} (P : A -> B -> bool) (bad : A -> bool) (X : list A) (Y : list B) c :
  (forall x, In x X -> bad x = false -> length (filter (P x) Y) <= c) ->
  length (filter (fun xy => P (fst xy) (snd xy)) (list_prod X Y)) <= length (filter bad X) * length Y + c * length X.
Proof.
  induction X as [|x X IH]; intros H; [cbn; lia|]. cbn [list_prod]. rewrite filter_app, app_length.
  specialize (IH (fun y Hy => H y (or_intror Hy))).
  assert (E : length (filter (fun xy => P (fst xy) (snd xy)) (map (fun y => (x, y)) Y)) = length (filter (P x) Y)).
  { clear. induction Y as [|y Y IH]; [reflexivity|]. cbn [map filter fst snd]. destruct (P x y); cbn [length]; lia. }
  rewrite E. cbn [filter length]. destruct (bad x) eqn:Eb; cbn [length].
  - assert (length (filter (P x) Y) <= length Y) by (clear; induction Y as [|y Y IH]; cbn [filter]; [auto|destruct (P x y); cbn [length]; lia]). lia.
  - specialize (H x (or_introl eq_refl) Eb). lia.
Qed.
Lemma filter_le {A} (P Q : A -> bool) l : (forall x, In x l -> P x = true -> Q x = true) -> length (filter P l) <= length (filter Q l).
Proof.
  induction l as [|x l IH]; intros H; [auto|]. cbn [filter]. specialize (IH (fun y Hy => H y (or_intror Hy))).
  destruct (P x) eqn:E; [rewrite (H x (or_introl eq_refl) E)|destruct (Q x)]; cbn [length]; lia.
Qed.
End Gen.

Section P.
Context {K : field}.
Add Field Kf_lu5 : (fth K).
Local Open Scope F_scope.

Lemma wsum_peval (a : K) l : wsum a l = peval l a.
Proof. induction l as [|x l IH]; cbn [wsum peval]; [reflexivity|]. rewrite IH. ring. Qed.
Lemma wsum_roots (S : list K) l : NoDup S -> (exists x, In x l /\ x <> 0) -> length (filter (fun a => wsum a l =? 0) S) <= length l - 1.
Proof.
  intros HS (x & Hx & Hnz). assert (H : length (filter (fun a => wsum a l =? 0) S) < length l); [|lia].
  apply poly_roots; [|apply NoDup_filter; auto|].
  - intros H0. apply Hnz. unfold all0 in H0. rewrite Forall_forall in H0. auto.
  - intros r Hr. apply filter_In in Hr as [_ Hr]. apply feqb_true in Hr. rewrite <- wsum_peval. auto.
Qed.
(** An affine function with a nonzero coefficient has at most one root. *)
Lemma affine_roots (S : list K) (u v : K) : NoDup S -> u <> 0 \/ v <> 0 -> length (filter (fun x => u + x * v =? 0) S) <= 1.
Proof.
  intros HS H. rewrite (filter_ext _ (fun x => wsum x [u; v] =? 0)) by (intros x; cbn [wsum]; f_equal; ring).
  apply (wsum_roots S [u; v]); [auto|]. destruct H; [exists u|exists v]; split; cbn; auto.
Qed.
Definition aff2 (c0 c1 c2 c3 b l : K) : K := (c0 + b * c1) + l * (c2 + b * c3).
Lemma aff2_count (S : list K) c0 c1 c2 c3 : NoDup S -> (c0 <> 0 \/ c1 <> 0 \/ c2 <> 0 \/ c3 <> 0) ->
  length (filter (fun p => aff2 c0 c1 c2 c3 (fst p) (snd p) =? 0) (list_prod S S)) <= 2 * length S.
Proof.
  intros HS H. assert (D : (c2 <> 0 \/ c3 <> 0) \/ (c2 = 0 /\ c3 = 0)) by (destruct (feq_dec c2 0), (feq_dec c3 0); auto).
  destruct D as [D|[-> ->]].
  - pose proof (filter_prod_count (fun b l => aff2 c0 c1 c2 c3 b l =? 0) (fun b => c2 + b * c3 =? 0) S S 1) as C.
    pose proof (affine_roots S c2 c3 HS D). etransitivity; [apply C|nia].
    intros b _ Hb. apply feqb_false in Hb. unfold aff2. apply affine_roots; auto.
  - assert (Hu : c0 <> 0 \/ c1 <> 0) by tauto.
    pose proof (filter_prod_count (fun b l => aff2 c0 c1 0 0 b l =? 0) (fun b => c0 + b * c1 =? 0) S S 0) as C.
    pose proof (affine_roots S c0 c1 HS Hu). etransitivity; [apply C|nia].
    intros b _ Hb. apply feqb_false in Hb.
    rewrite (filter_ext _ (fun _ => false)); [clear; induction S; cbn; auto|]. intros l. apply feqb_false. unfold aff2. intros E. apply Hb. rewrite <- E. ring.
Qed.

(** Two different lists of values merged with powers of [a]. *)
Lemma merge_count {A} (f : A -> K -> K -> K) (S : list K) (l l' : list A) (P : A -> A -> Prop) :
  NoDup S -> length l = length l' -> (forall x y, {P x y} + {~ P x y}) ->
  (forall x y, P x y -> length (filter (fun p => f x (fst p) (snd p) - f y (fst p) (snd p) =? 0) (list_prod S S)) <= 2 * length S) ->
  (exists i x y, nth_error l i = Some x /\ nth_error l' i = Some y /\ P x y) ->
  length (filter (fun t => wsum (snd t) (map (fun x => f x (fst (fst t)) (snd (fst t))) l)
                           =? wsum (snd t) (map (fun x => f x (fst (fst t)) (snd (fst t))) l')) (list_prod (list_prod S S) S))
    <= (length l + 1) * length S ^ 2.
Proof.
  intros HS Hl Pd HP (i & x & y & Hx & Hy & Hxy).
  set (w := fun (p : K * K) => map (fun '(x, y) => f x (fst p) (snd p) - f y (fst p) (snd p)) (combine l l')).
  assert (E : forall p a, wsum a (map (fun x => f x (fst p) (snd p)) l) - wsum a (map (fun x => f x (fst p) (snd p)) l') = wsum a (w p)).
  { intros p a. unfold w. clear - Hl. revert l' Hl. induction l as [|x l IH]; intros [|y l'] Hl; cbn in Hl; try discriminate; cbn [map combine wsum]; [ring|].
    rewrite <- IH by lia. ring. }
  pose proof (filter_prod_count (fun p a => wsum a (w p) =? 0) (fun p => f x (fst p) (snd p) - f y (fst p) (snd p) =? 0) (list_prod S S) S (length l - 1)) as C.
  rewrite prod_length in C. specialize (HP x y Hxy).
  assert (Hlen : 0 < length l) by (destruct l; [destruct i; discriminate|cbn; lia]).
  etransitivity; [|etransitivity; [apply C|]].
  - apply filter_le. intros [p a] _ H. cbn [fst snd] in *. apply feqb_true in H. apply feqb_spec. rewrite <- E, H. ring.
  - intros p _ Hb. apply feqb_false in Hb. replace (length l) with (length (w p)) by (unfold w; rewrite map_length, combine_length; lia).
    apply wsum_roots; [auto|]. exists (f x (fst p) (snd p) - f y (fst p) (snd p)). split; [|auto]. unfold w. apply in_map_iff. exists (x, y). split; [auto|].
    clear - Hx Hy. revert l l' Hx Hy. induction i as [|i IH]; intros [|a l] [|b l'] Hx Hy; cbn in *; try discriminate; [left; congruence|right; eauto].
  - cbn [Nat.pow]. nia.
Qed.

Lemma quad_diff (l l' : list (@quad K)) : length l = length l' -> l <> l' ->
  exists i x y, nth_error l i = Some x /\ nth_error l' i = Some y /\ x <> y.
Proof.
  revert l'. induction l as [|a l IH]; intros [|b l'] Hl Hne; cbn in Hl; try discriminate; [congruence|].
  destruct (quad_dec a b) as [->|Hab]; [|exists 0%nat, a, b; auto].
  destruct (IH l') as (i & x & y & H); [lia|congruence|]. exists (S i), x, y. auto.
Qed.
(** Triples are ((b, lambda), alpha). *)
Lemma round_batch_count (S : list K) lk k i (qs qt : list (@quad K)) : NoDup S -> length qs = length qt -> qs <> qt ->
  (last_lk lk k i = true -> forall e0 e1 e2 e3, In (e0, e1, e2, e3) (qs ++ qt) -> e0 = - (1) /\ e2 = - (1)) ->
  length (filter (fun t => nxt lk k i (fst (fst t)) (snd t) (snd (fst t)) qs =? nxt lk k i (fst (fst t)) (snd t) (snd (fst t)) qt)
                 (list_prod (list_prod S S) S)) <= (length qs + 1) * length S ^ 2.
Proof.
  intros HS Hl Hne Hlk. pose proof (quad_diff _ _ Hl Hne) as Hd. unfold nxt. destruct (last_lk lk k i) eqn:El.
  - pose proof (merge_count (fun (q : @quad K) b (_ : K) => let '(_, e1, _, e3) := q in b * (e1 - e3) + e3) S qs qt
      (fun x y => let '(_, e1, _, e3) := x in let '(_, e1', _, e3') := y in e1 <> e1' \/ e3 <> e3') HS Hl) as C.
    etransitivity; [|apply C].
    + apply filter_le. intros [[b la] a] _ H. exact H.
    + intros [[[a0 a1] a2] a3] [[[b0 b1] b2] b3]. destruct (feq_dec a1 b1), (feq_dec a3 b3); auto. right. tauto.
    + intros [[[a0 a1] a2] a3] [[[b0 b1] b2] b3] H.
      etransitivity; [|apply (aff2_count S (a3 - b3) ((a1 - a3) - (b1 - b3)) 0 0 HS)].
      * apply filter_le. intros [b l] _ E. cbn [fst snd] in *. apply feqb_true in E. apply feqb_spec. etransitivity; [|exact E]. unfold aff2. ring.
      * destruct (feq_dec (a3 - b3) 0) as [E|E]; [|auto]. right. left. intros E2. destruct H as [H|H]; apply H.
        -- assert (a1 - b1 = 0) by (replace (a1 - b1) with ((a1 - a3 - (b1 - b3)) + (a3 - b3)) by ring; rewrite E, E2; ring).
           apply fsub_0; auto.
        -- apply fsub_0; auto.
    + destruct Hd as (j & [[[a0 a1] a2] a3] & [[[b0 b1] b2] b3] & Hx & Hy & Hxy). exists j, (a0, a1, a2, a3), (b0, b1, b2, b3). split; [auto|]. split; [auto|].
      destruct (Hlk eq_refl a0 a1 a2 a3) as [-> ->]; [apply in_or_app; left; eapply nth_error_In; eauto|].
      destruct (Hlk eq_refl b0 b1 b2 b3) as [-> ->]; [apply in_or_app; right; eapply nth_error_In; eauto|].
      destruct (feq_dec a1 b1) as [->|]; [|auto]. right. congruence.
  - pose proof (merge_count (fun (q : @quad K) b la => q_next b la q) S qs qt (fun x y => x <> y) HS Hl) as C.
    etransitivity; [|apply C].
    + apply filter_le. intros [[b la] a] _ H. exact H.
    + intros x y. destruct (quad_dec x y); auto.
    + intros [[[a0 a1] a2] a3] [[[b0 b1] b2] b3] H.
      etransitivity; [|apply (aff2_count S (a0 - b0) ((a2 - a0) - (b2 - b0)) (a3 - b3) ((a1 - a3) - (b1 - b3)) HS)].
      * apply filter_le. intros [b l] _ E. cbn [fst snd] in *. apply feqb_true in E. apply feqb_spec. etransitivity; [|exact E]. unfold aff2, q_next. ring.
      * destruct (feq_dec (a0 - b0) 0) as [E0|E0]; [|auto]. destruct (feq_dec (a2 - a0 - (b2 - b0)) 0) as [E1|E1]; [|auto].
        destruct (feq_dec (a3 - b3) 0) as [E2|E2]; [|auto]. right. right. right. intros E3. apply H.
        assert (a2 - b2 = 0) by (replace (a2 - b2) with ((a2 - a0 - (b2 - b0)) + (a0 - b0)) by ring; rewrite E0, E1; ring).
        assert (a1 - b1 = 0) by (replace (a1 - b1) with ((a1 - a3 - (b1 - b3)) + (a3 - b3)) by ring; rewrite E2, E3; ring).
        assert (a0 = b0) by (apply fsub_0; auto). assert (a1 = b1) by (apply fsub_0; auto). assert (a2 = b2) by (apply fsub_0; auto). assert (a3 = b3) by (apply fsub_0; auto).
        congruence.
    + auto.
Qed.
Lemma init_batch_count (S : list K) (qs qt : list (@quad K)) : NoDup S -> length qs = length qt -> qs <> qt ->
  length (filter (fun t => wsum (snd t) (map (o_val (fst (fst t)) (snd (fst t))) qs) =? wsum (snd t) (map (o_val (fst (fst t)) (snd (fst t))) qt))
                 (list_prod (list_prod S S) S)) <= (length qs + 1) * length S ^ 2.
Proof.
  intros HS Hl Hne. pose proof (quad_diff _ _ Hl Hne) as Hd.
  pose proof (merge_count (fun (q : @quad K) b la => o_val b la q) S qs qt (fun x y => x <> y) HS Hl) as C.
  etransitivity; [|apply C].
  - apply filter_le. intros [[b la] a] _ H. exact H.
  - intros x y. destruct (quad_dec x y); auto.
  - intros [[[a0 a1] a2] a3] [[[b0 b1] b2] b3] H.
    etransitivity; [|apply (aff2_count S (a0 - b0) ((a1 - a0) - (b1 - b0)) (a2 - b2) ((a3 - a2) - (b3 - b2)) HS)].
    + apply filter_le. intros [b l] _ E. cbn [fst snd] in *. apply feqb_true in E. apply feqb_spec. etransitivity; [|exact E]. unfold aff2, o_val. ring.
    + destruct (feq_dec (a0 - b0) 0) as [E0|E0]; [|auto]. destruct (feq_dec (a1 - a0 - (b1 - b0)) 0) as [E1|E1]; [|auto].
      destruct (feq_dec (a2 - b2) 0) as [E2|E2]; [|auto]. right. right. right. intros E3. apply H.
      assert (a1 - b1 = 0) by (replace (a1 - b1) with ((a1 - a0 - (b1 - b0)) + (a0 - b0)) by ring; rewrite E0, E1; ring).
      assert (a3 - b3 = 0) by (replace (a3 - b3) with ((a3 - a2 - (b3 - b2)) + (a2 - b2)) by ring; rewrite E2, E3; ring).
      assert (a0 = b0) by (apply fsub_0; auto). assert (a1 = b1) by (apply fsub_0; auto). assert (a2 = b2) by (apply fsub_0; auto). assert (a3 = b3) by (apply fsub_0; auto).
      congruence.
  - auto.
Qed.
End P.
