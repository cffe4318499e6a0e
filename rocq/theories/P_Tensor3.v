(** Padding to powers of two, transposition, accessors and axis permutation of the tensor model. *)
From Coq Require Import List Arith Lia Bool.
From Verif Require Import ListAux FieldDef M_Mle M_Tensor P_Tensor P_Tensor2.
Import ListNotations.

Section Pow2.
Context {A : Type}.
Implicit Types t : ten A.

Lemma npow2_le s : Forall2 le s (shape_npow2 s).
Proof. induction s; cbn; constructor; auto. apply npow2_ge. Qed.

Theorem generic_pad_ok (pv : A) t : wft t -> sh t <> [] -> Forall (lt 0) (sh t) ->
  exists t', generic_pad_next_power_of_two pv t = Some t' /\ padded_with pv t (shape_npow2 (sh t)) t'.
Proof.
  intros W N P. unfold generic_pad_next_power_of_two. destruct (shape_is_pow2 (sh t)) eqn:E.
  - exists t. split; [destruct (sh t); congruence|].
    assert (En : shape_npow2 (sh t) = sh t).
    { unfold shape_is_pow2 in E. rewrite forallb_forall in E. unfold shape_npow2. rewrite <- map_id. apply map_ext_in.
      intros x Hx. apply is_pow2_npow2. auto. }
    rewrite En. split; [reflexivity|]. split; [exact W|]. intros idx H. split; [reflexivity|contradiction].
  - destruct (recursive_pad_ok pv (sh t) (dat t) N P W) as (d & Hd & HL & HE). rewrite Hd. cbn [obind].
    unfold tensor_new. rewrite HL, Nat.eqb_refl. eexists. split; [reflexivity|]. split; [reflexivity|]. split; [exact HL|].
    exact HE.
Qed.

Theorem pad_pow2_is_pad_to_shape (zero : A) t : wft t -> sh t <> [] -> Forall (lt 0) (sh t) ->
  pad_next_power_of_two zero t = pad_to_shape zero t (map npow2 (sh t)).
Proof.
  intros W N P. destruct (generic_pad_ok zero t W N P) as (t1 & E1 & H1).
  destruct (pad_to_shape_ok zero t (shape_npow2 (sh t)) W P (npow2_le _)) as (t2 & E2 & H2).
  unfold pad_next_power_of_two. rewrite E1. change (map npow2 (sh t)) with (shape_npow2 (sh t)). rewrite E2.
  f_equal. eapply padded_with_unique; eauto.
Qed.

Lemma F2_le_trans a b c : Forall2 le a b -> Forall2 le b c -> Forall2 le a c.
Proof. intros H. revert c. induction H; intros c H'; inversion H'; subst; constructor; eauto; lia. Qed.
Lemma F2_le_pos a b : Forall2 le a b -> Forall (lt 0) a -> Forall (lt 0) b.
Proof. induction 1; intros P; inversion P; subst; constructor; auto; lia. Qed.

Theorem pad_twice (zero : A) t ns ns' : wft t -> Forall (lt 0) (sh t) -> Forall2 le (sh t) ns -> Forall2 le ns ns' ->
  (x <- pad_to_shape zero t ns ;; pad_to_shape zero x ns') = pad_to_shape zero t ns'.
Proof.
  intros W P F F'. destruct (pad_to_shape_ok zero t ns W P F) as (t1 & E1 & S1 & W1 & H1). rewrite E1. cbn [obind].
  assert (P1 : Forall (lt 0) (sh t1)) by (rewrite S1; eapply F2_le_pos; eauto).
  assert (F1 : Forall2 le (sh t1) ns') by (rewrite S1; auto).
  destruct (pad_to_shape_ok zero t1 ns' W1 P1 F1) as (t2 & E2 & S2 & W2 & H2).
  destruct (pad_to_shape_ok zero t ns' W P (F2_le_trans _ _ _ F F')) as (t3 & E3 & H3). rewrite E2, E3. f_equal.
  apply (padded_with_unique zero t ns'); auto. split; [auto|]. split; [auto|]. intros idx I.
  destruct (H2 idx I) as [Ha Hb]. rewrite S1 in Ha, Hb. destruct (inb_dec ns idx) as [J|J].
  - destruct (H1 idx J) as [Hc Hd]. split; intros K.
    + rewrite (Ha J). auto.
    + rewrite (Ha J). auto.
  - split; intros K; [|auto]. exfalso. apply J. eapply inb_mono; eauto.
Qed.

(** A zero dimension: the two paddings disagree. *)
Theorem pad_empty (zero : A) : pad_next_power_of_two zero (mkTen [0] []) = Some (mkTen [1] [zero]) /\
  (forall ns, pad_to_shape zero (mkTen [0] []) ns = None) /\
  (forall n, pad_next_power_of_two zero (mkTen [0; n] []) = None).
Proof.
  split; [reflexivity|]. split; [intros ns; apply pad_to_shape_rejects; right; right; left; reflexivity|].
  intros n. unfold pad_next_power_of_two, generic_pad_next_power_of_two. cbn [sh dat shape_is_pow2 forallb is_pow2].
  change (is_pow2 0) with false. cbn [andb recursive_pad].
  unfold ochunks. destruct (sprod [n] =? 0); reflexivity.
Qed.
End Pow2.

(** *** Transposition *)
Section Transpose.
Context {A : Type} (d : A).
Implicit Types t : ten A.

Lemma wf2 t m n : wft t -> sh t = [m; n] -> length (dat t) = m * n.
Proof. unfold wft. intros W E. rewrite W, E. cbn. lia. Qed.
Lemma flat2 m n i j : flat [m; n] [i; j] = i * n + j. Proof. cbn. lia. Qed.
Lemma inb2 m n i j : inb [m; n] [i; j] <-> i < m /\ j < n.
Proof. rewrite !inb_cons. split; [intros (H & H1 & _)|intros (H & H1)]; repeat split; auto. constructor. Qed.
Lemma inb2_inv m n idx : inb [m; n] idx -> exists i j, idx = [i; j] /\ i < m /\ j < n.
Proof.
  intros H. apply inb_inv in H as (i & r & -> & Hi & H). apply inb_inv in H as (j & r' & -> & Hj & H).
  apply inb_nil_inv in H. subst. eauto.
Qed.

Theorem transpose_ok t m n : wft t -> sh t = [m; n] ->
  exists t', transpose t = Some t' /\ sh t' = [n; m] /\ wft t' /\
    forall i j, i < m -> j < n -> entry d t' [j; i] = entry d t [i; j].
Proof.
  intros W E. assert (L := wf2 t m n W E). unfold transpose. rewrite E. cbv zeta.
  rewrite (omapM_range _ (fun idx => nth (idx mod m * n + idx / m) (dat t) d)).
  2:{ intros idx Hi. apply nth_error_some. rewrite L. assert (m <> 0) by (intros ->; lia).
      assert (idx mod m < m) by (apply Nat.mod_upper_bound; auto).
      assert (idx / m < n) by (apply Nat.div_lt_upper_bound; lia). nia. }
  cbn [obind]. eexists. split; [reflexivity|]. split; [reflexivity|]. split.
  - unfold wft. cbn [sh dat]. rewrite map_length, seq_length. cbn. lia.
  - intros i j Hi Hj. unfold entry. cbn [sh dat]. rewrite E, !flat2.
    assert (B : j * m + i < n * m) by nia.
    rewrite (nth_map_lt _ _ _ 0) by (rewrite seq_length; auto).
    rewrite seq_nth by auto. cbn [plus]. f_equal.
    rewrite (Nat.add_comm (j * m)), Nat.mod_add, Nat.mod_small, Nat.div_add, Nat.div_small by lia. lia.
Qed.

Theorem transpose_twice t m n : wft t -> sh t = [m; n] -> (u <- transpose t ;; transpose u) = Some t.
Proof.
  intros W E. destruct (transpose_ok t m n W E) as (u & E1 & S1 & W1 & H1). rewrite E1. cbn [obind].
  destruct (transpose_ok u n m W1 S1) as (v & E2 & S2 & W2 & H2). rewrite E2. f_equal.
  apply (ten_ext d); auto; [congruence|]. intros idx I. rewrite S2 in I. apply inb2_inv in I as (i & j & -> & Hi & Hj).
  rewrite H2, H1; auto.
Qed.
End Transpose.

(** *** Accessors *)
Section Access.
Context {A : Type} (d : A).
Implicit Types t : ten A.

Lemma get_fold : forall ra rs pos vol, Forall2 lt ra rs ->
  ofold (fun (st : nat * nat) (p : nat * nat) =>
     if fst p <? snd p then Some (fst st + fst p * snd st, snd st * snd p) else None) (combine ra rs) (pos, vol)
  = Some (pos + vol * rval rs ra, vol * sprod rs).
Proof.
  induction ra as [|a ra IH]; intros rs pos vol F; inversion F; subst; cbn [combine].
  - cbn. f_equal. f_equal; [|lia]. lia.
  - cbn [ofold fst snd].
    match goal with H : a < _ |- _ => rewrite (proj2 (Nat.ltb_lt _ _) H) end. cbn [obind].
    rewrite IH by auto. cbn [rval]. rewrite sprod_cons. f_equal. f_equal; ring.
Qed.
Lemma get_fold_rej : forall ra rs st, length ra = length rs -> ~ Forall2 lt ra rs ->
  ofold (fun (st : nat * nat) (p : nat * nat) =>
     if fst p <? snd p then Some (fst st + fst p * snd st, snd st * snd p) else None) (combine ra rs) st = None.
Proof.
  induction ra as [|a ra IH]; intros [|s rs] st L N; try discriminate; cbn [combine].
  - exfalso. apply N. constructor.
  - cbn [ofold fst snd]. destruct (Nat.ltb_spec a s) as [H|H]; cbn [obind]; [|reflexivity].
    apply IH; [cbn in L; lia|]. intros F. apply N. constructor; auto.
Qed.

Lemma rev_snoc_inv {B} (l : list B) n : length l = S n -> exists l' x, l = l' ++ [x] /\ length l' = n.
Proof.
  intros H. destruct (exists_last (l:=l)) as (l' & x & ->); [intros ->; discriminate|]. exists l', x. split; auto.
  rewrite app_length in H. cbn in H. lia.
Qed.

(** What [get_idx] computes: all accessors but the last must be in range. *)
Theorem get_idx_spec t (a s : nat) (accs dims : list nat) :
  sh t = dims ++ [s] -> length accs = length dims ->
  (Forall2 lt accs dims -> get_idx t (accs ++ [a]) = Some (flat dims accs * s + a)) /\
  (~ Forall2 lt accs dims -> get_idx t (accs ++ [a]) = None).
Proof.
  intros E L. unfold get_idx. rewrite E, !app_length. rewrite <- L, Nat.eqb_refl, !rev_app_distr. cbn [rev app].
  split; intros F.
  - rewrite get_fold by (apply Forall2_rev'; auto). cbn [obind fst]. f_equal.
    rewrite rval_flat by (rewrite !rev_length; lia). rewrite !rev_involutive. lia.
  - rewrite get_fold_rej; [reflexivity|rewrite !rev_length; lia|]. intros G. apply F. apply Forall2_rev' in G.
    rewrite !rev_involutive in G. auto.
Qed.

Theorem get_in_range t idx : wft t -> sh t <> [] -> inb (sh t) idx ->
  get_idx t idx = Some (flat (sh t) idx) /\ tget t idx = Some (entry d t idx).
Proof.
  intros W N I. assert (Li := inb_len _ _ I). destruct (length (sh t)) as [|n] eqn:Ls; [destruct (sh t); [congruence|discriminate]|].
  destruct (rev_snoc_inv (sh t) n Ls) as (dims & s & E & Ld). destruct (rev_snoc_inv idx n Li) as (accs & a & -> & La).
  assert (Fx : Forall2 lt accs dims /\ a < s).
  { unfold inb in I. rewrite E in I. apply Forall2_app_inv_l in I as (l1 & l2 & F1 & F2 & Eq).
    inversion F2 as [|? y ? ? Hay F3]; subst. inversion F3; subst. apply app_inj_tail in Eq as [<- <-]. auto. }
  destruct Fx as [F Ha].
  assert (G : get_idx t (accs ++ [a]) = Some (flat (sh t) (accs ++ [a]))).
  { rewrite (proj1 (get_idx_spec t a s accs dims E (Forall2_le_len _ _ _ F)) F). rewrite E, flat_snoc; [reflexivity|].
    symmetry. exact (Forall2_le_len _ _ _ F). }
  split; [exact G|]. unfold tget. rewrite G. cbn [obind]. apply nth_error_some. rewrite W. apply flat_lt. exact I.
Qed.

(** Which accessors are rejected: a wrong rank, or an out-of-range accessor before the last one. *)
Theorem get_idx_rejects t (acc : list nat) : length acc <> length (sh t) \/ ~ Forall2 lt (removelast acc) (removelast (sh t)) ->
  get_idx t acc = None.
Proof.
  intros H. destruct (Nat.eq_dec (length (sh t)) (length acc)) as [L|L].
  2:{ unfold get_idx. apply Nat.eqb_neq in L. rewrite L. reflexivity. }
  destruct H as [H|H]; [lia|]. destruct (length (sh t)) as [|n] eqn:Ls.
  { exfalso. apply H. destruct (sh t); [|discriminate]. destruct acc; [|discriminate]. constructor. }
  destruct (rev_snoc_inv (sh t) n Ls) as (dims & s & E & Ld). destruct (rev_snoc_inv acc n (eq_sym L)) as (accs & a & -> & La).
  rewrite E, !removelast_last in H. apply (get_idx_spec t a s accs dims E); [lia|auto].
Qed.

(** The last accessor is not checked: past the end of a row it reads the next row. *)
Theorem get_last_unchecked t m n i k : sh t = [m; n] -> wft t -> 0 < k -> S i < m -> k < n ->
  ~ inb (sh t) [i; n + k] /\ tget t [i; n + k] = Some (entry d t [S i; k]).
Proof.
  intros E W Hk Hi Hkn. split.
  - rewrite E, inb2. lia.
  - unfold tget. change [i; n + k] with ([i] ++ [n + k]). rewrite (proj1 (get_idx_spec t (n + k) n [i] [m] E eq_refl)) by (constructor; [lia|constructor]).
    cbn [obind]. assert (L := wf2 t m n W E). unfold entry. rewrite E, flat2.
    replace (flat [m] [i] * n + (n + k)) with (S i * n + k) by (cbn; lia). apply nth_error_some. rewrite L. nia.
Qed.
End Access.

(** *** Axis permutation *)
Section Permute.
Context {A : Type} (zero : A).
Implicit Types t : ten A.

(** Folding writes at distinct places. *)
Lemma ofold_upd {P} (f : list A -> P -> option (list A)) (loc : P -> nat) (val : P -> A) (N : nat) (ps : list P) :
  (forall data p, In p ps -> length data = N -> f data p = Some (upd (loc p) (val p) data)) ->
  (forall p, In p ps -> loc p < N) ->
  (forall p q, In p ps -> In q ps -> loc p = loc q -> val p = val q) ->
  forall data, length data = N -> exists data', ofold f ps data = Some data' /\ length data' = N /\
    (forall p, In p ps -> nth (loc p) data' zero = val p) /\
    (forall k, (forall p, In p ps -> loc p <> k) -> nth k data' zero = nth k data zero).
Proof.
  induction ps as [|p ps IH]; intros Hf Hl Hv data L.
  - exists data. split; [reflexivity|]. split; [auto|]. split; [intros p []|auto].
  - cbn [ofold]. rewrite Hf by (auto; left; auto). cbn [obind].
    destruct (IH (fun dt q Hq => Hf dt q (or_intror Hq)) (fun q Hq => Hl q (or_intror Hq))
                 (fun a b Ha Hb => Hv a b (or_intror Ha) (or_intror Hb)) (upd (loc p) (val p) data)) as (d' & E & L' & H1 & H2).
    { rewrite upd_length. auto. }
    exists d'. split; [exact E|]. split; [auto|]. split.
    + intros q [<-|Hq]; [|auto]. destruct (in_dec Nat.eq_dec (loc p) (map loc ps)) as [Hin|Hin].
      * apply in_map_iff in Hin as (q & Eq & Hq). rewrite <- Eq, H1 by auto. apply Hv; [right; auto|left; auto|auto].
      * rewrite H2. { rewrite nth_upd_eq; auto. rewrite L. apply Hl. left; auto. }
        intros q Hq Eq. apply Hin. rewrite <- Eq. apply in_map. auto.
    + intros k Hk. rewrite H2 by (intros q Hq; apply Hk; right; auto). apply nth_upd_neq.
      apply Hk. left; auto.
Qed.

Definition perm_idx (order idx : list nat) : list nat := map (fun o => nth o idx 0) order.

Lemma inb3_inv a b c idx : inb [a; b; c] idx -> exists i j k, idx = [i; j; k] /\ i < a /\ j < b /\ k < c.
Proof.
  intros H. apply inb_inv in H as (i & r & -> & Hi & H). apply inb2_inv in H as (j & k & -> & Hj & Hk). eauto 8.
Qed.
Lemma inb3 a b c i j k : inb [a; b; c] [i; j; k] <-> i < a /\ j < b /\ k < c.
Proof. rewrite inb_cons, inb2. tauto. Qed.
Lemma flat3 a b c i j k : flat [a; b; c] [i; j; k] = i * b * c + j * c + k. Proof. cbn. nia. Qed.

Lemma perm3_cases order : Permutation.Permutation order [0; 1; 2] ->
  In order [[0;1;2];[0;2;1];[1;0;2];[1;2;0];[2;0;1];[2;1;0]].
Proof.
  intros P. assert (L := Permutation.Permutation_length P). assert (ND := Permutation.Permutation_NoDup (Permutation.Permutation_sym P)).
  specialize (ND ltac:(repeat constructor; cbn; intuition discriminate)).
  destruct order as [|x [|y [|z [|]]]]; try discriminate.
  assert (Hin : forall v, In v [x; y; z] -> In v [0; 1; 2]) by (intros v; apply Permutation.Permutation_in; auto).
  assert (Hx := Hin x ltac:(cbn; auto)). assert (Hy := Hin y ltac:(cbn; auto)). assert (Hz := Hin z ltac:(cbn; auto)).
  inversion ND as [|? ? N1 ND1]; subst. inversion ND1 as [|? ? N2 _]; subst. clear -Hx Hy Hz N1 N2.
  cbn in Hx, Hy, Hz, N1, N2.
  destruct Hx as [<-|[<-|[<-|[]]]]; destruct Hy as [<-|[<-|[<-|[]]]]; destruct Hz as [<-|[<-|[<-|[]]]];
    try (exfalso; tauto); cbn; tauto.
Qed.

Theorem permute3d_ok t order : wft t -> length (sh t) = 3 -> Permutation.Permutation order [0; 1; 2] ->
  exists t', permute3d zero t order = Some t' /\ sh t' = perm_idx order (sh t) /\ wft t' /\
    forall idx, inb (sh t) idx -> inb (sh t') (perm_idx order idx) /\ entry zero t' (perm_idx order idx) = entry zero t idx.
Proof.
  intros W L3 P. destruct (sh t) as [|a [|b [|c [|]]]] eqn:Es; try discriminate. clear L3.
  assert (L : length (dat t) = a * b * c) by (unfold wft in W; rewrite W, Es; cbn; nia).
  assert (Ho : exists o0 o1 o2, order = [o0; o1; o2]).
  { assert (Q := Permutation.Permutation_length P). destruct order as [|o0 [|o1 [|o2 [|]]]]; try discriminate. eauto. }
  destruct Ho as (o0 & o1 & o2 & Eo).
  set (na := nth o0 [a; b; c] 0). set (nb := nth o1 [a; b; c] 0). set (nc := nth o2 [a; b; c] 0).
  set (pt := fun p : nat * (nat * nat) => [fst p; fst (snd p); snd (snd p)]).
  set (ps := list_prod (seq 0 a) (list_prod (seq 0 b) (seq 0 c))).
  assert (Hps : forall p, In p ps <-> fst p < a /\ fst (snd p) < b /\ snd (snd p) < c).
  { intros [i [j k]]. unfold ps. rewrite !in_prod_iff, !in_seq. cbn. lia. }
  assert (Bd : forall p, In p ps -> inb [na; nb; nc] (perm_idx order (pt p)) /\ na * nb * nc = a * b * c).
  { intros p Hp. apply Hps in Hp. assert (C := perm3_cases _ P). unfold na, nb, nc, pt, perm_idx in *.
    cbn in C. rewrite Eo in C |- *.
    destruct C as [C|[C|[C|[C|[C|[C|[]]]]]]]; injection C as <- <- <-; cbn [map nth]; (split; [apply inb3; tauto|lia]). }
  assert (Nabc : na * nb * nc = a * b * c).
  { assert (C := perm3_cases _ P). unfold na, nb, nc. cbn in C. rewrite Eo in C.
    destruct C as [C|[C|[C|[C|[C|[C|[]]]]]]]; injection C as <- <- <-; cbn [nth]; lia. }
  set (loc := fun p => flat [na; nb; nc] (perm_idx order (pt p))).
  set (val := fun p => entry zero t (pt p)).
  assert (Inj : forall p q, In p ps -> In q ps -> loc p = loc q -> val p = val q).
  { intros p q Hp Hq E. unfold loc in E. apply flat_inj in E; [|apply Bd; auto|apply Bd; auto]. unfold val. f_equal.
    unfold pt, perm_idx in *. assert (C := perm3_cases _ P). cbn in C. rewrite Eo in C, E.
    destruct C as [C|[C|[C|[C|[C|[C|[]]]]]]]; injection C as <- <- <-; cbn [map nth] in E; congruence. }
  assert (F3 : forallb (fun x => x <? 3) order = true).
  { assert (C := perm3_cases _ P). cbn in C. rewrite Eo in C |- *.
    destruct C as [C|[C|[C|[C|[C|[C|[]]]]]]]; injection C as <- <- <-; reflexivity. }
  unfold permute3d. rewrite Es. rewrite Eo in F3 |- *. cbn [forallb] in F3 |- *. rewrite F3. cbv zeta. fold na nb nc.
  match goal with |- context [ofold ?f _ _] => set (F := f) end. fold ps.
  destruct (ofold_upd F loc val (a * b * c) ps) with (data := repeat zero (a * b * c)) as (d' & E & L' & H1 & H2).
  - intros data p Hp Hl. destruct (Bd p Hp) as [I _]. apply Hps in Hp. destruct p as [i [j k]]. unfold F.
    assert (Hloc : nth o0 [i; j; k] 0 * nb * nc + nth o1 [i; j; k] 0 * nc + nth o2 [i; j; k] 0 = loc (i, (j, k))).
    { unfold loc, perm_idx, pt. rewrite Eo. cbn [map fst snd]. rewrite flat3. reflexivity. }
    rewrite Hloc. assert (B := flat_lt _ _ I). fold (loc (i, (j, k))) in B. cbn [sprod fold_right] in B.
    rewrite (proj2 (Nat.ltb_lt _ _)) by lia. rewrite (proj2 (Nat.ltb_lt _ _)) by lia.
    cbn [fst snd] in Hp. rewrite (nth_error_some zero). 2:{ rewrite L. assert (i * b * c + j * c + k = flat [a;b;c] [i;j;k]) by (rewrite flat3; lia).
      assert (I' : inb [a;b;c] [i;j;k]) by (apply inb3; auto). apply flat_lt in I'. cbn [sprod fold_right] in I'. lia. }
    cbn [obind]. do 2 f_equal. unfold val, entry, pt. cbn [fst snd]. rewrite Es, flat3. reflexivity.
  - intros p Hp. destruct (Bd p Hp) as [I Q]. apply flat_lt in I. unfold loc. cbn [sprod fold_right] in I. lia.
  - exact Inj.
  - apply repeat_length.
  - rewrite E. cbn [obind]. eexists. split; [reflexivity|]. cbn [sh dat]. split; [unfold perm_idx; reflexivity|]. split.
    + unfold wft. cbn [sh dat fold_right]. rewrite L'. lia.
    + intros idx I. apply inb3_inv in I as (i & j & k & -> & Hi & Hj & Hk).
      assert (Hp : In (i, (j, k)) ps) by (apply Hps; cbn; auto).
      destruct (Bd _ Hp) as [I _]. rewrite <- Eo. split; [exact I|]. exact (H1 _ Hp).
Qed.

(** Permuting back. *)
Theorem permute3d_back t order back : wft t -> length (sh t) = 3 ->
  Permutation.Permutation order [0; 1; 2] -> Permutation.Permutation back [0; 1; 2] ->
  perm_idx back (perm_idx order [0; 1; 2]) = [0; 1; 2] ->
  (u <- permute3d zero t order ;; permute3d zero u back) = Some t.
Proof.
  intros W L3 P Q Inv. destruct (permute3d_ok t order W L3 P) as (u & E1 & S1 & W1 & H1). rewrite E1. cbn [obind].
  assert (L3u : length (sh u) = 3) by (rewrite S1; unfold perm_idx; rewrite map_length; exact (Permutation.Permutation_length P)).
  destruct (permute3d_ok u back W1 L3u Q) as (v & E2 & S2 & W2 & H2). rewrite E2. f_equal.
  assert (G : forall l, length l = 3 -> perm_idx back (perm_idx order l) = l).
  { intros l Ll. destruct l as [|x [|y [|z [|]]]]; try discriminate.
    assert (C := perm3_cases _ P). assert (D := perm3_cases _ Q). cbn in C, D.
    destruct C as [<-|[<-|[<-|[<-|[<-|[<-|[]]]]]]]; destruct D as [<-|[<-|[<-|[<-|[<-|[<-|[]]]]]]]; cbn in Inv |- *; congruence. }
  assert (Sv : sh v = sh t) by (rewrite S2, S1; apply G; auto).
  apply (ten_ext zero); auto. intros idx I. rewrite Sv in I. destruct (H1 idx I) as [I1 V1]. destruct (H2 _ I1) as [I2 V2].
  rewrite G in V2 by (rewrite (inb_len _ _ I); auto). congruence.
Qed.
End Permute.
