(** Proofs about argmax and the evaluation of embeddings. *)
From Coq Require Import List Arith Lia Bool ZArith Ring Field.
From Verif Require Import ListAux FieldDef MleMath M_Mle M_Tensor P_Tensor P_Tensor2 P_Tensor3 P_Tensor4 M_Pad P_Pad P_Pad2 M_Layers P_Layers P_Layers2 P_Layers3 P_Layers5
  M_Transformer P_Transformer P_Transformer2.
From Verif Require P_Graph4.
Import ListNotations.

(** *** Argmax *)
(** [k] is the first position of a largest entry of [v]. *)
Definition first_max (v : list Z) (k : nat) : Prop :=
  k < length v /\ (forall i, i < length v -> (nth i v 0 <= nth k v 0)%Z) /\ (forall i, i < k -> (nth i v 0 < nth k v 0)%Z).
Lemma first_max_unique v k k' : first_max v k -> first_max v k' -> k = k'.
Proof.
  intros (H1 & H2 & H3) (H1' & H2' & H3'). destruct (Nat.lt_trichotomy k k') as [H|[H|H]]; auto.
  - specialize (H3' k H). specialize (H2 k' H1'). lia.
  - specialize (H3 k' H). specialize (H2' k H1). lia.
Qed.

Lemma max_fold : forall (r : list Z) a m k,
  let res := fold_left (fun acc '(i, x) => if Z.ltb (fst acc) x then (x, i) else acc) (combine (seq a (length r)) r) (m, k) in
  (res = (m, k) /\ forall x, In x r -> (x <= m)%Z) \/
  (exists j, j < length r /\ res = (nth j r 0%Z, a + j) /\ (m < nth j r 0)%Z /\ first_max r j).
Proof.
  induction r as [|x r IH]; intros a m k; cbn [length seq combine fold_left fst].
  - left. split; [reflexivity|intros x []].
  - destruct (Z.ltb_spec m x) as [Hx|Hx].
    + right. destruct (IH (S a) x a) as [[E H]|(j & Hj & E & Hm & H1 & H2 & H3)].
      * exists 0. split; [cbn; lia|]. split; [cbn [nth]; rewrite Nat.add_0_r; exact E|]. split; [exact Hx|].
        split; [cbn; lia|]. split; [|intros i Hi; lia]. intros [|i] Hi; cbn [nth]; [lia|]. apply H. apply nth_In. cbn in Hi. lia.
      * exists (S j). split; [cbn; lia|]. split; [cbn [nth]; rewrite E; f_equal; lia|]. split; [cbn [nth]; lia|].
        split; [cbn; lia|]. split.
        -- intros [|i] Hi; cbn [nth]; [lia|]. apply H2. cbn in Hi. lia.
        -- intros [|i] Hi; cbn [nth]; [lia|]. apply H3. lia.
    + destruct (IH (S a) m k) as [[E H]|(j & Hj & E & Hm & H1 & H2 & H3)].
      * left. split; [exact E|]. intros y [<-|Hy]; [lia|auto].
      * right. exists (S j). split; [cbn; lia|]. split; [cbn [nth]; rewrite E; f_equal; lia|]. split; [cbn [nth]; lia|].
        split; [cbn; lia|]. split.
        -- intros [|i] Hi; cbn [nth]; [lia|]. apply H2. cbn in Hi. lia.
        -- intros [|i] Hi; cbn [nth]; [lia|]. apply H3. lia.
Qed.

Lemma max_fold_min (amin : Z) v : v <> [] -> (forall x, In x v -> (amin <= x)%Z) ->
  exists k, fold_left (fun acc '(i, x) => if Z.ltb (fst acc) x then (x, i) else acc) (combine (seq 0 (length v)) v) (amin, 0) = (nth k v 0%Z, k) /\ first_max v k.
Proof.
  intros Hv Hm. destruct (max_fold v 0 amin 0) as [[E H]|(j & Hj & E & _ & Hf)].
  - exists 0. destruct v as [|x v]; [congruence|]. assert (x = amin) as -> by (specialize (H x (or_introl eq_refl)); specialize (Hm x (or_introl eq_refl)); lia).
    split; [exact E|]. split; [cbn; lia|]. split; [|intros i Hi; lia]. intros i Hi. apply H. apply nth_In. auto.
  - exists j. split; [exact E|auto].
Qed.

(** The maximum and its first position. *)
Lemma max_in_slice_iff (amin : Z) v m k : (forall x, In x v -> (amin <= x)%Z) ->
  (max_in_slice Z.ltb amin v = Some (m, k) <-> first_max v k /\ m = nth k v 0%Z).
Proof.
  intros Hm. destruct v as [|x v].
  - cbn. split; [discriminate|]. intros [[H _] _]. cbn in H. lia.
  - destruct (max_fold_min amin (x :: v)) as (j & E & Hf); [discriminate|auto|].
    unfold max_in_slice. rewrite E. split.
    + intros H. assert (j = k) as -> by congruence. assert (m = nth k (x :: v) 0%Z) by congruence. auto.
    + intros [Hk ->]. rewrite (first_max_unique _ _ _ Hf Hk). reflexivity.
Qed.
Lemma argmax_slice_iff (amin : Z) v k : (forall x, In x v -> (amin <= x)%Z) ->
  (argmax_slice Z.ltb amin v = Some k <-> first_max v k).
Proof.
  intros Hm. unfold argmax_slice. destruct (max_in_slice Z.ltb amin v) as [[m j]|] eqn:E; cbn [option_map snd].
  - apply max_in_slice_iff in E as [Hj _]; auto. split; [intros [= <-]; auto|]. intros Hk. rewrite (first_max_unique _ _ _ Hj Hk). reflexivity.
  - split; [discriminate|]. intros Hk. assert (max_in_slice Z.ltb amin v = Some (nth k v 0%Z, k)) by (apply max_in_slice_iff; auto). congruence.
Qed.
Lemma argmax_iff v k : argmax Z.ltb v = Some k <-> first_max v k.
Proof.
  destruct v as [|x v]; cbn [argmax].
  - split; [discriminate|]. intros [H _]. cbn in H. lia.
  - assert (H : exists j, snd (fold_left (fun acc '(i, y) => if Z.ltb (fst acc) y then (y, i) else acc) (combine (seq 1 (length v)) v) (x, 0)) = j /\ first_max (x :: v) j).
    { destruct (max_fold v 1 x 0) as [[E H]|(j & Hj & E & Hx & H1 & H2 & H3)]; cbv zeta in E; rewrite E; cbn [snd].
      - exists 0. split; [reflexivity|]. split; [cbn; lia|]. split; [|intros i Hi; lia]. intros [|i] Hi; cbn [nth]; [lia|]. apply H. apply nth_In. cbn in Hi. lia.
      - exists (S j). split; [reflexivity|]. split; [cbn; lia|]. split.
        + intros [|i] Hi; cbn [nth]; [lia|]. apply H2. cbn in Hi. lia.
        + intros [|i] Hi; cbn [nth]; [lia|]. apply H3. lia. }
    destruct H as (j & -> & Hf). split; [intros [= <-]; auto|]. intros Hk. rewrite (first_max_unique _ _ _ Hf Hk). reflexivity.
Qed.
Lemma fold_swap : forall (l : list (nat * Z)) m k,
  fold_left (fun acc '(i, x) => if Z.ltb (snd acc) x then (i, x) else acc) l (k, m)
  = (let r := fold_left (fun acc '(i, x) => if Z.ltb (fst acc) x then (x, i) else acc) l (m, k) in (snd r, fst r)).
Proof.
  induction l as [|[i x] l IH]; intros m k; cbn [fold_left fst snd]; [reflexivity|]. destruct (Z.ltb m x); apply IH.
Qed.
Lemma tensor_argmax_ok (amin : Z) (t : ten Z) : dat t <> [] -> (forall x, In x (dat t) -> (amin <= x)%Z) -> first_max (dat t) (tensor_argmax Z.ltb amin t).
Proof.
  intros Hd Hm. unfold tensor_argmax. rewrite fold_swap. cbv zeta. cbn [fst]. destruct (max_fold_min amin (dat t) Hd Hm) as (k & -> & Hf). exact Hf.
Qed.

(** Zero padding of a row. *)
Lemma first_max_pad v p k : first_max v k -> (0 <= nth k v 0)%Z -> first_max (v ++ repeat 0%Z p) k.
Proof.
  intros (H1 & H2 & H3) H0. split; [rewrite app_length; lia|]. rewrite (app_nth1 v _ _ H1). split.
  - intros i Hi. destruct (Nat.lt_ge_cases i (length v)) as [Hl|Hl]; [rewrite app_nth1 by auto; auto|].
    rewrite app_nth2, nth_repeat by auto. auto.
  - intros i Hi. rewrite app_nth1 by lia. auto.
Qed.
Lemma first_max_pad_neg v p : (forall x, In x v -> (x < 0)%Z) -> 0 < p -> first_max (v ++ repeat 0%Z p) (length v).
Proof.
  intros Hv Hp. split; [rewrite app_length, repeat_length; lia|]. rewrite app_nth2, nth_repeat by lia. split.
  - intros i Hi. destruct (Nat.lt_ge_cases i (length v)) as [Hl|Hl].
    + rewrite app_nth1 by auto. specialize (Hv (nth i v 0%Z) (nth_In _ _ Hl)). lia.
    + rewrite app_nth2, nth_repeat by auto. lia.
  - intros i Hi. rewrite app_nth1 by auto. apply Hv. apply nth_In. auto.
Qed.
Lemma padded_argmax (amin : Z) v p : (amin <= 0)%Z -> (forall x, In x v -> (amin <= x)%Z) -> (exists x, In x v /\ (0 <= x)%Z) ->
  argmax_slice Z.ltb amin (v ++ repeat 0%Z p) = argmax_slice Z.ltb amin v.
Proof.
  intros H0 Hm (x & Hx & Hx0). destruct (argmax_slice Z.ltb amin v) as [k|] eqn:E.
  - apply argmax_slice_iff in E; auto. apply argmax_slice_iff.
    + intros y Hy. apply in_app_or in Hy as [Hy|Hy]; [auto|]. apply repeat_spec in Hy. lia.
    + apply first_max_pad; auto. destruct (In_nth _ _ 0%Z Hx) as (i & Hi & <-). destruct E as (_ & H2 & _). specialize (H2 i Hi). lia.
  - destruct v; [destruct Hx|discriminate].
Qed.
Lemma padded_argmax_negative (amin : Z) v p : (amin <= 0)%Z -> (forall x, In x v -> (amin <= x < 0)%Z) -> v <> [] -> 0 < p ->
  argmax_slice Z.ltb amin (v ++ repeat 0%Z p) = Some (length v) /\ argmax_slice Z.ltb amin v <> Some (length v).
Proof.
  intros H0 Hm Hv Hp. split.
  - apply argmax_slice_iff.
    + intros y Hy. apply in_app_or in Hy as [Hy|Hy]; [apply Hm; auto|]. apply repeat_spec in Hy. lia.
    + apply first_max_pad_neg; auto. intros x Hx. apply Hm. auto.
  - intros E. apply argmax_slice_iff in E as [H _]; [lia|]. intros x Hx. apply Hm. auto.
Qed.

(** *** The layer *)
(** Row of the tensor at leading indices [i1]. *)
Definition row_at (t : ten Z) (i1 : list nat) : list Z := map (fun j => entry 0%Z t (i1 ++ [j])) (seq 0 (last (sh t) 0)).
Definition lead (t : ten Z) : list nat := removelast (sh t).

Lemma lead_split (t : ten Z) : 2 <= length (sh t) -> firstn (length (sh t) - 2 + 1) (sh t) = lead t /\ skipn (length (sh t) - 2 + 1) (sh t) = [last (sh t) 0].
Proof.
  intros H. assert (Hn : sh t <> []) by (intros E; rewrite E in H; cbn in H; lia).
  pose proof (app_removelast_last 0 Hn) as E. unfold lead. set (a := removelast (sh t)) in *. set (b := last (sh t) 0) in *.
  assert (La : length (sh t) - 2 + 1 = length a) by (rewrite E, app_length in H |- *; cbn in *; lia).
  rewrite La, E. rewrite firstn_app, firstn_all, Nat.sub_diag, skipn_app, skipn_all, Nat.sub_diag. cbn [firstn skipn app]. rewrite app_nil_r. auto.
Qed.

Lemma logits_one (amin : Z) (t : ten Z) : wft t -> Forall (lt 0) (sh t) -> 2 <= length (sh t) -> (forall x, In x (dat t) -> (amin <= x)%Z) ->
  exists idx mx, (rows <- slice_last_dim t ;; ms <- omapM (max_in_slice Z.ltb amin) rows ;;
                  Some (mkTen [length ms; 1] (map snd ms), mkTen [length ms; 1] (map fst ms))) = Some (idx, mx) /\
    sh idx = [sprod (lead t); 1] /\ wft idx /\ sh mx = [sprod (lead t); 1] /\ wft mx /\
    forall i1, inb (lead t) i1 ->
      first_max (row_at t i1) (nth (flat (lead t) i1) (dat idx) 0) /\
      nth (flat (lead t) i1) (dat mx) 0%Z = nth (nth (flat (lead t) i1) (dat idx) 0) (row_at t i1) 0%Z.
Proof.
  intros W P L Hm. unfold slice_last_dim, csub. rewrite (proj2 (Nat.leb_le 2 _)) by auto. cbn [obind].
  destruct (slice_on_dim_ok 0%Z t (length (sh t) - 2) W P ltac:(lia)) as (ss & E & Ls & Hs). rewrite E. cbn [obind fst].
  destruct (lead_split t L) as [E1 E2]. rewrite E1, E2 in *.
  assert (Hb : 0 < last (sh t) 0).
  { assert (sh t <> []) by (intros X; rewrite X in L; cbn in L; lia). rewrite (app_removelast_last 0) in P by auto. apply Forall_app in P as [_ P]. inversion P. auto. }
  assert (Hu : forall i1, inb (lead t) i1 -> nth (flat (lead t) i1) ss [] = row_at t i1).
  { intros i1 Hi. unfold slice_on_dim in E. rewrite (proj2 (Nat.ltb_lt _ _)) in E by lia. rewrite (proj2 (Nat.ltb_lt _ _)) in E by lia. rewrite E2 in E.
    unfold ochunks in E. change (sprod [last (sh t) 0]) with (last (sh t) 0 * 1) in E. rewrite Nat.mul_1_r in E.
    destruct (Nat.eqb_spec (last (sh t) 0) 0); [lia|]. cbn [obind] in E.
    assert (Ess : ss = chunks (last (sh t) 0) (dat t)) by congruence.
    assert (Hw : sh t = lead t ++ [last (sh t) 0]) by (apply app_removelast_last; intros X; rewrite X in L; cbn in L; lia).
    assert (Ld : length (dat t) = sprod (lead t) * last (sh t) 0).
    { unfold wft in W. rewrite W. change (sprod (sh t) = sprod (lead t) * last (sh t) 0). rewrite Hw at 1. rewrite sprod_app. cbn. lia. }
    destruct (chunks_nth (last (sh t) 0) (sprod (lead t)) (dat t) Hb Ld) as [Lc Hc].
    assert (B := flat_lt _ _ Hi). assert (Hl : length (nth (flat (lead t) i1) ss []) = last (sh t) 0).
    { rewrite Ess, (nth_error_nth _ _ _ (Hc _ B)). rewrite firstn_length, skipn_length. nia. }
    apply (nth_ext _ _ 0%Z 0%Z).
    - rewrite Hl. unfold row_at. rewrite map_length, seq_length. reflexivity.
    - intros j Hj. rewrite Hl in Hj. unfold row_at. rewrite nth_map_seq by auto.
      rewrite <- (Hs i1 [j] Hi) by (constructor; [auto|constructor]). f_equal. cbn. lia. }
  assert (Hin : forall r, In r ss -> r <> [] /\ forall x, In x r -> (amin <= x)%Z).
  { intros r Hr. destruct (In_nth _ _ [] Hr) as (n & Hn & <-). rewrite Ls in Hn.
    pose proof (flat_unflat (lead t) n Hn) as Ef. pose proof (unflat_inb (lead t) n Hn) as Ei.
    rewrite <- Ef, Hu by auto. split.
    - unfold row_at. destruct (last (sh t) 0); [lia|discriminate].
    - intros x Hx. unfold row_at in Hx. apply in_map_iff in Hx as (j & <- & Hj). apply in_seq in Hj. apply Hm.
      unfold entry. apply nth_In. unfold wft in W. rewrite W. change (flat (sh t) (unflat (lead t) n ++ [j]) < sprod (sh t)). apply flat_lt.
      rewrite (app_removelast_last 0 (l := sh t)) by (intros X; rewrite X in L; cbn in L; lia). apply inb_app; [rewrite (inb_len _ _ Ei); reflexivity|]. split; [exact Ei|]. constructor; [lia|constructor]. }
  destruct (omapM_F2ex (max_in_slice Z.ltb amin) (fun r mk => first_max r (snd mk) /\ fst mk = nth (snd mk) r 0%Z) ss) as (ms & Ems & F2).
  { intros r Hr. destruct (Hin r Hr) as [Hn Hx]. destruct (max_fold_min amin r Hn Hx) as (k & Ek & Hf). exists (nth k r 0%Z, k).
    split; [|auto]. unfold max_in_slice. destruct r; [congruence|]. rewrite Ek. reflexivity. }
  rewrite Ems. cbn [obind]. assert (Lm : length ms = sprod (lead t)) by (rewrite <- Ls; symmetry; eapply F2_len; eauto).
  do 2 eexists. split; [reflexivity|]. rewrite Lm. split; [reflexivity|]. split; [unfold wft; cbn [dat sh fold_right]; rewrite map_length; lia|].
  split; [reflexivity|]. split; [unfold wft; cbn [dat sh fold_right]; rewrite map_length; lia|].
  intros i1 Hi. assert (B := flat_lt _ _ Hi). cbn [dat].
  rewrite (nth_map_lt snd ms _ (0%Z, 0) 0) by lia. rewrite (nth_map_lt fst ms _ (0%Z, 0) 0%Z) by lia.
  rewrite <- Hu by auto.
  assert (Hnth : forall (l : list (list Z)) l' n, Forall2 (fun r mk => first_max r (snd mk) /\ fst mk = nth (snd mk) r 0%Z) l l' -> n < length l ->
     first_max (nth n l []) (snd (nth n l' (0%Z, 0))) /\ fst (nth n l' (0%Z, 0)) = nth (snd (nth n l' (0%Z, 0))) (nth n l []) 0%Z).
  { intros l l' n H. revert n. induction H; intros [|n] Hn; cbn in *; try lia; [auto|]. apply IHForall2. lia. }
  apply Hnth; auto. lia.
Qed.

Lemma logits_eval_ok (amin : Z) (inputs : list (ten Z)) :
  (forall t, In t inputs -> wft t /\ Forall (lt 0) (sh t) /\ 2 <= length (sh t) /\ forall x, In x (dat t) -> (amin <= x)%Z) ->
  exists outs, logits_eval Z.ltb amin inputs = Some outs /\
    Forall2 (fun t o => sh (fst o) = [sprod (lead t); 1] /\ wft (fst o) /\ sh (snd o) = [sprod (lead t); 1] /\ wft (snd o) /\
      forall i1, inb (lead t) i1 ->
        first_max (row_at t i1) (nth (flat (lead t) i1) (dat (fst o)) 0) /\
        nth (flat (lead t) i1) (dat (snd o)) 0%Z = nth (nth (flat (lead t) i1) (dat (fst o)) 0) (row_at t i1) 0%Z) inputs outs.
Proof.
  intros H. unfold logits_eval.
  rewrite (proj2 (forallb_forall _ _)) by (intros t Ht; apply Nat.leb_le; apply H; auto).
  apply omapM_F2ex. intros t Ht. destruct (H t Ht) as (W & P & L & Hm).
  destruct (logits_one amin t W P L Hm) as (idx & mx & E & H1). exists (idx, mx). split; [exact E|exact H1].
Qed.

(** The padded evaluation: a matrix padded with zeros to [ns]. *)
Lemma padded_row (t t' : ten Z) a b a' b' i : sh t = [a; b] -> padded_with 0%Z t [a'; b'] t' -> a <= a' -> b <= b' -> i < a ->
  row_at t' [i] = row_at t [i] ++ repeat 0%Z (b' - b).
Proof.
  intros Es Hp Ha Hb Hi. destruct Hp as (S' & W' & Hio).
  apply (nth_ext _ _ 0%Z 0%Z); unfold row_at; rewrite ?app_length, ?map_length, ?seq_length, ?repeat_length, S', Es; cbn [last]; [lia|].
  intros j Hj. rewrite nth_map_seq by auto. destruct (Nat.lt_ge_cases j b) as [H|H].
  - rewrite app_nth1 by (rewrite map_length, seq_length; auto). rewrite nth_map_seq by auto. apply (proj1 (Hio [i; j] ltac:(apply inb_cons; split; [lia|]; apply inb_cons; split; [lia|constructor]))). rewrite Es. apply inb_cons; split; [lia|]. apply inb_cons; split; [lia|constructor].
  - rewrite app_nth2, nth_repeat by (rewrite map_length, seq_length; auto). apply (proj2 (Hio [i; j] ltac:(apply inb_cons; split; [lia|]; apply inb_cons; split; [lia|constructor]))). rewrite Es. intros X. inversion X as [|? ? ? ? ? X']; subst. inversion X'; subst. lia.
Qed.

Lemma logits_padded (amin : Z) (t t' : ten Z) a b a' b' : (amin <= 0)%Z -> wft t -> sh t = [a; b] -> 0 < a -> 0 < b ->
  (forall x, In x (dat t) -> (amin <= x)%Z) -> a <= a' -> b <= b' -> padded_with 0%Z t [a'; b'] t' ->
  (forall i, i < a -> exists x, In x (row_at t [i]) /\ (0 <= x)%Z) ->
  exists idx mx idx' mx', logits_eval Z.ltb amin [t] = Some [(idx, mx)] /\ logits_eval Z.ltb amin [t'] = Some [(idx', mx')] /\
    forall i, i < a -> nth i (dat idx') 0 = nth i (dat idx) 0 /\ nth i (dat mx') 0%Z = nth i (dat mx) 0%Z.
Proof.
  intros H0 W Es Pa Pb Hm Ha Hb Hp Hx.
  assert (Hm' : forall x, In x (dat t') -> (amin <= x)%Z).
  { intros x Hin. destruct Hp as (S' & W' & Hio). destruct (In_nth _ _ 0%Z Hin) as (n & Hn & <-).
    assert (Hn' : n < sprod (sh t')) by (unfold wft in W'; rewrite W' in Hn; exact Hn).
    pose proof (flat_unflat _ _ Hn') as Ef. pose proof (unflat_inb _ _ Hn') as Ei. rewrite S' in Ef, Ei.
    assert (E : nth n (dat t') 0%Z = entry 0%Z t' (unflat [a'; b'] n)) by (unfold entry; rewrite S', Ef; reflexivity). rewrite E.
    destruct (Hio _ Ei) as [Hi Ho]. destruct (inb_dec (sh t) (unflat [a'; b'] n)) as [Hd|Hd].
    - rewrite Hi by auto. apply Hm. unfold entry. apply nth_In. unfold wft in W. rewrite W. apply flat_lt. auto.
    - rewrite Ho by auto. auto. }
  destruct (logits_eval_ok amin [t]) as (outs & E & F).
  { intros u [<-|[]]. rewrite Es. split; [auto|]. split; [repeat (constructor; auto)|]. split; [cbn; lia|auto]. }
  destruct (logits_eval_ok amin [t']) as (outs' & E' & F').
  { intros u [<-|[]]. destruct Hp as (S' & W' & _). rewrite S'. split; [auto|]. split; [repeat (constructor; try lia)|]. split; [cbn; lia|auto]. }
  inversion F as [|? [idx mx] ? ? (S1 & W1 & S2 & W2 & G) F0]; subst. inversion F0; subst.
  inversion F' as [|? [idx' mx'] ? ? (S1' & W1' & S2' & W2' & G') F0']; subst. inversion F0'; subst. cbn [fst snd] in *.
  exists idx, mx, idx', mx'. split; [auto|]. split; [auto|]. intros i Hi.
  assert (El : lead t = [a]) by (unfold lead; rewrite Es; reflexivity). assert (El' : lead t' = [a']) by (unfold lead; rewrite (proj1 Hp); reflexivity).
  rewrite El in G. rewrite El' in G'.
  destruct (G [i]) as [Gi Gm]; [apply inb_cons; split; [auto|constructor]|]. destruct (G' [i]) as [Gi' Gm']; [apply inb_cons; split; [lia|constructor]|].
  rewrite flat1 in *. rewrite (padded_row t t' a b a' b' i) in Gi', Gm' by auto.
  assert (Ei : nth i (dat idx') 0 = nth i (dat idx) 0).
  { apply (first_max_unique _ _ _ Gi'). apply first_max_pad; auto. destruct (Hx i Hi) as (x & Hin & Hx0).
    destruct (In_nth _ _ 0%Z Hin) as (n & Hn & <-). destruct Gi as (_ & H2 & _). specialize (H2 n Hn). lia. }
  split; [exact Ei|]. rewrite Gm', Gm, Ei. rewrite app_nth1; [reflexivity|]. apply Gi.
Qed.

(** *** Embeddings on integers *)
Lemma emb_eval_ok {A} (d : A) (emb : ten A) (x : ten Z) s v e : wft emb -> sh emb = [v; e] -> sh x = [s] -> wft x ->
  (forall t, In t (dat x) -> (0 <= t < Z.of_nat v)%Z) ->
  exists y, emb_eval emb x = Some y /\ sh y = [s; e] /\ wft y /\
    forall i j, i < s -> j < e -> entry d y [i; j] = entry d emb [Z.to_nat (nth i (dat x) 0%Z); j].
Proof.
  intros We Se Sx Wx Ht. unfold emb_eval. rewrite Sx, Se. unfold wft in We, Wx. rewrite Se in We. rewrite Sx in Wx. cbn [fold_right] in We, Wx.
  destruct (omapM_F2ex (fun v0 => let idx := if (v0 <? 0)%Z then (v0 + 2 ^ 64)%Z else v0 in
                if (idx <? Z.of_nat v)%Z then slice (Z.to_nat idx * e) (Z.to_nat idx * e + e) (dat emb) else None)
             (fun t r => length r = e /\ forall j, j < e -> nth j r d = entry d emb [Z.to_nat t; j]) (dat x)) as (rows & Er & F).
  { intros t Hin. specialize (Ht t Hin). cbv zeta. destruct (Z.ltb_spec t 0); [lia|]. destruct (Z.ltb_spec t (Z.of_nat v)); [|lia].
    assert (Htn : Z.to_nat t < v) by lia. unfold slice. rewrite !(proj2 (Nat.leb_le _ _)) by nia. cbn [andb]. eexists. split; [reflexivity|].
    replace (Z.to_nat t * e + e - Z.to_nat t * e) with e by lia. split; [rewrite firstn_length, skipn_length; nia|].
    intros j Hj. rewrite nth_firstn_lt, nth_skipn by auto. unfold entry. rewrite Se, flat2. reflexivity. }
  cbv zeta in Er. rewrite Er. cbn [obind]. eexists. split; [reflexivity|]. split; [reflexivity|].
  assert (Lr : length rows = s) by (rewrite <- (F2_len _ _ _ F); lia).
  assert (Hall : forall c, In c rows -> length c = e).
  { clear -F. induction F as [|t r l l' Hr F IH]; intros c Hc; [destruct Hc|]. destruct Hc as [<-|Hc]; [apply Hr|auto]. }
  split; [unfold wft; cbn [sh dat fold_right]; rewrite (length_concat_uniform _ e) by auto; nia|].
  intros i j Hi Hj. unfold entry at 1. cbn [sh dat]. rewrite flat2. replace (i * e + j) with (j + e * i) by lia.
  rewrite (nth_concat_uniform _ e) by (auto; lia).
  assert (Hnth : forall (l : list Z) l' n, Forall2 (fun t r => length r = e /\ forall j, j < e -> nth j r d = entry d emb [Z.to_nat t; j]) l l' -> n < length l ->
     forall j, j < e -> nth j (nth n l' []) d = entry d emb [Z.to_nat (nth n l 0%Z); j]).
  { intros l l' n H. revert n. induction H; intros [|n] Hn; cbn in *; try lia; [apply H|]. apply IHForall2. lia. }
  apply Hnth; auto. lia.
Qed.
Lemma emb_eval_rejects {A} (emb : ten A) (x : ten Z) s v e t : sh emb = [v; e] -> sh x = [s] -> (Z.of_nat v <= 2 ^ 63)%Z ->
  In t (dat x) -> (- 2 ^ 63 <= t < 2 ^ 63)%Z -> ~ (0 <= t < Z.of_nat v)%Z -> emb_eval emb x = None.
Proof.
  intros Se Sx Hv Hin Hr Ht. unfold emb_eval. rewrite Sx, Se.
  match goal with |- (rows <- ?o ;; _) = None => destruct o as [rows|] eqn:E; [|reflexivity] end.
  apply In_nth_error in Hin as (n & Hn). apply P_Graph4.omapM_nth in E as [_ E]. destruct (E _ _ Hn) as (y & _ & Ey). cbv zeta in Ey.
  destruct (Z.ltb_spec t 0); [destruct (Z.ltb_spec (t + 2 ^ 64) (Z.of_nat v)); [lia|discriminate]|].
  destruct (Z.ltb_spec t (Z.of_nat v)); [lia|discriminate].
Qed.

Section P.
Context {K : field}.
Local Open Scope F_scope.
Add Field Kf_transf3 : (fth K).
(** The integer evaluation of the padded layer gives the table the proof is about. *)
Lemma emb_integer (emb : ten Z) (x : ten Z) ns nv ne : wft emb -> sh emb = [2 ^ nv; 2 ^ ne]%nat -> sh x = [2 ^ ns]%nat -> wft x ->
  (forall t, In t (dat x) -> (0 <= t < 2 ^ Z.of_nat nv)%Z) ->
  exists y, emb_eval emb x = Some y /\ sh y = [2 ^ ns; 2 ^ ne]%nat /\
    looked_up nv ns ne (map Z.to_nat (dat x)) (embed (dat emb) : list K) (embed (dat y)).
Proof.
  intros We Se Sx Wx Ht.
  destruct (emb_eval_ok 0%Z emb x (2 ^ ns) (2 ^ nv) (2 ^ ne) We Se Sx Wx) as (y & Ey & Sy & Wy & Hy).
  { intros t Hin. rewrite Nat2Z.inj_pow. auto. }
  exists y. split; [auto|]. split; [auto|]. unfold wft in *. rewrite Se in We. rewrite Sy in Wy. rewrite Sx in Wx. cbn [fold_right] in *.
  split; [rewrite embed_length, Nat.pow_add_r; lia|]. split; [rewrite embed_length, Nat.pow_add_r; lia|].
  intros i j Hi Hj. rewrite embed_nth. specialize (Hy i j Hi Hj). unfold entry in Hy. rewrite Sy, Se, !flat2 in Hy. rewrite Hy.
  rewrite nth_error_map, (nth_error_nth' (dat x) 0%Z) by lia. cbn [option_map]. rewrite embed_nth. reflexivity.
Qed.
End P.
