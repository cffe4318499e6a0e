(** The LogUp fraction circuit: layers, outputs and their value. *)
From Coq Require Import List Arith Lia Bool ZArith Field.
From Verif Require Import ListAux FieldDef PolyList MleMath M_Mle P_Mle P_Eq M_Interp P_Interp M_Sumcheck
  P_ScVerify P_ScProve M_ScParallel M_SamePoly M_LogUp.
Import ListNotations.

Section P.
Context {K : field}.
Add Field Kf_lu : (fth K).
Local Open Scope F_scope.

(** *** Fractions form a commutative monoid *)
Definition frac_list (l : list (K * K)) : K * K := fold_right frac_add frac_zero l.
Lemma frac_eq (a b c d : K) : a = c -> b = d -> (a, b) = (c, d). Proof. congruence. Qed.
Lemma frac_add_comm (a b : K * K) : frac_add a b = frac_add b a.
Proof. unfold frac_add. apply frac_eq; ring. Qed.
Lemma frac_add_assoc (a b c : K * K) : frac_add a (frac_add b c) = frac_add (frac_add a b) c.
Proof. unfold frac_add; cbn [fst snd]. apply frac_eq; ring. Qed.
Lemma frac_add_0 (a : K * K) : frac_add frac_zero a = a.
Proof. unfold frac_add, frac_zero; cbn [fst snd]. destruct a; cbn [fst snd]. apply frac_eq; ring. Qed.
Lemma frac_list_app a b : frac_list (a ++ b) = frac_add (frac_list a) (frac_list b).
Proof.
  induction a as [|x a IH]; cbn [app frac_list fold_right].
  - rewrite frac_add_0. reflexivity.
  - fold (frac_list (a ++ b)) (frac_list a). rewrite IH, frac_add_assoc. reflexivity.
Qed.
Lemma frac_list_zip : forall a b : list (K * K), length a = length b ->
  frac_list (map (fun '(x, y) => frac_add x y) (combine a b)) = frac_add (frac_list a) (frac_list b).
Proof.
  induction a as [|x a IH]; intros [|y b] H; cbn [length] in H; try discriminate.
  - cbn. rewrite frac_add_0. reflexivity.
  - cbn [combine map frac_list fold_right]. fold (frac_list (map (fun '(x, y) => frac_add x y) (combine a b))).
    fold (frac_list a) (frac_list b). rewrite IH by lia.
    rewrite (frac_add_assoc (frac_add x (frac_list a))), <- (frac_add_assoc x (frac_list a) y), (frac_add_comm (frac_list a) y).
    rewrite !frac_add_assoc. reflexivity.
Qed.
Lemma frac_list_snd l : snd (frac_list l) = fprod (map snd l).
Proof. induction l as [|x l IH]; cbn [frac_list fold_right map fprod]; [reflexivity|]. fold (frac_list l). unfold frac_add; cbn [snd]. rewrite IH. reflexivity. Qed.
(** The sum of fractions over the common denominator. *)
Definition cross_sum (l : list (K * K)) : K :=
  fsum (map (fun i => fst (nth i l (0, 0)) * fprod (map snd (firstn i l ++ skipn (S i) l))) (seq 0 (length l))).
Lemma cross_sum_cons x l : cross_sum (x :: l) = fst x * fprod (map snd l) + snd x * cross_sum l.
Proof.
  unfold cross_sum. cbn [length seq map fsum nth firstn skipn app]. f_equal.
  rewrite <- seq_shift, map_map, !fsum_map_seq. rewrite <- sumn_scal. apply sumn_ext. intros i Hi.
  cbn [nth firstn skipn app map fprod]. ring.
Qed.
Lemma frac_list_fst l : fst (frac_list l) = cross_sum l.
Proof.
  induction l as [|x l IH]; [reflexivity|]. rewrite cross_sum_cons. cbn [frac_list fold_right]. fold (frac_list l).
  unfold frac_add; cbn [fst]. rewrite IH, frac_list_snd. ring.
Qed.
Lemma frac_list_value l : (forall x, In x l -> snd x <> 0) ->
  fst (frac_list l) = snd (frac_list l) * fsum (map (fun x => fst x * / snd x) l).
Proof.
  induction l as [|x l IH]; intros H; cbn [frac_list fold_right map fsum].
  - cbn. ring.
  - fold (frac_list l). unfold frac_add; cbn [fst snd]. rewrite IH by (intros; apply H; right; auto).
    assert (snd x <> 0) by (apply H; left; auto). field. auto.
Qed.

(** *** Halving a layer *)
Definition halve (p : list K * list K) : list K * list K :=
  let h := (length (snd p) / 2)%nat in
  add_fracs (firstn h (fst p)) (firstn h (snd p)) (skipn h (fst p)) (skipn h (snd p)).
Definition wf_lay (m : nat) (p : list K * list K) : Prop := length (fst p) = 2 ^ m /\ length (snd p) = 2 ^ m.

Lemma pow2_half m : (2 ^ S m / 2 = 2 ^ m)%nat.
Proof. rewrite Nat.pow_succ_r'. rewrite Nat.mul_comm, Nat.div_mul by lia. reflexivity. Qed.

Lemma split_maps {A B} (l : list (A * B)) : List.split l = (map fst l, map snd l).
Proof. induction l as [|[a b] l IH]; cbn; [reflexivity|]. rewrite IH. reflexivity. Qed.
Lemma add_fracs_spec (n1 d1 n2 d2 : list K) h : length n1 = h -> length d1 = h -> length n2 = h -> length d2 = h ->
  add_fracs n1 d1 n2 d2 = (map (fun i => nth i n1 0 * nth i d2 0 + nth i d1 0 * nth i n2 0) (seq 0 h),
                           map (fun i => nth i d1 0 * nth i d2 0) (seq 0 h)).
Proof.
  intros H1 H2 H3 H4. unfold add_fracs. rewrite split_maps, !map_map. revert d1 n2 d2 h H1 H2 H3 H4.
  induction n1 as [|a n1 IH]; intros [|b d1] [|c n2] [|d d2] h H1 H2 H3 H4; cbn [length] in *; try lia; subst h; try discriminate.
  - reflexivity.
  - specialize (IH d1 n2 d2 (length n1) ltac:(lia) ltac:(lia) ltac:(lia) ltac:(lia)). injection IH as I1 I2.
    cbn [combine map seq]. rewrite <- seq_shift, !map_map. cbn [nth].
    f_equal; f_equal; [exact I1 | exact I2].
Qed.
Lemma halve_spec m p : wf_lay (S m) p ->
  halve p = (map (fun i => nth i (fst p) 0 * nth (2 ^ m + i) (snd p) 0 + nth i (snd p) 0 * nth (2 ^ m + i) (fst p) 0) (seq 0 (2 ^ m)),
             map (fun i => nth i (snd p) 0 * nth (2 ^ m + i) (snd p) 0) (seq 0 (2 ^ m))).
Proof.
  intros [H1 H2]. unfold halve. cbv zeta. rewrite H2, pow2_half.
  rewrite Nat.pow_succ_r' in H1, H2.
  rewrite (add_fracs_spec _ _ _ _ (2 ^ m)); try (rewrite firstn_length_le; lia); try (rewrite skipn_length; lia).
  f_equal; apply map_ext_in; intros i Hi; apply in_seq in Hi; rewrite !nth_firstn_lt, !nth_skipn by lia; reflexivity.
Qed.
Lemma halve_wf m p : wf_lay (S m) p -> wf_lay m (halve p).
Proof. intros H. rewrite (halve_spec m p H). split; cbn [fst snd]; rewrite map_length, seq_length; reflexivity. Qed.

Lemma combine_firstn' {A B} n : forall (a : list A) (b : list B), combine (firstn n a) (firstn n b) = firstn n (combine a b).
Proof. induction n as [|n IH]; intros [|x a] [|y b]; cbn; auto. f_equal. auto. Qed.
Lemma combine_skipn' {A B} n : forall (a : list A) (b : list B), length a = length b -> combine (skipn n a) (skipn n b) = skipn n (combine a b).
Proof. induction n as [|n IH]; intros [|x a] [|y b] H; cbn in *; auto; try discriminate. Qed.
Lemma combine_split' {A B} (l : list (A * B)) : combine (fst (List.split l)) (snd (List.split l)) = l.
Proof. induction l as [|[a b] l IH]; cbn; [reflexivity|]. destruct (List.split l); cbn in *. f_equal. auto. Qed.

Lemma halve_frac m p : wf_lay (S m) p ->
  frac_list (combine (fst (halve p)) (snd (halve p))) = frac_list (combine (fst p) (snd p)).
Proof.
  intros [H1 H2]. unfold halve. cbv zeta. rewrite H2, pow2_half. unfold add_fracs.
  rewrite combine_split'. rewrite combine_firstn', combine_skipn' by lia.
  rewrite Nat.pow_succ_r' in H1, H2.
  rewrite frac_list_zip.
  - rewrite <- frac_list_app, firstn_skipn. reflexivity.
  - rewrite firstn_length, skipn_length, combine_length. lia.
Qed.

(** Levels above a base layer. *)
Fixpoint lev (m : nat) (p : list K * list K) : list K * list K :=
  match m with O => p | S m' => lev m' (halve p) end.
Lemma lev_S m p : lev (S m) p = halve (lev m p).
Proof. revert p. induction m as [|m IH]; intros p; [reflexivity|]. cbn [lev] in *. rewrite <- IH. reflexivity. Qed.
Lemma lev_wf k m p : m <= k -> wf_lay (S k) p -> wf_lay (S (k - m)) (lev m p).
Proof.
  revert k p. induction m as [|m IH]; intros k p Hm Hp; cbn [lev]; [rewrite Nat.sub_0_r; auto|].
  destruct k as [|k]; [lia|]. change (S k - S m)%nat with (k - m)%nat. apply IH; [lia|]. apply halve_wf. auto.
Qed.
Lemma lev_frac k m p : m <= k -> wf_lay (S k) p ->
  frac_list (combine (fst (lev m p)) (snd (lev m p))) = frac_list (combine (fst p) (snd p)).
Proof.
  revert k p. induction m as [|m IH]; intros k p Hm Hp; cbn [lev]; [reflexivity|].
  destruct k as [|k]; [lia|]. rewrite (IH k) by (try lia; apply halve_wf; auto). apply (halve_frac (S k)). auto.
Qed.

(** *** The layers computed by the code *)
Definition base_of (l : layer) : list K * list K :=
  match l with Generic n d => (n, d) | InitTable n d => (n, d) | InitLookup d => (repeat (- (1)) (length d), d) end.
Definition gen (p : list K * list K) : layer := Generic (fst p) (snd p).

Lemma layer_den_base l : layer_den l = snd (base_of l). Proof. destruct l; reflexivity. Qed.
Lemma layer_nv_ok k l : wf_lay (S k) (base_of l) -> layer_nv l = Some k.
Proof. intros [_ H]. unfold layer_nv. rewrite layer_den_base, H, pow2_half. apply ceil_log2_pow2. Qed.

Lemma split_at_ok {A} n (l : list A) : n <= length l -> split_at n l = Some (firstn n l, skipn n l).
Proof. intros H. unfold split_at. apply Nat.leb_le in H. rewrite H. reflexivity. Qed.

Lemma combine_repeat {A B} (a : A) n (l : list B) : length l = n -> combine (repeat a n) l = map (fun b => (a, b)) l.
Proof. intros <-. induction l as [|b l IH]; cbn; [reflexivity|]. f_equal. auto. Qed.
Lemma firstn_repeat' {A} (a : A) n m : n <= m -> firstn n (repeat a m) = repeat a n.
Proof. revert m. induction n as [|n IH]; intros [|m] H; cbn; auto; try lia. f_equal. apply IH. lia. Qed.
Lemma skipn_repeat' {A} (a : A) n m : n <= m -> skipn n (repeat a m) = repeat a (m - n).
Proof. revert m. induction n as [|n IH]; intros [|m] H; cbn; auto; try lia. apply IH. lia. Qed.
Lemma combine_map2 {A B C D} (f : A -> C) (g : B -> D) : forall (a : list A) (b : list B),
  combine (map f a) (map g b) = map (fun '(x, y) => (f x, g y)) (combine a b).
Proof. induction a as [|x a IH]; intros [|y b]; cbn; auto. f_equal. auto. Qed.

Lemma next_layer_0 l : wf_lay 1 (base_of l) -> next_layer l = Some None.
Proof. intros H. unfold next_layer. rewrite (layer_nv_ok 0) by auto. reflexivity. Qed.
Lemma next_layer_S k l : wf_lay (S (S k)) (base_of l) -> next_layer l = Some (Some (gen (halve (base_of l)))).
Proof.
  intros H. pose proof H as H'. unfold next_layer. rewrite (layer_nv_ok (S k)) by auto. cbn [obind Nat.eqb].
  destruct H as [H1 H2]. pose proof (Nat.pow_succ_r' 2 (S k)) as Hp. unfold halve. cbv zeta. rewrite H2, pow2_half.
  destruct l as [n d|n d|d]; cbn [base_of fst snd] in *.
  - rewrite !split_at_ok by lia. cbn [obind fst snd]. destruct (add_fracs _ _ _ _); reflexivity.
  - rewrite !split_at_ok by lia. cbn [obind fst snd]. destruct (add_fracs _ _ _ _); reflexivity.
  - rewrite !split_at_ok by lia. cbn [obind fst snd].
    rewrite firstn_repeat', skipn_repeat' by lia. unfold add_fracs, add_lookups.
    rewrite !combine_repeat by (try rewrite firstn_length_le; try rewrite skipn_length; lia).
    rewrite combine_map2, map_map.
    rewrite (map_ext (fun x : K * K => let '(x0, y) := let '(x0, y) := x in (- (1), x0, (- (1), y)) in frac_add x0 y)
               (fun '(a, b) => frac_add (- (1), a) (- (1), b))) by (intros [? ?]; reflexivity).
    destruct (List.split _); reflexivity.
Qed.

Lemma successors_ok : forall k fuel l, k < fuel -> wf_lay (S k) (base_of l) ->
  successors fuel l = Some (l :: map (fun m => gen (lev (S m) (base_of l))) (seq 0 k)).
Proof.
  induction k as [|k IH]; intros [|fuel] l Hf Hw; try lia; cbn [successors].
  - rewrite next_layer_0 by auto. reflexivity.
  - rewrite (next_layer_S k) by auto. cbn [obind].
    assert (Hb : base_of (gen (halve (base_of l))) = halve (base_of l)) by (unfold gen, base_of at 1; destruct (halve _); reflexivity).
    rewrite IH; [|lia|rewrite Hb; apply halve_wf; auto]. cbn [obind]. rewrite Hb.
    cbn [seq map]. rewrite <- seq_shift, map_map. reflexivity.
Qed.
Lemma circuit_new_ok k l : wf_lay (S k) (base_of l) ->
  circuit_new l = Some (l :: map (fun m => gen (lev (S m) (base_of l))) (seq 0 k)).
Proof.
  intros H. unfold circuit_new. apply successors_ok; auto. rewrite layer_den_base. destruct H as [_ ->].
  pose proof (Nat.pow_gt_lin_r 2 (S k) ltac:(lia)). lia.
Qed.
(** The layer with 2^(v+1) entries. *)
Lemma circuit_level k l v d : wf_lay (S k) (base_of l) -> v <= k ->
  nth v (rev (l :: map (fun m => gen (lev (S m) (base_of l))) (seq 0 k))) d
  = if Nat.eqb v k then l else gen (lev (k - v) (base_of l)).
Proof.
  intros Hw Hv. rewrite rev_nth by (cbn [length]; rewrite map_length, seq_length; lia).
  cbn [length]. rewrite map_length, seq_length.
  destruct (Nat.eqb_spec v k) as [->|Hne].
  - replace (S k - S k)%nat with 0%nat by lia. reflexivity.
  - replace (S k - S v)%nat with (S (k - v - 1)) by lia. cbn [nth]. rewrite nth_map_seq by lia.
    do 2 f_equal. lia.
Qed.
Lemma outputs_ok k l : wf_lay (S k) (base_of l) ->
  outputs (l :: map (fun m => gen (lev (S m) (base_of l))) (seq 0 k))
  = Some (if Nat.eqb k 0 then flat_evals l else fst (lev k (base_of l)) ++ snd (lev k (base_of l))).
Proof.
  intros Hw. pose proof (circuit_level k l 0 l Hw (Nat.le_0_l k)) as H. unfold outputs.
  destruct (rev _) as [|x r] eqn:E.
  - apply (f_equal (@length layer)) in E. rewrite rev_length in E. discriminate.
  - cbn [nth] in H. rewrite H, Nat.eqb_sym. destruct (Nat.eqb_spec k 0); [reflexivity|]. rewrite Nat.sub_0_r. reflexivity.
Qed.

(** *** Merged columns *)
Lemma powers_from_length (c x : K) n : length (powers_from c x n) = n.
Proof. revert x. induction n as [|n IH]; intros x; cbn; auto. Qed.
Lemma powers_from_nth (c : K) n : forall x i, i < n -> nth i (powers_from c x n) 0 = x * fpow c i.
Proof.
  induction n as [|n IH]; intros x [|i] Hi; cbn [powers_from nth fpow]; try lia; [ring|]. rewrite IH by lia. ring.
Qed.
(** Row [i] of the columns combined with powers of [csc]. *)
Definition row_val (cst csc : K) (cols : list (list K)) (i : nat) : K :=
  cst + sumn (length cols) (fun j => nth i (nth j cols []) 0 * fpow csc j).
Lemma merged_row_fold (csc : K) n i : forall cols x acc, (forall c, In c cols -> length c = n) -> i < n ->
  ofold (fun acc '(col, ch) => v <- nth_error col i ;; Some (acc + ch * v))
        (combine cols (powers_from csc x (length cols))) acc
  = Some (acc + sumn (length cols) (fun j => nth i (nth j cols []) 0 * (x * fpow csc j))).
Proof.
  induction cols as [|c cols IH]; intros x acc Hc Hi.
  - cbn. f_equal. ring.
  - cbn [length powers_from combine ofold]. rewrite (nth_error_nth' c 0) by (rewrite (Hc c); [auto|left; auto]).
    cbn [obind]. rewrite IH by (auto; intros; apply Hc; right; auto). f_equal. rewrite sumn_S_l. cbn [nth fpow].
    rewrite (sumn_ext _ (fun j => nth i (nth j cols []) 0 * (x * csc * fpow csc j)) (fun j => nth i (nth j cols []) 0 * (x * (csc * fpow csc j))))
      by (intros; ring). ring.
Qed.
Lemma merged_ok (cols : list (list K)) cst csc n : cols <> [] -> (forall c, In c cols -> length c = n) ->
  merged_denominator cols cst csc = Some (map (row_val cst csc cols) (seq 0 n)).
Proof.
  intros Hne Hc. unfold merged_denominator. destruct cols as [|c0 cols]; [congruence|]. cbn [nth_error obind].
  rewrite (Hc c0) by (left; auto). apply omapM_seq. intros i Hi.
  rewrite (merged_row_fold csc n i) by (auto; lia). f_equal. unfold row_val. f_equal. apply sumn_ext. intros j _. ring.
Qed.

Lemma map_snd_combine {A B} : forall (a : list A) (b : list B), length a = length b -> map snd (combine a b) = b.
Proof. induction a as [|x a IH]; intros [|y b] H; cbn in *; try discriminate; auto. f_equal. apply IH. lia. Qed.

(** *** C12 *)
Lemma lookup_circuit (cols : list (list K)) cst csc k :
  cols <> [] -> (forall c, In c cols -> length c = 2 ^ S (S k)) ->
  let ds := map (row_val cst csc cols) (seq 0 (2 ^ S (S k))) in
  let l := map (fun d => (- (1), d)) ds in
  exists c n0 n1 d0 d1, new_lookup_circuit cols cst csc = Some c /\ outputs c = Some [n0; n1; d0; d1] /\
    n0 * d1 + n1 * d0 = cross_sum l /\ d0 * d1 = fprod ds.
Proof.
  intros Hne Hc ds l. unfold new_lookup_circuit. rewrite (merged_ok cols cst csc (2 ^ S (S k))) by auto. cbn [obind]. fold ds.
  assert (Hds : length ds = 2 ^ S (S k)) by (unfold ds; rewrite map_length, seq_length; auto).
  set (il := InitLookup ds). assert (Hw : wf_lay (S (S k)) (base_of il)).
  { split; cbn [il base_of fst snd]; [rewrite repeat_length|]; auto. }
  rewrite (circuit_new_ok (S k)) by auto.
  pose proof (lev_wf (S k) (S k) _ (Nat.le_refl _) Hw) as [Hn Hd]. rewrite Nat.sub_diag in Hn, Hd.
  pose proof (lev_frac (S k) (S k) _ (Nat.le_refl _) Hw) as Hf.
  pose proof (outputs_ok (S k) il Hw) as Ho. cbn [Nat.eqb] in Ho.
  destruct (fst (lev (S k) (base_of il))) as [|n0 [|n1 [|]]]; cbn in Hn; try discriminate.
  destruct (snd (lev (S k) (base_of il))) as [|d0 [|d1 [|]]]; cbn in Hd; try discriminate.
  exists (il :: map (fun m => gen (lev (S m) (base_of il))) (seq 0 (S k))), n0, n1, d0, d1. split; [reflexivity|]. split; [exact Ho|].
  cbn [il base_of fst snd] in Hf. rewrite combine_repeat in Hf by reflexivity. fold l in Hf.
  rewrite <- frac_list_fst. rewrite <- Hf.
  assert (Hm : map snd l = ds) by (unfold l; rewrite map_map; cbn [snd]; apply map_id).
  rewrite <- Hm, <- frac_list_snd, <- Hf. cbn. split; ring.
Qed.
Lemma table_circuit (cols : list (list K)) mult cst csc k :
  cols <> [] -> (forall c, In c cols -> length c = 2 ^ S k) -> length mult = 2 ^ S k ->
  let ds := map (row_val cst csc cols) (seq 0 (2 ^ S k)) in
  exists c n0 n1 d0 d1, new_table_circuit cols mult cst csc = Some c /\ outputs c = Some [n0; n1; d0; d1] /\
    n0 * d1 + n1 * d0 = cross_sum (combine mult ds) /\ d0 * d1 = fprod ds.
Proof.
  intros Hne Hc Hmu ds. unfold new_table_circuit. rewrite (merged_ok cols cst csc (2 ^ S k)) by auto. cbn [obind]. fold ds.
  assert (Hds : length ds = 2 ^ S k) by (unfold ds; rewrite map_length, seq_length; auto).
  set (il := InitTable mult ds). assert (Hw : wf_lay (S k) (base_of il)) by (split; auto).
  rewrite (circuit_new_ok k) by auto.
  pose proof (lev_wf k k _ (Nat.le_refl _) Hw) as [Hn Hd]. rewrite Nat.sub_diag in Hn, Hd.
  pose proof (lev_frac k k _ (Nat.le_refl _) Hw) as Hf.
  pose proof (outputs_ok k il Hw) as Ho.
  assert (Ho' : outputs (il :: map (fun m => gen (lev (S m) (base_of il))) (seq 0 k)) = Some (fst (lev k (base_of il)) ++ snd (lev k (base_of il)))).
  { rewrite Ho. destruct (Nat.eqb_spec k 0) as [->|]; reflexivity. }
  destruct (fst (lev k (base_of il))) as [|n0 [|n1 [|]]]; cbn in Hn; try discriminate.
  destruct (snd (lev k (base_of il))) as [|d0 [|d1 [|]]]; cbn in Hd; try discriminate.
  exists (il :: map (fun m => gen (lev (S m) (base_of il))) (seq 0 k)), n0, n1, d0, d1. split; [reflexivity|]. split; [exact Ho'|].
  cbn [il base_of fst snd] in Hf.
  rewrite <- frac_list_fst. rewrite <- Hf.
  assert (Hm : map snd (combine mult ds) = ds).
  { apply map_snd_combine. lia. }
  rewrite <- Hm, <- frac_list_snd, <- Hf. cbn. split; ring.
Qed.
End P.
