(** Soundness of the fraction identity: a looked-up value that no table contains is caught. *)
From Coq Require Import List Arith Lia Bool ZArith Field Permutation.
From Verif Require Import ListAux FieldDef PolyList MleMath M_Mle P_Mle P_Eq M_Interp P_Interp M_Sumcheck
  P_ScVerify P_ScProve M_ScParallel M_SamePoly M_LogUp P_LogUp M_Lookup P_Lookup P_Count.
Import ListNotations.

Section P.
Context {K : field}.
Add Field Kf_lk2 : (fth K).
Local Open Scope F_scope.

(** Fractions n/(c + r). *)
Definition at_c (c : K) (l : list (K * K)) : list (K * K) := map (fun x => (fst x, c + snd x)) l.
Lemma frac_poly l : is_poly (length l) (fun c => snd (frac_list (at_c c l))) /\ is_poly (length l) (fun c => fst (frac_list (at_c c l))).
Proof.
  induction l as [|[n r] l [IH1 IH2]].
  - split; [apply (is_poly_ext 0 (fun _ => 1)) | apply (is_poly_ext 0 (fun _ => 0))]; try (intros x; reflexivity); apply is_poly_const.
  - assert (Ha : is_poly 1 (fun c => c + r)).
    { apply (is_poly_ext _ (fun c => r + c * 1)); [intros; ring|apply is_poly_affine]. }
    split.
    + apply (is_poly_ext _ (fun c => (c + r) * snd (frac_list (at_c c l)))); [intros; reflexivity|].
      change (length ((n, r) :: l)) with (1 + length l)%nat. apply is_poly_mul; auto.
    + apply (is_poly_ext _ (fun c => n * snd (frac_list (at_c c l)) + (c + r) * fst (frac_list (at_c c l)))); [intros; reflexivity|].
      apply is_poly_add.
      * apply (is_poly_le (length l)); [cbn; lia|]. apply is_poly_scal. auto.
      * change (length ((n, r) :: l)) with (1 + length l)%nat. apply is_poly_mul; auto.
Qed.

(** Collecting equal values. *)
Definition coef (l : list (K * K)) (u : K) : K := fsum (map (fun x => if snd x =? u then fst x else 0) l).
Definition vals (l : list (K * K)) : list K := nodup feq_dec (map snd l).
Definition grouped (l : list (K * K)) : list (K * K) := map (fun u => (coef l u, u)) (vals l).

Lemma fsum_add {A} (f g : A -> K) l : fsum (map (fun x => f x + g x) l) = fsum (map f l) + fsum (map g l).
Proof. induction l as [|x l IH]; cbn; [ring|]. rewrite IH. ring. Qed.
Lemma fsum_zero {A} (f : A -> K) l : (forall x, In x l -> f x = 0) -> fsum (map f l) = 0.
Proof. induction l as [|x l IH]; intros H; cbn; [reflexivity|]. rewrite (H x) by (left; auto). rewrite IH by (intros; apply H; right; auto). ring. Qed.
Lemma fsum_ext {A} (f g : A -> K) l : (forall x, In x l -> f x = g x) -> fsum (map f l) = fsum (map g l).
Proof. intros H. f_equal. apply map_ext_in. auto. Qed.
Lemma fsum_pick (g : K -> K) r us : NoDup us -> In r us -> fsum (map (fun u => if r =? u then g u else 0) us) = g r.
Proof.
  induction us as [|u us IH]; intros Hn Hi; [destruct Hi|]. inversion Hn as [|? ? N1 N2]; subst. cbn [map fsum].
  destruct (feq_dec r u) as [->|Hne].
  - rewrite feqb_refl. rewrite fsum_zero; [ring|]. intros x Hx. destruct (u =? x) eqn:E; [apply feqb_true in E; congruence|reflexivity].
  - rewrite (proj2 (feqb_false _ _) Hne). rewrite IH; auto; [ring|]. destruct Hi; congruence.
Qed.
Lemma fsum_scal_r {A} (f : A -> K) c l : fsum (map (fun x => f x * c) l) = fsum (map f l) * c.
Proof. induction l as [|x l IH]; cbn; [ring|]. rewrite IH. ring. Qed.
(** Summing over distinct values. *)
Lemma grouped_sum (g : K -> K) l us : NoDup us -> (forall x, In x l -> In (snd x) us) ->
  fsum (map (fun x => fst x * g (snd x)) l) = fsum (map (fun u => coef l u * g u) us).
Proof.
  intros Hn. induction l as [|[n r] l IH]; intros Hin.
  - unfold coef. cbn. symmetry. apply fsum_zero. intros; ring.
  - cbn [map fsum fst snd]. rewrite IH by (intros; apply Hin; right; auto).
    unfold coef. cbn [map fsum fst snd]. fold (coef l).
    rewrite (fsum_ext (fun u => ((if r =? u then n else 0) + coef l u) * g u) (fun u => (if r =? u then n * g u else 0) + coef l u * g u)).
    + rewrite fsum_add, (fsum_pick (fun u => n * g u)); auto. apply (Hin (n, r)). left; auto.
    + intros u _. destruct (r =? u); ring.
Qed.

Lemma nodup_vals l : NoDup (vals l). Proof. apply NoDup_nodup. Qed.
Lemma in_vals l x : In x l -> In (snd x) (vals l). Proof. intros H. apply nodup_In. apply in_map. auto. Qed.
Lemma vals_in l u : In u (vals l) -> In u (map snd l). Proof. apply nodup_In. Qed.
Lemma vals_length l : length (vals l) <= length l.
Proof.
  unfold vals. induction l as [|x l IH]; cbn; [lia|]. destruct (in_dec _ _ _); cbn; lia.
Qed.

(** If the fractions of [l] sum to zero at [c] with a nonzero denominator, so do the grouped ones. *)
Lemma zero_grouped l c : fst (frac_list (at_c c l)) = 0 -> snd (frac_list (at_c c l)) <> 0 ->
  fst (frac_list (at_c c (grouped l))) = 0.
Proof.
  intros Hf Hs. rewrite frac_list_snd in Hs.
  assert (Hd : forall x, In x l -> c + snd x <> 0).
  { intros x Hx E. apply Hs. apply fprod_0. rewrite <- E. unfold at_c. rewrite map_map. cbn [snd].
    change (c + snd x) with ((fun y : K * K => c + snd y) x). apply in_map. auto. }
  rewrite frac_list_value in Hf.
  2: { intros x Hx. apply in_map_iff in Hx. destruct Hx as (y & <- & Hy). cbn [snd]. auto. }
  rewrite frac_list_snd in Hf.
  assert (Hz : fsum (map (fun x => fst x * / snd x) (at_c c l)) = 0).
  { apply fmul_0 in Hf. destruct Hf; [contradiction|auto]. }
  unfold at_c in Hz. rewrite map_map in Hz. cbn [fst snd] in Hz.
  rewrite (grouped_sum (fun u => / (c + u)) l (vals l) (nodup_vals l) (in_vals l)) in Hz.
  rewrite frac_list_value.
  - unfold at_c, grouped. rewrite !map_map. cbn [fst snd]. rewrite Hz. ring.
  - intros x Hx. unfold at_c, grouped in Hx. rewrite map_map in Hx. apply in_map_iff in Hx. destruct Hx as (u & <- & Hu). cbn [fst snd].
    apply vals_in in Hu. apply in_map_iff in Hu. destruct Hu as (y & <- & Hy). auto.
Qed.

Lemma frac_list_perm (l l' : list (K * K)) : Permutation l l' -> frac_list l = frac_list l'.
Proof.
  induction 1; cbn [frac_list fold_right]; auto.
  - fold (frac_list l) (frac_list l'). rewrite IHPermutation. reflexivity.
  - fold (frac_list l). rewrite !frac_add_assoc. f_equal. apply frac_add_comm.
  - congruence.
Qed.

(** A value whose collected numerator is not zero makes the numerator polynomial nonzero. *)
Lemma grouped_nonzero l v : In v (vals l) -> coef l v <> 0 -> fst (frac_list (at_c (- v) (grouped l))) <> 0.
Proof.
  intros Hv Hc. destruct (in_split _ _ Hv) as (u1 & u2 & E). pose proof (nodup_vals l) as Hn. rewrite E in Hn.
  apply NoDup_remove_2 in Hn.
  assert (Hp : Permutation (at_c (- v) (grouped l)) ((coef l v, - v + v) :: map (fun u => (coef l u, - v + u)) (u1 ++ u2))).
  { unfold at_c, grouped. rewrite map_map, E. cbn [fst snd].
    rewrite <- (map_cons (fun u => (coef l u, - v + u)) v). apply Permutation_map. apply Permutation_sym, Permutation_middle. }
  rewrite (frac_list_perm _ _ Hp). cbn [frac_list fold_right]. fold (frac_list (map (fun u => (coef l u, - v + u)) (u1 ++ u2))).
  unfold frac_add. cbn [fst snd]. replace (- v + v) with (0 : K) by ring. rewrite frac_list_snd, map_map. cbn [snd].
  intros H. assert (Hz : coef l v * fprod (map (fun x => - v + x) (u1 ++ u2)) = 0) by (rewrite <- H; ring).
  revert Hz. apply fmul_neq_0; auto. apply fprod_neq_0. intros x Hx. apply in_map_iff in Hx. destruct Hx as (u & <- & Hu).
  intros Hz. apply Hn. replace v with u; auto. transitivity (u - (- v + u)); [rewrite Hz; ring|ring].
Qed.

Lemma missing_count (S : list K) l v : NoDup S -> In v (vals l) -> coef l v <> 0 ->
  length (filter (fun c => (fst (frac_list (at_c c l)) =? 0) && negb (snd (frac_list (at_c c l)) =? 0)) S) <= length l.
Proof.
  intros HS Hv Hc. etransitivity; [|apply vals_length].
  replace (length (vals l)) with (length (grouped l)) by (unfold grouped; apply map_length).
  apply (is_poly_roots (length (grouped l)) (fun c => fst (frac_list (at_c c (grouped l))))).
  - apply frac_poly.
  - exists (- v). apply grouped_nonzero; auto.
  - apply NoDup_filter. auto.
  - intros c Hin. apply filter_In in Hin. destruct Hin as [_ Hb]. apply andb_true_iff in Hb. destruct Hb as [H1 H2].
    apply feqb_true in H1. apply negb_true_iff, feqb_false in H2. apply zero_grouped; auto.
Qed.

(** *** The circuits *)
Definition g_lookups (gs : list (group K)) : nat :=
  fold_right (fun g acc => (fold_right (fun cols a => (length (nth 0 cols []) + a)%nat) 0%nat (g_insts g) + acc)%nat) 0%nat gs.
Definition g_rows (gs : list (group K)) : nat := fold_right (fun g acc => (length (nth 0 (g_tcols g) []) + acc)%nat) 0%nat gs.
Definition group_ok (g : group K) : Prop :=
  (forall cols, In cols (g_insts g) -> lookup_shape cols) /\ table_shape (g_tcols g) (g_mult g).
(** The row [i] of a set of columns as one field element. *)
Definition rowv (csc : K) (cols : list (list K)) (i : nat) : K := sumn (length cols) (fun j => nth i (nth j cols []) 0 * fpow csc j).

Definition lk_vals (g : group K) : list K :=
  concat (map (fun cols => map (rowv (g_csc g) cols) (seq 0 (length (nth 0 cols [])))) (g_insts g)).
Definition tb_vals (g : group K) : list K := map (rowv (g_csc g) (g_tcols g)) (seq 0 (length (nth 0 (g_tcols g) []))).
Definition g_pairs (g : group K) : list (K * K) :=
  map (fun r => (- (1), r)) (lk_vals g) ++ combine (g_mult g) (tb_vals g).

Lemma lookup_fracs_at c csc cols :
  lookup_fracs c csc cols = at_c c (map (fun r => (- (1), r)) (map (rowv csc cols) (seq 0 (length (nth 0 cols []))))).
Proof. unfold lookup_fracs, at_c. rewrite !map_map. reflexivity. Qed.
Lemma table_fracs_at c csc cols mult :
  table_fracs c csc cols mult = at_c c (combine mult (map (rowv csc cols) (seq 0 (length (nth 0 cols []))))).
Proof.
  unfold table_fracs. generalize (seq 0 (length (nth 0 cols []))) as is.
  induction mult as [|m mult IH]; intros [|i is]; try reflexivity. cbn [map combine]. unfold at_c. cbn [map fst snd]. f_equal. apply IH.
Qed.
Lemma at_c_app c a b : at_c c (a ++ b) = at_c c a ++ at_c c b. Proof. unfold at_c. apply map_app. Qed.
Lemma at_c_concat c ls : at_c c (concat ls) = concat (map (at_c c) ls).
Proof. unfold at_c. rewrite concat_map. reflexivity. Qed.

Lemma group_fractions g c : group_ok g ->
  exists fr, table_fractions (g_insts g) (g_tcols g) (g_mult g) c (g_csc g) = Some fr /\ frac_list fr = frac_list (at_c c (g_pairs g)).
Proof.
  intros [H1 H2]. destruct (table_fractions_ok (g_insts g) (g_tcols g) (g_mult g) c (g_csc g) H1 H2) as (fr & E & Es).
  exists fr. split; auto. rewrite <- final_sum_frac, Es. f_equal. unfold g_pairs. rewrite at_c_app. f_equal.
  - unfold lk_vals. rewrite concat_map, at_c_concat, !map_map. f_equal. apply map_ext. intros cols. apply lookup_fracs_at.
  - apply table_fracs_at.
Qed.
Lemma all_fractions_ok gs c : (forall g, In g gs -> group_ok g) ->
  exists fr, all_fractions gs c = Some fr /\ frac_list fr = frac_list (at_c c (concat (map g_pairs gs))).
Proof.
  intros H. unfold all_fractions. assert (Hx : exists frs, omapM (fun g => table_fractions (g_insts g) (g_tcols g) (g_mult g) c (g_csc g)) gs = Some frs
    /\ frac_list (concat frs) = frac_list (at_c c (concat (map g_pairs gs)))).
  { induction gs as [|g gs IH]; [exists []; split; reflexivity|]. cbn [omapM].
    destruct (group_fractions g c) as (fr & E & Ef); [apply H; left; auto|]. rewrite E. cbn [obind].
    destruct IH as (frs & E' & Ef'); [intros; apply H; right; auto|]. rewrite E'. cbn [obind]. eexists. split; [reflexivity|].
    cbn [map concat]. rewrite at_c_app, !frac_list_app, Ef, Ef'. reflexivity. }
  destruct Hx as (frs & E & Ef). rewrite E. cbn [obind]. eexists. split; [reflexivity|auto].
Qed.

Lemma coef_app a b u : coef (a ++ b) u = coef a u + coef b u.
Proof. unfold coef. rewrite map_app, fsum_app. reflexivity. Qed.
Fixpoint kocc (l : list K) (v : K) : nat := match l with [] => 0%nat | x :: t => if x =? v then S (kocc t v) else kocc t v end.
Lemma coef_lookups l v : coef (map (fun r => (- (1), r)) l) v = - fnat (kocc l v).
Proof.
  unfold coef. induction l as [|x l IH]; cbn [map fsum fst snd kocc]; [cbn; ring|]. rewrite IH.
  destruct (x =? v); cbn [Nat.add fnat]; ring.
Qed.
Lemma coef_absent l v : ~ In v (map snd l) -> coef l v = 0.
Proof.
  unfold coef. intros H. apply fsum_zero. intros x Hx. destruct (snd x =? v) eqn:E; [|reflexivity]. apply feqb_true in E.
  exfalso. apply H. rewrite <- E. apply in_map. auto.
Qed.
Lemma kocc_le l v : kocc l v <= length l.
Proof. induction l as [|x l IH]; cbn; [lia|]. destruct (x =? v); lia. Qed.
Lemma kocc_pos l v : In v l -> 0 < kocc l v.
Proof.
  induction l as [|x l IH]; intros H; [destruct H|]. cbn. destruct H as [->|H]; [rewrite feqb_refl; lia|]. specialize (IH H). destruct (x =? v); lia.
Qed.
Lemma kocc_app a b v : kocc (a ++ b) v = (kocc a v + kocc b v)%nat.
Proof. induction a as [|x a IH]; cbn; [reflexivity|]. destruct (x =? v); lia. Qed.

Lemma lk_vals_length g : length (lk_vals g) = fold_right (fun cols a => (length (nth 0 cols []) + a)%nat) 0%nat (g_insts g).
Proof.
  unfold lk_vals. induction (g_insts g) as [|c l IH]; [reflexivity|]. cbn [map concat fold_right].
  rewrite app_length, IH, map_length, seq_length. reflexivity.
Qed.
Lemma pairs_coef gs v : (forall g, In g gs -> ~ In v (tb_vals g)) ->
  coef (concat (map g_pairs gs)) v = - fnat (kocc (concat (map lk_vals gs)) v).
Proof.
  induction gs as [|g gs IH]; intros H; cbn [map concat].
  - unfold coef. cbn. ring.
  - rewrite coef_app, IH by (intros; apply H; right; auto). unfold g_pairs at 1. rewrite coef_app, coef_lookups, coef_absent.
    + rewrite kocc_app, fnat_add. ring.
    + intros Hi. apply (H g); [left; auto|]. apply in_map_iff in Hi. destruct Hi as ([a b] & <- & Hi). cbn [snd].
      apply in_combine_r in Hi. auto.
Qed.
Lemma lookups_length gs : length (concat (map lk_vals gs)) = g_lookups gs.
Proof.
  induction gs as [|g gs IH]; [reflexivity|]. cbn [map concat g_lookups fold_right]. rewrite app_length, IH, lk_vals_length. reflexivity.
Qed.
Lemma pairs_length gs : length (concat (map g_pairs gs)) <= g_lookups gs + g_rows gs.
Proof.
  induction gs as [|g gs IH]; [reflexivity|]. cbn [map concat g_lookups g_rows fold_right].
  fold (g_lookups gs) (g_rows gs). rewrite app_length. unfold g_pairs at 1. rewrite app_length, map_length, lk_vals_length, combine_length.
  unfold tb_vals. rewrite map_length, seq_length. lia.
Qed.

Lemma missing_value (S : list K) gs g cols i : NoDup S -> (forall g, In g gs -> group_ok g) -> char_gt K (g_lookups gs) ->
  In g gs -> In cols (g_insts g) -> i < length (nth 0 cols []) ->
  (forall g' j, In g' gs -> j < length (nth 0 (g_tcols g') []) -> rowv (g_csc g') (g_tcols g') j <> rowv (g_csc g) cols i) ->
  length (filter (fun c => match all_fractions gs c with Some fr => final_check fr | None => false end) S)
    <= g_lookups gs + g_rows gs.
Proof.
  intros HS Hok Hch Hg Hc Hi Hmiss. set (v := rowv (g_csc g) cols i).
  assert (Hv : In v (concat (map lk_vals gs))).
  { apply in_concat. exists (lk_vals g). split; [apply in_map; auto|]. unfold lk_vals. apply in_concat.
    exists (map (rowv (g_csc g) cols) (seq 0 (length (nth 0 cols [])))). split.
    - apply in_map_iff. exists cols. split; auto.
    - unfold v. apply in_map. apply in_seq. lia. }
  etransitivity; [|apply pairs_length].
  rewrite (filter_ext_len _ (fun c => (fst (frac_list (at_c c (concat (map g_pairs gs)))) =? 0) && negb (snd (frac_list (at_c c (concat (map g_pairs gs)))) =? 0))).
  - assert (Hcf : coef (concat (map g_pairs gs)) v <> 0).
    { rewrite pairs_coef.
      - intros E. apply (Hch (kocc (concat (map lk_vals gs)) v)).
        + pose proof (kocc_pos _ _ Hv). pose proof (kocc_le (concat (map lk_vals gs)) v). rewrite lookups_length in *. lia.
        + transitivity (- - (fnat (kocc (concat (map lk_vals gs)) v) : K)); [ring|rewrite E; ring].
      - intros g' Hg' Hin. unfold tb_vals in Hin. apply in_map_iff in Hin. destruct Hin as (j & Ej & Hj). apply in_seq in Hj.
        apply (Hmiss g' j); auto. lia. }
    apply missing_count with (v := v); auto.
    unfold vals. apply nodup_In. destruct (in_dec feq_dec v (map snd (concat (map g_pairs gs)))) as [|N]; auto.
    exfalso. apply Hcf. apply coef_absent. auto.
  - intros c. destruct (all_fractions_ok gs c Hok) as (fr & -> & Ef). unfold final_check. rewrite final_sum_frac, Ef.
    destruct (frac_list (at_c c (concat (map g_pairs gs)))); reflexivity.
Qed.

(** Different rows are told apart by all but few column separation challenges. *)
(** Different rows are told apart by all but few column separation challenges. *)
Definition comb (csc : K) (r : list K) : K := sumn (length r) (fun j => nth j r 0 * fpow csc j).
Lemma comb_horner r : forall x : K, comb x r = peval r x.
Proof.
  induction r as [|a r IH]; intros x; unfold comb; cbn [length]; [reflexivity|]. rewrite sumn_S_l. cbn [nth fpow].
  cbn [peval]. rewrite <- IH. unfold comb. rewrite <- sumn_scal.
  rewrite (sumn_ext _ _ (fun j => x * (nth j r 0 * fpow x j))) by (intros; ring). ring.
Qed.
Lemma row_collision (S : list K) (r r' : list K) : NoDup S -> length r = length r' -> r <> r' ->
  length (filter (fun x => comb x r =? comb x r') S) <= length r - 1.
Proof.
  intros HS Hl Hne. set (p := map (fun '(a, b) => a - b) (combine r r')).
  assert (Hp : forall x, peval p x = comb x r - comb x r').
  { intros x. rewrite !comb_horner. unfold p. clear Hne p. revert r' Hl. induction r as [|a r IH]; intros [|b r'] Hl; cbn [length] in Hl; try discriminate.
    - cbn. ring.
    - cbn [combine map peval]. rewrite IH by lia. ring. }
  assert (Hnz : ~ all0 p).
  { intros H0. apply Hne. unfold p in H0. clear Hp p. revert r' Hl Hne H0. induction r as [|a r IH]; intros [|b r'] Hl Hne H0; cbn [length] in Hl; try discriminate; auto.
    cbn [combine map] in H0. inversion H0 as [|? ? E1 E2]; subst. apply fsub_0 in E1. subst b. f_equal. apply IH; auto. congruence. }
  assert (Hlp : length p = length r) by (unfold p; rewrite map_length, combine_length; lia).
  pose proof (poly_roots p (filter (fun x => comb x r =? comb x r') S) Hnz (NoDup_filter _ HS)) as H.
  rewrite Hlp in H. cut (length (filter (fun x => comb x r =? comb x r') S) < length r); [lia|]. apply H.
  intros x Hx. apply filter_In in Hx. destruct Hx as [_ Hx]. apply feqb_true in Hx. rewrite Hp, Hx. ring.
Qed.
End P.
