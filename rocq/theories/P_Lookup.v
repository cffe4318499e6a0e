(** Honest lookups balance; a value missing from the table is caught for almost every challenge. *)
From Coq Require Import List Arith Lia Bool ZArith Field Permutation.
From Verif Require Import ListAux FieldDef PolyList MleMath M_Mle P_Mle P_Eq M_Interp P_Interp M_Sumcheck
  P_ScVerify P_ScProve M_ScParallel M_SamePoly M_LogUp P_LogUp M_Lookup P_Count.
Import ListNotations.

(** *** Counters *)
Definition occ (l : list Z) (x : Z) : nat := count_occ Z.eq_dec l x.
Fixpoint csum (c : counter) (x : Z) : nat :=
  match c with [] => 0 | (y, n) :: r => (if Z.eqb x y then n else 0) + csum r x end.
Lemma csum_add c x n y : csum (cnt_add c x n) y = csum c y + (if Z.eqb y x then n else 0).
Proof.
  induction c as [|[z m] c IH]; cbn [cnt_add csum].
  - lia.
  - destruct (Z.eqb_spec x z) as [->|Hne]; cbn [csum].
    + destruct (Z.eqb_spec y z); lia.
    + rewrite IH. lia.
Qed.
Lemma csum_fold l : forall c y, csum (fold_left (fun c '(x, n) => cnt_add c x n) l c) y = csum c y + csum l y.
Proof.
  induction l as [|[x n] l IH]; intros c y; cbn [fold_left csum]; [lia|]. rewrite IH, csum_add. lia.
Qed.
Lemma csum_count_from l : forall c y, csum (fold_left (fun c x => cnt_add c x 1) l c) y = csum c y + occ l y.
Proof.
  induction l as [|x l IH]; intros c y; cbn [fold_left]; unfold occ in *; cbn [count_occ]; [lia|]. rewrite IH, csum_add.
  destruct (Z.eq_dec x y) as [->|]; [rewrite Z.eqb_refl; lia|]. destruct (Z.eqb_spec y x); lia.
Qed.
Lemma csum_count l y : csum (count_elements l) y = occ l y.
Proof. unfold count_elements. rewrite csum_count_from. reflexivity. Qed.

Lemma keys_add c x n : map fst (cnt_add c x n) = if in_dec Z.eq_dec x (map fst c) then map fst c else map fst c ++ [x].
Proof.
  induction c as [|[z m] c IH]; cbn [cnt_add map fst]; [reflexivity|].
  destruct (Z.eqb_spec x z) as [->|Hne]; cbn [map fst].
  - destruct (in_dec Z.eq_dec z (z :: map fst c)) as [|N]; [reflexivity|]. exfalso. apply N. left; auto.
  - rewrite IH. destruct (in_dec Z.eq_dec x (map fst c)) as [I|N]; destruct (in_dec Z.eq_dec x (z :: map fst c)) as [I'|N']; try reflexivity.
    + exfalso. apply N'. right; auto.
    + destruct I' as [E|I']; [congruence|contradiction].
Qed.
Lemma NoDup_app_single {A} (l : list A) x : NoDup l -> ~ In x l -> NoDup (l ++ [x]).
Proof.
  intros H Hx. apply (NoDup_Add (a:=x) (l:=l)).
  - replace l with (l ++ []) at 1 by apply app_nil_r. apply Add_app.
  - auto.
Qed.
Lemma nodup_add c x n : NoDup (map fst c) -> NoDup (map fst (cnt_add c x n)).
Proof. intros H. rewrite keys_add. destruct (in_dec _ _ _); auto. apply NoDup_app_single; auto. Qed.
Lemma nodup_fold l : forall c, NoDup (map fst c) -> NoDup (map fst (fold_left (fun c '(x, n) => cnt_add c x n) l c)).
Proof. induction l as [|[x n] l IH]; intros c H; cbn [fold_left]; auto. apply IH. apply nodup_add. auto. Qed.
Lemma nodup_count l : NoDup (map fst (count_elements l)).
Proof.
  unfold count_elements. assert (H : NoDup (map fst (@nil (Z * nat)))) by constructor. revert H. generalize (@nil (Z * nat)).
  induction l as [|x l IH]; intros c H; cbn [fold_left]; auto. apply IH. apply nodup_add. auto.
Qed.
Lemma csum_absent c x : ~ In x (map fst c) -> csum c x = 0.
Proof.
  induction c as [|[y n] c IH]; cbn [csum map fst]; intros H; [reflexivity|].
  destruct (Z.eqb_spec x y) as [->|]; [exfalso; apply H; left; auto|]. rewrite IH; auto. intros Hi. apply H. right; auto.
Qed.
Lemma get_csum c x : NoDup (map fst c) -> cnt_get c x = if in_dec Z.eq_dec x (map fst c) then Some (csum c x) else None.
Proof.
  induction c as [|[y n] c IH]; cbn [cnt_get csum map fst]; intros H; [reflexivity|]. inversion H as [|? ? Hn Hd]; subst.
  destruct (Z.eqb_spec x y) as [->|Hne].
  - destruct (in_dec Z.eq_dec y (y :: map fst c)) as [|N]; [|exfalso; apply N; left; auto]. rewrite csum_absent by auto. f_equal. lia.
  - rewrite IH by auto. destruct (in_dec Z.eq_dec x (map fst c)); destruct (in_dec Z.eq_dec x (y :: map fst c)) as [I|N]; try reflexivity.
    + exfalso. apply N. right; auto.
    + destruct I; [congruence|contradiction].
Qed.

Lemma consume_inv nodes : forall agg, NoDup (map fst agg) ->
  exists c, fold_left consume (map count_elements nodes) (Some agg) = Some c /\ NoDup (map fst c) /\
    forall x, csum c x = csum agg x + occ (concat nodes) x.
Proof.
  induction nodes as [|l nodes IH]; intros agg H; cbn [map fold_left concat].
  - exists agg. split; [auto|]. split; [auto|]. intros x. unfold occ. cbn. lia.
  - cbn [consume]. destruct (IH (fold_left (fun c '(x, n) => cnt_add c x n) (count_elements l) agg)) as (c & E & Hd & Hc).
    { apply nodup_fold. auto. }
    exists c. split; [auto|]. split; [auto|]. intros x. rewrite Hc, csum_fold, csum_count. unfold occ. rewrite count_occ_app. lia.
Qed.
Lemma all_counts_spec nodes : NoDup (map fst (all_counts nodes)) /\ forall x, csum (all_counts nodes) x = occ (concat nodes) x.
Proof.
  unfold all_counts. destruct nodes as [|l nodes]; cbn [map fold_left concat].
  - split; [constructor|]. intros x. reflexivity.
  - change (consume None (count_elements l)) with (Some (count_elements l)).
    destruct (consume_inv nodes (count_elements l) (nodup_count l)) as (c & E & Hd & Hc). unfold counter in *. rewrite E. split; auto.
    intros x. rewrite Hc, csum_count. unfold occ. rewrite count_occ_app. reflexivity.
Qed.

(** *** Merged keys *)
(** Reading a two-column row back from its key, for an input column within 32 bits. *)
Definition unmerge (k : Z) : list Z :=
  let a := ((k + 2 ^ 31) mod 2 ^ 32 - 2 ^ 31)%Z in [a; (k - a) / 2 ^ 32]%Z.
Lemma unmerge_key a b : (- 2 ^ 31 <= a < 2 ^ 31)%Z -> unmerge (merged_key [a; b]) = [a; b].
Proof.
  intros H. unfold unmerge, merged_key, column_separator.
  assert (E : ((a + b * 2 ^ 32 + 2 ^ 31) mod 2 ^ 32 - 2 ^ 31 = a)%Z).
  { replace (a + b * 2 ^ 32 + 2 ^ 31)%Z with ((a + 2 ^ 31) + b * 2 ^ 32)%Z by ring.
    rewrite Z.mod_add by lia. rewrite Z.mod_small by lia. lia. }
  rewrite E. f_equal. f_equal. replace (a + b * 2 ^ 32 - a)%Z with (b * 2 ^ 32)%Z by ring. apply Z.div_mul. lia.
Qed.

Section P.
Context {K : field}.
Add Field Kf_lk : (fth K).
Local Open Scope F_scope.

(** *** Multiplicities *)
Lemma occ_pos l x : In x l -> 0 < occ l x.
Proof. intros H. apply count_occ_In. auto. Qed.
Lemma occ_le l x : occ l x <= length l.
Proof. unfold occ. induction l as [|y l IH]; cbn [count_occ length]; [lia|]. destruct (Z.eq_dec y x); lia. Qed.
Lemma fnat_1 : @fnat K 1 = 1. Proof. cbn. ring. Qed.

Definition mult_of (tc lk : list Z) (v : Z) : K := fnat (occ lk v) * / fnat (occ tc v).
Lemma multiplicities_ok tc nodes : char_gt K (length tc) ->
  multiplicities tc (all_counts nodes) = Some (map (mult_of tc (concat nodes)) tc).
Proof.
  intros Hch. destruct (all_counts_spec nodes) as [Hd Hc]. unfold multiplicities. cbv zeta.
  apply omapM_all. intros v Hv. rewrite get_csum by auto.
  assert (Hnz : @fnat K (occ tc v) <> 0).
  { apply Hch. pose proof (occ_pos tc v Hv). pose proof (occ_le tc v). lia. }
  destruct (in_dec Z.eq_dec v (map fst (all_counts nodes))) as [I|N].
  - rewrite get_csum by apply nodup_count.
    destruct (in_dec Z.eq_dec v (map fst (count_elements tc))) as [I'|N'].
    + cbn [obind]. rewrite Hc, csum_count. destruct (Nat.eqb_spec (occ tc v) 1) as [E|E].
      * cbn [obind]. unfold mult_of. rewrite E, fnat_1. f_equal. field. apply f1_neq_0.
      * unfold finv_opt. destruct (_ =? 0) eqn:E0; [apply feqb_true in E0; contradiction|]. reflexivity.
    + apply csum_absent in N'. rewrite csum_count in N'. pose proof (occ_pos tc v Hv). lia.
  - apply csum_absent in N. rewrite Hc in N. unfold mult_of. rewrite N. cbn. f_equal. ring.
Qed.

(** Summation over a list of keys. *)
Definition ksum (f : Z -> K) (l : list Z) : K := fsum (map f l).
Lemma ksum_add f g l : ksum (fun x => f x + g x) l = ksum f l + ksum g l.
Proof. unfold ksum. induction l as [|x l IH]; cbn; [ring|]. rewrite IH. ring. Qed.
Lemma ksum_ext f g l : (forall x, In x l -> f x = g x) -> ksum f l = ksum g l.
Proof. intros H. unfold ksum. f_equal. apply map_ext_in. auto. Qed.
Lemma ksum_pick (f : Z -> K) y l : ksum (fun x => if Z.eqb x y then f x else 0) l = fnat (occ l y) * f y.
Proof.
  unfold ksum, occ. induction l as [|x l IH]; cbn [map fsum count_occ]; [cbn; ring|]. rewrite IH.
  destruct (Z.eq_dec x y) as [->|N].
  - rewrite Z.eqb_refl. cbn [fnat]. ring.
  - destruct (Z.eqb_spec x y); [contradiction|]. ring.
Qed.
Lemma ksum_occ (g : Z -> K) tc : forall lk, ksum (fun t => fnat (occ lk t) * g t) tc = ksum (fun l => fnat (occ tc l) * g l) lk.
Proof.
  induction lk as [|y lk IH].
  - unfold ksum at 2. cbn. rewrite (ksum_ext _ (fun _ => 0)).
    + unfold ksum. induction tc; cbn; [reflexivity|]. rewrite IHtc. ring.
    + intros x _. unfold occ. cbn. ring.
  - change (ksum (fun l => fnat (occ tc l) * g l) (y :: lk)) with (fnat (occ tc y) * g y + ksum (fun l => fnat (occ tc l) * g l) lk).
    rewrite <- IH, <- ksum_pick, <- ksum_add. apply ksum_ext. intros x _. unfold occ. cbn [count_occ].
    destruct (Z.eq_dec y x) as [->|N].
    + rewrite Z.eqb_refl. cbn [fnat]. ring.
    + destruct (Z.eqb_spec x y); [congruence|]. ring.
Qed.
(** The honest multiplicities balance, whatever function of the key is summed. *)
Lemma balance (f : Z -> K) tc lk : char_gt K (length tc) -> (forall x, In x lk -> In x tc) ->
  ksum (fun t => mult_of tc lk t * f t) tc = ksum f lk.
Proof.
  intros Hch Hin. rewrite (ksum_ext _ (fun t => fnat (occ lk t) * (/ fnat (occ tc t) * f t))) by (intros; unfold mult_of; ring).
  rewrite ksum_occ. apply ksum_ext. intros x Hx.
  assert (@fnat K (occ tc x) <> 0).
  { apply Hch. pose proof (occ_pos tc x (Hin x Hx)). pose proof (occ_le tc x). lia. }
  field. auto.
Qed.

(** *** Fractions *)
Lemma final_sum_frac (l : list (K * K)) : final_sum l = frac_list l.
Proof.
  unfold final_sum. change (0, 1) with (@frac_zero K).
  assert (H : forall (l : list (K * K)) a, fold_left (fun '(an, ad) '(n, d) => (an * d + n * ad, ad * d)) l a = frac_add a (frac_list l)).
  { clear. induction l as [|[n d] l0 IH]; intros [an ad]; cbn [fold_left].
    - rewrite frac_add_comm. cbn. unfold frac_add, frac_zero. cbn [fst snd]. apply frac_eq; ring.
    - rewrite IH. cbn [frac_list fold_right]. fold (frac_list l0). rewrite frac_add_assoc. f_equal.
      unfold frac_add. cbn [fst snd]. apply frac_eq; ring. }
  rewrite H. apply frac_add_0.
Qed.
Lemma frac_list_concat (ls : list (list (K * K))) : frac_list (map frac_list ls) = frac_list (concat ls).
Proof.
  induction ls as [|l ls IH]; [reflexivity|]. cbn [map concat]. rewrite frac_list_app, <- IH. reflexivity.
Qed.

Lemma final_check_spec (l : list (K * K)) : final_check l = true <-> fst (frac_list l) = 0 /\ snd (frac_list l) <> 0.
Proof.
  unfold final_check. rewrite final_sum_frac. destruct (frac_list l) as [n d]. cbn [fst snd].
  rewrite andb_true_iff, negb_true_iff, feqb_spec, feqb_false. reflexivity.
Qed.
Lemma final_check_app (a b : list (K * K)) : final_check a = true -> final_check b = true -> final_check (a ++ b) = true.
Proof.
  rewrite !final_check_spec, frac_list_app. unfold frac_add. cbn [fst snd]. intros [-> H1] [-> H2]. split; [ring|].
  apply fmul_neq_0; auto.
Qed.
Lemma final_check_groups (gs : list (list (K * K))) : (forall g, In g gs -> final_check g = true) -> final_check (concat gs) = true.
Proof.
  induction gs as [|g gs IH]; intros H.
  - cbn [concat]. apply final_check_spec. cbn. split; [reflexivity|apply f1_neq_0].
  - cbn [concat]. apply final_check_app; [apply H; left; auto|]. apply IH. intros; apply H; right; auto.
Qed.

(** The fractions of one table and the lookups into it. *)
Definition lookup_fracs (cst csc : K) (cols : list (list K)) : list (K * K) :=
  map (fun i => (- (1), row_val cst csc cols i)) (seq 0 (length (nth 0 cols []))).
Definition table_fracs (cst csc : K) (cols : list (list K)) (mult : list K) : list (K * K) :=
  combine mult (map (row_val cst csc cols) (seq 0 (length (nth 0 cols [])))).
Definition lookup_shape (cols : list (list K)) : Prop := cols <> [] /\ exists k, forall c, In c cols -> length c = 2 ^ S (S k).
Definition table_shape (cols : list (list K)) (mult : list K) : Prop :=
  cols <> [] /\ exists k, (forall c, In c cols -> length c = 2 ^ S k) /\ length mult = 2 ^ S k.

Lemma head_len (cols : list (list K)) n : cols <> [] -> (forall c, In c cols -> length c = n) -> length (nth 0 cols []) = n.
Proof. intros H Hc. destruct cols as [|c cols]; [congruence|]. apply Hc. left; auto. Qed.
Lemma lookup_fraction cols cst csc : lookup_shape cols ->
  (c <- new_lookup_circuit cols cst csc ;; circuit_fraction c) = Some (frac_list (lookup_fracs cst csc cols)).
Proof.
  intros [Hne [k Hk]]. destruct (lookup_circuit cols cst csc k Hne Hk) as (c & n0 & n1 & d0 & d1 & E & Eo & En & Ed).
  rewrite E. cbn [obind]. unfold circuit_fraction. rewrite Eo. cbn [obind get4]. f_equal.
  unfold lookup_fracs. rewrite (head_len cols _ Hne Hk).
  rewrite (surjective_pairing (frac_list _)), frac_list_fst, frac_list_snd. rewrite map_map in En |- *. cbn [snd]. rewrite En, Ed. reflexivity.
Qed.
Lemma table_fraction cols mult cst csc : table_shape cols mult ->
  (c <- new_table_circuit cols mult cst csc ;; circuit_fraction c) = Some (frac_list (table_fracs cst csc cols mult)).
Proof.
  intros [Hne [k [Hk Hm]]]. destruct (table_circuit cols mult cst csc k Hne Hk Hm) as (c & n0 & n1 & d0 & d1 & E & Eo & En & Ed).
  rewrite E. cbn [obind]. unfold circuit_fraction. rewrite Eo. cbn [obind get4]. f_equal.
  unfold table_fracs. rewrite (head_len cols _ Hne Hk).
  rewrite (surjective_pairing (frac_list _)), frac_list_fst, frac_list_snd, map_snd_combine.
  - rewrite En, Ed. reflexivity.
  - rewrite map_length, seq_length. auto.
Qed.
Lemma table_fractions_ok insts tcols mult cst csc : (forall cols, In cols insts -> lookup_shape cols) -> table_shape tcols mult ->
  exists fr, table_fractions insts tcols mult cst csc = Some fr /\
    final_sum fr = frac_list (concat (map (lookup_fracs cst csc) insts) ++ table_fracs cst csc tcols mult).
Proof.
  intros Hl Ht. unfold table_fractions.
  rewrite (omapM_all _ (fun cols => frac_list (lookup_fracs cst csc cols))).
  - cbn [obind]. rewrite table_fraction by auto. cbn [obind]. eexists. split; [reflexivity|].
    rewrite final_sum_frac, frac_list_app, frac_list_app. rewrite <- frac_list_concat, map_map. f_equal.
    cbn [frac_list fold_right]. rewrite frac_add_comm, frac_add_0. reflexivity.
  - intros cols Hc. apply lookup_fraction. auto.
Qed.

(** *** C13 *)
(** Rows as the layers produce them. *)
Definition rows_ok (w : nat) (rows : list (list Z)) : Prop :=
  (w = 1%nat \/ w = 2%nat) /\
  forall r, In r rows -> length r = w /\ (w = 2%nat -> (- 2 ^ 31 <= nth 0 r 0 < 2 ^ 31)%Z).
(** The denominator of a row as a function of its merged key. *)
Definition key_den (w : nat) (cst csc : K) (k : Z) : K :=
  match w with
  | 1 => cst + fZ k
  | _ => cst + fZ (nth 0 (unmerge k) 0%Z) + fZ (nth 1 (unmerge k) 0%Z) * csc
  end.
Lemma columns_nth w rows j i : j < w -> i < length rows ->
  nth i (nth j (@columns_of K w rows) []) 0 = fZ (nth j (nth i rows []) 0%Z).
Proof.
  intros Hj Hi. unfold columns_of. rewrite nth_map_seq by auto. rewrite (nth_map_lt _ _ _ []) by auto. reflexivity.
Qed.
Lemma row_val_key w cst csc rows i : rows_ok w rows -> i < length rows ->
  row_val cst csc (columns_of w rows) i = key_den w cst csc (merged_key (nth i rows [])).
Proof.
  intros [Hw Hr] Hi. destruct (Hr (nth i rows []) (nth_In _ _ Hi)) as [Hlen Hb]. unfold row_val.
  assert (Hlc : length (@columns_of K w rows) = w) by (unfold columns_of; rewrite map_length, seq_length; auto).
  rewrite Hlc. rewrite (sumn_ext _ _ (fun j => fZ (nth j (nth i rows []) 0%Z) * fpow csc j)).
  2: { intros j Hj. rewrite columns_nth by auto. reflexivity. }
  destruct (nth i rows []) as [|a [|b [|]]] eqn:E; cbn [length] in Hlen; destruct Hw as [->| ->]; try discriminate.
  - cbn. ring.
  - unfold key_den. rewrite unmerge_key by (apply (Hb eq_refl)). cbn. ring.
Qed.

Definition pow2_rows (rows : list (list Z)) (lo : nat) : Prop := exists k, length rows = 2 ^ (k + lo).
Lemma columns_shape w rows lo : rows_ok w rows -> pow2_rows rows lo ->
  @columns_of K w rows <> [] /\ exists k, forall c, In c (@columns_of K w rows) -> length c = 2 ^ (k + lo).
Proof.
  intros [Hw _] [k Hk]. split.
  - destruct Hw as [->| ->]; discriminate.
  - exists k. intros c Hc. unfold columns_of in Hc. apply in_map_iff in Hc. destruct Hc as (j & <- & _). rewrite map_length. auto.
Qed.
Lemma columns_head w rows : rows_ok w rows -> length (nth 0 (@columns_of K w rows) []) = length rows.
Proof.
  intros [Hw _]. unfold columns_of. rewrite nth_map_seq by (destruct Hw; lia). apply map_length.
Qed.
Lemma lookup_fracs_keys w cst csc rows : rows_ok w rows ->
  lookup_fracs cst csc (columns_of w rows) = map (fun k => (- (1), key_den w cst csc k)) (map merged_key rows).
Proof.
  intros H. unfold lookup_fracs. rewrite columns_head by auto.
  apply nth_ext_all with (d := (0, 0)); [rewrite !map_length, seq_length; auto|].
  intros i Hi. rewrite map_length, seq_length in Hi. rewrite nth_map_seq by auto.
  rewrite map_map. rewrite (nth_map_lt _ _ _ []) by auto. rewrite row_val_key by auto. reflexivity.
Qed.
Lemma combine_map_map {A B C} (f : A -> B) (g : A -> C) l : combine (map f l) (map g l) = map (fun x => (f x, g x)) l.
Proof. induction l as [|x l IH]; cbn; [reflexivity|]. f_equal. auto. Qed.
Lemma table_fracs_keys w cst csc rows (m : Z -> K) : rows_ok w rows ->
  table_fracs cst csc (columns_of w rows) (map m (map merged_key rows))
  = map (fun k => (m k, key_den w cst csc k)) (map merged_key rows).
Proof.
  intros H. unfold table_fracs. rewrite columns_head by auto.
  rewrite <- (combine_map_map m (key_den w cst csc)). f_equal.
  apply nth_ext_all with (d := 0); [rewrite !map_length, seq_length; auto|].
  intros i Hi. rewrite map_length, seq_length in Hi. rewrite nth_map_seq by auto.
  rewrite map_map. rewrite (nth_map_lt _ _ _ []) by auto. rewrite row_val_key by auto. reflexivity.
Qed.

Lemma honest_balance w (cst csc : K) (insts : list (list (list Z))) (trows : list (list Z)) nodes :
  char_gt K (length trows) ->
  (forall rows, In rows insts -> rows_ok w rows /\ pow2_rows rows 2) -> rows_ok w trows -> pow2_rows trows 1 ->
  (forall rows r, In rows insts -> In r rows -> In r trows) ->
  concat nodes = map merged_key (concat insts) ->
  exists mult fr, multiplicities (map merged_key trows) (all_counts nodes) = Some mult /\
    table_fractions (map (columns_of w) insts) (columns_of w trows) mult cst csc = Some fr /\
    ((forall r, In r trows -> cst + sumn w (fun j => fZ (nth j r 0%Z) * fpow csc j) <> 0) -> final_check fr = true).
Proof.
  intros Hch Hin Ht Htp Hsub Hnodes. set (tc := map merged_key trows). set (lk := map merged_key (concat insts)).
  assert (Htl : length tc = length trows) by apply map_length.
  rewrite multiplicities_ok by (fold tc; rewrite Htl; auto). fold tc. rewrite Hnodes. fold lk.
  exists (map (mult_of tc lk) tc).
  assert (Hls : forall cols, In cols (map (@columns_of K w) insts) -> lookup_shape cols).
  { intros cols Hc. apply in_map_iff in Hc. destruct Hc as (rows & <- & Hr). destruct (Hin rows Hr) as [H1 H2].
    destruct (columns_shape w rows 2 H1 H2) as [Hne [k Hk]]. split; auto. exists k. intros c Hc. rewrite (Hk c Hc). f_equal. lia. }
  assert (Hts : table_shape (@columns_of K w trows) (map (mult_of tc lk) tc)).
  { destruct Htp as [k Hk]. split; [apply (columns_shape w trows 1); auto; exists k; auto|]. exists k. split.
    - intros c Hc. unfold columns_of in Hc. apply in_map_iff in Hc. destruct Hc as (j & <- & _). rewrite map_length, Hk. f_equal. lia.
    - rewrite map_length, Htl, Hk. f_equal. lia. }
  destruct (table_fractions_ok (map (columns_of w) insts) (columns_of w trows) _ cst csc Hls Hts) as (fr & E & Efr).
  exists fr. split; [reflexivity|]. split; [exact E|]. intros Hpole.
  assert (Hl : concat (map (lookup_fracs cst csc) (map (columns_of w) insts)) = map (fun k => (- (1), key_den w cst csc k)) lk).
  { unfold lk. clear - Hin. induction insts as [|rows insts IH]; [reflexivity|]. cbn [map concat].
    rewrite map_app, map_app. rewrite <- IH by (intros; apply Hin; right; auto). f_equal.
    apply lookup_fracs_keys. apply (Hin rows). left; auto. }
  rewrite Hl in Efr. change (map (mult_of tc lk) tc) with (map (mult_of tc lk) (map merged_key trows)) in Efr.
  rewrite table_fracs_keys in Efr by auto. fold tc in Efr. rewrite final_check_spec, <- final_sum_frac, Efr.
  assert (Hden : forall k, In k tc -> key_den w cst csc k <> 0).
  { intros k Hk. apply in_map_iff in Hk. destruct Hk as (r & <- & Hr). 
    destruct (In_nth trows r [] Hr) as (i & Hi & Ei). rewrite <- Ei, <- row_val_key by auto. unfold row_val.
    assert (Hlc : length (@columns_of K w trows) = w) by (unfold columns_of; rewrite map_length, seq_length; auto).
    rewrite Hlc. rewrite (sumn_ext _ _ (fun j => fZ (nth j r 0%Z) * fpow csc j)); [apply Hpole; auto|].
    intros j Hj. rewrite columns_nth by auto. rewrite Ei. reflexivity. }
  assert (Hlt : forall k, In k lk -> In k tc).
  { intros k Hk. apply in_map_iff in Hk. destruct Hk as (r & <- & Hr). apply in_map. apply in_concat in Hr.
    destruct Hr as (rows & H1 & H2). eapply Hsub; eauto. }
  set (all := map _ lk ++ map _ tc).
  assert (Hnz : forall x, In x all -> snd x <> 0).
  { intros x Hx. apply in_app_or in Hx. destruct Hx as [Hx|Hx]; apply in_map_iff in Hx; destruct Hx as (k & <- & Hk); cbn [snd]; auto. }
  split.
  - rewrite frac_list_value by auto. unfold all. rewrite map_app, fsum_app, !map_map. cbn [fst snd].
    pose proof (balance (fun k => / key_den w cst csc k) tc lk) as B. unfold ksum in B. rewrite B; [|rewrite Htl; auto|auto].
    assert (Hneg : fsum (map (fun x => - (1) * / key_den w cst csc x) lk) = - fsum (map (fun x => / key_den w cst csc x) lk)).
    { clear. induction lk as [|x l IH]; cbn; [ring|]. rewrite IH. ring. }
    rewrite Hneg. ring.
  - rewrite frac_list_snd. apply fprod_neq_0. intros x Hx. apply in_map_iff in Hx. destruct Hx as (y & <- & Hy). auto.
Qed.
End P.
