(** Proofs about the eq tables of [M_Mle]. *)
From Coq Require Import List Arith Lia Bool ZArith Field Permutation.
From Verif Require Import ListAux FieldDef PolyList MleMath M_Mle P_Mle.
Import ListNotations.

Section P.
Context {K : field}.
Add Field Kf_pe : (fth K).
Local Open Scope F_scope.

Lemma eq_eval_eqp x y : length x = length y -> eq_eval x y = Some (@eqp K x y).
Proof.
  intros H. unfold eq_eval. rewrite H, Nat.eqb_refl. f_equal.
  assert (G : forall x y acc, length x = length y ->
     fold_left (fun acc '(a, b) => acc * ((a * b + a * b) - a - b + 1)) (combine x y) acc = acc * @eqp K x y).
  { clear. induction x as [|a x IH]; intros [|b y] acc H; try discriminate; simpl.
    - ring.
    - rewrite IH by (injection H; auto). ring. }
  rewrite G by auto. ring.
Qed.
Lemma eq_eval_len x y : length x <> length y -> @eq_eval K x y = None.
Proof. intros H. unfold eq_eval. destruct (Nat.eqb_spec (length x) (length y)); [contradiction|auto]. Qed.

Lemma identity_eval_fold (x y : list K) : forall acc,
  fold_left (fun acc '(a, b) => acc * (a * b + (1 - a) * (1 - b))) (combine x y) acc = acc * eqp x y.
Proof.
  revert y; induction x as [|a x IH]; intros [|b y] acc; simpl; try ring.
  rewrite IH. ring.
Qed.
Lemma combine_firstn_min {A B} (x : list A) (y : list B) :
  combine (firstn (Nat.min (length x) (length y)) x) (firstn (Nat.min (length x) (length y)) y) = combine x y.
Proof.
  revert y; induction x as [|a x IH]; intros [|b y]; simpl; auto. f_equal. apply IH.
Qed.
Lemma identity_eval_eqp x y : @identity_eval K x y = eqp x y.
Proof. unfold identity_eval. rewrite combine_firstn_min, identity_eval_fold. ring. Qed.

(** *** The sequential helper *)
Definition cell (b : list (option K)) (x : nat) : option K := nth x b None.
Lemma cell_upd b i v j : i < length b -> cell (upd i v b) j = if Nat.eqb j i then v else cell b j.
Proof.
  intros H. unfold cell. destruct (Nat.eqb_spec j i) as [->|Hne].
  - apply nth_upd_eq; auto.
  - apply nth_upd_neq; auto.
Qed.

Definition dbl (r : K) (t : nat -> K) (x : nat) : K :=
  if Nat.odd x then r * t (Nat.div2 x) else t (Nat.div2 x) - r * t (Nat.div2 x).

Lemma eq_round r t m b : 2 * m <= length b -> (forall x, x < m -> cell b x = Some (t x)) ->
  exists b', ofold (eq_step r) (rev (evens (2 * m))) b = Some b' /\ length b' = length b /\
    forall x, cell b' x = if Nat.ltb x (2 * m) then Some (dbl r t x) else cell b x.
Proof.
  intros Hl Ht. rewrite evens_even.
  assert (G : forall k, k <= m ->
    exists b', ofold (eq_step r) (rev (map (fun i => 2 * i)%nat (seq (m - k) k))) b = Some b' /\
      length b' = length b /\
      forall x, cell b' x = if Nat.leb (2 * (m - k)) x && Nat.ltb x (2 * m)
                            then Some (dbl r t x) else cell b x).
  { induction k as [|k IH]; intros Hk.
    - exists b. cbn [seq map rev ofold]. repeat split; auto. intros x. rewrite Nat.sub_0_r.
      destruct (Nat.leb_spec (2 * m) x), (Nat.ltb_spec x (2 * m)); cbn [andb]; auto; lia.
    - destruct (IH ltac:(lia)) as (b1 & E1 & Hl1 & Hn1).
      set (j := (m - S k)%nat). cbn [seq map rev].
      replace (S j) with (m - k)%nat by (unfold j; lia).
      rewrite ofold_app, E1. cbn [obind ofold]. unfold eq_step.
      replace (2 * j / 2)%nat with j by (rewrite Nat.mul_comm, Nat.div_mul; lia).
      assert (Hj : j < m) by (unfold j; lia).
      assert (Hc : cell b1 j = Some (t j)).
      { rewrite Hn1. destruct (Nat.leb_spec (2 * (m - k)) j); [unfold j in *; lia|].
        simpl. apply Ht; auto. }
      rewrite (nth_error_nth' b1 None) by lia. fold (cell b1 j). rewrite Hc.
      destruct (Nat.ltb_spec (2 * j + 1) (length b1)); [|lia].
      eexists. split; [reflexivity|]. rewrite !upd_length. split; auto.
      intros x. rewrite !cell_upd by (rewrite ?upd_length; lia). rewrite Hn1.
      destruct (Nat.eqb_spec x (2 * j)) as [Ex|Ex].
      + destruct (Nat.leb_spec (2 * j) x), (Nat.ltb_spec x (2 * m)); try lia. cbn [andb]. f_equal. subst x.
        unfold dbl. rewrite Nat.div2_double. rewrite <- Nat.negb_even.
        replace (Nat.even (2 * j)) with true; [reflexivity|]. symmetry. apply Nat.even_spec. exists j; lia.
      + destruct (Nat.eqb_spec x (2 * j + 1)) as [Ex'|Ex'].
        * destruct (Nat.leb_spec (2 * j) x), (Nat.ltb_spec x (2 * m)); try lia. cbn [andb]. f_equal. subst x.
          unfold dbl. replace (2 * j + 1)%nat with (S (2 * j)) by lia. rewrite Nat.div2_succ_double.
          replace (Nat.odd (S (2 * j))) with true; [reflexivity|]. symmetry. apply Nat.odd_spec. exists j; lia.
        * destruct (Nat.leb_spec (2 * (m - k)) x), (Nat.leb_spec (2 * j) x), (Nat.ltb_spec x (2 * m));
            cbn [andb]; auto; unfold j in *; lia. }
  destruct (G m (le_n m)) as (b' & E & Hl' & Hn). rewrite Nat.sub_diag in *.
  exists b'. repeat split; auto.
Qed.

Lemma dbl_eqw r init s x : dbl r (fun x => init * eqw x s) x = init * @eqw K x (r :: s).
Proof. unfold dbl. rewrite eqw_cons. destruct (Nat.odd x); ring. Qed.

Lemma eq_helper_loop_spec init rs : forall i b s, length s = i ->
  2 ^ (i + length rs) <= length b ->
  (forall x, x < 2 ^ i -> cell b x = Some (init * eqw x s)) ->
  exists b', eq_helper_loop i rs b = Some b' /\ length b' = length b /\
    forall x, x < 2 ^ (i + length rs) -> cell b' x = Some (init * eqw x (rev rs ++ s)).
Proof.
  induction rs as [|r rs IH]; intros i b s Hs Hl Hc.
  - exists b. simpl. rewrite Nat.add_0_r. repeat split; auto.
  - cbn [eq_helper_loop length] in *. replace (i + 1)%nat with (S i) by lia. rewrite Nat.pow_succ_r'.
    destruct (eq_round r (fun x => init * eqw x s) (2 ^ i) b) as (b1 & E1 & Hl1 & Hn1); auto.
    { rewrite <- Nat.pow_succ_r'. etransitivity; [|exact Hl]. apply Nat.pow_le_mono_r; lia. }
    rewrite E1. cbn [obind].
    destruct (IH (S i) b1 (r :: s)) as (b' & E & Hl' & Hn).
    + cbn [length]. auto.
    + rewrite Hl1. replace (S i + length rs)%nat with (i + S (length rs))%nat by lia. auto.
    + intros x Hx. rewrite Nat.pow_succ_r' in Hx. rewrite Hn1.
      destruct (Nat.ltb_spec x (2 * 2 ^ i)); [|lia]. rewrite dbl_eqw. reflexivity.
    + exists b'. rewrite E. repeat split; auto; try lia.
      intros x Hx. rewrite Hn by (replace (S i + length rs)%nat with (i + S (length rs))%nat by lia; auto).
      cbn [rev]. rewrite <- app_assoc. reflexivity.
Qed.

Lemma eq_helper_spec r b init : length b = 2 ^ length r ->
  exists b', eq_helper r b init = Some b' /\ length b' = 2 ^ length r /\
    forall x, x < 2 ^ length r -> cell b' x = Some (init * eqw x r).
Proof.
  intros Hl. unfold eq_helper. destruct b as [|o b].
  { pose proof (pow2_pos (length r)). simpl in Hl. lia. }
  destruct (eq_helper_loop_spec init (rev r) 0 (Some init :: b) []) as (b' & E & Hl' & Hn); auto.
  - rewrite rev_length. cbn [length Nat.add] in *. lia.
  - intros x Hx. simpl in Hx. replace x with 0%nat by lia. unfold cell. simpl. rewrite eqw_nil. f_equal. ring.
  - exists b'. rewrite E. split; [auto|]. split; [cbn [length] in *; lia|].
    intros x Hx. rewrite rev_length in Hn. rewrite Hn by auto. rewrite rev_involutive, app_nil_r. reflexivity.
Qed.

Lemma assume_init_spec b (g : nat -> K) : (forall x, x < length b -> cell b x = Some (g x)) ->
  assume_init b = Some (map g (seq 0 (length b))).
Proof.
  revert g; induction b as [|o b IH]; intros g H; [reflexivity|].
  assert (H0 := H 0%nat ltac:(simpl; lia)). unfold cell in H0. simpl in H0. subst o.
  cbn [assume_init]. rewrite (IH (fun x => g (S x))).
  - cbn [obind length seq map]. rewrite <- seq_shift, map_map. reflexivity.
  - intros x Hx. apply (H (S x)). simpl. lia.
Qed.

(** The table every builder must produce. *)
Definition eq_table (r : list K) : list K := map (fun x => eqw x r) (seq 0 (2 ^ length r)).

Lemma build_eq_seq_spec r : build_eq_seq r = Some (eq_table r).
Proof.
  unfold build_eq_seq. destruct r as [|a r]; [reflexivity|]. remember (a :: r) as r' eqn:Er. clear Er a r.
  destruct (eq_helper_spec r' (repeat None (2 ^ length r')) 1) as (b & E & Hl & Hn).
  { apply repeat_length. }
  rewrite E. cbn [obind]. rewrite (assume_init_spec b (fun x => eqw x r')).
  - rewrite Hl. reflexivity.
  - intros x Hx. rewrite Hn by lia. f_equal. ring.
Qed.

Lemma omapM_spec {A B} (f : A -> option B) (l : list A) :
  (forall a, In a l -> exists b, f a = Some b) ->
  exists bs, omapM f l = Some bs /\ length bs = length l /\
    forall i da db, i < length l -> f (nth i l da) = Some (nth i bs db).
Proof.
  induction l as [|a l IH]; intros H.
  - exists []. simpl. repeat split; auto. intros; lia.
  - destruct (H a (or_introl eq_refl)) as [b Hb].
    destruct IH as (bs & E & Hl & Hn). { intros; apply H; right; auto. }
    exists (b :: bs). cbn [omapM]. rewrite Hb, E. cbn [obind length]. repeat split; auto.
    intros [|i] da db Hi; simpl; auto. apply Hn. lia.
Qed.

Lemma eq_table_at r x : x < 2 ^ length r -> nth x (eq_table r) 0 = eqw x r.
Proof. intros H. unfold eq_table. rewrite nth_map_seq by auto. reflexivity. Qed.
Lemma eq_table_length r : length (eq_table r) = 2 ^ length r.
Proof. unfold eq_table. rewrite map_length, seq_length. reflexivity. Qed.

Lemma build_eq_par_spec nbits r : build_eq_par nbits r = Some (eq_table r).
Proof.
  unfold build_eq_par. destruct r as [|a r]; [reflexivity|]. remember (a :: r) as r' eqn:Er. clear Er a r.
  destruct (Nat.ltb_spec (length r') nbits); [apply build_eq_seq_spec|].
  set (m := (length r' - nbits)%nat). rewrite build_eq_seq_spec. cbn [obind].
  assert (Hs : length (skipn m r') = nbits) by (rewrite skipn_length; unfold m; lia).
  assert (Hf : length (firstn m r') = m) by (rewrite firstn_length; unfold m; lia).
  set (f := fun tid => eq_t <- nth_error (eq_table (skipn m r')) tid ;;
                       eq_helper (firstn m r') (repeat None (2 ^ m)) eq_t).
  assert (Hf1 : forall tid, tid < 2 ^ nbits -> exists b, f tid = Some b /\ length b = 2 ^ m /\
     forall x, x < 2 ^ m -> cell b x = Some (eqw tid (skipn m r') * eqw x (firstn m r'))).
  { intros tid Ht. unfold f.
    rewrite nth_error_at by (rewrite eq_table_length, Hs; auto). cbn [obind].
    unfold at_. rewrite eq_table_at by (rewrite Hs; auto).
    destruct (eq_helper_spec (firstn m r') (repeat None (2 ^ m)) (eqw tid (skipn m r'))) as (b & E & Hl & Hn).
    - rewrite repeat_length, Hf. reflexivity.
    - exists b. rewrite Hf in *. auto. }
  destruct (omapM_spec f (seq 0 (2 ^ nbits))) as (cs & Ecs & Hcs & Hn).
  { intros tid Ht. apply in_seq in Ht. destruct (Hf1 tid) as (b & E & _); [lia|]. eauto. }
  rewrite Ecs. cbn [obind]. rewrite seq_length in Hcs, Hn.
  assert (Hu : forall c, In c cs -> length c = 2 ^ m).
  { intros c Hc. apply (In_nth _ _ []) in Hc. destruct Hc as (i & Hi & <-).
    specialize (Hn i 0%nat [] ltac:(lia)). rewrite seq_nth in Hn by lia. simpl in Hn.
    destruct (Hf1 i) as (b & E & Hl & _); [lia|]. rewrite E in Hn. injection Hn as <-. auto. }
  assert (Hlen : length (concat cs) = 2 ^ length r').
  { rewrite (length_concat_uniform cs (2 ^ m)) by auto. rewrite Hcs, <- Nat.pow_add_r. f_equal. unfold m. lia. }
  rewrite (assume_init_spec _ (fun x => eqw x r')).
  - rewrite Hlen. reflexivity.
  - intros x Hx. rewrite Hlen in Hx. rewrite (divmod_pow2 m x).
    assert (Hmod : x mod 2 ^ m < 2 ^ m) by (apply Nat.mod_upper_bound, Nat.pow_nonzero; lia).
    assert (Hdiv : x / 2 ^ m < 2 ^ nbits).
    { apply Nat.div_lt_upper_bound; [apply Nat.pow_nonzero; lia|]. rewrite <- Nat.pow_add_r.
      replace (m + nbits)%nat with (length r') by (unfold m; lia). auto. }
    unfold cell. rewrite (nth_concat_uniform cs (2 ^ m)) by (auto; lia).
    specialize (Hn (x / 2 ^ m)%nat 0%nat [] Hdiv). rewrite seq_nth in Hn by auto. simpl in Hn.
    destruct (Hf1 _ Hdiv) as (b & E & Hl & Hc). rewrite E in Hn. injection Hn as <-.
    fold (cell b (x mod 2 ^ m)). rewrite Hc by auto. f_equal.
    assert (Ea := eqw_app (firstn m r') (skipn m r') (x mod 2 ^ m) (x / 2 ^ m)).
    rewrite Hf, firstn_skipn in Ea. rewrite Ea by auto. ring.
Qed.

(** *** compute_betas_eval *)
Lemma betas_inner_fold r temp : forall k betas, k + length temp <= length betas ->
  2 * (k + length temp) <= length betas ->
  forall x, at_ (fold_left (betas_inner r) (combine (seq k (length temp)) temp) betas) x
    = if Nat.leb (2 * k) x && Nat.ltb x (2 * (k + length temp))
      then dbl r (fun j => at_ temp (j - k)) x else at_ betas x.
Proof.
  induction temp as [|a temp IH]; intros k betas H1 H2 x.
  - simpl. destruct (Nat.leb_spec (k + (k + 0)) x), (Nat.ltb_spec x (k + 0 + (k + 0 + 0))); simpl; auto; lia.
  - cbn [length seq combine fold_left] in *.
    rewrite IH by (unfold betas_inner; rewrite !upd_length; lia).
    unfold betas_inner. rewrite !at_upd by (rewrite ?upd_length; lia).
    destruct (Nat.leb_spec (2 * k) x) as [Ha|Ha], (Nat.leb_spec (2 * S k) x) as [Hb|Hb],
      (Nat.ltb_spec x (2 * (S k + length temp))) as [Hc|Hc],
      (Nat.ltb_spec x (2 * (k + S (length temp)))) as [Hd|Hd]; cbn [andb]; try lia.
    + assert (Hk : S k <= Nat.div2 x).
      { rewrite Nat.div2_div. apply Nat.div_le_lower_bound; lia. }
      unfold dbl, at_. replace (Nat.div2 x - k)%nat with (S (Nat.div2 x - S k)) by lia. reflexivity.
    + destruct (Nat.eqb_spec x (2 * k + 1)), (Nat.eqb_spec x (2 * k)); auto; lia.
    + destruct (Nat.eqb_spec x (2 * k + 1)) as [->|E1].
      * unfold dbl. replace (2 * k + 1)%nat with (S (2 * k)) by lia. rewrite Nat.div2_succ_double, Nat.sub_diag.
        replace (Nat.odd (S (2 * k))) with true; [reflexivity|]. symmetry. apply Nat.odd_spec. exists k; lia.
      * destruct (Nat.eqb_spec x (2 * k)) as [->|E2]; [|lia].
        unfold dbl. rewrite Nat.div2_double, Nat.sub_diag. rewrite <- Nat.negb_even.
        replace (Nat.even (2 * k)) with true; [reflexivity|]. symmetry. apply Nat.even_spec. exists k; lia.
    + destruct (Nat.eqb_spec x (2 * k + 1)), (Nat.eqb_spec x (2 * k)); auto; lia.
Qed.

Lemma betas_step_length r betas i : length (betas_step r betas i) = length (betas : list K).
Proof.
  unfold betas_step. generalize (combine (seq 0 (length (firstn (2 ^ i) betas))) (firstn (2 ^ i) betas)).
  intros l. revert betas. induction l as [|[j a] l IH]; intros betas; simpl; auto.
  rewrite IH, !upd_length. reflexivity.
Qed.

Lemma compute_betas_spec r : compute_betas_eval r = eq_table r.
Proof.
  unfold compute_betas_eval.
  assert (G : forall i, i <= length r ->
    let b := fold_left (betas_step r) (seq 0 i) (upd 0 1 (repeat 0 (2 ^ length r))) in
    length b = 2 ^ length r /\
    forall x, x < 2 ^ i -> at_ b x = eqw x (skipn (length r - i) r)).
  { induction i as [|i IH]; intros Hi b.
    - subst b. simpl seq. cbn [fold_left]. rewrite upd_length, repeat_length. split; auto.
      intros x Hx. simpl in Hx. replace x with 0%nat by lia. rewrite Nat.sub_0_r, skipn_all.
      rewrite at_upd by (rewrite repeat_length; apply pow2_pos). reflexivity.
    - destruct (IH ltac:(lia)) as (Hl & Hn). subst b. rewrite seq_S, fold_left_app. cbn [fold_left Nat.add].
      set (b := fold_left (betas_step r) (seq 0 i) (upd 0 1 (repeat 0 (2 ^ length r)))) in *.
      rewrite betas_step_length. split; auto. intros x Hx. unfold betas_step.
      assert (Hle : 2 ^ S i <= length b) by (rewrite Hl; apply Nat.pow_le_mono_r; lia).
      rewrite Nat.pow_succ_r' in *.
      assert (Hf : length (firstn (2 ^ i) b) = 2 ^ i) by (rewrite firstn_length; lia).
      rewrite betas_inner_fold by (rewrite Hf; lia). rewrite Hf.
      destruct (Nat.leb_spec (2 * 0) x); [|lia]. destruct (Nat.ltb_spec x (2 * (0 + 2 ^ i))); [|lia].
      cbn [andb].
      assert (Hsk : skipn (length r - S i) r = nth (length r - S i) r 0 :: skipn (length r - i) r).
      { clear - Hi. revert i Hi. induction r as [|a r IH]; intros i Hi; simpl in Hi; [lia|].
        destruct (Nat.eq_dec i (length r)) as [->|Hne].
        - cbn [length]. replace (S (length r) - S (length r))%nat with 0%nat by lia.
          replace (S (length r) - length r)%nat with 1%nat by lia. reflexivity.
        - cbn [length]. replace (S (length r) - S i)%nat with (S (length r - S i)) by lia.
          replace (S (length r) - i)%nat with (S (length r - i)) by lia. cbn [skipn nth]. apply IH. lia. }
      rewrite Hsk. replace (length r - 1 - i)%nat with (length r - S i)%nat by lia.
      transitivity (dbl (nth (length r - S i) r 0) (fun x => 1 * eqw x (skipn (length r - i) r)) x).
      + assert (Hd : Nat.div2 x < 2 ^ i) by (rewrite Nat.div2_div; apply Nat.div_lt_upper_bound; lia).
        unfold dbl. rewrite Nat.sub_0_r. unfold at_. rewrite nth_firstn_lt by auto.
        fold (at_ b (Nat.div2 x)). rewrite Hn by auto. destruct (Nat.odd x); ring.
      + rewrite dbl_eqw. ring. }
  destruct (G (length r) (le_n _)) as (Hl & Hn). rewrite Nat.sub_diag in Hn. cbn [skipn] in Hn.
  apply table_eq; auto.
Qed.

(** Inner product with the table is evaluation. *)
Lemma eq_table_dot l r : fsum (map (fun '(a, b) => a * b) (combine l (eq_table r))) = mle (firstn (2 ^ length r) l) r.
Proof.
  unfold mle, mlef. rewrite fsum_nth. rewrite map_length, combine_length, eq_table_length.
  assert (G : forall n m (g : nat -> K), n <= m -> (forall i, n <= i < m -> g i = 0) -> sumn m g = sumn n g).
  { intros n m g Hnm H0. replace m with (n + (m - n))%nat by lia. rewrite sumn_split.
    rewrite (sumn_0 (m - n)); [ring|]. intros i Hi. apply H0. lia. }
  rewrite (G (Nat.min (length l) (2 ^ length r)) (2 ^ length r)); [|lia|].
  - apply sumn_ext. intros i Hi.
    rewrite nth_map_lt with (d := (0, 0)) by (rewrite combine_length, eq_table_length; lia).
    rewrite combine_nth_lt by (rewrite ?eq_table_length; lia).
    rewrite nth_firstn_lt by lia. rewrite eq_table_at by lia. reflexivity.
  - intros i Hi. rewrite nth_firstn_lt by lia. rewrite nth_overflow by lia. ring.
Qed.

(** Random linear combination: any split of the work gives the inner product. *)
Lemma rlc_fold_sum (cs : list (K * K)) : rlc_fold cs = fsum (map (fun '(c, r) => c * r) cs).
Proof.
  unfold rlc_fold. assert (G : forall acc, fold_left (fun acc '(c, r) => acc + c * r) cs acc
    = acc + fsum (map (fun '(c, r) => c * r) cs)).
  { induction cs as [|[c r] cs IH]; intros acc; simpl; [ring|]. rewrite IH. ring. }
  rewrite G. ring.
Qed.
Lemma fold_left_fadd (l : list K) acc : fold_left fadd l acc = acc + fsum l.
Proof. revert acc; induction l as [|x l IH]; intros acc; simpl; [ring|rewrite IH; ring]. Qed.
Lemma split_by_concat {A} sizes : forall (l : list A), concat (split_by sizes l) = l.
Proof.
  induction sizes as [|n t IH]; intros l; simpl.
  - apply app_nil_r.
  - rewrite IH. apply firstn_skipn.
Qed.
Lemma aggregated_rlc_spec splits (cl ch : list K) : length cl = length ch ->
  aggregated_rlc splits cl ch = Some (fsum (map (fun '(c, r) => c * r) (combine cl ch))).
Proof.
  intros H. unfold aggregated_rlc. rewrite H, Nat.eqb_refl. f_equal. rewrite fold_left_fadd.
  rewrite <- (split_by_concat splits (combine cl ch)) at 2.
  generalize (split_by splits (combine cl ch)). intros ls.
  assert (G : fsum (map rlc_fold ls) = fsum (map (fun '(c, r) => c * r) (concat ls))).
  { induction ls as [|x ls IH]; simpl; auto. rewrite map_app, fsum_app, IH, rlc_fold_sum. reflexivity. }
  rewrite G. ring.
Qed.
End P.

(** Properties in API terms, used by [Props_Mle]. *)
Section Api.
Context {K : field}.
Add Field Kf_pe2 : (fth K).
Local Open Scope F_scope.

Definition built (m : dmle K) (n : nat) (l : list K) : Prop :=
  from_evaluations_vec n l = Some m \/ from_evaluations_ext_vec n l = Some m.

Lemma built_is_table m n l : built m n l -> is_table m n l.
Proof.
  unfold built, from_evaluations_vec, from_evaluations_ext_vec, is_table.
  destruct (Nat.eqb_spec (length l) (2 ^ n)) as [E|E]; intros [H|H]; try discriminate;
    injection H as <-; simpl; auto.
Qed.

Lemma built_iff n l : (exists m, built m n l) <-> length l = 2 ^ n.
Proof.
  unfold built, from_evaluations_vec, from_evaluations_ext_vec. split.
  - intros [m [H|H]]; destruct (Nat.eqb_spec (length l) (2 ^ n)); auto; discriminate.
  - intros H. rewrite H, Nat.eqb_refl. eauto.
Qed.

Definition seq_sched (n i : nat) : list nat := seq 0 (2 ^ (n - i) / 2).
Lemma seq_sched_valid n : valid_sched n (seq_sched n).
Proof. intros i Hi. apply Permutation_refl. Qed.
Definition rev_sched (n i : nat) : list nat := rev (seq 0 (2 ^ (n - i) / 2)).
Lemma rev_sched_valid n : valid_sched n (rev_sched n).
Proof. intros i Hi. apply Permutation_sym, Permutation_rev. Qed.

Lemma evaluate_bool sched m n l b : built m n l -> valid_sched n sched -> b < 2 ^ n ->
  evaluate sched m (bpt n b) = Some (nth b l 0).
Proof.
  intros Hm Hv Hb. rewrite (evaluate_spec sched m n l) by (auto using built_is_table, bpt_length).
  f_equal. unfold mle. rewrite mlef_bool by auto. reflexivity.
Qed.

Lemma evaluate_unique sched m n l (f : list K -> K) : built m n l -> valid_sched n sched ->
  multi_affine n f -> (forall b, b < 2 ^ n -> f (bpt n b) = nth b l 0) ->
  forall pt, length pt = n -> evaluate sched m pt = Some (f pt).
Proof.
  intros Hm Hv Hf Hb pt Hpt. rewrite (evaluate_spec sched m n l) by (auto using built_is_table).
  f_equal. rewrite (multi_affine_unique n f Hf pt Hpt). unfold mle. apply mlef_ext. intros i Hi.
  rewrite Hb; auto. rewrite Hpt in Hi. auto.
Qed.

Lemma ext_is_table n (l : list K) : length l = 2 ^ n -> is_table (mkMle (Ext l) n) n l.
Proof. intros H. repeat split; auto. Qed.

Lemma fix_low_compose s1 s2 m n l pp rest m' : built m n l -> length (pp ++ rest) = n ->
  valid_sched n s1 -> valid_sched (length rest) s2 ->
  fix_variables m pp = Some m' -> evaluate s2 m' rest = evaluate s1 m (pp ++ rest).
Proof.
  intros Hb Hn H1 H2 E. apply built_is_table in Hb. assert (Hl := proj2 (proj2 Hb)).
  assert (Hpp : length pp <= n) by (rewrite app_length in Hn; lia).
  rewrite (evaluate_spec s1 m n l) by auto. destruct pp as [|p pp].
  - rewrite (fix_variables_nil m n l Hb) in E. injection E as <-. simpl in *.
    apply (evaluate_spec s2 m n l); auto. rewrite <- Hn. auto.
  - rewrite (fix_variables_spec m n l) in E by (auto; discriminate). injection E as <-.
    rewrite (evaluate_spec s2 _ (length rest) (low_table n l (p :: pp))); auto.
    + rewrite (low_then_eval n l (p :: pp) rest Hl Hn). reflexivity.
    + rewrite app_length in Hn. replace (length rest) with (n - length (p :: pp))%nat by lia.
      apply ext_is_table. apply low_table_length.
Qed.

Lemma fix_high_compose s1 s2 m n l pp rest m' : built m n l -> length (rest ++ pp) = n ->
  valid_sched n s1 -> valid_sched (length rest) s2 ->
  fix_high_variables m pp = Some m' -> evaluate s2 m' rest = evaluate s1 m (rest ++ pp).
Proof.
  intros Hb Hn H1 H2 E. apply built_is_table in Hb. assert (Hl := proj2 (proj2 Hb)).
  assert (Hpp : length pp <= n) by (rewrite app_length in Hn; lia).
  rewrite (evaluate_spec s1 m n l) by auto. destruct pp as [|p pp].
  - unfold fix_high_variables in E. cbn [length rev Nat.leb obind] in E. rewrite Nat.sub_0_r, Nat.eqb_refl in E.
    injection E as <-. rewrite app_nil_r in *. apply (evaluate_spec s2 m n l); auto. rewrite <- Hn. auto.
  - rewrite (fix_high_variables_spec m n l) in E by (auto; discriminate). injection E as <-.
    rewrite (evaluate_spec s2 _ (length rest) (high_table n l (p :: pp))); auto.
    + rewrite (high_then_eval n l (p :: pp) rest Hl Hn). reflexivity.
    + rewrite app_length in Hn. replace (length rest) with (n - length (p :: pp))%nat by lia.
      apply ext_is_table. apply high_table_length.
Qed.

Lemma fix_low_total m n l pp : built m n l -> length pp <= n -> exists m', fix_variables m pp = Some m'.
Proof.
  intros Hb Hp. apply built_is_table in Hb. destruct pp as [|p pp].
  - rewrite (fix_variables_nil m n l Hb). eauto.
  - rewrite (fix_variables_spec m n l) by (auto; discriminate). eauto.
Qed.
Lemma fix_high_total m n l pp : built m n l -> length pp <= n -> exists m', fix_high_variables m pp = Some m'.
Proof.
  intros Hb Hp. apply built_is_table in Hb. destruct pp as [|p pp].
  - unfold fix_high_variables. cbn [length rev Nat.leb obind]. rewrite Nat.sub_0_r, Nat.eqb_refl. eauto.
  - rewrite (fix_high_variables_spec m n l) by (auto; discriminate). eauto.
Qed.

(** The in-place schedule: an [Ext] vector keeps its full length in every round, a [Base] vector
    is halved by the first round. *)
Definition valid_ip_sched (m : dmle K) (sched : nat -> list nat) : Prop :=
  match evaluations m with
  | Base l => forall k, valid_order (length l / 2) (sched k)
  | Ext l => forall k, valid_order (length l) (sched k)
  | Unreachable => True
  end.

Lemma variants_agree m n l p pp s1 s2 : built m n l -> length (p :: pp) <= n ->
  valid_sched n s1 -> valid_ip_sched m s2 ->
  fix_variables_in_place m (p :: pp) = fix_variables m (p :: pp) /\
  fix_variables_parallel s1 m (p :: pp) = fix_variables m (p :: pp) /\
  fix_variables_in_place_parallel s2 m (p :: pp) = fix_variables m (p :: pp) /\
  fix_high_variables_in_place m (p :: pp) = fix_high_variables m (p :: pp).
Proof.
  intros Hb Hp H1 H2. apply built_is_table in Hb.
  rewrite (fix_variables_spec m n l), (fix_variables_parallel_spec s1 m n l),
    (fix_high_variables_spec m n l) by (auto; discriminate).
  destruct m as [e nv]. destruct Hb as (Hn & He & Hl). simpl in Hn, He. subst nv.
  unfold valid_ip_sched in H2. cbn [evaluations] in H2.
  destruct He as [-> | ->].
  - rewrite fvip_base, fvipp_base by auto. repeat split; auto.
    destruct (exists_last (l := p :: pp) ltac:(discriminate)) as (pp' & p' & E). rewrite E in *.
    apply fhvip_base; auto.
  - rewrite fvip_ext, fvipp_ext, fhvip_ext by auto. repeat split; auto.
Qed.

(** *** Ranged views *)

Lemma ceil_log2_pow2 n : ceil_log2 (2 ^ n) = Some n.
Proof.
  unfold ceil_log2. pose proof (pow2_pos n). destruct (2 ^ n)%nat eqn:E; [lia|].
  rewrite <- E, Nat.log2_up_pow2 by lia. reflexivity.
Qed.

Lemma slice_aligned (l : list K) start off : start + off <= length l ->
  slice l start off = Some (firstn off (skipn start l)).
Proof.
  intros H. unfold slice. destruct (Nat.leb_spec start (length l)); [|lia].
  destruct (Nat.leb_spec off (length l - start)); [reflexivity|lia].
Qed.

Lemma ranged_fix_low m n l k idx r pp : built m n l -> k <= n -> idx < 2 ^ k ->
  get_ranged_mle m (2 ^ k) idx = Some r -> pp <> [] -> length pp <= n - k ->
  let sl := firstn (2 ^ (n - k)) (skipn (2 ^ (n - k) * idx) l) in
  rnum_vars r = (n - k)%nat /\
  ranged_fix_variables r pp = Some (mkMle (Ext (low_table (n - k) sl pp)) (n - k - length pp)) /\
  ranged_fix_high_variables r pp = Some (mkMle (Ext (high_table (n - k) sl pp)) (n - k - length pp)).
Proof.
  intros Hb Hk Hidx E Hne Hpp sl. apply built_is_table in Hb.
  pose proof (is_table_slice _ _ _ Hb) as Hs. destruct Hb as (Hn & He & Hl).
  assert (Hlen : ft_len (evaluations m) = 2 ^ n) by (destruct He as [-> | ->]; auto).
  unfold get_ranged_mle in E. rewrite Hlen in E.
  destruct (Nat.ltb_spec 0 (2 ^ k)); [|pose proof (pow2_pos k); lia].
  assert (Hoff : (2 ^ n / 2 ^ k = 2 ^ (n - k))%nat).
  { rewrite (pow2_split n k) by auto. rewrite Nat.mul_comm. apply Nat.div_mul. apply Nat.pow_nonzero. lia. }
  rewrite Hoff in E. unfold ranged_new in E. rewrite Hlen in E.
  destruct (Nat.leb_spec (2 ^ (n - k)) (2 ^ n)) as [Hle|]; [|discriminate].
  rewrite ceil_log2_pow2 in E. cbn [obind] in E. injection E as <-.
  cbn [rnum_vars rinner rstart roffset]. split; [reflexivity|].
  assert (Hin : (2 ^ (n - k) * idx + 2 ^ (n - k) <= length l)%nat).
  { rewrite Hl, (pow2_split n k) by auto. rewrite (Nat.mul_comm (2 ^ k)).
    transitivity (2 ^ (n - k) * S idx)%nat; [lia|]. apply Nat.mul_le_mono_l. auto. }
  assert (Hsl : length sl = 2 ^ (n - k)).
  { unfold sl. rewrite firstn_length, skipn_length. lia. }
  unfold ranged_fix_variables, ranged_fix_high_variables. cbn [rnum_vars rinner rstart roffset].
  rewrite Hs. cbn [obind].
  destruct (Nat.leb_spec (length pp) (n - k)) as [Hle2|Hle2]; [|lia].
  split.
  - destruct pp as [|p pp]; [contradiction|]. rewrite slice_aligned by auto. fold sl. cbn [obind].
    cbn [length] in *. destruct (n - k)%nat as [|d] eqn:Ed; [lia|].
    rewrite (chunk_fix_table d) by auto. cbn [obind]. replace (S d - 1)%nat with d by lia.
    rewrite mkExt_ok by (rewrite low_table_length; cbn [length]; f_equal; lia). cbn [obind].
    rewrite fvip_ext; [|rewrite low_table_length; cbn [length]; f_equal; lia|lia].
    rewrite (low_table_app (S d) sl p pp) by (cbn [length]; auto; lia).
    replace (S d - 1)%nat with d by lia. reflexivity.
  - destruct (exists_last Hne) as (pp' & p & ->). rewrite rev_app_distr. cbn [rev app].
    rewrite slice_aligned by auto. fold sl. cbn [obind].
    rewrite app_length in *. cbn [length] in *. destruct (n - k)%nat as [|d] eqn:Ed; [lia|].
    rewrite half_pow. rewrite (zip_fix_table d) by auto. replace (S d - 1)%nat with d by lia.
    rewrite mkExt_ok by (rewrite high_table_length; cbn [length]; f_equal; lia). cbn [obind].
    replace (length pp' + 1 - 1)%nat with (length pp') by lia.
    rewrite firstn_app, Nat.sub_diag, firstn_all. cbn [firstn]. rewrite app_nil_r.
    rewrite fhvip_ext; [|rewrite high_table_length; cbn [length]; f_equal; lia|lia].
    rewrite (high_table_snoc (S d) sl p pp') by (auto; rewrite app_length; cbn [length]; lia).
    replace (S d - 1)%nat with d by lia. replace (S d - (length pp' + 1))%nat with (d - length pp')%nat by lia. reflexivity.
Qed.

(** Fixing all variables of a view leaves one value, the extension of the range. *)
Lemma ranged_full m n l k idx r pp : built m n l -> k < n -> idx < 2 ^ k ->
  get_ranged_mle m (2 ^ k) idx = Some r -> length pp = (n - k)%nat ->
  let sl := firstn (2 ^ (n - k)) (skipn (2 ^ (n - k) * idx) l) in
  ranged_fix_variables r pp = Some (mkMle (Ext [mle sl pp]) 0) /\
  ranged_fix_high_variables r pp = Some (mkMle (Ext [mle sl pp]) 0).
Proof.
  intros Hb Hk Hidx E Hpp sl.
  assert (Hne : pp <> []) by (intros ->; simpl in Hpp; lia).
  destruct (ranged_fix_low m n l k idx r pp Hb ltac:(lia) Hidx E Hne ltac:(lia)) as (_ & E1 & E2).
  fold sl in E1, E2. rewrite E1, E2. rewrite <- Hpp. unfold low_table, high_table. rewrite Nat.sub_diag.
  cbn [Nat.pow seq map]. rewrite plow_all. unfold phigh. rewrite Nat.sub_diag. cbn [Nat.pow].
  split; auto. do 4 f_equal. apply mlef_ext. intros j Hj. unfold at_. f_equal. lia.
Qed.

Lemma ranged_evaluate_inner sched m n l k idx r pt : built m n l ->
  get_ranged_mle m (2 ^ k) idx = Some r -> ranged_evaluate sched r pt = evaluate sched m pt.
Proof.
  intros _ E. unfold get_ranged_mle in E. destruct (Nat.ltb 0 (2 ^ k)); [|discriminate].
  unfold ranged_new in E. destruct (Nat.leb _ _); [|discriminate].
  destruct (ceil_log2 _); [|discriminate]. injection E as <-. reflexivity.
Qed.

Lemma evaluate_formula sched m n l pt :
  built m n l -> length pt = n -> valid_sched n sched ->
  evaluate sched m pt = Some (sumn (2 ^ n) (fun b => nth b l 0 *
     prodn n (fun i => if Nat.testbit b i then nth i pt 0 else 1 - nth i pt 0))).
Proof.
  intros Hb Hl Hv. rewrite (evaluate_spec sched m n l) by auto using built_is_table.
  unfold mle, mlef, eqw. rewrite Hl. reflexivity.
Qed.
Lemma fix_low_api s1 s2 m n l pp rest :
  built m n l -> length (pp ++ rest) = n -> valid_sched n s1 -> valid_sched (length rest) s2 ->
  exists m', fix_variables m pp = Some m' /\ evaluate s2 m' rest = evaluate s1 m (pp ++ rest).
Proof.
  intros Hb Hn H1 H2. destruct (fix_low_total m n l pp Hb) as [m' E].
  { rewrite app_length in Hn. lia. }
  exists m'. split; auto. apply (fix_low_compose s1 s2 m n l pp rest m'); auto.
Qed.
Lemma fix_high_api s1 s2 m n l pp rest :
  built m n l -> length (rest ++ pp) = n -> valid_sched n s1 -> valid_sched (length rest) s2 ->
  exists m', fix_high_variables m pp = Some m' /\ evaluate s2 m' rest = evaluate s1 m (rest ++ pp).
Proof.
  intros Hb Hn H1 H2. destruct (fix_high_total m n l pp Hb) as [m' E].
  { rewrite app_length in Hn. lia. }
  exists m'. split; auto. apply (fix_high_compose s1 s2 m n l pp rest m'); auto.
Qed.
Lemma eq_table_api (r : list K) :
  exists t, build_eq_seq r = Some t /\ length t = 2 ^ length r /\
    forall b, b < 2 ^ length r -> eq_eval (bpt (length r) b) r = Some (nth b t 0).
Proof.
  exists (eq_table r). split; [apply build_eq_seq_spec|]. split; [apply eq_table_length|].
  intros b Hb. rewrite eq_eval_eqp by apply bpt_length. rewrite eqp_bpt by auto.
  rewrite eq_table_at by auto. reflexivity.
Qed.
Lemma builders_api nbits (r : list K) :
  build_eq_par nbits r = build_eq_seq r /\ build_eq_seq r = Some (compute_betas_eval r).
Proof. rewrite build_eq_par_spec, build_eq_seq_spec, compute_betas_spec. auto. Qed.
Lemma inner_product_api (l r : list K) : length l = 2 ^ length r ->
  fsum (map (fun '(a, b) => a * b) (combine l (compute_betas_eval r))) = mle l r.
Proof. intros H. rewrite compute_betas_spec, eq_table_dot, <- H, firstn_all. reflexivity. Qed.
Lemma eq_eval_sym_api (x y : list K) : length x = length y -> eq_eval x y = eq_eval y x.
Proof. intros H. rewrite !eq_eval_eqp by auto. rewrite eqp_sym. reflexivity. Qed.
Lemma eq_eval_bool_api n i j : i < 2 ^ n -> j < 2 ^ n ->
  @eq_eval K (bpt n i) (bpt n j) = Some (if Nat.eqb i j then 1 else 0).
Proof.
  intros Hi Hj. rewrite eq_eval_eqp by (rewrite !bpt_length; auto). rewrite eqp_bool by auto. reflexivity.
Qed.
Lemma identity_eval_api (x y : list K) : length x = length y -> eq_eval x y = Some (identity_eval x y).
Proof. intros H. rewrite eq_eval_eqp, identity_eval_eqp by auto. reflexivity. Qed.
End Api.
