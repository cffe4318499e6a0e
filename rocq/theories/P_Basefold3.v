(** Basefold: completeness of commit, open and verify for one extension-field polynomial. *)
From Coq Require Import List Arith Lia Bool ZArith Field.
From Verif Require Import ListAux FieldDef MleMath M_Mle M_Tensor M_Sumcheck M_Fft M_Merkle M_Code M_Basefold P_Mle P_Eq P_Tensor P_Graph4 P_Hash P_Layers2 P_Merkle2 P_Basefold P_Fft P_Code P_Code2 P_Code3 P_Code4 P_Code5 P_Basefold2.
Import ListNotations.

Lemma lor_1 x : Nat.lor x 1 = 2 * (x / 2) + 1.
Proof.
  apply Nat.bits_inj. intros i. rewrite Nat.lor_spec. destruct i as [|i].
  - rewrite !Nat.bit0_odd. change (Nat.odd 1) with true. rewrite orb_true_r. symmetry. rewrite Nat.odd_add_mul_2 || rewrite Nat.add_comm, Nat.odd_add_mul_2. reflexivity.
  - rewrite Nat.testbit_odd_succ by lia. rewrite Nat.div2_bits.
    change 1 with (2 * 0 + 1) at 1. rewrite Nat.testbit_odd_succ by lia. rewrite Nat.bits_0. apply orb_false_r.
Qed.

Lemma shiftr_1 x : Nat.shiftr x 1 = x / 2.
Proof. rewrite Nat.shiftr_div_pow2. reflexivity. Qed.
Lemma shiftr_pow x j : (Nat.shiftr x 1 / 2 ^ j = x / 2 ^ S j).
Proof. rewrite shiftr_1, Nat.div_div by (try apply Nat.pow_nonzero; lia). reflexivity. Qed.
Section Complete.
Context {K : field} {B D : Type} (as_bases : K -> list B) (emb : B -> K) (hash_bases : list B -> D)
  (hash_two_digests : D -> D -> D) (deqb : D -> D -> bool) (dig : D -> list (@ev K)) (T : @hist K -> K) (to_usize : K -> nat)
  (nbits : nat) (scm : @scheme K) (wd : nat -> list K -> list K).
Hypothesis deqb_ok : forall x y : D, deqb x y = true <-> x = y.
Hypothesis code : code_ok scm wd.
Local Open Scope F_scope.
Add Field Kf_b3 : (fth K).
Notation rate := (sc_rate scm). Notation msg := (sc_msg scm). Notation mx := (sc_max scm).
Notation leaves l := (from_batch_leaves as_bases emb hash_bases hash_two_digests [CExt l]).
Notation commit_rounds := (commit_rounds as_bases emb hash_bases hash_two_digests dig T scm).

(** The oracle of a table with [n] variables. *)
Definition orc (n : nat) (f : list K) : list K := wd n (hcI n f).
Lemma orc_length n f : (msg <= n <= mx)%nat -> length f = (2 ^ n)%nat -> length (orc n f) = (2 ^ (n + rate))%nat.
Proof. intros Hn Hf. apply (co_len _ _ code); auto. now apply hcI_length. Qed.
Lemma orc_fold n f c : (msg <= n < mx)%nat -> length f = (2 ^ S n)%nat -> one_round (sc_pcoef scm) (n + rate) (orc (S n) f) c = Some (orc n (linh n f c)).
Proof.
  intros Hn Hf. destruct (split_half f n Hf) as (a & b & -> & La & Lb). unfold orc. rewrite hcI_app by assumption.
  rewrite (co_fold _ _ code) by (unfold zsub; rewrite ?zipw_length; rewrite ?hcI_length; auto). rewrite linh_app by assumption. now rewrite hcI_lin.
Qed.
Lemma tree_ok l k : length l = (2 ^ S k)%nat -> exists t r, leaves l = Some t /\ mt_root t = Some r /\ mt_leaves t = [CExt l] /\
  forall x, (x < 2 ^ S k)%nat -> exists q, get_pair emb t x = Some q /\ q_pts q = PExt (nth (Nat.lor x 1 - 1) l 0) (nth (Nat.lor x 1) l 0) /\
     q_index q = (Nat.lor x 1 - 1)%nat /\ check_merkle_path as_bases hash_bases hash_two_digests deqb q r = Some tt.
Proof.
  intros Hl. assert (Hl1 : forall v : @col B K, In v (CExt l :: []) -> col_len v = (2 ^ S k)%nat) by (intros v [<- | []]; exact Hl).
  pose proof (Nat.pow_nonzero 2 (S k) ltac:(lia)) as Hp.
  destruct (path_complete_ext as_bases emb hash_bases hash_two_digests deqb deqb_ok 0 l [] k 0 Hl1 ltac:(lia)) as (t & _ & r & _ & _ & Et & _ & Er & _).
  exists t, r. split; [exact Et|]. split; [exact Er|].
  assert (El : mt_leaves t = [CExt l]) by (unfold from_batch_leaves in Et; destruct (merkelize _ _ _ _ _); [|discriminate Et]; cbn [obind] in Et; injection Et as <-; reflexivity).
  split; [exact El|]. intros x Hx.
  rewrite lor_1. replace (2 * (x / 2) + 1 - 1)%nat with (2 * (x / 2))%nat by lia.
  assert (Hx2 : (2 * (x / 2) < 2 ^ S k)%nat) by (pose proof (Nat.mul_div_le x 2 ltac:(lia)); lia).
  destruct (path_complete_ext as_bases emb hash_bases hash_two_digests deqb deqb_ok 0 l [] k (2 * (x / 2)) Hl1 Hx2) as (t' & path & r' & lft & rgt & Et' & Ep & Er' & _ & El1 & El2 & E1 & E2 & _ & Ea).
  rewrite Et in Et'. injection Et' as <-. rewrite Er in Er'. injection Er' as <-.
  assert (Ex : (2 * (x / 2) / 2 = x / 2)%nat) by (rewrite Nat.mul_comm; apply Nat.div_mul; lia). rewrite Ex in *.
  unfold get_pair. rewrite lor_1. replace (2 * (x / 2) + 1 - 1)%nat with (2 * (x / 2))%nat by lia. rewrite El1, El2. cbn [obind]. rewrite E1, E2. cbn [map nth_error obind ext_at].
  rewrite Ep. cbn [obind]. eexists. split; [reflexivity|]. split; [reflexivity|]. split; [reflexivity|]. apply Ea. reflexivity.
Qed.

(** The honest commit phase: tables [F i], equality tables [G i], with [F 0 = f], [F (S i)] = [F i] with its last variable
    fixed to the [i]-th challenge. *)
Record phase (n k : nat) (f g : list K) (trees : list (@mtree B K D)) (msgs : list (list K)) (roots : list D) (final cs : list K) (F G : nat -> list K) : Prop := {
  ph_msgs : length msgs = k; ph_cs : length cs = k; ph_roots : length roots = (k - 1)%nat; ph_trees : length trees = (k - 1)%nat;
  ph_F0 : F 0%nat = f; ph_G0 : G 0%nat = g;
  ph_len : forall i, (i <= k)%nat -> length (F i) = (2 ^ (n - i))%nat /\ length (G i) = (2 ^ (n - i))%nat;
  ph_step : forall i, (i < k)%nat -> F (S i) = linh (n - S i) (F i) (nth i cs 0) /\ G (S i) = linh (n - S i) (G i) (nth i cs 0) /\
     nth_error msgs i = Some (bmsgh (n - S i) (F i) (G i));
  ph_final : final = F k;
  ph_tree : forall j, (j < k - 1)%nat -> exists t r, nth_error trees j = Some t /\ leaves (orc (n - S j) (F (S j))) = Some t /\ mt_root t = Some r /\ nth_error roots j = Some r }.
Lemma vr_S nr i k msgs roots h : verifier_rounds dig T nr i (S k) msgs roots h =
  (m <- nth_error msgs i ;;
   let '(c, h1) := get_challenge T lbl_commit (absorb h m) in
   h2 <- (if (i <? nr - 1)%nat then r <- nth_error roots i ;; Some (rev (dig r) ++ h1)%list else Some h1) ;;
   rest <- verifier_rounds dig T nr (S i) k msgs roots h2 ;; Some (c :: fst rest, snd rest)).
Proof. reflexivity. Qed.
Lemma commit_rounds_ok k : forall n f g ef eg h, (0 < k)%nat -> n = (msg + k)%nat -> (n <= mx)%nat ->
  length f = (2 ^ n)%nat -> length g = (2 ^ n)%nat ->
  one_level_interp_hc (br n f) = Some ef -> one_level_interp_hc (br n g) = Some eg ->
  exists trees msgs roots final cs h' F G,
    commit_rounds k (orc n f) ef eg (bmsgh (n - 1) f g) h = Some (trees, msgs, roots, final, absorb h' final) /\
    phase n k f g trees msgs roots final cs F G /\
    forall i pre prer nr, (i + k = nr)%nat -> length pre = i -> length prer = i -> verifier_rounds dig T nr i k (pre ++ msgs) (prer ++ roots) h = Some (cs, h').
Proof.
  induction k as [|k IH]; intros n f g ef eg h Hk Hn Hmx Lf Lg Ef Eg; [lia|].
  destruct n as [|m]; [lia|]. replace (S m - 1)%nat with m by lia. cbn [M_Basefold.commit_rounds].
  destruct (get_challenge T lbl_commit (absorb h (bmsgh m f g))) as [c h1] eqn:Ec.
  rewrite orc_length by (auto; lia). rewrite log2_strict_pow. cbn [obind]. rewrite csub_ok by lia. cbn [obind].
  replace (S m + rate - 1)%nat with (m + rate)%nat by lia. rewrite orc_fold by (auto; lia). cbn [obind].
  destruct (split_half f m Lf) as (a & b & -> & La & Lb). destruct (split_half g m Lg) as (p & q & -> & Lp & Lq).
  rewrite interp_br in Ef, Eg by assumption. injection Ef as <-. injection Eg as <-. rewrite !eval_interp by assumption. cbn [obind].
  rewrite linh_app by assumption. set (f' := lin a b c). set (g' := lin p q c).
  assert (Lf' : length f' = (2 ^ m)%nat) by (unfold f'; rewrite lin_length; congruence). assert (Lg' : length g' = (2 ^ m)%nat) by (unfold g'; rewrite lin_length; congruence).
  destruct k as [|k'].
  - rewrite (reverse_ok (br m f') m) by now apply br_length. rewrite br_invol by assumption. cbn [obind].
    exists [], [bmsgh m (a ++ b) (p ++ q)], [], f', [c], h1, (fun i => match i with O => a ++ b | _ => f' end), (fun i => match i with O => p ++ q | _ => g' end).
    split; [reflexivity|]. split.
    + constructor; try reflexivity.
      * intros i Hi. destruct i as [|[|i]]; [rewrite Nat.sub_0_r; auto|replace (S m - 1)%nat with m by lia; auto|lia].
      * intros i Hi. assert (i = 0)%nat by lia. subst i. cbn [nth nth_error]. replace (S m - 1)%nat with m by lia. rewrite !linh_app by assumption. auto.
      * intros j Hj. lia.
    + intros i pre prer nr Hi Lpre Lprer. cbn [verifier_rounds]. rewrite nth_error_app2, Lpre, Nat.sub_diag by lia. cbn [nth_error obind]. rewrite Ec.
      replace (i <? nr - 1)%nat with false by (symmetry; apply Nat.ltb_ge; lia). reflexivity.
  - assert (Hm : m = S (m - 1)) by lia.
    destruct (split_half f' (m - 1) ltac:(now rewrite <- Hm)) as (a1 & b1 & Ef1 & La1 & Lb1). destruct (split_half g' (m - 1) ltac:(now rewrite <- Hm)) as (p1 & q1 & Eg1 & Lp1 & Lq1).
    assert (If : one_level_interp_hc (br m f') = Some (inter (br (m - 1) a1) (zsub (br (m - 1) b1) (br (m - 1) a1)))) by (rewrite Hm at 1; rewrite Ef1; now apply interp_br).
    assert (Ig : one_level_interp_hc (br m g') = Some (inter (br (m - 1) p1) (zsub (br (m - 1) q1) (br (m - 1) p1)))) by (rewrite Hm at 1; rewrite Eg1; now apply interp_br).
    rewrite If, Ig. cbn [obind]. rewrite parallel_pi_ok by assumption. cbn [obind].
    destruct (tree_ok (orc m f') (m + rate - 1)) as (t & r & Et & Er & _); [rewrite orc_length by (auto; lia); f_equal; lia|]. rewrite Et. cbn [obind]. rewrite Er. cbn [obind].
    assert (Em : bmsg a1 b1 p1 q1 = bmsgh (m - 1) f' g') by (rewrite Ef1, Eg1; symmetry; now apply bmsgh_app). rewrite Em.
    destruct (IH m f' g' _ _ (rev (dig r) ++ h1)%list ltac:(lia) ltac:(lia) ltac:(lia) Lf' Lg' If Ig) as (trees & msgs & roots & final & cs & h' & F & G & E & P & V).
    rewrite E. cbn [obind].
    exists (t :: trees), (bmsgh m (a ++ b) (p ++ q) :: msgs), (r :: roots), final, (c :: cs), h',
      (fun i => match i with O => a ++ b | S j => F j end), (fun i => match i with O => p ++ q | S j => G j end).
    split; [reflexivity|]. destruct P as [P1 P2 P3 P4 P5 P6 P7 P8 P9 P10]. split.
    + constructor; try reflexivity.
      * cbn; lia. * cbn; lia. * cbn [length]; lia. * cbn [length]; lia.
      * intros [|i] Hi; [rewrite Nat.sub_0_r; auto|]. replace (S m - S i)%nat with (m - i)%nat by lia. apply P7. lia.
      * intros [|i] Hi; cbn [nth nth_error].
        -- rewrite P5, P6. replace (S m - 1)%nat with m by lia. rewrite !linh_app by assumption. auto.
        -- replace (S m - S (S i))%nat with (m - S i)%nat by lia. apply P8. lia.
      * exact P9.
      * intros [|j] Hj.
        -- exists t, r. cbn [nth_error]. rewrite P5. replace (S m - 1)%nat with m by lia. auto.
        -- cbn [nth_error]. replace (S m - S (S j))%nat with (m - S j)%nat by lia. apply P10. lia.
    + intros i pre prer nr Hi Lpre Lprer. rewrite vr_S. rewrite nth_error_app2, Lpre, Nat.sub_diag by lia. cbn [nth_error obind]. rewrite Ec.
      replace (i <? nr - 1)%nat with true by (symmetry; apply Nat.ltb_lt; lia). rewrite nth_error_app2, Lprer, Nat.sub_diag by lia. cbn [nth_error obind].
      specialize (V (S i) (pre ++ [bmsgh m (a ++ b) (p ++ q)]) (prer ++ [r]) nr ltac:(lia)). rewrite !app_length, Lpre, Lprer in V. cbn [length] in V. specialize (V ltac:(lia) ltac:(lia)).
      rewrite <- !app_assoc in V. cbn [app] in V. rewrite V. reflexivity.
Qed.

(** ** Queries *)
Lemma one_round_entry (coef : nat -> nat -> option (K * K * K)) L v c v' : length v = (2 ^ S L)%nat -> one_round coef L v c = Some v' ->
  length v' = (2 ^ L)%nat /\ forall y, (y < 2 ^ L)%nat -> exists x0 x1 wt, coef L y = Some (x0, x1, wt) /\
    interpolate2_weights x0 (nth (2 * y) v 0) x1 (nth (2 * y + 1) v 0) wt c = nth y v' 0.
Proof.
  intros Lv E. destruct (split_inter v L Lv) as (a & b & -> & La & Lb). unfold one_round in E. rewrite pairs2_inter in E by congruence.
  assert (Lc : length (combine a b) = (2 ^ L)%nat) by (rewrite combine_length; lia).
  destruct (omapM_nth_some _ _ _ (0%nat, (0, 0)) 0 E) as [L1 E1]. rewrite combine_length, seq_length, Lc, Nat.min_id in L1, E1. split; [exact L1|]. intros y Hy.
  specialize (E1 y Hy). rewrite combine_nth in E1 by (rewrite seq_length, ?combine_length; reflexivity || lia). rewrite combine_nth in E1 by congruence. rewrite seq_nth in E1 by assumption.
  unfold fold_pair in E1. cbn [fst snd Nat.add] in E1. destruct (coef L y) as [[[x0 x1] wt]|]; [|discriminate E1]. cbn [obind] in E1. injection E1 as E1.
  exists x0, x1, wt. split; [reflexivity|]. destruct (nth_inter a b 0 y ltac:(congruence)) as [-> ->]. exact E1.
Qed.
Lemma get_oracles_ok (Q : nat -> qres -> Prop) trees : forall idx,
  (forall j t, nth_error trees j = Some t -> exists q, get_pair emb t (idx / 2 ^ j) = Some q /\ Q j q) ->
  exists qs, @get_oracles K B D emb trees idx = Some qs /\ length qs = length trees /\ forall j, (j < length trees)%nat -> exists q, nth_error qs j = Some q /\ Q j q.
Proof.
  revert Q. induction trees as [|t trees IH]; intros Q idx H; [exists []; split; [reflexivity|]; split; [reflexivity|]; intros j Hj; cbn in Hj; lia|].
  destruct (H 0%nat t eq_refl) as (q & Eq & HQ). cbn [Nat.pow] in Eq. rewrite Nat.div_1_r in Eq. cbn [get_oracles]. rewrite Eq. cbn [obind].
  destruct (IH (fun j => Q (S j)) (Nat.shiftr idx 1)) as (qs & E & L & HQs).
  - intros j t' Hj. destruct (H (S j) t' Hj) as (q' & Eq' & HQ'). exists q'. split; [|exact HQ']. rewrite <- Eq'. f_equal. apply shiftr_pow.
  - rewrite E. cbn [obind]. exists (q :: qs). split; [reflexivity|]. split; [cbn; lia|]. intros [|j] Hj; [exists q; auto|]. cbn [nth_error]. apply HQs. cbn in Hj. lia.
Qed.
Lemma check_paths_ok (qs : list (@qres K B D)) roots : length qs = length roots ->
  (forall j q r, nth_error qs j = Some q -> nth_error roots j = Some r -> check_merkle_path as_bases hash_bases hash_two_digests deqb q r = Some tt) ->
  exists l, check_merkle_paths as_bases hash_bases hash_two_digests deqb qs roots = Some l.
Proof.
  unfold check_merkle_paths. revert roots. induction qs as [|q qs IH]; intros [|r roots] L H; try discriminate L; [exists []; reflexivity|].
  cbn [combine omapM fst snd]. rewrite (H 0%nat q r) by reflexivity. cbn [obind]. destruct (IH roots ltac:(cbn in L; lia)) as (l & E); [intros j q' r' H1 H2; apply (H (S j)); assumption|]. rewrite E. cbn [obind]. eauto.
Qed.
Lemma div2_lor y : Nat.shiftr (2 * (y / 2) + 1) 1 = (y / 2)%nat /\ Nat.shiftr (2 * (y / 2)) 1 = (y / 2)%nat.
Proof.
  rewrite !shiftr_1. split.
  - symmetry. apply Nat.div_unique with 1%nat; lia.
  - rewrite Nat.mul_comm. apply Nat.div_mul. lia.
Qed.
Lemma query_ok n k f g trees msgs roots final cs F G t0 r0 x comm fc :
  phase n k f g trees msgs roots final cs F G -> (0 < k)%nat -> n = (msg + k)%nat -> (n <= mx)%nat ->
  leaves (orc n f) = Some t0 -> mt_root t0 = Some r0 -> bc_root comm = r0 -> (x < 2 ^ (n + rate))%nat -> fc = orc msg final ->
  exists sq, get_query emb t0 trees x = Some sq /\ q_pts (sq_comm sq) = PExt (nth (Nat.lor x 1 - 1) (orc n f) 0) (nth (Nat.lor x 1) (orc n f) 0) /\
    single_check as_bases emb hash_bases hash_two_digests deqb scm cs k n fc roots comm x sq = Some tt.
Proof.
  intros P Hk Hn Hmx Et Er Hr Hx ->. destruct P as [P1 P2 P3 P4 P5 P6 P7 P8 P9 P10].
  assert (Hx2 : forall j, (j <= k)%nat -> (x / 2 ^ j < 2 ^ (n - j + rate))%nat).
  { intros j Hj. apply Nat.div_lt_upper_bound; [apply Nat.pow_nonzero; lia|]. rewrite <- Nat.pow_add_r. replace (j + (n - j + rate))%nat with (n + rate)%nat by lia. exact Hx. }
  assert (HO : forall j, (j <= k)%nat -> length (orc (n - j) (F j)) = (2 ^ (n - j + rate))%nat) by (intros j Hj; apply orc_length; [lia|apply P7; lia]).
  assert (HS : forall j, S (n - j + rate - 1) = (n - j + rate)%nat \/ (k < j)%nat \/ (n - j + rate = 0)%nat) by (intros j; lia).
  unfold get_query.
  destruct (tree_ok (orc n f) (n + rate - 1)) as (t0' & r0' & Et' & Er' & _ & HQ0).
  { rewrite <- P5. specialize (HO 0%nat ltac:(lia)). rewrite Nat.sub_0_r in HO. rewrite HO. f_equal. lia. }
  rewrite Et in Et'. injection Et' as <-. rewrite Er in Er'. injection Er' as <-.
  destruct (HQ0 x) as (q0 & Eq0 & Hp0 & _ & Hc0); [replace (S (n + rate - 1)) with (n + rate)%nat by lia; exact Hx|]. rewrite Eq0. cbn [obind].
  set (Q := fun j (q : @qres K B D) => let y := (x / 2 ^ S j)%nat in let o := orc (n - S j) (F (S j)) in
     q_pts q = PExt (nth (Nat.lor y 1 - 1) o 0) (nth (Nat.lor y 1) o 0) /\
     forall r, nth_error roots j = Some r -> check_merkle_path as_bases hash_bases hash_two_digests deqb q r = Some tt).
  destruct (get_oracles_ok Q trees (Nat.shiftr x 1)) as (qs & Eqs & Lqs & HQ).
  { intros j t Ht. assert (Hj : (j < k - 1)%nat) by (rewrite <- P4; apply nth_error_Some; congruence).
    destruct (P10 j Hj) as (t' & r & Et' & El & Er1 & Er2). rewrite Ht in Et'. injection Et' as <-.
    destruct (tree_ok (orc (n - S j) (F (S j))) (n - S j + rate - 1)) as (t1 & r1 & Et1 & Er1' & _ & HQ1); [rewrite HO by lia; f_equal; lia|].
    rewrite El in Et1. injection Et1 as <-. rewrite Er1 in Er1'. injection Er1' as <-.
    assert (Exj : (Nat.shiftr x 1 / 2 ^ j = x / 2 ^ S j)%nat) by apply shiftr_pow. rewrite Exj.
    destruct (HQ1 (x / 2 ^ S j)%nat) as (q & Eq & Hp & _ & Hc); [specialize (Hx2 (S j) ltac:(lia)); replace (S (n - S j + rate - 1)) with (n - S j + rate)%nat by lia; exact Hx2|].
    exists q. split; [exact Eq|]. split; [exact Hp|]. intros r' Hr'. rewrite Er2 in Hr'. injection Hr' as <-. exact Hc. }
  rewrite Eqs. cbn [obind]. eexists. split; [reflexivity|]. split; [exact Hp0|]. unfold single_check. cbn [sq_oracle sq_comm].
  destruct (check_paths_ok qs roots) as (l & El); [congruence| |].
  { intros j q r Hq Hr1. destruct (HQ j) as (q' & Eq' & HQj); [rewrite <- Lqs; apply nth_error_Some; congruence|]. rewrite Hq in Eq'. injection Eq' as <-. apply HQj. exact Hr1. }
  rewrite El. cbn [obind]. rewrite Hr, Hc0. cbn [obind]. rewrite Hp0. cbn [as_ext]. unfold check_rounds. rewrite P2, Nat.min_id. cbn [fst snd].
  destruct (ofold_inv (check_round emb scm cs k n (orc msg final) qs)
    (fun i s => (i < k)%nat -> let y := (x / 2 ^ i)%nat in s = (nth (Nat.lor y 1 - 1) (orc (n - i) (F i)) 0, nth (Nat.lor y 1) (orc (n - i) (F i)) 0, (Nat.lor y 1 - 1)%nat, Nat.lor y 1))
    (seq 0 k) 0%nat (nth (Nat.lor x 1 - 1) (orc n f) 0, nth (Nat.lor x 1) (orc n f) 0, (Nat.lor x 1 - 1)%nat, Nat.lor x 1)) as (s' & Es & _).
  - intros i0 i s Hi HP. apply nth_error_seq0 in Hi. destruct Hi as [Hi Ei]. rewrite Nat.add_0_l in *. subst i. rename i0 into i. specialize (HP Hi). cbv zeta in HP. subst s.
    set (y := (x / 2 ^ i)%nat) in *. unfold check_round. rewrite (nth_error_nth' cs 0) by lia. cbn [obind]. rewrite lor_1. replace (2 * (y / 2) + 1 - 1)%nat with (2 * (y / 2))%nat by lia.
    destruct (div2_lor y) as [D1 D2]. rewrite D1, D2.
    assert (Ey : (y / 2 = x / 2 ^ S i)%nat) by (unfold y; rewrite Nat.div_div by (try apply Nat.pow_nonzero; lia); f_equal; rewrite Nat.pow_succ_r'; lia).
    assert (Hy : (y / 2 < 2 ^ (n - S i + rate))%nat) by (rewrite Ey; apply Hx2; lia).
    assert (Ef := orc_fold (n - S i) (F i) (nth i cs 0) ltac:(lia)). replace (S (n - S i)) with (n - i)%nat in Ef by lia. specialize (Ef (proj1 (P7 i ltac:(lia)))).
    destruct (P8 i Hi) as (EF & _ & _). rewrite <- EF in Ef.
    assert (HOi : length (orc (n - i) (F i)) = (2 ^ S (n - S i + rate))%nat) by (rewrite HO by lia; f_equal; lia).
    destruct (one_round_entry _ _ _ _ _ HOi Ef) as [_ He]. destruct (He _ Hy) as (x0 & x1 & wt & Ec & Ev).
    replace (level_of scm n i) with (n - S i + rate)%nat by (unfold level_of; lia). rewrite (co_coef _ _ code) by (auto; lia). rewrite Ec. cbn [obind]. rewrite Ev.
    destruct (i <? k - 1)%nat eqn:El1.
    + apply Nat.ltb_lt in El1. destruct (HQ i) as (q & Eq & Hq & _); [lia|]. rewrite Eq. cbn [obind]. rewrite Hq. cbn [as_ext]. rewrite <- Ey. set (z := (y / 2)%nat) in *.
      rewrite lor_1. replace (2 * (z / 2) + 1 - 1)%nat with (2 * (z / 2))%nat by lia.
      assert (Ez : nth z (orc (n - S i) (F (S i))) 0 = (if Nat.even z then nth (2 * (z / 2)) (orc (n - S i) (F (S i))) 0 else nth (2 * (z / 2) + 1) (orc (n - S i) (F (S i))) 0)).
      { pose proof (Nat.div_mod z 2 ltac:(lia)) as Hz. destruct (Nat.even z) eqn:Ee.
        - apply Nat.even_spec in Ee. destruct Ee as [u ->]. f_equal. rewrite (Nat.mul_comm 2 u), Nat.div_mul by lia. lia.
        - f_equal. assert (Ho : Nat.odd z = true) by (unfold Nat.odd; now rewrite Ee). apply Nat.odd_spec in Ho. destruct Ho as [u ->]. replace ((2 * u + 1) / 2)%nat with u by (apply Nat.div_unique with 1%nat; lia). reflexivity. }
      rewrite <- Ez, feqb_refl. eexists. split; [reflexivity|]. intros Hi2. cbv zeta. replace (i + 1)%nat with (S i) by lia. rewrite <- Ey. fold z. rewrite lor_1. replace (2 * (z / 2) + 1 - 1)%nat with (2 * (z / 2))%nat by lia. reflexivity.
    + apply Nat.ltb_ge in El1. assert (i = k - 1)%nat by lia. assert (ES : S i = k) by lia. rewrite ES in *. rewrite P9. replace (n - k)%nat with msg in * by lia.
      rewrite (nth_error_nth' _ 0). 2: { specialize (HO k ltac:(lia)). replace (n - k)%nat with msg in HO by lia. rewrite HO. exact Hy. }
      cbn [obind]. rewrite feqb_refl. eexists. split; [reflexivity|]. intros Hi2. lia.
  - intros _. cbv zeta. cbn [Nat.pow]. rewrite Nat.div_1_r, Nat.sub_0_r, P5. reflexivity.
  - rewrite Es. reflexivity.
Qed.

(** ** Sum-check side *)
Lemma final_checks_ok n k f g trees msgs roots final cs F G : phase n k f g trees msgs roots final cs F G -> (0 < k <= n)%nat ->
  final_checks msgs cs final (G k) (dot f g) = Some tt.
Proof.
  intros P Hk. destruct P as [P1 P2 P3 P4 P5 P6 P7 P8 P9 P10].
  assert (HF : forall i, (i < k)%nat -> length (F i) = (2 ^ S (n - S i))%nat /\ length (G i) = (2 ^ S (n - S i))%nat) by (intros i Hi; replace (S (n - S i)) with (n - i)%nat by lia; apply P7; lia).
  assert (Hs : forall i, (i < k)%nat -> degree_2_zero_plus_one (bmsgh (n - S i) (F i) (G i)) = Some (dot (F i) (G i))) by (intros i Hi; destruct (HF i Hi); now apply bmsgh_sum).
  assert (He : forall i, (i < k)%nat -> degree_2_eval (bmsgh (n - S i) (F i) (G i)) (nth i cs 0) = Some (dot (F (S i)) (G (S i)))).
  { intros i Hi. destruct (HF i Hi). destruct (P8 i Hi) as (-> & -> & _). now apply bmsgh_eval. }
  unfold final_checks. destruct (P8 0%nat ltac:(lia)) as (_ & _ & E0). rewrite E0. cbn [obind]. rewrite Hs by lia. rewrite P5, P6, check_eq_refl. cbn [obind].
  rewrite P2, csub_ok by lia. cbn [obind]. rewrite (omapM_range _ (fun _ => tt)).
  - cbn [obind]. rewrite (nth_error_nth' cs 0) by lia. cbn [obind]. destruct (P8 (k - 1)%nat ltac:(lia)) as (_ & _ & E1). rewrite E1. cbn [obind]. rewrite He by lia.
    replace (S (k - 1)) with k by lia. rewrite P9. unfold inner_product. destruct (P7 k ltac:(lia)) as [L1 L2]. rewrite L1, L2, Nat.eqb_refl. apply check_eq_refl.
  - intros i Hi. rewrite (nth_error_nth' cs 0) by lia. cbn [obind]. destruct (P8 i ltac:(lia)) as (_ & _ & E1). rewrite E1. cbn [obind].
    destruct (P8 (i + 1)%nat ltac:(lia)) as (_ & _ & E2). rewrite E2. cbn [obind]. rewrite He, Hs by lia. rewrite Nat.add_1_r. apply check_eq_refl.
Qed.
Lemma eq_tables_ok n k f trees msgs roots final cs F G (point : list K) : phase n k f (eq_table point) trees msgs roots final cs F G -> length point = n -> (k <= n)%nat ->
  forall i, (i <= k)%nat -> G i = map (fun e => e * eqs (rev (skipn (n - i) point)) (firstn i cs)) (eq_table (firstn (n - i) point)).
Proof.
  intros P Lp Hkn. destruct P as [P1 P2 P3 P4 P5 P6 P7 P8 P9 P10]. induction i as [|i IH]; intros Hi.
  - change (firstn 0 cs) with (@nil K). rewrite P6, Nat.sub_0_r, skipn_all2, firstn_all2 by lia. cbn [rev]. rewrite <- (map_id (eq_table point)) at 1. apply map_ext. intros e. unfold eqs. cbn. ring.
  - destruct (P8 i ltac:(lia)) as (_ & EG & _). rewrite EG, IH by lia.
    set (m := (n - S i)%nat). replace (n - i)%nat with (S m) by lia.
    assert (E1 : firstn (S m) point = firstn m point ++ [nth m point 0]).
    { assert (Hm : (m < length point)%nat) by lia. clear -Hm. revert point Hm. induction m as [|m IH]; intros [|x point] Hm; cbn [length] in Hm; try lia; [reflexivity|]. cbn [firstn nth app]. f_equal. apply IH. lia. }
    assert (E2 : skipn m point = nth m point 0 :: skipn (S m) point).
    { assert (Hm : (m < length point)%nat) by lia. clear -Hm. revert point Hm. induction m as [|m IH]; intros [|x point] Hm; cbn [length] in Hm; try lia; [reflexivity|]. cbn [nth]. change (skipn (S m) (x :: point)) with (skipn m point). rewrite IH by lia. reflexivity. }
    rewrite E1. pose proof (linh_eq (firstn m point) (nth m point 0) (eqs (rev (skipn (S m) point)) (firstn i cs)) (nth i cs 0)) as EL. rewrite firstn_length, Nat.min_l in EL by lia. rewrite EL.
    apply map_ext. intros e. f_equal. rewrite E2. cbn [rev].
    assert (E3 : firstn (S i) cs = firstn i cs ++ [nth i cs 0]).
    { assert (Hm : (i < length cs)%nat) by lia. clear -Hm. revert cs Hm. induction i as [|m IH]; intros [|x point] Hm; cbn [length] in Hm; try lia; [reflexivity|]. cbn [firstn nth app]. f_equal. apply IH. lia. }
    rewrite E3, eqs_app by (rewrite rev_length, skipn_length, firstn_length; lia). unfold eqs at 3. cbn. ring.
Qed.
Lemma final_code_ok final : (0 < msg <= mx)%nat -> length final = (2 ^ msg)%nat -> final_codeword_single scm final = Some (orc msg final).
Proof.
  intros Hm Lf. unfold final_codeword_single. rewrite (interpolate_ok msg) by (auto; lia). cbn [obind].
  pose proof (co_small _ _ code (hcI msg final) (hcI_length _ _ Lf)) as E. unfold mbr in E. destruct (sc_even_odd scm); [|exact E].
  rewrite (reverse_ok _ msg) by now apply hcI_length. cbn [obind]. exact E.
Qed.
Lemma final_code_batch_ok final : (0 < msg <= mx)%nat -> length final = (2 ^ msg)%nat -> final_codeword_batch scm final = Some (orc msg final).
Proof.
  intros Hm Lf. rewrite <- final_code_ok by assumption. unfold final_codeword_batch, final_codeword_single. rewrite (interpolate_ok msg) by (auto; lia). cbn [obind].
  destruct (sc_even_odd scm); cbn [obind].
  - rewrite !(reverse_ok _ msg) by (try apply hcI_length; auto). cbn [obind]. rewrite (interpolate_ok msg) by (try apply br_length; auto; lia). cbn [obind]. now rewrite hcI_br.
  - rewrite (interpolate_ok msg) by (auto; lia). reflexivity.
Qed.

Lemma challenges_len lbl n : forall h, length (fst (challenges T lbl n h)) = n.
Proof. induction n as [|n IH]; intros h; cbn [challenges]; [reflexivity|]. destruct (get_challenge T lbl h) as [c h1]. specialize (IH h1). destruct (challenges T lbl n h1). cbn in *. lia. Qed.

Notation commit := (commit as_bases emb hash_bases hash_two_digests scm).
Notation open := (open as_bases emb hash_bases hash_two_digests dig T to_usize nbits scm).
Notation verify := (verify as_bases emb hash_bases hash_two_digests deqb dig T to_usize nbits scm).
(** Commit, open, verify. *)
Lemma open_complete (evals point : list K) sched h : (0 < msg < length point)%nat -> (length point <= mx)%nat -> length evals = (2 ^ length point)%nat ->
  exists cw comm pf h', commit (length point) evals = Some cw /\ to_commitment cw = Some comm /\
    open (length point) evals cw point h = Some (pf, h') /\ verify sched comm point (mle evals point) pf h = Some h' /\
    bc_nv comm = Some (length point) /\ bp_trivial pf = [] /\ exists qs, bp_queries pf = QSingle qs /\ length qs = sc_nq scm /\
    Forall (fun xq => (fst xq < 2 ^ (length point + rate))%nat /\ q_pts (sq_comm (snd xq)) =
      PExt (nth (Nat.lor (fst xq) 1 - 1) (orc (length point) evals) 0) (nth (Nat.lor (fst xq) 1) (orc (length point) evals) 0)) qs.
Proof.
  intros Hm Hx Le. set (n := length point) in *. set (k := (n - msg)%nat).
  unfold commit, M_Basefold.commit. replace (mx <? n)%nat with false by (symmetry; apply Nat.ltb_ge; lia). replace (n <=? msg)%nat with false by (symmetry; apply Nat.leb_gt; lia).
  assert (Eec : evals_codeword scm evals = Some (br n evals, orc n evals)).
  { unfold evals_codeword. rewrite (interpolate_ok n) by (auto; lia). cbn [obind]. pose proof (co_enc _ _ code n (hcI n evals) ltac:(lia) (hcI_length _ _ Le)) as E. unfold mbr in E.
    assert (Em : (if sc_even_odd scm then reverse_index_bits (hcI n evals) else Some (hcI n evals)) = Some (if sc_even_odd scm then br n (hcI n evals) else hcI n evals)).
    { destruct (sc_even_odd scm); [|reflexivity]. rewrite (reverse_ok _ n) by now apply hcI_length. reflexivity. }
    rewrite Em. cbn [obind]. destruct (sc_encode scm _) as [cw|]; [|discriminate E]. cbn [obind] in *. rewrite (reverse_ok evals n) by assumption. cbn [obind]. rewrite E. reflexivity. }
  rewrite Eec. cbn [obind fst snd]. destruct (tree_ok (orc n evals) (n + rate - 1)) as (t0 & r0 & Et & Er & El & _); [rewrite orc_length by (auto; lia); f_equal; lia|]. rewrite Et. cbn [obind].
  eexists. exists (mkComm r0 (Some n) false (Some 1%nat)). unfold to_commitment. cbn [cw_tree cw_nv cw_evals].
  pose proof (eq_table_length point) as Lq. fold n in Lq.
  assert (If : exists ef, one_level_interp_hc (br n evals) = Some ef).
  { destruct n as [|m]; [lia|]. destruct (split_half evals m Le) as (a & b & -> & La & Lb). rewrite interp_br by assumption. eauto. }
  assert (Ig : exists eg, one_level_interp_hc (br n (eq_table point)) = Some eg).
  { destruct n as [|m]; [lia|]. destruct (split_half (eq_table point) m Lq) as (a & b & -> & La & Lb). rewrite interp_br by assumption. eauto. }
  destruct If as [ef If]. destruct Ig as [eg Ig].
  destruct (commit_rounds_ok k n evals (eq_table point) ef eg h ltac:(lia) ltac:(lia) ltac:(lia) Le Lq If Ig) as (trees & msgs & roots & final & cs & h1 & F & G & E & P & V).
  assert (Em : parallel_pi ef eg = Some (bmsgh (n - 1) evals (eq_table point))).
  { destruct n as [|m]; [lia|]. replace (S m - 1)%nat with m by lia. destruct (split_half evals m Le) as (a & b & -> & La & Lb). destruct (split_half (eq_table point) m Lq) as (p & q & Epq & Lp & Lq').
    rewrite Epq in *. rewrite interp_br in If, Ig by assumption. injection If as <-. injection Ig as <-. rewrite parallel_pi_ok by assumption. f_equal. symmetry. now apply bmsgh_app. }
  assert (Hph := P). destruct Hph as [P1 P2 P3 P4 P5 P6 P7 P8 P9 P10].
  assert (Lfin : length final = (2 ^ msg)%nat) by (rewrite P9; destruct (P7 k ltac:(lia)) as [-> _]; f_equal; lia).
  destruct (challenges T lbl_query (sc_nq scm) (absorb h1 final)) as [qc h2] eqn:Eq.
  set (xs := map (fun x => (to_usize x mod 2 ^ (n + rate))%nat) qc).
  assert (Hxs : forall x, In x xs -> (x < 2 ^ (n + rate))%nat) by (intros x Hx'; apply in_map_iff in Hx'; destruct Hx' as (y & <- & _); apply Nat.mod_upper_bound, Nat.pow_nonzero; lia).
  assert (Hq : exists qs, omapM (fun x => q <- get_query emb t0 trees x ;; Some (x, q)) xs = Some qs /\
     exists u, queries_check as_bases emb hash_bases hash_two_digests deqb scm cs k n (orc msg final) roots (mkComm r0 (Some n) false (Some 1%nat)) xs qs = Some u /\ length qs = length xs /\
     Forall (fun xq => (fst xq < 2 ^ (n + rate))%nat /\ q_pts (sq_comm (snd xq)) = PExt (nth (Nat.lor (fst xq) 1 - 1) (orc n evals) 0) (nth (Nat.lor (fst xq) 1) (orc n evals) 0)) qs).
  { clearbody xs. clear -P Hxs Et Er Hm Hx code deqb_ok k n. induction xs as [|x xs IH]; [exists []; split; [reflexivity|exists []; split; [reflexivity|split; [reflexivity|constructor]]]|].
    destruct (IH ltac:(intros y Hy; apply Hxs; now right)) as (qs & Eqs & u & Eu & Lqs & Fqs).
    destruct (query_ok n k evals (eq_table point) trees msgs roots final cs F G t0 r0 x (mkComm r0 (Some n) false (Some 1%nat)) (orc msg final) P ltac:(lia) ltac:(lia) ltac:(lia) Et Er eq_refl (Hxs x ltac:(now left)) eq_refl) as (sq & Esq & Hpts & Hsq).
    exists ((x, sq) :: qs). cbn [omapM]. rewrite Esq. cbn [obind]. rewrite Eqs. cbn [obind]. split; [reflexivity|].
    unfold queries_check in *. cbn [combine omapM fst snd]. rewrite Nat.eqb_refl, Hsq. cbn [obind]. rewrite Eu. cbn [obind]. eexists. split; [reflexivity|]. split; [cbn [length]; lia|]. constructor; [|exact Fqs]. cbn [fst snd]. split; [apply Hxs; now left|exact Hpts]. }
  destruct Hq as (qs & Eqs & u & Eu & Lqs & Fqs).
  exists (mkBp msgs roots final (QSingle qs) None []), h2. split; [reflexivity|]. cbn [cw_tree cw_nv cw_evals]. rewrite ?Er. cbn [obind]. split; [reflexivity|]. split.
  - unfold M_Basefold.open. cbn [cw_nv cw_tree cw_evals]. replace (n <=? msg)%nat with false by (symmetry; apply Nat.leb_gt; lia). rewrite csub_ok by lia. cbn [obind]. rewrite El.
    unfold commit_phase. rewrite build_eq_par_spec. cbn [obind]. rewrite (reverse_ok _ n) by assumption. cbn [obind]. rewrite Ig. cbn [obind]. rewrite If. cbn [obind]. rewrite Em. cbn [obind].
    fold k. rewrite E. cbn [obind]. rewrite Eq. rewrite orc_length by (auto; lia). fold xs. rewrite Eqs. reflexivity.
  - split; [|split; [reflexivity|]; split; [reflexivity|]; exists qs; split; [reflexivity|]; split; [|exact Fqs]; rewrite Lqs; unfold xs; rewrite map_length; pose proof (challenges_len lbl_query (sc_nq scm) (absorb h1 final)) as Lc; rewrite Eq in Lc; exact Lc].
    unfold M_Basefold.verify. cbn [bp_trivial bp_msgs bp_roots bp_final bp_queries bc_nv]. fold n. rewrite Nat.eqb_refl. replace (msg <=? n)%nat with true by (symmetry; apply Nat.leb_le; lia). cbn [andb negb].
    rewrite csub_ok by lia. cbn [obind]. fold k. specialize (V 0%nat [] [] k eq_refl eq_refl eq_refl). cbn [app] in V. rewrite V. cbn [obind].
    unfold query_indices. rewrite Eq. fold xs. cbn [obind].
    assert (EG := eq_tables_ok n k evals trees msgs roots final cs F G point P eq_refl ltac:(lia) k ltac:(lia)). replace (n - k)%nat with msg in EG by lia.
    rewrite (partial_eq_ok nbits point cs msg) by (fold n; lia). cbn [obind]. rewrite final_code_ok by (auto; lia). cbn [obind]. rewrite Eu. cbn [obind].
    rewrite firstn_all2 in EG by lia. rewrite <- EG. rewrite <- dot_eq_table by exact Le. rewrite (final_checks_ok n k evals (eq_table point) trees msgs roots final cs F G P ltac:(lia)). reflexivity.
Qed.
End Complete.
