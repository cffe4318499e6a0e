(** Proofs about the sumcheck prover of [M_Sumcheck], continued: the threaded prover
    [prove_batch_polys] refines the honest prover [honest_run], for every arrival order. *)
From Coq Require Import List Arith Lia Bool ZArith Field Permutation.
From Verif Require Import ListAux FieldDef PolyList MleMath M_Mle P_Mle P_Eq M_Interp P_Interp M_Sumcheck P_ScVerify P_ScProve P_ScProve2.
Import ListNotations.

Section P.
Context {K : field}.
Add Field Kf_sp3 : (fth K).
Local Open Scope F_scope.

(** *** The first [n] rounds of an honest run over [n + L] variables *)
Fixpoint hrun (T : @hist K -> K) (d n L : nat) (g : list K -> K) (h : hist) : list (list K) * list K * hist :=
  match n with
  | O => ([], [], h)
  | S n' =>
      let m := hmsg d (n' + L) g in
      let '(r, h') := get_challenge T lbl_round (absorb h m) in
      let '(ms, rs, h'') := hrun T d n' L (fun pt => g (r :: pt)) h' in
      (m :: ms, r :: rs, h'')
  end.
Lemma hmsg_ext d m (g g' : list K -> K) : (forall pt, length pt = S m -> g pt = g' pt) -> hmsg d m g = hmsg d m g'.
Proof. intros H. unfold hmsg. apply map_ext. intros t. apply hsum_ext. intros pt Hp. apply H. cbn [length]. lia. Qed.
Lemma hrun_ext T d L : forall n g g' h, (forall pt, length pt = (n + L)%nat -> g pt = g' pt) -> hrun T d n L g h = hrun T d n L g' h.
Proof.
  induction n as [|n IH]; intros g g' h H; [reflexivity|]. cbn [hrun].
  rewrite (hmsg_ext d (n + L) g g') by (intros; apply H; lia).
  destruct (get_challenge T lbl_round _) as [r h'].
  rewrite (IH (fun pt => g (r :: pt)) (fun pt => g' (r :: pt)))  by (intros; apply H; cbn [length]; lia). reflexivity.
Qed.
Lemma hrun_length T d L : forall n g h, let '(ms, rs, _) := hrun T d n L g h in length ms = n /\ length rs = n.
Proof.
  induction n as [|n IH]; intros g h; [simpl; auto|]. cbn [hrun].
  destruct (get_challenge T lbl_round _) as [r h']. specialize (IH (fun pt => g (r :: pt)) h').
  destruct (hrun T d n L (fun pt => g (r :: pt)) h') as [[ms rs] h'']. cbn [length]. lia.
Qed.
Lemma honest_hrun T d : forall n g h, honest_run T d n g h = hrun T d n 0 g h.
Proof.
  induction n as [|n IH]; intros g h; [reflexivity|]. cbn [hrun honest_run]. rewrite Nat.add_0_r.
  change (map _ (seq 0 (d + 1))) with (hmsg d n g).
  destruct (get_challenge T lbl_round _) as [r h']. rewrite IH. reflexivity.
Qed.
Lemma hrun_split T d L : forall n g h,
  hrun T d (n + L) 0 g h =
  let '(ms, rs, h') := hrun T d n L g h in
  let '(ms2, rs2, h'') := hrun T d L 0 (fun pt => g (rs ++ pt)) h' in
  (ms ++ ms2, rs ++ rs2, h'').
Proof.
  induction n as [|n IH]; intros g h.
  - cbn [hrun Nat.add app]. change (fun pt => g pt) with g. destruct (hrun T d L 0 g h) as [[ms2 rs2] h'']. reflexivity.
  - cbn [hrun Nat.add]. rewrite Nat.add_0_r.
    destruct (get_challenge T lbl_round _) as [r h']. rewrite IH.
    destruct (hrun T d n L (fun pt => g (r :: pt)) h') as [[ms rs] h''].
    destruct (hrun T d L 0 (fun pt => g (r :: rs ++ pt)) h'') as [[ms2 rs2] h3] eqn:E.
    cbn [app]. rewrite E. reflexivity.
Qed.

(** *** Threads *)
Section Threads.
Variables (ncpus L nv deg M : nat) (prods : list (K * list nat)) (P : nat -> @vp K)
          (aux : list (list K * list K)).
Hypothesis Hnc : 0 < ncpus.
Hypothesis Hch : char_gt K deg.
Hypothesis Haux : aux_ok ncpus deg aux.
Hypothesis HP : forall j, j < 2 ^ L -> wf_vp (P j) /\ vp_nv (P j) = nv /\ vp_deg (P j) = deg /\
   vp_products (P j) = prods /\ length (vp_mles (P j)) = M.

Definition Gval (pt : list K) : K :=
  prod_val (fun i => mlef (fun j => mval (nth i (vp_mles (P j)) dm) (firstn nv pt)) (skipn nv pt)) prods.

Lemma Gval_bool x j : length x = nv -> j < 2 ^ L -> Gval (x ++ bpt L j) = vp_val (P j) x.
Proof.
  intros Hx Hj. unfold Gval, vp_val. destruct (HP j Hj) as (_ & _ & _ & -> & _).
  rewrite firstn_app, skipn_app, Hx, Nat.sub_diag. cbn [firstn skipn]. rewrite app_nil_r.
  rewrite firstn_all2, skipn_all2 by lia. cbn [app]. unfold prod_val. f_equal. apply map_ext. intros [c ix].
  cbn [fst snd]. f_equal. f_equal. apply map_ext. intros i. rewrite mlef_bool by auto. reflexivity.
Qed.

Lemma hsum_Gval cs m x : nv = S (length cs + m) ->
  hsum (m + L) (fun pt => Gval (cs ++ x :: pt)) = sumn (2 ^ L) (fun j => hsum m (fun pt => vp_val (P j) (cs ++ x :: pt))).
Proof.
  intros Hnv. unfold hsum. rewrite Nat.pow_add_r, sumn_mul_split. apply sumn_ext. intros j Hj.
  apply sumn_ext. intros b Hb. rewrite bpt_app by auto.
  change (cs ++ x :: bpt m b ++ bpt L j) with (cs ++ (x :: bpt m b) ++ bpt L j). rewrite app_assoc.
  rewrite Gval_bool; auto. rewrite app_length. cbn [length]. rewrite bpt_length. lia.
Qed.

Lemma batch_round_spec cs m ord : nv = S (length cs + m) -> Permutation ord (seq 0 (2 ^ L - 1)) ->
  batch_round (map (fun j => pre (P j) aux cs) (seq 0 (2 ^ L))) ord (pre_chal cs) =
  Some (hmsg deg (m + L) (fun pt => Gval (cs ++ pt)), map (fun j => post (P j) aux cs) (seq 0 (2 ^ L))).
Proof.
  intros Hnv Hord. unfold batch_round. rewrite omapM_map.
  set (f := fun j t => hsum m (fun pt => vp_val (P j) (cs ++ fnat t :: pt))).
  rewrite (omapM_seq _ (fun j => (map (f j) (seq 0 (deg + 1)), post (P j) aux cs))).
  2: { intros j Hj. destruct (HP j ltac:(lia)) as (Hw & Hn & Hd & _ & _).
       rewrite (prove_round_spec ncpus (P j) aux cs m) by (try rewrite Hd; auto; lia).
       unfold hmsg. rewrite Hd. reflexivity. }
  cbn [obind]. rewrite map_length, seq_length. pose proof (pow2_pos L) as HL.
  assert (Hne : forall j, j < 2 ^ L ->
    nth_error (map (fun j => (map (f j) (seq 0 (deg + 1)), post (P j) aux cs)) (seq 0 (2 ^ L))) j
    = Some (map (f j) (seq 0 (deg + 1)), post (P j) aux cs)).
  { intros j Hj. rewrite nth_error_map. rewrite (nth_error_nth' _ 0%nat) by (rewrite seq_length; lia).
    rewrite seq_nth by lia. reflexivity. }
  rewrite Hne by lia. cbn [obind fst].
  replace (match map (fun j => pre (P j) aux cs) (seq 0 (2 ^ L)) with s :: _ => Some (vp_deg (ps_poly s)) | [] => None end)
    with (Some deg).
  2: { destruct (2 ^ L) as [|n] eqn:En; [lia|]. cbn [seq map]. f_equal.
       destruct (HP 0%nat ltac:(lia)) as (_ & _ & Hd & _ & _). destruct cs; cbn [pre]; auto. }
  cbn [obind]. rewrite repeat_map, vec_add_map.
  assert (Hof : forall l acc, (forall w, In w l -> w < 2 ^ L) ->
    ofold (fun acc w => x <- nth_error (map (fun j => (map (f j) (seq 0 (deg + 1)), post (P j) aux cs)) (seq 0 (2 ^ L))) w ;;
                        Some (vec_add acc (fst x))) l (map acc (seq 0 (deg + 1)))
    = Some (map (fun t => acc t + fsum (map (fun w => f w t) l)) (seq 0 (deg + 1)))).
  { induction l as [|w l IH]; intros acc Hin.
    - cbn [ofold]. f_equal. apply map_ext. intros; simpl; ring.
    - cbn [ofold]. rewrite Hne by (apply Hin; left; auto). cbn [obind fst]. rewrite vec_add_map, IH by (intros; apply Hin; right; auto).
      f_equal. apply map_ext. intros; simpl; ring. }
  rewrite Hof.
  2: { intros w Hw. apply (Permutation_in _ Hord) in Hw. apply in_seq in Hw. lia. }
  cbn [obind]. f_equal. f_equal.
  - unfold hmsg. apply map_ext. intros t. rewrite hsum_Gval by auto.
    rewrite (fsum_perm _ (map (fun w => f w t) (seq 0 (2 ^ L - 1)))) by (apply Permutation_map; auto).
    rewrite fsum_map_seq. replace (2 ^ L)%nat with (S (2 ^ L - 1)) at 3 by lia. cbn [sumn]. unfold f. ring.
  - rewrite map_map. reflexivity.
Qed.

Lemma batch_rounds_spec T ords : (forall i, i < nv -> Permutation (ords i) (seq 0 (2 ^ L - 1))) ->
  forall k cs h msgs, (length cs + k)%nat = nv ->
  batch_rounds T k (length cs) ords (map (fun j => pre (P j) aux cs) (seq 0 (2 ^ L))) (pre_chal cs) h msgs =
  let '(ms, rs, h') := hrun T deg k L (fun pt => Gval (cs ++ pt)) h in
  Some (map (fun j => pre (P j) aux (cs ++ rs)) (seq 0 (2 ^ L)), pre_chal (cs ++ rs), h', msgs ++ ms).
Proof.
  intros Hords. induction k as [|k IH]; intros cs h msgs Hk.
  - cbn [batch_rounds hrun]. rewrite !app_nil_r. reflexivity.
  - cbn [batch_rounds hrun]. rewrite (batch_round_spec cs k) by (try lia; apply Hords; lia). cbn [obind fst snd].
    destruct (get_challenge T lbl_round _) as [r h'].
    rewrite (map_ext _ (fun j => pre (P j) aux (cs ++ [r]))) by (intros; rewrite pre_snoc; reflexivity).
    rewrite <- (pre_chal_snoc cs r).
    replace (S (length cs)) with (length (cs ++ [r])) by (rewrite app_length; cbn [length]; lia).
    rewrite IH by (rewrite app_length; cbn [length]; lia).
    rewrite (hrun_ext T deg L k (fun pt => Gval ((cs ++ [r]) ++ pt)) (fun pt => Gval (cs ++ r :: pt)))
      by (intros; rewrite <- app_assoc; reflexivity).
    destruct (hrun T deg k L (fun pt => Gval (cs ++ r :: pt)) h') as [[ms rs] h''].
    rewrite <- !app_assoc. reflexivity.
Qed.

End Threads.

(** Final states. *)
Definition fin (aux : list (list K * list K)) (p : @vp K) (cs : list K) : pstate := mkPs cs (length cs) (fixl cs p) aux.
Lemma finish_gen aux (p : @vp K) cs f : wf_vp p -> cs <> [] ->
  (forall c cs' m, cs = cs' ++ [c] -> In m (vp_mles p) -> f c (fixms cs' m) = Some (fixm c (fixms cs' m))) ->
  finish f (pre_chal cs) (pre p aux cs) = Some (fin aux p cs).
Proof.
  intros Hw Hne Hf. destruct (exists_last Hne) as (cs' & c & ->). rewrite pre_chal_snoc, pre_snoc. unfold finish, post.
  cbn [ps_poly ps_chals ps_round ps_aux]. rewrite (fix_step p cs' c) by auto. cbn [obind].
  unfold fin. f_equal. f_equal. rewrite app_length. cbn [length]. lia.
Qed.
Lemma finish_later aux (p : @vp K) cs : wf_vp p -> cs <> [] -> finish fix_later (pre_chal cs) (pre p aux cs) = Some (fin aux p cs).
Proof.
  intros Hw Hne. apply finish_gen; auto. intros c cs' m _ Hm. apply fix_later_spec, fixms_wf. apply (wv_mles p Hw m Hm).
Qed.
Lemma finish_main_ok aux (p : @vp K) cs : wf_vp p -> cs <> [] -> length cs = vp_nv p ->
  finish (finish_main (vp_nv p)) (pre_chal cs) (pre p aux cs) = Some (fin aux p cs).
Proof.
  intros Hw Hne Hl. apply finish_gen; auto. intros c cs' m E Hm. pose proof (wv_mles p Hw m Hm) as [Hwm Hn].
  unfold finish_main. rewrite <- Hl, E, app_length. cbn [length]. destruct (Nat.eqb_spec (length cs' + 1) 1) as [E1|E1].
  - assert (Hn0 : 0 < num_vars (fixms cs' m)) by (rewrite fixms_nv; lia).
    destruct (Nat.ltb_spec 0 (num_vars (fixms cs' m))); [|lia]. apply fix_variables_fixm; auto. apply fixms_wf; auto.
  - apply fix_later_spec, fixms_wf. auto.
Qed.

Lemma collect_states_spec (l : list (@pstate K)) ford : Permutation ford (seq 0 (length l)) -> collect_states l ford = l.
Proof.
  intros Hp. unfold collect_states.
  assert (H : forall fo acc, length acc = length l -> (forall i, In i fo -> i < length l) ->
     let r := fold_left (fun acc i => upd i (nth i l ps_default) acc) fo acc in
     length r = length l /\ forall i, i < length l -> In i fo \/ nth i acc ps_default = nth i l ps_default ->
        nth i r ps_default = nth i l ps_default).
  { induction fo as [|j fo IH]; intros acc Hacc Hin; cbn [fold_left].
    - split; auto. intros i Hi [[]|]; auto.
    - destruct (IH (upd j (nth j l ps_default) acc)) as [H1 H2].
      + rewrite upd_length. auto.
      + intros; apply Hin; right; auto.
      + split; auto. intros i Hi Hor. apply H2; auto. destruct (Nat.eq_dec i j) as [->|Hij].
        * right. rewrite nth_upd_eq by lia. reflexivity.
        * destruct Hor as [[->|Hf]|E]; [lia|left; auto|right]. rewrite nth_upd_neq by auto. auto. }
  destruct (H ford (repeat ps_default (length l))) as [H1 H2].
  - apply repeat_length.
  - intros i Hi. apply (Permutation_in _ Hp) in Hi. apply in_seq in Hi. lia.
  - apply nth_ext_all with (d := ps_default); auto. intros i Hi. apply H2; [lia|]. left.
    apply (Permutation_in _ (Permutation_sym Hp)). apply in_seq. lia.
Qed.

Lemma fixm_ext_stays r m l : evaluations m = Ext l -> exists l', evaluations (@fixm K r m) = Ext l'.
Proof. intros E. unfold fixm. destruct (num_vars m =? 0)%nat; [eauto|]. cbn. eauto. Qed.
Lemma fixms_ext cs : forall m, cs <> [] -> 0 < num_vars m -> exists l, evaluations (@fixms K cs m) = Ext l.
Proof.
  assert (H : forall ds m l, evaluations m = Ext l -> exists l', evaluations (@fixms K ds m) = Ext l').
  { induction ds as [|c ds IH]; intros m l E; simpl; [eauto|]. destruct (fixm_ext_stays c m l E) as [l' E']. eapply IH; eauto. }
  intros m Hne Hn. destruct cs as [|c cs]; [contradiction|]. cbn [fixms fold_left].
  apply (H cs _ (low_table (num_vars m) (tbl m) [c])). unfold fixm. destruct (Nat.eqb_spec (num_vars m) 0); [lia|]. reflexivity.
Qed.
Lemma fixms_single cs (m : dmle K) : wf_mle m -> num_vars m <= length cs -> tbl (fixms cs m) = [mval m cs].
Proof.
  intros Hw Hl. destruct (fixms_wf cs m Hw) as (_ & _ & Ht). rewrite fixms_nv in Ht.
  replace (num_vars m - length cs)%nat with 0%nat in Ht by lia. simpl in Ht.
  pose proof (fixms_val cs m [] Hw) as Hv. rewrite app_nil_r in Hv. rewrite <- Hv. unfold mval. rewrite firstn_nil.
  destruct (tbl (fixms cs m)) as [|x [|y t]]; try discriminate. f_equal. unfold mle. rewrite mlef_nil. reflexivity.
Qed.
Lemma ext_single_fixms cs (m : dmle K) : wf_mle m -> 0 < num_vars m <= length cs ->
  ext_single (fixms cs m) = Some (mval m cs).
Proof.
  intros Hw Hl. pose proof (fixms_single cs m Hw ltac:(lia)) as Ht.
  destruct (fixms_ext cs m) as [l El]; [intros ->; simpl in Hl; lia|lia|].
  unfold ext_single. unfold tbl in Ht. rewrite El in *. subst l. reflexivity.
Qed.
Lemma final_evals_fin aux (p : @vp K) cs : wf_vp p -> (forall m, In m (vp_mles p) -> num_vars m <= length cs) ->
  get_mle_final_evaluations (fin aux p cs) = Some (map (fun m => mval m cs) (vp_mles p)).
Proof.
  intros Hw Hl. unfold get_mle_final_evaluations, fin. cbn [ps_poly]. unfold fixl, with_mles. cbn [vp_mles].
  rewrite omapM_map. apply omapM_all. intros m Hm. pose proof (wv_mles p Hw m Hm) as [Hwm _].
  rewrite (is_table_slice _ _ _ (fixms_wf cs m Hwm)). cbn [obind]. rewrite fixms_single by auto. reflexivity.
Qed.

Lemma stage2_spec ncpus (p : @vp K) aux T : wf_vp p -> 0 < ncpus -> char_gt K (vp_deg p) -> aux_ok ncpus (vp_deg p) aux ->
  forall k cs h msgs, (length cs + k)%nat = vp_nv p ->
  stage2 T k (pre p aux cs) (pre_chal cs) h msgs =
  let '(ms, rs, h') := hrun T (vp_deg p) k 0 (fun pt => vp_val p (cs ++ pt)) h in
  Some (pre p aux (cs ++ rs), pre_chal (cs ++ rs), h', msgs ++ ms).
Proof.
  intros Hw Hnc Hch Haux. induction k as [|k IH]; intros cs h msgs Hk.
  - cbn [stage2 hrun]. rewrite !app_nil_r. reflexivity.
  - cbn [stage2 hrun]. rewrite (prove_round_spec ncpus p aux cs k) by (auto; lia). cbn [obind fst snd].
    rewrite Nat.add_0_r. destruct (get_challenge T lbl_round _) as [r h'].
    rewrite <- pre_snoc with (c := r). rewrite <- (pre_chal_snoc cs r).
    rewrite IH by (rewrite app_length; cbn [length]; lia).
    rewrite (hrun_ext T _ 0 k (fun pt => vp_val p ((cs ++ [r]) ++ pt)) (fun pt => vp_val p (cs ++ r :: pt)))
      by (intros; rewrite <- app_assoc; reflexivity).
    destruct (hrun T _ k 0 (fun pt => vp_val p (cs ++ r :: pt)) h') as [[ms rs] h''].
    rewrite <- !app_assoc. reflexivity.
Qed.
End P.
