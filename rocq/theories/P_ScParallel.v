(** Proofs about the data-parallel sumcheck prover of [M_ScParallel]: for every schedule it refines
    the honest prover. *)
From Coq Require Import List Arith Lia Bool ZArith Field Permutation.
From Verif Require Import ListAux FieldDef PolyList MleMath M_Mle P_Mle P_Eq M_Interp P_Interp M_Sumcheck M_ScParallel
  P_ScVerify P_ScProve P_ScProve2 P_ScBatch.
Import ListNotations.

Section P.
Context {K : field}.
Add Field Kf_spar : (fth K).
Local Open Scope F_scope.

Lemma par_array_sum_spec n (F : nat -> nat -> K) t :
  par_array_sum n (fun a => map (F a) (seq 0 n)) t = map (fun x => fsum (map (fun a => F a x) (flat t))) (seq 0 n).
Proof.
  induction t as [s|l IHl r IHr]; cbn [par_array_sum flat].
  - apply array_sum_spec.
  - rewrite IHl, IHr, vec_add_map. apply map_ext. intros x. rewrite map_app, fsum_app. reflexivity.
Qed.
Lemma par_array_sum_ext n (f g : nat -> list K) t : (forall a, f a = g a) -> par_array_sum n f t = par_array_sum n g t.
Proof.
  intros H. induction t as [s|l IHl r IHr]; cbn [par_array_sum]; [|congruence]. f_equal. apply map_ext. auto.
Qed.
Lemma par_array_sum_seq n (vs : list (list K)) t e : n = (length vs + 1)%nat -> Permutation (flat t) e ->
  par_array_sum n (cg_row vs) t = array_sum n (map (cg_row vs) (rev e)).
Proof.
  intros -> Hp.
  set (F := fun x t => fprod (map (fun v => lin v x (fnat t)) vs)).
  rewrite (par_array_sum_ext _ _ (fun a => map (F a) (seq 0 (length vs + 1)))) by (intros; apply cg_row_spec).
  rewrite (map_ext (cg_row vs) (fun a => map (F a) (seq 0 (length vs + 1)))) by (intros; apply cg_row_spec).
  rewrite par_array_sum_spec, array_sum_spec. apply map_ext. intros x.
  rewrite map_rev, fsum_rev. apply fsum_perm. apply Permutation_map. auto.
Qed.
Lemma cg_sum_par_eq t nv round (vs : list (list K)) :
  (forall v1 vs', vs = v1 :: vs' -> length v1 <> 1%nat -> Permutation (flat t) (evens (largest_even_below (length v1)))) ->
  cg_sum_par t nv round vs = cg_sum nv round vs.
Proof.
  intros H. destruct vs as [|v1 vs']; [reflexivity|]. unfold cg_sum_par, cg_sum. set (vs := v1 :: vs') in *.
  destruct (forallb _ vs && _); [|reflexivity].
  destruct (Nat.eqb_spec (length v1) 1) as [E|E]; [reflexivity|].
  rewrite (par_array_sum_seq _ vs t (evens (largest_even_below (length v1)))); [reflexivity|reflexivity|]. exact (H v1 vs' eq_refl E).
Qed.
Lemma extrapolate_par_eq ncpus (points weights evals : list K) x : 0 < ncpus ->
  inner_extrapolate (Some ncpus) points weights evals x = inner_extrapolate None points weights evals x.
Proof.
  intros H. unfold inner_extrapolate, batch_inversion. rewrite batch_inversion_spec, serial_bi_spec by auto. reflexivity.
Qed.

Lemma fix_first_par_spec r (m : dmle K) : wf_mle m -> 0 < num_vars m -> fix_first_par r m = Some (fixm r m).
Proof.
  intros Hm Hn. unfold fix_first_par, fixm. destruct (Nat.ltb_spec 0 (num_vars m)); [|lia].
  destruct (Nat.eqb_spec (num_vars m) 0); [lia|]. unfold wf_mle in Hm.
  pose proof (is_table_slice _ _ _ Hm) as Hs. destruct Hm as (_ & He & Hl).
  unfold fix_variables_parallel. cbn [length]. destruct (Nat.leb_spec 1 (num_vars m)); [|lia].
  rewrite Hs. cbn [obind]. destruct (num_vars m) as [|n']; [lia|]. rewrite (chunk_fix_table n') by auto. cbn [obind].
  replace (S n' - 1)%nat with n' by lia.
  rewrite mkExt_ok by (rewrite low_table_length; cbn [length]; f_equal; lia). cbn [obind fvp_loop num_vars].
  rewrite Nat.eqb_refl. reflexivity.
Qed.
Lemma fix_later_par_spec order r (m : dmle K) l : wf_mle m -> evaluations m = Ext l ->
  (0 < num_vars m -> valid_order (2 ^ num_vars m) order) -> fix_later_par order r m = Some (fixm r m).
Proof.
  intros (_ & _ & Hl) El Hv. unfold fix_later_par, fixm. destruct (num_vars m) as [|n] eqn:En; [reflexivity|].
  cbn [Nat.ltb Nat.leb Nat.eqb]. destruct m as [e nv]. cbn [num_vars evaluations] in *. subst nv e.
  unfold tbl in *. cbn [evaluations] in *.
  rewrite fvipp_ext; auto; [cbn [length]; lia|]. intros _. rewrite Hl. apply Hv. lia.
Qed.

Lemma omapi_all {A B} (f : nat -> A -> option B) (g : A -> B) l d :
  (forall i, i < length l -> f i (nth i l d) = Some (g (nth i l d))) -> omapi f l = Some (map g l).
Proof.
  intros H. unfold omapi.
  rewrite (omapM_all _ (fun ia => g (snd ia))).
  - f_equal. rewrite <- map_map. f_equal. clear. generalize 0%nat as z. induction l as [|a l IH]; intros z; simpl; auto. rewrite IH. reflexivity.
  - intros [i a] Hin. cbn [fst snd]. destruct (In_nth _ _ (0%nat, d) Hin) as (k & Hk & Ek).
    rewrite combine_length, seq_length, Nat.min_id in Hk. rewrite combine_nth in Ek by apply seq_length.
    rewrite seq_nth in Ek by lia. injection Ek as <- <-. apply H. auto.
Qed.

(** Valid schedules of the round following [k] challenges. *)
Definition prod_nv (p : @vp K) (q : nat) : nat :=
  num_vars (nth (nth 0 (snd (nth q (vp_products p) (0, []))) 0%nat) (vp_mles p) dm).
Record valid_rsched (p : @vp K) (k : nat) (sc : rsched) : Prop := {
  vr_fix : 2 <= k -> forall i, i < length (vp_mles p) -> k <= num_vars (nth i (vp_mles p) dm) ->
     valid_order (2 ^ (num_vars (nth i (vp_mles p) dm) - (k - 1))) (rs_fix sc i);
  vr_sum : forall q, q < length (vp_products p) -> k < prod_nv p q ->
     Permutation (flat (rs_sum sc q)) (evens (2 ^ (prod_nv p q - k)));
  vr_prods : Permutation (flat (rs_prods sc)) (seq 0 (length (vp_products p)))
}.

Lemma product_contrib_par_eq ncpus sc (p : @vp K) cs aux q : 0 < ncpus -> wf_vp p ->
  valid_rsched p (length cs) sc -> q < length (vp_products p) ->
  let s := mkPs cs (S (length cs)) (fixl cs p) aux in
  product_contrib_par ncpus sc s q = product_contrib s (nth q (vp_products p) (0, [])).
Proof.
  intros Hnc Hw Hv Hq s. unfold product_contrib_par, product_contrib.
  change (vp_products (ps_poly s)) with (vp_products p). rewrite (nth_error_nth' _ (0, [])) by auto. cbn [obind].
  pose proof (vr_sum _ _ _ Hv q Hq) as Hsum. unfold prod_nv in Hsum.
  assert (Hin : In (nth q (vp_products p) (0, [])) (vp_products p)) by (apply nth_In; auto).
  destruct (nth q (vp_products p) (0, [])) as [c ix]. cbn [snd] in Hsum.
  destruct (wv_prods p Hw c ix Hin) as (Hd0 & _ & _ & Hix & _).
  destruct (5 <? length ix)%nat; [reflexivity|].
  destruct (omapM (fun i => m <- nth_error (vp_mles (ps_poly s)) i ;; op_slice m) ix) as [sl|] eqn:Esl; [|reflexivity].
  cbn [obind]. rewrite cg_sum_par_eq.
  2: { intros v1 vs' Evs Hv1. destruct ix as [|i0 ix']; [simpl in Hd0; lia|]. cbn [omapM] in Esl. cbn [nth] in Hsum.
       pose proof (Hix i0 (or_introl eq_refl)) as Hi0.
       change (vp_mles (ps_poly s)) with (vp_mles (fixl cs p)) in Esl.
       rewrite (nth_error_nth' _ dm) in Esl by (unfold fixl, with_mles; cbn [vp_mles]; rewrite map_length; auto).
       rewrite nth_fixl in Esl by auto. cbn [obind] in Esl.
       assert (Hwm : wf_mle (nth i0 (vp_mles p) dm)) by (apply (wv_mles p Hw); apply nth_In; auto).
       pose proof (fixms_wf cs _ Hwm) as Hwf. rewrite (is_table_slice _ _ _ Hwf) in Esl. cbn [obind] in Esl.
       destruct (omapM _ ix') as [sl'|]; [|discriminate]. cbn [obind] in Esl. injection Esl as <-. injection Evs as <- <-.
       destruct Hwf as (_ & _ & Hl). rewrite fixms_nv in Hl. rewrite Hl in Hv1 |- *.
       destruct (num_vars (nth i0 (vp_mles p) dm) - length cs)%nat as [|n] eqn:En; [simpl in Hv1; lia|].
       replace (largest_even_below (2 ^ S n)) with (2 ^ S n)%nat.
       2: { unfold largest_even_below. rewrite Nat.pow_succ_r'. rewrite Nat.even_mul. reflexivity. }
       apply Hsum. lia. }
  destruct (cg_sum _ _ sl) as [sum0|]; [|reflexivity]. cbn [obind].
  destruct (vp_deg (ps_poly s) <? length ix)%nat; [reflexivity|].
  f_equal. clear - Hnc. generalize (seq 0 (vp_deg (ps_poly s) - length ix)) as l.
  induction l as [|a l IH]; [reflexivity|]. cbn [omapM]. rewrite IH.
  destruct (nth_error (ps_aux s) (length ix - 1)) as [au|]; [|reflexivity]. cbn [obind].
  rewrite extrapolate_par_eq by auto. reflexivity.
Qed.

Lemma round_message_par_spec ncpus sc (p : @vp K) cs aux m : wf_vp p -> 0 < ncpus -> char_gt K (vp_deg p) ->
  aux_ok ncpus (vp_deg p) aux -> vp_nv p = S (length cs + m) -> valid_rsched p (length cs) sc ->
  round_message_tree ncpus sc (mkPs cs (S (length cs)) (fixl cs p) aux) (rs_prods sc) =
  Some (hmsg (vp_deg p) m (fun pt => vp_val p (cs ++ pt))).
Proof.
  intros Hw Hnc Hch Haux Hnv Hv.
  set (s := mkPs cs (S (length cs)) (fixl cs p) aux).
  set (G := fun q t => hsum m (fun pt => fst (nth q (vp_products p) (0, [])) *
       fprod (map (fun i => mval (nth i (vp_mles p) dm) (cs ++ fnat t :: pt)) (snd (nth q (vp_products p) (0, [])))))).
  assert (Hc : forall q, q < length (vp_products p) -> product_contrib_par ncpus sc s q = Some (map (G q) (seq 0 (vp_deg p + 1)))).
  { intros q Hq. pose proof (product_contrib_par_eq ncpus sc p cs aux q Hnc Hw Hv Hq) as Hpe. cbv zeta in Hpe.
    unfold s. rewrite Hpe. unfold G.
    destruct (nth q (vp_products p) (0, [])) as [c ix] eqn:E. cbn [fst snd]. apply (product_contrib_spec ncpus); auto.
    rewrite <- E. apply nth_In. auto. }
  assert (Ht : forall t, (forall q, In q (flat t) -> q < length (vp_products p)) ->
     round_message_tree ncpus sc s t = Some (map (fun t' => fsum (map (fun q => G q t') (flat t))) (seq 0 (vp_deg p + 1)))).
  { induction t as [seg|l IHl r IHr]; cbn [round_message_tree flat]; intros Hin.
    - change (vp_deg (ps_poly s)) with (vp_deg p). rewrite repeat_map.
      assert (Hof : forall l acc, (forall q, In q l -> q < length (vp_products p)) ->
        ofold (fun acc q => x <- product_contrib_par ncpus sc s q ;; Some (vec_add acc x)) l (map acc (seq 0 (vp_deg p + 1)))
        = Some (map (fun t => acc t + fsum (map (fun q => G q t) l)) (seq 0 (vp_deg p + 1)))).
      { induction l as [|q l IH]; intros acc Hin'.
        - cbn [ofold]. f_equal. apply map_ext. intros; simpl; ring.
        - cbn [ofold]. rewrite Hc by (apply Hin'; left; auto). cbn [obind]. rewrite vec_add_map, IH by (intros; apply Hin'; right; auto).
          f_equal. apply map_ext. intros; simpl; ring. }
      rewrite Hof by auto. f_equal. apply map_ext. intros; ring.
    - rewrite IHl, IHr by (intros; apply Hin; apply in_or_app; auto). cbn [obind]. rewrite vec_add_map. f_equal.
      apply map_ext. intros t. rewrite map_app, fsum_app. reflexivity. }
  pose proof (vr_prods _ _ _ Hv) as Hp.
  rewrite Ht.
  2: { intros q Hq. apply (Permutation_in _ Hp) in Hq. apply in_seq in Hq. lia. }
  f_equal. unfold hmsg. apply map_ext. intros t.
  rewrite (fsum_perm _ (map (fun q => G q t) (seq 0 (length (vp_products p))))) by (apply Permutation_map; auto).
  unfold hsum, vp_val, prod_val.
  rewrite (sumn_fsum _ _ (fun q b => fst q * fprod (map (fun i => mval (nth i (vp_mles p) dm) (cs ++ fnat t :: bpt m b)) (snd q)))).
  rewrite (list_as_map (vp_products p) (0, [])) at 2. rewrite map_map. reflexivity.
Qed.

Lemma prove_round_par_spec ncpus sc (p : @vp K) aux cs m : wf_vp p -> 0 < ncpus -> char_gt K (vp_deg p) ->
  aux_ok ncpus (vp_deg p) aux -> vp_nv p = S (length cs + m) -> valid_rsched p (length cs) sc ->
  prove_round_par ncpus sc (pre p aux cs) (pre_chal cs) =
  Some (hmsg (vp_deg p) m (fun pt => vp_val p (cs ++ pt)), post p aux cs).
Proof.
  intros Hw Hnc Hch Haux Hnv Hv. unfold prove_round_par.
  destruct cs as [|c0 cs0].
  - cbn [pre pre_chal ps_round ps_poly length] in *. destruct (Nat.ltb_spec 0 (vp_nv p)); [|lia].
    cbn [Nat.eqb obind ps_chals ps_round ps_poly ps_aux].
    pose proof (round_message_par_spec ncpus sc p [] aux m Hw Hnc Hch Haux Hnv Hv) as H1.
    rewrite fixl_nil in H1. cbn [length] in H1. rewrite H1. cbn [obind]. unfold post. rewrite fixl_nil. reflexivity.
  - destruct (exists_last (l := c0 :: cs0) ltac:(discriminate)) as (cs & c & E). rewrite E in *. clear E c0 cs0.
    rewrite pre_snoc, pre_chal_snoc. pose proof Hv as Hv'. rewrite app_length in Hnv, Hv. cbn [length] in Hnv, Hv.
    change (ps_chals (post p aux cs)) with cs. change (ps_round (post p aux cs)) with (S (length cs)).
    change (ps_poly (post p aux cs)) with (fixl cs p). change (ps_aux (post p aux cs)) with aux.
    change (vp_nv (fixl cs p)) with (vp_nv p). destruct (Nat.ltb_spec (S (length cs)) (vp_nv p)); [|lia].
    cbn [Nat.eqb]. rewrite nth_error_app2 by lia. replace (S (length cs) - 1 - length cs)%nat with 0%nat by lia.
    cbn [nth_error obind].
    assert (Hfix : (if (length (cs ++ [c]) =? 1)%nat then omapM (fix_first_par c) (vp_mles (fixl cs p))
                    else omapi (fun i => fix_later_par (rs_fix sc i) c) (vp_mles (fixl cs p))) = Some (vp_mles (fixl (cs ++ [c]) p))).
    { rewrite app_length. cbn [length]. destruct (Nat.eqb_spec (length cs + 1) 1) as [E|E].
      - apply fix_step; auto. intros mm Hm. pose proof (wv_mles p Hw mm Hm) as [Hwm Hn].
        apply fix_first_par_spec; [apply fixms_wf; auto|]. rewrite fixms_nv. lia.
      - rewrite (omapi_all _ (fixm c) _ dm).
        + f_equal. unfold fixl, with_mles. cbn [vp_mles]. rewrite map_map. apply map_ext. intros mm. rewrite fixms_app. reflexivity.
        + intros i Hi. unfold fixl, with_mles in Hi. cbn [vp_mles] in Hi. rewrite map_length in Hi.
          rewrite nth_fixl by auto.
          pose proof (wv_mles p Hw _ (nth_In _ dm Hi)) as [Hwm Hn].
          destruct (fixms_ext cs (nth i (vp_mles p) dm)) as [l El]; [intros ->; simpl in E; lia|lia|].
          apply (fix_later_par_spec _ _ _ l); auto; [apply fixms_wf; auto|]. rewrite fixms_nv. intros Hpos.
          replace (num_vars (nth i (vp_mles p) dm) - length cs)%nat with (num_vars (nth i (vp_mles p) dm) - (length cs + 1 - 1))%nat by lia.
          apply (vr_fix _ _ _ Hv); auto; lia. }
    rewrite Hfix. cbn [obind ps_chals ps_round ps_poly ps_aux].
    assert (E : mkPs (cs ++ [c]) (S (S (length cs))) (with_mles (fixl cs p) (vp_mles (fixl (cs ++ [c]) p))) aux = post p aux (cs ++ [c])).
    { unfold post. rewrite app_length. cbn [length]. f_equal. lia. }
    rewrite E. unfold post at 1.
    rewrite (round_message_par_spec ncpus sc p (cs ++ [c]) aux m) by (auto; rewrite app_length; cbn [length]; lia).
    reflexivity.
Qed.

Lemma par_rounds_spec ncpus (p : @vp K) aux T scs : wf_vp p -> 0 < ncpus -> char_gt K (vp_deg p) -> aux_ok ncpus (vp_deg p) aux ->
  (forall i, i < vp_nv p -> valid_rsched p i (scs i)) ->
  forall k cs h msgs, (length cs + k)%nat = vp_nv p ->
  par_rounds T ncpus k (length cs) scs (pre p aux cs) (pre_chal cs) h msgs =
  let '(ms, rs, h') := hrun T (vp_deg p) k 0 (fun pt => vp_val p (cs ++ pt)) h in
  Some (pre p aux (cs ++ rs), pre_chal (cs ++ rs), h', msgs ++ ms).
Proof.
  intros Hw Hnc Hch Haux Hv. induction k as [|k IH]; intros cs h msgs Hk.
  - cbn [par_rounds hrun]. rewrite !app_nil_r. reflexivity.
  - cbn [par_rounds hrun]. rewrite (prove_round_par_spec ncpus (scs (length cs)) p aux cs k) by (auto; try apply Hv; lia). cbn [obind fst snd].
    rewrite Nat.add_0_r. destruct (get_challenge T lbl_round _) as [r h'].
    rewrite <- pre_snoc with (c := r). rewrite <- (pre_chal_snoc cs r).
    replace (S (length cs)) with (length (cs ++ [r])) by (rewrite app_length; cbn [length]; lia).
    rewrite IH by (rewrite app_length; cbn [length]; lia).
    rewrite (hrun_ext T _ 0 k (fun pt => vp_val p ((cs ++ [r]) ++ pt)) (fun pt => vp_val p (cs ++ r :: pt)))
      by (intros; rewrite <- app_assoc; reflexivity).
    destruct (hrun T _ k 0 (fun pt => vp_val p (cs ++ r :: pt)) h') as [[ms rs] h''].
    rewrite <- !app_assoc. reflexivity.
Qed.

Lemma prove_parallel_refines (T : @hist K -> K) ncpus scs p h ms rs h' :
  0 < ncpus -> char_gt K (vp_deg p) -> wf_vp p -> (forall i, i < vp_nv p -> valid_rsched p i (scs i)) ->
  honest_run T (vp_deg p) (vp_nv p) (vp_val p) (h_init (vp_nv p) (vp_deg p) h) = (ms, rs, h') ->
  exists st, prove_parallel T ncpus scs p h = Some (mkProof rs ms, st, h') /\
    get_mle_final_evaluations st = Some (map (fun m => mval m rs) (vp_mles p)).
Proof.
  intros Hnc Hch Hw Hv Hrun. unfold prove_parallel. pose proof (wv_nv p Hw) as Hn.
  destruct (Nat.eqb_spec (vp_nv p) 0); [lia|].
  destruct (extrapolation_aux_ok (K:=K) ncpus (vp_deg p) Hnc) as (aux & Ea & Haux). rewrite Ea. cbn [obind].
  change (EvBytes (le_bytes8 (vp_deg p)) :: EvBytes (le_bytes8 (vp_nv p)) :: h) with (h_init (vp_nv p) (vp_deg p) h).
  pose proof (par_rounds_spec ncpus p aux T scs Hw Hnc Hch Haux Hv (vp_nv p) [] (h_init (vp_nv p) (vp_deg p) h) [] eq_refl) as Hr.
  cbn [length pre pre_chal app] in Hr. rewrite Hr. rewrite honest_hrun in Hrun.
  change (fun pt => vp_val p pt) with (vp_val p).
  pose proof (hrun_length T (vp_deg p) 0 (vp_nv p) (vp_val p) (h_init (vp_nv p) (vp_deg p) h)) as Hl.
  rewrite Hrun in *. destruct Hl as [_ Hl]. cbn [obind].
  rewrite finish_main_ok; auto; [|intros ->; simpl in Hl; lia]. cbn [obind].
  exists (fin aux p rs). split; [reflexivity|]. apply final_evals_fin; auto.
  intros m Hm. pose proof (wv_mles p Hw m Hm). lia.
Qed.
End P.
