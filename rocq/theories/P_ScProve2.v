(** Proofs about the sumcheck prover of [M_Sumcheck], continued: round messages and the full run. *)
From Coq Require Import List Arith Lia Bool ZArith Field Permutation.
From Verif Require Import ListAux FieldDef PolyList MleMath M_Mle P_Mle P_Eq M_Interp P_Interp M_Sumcheck P_ScVerify P_ScProve.
Import ListNotations.

Section P.
Context {K : field}.
Add Field Kf_sp2 : (fth K).
Local Open Scope F_scope.

(** Well-formed virtual polynomials: what [add_mle_list] produces from non-constant tables. *)
Record wf_vp (p : @vp K) : Prop := {
  wv_deg : 0 < vp_deg p;
  wv_nv : 0 < vp_nv p;
  wv_mles : forall m, In m (vp_mles p) -> wf_mle m /\ 0 < num_vars m <= vp_nv p;
  wv_prods : forall c ix, In (c, ix) (vp_products p) ->
     0 < length ix /\ length ix <= 5 /\ length ix <= vp_deg p /\
     (forall i, In i ix -> i < length (vp_mles p)) /\
     (forall i j, In i ix -> In j ix ->
        num_vars (nth i (vp_mles p) dm) = num_vars (nth j (vp_mles p) dm))
}.

Definition aux_ok (ncpus deg : nat) (aux : list (list K * list K)) : Prop :=
  length aux = (deg - 1)%nat /\
  forall d, 1 <= d < deg -> exists w, nth_error aux (d - 1) = Some (nodes (1 + d), w) /\
                                   barycentric_weights ncpus (nodes (1 + d)) = Some w.
Lemma extrapolation_aux_ok ncpus deg : 0 < ncpus ->
  exists aux, extrapolation_aux ncpus deg = Some aux /\ aux_ok ncpus deg aux.
Proof.
  intros Hc. unfold extrapolation_aux.
  set (w := fun d => map (fun j => binv (1 : K) (pexc (length (nodes (K:=K) (1 + d))) j
              (fun i => nth j (nodes (1 + d)) 0 - nth i (nodes (1 + d)) 0))) (seq 0 (length (nodes (K:=K) (1 + d))))).
  exists (map (fun d => (nodes (1 + d), w d)) (seq 1 (deg - 1))). split.
  - apply omapM_seq. intros d _. change (map fnat (seq 0 (1 + d))) with (nodes (K:=K) (1 + d)).
    rewrite barycentric_weights_spec by auto. reflexivity.
  - split; [rewrite map_length, seq_length; reflexivity|]. intros d Hd. exists (w d). split.
    + rewrite nth_error_map. rewrite (nth_error_nth' (seq 1 (deg - 1)) 0%nat) by (rewrite seq_length; lia).
      rewrite seq_nth by lia. cbn [option_map]. do 3 f_equal; lia.
    + apply barycentric_weights_spec. auto.
Qed.

Lemma hsum_ext n (f g : list K -> K) : (forall pt, length pt = n -> f pt = g pt) -> hsum n f = hsum n g.
Proof. intros H. unfold hsum. apply sumn_ext. intros. apply H, bpt_length. Qed.
Lemma hsum_scal n c (f : list K -> K) : hsum n (fun pt => c * f pt) = c * hsum n f.
Proof. unfold hsum. apply sumn_scal. Qed.

Lemma mval_is_poly (m : dmle K) a b : is_poly 1 (fun x => mval m (a ++ x :: b)).
Proof.
  unfold mval. destruct (Nat.le_gt_cases (num_vars m) (length a)) as [H|H].
  - eapply is_poly_ext; [|apply (is_poly_const 1 (mle (tbl m) (firstn (num_vars m) a)))].
    intros x. cbv beta. rewrite firstn_app. replace (num_vars m - length a)%nat with 0%nat by lia.
    cbn [firstn]. rewrite app_nil_r. reflexivity.
  - eapply is_poly_ext; [|apply (mlef_is_poly (fun i => nth i (tbl m) 0) a (firstn (num_vars m - S (length a)) b))].
    intros x. cbv beta. rewrite firstn_app, (firstn_all2 a) by lia.
    replace (num_vars m - length a)%nat with (S (num_vars m - S (length a))) by lia. reflexivity.
Qed.
Lemma vp_val_indiv_deg p n : wf_vp p -> indiv_deg (vp_deg p) n (vp_val p).
Proof.
  intros Hw a b Hl. unfold vp_val, prod_val.
  apply (is_poly_fsum (vp_deg p) (vp_products p) (fun q x => fst q * fprod (map (fun i => mval (nth i (vp_mles p) dm) (a ++ x :: b)) (snd q)))).
  intros [c ix] Hin. destruct (wv_prods p Hw c ix Hin) as (_ & _ & Hd & _). cbn [fst snd].
  apply is_poly_scal. eapply is_poly_le; [exact Hd|].
  apply (is_poly_fprod ix (fun i x => mval (nth i (vp_mles p) dm) (a ++ x :: b))). intros i _. apply mval_is_poly.
Qed.

Definition fixl (cs : list K) (p : vp) : vp := with_mles p (map (fixms cs) (vp_mles p)).
Lemma fixl_nil p : fixl [] p = p.
Proof. unfold fixl, with_mles. rewrite map_id. destruct p; reflexivity. Qed.
Lemma nth_fixl cs p i : i < length (vp_mles p) ->
  nth i (vp_mles (fixl cs p)) dm = fixms cs (nth i (vp_mles p) dm).
Proof. intros H. unfold fixl, with_mles. cbn [vp_mles]. apply nth_map_lt. auto. Qed.

(** *** One product, then a whole round message *)
Lemma product_contrib_spec ncpus (p : vp) cs aux m c ix : wf_vp p -> 0 < ncpus -> char_gt K (vp_deg p) ->
  aux_ok ncpus (vp_deg p) aux -> vp_nv p = S (length cs + m) -> In (c, ix) (vp_products p) ->
  product_contrib (mkPs cs (S (length cs)) (fixl cs p) aux) (c, ix) =
  Some (map (fun t => hsum m (fun pt => c * fprod (map (fun i => mval (nth i (vp_mles p) dm) (cs ++ fnat t :: pt)) ix)))
            (seq 0 (vp_deg p + 1))).
Proof.
  intros Hw Hnc Hch Haux Hnv Hin.
  destruct (wv_prods p Hw c ix Hin) as (Hd0 & Hd5 & Hdd & Hix & Hsame).
  unfold product_contrib. cbn [ps_poly ps_round ps_aux].
  change (vp_deg (fixl cs p)) with (vp_deg p). change (vp_nv (fixl cs p)) with (vp_nv p).
  destruct (Nat.ltb_spec 5 (length ix)); [lia|].
  set (ms := vp_mles p) in *.
  assert (Hmw : forall i, In i ix -> wf_mle (nth i ms dm)).
  { intros i Hi. apply (wv_mles p Hw). apply nth_In. auto. }
  rewrite (omapM_all _ (fun i => tbl (fixms cs (nth i ms dm)))).
  2: { intros i Hi. pose proof (Hix i Hi) as Hlt.
       rewrite (nth_error_nth' (vp_mles (fixl cs p)) dm) by (unfold fixl, with_mles; cbn [vp_mles]; rewrite map_length; auto).
       cbn [obind]. rewrite nth_fixl by auto. apply (is_table_slice _ _ _ (fixms_wf cs _ (Hmw i Hi))). }
  cbn [obind].
  destruct ix as [|i0 ix'] eqn:Eix; [simpl in Hd0; lia|]. rewrite <- Eix in *.
  set (k := num_vars (fixms cs (nth i0 ms dm))).
  assert (Hi0 : In i0 ix) by (rewrite Eix; left; auto).
  assert (Hk : forall i, In i ix -> num_vars (fixms cs (nth i ms dm)) = k).
  { intros i Hi. unfold k. rewrite !fixms_nv. f_equal. apply Hsame; auto. }
  assert (Hkm : k <= S m).
  { unfold k. rewrite fixms_nv. pose proof (wv_mles p Hw (nth i0 ms dm) (nth_In ms dm (Hix i0 Hi0))). lia. }
  rewrite (cg_sum_spec _ _ k m).
  2: { rewrite Eix. discriminate. }
  2: { intros v Hv. apply in_map_iff in Hv. destruct Hv as (i & <- & Hi).
       destruct (fixms_wf cs _ (Hmw i Hi)) as (_ & _ & Hl). rewrite Hl, Hk by auto. reflexivity. }
  2: exact Hkm. 2: lia. 2: lia.
  cbn [obind]. rewrite map_length, map_map.
  set (F := fun x => hsum m (fun pt => c * fprod (map (fun i => mval (nth i ms dm) (cs ++ x :: pt)) ix))).
  rewrite (map_ext _ (fun t => F (fnat t))).
  2: { intros t. unfold F. rewrite hsum_scal, fmulC. f_equal. apply hsum_ext. intros pt Hpt. f_equal.
       rewrite map_map. apply map_ext_in. intros i Hi. rewrite <- (Hk i Hi).
       change (mval (fixms cs (nth i ms dm)) (fnat t :: pt) = mval (nth i ms dm) (cs ++ fnat t :: pt)).
       apply fixms_val. auto. }
  destruct (Nat.ltb_spec (vp_deg p) (length ix)); [lia|].
  rewrite (omapM_seq _ (fun i => F (fnat (length ix + 1 + i)))).
  2: { intros i Hi. destruct Haux as [_ Haux]. destruct (Haux (length ix) ltac:(lia)) as (w & Hw1 & Hw2).
       rewrite Hw1. cbn [obind fst snd].
       apply (extrapolate_poly None ncpus _ _ _ _ F); auto.
       - apply nodes_NoDup. eapply char_gt_le; [|exact Hch]. lia.
       - intros E. apply (f_equal (@length _)) in E. rewrite nodes_length in E. discriminate.
       - rewrite nodes_length, map_length, seq_length. lia.
       - rewrite nodes_length. replace (1 + length ix - 1)%nat with (length ix) by lia.
         apply (is_poly_sumn (length ix) (2 ^ m) (fun b x => c * fprod (map (fun i => mval (nth i ms dm) (cs ++ x :: bpt m b)) ix))).
         intros b _. apply is_poly_scal. apply (is_poly_fprod ix (fun i x => mval (nth i ms dm) (cs ++ x :: bpt m b))).
         intros; apply mval_is_poly.
       - rewrite nodes_length. intros t Ht. rewrite nodes_nth by auto. rewrite nth_map_seq by lia. reflexivity.
       - intros Hin'. apply in_map_iff in Hin'. destruct Hin' as (t & Et & Ht). apply in_seq in Ht.
         apply (fnat_inj (vp_deg p)) in Et; auto; lia. }
  cbn [obind]. f_equal.
  replace (vp_deg p + 1)%nat with (length ix + 1 + (vp_deg p - length ix))%nat by lia.
  rewrite (seq_app (length ix + 1)), map_app. f_equal. cbn [Nat.add].
  rewrite <- (map_map (fun i => (length ix + 1 + i)%nat) (fun t => F (fnat t))). f_equal.
  clear. generalize (length ix + 1)%nat as a. intros a. generalize (vp_deg p - length ix)%nat as n.
  intros n. symmetry. rewrite <- (Nat.add_0_r a) at 1. generalize 0%nat as z. induction n as [|n IH]; intros z; simpl; auto.
  f_equal. rewrite <- IH. f_equal. lia.
Qed.

Definition hmsg (deg m : nat) (g : list K -> K) : list K :=
  map (fun t => hsum m (fun pt => g (fnat t :: pt))) (seq 0 (deg + 1)).

Lemma round_message_spec ncpus (p : vp) cs aux m : wf_vp p -> 0 < ncpus -> char_gt K (vp_deg p) ->
  aux_ok ncpus (vp_deg p) aux -> vp_nv p = S (length cs + m) ->
  round_message (mkPs cs (S (length cs)) (fixl cs p) aux) =
  Some (hmsg (vp_deg p) m (fun pt => vp_val p (cs ++ pt))).
Proof.
  intros Hw Hnc Hch Haux Hnv. unfold round_message. cbn [ps_poly].
  change (vp_products (fixl cs p)) with (vp_products p). change (vp_deg (fixl cs p)) with (vp_deg p).
  rewrite repeat_map.
  set (G := fun (q : K * list nat) t => hsum m (fun pt => fst q * fprod (map (fun i => mval (nth i (vp_mles p) dm) (cs ++ fnat t :: pt)) (snd q)))).
  assert (H : forall l acc, (forall q, In q l -> In q (vp_products p)) ->
     ofold (fun acc prod => x <- product_contrib (mkPs cs (S (length cs)) (fixl cs p) aux) prod ;; Some (vec_add acc x)) l (map acc (seq 0 (vp_deg p + 1)))
     = Some (map (fun t => acc t + fsum (map (fun q => G q t) l)) (seq 0 (vp_deg p + 1)))).
  { induction l as [|[c ix] l IH]; intros acc Hin.
    - cbn [ofold map fsum]. f_equal. apply map_ext. intros; simpl; ring.
    - cbn [ofold]. rewrite (product_contrib_spec ncpus p cs aux m c ix) by (auto; apply Hin; left; auto).
      cbn [obind]. rewrite vec_add_map, IH by (intros; apply Hin; right; auto).
      f_equal. apply map_ext. intros t. cbn [map fsum]. unfold G at 2. cbn [fst snd]. simpl. ring. }
  rewrite H by auto. f_equal. unfold hmsg. apply map_ext. intros t.
  unfold G, hsum, vp_val, prod_val. rewrite (sumn_fsum _ _ (fun q b => fst q * fprod (map (fun i => mval (nth i (vp_mles p) dm) (cs ++ fnat t :: bpt m b)) (snd q)))).
  ring.
Qed.

(** *** One round of one thread.  [pre p aux cs] / [pre_chal cs] describe the state before the
    round following the challenges [cs] (the last one not yet consumed). *)
Definition post (p : vp) (aux : list (list K * list K)) (cs : list K) : pstate := mkPs cs (S (length cs)) (fixl cs p) aux.
Definition pre (p : vp) aux (cs : list K) : pstate :=
  match cs with [] => mkPs [] 0 p aux | _ => post p aux (removelast cs) end.
Definition pre_chal (cs : list K) : option K :=
  match cs with [] => None | c :: _ => Some (last cs c) end.
Lemma pre_snoc p aux cs c : pre p aux (cs ++ [c]) = post p aux cs.
Proof. unfold pre. destruct (cs ++ [c]) eqn:E; [destruct cs; discriminate|]. rewrite <- E, removelast_last. reflexivity. Qed.
Lemma last_default {A} (l : list A) d d' : l <> [] -> last l d = last l d'.
Proof.
  induction l as [|a l IH]; intros H; [contradiction|]. destruct l as [|b l]; auto.
  change (last (b :: l) d = last (b :: l) d'). apply IH. discriminate.
Qed.
Lemma pre_chal_snoc cs (c : K) : pre_chal (cs ++ [c]) = Some c.
Proof.
  unfold pre_chal. destruct (cs ++ [c]) as [|x xs] eqn:E; [destruct cs; discriminate|]. f_equal. rewrite <- E.
  apply last_last.
Qed.

Lemma fix_step p cs c f : wf_vp p ->
  (forall m, In m (vp_mles p) -> f (fixms cs m) = Some (fixm c (fixms cs m))) ->
  omapM f (vp_mles (fixl cs p)) = Some (vp_mles (fixl (cs ++ [c]) p)).
Proof.
  intros Hw Hf. unfold fixl, with_mles. cbn [vp_mles]. rewrite omapM_map.
  rewrite (omapM_all _ (fixms (cs ++ [c]))); auto.
  intros m Hm. rewrite Hf by auto. rewrite fixms_app. reflexivity.
Qed.

Lemma prove_round_spec ncpus (p : vp) aux cs m : wf_vp p -> 0 < ncpus -> char_gt K (vp_deg p) ->
  aux_ok ncpus (vp_deg p) aux -> vp_nv p = S (length cs + m) ->
  prove_round (pre p aux cs) (pre_chal cs) =
  Some (hmsg (vp_deg p) m (fun pt => vp_val p (cs ++ pt)), post p aux cs).
Proof.
  intros Hw Hnc Hch Haux Hnv. unfold prove_round.
  destruct cs as [|c0 cs0].
  - cbn [pre pre_chal ps_round ps_poly length] in *. destruct (Nat.ltb_spec 0 (vp_nv p)); [|lia].
    cbn [Nat.eqb obind ps_chals ps_round ps_poly ps_aux].
    pose proof (round_message_spec ncpus p [] aux m Hw Hnc Hch Haux Hnv) as H1.
    rewrite fixl_nil in H1. cbn [length] in H1. rewrite H1. cbn [obind]. unfold post. rewrite fixl_nil. reflexivity.
  - destruct (exists_last (l := c0 :: cs0) ltac:(discriminate)) as (cs & c & E). rewrite E in *. clear E c0 cs0.
    rewrite pre_snoc, pre_chal_snoc. rewrite app_length in Hnv. cbn [length] in Hnv.
    unfold post at 1 2 3 4 5 6 7. cbn [ps_chals ps_round ps_poly ps_aux].
    change (vp_nv (fixl cs p)) with (vp_nv p). destruct (Nat.ltb_spec (S (length cs)) (vp_nv p)); [|lia].
    cbn [Nat.eqb]. rewrite nth_error_app2 by lia. replace (S (length cs) - 1 - length cs)%nat with 0%nat by lia.
    cbn [nth_error obind].
    rewrite (fix_step p cs c) ; auto.
    2: { intros mm Hm. pose proof (wv_mles p Hw mm Hm) as [Hwm Hn].
         rewrite app_length. cbn [length]. destruct (Nat.eqb_spec (length cs + 1) 1) as [E|E].
         - apply fix_first_spec; [apply fixms_wf; auto|]. rewrite fixms_nv. lia.
         - apply fix_later_spec. apply fixms_wf. auto. }
    cbn [obind ps_chals ps_round ps_poly ps_aux].
    assert (E : mkPs (cs ++ [c]) (S (S (length cs))) (with_mles (fixl cs p) (vp_mles (fixl (cs ++ [c]) p))) aux = post p aux (cs ++ [c])).
    { unfold post. rewrite app_length. cbn [length]. f_equal. lia. }
    change (ps_chals (post p aux cs)) with cs. change (ps_round (post p aux cs)) with (S (length cs)).
    change (ps_poly (post p aux cs)) with (fixl cs p). change (ps_aux (post p aux cs)) with aux.
    rewrite E. unfold post at 1.
    rewrite (round_message_spec ncpus p (cs ++ [c]) aux m) by (auto; rewrite app_length; cbn [length]; lia).
    reflexivity.
Qed.
End P.
