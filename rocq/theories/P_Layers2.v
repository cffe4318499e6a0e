(** Proofs about [M_Layers]: the dense layer and the matrix-vector helper. *)
From Coq Require Import List Arith Lia Bool ZArith Field Permutation.
From Verif Require Import ListAux FieldDef PolyList MleMath M_Mle P_Mle P_Eq M_Interp P_Interp M_Sumcheck
  P_ScVerify P_ScProve P_ScProve2 P_ScBatch P_ScFinal M_ScParallel P_ScParallel P_ScApi P_Count M_SamePoly P_SamePoly
  M_Tensor P_Tensor P_Tensor2 P_Tensor3 M_Pad P_Pad P_Pad2 M_Layers P_Layers.
Import ListNotations.

Section P.
Context {K : field}.
Add Field Kf_lay2 : (fth K).
Local Open Scope F_scope.

(** *** Specification *)
(** A claim holds of a table: the point addresses the whole table and the value is that of its extension. *)
Definition claim_true (l : list K) (c : @claim K) : Prop :=
  length l = 2 ^ length (cl_point c) /\ cl_eval c = mle l (cl_point c).
(** [y] = matrix * [x] + [bias] for a matrix of 2^a rows and 2^b columns stored row by row. *)
Definition affine (a b : nat) (mat bias x y : list K) : Prop :=
  length mat = 2 ^ (a + b) /\ length bias = 2 ^ a /\ length x = 2 ^ b /\ length y = 2 ^ a /\
  forall i, i < 2 ^ a -> nth i y 0 = sumn (2 ^ b) (fun j => nth (i * 2 ^ b + j) mat 0 * nth j x 0) + nth i bias 0.

Lemma matvec_hsum a b (mat x rp : list K) : length mat = 2 ^ (a + b) -> length rp = a ->
  hsum b (prodf [(fun pt => mle mat (pt ++ rp)); mle x])
  = mlef (fun i => sumn (2 ^ b) (fun j => nth (i * 2 ^ b + j) mat 0 * nth j x 0)) rp.
Proof.
  intros Lm Lr. unfold hsum. rewrite mlef_sumn. apply sumn_ext. intros t Ht. unfold prodf. cbn [map fprod].
  unfold mle at 1. rewrite mlef_app, bpt_length. unfold mle at 1. rewrite (mlef_bool b t) by auto.
  rewrite mlef_scal_r. rewrite (mlef_ext _ (fun i => nth (i * 2 ^ b + t) mat 0)); [ring|].
  intros i Hi. rewrite mlef_bool by auto. f_equal. lia.
Qed.

Lemma nth0_in {A B} (a : A) (x y : B) l : In (a, x) ((a, x) :: l). Proof. left; auto. Qed.

Lemma dense_sound (T : @hist K -> K) a b mat bias x y last pf h c com h' :
  char_gt K 2 -> 0 < b -> affine a b mat bias x y ->
  dense_verify T b last pf h = Some (c, com, h') -> length (dp_claims pf) = 2 ->
  (forall w, In (WeightPoly, w) com -> claim_true mat w) -> (forall w, In (BiasPoly, w) com -> claim_true bias w) ->
  claim_true x c ->
  claim_true y last \/
  root_event T b 2 (prodf [(fun pt => mle mat (pt ++ cl_point last)); mle x]) h (dp_sumcheck pf).
Proof.
  intros Hch Hb (Lm & Lb & Lx & Ly & Hy) Hv Hlen Hw Hbias Hx. unfold dense_verify in Hv.
  destruct (verify T _ (dp_sumcheck pf) b 2 h) as [[[rs e] h2]|] eqn:Ev; [|discriminate]. cbn [obind] in Hv.
  destruct (dp_claims pf) as [|e0 [|e1 [|]]]; try discriminate. cbn [nth_error obind] in Hv.
  destruct (virtual_claim [e0; e1] =? e) eqn:Ee; [|discriminate]. apply feqb_true in Ee. rewrite virtual_claim_fprod in Ee. cbn [fprod] in Ee.
  assert (Ec : c = mkClaim rs e1) by congruence.
  assert (Ecom : com = [(WeightPoly, mkClaim (rs ++ cl_point last) e0); (BiasPoly, mkClaim (cl_point last) (dp_bias_eval pf))]) by congruence.
  clear Hv. subst c com.
  destruct (Hw _ (or_introl eq_refl)) as [Lw Ew]. destruct (Hbias _ (or_intror (or_introl eq_refl))) as [Lbb Eb].
  destruct Hx as [Lxx Ex]. cbn [cl_point cl_eval] in *.
  assert (Lr : length (cl_point last) = a) by (apply (Nat.pow_inj_r 2); lia).
  destruct (product_sound T (cl_eval last - dp_bias_eval pf) (dp_sumcheck pf) b [(fun pt => mle mat (pt ++ cl_point last)); mle x] h rs e h2 Hch Hb) as [E|R].
  - intros f [<-|[<-|[]]]; [apply multilin_mle_suffix|apply multilin_mle].
  - exact Ev.
  - unfold prodf. cbn [map fprod]. rewrite <- Ew, <- Ex, <- Ee. reflexivity.
  - left. split; [rewrite Ly, Lr; reflexivity|].
    rewrite (matvec_hsum a b) in E by auto.
    replace (cl_eval last) with (cl_eval last - dp_bias_eval pf + dp_bias_eval pf) by ring. rewrite E, Eb.
    unfold mle. rewrite <- mlef_add. apply mlef_ext. intros i Hi. rewrite Lr in Hi. rewrite Hy by auto. reflexivity.
  - right. exact R.
Qed.

(** *** Completeness *)
Lemma ilog2_pow n : ilog2 (2 ^ n) = Some n.
Proof. unfold ilog2. rewrite Nat.log2_pow2 by lia. pose proof (pow2_pos n). destruct (Nat.ltb_spec 0 (2 ^ n)); [reflexivity|lia]. Qed.
Lemma is_pow2_pow n : is_pow2 (2 ^ n) = true.
Proof. unfold is_pow2. rewrite Nat.log2_pow2 by lia. rewrite Nat.eqb_refl, andb_true_r. apply Nat.ltb_lt. apply pow2_pos. Qed.
Lemma nrows_pow {A} (t : ten A) a b : sh t = [2 ^ a; 2 ^ b]%nat -> nrows_2d t = Some (2 ^ a)%nat.
Proof. intros E. unfold nrows_2d. rewrite E. pose proof (pow2_pos a). destruct (Nat.eqb_spec (2 ^ a) 0); [lia|reflexivity]. Qed.
Lemma ncols_pow {A} (t : ten A) a b : sh t = [2 ^ a; 2 ^ b]%nat -> ncols_2d t = Some (2 ^ b)%nat.
Proof. intros E. unfold ncols_2d. rewrite E. pose proof (pow2_pos b). destruct (Nat.eqb_spec (2 ^ b) 0); [lia|reflexivity]. Qed.
Lemma to_mle_2d_ok (t : ten K) a b : sh t = [2 ^ a; 2 ^ b]%nat -> length (dat t) = 2 ^ (a + b) ->
  to_mle_2d t = Some (mkMle (Ext (dat t)) (a + b)).
Proof.
  intros E L. unfold to_mle_2d. rewrite (nrows_pow t a b), (ncols_pow t a b) by auto. unfold is_matrix. rewrite E. cbn [length Nat.eqb obind].
  rewrite !is_pow2_pow, !Nat.log2_pow2 by lia. cbn [andb]. unfold from_evaluations_ext_vec. rewrite L, Nat.eqb_refl. reflexivity.
Qed.
Lemma evaluate_ext sched n (l : list K) pt : length l = 2 ^ n -> length pt = n -> valid_sched n sched ->
  evaluate sched (mkMle (Ext l) n) pt = Some (mle l pt).
Proof. intros L P V. apply evaluate_spec with (n := n); auto. apply ext_is_table. auto. Qed.

Lemma dense_complete (T : @hist K -> K) ncpus scs es (d : dense (A := K)) a b x (input output : ten K) last h :
  0 < ncpus -> char_gt K 2 -> 0 < b ->
  sh (d_mat d) = [2 ^ a; 2 ^ b]%nat -> dat input = x ->
  affine a b (dat (d_mat d)) (dat (d_bias d)) x (dat output) -> claim_true (dat output) last ->
  valid_sched a es -> (forall i, i < b -> valid_rsched (K := K) (prod_shape 2 b) i (scs i)) ->
  exists c com pf h', dense_prove T ncpus scs es d input output last h = Some (c, com, pf, h') /\
    dense_ctx d = Some b /\ length (dp_claims pf) = 2 /\ length (cl_point c) = b /\
    claim_true x c /\ (forall w, In (WeightPoly, w) com -> claim_true (dat (d_mat d)) w) /\
    (forall w, In (BiasPoly, w) com -> claim_true (dat (d_bias d)) w) /\
    ((forall r, In r (cl_point c) -> not_node 2 r) -> dense_verify T b last pf h = Some (c, com, h')).
Proof.
  intros Hnc Hch Hb Es <- (Lm & Lb & Lx & Ly & Hy) [Llast Elast] Ves Hsc.
  assert (Lr : length (cl_point last) = a) by (apply (Nat.pow_inj_r 2); lia).
  unfold dense_prove. rewrite (nrows_pow _ a b Es), (ncols_pow _ a b Es). cbn [obind].
  rewrite Lb, !ilog2_pow. cbn [obind]. rewrite Ly, Lx, Lr, !Nat.eqb_refl. cbn [andb].
  rewrite (into_mle_ext_ok a) by auto. cbn [obind]. rewrite (evaluate_ext es a) by auto. cbn [obind].
  rewrite (to_mle_2d_ok _ a b) by auto. cbn [obind]. rewrite fhvip_ext by (rewrite ?Lr; auto; lia). cbn [obind].
  rewrite Lr. replace (a + b - a)%nat with b by lia. rewrite (into_mle_ext_ok b) by auto. cbn [obind num_vars]. rewrite Nat.eqb_refl.
  destruct (product_prove_ok T ncpus scs b [high_table (a + b) (dat (d_mat d)) (cl_point last); dat input] h) as (pf & h' & Ep & Hl & Hver); auto.
  { cbn [length]. lia. }
  { intros l [<-|[<-|[]]]; [rewrite high_table_length, Lr; f_equal; lia|auto]. }
  cbn [map] in Ep. rewrite Ep. cbn [obind nth_error].
  assert (Ht : forall pt, length pt = b -> mle (high_table (a + b) (dat (d_mat d)) (cl_point last)) pt = mle (dat (d_mat d)) (pt ++ cl_point last)).
  { intros pt Hp. apply high_then_eval; auto. rewrite app_length. lia. }
  do 4 eexists. split; [reflexivity|]. cbn [dp_claims cl_point length].
  split; [unfold dense_ctx; rewrite (ncols_pow _ a b Es); apply ilog2_pow|].
  split; [reflexivity|]. split; [auto|].
  split. { split; cbn [cl_point cl_eval]; [rewrite Hl; auto|reflexivity]. }
  split.
  { intros w [E|[E|[]]]; [|discriminate]. assert (w = mkClaim (pf_point pf ++ cl_point last) (mle (high_table (a + b) (dat (d_mat d)) (cl_point last)) (pf_point pf))) by congruence. subst w.
    split; cbn [cl_point cl_eval]; [rewrite app_length, Hl, Lr, Lm; f_equal; lia|apply Ht; auto]. }
  split.
  { intros w [E|[E|[]]]; [discriminate|]. assert (w = mkClaim (cl_point last) (mle (dat (d_bias d)) (cl_point last))) by congruence. subst w.
    split; cbn [cl_point cl_eval]; [rewrite Lr; auto|reflexivity]. }
  intros Hr. unfold dense_verify. cbn [dp_bias_eval dp_sumcheck dp_claims nth_error].
  assert (Hs : cl_eval last - mle (dat (d_bias d)) (cl_point last)
    = hsum b (prodf (map mle [high_table (a + b) (dat (d_mat d)) (cl_point last); dat input]))).
  { transitivity (hsum b (prodf [(fun pt => mle (dat (d_mat d)) (pt ++ cl_point last)); mle (dat input)])).
    - rewrite (matvec_hsum a b) by auto. rewrite Elast. unfold mle. rewrite <- mlef_sub. apply mlef_ext. intros i Hi. rewrite Lr in Hi.
      rewrite Hy by auto. ring.
    - apply hsum_ext. intros pt Hp. unfold prodf. cbn [map fprod]. rewrite Ht by auto. reflexivity. }
  rewrite Hs. cbn [length] in Hver. rewrite Hver by auto. cbn [obind].
  replace (virtual_claim [mle (high_table (a + b) (dat (d_mat d)) (cl_point last)) (pf_point pf); mle (dat input) (pf_point pf)])
    with (prodf (map mle [high_table (a + b) (dat (d_mat d)) (cl_point last); dat input]) (pf_point pf)).
  2: { rewrite virtual_claim_fprod. reflexivity. }
  rewrite feqb_refl. cbn [obind nth_error]. reflexivity.
Qed.

(** *** The unchecked number of evaluations *)
(** Any claimed value passes the sumcheck, with an expected evaluation that is only what the prover's messages make it. *)
Definition bogus (y : K) (n : nat) (pt : list K) : K := y * eqp (bpt n 0) pt.
Lemma bogus_sum y n : hsum n (bogus y n) = y.
Proof.
  unfold hsum, bogus. rewrite (sumn_ext _ _ (fun b => if Nat.eqb b 0 then y else 0)).
  - rewrite (FieldDef.sumn_single (2 ^ n) 0 (fun b => if Nat.eqb b 0 then y else 0)); [reflexivity|apply pow2_pos|].
    intros i Hi Hne. destruct (Nat.eqb_spec i 0); [contradiction|reflexivity].
  - intros b Hb. rewrite (eqp_bool n 0 b) by (auto; apply pow2_pos). rewrite Nat.eqb_sym. destruct (Nat.eqb b 0); ring.
Qed.
Lemma bogus_deg y n d m : 0 < d -> indiv_deg d m (bogus y n).
Proof.
  intros Hd a b _. unfold bogus. replace d with (1 + (d - 1))%nat by lia.
  eapply is_poly_ext; [|apply (is_poly_mul 1 (d - 1) (fun x => y * eqp (bpt n 0) (a ++ x :: b)) (fun _ => 1))].
  - intros x. cbv beta. ring.
  - apply is_poly_scal. apply eqp_is_poly.
  - apply is_poly_const.
Qed.
Definition bogus_messages (T : @hist K -> K) (y : K) (n d : nat) (h : hist) : list (list K) :=
  fst (fst (honest_run T d n (bogus y n) (h_init n d h))).
Lemma bogus_verify (T : @hist K -> K) y n d h pt : char_gt K d -> 0 < d -> 0 < n ->
  (forall r, In r (sc_point T n d h (mkProof pt (bogus_messages T y n d h))) -> not_node d r) ->
  exists e h', verify T y (mkProof pt (bogus_messages T y n d h)) n d h
    = Some (sc_point T n d h (mkProof pt (bogus_messages T y n d h)), e, h').
Proof.
  intros Hc Hd Hn Hr. unfold bogus_messages in *.
  pose proof (honest_run_length T d n (bogus y n) (h_init n d h)) as Hl. pose proof (honest_fs T d n (bogus y n) (h_init n d h)) as Hf.
  destruct (honest_run T d n (bogus y n) (h_init n d h)) as [[ms rs] h'] eqn:Eh. destruct Hl as [Hl1 Hl2]. cbn [fst] in *.
  assert (Ers : rs = sc_point T n d h (mkProof pt ms)).
  { unfold sc_point. cbn [pf_proofs]. apply nth_ext_all with (d := 0); [rewrite map_length, seq_length; auto|].
    intros i Hi. rewrite nth_map_seq by lia. rewrite <- fs_challenges by lia. rewrite Hf. reflexivity. }
  rewrite <- Ers in *. do 2 eexists. rewrite <- (bogus_sum y n) at 1.
  apply (honest_verify T d n (bogus y n) h ms rs h' pt); auto. apply bogus_deg; auto.
Qed.

(** With one evaluation more than the two the verifier reads, every output claim is accepted, although all
    claims it leads to are true. *)
Lemma dense_forge (T : @hist K -> K) a b mat bias x last h :
  char_gt K 2 -> 0 < b -> length mat = 2 ^ (a + b) -> length bias = 2 ^ a -> length x = 2 ^ b -> length (cl_point last) = a ->
  let sc := mkProof [] (bogus_messages T (cl_eval last - mle bias (cl_point last)) b 2 h) in
  let rs := sc_point T b 2 h sc in
  (forall r, In r rs -> not_node 2 r) -> mle mat (rs ++ cl_point last) <> 0 -> mle x rs <> 0 ->
  exists pf c com h', dense_verify T b last pf h = Some (c, com, h') /\
    claim_true x c /\ (forall w, In (WeightPoly, w) com -> claim_true mat w) /\ (forall w, In (BiasPoly, w) com -> claim_true bias w).
Proof.
  intros Hch Hb Lm Lb Lx Lr sc rs Hr Nm Nx.
  destruct (bogus_verify T (cl_eval last - mle bias (cl_point last)) b 2 h [] Hch ltac:(lia) Hb Hr) as (e & h' & Ev).
  fold sc in Ev. fold rs in Ev.
  assert (Lrs : length rs = b) by (unfold rs, sc_point; rewrite map_length, seq_length; auto).
  set (w := mle mat (rs ++ cl_point last)) in *. set (v := mle x rs) in *.
  exists (mkDp sc (mle bias (cl_point last)) [w; v; e * / (w * v)]). do 3 eexists.
  unfold dense_verify. cbn [dp_bias_eval dp_sumcheck dp_claims nth_error]. rewrite Ev. cbn [obind].
  replace (virtual_claim [w; v; e * / (w * v)]) with e.
  2: { rewrite virtual_claim_fprod. cbn [fprod]. field. auto. }
  rewrite feqb_refl. cbn [obind]. split; [reflexivity|].
  split; [split; cbn [cl_point cl_eval]; [rewrite Lrs; auto|reflexivity]|].
  split.
  - intros u [E|[E|[]]]; [|discriminate]. assert (u = mkClaim (rs ++ cl_point last) w) by congruence. subst u.
    split; cbn [cl_point cl_eval]; [rewrite app_length, Lrs, Lr, Lm; f_equal; lia|reflexivity].
  - intros u [E|[E|[]]]; [discriminate|]. assert (u = mkClaim (cl_point last) (mle bias (cl_point last))) by congruence. subst u.
    split; cbn [cl_point cl_eval]; [rewrite Lr; auto|reflexivity].
Qed.

(** *** Matrix-vector helper *)
(** The matrix without bias. *)
Definition linear (a b : nat) (mat x y : list K) : Prop := affine a b mat (repeat 0 (2 ^ a)) x y.

Lemma matvec_complete (T : @hist K -> K) ncpus scs (mat input : ten K) a b y last h :
  0 < ncpus -> char_gt K 2 -> 0 < b -> sh mat = [2 ^ a; 2 ^ b]%nat -> linear a b (dat mat) (dat input) y -> claim_true y last ->
  (forall i, i < b -> valid_rsched (K := K) (prod_shape 2 b) i (scs i)) ->
  exists pf c h', matvec_prove T ncpus scs mat input last h = Some (pf, c, h') /\ claim_true (dat input) c /\
    ((forall r, In r (cl_point c) -> not_node 2 r) -> matvec_verify T b (mle (dat mat)) last pf h = Some (c, h')).
Proof.
  intros Hnc Hch Hb Es (Lm & _ & Lx & Ly & Hy) [Llast Elast] Hsc.
  assert (Lr : length (cl_point last) = a) by (apply (Nat.pow_inj_r 2); lia).
  unfold matvec_prove. rewrite (nrows_pow _ a b Es), (ncols_pow _ a b Es). cbn [obind].
  rewrite !ilog2_pow. cbn [obind]. rewrite Lx, Lr, !Nat.eqb_refl. cbn [andb].
  rewrite (to_mle_2d_ok _ a b) by auto. cbn [obind]. rewrite fhvip_ext by (rewrite ?Lr; auto; lia). cbn [obind].
  rewrite Lr. replace (a + b - a)%nat with b by lia. rewrite (into_mle_ext_ok b) by auto. cbn [obind num_vars]. rewrite Nat.eqb_refl.
  destruct (product_prove_ok T ncpus scs b [high_table (a + b) (dat mat) (cl_point last); dat input] h) as (pf & h' & Ep & Hl & Hver); auto.
  { cbn [length]. lia. }
  { intros l [<-|[<-|[]]]; [rewrite high_table_length, Lr; f_equal; lia|auto]. }
  cbn [map] in Ep. rewrite Ep. cbn [obind nth_error].
  assert (Ht : forall pt, length pt = b -> mle (high_table (a + b) (dat mat) (cl_point last)) pt = mle (dat mat) (pt ++ cl_point last)).
  { intros pt Hp. apply high_then_eval; auto. rewrite app_length. lia. }
  do 3 eexists. split; [reflexivity|]. cbn [cl_point].
  split. { split; cbn [cl_point cl_eval]; [rewrite Hl; auto|reflexivity]. }
  intros Hr. unfold matvec_verify. cbn [mv_sumcheck mv_evals nth_error].
  assert (Hs : cl_eval last = hsum b (prodf (map mle [high_table (a + b) (dat mat) (cl_point last); dat input]))).
  { transitivity (hsum b (prodf [(fun pt => mle (dat mat) (pt ++ cl_point last)); mle (dat input)])).
    - rewrite (matvec_hsum a b) by auto. rewrite Elast. unfold mle. apply mlef_ext. intros i Hi. rewrite Lr in Hi.
      rewrite Hy by auto. rewrite nth_repeat. ring.
    - apply hsum_ext. intros pt Hp. unfold prodf. cbn [map fprod]. rewrite Ht by auto. reflexivity. }
  rewrite Hs. cbn [length] in Hver. rewrite Hver by auto. cbn [obind]. rewrite Ht by auto. rewrite feqb_refl. reflexivity.
Qed.

(** What would make it sound: the comparison with the expected evaluation. *)
Lemma matvec_guarded (T : @hist K -> K) a b mat x y last pf h c h' rs e hv :
  char_gt K 2 -> 0 < b -> linear a b mat x y -> length (cl_point last) = a ->
  matvec_verify T b (mle mat) last pf h = Some (c, h') ->
  verify T (cl_eval last) (mv_sumcheck pf) b 2 h = Some (rs, e, hv) -> mle mat (rs ++ cl_point last) * cl_eval c = e ->
  claim_true x c ->
  claim_true y last \/ root_event T b 2 (prodf [(fun pt => mle mat (pt ++ cl_point last)); mle x]) h (mv_sumcheck pf).
Proof.
  intros Hch Hb (Lm & _ & Lx & Ly & Hy) Lr Hv Ev Ee [_ Ex]. unfold matvec_verify in Hv. rewrite Ev in Hv. cbn [obind] in Hv.
  destruct (nth_error (mv_evals pf) 0) as [e0|]; [|discriminate]. cbn [obind] in Hv.
  destruct (e0 =? _) eqn:E0; [|discriminate].
  destruct (nth_error (mv_evals pf) 1) as [e1|]; [|discriminate]. cbn [obind] in Hv.
  assert (c = mkClaim rs e1) by congruence. subst c. cbn [cl_point cl_eval] in *.
  destruct (product_sound T (cl_eval last) (mv_sumcheck pf) b [(fun pt => mle mat (pt ++ cl_point last)); mle x] h rs e hv Hch Hb) as [E|R].
  - intros f [<-|[<-|[]]]; [apply multilin_mle_suffix|apply multilin_mle].
  - exact Ev.
  - unfold prodf. cbn [map fprod]. rewrite <- Ex, <- Ee. ring.
  - left. split; [rewrite Ly, Lr; reflexivity|]. rewrite (matvec_hsum a b) in E by auto. rewrite E. unfold mle. apply mlef_ext.
    intros i Hi. rewrite Lr in Hi. rewrite Hy by auto. rewrite nth_repeat. ring.
  - right. exact R.
Qed.

(** Every output claim is accepted with a true claim about the vector. *)
Lemma matvec_forge (T : @hist K -> K) b mat x last h :
  char_gt K 2 -> 0 < b -> length x = 2 ^ b ->
  let sc := mkProof [] (bogus_messages T (cl_eval last) b 2 h) in
  (forall r, In r (sc_point T b 2 h sc) -> not_node 2 r) ->
  exists pf c h', matvec_verify T b (mle mat) last pf h = Some (c, h') /\ claim_true x c.
Proof.
  intros Hch Hb Lx sc Hr. destruct (bogus_verify T (cl_eval last) b 2 h [] Hch ltac:(lia) Hb Hr) as (e & h' & Ev).
  fold sc in Ev. set (rs := sc_point T b 2 h sc) in *.
  exists (mkMvp sc [mle mat (rs ++ cl_point last); mle x rs]). do 2 eexists.
  unfold matvec_verify. cbn [mv_sumcheck mv_evals nth_error]. rewrite Ev. cbn [obind]. rewrite feqb_refl. split; [reflexivity|].
  split; cbn [cl_point cl_eval]; [|reflexivity]. unfold rs, sc_point. rewrite map_length, seq_length. auto.
Qed.

(** *** The integer layer *)
(** The image in the field of the integers [Dense::evaluate] computes satisfies the specification. *)
Definition embed (l : list Z) : list K := map fZ l.
Lemma embed_nth l i : nth i (embed l) 0 = fZ (nth i l 0%Z).
Proof. unfold embed. rewrite <- (map_nth fZ). rewrite fZ_0. reflexivity. Qed.
Lemma sumto_fZ n f : fZ (sumto 0%Z Z.add n f) = sumn n (fun i => fZ (f i)) :> K.
Proof. induction n as [|n IH]; [reflexivity|]. cbn [sumto sumn]. rewrite fZ_add, IH. reflexivity. Qed.
Lemma dense_integer (d : dense (A := Z)) a b x :
  sh (d_mat d) = [2 ^ a; 2 ^ b]%nat -> wft (d_mat d) -> sh (d_bias d) = [2 ^ a]%nat -> wft (d_bias d) -> sh x = [2 ^ b]%nat -> wft x ->
  exists y, dense_eval 0%Z Z.add Z.mul d x = Some y /\
    affine a b (embed (dat (d_mat d))) (embed (dat (d_bias d))) (embed (dat x)) (embed (dat y)).
Proof.
  intros Em Wm Eb Wb Ex Wx.
  assert (Wd : wf_dense d (2 ^ a) (2 ^ b)).
  { unfold wf_dense. pose proof (pow2_pos a). pose proof (pow2_pos b). tauto. }
  destruct (dense_eval_ok 0%Z Z.add Z.mul d (2 ^ a) (2 ^ b) x Wd Wx Ex) as (y & Ey & Sy & Wy & Hy).
  exists y. split; [auto|]. unfold affine, embed. rewrite !map_length.
  unfold wft in *. rewrite Em in Wm. rewrite Eb in Wb. rewrite Ex in Wx. rewrite Sy in Wy. cbn [fold_right] in *.
  rewrite Nat.pow_add_r. do 4 (split; [lia|]). intros i Hi. rewrite !embed_nth.
  specialize (Hy i Hi). unfold entry in Hy. rewrite Sy, Eb, Em, Ex, !flat1 in Hy. rewrite Hy, fZ_add, sumto_fZ. f_equal.
  apply sumn_ext. intros j Hj. rewrite fZ_mul, flat2, flat1, !embed_nth. reflexivity.
Qed.
End P.
