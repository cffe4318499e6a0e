(** Proofs about [M_Layers]: the batched matrix product. *)
From Coq Require Import List Arith Lia Bool ZArith Field Permutation.
From Verif Require Import ListAux FieldDef PolyList MleMath M_Mle P_Mle P_Eq M_Interp P_Interp M_Sumcheck
  P_ScVerify P_ScProve P_ScProve2 P_ScBatch P_ScFinal M_ScParallel P_ScParallel P_ScApi P_Count M_SamePoly P_SamePoly
  M_Tensor P_Tensor P_Tensor2 P_Tensor3 P_Tensor4 M_Pad P_Pad P_Pad2 P_Pad3 M_Layers P_Layers P_Layers2 P_Layers3.
Import ListNotations.

(** *** Specification *)
(** The three dimensions of an input are distinct. *)
Definition good_dims (d : dims) : Prop := Permutation [dim_concat d; dim_mm d; dim_out d] [0; 1; 2].
(** The index (or shape) with [c] in the concatenation dimension, [t] in the product dimension and [o] in the
    output dimension. *)
Definition place (d : dims) (c t o : nat) : list nat :=
  map (fun i => if Nat.eqb i (dim_concat d) then c else if Nat.eqb i (dim_mm d) then t else o) [0; 1; 2].
(** The index (or shape) of the output before and after its permutation. *)
Definition permuted (p : cperm) (idx : list nat) : list nat :=
  match cp_permute p with Some o => perm_idx o idx | None => idx end.
Definition good_cperm (p : cperm) : Prop :=
  good_dims (cp_left p) /\ good_dims (cp_right p) /\
  match cp_permute p with Some o => Permutation o [0; 1; 2] | None => True end.

Lemma good_cases d : good_dims d -> In d [mkDims 0 1 2; mkDims 0 2 1; mkDims 1 0 2; mkDims 1 2 0; mkDims 2 0 1; mkDims 2 1 0].
Proof.
  destruct d as [c m o]. intros H. apply perm3_cases in H. cbn [dim_concat dim_mm dim_out] in H.
  cbn [In] in *. decompose [or] H; try contradiction; match goal with E : [_; _; _] = [c; m; o] |- _ => inversion E; subst end; tauto.
Qed.

Section P.
Context {K : field}.
Add Field Kf_lay4 : (fth K).
Local Open Scope F_scope.

(** For every batch index, the entry of the output is the inner product of a row and a column. *)
Definition batched (p : cperm) (nc nm nr nk : nat) (a b y : ten K) : Prop :=
  wft a /\ sh a = place (cp_left p) (2 ^ nc)%nat (2 ^ nm)%nat (2 ^ nr)%nat /\
  wft b /\ sh b = place (cp_right p) (2 ^ nc)%nat (2 ^ nm)%nat (2 ^ nk)%nat /\
  wft y /\ sh y = permuted p [2 ^ nc; 2 ^ nr; 2 ^ nk]%nat /\
  forall c i j, c < 2 ^ nc -> i < 2 ^ nr -> j < 2 ^ nk ->
    entry 0 y (permuted p [c; i; j]) =
    sumn (2 ^ nm) (fun t => entry 0 a (place (cp_left p) c t i) * entry 0 b (place (cp_right p) c t j)).

(** *** Evaluation of a three-dimensional table *)
Notation m3 F p2 p1 p0 := (mlef (fun i => mlef (fun j => mlef (fun k => F i j k) p2) p1) p0).
Lemma mle3 (t : ten K) n0 n1 n2 p0 p1 p2 : sh t = [2 ^ n0; 2 ^ n1; 2 ^ n2]%nat ->
  length p0 = n0 -> length p1 = n1 -> length p2 = n2 ->
  mle (dat t) (p2 ++ p1 ++ p0) = m3 (fun i j k => entry 0 t [i; j; k]) p2 p1 p0.
Proof.
  intros E L0 L1 L2. unfold mle. rewrite mlef_app, mlef_app. apply mlef_ext. intros i _. apply mlef_ext. intros j _. apply mlef_ext. intros k _.
  unfold entry. rewrite E, flat3, L1, L2. f_equal. ring.
Qed.
Lemma sw_in (F : nat -> nat -> nat -> K) p2 p1 p0 : m3 F p2 p1 p0 = m3 (fun i k j => F i j k) p1 p2 p0.
Proof. apply mlef_ext. intros i _. apply mlef_swap. Qed.
Lemma sw_out (F : nat -> nat -> nat -> K) p2 p1 p0 : m3 F p2 p1 p0 = m3 (fun j i k => F i j k) p2 p0 p1.
Proof. apply (mlef_swap (fun i j => mlef (fun k => F i j k) p2)). Qed.

Lemma place_mle (d : dims) (t : ten K) nc nm no pc pm po : good_dims d ->
  sh t = place d (2 ^ nc)%nat (2 ^ nm)%nat (2 ^ no)%nat -> length pc = nc -> length pm = nm -> length po = no ->
  mle (dat t) (build_point d pc pm po) = m3 (fun c t' o => entry 0 t (place d c t' o)) po pm pc.
Proof.
  intros G E Lc Lm Lo. apply good_cases in G. cbn [In] in G.
  decompose [or] G; try contradiction; subst d; unfold build_point, place in *;
    cbn [bt_insert Nat.ltb Nat.leb Nat.eqb rev app map snd concat dim_concat dim_mm dim_out] in *; rewrite app_nil_r.
  - apply (mle3 t nc nm no); auto.
  - rewrite (mle3 t nc no nm) by auto. rewrite sw_in. reflexivity.
  - rewrite (mle3 t nm nc no) by auto. rewrite sw_out. reflexivity.
  - rewrite (mle3 t no nc nm) by auto. rewrite sw_out, sw_in. reflexivity.
  - rewrite (mle3 t nm no nc) by auto. rewrite sw_in, sw_out. reflexivity.
  - rewrite (mle3 t no nm nc) by auto. rewrite sw_out, sw_in, sw_out. reflexivity.
Qed.
Lemma build_point_length d (pc pm po : list K) : good_dims d -> length (build_point d pc pm po) = (length pc + length pm + length po)%nat.
Proof.
  intros G. apply good_cases in G. cbn [In] in G.
  decompose [or] G; try contradiction; subst d; cbn; rewrite !app_length; cbn; lia.
Qed.
Lemma place_prod d a b c : good_dims d -> fold_right Nat.mul 1%nat (place d a b c) = (a * b * c)%nat.
Proof. intros G. apply good_cases in G. cbn [In] in G. decompose [or] G; try contradiction; subst d; cbn; ring. Qed.

(** *** Tables indexed by (batch, product) *)
Definition grid (nm nc : nat) (F : nat -> nat -> K) : list K :=
  map (fun idx => F (idx / 2 ^ nm)%nat (idx mod 2 ^ nm)%nat) (seq 0 (2 ^ (nm + nc))).
Lemma grid_length nm nc F : length (grid nm nc F) = 2 ^ (nm + nc).
Proof. unfold grid. rewrite map_length, seq_length. reflexivity. Qed.
Lemma grid_mle nm nc F rm rc : length rm = nm -> length rc = nc -> mle (grid nm nc F) (rm ++ rc) = mlef (fun c => mlef (fun t => F c t) rm) rc.
Proof.
  intros Lm Lc. unfold grid. rewrite mle_map_seq by (rewrite app_length; lia). rewrite mlef_app, Lm. apply mlef_ext. intros c _. apply mlef_ext.
  intros t Ht. rewrite Lm in Ht. f_equal.
  - rewrite Nat.mul_comm, Nat.div_add, Nat.div_small by lia. lia.
  - rewrite Nat.mul_comm, Nat.mod_add, Nat.mod_small by lia. reflexivity.
Qed.
Lemma grid_nth nm nc F c t : c < 2 ^ nc -> t < 2 ^ nm -> nth (t + 2 ^ nm * c) (grid nm nc F) 0 = F c t.
Proof.
  intros Hc Ht. unfold grid. rewrite nth_map_seq by (rewrite Nat.pow_add_r; nia). f_equal.
  - rewrite Nat.mul_comm, Nat.div_add, Nat.div_small by lia. lia.
  - rewrite Nat.mul_comm, Nat.mod_add, Nat.mod_small by lia. reflexivity.
Qed.
Lemma grid_hsum nm nc fs : hsum (nm + nc) (prodf (map mle (map (grid nm nc) fs))) = sumn (2 ^ nc) (fun c => sumn (2 ^ nm) (fun t => fprod (map (fun F => F c t) fs))).
Proof.
  unfold hsum. rewrite Nat.pow_add_r, sumn_mul_split. apply sumn_ext. intros c Hc. apply sumn_ext. intros t Ht.
  unfold prodf. f_equal. rewrite !map_map. apply map_ext. intros F. unfold mle. rewrite mlef_bool by (rewrite Nat.pow_add_r; nia). apply grid_nth; auto.
Qed.

Definition slice_fn (d : dims) (t : ten K) (po : list K) (c t' : nat) : K := mlef (fun o => entry 0 t (place d c t' o)) po.
(** The tables of the sumcheck. *)
Definition concat_tables (p : cperm) (nm nc : nat) (a b : ten K) (pc prow pcol : list K) : list (list K) :=
  map (grid nm nc) [(fun c _ => eqw c pc); slice_fn (cp_left p) a prow; slice_fn (cp_right p) b pcol].

(** *** Splitting the point of the output claim *)
Lemma split_output_ok p nc nr nk (y : ten K) pt : good_cperm p -> sh y = permuted p [2 ^ nc; 2 ^ nr; 2 ^ nk]%nat ->
  length pt = (nc + nr + nk)%nat ->
  exists pc prow pcol, split_output_point p (sh y) pt = Some (pc, prow, pcol) /\ length pc = nc /\ length prow = nr /\ length pcol = nk /\
    mle (dat y) pt = m3 (fun c i j => entry 0 y (permuted p [c; i; j])) pcol prow pc.
Proof.
  intros (_ & _ & G) E L.
  assert (Cut : forall v0 v1 v2, (v0 + v1 + v2)%nat = length pt ->
     pt = firstn v2 pt ++ firstn v1 (skipn v2 pt) ++ skipn (v2 + v1) pt /\
     length (firstn v2 pt) = v2 /\ length (firstn v1 (skipn v2 pt)) = v1 /\ length (skipn (v2 + v1) pt) = v0).
  { intros v0 v1 v2 Hv. rewrite !firstn_length, !skipn_length. split; [|lia].
    rewrite <- (firstn_skipn v2 pt) at 1. f_equal. rewrite <- (firstn_skipn v1 (skipn v2 pt)) at 1. f_equal. rewrite skipn_skipn'. f_equal; lia. }
  assert (Gen : forall v0 v1 v2, sh y = [2 ^ v0; 2 ^ v1; 2 ^ v2]%nat -> (v0 + v1 + v2)%nat = length pt ->
     mle (dat y) pt = m3 (fun i j k => entry 0 y [i; j; k]) (firstn v2 pt) (firstn v1 (skipn v2 pt)) (skipn (v2 + v1) pt)).
  { intros v0 v1 v2 Es Hv. destruct (Cut v0 v1 v2 Hv) as (Ep & L2 & L1 & L0). rewrite Ep at 1. apply (mle3 y v0 v1 v2); auto. }
  unfold permuted in *. unfold split_output_point. destruct (cp_permute p) as [o|].
  - apply perm3_cases in G. cbn [In] in G. decompose [or] G; try contradiction; subst o; cbn [perm_idx map nth] in *; rewrite E;
      rewrite !is_pow2_pow; cbn [andb]; rewrite !Nat.log2_pow2 by lia;
      match goal with |- context [Nat.eqb (length pt) ?s] => destruct (Nat.eqb_spec (length pt) s); [|lia] | _ => idtac end;
      match type of E with sh y = [2 ^ ?v0; 2 ^ ?v1; 2 ^ ?v2]%nat =>
        assert (Hs : (v0 + v1 + v2)%nat = length pt) by lia; destruct (Cut v0 v1 v2 Hs) as (_ & L2 & L1 & L0);
        pose proof (Gen v0 v1 v2 E Hs) as Hg end;
      cbn [length seq combine ofold Nat.ltb Nat.leb upd obind nth nth_error]; do 3 eexists; (split; [reflexivity|]);
      (split; [assumption|]); (split; [assumption|]); (split; [assumption|]); rewrite Hg.
    + reflexivity.
    + apply sw_in.
    + apply sw_out.
    + rewrite sw_in, sw_out. reflexivity.
    + rewrite sw_out, sw_in. reflexivity.
    + rewrite sw_out, sw_in, sw_out. reflexivity.
  - rewrite E. rewrite !is_pow2_pow. cbn [andb]. rewrite !Nat.log2_pow2 by lia.
    destruct (Nat.eqb_spec (length pt) (nc + nr + nk)); [|lia]. cbn [obind nth nth_error].
    destruct (Cut nc nr nk) as (_ & L2 & L1 & L0); [lia|]. do 3 eexists. split; [reflexivity|]. do 3 (split; [assumption|]). apply (Gen nc nr nk); auto.
Qed.
Lemma split_output_length p nc nr nk (y : ten K) (pt : list K) r : good_cperm p -> sh y = permuted p [2 ^ nc; 2 ^ nr; 2 ^ nk]%nat ->
  split_output_point p (sh y) pt = Some r -> length pt = (nc + nr + nk)%nat.
Proof.
  intros (_ & _ & G) E H. unfold permuted in *. unfold split_output_point in H. destruct (cp_permute p) as [o|].
  - apply perm3_cases in G. cbn [In] in G. decompose [or] G; try contradiction; subst o; cbn [perm_idx map nth] in *; rewrite E in H;
      rewrite !is_pow2_pow in H; cbn [andb] in H; rewrite !Nat.log2_pow2 in H by lia;
      match type of H with context [Nat.eqb (length pt) ?s] => destruct (Nat.eqb_spec (length pt) s); [lia|discriminate] end.
  - rewrite E in H. rewrite !is_pow2_pow in H. cbn [andb] in H. rewrite !Nat.log2_pow2 in H by lia.
    destruct (Nat.eqb_spec (length pt) (nc + nr + nk)); [lia|discriminate].
Qed.

Lemma batched_sum p nc nm nr nk (a b y : ten K) pc prow pcol : batched p nc nm nr nk a b y ->
  length pc = nc -> length prow = nr -> length pcol = nk ->
  m3 (fun c i j => entry 0 y (permuted p [c; i; j])) pcol prow pc
  = hsum (nm + nc) (prodf (map mle (concat_tables p nm nc a b pc prow pcol))).
Proof.
  intros (_ & _ & _ & _ & _ & _ & Hy) Lc Lr Lk. unfold concat_tables. rewrite grid_hsum. unfold mlef at 1. rewrite Lc. apply sumn_ext. intros c Hc.
  cbn [map fprod].
  transitivity (sumn (2 ^ nm) (fun t => slice_fn (cp_left p) a prow c t * slice_fn (cp_right p) b pcol c t) * eqw c pc).
  - f_equal. transitivity (mlef (fun i => mlef (fun j => sumn (2 ^ nm) (fun t => entry 0 a (place (cp_left p) c t i) * entry 0 b (place (cp_right p) c t j))) pcol) prow).
    + apply mlef_ext. intros i Hi. apply mlef_ext. intros j Hj. rewrite Lr in Hi. rewrite Lk in Hj. apply Hy; auto.
    + rewrite (mlef_ext (fun i => mlef _ pcol) (fun i => sumn (2 ^ nm) (fun t => mlef (fun j => entry 0 a (place (cp_left p) c t i) * entry 0 b (place (cp_right p) c t j)) pcol))).
      2: { intros i _. apply mlef_sumn. }
      rewrite mlef_sumn. apply sumn_ext. intros t _. unfold slice_fn. apply mlef_prod.
  - rewrite <- sumn_scal_r. apply sumn_ext. intros t _. ring.
Qed.

Lemma slice_eval d (t : ten K) nc nm no rc rm po : good_dims d -> sh t = place d (2 ^ nc)%nat (2 ^ nm)%nat (2 ^ no)%nat ->
  length rc = nc -> length rm = nm -> length po = no ->
  mle (grid nm nc (slice_fn d t po)) (rm ++ rc) = mle (dat t) (build_point d rc rm po).
Proof. intros G E Lc Lm Lo. rewrite grid_mle, (place_mle d t nc nm no) by auto. reflexivity. Qed.
Lemma beta_eval nm nc pc rm rc : length pc = nc -> length rm = nm -> length rc = nc ->
  mle (grid nm nc (fun c _ => eqw c pc)) (rm ++ rc) = eqp pc rc.
Proof.
  intros Lp Lm Lc. rewrite grid_mle by auto. rewrite <- mlef_eqw by lia. apply mlef_ext. intros c _. apply mlef_const.
Qed.

Lemma split_sc_ok p (sa sb : list nat) nm (rs : list K) : nth_error sa (dim_mm (cp_left p)) = Some (2 ^ nm)%nat -> nth_error sb (dim_mm (cp_right p)) = Some (2 ^ nm)%nat ->
  nm <= length rs -> split_sumcheck_point p rs sa sb = Some (skipn nm rs, firstn nm rs).
Proof.
  intros Ea Eb L. unfold split_sumcheck_point. rewrite Ea, Eb. cbn [obind]. rewrite Nat.eqb_refl, is_pow2_pow, Nat.log2_pow2 by lia. cbn [andb].
  unfold pt_from, pt_upto. destruct (Nat.leb_spec nm (length rs)); [|lia]. reflexivity.
Qed.
Lemma place_mm d a b c : good_dims d -> nth_error (place d a b c) (dim_mm d) = Some b /\ nth_error (place d a b c) (dim_concat d) = Some a.
Proof. intros G. apply good_cases in G. cbn [In] in G. decompose [or] G; try contradiction; subst d; cbn; auto. Qed.

(** *** Soundness *)
Lemma concat_sound (T : @hist K -> K) p nc nm nr nk (a b y : ten K) last pf h out h' :
  char_gt K 3 -> 0 < nm + nc -> good_cperm p -> batched p nc nm nr nk a b y ->
  concat_verify T (nm + nc) p (sh a) (sh b) (sh y) last pf h = Some (out, h') -> length (cpf_claims pf) = 3 ->
  Forall2 claim_true [dat a; dat b] out ->
  claim_true (dat y) last \/
  exists pc prow pcol, split_output_point p (sh y) (cl_point last) = Some (pc, prow, pcol) /\
    root_event T (nm + nc) 3 (prodf (map mle (concat_tables p nm nc a b pc prow pcol))) h (cpf_sumcheck pf).
Proof.
  intros Hch Hn G Hb Hv Hlen Hout. assert (Hb' := Hb). destruct Hb' as (Wa & Ea & Wb & Eb & Wy & Ey & _). assert (G' := G). destruct G' as (Gl & Gr & Go).
  unfold concat_verify in Hv. destruct (shapes_consistent p (sh a) (sh b)); [|discriminate]. cbn [obind] in Hv.
  destruct (verify T (cl_eval last) (cpf_sumcheck pf) (nm + nc) 3 h) as [[[rs expected] h2]|] eqn:Ev; [|discriminate]. cbn [obind] in Hv.
  assert (Lrs : length rs = (nm + nc)%nat).
  { apply verify_point in Ev. subst rs. unfold sc_point. rewrite map_length, seq_length. reflexivity. }
  destruct (split_output_point p (sh y) (cl_point last)) as [[[pc prow] pcol]|] eqn:Es; [|discriminate]. cbn [obind] in Hv.
  assert (Lp := split_output_length p nc nr nk y _ _ G Ey Es).
  destruct (split_output_ok p nc nr nk y (cl_point last) G Ey Lp) as (pc' & prow' & pcol' & Es' & Lc & Lr & Lk & Hm).
  assert (pc' = pc /\ prow' = prow /\ pcol' = pcol) as (-> & -> & ->) by (repeat split; congruence).
  rewrite (split_sc_ok p (sh a) (sh b) nm rs) in Hv; [|rewrite Ea; apply place_mm; auto|rewrite Eb; apply place_mm; auto|lia]. cbn [obind] in Hv.
  set (rc := skipn nm rs) in *. set (rm := firstn nm rs) in *.
  assert (Ers : rs = rm ++ rc) by (unfold rm, rc; rewrite firstn_skipn; reflexivity).
  assert (Lrm : length rm = nm) by (unfold rm; rewrite firstn_length; lia). assert (Lrc : length rc = nc) by (unfold rc; rewrite skipn_length; lia).
  destruct (cpf_claims pf) as [|e0 [|e1 [|e2 [|]]]]; try discriminate. cbn [nth_error obind] in Hv.
  destruct (identity_eval rc pc =? e0) eqn:E0; [|discriminate]. apply feqb_true in E0. rewrite identity_eval_eqp in E0.
  destruct (virtual_claim [e0; e1; e2] =? expected) eqn:Ee; [|discriminate]. apply feqb_true in Ee. rewrite virtual_claim_fprod in Ee. cbn [fprod] in Ee.
  assert (Eout : out = [mkClaim (build_point (cp_left p) rc rm prow) e1; mkClaim (build_point (cp_right p) rc rm pcol) e2]) by congruence.
  rewrite Eout in Hout. destruct (F2_two _ _ _ _ _ Hout) as [[_ H1] [_ H2]]. cbn [cl_point cl_eval] in H1, H2.
  destruct (product_sound T (cl_eval last) (cpf_sumcheck pf) (nm + nc) (map mle (concat_tables p nm nc a b pc prow pcol)) h rs expected h2 Hch Hn) as [E|Rt].
  - intros f Hf. apply in_map_iff in Hf. destruct Hf as (l & <- & _). apply multilin_mle.
  - exact Ev.
  - unfold prodf, concat_tables. cbn [map fprod]. rewrite Ers.
    rewrite (beta_eval nm nc), (slice_eval (cp_left p) a nc nm nr), (slice_eval (cp_right p) b nc nm nk) by auto.
    rewrite <- H1, <- H2, <- Ee, <- E0, (eqp_sym rc pc). reflexivity.
  - left. split.
    + unfold wft in Wy. rewrite Wy, Ey, Lp. unfold permuted. rewrite !Nat.pow_add_r. destruct (cp_permute p) as [o|]; [|cbn; ring].
      apply perm3_cases in Go. cbn [In] in Go. decompose [or] Go; try contradiction; subst o; cbn; ring.
    + rewrite Hm, (batched_sum p nc nm nr nk a b y) by auto. exact E.
  - right. exists pc, prow, pcol. split; [reflexivity|exact Rt].
Qed.

(** *** Completeness *)
Lemma input_mle_ok fs d (t : ten K) nc nm no po : good_dims d -> wft t -> sh t = place d (2 ^ nc)%nat (2 ^ nm)%nat (2 ^ no)%nat -> length po = no ->
  (forall k, valid_order (2 ^ (nc + nm + no)) (fs k)) ->
  exists l, input_mle fs d t po = Some (mkMle (Ext l) (nm + nc)) /\ length l = 2 ^ (nm + nc) /\
    forall rm rc, length rm = nm -> length rc = nc -> mle l (rm ++ rc) = mle (dat t) (build_point d rc rm po).
Proof.
  intros G W E L Hs.
  assert (Lt : length (dat t) = 2 ^ (nc + nm + no)) by (unfold wft in W; rewrite W, E, place_prod, !Nat.pow_add_r; auto).
  assert (Hperm : Nat.ltb (dim_mm d) (dim_concat d) || Nat.eqb (dim_out d) 1 = true ->
     exists l, input_mle fs d t po = Some (mkMle (Ext l) (nm + nc)) /\ length l = 2 ^ (nm + nc) /\
       forall rm rc, length rm = nm -> length rc = nc -> mle l (rm ++ rc) = mle (dat t) (build_point d rc rm po)).
  { intros Hc. unfold input_mle. rewrite Hc.
    destruct (permute3d_ok 0 t [dim_concat d; dim_mm d; dim_out d] W) as (t' & Et & St & Wt & Ht); [rewrite E; reflexivity|exact G|].
    rewrite Et. cbn [obind].
    assert (St' : sh t' = [2 ^ nc; 2 ^ nm; 2 ^ no]%nat).
    { rewrite St, E. apply good_cases in G. cbn [In] in G. decompose [or] G; try contradiction; subst d; reflexivity. }
    assert (Lt' : length (dat t') = 2 ^ (nc + nm + no)) by (unfold wft in Wt; rewrite Wt, St', !Nat.pow_add_r; cbn; ring).
    rewrite (into_mle_ext_ok (nc + nm + no)) by auto. cbn [obind]. rewrite fvipp_ext by (rewrite ?Lt'; auto; lia).
    exists (low_table (nc + nm + no) (dat t') po). split; [do 2 f_equal; lia|]. split; [rewrite low_table_length; f_equal; lia|].
    intros rm rc Lm Lc. rewrite low_then_eval by (auto; rewrite !app_length; lia).
    rewrite (mle3 t' nc nm no) by auto. rewrite (place_mle d t nc nm no) by auto.
    apply mlef_ext. intros c Hc1. apply mlef_ext. intros x Hx. apply mlef_ext. intros o Ho.
    rewrite Lc in Hc1. rewrite Lm in Hx. rewrite L in Ho.
    assert (Hin : inb (sh t) (place d c x o)).
    { rewrite E. apply good_cases in G. cbn [In] in G. decompose [or] G; try contradiction; subst d; cbn; apply inb3; auto. }
    destruct (Ht _ Hin) as [_ <-]. f_equal. apply good_cases in G. cbn [In] in G. decompose [or] G; try contradiction; subst d; reflexivity. }
  destruct (Nat.ltb (dim_mm d) (dim_concat d) || Nat.eqb (dim_out d) 1) eqn:Hc; [apply Hperm; reflexivity|]. clear Hperm.
  unfold input_mle. rewrite Hc. rewrite (into_mle_ext_ok (nc + nm + no)) by auto. cbn [obind].
  apply good_cases in G. cbn [In] in G. decompose [or] G; try contradiction; subst d; try discriminate Hc; cbn [dim_out Nat.eqb].
  - rewrite fvipp_ext by (rewrite ?Lt; auto; lia). exists (low_table (nc + nm + no) (dat t) po). split; [do 2 f_equal; lia|].
    split; [rewrite low_table_length; f_equal; lia|]. intros rm rc Lm Lc. rewrite low_then_eval by (auto; rewrite !app_length; lia). cbn. rewrite app_nil_r. reflexivity.
  - rewrite fhvip_ext by (auto; lia). exists (high_table (nc + nm + no) (dat t) po). split; [do 2 f_equal; lia|].
    split; [rewrite high_table_length; f_equal; lia|]. intros rm rc Lm Lc. rewrite high_then_eval by (auto; rewrite !app_length; lia). cbn. rewrite app_nil_r, app_assoc. reflexivity.
Qed.

Lemma list_nth_eq {A} (l l' : list A) d : length l = length l' -> (forall i, i < length l -> nth i l d = nth i l' d) -> l = l'.
Proof. intros L H. apply (nth_ext l l' d d); auto. Qed.
Lemma beta_table nm pc : concat (map (fun e => repeat e (2 ^ nm)) (compute_betas_eval pc)) = grid nm (length pc) (fun c _ => eqw c pc).
Proof.
  rewrite compute_betas_spec.
  assert (U : forall l, In l (map (fun e : K => repeat e (2 ^ nm)) (eq_table pc)) -> length l = 2 ^ nm).
  { intros l Hl. apply in_map_iff in Hl. destruct Hl as (e & <- & _). apply repeat_length. }
  assert (Lc : length (concat (map (fun e : K => repeat e (2 ^ nm)) (eq_table pc))) = 2 ^ (nm + length pc)).
  { rewrite (length_concat_uniform _ (2 ^ nm) U), map_length, eq_table_length, Nat.pow_add_r. reflexivity. }
  apply (list_nth_eq _ _ 0); [rewrite Lc, grid_length; reflexivity|]. rewrite Lc. intros i Hi.
  pose proof (pow2_pos nm) as Hp. rewrite (Nat.div_mod i (2 ^ nm)) by lia. rewrite (Nat.add_comm (2 ^ nm * _)).
  assert (Hm : i mod 2 ^ nm < 2 ^ nm) by (apply Nat.mod_upper_bound; lia).
  assert (Hd : i / 2 ^ nm < 2 ^ length pc) by (apply Nat.div_lt_upper_bound; [lia|rewrite <- Nat.pow_add_r; auto]).
  rewrite (nth_concat_uniform _ (2 ^ nm) 0 U) by (rewrite ?map_length, ?eq_table_length; auto). rewrite grid_nth by auto.
  rewrite (nth_map_lt _ _ _ 0) by (rewrite eq_table_length; auto). rewrite eq_table_at by auto. rewrite (nth_indep _ 0 (eqw (i / 2 ^ nm) pc)) by (rewrite repeat_length; auto). apply nth_repeat.
Qed.

Lemma concat_complete (T : @hist K -> K) ncpus scs fl fr p nc nm nr nk (a b y : ten K) last h :
  0 < ncpus -> char_gt K 3 -> 0 < nm + nc -> good_cperm p -> batched p nc nm nr nk a b y -> claim_true (dat y) last ->
  (forall k, valid_order (2 ^ (nc + nm + nr)) (fl k)) -> (forall k, valid_order (2 ^ (nc + nm + nk)) (fr k)) ->
  (forall i, i < nm + nc -> valid_rsched (K := K) (prod_shape 3 (nm + nc)) i (scs i)) ->
  exists out pf h', concat_prove T ncpus scs fl fr p a b y last h = Some (out, pf, h') /\
    concat_ctx p (sh a) (sh b) = Some (nm + nc)%nat /\ length (cpf_claims pf) = 3 /\ Forall2 claim_true [dat a; dat b] out /\
    ((forall r, In r (pf_point (cpf_sumcheck pf)) -> not_node 3 r) ->
     concat_verify T (nm + nc) p (sh a) (sh b) (sh y) last pf h = Some (out, h')).
Proof.
  intros Hnc Hch Hn G Hb [Llast Elast] Hfl Hfr Hsc. assert (Hb' := Hb). destruct Hb' as (Wa & Ea & Wb & Eb & Wy & Ey & _).
  assert (G' := G). destruct G' as (Gl & Gr & Go).
  assert (Lp : length (cl_point last) = (nc + nr + nk)%nat).
  { unfold wft in Wy. rewrite Llast, Ey in Wy. apply (Nat.pow_inj_r 2); [lia|]. rewrite Wy, !Nat.pow_add_r. unfold permuted. destruct (cp_permute p) as [o|]; [|cbn; ring].
    apply perm3_cases in Go. cbn [In] in Go. decompose [or] Go; try contradiction; subst o; cbn; ring. }
  destruct (split_output_ok p nc nr nk y (cl_point last) G Ey Lp) as (pc & prow & pcol & Es & Lc & Lr & Lk & Hm).
  destruct (place_mm (cp_left p) (2 ^ nc) (2 ^ nm) (2 ^ nr) Gl) as [Ml Cl]. destruct (place_mm (cp_right p) (2 ^ nc) (2 ^ nm) (2 ^ nk) Gr) as [Mr Cr].
  rewrite <- Ea in Ml, Cl. rewrite <- Eb in Mr, Cr.
  assert (Hsh : shapes_consistent p (sh a) (sh b) = Some tt).
  { unfold shapes_consistent. rewrite Cl, Cr, Ml, Mr. cbn [obind]. rewrite !Nat.eqb_refl. rewrite Ea, Eb. reflexivity. }
  destruct (input_mle_ok fl (cp_left p) a nc nm nr prow Gl Wa Ea Lr Hfl) as (la & Ela & Lla & Hla).
  destruct (input_mle_ok fr (cp_right p) b nc nm nk pcol Gr Wb Eb Lk Hfr) as (lb & Elb & Llb & Hlb).
  unfold concat_prove. rewrite Hsh, Es. cbn [obind]. rewrite Ela, Elb. cbn [obind num_vars]. rewrite Nat.eqb_refl, Ml, Mr. cbn [obind]. rewrite Nat.eqb_refl.
  rewrite beta_table, Lc. rewrite (into_mle_ext_ok (nm + nc)) by apply grid_length. cbn [obind num_vars]. rewrite Nat.eqb_refl.
  set (bt := grid nm nc (fun c _ => eqw c pc)).
  destruct (product_prove_ok T ncpus scs (nm + nc) [bt; la; lb] h) as (pf & h' & Ep & Hl & Hver); auto.
  { cbn [length]. lia. }
  { intros l [<-|[<-|[<-|[]]]]; auto. apply grid_length. }
  cbn [map] in Ep. rewrite Ep. cbn [obind nth_error]. rewrite (split_sc_ok p (sh a) (sh b) nm) by (auto; lia). cbn [obind].
  set (rc := skipn nm (pf_point pf)). set (rm := firstn nm (pf_point pf)).
  assert (Ers : pf_point pf = rm ++ rc) by (unfold rm, rc; rewrite firstn_skipn; reflexivity).
  assert (Lrm : length rm = nm) by (unfold rm; rewrite firstn_length; lia). assert (Lrc : length rc = nc) by (unfold rc; rewrite skipn_length; lia).
  do 3 eexists. split; [reflexivity|]. split.
  { unfold concat_ctx. rewrite Ml, Mr, Cl, Cr. cbn [obind]. rewrite !Nat.eqb_refl. cbn [obind]. rewrite !is_pow2_pow. cbn [andb].
    rewrite <- Nat.pow_add_r. apply ilog2_pow. }
  cbn [cpf_claims cpf_sumcheck length]. split; [reflexivity|]. split.
  { apply Forall2_cons; [|apply Forall2_cons; [|apply Forall2_nil]]; split; cbn [cl_point cl_eval].
    - unfold wft in Wa. rewrite Wa, Ea, place_prod, build_point_length, Lrc, Lrm, Lr, !Nat.pow_add_r by auto. reflexivity.
    - rewrite Ers. apply Hla; auto.
    - unfold wft in Wb. rewrite Wb, Eb, place_prod, build_point_length, Lrc, Lrm, Lk, !Nat.pow_add_r by auto. reflexivity.
    - rewrite Ers. apply Hlb; auto. }
  intros Hr. unfold concat_verify. rewrite Hsh. cbn [obind cpf_sumcheck cpf_claims].
  assert (Hs : cl_eval last = hsum (nm + nc) (prodf (map mle [bt; la; lb]))).
  { rewrite Elast, Hm, (batched_sum p nc nm nr nk a b y) by auto. apply hsum_ext. intros pt Hpt. unfold concat_tables, prodf. cbn [map fprod]. fold bt.
    rewrite <- (firstn_skipn nm pt). assert (L1 : length (firstn nm pt) = nm) by (rewrite firstn_length; lia).
    assert (L2 : length (skipn nm pt) = nc) by (rewrite skipn_length; lia).
    rewrite (slice_eval (cp_left p) a nc nm nr), (slice_eval (cp_right p) b nc nm nk), Hla, Hlb by auto. reflexivity. }
  rewrite Hs. cbn [length] in Hver. rewrite Hver by auto. cbn [obind]. rewrite Es. cbn [obind]. rewrite (split_sc_ok p (sh a) (sh b) nm) by (auto; lia). cbn [obind].
  fold rc rm. cbn [nth_error obind].
  replace (identity_eval rc pc) with (mle bt (pf_point pf)).
  2: { rewrite Ers, identity_eval_eqp. unfold bt. rewrite (beta_eval nm nc) by auto. apply eqp_sym. }
  rewrite feqb_refl. cbn [obind].
  replace (virtual_claim [mle bt (pf_point pf); mle la (pf_point pf); mle lb (pf_point pf)])
    with (prodf (map mle [bt; la; lb]) (pf_point pf)) by (rewrite virtual_claim_fprod; reflexivity).
  rewrite feqb_refl. reflexivity.
Qed.

(** *** The unchecked number of evaluations *)
Lemma concat_forge (T : @hist K -> K) p nc nm nr nk (a b y : ten K) last h pc prow pcol :
  char_gt K 3 -> 0 < nm + nc -> good_cperm p ->
  wft a -> sh a = place (cp_left p) (2 ^ nc)%nat (2 ^ nm)%nat (2 ^ nr)%nat ->
  wft b -> sh b = place (cp_right p) (2 ^ nc)%nat (2 ^ nm)%nat (2 ^ nk)%nat ->
  sh y = permuted p [2 ^ nc; 2 ^ nr; 2 ^ nk]%nat ->
  split_output_point p (sh y) (cl_point last) = Some (pc, prow, pcol) ->
  let sc := mkProof [] (bogus_messages T (cl_eval last) (nm + nc) 3 h) in
  let rs := sc_point T (nm + nc) 3 h sc in
  (forall r, In r rs -> not_node 3 r) -> eqp (skipn nm rs) pc <> 0 ->
  mle (dat a) (build_point (cp_left p) (skipn nm rs) (firstn nm rs) prow) <> 0 ->
  mle (dat b) (build_point (cp_right p) (skipn nm rs) (firstn nm rs) pcol) <> 0 ->
  exists pf out h', concat_verify T (nm + nc) p (sh a) (sh b) (sh y) last pf h = Some (out, h') /\ Forall2 claim_true [dat a; dat b] out.
Proof.
  intros Hch Hn G Wa Ea Wb Eb Ey Es sc rs Hr N0 N1 N2. assert (G' := G). destruct G' as (Gl & Gr & _).
  destruct (bogus_verify T (cl_eval last) (nm + nc) 3 h [] Hch ltac:(lia) Hn Hr) as (e & h' & Ev). fold sc in Ev. fold rs in Ev.
  assert (Lrs : length rs = (nm + nc)%nat) by (unfold rs, sc_point; rewrite map_length, seq_length; auto).
  assert (Lp := split_output_length p nc nr nk y _ _ G Ey Es).
  destruct (split_output_ok p nc nr nk y (cl_point last) G Ey Lp) as (pc' & prow' & pcol' & Es' & Lc & Lr & Lk & _).
  assert (pc' = pc /\ prow' = prow /\ pcol' = pcol) as (-> & -> & ->) by (repeat split; congruence).
  destruct (place_mm (cp_left p) (2 ^ nc) (2 ^ nm) (2 ^ nr) Gl) as [Ml Cl]. destruct (place_mm (cp_right p) (2 ^ nc) (2 ^ nm) (2 ^ nk) Gr) as [Mr Cr].
  rewrite <- Ea in Ml, Cl. rewrite <- Eb in Mr, Cr.
  set (q := eqp _ pc) in *. set (w := mle (dat a) _) in *. set (v := mle (dat b) _) in *.
  exists (mkCp sc [q; w; v; e * / (q * w * v)]). do 2 eexists. unfold concat_verify. cbn [cpf_sumcheck cpf_claims].
  replace (shapes_consistent p (sh a) (sh b)) with (Some tt) by (unfold shapes_consistent; rewrite Cl, Cr, Ml, Mr; cbn [obind]; rewrite !Nat.eqb_refl, Ea, Eb; reflexivity).
  cbn [obind]. rewrite Ev. cbn [obind]. rewrite Es. cbn [obind]. rewrite (split_sc_ok p (sh a) (sh b) nm) by (auto; lia). cbn [obind nth_error].
  rewrite identity_eval_eqp. fold q. rewrite feqb_refl. cbn [obind].
  replace (virtual_claim [q; w; v; e * / (q * w * v)]) with e by (rewrite virtual_claim_fprod; cbn [fprod]; field; auto).
  rewrite feqb_refl. split; [reflexivity|].
  assert (L1 : length (firstn nm rs) = nm) by (rewrite firstn_length; lia). assert (L2 : length (skipn nm rs) = nc) by (rewrite skipn_length; lia).
  apply Forall2_cons; [|apply Forall2_cons; [|apply Forall2_nil]]; split; cbn [cl_point cl_eval]; try reflexivity.
  - unfold wft in Wa. rewrite Wa, Ea, place_prod, build_point_length, L1, L2, Lr, !Nat.pow_add_r by auto. reflexivity.
  - unfold wft in Wb. rewrite Wb, Eb, place_prod, build_point_length, L1, L2, Lk, !Nat.pow_add_r by auto. reflexivity.
Qed.
End P.
