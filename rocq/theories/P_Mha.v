(** Multi-head attention: soundness and completeness from those of its parts. *)
From Coq Require Import List Arith Lia Bool ZArith Permutation Ring Field.
From Verif Require Import ListAux FieldDef PolyList MleMath M_Mle P_Mle P_Eq M_Interp P_Interp M_Sumcheck P_ScVerify P_ScProve P_ScProve2 P_ScBatch P_ScFinal M_ScParallel
  P_ScParallel P_ScApi M_SamePoly P_SamePoly M_LogUp P_LogUp3 P_LogUp4 P_LogUp8 P_LogUp9 M_Tensor P_Tensor P_Tensor2 P_Tensor3 P_Tensor4 M_Layers P_Layers P_Layers2 P_Layers3 P_Layers4 P_Layers5 M_Transformer P_Transformer M_Sop P_Sop
  P_Pooling P_Pooling2 M_RequantP P_RequantP P_RequantP2 M_LayerNorm P_LayerNorm P_LayerNorm2 P_LayerNorm5 P_LayerNorm6 M_Softmax P_Softmax P_Softmax2 P_Softmax3 P_Softmax4 P_Softmax5 P_Softmax6 P_Softmax7 M_Mha.
Import ListNotations.

(** A tensor of the layer seen as positions, heads, entries of a head. *)
Definition heads {A} (cv hv dv : nat) (t : ten A) : ten A := mkTen [2 ^ cv; 2 ^ hv; 2 ^ dv] (dat t).

Lemma npow2_pow n : npow2 (2 ^ n) = 2 ^ n.
Proof. unfold npow2. rewrite Nat.log2_up_pow2 by lia. reflexivity. Qed.
Lemma good_qk : good_cperm qk_perm.
Proof.
  assert (P : Permutation [1; 2; 0] [0; 1; 2]) by (apply Permutation_sym, (Permutation_cons_append [1; 2] 0)).
  split; [exact P|]. split; [exact P|exact I].
Qed.
Lemma good_fm : good_cperm fm_perm.
Proof.
  split; [|split]; unfold good_dims; cbn.
  - apply perm_skip, perm_swap.
  - apply perm_swap.
  - apply perm_swap.
Qed.
Lemma subspace_in cv hv dv a b s : a = 2 ^ hv -> b = 2 ^ dv -> s = [2 ^ cv; 2 ^ hv * 2 ^ dv] -> subspace 1 2 [a; b] s = Some [2 ^ cv; 2 ^ hv; 2 ^ dv].
Proof.
  intros -> -> ->. unfold subspace, splice. cbn [length Nat.leb andb obind firstn skipn app sprod fold_right].
  replace (2 ^ cv * (2 ^ hv * (2 ^ dv * 1))) with (2 ^ cv * (2 ^ hv * 2 ^ dv * 1)) by ring. rewrite Nat.eqb_refl. reflexivity.
Qed.
Lemma subspace_eval_in {A} cv hv dv a b (t : ten A) : a = 2 ^ hv -> b = 2 ^ dv -> sh t = [2 ^ cv; 2 ^ hv * 2 ^ dv] -> subspace_eval 1 2 [a; b] t = Some (heads cv hv dv t).
Proof.
  intros Ha Hb Hs. unfold subspace_eval. rewrite (subspace_in cv hv dv a b (sh t) Ha Hb Hs). cbn [obind]. unfold reshape. rewrite Hs. cbn [sprod fold_right].
  replace (2 ^ cv * (2 ^ hv * (2 ^ dv * 1))) with (2 ^ cv * (2 ^ hv * 2 ^ dv * 1)) by ring. rewrite Nat.eqb_refl. reflexivity.
Qed.
Lemma heads_wft {A} cv hv dv (t : ten A) : wft t -> sh t = [2 ^ cv; 2 ^ hv * 2 ^ dv] -> wft (heads cv hv dv t).
Proof. unfold wft. intros H Hs. rewrite Hs in H. cbn [heads dat sh]. rewrite H. cbn [sprod fold_right]. ring. Qed.
Lemma qk_shape cv hv dv : concat_shape qk_perm [2 ^ cv; 2 ^ hv; 2 ^ dv] [2 ^ cv; 2 ^ hv; 2 ^ dv] = Some [2 ^ hv; 2 ^ cv; 2 ^ cv].
Proof.
  unfold concat_shape, shapes_consistent. cbn [length cp_left cp_right cp_permute qk_perm dim_concat dim_mm dim_out nth_error obind Nat.eqb andb]. rewrite !Nat.eqb_refl.
  cbn -[npow2 Nat.pow]. rewrite !npow2_pow. reflexivity.
Qed.
Lemma fm_shape cv hv dv : concat_shape fm_perm [2 ^ hv; 2 ^ cv; 2 ^ cv] [2 ^ cv; 2 ^ hv; 2 ^ dv] = Some [2 ^ cv; 2 ^ hv; 2 ^ dv].
Proof.
  unfold concat_shape, shapes_consistent. cbn [length cp_left cp_right cp_permute fm_perm dim_concat dim_mm dim_out nth_error obind Nat.eqb andb]. rewrite !Nat.eqb_refl.
  cbn -[npow2 Nat.pow]. rewrite !npow2_pow. reflexivity.
Qed.

Section P.
Context {K : field} {C : Type}.
Local Open Scope F_scope.
Add Field Kf_mha : (fth K).

Lemma embed_map l : embed l = map fZ l :> list K.
Proof. reflexivity. Qed.

(** The two products on integers, as equations over the field. *)
Lemma qk_batched cv hv dv (q k s : ten Z) : wft q -> wft k -> sh q = [2 ^ cv; 2 ^ hv * 2 ^ dv]%nat -> sh k = [2 ^ cv; 2 ^ hv * 2 ^ dv]%nat ->
  concat_eval 0%Z Z.add Z.mul qk_perm (heads cv hv dv q) (heads cv hv dv k) = Some s ->
  batched (K := K) qk_perm hv dv cv cv (embed_ten (heads cv hv dv q)) (embed_ten (heads cv hv dv k)) (embed_ten s) /\ sh s = [2 ^ hv; 2 ^ cv; 2 ^ cv]%nat /\ length (dat s) = (2 ^ (cv + cv + hv))%nat.
Proof.
  intros Wq Wk Sq Sk Hs. destruct (concat_integer (K := K) qk_perm hv dv cv cv (heads cv hv dv q) (heads cv hv dv k) good_qk) as (s' & Es & Hb); try (apply heads_wft; assumption); try reflexivity.
  rewrite Hs in Es. injection Es as <-. split; [exact Hb|]. destruct Hb as (_ & _ & _ & _ & Wy & Ey & _). cbn [embed_ten sh permuted qk_perm cp_permute] in Ey. split; [exact Ey|].
  unfold wft in Wy. cbn [embed_ten sh dat] in Wy. rewrite Ey in Wy. rewrite embed_length in Wy. rewrite Wy. cbn [sprod fold_right]. rewrite !Nat.pow_add_r. ring.
Qed.
Lemma fm_batched cv hv dv (o v y : ten Z) : wft o -> wft v -> sh o = [2 ^ hv; 2 ^ cv; 2 ^ cv]%nat -> sh v = [2 ^ cv; 2 ^ hv * 2 ^ dv]%nat ->
  concat_eval 0%Z Z.add Z.mul fm_perm o (heads cv hv dv v) = Some y ->
  batched (K := K) fm_perm hv cv cv dv (embed_ten o) (embed_ten (heads cv hv dv v)) (embed_ten y) /\ sh y = [2 ^ cv; 2 ^ hv; 2 ^ dv]%nat.
Proof.
  intros Wo Wv So Sv Hy. destruct (concat_integer (K := K) fm_perm hv cv cv dv o (heads cv hv dv v) good_fm) as (y' & Ey & Hb); try (apply heads_wft; assumption); try assumption; try reflexivity.
  rewrite Hy in Ey. injection Ey as <-. split; [exact Hb|]. destruct Hb as (_ & _ & _ & _ & _ & Sy & _). exact Sy.
Qed.

(** A sumcheck of a product was fooled. *)
Definition prod_event (T : @hist K -> K) (p : cperm) (nm nc : nat) (a b y : ten Z) (pt : list K) (h : hist) (pf : @concat_proof K) : Prop :=
  exists pc prow pcol, split_output_point p (sh y) pt = Some (pc, prow, pcol) /\
    root_event T (nm + nc) 3 (prodf (map mle (concat_tables p nm nc (embed_ten a) (embed_ten b) pc prow pcol))) h (cpf_sumcheck pf).

Lemma mha_sound (T : @hist K -> K) P V expf c ce cr cx cz tv s m cv hv dv n nh hd (q k v S Y : ten Z) (last : @claim K) (pf : @mha_proof K C) h wit out h' cs cvc h1 p qq xp z vi vo vl vh vx vz h3 cells shift :
  let O := mkTen (sh S) (map (fun b => sm_weight expf (sm_bkm c) tv (- masked_int c s cv (dat S) shift b)) (seq 0 (2 ^ n))) in
  small_inj (K := K) P -> char_gt K (sm_nz c + 3) -> npow2 nh = (2 ^ hv)%nat -> npow2 hd = (2 ^ dv)%nat ->
  wft q -> wft k -> wft v -> sh q = [2 ^ cv; 2 ^ hv * 2 ^ dv]%nat -> sh k = [2 ^ cv; 2 ^ hv * 2 ^ dv]%nat -> sh v = [2 ^ cv; 2 ^ hv * 2 ^ dv]%nat ->
  (0 < cv + hv)%nat -> (0 < dv + hv)%nat -> length p = n -> length xp = m -> n = (s + m)%nat -> n = (cv + cv + hv)%nat -> sm_tv c = Some tv ->
  concat_eval 0%Z Z.add Z.mul qk_perm (heads cv hv dv q) (heads cv hv dv k) = Some S -> concat_eval 0%Z Z.add Z.mul fm_perm O (heads cv hv dv v) = Some Y ->
  mha_verify T c ce cr cx cz (cv + hv) (dv + hv) nh hd (sh q) (sh k) (sh v) last pf h = Some (wit, out, h') ->
  length (cpf_claims (mhp_final pf)) = 3%nat -> length (cpf_claims (mhp_qk pf)) = 3%nat ->
  concat_verify T (cv + hv) fm_perm [2 ^ hv; 2 ^ cv; 2 ^ cv]%nat [2 ^ cv; 2 ^ hv; 2 ^ dv]%nat [2 ^ cv; 2 ^ hv; 2 ^ dv]%nat last (mhp_final pf) h = Some ([cs; cvc], h1) ->
  sm_lookups T c ce cr cx cz (mhp_softmax pf) h1 = Some (sm_cls (sm_nz c) p qq xp z vi vo vl vh vx vz, h3) -> length vz = (2 * sm_nz c)%nat ->
  Forall2 claim_true [map fZ (dat q); map fZ (dat k); map fZ (dat v)] out ->
  Forall2 claim_true (ccol ce_in cells :: ccol ce_exp cells :: ccol ce_low cells :: ccol ce_high cells :: map fZ shift :: zcols (sm_nz c) cells) (map snd wit) ->
  Forall (cell_ok expf (sm_bkm c) tv (sm_nz c) (sm_zv c)) cells ->
  (forall b, (b < 2 ^ n)%nat -> (Z.abs (masked_int c s cv (dat S) shift b) <= V)%Z) -> (V + 2 ^ Z.of_nat (16 + tv + sm_nz c * sm_zv c) <= P)%Z ->
  (claim_true (map fZ (dat Y)) last /\
   (forall b, (b < 2 ^ n)%nat -> (- 2 ^ Z.of_nat (16 + tv + sm_nz c * sm_zv c) < masked_int c s cv (dat S) shift b <= 0)%Z) /\
   (forall b, (b < 2 ^ n)%nat -> above cv b = true -> nth b (dat O) 0%Z = 0%Z) /\
   mle (row_sums s m (map fZ (dat O))) xp = vx) \/
  prod_event T fm_perm cv hv O (heads cv hv dv v) Y (cl_point last) h (mhp_final pf) \/
  sm_fooled T c s cv n p qq xp z vi vo vl vh vx vz cs (mhp_softmax pf) h3 (ccol ce_in cells) (ccol ce_exp cells) (ccol ce_low cells) (ccol ce_high cells) (map fZ shift) (zcols (sm_nz c) cells) (map fZ (dat S)) \/
  table_event (add2 n (sm_comb tv (sm_zv c) n (ccol ce_in cells) (ccol ce_low cells) (ccol ce_high cells) (zcols (sm_nz c) cells)) (sm_masked c s cv n (map fZ (dat S)) (map fZ shift)))
              (sm_ap T n (sm_nz c) (mhp_softmax pf) h3) \/
  (exists nc h2, sm_verify T c ce cr cx cz [2 ^ hv; 2 ^ cv; 2 ^ cv]%nat cs (mhp_softmax pf) h1 = Some (wit, nc, h2) /\
     prod_event T qk_perm dv hv (heads cv hv dv q) (heads cv hv dv k) S (cl_point nc) h2 (mhp_qk pf)).
Proof.
  intros O HI Hch Enh Ehd Wq Wk Wv Sq Sk Sv Hn1 Hn2 Lp Lx Enm Enc Htv ES EY Hv Hl1 Hl2 Ef El Lvz Hin Hw Hc HV HP.
  assert (Hc3 : char_gt K 3) by (intros i0 Hi0; apply Hch; lia).
  destruct (qk_batched cv hv dv q k S Wq Wk Sq Sk ES) as (Bq & SS & LS).
  assert (WO : wft O) by (unfold wft, O; cbn [sh dat]; rewrite map_length, seq_length, SS, Enc; cbn [sprod fold_right]; rewrite !Nat.pow_add_r; ring).
  destruct (fm_batched cv hv dv O v Y WO Wv SS Sv EY) as (Bf & SY).
  unfold mha_verify in Hv. cbn [map] in Hv. rewrite !(subspace_in cv hv dv) in Hv by assumption. cbn [obind] in Hv. rewrite qk_shape in Hv. cbn [obind] in Hv. rewrite fm_shape in Hv. cbn [obind] in Hv. rewrite Ef in Hv. cbn [obind fst snd] in Hv.
  destruct (sm_verify T c ce cr cx cz [2 ^ hv; 2 ^ cv; 2 ^ cv]%nat cs (mhp_softmax pf) h1) as [[[wit' nc] h2]|] eqn:Es; [|discriminate]. cbn [obind] in Hv.
  destruct (concat_verify T (dv + hv) qk_perm [2 ^ cv; 2 ^ hv; 2 ^ dv]%nat [2 ^ cv; 2 ^ hv; 2 ^ dv]%nat [2 ^ hv; 2 ^ cv; 2 ^ cv]%nat nc (mhp_qk pf) h2) as [[cq h4]|] eqn:Eq; [|discriminate]. cbn [obind fst snd] in Hv.
  injection Hv as -> <- <-.
  assert (Hin' : Forall2 claim_true [map fZ (dat q); map fZ (dat k)] cq /\ claim_true (map fZ (dat v)) cvc).
  { destruct cq as [|a [|b [|d cq]]]; inversion Hin as [|? ? ? ? Q1 R1]; subst; inversion R1 as [|? ? ? ? Q2 R2]; subst; inversion R2 as [|? ? ? ? Q3 R3]; subst.
    - split; [constructor; [exact Q1|constructor; [exact Q2|constructor]]|exact Q3].
    - destruct cq; cbn [app] in R3; inversion R3. }
  destruct Hin' as [Hq Hvc].
  assert (Eq' : concat_verify T (dv + hv) qk_perm (sh (embed_ten (K := K) (heads cv hv dv q))) (sh (embed_ten (K := K) (heads cv hv dv k))) (sh (embed_ten (K := K) S)) nc (mhp_qk pf) h2 = Some (cq, h4)) by (cbn [embed_ten sh heads]; rewrite SS; exact Eq).
  destruct (concat_sound T qk_perm hv dv cv cv _ _ _ nc (mhp_qk pf) h2 cq h4 Hc3 ltac:(lia) good_qk Bq Eq' Hl2 Hq) as [HS|Hev].
  2: { do 4 right. exists nc, h2. split; [reflexivity|]. exact Hev. }
  cbn [embed_ten dat] in HS. rewrite embed_map in HS.
  destruct (sm_layer_sound T P V expf c ce cr cx cz [(2 ^ hv)%nat] tv s m cv hv n cs (mhp_softmax pf) h1 p qq xp z vi vo vl vh vx vz h3 wit nc h2 cells shift (dat S) HI Hch ltac:(lia) Lp Lx Enm Enc Htv El Lvz Es Hw Hc HS HV HP)
    as [(S1 & S2 & S3 & S4 & _)|[Hf|Ht]]; [|tauto|tauto].
  assert (Ef' : concat_verify T (cv + hv) fm_perm (sh (embed_ten (K := K) O)) (sh (embed_ten (K := K) (heads cv hv dv v))) (sh (embed_ten (K := K) Y)) last (mhp_final pf) h = Some ([cs; cvc], h1)) by (cbn [embed_ten sh heads O]; rewrite SS, SY; exact Ef).
  destruct (concat_sound T fm_perm hv cv cv dv _ _ _ last (mhp_final pf) h [cs; cvc] h1 Hc3 ltac:(lia) good_fm Bf Ef' Hl1) as [HY|Hev].
  - constructor; [exact S1|]. constructor; [exact Hvc|constructor].
  - left. split; [exact HY|]. split; [exact S2|]. split; [exact S3|exact S4].
  - right. left. exact Hev.
Qed.
(** The provers of the two products use the point of the claim they are given, not its value. *)
Lemma concat_prove_point (T : @hist K -> K) ncpus scs fl fr p a b y l1 l2 h : cl_point l1 = cl_point l2 -> concat_prove T ncpus scs fl fr p a b y l1 h = concat_prove T ncpus scs fl fr p a b y l2 h.
Proof. unfold concat_prove. intros ->. reflexivity. Qed.

Lemma subspace_eval_dat {A} lo hi add (t u : ten A) : subspace_eval lo hi add t = Some u -> dat u = dat t.
Proof.
  unfold subspace_eval, reshape. destruct (subspace lo hi add (sh t)) as [s|]; cbn [obind]; [|discriminate].
  destruct (Nat.eqb (sprod (sh t)) (sprod s)); [|discriminate]. intros E. injection E as <-. reflexivity.
Qed.

Lemma embed_heads cv hv dv (t : ten Z) : embed_ten (heads cv hv dv t) = heads cv hv dv (embed_ten t) :> ten K.
Proof. reflexivity. Qed.

Lemma mha_honest (T : @hist K -> K) ncpus scf flf frf sc es sca scm esh scq flq frq expf lse c ce cr cx cz tv k0 cv hv dv
    (q k v S O Y out : ten Z) shifts shifted cells (comms : list C) (last : @claim K) h :
  let m := Datatypes.S (Datatypes.S k0) in let n := (cv + m)%nat in let nz := sm_nz c in
  m = (cv + hv)%nat -> (0 < dv + hv)%nat -> char_gt K (nz + 3) -> (0 < ncpus)%nat -> (nz <= 3)%nat -> (nz <> 0%nat -> (16 + tv < 64)%nat /\ (0 < sm_zv c < 64)%nat) -> (cv < 64)%nat -> sm_tv c = Some tv -> fZ (sm_scalar c) <> (0 : K) ->
  wft q -> wft k -> wft v -> sh q = [2 ^ cv; 2 ^ hv * 2 ^ dv]%nat -> sh k = [2 ^ cv; 2 ^ hv * 2 ^ dv]%nat -> sh v = [2 ^ cv; 2 ^ hv * 2 ^ dv]%nat ->
  mha_evaluate expf lse c (2 ^ hv) (2 ^ dv) q k v = Some (S, (shifts, shifted, cells), O, Y, out) ->
  (forall b, (b < 2 ^ n)%nat -> (- 2 ^ Z.of_nat (16 + tv + nz * sm_zv c) < masked_int c cv cv (dat S) shifts b <= 0)%Z) ->
  length comms = (5 + 2 * nz)%nat -> claim_true (map fZ (dat out)) last ->
  (forall i, valid_order (2 ^ (hv + cv + cv)) (flf i)) -> (forall i, valid_order (2 ^ (hv + cv + dv)) (frf i)) ->
  (forall i, (i < cv + hv)%nat -> valid_rsched (K := K) (prod_shape 3 (cv + hv)) i (scf i)) ->
  sm_scheds (K := K) k0 cv nz sc es sca scm esh ->
  (forall i, valid_order (2 ^ (hv + dv + cv)) (flq i)) -> (forall i, valid_order (2 ^ (hv + dv + cv)) (frq i)) ->
  (forall i, (i < dv + hv)%nat -> valid_rsched (K := K) (prod_shape 3 (dv + hv)) i (scq i)) ->
  exists wit cl nc pf h',
    mha_prove T ncpus scf flf frf sc es sca scm esh scq flq frq nz ce cr cx cz (2 ^ hv) (2 ^ dv) (embed_ten q) (embed_ten k) (embed_ten v) (embed_ten S) (embed_ten O) (embed_ten Y)
      (ccol ce_in cells) (ccol ce_exp cells) (ccol ce_low cells) (ccol ce_high cells) (zcols nz cells) (row_sums cv m (ccol ce_out cells)) (map fZ shifts)
      (sm_shifted c cv n (map fZ (dat S)) (map fZ shifts)) (sm_tri cv n) (sm_bias c cv n) comms last h = Some (wit, cl, pf, h') /\
    map fst wit = comms /\ Forall2 claim_true (ccol ce_in cells :: ccol ce_exp cells :: ccol ce_low cells :: ccol ce_high cells :: map fZ shifts :: zcols nz cells) (map snd wit) /\
    Forall2 claim_true [map fZ (dat q); map fZ (dat k); map fZ (dat v)] cl /\ length (cpf_claims (mhp_final pf)) = 3%nat /\ length (cpf_claims (mhp_qk pf)) = 3%nat /\ length nc = n /\
    ((forall x, In x (pf_point (cpf_sumcheck (mhp_final pf))) -> not_node 3 x) -> (forall x, In x (pf_point (cpf_sumcheck (mhp_qk pf))) -> not_node 3 x) ->
     (forall pr x, In pr (flat_map (fun l => lp_sumchecks l) (smp_logups (mhp_softmax pf))) -> In x (pf_point pr) -> not_node 3 x) ->
     (forall x, In x (pf_point (smp_acc (mhp_softmax pf))) -> not_node (nz + 2) x) -> (forall x, In x (pf_point (smp_mask (mhp_softmax pf))) -> not_node 3 x) ->
     eqp nc (pf_point (smp_acc (mhp_softmax pf))) * sm_tril cv nc <> 0 ->
     mha_verify T c ce cr cx cz (cv + hv) (dv + hv) (2 ^ hv) (2 ^ dv) (sh q) (sh k) (sh v) last pf h = Some (wit, cl, h')).
Proof.
  intros m n nz Em Hdv Hch Hnc Hnz Hzv Hs Htv Hscal Wq Wk Wv Sq Sk Sv He Hr Lcm Hlast F1 F2 F3 Hsc Q1 Q2 Q3.
  assert (Hc3 : char_gt K 3) by (intros i0 Hi0; apply Hch; lia).
  assert (En : n = (cv + cv + hv)%nat) by (unfold n; lia).
  unfold mha_evaluate in He. rewrite !(subspace_eval_in cv hv dv) in He by (assumption || reflexivity). cbn [obind] in He.
  destruct (concat_eval 0%Z Z.add Z.mul qk_perm (heads cv hv dv q) (heads cv hv dv k)) as [S'|] eqn:ES; [|discriminate]. cbn [obind] in He.
  destruct (qk_batched cv hv dv q k S' Wq Wk Sq Sk ES) as (Bq & SS & LS).
  destruct (sm_evaluate expf lse c (sh S') (dat S')) as [e|] eqn:Ee; [|discriminate]. cbn [obind] in He.
  destruct (concat_eval 0%Z Z.add Z.mul fm_perm (mkTen (sh S') (map ce_out (snd e))) (heads cv hv dv v)) as [Y'|] eqn:EY; [|discriminate]. cbn [obind] in He.
  destruct (subspace_eval 1 3 [(2 ^ hv * 2 ^ dv)%nat] Y') as [out'|] eqn:Eo; [|discriminate]. cbn [obind] in He.
  injection He as E1 E2 E3 E4 E5. subst S' e O Y' out'. cbn [snd] in *. apply subspace_eval_dat in Eo. rewrite Eo in Hlast. rewrite SS in Ee.
  assert (Hr' := Hr). rewrite En in Hr'.
  destruct (eval_cells expf lse c (dat S) hv cv shifts shifted cells tv LS Ee Htv Hr') as (Lc & _ & _ & _).
  assert (WO : wft (mkTen (sh S) (map ce_out cells))) by (unfold wft; cbn [sh dat]; rewrite map_length, SS, Lc; cbn [sprod fold_right]; rewrite !Nat.pow_add_r; ring).
  destruct (fm_batched cv hv dv _ v Y WO Wv SS Sv EY) as (Bf & SY).
  destruct (concat_complete T ncpus scf flf frf fm_perm hv cv cv dv _ _ _ last h Hnc Hc3 ltac:(lia) good_fm Bf Hlast F1 F2 F3) as (cl1 & pf1 & h1 & P1 & _ & L1 & C1 & V1).
  inversion C1 as [|? cs ? ? Q4 R4]; subst. inversion R4 as [|? cvc ? ? Q5 R5]; subst. inversion R5; subst.
  cbn [embed_ten dat heads] in Q4, Q5. rewrite embed_map in Q4, Q5. rewrite map_map in Q4.
  assert (Lcs : length (cl_point cs) = n).
  { destruct Q4 as [L _]. rewrite map_length, Lc in L. apply (Nat.pow_inj_r 2) in L; [lia|lia]. }
  destruct (sm_honest T ncpus sc es sca scm esh expf lse c ce cr cx cz [(2 ^ hv)%nat] tv k0 cv hv (dat S) shifts shifted cells comms cs h1 Em Hch Hnc Hnz Hzv Hs Htv Hscal) as (wit & nc & pf2 & h2 & P2 & W1 & W2 & Ln & _ & V2); try assumption.
  { fold m n. rewrite En. exact LS. }
  pose (nc0 := mkClaim (cl_point nc) (mle (map fZ (dat S)) (cl_point nc)) : @claim K).
  assert (Hnc0 : claim_true (map fZ (dat S)) nc0) by (split; cbn [nc0 cl_point cl_eval]; [rewrite map_length, LS, Ln; f_equal; fold m n; lia|reflexivity]).
  destruct (concat_complete T ncpus scq flq frq qk_perm hv dv cv cv _ _ _ nc0 h2 Hnc Hc3 ltac:(lia) good_qk Bq Hnc0 Q1 Q2 Q3) as (cl3 & pf3 & h3 & P3 & _ & L3 & C3 & V3).
  exists wit, (cl3 ++ [cvc]), (cl_point nc), (mkMhp pf1 pf2 pf3), h3.
  cbn [mhp_final mhp_qk mhp_softmax].
  assert (Lc3 : length cl3 = 2%nat) by (inversion C3 as [|? ? ? ? _ C4]; subst; inversion C4 as [|? ? ? ? _ C5]; subst; inversion C5; subst; reflexivity).
  split; [|split; [exact W1|split; [exact W2|split; [|split; [exact L1|split; [exact L3|split; [exact Ln|]]]]]]].
  - unfold mha_prove. rewrite !(subspace_eval_in cv hv dv) by (assumption || reflexivity). cbn [obind]. rewrite <- !embed_heads. rewrite P1. cbn [obind].
    fold m n nz in P2. rewrite P2. cbn [obind]. rewrite (concat_prove_point T ncpus scq flq frq qk_perm _ _ _ nc nc0 h2 eq_refl). rewrite P3. cbn [obind]. rewrite Lc3. reflexivity.
  - apply (Forall2_app (l1 := [map fZ (dat q); map fZ (dat k)]) (l2 := [map fZ (dat v)])); [exact C3|]. constructor; [exact Q5|constructor].
  - intros N1 N2 N3 N4 N5 N6. destruct (V2 N3 N4 N5 N6) as (nv & V2' & Hnv & Epn).
    assert (Env : nv = nc0) by (destruct nv as [np ne], Hnv as [_ Hne]; cbn [cl_point cl_eval] in *; unfold nc0; rewrite Hne, Epn; reflexivity). subst nv.
    unfold mha_verify. cbn [map mhp_final mhp_softmax mhp_qk]. rewrite !npow2_pow. rewrite !(subspace_in cv hv dv) by (assumption || reflexivity). cbn [obind]. rewrite qk_shape. cbn [obind]. rewrite fm_shape. cbn [obind].
    specialize (V1 N1). cbn [embed_ten sh heads] in V1. rewrite SS, SY in V1. rewrite V1. cbn [obind fst snd app] in V2' |- *. rewrite V2'. cbn [obind].
    specialize (V3 N2). cbn [embed_ten sh heads] in V3. rewrite SS in V3. rewrite V3. reflexivity.
Qed.
End P.
