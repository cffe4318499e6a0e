(** Proofs about [M_Layers]: the matrix product. *)
From Coq Require Import List Arith Lia Bool ZArith Field Permutation.
From Verif Require Import ListAux FieldDef PolyList MleMath M_Mle P_Mle P_Eq M_Interp P_Interp M_Sumcheck
  P_ScVerify P_ScProve P_ScProve2 P_ScBatch P_ScFinal M_ScParallel P_ScParallel P_ScApi P_Count M_SamePoly P_SamePoly
  M_Tensor P_Tensor P_Tensor2 P_Tensor3 M_Pad P_Pad P_Pad2 P_Pad3 M_Layers P_Layers P_Layers2.
Import ListNotations.

Section P.
Context {K : field}.
Add Field Kf_lay3 : (fth K).
Local Open Scope F_scope.

(** *** Specification *)
(** [Y] = [L] * [R] (or [L] * [R]^t) + [bias] added to every row; [L] has 2^m rows, the inner dimension is 2^k,
    [Y] has 2^n columns; all stored row by row. *)
Definition rel (tr : bool) (k n : nat) (R : list K) (t j : nat) : K :=
  if tr then nth (j * 2 ^ k + t)%nat R 0 else nth (t * 2 ^ n + j)%nat R 0.
Definition bias_at (bias : option (list K)) (j : nat) : K := match bias with Some b => nth j b 0 | None => 0 end.
Definition bias_length (n : nat) (bias : option (list K)) : Prop := match bias with Some b => length b = 2 ^ n | None => True end.
Definition matprod (tr : bool) (m k n : nat) (L R : list K) (bias : option (list K)) (Y : list K) : Prop :=
  length L = 2 ^ (m + k) /\ length R = 2 ^ (k + n) /\ bias_length n bias /\ length Y = 2 ^ (m + n) /\
  forall i j, i < 2 ^ m -> j < 2 ^ n ->
    nth (i * 2 ^ n + j) Y 0 = sumn (2 ^ k) (fun t => nth (i * 2 ^ k + t) L 0 * rel tr k n R t j) + bias_at bias j.
(** The tables the layer's output claims are about: its inputs, left first. *)
Definition factors (lconst rconst : bool) (L R : list K) : list (list K) :=
  (if lconst then [] else [L]) ++ (if rconst then [] else [R]).
Definition weight_of (lconst : bool) (L R : list K) : list K := if lconst then L else R.
Definition right_point (tr : bool) (pt pr : list K) : list K := if tr then pt ++ pr else pr ++ pt.

Lemma mle_low k (l pt s : list K) b : b < 2 ^ k -> pt = bpt k b -> mle l (pt ++ s) = mlef (fun i => nth (b + 2 ^ k * i) l 0) s.
Proof.
  intros Hb ->. unfold mle. rewrite mlef_app, bpt_length. apply mlef_ext. intros i _. rewrite mlef_bool by auto. reflexivity.
Qed.
Lemma mle_high k (l s : list K) b : b < 2 ^ k -> mle l (s ++ bpt k b) = mlef (fun j => nth (j + 2 ^ length s * b) l 0) s.
Proof.
  intros Hb. unfold mle. rewrite mlef_app. rewrite mlef_bool by auto. reflexivity.
Qed.
Lemma mlef_prod (f g : nat -> K) pl pr :
  mlef (fun i => mlef (fun j => f i * g j) pr) pl = mlef f pl * mlef g pr.
Proof.
  rewrite <- mlef_scal_r. apply mlef_ext. intros i _. rewrite mlef_scal. reflexivity.
Qed.

Lemma matmul_hsum tr m k n (L R pl pr : list K) : length pl = m -> length pr = n ->
  hsum k (prodf [(fun pt => mle L (pt ++ pl)); (fun pt => mle R (right_point tr pt pr))])
  = mlef (fun i => mlef (fun j => sumn (2 ^ k) (fun t => nth (i * 2 ^ k + t) L 0 * rel tr k n R t j)) pr) pl.
Proof.
  intros Ll Lr. rewrite (mlef_ext (fun i => mlef _ pr) (fun i => sumn (2 ^ k) (fun t => mlef (fun j => nth (i * 2 ^ k + t)%nat L 0 * rel tr k n R t j) pr))).
  2: { intros i _. apply mlef_sumn. }
  rewrite mlef_sumn. unfold hsum. apply sumn_ext. intros t Ht. unfold prodf. cbn [map fprod].
  rewrite (mlef_prod (fun i => nth (i * 2 ^ k + t)%nat L 0) (fun j => rel tr k n R t j)).
  rewrite (mle_low k L _ pl t) by auto.
  replace (mle R (right_point tr (bpt k t) pr)) with (mlef (fun j => rel tr k n R t j) pr).
  - rewrite (mlef_ext (fun i => nth (t + 2 ^ k * i) L 0) (fun i => nth (i * 2 ^ k + t)%nat L 0)); [ring|]. intros i _. f_equal. lia.
  - unfold right_point, rel. destruct tr.
    + rewrite (mle_low k R _ pr t) by auto. apply mlef_ext. intros j _. f_equal. lia.
    + rewrite mle_high by auto. rewrite Lr. apply mlef_ext. intros j _. f_equal. lia.
Qed.

Lemma matprod_mle tr m k n L R bias Y pl pr : matprod tr m k n L R bias Y -> length pl = m -> length pr = n ->
  mle Y (pr ++ pl) = hsum k (prodf [(fun pt => mle L (pt ++ pl)); (fun pt => mle R (right_point tr pt pr))])
                     + match bias with Some b => mle b pr | None => 0 end.
Proof.
  intros (_ & _ & _ & _ & HY) Ll Lr. rewrite (matmul_hsum tr m k n) by auto. unfold mle. rewrite mlef_app, Lr.
  transitivity (mlef (fun i => mlef (fun j => sumn (2 ^ k) (fun t => nth (i * 2 ^ k + t) L 0 * rel tr k n R t j)) pr + mlef (bias_at bias) pr) pl).
  - apply mlef_ext. intros i Hi. rewrite Ll in Hi. rewrite <- mlef_add. apply mlef_ext. intros j Hj. rewrite Lr in Hj.
    rewrite <- HY by auto. f_equal. lia.
  - rewrite mlef_add, mlef_const. f_equal. destruct bias; unfold bias_at; [reflexivity|apply mlef_const].
Qed.

Lemma multilin_right tr R pr : multilin (fun pt => mle R (right_point tr pt pr)) (K := K).
Proof. unfold right_point. destruct tr; [apply multilin_mle_suffix|apply multilin_mle_prefix]. Qed.

Lemma F2_one {A B} (P : A -> B -> Prop) a b : Forall2 P [a] [b] -> P a b.
Proof. intros H. inversion H; auto. Qed.
Lemma F2_two {A B} (P : A -> B -> Prop) a b c d : Forall2 P [a; b] [c; d] -> P a c /\ P b d.
Proof. intros H. inversion H as [|? ? ? ? ? H2]. inversion H2. auto. Qed.

(** *** Soundness *)
Lemma matmul_sound (T : @hist K -> K) c m k n L R bias Y last pf h out com h' :
  char_gt K 2 -> 0 < k -> matprod (mc_transposed c) m k n L R bias Y ->
  mc_nv c = k -> mc_out_vars c = (m, n) -> (mc_bias c = true <-> bias <> None) ->
  matmul_verify T c last pf h = Some (out, com, h') -> length (mp_claims pf) = 2 ->
  Forall2 claim_true (factors (mc_left_const c) (mc_right_const c) L R) out ->
  (forall w, In (MatrixPoly, w) com -> claim_true (weight_of (mc_left_const c) L R) w) ->
  (forall w b, bias = Some b -> In (BiasPoly, w) com -> claim_true b w) ->
  claim_true Y last \/
  root_event T k 2 (prodf [(fun pt => mle L (pt ++ skipn n (cl_point last)));
                           (fun pt => mle R (right_point (mc_transposed c) pt (firstn n (cl_point last))))]) h (mp_sumcheck pf).
Proof.
  intros Hch Hk Hp Env Eov Hbias Hv Hlen Hout Hw Hb. assert (Hp' := Hp). destruct Hp' as (LL & LR & Lb & LY & _).
  unfold matmul_verify in Hv. rewrite Eov, Env in Hv. unfold split_claim in Hv. cbn [snd] in Hv. unfold pt_from, pt_upto in Hv.
  destruct (Nat.leb_spec n (length (cl_point last))) as [Hn|]; [|discriminate]. cbn [obind] in Hv.
  set (pl := skipn n (cl_point last)) in *. set (pr := firstn n (cl_point last)) in *.
  assert (Epl : cl_point last = pr ++ pl) by (unfold pr, pl; rewrite firstn_skipn; reflexivity).
  assert (Lpr : length pr = n) by (unfold pr; rewrite firstn_length; lia).
  destruct (if mc_bias c then _ else _) as [[common ev]|] eqn:Ebb; [|discriminate]. cbn [obind] in Hv.
  destruct (verify T ev (mp_sumcheck pf) k 2 h) as [[[rs expected] h2]|] eqn:Ev; [|discriminate]. cbn [obind] in Hv.
  assert (Lrs : length rs = k).
  { apply verify_point in Ev. subst rs. unfold sc_point. rewrite map_length, seq_length. reflexivity. }
  destruct (mc_left_const c && mc_right_const c) eqn:Elr; [discriminate|].
  unfold full_points, split_claim, pt_from, pt_upto in Hv. cbn [snd] in Hv.
  destruct (Nat.leb_spec n (length (cl_point last))) as [_|]; [|lia]. cbn [obind] in Hv. fold pl pr in Hv.
  destruct (mp_claims pf) as [|e0 [|e1 [|]]]; try discriminate. cbn [nth_error obind] in Hv.
  change (if mc_transposed c then rs ++ pr else pr ++ rs) with (right_point (mc_transposed c) rs pr) in Hv.
  set (cL := mkClaim (rs ++ pl) e0) in *. set (cR := mkClaim (right_point (mc_transposed c) rs pr) e1) in *.
  destruct (mm_claims (mc_left_const c) (mc_right_const c) common cL cR) as [out0 com0] eqn:Emc.
  destruct (virtual_claim [e0; e1] =? expected) eqn:Ee; [|discriminate]. apply feqb_true in Ee. rewrite virtual_claim_fprod in Ee. cbn [fprod] in Ee.
  assert (out0 = out /\ com0 = com) as [-> ->] by (split; congruence). clear Hv.
  assert (HLR : claim_true L cL /\ claim_true R cR /\ forall x, In x common -> In x com).
  { unfold mm_claims in Emc. unfold factors, weight_of in *. destruct (mc_left_const c), (mc_right_const c); try discriminate; cbn [app] in *.
    - assert (out = [cR] /\ com = common ++ [(MatrixPoly, cL)]) as [Eo Ec] by (split; congruence). rewrite Eo in Hout. rewrite Ec in *.
      split; [apply Hw; apply in_or_app; right; left; reflexivity|]. split; [apply (F2_one _ _ _ Hout)|]. intros. apply in_or_app; auto.
    - assert (out = [cL] /\ com = common ++ [(MatrixPoly, cR)]) as [Eo Ec] by (split; congruence). rewrite Eo in Hout. rewrite Ec in *.
      split; [apply (F2_one _ _ _ Hout)|]. split; [apply Hw; apply in_or_app; right; left; reflexivity|]. intros. apply in_or_app; auto.
    - assert (out = [cL; cR] /\ com = common) as [Eo Ec] by (split; congruence). rewrite Eo in Hout. rewrite Ec.
      destruct (F2_two _ _ _ _ _ Hout). auto. }
  destruct HLR as ([HL EL] & [HR ER] & Hcom). unfold cL, cR in *. cbn [cl_point cl_eval] in *.
  assert (Lpl : length pl = m).
  { rewrite LL, app_length, Lrs in HL. apply (Nat.pow_inj_r 2) in HL; lia. }
  assert (Eev : cl_eval last = ev + match bias with Some b => mle b pr | None => 0 end).
  { destruct bias as [b|].
    - assert (Hcb : mc_bias c = true) by (apply Hbias; discriminate). rewrite Hcb in Ebb.
      destruct (mp_bias_eval pf) as [eb|]; [|discriminate]. cbn [obind] in Ebb.
      assert (common = [(BiasPoly, mkClaim pr eb)]) by congruence. assert (ev = cl_eval last - eb) by congruence. subst common ev.
      destruct (Hb (mkClaim pr eb) b eq_refl) as [_ Eb]; [apply Hcom; left; reflexivity|]. cbn [cl_point cl_eval] in Eb. rewrite <- Eb. ring.
    - destruct (mc_bias c) eqn:Hcb; [exfalso; apply Hbias; reflexivity|]. assert (ev = cl_eval last) by congruence. subst ev. ring. }
  destruct (product_sound T ev (mp_sumcheck pf) k [(fun pt => mle L (pt ++ pl)); (fun pt => mle R (right_point (mc_transposed c) pt pr))]
              h rs expected h2 Hch Hk) as [E|Rt].
  - intros f [<-|[<-|[]]]; [apply multilin_mle_suffix|apply multilin_right].
  - exact Ev.
  - unfold prodf. cbn [map fprod]. rewrite <- EL, <- ER, <- Ee. reflexivity.
  - left. split; [rewrite LY, Epl, app_length, Lpr, Lpl; f_equal; lia|]. rewrite Epl, (matprod_mle (mc_transposed c) m k n L R bias Y pl pr Hp Lpl Lpr).
    rewrite <- E. exact Eev.
  - right. exact Rt.
Qed.

(** *** Completeness *)
Inductive wired (mm : matmul_layer (A := K)) : list (ten K) -> ten K -> ten K -> bool -> bool -> Prop :=
| w_inputs lt rt : mm_left mm = Input -> mm_right mm = Input -> wired mm [lt; rt] lt rt false false
| w_left lt rt u : mm_left mm = Weight lt u -> mm_right mm = Input -> wired mm [rt] lt rt true false
| w_right lt rt u : mm_left mm = Input -> mm_right mm = Weight rt u -> wired mm [lt] lt rt false true.

Lemma wired_operands mm inputs lt rt lc rc : wired mm inputs lt rt lc rc ->
  mm_operands mm inputs = Some ((lt, lc), (rt, rc)) /\ lc && rc = false /\
  (match mm_left mm with Weight _ _ => true | Input => false end) = lc /\
  (match mm_right mm with Weight _ _ => true | Input => false end) = rc.
Proof. unfold mm_operands. intros [? ? E E'|? ? u E E'|? ? u E E']; rewrite E, E'; auto. Qed.

Lemma wired_claims mm inputs lt rt lc rc common cL cR : wired mm inputs lt rt lc rc ->
  claim_true (dat lt) cL -> claim_true (dat rt) cR -> (forall x, In x common -> fst x = BiasPoly) ->
  exists out com, mm_claims lc rc common cL cR = (out, com) /\ Forall2 claim_true (map (@dat K) inputs) out /\
    (forall w, In (MatrixPoly, w) com -> claim_true (weight_of lc (dat lt) (dat rt)) w) /\
    (forall w, In (BiasPoly, w) com -> In (BiasPoly, w) common).
Proof.
  intros Hw HL HR Hc. assert (Hm : forall w, ~ In (MatrixPoly, w) common) by (intros w Hin; specialize (Hc _ Hin); discriminate).
  destruct Hw; unfold mm_claims, weight_of; do 2 eexists; (split; [reflexivity|]); cbn [map app]; (split; [repeat (apply Forall2_cons; [assumption|]); apply Forall2_nil|]); split; intros w Hin; auto.
  - exfalso. eapply Hm; eauto.
  - apply in_app_or in Hin. destruct Hin as [Hin|[E|[]]]; [exfalso; eapply Hm; eauto|]. assert (w = cL) by congruence. subst. auto.
  - apply in_app_or in Hin. destruct Hin as [Hin|[E|[]]]; [auto|discriminate].
  - apply in_app_or in Hin. destruct Hin as [Hin|[E|[]]]; [exfalso; eapply Hm; eauto|]. assert (w = cR) by congruence. subst. auto.
  - apply in_app_or in Hin. destruct Hin as [Hin|[E|[]]]; [auto|discriminate].
Qed.

Definition right_shape (tr : bool) (k n : nat) : list nat := if tr then [2 ^ n; 2 ^ k]%nat else [2 ^ k; 2 ^ n]%nat.

Lemma right_table (tr : bool) k n (rt : ten K) pr : sh rt = right_shape tr k n -> length (dat rt) = 2 ^ (k + n) -> length pr = n ->
  exists R' r0, (if tr then nrows_2d rt else ncols_2d rt) = Some (2 ^ n)%nat /\ to_mle_2d rt = Some r0 /\
    (if tr then fix_high_variables_in_place r0 pr else fix_variables_in_place r0 pr) = Some (mkMle (Ext R') k) /\
    length R' = 2 ^ k /\ forall pt, length pt = k -> mle R' pt = mle (dat rt) (right_point tr pt pr).
Proof.
  intros E L Lp. unfold right_shape in E. destruct tr.
  - exists (high_table (n + k) (dat rt) pr). eexists. rewrite (nrows_pow rt n k E). split; [reflexivity|].
    assert (L' : length (dat rt) = 2 ^ (n + k)) by (rewrite L; f_equal; lia).
    rewrite (to_mle_2d_ok rt n k) by auto. split; [reflexivity|]. rewrite fhvip_ext by (auto; lia). rewrite Lp. replace (n + k - n)%nat with k by lia.
    split; [reflexivity|]. split; [rewrite high_table_length, Lp; f_equal; lia|]. intros pt Hp. apply high_then_eval; auto. rewrite app_length. lia.
  - exists (low_table (k + n) (dat rt) pr). eexists. rewrite (ncols_pow rt k n E). split; [reflexivity|].
    rewrite (to_mle_2d_ok rt k n) by auto. split; [reflexivity|]. rewrite fvip_ext by (auto; lia). rewrite Lp. replace (k + n - n)%nat with k by lia.
    split; [reflexivity|]. split; [rewrite low_table_length, Lp; f_equal; lia|]. intros pt Hp. apply low_then_eval; auto. rewrite app_length. lia.
Qed.

Lemma matmul_complete (T : @hist K -> K) ncpus scs es (mm : matmul_layer (A := K)) inputs lt rt lc rc m k n (output : ten K) last h :
  0 < ncpus -> char_gt K 2 -> 0 < k -> wired mm inputs lt rt lc rc ->
  sh lt = [2 ^ m; 2 ^ k]%nat -> sh rt = right_shape (mm_transpose mm) k n -> sh output = [2 ^ m; 2 ^ n]%nat ->
  matprod (mm_transpose mm) m k n (dat lt) (dat rt) (option_map (@dat K) (mm_bias mm)) (dat output) -> claim_true (dat output) last ->
  valid_sched n es -> (forall i, i < k -> valid_rsched (K := K) (prod_shape 2 k) i (scs i)) ->
  exists out com pf h' c, matmul_prove T ncpus scs es mm inputs output last h = Some (out, com, pf, h') /\
    matmul_mk_ctx mm (sh lt) (sh rt) = Some c /\ length (mp_claims pf) = 2 /\
    Forall2 claim_true (map (@dat K) inputs) out /\
    (forall w, In (MatrixPoly, w) com -> claim_true (weight_of lc (dat lt) (dat rt)) w) /\
    (forall w b, mm_bias mm = Some b -> In (BiasPoly, w) com -> claim_true (dat b) w) /\
    ((forall r, In r (pf_point (mp_sumcheck pf)) -> not_node 2 r) -> matmul_verify T c last pf h = Some (out, com, h')).
Proof.
  intros Hnc Hch Hk Hw El Er Eo Hp [Llast Elast] Ves Hsc. assert (Hp' := Hp). destruct Hp' as (LL & LR & Lb & LY & _).
  destruct (wired_operands _ _ _ _ _ _ Hw) as (Eops & Elr & Elc & Erc).
  assert (Lp : length (cl_point last) = (m + n)%nat) by (apply (Nat.pow_inj_r 2); lia).
  set (pl := skipn n (cl_point last)). set (pr := firstn n (cl_point last)).
  assert (Epl : cl_point last = pr ++ pl) by (unfold pr, pl; rewrite firstn_skipn; reflexivity).
  assert (Lpr : length pr = n) by (unfold pr; rewrite firstn_length; lia).
  assert (Lpl : length pl = m) by (unfold pl; rewrite skipn_length; lia).
  destruct (right_table (mm_transpose mm) k n rt pr Er LR Lpr) as (R' & r0 & Enr & Er0 & Erm & LR' & HR').
  assert (Hsp : split_claim last (m, n) = Some (pl, pr)).
  { unfold split_claim, pt_from, pt_upto. cbn [snd]. destruct (Nat.leb_spec n (length (cl_point last))); [|lia]. reflexivity. }
  unfold matmul_prove. rewrite Eops. cbn [obind].
  assert (Hmt : is_matrix lt && is_matrix rt && is_matrix output = true).
  { unfold is_matrix. rewrite El, Er, Eo. unfold right_shape. destruct (mm_transpose mm); reflexivity. }
  rewrite Hmt. rewrite (nrows_pow lt m k El). cbn [obind]. rewrite Enr. cbn [obind].
  rewrite (nrows_pow output m n Eo), (ncols_pow output m n Eo). cbn [obind]. rewrite !Nat.eqb_refl. cbn [andb].
  rewrite !ilog2_pow. cbn [obind]. rewrite Lp, Nat.eqb_refl. rewrite Er0. cbn [obind]. rewrite (to_mle_2d_ok lt m k) by auto. cbn [obind].
  rewrite Hsp. cbn [obind].
  set (be := match mm_bias mm with Some b => Some (mle (dat b) pr) | None => None end).
  replace (match mm_bias mm with Some b => bm <- into_mle_ext (dat b) ;; e <- evaluate es bm pr ;; Some (Some e) | None => Some None end)
    with (Some be).
  2: { unfold be. destruct (mm_bias mm) as [b|]; [|reflexivity]. cbn [option_map bias_length] in Lb. rewrite (into_mle_ext_ok n) by auto. cbn [obind].
       rewrite (evaluate_ext es n) by auto. reflexivity. }
  cbn [obind]. rewrite fhvip_ext by (auto; lia). cbn [obind]. rewrite Erm. cbn [obind num_vars]. rewrite Lpl. replace (m + k - m)%nat with k by lia.
  rewrite Nat.eqb_refl.
  destruct (product_prove_ok T ncpus scs k [high_table (m + k) (dat lt) pl; R'] h) as (pf & h' & Epp & Hl & Hver); auto.
  { cbn [length]. lia. }
  { intros l [<-|[<-|[]]]; [rewrite high_table_length, Lpl; f_equal; lia|auto]. }
  cbn [map] in Epp. rewrite Epp. cbn [obind]. rewrite Elr.
  assert (Hfp : forall pt, full_points last pt (m, n) (mm_transpose mm) = Some (pt ++ pl, right_point (mm_transpose mm) pt pr)).
  { intros pt. unfold full_points. rewrite Hsp. reflexivity. }
  rewrite Hfp. cbn [obind nth_error].
  assert (HL' : forall pt, length pt = k -> mle (high_table (m + k) (dat lt) pl) pt = mle (dat lt) (pt ++ pl)).
  { intros pt Hpt. apply high_then_eval; auto. rewrite app_length. lia. }
  set (common := match be with Some e => [(BiasPoly, mkClaim pr e)] | None => [] end).
  set (cL := mkClaim (pf_point pf ++ pl) (mle (high_table (m + k) (dat lt) pl) (pf_point pf))).
  set (cR := mkClaim (right_point (mm_transpose mm) (pf_point pf) pr) (mle R' (pf_point pf))).
  assert (TL : claim_true (dat lt) cL).
  { unfold cL. split; cbn [cl_point cl_eval]; [rewrite LL, app_length, Hl, Lpl; f_equal; lia|apply HL'; auto]. }
  assert (TR : claim_true (dat rt) cR).
  { unfold cR. split; cbn [cl_point cl_eval]; [|apply HR'; auto]. rewrite LR. f_equal. unfold right_point. destruct (mm_transpose mm); rewrite app_length; lia. }
  destruct (wired_claims mm inputs lt rt lc rc common cL cR Hw TL TR) as (out & com & Emc & Hout & Hmat & Hbias).
  { unfold common. destruct be; [intros x [<-|[]]; reflexivity|intros x []]. }
  rewrite Emc. exists out, com, (mkMp pf [mle (high_table (m + k) (dat lt) pl) (pf_point pf); mle R' (pf_point pf)] be), h'.
  exists (mkMctx k (m, n) lc rc (match mm_bias mm with Some _ => true | None => false end) (mm_transpose mm)).
  split; [reflexivity|]. split.
  { unfold matmul_mk_ctx. rewrite Elc, Erc. rewrite El, Er.
    replace (if mm_transpose mm then rev (right_shape (mm_transpose mm) k n) else right_shape (mm_transpose mm) k n) with [2 ^ k; 2 ^ n]%nat
      by (unfold right_shape; destruct (mm_transpose mm); reflexivity).
    cbn [nth_error obind]. rewrite !ilog2_pow. cbn [obind]. rewrite Nat.eqb_refl. reflexivity. }
  cbn [mp_claims mp_sumcheck length]. do 3 (split; [auto|]). split.
  { intros w b Eb Hin. apply Hbias in Hin. unfold common, be in Hin. rewrite Eb in Hin. destruct Hin as [E|[]].
    assert (w = mkClaim pr (mle (dat b) pr)) by congruence. subst w. rewrite Eb in Lb. cbn [option_map bias_length] in Lb.
    split; cbn [cl_point cl_eval]; [rewrite Lpr; auto|reflexivity]. }
  intros Hr. unfold matmul_verify. cbn [mc_out_vars mc_bias mc_nv mc_left_const mc_right_const mc_transposed mp_bias_eval mp_sumcheck mp_claims].
  rewrite Hsp. cbn [obind].
  set (ev := hsum k (prodf (map mle [high_table (m + k) (dat lt) pl; R']))).
  assert (Hev : cl_eval last = ev + match option_map (@dat K) (mm_bias mm) with Some b => mle b pr | None => 0 end).
  { rewrite Elast, Epl, (matprod_mle _ m k n _ _ _ _ pl pr Hp) by auto. f_equal. unfold ev. apply hsum_ext. intros pt Hpt. unfold prodf. cbn [map fprod].
    rewrite HL', HR' by auto. reflexivity. }
  replace (if match mm_bias mm with Some _ => true | None => false end
           then e <- be;; Some ([(BiasPoly, {| cl_point := pr; cl_eval := e |})], cl_eval last - e) else Some ([], cl_eval last))
    with (Some (common, ev)).
  2: { unfold common, be. rewrite Hev. destruct (mm_bias mm) as [b|]; cbn [obind option_map]; do 2 f_equal; ring. }
  cbn [obind]. cbn [length] in Hver. unfold ev. rewrite Hver by auto. cbn [obind]. rewrite Elr. rewrite Hfp. cbn [obind nth_error]. fold cL cR. rewrite Emc.
  replace (virtual_claim [mle (high_table (m + k) (dat lt) pl) (pf_point pf); mle R' (pf_point pf)])
    with (prodf (map mle [high_table (m + k) (dat lt) pl; R']) (pf_point pf)) by (rewrite virtual_claim_fprod; reflexivity).
  rewrite feqb_refl. reflexivity.
Qed.

(** *** The unchecked number of evaluations *)
Lemma matmul_forge (T : @hist K -> K) tr m k n L R last h :
  char_gt K 2 -> 0 < k -> length L = 2 ^ (m + k) -> length R = 2 ^ (k + n) -> length (cl_point last) = (m + n)%nat ->
  let sc := mkProof [] (bogus_messages T (cl_eval last) k 2 h) in
  let rs := sc_point T k 2 h sc in
  (forall r, In r rs -> not_node 2 r) -> mle L (rs ++ skipn n (cl_point last)) <> 0 ->
  mle R (right_point tr rs (firstn n (cl_point last))) <> 0 ->
  exists pf out h', matmul_verify T (mkMctx k (m, n) false false false tr) last pf h = Some (out, [], h') /\
    Forall2 claim_true [L; R] out.
Proof.
  intros Hch Hk LL LR Lp sc rs Hr NL NR.
  destruct (bogus_verify T (cl_eval last) k 2 h [] Hch ltac:(lia) Hk Hr) as (e & h' & Ev). fold sc in Ev. fold rs in Ev.
  assert (Lrs : length rs = k) by (unfold rs, sc_point; rewrite map_length, seq_length; auto).
  set (w := mle L _) in *. set (v := mle R _) in *.
  exists (mkMp sc [w; v; e * / (w * v)] None). do 2 eexists.
  unfold matmul_verify, full_points, split_claim, pt_from, pt_upto.
  cbn [mc_out_vars mc_bias mc_nv mc_left_const mc_right_const mc_transposed mp_bias_eval mp_sumcheck mp_claims snd].
  destruct (Nat.leb_spec n (length (cl_point last))); [|lia]. cbn [obind]. rewrite Ev. cbn [obind andb nth_error mm_claims app].
  replace (virtual_claim [w; v; e * / (w * v)]) with e by (rewrite virtual_claim_fprod; cbn [fprod]; field; auto).
  rewrite feqb_refl. split; [reflexivity|].
  constructor; [|constructor; [|constructor]]; split; cbn [cl_point cl_eval]; try reflexivity.
  - rewrite LL, app_length, Lrs, skipn_length. f_equal. lia.
  - rewrite LR. f_equal. destruct tr; rewrite app_length, Lrs, firstn_length; lia.
Qed.

(** *** The integer layer *)
Lemma embed_length (l : list Z) : length (embed l : list K) = length l.
Proof. apply map_length. Qed.
Inductive wired_z (mm : matmul_layer (A := Z)) : list (ten Z) -> ten Z -> ten Z -> Prop :=
| wz_inputs lt rt : mm_left mm = Input -> mm_right mm = Input -> wired_z mm [lt; rt] lt rt
| wz_left lt rt u : mm_left mm = Weight lt u -> mm_right mm = Input -> wired_z mm [rt] lt rt
| wz_right lt rt u : mm_left mm = Input -> mm_right mm = Weight rt u -> wired_z mm [lt] lt rt.

Lemma matmul_integer (mm : matmul_layer (A := Z)) inputs lt rt m k n :
  wired_z mm inputs lt rt -> wft lt -> wft rt -> sh lt = [2 ^ m; 2 ^ k]%nat -> sh rt = right_shape (mm_transpose mm) k n ->
  (forall b, mm_bias mm = Some b -> wft b /\ sh b = [2 ^ n]%nat) ->
  exists y, matmul_op 0%Z Z.add Z.mul mm inputs = Some y /\ sh y = [2 ^ m; 2 ^ n]%nat /\
    matprod (mm_transpose mm) m k n (embed (dat lt)) (embed (dat rt)) (option_map (fun b => embed (dat b)) (mm_bias mm)) (embed (dat y)).
Proof.
  intros Hw Wl Wr El Er Hb. pose proof (pow2_pos m) as Hm. pose proof (pow2_pos k) as Hk. pose proof (pow2_pos n) as Hn.
  assert (Ht : exists r, maybe_transpose (mm_transpose mm) rt = Some r /\ wft r /\ sh r = [2 ^ k; 2 ^ n]%nat /\
            forall t j, t < 2 ^ k -> j < 2 ^ n -> fZ (entry 0%Z r [t; j]) = rel (mm_transpose mm) k n (embed (dat rt)) t j).
  { unfold maybe_transpose, rel. unfold right_shape in Er. destruct (mm_transpose mm).
    - destruct (transpose_ok 0%Z rt (2 ^ n) (2 ^ k)) as (r & Et & Sr & Wrr & Hr); auto. exists r. do 3 (split; [auto|]).
      intros t j Ht Hj. rewrite Hr by auto. unfold entry. rewrite Er, flat2, embed_nth. reflexivity.
    - exists rt. do 3 (split; [auto|]). intros t j Ht Hj. unfold entry. rewrite Er, flat2, embed_nth. reflexivity. }
  destruct Ht as (r & Etr & Wrr & Sr & Hr).
  destruct (product_ok 0%Z Z.add Z.mul lt r (2 ^ m) (2 ^ k) (2 ^ n)) as (u & Eu & Su & Wu & Hu); auto.
  assert (Hop : matmul_op 0%Z Z.add Z.mul mm inputs =
      match mm_bias mm with
      | Some b => match sh u, sh b with
                  | _ :: p :: _, p' :: _ => if Nat.eqb p p' then add_dim2 Z.add u b else None
                  | _, _ => None
                  end
      | None => Some u
      end).
  { unfold matmul_op. destruct Hw as [lt rt E E'|lt rt w E E'|lt rt w E E']; rewrite E, E'; cbn [nth_error obind]; rewrite Etr; cbn [obind]; rewrite Eu; reflexivity. }
  assert (Hfin : exists y, matmul_op 0%Z Z.add Z.mul mm inputs = Some y /\ sh y = [2 ^ m; 2 ^ n]%nat /\ wft y /\
     forall i j, i < 2 ^ m -> j < 2 ^ n -> fZ (entry 0%Z y [i; j]) =
       fZ (entry 0%Z u [i; j]) + bias_at (option_map (fun b => embed (dat b)) (mm_bias mm)) j).
  { rewrite Hop. destruct (mm_bias mm) as [b|] eqn:Eb.
    - destruct (Hb b eq_refl) as [Wb Sb]. rewrite Su, Sb, Nat.eqb_refl.
      destruct (add_dim2_ok 0%Z Z.add u b (2 ^ m) (2 ^ n)) as (y & Ey & Sy & Wy & Hy); auto. exists y. do 3 (split; [auto|]).
      intros i j Hi Hj. rewrite Hy, fZ_add by auto. f_equal. cbn [option_map bias_at]. unfold entry. rewrite Sb, flat1, embed_nth. reflexivity.
    - exists u. do 3 (split; [auto|]). intros i j Hi Hj. cbn [option_map bias_at]. ring. }
  destruct Hfin as (y & Ey & Sy & Wy & Hy). exists y. split; [auto|]. split; [auto|].
  unfold matprod. rewrite !embed_length. unfold wft in *. rewrite El in Wl. rewrite Er in Wr. rewrite Sy in Wy. cbn [fold_right] in *.
  split; [rewrite Nat.pow_add_r; lia|]. split; [rewrite Nat.pow_add_r; unfold right_shape in Wr; destruct (mm_transpose mm); cbn [fold_right] in Wr; lia|].
  split. { destruct (mm_bias mm) as [b|] eqn:Eb; [|exact I]. destruct (Hb b eq_refl) as [Wb Sb]. cbn [option_map bias_length]. rewrite embed_length.
           unfold wft in Wb. rewrite Sb in Wb. cbn [fold_right] in Wb. lia. }
  split; [rewrite Nat.pow_add_r; lia|].
  intros i j Hi Hj. specialize (Hy i j Hi Hj). unfold entry at 1 in Hy. rewrite Sy, flat2 in Hy.
  rewrite embed_nth, Hy. f_equal. rewrite Hu, sumto_fZ by auto. apply sumn_ext. intros t Ht. rewrite fZ_mul, Hr by auto. f_equal.
  unfold entry. rewrite El, flat2, embed_nth. reflexivity.
Qed.
End P.
