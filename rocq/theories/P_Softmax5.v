(** Honest softmax proofs are accepted. *)
From Coq Require Import List Arith Lia Bool ZArith Ring Field.
From Verif Require Import ListAux FieldDef PolyList MleMath M_Mle P_Mle P_Eq M_Interp P_Interp M_Sumcheck P_ScVerify P_ScProve P_ScProve2 P_ScBatch P_ScFinal M_ScParallel
  P_ScParallel P_ScApi M_SamePoly P_SamePoly M_LogUp P_LogUp3 P_LogUp4 P_LogUp8 P_LogUp9 M_Tensor P_Tensor M_Layers P_Layers P_Layers2 M_Transformer P_Transformer M_Sop P_Sop
  P_Pooling P_Pooling2 M_RequantP P_RequantP P_RequantP2 M_LayerNorm P_LayerNorm P_LayerNorm2 P_LayerNorm5 P_LayerNorm6 M_Softmax P_Softmax P_Softmax2 P_Softmax3 P_Softmax4.
From Verif Require M_Basefold.
Import ListNotations.

Section P.
Context {K : field} {C : Type}.
Local Open Scope F_scope.
Add Field Kf_sm5 : (fth K).

Lemma mask_input_some c16 c8 c tv (ei lo hi : K) zs : sm_tv c = Some tv -> length zs = (2 * sm_nz c)%nat -> (sm_nz c <> 0%nat -> (16 + tv < 64)%nat /\ (sm_zv c < 64)%nat) ->
  sm_mask_input c16 c8 c ei lo hi zs = Some (lo + c8 * hi + c16 * ei + fZ (2 ^ Z.of_nat (16 + tv)) * peval (every2 zs) (fZ (2 ^ Z.of_nat (sm_zv c)))).
Proof.
  intros Ht L H. destruct (sm_mask_input c16 c8 c ei lo hi zs) as [mi|] eqn:E; [f_equal; apply (mask_input_ok _ _ c tv) in E; auto|].
  exfalso. unfold sm_mask_input in E. destruct (sm_nz c) as [|nz]; [discriminate E|]. destruct H as [H1 H2]; [lia|]. rewrite Ht in E. cbn [obind] in E. unfold pow2u in E.
  destruct (Nat.ltb_spec (16 + tv) 64); [|lia]. cbn [obind] in E. destruct (Nat.ltb_spec (sm_zv c) 64); [|lia]. discriminate E.
Qed.

(** What makes the verifier accept. *)
Lemma sm_accept_at (c16 c8 : K) (T : @hist K -> K) c ce cr cx cz pre s m cv n (last : @claim K) (pf : @sm_proof K C) h p q xp z vi vo vl vh vx vz h1 ap e1 h3 ei eo lv hv es zs mi mp e2 h4 cs :
  char_gt K 2 -> (0 < n)%nat -> length p = n -> length q = n -> length xp = m -> (sm_nz c <> 0%nat -> length z = n) -> length (cl_point last) = n -> n = (s + m)%nat -> (s < 64)%nat ->
  sm_lookups T c ce cr cx cz pf h = Some (sm_cls (sm_nz c) p q xp z vi vo vl vh vx vz, h1) -> length vz = (2 * sm_nz c)%nat ->
  verify T (peval (sm_claimed vi vo vl vh vx vz (cl_eval last)) (sm_alpha T h1)) (smp_acc pf) n (sm_nz c + 2) (sm_h2 h1) = Some (ap, e1, h3) -> length ap = n ->
  smp_evals pf = ei :: eo :: lv :: hv :: es :: zs -> length zs = (2 * sm_nz c)%nat ->
  e1 = peval ([eqp p ap * ei; eqp p ap * eo; eqp q ap * lv; eqp q ap * hv] ++ map (fun v => eqp z ap * v) zs ++
         [fZ (2 ^ Z.of_nat s) * (eqp (repeat (/ (1 + 1)) s ++ xp) ap * (fprod (every2 (skipn 1 zs)) * eo)); eqp (cl_point last) ap * (fprod (every2 (skipn 1 zs)) * eo)]) (sm_alpha T h1) ->
  sm_mask_input c16 c8 c ei lv hv zs = Some mi -> verify T (- mi) (smp_mask pf) n 3 h3 = Some (mp, e2, h4) -> length mp = n ->
  eqp mp ap * sm_tril cv mp <> 0 -> fZ (sm_scalar c) <> (0 : K) -> nth_error (smp_comms pf) 4 = Some cs ->
  sm_verify_at c16 c8 T c ce cr cx cz (pre ++ [(2 ^ cv)%nat; (2 ^ cv)%nat]) last pf h =
  Some (let at_ap := combine (smp_comms pf) (map (mkClaim ap) (smp_evals pf)) in
        firstn 4 at_ap ++ [(cs, mkClaim (skipn s mp) es)] ++ (if (sm_nz c =? 0)%nat then [] else skipn 5 at_ap),
        mkClaim mp (((e2 - eqp mp ap * (fZ (sm_neg_inf c) * (1 - sm_tril cv mp))) * / (eqp mp ap * sm_tril cv mp) - es) * / fZ (sm_scalar c)), h4).
Proof.
  intros Hc2 Hn Lp Lq Lx Lz Ll En Hs El Lvz Ev La Ee Lzs Ee1 Emi Ev2 Lm Nt Ns E4. unfold sm_verify_at. rewrite El. remember (nth_error (smp_comms pf) 4) as o4 eqn:Eo4. cbn [obind].
  assert (E0 : nth_error (sm_cls (sm_nz c) p q xp z vi vo vl vh vx vz) 0 = Some [mkClaim p vi; mkClaim p vo]) by reflexivity.
  assert (E1 : nth_error (sm_cls (sm_nz c) p q xp z vi vo vl vh vx vz) 1 = Some [mkClaim q vl; mkClaim q vh]) by reflexivity.
  assert (E2 : nth_error (sm_cls (sm_nz c) p q xp z vi vo vl vh vx vz) 2 = Some [mkClaim xp vx]) by reflexivity.
  rewrite E0, E1, E2. cbn [obind]. unfold get_challenge. fold (sm_alpha T h1). fold (sm_h2 h1).
  assert (Enz : map cl_eval (nth 3 (sm_cls (sm_nz c) p q xp z vi vo vl vh vx vz) []) = vz).
  { unfold sm_cls. destruct (sm_nz c); cbn [app nth]; [destruct vz; [reflexivity|discriminate Lvz]|]. rewrite map_map. cbn [cl_eval]. apply map_id. }
  rewrite batch_ok. rewrite !map_app, Enz. cbn [map cl_eval].
  replace (nth_error [mkClaim p vi; mkClaim p vo] 0) with (Some (mkClaim p vi)) by reflexivity. replace (nth_error [mkClaim q vl; mkClaim q vh] 0) with (Some (mkClaim q vl)) by reflexivity. replace (nth_error [mkClaim xp vx] 0) with (Some (mkClaim xp vx)) by reflexivity.
  cbn [obind cl_point]. destruct (half_ok Hc2) as [Hh Ehalf]. rewrite Ehalf. cbn [obind]. set (half := / (1 + 1)) in *.
  rewrite Lp, Lx. unfold csub at 1. destruct (Nat.leb_spec m n); [|lia]. cbn [obind]. replace (n - m)%nat with s by lia.
  unfold pow2u at 1. destruct (Nat.ltb_spec s 64); [|lia]. cbn [obind].
  replace (if (length (sm_cls (sm_nz c) p q xp z vi vo vl vh vx vz) =? 4)%nat then (sm_nz c + 2)%nat else 2%nat) with (sm_nz c + 2)%nat by (unfold sm_cls; destruct (sm_nz c); reflexivity).
  match goal with |- obind (verify _ ?c _ _ _ _) _ = _ => replace c with (peval (sm_claimed vi vo vl vh vx vz (cl_eval last)) (sm_alpha T h1)) end.
  2: { unfold sm_claimed. cbn [app peval length fpow]. rewrite !app_length, !peval_app'. cbn [peval length]. rewrite !fpow_add. cbn [fpow]. ring. }
  rewrite Ev. cbn [obind]. assert (NE : forall l : list K, length l = n -> l <> []) by (intros l L0 X; rewrite X in L0; cbn in L0; lia).
  assert (Lfull : length (repeat half s ++ xp) = n) by (rewrite app_length, repeat_length; lia).
  rewrite (eq_xy_ok (cl_point last) ap), (eq_xy_ok p ap), (eq_xy_ok q ap), (eq_xy_ok (repeat half s ++ xp) ap) by first [congruence|apply NE; assumption]. cbn [obind].
  rewrite Ee. cbn [length]. rewrite Lzs. replace (S (S (S (S (S (2 * sm_nz c))))) =? 5 + 2 * sm_nz c)%nat with true by (symmetry; apply Nat.eqb_eq; lia).
  set (zb := if (sm_nz c =? 0)%nat then 0 else eqp z ap).
  match goal with |- obind ?o _ = _ => replace o with (Some zb) end.
  2: { unfold zb. destruct (Nat.eqb_spec (sm_nz c) 0) as [|Nz]; [reflexivity|]. unfold sm_cls. destruct (sm_nz c) as [|nz']; [contradiction|]. destruct vz as [|v0 vz']; [discriminate Lvz|]. cbn [app nth_error obind map cl_point]. symmetry. apply eq_xy_ok; first [apply NE; apply Lz; lia|rewrite La; apply Lz; lia]. }
  cbn [obind]. rewrite calc_ok by exact Lzs.
  match goal with |- (if ?x =? ?y then _ else _) = _ => replace (x =? y) with true end.
  2: { symmetry. apply feqb_spec. rewrite Ee1. do 3 f_equal. unfold zb. destruct (Nat.eqb_spec (sm_nz c) 0) as [E|]; [|reflexivity]. rewrite E in Lzs. destruct zs; [reflexivity|discriminate Lzs]. }
  rewrite Emi. cbn [obind]. rewrite La, Ev2. cbn [obind]. rewrite (eq_xy_ok mp ap) by first [congruence|apply NE; assumption]. cbn [obind].
  rewrite app_length. cbn [length]. unfold csub. destruct (Nat.leb_spec 2 (length pre + 2)); [|lia]. cbn [obind]. replace (length pre + 2 - 2)%nat with (length pre) by lia.
  rewrite nth_error_app2 by lia. rewrite Nat.sub_diag. replace (nth_error [(2 ^ cv)%nat; (2 ^ cv)%nat] 0) with (Some (2 ^ cv)%nat) by reflexivity. cbn [obind]. rewrite ceil_log2_pow2. cbn [obind].
  destruct (Nat.leb_spec 1 (length pre + 2)); [|lia]. cbn [obind]. replace (length pre + 2 - 1)%nat with (S (length pre)) by lia.
  rewrite nth_error_app2 by lia. replace (S (length pre) - length pre)%nat with 1%nat by lia. replace (nth_error [(2 ^ cv)%nat; (2 ^ cv)%nat] 1) with (Some (2 ^ cv)%nat) by reflexivity. cbn [obind]. rewrite ceil_log2_pow2. cbn [obind].
  fold (sm_tril cv mp). rewrite (finv_some _ Nt). cbn [obind]. rewrite (finv_some _ Ns). cbn [obind]. rewrite E4. cbn [obind]. reflexivity.
Qed.

(** The tables of the masking sumcheck. *)
Definition sm_shifted (c : sm_ctx) (s n : nat) (xs shift : list K) : list K := map (fun b => fZ (sm_scalar c) * nth b xs 0 + nth (b / 2 ^ s) shift 0) (seq 0 (2 ^ n)).
Definition sm_tri (cv n : nat) : list K := map (fun b => if above cv b then 0 else 1) (seq 0 (2 ^ n)).
Definition sm_bias (c : sm_ctx) (cv n : nat) : list K := map (fun b => if above cv b then fZ (sm_neg_inf c) else 0) (seq 0 (2 ^ n)).
Lemma shifted_mle c s m n xs shift x : n = (s + m)%nat -> length x = n -> mle (sm_shifted c s n xs shift) x = fZ (sm_scalar c) * mle xs x + mle shift (skipn s x).
Proof.
  intros En Lx. unfold sm_shifted. rewrite mle_map_seq by auto. rewrite mlef_add, mlef_scal. f_equal.
  rewrite <- (firstn_skipn s x) at 1. rewrite mlef_app. unfold mle. apply mlef_ext. intros j Hj. rewrite firstn_length, Nat.min_l by lia.
  etransitivity; [|apply (mlef_const (nth j shift 0) (firstn s x))]. apply mlef_ext. rewrite firstn_length, Nat.min_l by lia. intros i Hi. f_equal. 
  replace (i + 2 ^ s * j)%nat with (i + j * 2 ^ s)%nat by lia. rewrite Nat.div_add by (apply Nat.pow_nonzero; lia). rewrite Nat.div_small by lia. reflexivity.
Qed.
Lemma tri_mle cv hv n x : n = (cv + cv + hv)%nat -> length x = n -> mle (sm_tri cv n) x = sm_tril cv x.
Proof.
  intros En Lx. rewrite (sm_tril_mle cv hv n) by auto. unfold sm_tri. rewrite mle_map_seq by auto. unfold mle. apply mlef_ext. rewrite Lx. intros b Hb. symmetry. apply (zeroifier_nth cv hv n); auto.
Qed.
Lemma bias_mle c cv hv n x : n = (cv + cv + hv)%nat -> length x = n -> mle (sm_bias c cv n) x = fZ (sm_neg_inf c) * (1 - sm_tril cv x).
Proof.
  intros En Lx. rewrite <- (tri_mle cv hv n) by auto. unfold sm_bias, sm_tri. rewrite !mle_map_seq by auto. replace 1 with (mlef (fun _ => (1 : K)) x) at 1 by apply mlef_const. rewrite <- mlef_sub, <- mlef_scal. apply mlef_ext. intros b _. destruct (above cv b); ring.
Qed.
Lemma mask_fn_poly c s m cv hv n xs shift ap x : n = (s + m)%nat -> n = (cv + cv + hv)%nat -> length x = n ->
  mask_fn (sm_shifted c s n xs shift) (sm_tri cv n) (sm_bias c cv n) ap x = sm_mask_poly c s cv ap xs shift x.
Proof. intros E1 E2 Lx. unfold mask_fn, sm_mask_poly. rewrite (shifted_mle c s m), (tri_mle cv hv n), (bias_mle c cv hv) by auto. reflexivity. Qed.
End P.
