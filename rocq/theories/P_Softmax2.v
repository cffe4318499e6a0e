(** Soundness of the softmax proof. *)
From Coq Require Import List Arith Lia Bool ZArith Ring Field.
From Verif Require Import ListAux FieldDef PolyList MleMath M_Mle P_Mle P_Eq M_Interp P_Interp M_Sumcheck P_ScVerify P_ScProve P_ScProve2 P_ScBatch P_ScFinal M_ScParallel
  P_ScParallel P_ScApi M_SamePoly P_SamePoly M_LogUp P_LogUp3 M_Tensor P_Tensor M_Layers P_Layers P_Layers2 M_Transformer P_Transformer M_Sop P_Sop
  P_Pooling M_RequantP P_RequantP M_LayerNorm P_LayerNorm P_LayerNorm2 P_LayerNorm5 M_Softmax P_Softmax.
From Verif Require M_Basefold.
Import ListNotations.

Section P.
Context {K : field} {C : Type}.
Local Open Scope F_scope.
Add Field Kf_sm2 : (fth K).

Lemma batch_ok (a : K) vs : forall acc w, sm_batch a vs (acc, w) = (acc + w * peval vs a, w * fpow a (length vs)).
Proof. unfold sm_batch. induction vs as [|v vs IH]; intros acc w; cbn [fold_left peval length fpow]; [f_equal; ring|]. rewrite IH. f_equal; ring. Qed.
Lemma batch_eq_ok (a e : K) vs : forall acc w, sm_batch_eq a e vs (acc, w) = (acc + w * peval (map (fun v => e * v) vs) a, w * fpow a (length vs)).
Proof. unfold sm_batch_eq. induction vs as [|v vs IH]; intros acc w; cbn [fold_left map peval length fpow]; [f_equal; ring|]. rewrite IH. f_equal; ring. Qed.
Lemma peval_app' (a : K) xs ys : peval (xs ++ ys) a = peval xs a + fpow a (length xs) * peval ys a.
Proof. induction xs as [|x xs IH]; cbn [app peval length fpow]; [ring|]. rewrite IH. ring. Qed.
Lemma calc_ok nz (alpha eb rb zb xb lb tm ei eo lo hi : K) zs : length zs = (2 * nz)%nat ->
  sm_calc nz alpha eb rb zb xb lb tm ei eo lo hi zs =
  peval ([eb * ei; eb * eo; rb * lo; rb * hi] ++ map (fun v => zb * v) zs ++
         [tm * (xb * (fprod (every2 (skipn 1 zs)) * eo)); lb * (fprod (every2 (skipn 1 zs)) * eo)]) alpha.
Proof.
  intros L. unfold sm_calc. rewrite batch_ok, batch_eq_ok. destruct nz as [|nz].
  - destruct zs; [|discriminate L]. cbn [map skipn every2 length app peval fpow]. unfold fprod. cbn [fold_right]. ring.
  - rewrite batch_eq_ok. rewrite !peval_app'. cbn [map length peval fpow]. rewrite map_length. ring.
Qed.

(** The product of the looked-up exponential and the zero flags. *)
Definition outv (cout : list K) (zc : list (list K)) (x : list K) : K := fprod (evals_at (every2 (skipn 1 zc)) x) * mle cout x.
(** The output table: entry by entry, the exponential if all zero flags are one. *)
Definition sm_out (n : nat) (cout : list K) (zc : list (list K)) : list K :=
  map (fun i => fprod (map (fun c => nth i c 0) (every2 (skipn 1 zc))) * nth i cout 0) (seq 0 (2 ^ n)).
Definition sm_fns (p q z full lp : list K) (tm : K) (cin cout lo hi : list K) (zc : list (list K)) : list (list K -> K) :=
  [(fun x => eqp p x * mle cin x); (fun x => eqp p x * mle cout x); (fun x => eqp q x * mle lo x); (fun x => eqp q x * mle hi x)] ++
  map (fun c x => eqp z x * mle c x) zc ++ [(fun x => tm * (eqp full x * outv cout zc x)); (fun x => eqp lp x * outv cout zc x)].
Definition sm_poly p q z full lp tm cin cout lo hi zc (a : K) (x : list K) : K := peval (map (fun F => F x) (sm_fns p q z full lp tm cin cout lo hi zc)) a.

Lemma hsum_peval n (Fs : list (list K -> K)) a : hsum n (fun x => peval (map (fun F => F x) Fs) a) = peval (map (hsum n) Fs) a.
Proof.
  induction Fs as [|F Fs IH]; cbn [map peval].
  - rewrite (hsum_ext n _ (fun _ => 0 * 0)); [rewrite hsum_scal; ring|]. intros; ring.
  - rewrite hsum_add, hsum_scal, IH. reflexivity.
Qed.
Lemma outv_bool n cout zc b : (b < 2 ^ n)%nat -> outv cout zc (bpt n b) = nth b (sm_out n cout zc) 0.
Proof.
  intros Hb. unfold outv, sm_out. rewrite nth_map_seq by exact Hb. rewrite mle_bool_at by exact Hb. f_equal. f_equal. unfold evals_at. apply map_ext. intros c. apply mle_bool_at. exact Hb.
Qed.
Lemma hsum_sm n p q z full lp tm cin cout lo hi zc a : length p = n -> length q = n -> (zc <> [] -> length z = n) -> length full = n -> length lp = n ->
  hsum n (sm_poly p q z full lp tm cin cout lo hi zc a) =
  peval ([mle cin p; mle cout p; mle lo q; mle hi q] ++ evals_at zc z ++ [tm * mle (sm_out n cout zc) full; mle (sm_out n cout zc) lp]) a.
Proof.
  intros Lp Lq Lz Lf Ll. unfold sm_poly. rewrite hsum_peval. f_equal. unfold sm_fns. rewrite !map_app. cbn [map]. f_equal; [|f_equal].
  - repeat f_equal; apply hsum_eqp; auto using mle_bool_at.
  - rewrite map_map. unfold evals_at. apply map_ext_in. intros c Hc. apply hsum_eqp; [|auto using mle_bool_at]. apply Lz. intros ->. destruct Hc.
  - f_equal; [|f_equal].
    + rewrite hsum_scal. f_equal. apply hsum_eqp; [exact Lf|]. intros b Hb. apply outv_bool. exact Hb.
    + apply hsum_eqp; [exact Ll|]. intros b Hb. apply outv_bool. exact Hb.
Qed.
Lemma is_poly_const1 d : is_poly d (fun _ : K => 1).
Proof. apply (is_poly_le 0); [lia|]. exists [1]. split; [cbn; lia|]. intros x. cbn [peval]. ring. Qed.
Lemma is_poly_prod (u v : list K) (l : list (list K)) : is_poly (length l) (fun x => fprod (evals_at l (u ++ x :: v))).
Proof.
  induction l as [|c l IH]; cbn [evals_at map length].
  - unfold fprod. cbn [fold_right]. apply is_poly_const1.
  - unfold fprod. cbn [fold_right]. change (S (length l)) with (1 + length l)%nat. apply is_poly_mul; [apply multilin_mle|exact IH].
Qed.
Lemma is_poly_peval (u v : list K) d a (Fs : list (list K -> K)) : (forall F, In F Fs -> is_poly d (fun x => F (u ++ x :: v))) -> is_poly d (fun x => peval (map (fun F => F (u ++ x :: v)) Fs) a).
Proof.
  induction Fs as [|F Fs IH]; intros H; cbn [map peval].
  - eapply is_poly_ext; [|apply (is_poly_scal d 0 (fun _ => 1)), is_poly_const1]. intros; cbv beta. ring.
  - apply is_poly_add; [apply H; left; reflexivity|]. apply is_poly_scal. apply IH. intros F' HF. apply H. right. exact HF.
Qed.
Lemma every2_len {A} : forall nz (l : list A), length l = (2 * nz)%nat -> length (every2 l) = nz /\ length (every2 (skipn 1 l)) = nz.
Proof.
  induction nz as [|nz IH]; intros l L; [destruct l; [auto|discriminate L]|]. destruct l as [|x [|y l]]; cbn [length] in L; try lia.
  destruct (IH l) as [I1 I2]; [lia|]. cbn [every2 skipn length]. split; [lia|]. destruct l as [|w l]; cbn [skipn length] in *; [cbn [every2 length] in *; lia|].
  change (every2 (y :: w :: l)) with (y :: every2 l). cbn [length]. rewrite I2. reflexivity.
Qed.
Lemma every2_map {A B} (f : A -> B) : forall m (l : list A), (length l <= m)%nat -> every2 (map f l) = map f (every2 l).
Proof. induction m as [|m IH]; intros l L; [destruct l; [reflexivity|cbn in L; lia]|]. destruct l as [|x [|y l]]; cbn [map every2]; [reflexivity|reflexivity|]. f_equal. apply IH. cbn [length] in L. lia. Qed.
Lemma skipn_map1 {A B} (f : A -> B) n l : skipn n (map f l) = map f (skipn n l).
Proof. revert l; induction n as [|n IH]; intros [|x l]; cbn; auto. Qed.
Lemma sm_poly_deg n nz p q z full lp tm cin cout lo hi zc a : length zc = (2 * nz)%nat -> indiv_deg (nz + 2) n (sm_poly p q z full lp tm cin cout lo hi zc a).
Proof.
  intros L u v _. unfold sm_poly. apply is_poly_peval. intros F HF.
  assert (M : forall r (l : list K), is_poly (nz + 2) (fun x => eqp r (u ++ x :: v) * mle l (u ++ x :: v))).
  { intros r l. apply (is_poly_le (1 + 1)); [lia|]. apply is_poly_mul; [apply multilin_eqp|apply multilin_mle]. }
  assert (O : forall r, is_poly (nz + 2) (fun x => eqp r (u ++ x :: v) * outv cout zc (u ++ x :: v))).
  { intros r. unfold outv. replace (nz + 2)%nat with (1 + (nz + 1))%nat by lia. apply is_poly_mul; [apply multilin_eqp|]. apply is_poly_mul; [|apply multilin_mle].
    destruct (every2_len nz zc L) as [_ E]. rewrite <- E. apply is_poly_prod. }
  unfold sm_fns in HF. apply in_app_or in HF as [HF|HF]; [|apply in_app_or in HF as [HF|HF]].
  - destruct HF as [<-|[<-|[<-|[<-|[]]]]]; apply M.
  - apply in_map_iff in HF as (c & <- & _). apply M.
  - destruct HF as [<-|[<-|[]]]; [apply is_poly_scal|]; apply O.
Qed.

(** ** The masking sumcheck *)
(** Position [b] of a row of [2 ^ cv] is above the diagonal of its square block. *)
Definition above (cv b : nat) : bool := ((b / 2 ^ cv) mod 2 ^ cv <? b mod 2 ^ cv)%nat.
(** What the masked input should be: entry [b] belongs to the shift of its block of [2 ^ s] entries. *)
Definition sm_masked (c : sm_ctx) (s cv n : nat) (xs shift : list K) : list K :=
  map (fun b => if above cv b then fZ (sm_neg_inf c) else fZ (sm_scalar c) * nth b xs 0 + nth (b / 2 ^ s) shift 0) (seq 0 (2 ^ n)).
(** The value of the chunks. *)
Definition sm_comb_at (c16 c8 : K) (tv zv n : nat) (cin lo hi : list K) (zc : list (list K)) : list K :=
  map (fun b => nth b lo 0 + c8 * nth b hi 0 + c16 * nth b cin 0 + fZ (2 ^ Z.of_nat (16 + tv)) * peval (map (fun z => nth b z 0) (every2 zc)) (fZ (2 ^ Z.of_nat zv))) (seq 0 (2 ^ n)).
Definition sm_comb := sm_comb_at (fZ (2 ^ 16)) (fZ (2 ^ 8)).
Definition sm_tril (cv : nat) (x : list K) : K := eval_zeroifier_mle (firstn cv x) (firstn cv (skipn cv x)).
Definition sm_mask_poly (c : sm_ctx) (s cv : nat) (ap xs shift : list K) (x : list K) : K :=
  eqp ap x * ((fZ (sm_scalar c) * mle xs x + mle shift (skipn s x)) * sm_tril cv x + fZ (sm_neg_inf c) * (1 - sm_tril cv x)).

Lemma sm_tril_mle cv hv n x : n = (cv + cv + hv)%nat -> length x = n -> sm_tril cv x = mle (dat (zeroifier (0 : K) 1 (2 ^ hv) (2 ^ cv) (2 ^ cv))) x.
Proof.
  intros En L. unfold sm_tril. rewrite (zeroifier_mle hv cv _ _ (skipn (cv + cv) x)).
  - f_equal. rewrite <- (firstn_skipn cv x) at 4. f_equal. rewrite <- (firstn_skipn cv (skipn cv x)) at 2. f_equal. rewrite P_Tensor2.skipn_skipn'. reflexivity.
  - rewrite firstn_length. lia.
  - rewrite firstn_length, skipn_length. lia.
  - rewrite skipn_length. lia.
Qed.
Lemma zeroifier_nth cv hv n b : n = (cv + cv + hv)%nat -> (b < 2 ^ n)%nat -> nth b (dat (zeroifier (0 : K) 1 (2 ^ hv) (2 ^ cv) (2 ^ cv))) 0 = if above cv b then 0 else 1.
Proof.
  intros En Hb. change (dat (zeroifier (0 : K) 1 (2 ^ hv) (2 ^ cv) (2 ^ cv))) with (mask_dat (fun q e => if Nat.ltb q e then 0 else 1 : K) (2 ^ hv) (2 ^ cv) (2 ^ cv)).
  assert (P : (2 ^ cv <> 0)%nat) by (apply Nat.pow_nonzero; lia). set (w := (2 ^ cv)%nat) in *.
  assert (Eb : b = (b mod w + w * ((b / w) mod w + w * (b / w / w)))%nat).
  { pose proof (Nat.div_mod b w P). pose proof (Nat.div_mod (b / w) w P). rewrite (Nat.add_comm ((b / w) mod w)), <- H0. lia. }
  rewrite Eb at 1. rewrite mask_nth; [reflexivity| |apply Nat.mod_upper_bound; exact P|apply Nat.mod_upper_bound; exact P].
  apply Nat.div_lt_upper_bound; [exact P|]. apply Nat.div_lt_upper_bound; [exact P|]. unfold w. rewrite <- !Nat.pow_add_r. rewrite Nat.add_assoc, <- En. exact Hb.
Qed.
Lemma hsum_mask c s cv hv m n ap xs shift : n = (cv + cv + hv)%nat -> n = (s + m)%nat -> length ap = n ->
  hsum n (sm_mask_poly c s cv ap xs shift) = mle (sm_masked c s cv n xs shift) ap.
Proof.
  intros En Em La. unfold sm_mask_poly. apply (hsum_eqp n ap (fun x => (fZ (sm_scalar c) * mle xs x + mle shift (skipn s x)) * sm_tril cv x + fZ (sm_neg_inf c) * (1 - sm_tril cv x))); [exact La|].
  intros b Hb. unfold sm_masked. rewrite nth_map_seq by exact Hb. rewrite (sm_tril_mle cv hv n) by (auto; apply bpt_length). rewrite mle_bool_at by exact Hb. rewrite mle_bool_at by exact Hb.
  rewrite (zeroifier_nth cv hv n) by auto. rewrite Em. rewrite Em in Hb. destruct (@bpt_split K s m b Hb) as [_ ->]. rewrite mle_bool_at.
  - destruct (above cv b); ring.
  - apply Nat.div_lt_upper_bound; [apply Nat.pow_nonzero; lia|]. rewrite <- Nat.pow_add_r. exact Hb.
Qed.
Lemma mask_poly_deg c s cv hv n ap xs shift : n = (cv + cv + hv)%nat -> indiv_deg 3 n (sm_mask_poly c s cv ap xs shift).
Proof.
  intros En u v L. unfold sm_mask_poly. change 3%nat with (1 + (1 + 1))%nat. apply is_poly_mul; [apply multilin_eqp|].
  assert (TP : is_poly 1 (fun x => sm_tril cv (u ++ x :: v))).
  { eapply is_poly_ext; [|apply (multilin_mle (dat (zeroifier (0 : K) 1 (2 ^ hv) (2 ^ cv) (2 ^ cv))) u v)]. intros x. cbv beta. symmetry. apply (sm_tril_mle cv hv n); [exact En|]. rewrite app_length. cbn [length]. exact L. }
  apply is_poly_add.
  - apply is_poly_mul; [|exact TP]. apply is_poly_add; [apply is_poly_scal, multilin_mle|]. apply mlef_skip_poly.
  - apply is_poly_scal. apply (is_poly_le 1); [lia|]. eapply is_poly_ext; [|apply (is_poly_add 1 (fun _ => 1) (fun x => (- (1)) * sm_tril cv (u ++ x :: v))); [apply is_poly_const1|apply is_poly_scal, TP]]. intros x. cbv beta. ring.
Qed.

(** ** The verifier *)
Definition sm_cls (nz : nat) (p q xp z : list K) (vi vo vl vh vx : K) (vz : list K) : list (list (@claim K)) :=
  [[mkClaim p vi; mkClaim p vo]; [mkClaim q vl; mkClaim q vh]; [mkClaim xp vx]] ++ match nz with O => [] | _ => [map (mkClaim z) vz] end.
Definition sm_claimed (vi vo vl vh vx : K) (vz : list K) (last : K) : list K := [vi; vo; vl; vh] ++ vz ++ [vx; last].
Lemma some_eq {A} (x y : A) : Some x = Some y -> x = y.
Proof. intros H. exact (f_equal (fun o => match o with Some v => v | None => x end) H). Qed.
Lemma mask_input_ok c16 c8 c tv (ei lo hi : K) zs mi : sm_tv c = Some tv -> length zs = (2 * sm_nz c)%nat -> sm_mask_input c16 c8 c ei lo hi zs = Some mi ->
  mi = lo + c8 * hi + c16 * ei + fZ (2 ^ Z.of_nat (16 + tv)) * peval (every2 zs) (fZ (2 ^ Z.of_nat (sm_zv c))).
Proof.
  intros Ht L H. unfold sm_mask_input in H. destruct (sm_nz c) as [|nz].
  - destruct zs; [|discriminate L]. apply some_eq in H. rewrite <- H. cbn [every2 peval]. ring.
  - rewrite Ht in H. cbn [obind] in H. unfold pow2u in H. destruct (16 + tv <? 64)%nat; [|discriminate H]. cbn [obind] in H. destruct (sm_zv c <? 64)%nat; [|discriminate H]. cbn [obind] in H. apply some_eq in H. rewrite <- H.
    assert (F : forall (b : K) l acc w, fst (fold_left (fun '(acc, mul) e => (acc + e * mul, mul * b)) l (acc, w)) = acc + w * peval l b).
    { intros b. induction l as [|x l IH]; intros acc w; cbn [fold_left peval]; [cbn [fst]; ring|]. rewrite IH. ring. }
    rewrite F. ring.
Qed.
Lemma peval_mle_cols n (zc : list (list K)) b ap : length ap = n -> peval (evals_at zc ap) b = mlef (fun i => peval (map (fun z => nth i z 0) zc) b) ap.
Proof.
  intros L. induction zc as [|c zc IH]; cbn [evals_at map peval]; [symmetry; apply mlef_const|]. fold (evals_at zc ap). rewrite IH. unfold mle. rewrite <- mlef_scal, <- mlef_add. reflexivity.
Qed.
Lemma evals_every2 (zc : list (list K)) x : evals_at (every2 zc) x = every2 (evals_at zc x).
Proof. unfold evals_at. symmetry. apply (every2_map _ (length zc)). lia. Qed.
Lemma comb_mle c16 c8 tv zv n cin lo hi zc ap : length ap = n ->
  mle (sm_comb_at c16 c8 tv zv n cin lo hi zc) ap = mle lo ap + c8 * mle hi ap + c16 * mle cin ap + fZ (2 ^ Z.of_nat (16 + tv)) * peval (every2 (evals_at zc ap)) (fZ (2 ^ Z.of_nat zv)).
Proof.
  intros L. unfold sm_comb_at. rewrite mle_map_seq by auto. rewrite <- evals_every2, (peval_mle_cols n) by exact L. unfold mle. rewrite <- !mlef_scal, <- !mlef_add. reflexivity.
Qed.

(** What fools the verifier. *)
Definition sm_alpha (T : @hist K -> K) (h1 : hist) : K := T (EvBytes lbl_softmax :: h1).
Definition sm_h2 (h1 : @hist K) : hist := EvSample :: EvBytes lbl_softmax :: h1.
Definition sm_ap (T : @hist K -> K) (n nz : nat) (pf : @sm_proof K C) (h1 : hist) : list K := sc_point T n (nz + 2) (sm_h2 h1) (smp_acc pf).
Definition sm_true (n s : nat) (p q xp z lp : list K) (cin cout lo hi : list K) (zc : list (list K)) : list K :=
  [mle cin p; mle cout p; mle lo q; mle hi q] ++ evals_at zc z ++ [mlef (row_sum s (sm_out n cout zc)) xp; mle (sm_out n cout zc) lp].
Definition sm_h3 (T : @hist K -> K) (n nz : nat) (vi vo vl vh vx : K) (vz : list K) (last : K) (pf : @sm_proof K C) (h1 : hist) : hist :=
  sc_after T (peval (sm_claimed vi vo vl vh vx vz last) (sm_alpha T h1)) (smp_acc pf) n (nz + 2) (sm_h2 h1).
Definition sm_fooled (T : @hist K -> K) (c : sm_ctx) (s cv n : nat) (p q xp z : list K) (vi vo vl vh vx : K) (vz : list K) (last : @claim K) (pf : @sm_proof K C) (h1 : hist)
    (cin cout lo hi shift : list K) (zc : list (list K)) (xs : list K) : Prop :=
  poly_event (diffs2 (sm_true n s p q xp z (cl_point last) cin cout lo hi zc) (sm_claimed vi vo vl vh vx vz (cl_eval last))) (sm_alpha T h1) \/
  root_event T n (sm_nz c + 2) (sm_poly p q z (repeat (/ (1 + 1)) s ++ xp) (cl_point last) (fZ (2 ^ Z.of_nat s)) cin cout lo hi zc (sm_alpha T h1)) (sm_h2 h1) (smp_acc pf) \/
  root_event T n 3 (sm_mask_poly c s cv (sm_ap T n (sm_nz c) pf h1) xs shift) (sm_h3 T n (sm_nz c) vi vo vl vh vx vz (cl_eval last) pf h1) (smp_mask pf).

Lemma snd_combine_le {A B} : forall (u : list A) (v : list B), (length v <= length u)%nat -> map snd (combine u v) = v.
Proof. induction u as [|x u IH]; intros [|y v] L; cbn [length combine map snd] in *; try lia; [reflexivity|reflexivity|]. f_equal. apply IH. lia. Qed.
Lemma app_inv_len {A} (a b c d : list A) : length a = length c -> a ++ b = c ++ d -> a = c /\ b = d.
Proof. revert c. induction a as [|x a IH]; intros [|y c] L H; cbn [length app] in *; try discriminate L; [auto|]. injection H as -> H. destruct (IH c ltac:(lia) H) as [-> ->]. auto. Qed.
Lemma evals_every2_skip (zc : list (list K)) x : evals_at (every2 (skipn 1 zc)) x = every2 (skipn 1 (evals_at zc x)).
Proof. rewrite evals_every2. f_equal. unfold evals_at. symmetry. apply skipn_map1. Qed.
Lemma Forall2_len {A B} (P : A -> B -> Prop) : forall l l', Forall2 P l l' -> length l = length l'.
Proof. induction 1; cbn; auto. Qed.
Lemma F2_cons' {A B} (P : A -> B -> Prop) a b l l' : Forall2 P (a :: l) (b :: l') -> P a b /\ Forall2 P l l'.
Proof. intros H. inversion H; auto. Qed.
Lemma wit_split (P : list K -> @claim K -> Prop) (comms : list C) (ap sp : list K) nz ei eo lo hi es zs c4 cols :
  length zs = (2 * nz)%nat -> nth_error comms 4 = Some c4 -> length cols = (5 + 2 * nz)%nat ->
  Forall2 P cols (map snd (firstn 4 (combine comms (map (mkClaim ap) (ei :: eo :: lo :: hi :: es :: zs))) ++ [(c4, mkClaim sp es)] ++ (if (nz =? 0)%nat then [] else skipn 5 (combine comms (map (mkClaim ap) (ei :: eo :: lo :: hi :: es :: zs)))))) ->
  exists a b d e f zc, cols = a :: b :: d :: e :: f :: zc /\ length zc = (2 * nz)%nat /\
    P a (mkClaim ap ei) /\ P b (mkClaim ap eo) /\ P d (mkClaim ap lo) /\ P e (mkClaim ap hi) /\ P f (mkClaim sp es) /\ Forall2 P zc (map (mkClaim ap) zs).
Proof.
  intros Lz H4 Lc H. destruct comms as [|c0 [|c1 [|c2 [|c3 [|c4' cr]]]]]; try discriminate H4. cbn [nth_error] in H4. injection H4 as ->.
  cbn [map combine firstn skipn app] in H. destruct cols as [|a [|b [|d [|e [|f zc]]]]]; cbn [length] in Lc; try lia. exists a, b, d, e, f, zc. split; [reflexivity|]. split; [lia|].
  cbn [map snd] in H. apply F2_cons' in H as [P0 H]. apply F2_cons' in H as [P1 H]. apply F2_cons' in H as [P2 H]. apply F2_cons' in H as [P3 H]. apply F2_cons' in H as [P4 H6].
  split; [exact P0|]. split; [exact P1|]. split; [exact P2|]. split; [exact P3|]. split; [exact P4|].
  destruct (Nat.eqb_spec nz 0) as [->|Nz].
  - destruct zs; [|discriminate Lz]. destruct zc; [constructor|cbn in Lc; lia].
  - assert (L7 := Forall2_len _ _ _ H6). rewrite map_length, combine_length, map_length in L7.
    replace (map snd (combine cr (map (mkClaim ap) zs))) with (map (mkClaim ap) zs) in H6; [exact H6|]. symmetry. apply snd_combine_le. rewrite map_length. lia.
Qed.

Lemma sm_sound_at (c16 c8 : K) (T : @hist K -> K) c ce cr cx cz pre tv s m cv hv n (last : @claim K) (pf : @sm_proof K C) h p q xp z vi vo vl vh vx vz h1 wit nc h' cin cout lo hi shift zc xs :
  char_gt K (sm_nz c + 3) -> (0 < n)%nat -> length p = n -> length xp = m -> n = (s + m)%nat -> n = (cv + cv + hv)%nat -> sm_tv c = Some tv ->
  sm_lookups T c ce cr cx cz pf h = Some (sm_cls (sm_nz c) p q xp z vi vo vl vh vx vz, h1) -> length vz = (2 * sm_nz c)%nat ->
  sm_verify_at c16 c8 T c ce cr cx cz (pre ++ [(2 ^ cv)%nat; (2 ^ cv)%nat]) last pf h = Some (wit, nc, h') ->
  Forall2 claim_true (cin :: cout :: lo :: hi :: shift :: zc) (map snd wit) -> length zc = (2 * sm_nz c)%nat -> claim_true xs nc ->
  (Forall (fun l => length l = (2 ^ n)%nat) (cin :: cout :: lo :: hi :: xs :: zc) /\ length shift = (2 ^ m)%nat) /\
  ((claim_true (sm_out n cout zc) last /\ mle cin p = vi /\ mle cout p = vo /\ mle lo q = vl /\ mle hi q = vh /\ evals_at zc z = vz /\
    mle (row_sums s m (sm_out n cout zc)) xp = vx /\
    (let ap := sm_ap T n (sm_nz c) pf h1 in length ap = n /\ mle (sm_comb_at c16 c8 tv (sm_zv c) n cin lo hi zc) ap = - mle (sm_masked c s cv n xs shift) ap)) \/
   sm_fooled T c s cv n p q xp z vi vo vl vh vx vz last pf h1 cin cout lo hi shift zc xs).
Proof.
  intros Hch Hn Lp Lx Enm Enc Htv El Lvz Hv Hw Lzc Hx. unfold sm_verify_at in Hv. rewrite El in Hv. remember (nth_error (smp_comms pf) 4) as o4 eqn:E4 in Hv. cbn [obind] in Hv.
  assert (E0 : nth_error (sm_cls (sm_nz c) p q xp z vi vo vl vh vx vz) 0 = Some [mkClaim p vi; mkClaim p vo]) by reflexivity.
  assert (E1 : nth_error (sm_cls (sm_nz c) p q xp z vi vo vl vh vx vz) 1 = Some [mkClaim q vl; mkClaim q vh]) by reflexivity.
  assert (E2 : nth_error (sm_cls (sm_nz c) p q xp z vi vo vl vh vx vz) 2 = Some [mkClaim xp vx]) by reflexivity.
  rewrite E0, E1, E2 in Hv. cbn [obind] in Hv. unfold get_challenge in Hv. fold (sm_alpha T h1) in Hv. fold (sm_h2 h1) in Hv. set (a := sm_alpha T h1) in *. set (h2 := sm_h2 h1) in *.
  assert (Enz : map cl_eval (nth 3 (sm_cls (sm_nz c) p q xp z vi vo vl vh vx vz) []) = vz).
  { unfold sm_cls. destruct (sm_nz c); cbn [app nth]; [destruct vz; [reflexivity|discriminate Lvz]|]. rewrite map_map. cbn [cl_eval]. apply map_id. }
  rewrite batch_ok in Hv. rewrite !map_app, Enz in Hv. cbn [map cl_eval nth_error obind cl_point] in Hv.
  assert (Hc2 : char_gt K 2) by (intros i0 Hi0; apply Hch; lia). assert (Hc3 : char_gt K 3) by (intros i0 Hi0; apply Hch; lia). assert (Hcn : char_gt K (sm_nz c + 2)) by (intros i0 Hi0; apply Hch; lia).
  destruct (half_ok Hc2) as [Hh Ehalf]. rewrite Ehalf in Hv. cbn [obind] in Hv. set (half := / (1 + 1)) in *.
  rewrite Lp, Lx in Hv. unfold csub at 1 in Hv. destruct (Nat.leb_spec m n); [|lia]. cbn [obind] in Hv. replace (n - m)%nat with s in Hv by lia.
  unfold pow2u at 1 in Hv. destruct (s <? 64)%nat eqn:Es; [|discriminate Hv]. cbn [obind] in Hv.
  replace (if (length (sm_cls (sm_nz c) p q xp z vi vo vl vh vx vz) =? 4)%nat then (sm_nz c + 2)%nat else 2%nat) with (sm_nz c + 2)%nat in Hv by (unfold sm_cls; destruct (sm_nz c); reflexivity).
  match type of Hv with obind (verify _ ?c _ _ _ _) _ = _ => set (claimed := c) in * end.
  assert (Ecl : claimed = peval (sm_claimed vi vo vl vh vx vz (cl_eval last)) a).
  { unfold claimed, sm_claimed. cbn [app peval length fpow]. rewrite !app_length, !peval_app'. cbn [peval length]. rewrite !fpow_add. cbn [fpow]. ring. }
  destruct (verify T claimed (smp_acc pf) n (sm_nz c + 2) h2) as [[[ap e1] h3]|] eqn:Ev1; [|discriminate Hv]. cbn [obind] in Hv.
  assert (Hap : ap = sm_ap T n (sm_nz c) pf h1) by (apply verify_point in Ev1; exact Ev1).
  assert (Eh3 : sm_h3 T n (sm_nz c) vi vo vl vh vx vz (cl_eval last) pf h1 = h3) by (unfold sm_h3, sc_after; fold a h2; rewrite <- Ecl, Ev1; reflexivity).
  destruct (M_Basefold.eq_xy_eval (cl_point last) ap) as [lb|] eqn:Elb; [|discriminate Hv]. cbn [obind] in Hv. apply eq_xy_eqp in Elb as [Ll ->].
  destruct (M_Basefold.eq_xy_eval p ap) as [eb|] eqn:Eeb; [|discriminate Hv]. cbn [obind] in Hv. apply eq_xy_eqp in Eeb as [Lpa ->].
  destruct (M_Basefold.eq_xy_eval q ap) as [rb|] eqn:Erb; [|discriminate Hv]. cbn [obind] in Hv. apply eq_xy_eqp in Erb as [Lqa ->].
  destruct (M_Basefold.eq_xy_eval (repeat half s ++ xp) ap) as [xb|] eqn:Exb; [|discriminate Hv]. cbn [obind] in Hv. apply eq_xy_eqp in Exb as [Lxa ->].
  assert (La : length ap = n) by lia.
  destruct (Nat.eqb_spec (length (smp_evals pf)) (5 + 2 * sm_nz c)) as [Le|]; [|discriminate Hv].
  destruct (smp_evals pf) as [|ei [|eo [|lv [|hv' [|es zs]]]]]; try discriminate Hv. cbn [length] in Le. assert (Lzs : length zs = (2 * sm_nz c)%nat) by lia.
  match type of Hv with obind ?o _ = _ => destruct o as [zb|] eqn:Ezb; [|discriminate Hv] end. cbn [obind] in Hv.
  assert (Hzb : (sm_nz c <> 0)%nat -> length z = n /\ zb = eqp z ap).
  { intros Nz. destruct (Nat.eqb_spec (sm_nz c) 0); [contradiction|]. unfold sm_cls in Ezb. destruct (sm_nz c) as [|nz'] eqn:Enz0; [contradiction|]. cbn [app nth_error obind] in Ezb. destruct vz as [|v0 vz']; [cbn [length] in Lvz; lia|]. cbn [map nth_error obind cl_point] in Ezb. apply eq_xy_eqp in Ezb as [L ->]. split; [lia|reflexivity]. }
  destruct (feqb e1 _) eqn:Ee in Hv; [|discriminate Hv]. apply feqb_true in Ee. rewrite calc_ok in Ee by exact Lzs.
  destruct (sm_mask_input c16 c8 c ei lv hv' zs) as [mi|] eqn:Emi; [|discriminate Hv]. cbn [obind] in Hv. apply (mask_input_ok _ _ c tv) in Emi; auto.
  rewrite La in Hv. destruct (verify T (- mi) (smp_mask pf) n 3 h3) as [[[mp e2] h4]|] eqn:Ev2; [|discriminate Hv]. cbn [obind] in Hv.
  destruct (M_Basefold.eq_xy_eval mp ap) as [eqe|] eqn:Eeq; [|discriminate Hv]. cbn [obind] in Hv. apply eq_xy_eqp in Eeq as [Lmp ->]. rewrite La in Lmp.
  rewrite app_length in Hv. cbn [length] in Hv. unfold csub in Hv. destruct (Nat.leb_spec 2 (length pre + 2)); [|lia]. cbn [obind] in Hv. replace (length pre + 2 - 2)%nat with (length pre) in Hv by lia.
  rewrite nth_error_app2 in Hv by lia. rewrite Nat.sub_diag in Hv. cbn [nth_error obind] in Hv. rewrite ceil_log2_pow2 in Hv. cbn [obind] in Hv.
  destruct (Nat.leb_spec 1 (length pre + 2)); [|lia]. cbn [obind] in Hv. replace (length pre + 2 - 1)%nat with (S (length pre)) in Hv by lia.
  rewrite nth_error_app2 in Hv by lia. replace (S (length pre) - length pre)%nat with 1%nat in Hv by lia. cbn [nth_error obind] in Hv. rewrite ceil_log2_pow2 in Hv. cbn [obind] in Hv.
  fold (sm_tril cv mp) in Hv.
  destruct (finv_opt (eqp mp ap * sm_tril cv mp)) as [inv|] eqn:Einv; [|discriminate Hv]. cbn [obind] in Hv.
  destruct (finv_opt (fZ (sm_scalar c) : K)) as [sinv|] eqn:Esinv; [|discriminate Hv]. cbn [obind] in Hv.
  destruct o4 as [c4|]; [|discriminate Hv]. symmetry in E4. cbn [obind] in Hv.
  match type of Hv with Some (?w, ?n0, _) = _ => assert (Ewit : wit = w) by congruence; assert (Enc' : nc = n0) by congruence end. clear Hv.
  rewrite Ewit in Hw. apply (wit_split claim_true (smp_comms pf) ap (skipn s mp) (sm_nz c) ei eo lv hv' es zs c4) in Hw; [|exact Lzs|exact E4|cbn [length]; lia].
  destruct Hw as (a0 & b0 & d0 & g0 & f0' & zc0 & Ecols & _ & W1 & W2 & W3 & W4 & W5 & W6). injection Ecols as <- <- <- <- <- <-.
  destruct W1 as [L1 W1], W2 as [L2 W2], W3 as [L3 W3], W4 as [L4 W4], W5 as [L5 W5]. cbn [cl_point cl_eval] in *.
  rewrite Enc' in Hx. destruct Hx as [L6 Hx]. cbn [cl_point cl_eval] in L6, Hx. rewrite La in *. rewrite skipn_length in L5. rewrite Lmp in *. replace (n - s)%nat with m in L5 by lia.
  assert (W7 : Forall (fun l => length l = (2 ^ n)%nat) zc /\ evals_at zc ap = zs).
  { clear - W6 La. revert zs W6. induction zc as [|u zc IH]; intros zs W6; inversion W6 as [Hnil Hn2|u' w' l' l'' Hc Hr E1 E2]; [destruct zs; [auto|discriminate Hn2]|]. destruct zs as [|w zs]; [discriminate E2|]. cbn [map] in E2. injection E2 as -> ->.
    destruct (IH zs Hr) as [I1 I2]. destruct Hc as [C1 C2]. cbn [cl_point cl_eval] in C1, C2. rewrite La in C1. split; [constructor; auto|]. cbn [evals_at map]. fold (evals_at zc ap). rewrite I2, C2. reflexivity. }
  destruct W7 as [W7 W8].
  split; [split; [|exact L5]; repeat (constructor; [assumption|]); exact W7|].
  set (lp := cl_point last) in *. set (full := repeat half s ++ xp) in *. set (F := sm_poly p q z full lp (fZ (2 ^ Z.of_nat s)) cin cout lo hi zc a).
  assert (EF : e1 = F ap).
  { rewrite Ee. unfold F, sm_poly, sm_fns. f_equal. rewrite !map_app, map_map. cbn [map]. rewrite W1, W2, W3, W4. f_equal. unfold outv. rewrite evals_every2_skip, W8. f_equal. rewrite <- W8. unfold evals_at. rewrite map_map. apply map_ext_in. intros u Hu.
    assert (Nz : (sm_nz c <> 0)%nat) by (intros E; rewrite E in Lzc; destruct zc; [destruct Hu|discriminate Lzc]). destruct (Hzb Nz) as [_ ->]. reflexivity. }
  assert (Lz' : zc <> [] -> length z = n) by (intros Nz; apply Hzb; intros E; rewrite E in Lzc; destruct zc; [contradiction|discriminate Lzc]).
  destruct (feq_dec claimed (hsum n F)) as [Ec|Nc].
  2: { right. right. left. apply (verify_sound T claimed (smp_acc pf) n (sm_nz c + 2) h2 ap e1 h3 F); auto. apply sm_poly_deg. exact Lzc. }
  unfold F in Ec. rewrite hsum_sm in Ec by (auto; lia). unfold full in Ec. rewrite sum_point in Ec by exact Hh.
  change (claimed = peval (sm_true n s p q xp z lp cin cout lo hi zc) a) in Ec.
  assert (LD : length (sm_true n s p q xp z lp cin cout lo hi zc) = length (sm_claimed vi vo vl vh vx vz (cl_eval last))) by (unfold sm_true, sm_claimed, evals_at; rewrite !app_length, map_length; cbn [length]; lia).
  destruct (all0_dec (diffs2 (sm_true n s p q xp z lp cin cout lo hi zc) (sm_claimed vi vo vl vh vx vz (cl_eval last)))) as [HD|HD].
  2: { right. left. split; [exact HD|]. fold lp. rewrite diffs2_peval by exact LD. fold a. rewrite <- Ec, <- Ecl. ring. }
  apply diffs2_all0 in HD; [|exact LD]. unfold sm_true, sm_claimed in HD. cbn [app] in HD. injection HD as D1 D2 D3 D4 D5.
  assert (D6 : evals_at zc z = vz /\ [mlef (row_sum s (sm_out n cout zc)) xp; mle (sm_out n cout zc) lp] = [vx; cl_eval last]).
  { apply app_inv_len; [unfold evals_at; rewrite map_length; lia|exact D5]. }
  destruct D6 as [D6 D7]. assert (D8 : mlef (row_sum s (sm_out n cout zc)) xp = vx) by (exact (f_equal (fun l => nth 0 l 0) D7)). assert (D9 : mle (sm_out n cout zc) lp = cl_eval last) by (exact (f_equal (fun l => nth 1 l 0) D7)).
  set (G := sm_mask_poly c s cv ap xs shift).
  assert (EG : e2 = G mp).
  { unfold G, sm_mask_poly. rewrite (eqp_sym ap mp). rewrite <- Hx, <- W5. 
    assert (N1 := finv_opt_some _ _ Einv). assert (N2 := finv_opt_some _ _ Esinv). destruct N1 as [N1 ->]. destruct N2 as [N2 ->].
    assert (N3 : eqp mp ap <> 0) by (intros E; apply N1; rewrite E; ring). assert (N4 : sm_tril cv mp <> 0) by (intros E; apply N1; rewrite E; ring). field. auto. }
  destruct (feq_dec (- mi) (hsum n G)) as [Ec2|Nc2].
  2: { right. right. right. rewrite Eh3. rewrite <- Hap. apply (verify_sound T (- mi) (smp_mask pf) n 3 h3 mp e2 h4 G); auto. apply (mask_poly_deg c s cv hv). exact Enc. }
  left. unfold G in Ec2. rewrite (hsum_mask c s cv hv m n) in Ec2 by auto.
  split; [split; [unfold sm_out; rewrite map_length, seq_length; fold lp; f_equal; lia|symmetry; exact D9]|].
  split; [exact D1|]. split; [exact D2|]. split; [exact D3|]. split; [exact D4|]. split; [exact D6|]. split; [unfold row_sums; rewrite mle_map_seq by auto; exact D8|].
  cbn zeta. rewrite <- Hap. split; [exact La|]. rewrite comb_mle by exact La. rewrite <- Ec2, W8, <- W1, <- W3, <- W4, Emi. ring.
Qed.

Lemma sm_sound (T : @hist K -> K) c ce cr cx cz pre tv s m cv hv n (last : @claim K) (pf : @sm_proof K C) h p q xp z vi vo vl vh vx vz h1 wit nc h' cin cout lo hi shift zc xs :
  char_gt K (sm_nz c + 3) -> (0 < n)%nat -> length p = n -> length xp = m -> n = (s + m)%nat -> n = (cv + cv + hv)%nat -> sm_tv c = Some tv ->
  sm_lookups T c ce cr cx cz pf h = Some (sm_cls (sm_nz c) p q xp z vi vo vl vh vx vz, h1) -> length vz = (2 * sm_nz c)%nat ->
  sm_verify T c ce cr cx cz (pre ++ [(2 ^ cv)%nat; (2 ^ cv)%nat]) last pf h = Some (wit, nc, h') ->
  Forall2 claim_true (cin :: cout :: lo :: hi :: shift :: zc) (map snd wit) -> length zc = (2 * sm_nz c)%nat -> claim_true xs nc ->
  (Forall (fun l => length l = (2 ^ n)%nat) (cin :: cout :: lo :: hi :: xs :: zc) /\ length shift = (2 ^ m)%nat) /\
  ((claim_true (sm_out n cout zc) last /\ mle cin p = vi /\ mle cout p = vo /\ mle lo q = vl /\ mle hi q = vh /\ evals_at zc z = vz /\
    mle (row_sums s m (sm_out n cout zc)) xp = vx /\
    (let ap := sm_ap T n (sm_nz c) pf h1 in length ap = n /\ mle (sm_comb tv (sm_zv c) n cin lo hi zc) ap = - mle (sm_masked c s cv n xs shift) ap)) \/
   sm_fooled T c s cv n p q xp z vi vo vl vh vx vz last pf h1 cin cout lo hi shift zc xs).
Proof. exact (sm_sound_at (fZ (2 ^ 16)) (fZ (2 ^ 8)) T c ce cr cx cz pre tv s m cv hv n last pf h p q xp z vi vo vl vh vx vz h1 wit nc h' cin cout lo hi shift zc xs). Qed.
End P.
