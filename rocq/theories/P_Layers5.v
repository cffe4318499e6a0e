(** Proofs about [M_Layers]: evaluation of the batched matrix product, and the entry-wise product. *)
From Coq Require Import List Arith Lia Bool ZArith Field Permutation.
From Verif Require Import ListAux FieldDef PolyList MleMath M_Mle P_Mle P_Eq M_Interp P_Interp M_Sumcheck
  P_ScVerify P_ScProve P_ScProve2 P_ScBatch P_ScFinal M_ScParallel P_ScParallel P_ScApi P_Count M_SamePoly P_SamePoly
  M_Tensor P_Tensor P_Tensor2 P_Tensor3 P_Tensor4 M_Pad P_Pad P_Pad2 P_Pad3 M_Layers P_Layers P_Layers2 P_Layers3 P_Layers4.
Import ListNotations.

Section Eval.
Context {A : Type}.
Variable zero : A.
Variables add mul : A -> A -> A.

Lemma omapM_F2ex {X Y} (f : X -> option Y) (P : X -> Y -> Prop) l : (forall x, In x l -> exists y, f x = Some y /\ P x y) ->
  exists ys, omapM f l = Some ys /\ Forall2 P l ys.
Proof.
  induction l as [|x l IH]; intros H; [exists []; split; [reflexivity|constructor]|].
  destruct (H x) as (y & Ey & Py); [left; auto|]. destruct IH as (ys & Eys & Pys); [intros; apply H; right; auto|].
  exists (y :: ys). cbn. rewrite Ey. cbn [obind]. rewrite Eys. split; [reflexivity|constructor; auto].
Qed.

Lemma permute_for d expected (t : ten A) n m r : good_dims d -> In expected [expected_left; expected_right] -> wft t -> sh t = place d n m r ->
  exists q t', compute_permutation d expected = Some q /\ maybe_permute zero q t = Some t' /\ sh t' = place expected n m r /\ wft t' /\
    forall c k i, c < n -> k < m -> i < r -> entry zero t' (place expected c k i) = entry zero t (place d c k i).
Proof.
  intros G He W E. assert (L3 : length (sh t) = 3) by (rewrite E; reflexivity).
  assert (Gen : forall o, Permutation o [0; 1; 2] -> perm_idx o (sh t) = place expected n m r ->
     (forall c k i, perm_idx o (place d c k i) = place expected c k i) ->
     exists t', maybe_permute zero (Some o) t = Some t' /\ sh t' = place expected n m r /\ wft t' /\
       forall c k i, c < n -> k < m -> i < r -> entry zero t' (place expected c k i) = entry zero t (place d c k i)).
  { intros o Po Eo Hi. destruct (permute3d_ok zero t o W L3 Po) as (t' & Et & St & Wt & Ht). exists t'. cbn [maybe_permute].
    split; [auto|]. split; [congruence|]. split; [auto|]. intros c k i Hc Hk Hr. rewrite <- Hi. apply Ht. rewrite E.
    apply good_cases in G. cbn [In] in G. decompose [or] G; try contradiction; subst d; cbn; apply inb3; auto. }
  assert (P3 : forall x y z, In [x; y; z] [[0;1;2];[0;2;1];[1;0;2];[1;2;0];[2;0;1];[2;1;0]] -> Permutation [x; y; z] [0; 1; 2]).
  { intros x y z. cbn [In]. intros H. decompose [or] H; try contradiction; match goal with Q : _ = [x; y; z] |- _ => inversion Q; subst end.
    - apply Permutation_refl.
    - apply perm_skip, perm_swap.
    - apply perm_swap.
    - apply perm_trans with [1; 0; 2]; [apply perm_skip, perm_swap|apply perm_swap].
    - apply perm_trans with [0; 2; 1]; [apply perm_swap|apply perm_skip, perm_swap].
    - apply perm_trans with [1; 2; 0]; [apply perm_swap|]. apply perm_trans with [1; 0; 2]; [apply perm_skip, perm_swap|apply perm_swap]. }
  assert (Id : place d = place expected -> exists t', maybe_permute zero None t = Some t' /\ sh t' = place expected n m r /\ wft t' /\
       forall c k i, c < n -> k < m -> i < r -> entry zero t' (place expected c k i) = entry zero t (place d c k i)).
  { intros Ep. exists t. cbn [maybe_permute]. rewrite <- Ep. auto. }
  apply good_cases in G. cbn [In] in G, He.
  decompose [or] G; try contradiction; subst d; decompose [or] He; try contradiction; subst expected; cbn [compute_permutation];
    match goal with |- exists q t', ?c = Some q /\ _ => let v := eval vm_compute in c in change c with v end;
    match goal with
    | |- exists q t', Some (Some ?o) = Some q /\ _ => destruct (Gen o) as (t' & Ht'); [apply P3; cbn; tauto|rewrite E; reflexivity|reflexivity|exists (Some o), t'; split; [reflexivity|exact Ht']]
    | |- _ => destruct (Id eq_refl) as (t' & Ht'); exists None, t'; split; [reflexivity|exact Ht']
    end.
Qed.

Lemma batch_ok (t : ten A) n x y i : wft t -> sh t = [n; x; y] -> i < n ->
  exists s u, slice_3d t i (i + 1) = Some s /\ reshape s [x; y] = Some u /\ sh u = [x; y] /\ wft u /\
    forall a b, a < x -> b < y -> entry zero u [a; b] = entry zero t [i; a; b].
Proof.
  intros W E Hi. assert (L : length (dat t) = x * y * n) by (unfold wft in W; rewrite W, E; cbn; ring).
  unfold slice_3d. rewrite E. destruct (Nat.ltb_spec i n); [|lia]. destruct (Nat.leb_spec (i + 1) n); [|lia]. cbn [andb].
  assert (Hle : x * y * i + x * y <= x * y * n) by nia.
  unfold slice. destruct (Nat.leb_spec (x * y * i) (x * y * (i + 1))); [|nia]. destruct (Nat.leb_spec (x * y * (i + 1)) (length (dat t))); [|nia]. cbn [andb obind].
  replace (x * y * (i + 1) - x * y * i) with (x * y) by nia. replace (i + 1 - i) with 1 by lia.
  eexists. eexists. split; [reflexivity|]. unfold reshape. cbn [sh dat].
  replace (sprod [1; x; y]) with (sprod [x; y]) by (cbn; lia). rewrite Nat.eqb_refl. split; [reflexivity|]. split; [reflexivity|].
  split; [unfold wft; cbn [sh dat fold_right]; rewrite firstn_length, skipn_length; nia|].
  intros a b Ha Hb. unfold entry. cbn [sh dat]. rewrite E, flat2, flat3. rewrite nth_firstn_lt by nia. rewrite nth_skipn. f_equal. nia.
Qed.

Lemma tconcat_fold x y rest : forall acc s0, sh acc = [s0; x; y] -> Forall (fun u : ten A => sh u = [x; y]) rest ->
  ofold (fun acc u => tconcat acc u) rest acc = Some (mkTen [s0 + length rest; x; y] (dat acc ++ concat (map (@dat A) rest))).
Proof.
  induction rest as [|u rest IH]; intros acc s0 E F.
  - cbn. rewrite app_nil_r, Nat.add_0_r, <- E. destruct acc; reflexivity.
  - inversion F as [|? ? Eu Fr]; subst. cbn [ofold]. rewrite (tconcat_joins acc u s0 1 [x; y]) by (split; [auto|right; auto]). cbn [obind].
    rewrite (IH _ (s0 + 1)) by auto. cbn [dat map concat length]. rewrite <- app_assoc. do 3 f_equal. lia.
Qed.

Lemma F2_len {X Y} (P : X -> Y -> Prop) l l' : Forall2 P l l' -> length l = length l'.
Proof. induction 1; cbn; auto. Qed.
Lemma F2_nth {X Y} (P : X -> Y -> Prop) l l' dx dy : Forall2 P l l' -> forall i, i < length l -> P (nth i l dx) (nth i l' dy).
Proof. induction 1 as [|x y l l' H H2 IH]; intros [|i] Hi; cbn in *; try lia; auto. apply IH. lia. Qed.

Lemma concat_eval_ok p a b n m r k : good_cperm p -> wft a -> sh a = place (cp_left p) n m r -> wft b -> sh b = place (cp_right p) n m k -> 0 < n ->
  exists y, concat_eval zero add mul p a b = Some y /\ sh y = permuted p [n; r; k] /\ wft y /\
    forall c i j, c < n -> i < r -> j < k -> entry zero y (permuted p [c; i; j]) =
      sumto zero add m (fun t => mul (entry zero a (place (cp_left p) c t i)) (entry zero b (place (cp_right p) c t j))).
Proof.
  intros (Gl & Gr & Go) Wa Ea Wb Eb Hn.
  destruct (place_mm (cp_left p) n m r Gl) as [Ml Cl]. destruct (place_mm (cp_right p) n m k Gr) as [Mr Cr]. rewrite <- Ea in Ml, Cl. rewrite <- Eb in Mr, Cr.
  unfold concat_eval.
  replace (shapes_consistent p (sh a) (sh b)) with (Some tt) by (unfold shapes_consistent; rewrite Cl, Cr, Ml, Mr; cbn [obind]; rewrite !Nat.eqb_refl, Ea, Eb; reflexivity).
  cbn [obind].
  destruct (permute_for (cp_left p) expected_left a n m r Gl) as (qa & a' & Eqa & Ea' & Sa & Wa' & Ha); [cbn; tauto|auto|auto|].
  destruct (permute_for (cp_right p) expected_right b n m k Gr) as (qb & b' & Eqb & Eb' & Sb & Wb' & Hb); [cbn; tauto|auto|auto|].
  rewrite Eqa. cbn [obind]. rewrite Ea'. cbn [obind]. rewrite Eqb. cbn [obind]. rewrite Eb'. cbn [obind].
  change (place expected_left n m r) with [n; r; m] in Sa. change (place expected_right n m k) with [n; m; k] in Sb.
  rewrite Sa, Sb, Nat.eqb_refl.
  set (S := fun c i j => sumto zero add m (fun t => mul (entry zero a (place (cp_left p) c t i)) (entry zero b (place (cp_right p) c t j)))).
  match goal with |- context [omapM ?f (seq 0 n)] =>
    destruct (omapM_F2ex f (fun c u => sh u = [r; k] /\ wft u /\ forall i j, i < r -> j < k -> entry zero u [i; j] = S c i j) (seq 0 n)) as (us & Eus & Hus) end.
  { intros c Hc. apply in_seq in Hc.
    destruct (batch_ok a' n r m c Wa' Sa) as (s1 & u1 & E1 & R1 & S1 & W1 & H1); [lia|].
    destruct (batch_ok b' n m k c Wb' Sb) as (s2 & u2 & E2 & R2 & S2 & W2 & H2); [lia|].
    rewrite E1. cbn [obind]. rewrite R1. cbn [obind]. rewrite E2. cbn [obind]. rewrite R2. cbn [obind].
    destruct (matmul_ok zero add mul u1 u2 r m k W1 S1 W2 S2) as (u & Eu & Su & Wu & Hu). exists u. split; [auto|]. split; [auto|]. split; [auto|].
    intros i j Hi Hj. rewrite Hu by auto. unfold S. apply sumto_ext. intros t Ht. rewrite H1, H2 by auto. f_equal.
    - apply (Ha c t i); lia.
    - apply (Hb c t j); lia. }
  rewrite Eus. cbn [obind]. assert (Lus := F2_len _ _ _ Hus). rewrite seq_length in Lus.
  destruct us as [|u0 us]; [cbn in Lus; lia|].
  assert (Fus : forall u, In u (u0 :: us) -> sh u = [r; k] /\ length (dat u) = r * k).
  { intros u Hu. apply (In_nth _ _ u0) in Hu. destruct Hu as (i & Hi & <-).
    destruct (F2_nth _ _ _ 0 u0 Hus i) as (E & W & _); [rewrite seq_length; lia|]. split; [auto|]. unfold wft in W. rewrite W, E. cbn. ring. }
  destruct (Fus u0) as [E0 L0]; [left; auto|]. unfold reshape at 1. rewrite E0. replace (sprod [1; r; k]) with (sprod [r; k]) by (cbn; lia). rewrite Nat.eqb_refl. cbn [obind].
  rewrite (tconcat_fold r k us _ 1) by (auto; apply Forall_forall; intros u Hu; apply Fus; right; auto). cbn [obind dat].
  change (dat u0 ++ concat (map (@dat A) us)) with (concat (map (@dat A) (u0 :: us))). replace (1 + length us) with n by (cbn in Lus; lia).
  set (y := mkTen [n; r; k] (concat (map (@dat A) (u0 :: us)))).
  assert (U : forall l, In l (map (@dat A) (u0 :: us)) -> length l = r * k).
  { intros l Hl. apply in_map_iff in Hl. destruct Hl as (u & <- & Hu). apply Fus; auto. }
  assert (Wy : wft y).
  { unfold wft, y. cbn [sh dat]. rewrite (length_concat_uniform _ (r * k) U), map_length, <- Lus. cbn. ring. }
  assert (Hy : forall c i j, c < n -> i < r -> j < k -> entry zero y [c; i; j] = S c i j).
  { intros c i j Hc Hi Hj. unfold entry, y. cbn [sh dat]. rewrite flat3. replace (c * r * k + i * k + j) with ((i * k + j) + r * k * c) by ring.
    rewrite (nth_concat_uniform _ (r * k) zero U) by (rewrite ?map_length; nia). rewrite (nth_map_lt _ _ _ u0) by lia.
    destruct (F2_nth _ _ _ 0 u0 Hus c) as (E & W & H); [rewrite seq_length; lia|]. rewrite seq_nth in H by lia. cbn [Nat.add] in H.
    rewrite <- H by auto. unfold entry. rewrite E, flat2. reflexivity. }
  unfold permuted. destruct (cp_permute p) as [o|]; cbn [maybe_permute].
  - destruct (permute3d_ok zero y o Wy eq_refl Go) as (y' & Ey & Sy & Wy' & Hy'). exists y'. split; [auto|]. split; [auto|]. split; [auto|].
    intros c i j Hc Hi Hj. destruct (Hy' [c; i; j]) as [_ ->]; [apply inb3; auto|]. apply Hy; auto.
  - exists y. split; [reflexivity|]. split; [reflexivity|]. split; [auto|]. apply Hy.
Qed.
End Eval.

Section P.
Context {K : field}.
Add Field Kf_lay5 : (fth K).
Local Open Scope F_scope.

(** The image in the field of the integers [ConcatMatMul::evaluate] computes satisfies the specification. *)
Definition embed_ten (t : ten Z) : ten K := mkTen (sh t) (embed (dat t)).
Lemma embed_entry t idx : entry 0 (embed_ten t) idx = fZ (entry 0%Z t idx).
Proof. unfold entry, embed_ten. cbn [sh dat]. apply embed_nth. Qed.
Lemma embed_wft t : wft t -> wft (embed_ten t).
Proof. unfold wft, embed_ten. cbn [sh dat]. rewrite embed_length. auto. Qed.
Lemma concat_integer p nc nm nr nk (a b : ten Z) : good_cperm p ->
  wft a -> sh a = place (cp_left p) (2 ^ nc)%nat (2 ^ nm)%nat (2 ^ nr)%nat ->
  wft b -> sh b = place (cp_right p) (2 ^ nc)%nat (2 ^ nm)%nat (2 ^ nk)%nat ->
  exists y, concat_eval 0%Z Z.add Z.mul p a b = Some y /\ batched p nc nm nr nk (embed_ten a) (embed_ten b) (embed_ten y).
Proof.
  intros G Wa Ea Wb Eb. destruct (concat_eval_ok 0%Z Z.add Z.mul p a b (2 ^ nc) (2 ^ nm) (2 ^ nr) (2 ^ nk) G Wa Ea Wb Eb (pow2_pos nc)) as (y & Ey & Sy & Wy & Hy).
  exists y. split; [auto|]. unfold batched. do 2 (split; [auto using embed_wft|]). do 2 (split; [auto using embed_wft|]). do 2 (split; [auto using embed_wft|]).
  intros c i j Hc Hi Hj. rewrite embed_entry, Hy by auto. rewrite sumto_fZ. apply sumn_ext. intros t _. rewrite fZ_mul, !embed_entry. reflexivity.
Qed.

(** *** Entry-wise product *)
Definition entrywise (n : nat) (v1 v2 y : list K) : Prop :=
  length v1 = 2 ^ n /\ length v2 = 2 ^ n /\ length y = 2 ^ n /\ forall i, i < 2 ^ n -> nth i y 0 = nth i v1 0 * nth i v2 0.

Lemma entrywise_sum n v1 v2 y pt : entrywise n v1 v2 y -> length pt = n ->
  mle y pt = hsum n (prodf [mle v1; mle v2; eqp pt]).
Proof.
  intros (_ & _ & _ & H) L. unfold mle at 1, mlef, hsum. rewrite L. apply sumn_ext. intros i Hi. rewrite H by auto.
  unfold prodf. cbn [map fprod]. unfold mle. rewrite !mlef_bool by auto. rewrite (eqp_sym pt), eqp_bpt by auto. ring.
Qed.

(** With the point of the sumcheck taken from the transcript, as a caller can check, the claim is sound. *)
Lemma hadamard_sound (T : @hist K -> K) n es v1 v2 y last ev2 pf h c h' :
  char_gt K 3 -> 0 < n -> entrywise n v1 v2 y -> length (cl_point last) = n -> valid_sched n es ->
  hadamard_verify T n es last ev2 pf h = Some (c, h') ->
  pf_point (hp_sumcheck pf) = sc_point T n 3 h (hp_sumcheck pf) ->
  claim_true v1 c -> ev2 = mle v2 (cl_point c) ->
  claim_true y last \/ root_event T n 3 (prodf [mle v1; mle v2; eqp (cl_point last)]) h (hp_sumcheck pf).
Proof.
  intros Hch Hn Hy Ll Ves Hv Hp Hc He2. assert (Hy' := Hy). destruct Hy' as (L1 & L2 & Ly & _). unfold hadamard_verify in Hv.
  destruct (verify T (cl_eval last) (hp_sumcheck pf) n 3 h) as [[[rs e] h2]|] eqn:Ev; [|discriminate]. cbn [obind] in Hv.
  assert (Ers := verify_point _ _ _ _ _ _ _ _ _ Ev). rewrite <- Ers in Hp.
  assert (Lrs : length rs = n) by (rewrite Ers; unfold sc_point; rewrite map_length, seq_length; auto).
  rewrite compute_betas_spec in Hv. rewrite (into_mle_ext_ok n) in Hv by (rewrite eq_table_length, Ll; reflexivity). cbn [obind] in Hv.
  rewrite Hp in Hv. rewrite (evaluate_ext es n) in Hv by (auto; rewrite eq_table_length, Ll; reflexivity). cbn [obind] in Hv.
  destruct (nth_error (hp_claims pf) 1) as [e1|]; [|discriminate]. cbn [obind] in Hv.
  destruct (ev2 =? e1) eqn:E2; [|discriminate]. apply feqb_true in E2. destruct (nth_error (hp_claims pf) 0) as [e0|]; [|discriminate]. cbn [obind] in Hv.
  destruct (_ =? e) eqn:Ee in Hv; [|discriminate]. apply feqb_true in Ee.
  assert (Ec : c = mkClaim rs e0) by congruence. rewrite Ec in Hc, He2. destruct Hc as [_ Hc]. cbn [cl_point cl_eval] in Hc, He2.
  assert (Hbe : mle (eq_table (cl_point last)) rs = eqp (cl_point last) rs).
  { unfold mle. rewrite <- mlef_eqw by lia. apply mlef_ext. intros i Hi. apply eq_table_at. rewrite Ll, <- Lrs. auto. }
  destruct (product_sound T (cl_eval last) (hp_sumcheck pf) n [mle v1; mle v2; eqp (cl_point last)] h rs e h2 Hch Hn) as [E|R].
  - intros f [<-|[<-|[<-|[]]]]; [apply multilin_mle|apply multilin_mle|apply multilin_eqp].
  - exact Ev.
  - unfold prodf. cbn [map fprod]. rewrite <- Ee, Hbe, <- Hc, <- He2, E2. ring.
  - left. split; [rewrite Ll; auto|]. rewrite E. symmetry. apply entrywise_sum; auto.
  - right. exact R.
Qed.

Lemma hadamard_complete (T : @hist K -> K) ncpus scs es n (v1 v2 : ten K) y last h :
  0 < ncpus -> char_gt K 3 -> 0 < n -> entrywise n (dat v1) (dat v2) y -> claim_true y last ->
  shape_is_pow2 (sh v1) = true -> shape_is_pow2 (sh v2) = true -> valid_sched n es ->
  (forall i, i < n -> valid_rsched (K := K) (prod_shape 3 n) i (scs i)) ->
  exists pf h', hadamard_prove T ncpus scs last v1 v2 h = Some (pf, h') /\ hadamard_ctx (2 ^ n) = n /\
    let r := pf_point (hp_sumcheck pf) in
    ((forall x, In x r -> not_node 3 x) ->
     exists c, hadamard_verify T n es last (mle (dat v2) r) pf h = Some (c, h') /\ claim_true (dat v1) c).
Proof.
  intros Hnc Hch Hn Hy [Ll El] P1 P2 Ves Hsc. assert (Hy' := Hy). destruct Hy' as (L1 & L2 & Ly & _).
  assert (Lp : length (cl_point last) = n) by (apply (Nat.pow_inj_r 2); lia).
  unfold hadamard_prove. rewrite L1, L2, !ilog2_pow. cbn [obind]. rewrite Lp, !Nat.eqb_refl, P1, P2. cbn [andb].
  rewrite compute_betas_spec. rewrite (into_mle_ext_ok n) by (rewrite eq_table_length, Lp; reflexivity). cbn [obind].
  rewrite !mkExt_ok by auto. cbn [obind num_vars].
  destruct (product_prove_ok T ncpus scs n [dat v1; dat v2; eq_table (cl_point last)] h) as (pf & h' & Ep & Hl & Hver); auto.
  { cbn [length]. lia. }
  { intros l [<-|[<-|[<-|[]]]]; auto. rewrite eq_table_length, Lp. reflexivity. }
  cbn [map] in Ep. rewrite Ep. cbn [obind length Nat.leb firstn]. do 2 eexists. split; [reflexivity|]. split.
  { unfold hadamard_ctx. unfold npow2. rewrite Nat.log2_up_pow2, Nat.log2_pow2 by lia. reflexivity. }
  cbn [hp_sumcheck]. intros Hr. eexists. unfold hadamard_verify. cbn [hp_sumcheck hp_claims].
  assert (Hbe : forall rs, length rs = n -> mle (eq_table (cl_point last)) rs = eqp (cl_point last) rs).
  { intros rs Lrs. unfold mle. rewrite <- mlef_eqw by lia. apply mlef_ext. intros i Hi. apply eq_table_at. rewrite Lp, <- Lrs. auto. }
  assert (Hs : cl_eval last = hsum n (prodf (map mle [dat v1; dat v2; eq_table (cl_point last)]))).
  { rewrite El, (entrywise_sum n (dat v1) (dat v2)) by auto. apply hsum_ext. intros pt Hp. unfold prodf. cbn [map fprod]. rewrite Hbe by auto. reflexivity. }
  rewrite Hs. cbn [length] in Hver. rewrite Hver by auto. cbn [obind]. rewrite compute_betas_spec.
  rewrite (into_mle_ext_ok n) by (rewrite eq_table_length, Lp; reflexivity). cbn [obind].
  rewrite (evaluate_ext es n) by (auto; rewrite eq_table_length, Lp; reflexivity). cbn [obind nth_error]. rewrite feqb_refl. cbn [obind].
  match goal with |- (if (?x =? ?z) then _ else _) = _ /\ _ => replace x with z by (unfold prodf; cbn [map fprod]; ring) end.
  rewrite feqb_refl. split; [reflexivity|]. split; cbn [cl_point cl_eval]; [rewrite Hl; auto|reflexivity].
Qed.

(** The verifier uses the point stored in the proof: a prover that picks it freely passes with any claim. *)
Lemma hadamard_forge (T : @hist K -> K) n es (v1 v2 : list K) last h pt :
  char_gt K 3 -> 0 < n -> length v1 = 2 ^ n -> length (cl_point last) = n -> length pt = n -> valid_sched n es ->
  let ms := bogus_messages T (cl_eval last) n 3 h in
  (forall r, In r (sc_point T n 3 h (mkProof pt ms)) -> not_node 3 r) ->
  (forall e h', verify T (cl_eval last) (mkProof pt ms) n 3 h = Some (sc_point T n 3 h (mkProof pt ms), e, h') ->
     eqp (cl_point last) pt * mle v1 pt * mle v2 pt = e) ->
  exists pf c h', hadamard_verify T n es last (mle v2 pt) pf h = Some (c, h') /\ claim_true v1 c.
Proof.
  intros Hch Hn L1 Ll Lp Ves ms Hr He.
  destruct (bogus_verify T (cl_eval last) n 3 h pt Hch ltac:(lia) Hn Hr) as (e & h' & Ev). fold ms in Ev. specialize (He _ _ Ev).
  exists (mkHp (mkProof pt ms) [mle v1 pt; mle v2 pt]). do 2 eexists. unfold hadamard_verify. cbn [hp_sumcheck hp_claims pf_point]. rewrite Ev. cbn [obind].
  rewrite compute_betas_spec. rewrite (into_mle_ext_ok n) by (rewrite eq_table_length, Ll; reflexivity). cbn [obind].
  rewrite (evaluate_ext es n) by (auto; rewrite eq_table_length, Ll; reflexivity). cbn [obind nth_error]. rewrite feqb_refl. cbn [obind].
  replace (mle (eq_table (cl_point last)) pt) with (eqp (cl_point last) pt).
  2: { unfold mle. rewrite <- mlef_eqw by lia. apply mlef_ext. intros i Hi. symmetry. apply eq_table_at. rewrite Ll, <- Lp. auto. }
  rewrite He, feqb_refl. split; [reflexivity|]. split; cbn [cl_point cl_eval]; [rewrite Lp; auto|reflexivity].
Qed.
End P.
