(** Soundness of the delegation rounds and of the three transforms of [verify_convolution], assuming that the results of the sumchecks
    are compared with the proof (which the code omits, see [Props_Conv]). *)
From Coq Require Import List Arith Lia Bool ZArith Field.
From Verif Require Import ListAux FieldDef PolyList MleMath M_Mle P_Mle P_Eq M_Interp M_Sumcheck P_ScVerify P_ScProve P_ScProve2 P_ScApi
  M_SamePoly P_SamePoly M_Tensor M_Pool M_Fft P_Fft P_Fft2 M_Layers P_Layers P_Layers2 P_Pooling M_Conv P_Conv.
Import ListNotations.

Section Sound.
Context {K : field}.
Add Field Kf_conv2 : (fth K).
Local Open Scope F_scope.
Local Notation hist := (@hist K).
Variable T : hist -> K.

(** What [IOPVerifierState::verify] returns agrees with what the proof states: the point, and the product of the stated evaluations. *)
Definition checked (k : sc_call) : Prop :=
  exists h', verify T (ca_claimed k) (ca_pf k) (ca_nv k) (ca_deg k) (ca_hist k)
    = Some (pf_point (ca_pf k), fprod (firstn (ca_deg k) (ca_evals k)), h').
(** The event that a challenge of the sumcheck hits a root of a nonzero polynomial fixed before. *)
Definition call_event (fs : list (list K -> K)) (k : sc_call) : Prop :=
  root_event T (ca_nv k) (ca_deg k) (prodf fs) (ca_hist k) (ca_pf k).

Lemma multilin_mlef f : multilin (@mlef K f).
Proof. intros a b. apply mlef_is_poly. Qed.

Lemma checked_point k : checked k -> (0 < ca_nv k)%nat -> length (pf_point (ca_pf k)) = ca_nv k.
Proof.
  intros (h' & E) Hn. assert (P := verify_point _ _ _ _ _ _ _ _ _ E). rewrite P. unfold sc_point. rewrite map_length, seq_length. reflexivity.
Qed.
Lemma checked_sound k fs : checked k -> char_gt K (length fs) -> (0 < ca_nv k)%nat -> ca_deg k = length fs -> (forall f, In f fs -> multilin f) ->
  firstn (length fs) (ca_evals k) = map (fun f => f (pf_point (ca_pf k))) fs ->
  ca_claimed k = hsum (ca_nv k) (prodf fs) \/ call_event fs k.
Proof.
  intros (h' & E) Hc Hn Hd Hf He. unfold call_event. rewrite Hd in *. eapply product_sound; eauto. rewrite He. reflexivity.
Qed.

(** The tables of round [i] of the delegation of the matrix row at [x], and the events of the rounds from [i] on. *)
Definition deleg_fs (first : bool) (w : K) (n : nat) (x : list K) (s : K) (i : nat) (prev : list K) : list (list K -> K) :=
  [eqp (firstn (n - 1 - i) prev);
   mlef ((if first && (i =? 0)%nat then phi_first else phi_mid) (nth i x 0) (nth (n - 1 - i) prev 0) (fpow w (2 ^ i)));
   mlef (Ftab w n x s (n - 1 - i))].
Fixpoint deleg_events (first : bool) (w : K) (n : nat) (x : list K) (s : K) (i : nat) (prev : list K) (ks : list sc_call) : Prop :=
  match ks with
  | [] => False
  | k :: ks' => call_event (deleg_fs first w n x s i prev) k \/ deleg_events first w n x s (S i) (pf_point (ca_pf k)) ks'
  end.

Lemma eqp_trunc (p q : list K) : (length p <= length q)%nat -> eqp p q = eqp (firstn (length p) q) p.
Proof.
  intros H. rewrite eqp_sym. revert q H. induction p as [|a p IH]; intros q H; [destruct q; reflexivity|].
  destruct q as [|b q]; [cbn in H; lia|]. cbn [length firstn]. cbn in H. specialize (IH q ltac:(lia)).
  change (b :: firstn (length p) q) with ([b] ++ firstn (length p) q)%list. change (b :: q) with ([b] ++ q)%list. change (a :: p) with ([a] ++ p)%list.
  rewrite !eqp_app by reflexivity. rewrite IH. reflexivity.
Qed.

(** What the first argument of a round is an extension of. *)
Definition dtab (first : bool) (w : K) (n : nat) (x : list K) (s : K) (i : nat) : nat -> K :=
  if first && (i =? 0)%nat then Gtab w n x s else Ftab w n x s (n - i).
Lemma dtab_hsum first w n x s i prev : length x = n -> (i < n)%nat -> fpow w (2 ^ (n - 1)) = - (1) -> length prev = (n - i)%nat ->
  mlef (dtab first w n x s i) prev = hsum (n - 1 - i) (prodf (deleg_fs first w n x s i prev)).
Proof.
  intros L Hi Hw Lp. assert (E : prev = (firstn (n - 1 - i) prev ++ [nth (n - 1 - i) prev 0])%list).
  { rewrite <- (firstn_skipn (n - 1 - i) prev) at 1. f_equal. rewrite skipn_cons_nth by lia. f_equal. apply skipn_all2. lia. }
  assert (Lf : length (firstn (n - 1 - i) prev) = (n - 1 - i)%nat) by (apply firstn_length_le; lia).
  rewrite E at 1. unfold dtab, deleg_fs. destruct (first && (i =? 0)%nat) eqn:Ef.
  - apply andb_prop in Ef. destruct Ef as [_ Ei]. apply Nat.eqb_eq in Ei. subst i. rewrite Nat.sub_0_r in *. rewrite deleg_first by (auto; lia).
    cbn [Nat.pow]. replace (fpow w 1) with w by (cbn; ring). reflexivity.
  - replace (n - i)%nat with (S (n - 1 - i)) by lia. rewrite deleg_mid by (auto; lia). replace (n - S (n - 1 - i))%nat with i by lia. reflexivity.
Qed.

(** The loop of the delegation from round [i] on. *)
Lemma deleg_loop_sound first w n x s rand1 aux pfs claims : char_gt K 3 -> length x = n -> (0 < n)%nat -> fpow w (2 ^ (n - 1)) = - (1) ->
  (forall i, (i < n - 1)%nat -> nth_error aux i = Some (n - 1 - i)%nat) -> (forall i, (i < n - 1)%nat -> rand1 i = Some (nth i x 0)) ->
  forall d i claim prev h calls c p h' calls', (i + d = n - 1)%nat -> length prev = (n - i)%nat ->
  ofold (deleg_step T first (squares (n - 1) w) rand1 aux pfs claims) (seq i d) (claim, prev, h, calls) = Some (c, p, h', calls') ->
  exists ks, calls' = (calls ++ ks)%list /\ length ks = d /\
    (Forall checked ks -> length p = 1%nat /\
     (c = mlef (dtab first w n x s (n - 1)) p -> claim = mlef (dtab first w n x s i) prev \/ deleg_events first w n x s i prev ks)).
Proof.
  intros Hc L Hn Hw Hx Hr. induction d as [|d IH]; intros i claim prev h calls c p h' calls' Hi Lp E.
  - cbn [seq ofold] in E. assert (claim = c /\ prev = p /\ calls = calls') as (-> & -> & ->) by (repeat split; congruence). exists [].
    rewrite app_nil_r. split; [reflexivity|]. split; [reflexivity|]. intros _. split; [lia|]. intros Ec. left. rewrite Ec. do 2 f_equal. lia.
  - cbn [seq ofold] in E. destruct (deleg_step T first (squares (n - 1) w) rand1 aux pfs claims (claim, prev, h, calls) i) as [[[[c1 p1] h1] cs1]|] eqn:E1; [|discriminate].
    cbn [obind] in E. unfold deleg_step in E1. destruct (nth_error pfs i) as [pf|]; [|discriminate]. cbn [obind] in E1. rewrite Hx in E1 by lia. cbn [obind] in E1.
    destruct (run_sc T claim pf (n - 1 - i) 3 h) as [h2|]; [|discriminate]. cbn [obind] in E1. destruct (nth_error claims i) as [cl|]; [|discriminate]. cbn [obind] in E1.
    destruct (nth_error cl 0) as [v0|] eqn:E0; [|discriminate]. cbn [obind] in E1. destruct (identity_eval (pf_point pf) prev =? v0) eqn:Ei; [|discriminate]. apply feqb_true in Ei.
    rewrite Hr in E1 by lia. cbn [obind] in E1. unfold csub in E1. destruct (Nat.leb_spec 1 (length prev)); [|lia]. cbn [obind] in E1.
    rewrite (nth_error_nth' prev 0) in E1 by lia. cbn [obind] in E1. rewrite Lp in E1. replace (n - i - 1)%nat with (n - 1 - i)%nat in E1 by lia.
    destruct (phi_eval _ _ _ _ _) as [ph|] eqn:Eph; [|discriminate]. cbn [obind] in E1. destruct (nth_error cl 1) as [v1|] eqn:Ec1; [|discriminate]. cbn [obind] in E1.
    destruct (ph =? v1) eqn:Ep1; [|discriminate]. apply feqb_true in Ep1. destruct (nth_error cl 2) as [v2|] eqn:Ec2; [|discriminate]. cbn [obind] in E1.
    assert (v2 = c1 /\ pf_point pf = p1 /\ h2 = h1 /\ (calls ++ [mkCall claim pf (n - 1 - i) 3 h cl])%list = cs1) as (-> & <- & -> & <-) by (repeat split; congruence). clear E1.
    set (k := mkCall claim pf (n - 1 - i) 3 h cl) in *.
    (* the length of the next point is only known when the call is checked *)
    destruct (Nat.eq_dec (length (pf_point pf)) (n - S i)) as [Lq|Nq].
    + destruct (IH (S i) c1 (pf_point pf) h1 (calls ++ [k])%list c p h' calls' ltac:(lia) Lq E) as (ks & -> & Lk & Hk).
      exists (k :: ks). split; [rewrite <- app_assoc; reflexivity|]. split; [cbn; lia|]. intros F. apply Forall_cons_iff in F. destruct F as [Fk F]. destruct (Hk F) as [L1 Hk1].
      split; [auto|]. intros Ec. destruct (Hk1 Ec) as [Q|Q]; [|right; right; exact Q]. rewrite dtab_hsum by (auto; lia).
      destruct (checked_sound k (deleg_fs first w n x s i prev) Fk) as [R|R]; auto; try (cbn; lia).
      * intros f [<-|[<-|[<-|[]]]]; [apply multilin_eqp|apply multilin_mlef|apply multilin_mlef].
      * cbn [deleg_fs length ca_evals k map ca_pf].
        destruct cl as [|a0 [|a1 [|a2 cl]]]; try discriminate. cbn [firstn nth_error] in *.
        assert (a0 = v0 /\ a1 = v1 /\ a2 = c1) as (-> & -> & ->) by (repeat split; congruence). f_equal; [|f_equal; [|f_equal]].
        -- rewrite <- Ei, identity_eval_eqp. rewrite eqp_trunc by lia. rewrite Lq. f_equal. f_equal. lia.
        -- rewrite <- Ep1. rewrite phi_eval_ok in Eph by lia. assert (Eq : ph = ph) by reflexivity.
           apply (f_equal (fun o => match o with Some v => v | None => 0 end)) in Eph. rewrite <- Eph. rewrite Lq. replace (n - 1 - (n - S i))%nat with i by lia. reflexivity.
        -- rewrite Q. unfold dtab. replace (S i =? 0)%nat with false by reflexivity. rewrite andb_false_r. do 2 f_equal. lia.
      * right. left. exact R.
    + assert (Ck : checked k -> False). { intros Ck. apply Nq. apply checked_point in Ck; cbn in *; lia. }
      assert (Hg : forall d' i' st cs', ofold (deleg_step T first (squares (n - 1) w) rand1 aux pfs claims) (seq i' d') st = Some cs' ->
        exists ks, snd cs' = (snd st ++ ks)%list /\ length ks = d').
      { clear. induction d' as [|d' IHd]; intros i' [[[a b] hh] cs] cs' E; cbn [seq ofold] in E.
        - exists []. assert (cs' = (a, b, hh, cs)) by congruence. subst. cbn [snd]. rewrite app_nil_r. auto.
        - destruct (deleg_step _ _ _ _ _ _ _ _ i') as [[[[c1 p1] h1] cs1]|] eqn:E1; [|discriminate]. cbn [obind] in E. destruct (IHd _ _ _ E) as (ks & Es & Lk).
          unfold deleg_step in E1. repeat match type of E1 with context [obind ?o _] => destruct o; [cbn [obind] in E1|discriminate] | context [if ?b then _ else _] => destruct b; [|discriminate] end.
          cbn [snd] in *. eexists (_ :: ks). rewrite Es. assert (E2 : cs1 = snd (c1, p1, h1, cs1)) by reflexivity. injection E1 as _ _ _ <-. rewrite <- app_assoc. split; [reflexivity|cbn; lia]. }
      destruct (Hg d (S i) _ _ E) as (ks & Es & Lk). cbn [snd] in Es. exists (k :: ks). rewrite Es, <- app_assoc. split; [reflexivity|]. split; [cbn; lia|].
      intros F. apply Forall_cons_iff in F. destruct F as [Fk _]. destruct (Ck Fk).
Qed.
End Sound.

Section Delegations.
Context {K : field}.
Add Field Kf_conv2b : (fth K).
Local Open Scope F_scope.
Variable gen : K.
Hypothesis gen_root : fpow gen (2 ^ 31) = - (1).
Hypothesis char2 : (1 + 1 : K) <> 0.
Variable T : @hist K -> K.

Lemma finv_opt_nz (x : K) : x <> 0 -> finv_opt x = Some (/ x).
Proof. intros H. unfold finv_opt. destruct (x =? 0) eqn:E; [apply feqb_true in E; contradiction|reflexivity]. Qed.
Lemma pow_two_omegas_ok m b : (1 <= m)%nat -> (m + 1 <= 32)%nat ->
  pow_two_omegas gen (m + 1) b = Some (squares m (if b : bool then / root_of gen (m + 1) else root_of gen (m + 1))).
Proof.
  intros H1 H2. unfold pow_two_omegas, csub. destruct (Nat.leb_spec 1 (m + 1)); [|lia]. cbn [obind]. rewrite get_root_ok by auto. cbn [obind].
  replace (m + 1 - 1)%nat with m by lia. destruct (Nat.eqb_spec m 0); [lia|]. destruct b; [|reflexivity]. rewrite finv_opt_nz; [reflexivity|]. now apply root_nz.
Qed.
Lemma inv_half m : (1 <= m <= 32)%nat -> fpow (/ root_of gen m) (2 ^ (m - 1)) = - (1).
Proof.
  intros H. rewrite inv_pow; auto; try lia; [|apply Nat.pow_le_mono_r; lia]. replace (2 ^ m - 2 ^ (m - 1))%nat with (2 ^ (m - 1))%nat; [now apply root_half|].
  replace m with (S (m - 1)) at 2 by lia. rewrite Nat.pow_succ_r'. lia.
Qed.
Lemma deleg_aux m i : (i < m)%nat -> nth_error (rev (map S (seq 0 m))) i = Some (m - i)%nat.
Proof.
  intros H. rewrite (nth_error_nth' _ 0%nat) by (rewrite rev_length, map_length, seq_length; auto). f_equal.
  rewrite rev_nth by (rewrite map_length, seq_length; auto). rewrite map_length, seq_length.
  rewrite (nth_indep _ 0%nat (S 0)) by (rewrite map_length, seq_length; lia). rewrite map_nth, seq_nth by lia. lia.
Qed.
Lemma nth_error_firstn_some (l : list K) n i : (i < n)%nat -> (n <= length l)%nat -> nth_error l i = Some (nth i (firstn n l) 0).
Proof. intros H1 H2. rewrite nth_firstn_lt by auto. apply nth_error_nth'. lia. Qed.

Lemma fft_deleg_sound cx hadp claim pfs claims prev h h' ks m : char_gt K 3 -> (1 <= m)%nat -> (m + 1 <= 32)%nat ->
  cx_deleg_fft cx = rev (map S (seq 0 m)) -> length pfs = m -> length prev = (m + 1)%nat -> (m + 1 <= length hadp)%nat ->
  verify_fft_delegation gen T cx hadp claim pfs claims prev h = Some (h', ks) ->
  length ks = m /\ (Forall (checked T) ks ->
    claim = mlef (Gtab (root_of gen (m + 1)) (m + 1) (firstn (m + 1) hadp) 1) prev \/
    deleg_events T true (root_of gen (m + 1)) (m + 1) (firstn (m + 1) hadp) 1 0 prev ks).
Proof.
  intros Hc H1 H2 Ea Lf Lp Lh E. unfold verify_fft_delegation in E. rewrite Lf, pow_two_omegas_ok in E by auto. cbn [obind] in E.
  destruct (ofold _ _ _) as [[[[c p] h1] cs]|] eqn:Eo; [|discriminate]. cbn [obind] in E. rewrite Ea in Eo.
  set (x := firstn (m + 1) hadp) in *. assert (Lx : length x = (m + 1)%nat) by (apply firstn_length_le; auto).
  replace (squares m (root_of gen (m + 1))) with (squares (m + 1 - 1) (root_of gen (m + 1))) in Eo by (f_equal; lia).
  destruct (deleg_loop_sound T true (root_of gen (m + 1)) (m + 1) x 1 (nth_error hadp) (rev (map S (seq 0 m))) pfs claims) with
    (d := m) (i := 0%nat) (claim := claim) (prev := prev) (h := h) (calls := @nil (@sc_call K)) (c := c) (p := p) (h' := h1) (calls' := cs) as (ks0 & -> & Lk & Hk); auto; try lia.
  { apply root_half; auto. lia. }
  { intros i Hi. rewrite deleg_aux by lia. f_equal. lia. }
  { intros i Hi. apply nth_error_firstn_some; lia. }
  cbn [app] in *. rewrite (nth_error_firstn_some hadp (m + 1) m) in E by lia. cbn [obind] in E. destruct (nth_error p 0) as [p0|] eqn:Ep; [|discriminate]. cbn [obind] in E.
  destruct (c =? _) eqn:Ec; [|discriminate]. apply feqb_true in Ec. assert (ks0 = ks) by congruence. subst ks0. split; [auto|]. intros F. destruct (Hk F) as [L1 Hk1].
  apply Hk1. destruct p as [|q [|]]; try discriminate. cbn in Ep. assert (q = p0) by congruence. subst q. unfold dtab. replace (m + 1 - 1 =? 0)%nat with false by (symmetry; apply Nat.eqb_neq; lia).
  cbn [andb]. replace (m + 1 - (m + 1 - 1))%nat with 1%nat by lia. rewrite Ftab_1 by (auto; try lia; apply root_half; auto; lia). replace (m + 1 - 1)%nat with m by lia.
  rewrite Ec. fold x. cbn [fnat]. ring.
Qed.

Definition ifft_x (m : nat) (lastp : list K) : list K := (map (fun x => 1 - x) (firstn m lastp) ++ [0])%list.
Lemma ifft_deleg_sound cx lastp claim pfs claims prev h h' ks m : char_gt K 3 -> (1 <= m)%nat -> (m + 1 <= 32)%nat ->
  cx_deleg_ifft cx = rev (map S (seq 0 m)) -> length pfs = m -> length prev = (m + 1)%nat -> (m <= length lastp)%nat ->
  verify_ifft_delegation gen T cx lastp claim pfs claims prev h = Some (h', ks) ->
  length ks = m /\ (Forall (checked T) ks ->
    claim = mlef (Ftab (/ root_of gen (m + 1)) (m + 1) (ifft_x m lastp) (/ fnat (2 ^ (m + 1))) (m + 1)) prev \/
    deleg_events T false (/ root_of gen (m + 1)) (m + 1) (ifft_x m lastp) (/ fnat (2 ^ (m + 1))) 0 prev ks).
Proof.
  intros Hc H1 H2 Ea Lf Lp Lh E. unfold verify_ifft_delegation in E. rewrite Lf, pow_two_omegas_ok in E by auto. cbn [obind] in E.
  destruct (ofold _ _ _) as [[[[c p] h1] cs]|] eqn:Eo; [|discriminate]. cbn [obind] in E. rewrite Ea in Eo.
  set (x := ifft_x m lastp) in *. assert (Lx : length x = (m + 1)%nat) by (unfold x, ifft_x; rewrite app_length, map_length, firstn_length_le by auto; reflexivity).
  replace (squares m (/ root_of gen (m + 1))) with (squares (m + 1 - 1) (/ root_of gen (m + 1))) in Eo by (f_equal; lia).
  destruct (deleg_loop_sound T false (/ root_of gen (m + 1)) (m + 1) x (/ fnat (2 ^ (m + 1))) (fun i => y <- nth_error lastp i ;; Some (1 - y)) (rev (map S (seq 0 m))) pfs claims) with
    (d := m) (i := 0%nat) (claim := claim) (prev := prev) (h := h) (calls := @nil (@sc_call K)) (c := c) (p := p) (h' := h1) (calls' := cs) as (ks0 & -> & Lk & Hk); auto; try lia.
  { apply inv_half; lia. }
  { intros i Hi. rewrite deleg_aux by lia. f_equal. lia. }
  { intros i Hi. rewrite (nth_error_firstn_some lastp m) by lia. cbn [obind]. f_equal. unfold x, ifft_x.
    rewrite app_nth1 by (rewrite map_length, firstn_length_le; lia). rewrite (nth_map_lt _ _ _ 0) by (rewrite firstn_length_le; lia). reflexivity. }
  cbn [app] in *. rewrite finv_opt_nz in E by (apply fnat_pow2_nz; auto). cbn [obind] in E. destruct (nth_error p 0) as [p0|] eqn:Ep; [|discriminate]. cbn [obind] in E.
  destruct (c =? _) eqn:Ec; [|discriminate]. apply feqb_true in Ec. assert (ks0 = ks) by congruence. subst ks0. split; [auto|]. intros F. destruct (Hk F) as [L1 Hk1].
  destruct (Hk1) as [Q|Q]; [|left; rewrite Q; unfold dtab; rewrite Nat.sub_0_r; reflexivity|right; exact Q].
  destruct p as [|q [|]]; try discriminate. cbn in Ep. assert (q = p0) by congruence. subst q. unfold dtab. cbn [andb].
  replace (m + 1 - (m + 1 - 1))%nat with 1%nat by lia. rewrite Ftab_1 by (auto; try lia; apply inv_half; lia). replace (m + 1 - 1)%nat with m by lia.
  replace (nth m x 0) with (0 : K). 2: { unfold x, ifft_x. rewrite app_nth2 by (rewrite map_length, firstn_length_le; lia). rewrite map_length, firstn_length_le, Nat.sub_diag by lia. reflexivity. }
  rewrite Ec. ring.
Qed.
End Delegations.
