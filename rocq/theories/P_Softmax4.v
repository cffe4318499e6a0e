(** The sumchecks of the softmax prover: masking and accumulation. *)
From Coq Require Import List Arith Lia Bool ZArith Ring Field.
From Verif Require Import ListAux FieldDef PolyList MleMath M_Mle P_Mle P_Eq M_Interp P_Interp M_Sumcheck P_ScVerify P_ScProve P_ScProve2 P_ScBatch P_ScFinal M_ScParallel
  P_ScParallel P_ScApi M_SamePoly P_SamePoly M_LogUp P_LogUp3 M_Tensor P_Tensor M_Layers P_Layers P_Layers2 M_Transformer P_Transformer M_Sop P_Sop
  P_Pooling P_Pooling2 M_RequantP P_RequantP P_RequantP2 M_LayerNorm P_LayerNorm P_LayerNorm2 P_LayerNorm5 P_LayerNorm6 M_Softmax P_Softmax P_Softmax2 P_Softmax3.
From Verif Require M_Basefold.
Import ListNotations.

Section P.
Context {K : field} {C : Type}.
Local Open Scope F_scope.
Add Field Kf_sm4 : (fth K).

(** As [sop_ok], from the finished virtual polynomial. *)
Lemma vp_ok (T : @hist K -> K) ncpus scs nv (ms : list (dmle K)) (ls : list (list K)) terms h :
  (0 < ncpus)%nat -> (0 < nv)%nat -> char_gt K (sop_deg terms) -> terms <> [] -> (forall c ix, In (c, ix) terms -> ix <> [] /\ (length ix <= 5)%nat) ->
  Forall2 (fun m l => is_table m nv l) ms ls -> (forall c ix i, In (c, ix) terms -> In i ix -> (i < length ls)%nat) ->
  (forall i, (i < nv)%nat -> valid_rsched (sop_shape (K := K) nv (length ls) (map snd terms)) i (scs i)) ->
  exists pf st h', prove_parallel T ncpus scs (mkVp (sop_deg terms) nv terms ms) h = Some (pf, st, h') /\
    get_mle_final_evaluations st = Some (map (fun l => mle l (pf_point pf)) ls) /\ length (pf_point pf) = nv /\
    ((forall r, In r (pf_point pf) -> not_node (sop_deg terms) r) ->
     verify T (hsum nv (sopf ls terms)) pf nv (sop_deg terms) h = Some (pf_point pf, sopf ls terms (pf_point pf), h')).
Proof.
  intros Hnc Hn Hch Hte Hterms Hms Hb Hsc.
  assert (Lms : length ms = length ls) by (clear - Hms; induction Hms; cbn; auto).
  assert (Htab : forall i, (i < length ls)%nat -> is_table (nth i ms dm) nv (nth i ls [])).
  { clear - Hms. induction Hms as [|m l ms ls H Hms IH]; intros i Hi; cbn [length] in Hi; [lia|]. destruct i; [exact H|]. apply IH. lia. }
  assert (Hnv : forall m, In m ms -> num_vars m = nv).
  { intros m Hm. apply (In_nth _ _ dm) in Hm as (i & Hi & <-). apply Htab. lia. }
  assert (Htb : forall i, (i < length ls)%nat -> tbl (nth i ms dm) = nth i ls []).
  { intros i Hi. destruct (Htab i Hi) as (_ & [E|E] & _); unfold tbl; rewrite E; reflexivity. }
  set (p := mkVp (sop_deg terms) nv terms ms) in *.
  assert (Hmax : forall c ix, In (c, ix) terms -> (length ix <= sop_deg terms)%nat).
  { intros c ix H. unfold sop_deg. clear - H. induction terms as [|x l IH]; [destruct H|]. cbn [map fold_right]. destruct H as [->|H]; [cbn [snd]; lia|apply IH in H; lia]. }
  assert (Hdeg : (0 < sop_deg terms)%nat).
  { destruct terms as [|[c ix] l]; [congruence|]. specialize (Hmax c ix (or_introl eq_refl)). destruct (Hterms c ix (or_introl eq_refl)) as [H _]. destruct ix; [congruence|]. cbn [length] in Hmax. lia. }
  assert (Hwp : wf_vp p).
  { constructor; cbn [p vp_deg vp_nv vp_mles vp_products]; auto.
    - intros m Hm. rewrite (Hnv m Hm). split; [|lia]. apply (In_nth _ _ dm) in Hm as (i & Hi & <-).
      unfold wf_mle. rewrite Htb by lia. assert (E : num_vars (nth i ms dm) = nv) by (apply Hnv, nth_In; lia). rewrite E. apply Htab. lia.
    - intros c ix H. destruct (Hterms c ix H) as [H1 H2]. split; [destruct ix; [congruence|cbn; lia]|]. split; [auto|]. split; [eauto|].
      split; [intros i Hi; rewrite Lms; eauto|]. intros i j Hi Hj. rewrite !Hnv; auto; apply nth_In; rewrite Lms; eauto. }
  destruct (parallel_completeness T ncpus scs p h Hnc Hch Hwp) as (pf & st & h' & Epf & Hlpt & Hfin & Hver).
  { intros i Hi. destruct (Hsc i Hi) as [A B D]. cbn [sop_shape vp_mles vp_products] in A, B, D. rewrite map_length, map_length in B, D. rewrite repeat_length in A.
    constructor; cbn [p vp_mles vp_products].
    - intros Hk j Hj Hjk. specialize (A Hk j). rewrite Hnv in Hjk |- * by (apply nth_In; auto).
      rewrite (nth_indep _ dm (mkMle (Ext []) nv)) in A by (rewrite repeat_length; lia). rewrite nth_repeat in A. cbn [num_vars] in A. apply A; lia.
    - intros q Hq Hkq. specialize (B q Hq).
      assert (Ep : prod_nv p q = nv).
      { unfold prod_nv. cbn [p vp_products vp_mles]. apply Hnv, nth_In. rewrite Lms. destruct (nth q terms (0, [])) as [c ix] eqn:Eq.
        assert (Hin : In (c, ix) terms) by (rewrite <- Eq; apply nth_In; auto). apply (Hb c ix); auto. cbn [snd]. apply nth_In.
        destruct (Hterms c ix Hin) as [H _]. destruct ix; [congruence|cbn; lia]. }
      assert (Es : prod_nv (sop_shape (K := K) nv (length ls) (map snd terms)) q = nv).
      { unfold prod_nv. cbn [sop_shape vp_products vp_mles]. destruct (nth q terms (0, [])) as [c ix] eqn:Eq.
        assert (Hin : In (c, ix) terms) by (rewrite <- Eq; apply nth_In; auto).
        rewrite (nth_map_lt _ _ _ []) by (rewrite map_length; auto). cbn [snd]. rewrite (nth_map_lt _ _ _ (0, [])) by auto. rewrite Eq. cbn [snd].
        rewrite (nth_indep _ dm (mkMle (Ext []) nv)); [rewrite nth_repeat; reflexivity|]. rewrite repeat_length. apply (Hb c ix); auto. apply nth_In.
        destruct (Hterms c ix Hin) as [H _]. destruct ix; [congruence|cbn; lia]. }
      rewrite Es in B. rewrite Ep in Hkq |- *. auto.
    - exact D. }
  exists pf, st, h'. split; [exact Epf|]. cbn [p vp_nv] in Hlpt. split; [|split; [auto|]].
  - rewrite Hfin. cbn [p vp_mles]. f_equal. apply (nth_ext _ _ 0 0); [rewrite !map_length; auto|]. intros i Hi. rewrite map_length in Hi.
    rewrite (nth_map_lt _ _ _ dm) by auto. rewrite (nth_map_lt _ _ _ []) by lia. unfold mval. rewrite Htb by lia.
    rewrite Hnv by (apply nth_In; auto). rewrite firstn_all2 by lia. reflexivity.
  - intros Hr. cbn [p vp_nv vp_deg] in Hver. specialize (Hver Hr).
    assert (Hval : forall pt, length pt = nv -> vp_val p pt = sopf ls terms pt).
    { intros pt Hpt. unfold vp_val, prod_val, sopf. cbn [p vp_products vp_mles]. f_equal. apply map_ext_in. intros [c ix] Hin. cbn [fst snd]. f_equal. f_equal.
      apply map_ext_in. intros i Hi. specialize (Hb c ix i Hin Hi). unfold mval. rewrite Htb by auto. rewrite Hnv by (apply nth_In; lia).
      rewrite firstn_all2 by lia. reflexivity. }
    rewrite Hval in Hver by auto. rewrite <- Hver. f_equal. symmetry. apply hsum_ext. intros pt Hpt. apply Hval. auto.
Qed.

Definition mask_ix : list (list nat) := [[0; 1; 3]; [2; 3]]%nat.
Definition mask_fn (shifted tril bias ap : list K) (x : list K) : K := eqp ap x * (mle shifted x * mle tril x + mle bias x).
Lemma mask_ok (T : @hist K -> K) ncpus scs nv (ms mt mb me : dmle K) (shifted tril bias ap : list K) h :
  (0 < ncpus)%nat -> (0 < nv)%nat -> char_gt K 3 -> length ap = nv ->
  is_table ms nv shifted -> is_table mt nv tril -> is_table mb nv bias -> is_table me nv (eq_table ap) ->
  (forall i, (i < nv)%nat -> valid_rsched (sop_shape (K := K) nv 4 mask_ix) i (scs i)) ->
  exists pf h', mask_prove T ncpus scs nv [ms; mt; mb; me] h = Some (pf, map (fun l => mle l (pf_point pf)) [shifted; tril; bias; eq_table ap], h') /\ length (pf_point pf) = nv /\
    ((forall r, In r (pf_point pf) -> not_node 3 r) ->
     verify T (hsum nv (mask_fn shifted tril bias ap)) pf nv 3 h = Some (pf_point pf, mask_fn shifted tril bias ap (pf_point pf), h')).
Proof.
  intros Hnc Hn Hch La Hs Ht Hb He Hsc.
  destruct (vp_ok T ncpus scs nv [ms; mt; mb; me] [shifted; tril; bias; eq_table ap] [(1 * 1, [0; 1; 3]%nat); (1 * 1, [2; 3]%nat)] h) as (pf & st & h' & E & Ef & L & Hv); auto.
  { discriminate. }
  { intros c ix [X|[X|[]]]; apply (f_equal snd) in X; cbn [snd] in X; subst ix; (split; [discriminate|cbn; lia]). }
  { intros c ix i [X|[X|[]]]; apply (f_equal snd) in X; cbn [snd] in X; subst ix; cbn [In length]; lia. }
  exists pf, h'. split; [|split; [exact L|]].
  - unfold mask_prove. destruct Hs as [Ns _], Ht as [Nt _], Hb as [Nb _], He as [Ne _].
    assert (Eb : build (fun a => nth a [ms; mt; mb; me] (mkMle Unreachable 0)) [((1 : K), [0; 1]%nat); (1, [2]%nat)] ([], vp_new nv) = Some ([(2, 2); (1, 1); (0, 0)]%nat, mkVp 2 nv [((1 : K), [0; 1]%nat); (1, [2]%nat)] [ms; mt; mb])).
    { cbn [build]. unfold add_mle_list. cbn [map nth fst snd vp_new vp_nv forallb]. rewrite Ns, Nt, Nat.leb_refl, Nat.eqb_refl. cbn [andb fold_left add_one fst snd tbl_get vp_mles length app Nat.eqb obind vp_deg vp_nv vp_products Nat.max]. rewrite Nb, Nat.leb_refl, Nat.eqb_refl. reflexivity. }
    rewrite Eb. cbn [obind]. unfold mul_by_mle. cbn [nth snd fst vp_nv]. rewrite Ne, Nat.eqb_refl. cbn [add_one fst snd tbl_get Nat.eqb vp_mles length app vp_deg Nat.add vp_products map]. cbn [obind snd].
    change (sop_deg [((1 * 1 : K), [0; 1; 3]%nat); (1 * 1, [2; 3]%nat)]) with 3%nat in E. rewrite E. cbn [obind]. rewrite Ef. reflexivity.
  - change (sop_deg [((1 * 1 : K), [0; 1; 3]%nat); (1 * 1, [2; 3]%nat)]) with 3%nat in Hv. intros N. specialize (Hv N).
    assert (HF : forall x, length x = nv -> sopf [shifted; tril; bias; eq_table ap] [((1 * 1 : K), [0; 1; 3]%nat); (1 * 1, [2; 3]%nat)] x = mask_fn shifted tril bias ap x).
    { intros x Lx. unfold sopf, mask_fn. cbn [map fst snd fprod nth fsum]. rewrite mle_eq_table by lia. ring. }
    rewrite (hsum_ext _ _ _ HF), HF in Hv by exact L. exact Hv.
Qed.

(** The indices of the accumulation sumcheck. *)
Lemma acc_snd (a b c d : K) nz : map snd (sm_acc_terms a b nz) = map snd (sm_acc_terms c d nz).
Proof. unfold sm_acc_terms. rewrite !map_app. f_equal. destruct nz; [reflexivity|]. rewrite !map_app, !map_map. reflexivity. Qed.
Definition acc_count (nz : nat) : nat := match nz with O => 10%nat | _ => (10 + 3 * nz)%nat end.
Lemma acc_seen nz (a b : K) : (nz <= 3)%nat -> seen 0 (concat (map snd (sm_acc_terms a b nz))) = Some (acc_count nz).
Proof. intros H. destruct nz as [|[|[|[|?]]]]; [reflexivity|reflexivity|reflexivity|reflexivity|lia]. Qed.
Lemma acc_degree nz (a b : K) : (nz <= 3)%nat -> sop_deg (sm_acc_terms a b nz) = (nz + 2)%nat.
Proof. intros H. destruct nz as [|[|[|[|?]]]]; [reflexivity|reflexivity|reflexivity|reflexivity|lia]. Qed.
Lemma acc_five nz (a b c : K) ix : (nz <= 3)%nat -> In (c, ix) (sm_acc_terms a b nz) -> ix <> [] /\ (length ix <= 5)%nat.
Proof.
  intros H Hin. apply (in_map snd) in Hin. cbn [snd] in Hin. assert (Q : forallb (fun ix => negb (length ix =? 0)%nat && (length ix <=? 5)%nat) (map snd (sm_acc_terms a b nz)) = true) by (destruct nz as [|[|[|[|?]]]]; [reflexivity|reflexivity|reflexivity|reflexivity|lia]).
  rewrite forallb_forall in Q. apply Q in Hin. apply andb_prop in Hin as [Q1 Q2]. apply Nat.leb_le in Q2. split; [intros ->; discriminate Q1|exact Q2].
Qed.
(** The tables, by address. *)
Definition acc_tables (nz : nat) (p q z full lp : list K) (cin cout lo hi : list K) (zc : list (list K)) : list (list K) :=
  [cin; eq_table p; cout; lo; eq_table q; hi] ++
  match nz with O => [cout; eq_table full; cout; eq_table lp] | _ => [eq_table z] ++ zc ++ every2 (skipn 1 zc) ++ [cout; eq_table full; eq_table lp] end.
Lemma sopf_acc n nz p q z full lp tm cin cout lo hi zc a x : (nz <= 3)%nat -> length zc = (2 * nz)%nat -> length x = n -> length p = n -> length q = n -> (nz <> 0%nat -> length z = n) -> length full = n -> length lp = n ->
  sopf (acc_tables nz p q z full lp cin cout lo hi zc) (sm_acc_terms a tm nz) x = sm_poly p q z full lp tm cin cout lo hi zc a x.
Proof.
  intros Hz Lz Lx Lp Lq Lzz Lf Ll. assert (Ez : nz <> 0%nat -> mle (eq_table z) x = eqp z x) by (intros N; apply mle_eq_table; rewrite Lzz by exact N; lia).
  unfold sopf, sm_poly, sm_fns, outv.
  destruct nz as [|[|[|[|?]]]]; [| | | |lia].
  - destruct zc; [|discriminate Lz]. unfold acc_tables, sm_acc_terms. cbn [map app fst snd nth fsum fprod peval fpow every2 skipn evals_at]. rewrite !mle_eq_table by lia. ring.
  - destruct zc as [|z0 [|z1 [|? ?]]]; try discriminate Lz. unfold acc_tables, sm_acc_terms. cbn [Nat.mul Nat.add seq map app fst snd nth fsum fprod peval fpow every2 skipn evals_at]. rewrite (mle_eq_table p), (mle_eq_table q), (mle_eq_table full), (mle_eq_table lp), Ez by first [lia|discriminate]. ring.
  - destruct zc as [|z0 [|z1 [|z2 [|z3 [|? ?]]]]]; try discriminate Lz. unfold acc_tables, sm_acc_terms. cbn [Nat.mul Nat.add seq map app fst snd nth fsum fprod peval fpow every2 skipn evals_at]. rewrite (mle_eq_table p), (mle_eq_table q), (mle_eq_table full), (mle_eq_table lp), Ez by first [lia|discriminate]. ring.
  - destruct zc as [|z0 [|z1 [|z2 [|z3 [|z4 [|z5 [|? ?]]]]]]]; try discriminate Lz. unfold acc_tables, sm_acc_terms. cbn [Nat.mul Nat.add seq map app fst snd nth fsum fprod peval fpow every2 skipn evals_at]. rewrite (mle_eq_table p), (mle_eq_table q), (mle_eq_table full), (mle_eq_table lp), Ez by first [lia|discriminate]. ring.
Qed.
End P.
