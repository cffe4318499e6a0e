(** Honest softmax proofs are accepted: the whole run. *)
From Coq Require Import List Arith Lia Bool ZArith Ring Field.
From Verif Require Import ListAux FieldDef PolyList MleMath M_Mle P_Mle P_Eq M_Interp P_Interp M_Sumcheck P_ScVerify P_ScProve P_ScProve2 P_ScBatch P_ScFinal M_ScParallel
  P_ScParallel P_ScApi M_SamePoly P_SamePoly M_LogUp P_LogUp3 P_LogUp4 P_LogUp8 P_LogUp9 M_Tensor P_Tensor M_Layers P_Layers P_Layers2 M_Transformer P_Transformer M_Sop P_Sop
  P_Pooling P_Pooling2 M_RequantP P_RequantP P_RequantP2 M_LayerNorm P_LayerNorm P_LayerNorm2 P_LayerNorm5 P_LayerNorm6 M_Softmax P_Softmax P_Softmax2 P_Softmax3 P_Softmax4 P_Softmax5.
From Verif Require M_Basefold.
Import ListNotations.

Section P.
Context {K : field} {C : Type}.
Local Open Scope F_scope.
Add Field Kf_sm6 : (fth K).

Fixpoint pairs {A} (l : list A) : list (list A) := match l with x :: y :: r => [x; y] :: pairs r | _ => [] end.
Lemma pairs_ok {A} : forall nz (l : list A), length l = (2 * nz)%nat -> concat (pairs l) = l /\ length (pairs l) = nz /\ (forall cs, In cs (pairs l) -> length cs = 2%nat /\ forall c, In c cs -> In c l).
Proof.
  induction nz as [|nz IH]; intros l L; [destruct l; [|discriminate L]; cbn; repeat split; auto; contradiction|].
  destruct l as [|x [|y l]]; cbn [length] in L; try lia. destruct (IH l) as (I1 & I2 & I3); [lia|]. cbn [pairs concat app length]. rewrite I1, I2. split; [reflexivity|]. split; [reflexivity|].
  intros cs [<-|H]; [split; [reflexivity|]; cbn [In]; tauto|]. destruct (I3 cs H) as [J1 J2]. split; [exact J1|]. intros c Hc. right. right. auto.
Qed.
Lemma every2_in {A} (x : A) : forall n l, (length l <= n)%nat -> In x (every2 l) -> In x l.
Proof.
  induction n as [|n IH]; intros l L H; [destruct l; [exact H|cbn in L; lia]|]. destruct l as [|a [|b l]]; cbn [every2] in H; [exact H|exact H|]. destruct H as [->|H]; [left; reflexivity|]. right. right. apply IH; [cbn [length] in L; lia|exact H].
Qed.
Lemma base_tables n (l : list (list K)) : Forall (fun c => length c = (2 ^ n)%nat) l -> Forall2 (fun m t => is_table m n t) (map (fun c => mkMle (Base c) n) l) l.
Proof. induction 1 as [|c l Hc Hl IH]; cbn [map]; constructor; [repeat split; auto|exact IH]. Qed.
Lemma base_vec n (c : list K) : length c = (2 ^ n)%nat -> from_evaluations_vec n c = Some (mkMle (Base c) n).
Proof. intros L. unfold from_evaluations_vec. rewrite L, Nat.eqb_refl. reflexivity. Qed.
Lemma ext_tab n (l : list K) : length l = (2 ^ n)%nat -> is_table (mkMle (Ext l) n) n l.
Proof. apply ext_is_table. Qed.

(** Schedules of the lookups and the two sumchecks. *)
Definition sm_scheds (k s nz : nat) (sc : nat -> nat -> nat -> rsched) (es : nat -> nat -> list nat) (sca scm : nat -> rsched) (esh : nat -> list nat) : Prop :=
  let m := S (S k) in let n := (s + m)%nat in
  (logup_scheds true (S (s + k)) 1 (sc 0%nat) /\ logup_scheds true (S (s + k)) 2 (sc 1%nat) /\ logup_scheds true (S k) 1 (sc 2%nat) /\ (nz <> 0%nat -> logup_scheds true (S (s + k)) nz (sc 3%nat))) /\
  (valid_sched n (es 0%nat) /\ valid_sched n (es 1%nat) /\ valid_sched m (es 2%nat) /\ valid_sched n (es 3%nat)) /\
  (forall i, (i < n)%nat -> valid_rsched (sop_shape (K := K) n (acc_count nz) (map snd (sm_acc_terms (0 : K) 0 nz))) i (sca i)) /\
  (forall i, (i < n)%nat -> valid_rsched (sop_shape (K := K) n 4 mask_ix) i (scm i)) /\ valid_sched m esh.

Lemma sm_complete_at (c16 c8 : K) (T : @hist K -> K) ncpus sc es sca scm esh c ce cr cx cz pre tv k s cv hv (cin cout lo hi : list K) (zc : list (list K)) (shift xs : list K) (comms : list C) (last : @claim K) h :
  let m := S (S k) in let n := (s + m)%nat in let nz := sm_nz c in
  let sums := row_sums s m (sm_out n cout zc) in
  char_gt K (nz + 3) -> (0 < ncpus)%nat -> (nz <= 3)%nat -> (nz <> 0%nat -> (16 + tv < 64)%nat /\ (0 < sm_zv c < 64)%nat) -> (s < 64)%nat -> n = (cv + cv + hv)%nat -> sm_tv c = Some tv -> fZ (sm_scalar c) <> (0 : K) ->
  Forall (fun l => length l = (2 ^ n)%nat) (cin :: cout :: lo :: hi :: zc) -> length zc = (2 * nz)%nat -> length shift = (2 ^ m)%nat -> length xs = (2 ^ n)%nat ->
  length comms = (5 + 2 * nz)%nat -> claim_true (sm_out n cout zc) last -> length (cl_point last) = n ->
  (forall b, (b < 2 ^ n)%nat -> nth b (sm_comb_at c16 c8 tv (sm_zv c) n cin lo hi zc) 0 = - nth b (sm_masked c s cv n xs shift) 0) ->
  sm_scheds k s nz sc es sca scm esh ->
  exists wit nc pf h' p q xp z h1,
    sm_prove T ncpus sc es sca scm esh nz ce cr cx cz cin cout lo hi zc sums shift (sm_shifted c s n xs shift) (sm_tri cv n) (sm_bias c cv n) comms last h = Some (wit, nc, pf, h') /\
    map fst wit = comms /\ Forall2 claim_true (cin :: cout :: lo :: hi :: shift :: zc) (map snd wit) /\ length (cl_point nc) = n /\ cl_eval nc = fZ (sm_scalar c) * mle xs (cl_point nc) /\
    (length p = n /\ length q = n /\ length xp = m /\ smp_comms pf = comms) /\
    ((forall pr x, In pr (flat_map (fun l => lp_sumchecks l) (smp_logups pf)) -> In x (pf_point pr) -> not_node 3 x) ->
     sm_lookups T c ce cr cx cz pf h = Some (sm_cls nz p q xp z (mle cin p) (mle cout p) (mle lo q) (mle hi q) (mle sums xp) (evals_at zc z), h1) /\
     ((forall x, In x (pf_point (smp_acc pf)) -> not_node (nz + 2) x) -> (forall x, In x (pf_point (smp_mask pf)) -> not_node 3 x) ->
      eqp (cl_point nc) (pf_point (smp_acc pf)) * sm_tril cv (cl_point nc) <> 0 ->
      sm_verify_at c16 c8 T c ce cr cx cz (pre ++ [(2 ^ cv)%nat; (2 ^ cv)%nat]) last pf h = Some (wit, mkClaim (cl_point nc) (mle xs (cl_point nc)), h'))).
Proof.
  intros m n nz sums Hch Hnc Hnz Hzv Hs Enc Htv Hscal Lcols Lzc Lsh Lxs Lcm [_ Elast] Ll Hcomb ((Q0 & Q1 & Q2 & Q3) & (V0 & V1 & V2 & V3) & Hsca & Hscm & Vsh).
  assert (Hc3 : char_gt K 3) by (intros i0 Hi0; apply Hch; lia). assert (Hc2 : char_gt K 2) by (intros i0 Hi0; apply Hch; lia). assert (Hcn : char_gt K (nz + 2)) by (intros i0 Hi0; apply Hch; lia).
  assert (En : n = S (S (s + k))) by (unfold n, m; lia). assert (Hn : (0 < n)%nat) by lia.
  assert (Lin : length cin = (2 ^ n)%nat /\ length cout = (2 ^ n)%nat /\ length lo = (2 ^ n)%nat /\ length hi = (2 ^ n)%nat /\ Forall (fun l => length l = (2 ^ n)%nat) zc).
  { repeat match goal with H : Forall _ (_ :: _) |- _ => inversion H; clear H; subst end. auto. }
  destruct Lin as (Li & Lo & Llo & Lhi & Lz).
  assert (Lsum : length sums = (2 ^ m)%nat) by (unfold sums, row_sums; rewrite map_length, seq_length; reflexivity).
  destruct (lookup_complete_p T ncpus (sc 0%nat) (es 0%nat) (s + k) 2 [[cin; cout]] (fst ce) (snd ce) h) as (l1 & h1 & n1 & d1 & p & E1 & C1 & Lp & _ & _ & _ & _ & X1); auto; [discriminate|intros cs [<-|[]]; split; [reflexivity|]; rewrite <- En; intros u [<-|[<-|[]]]; auto|rewrite <- En; exact V0|].
  destruct (lookup_complete_p T ncpus (sc 1%nat) (es 1%nat) (s + k) 1 [[lo]; [hi]] (fst cr) (snd cr) h1) as (l2 & h2 & n2 & d2 & q & E2 & C2 & Lq & _ & _ & _ & _ & X2); auto; [discriminate|intros cs [<-|[<-|[]]]; (split; [reflexivity|]); rewrite <- En; intros u [<-|[]]; auto|rewrite <- En; exact V1|].
  destruct (lookup_complete_p T ncpus (sc 2%nat) (es 2%nat) k 1 [[sums]] (fst cx) (snd cx) h2) as (l3 & h3 & n3 & d3 & xp & E3 & C3 & Lx & _ & _ & _ & _ & X3); auto; [discriminate|intros cs [<-|[]]; split; [reflexivity|]; intros u [<-|[]]; auto|].
  cbn [concat app map] in E1, E2, E3, C1, C2, C3. cbn [length] in X1, X2, X3. rewrite <- En in Lp, Lq. fold m in Lx.
  assert (H4 : exists l4 h4 z, (match nz with O => Some ([], h3) | _ => l <- batch_prove T ncpus (sc 3%nat) (es 3%nat) (LookupIn zc (fst cz) (snd cz) 2) h3 ;; Some ([fst l], snd l) end) = Some (l4, h4) /\
    (nz = 0%nat /\ l4 = [] /\ h4 = h3 \/ nz <> 0%nat /\ length z = n /\ exists lp, l4 = [lp] /\ lp_claims lp = map (fun u => mkClaim z (mle u z)) zc /\
       ((forall pr x, In pr (lp_sumchecks lp) -> In x (pf_point pr) -> not_node 3 x) -> exists nn dd, verify_logup T lp nz (fst cz) (snd cz) h3 = Some (lp_claims lp, nn, dd, h4)))).
  { destruct (Nat.eq_dec nz 0) as [->|Nz]; [exists [], h3, []; auto|]. destruct (pairs_ok nz zc Lzc) as (P1 & P2 & P3).
    destruct (lookup_complete_p T ncpus (sc 3%nat) (es 3%nat) (s + k) 2 (pairs zc) (fst cz) (snd cz) h3) as (l4 & h4 & n4 & d4 & z & E4 & C4 & L4 & _ & _ & _ & _ & X4); auto.
    - intros X. rewrite X in P2. cbn in P2. lia.
    - intros cs Hcs. destruct (P3 cs Hcs) as [J1 J2]. split; [exact J1|]. intros u Hu. rewrite <- En. rewrite Forall_forall in Lz. auto.
    - rewrite P2. auto.
    - rewrite <- En. exact V3.
    - rewrite P1 in E4, C4. rewrite P2 in X4. exists [l4], h4, z. rewrite E4. split; [destruct nz; [contradiction|reflexivity]|]. right. split; [exact Nz|]. split; [rewrite En; exact L4|]. exists l4. split; [reflexivity|]. split; [exact C4|]. intros N. destruct (X4 N) as [X5 _]. eauto. }
  destruct H4 as (l4 & h4 & z & E4 & H4).
  unfold sm_prove. rewrite E1. cbn [obind fst snd]. rewrite E2. cbn [obind fst snd]. rewrite E3. cbn [obind fst snd]. rewrite E4. cbn [obind fst snd].
  assert (M1 : nth_error (lp_claims l1) 0 = Some (mkClaim p (mle cin p))) by (rewrite C1; reflexivity). assert (M2 : nth_error (lp_claims l2) 0 = Some (mkClaim q (mle lo q))) by (rewrite C2; reflexivity). assert (M3 : nth_error (lp_claims l3) 0 = Some (mkClaim xp (mle sums xp))) by (rewrite C3; reflexivity).
  rewrite M1, M2, M3. cbn [obind cl_point]. rewrite Lp, Lx. unfold csub at 1. destruct (Nat.leb_spec m n); [|unfold n in *; lia]. cbn [obind]. replace (n - m)%nat with s by (unfold n; lia).
  destruct (half_ok Hc2) as [Hh Ehalf]. rewrite Ehalf. cbn [obind]. set (half := / (1 + 1)) in *. unfold pow2u at 1. destruct (Nat.ltb_spec s 64); [|lia]. cbn [obind].
  unfold get_challenge. fold (sm_alpha T h4). fold (sm_h2 h4). set (a := sm_alpha T h4). rewrite !compute_betas_spec.
  set (full := repeat half s ++ xp). assert (Lfull : length full = n) by (unfold full; rewrite app_length, repeat_length; unfold n; lia).
  rewrite (into_mle_ext_ok n (eq_table p)) by (rewrite eq_table_length, Lp; reflexivity). cbn [obind].
  rewrite (into_mle_ext_ok n (eq_table q)) by (rewrite eq_table_length, Lq; reflexivity). cbn [obind].
  rewrite (into_mle_ext_ok n (eq_table full)) by (rewrite eq_table_length, Lfull; reflexivity). cbn [obind].
  rewrite (into_mle_ext_ok n (eq_table (cl_point last))) by (rewrite eq_table_length, Ll; reflexivity). cbn [obind].
  rewrite (base_vec n cin), (base_vec n cout), (base_vec n lo), (base_vec n hi) by auto. cbn [obind].
  assert (Em : omapM (from_evaluations_vec n) zc = Some (map (fun u => mkMle (Base u) n) zc)) by (apply omapM_all; intros u Hu; apply base_vec; rewrite Forall_forall in Lz; auto).
  rewrite Em. cbn [obind].
  set (ls := acc_tables nz p q z full (cl_point last) cin cout lo hi zc).
  match goal with |- context [obind ?o (fun rest => _)] => set (ro := o) end.
  assert (Hro : exists rest, ro = Some rest /\ Forall2 (fun mm l => is_table mm n l) ([mkMle (Base cin) n; mkMle (Ext (eq_table p)) n; mkMle (Base cout) n; mkMle (Base lo) n; mkMle (Ext (eq_table q)) n; mkMle (Base hi) n] ++ rest) ls).
  { assert (TT : forall r : list K, length r = n -> is_table (mkMle (Ext (eq_table r)) n) n (eq_table r)) by (intros r Lr; apply ext_tab; rewrite eq_table_length, Lr; reflexivity).
    assert (TB : forall u : list K, length u = (2 ^ n)%nat -> is_table (mkMle (Base u) n) n u) by (intros u Lu; repeat split; auto).
    unfold ro, ls, acc_tables. destruct H4 as [(Z0 & -> & _)|(Nz & Lzz & lp & -> & C4 & _)].
    - rewrite Z0. eexists. split; [reflexivity|]. cbn [app]. repeat (apply Forall2_cons; [auto|]). apply Forall2_nil.
    - rewrite C4. destruct nz as [|nz']; [contradiction|]. destruct zc as [|z0 zc']; [discriminate Lzc|]. cbn [map nth_error obind cl_point]. rewrite (into_mle_ext_ok n) by (rewrite compute_betas_spec, eq_table_length, Lzz; reflexivity). cbn [obind]. rewrite compute_betas_spec.
      eexists. split; [reflexivity|]. change (mkMle (Base z0) n :: map (fun u => mkMle (Base u) n) zc') with (map (fun u => mkMle (Base u) n) (z0 :: zc')). set (zz := z0 :: zc') in *.
      assert (Esk : every2 (skipn 1 (map (fun u => mkMle (Base u) n) zz)) = map (fun u => mkMle (Base u) n) (every2 (skipn 1 zz))) by (rewrite skipn_map1; apply (every2_map _ (length (skipn 1 zz))); lia).
      rewrite Esk. cbn [app]. do 6 (apply Forall2_cons; [auto|]). apply Forall2_cons; [auto|]. apply Forall2_app; [apply base_tables; exact Lz|]. apply Forall2_app; [apply base_tables|].
      + apply Forall_forall. intros u Hu. apply (every2_in u (length (skipn 1 zz))) in Hu; [|lia]. rewrite Forall_forall in Lz. apply Lz. unfold zz in *. cbn [skipn] in Hu. right. exact Hu.
      + repeat (apply Forall2_cons; [auto|]). apply Forall2_nil. }
  destruct Hro as (rest & Ero & HT). rewrite Ero. cbn [obind]. clear Ero ro.
  assert (Lls : length ls = acc_count nz).
  { unfold ls, acc_tables. destruct (every2_len nz zc Lzc) as [_ Y]. destruct nz as [|nz']; [reflexivity|]. rewrite !app_length. cbn [length]. rewrite Lzc, Y. unfold acc_count. lia. }
  match type of HT with Forall2 _ ?M _ => destruct (sop_ok T ncpus sca n M ls (sm_acc_terms a (fZ (2 ^ Z.of_nat s)) nz) (sm_h2 h4) Hnc Hn) as (apf & h5 & Es & La & Hv1) end.
  { rewrite acc_degree by exact Hnz. exact Hcn. } { unfold sm_acc_terms. discriminate. } { intros cc ix. apply acc_five. exact Hnz. } { exact HT. } { rewrite acc_seen by exact Hnz. f_equal. symmetry. exact Lls. }
  { intros i Hi. rewrite (acc_snd _ _ 0 0). rewrite Lls. apply Hsca. exact Hi. }
  rewrite Es. cbn [obind]. clear Es HT. set (ap := pf_point apf) in *.
  set (aev := map (fun l => mle l ap) ls).
  assert (Ae : nth_error aev 0 = Some (mle cin ap) /\ nth_error aev 2 = Some (mle cout ap) /\ nth_error aev 3 = Some (mle lo ap) /\ nth_error aev 5 = Some (mle hi ap)) by (repeat split; reflexivity).
  destruct Ae as (A0 & A2 & A3 & A5). rewrite A0, A2, A3, A5. cbn [obind].
  assert (Az : (match nz with O => [] | _ => firstn (length zc) (skipn 7 aev) end) = evals_at zc ap).
  { unfold aev, ls, acc_tables. destruct nz as [|nz']; [destruct zc; [reflexivity|discriminate Lzc]|]. cbn [app map skipn]. rewrite map_app, firstn_app. rewrite map_length, Nat.sub_diag. cbn [firstn]. rewrite app_nil_r, firstn_all2 by (rewrite map_length; lia). reflexivity. }
  rewrite Az. clear A0 A2 A3 A5 Az.
  rewrite compute_betas_spec. rewrite (into_mle_ext_ok n (eq_table ap)) by (rewrite eq_table_length, La; reflexivity). cbn [obind].
  assert (Ls1 : length (sm_shifted c s n xs shift) = (2 ^ n)%nat) by (unfold sm_shifted; rewrite map_length, seq_length; reflexivity).
  assert (Ls2 : length (sm_tri (K := K) cv n) = (2 ^ n)%nat) by (unfold sm_tri; rewrite map_length, seq_length; reflexivity).
  assert (Ls3 : length (sm_bias (K := K) c cv n) = (2 ^ n)%nat) by (unfold sm_bias; rewrite map_length, seq_length; reflexivity).
  rewrite (into_mle_ext_ok n (sm_shifted c s n xs shift)) by exact Ls1. cbn [obind]. rewrite (into_mle_ext_ok n (sm_tri cv n)) by exact Ls2. cbn [obind]. rewrite (into_mle_ext_ok n (sm_bias c cv n)) by exact Ls3. cbn [obind num_vars].
  destruct (mask_ok T ncpus scm n _ _ _ _ (sm_shifted c s n xs shift) (sm_tri cv n) (sm_bias c cv n) ap h5 Hnc Hn Hc3 La (ext_tab n _ Ls1) (ext_tab n _ Ls2) (ext_tab n _ Ls3) (ext_tab n (eq_table ap) ltac:(rewrite eq_table_length, La; reflexivity)) Hscm) as (mpf & h6 & Em2 & Lm & Hv2).
  rewrite Em2. cbn [obind map nth_error]. clear Em2. set (mp := pf_point mpf) in *.
  rewrite (into_mle_ext_ok m shift) by exact Lsh. cbn [obind num_vars]. unfold csub. rewrite Lm. destruct (Nat.leb_spec m n); [|unfold n in *; lia]. cbn [obind]. replace (n - m)%nat with s by (unfold n; lia).
  rewrite (evaluate_ext esh m) by first [exact Lsh|exact Vsh|rewrite skipn_length, Lm; unfold n; lia]. cbn [obind].
  eexists _, _, _, _, p, q, xp, z, h4. split; [reflexivity|]. cbn [smp_logups smp_comms smp_acc smp_mask cl_point cl_eval].
  set (claims := [mkClaim ap (mle cin ap); mkClaim ap (mle cout ap); mkClaim ap (mle lo ap); mkClaim ap (mle hi ap); mkClaim (skipn s mp) (mle shift (skipn s mp))] ++ map (mkClaim ap) (evals_at zc ap)).
  assert (Lcl : length claims = length comms) by (unfold claims, evals_at; rewrite app_length, !map_length; cbn [length]; lia).
  destruct (combine_fst_snd comms claims (eq_sym Lcl)) as [W1 W2]. rewrite W1, W2. split; [reflexivity|]. split.
  { unfold claims. cbn [app]. repeat (apply Forall2_cons; [split; cbn [cl_point cl_eval]; rewrite ?skipn_length, ?La, ?Lm; first [assumption|reflexivity|rewrite Lsh; f_equal; unfold n; lia]|]). 
    clear - Lz La. induction zc as [|u zc IH]; cbn [evals_at map]; constructor; inversion Lz; subst; [split; cbn [cl_point cl_eval]; [rewrite La; assumption|reflexivity]|apply IH; assumption]. }
  split; [exact Lm|]. split; [rewrite (shifted_mle c s m) by auto; ring|]. split; [auto|].
  intros N0. 
  assert (ELk : forall lps, smp_logups (mkSmp ([l1; l2; l3] ++ l4) comms apf mpf lps) = [l1; l2; l3] ++ l4) by reflexivity.
  match goal with |- context [sm_lookups T c ce cr cx cz ?P h] => set (PF := P) end.
  assert (ELu : sm_lookups T c ce cr cx cz PF h = Some (sm_cls nz p q xp z (mle cin p) (mle cout p) (mle lo q) (mle hi q) (mle sums xp) (evals_at zc z), h4)).
  { unfold sm_lookups, PF. cbn [smp_logups]. destruct ce as [ce1 ce2], cr as [cr1 cr2], cx as [cx1 cx2], cz as [cz1 cz2]. cbn [fst snd] in *.
    destruct X1 as [Y1 _]; [intros pr x HA HB'; apply (N0 pr x); [cbn [app flat_map]; apply in_or_app; auto|auto]|].
    destruct X2 as [Y2 _]; [intros pr x HA HB'; apply (N0 pr x); [cbn [app flat_map]; apply in_or_app; right; apply in_or_app; auto|auto]|].
    destruct X3 as [Y3 _]; [intros pr x HA HB'; apply (N0 pr x); [cbn [app flat_map]; apply in_or_app; right; apply in_or_app; right; apply in_or_app; auto|auto]|].
    rewrite C1 in Y1. rewrite C2 in Y2. rewrite C3 in Y3. fold nz.
    destruct H4 as [(Z0 & -> & ->)|(Nz & Lzz & lp & -> & C4 & X4)].
    - rewrite Z0. cbn [Nat.eqb]. destruct (sm_zv c =? 0)%nat; cbn [app combine sm_logups]; rewrite Y1; cbn [obind]; rewrite Y2; cbn [obind]; rewrite Y3; cbn [obind fst snd]; unfold sm_cls; reflexivity.
    - destruct (Hzv Nz) as [_ Hz0]. destruct (Nat.eqb_spec (sm_zv c) 0); [lia|]. destruct (Nat.eqb_spec nz 0); [contradiction|]. cbn [app combine sm_logups]. rewrite Y1. cbn [obind]. rewrite Y2. cbn [obind]. rewrite Y3. cbn [obind].
      destruct X4 as (nn & dd & Y4); [intros pr x HA HB'; apply (N0 pr x); [cbn [app flat_map]; do 3 (apply in_or_app; right); rewrite app_nil_r; auto|auto]|]. rewrite Y4. cbn [obind fst snd]. rewrite C4. unfold sm_cls. destruct nz; [contradiction|]. unfold evals_at. rewrite map_map. reflexivity. }
  split; [exact ELu|]. intros N1 N2 Nt. change (eqp mp ap * sm_tril cv mp <> 0) in Nt.
  assert (Lzz : nz <> 0%nat -> length z = n) by (intros Nz; destruct H4 as [(Z0 & _)|(_ & Q & _)]; [contradiction|exact Q]).
  rewrite acc_degree in Hv1 by exact Hnz. specialize (Hv1 N1). specialize (Hv2 N2).
  assert (HF : forall x, length x = n -> sopf ls (sm_acc_terms a (fZ (2 ^ Z.of_nat s)) nz) x = sm_poly p q z full (cl_point last) (fZ (2 ^ Z.of_nat s)) cin cout lo hi zc a x) by (intros x Lxx; unfold ls; apply (sopf_acc n); auto).
  rewrite (hsum_ext _ _ _ HF), HF in Hv1 by exact La. rewrite hsum_sm in Hv1 by first [assumption|intros Q; apply Lzz; intros E; rewrite E in Lzc; destruct zc; [contradiction|discriminate Lzc]].
  unfold full in Hv1 at 1. rewrite sum_point in Hv1 by exact Hh.
  assert (HG : forall x, length x = n -> mask_fn (sm_shifted c s n xs shift) (sm_tri cv n) (sm_bias c cv n) ap x = sm_mask_poly c s cv ap xs shift x) by (intros x Lxx; apply (mask_fn_poly c s m cv hv n); auto).
  rewrite (hsum_ext _ _ _ HG), HG in Hv2 by exact Lm. rewrite (hsum_mask c s cv hv m n) in Hv2 by auto.
  set (mi := mle (sm_comb_at c16 c8 tv (sm_zv c) n cin lo hi zc) ap).
  assert (Emi : - mi = mle (sm_masked c s cv n xs shift) ap).
  { unfold mi, mle. rewrite (mlef_ext (fun b => nth b (sm_comb_at c16 c8 tv (sm_zv c) n cin lo hi zc) 0) (fun b => (- (1)) * nth b (sm_masked c s cv n xs shift) 0)) by (rewrite La; intros b Hb; rewrite Hcomb by exact Hb; ring). rewrite mlef_scal. ring. }
  rewrite <- Emi in Hv2.
  destruct comms as [|c0 [|c1 [|c2 [|c3 [|c4 crest]]]]]; try (cbn [length] in Lcm; lia).
  rewrite (sm_accept_at c16 c8 T c ce cr cx cz pre s m cv n last PF h p q xp z (mle cin p) (mle cout p) (mle lo q) (mle hi q) (mle sums xp) (evals_at zc z) h4 ap (sm_poly p q z full (cl_point last) (fZ (2 ^ Z.of_nat s)) cin cout lo hi zc a ap) h5
     (mle cin ap) (mle cout ap) (mle lo ap) (mle hi ap) (mle shift (skipn s mp)) (evals_at zc ap) mi mp (sm_mask_poly c s cv ap xs shift mp) h6 c4); auto.
  - cbn [smp_comms smp_evals PF]. unfold claims.
    assert (G1 : ((sm_mask_poly c s cv ap xs shift mp - eqp mp ap * (fZ (sm_neg_inf c) * (1 - sm_tril cv mp))) * / (eqp mp ap * sm_tril cv mp) - mle shift (skipn s mp)) * / fZ (sm_scalar c) = mle xs mp).
    { unfold sm_mask_poly. rewrite (eqp_sym ap mp). assert (N3 : eqp mp ap <> 0) by (intros E; apply Nt; rewrite E; ring). assert (N4 : sm_tril cv mp <> 0) by (intros E; apply Nt; rewrite E; ring). field. auto. }
    rewrite G1. assert (G2 : (if (sm_nz c =? 0)%nat then [] else combine crest (map (mkClaim ap) (evals_at zc ap))) = combine crest (map (mkClaim ap) (evals_at zc ap))).
    { destruct (Nat.eqb_spec (sm_nz c) 0) as [Z0|Nz]; [|reflexivity]. fold nz in Z0. rewrite Z0 in Lzc. destruct zc; [|discriminate Lzc]. cbn [evals_at map]. destruct crest; reflexivity. }
    cbn [app map combine firstn skipn]. rewrite G2. reflexivity.
  - unfold evals_at. rewrite map_length. exact Lzc.
  - unfold sm_claimed. rewrite <- Elast in *. 
    replace (mle sums xp) with (mlef (row_sum s (sm_out n cout zc)) xp) by (unfold sums, row_sums; rewrite mle_map_seq by auto; reflexivity). exact Hv1.
  - unfold evals_at. rewrite map_length. exact Lzc.
  - rewrite <- evals_every2_skip. assert (G3 : map (fun v => eqp z ap * v) (evals_at zc ap) = map (fun F => F ap) (map (fun u x => eqp z x * mle u x) zc)) by (unfold evals_at; rewrite !map_map; reflexivity).
    rewrite G3. unfold sm_poly, sm_fns, outv. rewrite !map_app. reflexivity.
  - rewrite (mask_input_some c16 c8 c tv) by first [exact Htv|unfold evals_at; rewrite map_length; exact Lzc|intros Nz; destruct (Hzv Nz); lia]. f_equal. unfold mi. rewrite comb_mle by exact La. reflexivity.
Qed.
End P.
