(** Proofs about the layer normalisation proof: honest proofs are accepted. *)
From Coq Require Import List Arith Lia Bool ZArith Ring Field Znumtheory.
From Verif Require Import ListAux FieldDef PolyList MleMath M_Mle P_Mle P_Eq M_Interp P_Interp M_Sumcheck P_ScVerify P_ScProve P_ScProve2 P_ScBatch P_ScFinal M_ScParallel
  P_ScParallel P_ScApi M_SamePoly P_SamePoly M_LogUp P_LogUp3 P_LogUp4 P_LogUp8 P_LogUp9 M_Tensor P_Tensor M_Layers P_Layers P_Layers2 P_Layers3 P_Transformer P_Transformer2 M_Sop P_Sop P_Code3
  M_Tables P_Tables M_Quant M_Requant P_Requant P_Requant2 P_Pooling P_Pooling2 M_RequantP P_RequantP P_RequantP2 P_RequantP3 M_LayerNorm P_LayerNorm P_LayerNorm2 P_LayerNorm3.
From Verif Require M_Basefold P_Basefold.
Import ListNotations.

Section P.
Context {K : field} {C : Type}.
Local Open Scope F_scope.
Add Field Kf_ln5 : (fth K).

(** ** The tables of the io sumcheck *)
Lemma nth_repeat_lt {A} (x : A) n i d : (i < n)%nat -> nth i (repeat x n) d = x.
Proof. revert i. induction n as [|n IH]; intros [|i] H; cbn [repeat nth]; try lia; [reflexivity|]. apply IH. lia. Qed.
Lemma mle_rows s m (rows : list (list K)) x : length rows = (2 ^ m)%nat -> (forall r, In r rows -> length r = (2 ^ s)%nat) -> length x = (s + m)%nat ->
  mle (concat rows) x = mlef (fun j => mle (nth j rows []) (firstn s x)) (skipn s x).
Proof.
  intros Lr Hr Lx. rewrite <- (firstn_skipn s x) at 1. unfold mle at 1. rewrite mlef_app. rewrite firstn_length. replace (Nat.min s (length x)) with s by lia.
  apply mlef_ext. rewrite skipn_length. intros j Hj. replace (length x - s)%nat with m in Hj by lia. unfold mle. apply mlef_ext. rewrite firstn_length. intros i Hi. replace (Nat.min s (length x)) with s in Hi by lia.
  apply nth_concat_uniform; auto. lia.
Qed.
Lemma mle_repeat (e : K) n x : n = length x -> mle (repeat e (2 ^ n)) x = e.
Proof. intros ->. unfold mle. etransitivity; [|apply (mlef_const e x)]. apply mlef_ext. intros i Hi. now apply nth_repeat_lt. Qed.
Lemma expand_ok s m (l : list K) x : length l = (2 ^ m)%nat -> length x = (s + m)%nat ->
  length (concat (map (fun e => repeat e (2 ^ s)) l)) = (2 ^ (s + m))%nat /\ mle (concat (map (fun e => repeat e (2 ^ s)) l)) x = mle l (skipn s x).
Proof.
  intros Ll Lx. assert (U : forall r, In r (map (fun e => repeat e (2 ^ s)) l) -> length r = (2 ^ s)%nat) by (intros r Hr; apply in_map_iff in Hr as (e & <- & _); apply repeat_length).
  split; [rewrite (length_concat_uniform _ _ U), map_length, Ll, Nat.pow_add_r; reflexivity|].
  rewrite (mle_rows s m) by (rewrite ?map_length; auto). unfold mle at 2. apply mlef_ext. rewrite skipn_length. intros j Hj. replace (length x - s)%nat with m in Hj by lia. rewrite (nth_map_lt _ l j 0) by lia. apply mle_repeat. rewrite firstn_length. lia.
Qed.
Lemma repeat_ok s m (l : list K) x : length l = (2 ^ s)%nat -> length x = (s + m)%nat ->
  length (concat (repeat l (2 ^ m))) = (2 ^ (s + m))%nat /\ mle (concat (repeat l (2 ^ m))) x = mle l (firstn s x).
Proof.
  intros Ll Lx. assert (U : forall r, In r (repeat l (2 ^ m)) -> length r = (2 ^ s)%nat) by (intros r Hr; apply repeat_spec in Hr; now subst r).
  split; [rewrite (length_concat_uniform _ _ U), repeat_length, Nat.pow_add_r; reflexivity|].
  rewrite (mle_rows s m) by (rewrite ?repeat_length; auto). etransitivity; [|apply (mlef_const (mle l (firstn s x)) (skipn s x))]. apply mlef_ext. rewrite skipn_length. intros j Hj. replace (length x - s)%nat with m in Hj by lia. now rewrite nth_repeat_lt.
Qed.
Lemma mean_ok s m (xs : list K) x : length xs = (2 ^ (s + m))%nat -> length x = (s + m)%nat ->
  length (ln_mean (2 ^ s) xs) = (2 ^ (s + m))%nat /\ mle (ln_mean (2 ^ s) xs) x = mlef (row_sum s xs) (skipn s x).
Proof.
  intros Lxs Lx. assert (Hp : (0 < 2 ^ s)%nat) by apply pow2_pos. destruct (chunks_length (2 ^ s)%nat (2 ^ m)%nat xs Hp) as [L1 L2]; [rewrite Lxs, Nat.pow_add_r; reflexivity|]. pose proof (chunks_concat (2 ^ s)%nat xs Hp) as L3.
  unfold ln_mean. replace (map (fun ch => repeat (fsum ch) (2 ^ s)) (chunks (2 ^ s) xs)) with (map (fun e => repeat e (2 ^ s)) (map fsum (chunks (2 ^ s) xs))) by (rewrite map_map; reflexivity).
  destruct (expand_ok s m (map fsum (chunks (2 ^ s) xs)) x) as [A B]; [now rewrite map_length|exact Lx|]. split; [exact A|]. rewrite B. unfold mle. apply mlef_ext. rewrite skipn_length. intros j Hj. replace (length x - s)%nat with m in Hj by lia.
  rewrite (nth_map_lt _ _ j []) by lia. rewrite fsum_nth. rewrite L2 by (apply nth_In; lia). unfold row_sum. apply sumn_ext. intros i Hi. unfold ent. rewrite <- L3 at 2. symmetry. apply nth_concat_uniform; auto. lia.
Qed.

(** ** The sums of products *)
Definition acc_ix (nr : nat) : list (list nat) := ([[0; 1]; [2; 1]] ++ map (fun j => match j with O => [3; 4] | S i => [5 + i; 4] end) (seq 0 nr))%nat.
Lemma acc_terms_snd (rlc : list K) nr : (2 + nr <= length rlc)%nat -> map snd (ln_acc_terms rlc nr) = acc_ix nr.
Proof.
  intros L. unfold ln_acc_terms. fold (acc_ix nr). rewrite map_map. assert (Li : length (acc_ix nr) = (2 + nr)%nat) by (unfold acc_ix; rewrite app_length, map_length, seq_length; reflexivity). revert Li L. generalize (acc_ix nr). generalize (2 + nr)%nat. clear.
  intros n. revert rlc. induction n as [|n IH]; intros rlc [|x l] Li L; cbn [length] in Li; try discriminate Li; [destruct rlc; reflexivity|]. destruct rlc as [|w rlc]; [cbn [length] in L; lia|]. cbn [combine map snd]. f_equal. apply (IH rlc l); [lia|cbn [length] in L; lia].
Qed.
Lemma seen_tail n : forall k, (4 < k)%nat -> seen k (concat (map (fun i => [5 + i; 4]%nat) (seq (k - 5) n))) = Some (k + n)%nat.
Proof.
  induction n as [|n IH]; intros k Hk; [cbn; f_equal; lia|]. cbn [seq map concat app seen]. replace (5 + (k - 5))%nat with k by lia. rewrite Nat.ltb_irrefl, Nat.eqb_refl. destruct (Nat.ltb_spec 4 (S k)); [|lia]. replace (S (k - 5)) with (S k - 5)%nat by lia. rewrite IH by lia. f_equal. lia.
Qed.
Lemma seen_acc nr : (0 < nr)%nat -> seen 0 (concat (acc_ix nr)) = Some (4 + nr)%nat.
Proof.
  intros Hn. unfold acc_ix. destruct nr as [|n]; [lia|]. cbn [seq map app concat seen Nat.ltb Nat.leb Nat.eqb].
  rewrite <- seq_shift, map_map. etransitivity; [exact (seen_tail n 5 ltac:(lia))|]. f_equal. 
Qed.
Lemma acc_deg (rlc : list K) nr : (2 + nr <= length rlc)%nat -> sop_deg (ln_acc_terms rlc nr) = 2%nat.
Proof.
  intros L. unfold sop_deg. rewrite <- (map_map snd (@length nat)), acc_terms_snd by exact L. unfold acc_ix. cbn [app map length fold_right]. rewrite map_map.
  rewrite (map_ext _ (fun _ => 2%nat)) by (intros [|i]; reflexivity).
  assert (X : (fold_right Nat.max 0%nat (map (fun _ : nat => 2%nat) (seq 0 nr)) <= 2)%nat) by (induction (seq 0 nr) as [|x l IH]; cbn [map fold_right]; lia). lia.
Qed.
Lemma dot_swap {A} (F : A -> K) (ws : list K) (l : list A) : fsum (map (fun cp => fst cp * F (snd cp)) (combine ws l)) = fsum (map (fun '(a, b) => a * b) (combine (map F l) ws)).
Proof. revert l. induction ws as [|w ws IH]; intros [|x l]; cbn [combine map fsum fst snd]; try reflexivity. rewrite IH. ring. Qed.
Lemma sopf_acc (bch p q lin lout c0 : list K) (rcs : list (list K)) x : length p = length x -> length q = length x -> (3 + length rcs <= 2 ^ length bch)%nat ->
  sopf ([lin; eq_table p; lout; c0; eq_table q] ++ rcs) (ln_acc_terms (eq_table bch) (S (length rcs))) x = ln_acc_poly bch p q lin lout (c0 :: rcs) x.
Proof.
  intros Lp Lq Hl. unfold sopf, ln_acc_terms. rewrite map_map. set (ls := [lin; eq_table p; lout; c0; eq_table q] ++ rcs).
  set (F := fun ix : list nat => fprod (map (fun i => mle (nth i ls []) x) ix)). fold (acc_ix (S (length rcs))).
  rewrite (map_ext _ (fun cp => fst cp * F (snd cp))) by (intros [w ix]; reflexivity). rewrite dot_swap.
  rewrite eq_table_dot. rewrite firstn_all2 by (rewrite map_length; unfold acc_ix; rewrite app_length, map_length, seq_length; cbn [length]; lia). unfold ln_acc_poly. f_equal.
  unfold acc_ix. cbn [seq map app]. unfold acc_row. cbn [map]. unfold F at 1 2 3. cbn [map]. unfold ls at 1 2 3 4 5 6. cbn [nth app fprod map]. rewrite !mle_eq_table by auto.
  assert (E : forall a b : K, a * (b * 1) = b * a) by (intros; ring). rewrite !E. do 3 f_equal. rewrite <- seq_shift, !map_map.
  apply nth_ext_all with (d := 0); [rewrite !map_length, seq_length; reflexivity|]. intros i Hi. rewrite map_length, seq_length in Hi. rewrite nth_map_seq by exact Hi. rewrite (nth_map_lt _ rcs i []) by exact Hi.
  unfold F. cbn [map fprod]. unfold ls. rewrite (app_nth2 _ rcs) by (cbn [length]; lia). cbn [length]. replace (5 + i - 5)%nat with i by lia. cbn [app nth]. rewrite mle_eq_table by auto. apply E.
Qed.
Lemma sopf_io (fb sb tb mult dim : K) s m (full lp xs gam bet inv : list K) x : length full = (s + m)%nat -> length lp = (s + m)%nat -> length x = (s + m)%nat ->
  length xs = (2 ^ (s + m))%nat -> length gam = (2 ^ s)%nat -> length bet = (2 ^ s)%nat -> length inv = (2 ^ m)%nat ->
  sopf [eq_table full; xs; ln_mean (2 ^ s) xs; eq_table lp; concat (repeat gam (2 ^ m)); concat (map (fun e => repeat e (2 ^ s)) inv); concat (repeat bet (2 ^ m))]
       (ln_io_terms fb sb tb mult dim (fZ (2 ^ Z.of_nat s))) x = ln_io_poly fb sb tb mult dim s m full lp xs gam bet inv x.
Proof.
  intros Lf Ll Lx Lxs Lg Lb Li. unfold sopf, ln_io_terms. cbn [map fst snd fsum fprod nth]. rewrite (mle_eq_table full), (mle_eq_table lp) by lia.
  destruct (mean_ok s m xs x Lxs Lx) as [_ ->]. destruct (repeat_ok s m gam x Lg Lx) as [_ ->]. destruct (repeat_ok s m bet x Lb Lx) as [_ ->]. destruct (expand_ok s m inv x Li Lx) as [_ ->].
  unfold ln_io_poly, ln_io_calc. ring.
Qed.
Lemma sopf_in (ic half : K) s m (iop xs : list K) x : length iop = (s + m)%nat -> length x = (s + m)%nat ->
  sopf [xs; eq_table iop; eq_table (repeat half s ++ skipn s iop)] (ln_in_terms ic (fZ (2 ^ Z.of_nat s))) x = ln_in_poly ic half s iop xs x.
Proof.
  intros Li Lx. unfold sopf, ln_in_terms. cbn [map fst snd fsum fprod nth]. rewrite (mle_eq_table iop) by lia. rewrite mle_eq_table by (rewrite app_length, repeat_length, skipn_length; lia). unfold ln_in_poly. ring.
Qed.

(** ** Acceptance *)
Definition ln_denom (s : nat) (iop ip : list K) (ic : K) : K :=
  eqp iop ip + ic * (fZ (2 ^ Z.of_nat s) * eqp (repeat (/ (1 + 1)) s ++ skipn s iop) ip - eqp iop ip).
Lemma finv_some (x : K) : x <> 0 -> finv_opt x = Some (/ x).
Proof. intros H. unfold finv_opt. apply feqb_false in H. now rewrite H. Qed.
Lemma combine_fst_snd {A D} (u : list A) (v : list D) : length u = length v -> map fst (combine u v) = u /\ map snd (combine u v) = v.
Proof. revert v. induction u as [|x u IH]; intros [|y v] L; cbn [length] in L; try discriminate L; [auto|]. destruct (IH v) as [A1 B1]; [lia|]. cbn [combine map fst snd]. now rewrite A1, B1. Qed.
Lemma mul2_acc p q (lin lout : list K) (rcs : list (list K)) x :
  mul2 (mle lin x :: mle lout x :: evals_at rcs x) (repeat (eqp p x) 2 ++ repeat (eqp q x) (length rcs)) = acc_row p q lin lout rcs x.
Proof.
  cbn [repeat app mul2]. unfold acc_row. assert (G : mul2 (evals_at rcs x) (repeat (eqp q x) (length rcs)) = map (fun c => eqp q x * mle c x) rcs).
  { induction rcs as [|c t IH]; cbn [evals_at map length repeat mul2]; [reflexivity|]. fold (evals_at t x). rewrite IH. f_equal. ring. }
  rewrite G. f_equal; [ring|]. f_equal. ring.
Qed.
Lemma ln_claims_map (e0 e1 : K) (l tl : list K) ap op : length tl = 2%nat -> ln_claims (e0 :: e1 :: l ++ tl) ap op = mkClaim ap e0 :: mkClaim op e1 :: map (mkClaim ap) l.
Proof.
  intros L. unfold ln_claims. cbn [length]. rewrite app_length, L. replace (S (S (length l + 2)) - 2)%nat with (S (S (length l))) by lia. cbn [seq combine map Nat.eqb]. do 2 f_equal.
  assert (G : forall (l : list K) a, (2 <= a)%nat -> map (fun '(i, e) => mkClaim (if (i =? 1)%nat then op else ap) e) (combine (seq a (length l)) (l ++ tl)) = map (mkClaim ap) l).
  { clear. induction l as [|x l IH]; intros a Ha; [reflexivity|]. cbn [length seq app combine map]. destruct (Nat.eqb_spec a 1); [lia|]. f_equal. apply IH. lia. }
  apply G. lia.
Qed.

(** What the run of prover and verifier yields: the claims returned are true of the columns, the evaluations are consistent, and the
    verifier accepts unless one of the listed challenges is bad. *)
Definition ln_run (T : @hist K -> K) ncpus sc1 es1 sc2 es2 sca sci scn B c c1 s1 c2 s2 s m (lin lout : list K) (rcs : list (list K)) (xs gam bet : list K) (comms : list C) (last : claim) h : Prop :=
  exists wit nc gc bc pf h', ln_prove T ncpus sc1 es1 sc2 es2 sca sci scn c c1 s1 c2 s2 gam bet xs (2 ^ s) lin lout rcs comms last h = Some (wit, nc, (gc, bc), pf, h') /\
    map fst wit = comms /\ Forall2 claim_true (lin :: lout :: rcs) (map snd wit) /\ claim_true xs nc /\ claim_true gam gc /\ claim_true bet bc /\
    (length (lnp_acc_evals pf) = 2 + length rcs)%nat /\ length (lnp_evals pf) = (4 + length rcs)%nat /\
    (forall i, (i < 2 + length rcs)%nat -> i <> 1%nat -> nth i (lnp_acc_evals pf) 0 = nth i (lnp_evals pf) 0) /\
    ((forall p x, In p (flat_map (fun l => lp_sumchecks l) (lnp_logups pf)) -> In x (pf_point p) -> not_node 3 x) ->
     (forall x, In x (pf_point (lnp_acc pf) ++ pf_point (lnp_input pf)) -> not_node 2 x) -> (forall x, In x (pf_point (lnp_io pf)) -> not_node 4 x) ->
     exists h7, let d := ln_denom s (pf_point (lnp_io pf)) (cl_point nc) (next_ch T h7) in
       (exists claimed, verify T claimed (lnp_input pf) (s + m) 2 (next_h h7) = Some (cl_point nc, mle xs (cl_point nc) * d, h')) /\
       (d <> 0 -> ln_verify T B c c1 s1 c2 s2 last pf h = Some (wit, nc, (gc, bc), h'))).
(** Schedules of the five sumchecks. *)
Definition ln_scheds (k s nr : nat) (sc1 : nat -> nat -> rsched) (es1 : nat -> list nat) (sc2 : nat -> nat -> rsched) (es2 : nat -> list nat) (sca sci scn : nat -> rsched) : Prop :=
  let m := S (S k) in
  logup_scheds true (S k) 1 sc1 /\ valid_sched m es1 /\ logup_scheds true (S k) nr sc2 /\ valid_sched m es2 /\
  (forall i, (i < m)%nat -> valid_rsched (sop_shape (K := K) m (4 + nr) (acc_ix nr)) i (sca i)) /\
  (forall i, (i < s + m)%nat -> valid_rsched (sop_shape (K := K) (s + m) 7 (map snd (ln_io_terms (0 : K) 0 0 0 0 0))) i (sci i)) /\
  (forall i, (i < s + m)%nat -> valid_rsched (sop_shape (K := K) (s + m) 3 (map snd (ln_in_terms (0 : K) 0))) i (scn i)).

Lemma ln_complete (T : @hist K -> K) ncpus sc1 es1 sc2 es2 sca sci scn B c c1 s1 c2 s2 k s nb (lin lout : list K) (rcs : list (list K)) (xs gam bet : list K) (comms : list C) (last : claim) h :
  let m := S (S k) in let dim := fZ (Z.of_nat (ln_dim c)) in
  char_gt K 4 -> (0 < ncpus)%nat -> Forall (fun col => length col = (2 ^ m)%nat) (lin :: lout :: rcs) -> rcs <> [] -> ln_nrc B c = Some (length rcs) ->
  ceil_log2 (ln_dim c) = Some s -> (s < 64)%nat -> ceil_log2 (2 + length rcs) = Some nb ->
  length xs = (2 ^ (s + m))%nat -> length gam = (2 ^ s)%nat -> length bet = (2 ^ s)%nat -> length comms = (2 + length rcs)%nat ->
  claim_true (ln_table dim s m xs gam bet lout) last ->
  (B < 64)%nat -> (ln_rcb c < 64)%nat -> (ln_tsl c < 64)%nat -> fZ (2 ^ Z.of_nat (ln_tsl c)) <> (0 : K) ->
  (forall j, (j < 2 ^ m)%nat -> recomb B (ln_rcb c) (ln_tsl c) (length rcs) (nth j lin 0) (map (fun col => nth j col 0) rcs) = fZ (ln_mult c) * ln_var dim s xs j) ->
  ln_scheds k s (length rcs) sc1 es1 sc2 es2 sca sci scn ->
  ln_run T ncpus sc1 es1 sc2 es2 sca sci scn B c c1 s1 c2 s2 s m lin lout rcs xs gam bet comms last h.
Proof.
  intros m dim Hch Hnc Lcols Hne Hnr Hs Hs64 Hnb Lxs Lg Lb Lcm [Ltab El] HB64 Hr64 Ht64 Hn Hrow (Hs1 & He1 & Hs2 & He2 & Hsca & Hsci & Hscn). fold m in He1, He2, Hsca, Hsci, Hscn. unfold ln_run.
  assert (Hch3 : char_gt K 3) by (eapply char_gt_le; [|exact Hch]; lia). assert (Hch2 : char_gt K 2) by (eapply char_gt_le; [|exact Hch]; lia). destruct (half_ok Hch2) as [Hh Ehalf].
  assert (Hm : (0 < m)%nat) by (unfold m; lia).
  assert (Li : length lin = (2 ^ m)%nat) by (inversion Lcols; auto). assert (Lcols1 : Forall (fun col => length col = (2 ^ m)%nat) (lout :: rcs)) by (inversion Lcols; auto).
  assert (Lo : length lout = (2 ^ m)%nat) by (inversion Lcols1; auto). assert (Lcc : Forall (fun col => length col = (2 ^ m)%nat) rcs) by (inversion Lcols1; auto).
  destruct (lookup_complete_p T ncpus sc1 es1 k 2 [[lin; lout]] c1 s1 h) as (lp1 & h1 & nums1 & dens1 & p & Elp1 & Ecl1 & Lp & _ & _ & _ & _ & Hver1); auto.
  { discriminate. } { intros cs [<-|[]]. split; [reflexivity|]. intros co [<-|[<-|[]]]; auto. }
  cbn [concat app] in Elp1. cbn [concat app map] in Ecl1. cbn [length] in Hver1.
  assert (Ec : concat (map (fun co => [co]) rcs) = rcs) by (clear; induction rcs as [|co t IH]; cbn [map concat app]; [|rewrite IH]; reflexivity).
  destruct (lookup_complete_p T ncpus sc2 es2 k 1 (map (fun co => [co]) rcs) c2 s2 h1) as (lp2 & h2 & nums2 & dens2 & q & Elp2 & Ecl2 & Lq & _ & _ & _ & _ & Hver2); auto.
  { destruct rcs; [now destruct Hne|discriminate]. }
  { intros cs Hin. apply in_map_iff in Hin as (co & <- & Hc). split; [reflexivity|]. intros c' [<-|[]]. rewrite Forall_forall in Lcc. now apply Lcc. }
  { now rewrite map_length. }
  rewrite Ec in Elp2, Ecl2. rewrite map_length in Hver2. fold m in Lp, Lq.
  unfold ln_prove. rewrite Elp1. cbn [obind]. rewrite Elp2. cbn [obind].
  destruct rcs as [|c0 rcs0] eqn:Ercs; [now destruct Hne|]. rewrite <- Ercs in *.
  assert (Es0 : nth_error (lp_claims lp2) 0 = Some (mkClaim q (mle c0 q))) by (rewrite Ecl2, Ercs; reflexivity).
  assert (Ei0 : nth_error (lp_claims lp1) 0 = Some (mkClaim p (mle lin p))) by (rewrite Ecl1; reflexivity).
  assert (Lcl : (length (lp_claims lp1) + length (lp_claims lp2))%nat = (2 + length rcs)%nat) by (rewrite Ecl1, Ecl2, map_length; reflexivity).
  rewrite Es0, Ei0, Lcl, Hnb. cbn [obind cl_point]. rewrite Lp.
  destruct (ln_draw T nb h2) as [bch h3] eqn:Ed. assert (Lbch : length bch = nb) by (pose proof (ln_draw_length T nb h2) as Q; rewrite Ed in Q; exact Q).
  assert (Hle : (2 + length rcs <= 2 ^ length bch)%nat) by (rewrite Lbch; now apply ceil_log2_le).
  repeat rewrite compute_betas_spec.
  rewrite (into_mle_ext_ok m (eq_table p)) by (rewrite eq_table_length, Lp; reflexivity). cbn [obind].
  rewrite (into_mle_ext_ok m (eq_table q)) by (rewrite eq_table_length, Lq; reflexivity). cbn [obind].
  unfold from_evaluations_vec at 1 2. rewrite Li, Lo, Nat.eqb_refl. cbn [obind].
  assert (Em : omapM (from_evaluations_vec m) rcs = Some (map (fun co => mkMle (Base co) m) rcs)).
  { apply omapM_all. intros co Hc. unfold from_evaluations_vec. rewrite Forall_forall in Lcc. rewrite (Lcc co Hc), Nat.eqb_refl. reflexivity. }
  rewrite Em. cbn [obind]. assert (Em0 : nth_error (map (fun co => mkMle (Base co) m) rcs) 0 = Some (mkMle (Base c0) m)) by (rewrite Ercs; reflexivity). rewrite Em0. cbn [obind]. rewrite map_length.
  assert (Lr0 : length rcs = S (length rcs0)) by (rewrite Ercs; reflexivity).
  assert (Lrlc : (2 + length rcs <= length (eq_table bch))%nat) by (rewrite eq_table_length; exact Hle).
  assert (Esk : skipn 1 (map (fun co => mkMle (Base co) m) rcs) = map (fun co => mkMle (Base co) m) rcs0) by (rewrite Ercs; reflexivity). rewrite Esk.
  set (ls := [lin; eq_table p; lout; c0; eq_table q] ++ rcs0).
  assert (Lcc0 : Forall (fun col => length col = (2 ^ m)%nat) rcs0) by (rewrite Ercs in Lcc; inversion Lcc; auto). assert (Lc0 : length c0 = (2 ^ m)%nat) by (rewrite Ercs in Lcc; inversion Lcc; auto).
  destruct (sop_ok T ncpus sca m ([mkMle (Base lin) m; mkMle (Ext (eq_table p)) m; mkMle (Base lout) m; mkMle (Base c0) m; mkMle (Ext (eq_table q)) m] ++ map (fun co => mkMle (Base co) m) rcs0)
     ls (ln_acc_terms (eq_table bch) (length rcs)) h3) as (apf & h4 & Es & Lap & Hvera); auto.
  { rewrite acc_deg by exact Lrlc. exact Hch2. }
  { intros X. apply (f_equal (map snd)) in X. rewrite acc_terms_snd in X by exact Lrlc. discriminate X. }
  { intros w ix Hin. apply (in_map snd) in Hin. rewrite acc_terms_snd in Hin by exact Lrlc. cbn [snd] in Hin. unfold acc_ix in Hin. destruct Hin as [<-|[<-|Hin]]; [split; [discriminate|cbn; lia]|split; [discriminate|cbn; lia]|]. apply in_map_iff in Hin as ([|j] & <- & _); (split; [discriminate|cbn; lia]). }
  { unfold ls. apply Forall2_app.
    - repeat (apply Forall2_cons); try apply Forall2_nil; try (repeat split; auto; fail); apply ext_is_table; auto; rewrite eq_table_length, ?Lp, ?Lq; reflexivity.
    - clear - Lcc0. induction rcs0 as [|co t IH]; cbn [map]; constructor; inversion Lcc0; [repeat split; auto|auto]. }
  { rewrite acc_terms_snd, seen_acc by (auto; lia). unfold ls. rewrite app_length. cbn [length]. f_equal. lia. }
  { intros i Hi. unfold ls. rewrite app_length. cbn [length]. rewrite acc_terms_snd by exact Lrlc. replace (5 + length rcs0)%nat with (4 + length rcs)%nat by lia. apply Hsca. exact Hi. }
  rewrite Es. cbn [obind]. set (ap := pf_point apf) in *.
  assert (El2 : map (fun l => mle l ap) ls = mle lin ap :: mle (eq_table p) ap :: mle lout ap :: mle c0 ap :: mle (eq_table q) ap :: evals_at rcs0 ap) by (unfold ls; rewrite map_app; reflexivity).
  rewrite El2. cbn [nth_error obind skipn]. change ([mle lin ap; mle lout ap; mle c0 ap] ++ evals_at rcs0 ap) with (mle lin ap :: mle lout ap :: evals_at (c0 :: rcs0) ap). rewrite <- Ercs.
  assert (Es2 : ceil_log2 (length gam) = Some s) by (rewrite Lg; apply ceil_log2_pow2). rewrite Es2, Ehalf. cbn [obind]. set (half := / (1 + 1) : K) in *.
  assert (Epw : pow2u s = Some (fZ (2 ^ Z.of_nat s) : K)) by (unfold pow2u; destruct (Nat.ltb_spec s 64); [reflexivity|lia]). rewrite Epw. cbn [obind].
  unfold get_challenge. fold (next_ch T h4) (next_h h4). fold (next_ch T (next_h h4)) (next_h (next_h h4)). set (ch1 := next_ch T h4). set (ch2 := next_ch T (next_h h4)). set (h6 := next_h (next_h h4)).
  unfold ln_batch. set (fb := (1 - ch1) * (1 - ch2)). set (sb := ch1 * (1 - ch2)). set (tb := (1 - ch1) * ch2).
  set (full := repeat half s ++ ap). assert (Lf : length full = (s + m)%nat) by (unfold full; rewrite app_length, repeat_length, Lap; reflexivity).
  repeat rewrite compute_betas_spec.
  rewrite (into_mle_ext_ok (s + m) (eq_table full)) by (rewrite eq_table_length, Lf; reflexivity). cbn [obind].
  destruct (2 ^ s)%nat as [|fd] eqn:Efd; [pose proof (Nat.pow_nonzero 2 s); lia|]. rewrite <- Efd in *. clear fd Efd.
  rewrite (into_mle_ext_ok (s + m) xs Lxs). cbn [obind].
  assert (Lz : length (repeat (0 : K) (s + m)) = (s + m)%nat) by apply repeat_length.
  assert (Ll : length (cl_point last) = (s + m)%nat). { unfold ln_table in Ltab. rewrite map_length, seq_length in Ltab. symmetry. apply (Nat.pow_inj_r 2); [lia|exact Ltab]. }
  destruct (mean_ok s m xs _ Lxs Lz) as [Lmean _]. destruct (repeat_ok s m gam _ Lg Lz) as [Lgr _]. destruct (repeat_ok s m bet _ Lb Lz) as [Lbr _]. destruct (expand_ok s m lout _ Lo Lz) as [Lor _].
  rewrite (into_mle_ext_ok (s + m) _ Lmean). cbn [obind]. unfold csub at 1. rewrite Ll. destruct (Nat.leb_spec s (s + m)); [|lia]. cbn [obind]. replace (s + m - s)%nat with m by lia.
  rewrite (into_mle_ext_ok (s + m) _ Lgr), (into_mle_ext_ok (s + m) _ Lbr). cbn [obind].
  rewrite (into_mle_ext_ok (s + m) (eq_table (cl_point last))) by (rewrite eq_table_length, Ll; reflexivity). cbn [obind]. rewrite (into_mle_ext_ok (s + m) _ Lor). cbn [obind]. rewrite Lf. fold dim.
  set (tm := fZ (2 ^ Z.of_nat s) : K). set (mult := fZ (ln_mult c) : K).
  set (ls2 := [eq_table full; xs; ln_mean (2 ^ s) xs; eq_table (cl_point last); concat (repeat gam (2 ^ m)); concat (map (fun e => repeat e (2 ^ s)) lout); concat (repeat bet (2 ^ m))]).
  match goal with |- context [sop_prove T ncpus sci (s + m) ?ms ?te h6] => destruct (sop_ok T ncpus sci (s + m) ms ls2 te h6) as (iopf & h7 & Es3 & Liop & Hverb); auto end.
  { lia. } { discriminate. }
  { intros w ix Hin. unfold ln_io_terms in Hin. cbn [In] in Hin. repeat match type of Hin with _ \/ _ => destruct Hin as [E|Hin]; [apply (f_equal snd) in E; cbn [snd] in E; subst ix; (split; [discriminate|cbn; lia])|] end. destruct Hin. }
  { unfold ls2. repeat (apply Forall2_cons); try apply Forall2_nil; apply ext_is_table; auto; rewrite eq_table_length, ?Lf, ?Ll; reflexivity. }
  rewrite Es3. cbn [obind]. set (iop := pf_point iopf) in *. unfold ls2 at 1 2 3 4 5. cbn [map nth_error obind].
  destruct (mean_ok s m xs iop Lxs Liop) as [_ ->]. destruct (repeat_ok s m gam iop Lg Liop) as [_ ->]. destruct (repeat_ok s m bet iop Lb Liop) as [_ ->]. destruct (expand_ok s m lout iop Lo Liop) as [_ ->].
  fold (next_ch T h7) (next_h h7). set (ic := next_ch T h7).
  assert (Lsum : length (repeat half s ++ skipn s iop) = (s + m)%nat) by (rewrite app_length, repeat_length, skipn_length; lia).
  repeat rewrite compute_betas_spec.
  rewrite (into_mle_ext_ok (s + m) (eq_table iop)) by (rewrite eq_table_length, Liop; reflexivity). cbn [obind].
  rewrite (into_mle_ext_ok (s + m) (eq_table (repeat half s ++ skipn s iop))) by (rewrite eq_table_length, Lsum; reflexivity). cbn [obind]. rewrite Liop.
  set (ls3 := [xs; eq_table iop; eq_table (repeat half s ++ skipn s iop)]).
  match goal with |- context [sop_prove T ncpus scn (s + m) ?ms ?te (next_h h7)] => destruct (sop_ok T ncpus scn (s + m) ms ls3 te (next_h h7)) as (npf & h9 & Es4 & Lip & Hverc); auto end.
  { lia. } { discriminate. }
  { intros w ix Hin. unfold ln_in_terms in Hin. cbn [In] in Hin. repeat match type of Hin with _ \/ _ => destruct Hin as [E|Hin]; [apply (f_equal snd) in E; cbn [snd] in E; subst ix; (split; [discriminate|cbn; lia])|] end. destruct Hin. }
  { unfold ls3. repeat (apply Forall2_cons); try apply Forall2_nil; apply ext_is_table; auto; rewrite eq_table_length, ?Liop, ?Lsum; reflexivity. }
  rewrite Es4. cbn [obind]. set (ip := pf_point npf) in *. unfold ls3 at 1. cbn [map nth_error obind].
  set (cls := mkClaim ap (mle lin ap) :: mkClaim (skipn s iop) (mle lout (skipn s iop)) :: map (mkClaim ap) (evals_at rcs ap)).
  assert (Lcls : length cls = length comms) by (unfold cls, evals_at; cbn [length]; rewrite !map_length, Lcm; reflexivity).
  destruct (combine_fst_snd cls comms Lcls) as [Efst Esnd].
  assert (Eev : map (fun p0 => cl_eval (fst p0)) (combine cls comms) = mle lin ap :: mle lout (skipn s iop) :: evals_at rcs ap).
  { rewrite <- (map_map fst cl_eval), Efst. unfold cls. cbn [map cl_eval]. rewrite map_map. cbn [cl_eval]. rewrite map_id. reflexivity. }
  do 6 eexists. split; [reflexivity|]. cbn [lnp_logups lnp_comms lnp_acc lnp_io lnp_input lnp_acc_evals lnp_evals lnp_gamma lnp_beta cl_point cl_eval].
  rewrite !map_map. cbn [fst snd]. split; [exact Esnd|]. split.
  { change (map (fun x => fst x) (combine cls comms)) with (map fst (combine cls comms)). rewrite Efst. unfold cls. constructor; [split; cbn [cl_point cl_eval]; [rewrite Lap; exact Li|reflexivity]|].
    constructor; [split; cbn [cl_point cl_eval]; [rewrite skipn_length, Liop; replace (s + m - s)%nat with m by lia; exact Lo|reflexivity]|].
    unfold evals_at. rewrite map_map. clear - Lcc Lap. induction rcs as [|co t IH]; cbn [map]; constructor; inversion Lcc; [split; cbn [cl_point cl_eval]; [rewrite Lap; auto|reflexivity]|auto]. }
  split; [split; cbn [cl_point cl_eval]; [rewrite Lip; exact Lxs|reflexivity]|].
  assert (Lfi : length (firstn s iop) = s) by (rewrite firstn_length; lia).
  split; [split; cbn [cl_point cl_eval]; [rewrite Lfi; exact Lg|reflexivity]|]. split; [split; cbn [cl_point cl_eval]; [rewrite Lfi; exact Lb|reflexivity]|].
  rewrite Eev. split; [unfold evals_at; cbn [length]; rewrite map_length; reflexivity|]. split; [rewrite app_length; cbn [length]; unfold evals_at; rewrite map_length; lia|]. split.
  { intros i Hi Hi1. rewrite app_nth1 by (cbn [length]; unfold evals_at; rewrite map_length; lia). destruct i as [|[|i]]; [reflexivity|lia|reflexivity]. }
  intros N0 N1 N2. exists h7. cbv zeta. fold ic.
  destruct (Hver1) as (Ev1 & _ & _); [intros p0 x Hp Hx; apply (N0 p0 x); auto; cbn [flat_map]; apply in_or_app; auto|].
  destruct (Hver2) as (Ev2 & _ & _); [intros p0 x Hp Hx; apply (N0 p0 x); auto; cbn [flat_map]; apply in_or_app; right; apply in_or_app; auto|].
  rewrite acc_deg in Hvera by exact Lrlc. specialize (Hvera (fun x Hx => N1 x (in_or_app _ _ x (or_introl Hx)))). specialize (Hverc (fun x Hx => N1 x (in_or_app _ _ x (or_intror Hx)))). specialize (Hverb N2).
  change (sop_deg (ln_io_terms fb sb tb mult dim tm)) with 4%nat in Hverb. change (sop_deg (ln_in_terms ic tm)) with 2%nat in Hverc.
  (* the polynomials *)
  assert (HFa : forall x, length x = m -> sopf ls (ln_acc_terms (eq_table bch) (length rcs)) x = ln_acc_poly bch p q lin lout rcs x) by (intros x Lx; unfold ls; rewrite Ercs; apply sopf_acc; rewrite ?Lx; auto; rewrite Ercs in Hle; cbn [length] in Hle; lia).
  assert (HFb : forall x, length x = (s + m)%nat -> sopf ls2 (ln_io_terms fb sb tb mult dim tm) x = ln_io_poly fb sb tb mult dim s m full (cl_point last) xs gam bet lout x) by (intros x Lx; unfold ls2; apply sopf_io; auto).
  assert (HFc : forall x, length x = (s + m)%nat -> sopf ls3 (ln_in_terms ic tm) x = ln_in_poly ic half s iop xs x) by (intros x Lx; unfold ls3; apply (sopf_in ic half s m); auto).
  rewrite (hsum_ext _ _ _ HFa), hsum_acc in Hvera by auto. rewrite HFa in Hvera by exact Lap.
  rewrite (hsum_ext _ _ _ HFb) in Hverb. unfold full in Hverb at 1. rewrite (hsum_io half) in Hverb by auto. rewrite HFb in Hverb by exact Liop.
  rewrite (hsum_ext _ _ _ HFc), (hsum_in half) in Hverc by auto. rewrite HFc in Hverc by exact Lip.
  assert (Ed3 : ln_in_poly ic half s iop xs ip = mle xs ip * ln_denom s iop ip ic) by reflexivity.
  split; [exists (mle xs iop + ic * (mlef (row_sum s xs) (skipn s iop) - mle xs iop)); rewrite Hverc, Ed3; reflexivity|].
  intros Nd.
  (* the verifier *)
  assert (Hk : (0 < length rcs)%nat) by lia.
  assert (Erec : ln_recombine B c (length rcs) (mle lin ap :: mle lout ap :: evals_at rcs ap) = Some (mult * mle (ln_vars dim s m xs) ap)).
  { rewrite ln_recombine_val by (auto; unfold evals_at; rewrite map_length; reflexivity). f_equal. rewrite recomb_mle by auto. unfold mle. rewrite <- mlef_scal. apply mlef_ext. rewrite Lap. intros j Hj. rewrite Hrow by exact Hj. unfold ln_vars. rewrite nth_map_seq by exact Hj. reflexivity. }
  unfold ln_verify. cbn [lnp_logups lnp_comms lnp_acc lnp_io lnp_input lnp_acc_evals lnp_evals lnp_gamma lnp_beta]. rewrite Hnr. cbn [obind]. rewrite Ev1. cbn [obind]. rewrite Ev2. cbn [obind]. rewrite Lcl, Hnb. cbn [obind]. rewrite Ed, Ei0, Es0. cbn [obind cl_point].
  assert (Ein : map cl_eval (lp_claims lp1 ++ lp_claims lp2) = mle lin p :: mle lout p :: evals_at rcs q) by (rewrite Ecl1, Ecl2; cbn [app map cl_eval]; rewrite map_map; reflexivity).
  rewrite Ein, compute_betas_spec, ln_initial_ok by (cbn [length]; unfold evals_at; rewrite map_length; exact Hle). rewrite Lp, Hvera. cbn [obind].
  assert (NE : forall (l : list K) n, length l = n -> (0 < n)%nat -> l <> []) by (intros l n L0 Hn0 X; rewrite X in L0; cbn [length] in L0; lia).
  rewrite (eq_xy_ok p ap), (eq_xy_ok q ap) by first [rewrite Lap; assumption|eapply NE; eassumption]. cbn [obind].
  rewrite ln_calc_initial, mul2_acc, ln_initial_ok by (unfold acc_row; cbn [length]; rewrite map_length; exact Hle). fold (ln_acc_poly bch p q lin lout rcs ap). rewrite feqb_refl.
  unfold get_challenge. fold (next_ch T h4) (next_h h4). fold (next_ch T (next_h h4)) (next_h (next_h h4)). fold ch1 ch2 h6. unfold ln_batch. fold fb sb tb.
  assert (Lc2 : length (lp_claims lp2) = length rcs) by (rewrite Ecl2, map_length; reflexivity). rewrite Lc2, Erec. cbn [obind]. change (nth_error (mle lin ap :: mle lout ap :: evals_at rcs ap) 1) with (Some (mle lout ap)). cbn [obind].
  rewrite El, Ll, Hverb. cbn [obind].
  set (evs := mle lin ap :: mle lout (skipn s iop) :: evals_at rcs ap).
  assert (Levs : length evs = (2 + length rcs)%nat) by (unfold evs, evals_at; cbn [length]; rewrite map_length; reflexivity).
  unfold csub at 1. rewrite app_length, Levs. change (length [mle xs iop; mlef (row_sum s xs) (skipn s iop)]) with 2%nat. destruct (Nat.leb_spec 2 (2 + length rcs + 2)); [|lia]. cbn [obind]. replace (2 + length rcs + 2 - 2)%nat with (length evs) by lia.
  rewrite (nth_error_app2 evs) by lia. rewrite (nth_error_app2 evs) by lia. rewrite Nat.sub_diag. replace (S (length evs) - length evs)%nat with 1%nat by lia. change (nth_error [mle xs iop; mlef (row_sum s xs) (skipn s iop)] 0) with (Some (mle xs iop)). change (nth_error [mle xs iop; mlef (row_sum s xs) (skipn s iop)] 1) with (Some (mlef (row_sum s xs) (skipn s iop))). cbn [obind].
  change (nth_error (evs ++ [mle xs iop; mlef (row_sum s xs) (skipn s iop)]) 1) with (Some (mle lout (skipn s iop))). cbn [obind]. rewrite Hs, Ehalf. cbn [obind]. rewrite Epw. cbn [obind]. fold half.
  fold full. rewrite (eq_xy_ok full iop) by first [rewrite Lf, Liop; reflexivity|eapply NE; [exact Lf|lia]]. rewrite (eq_xy_ok (cl_point last) iop) by first [rewrite Ll, Liop; reflexivity|eapply NE; [exact Ll|lia]]. cbn [obind]. fold tm mult dim.
  fold (ln_io_poly fb sb tb mult dim s m full (cl_point last) xs gam bet lout iop).
  match goal with |- (if ?x =? ?y then _ else _) = _ => replace (x =? y) with true by (symmetry; apply feqb_spec; reflexivity) end.
  fold (next_ch T h7) (next_h h7). fold ic. rewrite Liop, Hverc. cbn [obind].
  rewrite (eq_xy_ok iop ip) by first [rewrite Lip; exact Liop|eapply NE; [exact Liop|lia]]. rewrite (eq_xy_ok (repeat half s ++ skipn s iop) ip) by first [rewrite Lip; exact Lsum|eapply NE; [exact Lsum|lia]]. cbn [obind].
  assert (Einv : finv_opt (eqp iop ip + ic * (tm * eqp (repeat half s ++ skipn s iop) ip - eqp iop ip)) = Some (/ ln_denom s iop ip ic)) by (change (eqp iop ip + ic * (tm * eqp (repeat half s ++ skipn s iop) ip - eqp iop ip)) with (ln_denom s iop ip ic); apply finv_some; exact Nd).
  rewrite Einv. cbn [obind].
  rewrite Ed3. unfold evs. change ((mle lin ap :: mle lout (skipn s iop) :: evals_at rcs ap) ++ [mle xs iop; mlef (row_sum s xs) (skipn s iop)]) with (mle lin ap :: mle lout (skipn s iop) :: evals_at rcs ap ++ [mle xs iop; mlef (row_sum s xs) (skipn s iop)]).
  rewrite ln_claims_map by reflexivity. fold cls. change (map (fun x => snd x) (combine cls comms)) with (map snd (combine cls comms)). rewrite Esnd.
  assert (Ew : combine comms cls = map (fun p0 => (snd p0, fst p0)) (combine cls comms)).
  { clear. revert comms. generalize cls. intros l. induction l as [|x l IH]; intros [|y t]; cbn [combine map fst snd]; try reflexivity. now rewrite IH. }
  rewrite Ew. do 3 f_equal. f_equal. f_equal. field. exact Nd.
Qed.
End P.
