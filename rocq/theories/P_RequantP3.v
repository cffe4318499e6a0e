(** Proofs about the proof of requantisation: honest proofs are accepted. *)
From Coq Require Import List Arith Lia Bool ZArith Ring Field Znumtheory.
From Verif Require Import ListAux FieldDef PolyList MleMath M_Mle P_Mle P_Eq M_Interp P_Interp M_Sumcheck P_ScVerify P_ScProve P_ScProve2 P_ScBatch P_ScFinal M_ScParallel
  P_ScParallel P_ScApi M_SamePoly P_SamePoly M_LogUp P_LogUp3 P_LogUp4 P_LogUp8 P_LogUp9 M_Tensor P_Tensor M_Layers P_Layers P_Layers2 P_Layers3 P_Transformer P_Transformer2 M_Sop P_Sop P_Code3
  M_Tables P_Tables P_Tables2 M_Quant M_Requant P_Requant P_Requant2 P_Pooling P_Pooling2 M_RequantP P_RequantP P_RequantP2.
From Verif Require M_Basefold P_Basefold.
Import ListNotations.

Section P.
Context {K : field} {C : Type}.
Local Open Scope F_scope.
Add Field Kf_rqp3 : (fth K).

Lemma seen_chunks m : forall j k, (4 < k)%nat -> k = (5 + j)%nat -> seen k (concat (map snd (map (fun i => (fpow (0 : K) (3 + i), [4; 5 + i]%nat)) (seq j m)))) = Some (k + m)%nat.
Proof.
  induction m as [|m IH]; intros j k Hk ->; [cbn; f_equal; lia|]. cbn [seq map concat app snd seen].
  destruct (Nat.ltb_spec 4 (5 + j)); [|lia]. destruct (Nat.ltb_spec (5 + j) (5 + j)); [lia|]. rewrite Nat.eqb_refl. rewrite (IH (S j)) by lia. f_equal. lia.
Qed.
Lemma rq_terms_ix m (a b : K) : map snd (rq_terms m a) = map snd (rq_terms m b).
Proof. unfold rq_terms. cbn [map snd]. do 3 f_equal. rewrite !map_map. reflexivity. Qed.
Lemma seen_rq m (a : K) : (0 < m)%nat -> seen 0 (concat (map snd (rq_terms m a))) = Some (5 + m)%nat.
Proof.
  intros Hm. rewrite (rq_terms_ix m a 0). unfold rq_terms. destruct m as [|m]; [lia|]. cbn [seq map snd concat app seen Nat.ltb Nat.leb Nat.eqb Nat.add].
  etransitivity; [exact (seen_chunks m 1 6 ltac:(lia) ltac:(lia))|]. reflexivity.
Qed.
Lemma rq_deg m (a : K) : sop_deg (rq_terms m a) = 2%nat.
Proof.
  unfold sop_deg, rq_terms. cbn [map snd length fold_right]. rewrite map_map. cbn [snd length].
  assert (L : (fold_right Nat.max 0%nat (map (fun _ : nat => 2%nat) (seq 0 m)) <= 2)%nat) by (induction (seq 0 m) as [|x l IH]; cbn [map fold_right]; lia). lia.
Qed.
Lemma chunk_terms (chs : list (list K)) (pre : list (list K)) q x a : forall j, length pre = (5 + j)%nat -> mle (nth 4 pre []) x = eqp q x ->
  fsum (map (fun cp => fst cp * fprod (map (fun i => mle (nth i (pre ++ chs) []) x) (snd cp))) (map (fun i => (fpow a (3 + i), [4; 5 + i]%nat)) (seq j (length chs))))
  = fpow a (3 + j) * (eqp q x * peval (evals_at chs x) a).
Proof.
  revert pre. induction chs as [|c chs IH]; intros pre j Lp H4; cbn [length seq map fsum evals_at peval]; [ring|].
  replace (pre ++ c :: chs) with ((pre ++ [c]) ++ chs) by (rewrite <- app_assoc; reflexivity).
  rewrite (IH (pre ++ [c]) (S j)).
  - cbn [map fst snd fprod]. rewrite (app_nth1 (pre ++ [c])) by (rewrite app_length; cbn [length]; lia). rewrite (app_nth1 pre) by lia. rewrite H4.
    rewrite (app_nth1 (pre ++ [c])) by (rewrite app_length; cbn [length]; lia). rewrite (app_nth2 pre) by lia. replace (5 + j - length pre)%nat with 0%nat by lia. cbn [nth].
    fold (evals_at chs x). replace (3 + S j)%nat with (S (3 + j)) by lia. cbn [fpow]. ring.
  - rewrite app_length. cbn [length]. lia.
  - rewrite app_nth1 by lia. exact H4.
Qed.
Lemma sopf_rq (lp p q cin cout : list K) (chs : list (list K)) a x : length lp = length x -> length p = length x -> length q = length x ->
  sopf ([cout; eq_table lp; eq_table p; cin; eq_table q] ++ chs) (rq_terms (length chs) a) x = rq_poly lp p q cin cout chs a x.
Proof.
  intros Ll Lp Lq. unfold sopf, rq_terms. cbn [map fsum]. rewrite (chunk_terms chs [cout; eq_table lp; eq_table p; cin; eq_table q] q x a 0).
  - cbn [map fst snd nth app fprod fpow Nat.add]. rewrite !mle_eq_table by auto. unfold rq_poly. ring.
  - reflexivity.
  - cbn [nth]. now apply mle_eq_table.
Qed.

Lemma rq_len_combine (es : list K) (cm : list C) : length es = length cm -> map fst (combine es cm) = es /\ map snd (combine es cm) = cm.
Proof. revert cm. induction es as [|e es IH]; intros [|c cm] L; cbn [length] in L; try discriminate L; [auto|]. destruct (IH cm) as [A B]; [lia|]. cbn [combine map fst snd]. now rewrite A, B. Qed.

Lemma rqp_complete (T : @hist K -> K) ncpus sc1 es1 sc2 es2 sc B r cst csc k (cin cout : list K) (chs : list (list K)) (comms : list C) (last : claim) h :
  let n := S (S k) in
  char_gt K 3 -> (0 < ncpus)%nat -> Forall (fun c => length c = (2 ^ n)%nat) (cin :: cout :: chs) -> chs <> [] -> length chs = (rq_shift r / B)%nat ->
  length comms = S (S (length chs)) -> claim_true cout last -> length (cl_point last) = n ->
  (0 < rq_shift r < 64)%nat -> fZ (rq_fpm r) <> (0 : K) ->
  logup_scheds true (S k) 1 sc1 -> valid_sched n es1 -> logup_scheds true (S k) (length chs) sc2 -> valid_sched n es2 ->
  (forall i, (i < n)%nat -> valid_rsched (sop_shape (K := K) n (5 + length chs) (map snd (rq_terms (length chs) (0 : K)))) i (sc i)) ->
  exists wit nc pf h', rqp_prove T ncpus sc1 es1 sc2 es2 sc B r cst csc cin cout chs comms last h = Some (wit, nc, pf, h') /\
    map fst wit = comms /\ Forall2 claim_true (cin :: cout :: chs) (map snd wit) /\
    length (cl_point nc) = n /\ recombine_claims B r (mle cin (cl_point nc)) (evals_at chs (cl_point nc)) = Some (cl_eval nc) /\
    ((forall p x, In p (lp_sumchecks (rp_clamping pf) ++ lp_sumchecks (rp_shifted pf)) -> In x (pf_point p) -> not_node 3 x) -> (forall x, In x (pf_point (rp_acc pf)) -> not_node 2 x) ->
     rqp_verify T B r cst csc last pf h = Some (wit, nc, h')).
Proof.
  intros n Hch Hnc Lcols Hne Lch Lcm [_ El] Ll Hs Hf Hs1 He1 Hs2 He2 Hsc.
  assert (Li : length cin = (2 ^ n)%nat) by (inversion Lcols; auto). assert (Lcols1 : Forall (fun c => length c = (2 ^ n)%nat) (cout :: chs)) by (inversion Lcols; auto).
  assert (Lo : length cout = (2 ^ n)%nat) by (inversion Lcols1; auto). assert (Lcc : Forall (fun c => length c = (2 ^ n)%nat) chs) by (inversion Lcols1; auto).
  destruct (lookup_complete_p T ncpus sc1 es1 k 2 [[cin; cout]] cst csc h) as (lp1 & h1 & nums1 & dens1 & p & Elp1 & Ecl1 & Lp & _ & _ & _ & _ & Hver1); auto.
  { discriminate. } { intros cs [<-|[]]. split; [reflexivity|]. intros c [<-|[<-|[]]]; auto. }
  cbn [concat app] in Elp1. cbn [concat app map] in Ecl1. cbn [length] in Hver1.
  assert (Ec : concat (map (fun c => [c]) chs) = chs) by (clear; induction chs as [|c t IH]; cbn [map concat app]; [|rewrite IH]; reflexivity).
  destruct (lookup_complete_p T ncpus sc2 es2 k 1 (map (fun c => [c]) chs) cst 1 h1) as (lp2 & h2 & nums2 & dens2 & q & Elp2 & Ecl2 & Lq & _ & _ & _ & _ & Hver2); auto.
  { destruct chs; [now destruct Hne|discriminate]. }
  { intros cs Hin. apply in_map_iff in Hin as (c & <- & Hc). split; [reflexivity|]. intros c' [<-|[]]. rewrite Forall_forall in Lcc. now apply Lcc. }
  { now rewrite map_length. }
  rewrite Ec in Elp2, Ecl2. rewrite map_length in Hver2. rewrite Lch in Hver2.
  unfold rqp_prove. rewrite Elp1. cbn [obind]. rewrite Elp2. cbn [obind]. rewrite Li, ilog2_pow. cbn [obind].
  unfold from_evaluations_vec at 1 2. rewrite Li, Lo, Nat.eqb_refl. cbn [obind].
  assert (Em : omapM (from_evaluations_vec n) chs = Some (map (fun c => mkMle (Base c) n) chs)).
  { apply omapM_all. intros c Hc. unfold from_evaluations_vec. rewrite Forall_forall in Lcc. rewrite (Lcc c Hc), Nat.eqb_refl. reflexivity. }
  rewrite Em. cbn [obind].
  destruct chs as [|c0 chs0] eqn:Echs; [now destruct Hne|]. rewrite <- Echs in *.
  assert (Es0 : nth_error (lp_claims lp2) 0 = Some (mkClaim q (mle c0 q))) by (rewrite Ecl2, Echs; reflexivity).
  rewrite Es0, Ecl1. cbn [nth_error obind cl_point]. rewrite !compute_betas_spec.
  rewrite (into_mle_ext_ok n (eq_table p)) by (rewrite eq_table_length, Lp; reflexivity). cbn [obind].
  rewrite (into_mle_ext_ok n (eq_table (cl_point last))) by (rewrite eq_table_length, Ll; reflexivity). cbn [obind].
  rewrite (into_mle_ext_ok n (eq_table q)) by (rewrite eq_table_length, Lq; reflexivity). cbn [obind].
  unfold get_challenge. set (a := T (EvBytes lbl_requant :: h2)). set (h3 := EvSample :: EvBytes lbl_requant :: h2). rewrite map_length.
  set (ls := [cout; eq_table (cl_point last); eq_table p; cin; eq_table q] ++ chs).
  destruct (sop_ok T ncpus sc n ([mkMle (Base cout) n; mkMle (Ext (eq_table (cl_point last))) n; mkMle (Ext (eq_table p)) n; mkMle (Base cin) n; mkMle (Ext (eq_table q)) n] ++ map (fun c => mkMle (Base c) n) chs)
     ls (rq_terms (length chs) a) h3) as (spf & h4 & Es & Lz & Hver); auto.
  { unfold n; lia. }
  { rewrite rq_deg. apply (char_gt_le K 3); auto. }
  { discriminate. }
  { intros c ix Hin. unfold rq_terms in Hin. destruct Hin as [E|[E|[E|Hin]]]; [| | |apply in_map_iff in Hin as (j & E & _)]; apply (f_equal snd) in E; cbn [snd] in E; subst ix; (split; [discriminate|cbn; lia]). }
  { unfold ls. apply Forall2_app.
    - repeat (apply Forall2_cons); try apply Forall2_nil; try (repeat split; auto; fail); apply ext_is_table; auto; rewrite eq_table_length, ?Lp, ?Ll, ?Lq; reflexivity.
    - clear - Lcc. induction chs as [|c t IH]; cbn [map]; constructor; inversion Lcc; [repeat split; auto|auto]. }
  { rewrite seen_rq by (rewrite Echs; cbn [length]; lia). unfold ls. rewrite app_length. reflexivity. }
  { intros i Hi. unfold ls. rewrite app_length. cbn [length]. rewrite (rq_terms_ix _ a 0). apply Hsc. exact Hi. }
  rewrite Es. cbn [obind]. set (zp := pf_point spf) in *.
  assert (El2 : map (fun l => mle l zp) ls = mle cout zp :: mle (eq_table (cl_point last)) zp :: mle (eq_table p) zp :: mle cin zp :: mle (eq_table q) zp :: evals_at chs zp) by (unfold ls; rewrite map_app; reflexivity).
  rewrite El2. cbn [nth_error obind length Nat.leb skipn]. rewrite (recombine_val B r (mle cin zp) (evals_at chs zp)) by auto. cbn [obind].
  set (next := (fZ (2 ^ Z.of_nat (rq_shift r)) * mle cin zp + digits_f B (evals_at chs zp) - fZ (2 ^ Z.of_nat (rq_shift r - 1))) * / fZ (rq_fpm r)).
  change (mle cin zp :: mle cout zp :: evals_at chs zp) with (evals_at (cin :: cout :: chs) zp).
  set (es := evals_at (cin :: cout :: chs) zp).
  assert (Les : length es = length comms) by (unfold es, evals_at; rewrite map_length, Lcm; reflexivity).
  destruct (rq_len_combine es comms Les) as [Ef Esn].
  eexists _, _, _, _. split; [reflexivity|]. cbn [rp_clamping rp_shifted rp_acc cl_point cl_eval]. rewrite Ef, Esn, !map_map. cbn [fst snd].
  split; [exact Esn|]. split.
  { unfold es. clear - Lcols Lz Lcm. assert (L : length comms = length (cin :: cout :: chs)) by exact Lcm. revert L Lcols. generalize (cin :: cout :: chs). intros l. clear Lcm. revert comms.
    induction l as [|x l IH]; intros [|c comms] L Lc; cbn [length] in L; try discriminate L; cbn [evals_at map combine]; constructor; inversion Lc as [|? ? Q1 Q2].
    - split; cbn [cl_point cl_eval fst]; [rewrite Q1, Lz|]; reflexivity.
    - apply IH; [lia|exact Q2]. }
  split; [exact Lz|]. split; [apply recombine_val; auto|].
  intros N0 N1. destruct (Hver1) as (Ev1 & _ & _); [intros p0 x Hp Hx; apply (N0 p0 x); auto; apply in_or_app; auto|].
  destruct (Hver2) as (Ev2 & _ & _); [intros p0 x Hp Hx; apply (N0 p0 x); auto; apply in_or_app; auto|]. rewrite rq_deg in Hver. specialize (Hver N1).
  assert (HF : forall x, length x = n -> sopf ls (rq_terms (length chs) a) x = rq_poly (cl_point last) p q cin cout chs a x) by (intros x Lx; unfold ls; apply sopf_rq; rewrite Lx; assumption).
  rewrite (hsum_ext _ _ _ HF), hsum_rq in Hver by auto. rewrite HF in Hver by exact Lz.
  unfold rqp_verify. cbn [rp_clamping rp_shifted rp_acc rp_evals rp_comms]. rewrite Ev1. cbn [obind]. rewrite Ev2. cbn [obind]. unfold get_challenge. fold a h3.
  rewrite Es0, Ecl1. cbn [nth_error obind cl_point cl_eval]. rewrite Ecl2, map_map. cbn [cl_eval]. fold (evals_at chs q). rewrite initial_ok, El, Lp. fold n.
  rewrite Hver. cbn [obind].
  assert (NE : forall l : list K, length l = n -> l <> []) by (intros l L0 X; rewrite X in L0; unfold n in L0; discriminate L0).
  rewrite (eq_xy_ok (cl_point last) zp), (eq_xy_ok p zp), (eq_xy_ok q zp) by first [rewrite Lz; assumption|apply NE; assumption].
  cbn [obind]. unfold es at 1 2. cbn [evals_at map nth_error obind]. change (skipn 2 es) with (evals_at chs zp).
  match goal with |- (if ?x =? ?y then _ else _) = _ => replace (x =? y) with true by (symmetry; apply feqb_spec; rewrite calc_ok; reflexivity) end.
  rewrite recombine_val by auto. cbn [obind]. fold next. reflexivity.
Qed.

(** The honest run on integers: the witness of the layer's input is accepted and the claim returned is true of that input. *)
Lemma rqp_honest (T : @hist K -> K) ncpus sc1 es1 sc2 es2 sc B r cst csc k m (vals : list Z) (ws : list row) (comms : list C) (last : claim) h :
  let n := S (S k) in
  (0 < B)%nat -> char_gt K 3 -> (0 < ncpus)%nat -> length vals = (2 ^ n)%nat -> omapM (rq_witness1 B r) vals = Some ws ->
  (0 < m)%nat -> rq_shift r = (m * B)%nat -> fZ (rq_fpm r) <> (0 : K) -> length comms = S (S m) ->
  claim_true (col r_out ws) last -> length (cl_point last) = n ->
  logup_scheds true (S k) 1 sc1 -> valid_sched n es1 -> logup_scheds true (S k) m sc2 -> valid_sched n es2 ->
  (forall i, (i < n)%nat -> valid_rsched (sop_shape (K := K) n (5 + m) (map snd (rq_terms m (0 : K)))) i (sc i)) ->
  exists wit nc pf h', rqp_prove T ncpus sc1 es1 sc2 es2 sc B r cst csc (col r_in ws) (col r_out ws) (chunk_cols m ws) comms last h = Some (wit, nc, pf, h') /\
    map fst wit = comms /\ Forall2 claim_true (col r_in ws :: col r_out ws :: chunk_cols m ws) (map snd wit) /\ claim_true (map fZ vals) nc /\
    ((forall p x, In p (lp_sumchecks (rp_clamping pf) ++ lp_sumchecks (rp_shifted pf)) -> In x (pf_point p) -> not_node 3 x) -> (forall x, In x (pf_point (rp_acc pf)) -> not_node 2 x) ->
     rqp_verify T B r cst csc last pf h = Some (wit, nc, h')).
Proof.
  intros n HB Hch Hnc Lv Hw Hm Hk Hf Lcm Hl Ll Hs1 He1 Hs2 He2 Hsc.
  assert (Lws : length ws = (2 ^ n)%nat) by (rewrite <- Lv; apply omapM_Forall2 in Hw; symmetry; now apply F2_len in Hw).
  assert (Hs : (0 < rq_shift r < 64)%nat).
  { apply omapM_Forall2 in Hw. destruct Hw as [|v w vals ws H Hw]; [cbn [length] in Lv; pose proof (pow2_pos n); lia|]. destruct w as [[c o] ch]. apply witness_spec in H; auto. lia. }
  assert (Lcc : length (chunk_cols (K := K) m ws) = m) by (unfold chunk_cols; now rewrite map_length, seq_length).
  destruct (rqp_complete T ncpus sc1 es1 sc2 es2 sc B r cst csc k (col r_in ws) (col r_out ws) (chunk_cols m ws) comms last h) as (wit & nc & pf & h' & Ep & Ew & Hwit & Lz & Hr & Hver); auto.
  - constructor; [unfold col; now rewrite map_length|]. constructor; [unfold col; now rewrite map_length|]. apply Forall_forall. intros c Hc. apply in_map_iff in Hc as (j & <- & _). unfold col. now rewrite map_length.
  - intros X. apply (f_equal (@length _)) in X. rewrite Lcc in X. cbn [length] in X. lia.
  - rewrite Lcc, Hk, Nat.div_mul by lia. reflexivity.
  - now rewrite Lcc.
  - now rewrite Lcc.
  - now rewrite Lcc.
  - exists wit, nc, pf, h'. split; [exact Ep|]. split; [exact Ew|]. split; [exact Hwit|]. split; [|exact Hver].
    split; [rewrite map_length, Lz; exact Lv|].
    pose proof (recombine_honest (K := K) B HB r vals ws (cl_point nc) m Hk Hf) as Q. rewrite Lz in Q. specialize (Q Lv Hw).
    unfold evals_at, chunk_cols in Hr. rewrite map_map in Hr. assert (Q2 : Some (cl_eval nc) = Some (mle (map fZ vals) (cl_point nc))) by (rewrite <- Hr; exact Q). congruence.
Qed.
(** The number of commitments is not checked. *)
Lemma rqp_drop (T : @hist K -> K) B r cst csc (last : claim) (pf : @requant_proof K C) h wit nc h' m :
  rqp_verify T B r cst csc last pf h = Some (wit, nc, h') ->
  rqp_verify T B r cst csc last (mkRqp (rp_acc pf) (rp_evals pf) (rp_clamping pf) (rp_shifted pf) (firstn m (rp_comms pf))) h = Some (firstn m wit, nc, h').
Proof.
  unfold rqp_verify. cbn [rp_clamping rp_shifted rp_acc rp_evals rp_comms]. intros Hv.
  revert Hv. repeat match goal with
  | |- obind ?x _ = Some _ -> _ => destruct x; cbn [obind]; [|intros X; discriminate X]
  | |- (let '(_, _) := ?x in _) = Some _ -> _ => destruct x
  | |- (if ?x then _ else _) = Some _ -> _ => destruct x; [|intros X; discriminate X]
  end. intros Hv.
  injection Hv as <- <- <-. rewrite firstn_map. do 4 f_equal. generalize (rp_comms pf). generalize (rp_evals pf). clear. intros l. revert m.
  induction l as [|x l IH]; intros [|m] [|y t]; cbn [combine firstn]; try reflexivity. now rewrite IH.
Qed.
End P.
