(** The activation prover and verifier: which claims reach the commitments. *)
From Coq Require Import List Arith Lia Bool ZArith Ring Field.
From Verif Require M_Basefold.
From Verif Require Import ListAux FieldDef PolyList MleMath M_Mle P_Mle P_Eq M_Interp P_Interp M_Sumcheck P_ScVerify P_ScProve P_ScProve2 P_ScBatch P_ScFinal M_ScParallel
  P_ScParallel P_ScApi M_SamePoly P_SamePoly P_Count M_LogUp P_LogUp3 P_LogUp4 P_LogUp8 P_LogUp9 M_Tensor P_Tensor M_Layers P_Layers P_Layers2 P_Layers3 M_Pooling P_Pooling.
Import ListNotations.

Section P.
Context {K : field} {C : Type}.
Local Open Scope F_scope.
Add Field Kf_act : (fth K).

(** What an accepting run consists of. *)
Lemma act_inv (T : @hist K -> K) gelu cst csc nv (last : claim) (pf : @act_proof K C) h wit inp h' :
  act_verify T gelu cst csc nv last pf h = Some (wit, inp, h') ->
  exists c0 rest nums dens h1 nc, verify_logup T (ac_lookup pf) 1 cst csc h = Some (c0 :: rest, nums, dens, h1) /\
    sp_verify T nv (last :: rest) (ac_io pf) h1 = Some (nc, h') /\ act_input gelu c0 = Some inp /\
    wit = map (fun p => (snd p, fst p)) (combine [c0; nc] (ac_comms pf)).
Proof.
  unfold act_verify. intros H. destruct (verify_logup T (ac_lookup pf) 1 cst csc h) as [[[[cls nums] dens] h1]|]; [|discriminate H]. cbn [obind] in H.
  destruct cls as [|c0 rest]; [discriminate H|]. destruct (sp_verify T nv (last :: rest) (ac_io pf) h1) as [[nc h2]|] eqn:E; [|discriminate H]. cbn [obind] in H.
  destruct (act_input gelu c0) as [i|] eqn:Ei; [|discriminate H]. cbn [obind] in H. injection H as <- <- <-. exists c0, rest, nums, dens, h1, nc. repeat split; auto.
Qed.

(** With two commitments in the proof both columns get a claim: the lookup claim for the first, the accumulated claim for the second. *)
Lemma act_both (T : @hist K -> K) gelu cst csc nv (last : claim) (pf : @act_proof K C) h wit inp h' ci co :
  act_verify T gelu cst csc nv last pf h = Some (wit, inp, h') -> ac_comms pf = [ci; co] ->
  exists c0 c1, wit = [(ci, c0); (co, c1)] /\ act_input gelu c0 = Some inp /\
    exists rest nums dens h1, verify_logup T (ac_lookup pf) 1 cst csc h = Some (c0 :: rest, nums, dens, h1) /\ sp_verify T nv (last :: rest) (ac_io pf) h1 = Some (c1, h').
Proof.
  intros H Ec. apply act_inv in H as (c0 & rest & nums & dens & h1 & nc & E1 & E2 & E3 & ->). rewrite Ec. exists c0, nc. split; [reflexivity|]. split; [exact E3|]. exists rest, nums, dens, h1. auto.
Qed.

(** The number of commitments is not checked: dropping any of them from an accepted proof drops the claims. *)
Lemma act_drop (T : @hist K -> K) gelu cst csc nv (last : claim) (pf : @act_proof K C) h wit inp h' n :
  act_verify T gelu cst csc nv last pf h = Some (wit, inp, h') ->
  act_verify T gelu cst csc nv last (mkAct (ac_io pf) (ac_lookup pf) (firstn n (ac_comms pf))) h = Some (firstn n wit, inp, h').
Proof.
  intros H. pose proof (act_inv _ _ _ _ _ _ _ _ _ _ _ H) as (c0 & rest & nums & dens & h1 & nc & E1 & E2 & E3 & ->). unfold act_verify. cbn [ac_lookup ac_io ac_comms]. rewrite E1. cbn [obind]. rewrite E2. cbn [obind]. rewrite E3. cbn [obind].
  rewrite firstn_map. do 4 f_equal. generalize (ac_comms pf). generalize [c0; nc]. clear. intros l. revert n. induction l as [|x l IH]; intros [|n] [|y m]; cbn; try reflexivity. now rewrite IH.
Qed.

(** Soundness, for two commitments and a proof that states the challenges as its point. *)
Lemma act_sound (T : @hist K -> K) gelu cst csc nv (last : claim) (pf : @act_proof K C) h wit inp h' x out c0 rest nums dens h1 :
  char_gt K 2 -> (0 < nv)%nat -> length out = (2 ^ nv)%nat ->
  verify_logup T (ac_lookup pf) 1 cst csc h = Some (c0 :: rest, nums, dens, h1) ->
  act_verify T gelu cst csc nv last pf h = Some (wit, inp, h') -> length (ac_comms pf) = 2%nat ->
  let claims := last :: rest in let cs := fst (read_challenges T (length claims) h1) in let h2 := snd (read_challenges T (length claims) h1) in
  pf_point (sp_sumcheck (ac_io pf)) = sc_point T nv 2 h2 (sp_sumcheck (ac_io pf)) ->
  Forall2 claim_true [x; out] (map snd wit) ->
  (claim_true x c0 /\ act_input gelu c0 = Some inp /\ forall c, In c claims -> cl_eval c = mle out (cl_point c)) \/
  ((exists i, nth i (errs out claims) 0 <> 0) /\ P_Count.dot cs (errs out claims) = 0) \/
  root_event T nv 2 (agg_poly nv out cs claims) h2 (sp_sumcheck (ac_io pf)).
Proof.
  intros Hch Hn Lo Elu Hv Lc claims cs h2 Hp Hw. apply act_inv in Hv as (c0' & rest' & nums' & dens' & h1' & nc & E1 & E2 & E3 & ->).
  assert (c0' = c0) by congruence. assert (rest' = rest) by congruence. assert (h1' = h1) by congruence. subst c0' rest' h1'.
  destruct (ac_comms pf) as [|ci [|co [|? ?]]]; cbn [length] in Lc; try discriminate Lc. cbn [combine map fst snd] in Hw.
  inversion Hw as [|? ? ? ? W0 Hw1]. inversion Hw1 as [|? ? ? ? W1 _]. subst.
  destruct (sp_sound T nv out claims (ac_io pf) h1 nc h' Hch Hn Lo E2 Hp) as [G|G]; [apply W1|left|right; exact G]. auto.
Qed.

(** The honest run.  [mi] is one for a ReLU and the inverse of the multiplier for a GELU. *)
Definition act_mi (gelu : option K) (mi : K) : Prop := match gelu with None => mi = 1 | Some m => m <> 0 /\ mi = / m end.
Lemma act_input_mi gelu mi c : act_mi gelu mi -> act_input gelu c = Some (mkClaim (cl_point c) (cl_eval c * mi)).
Proof.
  destruct gelu as [m|]; cbn; [intros [Hm ->]; unfold finv_opt; now rewrite (proj2 (feqb_false m 0) Hm)|]. intros ->. destruct c as [p e]. cbn. do 2 f_equal. ring.
Qed.
Lemma act_complete (T : @hist K -> K) ncpus scl esl sc gelu mi cst csc k (x out : list K) (ci co : C) (last : claim) h :
  let n := S (S k) in
  char_gt K 3 -> (0 < ncpus)%nat -> length x = (2 ^ n)%nat -> length out = (2 ^ n)%nat -> act_mi gelu mi ->
  claim_true out last -> length (cl_point last) = n ->
  logup_scheds true (S k) 1 scl -> valid_sched n esl -> (forall i, (i < n)%nat -> valid_rsched (K := K) (sp_shape n) i (sc i)) ->
  exists pt c1 pf h', act_prove T ncpus scl esl sc gelu cst csc [x; out] [ci; co] out last h
     = Some ([(ci, mkClaim pt (mle x pt * mi)); (co, c1)], mkClaim pt (mle x pt * mi), pf, h') /\
    length pt = n /\ claim_true out c1 /\
    ((forall p r, In p (lp_sumchecks (ac_lookup pf)) -> In r (pf_point p) -> not_node 3 r) -> (forall r, In r (pf_point (sp_sumcheck (ac_io pf))) -> not_node 2 r) ->
     act_verify T gelu cst csc n last pf h = Some ([(ci, mkClaim pt (mle x pt)); (co, c1)], mkClaim pt (mle x pt * mi), h')).
Proof.
  intros n Hch Hnc Lx Lo Hmi [_ El] Ll Hsl Hes Hsc.
  destruct (lookup_complete_p T ncpus scl esl k 2 [[x; out]] cst csc h) as (lp & h1 & nums & dens & pt & Elp & Ecl & Lpt & _ & _ & _ & _ & Hver0); auto.
  { discriminate. }
  { intros cs [<-|[]]. split; [reflexivity|]. intros c [<-|[<-|[]]]; auto. }
  cbn [concat app] in Elp. cbn [concat app map] in Ecl. cbn [length] in Hver0.
  unfold act_prove. rewrite Elp. cbn [obind]. rewrite (into_mle_ext_ok n out) by auto. cbn [obind]. rewrite Ecl. cbn [nth_error obind]. rewrite (act_input_mi gelu mi _ Hmi). cbn [obind cl_point cl_eval].
  destruct (sp_complete_ev T ncpus sc (mkMle (Ext out) n) [last; mkClaim pt (mle out pt)] h1 n out) as (io & h2 & Eio & Lio & Ee & Hv2); auto.
  { apply (char_gt_le K 3); auto. } { unfold n; lia. } { right. unfold from_evaluations_ext_vec. now rewrite Lo, Nat.eqb_refl. }
  { intros c [<-|[<-|[]]]; auto. }
  rewrite Eio. cbn [obind]. unfold extract_claim. rewrite Ee. cbn [obind combine map fst snd].
  eexists pt, _, _, h2. split; [reflexivity|]. split; [exact Lpt|]. split; [split; cbn [cl_point cl_eval]; [now rewrite Lio|reflexivity]|]. cbn [ac_lookup ac_io].
  intros N0 N1. destruct (Hver0 N0) as (Ev0 & _ & _). unfold act_verify. cbn [ac_lookup ac_io ac_comms]. rewrite Ev0. cbn [obind]. rewrite Ecl. rewrite (Hv2 N1). cbn [obind].
  rewrite (act_input_mi gelu mi _ Hmi). reflexivity.
Qed.


(** A ReLU: both sides register the same claims.  A GELU: the prover registers the claim about the unscaled input for the
    commitment of the scaled column, which is false unless the multiplier is one or the value is zero. *)
Lemma gelu_mismatch (T : @hist K -> K) ncpus scl esl sc m cst csc k (x out : list K) (ci co : C) (last : claim) h :
  let n := S (S k) in
  char_gt K 3 -> (0 < ncpus)%nat -> length x = (2 ^ n)%nat -> length out = (2 ^ n)%nat -> m <> 0 -> m <> 1 ->
  claim_true out last -> length (cl_point last) = n ->
  logup_scheds true (S k) 1 scl -> valid_sched n esl -> (forall i, (i < n)%nat -> valid_rsched (K := K) (sp_shape n) i (sc i)) ->
  exists c c1 pf h', act_prove T ncpus scl esl sc (Some m) cst csc [x; out] [ci; co] out last h = Some ([(ci, c); (co, c1)], c, pf, h') /\
    length (cl_point c) = n /\ (mle x (cl_point c) <> 0 -> ~ claim_true x c) /\
    ((forall p r, In p (lp_sumchecks (ac_lookup pf)) -> In r (pf_point p) -> not_node 3 r) -> (forall r, In r (pf_point (sp_sumcheck (ac_io pf))) -> not_node 2 r) ->
     exists c', act_verify T (Some m) cst csc n last pf h = Some ([(ci, c'); (co, c1)], c, h') /\ claim_true x c' /\ (mle x (cl_point c) <> 0 -> c' <> c)).
Proof.
  intros n Hch Hnc Lx Lo Hm0 Hm1 Hl Ll Hsl Hes Hsc.
  destruct (act_complete T ncpus scl esl sc (Some m) (/ m) cst csc k x out ci co last h) as (pt & c1 & pf & h' & E1 & Lpt & _ & Hv); auto. { split; auto. }
  exists (mkClaim pt (mle x pt * / m)), c1, pf, h'. split; [exact E1|]. split; [exact Lpt|]. cbn [cl_point].
  assert (NE : mle x pt <> 0 -> mle x pt * / m <> mle x pt).
  { intros Hx E. apply Hm1. assert (E' : mle x pt * / m * m = mle x pt * m) by (now rewrite E). transitivity (mle x pt * m / mle x pt); [now field|]. rewrite <- E'. field. auto. }
  split; [intros Hx [_ Q]; cbn [cl_point cl_eval] in Q; now apply NE|].
  intros N0 N1. exists (mkClaim pt (mle x pt)). split; [now apply Hv|]. split; [split; cbn [cl_point cl_eval]; [now rewrite Lpt|reflexivity]|]. intros Hx Q. injection Q as Q. apply (NE Hx). now symmetry.
Qed.

Lemma relu_complete (T : @hist K -> K) ncpus scl esl sc cst csc k (x out : list K) (ci co : C) (last : claim) h :
  let n := S (S k) in
  char_gt K 3 -> (0 < ncpus)%nat -> length x = (2 ^ n)%nat -> length out = (2 ^ n)%nat ->
  claim_true out last -> length (cl_point last) = n ->
  logup_scheds true (S k) 1 scl -> valid_sched n esl -> (forall i, (i < n)%nat -> valid_rsched (K := K) (sp_shape n) i (sc i)) ->
  exists c c1 pf h', act_prove T ncpus scl esl sc None cst csc [x; out] [ci; co] out last h = Some ([(ci, c); (co, c1)], c, pf, h') /\
    claim_true x c /\ claim_true out c1 /\
    ((forall p r, In p (lp_sumchecks (ac_lookup pf)) -> In r (pf_point p) -> not_node 3 r) -> (forall r, In r (pf_point (sp_sumcheck (ac_io pf))) -> not_node 2 r) ->
     act_verify T None cst csc n last pf h = Some ([(ci, c); (co, c1)], c, h')).
Proof.
  intros n Hch Hnc Lx Lo Hl Ll Hsl Hes Hsc.
  destruct (act_complete T ncpus scl esl sc None 1 cst csc k x out ci co last h) as (pt & c1 & pf & h' & E1 & Lpt & Hc1 & Hv); auto. { reflexivity. }
  assert (E : mle x pt * 1 = mle x pt) by ring. rewrite E in *. exists (mkClaim pt (mle x pt)), c1, pf, h'. split; [exact E1|]. split; [split; cbn [cl_point cl_eval]; [now rewrite Lpt|reflexivity]|]. auto.
Qed.

(** ** The commitments of a pooling proof *)
Lemma pool_drop (T : @hist K -> K) cst csc nv (last : claim) (pf : @pool_proof K C) h wit cin h' n :
  pool_verify T cst csc nv last pf h = Some (wit, cin, h') ->
  pool_verify T cst csc nv last (mkPool (pl_sumcheck pf) (pl_lookup pf) (pl_evals pf) (pl_gap pf) (firstn n (pl_comms pf))) h = Some (firstn n wit, cin, h').
Proof.
  unfold pool_verify. cbn [pl_sumcheck pl_lookup pl_evals pl_gap pl_comms]. intros H.
  destruct (verify_logup T (pl_lookup pf) 4 cst csc h) as [[[[cls nums] dens] h1]|]; [|discriminate H]. cbn [obind] in H |- *.
  destruct (get_challenge T lbl_pool h1) as [bc h2]. destruct (fold_left _ cls (0, bc)) as [ini comb].
  destruct (verify T (ini + comb * cl_eval last) (pl_sumcheck pf) nv 5 h2) as [[[zp e] h3]|]; [|discriminate H]. cbn [obind] in H |- *.
  destruct (nth_error cls 0) as [c0|]; [|discriminate H]. cbn [obind] in H |- *.
  destruct (M_Basefold.eq_xy_eval (cl_point c0) zp) as [be|]; [|discriminate H]. cbn [obind] in H |- *. destruct (M_Basefold.eq_xy_eval (cl_point last) zp) as [lbe|]; [|discriminate H]. cbn [obind] in H |- *.
  destruct (csub (length (pl_evals pf)) 1) as [ks|]; [|discriminate H]. cbn [obind] in H |- *. destruct (fold_left _ (firstn ks (pl_evals pf)) _) as [[pc sc] bch].
  destruct (nth_error (pl_evals pf) ks) as [oe|]; [|discriminate H]. cbn [obind] in H |- *. destruct (_ =? e); [|discriminate H]. destruct (get_challenge T lbl_input h3) as [r h4].
  destruct (input_point r r (pl_gap pf) zp) as [pt|]; [|discriminate H]. cbn [obind] in H |- *. injection H as <- <- <-. do 3 f_equal. rewrite firstn_map. f_equal.
  generalize (pl_comms pf). generalize (pl_evals pf). clear. intros l. revert n. induction l as [|x l IH]; intros [|n] [|y m]; cbn; try reflexivity. now rewrite IH.
Qed.
End P.
