(** Basefold verifier: sum-check messages, and what is not checked. *)
From Coq Require Import List Arith Lia Bool ZArith Permutation.
From Verif Require Import ListAux FieldDef MleMath M_Mle M_Tensor M_Sumcheck M_Fft M_Merkle M_Code M_Basefold P_Mle P_Eq P_Tensor P_ScProve P_Graph4 P_Commit2.
Import ListNotations.

Section PB.
Context {K : field}.
Local Open Scope F_scope.
Add Field Kf_pb : (fth K).
Implicit Types p ps cs final msg : list K.

Definition eq1 (x y : K) : K := x * y + x * y + 1 - x - y.
Definition eqs ps cs : K := fprod (map (fun q => eq1 (fst q) (snd q)) (combine ps cs)).
Lemma eqs_cons x ps y cs : eqs (x :: ps) (y :: cs) = eq1 x y * eqs ps cs.
Proof. reflexivity. Qed.
Lemma eqs_app a b c d : length a = length c -> eqs (a ++ b) (c ++ d) = eqs a c * eqs b d.
Proof.
  revert c; induction a as [|x a IH]; intros [|y c] H; try discriminate H; cbn [app].
  - unfold eqs at 2; cbn; ring.
  - injection H as H. rewrite !eqs_cons, IH by assumption. ring.
Qed.
Lemma eqs_rev a b : length a = length b -> eqs (rev a) (rev b) = eqs a b.
Proof.
  revert b; induction a as [|x a IH]; intros [|y b] H; try discriminate H; [reflexivity|]. injection H as H. cbn [rev].
  rewrite eqs_app by now rewrite !rev_length. rewrite IH, !eqs_cons by assumption. unfold eqs at 2; cbn. ring.
Qed.

Lemma fsum_repeat_scale (e c : K) (l : list K) : fsum (map (fun q => fst q * snd q) (combine (repeat e (length l)) (map (fun x => x * c) l))) = e * c * fsum l.
Proof. induction l as [|x l IH]; cbn [length repeat map combine fsum fst snd]; [ring|rewrite IH; ring]. Qed.
Lemma eq_table_sum (r : list K) : fsum (eq_table r) = 1.
Proof.
  assert (E := eq_table_dot (repeat 1 (length (eq_table r))) r).
  assert (E1 : forall l : list K, fsum (map (fun '(a, b) => a * b) (combine (repeat 1 (length l)) l)) = fsum l).
  { induction l as [|x l IH]; cbn [length repeat combine map fsum]; [reflexivity|]. rewrite IH. ring. }
  rewrite E1 in E. rewrite E. rewrite eq_table_length.
  rewrite firstn_all2 by now rewrite repeat_length. unfold mle.
  etransitivity; [|exact (mlef_const 1 r)]. apply mlef_ext. intros i Hi.
  rewrite (nth_indep _ _ 1) by now rewrite repeat_length. apply nth_repeat.
Qed.

(** ** Forged sum-check messages *)
Context {B D : Type} (as_bases : K -> list B) (emb : B -> K) (hash_bases : list B -> D)
  (hash_two_digests : D -> D -> D) (deqb : D -> D -> bool) (dig : D -> list (@ev K)) (T : @hist K -> K) (to_usize : K -> nat)
  (nbits : nat) (scm : @scheme K).

(** The message of a round with claim [c] and coordinate [x]: the polynomial [c * eq(x, X)]. *)
Definition fmsg (c x : K) : list K := [c * (1 - x); c * (x + x - 1); 0].
Lemma fmsg_sum c x : degree_2_zero_plus_one (fmsg c x) = Some c.
Proof. unfold degree_2_zero_plus_one, fmsg; cbn [nth_error obind]. f_equal. ring. Qed.
Lemma fmsg_eval c x r : degree_2_eval (fmsg c x) r = Some (c * eq1 x r).
Proof. unfold degree_2_eval, fmsg; cbn [nth_error obind]. f_equal. unfold eq1. ring. Qed.
Fixpoint fmsgs (c : K) (ps cs : list K) : list (list K) :=
  match ps, cs with x :: ps', r :: cs' => fmsg c x :: fmsgs (c * eq1 x r) ps' cs' | _, _ => [] end.
Lemma fmsgs_length c ps cs : length ps = length cs -> length (fmsgs c ps cs) = length ps.
Proof. revert c cs; induction ps as [|x ps IH]; intros c [|r cs] H; try discriminate H; cbn [fmsgs length]; [reflexivity|]. now rewrite IH by (cbn in H; lia). Qed.
Lemma fmsgs_nth : forall ps cs c i, length ps = length cs -> i < length ps ->
  nth_error (fmsgs c ps cs) i = Some (fmsg (c * eqs (firstn i ps) (firstn i cs)) (nth i ps 0)).
Proof.
  induction ps as [|x ps IH]; intros [|r cs] c i H Hi; try discriminate H; [cbn in Hi; lia|]. destruct i as [|i]; cbn [fmsgs nth_error firstn nth].
  - f_equal. f_equal. unfold eqs; cbn. ring.
  - rewrite IH by (cbn in *; lia). rewrite eqs_cons. f_equal. f_equal. ring.
Qed.
Lemma eqs_step ps cs i : length ps = length cs -> i < length ps ->
  eqs (firstn (S i) ps) (firstn (S i) cs) = eqs (firstn i ps) (firstn i cs) * eq1 (nth i ps 0) (nth i cs 0).
Proof.
  revert cs i; induction ps as [|x ps IH]; intros [|r cs] i H Hi; try discriminate H; [cbn in Hi; lia|]. destruct i as [|i].
  - cbn [firstn nth]. rewrite eqs_cons. unfold eqs; cbn. ring.
  - cbn [nth]. change (firstn (S (S i)) (x :: ps)) with (x :: firstn (S i) ps). change (firstn (S (S i)) (r :: cs)) with (r :: firstn (S i) cs).
    rewrite eqs_cons, IH by (cbn in *; lia). cbn [firstn]. rewrite eqs_cons. ring.
Qed.

(** Any prover can answer every round: whatever the challenges, the messages are consistent. *)
Lemma forge_rounds nr roots : (nr <= S (length roots))%nat -> forall k i ps c h, (i + k = nr)%nat -> length ps = k ->
  exists cs h', length cs = k /\
    forall pre post, length pre = i -> verifier_rounds dig T nr i k (pre ++ fmsgs c ps cs ++ post) roots h = Some (cs, h').
Proof.
  intros Hr. induction k as [|k IH]; intros i ps c h Hi Hl.
  - exists [], h. split; [reflexivity|]. reflexivity.
  - destruct ps as [|x ps]; [discriminate Hl|]. injection Hl as Hl. cbn [verifier_rounds].
    set (m := fmsg c x). destruct (get_challenge T lbl_commit (absorb h m)) as [r h1] eqn:Eg.
    destruct (if (i <? nr - 1)%nat then r0 <- nth_error roots i;; Some (rev (dig r0) ++ h1) else Some h1)%list as [h2|] eqn:E2.
    2: { destruct (i <? nr - 1)%nat eqn:El; [|discriminate E2]. apply Nat.ltb_lt in El.
         destruct (nth_error roots i) eqn:En; [discriminate E2|]. apply nth_error_None in En. lia. }
    destruct (IH (S i) ps (c * eq1 x r) h2 ltac:(lia) Hl) as (cs & h' & Lc & V).
    exists (r :: cs), h'. split; [cbn; lia|]. intros pre post Lp. cbn [fmsgs app].
    rewrite nth_error_app2, Lp, Nat.sub_diag by lia. cbn [nth_error obind]. fold m. rewrite Eg, E2. cbn [obind].
    specialize (V (pre ++ [m]) post). rewrite app_length, Lp in V. cbn [length] in V. rewrite <- !app_assoc in V. cbn [app] in V.
    rewrite V by lia. reflexivity.
Qed.
Lemma check_eq_refl (x : K) : check_eq (Some x) (Some x) = Some tt.
Proof. unfold check_eq; cbn [obind]. now rewrite feqb_refl. Qed.
Lemma forge_checks ps cs c final peq : length ps = length cs -> (0 < length ps)%nat -> inner_product final peq = Some (c * eqs ps cs) ->
  forall post, final_checks (fmsgs c ps cs ++ post) cs final peq c = Some tt.
Proof.
  intros Hl H0 HI post. unfold final_checks.
  assert (N : forall i, (i < length ps)%nat -> nth_error (fmsgs c ps cs ++ post) i = Some (fmsg (c * eqs (firstn i ps) (firstn i cs)) (nth i ps 0))).
  { intros i Hi. rewrite nth_error_app1 by now rewrite fmsgs_length. now apply fmsgs_nth. }
  rewrite N by lia. cbn [obind firstn]. rewrite fmsg_sum.
  replace (c * eqs [] []) with c by (unfold eqs; cbn; ring). rewrite check_eq_refl. cbn [obind].
  unfold csub. replace (1 <=? length cs)%nat with true by (symmetry; apply Nat.leb_le; lia). cbn [obind].
  rewrite (omapM_range _ (fun _ => tt)).
  - cbn [obind]. assert (Hn : (length cs - 1 < length ps)%nat) by lia. rewrite (nth_error_nth' cs 0) by lia. cbn [obind]. rewrite N by lia. cbn [obind].
    rewrite fmsg_eval, HI.
    replace (c * eqs (firstn (length cs - 1) ps) (firstn (length cs - 1) cs) * eq1 (nth (length cs - 1) ps 0) (nth (length cs - 1) cs 0))
      with (c * eqs ps cs); [apply check_eq_refl|].
    assert (E := eqs_step ps cs (length cs - 1) Hl Hn). replace (S (length cs - 1)) with (length cs) in E by lia.
    rewrite firstn_all2, firstn_all in E by lia. rewrite E. ring.
  - intros i Hi. rewrite (nth_error_nth' cs 0) by lia. cbn [obind]. rewrite !N by lia. cbn [obind].
    rewrite fmsg_eval, fmsg_sum, Nat.add_1_r, eqs_step by lia.
    match goal with |- check_eq (Some ?a) (Some ?b) = _ => replace b with a by ring end. apply check_eq_refl.
Qed.

Lemma eq_xy_eval_eqs (x y : list K) : x <> [] -> length x = length y -> eq_xy_eval x y = Some (eqs x y).
Proof. intros Hx Hl. destruct x; [easy|]. unfold eq_xy_eval. rewrite Hl, Nat.eqb_refl. reflexivity. Qed.
Lemma partial_eq_ok (point cs : list K) n : length point = (n + length cs)%nat -> (0 < length cs)%nat ->
  partial_eq_of nbits point cs = Some (map (fun e => e * eqs (rev (skipn n point)) cs) (eq_table (firstn n point))).
Proof.
  intros Hp Hc. unfold partial_eq_of, csub. rewrite Hp. replace (length cs <=? n + length cs)%nat with true by (symmetry; apply Nat.leb_le; lia).
  cbn [obind]. rewrite Nat.add_sub. rewrite eq_xy_eval_eqs.
  - cbn [obind]. rewrite build_eq_par_spec. cbn [obind]. f_equal. apply map_ext. intros e. f_equal.
    rewrite <- (rev_involutive (skipn n point)) at 1. apply eqs_rev. rewrite rev_length, skipn_length. lia.
  - intros E. apply (f_equal (@length K)) in E. rewrite skipn_length in E. cbn in E. lia.
  - rewrite skipn_length, rev_length. lia.
Qed.
(** The constant final message passes the last check. *)
Lemma const_inner (e c : K) (r : list K) : inner_product (repeat e (2 ^ length r)) (map (fun x => x * c) (eq_table r)) = Some (e * c).
Proof.
  unfold inner_product. rewrite repeat_length, map_length, eq_table_length, Nat.eqb_refl. f_equal.
  rewrite <- eq_table_length, fsum_repeat_scale, eq_table_sum. ring.
Qed.

Notation verify := (verify as_bases emb hash_bases hash_two_digests deqb dig T to_usize nbits scm).
Notation simple_batch_verify := (simple_batch_verify as_bases emb hash_bases hash_two_digests deqb dig T to_usize nbits scm).
Notation batch_verify := (batch_verify as_bases emb hash_bases hash_two_digests deqb dig T to_usize nbits scm).

(** The commitment admits points with [nv] variables. *)
Definition nv_ok (comm : commitment) (nv : nat) : Prop := @bc_nv D comm = None \/ bc_nv comm = Some nv.
Lemma nv_ok_check comm nv m : nv_ok comm nv -> (m <= nv)%nat ->
  (match bc_nv comm with Some n => ((nv =? n) && (m <=? nv))%nat | None => true end) = true.
Proof. intros [E | E] Hm; rewrite E; [reflexivity|]. rewrite Nat.eqb_refl. cbn. now apply Nat.leb_le. Qed.

(** The three verifiers share the rounds and the final checks: a forgery with claim [c] at point [point]. *)
Lemma forge_core (point : list K) (c : K) roots h : (sc_msg scm < length point)%nat -> (length point <= sc_msg scm + S (length roots))%nat ->
  exists msgs cs h', verifier_rounds dig T (length point - sc_msg scm) 0 (length point - sc_msg scm) msgs roots h = Some (cs, h') /\
    length cs = (length point - sc_msg scm)%nat /\
    exists peq, partial_eq_of nbits point cs = Some peq /\ final_checks msgs cs (repeat c (2 ^ sc_msg scm)) peq c = Some tt.
Proof.
  intros Hm Hr. set (nr := (length point - sc_msg scm)%nat). set (ps := rev (skipn (sc_msg scm) point)).
  assert (Lps : length ps = nr) by (unfold ps; rewrite rev_length, skipn_length; reflexivity).
  destruct (forge_rounds nr roots ltac:(unfold nr; lia) nr 0 ps c h eq_refl Lps) as (cs & h' & Lc & V).
  exists (fmsgs c ps cs), cs, h'. split; [|split; [exact Lc|]].
  - specialize (V [] [] eq_refl). cbn [app] in V. now rewrite app_nil_r in V.
  - eexists. split; [apply (partial_eq_ok point cs (sc_msg scm)); unfold nr in *; lia|].
    rewrite <- (app_nil_r (fmsgs c ps cs)). apply forge_checks; [lia|unfold nr in *; lia|].
    assert (L1 : length (firstn (sc_msg scm) point) = sc_msg scm) by (rewrite firstn_length; lia).
    rewrite <- L1 at 1. apply const_inner.
Qed.

Lemma no_query_forgery sched comm (point : list K) (eval : K) roots h :
  nv_ok comm (length point) -> (sc_msg scm < length point)%nat -> (length point <= sc_msg scm + S (length roots))%nat ->
  final_codeword_single scm (repeat eval (2 ^ sc_msg scm)) <> None ->
  exists msgs h', verify sched comm point eval (mkBp msgs roots (repeat eval (2 ^ sc_msg scm)) (QSingle []) None []) h = Some h'.
Proof.
  intros Hn Hm Hr Hf. destruct (forge_core point eval roots h Hm Hr) as (msgs & cs & h' & V & Lc & peq & Ep & Ef).
  exists msgs. unfold M_Basefold.verify. cbn [bp_trivial bp_msgs bp_roots bp_final bp_queries].
  rewrite nv_ok_check by (auto; lia). cbn [negb]. unfold csub. replace (sc_msg scm <=? length point)%nat with true by (symmetry; apply Nat.leb_le; lia).
  cbn [obind]. rewrite V. cbn [obind]. destruct (query_indices T to_usize scm (length point) (absorb h' (repeat eval (2 ^ sc_msg scm)))) as [ix h2] eqn:Eq.
  rewrite Ep. cbn [obind]. destruct (final_codeword_single scm (repeat eval (2 ^ sc_msg scm))) as [fc|]; [|easy].
  cbn [obind queries_check combine omapM]. rewrite Ef. cbn [obind]. now exists h2.
Qed.

Lemma challenges_length lbl n h : length (fst (challenges T lbl n h)) = n.
Proof. revert h; induction n as [|n IH]; intros h; [reflexivity|]. cbn [challenges]. destruct (get_challenge T lbl h) as [c h1]. specialize (IH h1). destruct (challenges T lbl n h1) as [cs h2]. cbn in *. lia. Qed.
Lemma pow_log2_up n : (n <= 2 ^ Nat.log2_up n)%nat.
Proof. destruct n as [|n]; [cbn; lia|]. apply Nat.log2_up_le_pow2; lia. Qed.
(** The batching weights of [simple_batch_verify] at history [h]. *)
Definition batch_weights (n : nat) (h : hist) : list K := firstn n (eq_table (fst (challenges T lbl_batch (Nat.log2_up n) h))).
Lemma batch_weights_length n h : length (batch_weights n h) = n.
Proof. unfold batch_weights. rewrite firstn_length, eq_table_length, challenges_length. pose proof (pow_log2_up n). lia. Qed.
Definition batch_claim (evals : list K) (h : hist) : K := fsum (map (fun q => fst q * snd q) (combine (batch_weights (length evals) h) evals)).

Lemma sb_no_query_forgery comm (point evals : list K) roots h :
  nv_ok comm (length point) -> bc_polys comm = None \/ bc_polys comm = Some (length evals) ->
  (sc_msg scm < length point)%nat -> (length point <= sc_msg scm + S (length roots))%nat ->
  final_codeword_batch scm (repeat (batch_claim evals h) (2 ^ sc_msg scm)) <> None ->
  exists msgs h', simple_batch_verify comm point evals
    (mkBp msgs roots (repeat (batch_claim evals h) (2 ^ sc_msg scm)) (QSimpleBatched []) None []) h = Some h'.
Proof.
  intros Hn Hp Hm Hr Hf. unfold M_Basefold.simple_batch_verify. cbn [bp_trivial bp_msgs bp_roots bp_final bp_queries].
  replace (match bc_polys comm with Some n => (n =? length evals)%nat | None => true end) with true
    by (destruct Hp as [E | E]; rewrite E; [reflexivity|now rewrite Nat.eqb_refl]). cbn [negb].
  rewrite nv_ok_check by (auto; lia). cbn [negb]. unfold csub at 1. replace (sc_msg scm <=? length point)%nat with true by (symmetry; apply Nat.leb_le; lia).
  cbn [obind]. set (n := length evals). assert (Lw := batch_weights_length n h). unfold batch_weights in Lw.
  remember (batch_claim evals h) as cl eqn:Ecl. unfold batch_claim, batch_weights in Ecl. fold n in Ecl.
  destruct (challenges T lbl_batch (Nat.log2_up n) h) as [t h0]. cbn [fst] in Lw, Ecl.
  destruct (forge_core point cl roots h0 Hm Hr) as (msgs & cs & h' & V & Lc & peq & Ep & Ef).
  exists msgs. rewrite build_eq_par_spec. cbn [obind]. unfold slice. rewrite firstn_length in Lw.
  replace ((0 <=? n) && (n <=? length (eq_table t)))%nat with true by (symmetry; apply andb_true_iff; split; apply Nat.leb_le; lia).
  rewrite Nat.sub_0_r. cbn [obind skipn]. rewrite V. cbn [obind].
  destruct (query_indices T to_usize scm (length point) (absorb h' (repeat cl (2 ^ sc_msg scm)))) as [ix h2] eqn:Eq.
  rewrite Ep. cbn [obind]. destruct (final_codeword_batch scm (repeat cl (2 ^ sc_msg scm))) as [fc|]; [|easy].
  cbn [obind sb_queries_check combine omapM]. unfold inner_product at 1. rewrite firstn_length.
  replace (Nat.min n (length (eq_table t)) =? length evals)%nat with true by (symmetry; apply Nat.eqb_eq; unfold n in *; lia).
  cbn [obind]. rewrite <- Ecl, Ef. cbn [obind]. now exists h2.
Qed.

(** ** Batch verifier *)
Fixpoint smsgs (s : K) (cs : list K) : list (list K) := match cs with [] => [] | r :: cs' => [0; s; 0] :: smsgs (s * r) cs' end.
Lemma smsgs_length s cs : length (smsgs s cs) = length cs.
Proof. revert s; induction cs as [|r cs IH]; intros s; cbn; [reflexivity|now rewrite IH]. Qed.
Lemma forge_sumcheck : forall k i s h, exists cs h', length cs = k /\
  forall pre, length pre = i -> sc_challenges T k i (pre ++ smsgs s cs) h = Some (smsgs s cs, cs, h').
Proof.
  induction k as [|k IH]; intros i s h; [exists [], h; split; reflexivity|]. cbn [sc_challenges].
  destruct (get_challenge T lbl_sumcheck (absorb h [0; s; 0])) as [r h1] eqn:Eg. destruct (IH (S i) (s * r) h1) as (cs & h' & Lc & V).
  exists (r :: cs), h'. split; [cbn; lia|]. intros pre Lp. cbn [smsgs]. rewrite nth_error_app2, Lp, Nat.sub_diag by lia. cbn [nth_error obind]. rewrite Eg.
  specialize (V (pre ++ [[0; s; 0]])%list). rewrite app_length, Lp in V. cbn [length] in V. rewrite <- app_assoc in V. cbn [app] in V. rewrite V by lia. reflexivity.
Qed.
Lemma smsgs_consistent : forall cs s,
  ofold (fun s (mc : list K * K) => x <- msg_sum (fst mc) ;; if feqb s x then Some (horner (fst mc) (snd mc)) else None) (combine (smsgs s cs) cs) s =
  Some (s * fprod cs).
Proof.
  induction cs as [|r cs IH]; intros s; cbn [smsgs combine ofold fprod]; [f_equal; ring|]. unfold msg_sum at 1. cbn [fst snd nth_error obind].
  replace (0 + fsum [0; s; 0]) with s by (cbn; ring). rewrite feqb_refl. cbn [obind].
  replace (horner [0; s; 0] r) with (s * r) by (unfold horner; cbn; ring). rewrite IH. f_equal. ring.
Qed.
Lemma forge_sc_verify n s h : exists rounds pt s' h', length pt = n /\ sc_verify T n s rounds h = Some (s', pt, h').
Proof.
  destruct (forge_sumcheck n 0 s h) as (cs & h' & Lc & V). exists (smsgs s cs), cs, (s * fprod cs), h'. split; [exact Lc|].
  unfold sc_verify. specialize (V [] eq_refl). cbn [app] in V. rewrite V. cbn [obind]. rewrite smsgs_consistent. reflexivity.
Qed.

Record batch_wf (comms : list (@commitment D)) (points : list (list K)) (evals : list (@evaluation K)) : Prop := {
  bw_comms : comms <> []; bw_points : points <> [];
  bw_nv : forall c, In c comms -> exists n, bc_nv c = Some n /\ (sc_msg scm <= n)%nat;
  bw_pt : forall p, In p points -> p <> [];
  bw_ev : forall e, In e evals -> exists p c, nth_error points (ev_point e) = Some p /\ nth_error comms (ev_poly e) = Some c /\ bc_nv c = Some (length p) }.
Definition max_vars (points : list (list K)) : nat := fold_left Nat.max (map (@length K) points) 0%nat.
Lemma fold_max_ge l a : (a <= fold_left Nat.max l a /\ forall x, In x l -> x <= fold_left Nat.max l a)%nat.
Proof.
  revert a; induction l as [|y l IH]; intros a; cbn [fold_left]; [split; [lia|intros x []]|].
  destruct (IH (Nat.max a y)) as [H1 H2]. split; [lia|]. intros x [-> | Hx]; [lia|auto].
Qed.
Lemma coeffs_ok (eq_evals : list K) : forall (l : list (@evaluation K * K)) cs,
  (forall ex, In ex l -> ev_poly (fst ex) < length cs /\ ev_point (fst ex) < length eq_evals)%nat ->
  exists cs', ofold (fun cs (ex : evaluation * K) => c <- nth_error cs (ev_poly (fst ex)) ;; q <- nth_error eq_evals (ev_point (fst ex)) ;;
                     Some (upd (ev_poly (fst ex)) (c + q * snd ex) cs)) l cs = Some cs'.
Proof.
  induction l as [|ex l IH]; intros cs H; [now exists cs|]. cbn [ofold]. destruct (H ex (or_introl eq_refl)) as [H1 H2].
  rewrite (nth_error_nth' cs 0) by lia. rewrite (nth_error_nth' eq_evals 0) by lia. cbn [obind]. apply IH. intros ex' Hx. rewrite upd_length. apply H. now right.
Qed.
Lemma omapM_def {A C} (f : A -> option C) l : (forall x, In x l -> f x <> None) -> exists r, omapM f l = Some r /\ length r = length l.
Proof.
  induction l as [|a l IH]; intros H; [exists []; auto|]. cbn [omapM]. destruct (f a) as [b|] eqn:E; [|exfalso; now apply (H a (or_introl eq_refl))].
  destruct IH as (r & -> & Lr); [intros x Hx; apply H; now right|]. exists (b :: r). cbn. auto.
Qed.
Lemma batch_no_query_forgery comms points evals roots h :
  batch_wf comms points evals -> (sc_msg scm < max_vars points)%nat -> (max_vars points <= sc_msg scm + S (length roots))%nat ->
  (forall c : K, final_codeword_batch scm (repeat c (2 ^ sc_msg scm)) <> None) ->
  exists msgs rounds final h', batch_verify comms points evals (mkBp msgs roots final (QBatched []) (Some rounds) []) h = Some h'.
Proof.
  intros W Hm Hr Hf. unfold M_Basefold.batch_verify. fold (max_vars points). set (nv := max_vars points) in *. cbn [bp_trivial bp_msgs bp_roots bp_final bp_queries bp_sumcheck].
  assert (Hc := bw_comms _ _ _ W). assert (Hpt := bw_points _ _ _ W).
  destruct (Nat.eqb_spec (length comms) 0) as [Z | _]; [destruct comms; [easy|discriminate Z]|].
  destruct (Nat.eqb_spec (length points) 0) as [Z | _]; [destruct points; [easy|discriminate Z]|]. cbn [andb].
  unfold csub at 1. replace (sc_msg scm <=? nv)%nat with true by (symmetry; apply Nat.leb_le; lia). cbn [obind].
  destruct (omapM_def bc_nv comms) as (pnv & Epnv & Lpnv).
  { intros c Hin E. destruct (bw_nv _ _ _ W c Hin) as (n & E' & _). congruence. }
  rewrite Epnv. cbn [obind]. assert (Hpnv := omapM_nth bc_nv comms pnv Epnv).
  destruct (omapM_def (fun e => p <- nth_error points (ev_point e) ;; n <- nth_error pnv (ev_poly e) ;; if (length p =? n)%nat then Some tt else None) evals) as (u & Eu & _).
  { intros e Hin. destruct (bw_ev _ _ _ W e Hin) as (pt & c & -> & E2 & E3). cbn [obind]. destruct Hpnv as [_ Hx]. destruct (Hx _ _ E2) as (y & -> & E4).
    cbn [obind]. rewrite E3 in E4. injection E4 as <-. now rewrite Nat.eqb_refl. }
  rewrite Eu. cbn [obind].
  assert (F : forallb (fun n => sc_msg scm <=? n)%nat pnv = true).
  { apply forallb_forall. intros n Hin. destruct (omapM_in_r _ _ _ _ Epnv Hin) as (c & Hcin & Ec). destruct (bw_nv _ _ _ W c Hcin) as (n' & E' & Hn'). apply Nat.leb_le. congruence. }
  rewrite F. cbn [negb Nat.eqb length].
  destruct (challenges T lbl_batch (Nat.log2_up (length evals)) h) as [t h1] eqn:Et.
  assert (Lt : length t = Nat.log2_up (length evals)) by (pose proof (challenges_length lbl_batch (Nat.log2_up (length evals)) h) as L; rewrite Et in L; exact L).
  rewrite build_eq_par_spec. cbn [obind].
  destruct (omapM_def (fun e => p <- nth_error points (ev_point e) ;; Some (@fnat K (2 ^ (nv - length p)))) evals) as (sca & Es & Ls).
  { intros e Hin. destruct (bw_ev _ _ _ W e Hin) as (pt & c & -> & _). easy. }
  rewrite Es. cbn [obind]. unfold inner_product_three. rewrite map_length, Ls, Nat.eqb_refl, firstn_length, eq_table_length, Lt.
  pose proof (pow_log2_up (length evals)) as Hp2. rewrite Nat.min_l, Nat.eqb_refl by lia. cbn [andb obind].
  match goal with |- context [sc_verify T nv ?s _ h1] => destruct (forge_sc_verify nv s h1) as (rounds & pt & s' & h2 & Lpt & Ev) end.
  destruct (omapM_def (fun p => eq_xy_eval (firstn (length p) pt) p) points) as (eqe & Ee & Le).
  { intros q Hin. assert (Hq := bw_pt _ _ _ W q Hin). destruct (fold_max_ge (map (@length K) points) 0) as [_ Hmx].
    specialize (Hmx (length q) (in_map _ _ _ Hin)). fold (max_vars points) in Hmx. fold nv in Hmx.
    assert (L1 : length (firstn (length q) pt) = length q) by (rewrite firstn_length; lia).
    rewrite eq_xy_eval_eqs; [easy| |exact L1]. intros E0. rewrite E0 in L1. destruct q; [easy|discriminate L1]. }
  destruct (coeffs_ok eqe (combine evals (eq_table t)) (repeat 0 (length comms))) as (coe & Ec).
  { intros [e x] Hin. apply in_combine_l in Hin. cbn [fst]. destruct (bw_ev _ _ _ W e Hin) as (q & c & E1 & E2 & _). rewrite repeat_length, Le.
    split; [now apply nth_error_Some; rewrite E2|now apply nth_error_Some; rewrite E1]. }
  destruct (forge_core pt s' roots h2 ltac:(lia) ltac:(lia)) as (msgs & cs & h3 & V & Lc & peq & Ep & Ef). rewrite Lpt in V.
  destruct (query_indices T to_usize scm nv (absorb h3 (repeat s' (2 ^ sc_msg scm)))) as [ix h4] eqn:Eq.
  destruct (final_codeword_batch scm (repeat s' (2 ^ sc_msg scm))) as [fc|] eqn:Efc; [|exfalso; exact (Hf s' Efc)].
  exists msgs, rounds, (repeat s' (2 ^ sc_msg scm)), h4.
  rewrite Ev. cbn [obind]. rewrite Ee. cbn [obind]. rewrite Ec. cbn [obind]. rewrite V. cbn [obind]. rewrite Eq, Ep. cbn [obind]. rewrite Efc.
  cbn [obind b_queries_check combine omapM]. rewrite Ef. reflexivity.
Qed.
End PB.
