(** Proofs about the proof of requantisation: forgery with evaluations that have no commitment, soundness of the layer. *)
From Coq Require Import List Arith Lia Bool ZArith Ring Field Znumtheory.
From Verif Require Import ListAux FieldDef PolyList MleMath M_Mle P_Mle P_Eq M_Interp P_Interp M_Sumcheck P_ScVerify P_ScProve P_ScProve2 P_ScBatch P_ScFinal M_ScParallel
  P_ScParallel P_ScApi M_SamePoly P_SamePoly M_LogUp P_LogUp3 P_LogUp4 P_LogUp8 P_LogUp9 M_Tensor P_Tensor M_Layers P_Layers P_Layers2 P_Layers3 P_Transformer P_Transformer2 M_Sop P_Sop P_Code3
  M_Tables P_Tables P_Tables2 M_Quant M_Requant P_Requant P_Requant2 P_Pooling P_Pooling2 M_RequantP P_RequantP.
From Verif Require M_Basefold P_Basefold.
Import ListNotations.

Section P.
Context {K : field} {C : Type}.
Local Open Scope F_scope.
Add Field Kf_rqp2 : (fth K).

Lemma peval_app (a b : list K) x : peval (a ++ b) x = peval a x + fpow x (length a) * peval b x.
Proof. induction a as [|c a IH]; cbn [app peval length fpow]; [ring|]. rewrite IH. ring. Qed.
Lemma digits_app B (a b : list K) : digits_f B (a ++ b) = digits_f B a + fpow (fZ (2 ^ Z.of_nat B)) (length a) * digits_f B b.
Proof. induction a as [|c a IH]; cbn [app digits_f length fpow]; [ring|]. rewrite IH. ring. Qed.
(** Two more evaluations whose recombination is zero. *)
Lemma recombine_pad B r (c v : K) (vs : list K) :
  recombine_claims B r c (vs ++ [- (fZ (2 ^ Z.of_nat B)) * v; v]) = recombine_claims B r c vs.
Proof.
  unfold recombine_claims. destruct (rq_shift r) as [|sh]; [reflexivity|]. destruct (64 <=? S sh)%nat; [reflexivity|].
  match goal with |- (let '(_, _) := ?A in _) = (let '(_, _) := ?D in _) => assert (Q : fst A = fst D); [|destruct A as [a w], D as [d w']; cbn [fst] in Q; rewrite Q; reflexivity] end.
  rewrite !recombine_fold, digits_app. cbn [digits_f]. ring.
Qed.

(** With honest lookup proofs and two more evaluations than there are commitments, every output claim is accepted; every claim it
    leads to is true. *)
Lemma rqp_forge (T : @hist K -> K) B r cst csc n (last : claim) (pf1 pf2 : @logup_proof K) (comms : list C) h p q vi vo vs n1 d1 h1 n2 d2 h2 cin cout chs next :
  char_gt K 2 -> (0 < n)%nat -> length p = n -> length q = n -> length (cl_point last) = n -> vs <> [] ->
  verify_logup T pf1 1 cst csc h = Some ([mkClaim p vi; mkClaim p vo], n1, d1, h1) ->
  verify_logup T pf2 (rq_shift r / B)%nat cst 1 h1 = Some (map (mkClaim q) vs, n2, d2, h2) ->
  Forall (fun c => length c = (2 ^ n)%nat) (cin :: cout :: chs) -> length comms = S (S (length chs)) ->
  let a := T (EvBytes lbl_requant :: h2) in let h3 := EvSample :: EvBytes lbl_requant :: h2 in
  let sc := mkProof [] (bogus_messages T (peval (cl_eval last :: vo :: vi :: vs) a) n 2 h3) in
  let zp := sc_point T n 2 h3 sc in
  (forall x, In x zp -> not_node 2 x) -> a <> 0 -> a <> fZ (2 ^ Z.of_nat B) -> eqp q zp <> 0 ->
  recombine_claims B r (mle cin zp) (evals_at chs zp) = Some next ->
  exists pf wit h', rp_clamping pf = pf1 /\ rp_shifted pf = pf2 /\ rp_comms pf = comms /\
    rqp_verify T B r cst csc last pf h = Some (wit, mkClaim zp next, h') /\ map fst wit = comms /\
    Forall2 claim_true (cin :: cout :: chs) (map snd wit).
Proof.
  intros Hch Hn Lp Lq Ll Hvs E1 E2 Lcols Lcm a h3 sc zp Hnode Na Nb Nq Hnext.
  destruct (bogus_verify T (peval (cl_eval last :: vo :: vi :: vs) a) n 2 h3 [] Hch ltac:(lia) Hn Hnode) as (e & h' & Ev). fold sc in Ev. fold zp in Ev.
  assert (Lz : length zp = n) by (unfold zp, sc_point; rewrite map_length, seq_length; auto).
  set (b := fZ (2 ^ Z.of_nat B)) in *. set (w0 := mle cin zp) in *. set (w1 := mle cout zp) in *. set (ws := evals_at chs zp) in *.
  assert (Lws : length ws = length chs) by (unfold ws, evals_at; now rewrite map_length).
  set (base := rq_calc a (eqp (cl_point last) zp) (eqp p zp) (eqp q zp) w0 w1 ws).
  set (v2 := (e - base) * / (a * a * a * (eqp q zp * (fpow a (length ws) * (a - b))))).
  set (evals := w0 :: w1 :: ws ++ [- b * v2; v2]).
  exists (mkRqp sc evals pf1 pf2 comms). do 2 eexists. split; [reflexivity|]. split; [reflexivity|]. split; [reflexivity|].
  unfold rqp_verify. cbn [rp_clamping rp_shifted rp_evals rp_acc rp_comms]. rewrite E1. cbn [obind]. rewrite E2. cbn [obind]. unfold get_challenge. fold a h3.
  destruct vs as [|v0 vs0] eqn:Evs; [now destruct Hvs|]. rewrite <- Evs in *. assert (Es0 : nth_error (map (mkClaim q) vs) 0 = Some (mkClaim q v0)) by (rewrite Evs; reflexivity).
  rewrite Es0. cbn [nth_error obind cl_point cl_eval]. rewrite map_map. cbn [cl_eval]. rewrite map_id, initial_ok, Lp, Ev. cbn [obind].
  rewrite (eq_xy_ok (cl_point last) zp), (eq_xy_ok p zp), (eq_xy_ok q zp) by first [congruence|intros X; match goal with H : length ?l = n |- _ => match type of X with l = _ => rewrite X in H; cbn [length] in H; lia end end]. cbn [obind]. unfold evals at 1 2. cbn [nth_error obind]. replace (skipn 2 evals) with (ws ++ [- b * v2; v2]) by reflexivity.
  assert (Q : rq_calc a (eqp (cl_point last) zp) (eqp p zp) (eqp q zp) w0 w1 (ws ++ [- b * v2; v2]) = e).
  { assert (D : a - b <> 0) by (intros X; apply Nb; now apply fsub_0). pose proof (fpow_neq_0 a (length ws) Na) as Nf.
    rewrite calc_ok, peval_app. cbn [peval].
    transitivity (base + a * a * a * (eqp q zp * (fpow a (length ws) * (a - b))) * v2); [unfold base; rewrite calc_ok; ring|].
    unfold v2. field. repeat split; auto. }
  rewrite Q. replace (e =? e) with true by (symmetry; apply feqb_refl). unfold b. rewrite recombine_pad. fold b. rewrite Hnext. cbn [obind].
  split; [reflexivity|].
  assert (Cm : combine evals comms = combine (w0 :: w1 :: ws) comms).
  { unfold evals. clear - Lws Lcm. change (w0 :: w1 :: ws ++ [- b * v2; v2]) with ((w0 :: w1 :: ws) ++ [- b * v2; v2]).
    assert (L : length comms = length (w0 :: w1 :: ws)) by (cbn [length]; lia). revert L. generalize (w0 :: w1 :: ws). intros l. revert comms Lcm. induction l as [|x l IH]; intros [|c comms] Lcm L; cbn [length] in L; try discriminate L; [reflexivity|].
    cbn [app combine]. f_equal. clear Lcm. assert (L' : length comms = length l) by lia. clear - L' IH. revert comms L'. clear IH. induction l as [|x l IH]; intros [|c comms] L; cbn [length] in L; try discriminate L; [reflexivity|]. cbn [app combine]. f_equal. apply IH. lia. }
  rewrite Cm, !map_map. cbn [fst snd].
  split.
  - assert (L : length (w0 :: w1 :: ws) = length comms) by (cbn [length]; lia). revert L. generalize (w0 :: w1 :: ws). clear. intros l. revert comms. induction l as [|x l IH]; intros [|c comms] L; cbn [length] in L; try discriminate L; [reflexivity|].
    cbn [combine map snd]. f_equal. apply IH. lia.
  - change (w0 :: w1 :: ws) with (evals_at (cin :: cout :: chs) zp). assert (L : length comms = length (cin :: cout :: chs)) by (cbn [length]; lia).
    revert L Lcols. generalize (cin :: cout :: chs). clear - Lz. intros l. revert comms. induction l as [|x l IH]; intros [|c comms] L Lc; cbn [length] in L; try discriminate L; cbn [evals_at map combine]; constructor.
    + inversion Lc as [|? ? Q _]. split; cbn [cl_point cl_eval fst]; [rewrite Q, Lz|]; reflexivity.
    + inversion Lc as [|? ? _ Q]. apply IH; [lia|exact Q].
Qed.
(** ** The layer *)
(** Integers below [P] in absolute value are told apart by the field: true with [P] the characteristic. *)
Definition small_inj (P : Z) : Prop := forall z : Z, fZ z = (0 : K) -> (Z.abs z < P)%Z -> z = 0%Z.

Lemma requant_entry P B r v V c ch cs k : small_inj P ->
  (0 < B)%nat -> rq_shift r = (k * B)%nat -> (0 < rq_shift r < 64)%nat -> (0 < rq_fpm r < P)%Z -> (Z.abs v <= V)%Z ->
  length ch = k -> Forall (in_range B) ch -> (- 2 ^ Z.of_nat cs <= c < 2 ^ Z.of_nat cs)%Z ->
  (V * rq_fpm r + zpow2 (rq_shift r) + zpow2 (cs + rq_shift r) <= P)%Z ->
  (fZ (2 ^ Z.of_nat (rq_shift r)) * fZ c + digits_f B (map fZ ch) - fZ (2 ^ Z.of_nat (rq_shift r - 1))) * / fZ (rq_fpm r) = (fZ v : K) ->
  rounds (v * rq_fpm r) (zpow2 (rq_shift r)) c.
Proof.
  intros HI HB Hk Hs Hf Hv Hl Hc Hcs Hb H.
  assert (Hfn : fZ (rq_fpm r) <> (0 : K)) by (intros X; apply HI in X; lia).
  rewrite digits_f_fZ in H.
  assert (E : fZ (v * rq_fpm r - (2 ^ Z.of_nat (rq_shift r) * c + digits_val B ch - 2 ^ Z.of_nat (rq_shift r - 1))) = (0 : K)).
  { rewrite fZ_sub, fZ_mul, <- H, fZ_sub, fZ_add, fZ_mul. field. exact Hfn. }
  pose proof (digits_bound B ch Hc) as D. rewrite Hl, <- Hk in D.
  unfold zpow2 in *. rewrite Nat2Z.inj_add, Z.pow_add_r in Hb by lia. unfold rounds.
  destruct (rq_shift r) as [|sh] eqn:Es; [lia|]. replace (S sh - 1)%nat with sh in E by lia. rewrite zpow_S in *. pose proof (zpow_pos sh) as PP.
  set (hh := (2 ^ Z.of_nat sh)%Z) in *. set (M := (2 ^ Z.of_nat cs)%Z) in *. set (d := digits_val B ch) in *. set (f := rq_fpm r) in *.
  assert (Hvf : (Z.abs (v * f) <= V * f)%Z) by (rewrite Z.abs_mul; nia).
  assert (Hcm : (- (M * (2 * hh)) <= 2 * hh * c <= M * (2 * hh) - 2 * hh)%Z) by nia.
  pose proof (HI _ E) as E0. assert (E1 : (v * f - (2 * hh * c + d - hh) = 0)%Z) by (apply E0; lia). clear E E0. clearbody hh M d f. nia.
Qed.

(** The rows of the two lookups: clamping input, clamping output, chunks. *)
Definition row := (Z * Z * list Z)%type.
Definition r_in (w : row) : Z := fst (fst w).
Definition r_out (w : row) : Z := snd (fst w).
Definition col (f : row -> Z) (ws : list row) : list K := map (fun w => fZ (f w)) ws.
Definition chunk_cols (k : nat) (ws : list row) : list (list K) := map (fun j => col (fun w => nth j (snd w) 0%Z) ws) (seq 0 k).
Definition recombined (B : nat) (r : requant) (ws : list row) : list K :=
  map (fun w => (fZ (2 ^ Z.of_nat (rq_shift r)) * fZ (r_in w) + digits_f B (map fZ (snd w)) - fZ (2 ^ Z.of_nat (rq_shift r - 1))) * / fZ (rq_fpm r)) ws.

Lemma recombined_mle B r ws pt k : (0 < rq_shift r < 64)%nat -> fZ (rq_fpm r) <> (0 : K) -> length ws = (2 ^ length pt)%nat -> Forall (fun w : row => length (snd w) = k) ws ->
  recombine_claims B r (mle (col r_in ws) pt) (evals_at (chunk_cols k ws) pt) = Some (mle (recombined B r ws) pt).
Proof.
  intros Hs Hf L Hk. unfold evals_at. apply recombine_mle. intros i Hi. rewrite <- L in Hi.
  unfold chunk_cols. rewrite map_map. unfold col, recombined. rewrite !(nth_map_lt _ ws i (0%Z, 0%Z, [])) by lia.
  rewrite (map_ext_in _ (fun j => fZ (nth j (snd (nth i ws (0%Z, 0%Z, []))) 0%Z))).
  2: { intros j _. rewrite (nth_map_lt _ ws i (0%Z, 0%Z, [])) by lia. reflexivity. }
  rewrite recombine_val by auto. rewrite <- (map_map (fun j => nth j (snd (nth i ws (0%Z, 0%Z, []))) 0%Z) fZ).
  assert (Lk : length (snd (nth i ws (0%Z, 0%Z, []))) = k). { rewrite Forall_forall in Hk. apply Hk. apply nth_In. exact Hi. }
  replace (map (fun j => nth j (snd (nth i ws (0%Z, 0%Z, []))) 0%Z) (seq 0 k)) with (snd (nth i ws (0%Z, 0%Z, []))); [reflexivity|].
  symmetry. apply nth_ext_all with (d := 0%Z); [rewrite map_length, seq_length; auto|]. intros j Hj. rewrite map_length, seq_length in Hj. rewrite nth_map_seq by auto. reflexivity.
Qed.

(** What the layer computes, entry by entry: round to nearest, then clamp. *)
Definition requantised (B : nat) (r : requant) (v y : Z) : Prop :=
  exists u, rounds (v * rq_fpm r) (zpow2 (rq_shift r)) u /\ y = z_clamp (- q_max B) (q_max B) u.

Lemma rqp_layer_sound (T : @hist K -> K) P B FL ls r cst csc cs rows k n (last : claim) (pf : @requant_proof K C) h p q vi vo vs n1 d1 h1 n2 d2 h2 wit nc h' (ws : list row) (vals : list Z) V :
  small_inj P -> char_gt K 2 -> (0 < n)%nat -> length p = n -> vs <> [] -> length vs = k ->
  (0 < B)%nat -> rq_shift r = (k * B)%nat -> (0 < rq_shift r < 64)%nat -> (0 < rq_fpm r < P)%Z -> (0 < cs)%nat ->
  (V * rq_fpm r + zpow2 (rq_shift r) + zpow2 (cs - 1 + rq_shift r) <= P)%Z ->
  verify_logup T (rp_clamping pf) 1 cst csc h = Some ([mkClaim p vi; mkClaim p vo], n1, d1, h1) ->
  verify_logup T (rp_shifted pf) (rq_shift r / B)%nat cst 1 h1 = Some (map (mkClaim q) vs, n2, d2, h2) ->
  rqp_verify T B r cst csc last pf h = Some (wit, nc, h') -> length (rp_evals pf) = S (S (length vs)) ->
  Forall2 claim_true (col r_in ws :: col r_out ws :: chunk_cols k ws) (map snd wit) ->
  table_rows B FL ls (TClamping cs) = Some rows ->
  Forall (fun w => In [r_in w; r_out w] rows /\ length (snd w) = k /\ Forall (in_range B) (snd w)) ws ->
  claim_true (map fZ vals) nc -> Forall (fun v => (Z.abs v <= V)%Z) vals ->
  (exists ys, Forall2 (requantised B r) vals ys /\ claim_true (map fZ ys) last) \/
  rq_fooled T n (cl_point last) p q (cl_eval last) vo vi vs (col r_in ws) (col r_out ws) (chunk_cols k ws) pf h2 \/
  table_event (err n (recombined B r ws) (map fZ vals)) (cl_point nc).
Proof.
  intros HI Hch Hn Lp Hvs Lvs HB Hk Hs Hf Hcs Hb E1 E2 Hv Le Hw Ht Hrow [Lnc Hnc] Hval.
  assert (Lch : length (chunk_cols k ws) = length vs) by (unfold chunk_cols; rewrite map_length, seq_length; auto).
  destruct (rqp_sound T B r cst csc n last pf h p q vi vo vs n1 d1 h1 n2 d2 h2 wit nc h' (col r_in ws) (col r_out ws) (chunk_cols k ws)) as [(Hl & _ & _ & _ & Hzp & Hr)|Hfool]; auto.
  assert (Lz : length (cl_point nc) = n) by (rewrite Hzp; unfold sc_point; rewrite map_length, seq_length; auto).
  assert (Lws : length ws = (2 ^ n)%nat).
  { unfold rqp_verify in Hv. rewrite E1 in Hv. cbn [obind] in Hv. rewrite E2 in Hv. cbn [obind] in Hv.
    inversion Hw as [|? ? ? ? [Q _] _]. subst. unfold col in Q. rewrite map_length in Q. rewrite Q. f_equal.
    match goal with H : _ :: _ = map snd wit |- _ => rename H into Em end.
    destruct wit as [|w0 wit0]; [discriminate Em|]. cbn [map] in Em. injection Em as Em _.
    destruct (get_challenge T lbl_requant h2) as [bc h3].
    repeat match type of Hv with
    | obind ?x _ = Some _ => destruct x; [cbn [obind] in Hv|discriminate Hv]
    | (let '(_, _) := ?x in _) = Some _ => destruct x
    | (if ?x then _ else _) = Some _ => destruct x; [|discriminate Hv]
    end.
    assert (Ewit : w0 :: wit0 = map (fun p0 => (snd p0, mkClaim (cl_point nc) (fst p0))) (combine (rp_evals pf) (rp_comms pf))).
    { match type of Hv with Some (?x, ?y, _) = _ => assert (Q1 : y = nc) by congruence; assert (Q2 : x = w0 :: wit0) by congruence end. rewrite <- Q2, <- Q1. reflexivity. }
    destruct (combine (rp_evals pf) (rp_comms pf)) as [|cc0 cc]; [discriminate Ewit|]. cbn [map] in Ewit. injection Ewit as Ewit _. rewrite Em, Ewit. cbn [snd cl_point]. exact Lz. }
  assert (Hfn : fZ (rq_fpm r) <> (0 : K)) by (intros X; apply HI in X; lia).
  rewrite recombined_mle in Hr; auto; [|rewrite Lz; exact Lws|eapply Forall_impl; [|exact Hrow]; cbv beta; tauto].
  assert (Em : mle (err n (recombined B r ws) (map fZ vals)) (cl_point nc) = 0).
  { rewrite mle_err by exact Lz. assert (Q : mle (recombined B r ws) (cl_point nc) = cl_eval nc) by congruence. rewrite Q, Hnc. ring. }
  destruct (all0_dec (err n (recombined B r ws) (map fZ vals))) as [H0|H0]; [|right; right; split; auto].
  left. rewrite map_length, Lz in Lnc. exists (map r_out ws). split.
  - assert (HE : forall i, (i < 2 ^ n)%nat -> requantised B r (nth i vals 0%Z) (r_out (nth i ws (0%Z, 0%Z, [])))).
    { intros i Hi. pose proof (all0_nth (err n (recombined B r ws) (map fZ vals)) i H0) as Q. unfold err in Q. rewrite nth_map_seq in Q by exact Hi. apply fsub_0 in Q.
      unfold recombined in Q. rewrite (nth_map_lt _ ws i (0%Z, 0%Z, [])) in Q by lia. rewrite (nth_map_lt _ vals i 0%Z) in Q by lia.
      set (w := nth i ws (0%Z, 0%Z, [])) in *. rewrite Forall_forall in Hrow. destruct (Hrow w) as (Hin & Lk & Hr2); [apply nth_In; lia|].
      destruct (coverage B FL ls (TClamping cs)) as (rows' & Er & Hrow'); auto; [discriminate|]. rewrite Ht in Er. assert (rows' = rows) by congruence. subst rows'.
      apply Hrow' in Hin. cbn [table_spec] in Hin. destruct Hin as (c' & Hc' & Ec). assert (Ex : r_in w = c') by congruence.
      assert (Eo : r_out w = z_clamp (- q_max B) (q_max B) (r_in w)) by (rewrite Ex; unfold z_clamp, q_max; congruence).
      rewrite <- Ex in Hc'. replace (Z.of_nat cs - 1)%Z with (Z.of_nat (cs - 1)) in Hc' by lia.
      exists (r_in w). split; [|exact Eo]. apply (requant_entry P B r (nth i vals 0%Z) V (r_in w) (snd w) (cs - 1) k); auto.
      rewrite Forall_forall in Hval. apply Hval. apply nth_In. lia. }
    clear - HE Lnc Lws. assert (L : length vals = length ws) by lia. rewrite <- Lnc in HE. clear Lnc Lws. revert ws L HE. induction vals as [|v t IH]; intros [|w ws] L HE; cbn [length] in L; try discriminate L; cbn [map]; constructor.
    + exact (HE 0%nat ltac:(cbn [length]; lia)).
    + apply IH; [lia|]. intros i Hi. exact (HE (S i) ltac:(cbn [length]; lia)).
  - unfold col in Hl. rewrite map_map. exact Hl.
Qed.
(** The outputs are those of the layer's evaluation. *)
Lemma requantised_op B r vals ys outs : Forall2 (requantised B r) vals ys -> rq_op B r vals = Some outs -> (0 < B)%nat -> ys = outs.
Proof.
  intros H Ho HB. apply op_tensor in Ho. revert outs Ho. induction H as [|v y vals ys (u & Hu & ->) H IH]; intros outs Ho; inversion Ho as [|? y' ? outs' Hy Ho']; [reflexivity|].
  f_equal; [|now apply IH]. apply op_rounds in Hy; auto. destruct Hy as (_ & u' & Hu' & ->). f_equal. apply (rounds_unique _ _ _ _ (zpow_pos _) Hu Hu').
Qed.
End P.
