(** The pooling prover: every run whose columns fit the input in the sense that the verifier checks is accepted. *)
From Coq Require Import List Arith Lia Bool ZArith Ring Field.
From Verif Require Import ListAux FieldDef PolyList MleMath M_Mle P_Mle P_Eq M_Interp P_Interp M_Sumcheck P_ScVerify P_ScProve P_ScProve2 P_ScBatch P_ScFinal M_ScParallel
  P_ScParallel P_ScApi M_SamePoly P_SamePoly M_LogUp P_LogUp3 P_LogUp4 P_LogUp8 P_LogUp9 M_Tensor P_Tensor M_Layers P_Layers P_Layers2 P_Layers3 M_Sop P_Sop P_Code3 M_Pooling P_Pooling M_Pool P_Pool P_Tensor2 P_Pad2 P_Tensor3.
From Verif Require M_Basefold P_Basefold.
Import ListNotations.

Section P.
Context {K : field} {C : Type}.
Local Open Scope F_scope.
Add Field Kf_pool2 : (fth K).

(** The relation between input, columns and output that the input claim stands for. *)
Definition pool_rel (g n : nat) (d0 d1 d2 d3 out X : list K) : Prop :=
  forall i, (i < 2 ^ n)%nat ->
     nth i out 0 - nth i d0 0 = nth i (strided g n 0 X) 0 /\ nth i out 0 - nth i d3 0 = nth i (strided g n 3 X) 0 /\
     (nth i out 0 - nth i d1 0) + (nth i out 0 - nth i d2 0) = nth i (strided g n 1 X) 0 + nth i (strided g n 2 X) 0.

Lemma pool_claim_true g n d0 d1 d2 d3 out X zp r : length zp = n -> (g <= n)%nat -> length X = (2 ^ S (S n))%nat -> pool_rel g n d0 d1 d2 d3 out X ->
  claim_true X (mkClaim ([r] ++ firstn g zp ++ [r] ++ skipn g zp) (input_eval r r (mle out zp) [mle d0 zp; mle d1 zp; mle d2 zp; mle d3 zp])).
Proof.
  intros Lz Hg LX HR. split; cbn [cl_point cl_eval].
  - rewrite LX. f_equal. rewrite !app_length. cbn [length]. rewrite firstn_length, skipn_length. lia.
  - rewrite (mle_input_point g n) by auto. unfold input_eval, multiplicands. cbn [combine fold_left fst snd].
    assert (H0 : mle out zp - mle d0 zp = mle (strided g n 0 X) zp) by (unfold mle; rewrite <- mlef_sub; apply mlef_ext; intros i Hi; rewrite Lz in Hi; apply (HR i Hi)).
    assert (H3 : mle out zp - mle d3 zp = mle (strided g n 3 X) zp) by (unfold mle; rewrite <- mlef_sub; apply mlef_ext; intros i Hi; rewrite Lz in Hi; apply (HR i Hi)).
    assert (H12 : (mle out zp - mle d1 zp) + (mle out zp - mle d2 zp) = mle (strided g n 1 X) zp + mle (strided g n 2 X) zp).
    { unfold mle. rewrite <- !mlef_sub, <- !mlef_add. apply mlef_ext; intros i Hi; rewrite Lz in Hi; apply (HR i Hi). }
    rewrite <- H0, <- H3.
    transitivity ((1 - r) * (1 - r) * (mle out zp - mle d0 zp) + (1 - r) * r * ((mle out zp - mle d1 zp) + (mle out zp - mle d2 zp)) + r * r * (mle out zp - mle d3 zp)); [ring|].
    rewrite H12. ring.
Qed.

Lemma mle_eq_table (r x : list K) : length r = length x -> mle (eq_table r) x = eqp r x.
Proof. intros L. unfold mle. rewrite <- mlef_eqw by auto. apply mlef_ext. intros i Hi. apply eq_table_at. now rewrite L. Qed.

Lemma pool_complete (T : @hist K -> K) ncpus scl esl sc cst csc k c0 c1 w g (d0 d1 d2 d3 : list K) (comms : list C) (input output : ten K) (last : claim) h :
  let n := S (S k) in
  char_gt K 5 -> (0 < ncpus)%nat ->
  (forall d, In d [d0; d1; d2; d3; dat output] -> length d = (2 ^ n)%nat) -> length comms = 5%nat ->
  sh input = [c0; c1; w] -> ceil_log2 w = Some (S g) -> (g <= n)%nat ->
  claim_true (dat output) last -> length (cl_point last) = n ->
  (forall i, (i < 2 ^ n)%nat -> nth i d0 0 * nth i d1 0 * nth i d2 0 * nth i d3 0 = 0) ->
  logup_scheds true (S k) 4 scl -> valid_sched n esl ->
  (forall i, (i < n)%nat -> valid_rsched (sop_shape (K := K) n 7 (map snd (pool_terms 4 (0 : K)))) i (sc i)) ->
  exists wit cin pf h', pool_prove T ncpus scl esl sc n 4 cst csc [d0; d1; d2; d3] comms input output last h = Some (wit, cin, pf, h') /\
    map fst wit = comms /\ Forall2 claim_true [d0; d1; d2; d3; dat output] (map snd wit) /\
    pl_comms pf = comms /\ pl_gap pf = g /\ length (pl_evals pf) = 5%nat /\
    (forall X, length X = (2 ^ S (S n))%nat -> pool_rel g n d0 d1 d2 d3 (dat output) X -> claim_true X cin) /\
    ((forall p r, In p (lp_sumchecks (pl_lookup pf)) -> In r (pf_point p) -> not_node 3 r) -> (forall r, In r (pf_point (pl_sumcheck pf)) -> not_node 5 r) ->
     pool_verify T cst csc n last pf h = Some (wit, cin, h')).
Proof.
  intros n Hch Hnc Hd Hcm Si Hw Hg [_ El] Ll Hz Hsl Hes Hsc. set (out := dat output) in *.
  assert (L0 : length d0 = (2 ^ n)%nat) by (apply Hd; cbn; auto). assert (L1 : length d1 = (2 ^ n)%nat) by (apply Hd; cbn; auto). assert (L2 : length d2 = (2 ^ n)%nat) by (apply Hd; cbn; auto).
  assert (L3 : length d3 = (2 ^ n)%nat) by (apply Hd; cbn; auto). assert (Lo : length out = (2 ^ n)%nat) by (apply Hd; cbn; auto 6).
  destruct (lookup_complete_p T ncpus scl esl k 1 [[d0]; [d1]; [d2]; [d3]] cst csc h) as (lp & h1 & nums & dens & pt & Elp & Ecl & Lpt & _ & _ & _ & _ & Hver0); auto.
  { apply (char_gt_le K 5); auto. }
  { discriminate. }
  { intros cs [<-|[<-|[<-|[<-|[]]]]]; (split; [reflexivity|]); intros c [<-|[]]; auto. }
  cbn [concat app] in Elp. cbn [concat app map] in Ecl. cbn [length] in Hver0.
  destruct comms as [|k0 [|k1 [|k2 [|k3 [|k4 [|? ?]]]]]]; try discriminate Hcm. clear Hcm.
  unfold pool_prove. rewrite Si. cbn [length Nat.eqb]. rewrite Elp. cbn [obind omapM]. unfold from_evaluations_vec at 1 2 3 4. rewrite L0, L1, L2, L3, Nat.eqb_refl. cbn [obind].
  rewrite Ecl. cbn [nth_error obind cl_point]. unfold get_challenge. set (a := T (EvBytes lbl_pool :: h1)). set (h2 := EvSample :: EvBytes lbl_pool :: h1).
  rewrite !compute_betas_spec. unfold from_evaluations_ext_vec at 1 2. rewrite !eq_table_length, Lpt, Ll. fold n. rewrite Nat.eqb_refl. cbn [obind].
  fold out. rewrite (into_mle_ext_ok n out) by auto. cbn [obind app].
  set (terms := pool_terms 4 a).
  destruct (sop_ok T ncpus sc n [mkMle (Base d0) n; mkMle (Base d1) n; mkMle (Base d2) n; mkMle (Base d3) n; mkMle (Ext (eq_table pt)) n; mkMle (Ext out) n; mkMle (Ext (eq_table (cl_point last))) n]
     [d0; d1; d2; d3; eq_table pt; out; eq_table (cl_point last)] terms h2) as (spf & h3 & Es & Lz & Hver); auto.
  { unfold n; lia. }
  { discriminate. }
  { intros c ix Hin. cbn in Hin. repeat destruct Hin as [E|Hin]; try destruct Hin; apply (f_equal snd) in E; cbn [snd] in E; subst ix; (split; [discriminate|cbn; lia]). }
  { repeat (apply Forall2_cons); try apply Forall2_nil; try (repeat split; auto; fail); apply ext_is_table; auto; rewrite eq_table_length, ?Lpt, ?Ll; reflexivity. }
  rewrite Es. cbn [obind map nth_error length Nat.leb firstn app combine fst snd]. rewrite Hw. cbn [obind]. unfold csub at 1. cbn [Nat.leb Nat.sub obind]. rewrite Nat.sub_0_r.
  set (zp := pf_point spf) in *. set (r := T (EvBytes lbl_input :: h3)). unfold input_point. rewrite Lz. destruct (Nat.leb_spec g n) as [_|]; [|lia]. cbn [obind].
  eexists _, _, _, _. split; [reflexivity|]. cbn [map fst snd pl_comms pl_gap pl_evals pl_lookup pl_sumcheck length].
  split; [reflexivity|]. split.
  { repeat apply Forall2_cons; try apply Forall2_nil; (split; cbn [cl_point cl_eval]; [rewrite Lz; auto|reflexivity]). }
  split; [reflexivity|]. split; [reflexivity|]. split; [reflexivity|]. split; [intros X LX HX; now apply (pool_claim_true g n)|].
  intros N0 N1. destruct (Hver0 N0) as (Ev0 & _ & _). specialize (Hver N1). clear Hver0.
  assert (HF : forall x, length x = n -> sopf [d0; d1; d2; d3; eq_table pt; out; eq_table (cl_point last)] terms x = pool_poly pt (cl_point last) d0 d1 d2 d3 out a x).
  { intros x Lx. unfold sopf, terms, pool_terms, pool_poly. cbn [seq map app fsum fprod fst snd nth fpow]. rewrite !mle_eq_table by (rewrite ?Lpt, ?Ll, Lx; reflexivity). ring. }
  rewrite (hsum_ext _ _ _ HF), hsum_pool in Hver by auto. change (sop_deg terms) with 5%nat in Hver. rewrite HF in Hver by auto.
  assert (HP : mle (prod4 n d0 d1 d2 d3) pt = 0).
  { unfold prod4. rewrite mle_map_seq by auto. rewrite (mlef_ext _ (fun _ => 0)); [apply mlef_const|]. intros i Hi. rewrite Lpt in Hi. apply Hz. exact Hi. }
  unfold pool_verify. cbn [pl_comms pl_gap pl_evals pl_lookup pl_sumcheck]. rewrite Ev0. cbn [obind]. rewrite Ecl. unfold get_challenge. cbn [fold_left cl_eval cl_point nth_error obind].
  fold a h2. match goal with |- obind (verify _ ?c _ _ _ _) _ = _ => replace c with (mle (prod4 n d0 d1 d2 d3) pt + (a * mle d0 pt + a * a * mle d1 pt + a * a * a * mle d2 pt + a * a * a * a * mle d3 pt) + a * a * a * a * a * mle out (cl_point last)) by (rewrite El, HP; ring) end.
  rewrite Hver. cbn [obind]. fold zp. rewrite (eq_xy_ok pt zp) by (first [rewrite Lpt, Lz; reflexivity|intros ->; discriminate Lpt]). cbn [obind].
  rewrite (eq_xy_ok (cl_point last) zp) by (first [rewrite Ll, Lz; reflexivity|intros X0; rewrite X0 in Ll; discriminate Ll]). cbn [obind].
  change (csub (length (mle d0 zp :: mle d1 zp :: mle d2 zp :: mle d3 zp :: [mle out zp])) 1) with (Some 4%nat). cbn [obind firstn fold_left nth_error].
  match goal with |- (if ?x =? ?y then _ else _) = _ => replace (x =? y) with true by (symmetry; apply feqb_spec; unfold pool_poly; ring) end.
  fold r. unfold input_point. rewrite Lz. destruct (Nat.leb_spec g n) as [_|]; [|lia]. cbn [obind]. reflexivity.
Qed.

(** ** Runs on integers *)
(** Entry 2b + a of window [i] of an input with rows of 2^(g+1) entries: offset [b] in the row, [a] in the column. *)
Definition win (g : nat) (x : list Z) (i k : nat) : Z :=
  nth (k / 2 + 2 * (i mod 2 ^ g) + 2 ^ S g * (k mod 2) + 2 ^ S (S g) * (i / 2 ^ g)) x 0%Z.
Lemma nth_fe (x : list Z) i : nth i (map (@fZ K) x) 0 = fZ (nth i x 0%Z).
Proof. rewrite <- fZ_0. apply map_nth. Qed.
Lemma strided_win g n k x i : (i < 2 ^ n)%nat -> nth i (strided g n k (map (@fZ K) x)) 0 = fZ (win g x i k).
Proof. intros Hi. unfold strided. rewrite nth_map_seq by auto. apply nth_fe. Qed.

Lemma pool_forge (T : @hist K -> K) ncpus scl esl sc cst csc k c0 c1 w g (B : Z) (x y : list Z) (comms : list C) (input output : ten K) (last : claim) h :
  let n := S (S k) in
  char_gt K 5 -> (0 < ncpus)%nat -> length x = (2 ^ S (S n))%nat -> length y = (2 ^ n)%nat -> length comms = 5%nat ->
  sh input = [c0; c1; w] -> ceil_log2 w = Some (S g) -> (g <= n)%nat ->
  dat output = map fZ y -> claim_true (dat output) last -> length (cl_point last) = n ->
  (forall i, (i < 2 ^ n)%nat -> (0 <= nth i y 0 - win g x i 0 < B /\ 0 <= nth i y 0 - win g x i 3 < B /\ 0 <= 2 * nth i y 0 - win g x i 1 - win g x i 2 < B)%Z) ->
  logup_scheds true (S k) 4 scl -> valid_sched n esl ->
  (forall i, (i < n)%nat -> valid_rsched (sop_shape (K := K) n 7 (map snd (pool_terms 4 (0 : K)))) i (sc i)) ->
  exists d : list (list Z), length d = 4%nat /\ (forall c, In c d -> length c = (2 ^ n)%nat /\ forall v, In v c -> (0 <= v < B)%Z) /\
  exists wit cin pf h', pool_prove T ncpus scl esl sc n 4 cst csc (map (map fZ) d) comms input output last h = Some (wit, cin, pf, h') /\
    map fst wit = comms /\ Forall2 claim_true (map (map fZ) d ++ [dat output]) (map snd wit) /\ claim_true (map fZ x) cin /\
    ((forall p r, In p (lp_sumchecks (pl_lookup pf)) -> In r (pf_point p) -> not_node 3 r) -> (forall r, In r (pf_point (pl_sumcheck pf)) -> not_node 5 r) ->
     pool_verify T cst csc n last pf h = Some (wit, cin, h')).
Proof.
  intros n Hch Hnc Lx Ly Hcm Si Hw Hg Eo Hl Ll HB Hsl Hes Hsc.
  set (col := fun f => map f (seq 0 (2 ^ n)) : list Z).
  set (f0 := fun i => (nth i y 0 - win g x i 0)%Z). set (f1 := fun i : nat => 0%Z). set (f2 := fun i => (2 * nth i y 0 - win g x i 1 - win g x i 2)%Z). set (f3 := fun i => (nth i y 0 - win g x i 3)%Z).
  exists [col f0; col f1; col f2; col f3]. split; [reflexivity|].
  assert (Lc : forall f, length (col f) = (2 ^ n)%nat) by (intros; unfold col; now rewrite map_length, seq_length). 
  assert (Nc : forall f i, (i < 2 ^ n)%nat -> nth i (map (@fZ K) (col f)) 0 = fZ (f i)) by (intros f i Hi; rewrite nth_fe; unfold col; rewrite nth_map_seq by auto; reflexivity).
  split.
  { assert (HR : forall f, (forall i, (i < 2 ^ n)%nat -> (0 <= f i < B)%Z) -> forall v, In v (col f) -> (0 <= v < B)%Z).
    { intros f Hf v Hv. apply in_map_iff in Hv as (i & <- & Hi). apply in_seq in Hi. apply Hf. lia. }
    assert (PB : (0 < 2 ^ n)%nat) by (apply Nat.neq_0_lt_0, Nat.pow_nonzero; lia).
    intros c [<-|[<-|[<-|[<-|[]]]]]; (split; [apply Lc|apply HR]); intros i Hi; specialize (HB i Hi); unfold f0, f1, f2, f3; lia. }
  cbn [map]. destruct (pool_complete T ncpus scl esl sc cst csc k c0 c1 w g (map fZ (col f0)) (map fZ (col f1)) (map fZ (col f2)) (map fZ (col f3)) comms input output last h) as (wit & cin & pf & h' & Ep & F1 & F2 & _ & _ & _ & FX & Hv); auto.
  - intros d [<-|[<-|[<-|[<-|[<-|[]]]]]]; rewrite ?Eo, map_length; auto.
  - intros i Hi. rewrite !Nc by exact Hi. unfold f1. rewrite fZ_0. ring.
  - exists wit, cin, pf, h'. split; [exact Ep|]. split; [exact F1|]. split; [exact F2|]. split; [|exact Hv]. apply FX; [now rewrite map_length|].
    intros i Hi. rewrite !strided_win by exact Hi. rewrite !Nc by exact Hi. rewrite Eo, nth_fe. unfold f0, f1, f2, f3. rewrite !fZ_sub, fZ_mul, fZ_0. replace (@fZ K 2) with (1 + 1 : K) by (change 2%Z with (1 + 1)%Z; rewrite fZ_add, fZ_1; reflexivity). repeat split; ring.
Qed.

(** The run of the honest prover, for every input. *)
Lemma pool_honest (T : @hist K -> K) ncpus scl esl sc cst csc k t c hh w inp o out polys (comms : list C) (last : claim) h :
  let n := S (S k) in let fe := map (@fZ K) in
  char_gt K 5 -> (0 < ncpus)%nat -> wft t -> sh t = [c; 2 * hh; 2 * w]%nat -> (0 < c)%nat -> (0 < hh)%nat -> (0 < w)%nat ->
  pad_next_power_of_two 0%Z t = Some inp -> maxpool2d t 2 2 = Some o -> pad_next_power_of_two 0%Z o = Some out -> compute_polys 2 2 t = Some polys ->
  (npow2 c * npow2 hh * npow2 w = 2 ^ n)%nat -> length comms = 5%nat ->
  claim_true (fe (dat out)) last -> length (cl_point last) = n ->
  logup_scheds true (S k) 4 scl -> valid_sched n esl ->
  (forall i, (i < n)%nat -> valid_rsched (sop_shape (K := K) n 7 (map snd (pool_terms 4 (0 : K)))) i (sc i)) ->
  exists wit cin pf h', pool_prove T ncpus scl esl sc n 4 cst csc (map fe polys) comms (mkTen (sh inp) (fe (dat inp))) (mkTen (sh out) (fe (dat out))) last h = Some (wit, cin, pf, h') /\
    map fst wit = comms /\ Forall2 claim_true (map fe polys ++ [fe (dat out)]) (map snd wit) /\ claim_true (fe (dat inp)) cin /\
    ((forall p r, In p (lp_sumchecks (pl_lookup pf)) -> In r (pf_point p) -> not_node 3 r) -> (forall r, In r (pf_point (pl_sumcheck pf)) -> not_node 5 r) ->
     pool_verify T cst csc n last pf h = Some (wit, cin, h')).
Proof.
  intros n fe Hch Hnc Wt St Pc Ph Pw Ei Eo Eu Ep E2 Hcm Hl Ll Hsl Hes Hsc.
  destruct (compute_polys_ok t c hh w Wt St Pc Ph Pw) as (inp' & o' & out' & polys' & E1' & E2' & E3' & S1 & S2 & E4' & L4 & Lp & V).
  assert (inp' = inp) by congruence. assert (o' = o) by congruence. subst inp' o'. assert (out' = out) by congruence. assert (polys' = polys) by congruence. subst out' polys'.
  assert (Hs : forall z i j, (z < npow2 c)%nat -> (i < npow2 hh)%nat -> (j < npow2 w)%nat -> let q := flat [npow2 c; npow2 hh; npow2 w] [z; i; j] in (nth q (nth 0 polys []) 0 * nth q (nth 1 polys []) 0 * nth q (nth 2 polys []) 0 * nth q (nth 3 polys []) 0 = 0)%Z).
  { intros z i j Hz Hi Hj. apply (polys_sound t c hh w inp out polys Wt St Pc Ph Pw); auto. rewrite Eo. exact Eu. }
  assert (Wi : wft inp). { destruct (generic_pad_ok 0%Z t Wt) as (i2 & X1 & _ & X3 & _); [rewrite St; discriminate|rewrite St; repeat constructor; lia|]. unfold pad_next_power_of_two in Ei. congruence. }
  assert (Wu : wft out).
  { destruct (maxpool2d_ok t [c] (2 * hh) (2 * w) 2 2 Wt St) as (o2 & F2 & So & Wo & _); try lia. assert (o2 = o) by congruence. subst o2.
    rewrite !half_sub in So by lia. rewrite !(Nat.mul_comm 2), !Nat.div_mul in So by lia. cbn [app] in So.
    destruct (generic_pad_ok 0%Z o Wo) as (i2 & X1 & _ & X3 & _); [rewrite So; discriminate|rewrite So; repeat constructor; lia|]. unfold pad_next_power_of_two in Eu. congruence. }
  destruct polys as [|p0 [|p1 [|p2 [|p3 [|? ?]]]]]; cbn [length] in L4; try discriminate L4. clear L4.
  pose proof (Lp 0%nat ltac:(lia)) as Lp0. pose proof (Lp 1%nat ltac:(lia)) as Lp1. pose proof (Lp 2%nat ltac:(lia)) as Lp2. pose proof (Lp 3%nat ltac:(lia)) as Lp3. cbn [nth] in Lp0, Lp1, Lp2, Lp3. rewrite E2 in Lp0, Lp1, Lp2, Lp3. clear Lp.
  set (g := Nat.log2_up w). assert (Eg : npow2 w = (2 ^ g)%nat) by reflexivity.
  assert (Pz : (0 < npow2 c)%nat) by apply npow2_pos. assert (Py : (0 < npow2 hh)%nat) by apply npow2_pos. assert (Px : (0 < npow2 w)%nat) by apply npow2_pos.
  assert (Hg : (g <= n)%nat). { apply (Nat.pow_le_mono_r_iff 2); [lia|]. rewrite <- E2, <- Eg. rewrite <- (Nat.mul_1_l (npow2 w)) at 1. apply Nat.mul_le_mono_r. change 1%nat with (1 * 1)%nat. apply Nat.mul_le_mono; lia. }
  assert (Lo : length (dat out) = (2 ^ n)%nat) by (unfold wft in Wu; rewrite Wu, S2; cbn [sprod fold_right]; rewrite <- E2; nia).
  assert (Li : length (dat inp) = (2 ^ S (S n))%nat) by (unfold wft in Wi; rewrite Wi, S1; cbn [sprod fold_right Nat.pow]; rewrite <- E2; nia).
  assert (Hq : forall i, (i < 2 ^ n)%nat -> exists z y x, (z < npow2 c)%nat /\ (y < npow2 hh)%nat /\ (x < npow2 w)%nat /\ i = flat [npow2 c; npow2 hh; npow2 w] [z; y; x] /\ (i mod 2 ^ g = x)%nat /\ (i / 2 ^ g = z * npow2 hh + y)%nat).
  { intros i Hi. rewrite <- Eg. exists (i / npow2 w / npow2 hh)%nat, ((i / npow2 w) mod npow2 hh)%nat, (i mod npow2 w)%nat.
    pose proof (Nat.div_mod i (npow2 w) ltac:(lia)) as D1. pose proof (Nat.div_mod (i / npow2 w) (npow2 hh) ltac:(lia)) as D2.
    split; [apply Nat.div_lt_upper_bound; [lia|]; apply Nat.div_lt_upper_bound; [lia|]; rewrite <- E2 in Hi; nia|]. split; [apply Nat.mod_upper_bound; lia|]. split; [apply Nat.mod_upper_bound; lia|].
    split; [rewrite flat3; nia|]. split; [reflexivity|]. lia. }
  assert (Hwin : forall i a b, (i < 2 ^ n)%nat -> (a < 2)%nat -> (b < 2)%nat -> nth i (nth (2 * b + a) [p0; p1; p2; p3] []) 0%Z = (nth i (dat out) 0 - win g (dat inp) i (2 * b + a))%Z).
  { intros i a b Hi Ha Hb. destruct (Hq i Hi) as (z & y & x & Hz & Hy & Hx & Ei0 & Em & Ed). rewrite Ei0 at 1. rewrite V by auto. unfold entry. rewrite S1, S2, <- Ei0. f_equal.
    unfold win. rewrite Em, Ed. f_equal. replace ((2 * b + a) / 2)%nat with b by (rewrite (Nat.mul_comm 2 b), Nat.div_add_l, (Nat.div_small a 2) by lia; lia).
    replace ((2 * b + a) mod 2)%nat with a by (rewrite (Nat.add_comm (2 * b) a), (Nat.mul_comm 2 b), Nat.mod_add, Nat.mod_small by lia; lia).
    rewrite flat3. cbn [Nat.pow]. rewrite <- Eg. nia. }
  assert (Hf : forall i j, nth i (fe (nth j [p0; p1; p2; p3] [])) 0 = fZ (nth i (nth j [p0; p1; p2; p3] []) 0%Z)) by (intros; apply nth_fe).
  pose proof (fun i => Hf i 0%nat) as Hf0. pose proof (fun i => Hf i 1%nat) as Hf1. pose proof (fun i => Hf i 2%nat) as Hf2. pose proof (fun i => Hf i 3%nat) as Hf3. cbn [nth] in Hf0, Hf1, Hf2, Hf3.
  cbn [map app]. destruct (pool_complete T ncpus scl esl sc cst csc k (npow2 c) (2 * npow2 hh) (2 * npow2 w) g (fe p0) (fe p1) (fe p2) (fe p3) comms (mkTen (sh inp) (fe (dat inp))) (mkTen (sh out) (fe (dat out))) last h) as (wit & cin & pf & h' & Epr & F1 & F2 & _ & _ & _ & FX & Hv); auto.
  - cbn [dat]. intros d [<-|[<-|[<-|[<-|[<-|[]]]]]]; unfold fe; rewrite map_length; auto.
  - rewrite Eg. change (2 * 2 ^ g)%nat with (2 ^ S g)%nat. apply ceil_log2_pow2.
  - intros i Hi. rewrite Hf0, Hf1, Hf2, Hf3, <- !fZ_mul. destruct (Hq i Hi) as (z & y & x & Hz & Hy & Hx & Ei0 & _). specialize (Hs z y x Hz Hy Hx). cbv zeta in Hs. rewrite <- Ei0 in Hs. cbn [nth] in Hs. rewrite Hs. reflexivity.
  - exists wit, cin, pf, h'. split; [exact Epr|]. split; [exact F1|]. split; [exact F2|]. split; [|exact Hv]. apply FX; [unfold fe; now rewrite map_length|].
    intros i Hi. cbn [dat]. rewrite Hf0, Hf1, Hf2, Hf3. unfold fe. rewrite !strided_win by exact Hi. rewrite !nth_fe.
    pose proof (Hwin i 0%nat 0%nat Hi ltac:(lia) ltac:(lia)) as W0. pose proof (Hwin i 1%nat 0%nat Hi ltac:(lia) ltac:(lia)) as W1. pose proof (Hwin i 0%nat 1%nat Hi ltac:(lia) ltac:(lia)) as W2. pose proof (Hwin i 1%nat 1%nat Hi ltac:(lia) ltac:(lia)) as W3.
    cbn [Nat.mul Nat.add nth] in W0, W1, W2, W3. rewrite W0, W1, W2, W3, !fZ_sub. repeat split; ring.
Qed.
End P.
