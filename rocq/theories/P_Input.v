(** Proofs about M_Input.v. *)
From Coq Require Import List Arith Lia Bool ZArith QArith Qabs.
From Verif Require Import ListAux M_Mle M_Tensor M_Tables M_Quant M_Input P_Quant P_Tensor P_Tensor2 P_Graph4 P_Tensor4.
Import ListNotations.
Local Open Scope nat_scope.

Lemma Forall2_length {A B} (R : A -> B -> Prop) l m : Forall2 R l m -> length l = length m.
Proof. induction 1; cbn; congruence. Qed.

(** * Acceptance *)
Lemma range_ok x : range_contains x = true <-> (-1 <= x <= 1)%Q.
Proof. unfold range_contains. rewrite andb_true_iff, !Qle_bool_iff. tauto. Qed.
Lemma validate_ok i : validate i = true <-> i <> [] /\ Forall (Forall (fun x => (-1 <= x <= 1)%Q)) i.
Proof.
  unfold validate. rewrite andb_true_iff, Nat.ltb_lt, forallb_forall, Forall_forall. split.
  - intros [L F]. split; [intros ->; cbn in L; lia|]. intros r Hr. apply Forall_forall. intros x Hx. apply range_ok.
    specialize (F r Hr). rewrite forallb_forall in F. auto.
  - intros [N F]. split; [destruct i; [congruence|cbn; lia]|]. intros r Hr. apply forallb_forall. intros x Hx. apply range_ok.
    specialize (F r Hr). rewrite Forall_forall in F. auto.
Qed.
Lemma from_source_ok : forall (S : Type) (decode : S -> option input) (s : S) (i : input),
  from_source decode s = Some i <-> decode s = Some i /\ i <> [] /\ Forall (Forall (fun x => (-1 <= x <= 1)%Q)) i.
Proof.
  intros S decode s i. unfold from_source, obind. destruct (decode s) as [j|]; [|split; [discriminate|intros [H _]; discriminate]].
  destruct (validate j) eqn:V.
  - apply validate_ok in V. split; [intros H; injection H as <-; auto|intros [H _]; congruence].
  - split; [discriminate|]. intros [H F]. injection H as <-. apply validate_ok in F. congruence.
Qed.

(** * Quantisation of the rows *)
Lemma to_elements_range : forall rnd (sf : scaling) md (i : input), (fst (sc_dom sf) <= snd (sc_dom sf))%Z ->
  exists e, to_elements rnd (sf :: md) i = Some e /\
    Forall2 (Forall2 (fun x z => quantize rnd sf x = Some z /\ (fst (sc_dom sf) <= z <= snd (sc_dom sf))%Z)) i e.
Proof.
  intros rnd sf md i H. unfold to_elements.
  assert (R : forall row, exists zs, omapM (quantize rnd sf) row = Some zs /\
     Forall2 (fun x z => quantize rnd sf x = Some z /\ (fst (sc_dom sf) <= z <= snd (sc_dom sf))%Z) row zs).
  { induction row as [|x row (zs & E & F)]; [exists []; split; [reflexivity|constructor]|].
    destruct (quantize_range rnd sf x H) as (z & Ez & Rz). exists (z :: zs). cbn [omapM]. rewrite Ez. cbn [obind]. rewrite E.
    split; [reflexivity|]. constructor; auto. }
  induction i as [|row i (e & E & F)]; [exists []; split; [reflexivity|constructor]|].
  destruct (R row) as (zs & Ez & Fz). exists (zs :: e). cbn [omapM]. rewrite Ez. cbn [obind]. rewrite E.
  split; [reflexivity|]. constructor; auto.
Qed.
Lemma to_elements_error : forall (S : Type) (decode : S -> option input) (s : S) (B : nat) (a : Q) md (i : input),
  (2 <= B)%nat -> (1 <= a)%Q -> from_source decode s = Some i ->
  let sf := from_absolute_max exact B a None in
  exists e, to_elements exact (sf :: md) i = Some e /\
    Forall2 (Forall2 (fun x z => (q_min B <= z <= q_max B)%Z /\
                                 (Qabs (dequantize exact sf z - x) <= sc_scale sf / 2)%Q)) i e.
Proof.
  intros S decode s B a md i HB Ha H sf. apply from_source_ok in H. destruct H as (_ & _ & F).
  unfold to_elements.
  assert (R : forall row, Forall (fun x => (-1 <= x <= 1)%Q) row -> exists zs, omapM (quantize exact sf) row = Some zs /\
     Forall2 (fun x z => (q_min B <= z <= q_max B)%Z /\ (Qabs (dequantize exact sf z - x) <= sc_scale sf / 2)%Q) row zs).
  { induction 1 as [|x row Hx Hr (zs & E & G)]; [exists []; split; [reflexivity|constructor]|].
    assert (0 < a)%Q by (apply Qlt_le_trans with 1%Q; [reflexivity|exact Ha]).
    assert (Qabs x <= a)%Q.
    { apply Qle_trans with 1%Q; [|exact Ha]. apply Qabs_Qle_condition. exact Hx. }
    destruct (quantize_error B a x HB H H0) as (z & Ez & Rz & Dz). exists (z :: zs). cbn [omapM]. fold sf in Ez. rewrite Ez. cbn [obind].
    rewrite E. split; [reflexivity|]. constructor; auto. }
  induction F as [|row i Hr Hi (e & E & G)]; [exists []; split; [reflexivity|constructor]|].
  destruct (R row Hr) as (zs & Ez & Fz). exists (zs :: e). cbn [omapM]. rewrite Ez. cbn [obind]. rewrite E.
  split; [reflexivity|]. constructor; auto.
Qed.

(** * Selection of rows *)
Lemma filter_rows_ok : forall (i : input) ix j,
  filter_rows i (Some ix) = Some j <-> Forall2 (fun k row => nth_error i k = Some row) ix j.
Proof.
  intros i ix j. unfold filter_rows. rewrite <- omapM_F2. destruct (forallb _ ix) eqn:E; [reflexivity|].
  split; [discriminate|]. intros H. apply omapM_F2 in H.
  assert (forallb (fun k => k <? length i) ix = true); [|congruence].
  apply forallb_forall. intros k Hk. apply Nat.ltb_lt. apply nth_error_Some.
  clear E. induction H as [|k0 r0 ix j Hkr H IH]; [destruct Hk|]. destruct Hk as [->|Hk]; [congruence|auto].
Qed.
Lemma omapM_all {X} : forall (l p : list X), omapM (nth_error (p ++ l)) (seq (length p) (length l)) = Some l.
Proof.
  induction l as [|x l IH]; intros p; [reflexivity|]. cbn [length seq omapM]. rewrite nth_error_app2, Nat.sub_diag by lia. cbn [nth_error obind].
  specialize (IH (p ++ [x])). rewrite <- app_assoc, app_length in IH. cbn [app length] in IH. rewrite Nat.add_1_r in IH. rewrite IH. reflexivity.
Qed.
(** No selection is the selection of every row in order. *)
Lemma filter_rows_spec : forall (i : input) sel j, filter_rows i sel = Some j <->
  Forall2 (fun k row => nth_error i k = Some row) (match sel with Some ix => ix | None => seq 0 (length i) end) j.
Proof.
  intros i [ix|] j; [apply filter_rows_ok|]. rewrite <- omapM_F2. pose proof (omapM_all i []) as A. cbn [app length] in A. rewrite A. reflexivity.
Qed.
Lemma filter_rows_panics : forall (i : input) ix, Exists (fun k => length i <= k) ix -> filter_rows i (Some ix) = None.
Proof.
  intros i ix H. unfold filter_rows. destruct (forallb _ ix) eqn:E; [|reflexivity]. exfalso.
  rewrite forallb_forall in E. apply Exists_exists in H. destruct H as (k & Hk & L). specialize (E k Hk). apply Nat.ltb_lt in E. lia.
Qed.
Lemma filter_rows_total : forall (i : input) ix, Forall (fun k => k < length i) ix ->
  exists j, filter_rows i (Some ix) = Some j /\ length j = length ix /\ incl j i.
Proof.
  intros i ix H. assert (E : exists j, Forall2 (fun k row => nth_error i k = Some row) ix j).
  { induction H as [|k ix Hk H (j & IH)]; [exists []; constructor|]. apply nth_error_Some in Hk.
    destruct (nth_error i k) as [r|] eqn:E; [|congruence]. exists (r :: j). constructor; auto. }
  destruct E as (j & F). exists j. split; [apply filter_rows_ok; exact F|]. split; [symmetry; exact (Forall2_length _ _ _ F)|].
  clear H. induction F as [|k r ix j Hkr F IH]; intros x Hx; [destruct Hx|]. destruct Hx as [->|Hx]; [exact (nth_error_In _ _ Hkr)|auto].
Qed.
Lemma filter_keeps_valid : forall (i : input) ix j, validate i = true -> ix <> [] -> filter_rows i (Some ix) = Some j -> validate j = true.
Proof.
  intros i ix j V N E. apply validate_ok in V. destruct V as [_ V]. apply filter_rows_ok in E. apply validate_ok. split.
  - intros ->. inversion E; subst; congruence.
  - rewrite Forall_forall in V. apply Forall_forall. intros r Hr. apply V. clear N V.
    induction E as [|k r0 ix j Hkr F IH]; [destruct Hr|]. destruct Hr as [->|Hr]; [exact (nth_error_In _ _ Hkr)|auto].
Qed.
Lemma filter_empty_invalid : forall (i : input), filter_rows i (Some []) = Some [] /\ validate [] = false.
Proof. intros i. split; reflexivity. Qed.

(** * The tensors of the model *)
Lemma shape_eqb_eq : forall a b, shape_eqb a b = true <-> a = b.
Proof.
  induction a as [|x a IH]; destruct b as [|y b]; cbn [shape_eqb]; try (split; [reflexivity||discriminate|reflexivity||discriminate]).
  rewrite andb_true_iff, Nat.eqb_eq, IH. split; [intros [-> ->]; reflexivity|intros H; injection H; auto].
Qed.
Lemma padded_self {A} (d : A) t : wft t -> padded_with d t (sh t) t.
Proof. intros W. split; [reflexivity|]. split; [exact W|]. intros idx I. split; [reflexivity|intros N; contradiction]. Qed.

(** The relation between one flat input, its shapes and its tensor. *)
Definition loaded {A} (zero : A) (u : list nat) (f : list A) (s : list nat) (t : ten A) : Prop := padded_with zero (mkTen u f) s t.
Lemma load_ok : forall (A : Type) (zero : A) (us ss : list (list nat)) (fs : list (list A)),
  Forall2 (Forall2 le) us ss -> Forall (Forall (lt 0)) us ->
  Forall2 (fun f u => length f = fold_right Nat.mul 1 u) fs us ->
  exists ts, load_input_flat zero us ss fs = Some ts /\ length ts = length ss /\
    forall k u f s t, nth_error us k = Some u -> nth_error fs k = Some f -> nth_error ss k = Some s -> nth_error ts k = Some t ->
      padded_with zero (mkTen u f) s t.
Proof.
  intros A zero us ss fs L P F. unfold load_input_flat.
  assert (E1 : omapM (fun p => tensor_new (snd p) (fst p)) (combine fs us) = Some (map (fun p => mkTen (snd p) (fst p)) (combine fs us))).
  { clear L P. induction F as [|f u fs us Hl F IH]; [reflexivity|]. cbn [combine omapM fst snd map]. unfold tensor_new at 1.
    unfold sprod. rewrite Hl, Nat.eqb_refl. cbn [obind]. rewrite IH. reflexivity. }
  rewrite E1. cbn [obind]. unfold prepare_inputs.
  pose proof (Forall2_length _ _ _ L) as L1. pose proof (Forall2_length _ _ _ F) as L2.
  rewrite map_length, combine_length. replace (Nat.min (length fs) (length us)) with (length ss) by lia. rewrite Nat.eqb_refl.
  clear E1 L1 L2. revert fs F. induction L as [|u s us ss Hus L IH]; intros fs F.
  - inversion F; subst. exists []. split; [reflexivity|]. split; [reflexivity|]. intros [|k] u f s t H; discriminate.
  - inversion F as [|f u' fs' us' Hf F' Q1 Q2]; subst. inversion P as [|u' us' Pu P']; subst.
    destruct (IH P' fs' F') as (ts & E & Ln & R). cbn [combine map omapM fst snd].
    assert (W : wft (mkTen u f)) by exact Hf.
    assert (T : exists t, (if shape_eqb (sh (mkTen u f)) s then Some (mkTen u f) else pad_to_shape zero (mkTen u f) s) = Some t /\ padded_with zero (mkTen u f) s t).
    { destruct (shape_eqb _ s) eqn:Es.
      - apply shape_eqb_eq in Es. subst s. eexists. split; [reflexivity|]. apply padded_self. exact W.
      - apply pad_to_shape_ok; auto. }
    destruct T as (t & Et & Pt). rewrite Et. cbn [obind]. rewrite E. exists (t :: ts). split; [reflexivity|].
    split; [cbn; lia|]. intros [|k] u0 f0 s0 t0; cbn [nth_error]; [intros; congruence|apply R].
Qed.
Lemma combine_more {A B} : forall (l ex : list A) (m : list B), length l = length m -> combine (l ++ ex) m = combine l m.
Proof. induction l as [|a l IH]; destruct m as [|b m]; intros H; cbn in *; try discriminate; [destruct ex; reflexivity|rewrite IH; auto]. Qed.
Lemma load_extra : forall (A : Type) (zero : A) us ss (fs extra : list (list A)), length fs = length us ->
  load_input_flat zero us ss (fs ++ extra) = load_input_flat zero us ss fs.
Proof. intros A zero us ss fs extra H. unfold load_input_flat. rewrite combine_more; auto. Qed.
Lemma load_count : forall (A : Type) (zero : A) us ss (fs : list (list A)), Nat.min (length fs) (length us) <> length ss ->
  load_input_flat zero us ss fs = None.
Proof.
  intros A zero us ss fs H. unfold load_input_flat. destruct (omapM _ (combine fs us)) as [ts|] eqn:E; [|reflexivity]. cbn [obind].
  unfold prepare_inputs. apply omapM_F2 in E. apply Forall2_length in E. rewrite combine_length in E.
  destruct (Nat.eqb_spec (length ss) (length ts)); [lia|reflexivity].
Qed.
Lemma load_wrong_length : forall (A : Type) (zero : A) us ss (fs : list (list A)) k f u,
  nth_error fs k = Some f -> nth_error us k = Some u -> length f <> fold_right Nat.mul 1 u -> load_input_flat zero us ss fs = None.
Proof.
  intros A zero us ss fs k f u Hf Hu N. unfold load_input_flat.
  assert (E : omapM (fun p => tensor_new (snd p) (fst p)) (combine fs us) = None).
  { apply omapM_none. exists (f, u). split.
    - clear N. revert us k Hf Hu. induction fs as [|f0 fs IH]; intros [|u0 us] [|k] Hf Hu; cbn in *; try discriminate.
      + left. congruence.
      + right. eapply IH; eauto.
    - cbn [fst snd]. unfold tensor_new, sprod. destruct (Nat.eqb_spec (fold_right Nat.mul 1 u) (length f)); [lia|reflexivity]. }
  rewrite E. reflexivity.
Qed.

(** * The worker's loop *)
Section Loop.
Context {Tr Pr : Type}.
Variables us ss : list (list nat).
Variable run : list (ten Z) -> option (option Tr).
Variable prove : Tr -> option Pr.

(** What happens to one row: [Some pf] it is proved, [None] its inference is an error. *)
Definition row_outcome (rnd : Q -> Q) (sf : scaling) (row : list Q) (o : option Pr) : Prop :=
  exists zs ts r, Forall2 (fun x z => quantize rnd sf x = Some z) row zs /\ load_input_flat 0%Z us ss [zs] = Some ts /\ run ts = Some r /\
    match r with None => o = None | Some t => exists pf, prove t = Some pf /\ o = Some pf end.
Definition proofs_in (outs : list (option Pr)) : list Pr := flat_map (fun o => match o with Some p => [p] | None => [] end) outs.

Definition step (zs : list Z) : option (option Pr) :=
  ts <- load_input_flat 0%Z us ss [zs] ;; r <- run ts ;;
  match r with None => Some None | Some t => pf <- prove t ;; Some (Some pf) end.
Lemma loop_spec : forall l i p f, exists g, forall outs, omapM step l = Some outs -> prove_loop us ss run prove i l p f = Some (p ++ proofs_in outs, g outs).
Proof.
  induction l as [|z l IH]; intros i p f.
  - exists (fun _ => f). intros outs H. cbn in H. injection H as <-. cbn. rewrite app_nil_r. reflexivity.
  - destruct (IH (S i) p (f ++ [i])) as (g1 & G1).
    assert (G2 : forall pf, exists g, forall outs, omapM step l = Some outs -> prove_loop us ss run prove (S i) l (p ++ [pf]) f = Some ((p ++ [pf]) ++ proofs_in outs, g outs)).
    { intros pf. apply IH. }
    destruct (step z) as [[pf|]|] eqn:E.
    + destruct (G2 pf) as (g & G). exists (fun outs => g (tl outs)). intros outs H. cbn [omapM] in H. rewrite E in H. cbn [obind] in H.
      destruct (omapM step l) as [os|]; [|discriminate]. cbn [obind] in H. injection H as <-. cbn [prove_loop]. unfold step, obind in E. unfold obind.
      destruct (load_input_flat _ us ss [z]); [|discriminate]. destruct (run l0) as [[t|]|]; try discriminate. destruct (prove t); [|discriminate]. injection E as ->.
      rewrite (G os eq_refl). cbn [proofs_in flat_map tl]. rewrite <- app_assoc. reflexivity.
    + exists (fun outs => g1 (tl outs)). intros outs H. cbn [omapM] in H. rewrite E in H. cbn [obind] in H.
      destruct (omapM step l) as [os|]; [|discriminate]. cbn [obind] in H. injection H as <-. cbn [prove_loop]. unfold step, obind in E. unfold obind.
      destruct (load_input_flat _ us ss [z]); [|discriminate]. destruct (run l0) as [[t|]|]; try discriminate. 1: destruct (prove t); discriminate.
      rewrite (G1 os eq_refl). reflexivity.
    + exists (fun _ => []). intros outs H. cbn [omapM] in H. rewrite E in H. discriminate.
Qed.
Lemma loop_none : forall l i p f, omapM step l = None -> prove_loop us ss run prove i l p f = None.
Proof.
  induction l as [|z l IH]; intros i p f H; [discriminate|]. cbn [omapM] in H. cbn [prove_loop]. unfold step, obind in H. unfold obind.
  destruct (load_input_flat _ us ss [z]); [|reflexivity]. destruct (run l0) as [[t|]|]; try reflexivity.
  - destruct (prove t); [|reflexivity]. apply IH. unfold step, obind. destruct (omapM _ l); [discriminate|reflexivity].
  - apply IH. unfold step, obind. destruct (omapM _ l); [discriminate|reflexivity].
Qed.
Lemma answer_step rnd sf md i : answer us ss run prove rnd (sf :: md) i =
  (e <- omapM (omapM (quantize rnd sf)) i ;; outs <- omapM step e ;; Some (proofs_in outs)).
Proof.
  unfold answer, to_elements. destruct (omapM _ i) as [e|]; [|reflexivity]. cbn [obind].
  destruct (omapM step e) as [outs|] eqn:E; cbn [obind].
  - destruct (loop_spec e 0 [] []) as (g & G). rewrite (G outs E). reflexivity.
  - rewrite loop_none; auto.
Qed.
Lemma step_outcome rnd sf row zs o : omapM (quantize rnd sf) row = Some zs -> step zs = Some o <-> row_outcome rnd sf row o.
Proof.
  intros Q. split.
  - unfold step, obind. intros H. destruct (load_input_flat _ us ss [zs]) as [ts|] eqn:E1; [|discriminate].
    destruct (run ts) as [r|] eqn:E2; [|discriminate]. exists zs, ts, r. split; [apply omapM_F2; exact Q|]. split; [exact E1|]. split; [exact E2|].
    destruct r as [t|]; [|congruence]. destruct (prove t) as [pf|]; [|discriminate]. exists pf. split; congruence.
  - intros (zs' & ts & r & F & L & R & O). apply omapM_F2 in F. assert (zs' = zs) by congruence. subst zs'.
    unfold step, obind. rewrite L, R. destruct r as [t|]; [|congruence]. destruct O as (pf & -> & ->). reflexivity.
Qed.
Lemma answer_iff rnd sf md i proofs : answer us ss run prove rnd (sf :: md) i = Some proofs <->
  exists outs, Forall2 (row_outcome rnd sf) i outs /\ proofs = proofs_in outs.
Proof.
  rewrite answer_step. split.
  - intros H. destruct (omapM _ i) as [e|] eqn:E; [|discriminate]. cbn [obind] in H. destruct (omapM step e) as [outs|] eqn:E2; [|discriminate].
    cbn [obind] in H. injection H as <-. exists outs. split; [|reflexivity]. apply omapM_F2 in E. apply omapM_F2 in E2.
    revert outs E2. induction E as [|row zs i e Hq E IH]; intros outs E2; inversion E2 as [|? o ? outs' Ho E2']; subst; constructor; auto.
    apply (step_outcome rnd sf row zs o Hq). exact Ho.
  - intros (outs & F & ->). assert (G : exists e, omapM (omapM (quantize rnd sf)) i = Some e /\ omapM step e = Some outs).
    { induction F as [|row o i outs Ho F (e & E1 & E2)]; [exists []; split; reflexivity|].
      pose proof Ho as (zs & _ & _ & Q & _). apply omapM_F2 in Q. exists (zs :: e). cbn [omapM]. rewrite Q. cbn [obind]. rewrite E1. split; [reflexivity|].
      apply (step_outcome rnd sf row zs o Q) in Ho. rewrite Ho. cbn [obind]. rewrite E2. reflexivity. }
    destruct G as (e & E1 & E2). rewrite E1. cbn [obind]. rewrite E2. reflexivity.
Qed.
Lemma proofs_in_app a b : proofs_in (a ++ b) = proofs_in a ++ proofs_in b.
Proof. unfold proofs_in. apply flat_map_app. Qed.
Lemma outcome_fun rnd sf row o1 o2 : row_outcome rnd sf row o1 -> row_outcome rnd sf row o2 -> o1 = o2.
Proof.
  intros H1 H2. pose proof H1 as (zs & _ & _ & Q & _). apply omapM_F2 in Q. apply (step_outcome _ _ _ _ _ Q) in H1. apply (step_outcome _ _ _ _ _ Q) in H2. congruence.
Qed.
Lemma answer_all rnd sf md i proofs : answer us ss run prove rnd (sf :: md) i = Some proofs ->
  Forall (fun row => ~ row_outcome rnd sf row None) i -> Forall2 (fun row pf => row_outcome rnd sf row (Some pf)) i proofs.
Proof.
  intros H N. apply answer_iff in H. destruct H as (outs & F & ->). induction F as [|row o i outs Ho F IH]; [constructor|].
  inversion N; subst. destruct o as [pf|]; [|contradiction]. cbn [proofs_in flat_map app]. constructor; auto.
Qed.
Lemma answer_count rnd sf md i proofs : answer us ss run prove rnd (sf :: md) i = Some proofs ->
  length proofs <= length i /\ (length proofs = length i <-> Forall (fun row => ~ row_outcome rnd sf row None) i).
Proof.
  intros H. apply answer_iff in H. destruct H as (outs & F & ->). induction F as [|row o i outs Ho F [IH1 IH2]]; [split; [cbn; lia|split; [constructor|reflexivity]]|].
  destruct o as [pf|]; cbn [proofs_in flat_map app length]; fold (proofs_in outs).
  - split; [lia|]. split.
    + intros E. constructor; [|apply IH2; lia]. intros N. pose proof (outcome_fun _ _ _ _ _ Ho N). discriminate.
    + intros G. inversion G; subst. f_equal. apply IH2. auto.
  - split; [lia|]. split; [lia|]. intros G. inversion G; subst. contradiction.
Qed.
Lemma answer_skips rnd sf md a row b : row_outcome rnd sf row None ->
  answer us ss run prove rnd (sf :: md) (a ++ row :: b) = answer us ss run prove rnd (sf :: md) (a ++ b).
Proof.
  intros H. assert (G : forall p, answer us ss run prove rnd (sf :: md) (a ++ row :: b) = Some p <-> answer us ss run prove rnd (sf :: md) (a ++ b) = Some p).
  { intros p. rewrite !answer_iff. split.
    - intros (outs & F & ->). apply Forall2_app_inv_l in F. destruct F as (o1 & o2 & F1 & F2 & ->). inversion F2 as [|? o ? o2' Ho F2']; subst.
      pose proof (outcome_fun _ _ _ _ _ Ho H). subst o. exists (o1 ++ o2'). split; [apply Forall2_app; auto|]. rewrite !proofs_in_app. reflexivity.
    - intros (outs & F & ->). apply Forall2_app_inv_l in F. destruct F as (o1 & o2 & F1 & F2 & ->). exists (o1 ++ None :: o2).
      split; [apply Forall2_app; auto|]. rewrite !proofs_in_app. reflexivity. }
  destruct (answer us ss run prove rnd (sf :: md) (a ++ row :: b)) as [p|].
  - symmetry. apply G. reflexivity.
  - destruct (answer us ss run prove rnd (sf :: md) (a ++ b)) as [p|]; [|reflexivity]. apply G. reflexivity.
Qed.
Lemma answer_bad rnd sf md a row b : (forall o, ~ row_outcome rnd sf row o) -> answer us ss run prove rnd (sf :: md) (a ++ row :: b) = None.
Proof.
  intros H. destruct (answer _ _ _ _ _ _ _) as [p|] eqn:E; [|reflexivity]. apply answer_iff in E. destruct E as (outs & F & _).
  apply Forall2_app_inv_l in F. destruct F as (o1 & o2 & F1 & F2 & _). inversion F2 as [|? o ? ? Ho]; subst. exfalso. exact (H o Ho).
Qed.
Lemma answer_wrong_length rnd sf md u a row b : us = [u] -> length row <> fold_right Nat.mul 1 u ->
  answer us ss run prove rnd (sf :: md) (a ++ row :: b) = None.
Proof.
  intros U N. apply answer_bad. intros o (zs & ts & r & F & L & _). apply Forall2_length in F.
  rewrite (load_wrong_length Z 0%Z us ss [zs] 0 zs u) in L; [discriminate|reflexivity|rewrite U; reflexivity|lia].
Qed.
Lemma answer_two_inputs rnd sf md i : 2 <= length ss -> i <> [] -> answer us ss run prove rnd (sf :: md) i = None.
Proof.
  intros L N. destruct i as [|row i]; [congruence|]. apply (answer_bad rnd sf md [] row i). intros o (zs & ts & r & F & E & _).
  rewrite load_count in E; [discriminate|]. cbn [length]. lia.
Qed.
End Loop.
