(** Proofs about M_Pad, continued: chains of dense layers, matrix products, QKV. *)
From Coq Require Import List Arith Lia Bool.
From Verif Require Import ListAux FieldDef M_Mle P_Graph4 M_Tensor P_Tensor P_Tensor2 P_Tensor3 P_Tensor4 M_Pad P_Pad P_Pad2.
Import ListNotations.

Lemma omapM_nth' {B C} (f : B -> option C) l l' (b : B) (c : C) : omapM f l = Some l' -> length l' = length l /\ forall i, i < length l -> f (nth i l b) = Some (nth i l' c).
Proof.
  revert l'. induction l as [|x l IH]; intros l' H; cbn [omapM] in H.
  - injection H as <-. split; [reflexivity|cbn; lia].
  - destruct (f x) as [z|] eqn:E; [|discriminate]. cbn [obind] in H. destruct (omapM f l) as [l0|]; [|discriminate]. cbn [obind] in H. injection H as <-.
    destruct (IH l0 eq_refl) as [L I]. split; [cbn; lia|]. intros [|i] Hi; cbn [nth]; auto. apply I. cbn in Hi. lia.
Qed.
Lemma omapM_total {B C} (f : B -> option C) l : (forall x, In x l -> f x <> None) -> exists l', omapM f l = Some l'.
Proof.
  induction l as [|x l IH]; intros H; [eexists; reflexivity|]. cbn [omapM]. destruct (f x) eqn:E; [|exfalso; apply (H x); [left; auto|auto]].
  destruct IH as [l' ->]; [intros; apply H; right; auto|]. cbn. eauto.
Qed.

Section Chain.
Context {A : Type}.
Variable zero : A.
Variables add mul : A -> A -> A.
Hypothesis add_0_r : forall x, add x zero = x.
Hypothesis mul_0_l : forall x, mul zero x = zero.
Implicit Types t o w x y : ten A.
Notation at2 t i j := (entry zero t [i; j]).
Notation at1 t i := (entry zero t [i]).
Notation clayer := (clayer (A:=A)).

(** Layer widths fit: a layer of width [c] in, [r] out. *)
Inductive fits : list clayer -> nat -> nat -> Prop :=
| fits_nil c : fits [] c c
| fits_dense d ls r c e : wf_dense d r c -> fits ls r e -> fits (CDense d :: ls) c e
| fits_map f ls c e : f zero = Some zero -> fits ls c e -> fits (CMap f :: ls) c e.

Lemma new_len s (d : list A) : sprod s = length d -> tensor_new s d = Some (mkTen s d).
Proof. intros E. unfold tensor_new. rewrite E, Nat.eqb_refl. reflexivity. Qed.

Lemma map_padded (f : A -> option A) n P x x' y : f zero = Some zero -> wft x -> sh x = [n] -> padded_with zero x [P] x' -> n <= P ->
  clayer_eval zero add mul (CMap f) x = Some y ->
  wft y /\ sh y = [n] /\ exists y', clayer_eval zero add mul (CMap f) x' = Some y' /\ padded_with zero y [P] y'.
Proof.
  intros Hf W E (S' & W' & H) L Hy. assert (Ln := wf1 x n W E). assert (Ln' := wf1 x' P W' S').
  assert (X : forall i, i < P -> (i < n -> nth i (dat x') zero = nth i (dat x) zero) /\ (~ i < n -> nth i (dat x') zero = zero)).
  { intros i Hi. specialize (H [i] ltac:(apply inb1; auto)). unfold entry in H. rewrite E, S', inb1, !flat1 in H. exact H. }
  cbn [clayer_eval] in *. destruct (omapM f (dat x)) as [d|] eqn:Ed; [|discriminate]. cbn [obind] in Hy.
  destruct (omapM_nth' f _ _ zero zero Ed) as [Ld Hd]. rewrite (new_len (sh x) d) in Hy by (rewrite E; cbn; lia). injection Hy as <-.
  split; [unfold wft; cbn [sh dat]; rewrite E; cbn; lia|]. split; [exact E|].
  destruct (omapM_total f (dat x')) as [d' Ed'].
  { intros z Hz. apply (In_nth _ _ zero) in Hz as (i & Hi & <-). destruct (X i) as [X1 X2]; [lia|].
    destruct (Nat.lt_ge_cases i n); [rewrite X1 by auto|rewrite X2 by lia]; [rewrite Hd by lia; discriminate|rewrite Hf; discriminate]. }
  destruct (omapM_nth' f _ _ zero zero Ed') as [Ld' Hd']. rewrite Ed'. cbn [obind]. rewrite (new_len (sh x') d') by (rewrite S'; cbn; lia).
  eexists. split; [reflexivity|]. split; [exact S'|]. split; [unfold wft; cbn [sh dat]; rewrite S'; cbn; lia|].
  intros idx I. apply inb1_inv in I as (i & -> & Hi). cbn [sh]. rewrite E, inb1. unfold entry. cbn [sh dat]. rewrite S', !flat1.
  destruct (X i Hi) as [X1 X2]. assert (F := Hd' i ltac:(lia)). split; intros Hin.
  - rewrite X1 in F by auto. rewrite Hd in F by lia. congruence.
  - rewrite X2 in F by auto. congruence.
Qed.

(** Padding a chain succeeds, and on a padded input the padded chain returns the padded output. *)
Theorem chain_padded : forall ls c e, fits ls c e -> forall P og, is_pow2 P = true -> 4 <= P -> c <= P ->
  exists ls' P' og', pad_chain zero ls (mkSd [P] None og) = Some (ls', mkSd [P'] None og') /\
    e <= P' /\ is_pow2 P' = true /\
    forall x x' y, wft x -> sh x = [c] -> padded_with zero x [P] x' -> chain_eval zero add mul ls x = Some y ->
    exists y', chain_eval zero add mul ls' x' = Some y' /\ sh y = [e] /\ padded_with zero y [P'] y'.
Proof.
  intros ls c e F. induction F as [c|d ls r c e Wd F IH|f ls c e Hf F IH]; intros P og HP H4 Hc.
  - exists [], P, og. split; [reflexivity|]. split; auto. split; auto. intros x x' y W E Hp Hy. cbn in Hy. injection Hy as <-. exists x'. split; [reflexivity|]. auto.
  - destruct (dense_padded zero add mul add_0_r mul_0_l d r c P Wd HP H4 Hc og) as (d' & Ed & Wd' & Hd).
    destruct (IH (pad_minimum r) [r]) as (ls' & P' & og' & El & Hle & Hp2 & Hl); [apply pad_minimum_pow2|apply pad_minimum_4|apply pad_minimum_ge|].
    exists (CDense d' :: ls'), P', og'. split; [cbn [pad_chain pad_clayer]; rewrite Ed; cbn [obind fst snd]; rewrite El; reflexivity|].
    split; auto. split; auto. intros x x' y W E Hp Hy. unfold chain_eval in *. cbn [ofold] in *.
    destruct (Hd x x') as (z & z' & Hz & Hz' & Pz); auto.
    { apply Hp. } { apply Hp. } { intros idx I. apply Hp; auto. rewrite E in I. apply inb1_inv in I as (i & -> & Hi). apply inb1. lia. }
    cbn [clayer_eval] in *. rewrite Hz in Hy. rewrite Hz'. cbn [obind] in *.
    destruct (dense_eval_ok zero add mul d r c x Wd W E) as (z0 & Hz0 & Sz & Wz & _). assert (z0 = z) by congruence. subst z0.
    apply (Hl z z' y); auto.
  - destruct (IH P og) as (ls' & P' & og' & El & Hle & Hp2 & Hl); auto.
    exists (CMap f :: ls'), P', og'. split; [cbn [pad_chain pad_clayer obind fst snd]; rewrite El; reflexivity|].
    split; auto. split; auto. intros x x' y W E Hp Hy. unfold chain_eval in *. cbn [ofold] in *.
    destruct (clayer_eval zero add mul (CMap f) x) as [z|] eqn:Ez; [|discriminate]. cbn [obind] in Hy.
    destruct (map_padded f c P x x' z Hf W E Hp Hc Ez) as (Wz & Sz & z' & -> & Pz). cbn [obind]. apply (Hl z z' y); auto.
Qed.

(** The same after [Flatten] of a three-dimensional tensor with garbage in its padding. *)
Theorem flatten_chain_padded d ls r e og pad : length og = 3 -> Forall (lt 0) og -> Forall2 le og pad ->
  shape_is_pow2 pad = true -> 4 <= sprod pad -> wf_dense d r (sprod og) -> fits ls r e ->
  exists ls' P' og', pad_chain zero (CDense d :: ls) (pad_flatten (mkSd pad None og)) = Some (ls', mkSd [P'] None og') /\ e <= P' /\
    forall x x' y, wft x -> sh x = og -> wft x' -> sh x' = pad -> agrees zero x x' ->
    chain_eval zero add mul (CDense d :: ls) (flatten x) = Some y ->
    exists y', chain_eval zero add mul ls' (flatten x') = Some y' /\ sh y = [e] /\ padded_with zero y [P'] y'.
Proof.
  intros Lo Po F HP H4 Wd Hf.
  destruct (dense_after_flatten zero add mul add_0_r mul_0_l d r og pad Lo Po F HP H4 Wd) as (d' & Ed & Wd' & Hd).
  destruct (chain_padded ls r e Hf (pad_minimum r) [r]) as (ls' & P' & og' & El & Hle & Hp2 & Hl); [apply pad_minimum_pow2|apply pad_minimum_4|apply pad_minimum_ge|].
  exists (CDense d' :: ls'), P', og'. split; [cbn [pad_chain pad_clayer]; rewrite Ed; cbn [obind fst snd]; rewrite El; reflexivity|].
  split; auto. intros x x' y W E W' E' Ag Hy. unfold chain_eval in *. cbn [ofold] in *. cbn [clayer_eval] in *.
  destruct (Hd x x') as (z & z' & Hz & Hz' & Pz); auto. rewrite Hz in Hy. rewrite Hz'. cbn [obind] in *.
  destruct (dense_eval_ok zero add mul d r (sprod og) (flatten x) Wd) as (z0 & Hz0 & Sz & Wz & _); [unfold wft; cbn; lia|cbn; rewrite <- E; f_equal; exact W|].
  assert (z0 = z) by congruence. subst z0. apply (Hl z z' y); auto.
Qed.

(** A padded width below four is widened by [pad_minimum] and then rejects every padded input. *)
Theorem dense_small d r c P og : wf_dense d r c -> is_pow2 P = true -> P < 4 -> c <= P ->
  exists d' sd, pad_dense zero d (mkSd [P] None og) = Some (d', sd) /\
    forall x', sh x' = [P] -> dense_eval zero add mul d' x' = None.
Proof.
  intros (E & W & Eb & Wb & Hr & Hcp) HP H4 Hc. assert (Lb := wf1 _ r Wb Eb). unfold pad_dense. rewrite E, Lb, Nat.eqb_refl. cbn [sd_padded sd_garbage sd_og].
  unfold shape_is_pow2. cbn [forallb]. rewrite HP. cbn [andb length Nat.eqb nth]. rewrite (ncols_ok (d_mat d) r c) by auto. cbn [obind].
  destruct (Nat.leb_spec c P); [|lia]. rewrite (nrows_ok (d_mat d) r c) by auto. cbn [obind].
  assert (HPm := pad_minimum_4 P). assert (Hr' := pad_minimum_ge r).
  destruct (reshape_to_fit_ok zero (d_mat d) r c (pad_minimum r) (pad_minimum P)) as (m & -> & Sm & Wm & Pm); auto; [lia|]. cbn [obind].
  destruct (pad_1d_ok zero (d_bias d) r (pad_minimum r)) as (b & -> & Sb & Wbb & Pb); auto. cbn [obind].
  eexists. eexists. split; [reflexivity|]. intros x' Ex. unfold dense_eval. cbn [d_mat d_bias]. rewrite Ex. cbn [length Nat.eqb].
  rewrite (matvec_rejects zero add mul m x' (pad_minimum r) (pad_minimum P) P) by (auto; lia). reflexivity.
Qed.

(** A layer with more columns than the (vector) input has values, or whose bias does not fit its rows, is not padded. *)
Theorem dense_unfit d r c P g og d' sd : sh (d_mat d) = [r; c] ->
  pad_dense zero d (mkSd [P] g og) = Some (d', sd) -> c <= P /\ length (dat (d_bias d)) = r.
Proof.
  intros E H. unfold pad_dense in H. rewrite E in H. cbn [sd_padded sd_garbage sd_og length Nat.eqb nth] in H.
  destruct (Nat.eqb_spec (length (dat (d_bias d))) r); [|discriminate]. destruct (shape_is_pow2 [P]); [|discriminate].
  unfold ncols_2d in H. rewrite E in H. destruct (Nat.eqb c 0); [discriminate|]. cbn [obind] in H.
  destruct (Nat.leb_spec c P); [auto|discriminate].
Qed.

(** *** Matrix products. *)
Hypothesis mul_0_r : forall a, mul a zero = zero.

Lemma product_ok l r m n p : wft l -> sh l = [m; n] -> wft r -> sh r = [n; p] -> 0 < n ->
  exists u, mm_product zero add mul l r = Some u /\ sh u = [m; p] /\ wft u /\
    forall i j, i < m -> j < p -> at2 u i j = sumto zero add n (fun k => mul (at2 l i k) (at2 r k j)).
Proof.
  intros Wl El Wr Er Hn. unfold mm_product. rewrite (nrows_ok r n p), (ncols_ok l m n) by auto. cbn [obind]. rewrite Nat.eqb_refl. apply matmul_ok; auto.
Qed.

(** The general fact: [l'] and [r'] agree with [l] and [r] on the original entries and one of them is
    zero on the extra inner positions. *)
Lemma product_agrees l r l' r' m n p m' n' p' :
  wft l -> sh l = [m; n] -> wft r -> sh r = [n; p] -> wft l' -> sh l' = [m'; n'] -> wft r' -> sh r' = [n'; p'] ->
  0 < n -> m <= m' -> n <= n' -> p <= p' -> agrees zero l l' -> agrees zero r r' ->
  (forall i j k, i < m -> j < p -> n <= k < n' -> at2 l' i k = zero \/ at2 r' k j = zero) ->
  exists u u', mm_product zero add mul l r = Some u /\ mm_product zero add mul l' r' = Some u' /\ sh u = [m; p] /\ wft u /\
    sh u' = [m'; p'] /\ wft u' /\ agrees zero u u' /\
    forall i j, i < m' -> j < p' -> (forall k, k < n' -> at2 l' i k = zero \/ at2 r' k j = zero) -> at2 u' i j = zero.
Proof.
  intros Wl El Wr Er Wl' El' Wr' Er' Hn Lm Ln Lp Al Ar Hz.
  destruct (product_ok l r m n p) as (u & -> & Su & Wu & Hu); auto.
  destruct (product_ok l' r' m' n' p') as (u' & -> & Su' & Wu' & Hu'); auto; [lia|].
  exists u, u'. do 6 (split; [auto|]). split.
  - intros idx I. rewrite Su in I. apply inb2_inv in I as (i & j & -> & Hi & Hj). rewrite Hu, Hu' by lia.
    rewrite (sum_trail zero add add_0_r n n') by (auto; intros q Hq; destruct (Hz i j q) as [-> | ->]; auto).
    apply sumto_ext. intros k Hk. rewrite (Al [i; k]), (Ar [k; j]) by (rewrite ?El, ?Er; apply inb2; lia). reflexivity.
  - intros i j Hi Hj H. rewrite Hu' by auto. apply sumto_zero; auto. intros k Hk. destruct (H k Hk) as [-> | ->]; auto.
Qed.

Lemma pad_agrees t ns t' : Forall2 le (sh t) ns -> padded_with zero t ns t' -> agrees zero t t'.
Proof. intros F (S' & W' & H) idx I. apply H; auto. apply (inb_mono (sh t)); auto. Qed.

(** Input times weight.  The input may hold garbage outside its original entries; the result agrees
    with the unpadded result and its extra columns are zero. *)
Theorem matmul_input_weight w u n p N s S' :
  wft w -> sh w = [n; p] -> 0 < n -> 0 < p -> n <= N -> s <= S' -> u = [n; p] ->
  exists w', pad_matmul zero (mkMM Input (Weight w u) None false) [mkSd [S'; N] None [s; n]] =
      Some (mkMM Input (Weight w' u) None false, mkSd [S'; pad_minimum p] None [s; p]) /\
    forall x x', wft x -> sh x = [s; n] -> wft x' -> sh x' = [S'; N] -> agrees zero x x' ->
    exists y y', matmul_op zero add mul (mkMM Input (Weight w u) None false) [x] = Some y /\
      matmul_op zero add mul (mkMM Input (Weight w' u) None false) [x'] = Some y' /\
      sh y = [s; p] /\ wft y /\ sh y' = [S'; pad_minimum p] /\ wft y' /\ agrees zero y y' /\
      (forall i j, i < S' -> p <= j < pad_minimum p -> at2 y' i j = zero) /\
      (padded_with zero x [S'; N] x' -> padded_with zero y [S'; pad_minimum p] y').
Proof.
  intros W E Hn Hp LN LS ->. unfold pad_matmul. cbn [mm_num_inputs mm_left mm_right length Nat.eqb forallb sd_og sd_padded andb map].
  unfold mm_output_shape. cbn [mm_left mm_right mm_transpose obind fst snd]. rewrite Nat.eqb_refl. cbn [obind nth_error].
  rewrite (ncols_ok w n p) by auto. cbn [obind sd_garbage].
  assert (Lp := pad_minimum_ge p). destruct (reshape_to_fit_ok zero w n p N (pad_minimum p)) as (w' & -> & Pw); auto. cbn [obind].
  destruct Pw as (Sw & Ww & Hw). rewrite Sw. cbn [mm_transpose]. rewrite Nat.eqb_refl. cbn [forallb mm_bias obind].
  exists w'. split; [reflexivity|]. intros x x' Wx Ex Wx' Ex' Ag.
  unfold matmul_op. cbn [mm_left mm_right mm_transpose mm_bias nth_error obind maybe_transpose].
  destruct (product_agrees x w x' w' s n p S' N (pad_minimum p)) as (y & y' & -> & -> & Sy & Wy & Sy' & Wy' & Ay & Zy); auto.
  { intros idx I. rewrite E in I. apply Hw; [|rewrite E; auto]. apply (inb_mono [n; p]); auto. }
  { intros i j k Hi Hj Hk. right. apply Hw; [apply inb2; lia|]. rewrite E, inb2. lia. }
  assert (Z : forall i j, i < S' -> p <= j < pad_minimum p -> at2 y' i j = zero).
  { intros i j Hi Hj. apply Zy; [auto|lia|]. intros k Hk. right. apply Hw; [apply inb2; lia|]. rewrite E, inb2. lia. }
  cbn [obind]. exists y, y'. do 7 (split; [auto|]). split; [exact Z|].
  intros (_ & _ & Hx). split; auto. split; auto. intros idx I. split; [intros; apply Ay; auto|]. apply inb2_inv in I as (i & j & -> & Hi & Hj).
  rewrite Sy, inb2. intros Hout. destruct (Nat.lt_ge_cases j p); [|apply Z; auto; lia].
  apply Zy; auto. intros k Hk. left. apply Hx; [apply inb2; auto|]. rewrite Ex, inb2. lia.
Qed.

(** ... with a bias: the original entries and the extra columns are right (the extra rows hold the bias). *)
Theorem matmul_input_weight_bias w n p N s S' b :
  wft w -> sh w = [n; p] -> 0 < n -> 0 < p -> n <= N -> s <= S' -> wft b -> sh b = [p] ->
  exists w' b', pad_matmul zero (mkMM Input (Weight w [n; p]) (Some b) false) [mkSd [S'; N] None [s; n]] =
      Some (mkMM Input (Weight w' [n; p]) (Some b') false, mkSd [S'; pad_minimum p] None [s; p]) /\
    forall x x', wft x -> sh x = [s; n] -> wft x' -> sh x' = [S'; N] -> agrees zero x x' ->
    exists y y', matmul_op zero add mul (mkMM Input (Weight w [n; p]) (Some b) false) [x] = Some y /\
      matmul_op zero add mul (mkMM Input (Weight w' [n; p]) (Some b') false) [x'] = Some y' /\
      sh y = [s; p] /\ wft y /\ sh y' = [S'; pad_minimum p] /\ wft y' /\ agrees zero y y' /\
      (forall i j, i < S' -> p <= j < pad_minimum p -> at2 y' i j = zero) /\
      (padded_with zero x [S'; N] x' -> forall i j, s <= i < S' -> j < p -> at2 y' i j = add zero (at1 b j)).
Proof.
  intros W E Hn Hp LN LS Wb Eb. assert (Lp := pad_minimum_ge p).
  unfold pad_matmul. cbn [mm_num_inputs mm_left mm_right length Nat.eqb forallb sd_og sd_padded andb map].
  unfold mm_output_shape. cbn [mm_left mm_right mm_transpose obind fst snd]. rewrite Nat.eqb_refl. cbn [obind nth_error].
  rewrite (ncols_ok w n p) by auto. cbn [obind sd_garbage].
  destruct (reshape_to_fit_ok zero w n p N (pad_minimum p)) as (w' & -> & Pw); auto. cbn [obind].
  destruct Pw as (Sw & Ww & Hw). rewrite Sw. cbn [mm_transpose]. rewrite Nat.eqb_refl. cbn [forallb mm_bias obind].
  destruct (pad_to_shape_ok zero b [pad_minimum p]) as (b' & -> & Sb & Wb' & Hb); auto; try (rewrite Eb; repeat constructor; auto). cbn [obind].
  exists w', b'. split; [reflexivity|]. intros x x' Wx Ex Wx' Ex' Ag.
  unfold matmul_op. cbn [mm_left mm_right mm_transpose mm_bias nth_error obind maybe_transpose].
  destruct (product_agrees x w x' w' s n p S' N (pad_minimum p)) as (y & y' & -> & -> & Sy & Wy & Sy' & Wy' & Ay & Zy); auto.
  { intros idx I. rewrite E in I. apply Hw; [|rewrite E; auto]. apply (inb_mono [n; p]); auto. }
  { intros i j k Hi Hj Hk. right. apply Hw; [apply inb2; lia|]. rewrite E, inb2. lia. }
  cbn [obind]. rewrite Sy, Sy', Eb, Sb, !Nat.eqb_refl.
  destruct (add_dim2_ok zero add y b s p) as (v & -> & Sv & Wv & Hv); auto.
  destruct (add_dim2_ok zero add y' b' S' (pad_minimum p)) as (v' & -> & Sv' & Wv' & Hv'); auto; [lia|].
  exists v, v'. do 6 (split; [auto|]). split; [|split].
  - intros idx I. rewrite Sv in I. apply inb2_inv in I as (i & j & -> & Hi & Hj). rewrite Hv, Hv' by lia. f_equal.
    + apply Ay. rewrite Sy. apply inb2; auto.
    + apply Hb; [apply inb1; lia|]. rewrite Eb. apply inb1; auto.
  - intros i j Hi Hj. rewrite Hv' by lia. rewrite (proj2 (Hb [j] ltac:(apply inb1; lia))) by (rewrite Eb, inb1; lia). rewrite add_0_r.
    apply Zy; [auto|lia|]. intros k Hk. right. apply Hw; [apply inb2; lia|]. rewrite E, inb2. lia.
  - intros (_ & _ & Hx) i j Hi Hj. rewrite Hv' by lia. f_equal.
    + apply Zy; [lia|lia|]. intros k Hk. left. apply Hx; [apply inb2; lia|]. rewrite Ex, inb2. lia.
    + apply Hb; [apply inb1; lia|]. rewrite Eb. apply inb1; auto.
Qed.

(** Weight times input. *)
Theorem matmul_weight_input w n m N q Q :
  wft w -> sh w = [m; n] -> 0 < n -> 0 < m -> n <= N -> q <= Q ->
  exists w', pad_matmul zero (mkMM (Weight w [m; n]) Input None false) [mkSd [N; Q] None [n; q]] =
      Some (mkMM (Weight w' [m; n]) Input None false, mkSd [pad_minimum m; Q] None [m; q]) /\
    forall x x', wft x -> sh x = [n; q] -> wft x' -> sh x' = [N; Q] -> agrees zero x x' ->
    exists y y', matmul_op zero add mul (mkMM (Weight w [m; n]) Input None false) [x] = Some y /\
      matmul_op zero add mul (mkMM (Weight w' [m; n]) Input None false) [x'] = Some y' /\
      sh y = [m; q] /\ wft y /\ sh y' = [pad_minimum m; Q] /\ wft y' /\ agrees zero y y' /\
      (forall i j, m <= i < pad_minimum m -> j < Q -> at2 y' i j = zero) /\
      (padded_with zero x [N; Q] x' -> padded_with zero y [pad_minimum m; Q] y').
Proof.
  intros W E Hn Hm LN LQ. unfold pad_matmul. cbn [mm_num_inputs mm_left mm_right length Nat.eqb forallb sd_og sd_padded andb map].
  unfold mm_output_shape. cbn [mm_left mm_right mm_transpose obind fst snd]. rewrite Nat.eqb_refl. cbn [obind nth_error].
  rewrite (nrows_ok w m n) by auto. cbn [obind sd_garbage].
  assert (Lp := pad_minimum_ge m). destruct (reshape_to_fit_ok zero w m n (pad_minimum m) N) as (w' & -> & Pw); auto. cbn [obind].
  destruct Pw as (Sw & Ww & Hw). rewrite Sw. cbn [mm_transpose]. rewrite Nat.eqb_refl. cbn [forallb mm_bias obind andb].
  exists w'. split; [reflexivity|]. intros x x' Wx Ex Wx' Ex' Ag.
  unfold matmul_op. cbn [mm_left mm_right mm_transpose mm_bias nth_error obind maybe_transpose].
  destruct (product_agrees w x w' x' m n q (pad_minimum m) N Q) as (y & y' & -> & -> & Sy & Wy & Sy' & Wy' & Ay & Zy); auto.
  { intros idx I. rewrite E in I. apply Hw; [|rewrite E; auto]. apply (inb_mono [m; n]); auto. }
  { intros i j k Hi Hj Hk. left. apply Hw; [apply inb2; lia|]. rewrite E, inb2. lia. }
  assert (Z : forall i j, m <= i < pad_minimum m -> j < Q -> at2 y' i j = zero).
  { intros i j Hi Hj. apply Zy; [lia|auto|]. intros k Hk. left. apply Hw; [apply inb2; lia|]. rewrite E, inb2. lia. }
  cbn [obind]. exists y, y'. do 7 (split; [auto|]). split; [exact Z|].
  intros (_ & _ & Hx). split; auto. split; auto. intros idx I. split; [intros; apply Ay; auto|]. apply inb2_inv in I as (i & j & -> & Hi & Hj).
  rewrite Sy, inb2. intros Hout. destruct (Nat.lt_ge_cases i m); [|apply Z; auto; lia].
  apply Zy; auto. intros k Hk. right. apply Hx; [apply inb2; auto|]. rewrite Ex, inb2. lia.
Qed.

(** Input times input, second one possibly transposed: correct whenever the first one has zero columns
    in its padding (which the two theorems above provide). *)
Lemma transpose_agrees x x' m n M N : wft x -> sh x = [m; n] -> wft x' -> sh x' = [M; N] -> m <= M -> n <= N -> agrees zero x x' ->
  exists t t', transpose x = Some t /\ transpose x' = Some t' /\ sh t = [n; m] /\ wft t /\ sh t' = [N; M] /\ wft t' /\ agrees zero t t' /\
    forall i j, i < N -> j < M -> at2 t' i j = at2 x' j i.
Proof.
  intros W E W' E' Lm Ln Ag. destruct (transpose_ok zero x m n W E) as (t & -> & St & Wt & Ht). destruct (transpose_ok zero x' M N W' E') as (t' & -> & St' & Wt' & Ht').
  exists t, t'. do 6 (split; [auto|]). split; [|auto]. intros idx I. rewrite St in I. apply inb2_inv in I as (i & j & -> & Hi & Hj).
  rewrite Ht, Ht' by lia. apply Ag. rewrite E. apply inb2; auto.
Qed.
Theorem matmul_input_input (tr : bool) m n p M N P : 0 < n -> m <= M -> n <= N -> p <= P ->
  let mm := mkMM Input Input None tr in
  let r := if tr then [p; n] else [n; p] in let r' := if tr then [P; N] else [N; P] in
  pad_matmul zero mm [mkSd [M; N] None [m; n]; mkSd r' None r] = Some (mm, mkSd [M; P] None [m; p]) /\
  forall x x' z z', wft x -> sh x = [m; n] -> wft x' -> sh x' = [M; N] -> wft z -> sh z = r -> wft z' -> sh z' = r' ->
    agrees zero x x' -> agrees zero z z' -> (forall i k, i < m -> n <= k < N -> at2 x' i k = zero) ->
    exists y y', matmul_op zero add mul mm [x; z] = Some y /\ matmul_op zero add mul mm [x'; z'] = Some y' /\
      sh y = [m; p] /\ wft y /\ sh y' = [M; P] /\ wft y' /\ agrees zero y y' /\
      (padded_with zero x [M; N] x' -> padded_with zero z r' z' -> padded_with zero y [M; P] y').
Proof.
  intros Hn Lm Ln Lp mm r r'. split.
  - unfold pad_matmul, mm. cbn [mm_num_inputs mm_left mm_right length Nat.eqb forallb sd_og sd_padded andb map].
    unfold r, r'. destruct tr; cbn [length Nat.eqb andb]; unfold mm_output_shape; cbn [mm_left mm_right mm_transpose obind fst snd rev app]; rewrite !Nat.eqb_refl; cbn [obind sd_garbage forallb mm_bias]; rewrite ?Nat.eqb_refl; reflexivity.
  - intros x x' z z' Wx Ex Wx' Ex' Wz Ez Wz' Ez' Ax Az Hz. unfold matmul_op, mm. cbn [mm_left mm_right mm_transpose mm_bias].
    assert (G : exists s s', maybe_transpose tr z = Some s /\ maybe_transpose tr z' = Some s' /\ sh s = [n; p] /\ wft s /\ sh s' = [N; P] /\ wft s' /\ agrees zero s s' /\
      (padded_with zero z r' z' -> forall k j, k < N -> j < P -> ~ (k < n /\ j < p) -> at2 s' k j = zero)).
    { destruct tr; cbn [maybe_transpose].
      - destruct (transpose_agrees z z' p n P N) as (t & t' & -> & -> & A1 & A2 & A3 & A4 & A5 & A6); auto. exists t, t'. do 7 (split; [auto|]).
        intros (_ & _ & H) k j Hk Hj Ho. rewrite A6 by auto. apply H; [apply inb2; auto|]. rewrite Ez. unfold r. rewrite inb2. tauto.
      - exists z, z'. do 7 (split; [auto|]). intros (_ & _ & H) k j Hk Hj Ho. apply H; [apply inb2; auto|]. rewrite Ez. unfold r. rewrite inb2. tauto. }
    destruct G as (s & s' & -> & -> & Ss & Ws & Ss' & Ws' & As & Zs). cbn [obind].
    destruct (product_agrees x s x' s' m n p M N P) as (y & y' & -> & -> & Sy & Wy & Sy' & Wy' & Ay & Zy); auto.
    cbn [obind]. exists y, y'. do 7 (split; [auto|]). intros Px Pz. split; auto. split; auto. intros idx I. split; [intros; apply Ay; auto|].
    apply inb2_inv in I as (i & j & -> & Hi & Hj). rewrite Sy, inb2. intros Hout. apply Zy; auto. intros k Hk.
    destruct (Nat.lt_ge_cases i m).
    + right. apply Zs; auto. lia.
    + left. apply Px; [apply inb2; auto|]. rewrite Ex, inb2. lia.
Qed.

(** The output projection after multi-head attention: the input columns of padded heads and of the
    padding inside each head hold garbage. *)
Theorem matmul_after_mha w nh hd pnh phd p s S' s0 s0' :
  wft w -> sh w = [nh * hd; p] -> 0 < nh -> 0 < hd -> 0 < p -> nh <= pnh -> hd <= phd -> s <= S' ->
  let mm := mkMM Input (Weight w [nh * hd; p]) None false in
  exists w', pad_matmul zero mm [mkSd [S'; pnh * phd] (Some (GMha [s0; nh; hd] [s0'; pnh; phd])) [s; nh * hd]] =
      Some (mkMM Input (Weight w' [nh * hd; p]) None false, mkSd [S'; pad_minimum p] None [s; p]) /\
    forall x x', wft x -> sh x = [s; nh * hd] -> wft x' -> sh x' = [S'; pnh * phd] ->
      (forall i a b, i < s -> a < nh -> b < hd -> at2 x' i (a * phd + b) = at2 x i (a * hd + b)) ->
    exists y y', matmul_op zero add mul mm [x] = Some y /\
      matmul_op zero add mul (mkMM Input (Weight w' [nh * hd; p]) None false) [x'] = Some y' /\
      sh y = [s; p] /\ wft y /\ sh y' = [S'; pad_minimum p] /\ wft y' /\ agrees zero y y' /\
      (forall i j, i < S' -> p <= j < pad_minimum p -> at2 y' i j = zero).
Proof.
  intros W E Hnh Hhd Hp L1 L2 LS mm. assert (Hn : 0 < nh * hd) by (apply Nat.mul_pos_pos; auto). assert (Lp := pad_minimum_ge p).
  unfold pad_matmul, mm. cbn [mm_num_inputs mm_left mm_right length Nat.eqb forallb sd_og sd_padded andb map].
  unfold mm_output_shape. cbn [mm_left mm_right mm_transpose obind fst snd]. rewrite Nat.eqb_refl. cbn [obind nth_error].
  rewrite (ncols_ok w (nh * hd) p) by auto. cbn [obind sd_garbage ignore_garbage].
  destruct (ignore_mha_ok zero w nh hd pnh phd p (pad_minimum p) s0 s0' (pnh * phd)) as (w' & -> & Sw & Ww & Hw); auto; [lia|]. cbn [obind].
  rewrite Sw. cbn [mm_transpose]. rewrite Nat.eqb_refl. cbn [forallb mm_bias obind].
  exists w'. split; [reflexivity|]. intros x x' Wx Ex Wx' Ex' Ag.
  unfold matmul_op. cbn [mm_left mm_right mm_transpose mm_bias nth_error obind maybe_transpose].
  assert (Hnp : nh * hd <= pnh * phd) by (apply Nat.mul_le_mono; auto).
  destruct (product_ok x w s (nh * hd) p) as (y & -> & Sy & Wy & Hy); auto.
  destruct (product_ok x' w' S' (pnh * phd) (pad_minimum p)) as (y' & -> & Sy' & Wy' & Hy'); auto; [lia|]. cbn [obind].
  exists y, y'. do 6 (split; [auto|]). split.
  - intros idx I. rewrite Sy in I. apply inb2_inv in I as (i & j & -> & Hi & Hj). rewrite Hy, Hy' by lia.
    replace (pnh * phd) with (sprod [pnh; phd]) by (cbn; lia). replace (nh * hd) with (sprod [nh; hd]) by (cbn; lia).
    assert (Fle : Forall2 le [nh; hd] [pnh; phd]) by (repeat constructor; auto).
    rewrite (sum_spread zero add add_0_r [nh; hd] [pnh; phd]); auto.
    + apply sumto_ext. intros k Hk. assert (Ik := unflat_inb _ _ Hk). assert (Ik' := inb_mono _ _ _ Fle Ik).
      assert (Hk' : k < nh * hd) by (cbn in Hk; lia).
      rewrite Hw; [|assert (F := flat_lt _ _ Ik'); unfold spread; cbn [sprod fold_right] in F; lia|lia].
      unfold spread. rewrite unflat_flat by auto. destruct (inb_dec [nh; hd] (unflat [nh; hd] k)); [|contradiction].
      destruct (Nat.ltb_spec j p); [|lia]. rewrite flat_unflat by auto. f_equal.
      rewrite unflat2 in * by auto. rewrite flat2. apply inb2 in Ik as [Ia Ib]. rewrite Ag by auto. f_equal. f_equal. f_equal.
      rewrite (Nat.div_mod_eq k hd) at 3. lia.
    + intros k Hk Hn'. rewrite Hw; [|cbn in Hk; lia|lia]. destruct (inb_dec [nh; hd] (unflat [pnh; phd] k)); [contradiction|]. apply mul_0_r.
  - intros i j Hi Hj. rewrite Hy' by lia. apply sumto_zero; auto. intros k Hk. rewrite Hw by lia.
    destruct (Nat.ltb_spec j p); [lia|]. destruct (inb_dec [nh; hd] (unflat [pnh; phd] k)); apply mul_0_r.
Qed.

(** QKV projections: columns are regrouped per padded head. *)
Theorem qkv_padded w b n nh hd dim1 s S' :
  wft w -> sh w = [n; nh * hd] -> wft b -> sh b = [nh * hd] -> 0 < n -> 0 < nh -> 0 < hd -> n <= dim1 -> is_pow2 dim1 = true -> 4 <= dim1 -> s <= S' ->
  let ph := pad_minimum nh in let pd := pad_minimum hd in
  exists w' b', pad_qkv_weight zero w nh hd dim1 = Some w' /\ pad_qkv_bias zero b nh hd = Some b' /\
    forall x x', wft x -> sh x = [s; n] -> wft x' -> sh x' = [S'; dim1] -> agrees zero x x' ->
    exists y y', qkv_eval zero add mul w b x = Some y /\ qkv_eval zero add mul w' b' x' = Some y' /\
      sh y = [s; nh * hd] /\ wft y /\ sh y' = [S'; ph * pd] /\ wft y' /\
      (forall i h e, i < s -> h < nh -> e < hd -> at2 y' i (h * pd + e) = at2 y i (h * hd + e)) /\
      (forall i h e, i < S' -> h < ph -> e < pd -> ~ (h < nh /\ e < hd) -> at2 y' i (h * pd + e) = zero).
Proof.
  intros W E Wb Eb Hn Hnh Hhd Ld HP H4 LS ph pd.
  assert (Lh : nh <= ph) by apply pad_minimum_ge. assert (Le : hd <= pd) by apply pad_minimum_ge.
  assert (Hnn : 0 < nh * hd) by (apply Nat.mul_pos_pos; auto).
  unfold pad_qkv_weight, pad_qkv_bias. rewrite (nrows_ok w n (nh * hd)) by auto. cbn [obind].
  destruct (Nat.leb_spec n dim1); [|lia]. rewrite (pad_minimum_id dim1) by auto. fold ph pd.
  unfold reshape at 1. rewrite E. replace (sprod [n; nh * hd]) with (sprod [n; nh; hd]) by (cbn [sprod fold_right]; ring). rewrite Nat.eqb_refl. cbn [obind].
  destruct (pad_to_shape_ok zero (mkTen [n; nh; hd] (dat w)) [dim1; ph; pd]) as (w2 & -> & Sw2 & Ww2 & Hw2).
  { unfold wft. cbn [sh dat]. rewrite (wf2 w n (nh * hd)) by auto. cbn. ring. } { cbn [sh]. repeat constructor; auto. } { cbn [sh]. repeat constructor; auto. }
  cbn [obind]. unfold reshape at 1. rewrite Sw2. replace (sprod [dim1; ph; pd]) with (sprod [dim1; ph * pd]) by (cbn [sprod fold_right]; ring). rewrite Nat.eqb_refl.
  unfold reshape at 1. rewrite Eb. replace (sprod [nh * hd]) with (sprod [nh; hd]) by (cbn [sprod fold_right]; ring). rewrite Nat.eqb_refl. cbn [obind].
  destruct (pad_to_shape_ok zero (mkTen [nh; hd] (dat b)) [ph; pd]) as (b2 & -> & Sb2 & Wb2 & Hb2).
  { unfold wft. cbn [sh dat]. rewrite (wf1 b (nh * hd)) by auto. cbn. ring. } { cbn [sh]. repeat constructor; auto. } { cbn [sh]. repeat constructor; auto. }
  cbn [obind]. unfold reshape. rewrite Sb2. replace (sprod [ph; pd]) with (sprod [ph * pd]) by (cbn [sprod fold_right]; ring). rewrite Nat.eqb_refl.
  exists (mkTen [dim1; ph * pd] (dat w2)), (mkTen [ph * pd] (dat b2)). split; [reflexivity|]. split; [reflexivity|].
  assert (Ww' : wft (mkTen [dim1; ph * pd] (dat w2))) by (unfold wft in *; cbn [sh dat]; rewrite Ww2, Sw2; cbn; ring).
  assert (Wb' : wft (mkTen [ph * pd] (dat b2))) by (unfold wft in *; cbn [sh dat]; rewrite Wb2, Sb2; cbn; ring).
  assert (Mw : forall k h e, k < dim1 -> h < ph -> e < pd -> at2 (mkTen [dim1; ph * pd] (dat w2)) k (h * pd + e) =
    if inb_dec [n; nh; hd] [k; h; e] then at2 w k (h * hd + e) else zero).
  { intros k h e Hk Hh He. specialize (Hw2 [k; h; e] ltac:(apply inb3; auto)). unfold entry in *. cbn [sh dat] in *. rewrite Sw2 in Hw2. rewrite E.
    rewrite !flat3 in Hw2. rewrite !flat2. replace (k * (ph * pd) + (h * pd + e)) with (k * ph * pd + h * pd + e) by ring.
    destruct (inb_dec [n; nh; hd] [k; h; e]) as [I|I]; [|apply Hw2; auto]. rewrite (proj1 Hw2) by auto. f_equal. ring. }
  assert (Mb : forall h e, h < ph -> e < pd -> at1 (mkTen [ph * pd] (dat b2)) (h * pd + e) = if inb_dec [nh; hd] [h; e] then at1 b (h * hd + e) else zero).
  { intros h e Hh He. specialize (Hb2 [h; e] ltac:(apply inb2; auto)). unfold entry in *. cbn [sh dat] in *. rewrite Sb2 in Hb2. rewrite Eb.
    rewrite !flat2 in Hb2. rewrite !flat1. destruct (inb_dec [nh; hd] [h; e]) as [I|I]; apply Hb2; auto. }
  set (w' := mkTen [dim1; ph * pd] (dat w2)) in *. set (b' := mkTen [ph * pd] (dat b2)) in *.
  intros x x' Wx Ex Wx' Ex' Ag. unfold qkv_eval.
  destruct (matmul_ok zero add mul x w s n (nh * hd)) as (y & -> & Sy & Wy & Hy); auto.
  destruct (matmul_ok zero add mul x' w' S' dim1 (ph * pd)) as (y' & -> & Sy' & Wy' & Hy'); auto. cbn [obind].
  assert (Hpp : 0 < ph * pd) by (apply Nat.mul_pos_pos; lia).
  destruct (add_dim2_ok zero add y b s (nh * hd)) as (v & -> & Sv & Wv & Hv); auto.
  destruct (add_dim2_ok zero add y' b' S' (ph * pd)) as (v' & -> & Sv' & Wv' & Hv'); auto.
  exists v, v'. do 6 (split; [auto|]). split.
  - intros i h e Hi Hh He. assert (h * pd + e < ph * pd) by (apply lt2; lia). assert (h * hd + e < nh * hd) by (apply lt2; lia).
    rewrite Hv, Hv', Hy, Hy', Mb by lia. destruct (inb_dec [nh; hd] [h; e]) as [|N0]; [|exfalso; apply N0, inb2; auto]. f_equal.
    rewrite (sum_trail zero add add_0_r n dim1); auto.
    + apply sumto_ext. intros k Hk. rewrite Mw by lia. destruct (inb_dec [n; nh; hd] [k; h; e]) as [|N0]; [|exfalso; apply N0, inb3; auto].
      f_equal. apply Ag. rewrite Ex. apply inb2; auto.
    + intros k Hk. rewrite Mw by lia. destruct (inb_dec [n; nh; hd] [k; h; e]) as [I|]; [apply inb3 in I; lia|]. apply mul_0_r.
  - intros i h e Hi Hh He Ho. assert (h * pd + e < ph * pd) by (apply lt2; lia).
    rewrite Hv', Hy', Mb by lia. destruct (inb_dec [nh; hd] [h; e]) as [I|]; [apply inb2 in I; tauto|]. rewrite add_0_r.
    apply sumto_zero; auto. intros k Hk. rewrite Mw by lia. destruct (inb_dec [n; nh; hd] [k; h; e]) as [I|]; [apply inb3 in I; tauto|]. apply mul_0_r.
Qed.
End Chain.
