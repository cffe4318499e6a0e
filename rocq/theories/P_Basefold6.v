(** Basefold: the statements exported, for both codes. *)
From Coq Require Import List Arith Lia Bool ZArith Field.
From Verif Require Import ListAux FieldDef MleMath M_Mle M_Tensor M_Sumcheck M_Fft M_Merkle M_Code M_Basefold P_Mle P_Eq P_Tensor P_Merkle P_Merkle2 P_Code P_Code2 P_Code3 P_Code4 P_Code5 P_Basefold P_Basefold2 P_Basefold3 P_Basefold4 P_Basefold5.
Import ListNotations.

Section Export.
Context {K : field}.
Local Open Scope F_scope.
Add Field Kf_b6 : (fth K).
(** The schemes that [setup] and [trim] of the two codes return. *)
Inductive valid_scheme : @scheme K -> Prop :=
| VRs generator32 GENERATOR rate msg nq setup_max max pp vp :
    exp_power_of_2 generator32 31 = - (1) -> GENERATOR <> 0 -> (1 + 1 : K) <> 0 -> (msg <= max)%nat -> (max <= setup_max)%nat -> (setup_max + rate <= 32)%nat ->
    rs_setup_trim generator32 GENERATOR rate msg setup_max max = Some (pp, vp) -> valid_scheme (rs_scheme GENERATOR rate msg nq pp vp)
| VBc (flat : nat -> K) rate msg nq max table wtable :
    bc_tables flat (max + rate) = Some (table, wtable) -> valid_scheme (bc_scheme flat rate msg nq max table wtable).
Lemma valid_code sc : valid_scheme sc -> exists wd, code_ok sc wd /\ const_words sc wd.
Proof.
  intros [g32 GEN rate msg nq smax max pp vp H1 H2 H3 H4 H5 H6 H7 | flat rate msg nq max table wtable H].
  - destruct (rs_code_ok g32 GEN rate msg nq smax max H1 H2 H3 H4 H5 H6) as (pp' & vp' & E & Ef & C). rewrite H7 in E. injection E as <- <-. eexists. split; [exact C|]. now apply rs_const.
  - eexists. split; [now apply bc_code_ok|]. now apply bc_const.
Qed.
Lemma linh_fixed n f (c : K) : length f = (2 ^ S n)%nat -> linh n f c = fixed (S n) f [c].
Proof.
  intros Lf. unfold fixed. cbn [length rev app]. replace (S n - 1)%nat with n by lia. rewrite (table_of_mle n (linh n f c)) at 1 by now apply linh_length.
  apply map_ext. intros b. apply mle_linh; [exact Lf|apply bpt_length].
Qed.

(** ** Folding *)
Lemma fold_codeword sc : valid_scheme sc -> forall n f (c : K), (sc_msg sc <= n < sc_max sc)%nat -> (0 < n)%nat -> length f = (2 ^ S n)%nat ->
  exists bh bh' word word', evals_codeword sc f = Some (bh, word) /\ length word = (2 ^ (S n + sc_rate sc))%nat /\
    evals_codeword sc (fixed (S n) f [c]) = Some (bh', word') /\
    one_round (sc_pcoef sc) (n + sc_rate sc) word c = Some word' /\ one_round (sc_vcoef sc) (n + sc_rate sc) word c = Some word'.
Proof.
  intros V n f c Hn H0 Lf. destruct (valid_code sc V) as (wd & C & _).
  assert (E : one_round (sc_pcoef sc) (n + sc_rate sc) (orc wd (S n) f) c = Some (orc wd n (linh n f c))) by now apply orc_fold.
  exists (br (S n) f), (br n (linh n f c)), (orc wd (S n) f), (orc wd n (linh n f c)).
  split; [apply (evals_codeword_ok sc wd C); auto; lia|]. split; [now apply (orc_length sc wd C); [lia|]|].
  rewrite <- linh_fixed by exact Lf. split; [apply (evals_codeword_ok sc wd C); [exact H0|lia|now apply linh_length]|]. split; [exact E|].
  rewrite <- E. assert (LO : length (orc wd (S n) f) = (2 ^ S (n + sc_rate sc))%nat) by (rewrite (orc_length sc wd C) by (auto; lia); f_equal).
  destruct (split_inter (orc wd (S n) f) (n + sc_rate sc) LO) as (a & b & -> & La & Lb). unfold one_round. rewrite pairs2_inter by congruence.
  assert (Lc : length (combine a b) = (2 ^ (n + sc_rate sc))%nat) by (rewrite combine_length; lia). rewrite Lc.
  assert (HG : forall l s, Forall (fun p : nat * (K * K) => (fst p < 2 ^ (n + sc_rate sc))%nat) l -> omapM (fold_pair (sc_vcoef sc) (n + sc_rate sc) c) l = s -> omapM (fold_pair (sc_pcoef sc) (n + sc_rate sc) c) l = s).
  { intros l s F <-. induction F as [|p l Hp F IH]; [reflexivity|]. cbn [omapM]. unfold fold_pair at 1 3. rewrite (co_coef _ _ C) by (auto; lia). now rewrite IH. }
  symmetry. apply HG; [|reflexivity]. apply Forall_forall. intros [i p] Hp. apply in_combine_l in Hp. apply in_seq in Hp. cbn [fst]. lia.
Qed.
(** Interpolation gives the monomial coefficients of the multilinear extension. *)
Lemma mono_bits (r : list K) : forall i, mono r i = fprod (map (fun j => if Nat.testbit i j then nth j r 0 else 1) (seq 0 (length r))).
Proof.
  induction r as [|x r IH]; intros i; [reflexivity|]. cbn [mono length seq map fprod nth]. rewrite <- seq_shift, map_map. rewrite IH. change (Nat.testbit i 0) with (Nat.odd i). f_equal.
  f_equal. apply map_ext. intros j. cbn [nth]. now rewrite Nat.div2_bits.
Qed.
Lemma interpolation_spec (l : list K) n : (0 < n)%nat -> length l = (2 ^ n)%nat -> exists c, interpolate_hc l = Some c /\ length c = (2 ^ n)%nat /\
  forall r : list K, length r = n -> sumn (2 ^ n) (fun i => nth i c 0 * fprod (map (fun j => if Nat.testbit i j then nth j r 0 else 1) (seq 0 n))) = mle l r.
Proof.
  intros Hn Ll. exists (hcI n l). split; [now apply interpolate_ok|]. split; [now apply hcI_length|]. intros r Lr. subst n. rewrite <- (cval_ok r l Ll). unfold cval. rewrite hcI_length by exact Ll.
  apply sumn_ext. intros i _. f_equal. symmetry. apply mono_bits.
Qed.
(** Reed-Solomon encoding is evaluation of the polynomial on a coset of a group of roots of unity. *)
Lemma rs_encoding generator32 GENERATOR rate msg setup_max max pp vp :
  exp_power_of_2 generator32 31 = - (1) -> GENERATOR <> 0 -> (1 + 1 : K) <> 0 -> (msg <= max)%nat -> (max <= setup_max)%nat -> (setup_max + rate <= 32)%nat ->
  rs_setup_trim generator32 GENERATOR rate msg setup_max max = Some (pp, vp) ->
  forall n, (msg <= n <= max)%nat -> exists omega shift : K, fpow omega (2 ^ (n + rate)) = 1 /\ ((0 < n + rate)%nat -> fpow omega (2 ^ (n + rate - 1)) = - (1)) /\ shift <> 0 /\
    forall c : list K, length c = (2 ^ n)%nat -> exists cw, rs_encode GENERATOR rate msg pp c = Some cw /\ length cw = (2 ^ (n + rate))%nat /\
      (n = msg -> rs_encode_small GENERATOR rate vp c = Some cw) /\
      forall j, (j < 2 ^ (n + rate))%nat -> nth j cw 0 = sumn (2 ^ n) (fun i => nth i c 0 * fpow (shift * fpow omega j) i).
Proof.
  intros H1 H2 H3 H4 H5 H6 H7 n Hn. rewrite (setup_trim_ok generator32 GENERATOR H2 H3 rate msg setup_max max H4 H5 H6) in H7. injection H7 as <- <-.
  exists (W (w generator32) (rate + n)), (gshift GENERATOR max n). split; [|split; [|split]].
  - replace (n + rate)%nat with (rate + n)%nat by lia. apply (W_full (w generator32) 32 (w_0 generator32 H1) (fun l Hl => w_S generator32 l Hl)). lia.
  - intros Hp. destruct (rate + n)%nat as [|l] eqn:E; [lia|]. replace (n + rate - 1)%nat with l by lia. cbn [W]. apply (w_half (w generator32) 32 (w_0 generator32 H1) (fun l Hl => w_S generator32 l Hl)). lia.
  - apply exp_nz. exact H2.
  - intros c Lc. eexists. split; [apply (rs_encode_ok generator32 GENERATOR H1 rate msg setup_max max H4 H5 H6 n); auto|]. split; [unfold rs_word; rewrite map_length, seq_length; f_equal; lia|]. split.
    + intros ->. apply (rs_encode_small_ok generator32 GENERATOR H1 rate msg setup_max max H4 H5 H6 msg); auto; lia.
    + intros j Hj. unfold rs_word. rewrite nth_map_seq by (replace (rate + n)%nat with (n + rate)%nat by lia; exact Hj). rewrite horner_sum, Lc. reflexivity.
Qed.
Lemma final_word sc : valid_scheme sc -> (0 < sc_msg sc <= sc_max sc)%nat -> forall f : list K, length f = (2 ^ sc_msg sc)%nat ->
  exists bh word, evals_codeword sc f = Some (bh, word) /\ final_codeword_single sc f = Some word /\ final_codeword_batch sc f = Some word.
Proof.
  intros V Hm f Lf. destruct (valid_code sc V) as (wd & C & _). exists (br (sc_msg sc) f), (orc wd (sc_msg sc) f). split; [apply (evals_codeword_ok sc wd C); auto; lia|].
  split; [now apply (final_code_ok sc wd C)|now apply (final_code_batch_ok sc wd C)].
Qed.
End Export.

Section Export2.
Context {K : field} {B D : Type} (as_bases : K -> list B) (emb : B -> K) (hash_bases : list B -> D)
  (hash_two_digests : D -> D -> D) (deqb : D -> D -> bool) (dig : D -> list (@ev K)) (T : @hist K -> K) (to_usize : K -> nat)
  (nbits : nat) (scm : @scheme K).
Hypothesis deqb_ok : forall x y : D, deqb x y = true <-> x = y.
Local Open Scope F_scope.
Notation rate := (sc_rate scm). Notation msg := (sc_msg scm). Notation mx := (sc_max scm).
Notation leaves l := (from_batch_leaves as_bases emb hash_bases hash_two_digests [CExt l]).
Notation commit := (commit as_bases emb hash_bases hash_two_digests scm).
Notation open := (open as_bases emb hash_bases hash_two_digests dig T to_usize nbits scm).
Notation verify := (verify as_bases emb hash_bases hash_two_digests deqb dig T to_usize nbits scm).
Notation simple_batch_verify := (simple_batch_verify as_bases emb hash_bases hash_two_digests deqb dig T to_usize nbits scm).
Notation batch_verify := (batch_verify as_bases emb hash_bases hash_two_digests deqb dig T to_usize nbits scm).

Lemma opening_complete : valid_scheme scm -> (0 < msg)%nat -> forall (evals point : list K) sched h, (0 < length point <= mx)%nat -> length evals = (2 ^ length point)%nat -> valid_sched (length point) sched ->
  exists cw comm pf h', commit (length point) evals = Some cw /\ to_commitment cw = Some comm /\
    open (length point) evals cw point h = Some (pf, h') /\ verify sched comm point (mle evals point) pf h = Some h'.
Proof.
  intros V Hm evals point sched h Hn Le Hs. destruct (valid_code scm V) as (wd & C & _). destruct (le_lt_dec (length point) msg) as [H|H].
  - destruct (trivial_complete as_bases emb hash_bases hash_two_digests deqb dig T to_usize nbits scm deqb_ok evals point sched h) as (cw & comm & pf & E1 & E2 & E3 & E4); auto; try lia. exists cw, comm, pf, h. auto.
  - destruct (open_complete as_bases emb hash_bases hash_two_digests deqb dig T to_usize nbits scm wd deqb_ok C evals point sched h) as (cw & comm & pf & h' & E1 & E2 & E3 & E4 & _); auto; try lia. exists cw, comm, pf, h'. auto.
Qed.
Lemma oracles_are_codewords : valid_scheme scm -> forall (point evals : list K) h, (0 < msg < length point)%nat -> (length point <= mx)%nat -> length evals = (2 ^ length point)%nat ->
  let n := length point in let k := (n - msg)%nat in
  exists bh oracle0 trees msgs roots final h' cs h1,
    evals_codeword scm evals = Some (bh, oracle0) /\
    commit_phase as_bases emb hash_bases hash_two_digests dig T nbits scm point oracle0 bh k h = Some (trees, msgs, roots, final, h') /\
    verifier_rounds dig T k 0 k msgs roots h = Some (cs, h1) /\ h' = absorb h1 final /\ length cs = k /\ final = fixed n evals cs /\
    forall j, (j < k - 1)%nat -> exists t oracle r, nth_error trees j = Some t /\ mt_leaves t = [CExt oracle] /\ mt_root t = Some r /\ nth_error roots j = Some r /\
      exists bh', evals_codeword scm (fixed n evals (firstn (S j) cs)) = Some (bh', oracle).
Proof. intros V. destruct (valid_code scm V) as (wd & C & _). intros point evals h Hm Hx Le. exact (commit_phase_oracles as_bases emb hash_bases hash_two_digests deqb dig T nbits scm wd deqb_ok C point evals h Hm Hx Le). Qed.

(** ** Forgeries *)
Lemma forge_single : valid_scheme scm -> (0 < msg <= mx)%nat -> forall sched comm (point : list K) (eval : K) roots h,
  bc_nv comm = None \/ bc_nv comm = Some (length point) -> (msg < length point)%nat -> (length point <= msg + S (length roots))%nat ->
  exists msgs h', verify sched comm point eval (mkBp msgs roots (repeat eval (2 ^ msg)) (QSingle []) None []) h = Some h'.
Proof.
  intros V Hm sched comm point eval roots h Hn H1 H2. apply no_query_forgery; auto. destruct (final_word scm V Hm (repeat eval (2 ^ msg)) (repeat_length _ _)) as (bh & word & _ & -> & _). discriminate.
Qed.
Lemma forge_simple_batch : valid_scheme scm -> (0 < msg <= mx)%nat -> forall comm (point evals : list K) roots h,
  bc_nv comm = None \/ bc_nv comm = Some (length point) -> bc_polys comm = None \/ bc_polys comm = Some (length evals) -> (msg < length point)%nat -> (length point <= msg + S (length roots))%nat ->
  exists msgs final h', simple_batch_verify comm point evals (mkBp msgs roots final (QSimpleBatched []) None []) h = Some h'.
Proof.
  intros V Hm comm point evals roots h Hn Hp H1 H2. set (c := batch_claim T evals h).
  destruct (sb_no_query_forgery as_bases emb hash_bases hash_two_digests deqb dig T to_usize nbits scm comm point evals roots h Hn Hp H1 H2) as (msgs & h' & E).
  - destruct (final_word scm V Hm (repeat c (2 ^ msg)) (repeat_length _ _)) as (bh & word & _ & _ & Ef). fold c. rewrite Ef. discriminate.
  - exists msgs, (repeat c (2 ^ msg)), h'. exact E.
Qed.
Lemma forge_batch : valid_scheme scm -> (0 < msg <= mx)%nat -> forall comms points evals roots h,
  comms <> [] -> points <> [] -> (forall c, In c comms -> exists n, bc_nv c = Some n /\ (msg <= n)%nat) -> (forall p : list K, In p points -> p <> []) ->
  (forall e, In e evals -> exists p c, nth_error points (ev_point e) = Some p /\ nth_error comms (ev_poly e) = Some c /\ bc_nv c = Some (length p)) ->
  (msg < fold_left Nat.max (map (@length K) points) 0)%nat -> (fold_left Nat.max (map (@length K) points) 0 <= msg + S (length roots))%nat ->
  exists msgs rounds final h', batch_verify comms points evals (mkBp msgs roots final (QBatched []) (Some rounds) []) h = Some h'.
Proof.
  intros V Hm comms points evals roots h W1 W2 W3 W4 W5 H1 H2. apply batch_no_query_forgery; auto; [constructor; auto|].
  intros c. destruct (final_word scm V Hm (repeat c (2 ^ msg)) (repeat_length _ _)) as (bh & word & _ & _ & ->). discriminate.
Qed.
Lemma lie_about_positions : valid_scheme scm -> forall (point : list K) v0 v1 sched h, (0 < msg < length point)%nat -> (length point <= mx)%nat ->
  exists comm pf0 pf1 h0 h1 qs0 qs1, verify sched comm point v0 pf0 h = Some h0 /\ verify sched comm point v1 pf1 h = Some h1 /\
    bp_trivial pf0 = [] /\ bp_trivial pf1 = [] /\ bp_queries pf0 = QSingle qs0 /\ bp_queries pf1 = QSingle qs1 /\ length qs0 = sc_nq scm /\ length qs1 = sc_nq scm.
Proof. intros V point v0 v1 sched h Hm Hx. destruct (valid_code scm V) as (wd & C & Hc). now apply (position_equivocation as_bases emb hash_bases hash_two_digests deqb dig T to_usize nbits scm wd deqb_ok C Hc). Qed.
Lemma lie_about_position : valid_scheme scm -> forall (point O : list K) t r a v sched h,
  (0 < msg < length point)%nat -> (length point <= mx)%nat -> length O = (2 ^ (length point + rate))%nat -> leaves O = Some t -> mt_root t = Some r ->
  (2 * a + 1 < 2 ^ (length point + rate))%nat -> nth (2 * a) O 0 = v -> nth (2 * a + 1) O 0 = v ->
  exists pf h' qs, verify sched (mkComm r (Some (length point)) false (Some 1%nat)) point v pf h = Some h' /\
    bp_trivial pf = [] /\ bp_queries pf = QSingle qs /\ length qs = sc_nq scm.
Proof. intros V point O t r a v sched h. destruct (valid_code scm V) as (wd & C & Hc). now apply (position_forgery as_bases emb hash_bases hash_two_digests deqb dig T to_usize nbits scm wd deqb_ok C Hc). Qed.
End Export2.
