(** Proofs about the generation loop and the cache ([M_Driver]). *)
From Coq Require Import List Arith Lia Bool ZArith.
From Verif Require Import ListAux FieldDef M_Mle M_Tensor P_Tensor P_Tensor2 P_Tensor4 M_Pad M_Driver.
Import ListNotations.

(** ** Specification *)
(** A sequence of tokens as a tensor. *)
Definition vec {N} (s : list N) : ten N := mkTen [length s] s.
(** The last entry of the last output. *)
Definition ends_with {N} (o : list (ten N)) (tok : N) : Prop := exists o' t l, o = o' ++ [t] /\ dat t = l ++ [tok].
(** [gen]: every token is the model's answer to all the tokens before it, and none is the end token. *)
Definition greedy {N} (neqb : N -> N -> bool) (run : list (ten N) -> option (list (ten N))) (eos : N) (prompt gen : list N) : Prop :=
  forall j, j < length gen -> exists o tok, run [vec (prompt ++ firstn j gen)] = Some o /\ ends_with o tok /\ nth_error gen j = Some tok /\ neqb tok eos = false.
(** The trace of one run. *)
Definition run_trace {N} (run : list (ten N) -> option (list (ten N))) (s : list N) (t : trace N) : Prop :=
  tr_input t = [vec s] /\ run [vec s] = Some (tr_output t).
(** The window of the driver. *)
Definition window (context_length : nat) (max_context : option nat) : nat := match max_context with Some m => m | None => context_length end.
(** A model of sequences whose answers for a prefix are a prefix of its answers. *)
Definition causal_model {N} (run : list (ten N) -> option (list (ten N))) : Prop :=
  forall a b oa ob, a <> [] -> run [vec a] = Some oa -> run [vec (a ++ b)] = Some ob ->
  exists ra rb ta tb, oa = ra ++ [ta] /\ ob = rb ++ [tb] /\ length (dat ta) = length a /\ length (dat tb) = length (a ++ b) /\ dat ta = firstn (length a) (dat tb).

Lemma last_opt_app {A} (l : list A) x : last_opt (l ++ [x]) = Some x.
Proof. unfold last_opt. rewrite rev_app_distr. reflexivity. Qed.
Lemma last_opt_inv {A} (l : list A) x : last_opt l = Some x -> exists l', l = l' ++ [x].
Proof.
  unfold last_opt. destruct (rev l) as [|y r] eqn:E; [discriminate|]. intros H. injection H as ->.
  exists (rev r). rewrite <- (rev_involutive l), E. reflexivity.
Qed.
Lemma app_last_inj {A} (l l' : list A) x y : l ++ [x] = l' ++ [y] -> l = l' /\ x = y.
Proof. intros H. apply app_inj_tail in H. exact H. Qed.

Lemma slice_last_concat {N} (t : ten N) rows : slice_last_dim t = Some rows -> concat rows = dat t.
Proof.
  unfold slice_last_dim. destruct (csub (length (sh t)) 2) as [d|]; [|discriminate]. cbn [obind]. unfold slice_on_dim.
  destruct (d <? length (sh t)); [|discriminate].
  set (p := if d <? length (sh t) - 1 then _ else _). destruct p as [st s]. unfold ochunks.
  destruct (Nat.eqb_spec st 0); [discriminate|]. cbn [obind fst]. intros H. injection H as <-. apply chunks_concat. lia.
Qed.

Section Driver.
Context {N : Type}.
Variable neqb : N -> N -> bool.
Variable of_usize : nat -> N.
Variable run : list (ten N) -> option (list (ten N)).

Lemma last_row_ends (o : list (ten N)) t rows tok : last_opt o = Some t -> slice_last_dim t = Some rows -> last_opt rows = Some [tok] -> ends_with o tok.
Proof.
  intros Ho Hr Ht. destruct (last_opt_inv _ _ Ho) as (o' & ->). destruct (last_opt_inv _ _ Ht) as (r' & ->).
  pose proof (slice_last_concat _ _ Hr) as E. rewrite concat_app in E. cbn in E. exists o', t, (concat r'). split; [reflexivity|]. symmetry. exact E.
Qed.

Lemma vec_snoc (s : list N) tok : tconcat (vec s) (mkTen [1; 1] [tok]) = Some (vec (s ++ [tok])).
Proof. unfold tconcat, vec. cbn. rewrite app_length. reflexivity. Qed.

Lemma drive_spec eos pre : forall left gen tr obs res, 0 < left ->
  drive neqb run eos (length pre) left (length (pre ++ gen)) (vec (pre ++ gen)) tr obs = Some res ->
  exists gen' lastt,
    run_trace run (pre ++ gen ++ gen') (fst res) /\ ends_with (tr_output (fst res)) lastt /\
    greedy neqb run eos (pre ++ gen) gen' /\ length gen' < left /\
    exists k seen, snd res = obs ++ seen /\ length seen = k /\
      (neqb lastt eos = true /\ k = length gen' \/ neqb lastt eos = false /\ S (length gen') = left /\ k = S (length gen')) /\
      forall j, j < k -> exists t, nth_error seen j = Some (S (length gen + j), t) /\ run_trace run (pre ++ gen ++ firstn j gen') t.
Proof.
  induction left as [|left IH]; intros gen tr obs res Hl H; [lia|]. cbn [drive] in H. unfold model_run in H.
  destruct (run [vec (pre ++ gen)]) as [o|] eqn:Ro; [|discriminate]. cbn [obind tr_output] in H.
  destruct (last_opt o) as [t|] eqn:Lo; [|discriminate]. cbn [obind] in H.
  destruct (slice_last_dim t) as [rows|] eqn:Sr; [|discriminate]. cbn [obind] in H.
  destruct (last_opt rows) as [row|] eqn:Lr; [|discriminate]. cbn [obind] in H.
  destruct row as [|tok [|x row]]; try discriminate.
  pose proof (last_row_ends _ _ _ _ Lo Sr Lr) as Hend.
  destruct (neqb tok eos) eqn:En.
  - injection H as <-. exists [], tok. cbn [fst snd tr_output tr_input]. rewrite app_nil_r. split; [split; [reflexivity|exact Ro]|]. split; [exact Hend|].
    split; [intros j Hj; cbn in Hj; lia|]. split; [cbn; lia|]. exists 0, []. rewrite app_nil_r. split; [reflexivity|]. split; [reflexivity|]. split; [left; auto|]. intros j Hj. lia.
  - rewrite vec_snoc in H. cbn [obind sh vec nth_error] in H.
    replace (length ((pre ++ gen) ++ [tok]) =? S (length (pre ++ gen))) with true in H by (rewrite (app_length (pre ++ gen)); cbn; symmetry; apply Nat.eqb_eq; lia).
    replace (S (length (pre ++ gen)) - length pre) with (S (length gen + 0)) in H by (rewrite app_length; lia).
    destruct left as [|left'].
    + cbn [drive] in H. injection H as <-. exists [], tok. cbn [fst snd tr_output tr_input]. rewrite app_nil_r. split; [split; [reflexivity|exact Ro]|].
      split; [exact Hend|]. split; [intros j Hj; cbn in Hj; lia|]. split; [cbn; lia|].
      exists 1, [(S (length gen + 0), mkTrace [vec (pre ++ gen)] o)]. split; [reflexivity|]. split; [reflexivity|]. split; [right; auto|].
      intros j Hj. replace j with 0 by lia. exists (mkTrace [vec (pre ++ gen)] o). split; [reflexivity|]. cbn [firstn]. rewrite app_nil_r. split; [reflexivity|exact Ro].
    + replace (S (length (pre ++ gen))) with (length (pre ++ (gen ++ [tok]))) in H by (rewrite !app_length; cbn; lia).
      rewrite <- app_assoc in H. destruct (IH (gen ++ [tok]) _ _ _ ltac:(lia) H) as (gen' & lastt & Htr & He & Hg & Hlt & k & seen & Hs & Hk & Hc & Hobs).
      exists (tok :: gen'), lastt. split; [rewrite <- app_assoc in Htr; exact Htr|]. split; [exact He|]. split.
      { intros [|j] Hj.
        - exists o, tok. cbn [firstn nth_error]. rewrite app_nil_r. auto.
        - cbn [firstn nth_error]. cbn in Hj. destruct (Hg j ltac:(lia)) as (oj & tj & R & Q). exists oj, tj. split; [|exact Q].
          rewrite <- R. do 3 f_equal. rewrite <- !app_assoc. reflexivity. }
      split; [cbn; lia|]. exists (S k), ((S (length gen + 0), mkTrace [vec (pre ++ gen)] o) :: seen).
      split; [rewrite Hs, <- app_assoc; reflexivity|]. split; [cbn; congruence|]. split.
      { destruct Hc as [(A & B)|(A & B & C)]; [left|right]; cbn; repeat split; auto. }
      intros [|j] Hj.
      * exists (mkTrace [vec (pre ++ gen)] o). split; [reflexivity|]. cbn [firstn]. rewrite app_nil_r. split; [reflexivity|exact Ro].
      * destruct (Hobs j ltac:(lia)) as (tt & A & B). exists tt. cbn [nth_error]. split; [rewrite A; f_equal; f_equal; rewrite app_length; cbn; lia|].
        cbn [firstn]. rewrite <- app_assoc in B. exact B.
Qed.

(** The loop runs: the result is the greedy continuation. *)
Lemma inference_greedy context_length eos max_context input tr obs :
  run_inference neqb of_usize run context_length eos max_context input = Some (tr, obs) -> length input < window context_length max_context ->
  exists gen lastt, let prompt := map of_usize input in
    greedy neqb run eos prompt gen /\
    run_trace run (prompt ++ gen) tr /\ ends_with (tr_output tr) lastt /\
    length input + length gen < window context_length max_context /\
    (neqb lastt eos = true \/ S (length input + length gen) = window context_length max_context).
Proof.
  unfold run_inference. destruct (csub context_length 1) as [c1|]; [|discriminate]. cbn [obind].
  destruct (length input <? c1); [|discriminate]. unfold tensor_new. cbn [sprod fold_right]. rewrite map_length, Nat.mul_1_r, Nat.eqb_refl. cbn [obind].
  fold (window context_length max_context). intros H Hw.
  assert (E : drive neqb run eos (length (map of_usize input)) (window context_length max_context - length input) (length (map of_usize input ++ [])) (vec (map of_usize input ++ [])) default_trace [] = Some (tr, obs)).
  { rewrite app_nil_r. unfold vec. rewrite map_length. exact H. }
  destruct (drive_spec eos (map of_usize input) (window context_length max_context - length input) [] _ _ _ ltac:(lia) E) as (gen & lastt & Htr & He & Hg & Hlt & k & seen & Hs & Hk & Hc & Hobs).
  exists gen, lastt. cbn [app] in *. rewrite app_nil_r in Hg. repeat split; try apply Htr; auto; [lia|].
  destruct Hc as [(A & B)|(A & B & C)]; [left; exact A|right; lia].
Qed.

(** The observer sees every run whose answer is kept, once and in order. *)
Lemma inference_observed context_length eos max_context input tr obs :
  run_inference neqb of_usize run context_length eos max_context input = Some (tr, obs) -> length input < window context_length max_context ->
  exists gen lastt, let prompt := map of_usize input in
    greedy neqb run eos prompt gen /\ run_trace run (prompt ++ gen) tr /\ ends_with (tr_output tr) lastt /\
    length obs = (if neqb lastt eos then length gen else S (length gen)) /\
    forall j, j < length obs -> exists t, nth_error obs j = Some (S j, t) /\ run_trace run (prompt ++ firstn j gen) t.
Proof.
  unfold run_inference. destruct (csub context_length 1) as [c1|]; [|discriminate]. cbn [obind].
  destruct (length input <? c1); [|discriminate]. unfold tensor_new. cbn [sprod fold_right]. rewrite map_length, Nat.mul_1_r, Nat.eqb_refl. cbn [obind].
  fold (window context_length max_context). intros H Hw.
  assert (E : drive neqb run eos (length (map of_usize input)) (window context_length max_context - length input) (length (map of_usize input ++ [])) (vec (map of_usize input ++ [])) default_trace [] = Some (tr, obs)).
  { rewrite app_nil_r. unfold vec. rewrite map_length. exact H. }
  destruct (drive_spec eos (map of_usize input) (window context_length max_context - length input) [] _ _ _ ltac:(lia) E) as (gen & lastt & Htr & He & Hg & Hlt & k & seen & Hs & Hk & Hc & Hobs).
  exists gen, lastt. cbn [app] in *. rewrite app_nil_r in Hg. cbn [snd] in Hs. subst seen. split; [exact Hg|]. split; [exact Htr|]. split; [exact He|].
  split; [destruct Hc as [(A & B)|(A & B & C)]; rewrite A; lia|]. rewrite Hk. intros j Hj. destruct (Hobs j Hj) as (t & A & B). exists t. split; [exact A|exact B].
Qed.

(** The prompt fills the window: nothing runs and the trace is empty. *)
Lemma inference_empty context_length eos m input : S (length input) < context_length -> m <= length input ->
  run_inference neqb of_usize run context_length eos (Some m) input = Some (mkTrace [] [], []).
Proof.
  intros H Hm. unfold run_inference. unfold csub. destruct (Nat.leb_spec 1 context_length); [|lia]. cbn [obind].
  destruct (Nat.ltb_spec (length input) (context_length - 1)); [|lia]. unfold tensor_new. cbn [sprod fold_right]. rewrite map_length, Nat.mul_1_r, Nat.eqb_refl. cbn [obind].
  replace (m - length input) with 0 by lia. reflexivity.
Qed.

(** The loop returns when the model does. *)
Lemma drive_total (P : N -> Prop) eos pre : forall left gen tr obs, Forall P (pre ++ gen) ->
  (forall s, Forall P s -> length pre <= length s -> length s < length (pre ++ gen) + left ->
    exists o o' t m, run [vec s] = Some o /\ o = o' ++ [t] /\ sh t = [m; 1] /\ 0 < m /\ wft t /\ Forall P (dat t)) ->
  exists res, drive neqb run eos (length pre) left (length (pre ++ gen)) (vec (pre ++ gen)) tr obs = Some res.
Proof.
  induction left as [|left IH]; intros gen tr obs HP Ht; [eexists; reflexivity|]. cbn [drive]. unfold model_run.
  destruct (Ht (pre ++ gen)) as (o & o' & t & m & -> & -> & St & Hm & Wt & Pt); [exact HP|rewrite app_length; lia|lia|]. cbn [obind tr_output].
  rewrite last_opt_app. cbn [obind].
  assert (Esl : slice_last_dim t = Some (chunks 1 (dat t))) by (unfold slice_last_dim, slice_on_dim; rewrite St; reflexivity).
  rewrite Esl. cbn [obind].
  assert (L : length (dat t) = m) by (unfold wft in Wt; rewrite St in Wt; cbn in Wt; lia).
  destruct (rev (dat t)) as [|tok r] eqn:Er; [apply (f_equal (@length N)) in Er; rewrite rev_length in Er; cbn in Er; lia|].
  assert (Ed : dat t = rev r ++ [tok]) by (rewrite <- (rev_involutive (dat t)), Er; reflexivity).
  assert (Ec : last_opt (chunks 1 (dat t)) = Some [tok]).
  { replace (chunks 1 (dat t)) with (map (fun x => [x]) (dat t)).
    - rewrite Ed, map_app. apply last_opt_app.
    - assert (G : forall (l : list N) f, length l <= f -> chunks_fuel f 1 l = map (fun x => [x]) l).
      { induction l as [|x l IHl]; intros [|f] Hf; try reflexivity; [cbn in Hf; lia|]. cbn [chunks_fuel firstn skipn map]. f_equal. apply IHl. cbn in Hf. lia. }
      unfold chunks. symmetry. apply G. lia. }
  rewrite Ec. cbn [obind]. destruct (neqb tok eos); [eexists; reflexivity|].
  rewrite vec_snoc. cbn [obind sh vec nth_error].
  replace (length ((pre ++ gen) ++ [tok]) =? S (length (pre ++ gen))) with true by (rewrite (app_length (pre ++ gen)); cbn; symmetry; apply Nat.eqb_eq; lia).
  assert (Es : S (length (pre ++ gen)) = length (pre ++ (gen ++ [tok]))) by (rewrite !app_length; cbn; lia).
  rewrite Es, <- app_assoc. apply IH.
  { rewrite app_assoc. apply Forall_app. split; [exact HP|]. rewrite Ed in Pt. apply Forall_app in Pt. apply Pt. }
  intros s H0 H1 H2. apply Ht; auto. rewrite !app_length in *. cbn in H2. lia.
Qed.

Lemma inference_total (P : N -> Prop) context_length eos max_context input : S (length input) < context_length -> Forall P (map of_usize input) ->
  (forall s, Forall P s -> length input <= length s -> length s < window context_length max_context ->
    exists o o' t m, run [vec s] = Some o /\ o = o' ++ [t] /\ sh t = [m; 1] /\ 0 < m /\ wft t /\ Forall P (dat t)) ->
  exists tr obs, run_inference neqb of_usize run context_length eos max_context input = Some (tr, obs).
Proof.
  intros H HP Ht. unfold run_inference. unfold csub. destruct (Nat.leb_spec 1 context_length); [|lia]. cbn [obind].
  destruct (Nat.ltb_spec (length input) (context_length - 1)); [|lia]. unfold tensor_new. cbn [sprod fold_right]. rewrite map_length, Nat.mul_1_r, Nat.eqb_refl. cbn [obind].
  fold (window context_length max_context).
  destruct (drive_total P eos (map of_usize input) (window context_length max_context - length input) [] default_trace []) as ([tr obs] & E).
  - rewrite app_nil_r. exact HP.
  - intros s Hs0 Hs1 Hs2. rewrite app_nil_r, map_length in *. apply Ht; [exact Hs0|lia|lia].
  - exists tr, obs. rewrite app_nil_r in E. unfold vec in E. rewrite map_length in E. exact E.
Qed.

(** Refusals: the prompt leaves no place for a token in the context. *)
Lemma inference_refuses context_length eos max_context input : context_length <= S (length input) ->
  run_inference neqb of_usize run context_length eos max_context input = None.
Proof.
  intros H. unfold run_inference, csub. destruct (Nat.leb_spec 1 context_length); [|reflexivity]. cbn [obind].
  destruct (Nat.ltb_spec (length input) (context_length - 1)); [lia|reflexivity].
Qed.

(** Without a larger window the model only sees sequences shorter than its context. *)
Lemma inference_context context_length eos max_context input tr obs : window context_length max_context <= context_length ->
  run_inference neqb of_usize run context_length eos max_context input = Some (tr, obs) ->
  forall t, t = tr \/ (exists j, In (j, t) obs) -> forall x, In x (tr_input t) -> length (dat x) < context_length.
Proof.
  intros Hw H t Ht x Hx. destruct (le_lt_dec (window context_length max_context) (length input)) as [Hl|Hl].
  - destruct max_context as [m|]; cbn [window] in *.
    + destruct (le_lt_dec context_length (S (length input))) as [C|C]; [rewrite inference_refuses in H by exact C; discriminate|].
      rewrite inference_empty in H by lia. injection H as <- <-. destruct Ht as [->|(j & [])]. destruct Hx.
    + rewrite inference_refuses in H by lia. discriminate.
  - destruct (inference_greedy _ _ _ _ _ _ H Hl) as (gen & lastt & Hg & Htr & _ & Hlt & _).
    destruct (inference_observed _ _ _ _ _ _ H Hl) as (gen2 & last2 & Hg2 & Htr2 & _ & Ho & Hobs).
    assert (Eg : length gen2 = length gen).
    { destruct Htr as (A & _), Htr2 as (B & _). rewrite A in B. injection B as B _. apply (f_equal S) in B. rewrite !app_length in B. lia. }
    destruct Ht as [->|(j & Hj)].
    + destruct Htr as (A & _). rewrite A in Hx. destruct Hx as [<-|[]]. cbn [vec dat]. rewrite app_length, map_length. lia.
    + destruct (In_nth_error _ _ Hj) as (i & Hi). assert (Hi' : i < length obs) by (apply nth_error_Some; congruence).
      destruct (Hobs i Hi') as (t' & A & B & _). rewrite A in Hi. injection Hi as _ ->. rewrite B in Hx. destruct Hx as [<-|[]].
      cbn [vec dat]. rewrite app_length, map_length, firstn_length. lia.
Qed.

(** The last run contains the whole text, for a causal model. *)
Lemma inference_whole context_length eos max_context input tr obs : causal_model run -> input <> [] ->
  run_inference neqb of_usize run context_length eos max_context input = Some (tr, obs) -> length input < window context_length max_context ->
  exists gen lastt rest out, greedy neqb run eos (map of_usize input) gen /\ tr_input tr = [vec (map of_usize input ++ gen)] /\
    tr_output tr = rest ++ [out] /\ skipn (length input - 1) (dat out) = gen ++ [lastt] /\
    (neqb lastt eos = true \/ S (length input + length gen) = window context_length max_context).
Proof.
  intros Hc Hne H Hw. destruct (inference_greedy _ _ _ _ _ _ H Hw) as (gen & lastt & Hg & (Hi & Hr) & (rest & out & l & Eo & Ed) & Hlt & Hend).
  set (p := map of_usize input) in *. assert (Lp : length p = length input) by apply map_length.
  assert (Hlp : 0 < length p) by (rewrite Lp; destruct input; [contradiction|cbn; lia]).
  assert (Hpne : p <> []) by (intros E; rewrite E in Hlp; cbn in Hlp; lia).
  exists gen, lastt, rest, out. split; [exact Hg|]. split; [exact Hi|]. split; [exact Eo|]. split; [|exact Hend].
  assert (Lout : length (dat out) = length (p ++ gen)).
  { destruct (Hc (p ++ gen) [] (tr_output tr) (tr_output tr)) as (ra & rb & ta & tb & A & B & C & D & _); [destruct p; [contradiction|discriminate]|exact Hr|rewrite app_nil_r; exact Hr|].
    rewrite Eo in A. apply app_last_inj in A. destruct A as (_ & <-). exact C. }
  assert (Ll : length l = length (p ++ gen) - 1) by (rewrite Ed, app_length in Lout; cbn in Lout; lia).
  apply (nth_ext _ _ lastt lastt).
  { rewrite skipn_length, Lout, !app_length. cbn. lia. }
  rewrite skipn_length, Lout, app_length. intros j Hj. rewrite nth_skipn.
  destruct (le_lt_dec (length gen) j) as [Hjg|Hjg].
  - replace j with (length gen) by lia. rewrite (app_nth2 gen) by lia. rewrite Nat.sub_diag. cbn [nth]. rewrite Ed.
    rewrite app_nth2 by (rewrite Ll, app_length; lia). replace (_ - _) with 0 by (rewrite Ll, app_length; lia). reflexivity.
  - rewrite (app_nth1 gen) by lia. destruct (Hg j Hjg) as (o & tok & Ro & (o' & t & lt' & Eo' & Et) & En & _).
    assert (Es : p ++ gen = (p ++ firstn j gen) ++ skipn j gen) by (rewrite <- app_assoc, firstn_skipn; reflexivity).
    destruct (Hc (p ++ firstn j gen) (skipn j gen) o (tr_output tr)) as (ra & rb & ta & tb & A & B & C & D & F);
      [destruct p; [contradiction|discriminate]|exact Ro|rewrite <- Es; exact Hr|].
    rewrite Eo' in A. apply app_last_inj in A. destruct A as (_ & <-). rewrite Eo in B. apply app_last_inj in B. destruct B as (_ & <-).
    rewrite (nth_error_nth gen j lastt En). rewrite app_length, firstn_length in C.
    assert (X : nth (length p + j - 1) (dat t) lastt = tok).
    { rewrite Et. rewrite Et, app_length in C. cbn in C. rewrite app_nth2 by lia. replace (_ - _) with 0 by lia. reflexivity. }
    rewrite F in X. rewrite nth_firstn_lt in X by (rewrite app_length, firstn_length; lia). rewrite <- X. f_equal. lia.
Qed.

(** With a larger window the model is run past its context. *)
Lemma inference_past_context context_length eos m input : S (length input) < context_length -> context_length < m ->
  (forall s, length input <= length s -> exists t k, run [vec s] = Some [t] /\ sh t = [k; 1] /\ 0 < k /\ wft t) -> (forall o s tok, run [vec s] = Some o -> ends_with o tok -> neqb tok eos = false) ->
  exists tr obs, run_inference neqb of_usize run context_length eos (Some m) input = Some (tr, obs) /\
    exists x, In x (tr_input tr) /\ length (dat x) = m - 1.
Proof.
  intros H Hm Ht Hne. destruct (inference_total (fun _ => True) context_length eos (Some m) input H) as (tr & obs & E).
  { apply Forall_forall. trivial. }
  { intros s _ Hs _. destruct (Ht s Hs) as (t & k & A & B & C & D). exists [t], [], t, k. repeat (split; [solve [auto]|]). apply Forall_forall. trivial. }
  exists tr, obs. split; [exact E|]. destruct (inference_greedy _ _ _ _ _ _ E) as (gen & lastt & _ & (Hi & Hr) & He & Hlt & Hend); [cbn; lia|].
  rewrite Hi. exists (vec (map of_usize input ++ gen)). split; [left; reflexivity|]. cbn [vec dat]. rewrite app_length, map_length.
  destruct Hend as [A|A]; [rewrite (Hne _ _ _ Hr He) in A; discriminate|]. cbn [window] in A. lia.
Qed.
End Driver.

(** ** The cache *)
Section Cache.
Context {N : Type}.
Lemma cache_stack_rows (c : @cache N) n w (k v : ten N) : sh k = [1; w] -> sh v = [1; w] -> ca_init c = true -> sh (ca_k c) = [n; w] -> sh (ca_v c) = [n; w] ->
  cache_stack c k v = Some (mkCache (mkTen [n + 1; w] (dat (ca_k c) ++ dat k)) (mkTen [n + 1; w] (dat (ca_v c) ++ dat v)) true).
Proof.
  intros Sk Sv Hi Ck Cv. unfold cache_stack. unfold is_vector. rewrite Sk, Sv, Hi, Ck. cbn [Nat.eqb].
  destruct (list_eq_dec Nat.eq_dec [1; w] [1; w]) as [_|C]; [|contradiction C; reflexivity]. cbn [nth_error obind]. rewrite Nat.eqb_refl.
  unfold tconcat. rewrite Ck, Cv, Sk, Sv. reflexivity.
Qed.

Lemma cache_rows_from w : forall (kvs : list (ten N * ten N)) n dk dv, Forall (fun p => sh (fst p) = [1; w] /\ sh (snd p) = [1; w]) kvs ->
  cache_run (mkCache (mkTen [n; w] dk) (mkTen [n; w] dv) true) kvs =
  Some (mkCache (mkTen [n + length kvs; w] (dk ++ concat (map (fun p => dat (fst p)) kvs))) (mkTen [n + length kvs; w] (dv ++ concat (map (fun p => dat (snd p)) kvs))) true).
Proof.
  induction kvs as [|[k v] kvs IH]; intros n dk dv F; cbn [cache_run ofold map concat length].
  { rewrite Nat.add_0_r, !app_nil_r. reflexivity. }
  inversion F as [|? ? [Sk Sv] F']; subst. cbn [fst snd] in *. rewrite (cache_stack_rows _ n w) by auto. cbn [obind ca_k ca_v dat].
  fold (cache_run (mkCache (mkTen [n + 1; w] (dk ++ dat k)) (mkTen [n + 1; w] (dv ++ dat v)) true) kvs). rewrite IH by exact F'.
  rewrite <- !app_assoc. replace (n + 1 + length kvs) with (n + S (length kvs)) by lia. reflexivity.
Qed.

(** After any history of rows the cache holds them all, in order. *)
Lemma cache_rows w (kvs : list (ten N * ten N)) : kvs <> [] -> Forall (fun p => sh (fst p) = [1; w] /\ sh (snd p) = [1; w]) kvs ->
  cache_run cache_new kvs = Some (mkCache (mkTen [length kvs; w] (concat (map (fun p => dat (fst p)) kvs))) (mkTen [length kvs; w] (concat (map (fun p => dat (snd p)) kvs))) true).
Proof.
  destruct kvs as [|[k v] kvs]; [contradiction|]. intros _ F. inversion F as [|? ? [Sk Sv] F']; subst. cbn [fst snd] in *.
  cbn [cache_run ofold]. unfold cache_new at 1, cache_stack at 1. unfold is_vector. cbn [fst snd]. rewrite Sk, Sv. cbn [Nat.eqb ca_init].
  destruct (list_eq_dec Nat.eq_dec [1; w] [1; w]) as [_|C]; [|contradiction C; reflexivity]. cbn [obind].
  replace k with (mkTen [1; w] (dat k)) at 1 by (rewrite <- Sk; apply ten_eta). replace v with (mkTen [1; w] (dat v)) at 1 by (rewrite <- Sv; apply ten_eta).
  fold (cache_run (mkCache (mkTen [1; w] (dat k)) (mkTen [1; w] (dat v)) true) kvs). rewrite (cache_rows_from w kvs 1) by exact F'. reflexivity.
Qed.

(** A row that is a vector without the leading 1 is accepted once, then every call panics. *)
Lemma cache_flat_panics w (k v k' v' : ten N) : sh k = [w] -> sh v = [w] ->
  exists c, cache_stack cache_new k v = Some c /\ cache_stack c k' v' = None.
Proof.
  intros Sk Sv. exists (mkCache k v true). unfold cache_stack, is_vector. rewrite Sk, Sv. cbn [ca_init cache_new ca_k].
  destruct (list_eq_dec Nat.eq_dec [w] [w]) as [_|C]; [|contradiction C; reflexivity]. split; [reflexivity|]. rewrite Sk. cbn [nth_error obind].
  destruct (match sh k' with [] => false | _ => _ end); [|reflexivity]. destruct (list_eq_dec Nat.eq_dec (sh k') (sh v')); reflexivity.
Qed.
End Cache.
