(** The proving service: what the batch loop, the queues and the gateway loops do for every history. *)
From Coq Require Import List Arith Lia Bool Permutation Sorted.
From Verif Require Import ListAux M_Service.
Import ListNotations.

(** ** The batch loop *)
Section Batch.
Context {I T X P : Type} (load : I -> option T) (run : T -> option X) (prove : X -> option P).
(** The specification of one input: its proof, if loading, inference and proving succeed. *)
Definition proof_of (x : I) (p : P) : Prop := exists t tr, load x = Some t /\ run t = Some tr /\ prove tr = Some p.
Definition run_fails (x : I) : Prop := exists t, load x = Some t /\ run t = None.
Definition aborts (x : I) : Prop := load x = None \/ exists t tr, load x = Some t /\ run t = Some tr /\ prove tr = None.
(** [selects inputs ps]: [ps] are the proofs, in order, of those inputs whose inference does not fail. *)
Inductive selects : list I -> list P -> Prop :=
| SelNil : selects [] []
| SelSkip x r ps : run_fails x -> selects r ps -> selects (x :: r) ps
| SelTake x r p ps : proof_of x p -> selects r ps -> selects (x :: r) (p :: ps).
Lemma batch_loop_spec inputs : forall i ps fs,
  (forall ps' fs', batch_loop load run prove i inputs (ps, fs) = Some (ps', fs') -> exists new, ps' = ps ++ new /\ selects inputs new) /\
  (batch_loop load run prove i inputs (ps, fs) = None <-> exists x, In x inputs /\ aborts x).
Proof.
  induction inputs as [|x r IH]; intros i ps fs; cbn [batch_loop].
  - split.
    + intros ps' fs' E. injection E as <- <-. exists []. rewrite app_nil_r. split; [reflexivity|constructor].
    + split; [discriminate|intros [x [[] _]]].
  - destruct (load x) as [t|] eqn:El.
    + destruct (run t) as [tr|] eqn:Er.
      * destruct (prove tr) as [p|] eqn:Ep; cbn [fst snd].
        -- destruct (IH (S i) (ps ++ [p]) fs) as [IH1 IH2]. split.
           ++ intros ps' fs' E. destruct (IH1 _ _ E) as (new & -> & Hs). exists (p :: new). rewrite <- app_assoc. split; [reflexivity|]. constructor; [|exact Hs]. exists t, tr. auto.
           ++ rewrite IH2. split; [intros [y [Hy Ha]]; exists y; split; [now right|exact Ha]|]. intros [y [[<-|Hy] Ha]]; [|exists y; auto].
              destruct Ha as [Ha|(t' & tr' & Ha & Hb & Hc)]; congruence.
        -- split; [discriminate|]. split; [|reflexivity]. intros _. exists x. split; [now left|]. right. exists t, tr. auto.
      * cbn [fst snd]. destruct (IH (S i) ps (fs ++ [i])) as [IH1 IH2]. split.
        -- intros ps' fs' E. destruct (IH1 _ _ E) as (new & -> & Hs). exists new. split; [reflexivity|]. constructor; [|exact Hs]. exists t. auto.
        -- rewrite IH2. split; [intros [y [Hy Ha]]; exists y; split; [now right|exact Ha]|]. intros [y [[<-|Hy] Ha]]; [|exists y; auto].
           destruct Ha as [Ha|(t' & tr' & Ha & Hb & Hc)]; congruence.
    + split; [discriminate|]. split; [|reflexivity]. intros _. exists x. split; [now left|]. now left.
Qed.
Lemma batch_ok inputs ps : run_batch load run prove inputs = Some ps -> selects inputs ps.
Proof.
  unfold run_batch. destruct (batch_loop _ _ _ 0 inputs ([], [])) as [[ps' fs']|] eqn:E; [|discriminate]. cbn [fst]. intros X0. injection X0 as <-.
  destruct (batch_loop_spec inputs 0 [] []) as [H _]. destruct (H _ _ E) as (new & -> & Hs). exact Hs.
Qed.
Lemma batch_none inputs : run_batch load run prove inputs = None <-> exists x, In x inputs /\ (load x = None \/ exists t tr, load x = Some t /\ run t = Some tr /\ prove tr = None).
Proof.
  unfold run_batch. destruct (batch_loop_spec inputs 0 [] []) as [_ H]. destruct (batch_loop load run prove 0 inputs ([], [])) as [[ps' fs']|]; [|split; [intros _; now apply H|reflexivity]].
  split; [discriminate|]. intros Hx. apply H in Hx. discriminate Hx.
Qed.
(** The property in terms of positions: there are increasing positions, one for each returned proof; the other positions are those
    whose inference failed. *)
Lemma selects_positions inputs ps : selects inputs ps -> exists pos, length pos = length ps /\ StronglySorted lt pos /\
  (forall j i p, nth_error pos j = Some i -> nth_error ps j = Some p -> exists x, nth_error inputs i = Some x /\ proof_of x p) /\
  (forall i, In i pos -> i < length inputs) /\
  (forall i x, nth_error inputs i = Some x -> ~ In i pos -> run_fails x).
Proof.
  induction 1 as [|x r ps Hx Hs (pos & L & S0 & A & Bd & C)|x r p ps Hx Hs (pos & L & S0 & A & Bd & C)].
  - exists []. split; [reflexivity|]. split; [constructor|]. split; [intros [|j] i p; discriminate|]. split; [intros i []|]. intros [|i] x; discriminate.
  - exists (map S pos). rewrite map_length. split; [exact L|]. split; [|split; [|split]].
    + clear - S0. induction S0 as [|a l Hl IH Ha]; cbn; constructor; auto. rewrite Forall_forall in *. intros y Hy. apply in_map_iff in Hy as (z & <- & Hz). specialize (Ha z Hz). lia.
    + intros j i p Hj Hp. rewrite nth_error_map in Hj. destruct (nth_error pos j) as [i'|] eqn:E; [|discriminate]. injection Hj as <-. exact (A j i' p E Hp).
    + intros i Hi. apply in_map_iff in Hi as (z & <- & Hz). cbn. apply Bd in Hz. lia.
    + intros [|i] y Hy N; cbn in Hy; [injection Hy as <-; exact Hx|]. apply (C i y Hy). intros Hi. apply N. now apply in_map.
  - exists (0 :: map S pos). cbn [length]. rewrite map_length. split; [now f_equal|]. split; [|split; [|split]].
    + constructor.
      * clear - S0. induction S0 as [|a l Hl IH Ha]; cbn; constructor; auto. rewrite Forall_forall in *. intros y Hy. apply in_map_iff in Hy as (z & <- & Hz). specialize (Ha z Hz). lia.
      * rewrite Forall_forall. intros y Hy. apply in_map_iff in Hy as (z & <- & Hz). lia.
    + intros [|j] i p' Hj Hp; cbn in Hj, Hp; [injection Hj as <-; injection Hp as <-; exists x; auto|]. rewrite nth_error_map in Hj. destruct (nth_error pos j) as [i'|] eqn:E; [|discriminate]. injection Hj as <-. exact (A j i' p' E Hp).
    + intros i [<-|Hi]; cbn; [lia|]. apply in_map_iff in Hi as (z & <- & Hz). apply Bd in Hz. lia.
    + intros [|i] y Hy N; cbn in Hy; [elim N; now left|]. apply (C i y Hy). intros Hi. apply N. right. now apply in_map.
Qed.
Lemma batch_positions inputs ps : run_batch load run prove inputs = Some ps -> exists pos, length pos = length ps /\ StronglySorted lt pos /\
  (forall j i p, nth_error pos j = Some i -> nth_error ps j = Some p ->
     exists x t tr, nth_error inputs i = Some x /\ load x = Some t /\ run t = Some tr /\ prove tr = Some p) /\
  (forall i x, nth_error inputs i = Some x -> ~ In i pos -> exists t, load x = Some t /\ run t = None).
Proof.
  intros H. apply batch_ok in H. destruct (selects_positions inputs ps H) as (pos & L & S0 & A & _ & C). exists pos. split; [exact L|]. split; [exact S0|]. split; [|exact C].
  intros j i p Hj Hp. destruct (A j i p Hj Hp) as (x & Hx & t & tr & H1 & H2 & H3). exists x, t, tr. auto.
Qed.
(** When no inference fails the i-th proof is that of the i-th input. *)
Lemma batch_aligned inputs ps : (forall x t, In x inputs -> load x = Some t -> run t <> None) -> run_batch load run prove inputs = Some ps ->
  length ps = length inputs /\ forall i x, nth_error inputs i = Some x -> exists t tr p, load x = Some t /\ run t = Some tr /\ prove tr = Some p /\ nth_error ps i = Some p.
Proof.
  intros Hr H. apply batch_ok in H. revert Hr. induction H as [|x r ps (t & H1 & H2) Hs IH|x r p ps (t & tr & H1 & H2 & H3) Hs IH]; intros Hr.
  - split; [reflexivity|]. intros [|i] x; discriminate.
  - exfalso. apply (Hr x t); auto. now left.
  - destruct IH as [L A]; [intros y t' Hy; apply Hr; now right|]. split; [cbn; now f_equal|]. intros [|i] y Hy; cbn in Hy; [injection Hy as <-; exists t, tr, p; auto|exact (A i y Hy)].
Qed.
Lemma selects_unique inputs ps ps' : selects inputs ps -> selects inputs ps' -> ps = ps'.
Proof.
  intros H. revert ps'. induction H as [|x r ps (t & H1 & H2) Hs IH|x r p ps (t & tr & H1 & H2 & H3) Hs IH]; intros ps' H'; inversion H' as [|x' r' ps0 (t' & H1' & H2') Hs'|x' r' p' ps0 (t' & tr' & H1' & H2' & H3') Hs']; subst; auto.
  - congruence.
  - congruence.
  - f_equal; [congruence|auto].
Qed.
Lemma batch_some inputs ps : run_batch load run prove inputs = Some ps <-> selects inputs ps.
Proof.
  split; [apply batch_ok|]. intros Hs. destruct (run_batch load run prove inputs) as [ps'|] eqn:E; [f_equal; eapply selects_unique; eauto; now apply batch_ok|].
  exfalso. apply batch_none in E as (x & Hx & Ha). revert Hx. induction Hs as [|y r ps (t & H1 & H2) Hs IH|y r p ps (t & tr & H1 & H2 & H3) Hs IH]; intros Hx; [destruct Hx|destruct Hx as [Hx|Hx]; [subst y|now apply IH]|destruct Hx as [Hx|Hx]; [subst y|now apply IH]].
  - destruct Ha as [Ha|(t' & tr' & Ha & Hb & Hc)]; congruence.
  - destruct Ha as [Ha|(t' & tr' & Ha & Hb & Hc)]; congruence.
Qed.
(** A failed inference is not reported: wherever failing inputs are put into a batch, the answer is the same. *)
Lemma batch_silent inputs x k ps : run_batch load run prove inputs = Some ps -> (exists t, load x = Some t /\ run t = None) ->
  run_batch load run prove (firstn k inputs ++ x :: skipn k inputs) = Some ps.
Proof.
  intros H Hx. apply batch_some in H. apply batch_some. revert k. induction H as [|y r ps Hy Hs IH|y r p ps Hy Hs IH]; intros k.
  - rewrite firstn_nil, skipn_nil. apply SelSkip; [exact Hx|constructor].
  - destruct k as [|k]; cbn [firstn skipn app]; [apply SelSkip; [exact Hx|now apply SelSkip]|]. apply SelSkip; [exact Hy|apply IH].
  - destruct k as [|k]; cbn [firstn skipn app]; [apply SelSkip; [exact Hx|now apply SelTake]|]. apply SelTake; [exact Hy|apply IH].
Qed.
End Batch.

(** ** The local API *)
Lemma vpop_snoc {A} (q : list A) r : vpop (q ++ [r]) = Some (q, r).
Proof. unfold vpop. rewrite rev_app_distr. cbn. now rewrite rev_involutive. Qed.
Lemma vpop_some {A} (l q : list A) r : vpop l = Some (q, r) <-> l = q ++ [r].
Proof.
  split; [|intros ->; apply vpop_snoc]. unfold vpop. destruct (rev l) as [|x t] eqn:E; [discriminate|]. intros H. injection H as <- <-.
  apply (f_equal (@rev A)) in E. rewrite rev_involutive in E. exact E.
Qed.
Lemma vpop_none {A} (l : list A) : vpop l = None <-> l = [].
Proof.
  unfold vpop. destruct (rev l) as [|x t] eqn:E; split; try discriminate; auto.
  - intros _. apply (f_equal (@rev A)) in E. now rewrite rev_involutive in E.
  - intros ->. discriminate E.
Qed.

Section Api.
Context {R P : Type} (res : R -> outcome P -> Prop).
Notation steps := (@api_steps R P res). Notation event := (event R P).
Definition submits (tr : list event) : list R := flat_map (fun e => match e with ESubmit r => [r] | _ => [] end) tr.
Definition pops (tr : list event) : list R := flat_map (fun e => match e with EPop r => [r] | _ => [] end) tr.
Definition ended (tr : list event) : list R := flat_map (fun e => match e with EDone r _ | EErr r | EPanic r => [r] | _ => [] end) tr.
Definition made (tr : list event) : list P := flat_map (fun e => match e with EDone _ ps => ps | _ => [] end) tr.
Definition got (tr : list event) : list P := flat_map (fun e => match e with EGet (Some p) => [p] | _ => [] end) tr.
Definition busy (s : api R P) : list R := match wk s with Busy r => [r] | _ => [] end.

Lemma steps_app s tr s1 : steps s tr s1 -> forall tr2 s2, steps s1 tr2 s2 -> steps s (tr ++ tr2) s2.
Proof. induction 1; intros tr2 s2 H2; cbn; auto. econstructor; eauto. Qed.
Lemma steps_inv_app s tr1 tr2 s2 : steps s (tr1 ++ tr2) s2 -> exists s1, steps s tr1 s1 /\ steps s1 tr2 s2.
Proof.
  revert s. induction tr1 as [|e tr1 IH]; intros s H; cbn in H; [exists s; split; [constructor|exact H]|].
  inversion H as [|s0 e0 s1 tr0 s3 H1 H2]; subst. destruct (IH _ H2) as (s' & A & B). exists s'. split; [econstructor; eauto|exact B].
Qed.

Lemma api_conserve_gen s tr s' : steps s tr s' ->
  Permutation (work_queue s ++ submits tr) (work_queue s' ++ pops tr) /\ busy s ++ pops tr = ended tr ++ busy s' /\
  Permutation (proofs_queue s ++ made tr) (proofs_queue s' ++ got tr).
Proof.
  induction 1 as [s|s e s1 tr s' H1 H2 (IH1 & IH2 & IH3)]; [repeat split; cbn; rewrite ?app_nil_r; auto|].
  destruct H1 as [r s|s q r Hw Hq|s r ps Hw Hr|s r Hw Hr|s r Hw Hr|s q p Hq|s Hq|s]; unfold submits, pops, ended, made, got, busy in *; cbn [flat_map work_queue wk proofs_queue app] in *; rewrite ?Hw; cbn [app]; (split; [|split]); auto.
  - rewrite <- app_assoc in IH1. exact IH1.
  - apply vpop_some in Hq. rewrite Hq. rewrite <- app_assoc. cbn [app]. etransitivity; [apply Permutation_sym, Permutation_middle|]. etransitivity; [|apply Permutation_middle]. now constructor.
  - now f_equal.
  - rewrite <- app_assoc in IH3. exact IH3.
  - now f_equal.
  - now f_equal.
  - apply vpop_some in Hq. rewrite Hq. rewrite <- app_assoc. cbn [app]. etransitivity; [apply Permutation_sym, Permutation_middle|]. etransitivity; [|apply Permutation_middle]. now constructor.
Qed.
(** Nothing is lost or duplicated: the submitted requests are those waiting and those taken, the taken ones ended in the order they
    were taken but for the one in work, and the proofs produced are those in the queue and those returned. *)
Lemma api_conserve tr s : steps api0 tr s ->
  Permutation (submits tr) (work_queue s ++ pops tr) /\ pops tr = ended tr ++ busy s /\ Permutation (made tr) (proofs_queue s ++ got tr) /\
  (forall r ps, In (EDone r ps) tr -> In r (submits tr) /\ res r (Proved ps)).
Proof.
  intros H. destruct (api_conserve_gen _ _ _ H) as (A & B & C). cbn in A, B, C. split; [exact A|]. split; [exact B|]. split; [exact C|].
  intros r ps Hin. split.
  - apply (Permutation_in r (Permutation_sym A)). apply in_or_app. right. rewrite B. apply in_or_app. left. unfold ended. apply in_flat_map. exists (EDone r ps). split; [exact Hin|now left].
  - clear - H Hin. induction H as [|s e s1 tr s' H1 H2 IH]; [destruct Hin|]. destruct Hin as [->|Hin]; [|auto]. inversion H1; subst; auto.
Qed.
(** Each proof is returned at most once, and when the proofs queue is empty exactly those produced have been returned. *)
Lemma api_once tr s : steps api0 tr s -> NoDup (made tr) -> NoDup (got tr) /\ (forall p, In p (got tr) -> In p (made tr)) /\
  (proofs_queue s = [] -> Permutation (got tr) (made tr)).
Proof.
  intros H N. destruct (api_conserve tr s H) as (_ & _ & C & _). pose proof (Permutation_NoDup C N) as N'. split; [|split].
  - clear - N'. induction (proofs_queue s) as [|x q IH]; auto. inversion N'; auto.
  - intros p Hp. apply (Permutation_in p (Permutation_sym C)). apply in_or_app. now right.
  - intros E. rewrite E in C. symmetry. exact C.
Qed.

(** Every worker step brings the work nearer to its end, and there is one as long as there is work. *)
Definition is_work (e : event) : Prop := match e with EPop _ | EDone _ _ | EErr _ | EPanic _ => True | _ => False end.
Definition todo (s : api R P) : nat := 2 * length (work_queue s) + length (busy s).
Lemma api_work_bound s tr s' : steps s tr s' -> Forall is_work tr -> length tr + todo s' = todo s.
Proof.
  induction 1 as [s|s e s1 tr s' H1 H2 IH]; intros HF; [reflexivity|]. inversion HF as [|? ? He HF']; subst. specialize (IH HF'). cbn [length]. unfold todo, busy in *.
  destruct H1 as [r s|s q r Hw Hq|s r ps Hw Hr|s r Hw Hr|s r Hw Hr|s q p Hq|s Hq|s]; try (destruct He; fail); cbn [work_queue wk proofs_queue length] in IH; rewrite Hw; cbn [length]; try lia.
  apply vpop_some in Hq. rewrite Hq, app_length. cbn [length]. lia.
Qed.
Lemma api_progress s : wk s <> Dead -> todo s <> 0 -> (forall r, exists o, res r o) -> exists e s', is_work e /\ api_step res e s s'.
Proof.
  intros Hd Ht Hr. unfold todo, busy in Ht. destruct (wk s) as [|r|] eqn:Ew; [| |now elim Hd].
  - destruct (vpop (work_queue s)) as [[q r]|] eqn:E; [|apply vpop_none in E; rewrite E in Ht; cbn in Ht; lia]. exists (EPop r). eexists. split; [exact I|]. apply (APop res s q r); [exact Ew|exact E].
  - destruct (Hr r) as [[ps| |] Ho].
    + exists (EDone r ps). eexists. split; [exact I|]. now apply ADone.
    + exists (EErr r). eexists. split; [exact I|]. now apply AErr.
    + exists (EPanic r). eexists. split; [exact I|]. now apply APanic.
Qed.
Lemma api_drain s : wk s <> Dead -> (forall r, exists o, res r o /\ o <> Panicked) ->
  exists tr s', steps s tr s' /\ Forall is_work tr /\ work_queue s' = [] /\ wk s' = Idle /\ pops tr = rev (work_queue s).
Proof.
  intros Hd Hr. destruct s as [q w pq]. cbn [wk work_queue] in *. assert (G : forall n q pq, length q = n -> exists tr s', steps (mkApi q Idle pq) tr s' /\ Forall is_work tr /\ work_queue s' = [] /\ wk s' = Idle /\ pops tr = rev q).
  { clear - Hr. induction n as [|n IH]; intros q pq L.
    - destruct q; [|discriminate]. exists [], (mkApi [] Idle pq). repeat split; auto; constructor.
    - destruct (vpop q) as [[q' r]|] eqn:E; [|apply vpop_none in E; subst; discriminate]. pose proof E as E'. apply vpop_some in E'. subst q. rewrite app_length in L. cbn in L.
      destruct (Hr r) as (o & Ho & No). destruct o as [ps| |]; [| |now elim No].
      + destruct (IH q' (pq ++ ps)) as (tr & s' & H1 & H2 & H3 & H4 & H5); [lia|]. exists (EPop r :: EDone r ps :: tr), s'. split; [|split; [repeat constructor; auto|split; [auto|split; [auto|]]]].
        * econstructor; [apply APop; [reflexivity|exact E]|]. econstructor; [apply (ADone res _ r ps); auto|]. exact H1.
        * cbn. unfold pops in H5. rewrite H5, rev_app_distr. reflexivity.
      + destruct (IH q' pq) as (tr & s' & H1 & H2 & H3 & H4 & H5); [lia|]. exists (EPop r :: EErr r :: tr), s'. split; [|split; [repeat constructor; auto|split; [auto|split; [auto|]]]].
        * econstructor; [apply APop; [reflexivity|exact E]|]. econstructor; [apply (AErr res _ r); auto|]. exact H1.
        * cbn. unfold pops in H5. rewrite H5, rev_app_distr. reflexivity. }
  destruct w as [|r|]; [now apply (G (length q))| |now elim Hd]. destruct (Hr r) as (o & Ho & No). destruct o as [ps| |]; [| |now elim No].
  - destruct (G (length q) q (pq ++ ps) eq_refl) as (tr & s' & H1 & H2 & H3 & H4 & H5). exists (EDone r ps :: tr), s'. split; [|split; [constructor; [exact I|exact H2]|auto]]. econstructor; [apply (ADone res _ r ps); auto|exact H1].
  - destruct (G (length q) q pq eq_refl) as (tr & s' & H1 & H2 & H3 & H4 & H5). exists (EErr r :: tr), s'. split; [|split; [constructor; [exact I|exact H2]|auto]]. econstructor; [apply (AErr res _ r); auto|exact H1].
Qed.
(** The order is that of submission when nothing is waiting at the time of each submission. *)
Lemma api_fifo tr s : steps api0 tr s -> (forall tr1 r tr2, tr = tr1 ++ ESubmit r :: tr2 -> length (submits tr1) = length (pops tr1)) ->
  submits tr = ended tr ++ busy s ++ work_queue s.
Proof.
  intros H Hq. assert (G : submits tr = pops tr ++ work_queue s).
  { revert s H Hq. induction tr as [|e tr IH] using rev_ind; intros s H Hq; [inversion H; subst; reflexivity|].
    apply steps_inv_app in H as (s1 & H1 & H2). assert (IH1 : submits tr = pops tr ++ work_queue s1) by (apply IH; [exact H1|]; intros tr1 r tr2 E; apply (Hq tr1 r (tr2 ++ [e])); rewrite E, <- app_assoc; reflexivity).
    inversion H2 as [|s0 e0 s2 tr0 s3 H3 H4]; subst. inversion H4; subst. unfold submits, pops in *. rewrite !flat_map_app.
    destruct H3 as [r s|s q r Hw Hq'|s r ps Hw Hr|s r Hw Hr|s r Hw Hr|s q p Hq'|s Hq'|s]; cbn [flat_map app work_queue] in *; rewrite ?app_nil_r; auto.
    - rewrite IH1, <- app_assoc. reflexivity.
    - apply vpop_some in Hq'. rewrite Hq' in IH1. rewrite IH1.
      assert (q = []).
      { assert (Lq : length (work_queue s) <= 1).
        { clear - H1 Hq. revert s H1 Hq. induction tr as [|e tr IH] using rev_ind; intros s H1 Hq; [inversion H1; subst; cbn; lia|].
          assert (HqR : forall tr1 r0 tr2, tr ++ [EPop r] = tr1 ++ ESubmit r0 :: tr2 -> length (submits tr1) = length (pops tr1)).
          { intros tr1 r0 tr2 E. destruct (rev tr2) as [|z zs] eqn:Ez.
            - apply (f_equal (@rev event)) in Ez. rewrite rev_involutive in Ez. cbn in Ez. subst tr2. apply app_inj_tail in E as [_ E]. discriminate E.
            - apply (f_equal (@rev event)) in Ez. rewrite rev_involutive in Ez. cbn in Ez. subst tr2. change (tr1 ++ ESubmit r0 :: rev zs ++ [z]) with (tr1 ++ (ESubmit r0 :: rev zs) ++ [z]) in E. rewrite app_assoc in E. apply app_inj_tail in E as [E _].
              apply (Hq tr1 r0 (rev zs ++ [e] ++ [EPop r])). rewrite E, <- !app_assoc. reflexivity. }
          apply steps_inv_app in H1 as (s1 & H1 & H2). specialize (IH s1 H1 HqR). inversion H2 as [|s0 e0 s2 tr0 s3 H3 H4]; subst. inversion H4; subst.
          destruct H3 as [r1 s|s q1 r1 Hw Hq'|s r1 ps Hw Hr|s r1 Hw Hr|s r1 Hw Hr|s q1 p Hq'|s Hq'|s]; cbn [work_queue]; auto.
          - specialize (Hq tr r1 [EPop r]). rewrite <- app_assoc in Hq. specialize (Hq eq_refl). destruct (api_conserve tr s H1) as (A & _). apply Permutation_length in A. rewrite app_length in A. rewrite app_length. unfold submits, pops in *. cbn [length]. lia.
          - apply vpop_some in Hq'. rewrite Hq', app_length in IH. cbn in IH. lia. }
        rewrite Hq', app_length in Lq. cbn in Lq. destruct q; [reflexivity|cbn in Lq; lia]. }
      subst q. cbn [app]. rewrite ?app_nil_r. reflexivity. }
  rewrite G. destruct (api_conserve tr s H) as (_ & B & _). rewrite B, <- app_assoc. reflexivity.
Qed.
(** Otherwise a request can be overtaken by any number of later ones. *)
Lemma api_starvation r0 rs r1 : (forall r, exists o, res r o /\ o <> Panicked) ->
  exists tr s, steps api0 tr s /\ submits tr = r1 :: r0 :: rs /\ ended tr = r1 :: rs /\ In r0 (work_queue s) /\ wk s = Idle.
Proof.
  intros Hr. assert (Hone : forall q pq r, exists tr pq', steps (mkApi q Idle pq) (ESubmit r :: EPop r :: tr) (mkApi q Idle pq') /\ submits tr = [] /\ ended tr = [r] /\ pops tr = []).
  { intros q pq r. destruct (Hr r) as (o & Ho & No). destruct o as [ps| |]; [| |now elim No].
    - exists [EDone r ps], (pq ++ ps). split; [|repeat split; reflexivity]. econstructor; [apply ASubmit|]. econstructor; [apply APop; [reflexivity|apply vpop_snoc]|]. econstructor; [apply (ADone res _ r ps); auto|constructor].
    - exists [EErr r], pq. split; [|repeat split; reflexivity]. econstructor; [apply ASubmit|]. econstructor; [apply APop; [reflexivity|apply vpop_snoc]|]. econstructor; [apply (AErr res _ r); auto|constructor]. }
  assert (Hall : forall l q pq, exists tr pq', steps (mkApi q Idle pq) tr (mkApi q Idle pq') /\ submits tr = l /\ ended tr = l).
  { induction l as [|r l IH]; intros q pq; [exists [], pq; repeat split; constructor|]. destruct (Hone q pq r) as (t1 & pq1 & H1 & H2 & H3 & H4). destruct (IH q pq1) as (t2 & pq2 & K1 & K2 & K3).
    exists ((ESubmit r :: EPop r :: t1) ++ t2), pq2. split; [eapply steps_app; eauto|]. unfold submits, ended in *. rewrite !flat_map_app. cbn [flat_map app]. rewrite H2, H3, K2, K3. auto. }
  destruct (Hone [] [] r1) as (t1 & pq1 & H1 & H2 & H3 & H4). destruct (Hall rs [r0] pq1) as (t2 & pq2 & K1 & K2 & K3).
  exists ((ESubmit r1 :: EPop r1 :: t1) ++ [ESubmit r0] ++ t2), (mkApi [r0] Idle pq2). split; [|split; [|split; [|split]]].
  - eapply steps_app; [exact H1|]. eapply steps_app; [econstructor; [apply ASubmit|constructor]|]. exact K1.
  - unfold submits in *. rewrite !flat_map_app. cbn [flat_map app]. rewrite H2, K2. reflexivity.
  - unfold ended in *. rewrite !flat_map_app. cbn [flat_map app]. rewrite H3, K3. reflexivity.
  - now left.
  - reflexivity.
Qed.
(** Two requests submitted one after the other are worked on, and their proofs returned, in the reverse order. *)
Lemma api_reversed r1 r2 p1 p2 : res r1 (Proved [p1]) -> res r2 (Proved [p2]) ->
  exists tr s, steps api0 tr s /\ submits tr = [r1; r2] /\ ended tr = [r2; r1] /\ got tr = [p2; p1].
Proof.
  intros H1 H2. exists [ESubmit r1; ESubmit r2; EPop r2; EDone r2 [p2]; EGet (Some p2); EPop r1; EDone r1 [p1]; EGet (Some p1)], (mkApi [] Idle []). split; [|repeat split; reflexivity].
  econstructor; [apply ASubmit|]. econstructor; [apply ASubmit|]. econstructor; [apply (APop res _ [r1] r2); reflexivity|]. econstructor; [apply (ADone res _ r2 [p2]); auto|].
  econstructor; [apply (AGet res _ [] p2); reflexivity|]. econstructor; [apply (APop res _ [] r1); reflexivity|]. econstructor; [apply (ADone res _ r1 [p1]); auto|]. econstructor; [apply (AGet res _ [] p1); reflexivity|]. constructor.
Qed.
(** The proofs of one batch come back in the reverse order. *)
Lemma api_batch_reversed r ps : res r (Proved ps) -> exists tr s, steps api0 tr s /\ submits tr = [r] /\ made tr = ps /\ got tr = rev ps.
Proof.
  intros Hr. assert (G : forall ps q, steps (mkApi [] Idle (q ++ ps)) (map (fun p => EGet (Some p)) (rev ps)) (mkApi [] Idle q)).
  { clear. induction ps as [|p ps IH] using rev_ind; intros q; [rewrite app_nil_r; constructor|]. rewrite rev_app_distr. cbn [rev app map]. econstructor; [|apply IH].
    rewrite app_assoc. apply (AGet res (mkApi [] Idle ((q ++ ps) ++ [p])) (q ++ ps) p). apply vpop_snoc. }
  exists ([ESubmit r; EPop r; EDone r ps] ++ map (fun p => EGet (Some p)) (rev ps)), (mkApi [] Idle []). split; [|split; [|split]].
  - eapply steps_app; [|apply (G ps [])]. econstructor; [apply ASubmit|]. econstructor; [apply (APop res _ [] r); reflexivity|]. econstructor; [apply (ADone res _ r ps); auto|]. constructor.
  - unfold submits. rewrite flat_map_app. cbn [flat_map app]. f_equal. clear. induction (rev ps); cbn; auto.
  - unfold made. rewrite flat_map_app. cbn [flat_map app]. rewrite app_nil_r. clear. assert (E : forall l : list P, flat_map (fun e : event => match e with EDone _ ps => ps | _ => [] end) (map (fun p => EGet (Some p)) l) = []) by (induction l; cbn; auto). rewrite E. apply app_nil_r.
  - unfold got. rewrite flat_map_app. cbn [flat_map app]. clear. induction (rev ps) as [|p l IH]; cbn; [reflexivity|]. now rewrite IH.
Qed.
(** A request that fails leaves the service exactly as if it had never been made. *)
Lemma api_error_silent s r : wk s = Idle -> res r Failed -> steps s [ESubmit r; EPop r; EErr r] s.
Proof.
  intros Hw Hr. destruct s as [q w pq]. cbn in Hw. subst w. econstructor; [apply ASubmit|]. econstructor; [apply (APop res _ q r); [reflexivity|apply vpop_snoc]|]. econstructor; [apply (AErr res _ r); auto|]. constructor.
Qed.
(** After a panic no request is ever worked on, though submissions are still accepted. *)
Lemma api_dead s tr s' : steps s tr s' -> wk s = Dead -> wk s' = Dead /\ pops tr = [] /\ made tr = [] /\ work_queue s' = work_queue s ++ submits tr.
Proof.
  induction 1 as [s|s e s1 tr s' H1 H2 IH]; intros Hd; [rewrite app_nil_r; auto|].
  destruct H1 as [r s|s q r Hw Hq|s r ps Hw Hr|s r Hw Hr|s r Hw Hr|s q p Hq|s Hq|s]; try congruence; destruct (IH Hd) as (A & B & C & D); cbn [work_queue] in D; unfold pops, made, submits in *; cbn [flat_map app]; auto.
  rewrite <- app_assoc in D. auto.
Qed.
End Api.

(** ** The gRPC worker *)
Section Grpc.
Context {Id M Q O W : Type} (decode : M -> option Q) (run : W -> Q -> W * O) (send_ok : nat -> bool).
Notation loop := (grpc_loop (Id := Id) decode run send_ok).
Definition answerable (n : nat) (e : inbound Id M) : Prop := match e with Msg _ m => decode m <> None /\ send_ok n = true | _ => False end.
Definition id_of (e : inbound Id M) : list Id := match e with Msg id _ => [id] | _ => [] end.
(** The answers are those to a first part of the messages, one each, in order; the loop ends at the first event that is not a message
    that can be decoded and answered. *)
Lemma grpc_replies evs : forall n w rs e, loop n w evs = (rs, e) -> exists k, k <= length evs /\
  map fst rs = flat_map id_of (firstn k evs) /\ length rs = k /\ (forall i x, i < k -> nth_error evs i = Some x -> answerable (n + i) x) /\
  (k = length evs /\ e = Waiting \/ exists x, nth_error evs k = Some x /\ ~ answerable (n + k) x /\ e <> Waiting).
Proof.
  induction evs as [|x evs IH]; intros n w rs e H; cbn [grpc_loop] in H.
  - injection H as <- <-. exists 0. repeat split; auto. intros i x Hi. lia.
  - assert (Stop : forall e', rs = [] -> e = e' -> ~ answerable n x -> e' <> Waiting -> exists k, k <= length (x :: evs) /\
      map fst rs = flat_map id_of (firstn k (x :: evs)) /\ length rs = k /\ (forall i y, i < k -> nth_error (x :: evs) i = Some y -> answerable (n + i) y) /\
      (k = length (x :: evs) /\ e = Waiting \/ exists y, nth_error (x :: evs) k = Some y /\ ~ answerable (n + k) y /\ e <> Waiting)).
    { intros e' -> -> Na Ne. exists 0. split; [lia|]. split; [reflexivity|]. split; [reflexivity|]. split; [intros i y Hi; lia|]. right. exists x. rewrite Nat.add_0_r. auto. }
    destruct x as [id m| |]; [|injection H as <- <-; apply (Stop Stopped); auto; discriminate|injection H as <- <-; apply (Stop Stopped); auto; discriminate].
    destruct (decode m) as [q|] eqn:Ed; [|injection H as <- <-; apply (Stop Broken); auto; [cbn; tauto|discriminate]].
    destruct (run w q) as [w' o]. destruct (send_ok n) eqn:Es; [|injection H as <- <-; apply (Stop Broken); auto; [cbn; intros [_ X]; congruence|discriminate]].
    destruct (loop (S n) w' evs) as [rs' e'] eqn:El. injection H as <- <-. destruct (IH _ _ _ _ El) as (k & L & A & B & C & D). exists (S k). split; [cbn; lia|]. split; [cbn; now rewrite A|]. split; [cbn; now rewrite B|]. split.
    + intros [|i] y Hi Hy; cbn in Hy; [injection Hy as <-; rewrite Nat.add_0_r; split; [rewrite Ed; discriminate|exact Es]|]. replace (n + S i) with (S n + i) by lia. apply (C i y); [lia|exact Hy].
    + destruct D as [[-> ->]|(y & D1 & D2 & D3)]; [left; auto|]. right. exists y. replace (n + S k) with (S n + k) by lia. auto.
Qed.
(** Every message that can be answered, when nothing else happens, is answered once, in order, with its own id. *)
Lemma grpc_all_answered msgs n w : (forall i id m, nth_error msgs i = Some (id, m) -> decode m <> None /\ send_ok (n + i) = true) ->
  exists rs, loop n w (map (fun x => Msg (fst x) (snd x)) msgs) = (rs, Waiting) /\ map fst rs = map fst msgs.
Proof.
  intros H. destruct (loop n w (map (fun x => Msg (fst x) (snd x)) msgs)) as [rs e] eqn:E. destruct (grpc_replies _ _ _ _ _ E) as (k & L & A & B & C & D). exists rs. rewrite map_length in *.
  assert (Hk : k = length msgs /\ e = Waiting).
  { destruct D as [D|(x & D1 & D2 & _)]; [exact D|]. exfalso. rewrite nth_error_map in D1. destruct (nth_error msgs k) as [[id m]|] eqn:En; [|discriminate]. injection D1 as <-. apply D2. exact (H k id m En). }
  destruct Hk as [-> ->]. split; [reflexivity|]. rewrite A, firstn_all2 by (rewrite map_length; lia). clear. induction msgs as [|[id m] msgs IH]; cbn; [reflexivity|]. now rewrite IH.
Qed.
(** A payload that cannot be decoded is not answered, and neither is anything after it. *)
Lemma grpc_undecodable w n pre id m post : decode m = None -> (forall i x y, nth_error pre i = Some (x, y) -> decode y <> None /\ send_ok (n + i) = true) ->
  exists rs, loop n w (map (fun x => Msg (fst x) (snd x)) pre ++ Msg id m :: post) = (rs, Broken) /\ map fst rs = map fst pre.
Proof.
  intros Hd. revert n w. induction pre as [|[x y] pre IH]; intros n w H; cbn [map app grpc_loop fst snd].
  - rewrite Hd. exists []. auto.
  - destruct (H 0 x y eq_refl) as [H1 H2]. rewrite Nat.add_0_r in H2. destruct (decode y) as [q|]; [|now elim H1]. destruct (run w q) as [w' o]. rewrite H2.
    destruct (IH (S n) w') as (rs & E & F). { intros i x' y' Hi. replace (S n + i) with (n + S i) by lia. exact (H (S i) x' y' Hi). }
    rewrite E. exists ((x, o) :: rs). cbn. now rewrite F.
Qed.
End Grpc.

(** ** The HTTP worker *)
Section Http.
Context {Id J O W : Type} (run : W -> J -> W * O) (attempts : nat) (net : nat -> bool * bool).
Hypothesis net_ok : forall n, snd (net n) = true -> fst (net n) = true.
Lemma retry_spec k : forall n b c n', retry net k n = (b, c, n') -> n <= n' <= n + k /\ c <= k /\ (b = true -> 1 <= c) /\
  (k <> 0 -> fst (net n) = true -> 1 <= c) /\ (k <> 0 -> snd (net n) = true -> b = true /\ c = 1 /\ n' = S n).
Proof.
  induction k as [|k IH]; intros n b c n' H; cbn [retry] in H.
  - injection H as <- <- <-. repeat split; try lia; discriminate.
  - pose proof (net_ok n) as Hn. destruct (net n) as [g ok]. cbn [fst snd] in *. destruct ok.
    + injection H as <- <- <-. rewrite (Hn eq_refl). repeat split; lia.
    + destruct (retry net k (S n)) as [[b' c'] n1] eqn:E. injection H as <- <- <-. destruct (IH _ _ _ _ E) as (A & B & C & D & F). repeat split; try lia; try discriminate; destruct g; try lia; try discriminate.
      intros ->. specialize (C eq_refl). lia.
Qed.
(** The submissions that reach the gateway: for a first part of the jobs, for each job between one and [attempts] copies of one
    submission with its id; the worker goes on only if a submission for the last job arrived, otherwise it ends. *)
Lemma http_replies (jobs : list (job Id J)) : forall n w subs b, attempts <> 0 -> http_loop run attempts net n w jobs = (subs, b) -> exists done : list (Id * O * nat),
  subs = flat_map (fun x => repeat (fst x) (snd x)) done /\ length done <= length jobs /\
  (forall i x, nth_error done i = Some x -> exists j, nth_error jobs i = Some (Job (fst (fst x)) j) /\ snd x <= attempts /\ (S i < length done \/ b = true -> 1 <= snd x)) /\
  (b = true -> length done = length jobs).
Proof.
  induction jobs as [|[id j|] jobs IH]; intros n w subs b Ha H; cbn [http_loop] in H.
  - injection H as <- <-. exists []. repeat split; auto. intros [|i] x; discriminate.
  - destruct (retry net attempts n) as [[b1 c1] n1] eqn:E1. destruct (run w j) as [w' o]. destruct (retry net attempts n1) as [[ok c] n2] eqn:E2. destruct (retry_spec _ _ _ _ _ E2) as (_ & B & C & _). destruct ok.
    + destruct (http_loop run attempts net n2 w' jobs) as [l b'] eqn:E3. injection H as <- <-. destruct (IH _ _ _ _ Ha E3) as (done & A1 & A2 & A3 & A4). exists ((id, o, c) :: done). cbn [flat_map fst snd length]. split; [now rewrite A1|]. split; [lia|]. split.
      * intros [|i] x Hx; cbn in Hx; [injection Hx as <-; cbn [fst snd]; exists j; split; [reflexivity|]; split; [exact B|]; auto|]. destruct (A3 i x Hx) as (j' & X1 & X2 & X3). exists j'. split; [exact X1|]. split; [exact X2|]. intros X. apply X3. destruct X; [left; lia|auto].
      * intros Hb. now rewrite (A4 Hb).
    + injection H as <- <-. exists [(id, o, c)]. cbn [flat_map fst snd length]. split; [now rewrite app_nil_r|]. split; [lia|]. split; [|discriminate].
      intros [|[|i]] x Hx; cbn in Hx; [injection Hx as <-; cbn [fst snd]; exists j; split; [reflexivity|]; split; [exact B|]; intros [X|X]; [lia|discriminate]|discriminate|discriminate].
  - injection H as <- <-. exists []. repeat split; auto; [cbn; lia|intros [|i] x; discriminate|discriminate].
Qed.
(** When no request and no answer is lost, every job gets exactly one submission. *)
Lemma http_exactly_once (jobs : list (job Id J)) n w : attempts <> 0 -> (forall n, net n = (true, true)) -> (forall x, In x jobs -> x <> NoJob) ->
  exists subs, http_loop run attempts net n w jobs = (subs, true) /\ map fst subs = flat_map (fun x => match x with Job id _ => [id] | NoJob => [] end) jobs.
Proof.
  intros Ha Hn. revert n w. induction jobs as [|[id j|] jobs IH]; intros n w Hj; cbn [http_loop].
  - exists []. auto.
  - destruct (retry net attempts n) as [[b1 c1] n1]. destruct (run w j) as [w' o]. destruct (retry net attempts n1) as [[ok c] n2] eqn:E2. destruct (retry_spec _ _ _ _ _ E2) as (_ & _ & _ & _ & F). rewrite Hn in F. destruct (F Ha eq_refl) as (-> & -> & _).
    destruct (IH n2 w') as (subs & E & G); [intros x Hx; apply Hj; now right|]. rewrite E. exists ((id, o) :: subs). cbn. now rewrite G.
  - exfalso. apply (Hj NoJob); [now left|reflexivity].
Qed.
End Http.
(** A lost answer makes the worker submit again: the gateway gets two replies for one job. *)
Lemma http_duplicate {Id J O W : Type} (run : W -> J -> W * O) attempts w (id : Id) j : 2 <= attempts ->
  exists net, (forall n, snd (net n) = true -> fst (net n) = true) /\ http_loop run attempts net 0 w [Job id j] = ([(id, snd (run w j)); (id, snd (run w j))], true).
Proof.
  intros Ha. destruct attempts as [|[|a]]; try lia. exists (fun n => (true, negb (n =? 1))). split; [reflexivity|]. cbn [http_loop retry Nat.eqb negb]. destruct (run w j) as [w' o]. reflexivity.
Qed.
(** An error while asking for a job, which is not retried, ends the worker; so does a submission none of whose attempts succeed. *)
Lemma http_no_job {Id J O W : Type} (run : W -> J -> W * O) attempts net n w (rest : list (job Id J)) : http_loop run attempts net n w (NoJob :: rest) = ([], false).
Proof. reflexivity. Qed.
