(** Proofs about the sumcheck verifier of [M_Sumcheck]: deferred checks, soundness, counting. *)
From Coq Require Import List Arith Lia Bool ZArith Field.
From Verif Require Import ListAux FieldDef PolyList MleMath M_Mle P_Mle P_Eq M_Interp P_Interp M_Sumcheck.
Import ListNotations.

Section P.
Context {K : field}.
Add Field Kf_sv : (fth K).
Local Open Scope F_scope.

(** *** The interactive protocol *)
(** Round-by-round checks for given messages and challenges. *)
Fixpoint interactive (deg : nat) (expected : K) (msgs : list (list K)) (rs : list K) : option K :=
  match msgs, rs with
  | [], [] => Some expected
  | m :: ms, r :: rs' =>
      if Nat.eqb (length m) (deg + 1) then
        match m with
        | a :: b :: _ => if a + b =? expected
                         then e <- interpolate_uni_poly m r ;; interactive deg e ms rs'
                         else None
        | _ => None
        end
      else None
  | _, _ => None
  end.

(** The same with the transcript: the verifier checks each message when it receives it. *)
Fixpoint iverify (T : @hist K -> K) (deg : nat) (expected : K) (n : nat) (msgs : list (list K)) (h : hist)
  : option (list K * K * hist) :=
  match n with
  | O => Some ([], expected, h)
  | S n' =>
      match msgs with
      | [] => None
      | m :: ms =>
          match m with
          | a :: b :: _ =>
              if Nat.eqb (length m) (deg + 1) && (a + b =? expected) then
                let '(r, h') := get_challenge T lbl_round (absorb h m) in
                e <- interpolate_uni_poly m r ;;
                res <- iverify T deg e n' ms h' ;;
                let '(rs, e', h'') := res in Some (r :: rs, e', h'')
              else None
          | _ => None
          end
      end
  end.

Definition interp1 (deg : nat) (er : list K * K) : option K :=
  let '(evs, r) := er in if Nat.eqb (length evs) (deg + 1) then interpolate_uni_poly evs r else None.
Definition check1 (ee : list K * K) : option unit :=
  let '(evs, e) := ee in
  match nth_error evs 0, nth_error evs 1 with
  | Some a, Some b => if a + b =? e then Some tt else None
  | _, _ => None
  end.
Definition deferred (deg : nat) (asserted : K) (polys : list (list K)) (rs : list K) : option K :=
  exps <- omapM (interp1 deg) (combine polys rs) ;;
  _ <- omapM check1 (firstn (length polys) (combine polys (asserted :: exps))) ;;
  nth_error (asserted :: exps) (length polys).

Lemma deferred_cons deg a p ps r rs : deferred deg a (p :: ps) (r :: rs) =
  (e <- interp1 deg (p, r) ;; _ <- check1 (p, a) ;; deferred deg e ps rs).
Proof.
  unfold deferred. cbn [combine omapM length].
  destruct (interp1 deg (p, r)) as [e|]; [|reflexivity]. cbn [obind].
  destruct (omapM (interp1 deg) (combine ps rs)) as [es|]; cbn [obind].
  - cbn [firstn omapM nth_error]. destruct (check1 (p, a)); [|reflexivity]. cbn [obind].
    destruct (omapM check1 (firstn (length ps) (combine ps (e :: es)))); reflexivity.
  - destruct (check1 (p, a)); reflexivity.
Qed.

Lemma deferred_interactive deg : forall polys rs a, length polys = length rs ->
  deferred deg a polys rs = interactive deg a polys rs.
Proof.
  induction polys as [|p ps IH]; intros [|r rs] a Hl; try discriminate; [reflexivity|].
  rewrite deferred_cons. cbn [interactive interp1].
  destruct (length p =? deg + 1)%nat; [|reflexivity].
  destruct p as [|x [|y p]]; try (destruct (interpolate_uni_poly _ r); reflexivity).
  cbn [check1 nth_error]. destruct (x + y =? a).
  - destruct (interpolate_uni_poly (x :: y :: p) r); [|reflexivity]. cbn [obind]. apply IH. auto.
  - destruct (interpolate_uni_poly (x :: y :: p) r); reflexivity.
Qed.

Lemma check_and_generate_spec n deg polys rs rd a : length polys = n -> length rs = n ->
  check_and_generate_subclaim (mkVs rd n deg true polys rs) a
  = (e <- interactive deg a polys rs ;; Some (rs, e)).
Proof.
  intros Hp Hr. rewrite <- deferred_interactive by lia.
  unfold check_and_generate_subclaim, deferred. cbn [vs_finished negb vs_polys vs_nv vs_deg vs_chals].
  rewrite Hp, Nat.eqb_refl. cbn [negb].
  change (omapM (fun '(evs, r) => if (length evs =? deg + 1)%nat then interpolate_uni_poly evs r else None) (combine polys rs))
    with (omapM (interp1 deg) (combine polys rs)).
  destruct (omapM (interp1 deg) (combine polys rs)) as [es|]; [|reflexivity]. cbn [obind].
  change (omapM (fun '(evs, e) => _) ?l) with (omapM check1 l).
  destruct (omapM check1 (firstn n (combine polys (a :: es)))); reflexivity.
Qed.

(** *** Challenges as a function of the messages *)
Fixpoint fs (T : @hist K -> K) (h : hist) (msgs : list (list K)) : list K * hist :=
  match msgs with
  | [] => ([], h)
  | m :: t => let '(r, h') := get_challenge T lbl_round (absorb h m) in
              let '(rs, h'') := fs T h' t in (r :: rs, h'')
  end.
Lemma fs_length T msgs : forall h, length (fst (fs T h msgs)) = length msgs.
Proof.
  induction msgs as [|m t IH]; intros h; [reflexivity|]. cbn [fs].
  destruct (get_challenge T lbl_round (absorb h m)) as [r h'].
  specialize (IH h'). destruct (fs T h' t) as [rs h'']. cbn in *. lia.
Qed.

Lemma verify_step_eq (T : @hist K -> K) pf sh i : verify_step T pf sh i =
  (msg <- nth_error (pf_proofs pf) i ;; verify_round T (fst sh) msg (absorb (snd sh) msg)).
Proof. reflexivity. Qed.
Lemma verify_loop T pf nv deg : forall k i h polys chals, (i + k = nv)%nat -> 0 < k ->
  length polys = i -> length chals = i ->
  ofold (verify_step T pf) (seq i k) (mkVs (S i) nv deg false polys chals, h) =
  if Nat.leb nv (length (pf_proofs pf)) then
    let ms := firstn k (skipn i (pf_proofs pf)) in
    let '(rs, h') := fs T h ms in
    Some (mkVs nv nv deg true (polys ++ ms) (chals ++ rs), h')
  else None.
Proof.
  induction k as [|k IH]; intros i h polys chals Hik Hk Hp Hc; [lia|].
  cbn [seq ofold]. rewrite verify_step_eq. cbn [fst snd].
  destruct (Nat.leb_spec nv (length (pf_proofs pf))) as [Hle|Hgt].
  - destruct (nth_error (pf_proofs pf) i) as [m|] eqn:Em;
      [|apply nth_error_None in Em; lia].
    cbn [obind]. unfold verify_round. cbn [vs_finished vs_round vs_nv vs_deg vs_polys vs_chals].
    assert (Es := skipn_nth_error _ _ _ Em).
    rewrite Es. cbn [firstn fs].
    destruct (get_challenge T lbl_round (absorb h m)) as [r h']. cbn [obind].
    destruct k as [|k].
    + replace (S i =? nv)%nat with true by (symmetry; apply Nat.eqb_eq; lia).
      cbn [seq ofold firstn fs]. assert (En : S i = nv) by lia. rewrite En. reflexivity.
    + replace (S i =? nv)%nat with false by (symmetry; apply Nat.eqb_neq; lia).
      rewrite IH; try (rewrite ?app_length; cbn [length]; lia).
      destruct (Nat.leb_spec nv (length (pf_proofs pf))); [|lia].
      cbv zeta. destruct (fs T h' (firstn (S k) (skipn (S i) (pf_proofs pf)))) as [rs h''].
      rewrite <- !app_assoc. reflexivity.
  - destruct (nth_error (pf_proofs pf) i) as [m|] eqn:Em; [|reflexivity].
    assert (Hi : i < length (pf_proofs pf)) by (apply nth_error_Some; congruence).
    cbn [obind]. unfold verify_round. cbn [vs_finished vs_round vs_nv vs_deg vs_polys vs_chals].
    destruct (get_challenge T lbl_round (absorb h m)) as [r h']. cbn [obind].
    destruct k as [|k]; [lia|].
    replace (S i =? nv)%nat with false by (symmetry; apply Nat.eqb_neq; lia).
    rewrite IH; try (rewrite ?app_length; cbn [length]; lia).
    destruct (Nat.leb_spec nv (length (pf_proofs pf))); [lia|]. reflexivity.
Qed.

Definition h_init (nv deg : nat) (h : @hist K) : hist := EvBytes (le_bytes8 deg) :: EvBytes (le_bytes8 nv) :: h.

Lemma verify_fs (T : @hist K -> K) claimed pf nv deg h : 0 < nv ->
  verify T claimed pf nv deg h =
  if Nat.leb nv (length (pf_proofs pf)) then
    let ms := firstn nv (pf_proofs pf) in
    let '(rs, h') := fs T (h_init nv deg h) ms in
    e <- interactive deg claimed ms rs ;; Some (rs, e, h')
  else None.
Proof.
  intros Hn. unfold verify. destruct (Nat.eqb_spec nv 0); [lia|].
  unfold verifier_init. rewrite verify_loop by (auto; lia). cbn [skipn].
  fold (h_init nv deg h).
  destruct (Nat.leb_spec nv (length (pf_proofs pf))); [|reflexivity]. cbv zeta.
  pose proof (fs_length T (firstn nv (pf_proofs pf)) (h_init nv deg h)) as Hf.
  destruct (fs T (h_init nv deg h) (firstn nv (pf_proofs pf))) as [rs h']. cbn [fst obind snd app] in *.
  rewrite firstn_length_le in Hf by auto.
  rewrite check_and_generate_spec by (rewrite ?firstn_length_le; auto).
  destruct (interactive deg claimed (firstn nv (pf_proofs pf)) rs); reflexivity.
Qed.

Lemma iverify_fs T deg : forall n msgs e h,
  iverify T deg e n msgs h =
  if Nat.leb n (length msgs) then
    let '(rs, h') := fs T h (firstn n msgs) in
    x <- interactive deg e (firstn n msgs) rs ;; Some (rs, x, h')
  else None.
Proof.
  induction n as [|n IH]; intros msgs e h; [reflexivity|].
  destruct msgs as [|m ms]; [reflexivity|]. cbn [iverify length firstn fs Nat.leb].
  destruct (get_challenge T lbl_round (absorb h m)) as [r h'] eqn:Eg.
  destruct m as [|a [|b m]].
  - destruct (n <=? length ms)%nat; auto. destruct (fs T h' (firstn n ms)) as [rs h'']. cbn [interactive].
    destruct (length [] =? deg + 1)%nat; reflexivity.
  - destruct (n <=? length ms)%nat; auto. destruct (fs T h' (firstn n ms)) as [rs h'']. cbn [interactive].
    destruct (length [a] =? deg + 1)%nat; reflexivity.
  - destruct (length (a :: b :: m) =? deg + 1)%nat eqn:El; cbn [andb].
    + destruct (a + b =? e) eqn:Es.
      * destruct (interpolate_uni_poly (a :: b :: m) r) as [e1|] eqn:Ei; cbn [obind].
        -- rewrite IH. destruct (n <=? length ms)%nat; [|reflexivity].
           destruct (fs T h' (firstn n ms)) as [rs h'']. cbn [interactive]. rewrite El, Es, Ei. cbn [obind].
           destruct (interactive deg e1 (firstn n ms) rs); reflexivity.
        -- destruct (n <=? length ms)%nat; auto. destruct (fs T h' (firstn n ms)) as [rs h''].
           cbn [interactive]. rewrite El, Es, Ei. reflexivity.
      * destruct (n <=? length ms)%nat; auto. destruct (fs T h' (firstn n ms)) as [rs h''].
        cbn [interactive]. rewrite El, Es. reflexivity.
    + destruct (n <=? length ms)%nat; auto. destruct (fs T h' (firstn n ms)) as [rs h''].
      cbn [interactive]. rewrite El. reflexivity.
Qed.

(** C09 *)
Lemma verify_iverify (T : @hist K -> K) claimed pf nv deg h : 0 < nv ->
  verify T claimed pf nv deg h = iverify T deg claimed nv (pf_proofs pf) (h_init nv deg h).
Proof. intros Hn. rewrite verify_fs, iverify_fs by auto. reflexivity. Qed.

Lemma verify_short (T : @hist K -> K) claimed pf nv deg h : length (pf_proofs pf) < nv -> verify T claimed pf nv deg h = None.
Proof.
  intros Hl. rewrite verify_fs by lia. destruct (Nat.leb_spec nv (length (pf_proofs pf))); [lia|reflexivity].
Qed.

Lemma interactive_lengths deg : forall msgs rs (e x : K), interactive deg e msgs rs = Some x ->
  length msgs = length rs /\ Forall (fun m => length m = (deg + 1)%nat) msgs.
Proof.
  induction msgs as [|m ms IH]; intros [|r rs] e x E; try discriminate; [split; auto|].
  cbn [interactive] in E. destruct (Nat.eqb_spec (length m) (deg + 1)) as [Hm|]; [|discriminate].
  destruct m as [|a [|b m]]; try discriminate. destruct (a + b =? e); [|discriminate].
  destruct (interpolate_uni_poly (a :: b :: m) r) as [e1|]; [|discriminate].
  cbn [obind] in E. destruct (IH _ _ _ E) as [Hl Hf]. split; [cbn [length]; lia|constructor; auto].
Qed.

Lemma verify_wrong_length (T : @hist K -> K) claimed pf nv deg h i m : nth_error (pf_proofs pf) i = Some m -> i < nv ->
  length m <> (deg + 1)%nat -> verify T claimed pf nv deg h = None.
Proof.
  intros Em Hi Hm. rewrite verify_fs by lia.
  destruct (Nat.leb_spec nv (length (pf_proofs pf))); [|reflexivity]. cbv zeta.
  destruct (fs T (h_init nv deg h) (firstn nv (pf_proofs pf))) as [rs h'].
  destruct (interactive deg claimed (firstn nv (pf_proofs pf)) rs) eqn:E; [|reflexivity].
  destruct (interactive_lengths _ _ _ _ _ E) as [_ Hf]. exfalso. apply Hm.
  rewrite Forall_forall in Hf. apply Hf. apply nth_error_In with (n := i).
  rewrite <- Em. rewrite <- (firstn_skipn nv (pf_proofs pf)) at 2. rewrite nth_error_app1; auto.
  rewrite firstn_length. lia.
Qed.

Lemma verify_prefix (T : @hist K -> K) claimed pf pf' nv deg h :
  nv <= length (pf_proofs pf) -> nv <= length (pf_proofs pf') ->
  firstn nv (pf_proofs pf) = firstn nv (pf_proofs pf') ->
  verify T claimed pf nv deg h = verify T claimed pf' nv deg h.
Proof.
  intros Hl Hl' E. destruct (Nat.eq_dec nv 0) as [->|]; [reflexivity|].
  rewrite !verify_fs by lia. destruct (Nat.leb_spec nv (length (pf_proofs pf))); [|lia].
  destruct (Nat.leb_spec nv (length (pf_proofs pf'))); [|lia]. rewrite E. reflexivity.
Qed.

(** *** Soundness *)
Definition indiv_deg (d n : nat) (g : list K -> K) : Prop :=
  forall a b, (length a + S (length b))%nat = n -> is_poly d (fun x => g (a ++ x :: b)).
Definition hsum (n : nat) (g : list K -> K) : K := sumn (2 ^ n) (fun b => g (bpt n b)).

Lemma hsum_S n g : hsum (S n) g = hsum n (fun pt => g (0 :: pt)) + hsum n (fun pt => g (1 :: pt)).
Proof.
  unfold hsum. rewrite Nat.pow_succ_r', sumn_even_odd. f_equal; apply sumn_ext; intros b Hb.
  - rewrite bpt_even. reflexivity.
  - rewrite bpt_odd. reflexivity.
Qed.
Lemma indiv_deg_cons d n g r : indiv_deg d (S n) g -> indiv_deg d n (fun pt => g (r :: pt)).
Proof. intros H a b Hl. apply (H (r :: a) b). cbn [length]. lia. Qed.
Lemma indiv_deg_round d n g : indiv_deg d (S n) g -> is_poly d (fun x => hsum n (fun pt => g (x :: pt))).
Proof.
  intros H. unfold hsum. apply (is_poly_sumn d _ (fun b x => g (x :: bpt n b))). intros b Hb.
  apply (H [] (bpt n b)). rewrite bpt_length. reflexivity.
Qed.

Definition msg_poly (deg : nat) (m : list K) : K -> K := lagrange (nodes (deg + 1)) m.

Lemma interactive_step deg e m ms r rs x : char_gt K deg ->
  interactive deg e (m :: ms) (r :: rs) = Some x ->
  length m = (deg + 1)%nat /\ 0 < deg /\ msg_poly deg m 0 + msg_poly deg m 1 = e /\
  interactive deg (msg_poly deg m r) ms rs = Some x.
Proof.
  intros Hc E. cbn [interactive] in E.
  destruct (Nat.eqb_spec (length m) (deg + 1)) as [Hm|]; [|discriminate].
  destruct m as [|a [|b m]]; try discriminate. destruct (a + b =? e) eqn:Es; [|discriminate].
  destruct (interpolate_uni_poly (a :: b :: m) r) as [e1|] eqn:Ei; [|discriminate].
  cbn [obind] in E. set (mm := a :: b :: m) in *.
  assert (Hd : 0 < deg) by (cbn [length mm] in Hm; unfold mm in Hm; cbn [length] in Hm; lia).
  assert (Hn : NoDup (nodes (K:=K) (deg + 1))) by (apply nodes_NoDup; replace (deg + 1 - 1)%nat with deg by lia; auto).
  assert (H0 : msg_poly deg mm 0 = a).
  { pose proof (lagrange_at (nodes (deg + 1)) mm 0 Hn) as H. rewrite nodes_length, nodes_nth in H by lia. apply H. lia. }
  assert (H1 : msg_poly deg mm 1 = b).
  { pose proof (lagrange_at (nodes (deg + 1)) mm 1 Hn) as H. rewrite nodes_length, nodes_nth in H by lia.
    replace (1 : K) with (fnat 1 : K) by (simpl; ring). apply H. lia. }
  repeat split; auto.
  - rewrite H0, H1. apply feqb_true. auto.
  - assert (Hx : forall i, i < length mm -> r <> fnat i).
    { intros i Hi Er. rewrite interpolate_panics in Ei; try discriminate; eauto. rewrite Hm. lia. }
    assert (Eo : interpolate_uni_poly mm r = Some (lagrange (nodes (length mm)) mm r)).
    { apply interpolate_ok; auto; rewrite Hm; [lia|]. replace (deg + 1 - 1)%nat with deg by lia. auto. }
    rewrite Hm in Eo. rewrite Eo in Ei. injection Ei as <-. exact E.
Qed.

(** The polynomial whose root the challenge of round [i] must be. *)
Definition diff_poly (deg n : nat) (g : list K -> K) (msgs : list (list K)) (rs : list K) (i : nat) (x : K) : K :=
  lagrange (nodes (deg + 1)) (nth i msgs []) x -
  sumn (2 ^ (n - 1 - i)) (fun b => g (firstn i rs ++ x :: bpt (n - 1 - i) b)).

Lemma diff_poly_is_poly deg n g msgs rs i : indiv_deg deg n g -> i < n -> i <= length rs ->
  is_poly deg (diff_poly deg n g msgs rs i).
Proof.
  intros Hg Hi Hr. unfold diff_poly. apply is_poly_sub.
  - eapply is_poly_le; [|apply lagrange_is_poly]. rewrite nodes_length. lia.
  - apply (is_poly_sumn deg _ (fun b x => g (firstn i rs ++ x :: bpt (n - 1 - i) b))). intros b Hb.
    apply Hg. rewrite firstn_length_le, bpt_length by auto. lia.
Qed.

Theorem soundness_det deg : char_gt K deg -> forall msgs rs g claim e,
  indiv_deg deg (length msgs) g ->
  interactive deg claim msgs rs = Some e ->
  claim <> hsum (length msgs) g -> e = g rs ->
  exists i, i < length msgs /\
    (exists x, diff_poly deg (length msgs) g msgs rs i x <> 0) /\
    diff_poly deg (length msgs) g msgs rs i (nth i rs 0) = 0.
Proof.
  intros Hc. induction msgs as [|m ms IH]; intros rs g claim e Hg Hi Hne He.
  - destruct rs as [|r rs]; [|discriminate]. cbn [interactive] in Hi. injection Hi as <-.
    exfalso. apply Hne. rewrite He. unfold hsum. simpl. change (bpt 0 0) with (@nil K). ring.
  - destruct rs as [|r rs]; [discriminate|].
    destruct (interactive_step _ _ _ _ _ _ _ Hc Hi) as (Hm & Hd & Hs & Hi').
    cbn [length] in *.
    set (q := fun x => hsum (length ms) (fun pt => g (x :: pt))).
    assert (Hq0 : forall x, diff_poly deg (S (length ms)) g (m :: ms) (r :: rs) 0 x = msg_poly deg m x - q x).
    { intros x. unfold diff_poly, q, hsum, msg_poly. cbn [nth firstn app].
      replace (S (length ms) - 1 - 0)%nat with (length ms) by lia. reflexivity. }
    destruct (feq_dec (msg_poly deg m r) (q r)) as [Er|Er].
    + exists 0%nat. split; [lia|]. split.
      * destruct (feq_dec (msg_poly deg m 0) (q 0)) as [E0|E0].
        -- exists 1. rewrite Hq0. apply fsub_neq. intros E1. apply Hne.
           rewrite <- Hs, hsum_S, E0, E1. reflexivity.
        -- exists 0. rewrite Hq0. apply fsub_neq. auto.
      * rewrite Hq0. cbn [nth]. rewrite Er. ring.
    + destruct (IH rs (fun pt => g (r :: pt)) (msg_poly deg m r) e) as (i & Hil & Hx & Hr); auto.
      { apply indiv_deg_cons. auto. }
      assert (Hsh : forall x, diff_poly deg (S (length ms)) g (m :: ms) (r :: rs) (S i) x
                   = diff_poly deg (length ms) (fun pt => g (r :: pt)) ms rs i x).
      { intros x. unfold diff_poly. cbn [nth firstn app].
        replace (S (length ms) - 1 - S i)%nat with (length ms - 1 - i)%nat by lia. reflexivity. }
      exists (S i). split; [lia|]. split.
      * destruct Hx as [x Hx]. exists x. rewrite Hsh. auto.
      * rewrite Hsh. auto.
Qed.

(** *** Counting over adaptive strategies *)
Fixpoint vecs {A} (S : list A) (n : nat) : list (list A) :=
  match n with O => [[]] | Datatypes.S n' => flat_map (fun r => map (cons r) (vecs S n')) S end.
Lemma vecs_length {A} (S : list A) n : length (vecs S n) = length S ^ n.
Proof.
  induction n as [|n IH]; [reflexivity|]. cbn [vecs Nat.pow]. rewrite <- IH. generalize (vecs S n) as V. clear.
  intros V. induction S as [|a S IH]; [reflexivity|]. cbn [flat_map]. rewrite app_length, map_length, IH. simpl. lia.
Qed.
Lemma vecs_In {A} (S : list A) n v : In v (vecs S n) <-> length v = n /\ Forall (fun x => In x S) v.
Proof.
  revert v; induction n as [|n IH]; intros v; cbn [vecs].
  - simpl. split; [intros [<-|[]]; auto|]. intros [Hl _]. left. destruct v; [auto|discriminate].
  - rewrite in_flat_map. split.
    + intros (r & Hr & Hv). apply in_map_iff in Hv. destruct Hv as (w & <- & Hw). apply IH in Hw.
      destruct Hw as [Hl Hf]. split; [simpl; lia|constructor; auto].
    + intros [Hl Hf]. destruct v as [|r w]; [discriminate|]. inversion Hf; subst.
      exists r. split; auto. apply in_map_iff. exists w. split; auto. apply IH. split; auto. 
Qed.

(** Messages of an adaptive prover: a function of the challenges received so far. *)
Definition strat_msgs (strat : list K -> list K) (rs : list K) : list (list K) :=
  map (fun i => strat (firstn i rs)) (seq 0 (length rs)).
Lemma strat_msgs_cons strat r rs :
  strat_msgs strat (r :: rs) = strat [] :: strat_msgs (fun l => strat (r :: l)) rs.
Proof.
  unfold strat_msgs. cbn [length seq map firstn]. f_equal.
  rewrite <- seq_shift, map_map. apply map_ext. intros i. reflexivity.
Qed.

Definition fools (deg : nat) (claim : K) (g : list K -> K) (strat : list K -> list K) (rs : list K) : bool :=
  match interactive deg claim (strat_msgs strat rs) rs with
  | Some e => e =? g rs
  | None => false
  end.
Definition nfools deg claim g strat S n := length (filter (fools deg claim g strat) (vecs S n)).

Lemma filter_length_le {A} (f : A -> bool) l : length (filter f l) <= length l.
Proof. induction l as [|a l IH]; simpl; auto. destruct (f a); simpl; lia. Qed.
Lemma filter_map_length {A B} (f : B -> bool) (g : A -> B) l :
  length (filter f (map g l)) = length (filter (fun a => f (g a)) l).
Proof. induction l as [|a l IH]; simpl; auto. destruct (f (g a)); simpl; lia. Qed.
Lemma filter_ext_length {A} (f g : A -> bool) l : (forall a, f a = g a) -> length (filter f l) = length (filter g l).
Proof. intros H. rewrite (filter_ext f g); auto. Qed.

Lemma filter_false_length {A} (l : list A) : length (filter (fun _ => false) l) = 0%nat.
Proof. induction l; auto. Qed.

Lemma fools_count (deg : nat) (S : list K) : char_gt K deg -> NoDup S -> forall n claim g strat,
  indiv_deg deg n g -> claim <> hsum n g ->
  nfools deg claim g strat S n <= n * deg * length S ^ (n - 1).
Proof.
  intros Hc HS. induction n as [|n IH]; intros claim g strat Hg Hne.
  - unfold nfools. cbn [vecs filter]. unfold fools, strat_msgs. cbn [length seq map interactive].
    assert (E : hsum 0 g = g []).
    { unfold hsum. simpl. change (bpt 0 0) with (@nil K). ring. }
    destruct (claim =? g []) eqn:Ec; [|simpl; lia]. apply feqb_true in Ec. exfalso. apply Hne. congruence.
  - unfold nfools. cbn [vecs].
    replace (Datatypes.S n - 1)%nat with n by lia.
    set (m := strat []).
    destruct (match m with a :: b :: _ => if Nat.eqb (length m) (deg + 1) then a + b =? claim else false | _ => false end) eqn:Hok.
    2: { (* first message rejected: nobody is fooled *)
      assert (Hz : forall S', length (filter (fools deg claim g strat) (flat_map (fun r => map (cons r) (vecs S n)) S')) = 0%nat).
      { induction S' as [|r S' IH']; [reflexivity|]. cbn [flat_map]. rewrite filter_app, app_length, IH'.
        rewrite filter_map_length. rewrite Nat.add_0_r.
        rewrite (filter_ext_length _ (fun _ => false)).
        - apply filter_false_length.
        - intros rs. unfold fools. rewrite strat_msgs_cons. fold m. cbn [interactive].
          destruct m as [|a [|b m']]; try (destruct (_ =? deg + 1)%nat; reflexivity).
          destruct (length (a :: b :: m') =? deg + 1)%nat; [|reflexivity]. rewrite Hok. reflexivity. }
      rewrite Hz. lia. }
    (* accepted message *)
    destruct m as [|a [|b m']] eqn:Em; try discriminate. rewrite <- Em in *.
    destruct (Nat.eqb_spec (length m) (deg + 1)) as [Hm|]; [|discriminate].
    set (q := fun x => hsum n (fun pt => g (x :: pt))).
    assert (Hstep : forall r rs, fools deg claim g strat (r :: rs) = true ->
              fools deg (msg_poly deg m r) (fun pt => g (r :: pt)) (fun l => strat (r :: l)) rs = true).
    { intros r rs. unfold fools at 1. rewrite strat_msgs_cons. change (strat []) with m.
      destruct (interactive deg claim (m :: strat_msgs (fun l => strat (r :: l)) rs) (r :: rs)) as [e|] eqn:Ei; [|discriminate].
      intros He. destruct (interactive_step _ _ _ _ _ _ _ Hc Ei) as (_ & _ & _ & Hi).
      unfold fools. rewrite Hi. exact He. }
    assert (Hdeg : 0 < deg) by (rewrite Em in Hm; cbn [length] in Hm; lia).
    assert (Hn : NoDup (nodes (K:=K) (deg + 1))) by (apply nodes_NoDup; replace (deg + 1 - 1)%nat with deg by lia; auto).
    assert (H0 : msg_poly deg m 0 = a).
    { pose proof (lagrange_at (nodes (deg + 1)) m 0 Hn) as H. rewrite nodes_length, nodes_nth in H by lia.
      rewrite Em in H. rewrite Em. apply H. lia. }
    assert (H1 : msg_poly deg m 1 = b).
    { pose proof (lagrange_at (nodes (deg + 1)) m 1 Hn) as H. rewrite nodes_length, nodes_nth in H by lia.
      replace (1 : K) with (fnat 1 : K) by (simpl; ring). rewrite Em in H. rewrite Em. apply H. lia. }
    assert (Hnz : exists x, msg_poly deg m x - q x <> 0).
    { destruct (feq_dec (msg_poly deg m 0) (q 0)) as [E0|E0].
      - exists 1. apply fsub_neq. intros E1. apply Hne. rewrite hsum_S. 
        change (claim = q 0 + q 1). rewrite <- E0, <- E1, H0, H1. symmetry. apply feqb_true. auto.
      - exists 0. apply fsub_neq. auto. }
    assert (Hpoly : is_poly deg (fun x => msg_poly deg m x - q x)).
    { apply is_poly_sub.
      - eapply is_poly_le; [|apply lagrange_is_poly]. rewrite nodes_length. lia.
      - apply indiv_deg_round. auto. }
    set (isroot := fun x => msg_poly deg m x =? q x).
    assert (Hroots : length (filter isroot S) <= deg).
    { apply (is_poly_roots deg (fun x => msg_poly deg m x - q x)); auto.
      - apply NoDup_filter. auto.
      - intros r Hr. apply filter_In in Hr. destruct Hr as [_ Hr]. apply feqb_true in Hr. rewrite Hr. ring. }
    (* sum over the first challenge *)
    assert (Hsum : forall S', length (filter (fools deg claim g strat) (flat_map (fun r => map (cons r) (vecs S n)) S'))
       <= length (filter isroot S') * length S ^ n + length S' * (n * deg * length S ^ (n - 1))).
    { induction S' as [|r S' IH']; [simpl; lia|]. cbn [flat_map]. rewrite filter_app, app_length.
      rewrite filter_map_length. cbn [filter length].
      assert (Hr : length (filter (fun rs => fools deg claim g strat (r :: rs)) (vecs S n)) <=
                   length (filter (fools deg (msg_poly deg m r) (fun pt => g (r :: pt)) (fun l => strat (r :: l))) (vecs S n))).
      { generalize (vecs S n) as V. intros V. induction V as [|v V IHV]; [simpl; lia|]. cbn [filter].
        destruct (fools deg claim g strat (r :: v)) eqn:Ef.
        - rewrite (Hstep _ _ Ef). cbn [length]. lia.
        - destruct (fools deg _ _ _ v); cbn [length]; lia. }
      destruct (isroot r) eqn:Er.
      - cbn [length].
        assert (length (filter (fun rs => fools deg claim g strat (r :: rs)) (vecs S n)) <= length S ^ n)
          by (rewrite <- vecs_length; apply filter_length_le).
        lia.
      - assert (Hb : nfools deg (msg_poly deg m r) (fun pt => g (r :: pt)) (fun l => strat (r :: l)) S n
                     <= n * deg * length S ^ (n - 1)).
        { apply IH; [apply indiv_deg_cons; auto|]. intros E. unfold isroot in Er.
          apply feqb_false in Er. apply Er. exact E. }
        unfold nfools in Hb. lia. }
    specialize (Hsum S).
    assert (Hp : (length S * (n * deg * length S ^ (n - 1)) = n * deg * length S ^ n)%nat).
    { destruct n as [|n']; [lia|]. replace (Datatypes.S n' - 1)%nat with n' by lia.
      rewrite (Nat.pow_succ_r' (length S) n'). ring. }
    assert (Hq : length (filter isroot S) * length S ^ n <= deg * length S ^ n) by (apply Nat.mul_le_mono_r; auto).
    rewrite Hp in Hsum. simpl. lia.
Qed.

(** *** Completeness of the verifier on honest messages *)
(** Specification of the honest prover: messages are the values of the true round polynomials. *)
Fixpoint honest_run (T : @hist K -> K) (d n : nat) (g : list K -> K) (h : hist) : list (list K) * list K * hist :=
  match n with
  | O => ([], [], h)
  | S n' =>
      let m := map (fun t => sumn (2 ^ n') (fun b => g (fnat t :: bpt n' b))) (seq 0 (d + 1)) in
      let '(r, h') := get_challenge T lbl_round (absorb h m) in
      let '(ms, rs, h'') := honest_run T d n' (fun pt => g (r :: pt)) h' in
      (m :: ms, r :: rs, h'')
  end.

Lemma honest_run_length T d : forall n g h, let '(ms, rs, _) := honest_run T d n g h in length ms = n /\ length rs = n.
Proof.
  induction n as [|n IH]; intros g h; [simpl; auto|]. cbn [honest_run].
  destruct (get_challenge T lbl_round _) as [r h']. specialize (IH (fun pt => g (r :: pt)) h').
  destruct (honest_run T d n (fun pt => g (r :: pt)) h') as [[ms rs] h'']. cbn [length]. lia.
Qed.

Lemma honest_fs T d : forall n g h, let '(ms, rs, h') := honest_run T d n g h in fs T h ms = (rs, h').
Proof.
  induction n as [|n IH]; intros g h; [reflexivity|]. cbn [honest_run].
  destruct (get_challenge T lbl_round _) as [r h'] eqn:Eg. specialize (IH (fun pt => g (r :: pt)) h').
  destruct (honest_run T d n (fun pt => g (r :: pt)) h') as [[ms rs] h'']. cbn [fs]. rewrite Eg, IH. reflexivity.
Qed.

Lemma honest_interactive T d : char_gt K d -> 0 < d -> forall n g h, indiv_deg d n g ->
  let '(ms, rs, _) := honest_run T d n g h in
  (forall r, In r rs -> forall i, i <= d -> r <> fnat i) ->
  interactive d (hsum n g) ms rs = Some (g rs).
Proof.
  intros Hc Hd. induction n as [|n IH]; intros g h Hg.
  - cbn [honest_run]. intros _. cbn [interactive]. f_equal. unfold hsum. simpl.
    change (bpt 0 0) with (@nil K). ring.
  - cbn [honest_run]. set (q := fun x => hsum n (fun pt => g (x :: pt))).
    set (m := map _ (seq 0 (d + 1))).
    destruct (get_challenge T lbl_round _) as [r h'] eqn:Eg.
    specialize (IH (fun pt => g (r :: pt)) h' (indiv_deg_cons _ _ _ r Hg)).
    destruct (honest_run T d n (fun pt => g (r :: pt)) h') as [[ms rs] h'']. intros Hr.
    assert (Hml : length m = (d + 1)%nat) by (unfold m; rewrite map_length, seq_length; reflexivity).
    assert (Hmn : forall k, k < d + 1 -> nth k m 0 = q (fnat k)).
    { intros k Hk. unfold m. rewrite nth_map_seq by auto. reflexivity. }
    cbn [interactive]. rewrite Hml, Nat.eqb_refl.
    assert (Hm0 := Hmn 0%nat ltac:(lia)). assert (Hm1 := Hmn 1%nat ltac:(lia)).
    destruct m as [|a [|b m']] eqn:Em; try (cbn [length] in Hml; lia).
    cbn [nth fnat] in Hm0, Hm1.
    assert (Es : a + b =? hsum (S n) g = true).
    { apply feqb_spec. rewrite hsum_S, Hm0, Hm1. unfold q. f_equal. f_equal. replace (0 + 1 : K) with (1 : K) by ring. reflexivity. }
    rewrite Es.
    destruct (interpolate_uni_poly (a :: b :: m') r) as [e|] eqn:Ei.
    + assert (e = q r).
      { apply (interpolate_poly q (a :: b :: m') r); auto.
        - discriminate.
        - rewrite Hml. replace (d + 1 - 1)%nat with d by lia. auto.
        - rewrite Hml. replace (d + 1 - 1)%nat with d by lia. apply indiv_deg_round. auto.
        - rewrite Hml. auto. }
      subst e. cbn [obind]. apply IH. intros r' Hr' i Hi. apply Hr; auto. right; auto.
    + exfalso. apply (proj1 (interpolate_panics_iff (a :: b :: m') r ltac:(discriminate)
         ltac:(rewrite Hml; replace (d + 1 - 1)%nat with d by lia; auto))) in Ei.
      destruct Ei as (i & Hi & Ei). rewrite Hml in Hi. apply (Hr r) with (i := i); auto; [left; auto|lia].
Qed.

Lemma honest_verify (T : @hist K -> K) d n g h ms rs h' pt : char_gt K d -> 0 < d -> 0 < n -> indiv_deg d n g ->
  honest_run T d n g (h_init n d h) = (ms, rs, h') ->
  (forall r, In r rs -> forall i, i <= d -> r <> fnat i) ->
  verify T (hsum n g) (mkProof pt ms) n d h = Some (rs, g rs, h').
Proof.
  intros Hc Hd Hn Hg Eh Hr.
  pose proof (honest_run_length T d n g (h_init n d h)) as Hl.
  pose proof (honest_fs T d n g (h_init n d h)) as Hf.
  pose proof (honest_interactive T d Hc Hd n g (h_init n d h) Hg) as Hi.
  rewrite Eh in *. destruct Hl as [Hl1 Hl2].
  rewrite verify_fs by auto. cbn [pf_proofs]. rewrite Hl1, Nat.leb_refl.
  rewrite (firstn_all2 ms) by lia. cbv zeta. rewrite Hf, Hi by auto. reflexivity.
Qed.
End P.
