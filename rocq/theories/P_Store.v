(** The store: values are stable under guarded histories; what the file cache and races do. *)
From Coq Require Import Ascii String List Arith Lia Bool.
From Verif Require Import ListAux M_Store.
Import ListNotations.

Section P.
Context {V B P : Type} (enc : V -> B) (dec : B -> option V).
Notation prog := (@prog V B P). Notation world := (@world V B P). Notation call := (@call V P). Notation reply := (@reply V P).
Notation step := (@step V B P enc dec). Notation steps := (@steps V B P enc dec).

Lemma steps_app kinds (w : world) ls w' : steps kinds w ls w' -> forall ls2 w2, steps kinds w' ls2 w2 -> steps kinds w (ls ++ ls2) w2.
Proof. induction 1; intros ls2 w2 H2; cbn; auto. econstructor; eauto. Qed.

(** ** No file ever comes into being in a cache *)
Definition nofile (f : @fsys B) : Prop := forall p b, f p <> Some (File b).
Fixpoint shape (p : prog) : Prop :=
  match p with
  | Ret _ => True
  | Do a f => match a with
      | AMkdir q => match f Yes with Do (AWrite q' _) g => q' = q /\ shape (g Err) | _ => False end /\ shape (f Err)
      | AWrite _ _ => False
      | _ => forall r, shape (f r)
      end
  end.
Lemma shape_bind (p : prog) g : shape p -> (forall r, shape (g r)) -> shape (bind p g).
Proof.
  intros Hp Hg. revert p Hp. fix IH 1. intros [r|a f] Hp; cbn [bind]; [apply Hg|]. cbn [shape] in Hp |- *. destruct a; try (intros r; apply IH; apply Hp); [|destruct Hp].
  destruct Hp as [H1 H2]. split; [|apply IH; exact H2].
  destruct (f Yes) as [r|[| | |q b| | |] h] eqn:E; try destruct H1. cbn [bind]. split; [auto|]. apply IH. auto.
Qed.
Lemma shape_to_cache kd k b (p : prog) : shape p -> shape (to_cache kd k b p).
Proof. destruct kd; cbn; auto. Qed.
Lemma shape_from_cache kd k hit (miss : prog) : (forall v, shape (hit v)) -> shape miss -> shape (from_cache dec kd k hit miss).
Proof. intros Hh Hm. destruct kd; cbn; auto. intros [| |b|]; cbn; auto. intros [| |b|]; cbn; auto. destruct (dec b); cbn; auto. Qed.
Lemma shape_get kd k : shape (get_params dec kd k).
Proof. apply shape_from_cache; cbn; auto. intros [| |b|]; cbn; auto. destruct (dec b); [now apply shape_to_cache|exact I]. Qed.
Lemma shape_insert kd k v : shape (insert_params enc kd k v).
Proof.
  destruct kd; cbn.
  - intros [| |b|]; cbn; auto.
  - intros [| |b|]; cbn; auto; intros [| |b'|]; cbn; auto.
  - intros [| |b|]; cbn; auto; intros [| |b'|]; cbn; auto; intros [| |b''|]; cbn; auto.
Qed.
Lemma shape_model kd k i : shape (get_or_init enc dec kd k i).
Proof.
  apply shape_from_cache; cbn; auto. intros [| |b|]; cbn; auto; [|destruct (dec b); [now apply shape_to_cache|exact I]].
  destruct i; [|exact I]. apply shape_to_cache. cbn. intros [| |b|]; cbn; auto.
Qed.
Lemma shape_prog kd c : shape (prog_of enc dec kd c).
Proof.
  destruct c; cbn [prog_of]; auto using shape_get, shape_insert, shape_model. unfold run_model. apply shape_bind; [apply shape_get|]. intros [|o| | |]; cbn; auto.
  apply shape_bind; [apply shape_model|]. intros [| | |m|]; cbn; auto. destruct (gen o m); [|exact I]. destruct o; [destruct (prove v m); exact I|].
  apply shape_bind; [apply shape_insert|]. intros [| | | |]; cbn; auto. destruct (prove v m); exact I.
Qed.
Definition thr_ok (fs : nat -> @fsys B) (t : nat * call * prog) : Prop :=
  shape (snd t) \/ exists q b g, snd t = Do (AWrite q b) g /\ fs (fst (fst t)) q = Some Dir /\ shape (g Err).
Definition winv (w : world) : Prop := (forall p, nofile (w_fs w p)) /\ forall t, In t (w_thr w) -> thr_ok (w_fs w) t.

Definition dirs_le (f f' : @fsys B) : Prop := forall q, f q = Some Dir -> f' q = Some Dir.
Lemma exec_inv a f s r f' s' : exec a (f, s) r (f', s') -> nofile f -> (forall q b, a = AWrite q b -> f q = Some Dir) -> nofile f' /\ dirs_le f f' /\
  (match a with ARead _ | AWrite _ _ => r = Err | _ => True end) /\ (forall q, a = AMkdir q -> r = Yes -> f' q = Some Dir).
Proof.
  intros H. remember (f, s) as w eqn:Ew. remember (f', s') as w' eqn:Ew'.
  destruct H as [a g t|p g t|p g t b Hf|p g t Hf|p g t g' Hf|p b g t Hf|p b b' g t Hf|k g t b Hf|k g t Hf|k g t|k b g t|k b g t]; injection Ew as -> ->; injection Ew' as <- <-; intros Hn Hw;
    try (split; [exact Hn|]; split; [intros q Hq; exact Hq|]; split; [exact I|]; intros; discriminate).
  - split; [exact Hn|]. split; [intros q Hq; exact Hq|]. split; [destruct a; auto|]. intros; discriminate.
  - now apply Hn in Hf.
  - split; [|split; [|split; [exact I|]]].
    + intros q b Hq. unfold set_dirs in Hq. destruct (prefixb q p); [destruct (f q) as [[|b']|] eqn:E; try discriminate; now apply Hn in E|now apply Hn in Hq].
    + intros q Hq. unfold set_dirs. rewrite Hq. destruct (prefixb q p); reflexivity.
    + intros q E _. injection E as ->. unfold set_dirs. assert (Hp : prefixb q q = true) by (clear; induction q as [|x q IH]; cbn; auto; destruct (string_dec x x); auto). rewrite Hp.
      destruct (f q) as [[|b]|] eqn:E; auto. now apply Hn in E.
  - split; [|split; [|split; [exact I|intros; discriminate]]].
    + intros q b Hq. destruct (Hf q) as [Hq'|[_ Hq']]; rewrite Hq' in Hq; [now apply Hn in Hq|discriminate].
    + intros q Hq. destruct (Hf q) as [Hq'|[Hq' _]]; congruence.
  - exfalso. apply Hf. now apply (Hw p b).
  - exfalso. apply Hf. now apply (Hw p b).
Qed.

Lemma set_fs_eq fs p (f : @fsys B) : set_fs fs p f p = f.
Proof. unfold set_fs. now destruct (Nat.eq_dec p p). Qed.
Lemma set_fs_neq fs p q (f : @fsys B) : q <> p -> set_fs fs p f q = fs q.
Proof. unfold set_fs. now destruct (Nat.eq_dec q p). Qed.
Lemma thr_ok_mono fs fs' t : (forall p, dirs_le (fs p) (fs' p)) -> thr_ok fs t -> thr_ok fs' t.
Proof. intros H [Ht|(q & b & g & E & D & G)]; [now left|]. right. exists q, b, g. split; auto. split; auto. now apply H. Qed.

(** What the file system can answer to a thread of a world satisfying the invariant. *)
Lemma thr_exec fs (p : nat) (c : call) a f r s fs' s' : (forall p, nofile (fs p)) -> thr_ok fs (p, c, Do a f) -> exec a (fs p, s) r (fs', s') ->
  nofile fs' /\ dirs_le (fs p) fs' /\ (match a with ARead _ | AWrite _ _ => r = Err | _ => True end) /\ thr_ok (set_fs fs p fs') (p, c, f r).
Proof.
  intros Hn Ht Hx. assert (Hw : forall q b, a = AWrite q b -> fs p q = Some Dir).
  { intros q b ->. destruct Ht as [Ht|(q' & b' & g & E & D & _)]; [destruct Ht|]. cbn in E, D. injection E as -> -> ->. exact D. }
  destruct (exec_inv a (fs p) s r fs' s' Hx (Hn p) Hw) as (N & D & A & M). split; [exact N|]. split; [exact D|]. split; [exact A|].
  destruct Ht as [Ht|(q & b & g & E & D' & G)]; cbn [snd fst] in *.
  - cbn [shape] in Ht. destruct a as [q|q|q|q b|q|q|q b]; try (left; apply Ht).
    + destruct Ht as [H1 H2]. assert (Hr : r = Yes \/ r = Err) by (inversion Hx; subst; auto). destruct Hr as [->| ->]; [|left; exact H2].
      destruct (f Yes) as [|[| | |q' b'| | |] g] eqn:Ef; try (destruct H1; fail). destruct H1 as [-> H1]. right. exists q, b', g. cbn [snd fst]. split; [first [exact Ef|reflexivity]|]. split; [|exact H1]. rewrite set_fs_eq. now apply M.
    + destruct Ht.
  - injection E as -> ->. cbn in A. subst r. left. exact G.
Qed.
Lemma step_winv kinds l w w' : step kinds l w w' -> winv w -> winv w'.
Proof.
  intros H [Hn Ht]. destruct H as [p c w|p c a f r t1 t2 fs s log fs' s' Hx|p c r t1 t2 fs s log|p w]; cbn [w_fs w_thr] in *.
  - split; [exact Hn|]. intros t [<-|Hin]; [left; apply shape_prog|now apply Ht].
  - destruct (thr_exec fs p c a f r s fs' s' Hn (Ht _ ltac:(apply in_or_app; right; left; reflexivity)) Hx) as (N & D & _ & T). split.
    + intros q. cbn [w_fs]. unfold set_fs. destruct (Nat.eq_dec q p); auto.
    + assert (Dl : forall q, dirs_le (fs q) (set_fs fs p fs' q)) by (intros q; unfold set_fs; destruct (Nat.eq_dec q p) as [->|]; [exact D|intros x Hx0; exact Hx0]).
      intros t Hin. apply in_app_or in Hin. cbn [w_fs]. destruct Hin as [Hin|[<-|Hin]]; [|exact T|]; (apply (thr_ok_mono fs); [exact Dl|]); apply Ht; apply in_or_app; [left; auto|right; right; auto].
  - split; [exact Hn|]. intros t Hin. apply Ht. apply in_app_or in Hin. apply in_or_app. destruct Hin; [left|right; right]; auto.
  - split.
    + intros q. cbn [w_fs]. unfold set_fs. destruct (Nat.eq_dec q p); auto. intros [|x r] b; discriminate.
    + intros t Hin. apply filter_In in Hin as [Hin Hp]. apply negb_true_iff, Nat.eqb_neq in Hp. destruct (Ht t Hin) as [A|(q & b & g & E & D & G)]; [now left|]. right. exists q, b, g.
      cbn [w_fs]. rewrite set_fs_neq by auto. auto.
Qed.
Lemma steps_winv kinds w ls w' : steps kinds w ls w' -> winv w -> winv w'.
Proof. induction 1; auto. intros Hw. apply IHsteps. eapply step_winv; eauto. Qed.
Lemma init_winv s : winv (@init_world V B P s).
Proof. split; [intros p [|x r] b; discriminate|intros t []]. Qed.

(** ** Weakest preconditions of programs *)
Section WP.
Variables (A : @action B -> @answer B -> Prop) (Pre : @action B -> Prop).
Fixpoint wp (Q : reply -> Prop) (p : prog) : Prop :=
  match p with Ret r => Q r | Do a f => Pre a /\ forall r : @answer B, A a r -> wp Q (f r) end.
Lemma wp_bind Q R (p : prog) g : wp Q p -> (forall r, Q r -> wp R (g r)) -> wp R (bind p g).
Proof. intros Hp Hg. induction p as [r|a f IH]; cbn in *; [auto|]. destruct Hp as [H1 H2]. split; auto. Qed.
Lemma wp_mono (Q R : reply -> Prop) (p : prog) : (forall r, Q r -> R r) -> wp Q p -> wp R p.
Proof. intros HQ. induction p as [r|a f IH]; cbn; auto. intros [H1 H2]. auto. Qed.
End WP.

(** ** The cache never serves a value *)
Definition cA (a : @action B) (r : @answer B) : Prop := match a with ARead _ | AWrite _ _ => r = Err | _ => True end.
Definition cQ (c : call) (r : reply) : Prop :=
  match c with CGet _ => r = Fail \/ r = Params None | CInsert _ _ => r = Fail \/ r = Done | _ => r = Fail end.
Ltac cw := repeat first [exact I | reflexivity | left; reflexivity | right; reflexivity | split; [exact I|]
  | match goal with
    | |- forall r : answer, _ -> _ => let HA := fresh "HA" in intros [| |?b|] HA; cbn in HA |- *; try discriminate HA
    | |- context [dec ?b] => destruct (dec b); cbn end].
Lemma cwp_get k : wp cA (fun _ => True) (cQ (CGet k)) (get_params dec S3Cached k).
Proof. cbn. cw. Qed.
Lemma cwp_model k i : wp cA (fun _ => True) (cQ (CModel k i)) (get_or_init enc dec S3Cached k i).
Proof. destruct i; cbn; cw. Qed.
Lemma cwp_insert k v : wp cA (fun _ => True) (cQ (CInsert k v)) (insert_params enc S3Cached k v).
Proof. cbn. cw. Qed.
Lemma cwp_prog c : wp cA (fun _ => True) (cQ c) (prog_of enc dec S3Cached c).
Proof.
  destruct c; [apply cwp_get|apply cwp_insert|apply cwp_model|]. cbn [prog_of]. unfold run_model. eapply wp_bind; [apply (cwp_get pk)|]. intros r [->| ->]; [reflexivity|]. cbv beta iota.
  eapply wp_bind; [apply (cwp_model mk init)|]. intros r ->. reflexivity.
Qed.

Definition cinv (kinds : nat -> kind) (w : world) : Prop :=
  (forall p c pr, In (p, c, pr) (w_thr w) -> kinds p = S3Cached -> wp cA (fun _ => True) (cQ c) pr) /\
  (forall p c r, In (p, c, r) (w_log w) -> kinds p = S3Cached -> cQ c r).
Lemma step_cinv kinds l w w' : step kinds l w w' -> winv w -> cinv kinds w -> cinv kinds w'.
Proof.
  intros H [Hn Ht] [C1 C2]. destruct H as [p c w|p c a f r t1 t2 fs s log fs' s' Hx|p c r t1 t2 fs s log|p w]; cbn [w_fs w_thr w_log] in *.
  - split; [|exact C2]. intros p' c' pr [E|Hin] Hk; [|eapply C1; eauto]. injection E as <- <- <-. rewrite Hk. apply cwp_prog.
  - split; [|exact C2]. intros p' c' pr Hin Hk. apply in_app_or in Hin. destruct Hin as [Hin|[E|Hin]]; [|injection E as <- <- <-|]; try (eapply C1; eauto; apply in_or_app; auto; right; right; auto; fail).
    assert (Hin : In (p, c, Do a f) (t1 ++ (p, c, Do a f) :: t2)) by (apply in_or_app; right; left; reflexivity).
    destruct (thr_exec fs p c a f r s fs' s' Hn (Ht _ Hin) Hx) as (_ & _ & HA & _). specialize (C1 _ _ _ Hin Hk). cbn [wp] in C1. destruct C1 as [_ C1]. apply C1. destruct a; auto.
  - split.
    + intros p' c' pr Hin Hk. eapply C1; eauto. apply in_app_or in Hin. apply in_or_app. destruct Hin; [left|right; right]; auto.
    + intros p' c' r' [E|Hin] Hk; [|eapply C2; eauto]. injection E as <- <- <-. assert (Hin : In (p, c, Ret r) (t1 ++ (p, c, Ret r) :: t2)) by (apply in_or_app; right; left; reflexivity).
      exact (C1 _ _ _ Hin Hk).
  - split; [|exact C2]. intros p' c' pr Hin Hk. apply filter_In in Hin as [Hin _]. eapply C1; eauto.
Qed.
Lemma cache_serves_nothing kinds s ls w : steps kinds (init_world s) ls w -> forall p c r, In (p, c, r) (w_log w) -> kinds p = S3Cached ->
  match c with CGet _ => r = Fail \/ r = Params None | CInsert _ _ => r = Fail \/ r = Done | CModel _ _ | CRun _ _ _ _ _ => r = Fail end.
Proof.
  intros H. assert (G : winv (@init_world V B P s) -> cinv kinds (@init_world V B P s) -> cinv kinds w).
  { induction H as [|w0 l w1 ls w2 H1 H2 IH]; auto. intros Hw Hc. apply IH; [eapply step_winv; eauto|eapply step_cinv; eauto]. }
  intros p c r Hin Hk. destruct G as [_ G]; [apply init_winv|split; intros; contradiction|]. specialize (G p c r Hin Hk). destruct c; exact G.
Qed.

(** ** A stored value stays *)
Definition sA (E : Prop) (k : path) (b : B) (a : @action B) (r : @answer B) : Prop :=
  match a with ARead _ | AWrite _ _ => r = Err | AHead k' => k' = k -> r = Yes | AGet k' => k' = k -> r = Data b \/ (r = Err /\ E) | _ => True end.
Definition sPre (k : path) (a : @action B) : Prop := match a with APut k' _ => k' <> k | _ => True end.
Definition sQ (E : Prop) (k : path) (v : V) (c : call) (r : reply) : Prop :=
  match c with
  | CGet k' => k' = k -> r = Params (Some v) \/ (r = Fail /\ E)
  | CInsert k' _ => k' = k -> r = Fail
  | CModel k' _ => k' = k -> r = Value v \/ (r = Fail /\ E)
  | CRun _ _ _ _ _ => True end.
Hypothesis dec_enc : forall v, dec (enc v) = Some v.
Lemma dec_same (E : Prop) (k k' : path) v b : (k' = k -> @Data B b = Data (enc v) \/ (@Data B b = Err /\ E)) -> k' = k -> dec b = Some v.
Proof. intros Hb X. destruct (Hb X) as [Y|[Y _]]; [|discriminate Y]. injection Y as ->. apply dec_enc. Qed.
Lemma swp_get (E : Prop) kd k v k' : (kd = S3Cached -> E) -> wp (sA E k (enc v)) (sPre k) (sQ E k v (CGet k')) (get_params dec kd k').
Proof.
  intros HE.
  assert (G : wp (sA E k (enc v)) (sPre k) (sQ E k v (CGet k')) (Do (AGet k') (fun r => match r with Data b => match dec b with Some v => to_cache kd k' b (Ret (Params (Some v))) | None => Ret Fail end | No => Ret (Params None) | _ => Ret Fail end))).
  { cbn. split; [exact I|]. intros [| |b|] HA; cbn; auto.
    - intros X. destruct (HA X) as [Y|[Y _]]; discriminate Y.
    - intros X. destruct (HA X) as [Y|[Y _]]; discriminate Y.
    - pose proof (dec_same E k k' v b HA) as D. destruct (dec b) as [v'|] eqn:Ev; cbn; [|intros X; discriminate (D X)].
      assert (Q : k' = k -> @Params V P (Some v') = Params (Some v) \/ (@Params V P (Some v') = Fail /\ E)) by (intros X; left; specialize (D X); now injection D as ->).
      destruct kd; cbn; auto. split; [exact I|]. intros [| |b'|] _; cbn; auto. split; [exact I|]. intros r ->. cbn. auto.
    - intros X. destruct (HA X) as [Y|[_ Y]]; [discriminate Y|auto]. }
  destruct kd; [exact G|exact G|]. cbn [get_params from_cache wp]. split; [exact I|]. intros [| |b|] _; [|exact G|cbn; auto|cbn; auto]. cbn. split; [exact I|]. intros r ->. cbn. auto.
Qed.
Lemma swp_model (E : Prop) kd k v k' i : (kd = S3Cached -> E) -> wp (sA E k (enc v)) (sPre k) (sQ E k v (CModel k' i)) (get_or_init enc dec kd k' i).
Proof.
  intros HE.
  assert (G : wp (sA E k (enc v)) (sPre k) (sQ E k v (CModel k' i)) (Do (AGet k') (fun r => match r with
      | Data b => match dec b with Some v => to_cache kd k' b (Ret (Value v)) | None => Ret Fail end
      | No => match i with Some v => to_cache kd k' (enc v) (Do (APut k' (enc v)) (fun r => match r with Yes => Ret (Value v) | _ => Ret Fail end)) | None => Ret Fail end
      | _ => Ret Fail end))).
  { cbn. split; [exact I|]. intros [| |b|] HA; cbn; auto.
    - intros X. destruct (HA X) as [Y|[Y _]]; discriminate Y.
    - assert (Nk : k' <> k) by (intros X; destruct (HA X) as [Y|[Y _]]; discriminate Y). destruct i as [vi|]; cbn; [|intros X; contradiction].
      assert (G : wp (sA E k (enc v)) (sPre k) (sQ E k v (CModel k' (Some vi))) (Do (APut k' (enc vi)) (fun r => match r with Yes => Ret (Value vi) | _ => Ret Fail end))).
      { cbn. split; [exact Nk|]. intros [| |b'|] _; cbn; intros X; contradiction. }
      destruct kd; auto. cbn [to_cache wp]. split; [exact I|]. intros [| |b'|] _; cbn; auto. split; [exact I|]. intros r ->. cbn. auto.
    - pose proof (dec_same E k k' v b HA) as D. destruct (dec b) as [v'|] eqn:Ev; cbn; [|intros X; discriminate (D X)].
      assert (Q : k' = k -> @Value V P v' = Value v \/ (@Value V P v' = Fail /\ E)) by (intros X; left; specialize (D X); now injection D as ->).
      destruct kd; cbn; auto. split; [exact I|]. intros [| |b'|] _; cbn; auto. split; [exact I|]. intros r ->. cbn. auto.
    - intros X. destruct (HA X) as [Y|[_ Y]]; [discriminate Y|auto]. }
  destruct kd; [exact G|exact G|]. cbn [get_or_init from_cache wp]. split; [exact I|]. intros [| |b|] _; [|exact G|cbn; auto|cbn; auto]. cbn. split; [exact I|]. intros r ->. cbn. auto.
Qed.
Lemma swp_insert (E : Prop) kd k v k' v' : (kd = Mem -> k' <> k) -> wp (sA E k (enc v)) (sPre k) (sQ E k v (CInsert k' v')) (insert_params enc kd k' v').
Proof.
  intros Hk. set (put := Do (APut k' (enc v')) (fun r => match r with Yes => Ret Done | _ => Ret Fail end) : prog).
  assert (G : k' <> k -> wp (sA E k (enc v)) (sPre k) (sQ E k v (CInsert k' v')) put) by (intros N; cbn; split; [exact N|]; intros [| |b|] _; cbn; auto; intros X; contradiction).
  assert (G2 : wp (sA E k (enc v)) (sPre k) (sQ E k v (CInsert k' v')) (Do (AHead k') (fun r => match r with Yes => Ret Fail | _ => put end))).
  { cbn [wp]. split; [exact I|]. intros r HA. destruct (path_eq k' k) as [X|N]; [|destruct r; auto; cbn; auto]. assert (r = Yes) by now apply HA. subst r. cbn. auto. }
  destruct kd; cbn [insert_params]; fold put; auto. cbn [wp]. split; [exact I|]. intros [| |b|] _; auto; try (cbn; auto; fail). cbn [to_cache wp]. split; [exact I|].
  intros [| |b'|] _; cbn; auto. split; [exact I|]. intros r ->. cbn. auto.
Qed.
Definition mem_insert (kinds : nat -> kind) (k : path) (l : @label V B P) : Prop :=
  match l with LStart p (CInsert k' _) => kinds p = Mem /\ k' = k | LStart p (CRun pk _ _ _ _) => kinds p = Mem /\ pk = k | _ => False end.
Definition head_err (k : path) (l : @label V B P) : Prop := match l with LAct _ _ (AHead k') Err => k' = k | _ => False end.
Lemma swp_prog (E : Prop) kd k v c p kinds : kinds p = kd -> (kd = S3Cached -> E) -> ~ mem_insert kinds k (LStart p c) -> wp (sA E k (enc v)) (sPre k) (sQ E k v c) (prog_of enc dec kd c).
Proof.
  intros Hk HE Hm. destruct c as [k'|k' v'|k' i|pk mk i g pr]; [now apply swp_get|apply swp_insert|now apply swp_model|].
  { intros X N. apply Hm. cbn. rewrite Hk. auto. }
  cbn [prog_of]. unfold run_model. eapply wp_bind; [apply (swp_get E kd k v pk HE)|]. intros [|o| | |] Hr; try exact I; cbv beta iota. eapply wp_bind; [apply (swp_model E kd k v mk i HE)|].
  intros [| | |m|] Hr2; try exact I; cbv beta iota. destruct (g o m) as [pp|]; [|exact I]. destruct o as [o|]; [destruct (pr pp m); exact I|].
  assert (N : pk <> k) by (intros X; destruct (Hr X) as [Y|[Y _]]; discriminate Y). eapply wp_bind; [apply (swp_insert E kd k v pk pp); auto|]. intros [| | | |] _; try exact I; cbv beta iota. destruct (pr pp m); exact I.
Qed.
Definition sinv (E : nat -> Prop) (k : path) (v : V) (old : list (nat * call * reply)) (w : world) : Prop :=
  w_s3 w k = Some (enc v) /\ (forall p c pr, In (p, c, pr) (w_thr w) -> wp (sA (E p) k (enc v)) (sPre k) (sQ (E p) k v c) pr) /\
  exists new, w_log w = new ++ old /\ forall p c r, In (p, c, r) new -> sQ (E p) k v c r.
Lemma step_sinv (E : nat -> Prop) kinds k v old l w w' : step kinds l w w' -> ~ mem_insert kinds k l -> ~ head_err k l -> (forall p, kinds p = S3Cached -> E p) ->
  (forall p c a, l = LAct p c a Err -> E p) -> winv w -> sinv E k v old w -> sinv E k v old w'.
Proof.
  intros H Hm He HE1 HE2 [Hn Ht] (C0 & C1 & new & El & C2). destruct H as [p c w|p c a f r t1 t2 fs s log fs' s' Hx|p c r t1 t2 fs s log|p w]; cbn [w_fs w_thr w_log w_s3] in *.
  - split; [exact C0|]. split; [|exists new; auto]. intros p' c' pr [X|Hin]; [|eapply C1; eauto]. injection X as <- <- <-. apply (swp_prog (E p) (kinds p) k v c p kinds); auto.
  - assert (Hin : In (p, c, Do a f) (t1 ++ (p, c, Do a f) :: t2)) by (apply in_or_app; right; left; reflexivity).
    destruct (thr_exec fs p c a f r s fs' s' Hn (Ht _ Hin) Hx) as (_ & _ & HA & _). pose proof (C1 _ _ _ Hin) as C1'. cbn [wp] in C1'. destruct C1' as [P1 C1'].
    assert (HA' : sA (E p) k (enc v) a r).
    { destruct a as [q|q|q|q b|q|q|q b]; cbn in HA |- *; auto.
      - intros ->. inversion Hx; subst; auto; [right; split; eauto|left; congruence|congruence].
      - intros ->. inversion Hx; subst; [exfalso; apply He; reflexivity|]. now rewrite C0. }
    split; [|split; [|exists new; auto]]; cbn [w_s3 w_thr].
    + destruct a as [q|q|q|q b|q|q|q b]; inversion Hx; subst; auto; unfold set_key; destruct (path_eq k q) as [->|]; auto; exfalso; now apply P1.
    + intros p' c' pr Hin'. apply in_app_or in Hin'. destruct Hin' as [Hin'|[X|Hin']]; [|injection X as <- <- <-; apply C1'; exact HA'|]; eapply C1; apply in_or_app; [left|right; right]; eauto.
  - assert (Hin : In (p, c, Ret r) (t1 ++ (p, c, Ret r) :: t2)) by (apply in_or_app; right; left; reflexivity). pose proof (C1 _ _ _ Hin) as C1'. cbn [wp] in C1'.
    split; [exact C0|]. split.
    + intros p' c' pr Hin'. eapply C1. apply in_app_or in Hin'. apply in_or_app. destruct Hin'; [left|right; right]; eauto.
    + exists ((p, c, r) :: new). split; [cbn; now rewrite El|]. intros p' c' r' [X|Hin']; [injection X as <- <- <-; exact C1'|eapply C2; eauto].
  - split; [exact C0|]. split; [|exists new; auto]. intros p' c' pr Hin'. apply filter_In in Hin' as [Hin' _]. eapply C1; eauto.
Qed.

(** Programs of calls that do not touch [k], at any point of their execution, never put [k]. *)
Definition pA (a : @action B) (r : @answer B) : Prop := True.
Definition avoids (k : path) (a : @action B) : Prop := match a with APut k' _ | AHead k' | AGet k' => k' <> k | _ => True end.
Ltac pa := try (split; [exact I|]); intros [| |?b|] _; cbn; auto.
Lemma pwp_to_cache kd k k' b (p : prog) : wp pA (avoids k) (fun _ => True) p -> wp pA (avoids k) (fun _ => True) (to_cache kd k' b p).
Proof. destruct kd; auto. cbn. intros Hp. pa. pa. Qed.
Lemma pwp_from_cache kd k k' hit (miss : prog) : (forall v, wp pA (avoids k) (fun _ => True) (hit v)) -> wp pA (avoids k) (fun _ => True) miss -> wp pA (avoids k) (fun _ => True) (from_cache dec kd k' hit miss).
Proof. destruct kd; auto. cbn. intros Hh Hm. pa. pa. destruct (dec b); cbn; auto. Qed.
Lemma pwp_get kd k k' : k' <> k -> wp pA (avoids k) (fun _ => True) (get_params dec kd k').
Proof. intros N. apply pwp_from_cache; cbn; auto. split; [exact N|]. intros [| |b|] _; cbn; auto. destruct (dec b); [apply pwp_to_cache|]; cbn; auto. Qed.
Lemma pwp_model kd k k' i : k' <> k -> wp pA (avoids k) (fun _ => True) (get_or_init enc dec kd k' i).
Proof.
  intros N. apply pwp_from_cache; cbn; auto. split; [exact N|]. intros [| |b|] _; cbn; auto; [|destruct (dec b); [apply pwp_to_cache|]; cbn; auto].
  destruct i; [apply pwp_to_cache|]; cbn; auto. split; [exact N|]. intros [| |b|] _; cbn; auto.
Qed.
Lemma pwp_insert kd k k' v : k' <> k -> wp pA (avoids k) (fun _ => True) (insert_params enc kd k' v).
Proof.
  intros N. set (put := Do (APut k' (enc v)) (fun r => match r with Yes => Ret Done | _ => Ret Fail end) : prog).
  assert (G : wp pA (avoids k) (fun _ => True) put) by (cbn; split; [exact N|]; intros [| |b|] _; cbn; auto).
  assert (G2 : wp pA (avoids k) (fun _ => True) (Do (AHead k') (fun r => match r with Yes => Ret Fail | _ => put end))) by (cbn [wp]; split; [exact N|]; intros [| |b|] _; cbn; auto).
  destruct kd; cbn [insert_params]; fold put; auto. cbn [wp]. split; [exact I|]. intros [| |b|] _; try (cbn; auto; fail); auto. apply pwp_to_cache. exact G2.
Qed.
Lemma pwp_prog kd k c : ~ touches c k -> wp pA (avoids k) (fun _ => True) (prog_of enc dec kd c).
Proof.
  destruct c as [k'|k' v|k' i|pk mk i g pr]; cbn [touches]; intros N; [now apply pwp_get|now apply pwp_insert|now apply pwp_model|]. cbn [prog_of]. unfold run_model.
  eapply wp_bind; [apply pwp_get; tauto|]. intros [|o| | |] _; try exact I; cbv beta iota. eapply wp_bind; [apply pwp_model; tauto|]. intros [| | |m|] _; try exact I; cbv beta iota. destruct (g o m) as [pp|]; [|exact I].
  destruct o; [destruct (pr pp m); exact I|]. eapply wp_bind; [apply pwp_insert; tauto|]. intros [| | | |] _; try exact I; cbv beta iota. destruct (pr pp m); exact I.
Qed.
Definition tinv (w : world) : Prop := forall k p c pr, In (p, c, pr) (w_thr w) -> ~ touches c k -> wp pA (avoids k) (fun _ => True) pr.
Lemma step_tinv kinds l w w' : step kinds l w w' -> tinv w -> tinv w'.
Proof.
  intros H C1. destruct H as [p c w|p c a f r t1 t2 fs s log fs' s' Hx|p c r t1 t2 fs s log|p w]; intros k p' c' pr Hin N; unfold tinv in C1; cbn [w_thr] in *.
  - destruct Hin as [E|Hin]; [|eapply C1; eauto]. injection E as <- <- <-. now apply pwp_prog.
  - apply in_app_or in Hin. destruct Hin as [Hin|[E|Hin]]; [|injection E as <- <- <-|].
    + apply (C1 k p' c' pr); [apply in_or_app; left; exact Hin|exact N].
    + specialize (C1 k p c (Do a f) ltac:(apply in_or_app; right; left; reflexivity) N). cbn [wp] in C1. apply C1. exact I.
    + apply (C1 k p' c' pr); [apply in_or_app; right; right; exact Hin|exact N].
  - apply (C1 k p' c' pr); [|exact N]. apply in_app_or in Hin. apply in_or_app. destruct Hin; [left|right; right]; auto.
  - apply filter_In in Hin as [Hin _]. eapply C1; eauto.
Qed.
Lemma avoids_safe (E : Prop) k b c v (pr : prog) : (forall r, sQ E k v c r) -> wp pA (avoids k) (fun _ => True) pr -> wp (sA E k b) (sPre k) (sQ E k v c) pr.
Proof. intros HQ. induction pr as [r|a f IH]; cbn; auto. intros [H1 H2]. split; [destruct a; cbn in *; auto|]. intros r _. apply IH, H2. exact I. Qed.

Lemma store_stable kinds s ls0 w k v ls w' : steps kinds (init_world s) ls0 w -> w_s3 w k = Some (enc v) ->
  (forall p c pr, In (p, c, pr) (w_thr w) -> ~ touches c k) ->
  steps kinds w ls w' -> (forall l, In l ls -> ~ mem_insert kinds k l /\ ~ head_err k l) ->
  w_s3 w' k = Some (enc v) /\ exists new, w_log w' = new ++ w_log w /\ forall p c r, In (p, c, r) new ->
    let excused := kinds p = S3Cached \/ exists c' a, In (LAct p c' a Err) ls in
    match c with
    | CGet k' => k' = k -> r = Params (Some v) \/ (r = Fail /\ excused)
    | CInsert k' _ => k' = k -> r = Fail
    | CModel k' _ => k' = k -> r = Value v \/ (r = Fail /\ excused)
    | CRun _ _ _ _ _ => True end.
Proof.
  intros H0 Hs Hq H1 Hl. assert (W : winv w) by (eapply steps_winv; eauto using init_winv).
  assert (Tv : tinv w). { assert (X : tinv (@init_world V B P s)) by (intros k0 p c pr []). clear - H0 X. induction H0; auto. apply IHsteps. eapply step_tinv; eauto. }
  set (E := fun p => kinds p = S3Cached \/ exists c' a, In (LAct p c' a Err) ls).
  assert (S0 : sinv E k v (w_log w) w).
  { split; [exact Hs|]. split; [|exists []; split; [reflexivity|intros p c r []]]. intros p c pr Hin. pose proof (Hq _ _ _ Hin) as N. apply avoids_safe; [|eapply Tv; eauto].
    intros r. destruct c; cbn in *; auto; intros X; now elim N. }
  assert (S1 : sinv E k v (w_log w) w').
  { assert (HE1 : forall p, kinds p = S3Cached -> E p) by (intros p Hp; now left). assert (HE2 : forall p c a, In (LAct p c a Err) ls -> E p) by (intros p c a Hin; right; eauto).
    clear - dec_enc H1 Hl W S0 HE1 HE2. clearbody E. revert W S0. set (old := w_log w). clearbody old. induction H1 as [|w0 l w1 ls w2 H1 H2 IH]; auto. intros W S0. destruct (Hl l) as [M1 M2]; [left; reflexivity|]. apply IH.
    - intros l' Hl'. apply Hl. now right.
    - intros p c a Hin. apply (HE2 p c a). now right.
    - eapply step_winv; eauto.
    - eapply step_sinv; eauto. intros p c a X. apply (HE2 p c a). left. auto. }
  destruct S1 as (E1 & _ & new & En & Q). split; [exact E1|]. exists new. split; [exact En|]. intros p c r Hin. specialize (Q p c r Hin). destruct c; exact Q.
Qed.

(** ** Where stored values come from *)
Definition src (c : call) (k : path) (b : B) : Prop :=
  match c with
  | CGet _ => False
  | CInsert k' v => k' = k /\ b = enc v
  | CModel k' i => k' = k /\ exists v, i = Some v /\ b = enc v
  | CRun pk mk i g _ => (pk = k /\ exists o m v, g o m = Some v /\ b = enc v) \/ (mk = k /\ exists v, i = Some v /\ b = enc v) end.
Definition oPre (R : path -> B -> Prop) (a : @action B) : Prop := match a with APut k b => R k b | _ => True end.
Definition oT (R : path -> B -> Prop) := wp pA (oPre R) (fun _ => True).
Lemma owp_to_cache (R : path -> B -> Prop) kd k' b (p : prog) : oT R p -> oT R (to_cache kd k' b p).
Proof. destruct kd; auto. cbn. intros Hp. pa. pa. Qed.
Lemma owp_from_cache (R : path -> B -> Prop) kd k' hit (miss : prog) : (forall v, oT R (hit v)) -> oT R miss -> oT R (from_cache dec kd k' hit miss).
Proof. destruct kd; auto. cbn. intros Hh Hm. pa. pa. destruct (dec b); cbn; auto. Qed.
Lemma owp_get R kd k : oT R (get_params dec kd k).
Proof. apply owp_from_cache; [intros v; exact I|]. split; [exact I|]. intros [| |b|] _; cbn; auto. destruct (dec b); [apply owp_to_cache|]; exact I. Qed.
Lemma owp_model (R : path -> B -> Prop) kd k i : (forall v, i = Some v -> R k (enc v)) -> oT R (get_or_init enc dec kd k i).
Proof.
  intros HR. apply owp_from_cache; [intros v; exact I|]. split; [exact I|]. intros [| |b|] _; try exact I; [|destruct (dec b); [apply owp_to_cache|]; exact I].
  destruct i; [apply owp_to_cache|exact I]. split; [now apply HR|]. intros [| |b|] _; exact I.
Qed.
Lemma owp_insert (R : path -> B -> Prop) kd k v : R k (enc v) -> oT R (insert_params enc kd k v).
Proof.
  intros HR. set (put := Do (APut k (enc v)) (fun r => match r with Yes => Ret Done | _ => Ret Fail end) : prog).
  assert (G : oT R put) by (split; [exact HR|]; intros [| |b|] _; exact I).
  assert (G2 : oT R (Do (AHead k) (fun r => match r with Yes => Ret Fail | _ => put end))) by (split; [exact I|]; intros [| |b|] _; auto; exact I).
  destruct kd; cbn [insert_params]; fold put; auto. split; [exact I|]. intros [| |b|] _; try exact I; auto. apply owp_to_cache. exact G2.
Qed.
Lemma owp_prog kd c : oT (src c) (prog_of enc dec kd c).
Proof.
  destruct c as [k|k v|k i|pk mk i g pr]; cbn [prog_of]; [apply owp_get|apply owp_insert; cbn; auto|apply owp_model; cbn; eauto|]. unfold run_model.
  eapply wp_bind; [apply owp_get|]. intros [|o| | |] _; try exact I; cbv beta iota. eapply wp_bind; [apply owp_model; cbn; eauto|].
  intros [| | |m|] _; try exact I; cbv beta iota. destruct (g o m) as [pp|] eqn:Eg; [|exact I]. destruct o; [destruct (pr pp m); exact I|].
  eapply wp_bind; [apply owp_insert; cbn; left; eauto 8|]. intros [| | | |] _; try exact I; cbv beta iota. destruct (pr pp m); exact I.
Qed.
Lemma exec_put (a : @action B) f s r f' s' k b : exec a (f, s) r (f', s') -> s' k = Some b -> s k = Some b \/ a = APut k b.
Proof.
  intros H. remember (f, s) as w eqn:Ew. remember (f', s') as w' eqn:Ew'.
  destruct H; injection Ew as -> ->; injection Ew' as <- <-; auto; unfold set_key; destruct (path_eq k k0) as [->|]; auto; intros X; injection X as ->; auto.
Qed.
Lemma store_provenance kinds s ls w k b : steps kinds (init_world s) ls w -> w_s3 w k = Some b ->
  s k = Some b \/ exists p c, In (LStart p c) ls /\ match c with
    | CGet _ => False
    | CInsert k' v => k' = k /\ b = enc v
    | CModel k' i => k' = k /\ exists v, i = Some v /\ b = enc v
    | CRun pk mk i g _ => (pk = k /\ exists o m v, g o m = Some v /\ b = enc v) \/ (mk = k /\ exists v, i = Some v /\ b = enc v) end.
Proof.
  intros H. set (pinv := fun (done : list (@label V B P)) (w : world) =>
    (forall k b, w_s3 w k = Some b -> s k = Some b \/ exists p c, In (LStart p c) done /\ src c k b) /\
    (forall p c pr, In (p, c, pr) (w_thr w) -> (exists p, In (LStart p c) done) /\ oT (src c) pr)).
  assert (G : forall done w ls w', steps kinds w ls w' -> pinv done w -> pinv (done ++ ls) w').
  { intros done w0 ls0 w1 Hst. revert done. induction Hst as [w0|w0 l w1 ls1 w2 H1 H2 IH]; intros done Hp; [now rewrite app_nil_r|].
    replace (done ++ l :: ls1) with ((done ++ [l]) ++ ls1) by now rewrite <- app_assoc. apply IH. clear IH H2 H.
    assert (Mono : forall l', In l' done -> In l' (done ++ [l])) by (intros; apply in_or_app; auto).
    destruct Hp as [C0 C1]. destruct H1 as [p c ww|p c a f r t1 t2 fs s1 log fs' s' Hx|p c r t1 t2 fs s1 log|p ww]; cbn [w_fs w_thr w_log w_s3] in *.
    - split; cbn [w_s3 w_thr].
      + intros k1 b1 E1. destruct (C0 k1 b1 E1) as [|(p1 & c1 & I1 & S1)]; eauto 7.
      + intros p' c' pr [X|Hin].
        * injection X as <- <- <-. split; [exists p; apply in_or_app; right; now left|]. apply owp_prog.
        * destruct (C1 _ _ _ Hin) as [[p1 I1] S1]. eauto.
    - assert (Hin : In (p, c, Do a f) (t1 ++ (p, c, Do a f) :: t2)) by (apply in_or_app; right; left; reflexivity).
      destruct (C1 _ _ _ Hin) as [[p0 I0] [S0 S0']]. split; cbn [w_s3 w_thr].
      + intros k1 b1 E1. destruct (exec_put _ _ _ _ _ _ _ _ Hx E1) as [E2|E2]; [destruct (C0 k1 b1 E2) as [|(p1 & c1 & I1 & S1)]; eauto 7|].
        right. exists p0, c. split; [auto|]. subst a. exact S0.
      + intros p' c' pr Hin'. apply in_app_or in Hin'.
        assert (X : (exists p1, In (LStart p1 c') done) /\ oT (src c') pr).
        { destruct Hin' as [Hin'|[X|Hin']]; [|injection X as <- <- <-; split; [eauto|apply S0'; exact I]|]; apply (C1 p'); apply in_or_app; auto; right; right; auto. }
        destruct X as [[p1 X1] X2]. eauto.
    - split; cbn [w_s3 w_thr].
      + intros k1 b1 E1. destruct (C0 k1 b1 E1) as [|(p1 & c1 & I1 & S1)]; eauto 7.
      + intros p' c' pr Hin'. destruct (C1 p' c' pr) as [[p1 X1] X2]; [|eauto]. apply in_app_or in Hin'. apply in_or_app. destruct Hin'; [left|right; right]; auto.
    - split; cbn [w_s3 w_thr].
      + intros k1 b1 E1. destruct (C0 k1 b1 E1) as [|(p1 & c1 & I1 & S1)]; eauto 7.
      + intros p' c' pr Hin'. apply filter_In in Hin' as [Hin' _]. destruct (C1 _ _ _ Hin') as [[p1 X1] X2]. eauto. }
  assert (G0 : pinv [] (init_world s)) by (split; cbn; [auto|intros p c pr []]).
  destruct (G [] _ _ _ H G0) as [C0 _]. cbn [app] in C0. intros E1. destruct (C0 k b E1) as [|(p & c & I1 & S1)]; [auto|]. right. exists p, c. split; [exact I1|]. destruct c; exact S1.
Qed.

(** ** An acknowledged value is in the backend *)
Definition succ (c : call) (k : path) (r : reply) : Prop :=
  match c with
  | CGet k' => k' = k /\ exists v, r = Params (Some v)
  | CInsert k' _ => k' = k /\ r = Done
  | CModel k' _ => k' = k /\ exists v, r = Value v
  | CRun pk mk _ _ _ => (pk = k \/ mk = k) /\ exists l, r = Proofs l end.
Definition seen (k : path) (a : @action B) (r : @answer B) : Prop :=
  match a, r with APut k' _, Yes | AGet k', Data _ => k' = k | ARead _, _ | AWrite _ _, _ => r <> Err | _, _ => False end.
Definition aA (k : path) (a : @action B) (r : @answer B) : Prop := ~ seen k a r.
Definition unseen (k : path) (Q : reply -> Prop) : prog -> Prop := wp (aA k) (fun _ => True) Q.
Ltac uw := repeat first [exact I | split; [exact I|]
  | match goal with
    | |- forall r : answer, _ -> _ => let HA := fresh "HA" in intros [| |?b|] HA; unfold aA, seen in HA; cbn; try (exfalso; apply HA; first [reflexivity|discriminate])
    | |- context [dec ?b] => destruct (dec b); cbn end].
Lemma uwp_get kd k : unseen k (fun r => forall v, r <> Params (Some v)) (get_params dec kd k).
Proof. destruct kd; cbn; uw; try (intros v'; discriminate). Qed.
Lemma uwp_model kd k i : unseen k (fun r => r = Fail) (get_or_init enc dec kd k i).
Proof. destruct i, kd; cbn; uw; reflexivity. Qed.
Lemma uwp_insert kd k v : unseen k (fun r => r = Fail) (insert_params enc kd k v).
Proof. destruct kd; cbn; uw; reflexivity. Qed.
Lemma unseen_any k (p : prog) : unseen k (fun _ => True) p.
Proof. unfold unseen. induction p as [r|a f IH]; cbn; auto. Qed.
Lemma uwp_prog kd k c : unseen k (fun r => ~ succ c k r) (prog_of enc dec kd c).
Proof.
  destruct c as [k'|k' v|k' i|pk mk i g pr]; cbn [prog_of succ].
  1-3: destruct (path_eq k' k) as [->|N]; [|eapply wp_mono; [|apply unseen_any]; cbn; intros r _ [X _]; contradiction].
  - eapply wp_mono; [|apply uwp_get]. cbn. intros r H [_ [v ->]]. now apply (H v).
  - eapply wp_mono; [|apply uwp_insert]. cbn. intros r -> [_ X]. discriminate X.
  - eapply wp_mono; [|apply uwp_model]. cbn. intros r -> [_ [v X]]. discriminate X.
  - assert (FF : unseen k (fun r => ~ ((pk = k \/ mk = k) /\ exists l, r = Proofs l)) (Ret Fail)) by (cbn; intros [_ [l X]]; discriminate X).
    assert (NN : pk <> k -> mk <> k -> forall p, unseen k (fun r => ~ ((pk = k \/ mk = k) /\ exists l, r = Proofs l)) p).
    { intros N1 N2 p. eapply wp_mono; [|apply unseen_any]. cbn. tauto. }
    destruct (path_eq mk k) as [->|N2].
    + unfold run_model. eapply wp_bind; [apply unseen_any|]. intros [|o| | |] _; try exact FF; cbv beta iota. eapply wp_bind; [apply uwp_model|]. intros r ->. exact FF.
    + destruct (path_eq pk k) as [->|N1]; [|now apply NN]. unfold run_model. eapply wp_bind; [apply uwp_get|]. intros [|o| | |] Ho; try exact FF; cbv beta iota.
      destruct o as [o|]; [exfalso; now apply (Ho o)|].
      eapply wp_bind; [apply unseen_any|]. intros [| | |m|] _; try exact FF; cbv beta iota. destruct (g None m) as [pp|]; [|exact FF]. eapply wp_bind; [apply uwp_insert|]. intros r ->. exact FF.
Qed.
Lemma exec_keep (a : @action B) f s r f' s' k : exec a (f, s) r (f', s') -> s k <> None -> s' k <> None.
Proof.
  intros H. remember (f, s) as w eqn:Ew. remember (f', s') as w' eqn:Ew'.
  destruct H; injection Ew as -> ->; injection Ew' as <- <-; auto; unfold set_key; destruct (path_eq k k0) as [->|]; auto; discriminate.
Qed.
Lemma exec_seen (a : @action B) f s r f' s' k : exec a (f, s) r (f', s') -> (match a with ARead _ | AWrite _ _ => r = Err | _ => True end) -> seen k a r -> s' k <> None.
Proof.
  intros H. remember (f, s) as w eqn:Ew. remember (f', s') as w' eqn:Ew'.
  destruct H as [a g t|p g t|p g t b Hf|p g t Hf|p g t g' Hf|p b g t Hf|p b b' g t Hf|k1 g t b Hf|k1 g t Hf|k1 g t|k1 b g t|k1 b g t]; injection Ew as -> ->; injection Ew' as <- <-; cbn; try tauto.
  all: try (destruct a; cbn; tauto).
  all: try discriminate.
  all: try (intros _ ->; congruence).
  all: try (intros _ ->; unfold set_key; destruct (path_eq k k); [discriminate|tauto]).
  all: match goal with |- context [match ?x with Some _ => _ | None => _ end] => destruct x; cbn; tauto end.
Qed.
Lemma store_acknowledged kinds s ls w : steps kinds (init_world s) ls w -> forall p c r k, In (p, c, r) (w_log w) ->
  match c with
  | CGet k' => k' = k /\ exists v, r = Params (Some v)
  | CInsert k' _ => k' = k /\ r = Done
  | CModel k' _ => k' = k /\ exists v, r = Value v
  | CRun pk mk _ _ _ => (pk = k \/ mk = k) /\ exists l, r = Proofs l end -> w_s3 w k <> None.
Proof.
  intros H. set (ainv := fun (k : path) (w : world) => w_s3 w k <> None \/ ((forall p c pr, In (p, c, pr) (w_thr w) -> unseen k (fun r => ~ succ c k r) pr) /\ forall p c r, In (p, c, r) (w_log w) -> ~ succ c k r)).
  assert (G : forall k l w w', step kinds l w w' -> winv w -> ainv k w -> ainv k w').
  { intros k l w0 w1 H1 [Hn Ht] Ha. unfold ainv in *. destruct H1 as [p c ww|p c a f r t1 t2 fs s1 log fs' s' Hx|p c r t1 t2 fs s1 log|p ww]; cbn [w_fs w_thr w_log w_s3] in *.
    - destruct Ha as [|[C1 C2]]; [auto|]. right. split; [|auto]. intros p' c' pr [X|Hin]; [|eapply C1; eauto]. injection X as <- <- <-. apply uwp_prog.
    - destruct Ha as [C0|[C1 C2]]; [left; eapply exec_keep; eauto|]. assert (Hin : In (p, c, Do a f) (t1 ++ (p, c, Do a f) :: t2)) by (apply in_or_app; right; left; reflexivity).
      destruct (thr_exec fs p c a f r s1 fs' s' Hn (Ht _ Hin) Hx) as (_ & _ & HA & _). pose proof (C1 _ _ _ Hin) as C1'. destruct C1' as [_ C1'].
      destruct (s' k) as [b|] eqn:Es; [left; congruence|]. right. split; [|auto].
      intros p' c' pr Hin'. apply in_app_or in Hin'. destruct Hin' as [Hin'|[X|Hin']]; [|injection X as <- <- <-; apply C1'|]; try (eapply C1; apply in_or_app; [left|right; right]; eauto; fail).
      + eapply C1. apply in_or_app. left. eauto.
      + intros Hs. now apply (exec_seen _ _ _ _ _ _ k Hx HA Hs).
      + eapply C1. apply in_or_app. right; right. eauto.
    - destruct Ha as [C0|[C1 C2]]; [auto|]. assert (Hin : In (p, c, Ret r) (t1 ++ (p, c, Ret r) :: t2)) by (apply in_or_app; right; left; reflexivity). pose proof (C1 _ _ _ Hin) as C1'. cbn in C1'.
      right. split.
      + intros p' c' pr Hin'. eapply C1. apply in_app_or in Hin'. apply in_or_app. destruct Hin'; [left|right; right]; eauto.
      + intros p' c' r' [X|Hin']; [injection X as <- <- <-; exact C1'|eapply C2; eauto].
    - destruct Ha as [C0|[C1 C2]]; [auto|]. right. split; [|auto]. intros p' c' pr Hin'. apply filter_In in Hin' as [Hin' _]. eapply C1; eauto. }
  intros p c r k Hin Hs. assert (A : ainv k w).
  { assert (A0 : ainv k (init_world s)) by (right; split; cbn; intros; contradiction). assert (W0 := init_winv s). clear - G H A0 W0. induction H; auto. apply IHsteps; [eapply G; eauto|eapply step_winv; eauto]. }
  destruct A as [A|[_ A]]; [exact A|]. exfalso. apply (A p c r Hin). destruct c; exact Hs.
Qed.

(** ** What goes wrong *)
Definition clean (l : @label V B P) : Prop := match l with LCrash _ => False | LAct _ _ _ Err => False | _ => True end.
Lemma set_key_eq s k (b : B) : set_key s k b k = Some b.
Proof. unfold set_key. now destruct (path_eq k k). Qed.
Lemma x_head_no k f (s : @backend B) : s k = None -> exec (AHead k) (f, s) No (f, s).
Proof. intros E. pose proof (XHead k f s) as H. now rewrite E in H. Qed.
Lemma x_head_yes k f (s : @backend B) b : s k = Some b -> exec (AHead k) (f, s) Yes (f, s).
Proof. intros E. pose proof (XHead k f s) as H. now rewrite E in H. Qed.
Lemma x_exists_no k (f : @fsys B) s : f k = None -> exec (AExists k) (f, s) No (f, s).
Proof. intros E. pose proof (XExists k f s) as H. now rewrite E in H. Qed.
Lemma x_exists_yes k (f : @fsys B) s x : f k = Some x -> exec (AExists k) (f, s) Yes (f, s).
Proof. intros E. pose proof (XExists k f s) as H. now rewrite E in H. Qed.
Section Run.
Variable kinds : nat -> kind.
Lemma r_start p c fs s thr log ls w' : steps kinds (mkW fs s ((p, c, prog_of enc dec (kinds p) c) :: thr) log) ls w' -> steps kinds (mkW fs s thr log) (LStart p c :: ls) w'.
Proof. intros H. eapply SCons; [apply SStart|exact H]. Qed.
Lemma r_act0 p c a f r fs s fs' s' t2 log ls w' : exec a (fs p, s) r (fs', s') ->
  steps kinds (mkW (set_fs fs p fs') s' ((p, c, f r) :: t2) log) ls w' -> steps kinds (mkW fs s ((p, c, Do a f) :: t2) log) (LAct p c a r :: ls) w'.
Proof. intros H1 H2. eapply SCons; [apply (SAct enc dec kinds p c a f r [] t2 fs s log fs' s' H1)|exact H2]. Qed.
Lemma r_act1 p c a f r fs s fs' s' t1 t2 log ls w' : exec a (fs p, s) r (fs', s') ->
  steps kinds (mkW (set_fs fs p fs') s' (t1 :: (p, c, f r) :: t2) log) ls w' -> steps kinds (mkW fs s (t1 :: (p, c, Do a f) :: t2) log) (LAct p c a r :: ls) w'.
Proof. intros H1 H2. eapply SCons; [apply (SAct enc dec kinds p c a f r [t1] t2 fs s log fs' s' H1)|exact H2]. Qed.
Lemma r_ret0 p c r fs s t2 log ls w' : steps kinds (mkW fs s t2 ((p, c, r) :: log)) ls w' -> steps kinds (mkW fs s ((p, c, Ret r) :: t2) log) (LRet p c r :: ls) w'.
Proof. intros H. eapply SCons; [apply (SRet enc dec kinds p c r [] t2 fs s log)|exact H]. Qed.
End Run.

(** Two inserts that both look before either writes both succeed, and a reader sees the value change. *)
Lemma store_race kinds s p q k v1 v2 : kinds p = S3 -> kinds q = S3 -> s k = None ->
  exists ls w, steps kinds (init_world s) ls w /\ Forall clean ls /\ w_s3 w k = Some (enc v2) /\
    w_log w = [(p, CGet k, Params (Some v2)); (q, CInsert k v2, Done); (p, CGet k, Params (Some v1)); (p, CInsert k v1, Done)].
Proof.
  intros Kp Kq Hs. eexists. eexists. split; [|split; [|split]].
  - apply (r_start kinds q (CInsert k v2)). apply (r_start kinds p (CInsert k v1)). rewrite Kp, Kq. cbn [prog_of insert_params].
    eapply r_act0; [now apply x_head_no|]. eapply r_act1; [now apply x_head_no|]. cbv beta iota. eapply r_act0; [apply XPut|]. cbv beta iota. apply r_ret0.
    apply (r_start kinds p (CGet k)). rewrite Kp. cbn [prog_of get_params from_cache to_cache]. eapply r_act0; [apply XGet; apply set_key_eq|]. cbv beta iota. rewrite dec_enc. apply r_ret0.
    eapply r_act0; [apply XPut|]. cbv beta iota. apply r_ret0.
    apply (r_start kinds p (CGet k)). rewrite Kp. cbn [prog_of get_params from_cache to_cache]. eapply r_act0; [apply XGet; apply set_key_eq|]. cbv beta iota. rewrite dec_enc. apply r_ret0. apply SNil.
  - repeat constructor.
  - apply set_key_eq.
  - reflexivity.
Qed.
(** A HEAD request that fails for any reason lets an insert replace a stored value and report success. *)
Lemma store_head_error kinds s p k v1 v2 : kinds p = S3 -> s k = Some (enc v1) ->
  exists ls w, steps kinds (init_world s) ls w /\ length (filter (fun l => match l with LAct _ _ _ Err => true | _ => false end) ls) = 1 /\
    w_s3 w k = Some (enc v2) /\ w_log w = [(p, CInsert k v2, Done)].
Proof.
  intros Kp Hs. eexists. eexists. split; [|split; [|split]].
  - apply (r_start kinds p (CInsert k v2)). rewrite Kp. cbn [prog_of insert_params]. eapply r_act0; [apply XErr|]. cbv beta iota. eapply r_act0; [apply XPut|]. cbv beta iota. apply r_ret0. apply SNil.
  - reflexivity.
  - apply set_key_eq.
  - reflexivity.
Qed.
(** Two concurrent initialisations of one model return different models. *)
Lemma store_model_race kinds s p q k v1 v2 : kinds p <> S3Cached -> kinds q <> S3Cached -> s k = None ->
  exists ls w, steps kinds (init_world s) ls w /\ Forall clean ls /\ w_s3 w k = Some (enc v2) /\
    w_log w = [(q, CModel k (Some v2), Value v2); (p, CModel k (Some v1), Value v1)].
Proof.
  intros Kp Kq Hs. assert (D : forall x v, kinds x <> S3Cached -> prog_of enc dec (kinds x) (@CModel V P k (Some v)) = prog_of enc dec S3 (@CModel V P k (Some v))) by (intros x v N; destruct (kinds x); try reflexivity; now elim N).
  eexists. eexists. split; [|split; [|split]].
  - apply (r_start kinds q (CModel k (Some v2))). apply (r_start kinds p (CModel k (Some v1))). rewrite !D by auto. cbn [prog_of get_or_init from_cache to_cache].
    eapply r_act0; [now apply XGetNone|]. eapply r_act1; [now apply XGetNone|]. cbv beta iota. eapply r_act0; [apply XPut|]. cbv beta iota. apply r_ret0. eapply r_act0; [apply XPut|]. cbv beta iota. apply r_ret0. apply SNil.
  - repeat constructor.
  - apply set_key_eq.
  - reflexivity.
Qed.
(** The in-memory store replaces silently. *)
Lemma store_mem_replaces kinds s p k v1 v2 : kinds p = Mem -> s k = Some (enc v1) ->
  exists ls w, steps kinds (init_world s) ls w /\ Forall clean ls /\ w_s3 w k = Some (enc v2) /\ w_log w = [(p, CInsert k v2, Done)].
Proof.
  intros Kp Hs. eexists. eexists. split; [|split; [|split]].
  - apply (r_start kinds p (CInsert k v2)). rewrite Kp. cbn [prog_of insert_params]. eapply r_act0; [apply XPut|]. cbv beta iota. apply r_ret0. apply SNil.
  - repeat constructor.
  - apply set_key_eq.
  - reflexivity.
Qed.
(** With the file cache the first insert always fails and a retry reports success; the value is then never served to this process. *)
Lemma store_cached_retry kinds s p k v : kinds p = S3Cached -> k <> [] -> s k = None ->
  exists ls w, steps kinds (init_world s) ls w /\ w_s3 w k = Some (enc v) /\
    w_log w = [(p, CGet k, Fail); (p, CInsert k v, Done); (p, CInsert k v, Fail)].
Proof.
  intros Kp Nk Hs. assert (Np : @no_fs B k = None) by (destruct k; [now elim Nk|reflexivity]).
  assert (Pk : prefixb k k = true) by (clear; induction k as [|x k IH]; cbn; auto; destruct (string_dec x x); auto).
  eexists. eexists. split; [|split].
  - apply (r_start kinds p (CInsert k v)). rewrite Kp. cbn [prog_of insert_params to_cache]. eapply r_act0; [now apply x_exists_no|]. cbv beta iota.
    eapply r_act0; [apply XMkdir|]. { intros q0 _ b. rewrite set_fs_eq. destruct q0; discriminate. }
    cbv beta iota. eapply r_act0; [apply XErr|]. cbv beta iota. apply r_ret0.
    apply (r_start kinds p (CInsert k v)). rewrite Kp. cbn [prog_of insert_params to_cache]. eapply r_act0.
    { rewrite set_fs_eq. apply (x_exists_yes k _ _ Dir). rewrite !set_fs_eq. unfold set_dirs. now rewrite Pk, Np. }
    cbv beta iota. eapply r_act0; [now apply x_head_no|]. cbv beta iota. eapply r_act0; [apply XPut|]. cbv beta iota. apply r_ret0.
    apply (r_start kinds p (CGet k)). rewrite Kp. cbn [prog_of get_params from_cache to_cache]. eapply r_act0.
    { rewrite !set_fs_eq. apply (x_exists_yes k _ _ Dir). unfold set_dirs. now rewrite Pk, Np. }
    cbv beta iota. eapply r_act0; [apply XErr|]. cbv beta iota. apply r_ret0. apply SNil.
  - apply set_key_eq.
  - reflexivity.
Qed.
(** Without the cache, when nothing is stored, a model run on its own stores the parameters and the model and returns its proofs. *)
Lemma store_run_ok kinds s p pk mk m pp l g pr : kinds p = S3 -> pk <> mk -> s pk = None -> s mk = None -> g None m = Some pp -> pr pp m = Some l ->
  exists ls w, steps kinds (init_world s) ls w /\ Forall clean ls /\ w_s3 w pk = Some (enc pp) /\ w_s3 w mk = Some (enc m) /\ w_log w = [(p, CRun pk mk (Some m) g pr, Proofs l)].
Proof.
  intros Kp Nk Hp Hm Hg Hpr. eexists. eexists. split; [|split; [|split; [|split]]].
  - apply (r_start kinds p (CRun pk mk (Some m) g pr)). rewrite Kp. cbn [prog_of]. unfold run_model. cbn [get_params from_cache to_cache bind].
    eapply r_act0; [now apply XGetNone|]. cbn [bind get_or_init from_cache to_cache]. eapply r_act0; [now apply XGetNone|]. cbn [bind to_cache].
    eapply r_act0; [apply XPut|]. cbn [bind]. rewrite Hg, Hpr. cbn [bind insert_params]. eapply r_act0; [apply x_head_no; unfold set_key; now destruct (path_eq pk mk)|]. cbn [bind].
    eapply r_act0; [apply XPut|]. cbn [bind]. apply r_ret0. apply SNil.
  - repeat constructor.
  - apply set_key_eq.
  - cbn [w_s3]. unfold set_key. destruct (path_eq mk pk); [now elim Nk|]. now destruct (path_eq mk mk).
  - reflexivity.
Qed.
End P.

(** ** Keys *)
Fixpoint no_slash (s : string) : Prop := match s with EmptyString => True | String c r => c <> "/"%char /\ no_slash r end.
Lemma slash_split a b x y : no_slash a -> no_slash b -> (a ++ "/" ++ x = b ++ "/" ++ y)%string -> a = b /\ x = y.
Proof.
  revert b. induction a as [|c a IH]; intros [|d b] Ha Hb E; cbn in *.
  - injection E as E. auto.
  - injection E as Ec _. destruct Hb as [N _]. now elim N.
  - injection E as Ec _. destruct Ha as [N _]. now elim N.
  - injection E as -> E. destruct (IH b) as [-> ->]; tauto.
Qed.
Lemma no_slash_app a b : no_slash (a ++ "/" ++ b)%string -> False.
Proof. induction a as [|c a IH]; cbn; [intros [N _]; now elim N|tauto]. Qed.
Lemma key_string_inj k1 k2 : k1 <> [] -> k2 <> [] -> Forall no_slash k1 -> Forall no_slash k2 -> key_string k1 = key_string k2 -> k1 = k2.
Proof.
  revert k2. induction k1 as [|a k1 IH]; intros k2 N1 N2 H1 H2; [now elim N1|]. destruct k2 as [|b k2]; [now elim N2|]. inversion H1 as [|? ? Ha H1']; inversion H2 as [|? ? Hb H2']; subst.
  destruct k1 as [|a' k1], k2 as [|b' k2]; intros E.
  - cbn in E. now subst.
  - change (a = (b ++ "/" ++ key_string (b' :: k2))%string) in E. subst a. now apply no_slash_app in Ha.
  - change ((a ++ "/" ++ key_string (a' :: k1))%string = b) in E. subst b. now apply no_slash_app in Hb.
  - change ((a ++ "/" ++ key_string (a' :: k1)) = (b ++ "/" ++ key_string (b' :: k2)))%string in E. apply slash_split in E; [|auto|auto]. destruct E as [-> E]. f_equal. apply IH; auto; discriminate.
Qed.
Lemma keys_distinct M h M' h' g st i g' st' i' : Forall no_slash [M; h; M'; h'; g; st; g'; st'] -> (forall x, i = Some x -> no_slash x) -> (forall x, i' = Some x -> no_slash x) ->
  (key_string (params_key M h) = key_string (params_key M' h') -> M = M' /\ h = h') /\
  (key_string (model_key g st i) = key_string (model_key g' st' i') -> g = g' /\ st = st' /\ i = i') /\
  key_string (params_key M h) <> key_string (model_key g st i).
Proof.
  intros HF Hi Hi'. repeat match goal with H : Forall _ (_ :: _) |- _ => inversion H; clear H; subst end.
  assert (Np : no_slash "Params") by (cbn; repeat split; discriminate). assert (Nm : no_slash "Model") by (cbn; repeat split; discriminate).
  assert (Hm : forall a b o, no_slash a -> no_slash b -> (forall x, o = Some x -> no_slash x) -> Forall no_slash (model_key a b o) /\ model_key a b o <> []).
  { intros a b [x|] Ha Hb Ho; cbn; (split; [|discriminate]); repeat (apply Forall_cons; [auto|]); apply Forall_nil. }
  destruct (Hm g st i) as [F1 N1]; auto. destruct (Hm g' st' i') as [F2 N2]; auto. split; [|split].
  - intros E. apply key_string_inj in E; try discriminate; try (repeat (apply Forall_cons; [auto|]); apply Forall_nil). injection E as -> ->. auto.
  - intros E. apply key_string_inj in E; auto. destruct i, i'; cbn in E; injection E; intros; subst; auto; discriminate.
  - intros E. apply key_string_inj in E; auto; try discriminate; try (repeat (apply Forall_cons; [auto|]); apply Forall_nil). destruct i; discriminate E.
Qed.
(** The key of a model without scaling input is a directory on the way to the key of the same model with one. *)
Lemma model_key_prefix h st x : prefixb (model_key h st None) (model_key h st (Some x)) = true /\ model_key h st None <> model_key h st (Some x).
Proof. split; [|discriminate]. cbn. now destruct (string_dec h h), (string_dec st st). Qed.
