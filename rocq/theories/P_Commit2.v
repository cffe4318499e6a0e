(** More on commitments: construction of the maps, what slips through, the prover, and the registration of polynomials. *)
From Coq Require Import String Ascii NArith.
From Coq Require Import List Arith Lia Bool ZArith Permutation Sorted.
From Verif Require Import ListAux FieldDef M_Mle M_Sumcheck M_SamePoly M_Tables M_Commit P_Commit.
Import ListNotations.

(** ** Sorted maps have distinct keys *)
Section Sorted.
Context {A V : Type} (cmp : A -> A -> comparison).
Context (Heq : forall a b, cmp a b = Eq <-> a = b) (Htr : forall a b c, cmp a b = Lt -> cmp b c = Lt -> cmp a c = Lt)
        (Hgt : forall a b, cmp a b = Gt -> cmp b a = Lt).
Definition ltk (x y : A * V) : Prop := cmp (fst x) (fst y) = Lt.
Lemma bt_insert_sorted k v l : StronglySorted ltk l -> StronglySorted ltk (bt_insert cmp k v l).
Proof.
  induction l as [|[a b] l IH]; intros H; cbn [bt_insert]; [repeat constructor|].
  inversion_clear H as [|? ? H1 H2]. destruct (cmp k a) eqn:E.
  - apply Heq in E; subst a. constructor; [exact H1|exact H2].
  - constructor; [constructor; assumption|]. constructor; [exact E|]. rewrite Forall_forall in *. intros y Hy. unfold ltk in *; cbn [fst]. apply (Htr k a); [exact E|apply (H2 y Hy)].
  - constructor; [now apply IH|]. rewrite Forall_forall in *. intros [y z] Hy. unfold ltk; cbn [fst].
    apply (in_map fst) in Hy. cbn [fst] in Hy. apply bt_insert_keys in Hy. destruct Hy as [->|Hy]; [now apply Hgt|].
    apply in_map_iff in Hy. destruct Hy as ([y' z'] & <- & Hi). apply (H2 _ Hi).
Qed.
Lemma bt_collect_sorted l : StronglySorted ltk (bt_collect cmp l).
Proof.
  unfold bt_collect. assert (G : forall m, StronglySorted ltk m -> StronglySorted ltk (fold_left (fun m kv => bt_insert cmp (fst kv) (snd kv) m) l m)); [|apply G; constructor].
  induction l as [|x l IH]; intros m H; cbn [fold_left]; [exact H|]. apply IH. now apply bt_insert_sorted.
Qed.
Lemma bt_collect_nodup (l : list (A * V)) : NoDup (map fst (bt_collect cmp l)).
Proof.
  pose proof (bt_collect_sorted l) as H. induction H as [|[a b] m H IH F]; cbn [map fst]; constructor; [|exact IH].
  intros Hi. apply in_map_iff in Hi. destruct Hi as ([a' b'] & E & Hi). cbn [fst] in E; subst a'. rewrite Forall_forall in F. specialize (F _ Hi). unfold ltk in F; cbn [fst] in F.
  assert (cmp a a = Eq) by now apply Heq. congruence.
Qed.
Lemma bt_insert_perm k v (l : list (A * V)) : ~ In k (map fst l) -> Permutation (bt_insert cmp k v l) ((k, v) :: l).
Proof.
  induction l as [|[a b] l IH]; intros N; cbn [bt_insert]; [reflexivity|]. destruct (cmp k a) eqn:E.
  - apply Heq in E; subst. exfalso; apply N; now left.
  - reflexivity.
  - rewrite IH; [apply perm_swap|]. intros X; apply N; now right.
Qed.
(** Distinct keys: collecting only reorders. *)
Lemma bt_collect_perm (l : list (A * V)) : NoDup (map fst l) -> Permutation (bt_collect cmp l) l.
Proof.
  unfold bt_collect. assert (G : forall m, NoDup (map fst (m ++ l)) -> Permutation (fold_left (fun m kv => bt_insert cmp (fst kv) (snd kv) m) l m) (m ++ l)).
  { induction l as [|[k v] l IH]; intros m N; cbn [fold_left fst snd]; [now rewrite app_nil_r|].
    assert (Nk : ~ In k (map fst m)). { rewrite map_app in N; cbn [map fst] in N. apply NoDup_remove_2 in N. rewrite in_app_iff in N. tauto. }
    pose proof (bt_insert_perm k v m Nk) as P. rewrite IH.
    - rewrite P. cbn [app]. apply Permutation_middle.
    - eapply Permutation_NoDup; [|exact N]. apply Permutation_map. rewrite P. cbn [app]. symmetry; apply Permutation_middle. }
  apply (G []).
Qed.
End Sorted.
Lemma str_heq a b : String.compare a b = Eq <-> a = b.
Proof. split; [apply String.compare_eq_iff|intros ->; apply str_compare_refl]. Qed.
Lemma str_hgt a b : String.compare a b = Gt -> String.compare b a = Lt.
Proof. intros H. rewrite String.compare_antisym, H. reflexivity. Qed.
Lemma ascii_trans a b c : Ascii.compare a b = Lt -> Ascii.compare b c = Lt -> Ascii.compare a c = Lt.
Proof. unfold Ascii.compare. rewrite !N.compare_lt_iff. apply N.lt_trans. Qed.
Lemma ascii_eq a b : Ascii.compare a b = Eq -> a = b.
Proof. apply Ascii.compare_eq_iff. Qed.
Lemma str_htr : forall a b c, String.compare a b = Lt -> String.compare b c = Lt -> String.compare a c = Lt.
Proof.
  induction a as [|x a IH]; intros [|y b] [|z c]; cbn [String.compare]; intros H1 H2; try discriminate; try reflexivity.
  destruct (Ascii.compare x y) eqn:E1; try discriminate.
  - apply ascii_eq in E1; subst y. destruct (Ascii.compare x z) eqn:E2; try discriminate; [|reflexivity]. now apply (IH b).
  - destruct (Ascii.compare y z) eqn:E2; try discriminate.
    + apply ascii_eq in E2; subst z. now rewrite E1.
    + now rewrite (ascii_trans _ _ _ E1 E2).
Qed.
Lemma nat_heq a b : Nat.compare a b = Eq <-> a = b. Proof. apply Nat.compare_eq_iff. Qed.
Lemma nat_htr a b c : Nat.compare a b = Lt -> Nat.compare b c = Lt -> Nat.compare a c = Lt.
Proof. rewrite !Nat.compare_lt_iff. apply Nat.lt_trans. Qed.
Lemma nat_hgt a b : Nat.compare a b = Gt -> Nat.compare b a = Lt.
Proof. rewrite Nat.compare_gt_iff, Nat.compare_lt_iff. auto. Qed.
Lemma nodup_str {V} (l : list (string * V)) : NoDup (map fst (bt_collect String.compare l)).
Proof. apply bt_collect_nodup; [apply str_heq|apply str_htr|apply str_hgt]. Qed.
Lemma nodup_nat {V} (l : list (nat * V)) : NoDup (map fst (bt_collect Nat.compare l)).
Proof. apply bt_collect_nodup; [apply nat_heq|apply nat_htr|apply nat_hgt]. Qed.

Section Construction.
Context {K : field} {CW : Type} (pcs_commit : dmle K -> option CW).
Notation cctx_new := (cctx_new pcs_commit).

(** ** Construction *)
Lemma bt_collect_sub {A V} (cmp : A -> A -> comparison) (l : list (A * V)) x : In x (bt_collect cmp l) -> In x l.
Proof.
  unfold bt_collect. assert (G : forall m, In x (fold_left (fun m kv => bt_insert cmp (fst kv) (snd kv) m) l m) -> In x m \/ In x l).
  { induction l as [|[k v] l IH]; intros m H; cbn [fold_left fst snd] in H; [auto|]. destruct (IH _ H) as [X|X]; [|right; now right].
    assert (Y : x = (k, v) \/ In x m).
    { clear -X. induction m as [|[a b] m IHm]; cbn [bt_insert] in X; [destruct X as [<-|[]]; auto|]. destruct (cmp k a); cbn [In] in X |- *; [destruct X as [<-|X]; auto|destruct X as [<-|X]; auto|].
      destruct X as [<-|X]; [auto|]. destruct (IHm X); auto. }
    destruct Y as [->|Y]; [right; now left|auto]. }
  intros H. destruct (G [] H) as [[]|X]; exact X.
Qed.
Lemma commit_tables_keys cols ts : NoDup ts -> NoDup (map fst (commit_tables pcs_commit cols ts)).
Proof.
  intros H. induction H as [|t ts Ht H IH]; cbn [commit_tables flat_map map]; [constructor|].
  fold (commit_tables pcs_commit cols ts).
  assert (S : forall u, In u (map fst (commit_tables pcs_commit cols ts)) -> In u ts).
  { intros u Hu. apply in_map_iff in Hu. destruct Hu as (e & <- & Hu). unfold commit_tables in Hu. apply in_flat_map in Hu. destruct Hu as (w & Hw & He).
    destruct (cols w) as [p|]; [|destruct He]. destruct (pcs_commit p); [|destruct He]. destruct He as [<-|[]]. exact Hw. }
  destruct (cols t) as [p|]; [|exact IH]. destruct (pcs_commit p); [|exact IH]. cbn [app map fst]. constructor; [|exact IH]. intros X. now apply Ht, S.
Qed.
Lemma new_maps_ok polys cols ts x : cctx_new polys cols ts = Some x -> NoDup ts -> maps_ok x.
Proof.
  unfold M_Commit.cctx_new. destruct (omapM (commit_node pcs_commit) polys) as [m|] eqn:E; cbn [obind]; [|discriminate]. intros H Ht; injection H as <-.
  unfold maps_ok; cbn [cx_model cx_tables]. split; [apply nodup_nat|split; [now apply commit_tables_keys|]].
  intros n pl Hi. apply bt_collect_sub in Hi. revert m E Hi. induction polys as [|p polys IH]; intros m E Hi; cbn [omapM] in E.
  - injection E as <-; destruct Hi.
  - destruct (commit_node pcs_commit p) as [q|] eqn:Eq; cbn [obind] in E; [|discriminate]. destruct (omapM (commit_node pcs_commit) polys) as [r|]; cbn [obind] in E; [|discriminate].
    injection E as <-. destruct Hi as [->|Hi]; [|now apply (IH r)]. unfold commit_node in Eq. destruct (omapM _ (snd p)) as [l|]; cbn [obind] in Eq; [|discriminate]. injection Eq as <- <-. apply nodup_str.
Qed.
Lemma omapM_in_r {A B} (f : A -> option B) l r y : omapM f l = Some r -> In y r -> exists x, In x l /\ f x = Some y.
Proof.
  revert r; induction l as [|a l IH]; intros r H Hi; cbn [omapM] in H; [injection H as <-; destruct Hi|].
  destruct (f a) as [b|] eqn:E; cbn [obind] in H; [|discriminate]. destruct (omapM f l) as [r'|]; cbn [obind] in H; [|discriminate]. injection H as <-.
  destruct Hi as [<-|Hi]; [exists a; split; [now left|exact E]|]. destruct (IH _ eq_refl Hi) as (x & X1 & X2). exists x; split; [now right|exact X2].
Qed.
Lemma omapM_in_l {A B} (f : A -> option B) l r x : omapM f l = Some r -> In x l -> exists y, In y r /\ f x = Some y.
Proof.
  revert r; induction l as [|a l IH]; intros r H Hi; [destruct Hi|]. cbn [omapM] in H.
  destruct (f a) as [b|] eqn:E; cbn [obind] in H; [|discriminate]. destruct (omapM f l) as [r'|]; cbn [obind] in H; [|discriminate]. injection H as <-.
  destruct Hi as [<-|Hi]; [exists b; split; [now left|exact E]|]. destruct (IH _ eq_refl Hi) as (y & Y1 & Y2). exists y; split; [now right|exact Y2].
Qed.
Lemma omapM_fst {A B C} (f : A * B -> option (A * C)) l r : (forall p q, f p = Some q -> fst q = fst p) -> omapM f l = Some r -> map fst r = map fst l.
Proof.
  intros Hf. revert r; induction l as [|a l IH]; intros r H; cbn [omapM] in H; [injection H as <-; reflexivity|].
  destruct (f a) as [b|] eqn:E; cbn [obind] in H; [|discriminate]. destruct (omapM f l) as [r'|]; cbn [obind] in H; [|discriminate]. injection H as <-.
  cbn [map]. now rewrite (Hf _ _ E), (IH _ eq_refl).
Qed.
(** Every polynomial handed over is committed under its node and name, and nothing else. *)
Lemma new_contents polys cols ts x : cctx_new polys cols ts = Some x -> NoDup (map fst polys) -> (forall n l, In (n, l) polys -> NoDup (map fst l)) ->
  (forall n, In n (map fst (cx_model x)) <-> In n (map fst polys)) /\
  (forall n id c m, (exists l, In (n, l) (cx_model x) /\ In (id, (c, m)) l) <-> (exists l, In (n, l) polys /\ In (id, m) l /\ pcs_commit m = Some c)) /\
  (forall t c m, In (t, (c, m)) (cx_tables x) <-> In t ts /\ cols t = Some m /\ pcs_commit m = Some c).
Proof.
  unfold M_Commit.cctx_new. destruct (omapM (commit_node pcs_commit) polys) as [m|] eqn:E; cbn [obind]; [|discriminate]. intros H N1 N2; injection H as <-. cbn [cx_model cx_tables].
  assert (F : map fst m = map fst polys). { apply (omapM_fst _ _ _) with (2 := E). intros p q Hq. unfold commit_node in Hq. destruct (omapM _ (snd p)); cbn [obind] in Hq; [|discriminate]. injection Hq as <-; reflexivity. }
  assert (P : Permutation (bt_collect Nat.compare m) m) by (apply bt_collect_perm; [apply nat_heq|now rewrite F]).
  set (cn := fun ip : string * dmle K => c <- pcs_commit (snd ip) ;; Some (fst ip, (c, snd ip))).
  assert (Fc : forall l r, omapM cn l = Some r -> map fst r = map fst l).
  { intros l r. apply omapM_fst. intros p q Hq. unfold cn in Hq. destruct (pcs_commit (snd p)); cbn [obind] in Hq; [|discriminate]. injection Hq as <-; reflexivity. }
  split; [|split].
  - intros n. rewrite <- F. split; apply Permutation_in; [now apply Permutation_map|symmetry; now apply Permutation_map].
  - intros n id c p. split.
    + intros (l & Hl & Hid). apply (Permutation_in _ P) in Hl. destruct (omapM_in_r _ _ _ _ E Hl) as ([n' l0] & H0 & Hc). unfold commit_node in Hc. cbn [fst snd] in Hc. fold cn in Hc.
      destruct (omapM cn l0) as [r|] eqn:Er; cbn [obind] in Hc; [|discriminate]. injection Hc as -> <-. apply bt_collect_sub in Hid.
      destruct (omapM_in_r _ _ _ _ Er Hid) as ([id' p'] & Hp & Hq). unfold cn in Hq; cbn [fst snd] in Hq. destruct (pcs_commit p') as [c'|] eqn:Ec; cbn [obind] in Hq; [|discriminate]. injection Hq as -> -> ->. eauto.
    + intros (l & Hl & Hid & Hc). destruct (omapM_in_l _ _ _ _ E Hl) as ([n' r] & Hr & Hq). unfold commit_node in Hq. cbn [fst snd] in Hq. fold cn in Hq.
      destruct (omapM cn l) as [r0|] eqn:Er; cbn [obind] in Hq; [|discriminate]. injection Hq as <- <-. eexists. split; [apply (Permutation_in _ (Permutation_sym P)); exact Hr|].
      destruct (omapM_in_l _ _ _ _ Er Hid) as (y & Hy & Ey). unfold cn in Ey; cbn [fst snd] in Ey. rewrite Hc in Ey; cbn [obind] in Ey. injection Ey as <-.
      apply (Permutation_in _ (Permutation_sym (bt_collect_perm _ str_heq _ ltac:(rewrite (Fc _ _ Er); exact (N2 _ _ Hl))))). exact Hy.
  - intros t c p. unfold commit_tables. rewrite in_flat_map. split.
    + intros (u & Hu & Hi). destruct (cols u) as [q|] eqn:Eq; [|destruct Hi]. destruct (pcs_commit q) eqn:Ec; [|destruct Hi]. destruct Hi as [Hi|[]]. injection Hi as -> -> ->. auto.
    + intros (Ht & Hc & Hp). exists t. rewrite Hc, Hp. split; [exact Ht|now left].
Qed.
(** A table whose commitment fails is left out without an error. *)
Lemma dropped_table polys cols ts x t m : cctx_new polys cols ts = Some x -> cols t = Some m -> pcs_commit m = None -> ~ In t (map fst (cx_tables x)).
Proof.
  unfold M_Commit.cctx_new. destruct (omapM (commit_node pcs_commit) polys) as [l|]; cbn [obind]; [|discriminate]. intros H Hc Hm; injection H as <-. cbn [cx_tables].
  intros Hi. apply in_map_iff in Hi. destruct Hi as ([u [c q]] & <- & Hi). cbn [fst] in *. unfold commit_tables in Hi. apply in_flat_map in Hi. destruct Hi as (u' & _ & Hi).
  destruct (cols u') as [q'|] eqn:E1; [|destruct Hi]. destruct (pcs_commit q') as [c'|] eqn:E2; [|destruct Hi]. destruct Hi as [Hi|[]]. injection Hi as <- <- <-. congruence.
Qed.

End Construction.

Section More.
Context {K : field} {CW Cm Prf : Type}.
Notation claim := (@claim K).
Notation hist := (@hist K).
Context (pure : CW -> Cm) (trivial_nv : nat).
Context (pcs_verify : Cm -> list K -> K -> Prf -> bool).
Context (pcs_batch_verify : list Cm -> list (list K) -> list (nat * nat * K) -> Prf -> hist -> bool).
Context (pcs_open : dmle K -> CW -> list K -> K -> hist -> option (Prf * hist)).
Context (pcs_batch_open : list (dmle K) -> list CW -> list (list K) -> list (nat * nat * K) -> hist -> option Prf).
Notation vstate := (@vstate K Cm).
Notation vop := (@vop K Cm).
Notation v_run := (@v_run K Cm trivial_nv).
Notation v_new := (@v_new K CW Cm pure).
Notation v_witness := (@v_witness K Cm trivial_nv).
Notation v_verify := (v_verify pcs_verify pcs_batch_verify).

(** ** What slips through *)
(** Claims for names that are not among the polynomials of the node are dropped. *)
Lemma node_claims_extra polys : forall cls extra (s : vstate), (forall id, In id (map fst polys) -> In id (map fst cls)) -> NoDup (map fst polys) ->
  v_node_claims trivial_nv polys (cls ++ extra) s = v_node_claims trivial_nv polys cls s.
Proof.
  assert (R : forall id (cls extra : list (string * claim)) cl r, m_remove String.compare id cls = Some (cl, r) -> m_remove String.compare id (cls ++ extra) = Some (cl, r ++ extra)).
  { intros id cls extra. induction cls as [|[a b] cls IH]; intros cl r H; cbn [m_remove app] in *; [discriminate|]. destruct (key_eqb String.compare id a); [injection H as <- <-; reflexivity|].
    destruct (m_remove String.compare id cls) as [[v r']|]; cbn [obind fst snd] in H; [|discriminate]. injection H as <- <-. rewrite (IH _ _ eq_refl). reflexivity. }
  induction polys as [|[id c] polys IH]; intros cls extra s H N; cbn [v_node_claims]; [reflexivity|].
  destruct (m_remove_some _ key_str id cls (H _ (or_introl eq_refl))) as (cl & r & E). rewrite E, (R _ _ extra _ _ E).
  cbn [map fst] in N; inversion_clear N as [|? ? N1 N2]. apply IH; [|exact N2]. intros id' Hi.
  pose proof (Permutation_in _ (m_remove_keys _ key_str _ _ _ _ E) (H id' (or_intror Hi))) as [->|X]; [contradiction|exact X].
Qed.
Lemma extra_dropped x ops1 n cls extra ops2 s : maps_ok x -> v_run (ops1 ++ OpCommon n cls :: ops2) (v_new x) = Some s -> cls <> [] ->
  v_run (ops1 ++ OpCommon n (cls ++ extra) :: ops2) (v_new x) = Some s.
Proof.
  intros W R Ne. destruct (new_sub pure x W) as (N1 & N2 & SM & ST). revert N1 SM R. generalize (v_new x) as s0. induction ops1 as [|o ops1 IH]; intros s0 N1 SM R; cbn [app M_Commit.v_run] in *.
  - destruct (v_step trivial_nv (OpCommon n cls) s0) as [b s1] eqn:E. destruct b; [|discriminate].
    assert (E2 : v_step trivial_nv (OpCommon n (cls ++ extra)) s0 = (true, s1)).
    { cbn [v_step] in *. destruct cls as [|c0 cls]; [contradiction|]. cbn [v_common app] in *. destruct (m_remove Nat.compare n (vs_model s0)) as [[polys r]|] eqn:Er; [|discriminate].
      destruct (SM n polys (m_remove_assoc _ key_nat _ nat_refl _ _ _ _ Er)) as [_ NP]. destruct (node_claims_spec _ _ _ _ _ NP E) as (_ & _ & _ & _ & H5).
      change (c0 :: cls ++ extra) with ((c0 :: cls) ++ extra). now rewrite node_claims_extra. }
    now rewrite E2.
  - destruct (v_step trivial_nv o s0) as [b s1] eqn:E. destruct b; [|discriminate]. apply IH; [| |exact R].
    + clear -N1 E. destruct o as [c cl|m cl|t cl]; cbn [v_step] in E.
      * injection E as <-. now rewrite (proj1 (witness_model trivial_nv c cl s0)).
      * destruct cl as [|c0 cl]; cbn [v_common] in E; [injection E as <-; exact N1|]. destruct (m_remove Nat.compare m (vs_model s0)) as [[p r]|] eqn:Er; [|discriminate].
        assert (M : forall pl cs (a b : vstate) q, v_node_claims trivial_nv pl cs a = (q, b) -> vs_model b = vs_model a).
        { induction pl as [|[i c] pl IHp]; intros cs a b q Hq; cbn [v_node_claims] in Hq; [now injection Hq as _ <-|]. destruct (m_remove String.compare i cs) as [[u v]|]; [|now injection Hq as _ <-].
          rewrite (IHp _ _ _ _ Hq). apply (witness_model trivial_nv). }
        rewrite (M _ _ _ _ _ E). cbn [vs_model]. exact (proj1 (m_remove_nodup _ key_nat _ _ _ _ Er N1)).
      * unfold v_table in E. destruct (m_remove _ t (vs_tables s0)) as [[p r]|]; [|discriminate]. injection E as <-. rewrite (proj1 (witness_model trivial_nv _ _ _)). exact N1.
    + intros m p Hm. destruct o as [c cl|k cl|t cl]; cbn [v_step] in E.
      * injection E as <-. rewrite (proj1 (witness_model trivial_nv c cl s0)) in Hm. now apply SM.
      * destruct cl as [|c0 cl]; cbn [v_common] in E; [injection E as <-; now apply SM|]. destruct (m_remove Nat.compare k (vs_model s0)) as [[p0 r]|] eqn:Er; [|discriminate].
        destruct (SM k p0 (m_remove_assoc _ key_nat _ nat_refl _ _ _ _ Er)) as [_ NP]. destruct (node_claims_spec _ _ _ _ _ NP E) as (H1 & _). rewrite H1 in Hm. cbn [vs_model] in Hm.
        destruct (Nat.eq_dec m k) as [->|Nk]; [|rewrite (m_remove_other _ key_nat _ nat_refl _ _ _ _ m Er Nk) in Hm; now apply SM].
        exfalso. destruct (m_remove_nodup _ key_nat _ _ _ _ Er N1) as [_ X]. apply X. apply (assoc_in _ nat_refl) in Hm. exact (in_map fst _ _ Hm).
      * unfold v_table in E. destruct (m_remove _ t (vs_tables s0)) as [[p0 r]|]; [|discriminate]. injection E as <-. rewrite (proj1 (witness_model trivial_nv _ _ _)) in Hm. now apply SM.
Qed.
(** After a failed [add_common_claims] the node counts as used: a caller that goes on can have it accepted unopened. *)
Lemma failed_removes n cls (s s' : vstate) : NoDup (map fst (vs_model s)) -> v_step trivial_nv (OpCommon n cls) s = (false, s') -> In n (map fst (vs_model s)) ->
  ~ In n (map fst (vs_model s')) /\ length (vs_model s') < length (vs_model s).
Proof.
  intros N H Hn. cbn [v_step] in H. destruct cls as [|c0 cls]; cbn [v_common] in H; [discriminate|].
  destruct (m_remove_some _ key_nat n _ Hn) as (p & r & E). rewrite E in H.
  assert (M : forall pl cs (a b : vstate) q, v_node_claims trivial_nv pl cs a = (q, b) -> vs_model b = vs_model a).
  { induction pl as [|[i c] pl IHp]; intros cs a b q Hq; cbn [v_node_claims] in Hq; [now injection Hq as _ <-|]. destruct (m_remove String.compare i cs) as [[u v]|]; [|now injection Hq as _ <-].
    rewrite (IHp _ _ _ _ Hq). apply (witness_model trivial_nv). }
  rewrite (M _ _ _ _ _ H). cbn [vs_model]. split; [exact (proj2 (m_remove_nodup _ key_nat _ _ _ _ E N))|].
  pose proof (Permutation_length (m_remove_keys _ key_nat _ _ _ _ E)) as L. cbn [length] in L. rewrite !map_length in L. lia.
Qed.

(** ** Prover and verifier together *)
Notation pstate := (@pstate K CW).
Notation pop := (@pop K CW).
Notation p_run := (@p_run K CW trivial_nv).
Notation p_prove := (p_prove pcs_open pcs_batch_open).
Definition strip (o : pop) : vop :=
  match o with POpWitness c m cl => OpWitness (pure c) cl | POpCommon n cls => OpCommon n cls | POpTable t cl => OpTable t cl end.
(** The point of a claim has the length the polynomial needs. *)
Definition fits (x : @cctx K CW) (o : pop) : Prop :=
  match o with
  | POpWitness c m cl => length (cl_point cl) = num_vars m
  | POpCommon n cls => forall polys id c m cl, In (n, polys) (cx_model x) -> In (id, (c, m)) polys -> In (id, cl) cls -> length (cl_point cl) = num_vars m
  | POpTable t cl => forall c m, In (t, (c, m)) (cx_tables x) -> length (cl_point cl) = num_vars m
  end.
Definition bare (y : CW * dmle K * claim) : Cm * claim := (pure (fst (fst y)), snd y).
Definition related (ps : pstate) (vs : vstate) : Prop := vs_claims vs = map bare (ps_claims ps) /\ vs_trivial vs = map bare (ps_trivial ps).
Lemma related_witness c m cl ps vs : length (cl_point cl) = num_vars m -> related ps vs -> related (p_witness trivial_nv c m cl ps) (v_witness (pure c) cl vs).
Proof.
  intros L [H1 H2]. unfold p_witness, M_Commit.v_witness. rewrite L. destruct (_ <=? _); unfold related; cbn [vs_claims vs_trivial ps_claims ps_trivial]; rewrite ?map_app, ?H1, ?H2; auto.
Qed.
Lemma related_node polys : forall cls ps ps' vs, (forall id c m cl, In (id, (c, m)) polys -> In (id, cl) cls -> length (cl_point cl) = num_vars m) ->
  p_node_claims trivial_nv polys cls ps = Some ps' -> related ps vs ->
  exists vs', v_node_claims trivial_nv (map (fun ip => (fst ip, pure (fst (snd ip)))) polys) cls vs = (true, vs') /\ related ps' vs'.
Proof.
  induction polys as [|[id [c m]] polys IH]; intros cls ps ps' vs F H R; cbn [p_node_claims map v_node_claims fst snd] in *.
  - injection H as <-. eauto.
  - destruct (m_remove String.compare id cls) as [[cl r]|] eqn:E; cbn [obind fst snd] in H; [|discriminate].
    destruct (m_remove_spec _ key_str _ _ _ _ E) as (l1 & l2 & -> & -> & _).
    apply (IH _ _ _ _) with (2 := H); [|apply related_witness; [apply (F id c m cl); [now left|apply in_app_iff; right; now left]|exact R]].
    intros id' c' m' cl' Hi Hc. apply (F id' c' m' cl'); [now right|]. rewrite in_app_iff in *. cbn [In]. tauto.
Qed.
(** While a node or table is still there, the verifier follows the prover. *)
Lemma follow x ops : forall ps ps' vs vs', maps_ok x -> sub_maps (new_model pure x) (new_tables pure x) vs -> Forall (fits x) ops ->
  p_run x ops ps = Some ps' -> v_run (map strip ops) vs = Some vs' -> related ps vs -> related ps' vs'.
Proof.
  induction ops as [|o ops IH]; intros ps ps' vs vs' W S F HP HV R; unfold M_Commit.p_run in HP; cbn [ofold map M_Commit.v_run] in HP, HV.
  - injection HP as <-; injection HV as <-; exact R.
  - inversion_clear F as [|? ? F1 F2]. destruct (p_step trivial_nv x o ps) as [ps1|] eqn:E1; cbn [obind] in HP; [|discriminate].
    destruct (v_step trivial_nv (strip o) vs) as [b vs1] eqn:E2. destruct b; [|discriminate].
    destruct (step_linked trivial_nv _ _ _ _ _ S E2) as [S1 _].
    apply (IH ps1 ps' vs1 vs' W S1 F2 HP HV).
    destruct W as (N1 & N2 & N3). destruct o as [c m cl|n cls|t cl]; cbn [strip p_step v_step fits] in *.
    + injection E1 as <-; injection E2 as <-. now apply related_witness.
    + destruct cls as [|c0 cls]; cbn [p_common v_common] in *; [injection E1 as <-; injection E2 as <-; exact R|].
      rewrite (m_get_assoc _ n (cx_model x)) in E1. destruct (assoc (key_eqb Nat.compare) n (cx_model x)) as [polys|] eqn:Ea; cbn [obind] in E1; [|discriminate].
      apply (assoc_in _ key_nat) in Ea.
      destruct (m_remove Nat.compare n (vs_model vs)) as [[p r]|] eqn:Er; [|discriminate]. destruct S as (_ & _ & SM & _).
      destruct (SM _ _ (m_remove_assoc _ key_nat _ nat_refl _ _ _ _ Er)) as [AM _].
      assert (Ep : p = map (fun ip => (fst ip, pure (fst (snd ip)))) polys).
      { assert (AM2 : assoc Nat.eqb n (new_model pure x) = Some (map (fun ip => (fst ip, pure (fst (snd ip)))) polys)); [|congruence].
        apply (assoc_nodup _ nat_refl); [rewrite (proj1 (new_keys pure x)); exact N1|]. unfold new_model. apply in_map_iff. exists (n, polys); auto. }
      subst p. destruct (related_node polys (c0 :: cls) ps ps1 (mkVst r (vs_tables vs) (vs_claims vs) (vs_trivial vs))) as (vs2 & V1 & V2); [|exact E1|exact R|].
      * intros id c m cl Hi Hc. apply (F1 polys id c m cl Ea Hi Hc).
      * rewrite V1 in E2. injection E2 as <-. exact V2.
    + unfold p_table in E1. rewrite (m_get_assoc _ t (cx_tables x)) in E1. destruct (assoc (key_eqb (tt_cmp tt_eqb)) t (cx_tables x)) as [[c m]|] eqn:Ea; cbn [obind fst snd] in E1; [|discriminate]. injection E1 as <-.
      apply (assoc_in _ key_tt) in Ea. unfold v_table in E2. destruct (m_remove (tt_cmp tt_eqb) t (vs_tables vs)) as [[p r]|] eqn:Er; [|discriminate]. injection E2 as <-. destruct S as (_ & _ & _ & ST).
      pose proof (ST _ _ (m_remove_assoc _ key_tt _ tt_refl _ _ _ _ Er)) as AT.
      assert (Ep : p = pure c).
      { assert (AT2 : assoc tt_eqb t (new_tables pure x) = Some (pure c)); [|congruence].
        apply (assoc_nodup _ tt_refl); [rewrite (proj2 (new_keys pure x)); exact N2|]. unfold new_tables. apply in_map_iff. exists (t, (c, m)); auto. }
      subst p. apply related_witness; [exact (F1 _ _ Ea)|exact R].
Qed.
Lemma p_node_full polys : forall cls (ps ps' : pstate), p_node_claims trivial_nv polys cls ps = Some ps' -> forall id, In id (map fst polys) -> In id (map fst cls).
Proof.
  induction polys as [|[id [c m]] polys IH]; intros cls ps ps' H i Hi; [destruct Hi|]. cbn [p_node_claims] in H.
  destruct (m_remove String.compare id cls) as [[cl r]|] eqn:E; cbn [obind fst snd] in H; [|discriminate].
  apply (Permutation_in _ (Permutation_sym (m_remove_keys _ key_str _ _ _ _ E))). destruct Hi as [<-|Hi]; [now left|right]. exact (IH _ _ _ H i Hi).
Qed.
Lemma p_run_full x ops : forall ps ps', p_run x ops ps = Some ps' -> maps_ok x ->
  (forall n cls, In (OpCommon n cls) (map strip ops) -> cls <> [] -> exists polys, assoc Nat.eqb n (cx_model x) = Some polys /\ forall id, In id (map fst polys) -> In id (map fst cls)) /\
  (forall t cl, In (OpTable t cl) (map strip ops) -> exists cm, assoc tt_eqb t (cx_tables x) = Some cm).
Proof.
  induction ops as [|o ops IH]; intros ps ps' H W; unfold M_Commit.p_run in H; cbn [ofold map] in *; [split; intros ? ? []|].
  destruct (p_step trivial_nv x o ps) as [ps1|] eqn:E; cbn [obind] in H; [|discriminate]. destruct (IH _ _ H W) as [I1 I2]. destruct W as (N1 & N2 & N3).
  split; [intros n cls [Ho|Hi] Ne; [|now apply I1]|intros t cl [Ho|Hi]; [|now apply (I2 t cl)]].
  - destruct o as [?|m cl|?]; try discriminate. injection Ho as -> ->. destruct cls as [|c0 cls]; [contradiction|]. cbn [p_step p_common] in E. rewrite (m_get_assoc _ n (cx_model x)) in E.
    destruct (assoc (key_eqb Nat.compare) n (cx_model x)) as [polys|] eqn:Ea; cbn [obind] in E; [|discriminate]. exists polys. split; [|exact (p_node_full _ _ _ _ E)].
    apply (assoc_nodup _ nat_refl _ _ _ N1). exact (assoc_in _ key_nat _ _ _ Ea).
  - destruct o as [?|?|u c]; try discriminate. injection Ho as -> ->. cbn [p_step] in E. unfold p_table in E. rewrite (m_get_assoc _ t (cx_tables x)) in E.
    destruct (assoc (key_eqb (tt_cmp tt_eqb)) t (cx_tables x)) as [cm|] eqn:Ea; cbn [obind] in E; [|discriminate]. exists cm. apply (assoc_nodup _ tt_refl _ _ _ N2). exact (assoc_in _ key_tt _ _ _ Ea).
Qed.
Lemma open_trivial_ok (l : list (CW * dmle K * claim)) h :
  (forall c m cl, In (c, m, cl) l -> exists pr, pcs_open m c (cl_point cl) (cl_eval cl) h = Some (pr, h) /\ pcs_verify (pure c) (cl_point cl) (cl_eval cl) pr = true) ->
  exists prs, p_open_trivial pcs_open l h = Some (prs, h) /\ length prs = length l /\
    forallb (fun cp => pcs_verify (fst (fst cp)) (cl_point (snd (fst cp))) (cl_eval (snd (fst cp))) (snd cp)) (combine (map bare l) prs) = true.
Proof.
  induction l as [|[[c m] cl] l IH]; intros H; cbn [p_open_trivial]; [exists []; auto|].
  destruct (H c m cl (or_introl eq_refl)) as (pr & E1 & E2). rewrite E1; cbn [obind fst snd].
  destruct IH as (prs & I1 & I2 & I3); [intros c' m' cl' Hi; apply H; now right|]. rewrite I1; cbn [obind fst snd].
  exists (pr :: prs). split; [reflexivity|split; [cbn [length]; lia|]]. cbn [map combine forallb bare fst snd]. now rewrite E2, I3.
Qed.
Lemma honest_accepted x ops ps h : maps_ok x -> p_run x ops p_new = Some ps -> Forall (fits x) ops ->
  (forall n, In n (map fst (cx_model x)) -> count (uses_node n) (map strip ops) = 1) ->
  (forall t, In t (map fst (cx_tables x)) -> count (uses_table t) (map strip ops) = 1) ->
  (forall c m cl, In (c, m, cl) (ps_trivial ps) -> exists pr, pcs_open m c (cl_point cl) (cl_eval cl) h = Some (pr, h) /\ pcs_verify (pure c) (cl_point cl) (cl_eval cl) pr = true) ->
  (exists b, pcs_batch_open (map (fun y => snd (fst y)) (ps_claims ps)) (map (fun y => fst (fst y)) (ps_claims ps)) (map (fun y => cl_point (snd y)) (ps_claims ps))
      (map (fun iy => (fst iy, fst iy, cl_eval (snd (snd iy)))) (combine (seq 0 (length (ps_claims ps))) (ps_claims ps))) h = Some b /\
    pcs_batch_verify (map (fun y => pure (fst (fst y))) (ps_claims ps)) (map (fun y => cl_point (snd y)) (ps_claims ps))
      (map (fun iy => (fst iy, fst iy, cl_eval (snd (snd iy)))) (combine (seq 0 (length (ps_claims ps))) (ps_claims ps))) b h = true) ->
  exists proof vs, p_prove ps h = Some proof /\ v_run (map strip ops) (v_new x) = Some vs /\ v_verify vs proof h = true.
Proof.
  intros W P F U1 U2 Ht (b & Hb1 & Hb2). destruct (p_run_full _ _ _ _ P W) as [I1 I2].
  destruct (open_trivial_ok _ _ Ht) as (prs & O1 & O2 & O3).
  assert (RV : exists vs, v_run (map strip ops) (v_new x) = Some vs).
  { apply (run_ok_iff pure trivial_nv x (map strip ops) W). split; [|split].
    - intros n. destruct (assoc Nat.eqb n (cx_model x)) eqn:Ea; [rewrite U1; [lia|]; apply in_map_iff; eexists; split; [|exact (assoc_in _ nat_refl _ _ _ Ea)]; reflexivity|].
      destruct (count (uses_node n) (map strip ops)) eqn:Ec; [lia|exfalso]. unfold count in Ec. destruct (filter (uses_node n) (map strip ops)) as [|o q] eqn:Ef; [discriminate|].
      assert (Ho : In o (filter (uses_node n) (map strip ops))) by (rewrite Ef; now left). apply filter_In in Ho. destruct Ho as [Ho1 Ho2]. destruct o as [?|m [|c0 cls]|?]; try discriminate.
      cbn [uses_node] in Ho2. apply Nat.eqb_eq in Ho2; subst m. destruct (I1 _ _ Ho1 ltac:(discriminate)) as (p & Hp & _). congruence.
    - intros t. destruct (assoc tt_eqb t (cx_tables x)) eqn:Ea; [rewrite U2; [lia|]; apply in_map_iff; eexists; split; [|exact (assoc_in _ tt_refl _ _ _ Ea)]; reflexivity|].
      destruct (count (uses_table t) (map strip ops)) eqn:Ec; [lia|exfalso]. unfold count in Ec. destruct (filter (uses_table t) (map strip ops)) as [|o q] eqn:Ef; [discriminate|].
      assert (Ho : In o (filter (uses_table t) (map strip ops))) by (rewrite Ef; now left). apply filter_In in Ho. destruct Ho as [Ho1 Ho2]. destruct o as [?|?|u cl]; try discriminate.
      cbn [uses_table] in Ho2. apply tt_eqb_eq in Ho2; subst u. destruct (I2 _ _ Ho1) as (p & Hp). congruence.
    - intros n cls polys Hi Ne A. destruct (I1 _ _ Hi Ne) as (p & Hp & Hf). rewrite A in Hp; injection Hp as <-. exact Hf. }
  destruct RV as [vs RV]. pose proof (follow x ops _ _ _ _ W (new_sub pure x W) F P RV (conj eq_refl eq_refl)) as [R1 R2].
  exists (b, prs), vs. split; [|split; [exact RV|]].
  - unfold M_Commit.p_prove. rewrite O1; cbn [obind fst snd]. rewrite Hb1. reflexivity.
  - destruct (run_linked trivial_nv _ _ _ _ _ (new_sub pure x W) RV) as [_ [_ _ A3 A4 _ _ _]].
    cbn [M_Commit.v_new vs_model vs_tables] in A3, A4. fold (new_model pure x) in A3. fold (new_tables pure x) in A4. destruct (new_keys pure x) as [K1 K2].
    assert (E1 : vs_model vs = []).
    { destruct (vs_model vs) as [|[n p] l] eqn:E; [reflexivity|exfalso]. specialize (A3 n). unfold assoc in A3 at 1; cbn [find fst] in A3. rewrite Nat.eqb_refl in A3. cbn [option_map snd] in A3.
      destruct (0 <? count (uses_node n) (map strip ops)) eqn:Ec; [discriminate|]. symmetry in A3; apply (assoc_in _ nat_refl) in A3.
      apply (in_map fst) in A3; rewrite K1 in A3; cbn [fst] in A3. specialize (U1 _ A3). rewrite U1 in Ec; discriminate. }
    assert (E2 : vs_tables vs = []).
    { destruct (vs_tables vs) as [|[t p] l] eqn:E; [reflexivity|exfalso]. specialize (A4 t). unfold assoc in A4 at 1; cbn [find fst] in A4. rewrite (proj2 (tt_eqb_eq t t) eq_refl) in A4. cbn [option_map snd] in A4.
      destruct (0 <? count (uses_table t) (map strip ops)) eqn:Ec; [discriminate|]. symmetry in A4; apply (assoc_in _ tt_refl) in A4.
      apply (in_map fst) in A4; rewrite K2 in A4; cbn [fst] in A4. specialize (U2 _ A4). rewrite U2 in Ec; discriminate. }
    unfold M_Commit.v_verify, batch_parts. rewrite E1, E2, R1, R2. cbn [fst snd]. rewrite map_length, O2, Nat.eqb_refl, O3. cbn [andb].
    rewrite !map_map, map_length. cbn [bare fst snd].
    assert (X : forall k (l : list (CW * dmle K * claim)), map (fun ip : nat * (Cm * claim) => (fst ip, fst ip, cl_eval (snd (snd ip)))) (combine (seq k (length l)) (map bare l)) =
      map (fun iy => (fst iy, fst iy, cl_eval (snd (snd iy)))) (combine (seq k (length l)) l)).
    { intros k l. revert k. induction l as [|y l IH]; intros k; cbn [length seq map combine]; [reflexivity|]. f_equal. apply IH. }
    rewrite X. exact Hb2.
Qed.
End More.

(** ** Registration *)
Section Register.
Context {P : Type}.
Notation act := (poly_action P).
Notation reg := (list (nat * list (string * P))).
Notation go s0 nodes := (@fold_left (option (list (string * P)) * reg) (nat * act) (fun s n => register_node (fst n) (snd n) s) nodes s0).
Lemma reg_node i (x : act) a (r : reg) : register_node i x (a, r) = match step_polys x a with Some l => (Some [], r ++ [(i, l)]) | None => (None, r) end.
Proof. reflexivity. Qed.
Lemma go_snd (nodes : list (nat * act)) : forall (a : option (list (string * P))) (r : reg), snd (go (a, r) nodes) = (r ++ snd (go (a, []) nodes))%list /\ fst (go (a, r) nodes) = fst (go (a, []) nodes).
Proof.
  induction nodes as [|[i x] nodes IH]; intros a r; cbn [fold_left fst snd]; [now rewrite app_nil_r|].
  rewrite !reg_node. destruct (step_polys x a) as [l|].
  - destruct (IH (Some []) (r ++ [(i, l)])) as [H1 H2]. destruct (IH (Some []) [(i, l)]) as [H3 H4]. cbn [app]. rewrite H1, H2, H3, H4, <- app_assoc. auto.
  - destruct (IH None r) as [H1 H2]. rewrite H1, H2. auto.
Qed.
Definition leaves (n : nat * act) : Prop := snd n = LeavePolys.
Lemma registered_gen (nodes : list (nat * act)) : forall a id l, (a = None \/ a = Some []) ->
  (In (id, l) (snd (go (a, [])  nodes)) <->
   In (id, SetPolys l) nodes \/
   l = [] /\ ((a = Some [] /\ exists mid post, nodes = mid ++ (id, LeavePolys) :: post /\ Forall leaves mid) \/
              exists pre id0 l0 mid post, nodes = pre ++ (id0, SetPolys l0) :: mid ++ (id, LeavePolys) :: post /\ Forall leaves mid)).
Proof.
  induction nodes as [|[i x] nodes IH]; intros a id l Ha; cbn [fold_left fst snd].
  - cbn [In]. split; [intros []|]. intros [[]|(_ & [(_ & mid & post & E & _)|(pre & ? & ? & ? & ? & E & _)])]; destruct mid || destruct pre; discriminate.
  - rewrite reg_node. destruct x as [lx| |]; cbn [step_polys].
    + cbn [app]. rewrite (proj1 (go_snd nodes (Some []) [(i, lx)])). cbn [app In]. rewrite (IH (Some []) id l) by auto. split.
      * intros [E|[H|(El & [(_ & mid & post & -> & F)|(pre & i0 & l0 & mid & post & -> & F)])]].
        -- injection E as -> ->. left; now left.
        -- left; now right.
        -- right. split; [exact El|]. right. exists [], i, lx, mid, post. auto.
        -- right. split; [exact El|]. right. exists ((i, SetPolys lx) :: pre), i0, l0, mid, post. auto.
      * intros [[E|H]|(El & [(_ & mid & post & E & F)|(pre & i0 & l0 & mid & post & E & F)])].
        -- injection E as -> ->. now left.
        -- right; now left.
        -- destruct mid as [|y mid]; [discriminate|]. injection E as <- _. inversion_clear F as [|? ? F1 _]. discriminate.
        -- right; right. split; [exact El|]. destruct pre as [|y pre]; cbn [app] in E; injection E as E1 E2.
           ++ left. split; [reflexivity|]. subst nodes. eauto.
           ++ right. subst nodes. eauto 10.
    + rewrite (IH None id l) by auto. cbn [In]. split.
      * intros [H|(El & [(C & _)|(pre & i0 & l0 & mid & post & -> & F)])]; [left; now right|discriminate|].
        right. split; [exact El|]. right. exists ((i, ClearPolys) :: pre), i0, l0, mid, post. auto.
      * intros [[E|H]|(El & [(_ & mid & post & E & F)|(pre & i0 & l0 & mid & post & E & F)])]; [discriminate|now left| |].
        -- destruct mid as [|y mid]; [discriminate|]. injection E as <- _. inversion_clear F as [|? ? F1 _]. discriminate.
        -- right. split; [exact El|]. right. destruct pre as [|y pre]; [discriminate|]. injection E as _ ->. eauto 10.
    + destruct Ha as [->| ->].
      * rewrite (IH None id l) by auto. cbn [In]. split.
        -- intros [H|(El & [(C & _)|(pre & i0 & l0 & mid & post & -> & F)])]; [left; now right|discriminate|].
           right. split; [exact El|]. right. exists ((i, LeavePolys) :: pre), i0, l0, mid, post. auto.
        -- intros [[E|H]|(El & [(C & _)|(pre & i0 & l0 & mid & post & E & F)])]; [discriminate|now left|discriminate|].
           right. split; [exact El|]. right. destruct pre as [|y pre]; [discriminate|]. injection E as _ ->. eauto 10.
      * cbn [app]. rewrite (proj1 (go_snd nodes (Some []) [(i, [])])). cbn [app In]. rewrite (IH (Some []) id l) by auto. split.
        -- intros [E|[H|(El & [(_ & mid & post & -> & F)|(pre & i0 & l0 & mid & post & -> & F)])]].
           ++ injection E as -> <-. right. split; [reflexivity|]. left. split; [reflexivity|]. exists [], nodes. auto.
           ++ left; now right.
           ++ right. split; [exact El|]. left. split; [reflexivity|]. exists ((i, LeavePolys) :: mid), post. split; [reflexivity|]. constructor; [reflexivity|exact F].
           ++ right. split; [exact El|]. right. exists ((i, LeavePolys) :: pre), i0, l0, mid, post. auto.
        -- intros [[E|H]|(El & [(_ & mid & post & E & F)|(pre & i0 & l0 & mid & post & E & F)])]; [discriminate|right; now left| |].
           ++ destruct mid as [|y mid]; cbn [app] in E.
              ** injection E as -> _. left. now rewrite El.
              ** injection E as _ ->. inversion_clear F as [|? ? _ F2]. right; right. split; [exact El|]. left. eauto.
           ++ destruct pre as [|y pre]; [discriminate|]. injection E as _ ->. right; right. split; [exact El|]. right. eauto 10.
Qed.
Lemma registered (nodes : list (nat * act)) id l :
  In (id, l) (register nodes) <->
  In (id, SetPolys l) nodes \/
  l = [] /\ exists pre id0 l0 mid post, nodes = (pre ++ (id0, SetPolys l0) :: mid ++ (id, LeavePolys) :: post)%list /\ (forall n, In n mid -> snd n = LeavePolys).
Proof.
  unfold register. rewrite (registered_gen nodes None id l) by auto. split.
  - intros [H|(El & [(C & _)|(pre & i0 & l0 & mid & post & E & F)])]; [auto|discriminate|]. right. split; [exact El|]. rewrite Forall_forall in F. unfold leaves in F. eauto 10.
  - intros [H|(El & (pre & i0 & l0 & mid & post & E & F))]; [auto|]. right. split; [exact El|]. right. exists pre, i0, l0, mid, post. split; [exact E|]. apply Forall_forall. exact F.
Qed.
Lemma registered_keys (nodes : list (nat * act)) : NoDup (map fst nodes) -> NoDup (map fst (register nodes)).
Proof.
  unfold register. generalize (@None (list (string * P))). induction nodes as [|[i x] nodes IH]; intros a N; cbn [fold_left fst snd map] in *; [constructor|].
  inversion_clear N as [|? ? N1 N2]. rewrite reg_node.
  assert (Sub : forall b k, In k (map fst (snd (go (b, []) nodes))) -> In k (map fst nodes)).
  { clear. induction nodes as [|[i x] nodes IH]; intros b k; cbn [fold_left fst snd map]; [intros []|]. rewrite reg_node.
    destruct (step_polys x b) as [l|]; [cbn [app]; rewrite (proj1 (go_snd nodes (Some []) [(i, l)])); cbn [app map fst]; intros [<-|H]; [now left|right; eauto]|intros H; right; eauto]. }
  destruct (step_polys x a) as [l|]; [|now apply IH]. cbn [app]. rewrite (proj1 (go_snd nodes (Some []) [(i, l)])). cbn [app map fst]. constructor; [|now apply IH]. intros X. now apply N1, (Sub (Some [])).
Qed.
End Register.

Section Stuck.
Context {K : field} {CW Cm Prf : Type}.
Context (pure : CW -> Cm) (trivial_nv : nat) (pcs_commit : dmle K -> option CW).
Context (pcs_verify : Cm -> list K -> K -> Prf -> bool).
Context (pcs_batch_verify : list Cm -> list (list K) -> list (nat * nat * K) -> Prf -> @hist K -> bool).
(** A layer that leaves the field alone and comes after one with polynomials: no proof of the model is ever accepted. *)
Lemma leftover_rejected (nodes : list (nat * poly_action (dmle K))) pre i l mid j post cols ts x ops s proof h : NoDup (map fst nodes) -> NoDup ts ->
  (forall n q, In (n, SetPolys q) nodes -> NoDup (map fst q)) ->
  nodes = (pre ++ (i, SetPolys l) :: mid ++ (j, LeavePolys) :: post)%list -> (forall n, In n mid -> snd n = LeavePolys) ->
  cctx_new pcs_commit (register nodes) cols ts = Some x ->
  (forall cls, In (OpCommon j cls) ops -> cls = []) -> v_run trivial_nv ops (v_new pure x) = Some s -> v_verify pcs_verify pcs_batch_verify s proof h = false.
Proof.
  intros N Nt Nq E F Hx Ho R.
  assert (Hj : In (j, []) (register nodes)) by (apply registered; right; split; [reflexivity|]; eauto 10).
  pose proof (new_maps_ok pcs_commit _ _ _ _ Hx Nt) as W. apply (omitted_rejected pure trivial_nv pcs_verify pcs_batch_verify x ops s proof h j W R); [|exact Ho].
  apply (new_contents pcs_commit _ _ _ _ Hx); [now apply registered_keys| |exact (in_map fst _ _ Hj)].
  intros n q Hq. apply registered in Hq. destruct Hq as [Hq|[-> _]]; [eauto|constructor].
Qed.
End Stuck.
