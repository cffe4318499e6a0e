(** Proofs about the commitment verifier, its prover and the registration of polynomials. *)
From Coq Require Import String Ascii NArith.
From Coq Require Import List Arith Lia Bool ZArith Permutation.
From Verif Require Import ListAux FieldDef M_Mle M_Sumcheck M_SamePoly M_Tables M_Commit.
Import ListNotations.

(** Lookup in a list of pairs, for the specifications. *)
Definition assoc {A V} (eqb : A -> A -> bool) (k : A) (l : list (A * V)) : option V := option_map snd (find (fun kv => eqb k (fst kv)) l).

Lemma tt_eqb_eq a b : tt_eqb a b = true <-> a = b.
Proof.
  split.
  - destruct a, b; cbn [tt_eqb]; intros H; try discriminate; try reflexivity;
    repeat match goal with H : _ && _ = true |- _ => apply andb_true_iff in H; destruct H end;
    repeat match goal with H : Z.eqb _ _ = true |- _ => apply Z.eqb_eq in H | H : Nat.eqb _ _ = true |- _ => apply Nat.eqb_eq in H end; subst; reflexivity.
  - intros ->. destruct b; cbn [tt_eqb]; rewrite ?Z.eqb_refl, ?Nat.eqb_refl; reflexivity.
Qed.
Definition reflects {A} (eqb : A -> A -> bool) := forall a b, eqb a b = true <-> a = b.
Lemma str_compare_refl a : String.compare a a = Eq.
Proof.
  induction a as [|c a IH]; cbn [String.compare]; [reflexivity|].
  unfold Ascii.compare. rewrite N.compare_refl. exact IH.
Qed.
Lemma key_str : reflects (key_eqb String.compare).
Proof.
  intros a b; unfold key_eqb. split.
  - destruct (String.compare a b) eqn:E; intros H; try discriminate. now apply String.compare_eq_iff.
  - intros ->. now rewrite str_compare_refl.
Qed.
Lemma key_nat : reflects (key_eqb Nat.compare).
Proof.
  intros a b; unfold key_eqb. destruct (Nat.compare a b) eqn:E; split; intros H; try discriminate; try reflexivity.
  - now apply Nat.compare_eq_iff. - apply Nat.compare_eq_iff in H; congruence. - apply Nat.compare_eq_iff in H; congruence.
Qed.
Lemma key_tt : reflects (key_eqb (tt_cmp tt_eqb)).
Proof. intros a b; unfold key_eqb, tt_cmp. rewrite <- tt_eqb_eq. destruct (tt_eqb a b); split; intros H; congruence. Qed.

Section MapFacts.
Context {A V : Type} (cmp : A -> A -> comparison) (Hk : reflects (key_eqb cmp)).
Implicit Types l : list (A * V).
Lemma m_remove_spec k v r l : m_remove cmp k l = Some (v, r) -> exists l1 l2, l = l1 ++ (k, v) :: l2 /\ r = l1 ++ l2 /\ ~ In k (map fst l1).
Proof.
  revert r; induction l as [|[k' v'] l IH]; intros r H; cbn [m_remove] in H; [discriminate|].
  destruct (key_eqb cmp k k') eqn:E.
  - injection H as <- <-. apply Hk in E; subst k'. exists [], l; repeat split; auto.
  - destruct (m_remove cmp k l) as [[v0 r0]|] eqn:E2; cbn [obind fst snd] in H; [|discriminate]. injection H as <- <-.
    destruct (IH _ eq_refl) as (l1 & l2 & -> & -> & N). exists ((k', v') :: l1), l2; repeat split; auto.
    cbn [map fst]; intros [->|N']; [|now apply N]. assert (key_eqb cmp k k = true) by now apply Hk. congruence.
Qed.
Lemma m_remove_none k l : m_remove cmp k l = None -> ~ In k (map fst l).
Proof.
  induction l as [|[k' v'] l IH]; intros H; cbn [m_remove] in H; [intros []|].
  destruct (key_eqb cmp k k') eqn:E; [discriminate|].
  destruct (m_remove cmp k l) as [[v0 r0]|] eqn:E2; cbn [obind] in H; [discriminate|].
  cbn [map fst]; intros [->|N]; [|now apply IH]. assert (key_eqb cmp k k = true) by now apply Hk. congruence.
Qed.
Lemma m_remove_some k l : In k (map fst l) -> exists v r, m_remove cmp k l = Some (v, r).
Proof. intros H. destruct (m_remove cmp k l) as [[v r]|] eqn:E; [eauto|]. now apply m_remove_none in E. Qed.
Lemma m_get_assoc k l : m_get cmp k l = assoc (key_eqb cmp) k l.
Proof. unfold assoc; induction l as [|[k' v'] l IH]; cbn [m_get find fst]; [reflexivity|]. destruct (key_eqb cmp k k'); [reflexivity|exact IH]. Qed.
Lemma assoc_in (eqb : A -> A -> bool) (He : reflects eqb) k v l : assoc eqb k l = Some v -> In (k, v) l.
Proof.
  unfold assoc; intros H. destruct (find _ l) as [[k' v']|] eqn:E; [|discriminate]. cbn in H; injection H as ->.
  apply find_some in E; cbn [fst] in E; destruct E as [E1 E2]. apply He in E2; subst; exact E1.
Qed.
Lemma assoc_nodup (eqb : A -> A -> bool) (He : reflects eqb) k v l : NoDup (map fst l) -> In (k, v) l -> assoc eqb k l = Some v.
Proof.
  unfold assoc; induction l as [|[k' v'] l IH]; intros N H; [destruct H|]. cbn [map fst] in N; inversion_clear N as [|? ? N1 N2].
  cbn [find fst]. destruct (eqb k k') eqn:E.
  - apply He in E; subst k'. destruct H as [H|H]; [injection H as ->; reflexivity|]. exfalso; apply N1, (in_map fst _ _ H).
  - destruct H as [H|H]; [|now apply IH]. injection H as -> ->. assert (eqb k k = true) by now apply He. congruence.
Qed.
Lemma assoc_none (eqb : A -> A -> bool) (He : reflects eqb) k l : assoc eqb k l = None <-> ~ In k (map fst l).
Proof.
  unfold assoc; induction l as [|[k' v'] l IH]; cbn [find fst map In]; [tauto|].
  destruct (eqb k k') eqn:E.
  - apply He in E; subst. cbn. split; [discriminate|tauto].
  - rewrite IH. assert (k' <> k) by (intros ->; assert (eqb k k = true) by (now apply He); congruence). tauto.
Qed.
Lemma m_remove_assoc (eqb : A -> A -> bool) (He : reflects eqb) k v r l : m_remove cmp k l = Some (v, r) -> assoc eqb k l = Some v.
Proof.
  intros H. destruct (m_remove_spec _ _ _ _ H) as (l1 & l2 & -> & -> & N). unfold assoc.
  induction l1 as [|[a b] l1 IH]; cbn [app find fst].
  - assert (eqb k k = true) by now apply He. rewrite H0; reflexivity.
  - destruct (eqb k a) eqn:E; [apply He in E; subst; exfalso; apply N; now left|].
    cbn [m_remove app] in H. destruct (key_eqb cmp k a) eqn:E3; [apply Hk in E3; subst; exfalso; apply N; now left|].
    apply IH; [|intros X; apply N; now right].
    destruct (m_remove cmp k (l1 ++ (k, v) :: l2)) as [[v0 r0]|]; cbn [obind fst snd] in H; [|discriminate]. now inversion H.
Qed.
Lemma m_remove_keys k v r l : m_remove cmp k l = Some (v, r) -> Permutation (map fst l) (k :: map fst r).
Proof. intros H. destruct (m_remove_spec _ _ _ _ H) as (l1 & l2 & -> & -> & _). rewrite !map_app; cbn [map fst]. symmetry; apply Permutation_middle. Qed.
Lemma m_remove_nodup k v r l : m_remove cmp k l = Some (v, r) -> NoDup (map fst l) -> NoDup (map fst r) /\ ~ In k (map fst r).
Proof. intros H N. pose proof (Permutation_NoDup (m_remove_keys _ _ _ _ H) N) as P. inversion_clear P; auto. Qed.
Lemma m_remove_other (eqb : A -> A -> bool) (He : reflects eqb) k v r l k' : m_remove cmp k l = Some (v, r) -> k' <> k -> assoc eqb k' r = assoc eqb k' l.
Proof.
  intros H Nk. destruct (m_remove_spec _ _ _ _ H) as (l1 & l2 & -> & -> & _). unfold assoc.
  clear H. induction l1 as [|[a b] l1 IH]; cbn [app find fst].
  - destruct (eqb k' k) eqn:E; [apply He in E; contradiction|reflexivity].
  - destruct (eqb k' a); [reflexivity|exact IH].
Qed.
(** Sorted insertion keeps the keys distinct and gives the last value. *)
Lemma bt_insert_get (Hlt : forall a b, cmp a b = Eq <-> a = b) k v l k' :
  m_get cmp k' (bt_insert cmp k v l) = if key_eqb cmp k' k then Some v else m_get cmp k' l.
Proof.
  induction l as [|[a b] l IH]; cbn [bt_insert m_get]; [reflexivity|].
  destruct (cmp k a) eqn:E; cbn [m_get].
  - apply Hlt in E; subst a. destruct (key_eqb cmp k' k); reflexivity.
  - reflexivity.
  - rewrite IH. destruct (key_eqb cmp k' a) eqn:E1, (key_eqb cmp k' k) eqn:E2; try reflexivity.
    apply Hk in E1, E2; subst. assert (cmp a a = Eq) by now apply Hlt. congruence.
Qed.
Lemma bt_insert_keys k v l x : In x (map fst (bt_insert cmp k v l)) -> x = k \/ In x (map fst l).
Proof.
  induction l as [|[a b] l IH]; cbn [bt_insert map fst In]; [intros [->|[]]; auto|].
  destruct (cmp k a); cbn [map fst In]; intros [H|H]; auto. destruct (IH H); auto.
Qed.
End MapFacts.

Section Proofs.
Context {K : field} {CW Cm Prf : Type}.
Notation claim := (@claim K).
Notation hist := (@hist K).
Context (pure : CW -> Cm) (trivial_nv : nat).
Context (pcs_verify : Cm -> list K -> K -> Prf -> bool).
Context (pcs_batch_verify : list Cm -> list (list K) -> list (nat * nat * K) -> Prf -> hist -> bool).
Notation vstate := (@vstate K Cm).
Notation vop := (@vop K Cm).
Notation v_run := (@v_run K Cm trivial_nv).
Notation v_new := (@v_new K CW Cm pure).
Notation v_witness := (@v_witness K Cm trivial_nv).
Notation v_verify := (v_verify pcs_verify pcs_batch_verify).

(** ** Specification *)
Definition big (x : Cm * claim) : bool := negb (length (cl_point (snd x)) <=? trivial_nv).
(** The claims an operation puts forward, read off the original maps. *)
Definition op_claims (M : list (nat * list (string * Cm))) (Tb : list (table_type * Cm)) (o : vop) : list (Cm * claim) :=
  match o with
  | OpWitness c cl => [(c, cl)]
  | OpCommon n [] => []
  | OpCommon n cls =>
      match assoc Nat.eqb n M with
      | Some polys => flat_map (fun ip => match assoc String.eqb (fst ip) cls with Some cl => [(snd ip, cl)] | None => [] end) polys
      | None => []
      end
  | OpTable t cl => match assoc tt_eqb t Tb with Some c => [(c, cl)] | None => [] end
  end.
(** A claim about a commitment has been opened by this proof. *)
Definition opened (proof : Prf * list Prf) (h : hist) (c : Cm) (cl : claim) : Prop :=
  (length (cl_point cl) <= trivial_nv /\ exists pr, In pr (snd proof) /\ pcs_verify c (cl_point cl) (cl_eval cl) pr = true) \/
  (trivial_nv < length (cl_point cl) /\ exists cs ps es i, nth_error cs i = Some c /\ nth_error ps i = Some (cl_point cl) /\
     nth_error es i = Some (i, i, cl_eval cl) /\ pcs_batch_verify cs ps es (fst proof) h = true).

Lemma nat_refl : reflects Nat.eqb. Proof. intros a b; apply Nat.eqb_eq. Qed.
Lemma str_refl : reflects String.eqb. Proof. intros a b; apply String.eqb_eq. Qed.
Lemma tt_refl : reflects tt_eqb. Proof. intros a b; apply tt_eqb_eq. Qed.

(** ** One operation *)
Lemma witness_model c cl (s : vstate) : vs_model (v_witness c cl s) = vs_model s /\ vs_tables (v_witness c cl s) = vs_tables s.
Proof. unfold M_Commit.v_witness; destruct (_ <=? _); auto. Qed.
Lemma witness_claims c cl (s : vstate) :
  vs_claims (v_witness c cl s) = vs_claims s ++ filter big [(c, cl)] /\ vs_trivial (v_witness c cl s) = vs_trivial s ++ filter (fun x => negb (big x)) [(c, cl)].
Proof. unfold M_Commit.v_witness, big; cbn [filter snd]. destruct (_ <=? _); cbn; rewrite ?app_nil_r; auto. Qed.

Definition node_spec (polys : list (string * Cm)) (cls : list (string * claim)) : list (Cm * claim) :=
  flat_map (fun ip => match assoc String.eqb (fst ip) cls with Some cl => [(snd ip, cl)] | None => [] end) polys.
Lemma node_spec_other polys id cl rest cls : m_remove String.compare id cls = Some (cl, rest) -> ~ In id (map fst polys) ->
  node_spec polys rest = node_spec polys cls.
Proof.
  intros H N. unfold node_spec. apply flat_map_ext_in || rewrite !flat_map_concat_map; f_equal. apply map_ext_in; intros [i c] Hi; cbn [fst snd].
  rewrite (m_remove_other _ key_str _ str_refl _ _ _ _ i H); [reflexivity|]. intros ->. apply N, (in_map fst _ _ Hi).
Qed.
Lemma node_claims_spec polys : forall cls (s s' : vstate), NoDup (map fst polys) -> v_node_claims trivial_nv polys cls s = (true, s') ->
  vs_model s' = vs_model s /\ vs_tables s' = vs_tables s /\
  vs_claims s' = vs_claims s ++ filter big (node_spec polys cls) /\
  vs_trivial s' = vs_trivial s ++ filter (fun x => negb (big x)) (node_spec polys cls) /\
  (forall id, In id (map fst polys) -> In id (map fst cls)).
Proof.
  induction polys as [|[id c] polys IH]; intros cls s s' N H; cbn [v_node_claims] in H.
  - injection H as <-. cbn. rewrite !app_nil_r. repeat split; auto. intros id [].
  - destruct (m_remove String.compare id cls) as [[cl rest]|] eqn:E; [|discriminate].
    cbn [map fst] in N; inversion_clear N as [|? ? N1 N2].
    destruct (IH _ _ _ N2 H) as (H1 & H2 & H3 & H4 & H5).
    destruct (witness_model c cl s) as [W1 W2]. destruct (witness_claims c cl s) as [W3 W4].
    rewrite (node_spec_other _ _ _ _ _ E N1) in H3, H4.
    assert (NS : node_spec ((id, c) :: polys) cls = (c, cl) :: node_spec polys cls).
    { unfold node_spec at 1; cbn [flat_map fst snd]. rewrite (m_remove_assoc _ key_str _ str_refl _ _ _ _ E). reflexivity. }
    rewrite NS. change ((c, cl) :: node_spec polys cls) with ([(c, cl)] ++ node_spec polys cls). rewrite !filter_app, !app_assoc.
    rewrite H1, H2, H3, H4, W1, W2, W3, W4. repeat split; auto.
    intros id' [<-|Hi].
    + destruct (m_remove_spec _ key_str _ _ _ _ E) as (l1 & l2 & -> & _ & _). rewrite map_app, in_app_iff; right; now left.
    + apply (Permutation_in _ (Permutation_sym (m_remove_keys _ key_str _ _ _ _ E))). right; auto.
Qed.
Lemma node_claims_ok polys : forall cls (s : vstate), NoDup (map fst polys) -> (forall id, In id (map fst polys) -> In id (map fst cls)) ->
  exists s', v_node_claims trivial_nv polys cls s = (true, s').
Proof.
  induction polys as [|[id c] polys IH]; intros cls s N H; cbn [v_node_claims]; [eauto|].
  destruct (m_remove_some _ key_str id cls) as (cl & rest & E); [apply H; now left|]. rewrite E.
  cbn [map fst] in N; inversion_clear N as [|? ? N1 N2]. apply IH; [exact N2|].
  intros id' Hi. pose proof (Permutation_in _ (m_remove_keys _ key_str _ _ _ _ E) (H id' (or_intror Hi))) as [->|X]; [contradiction|exact X].
Qed.

(** ** Runs *)
(** The invariant: the maps only lose entries, each at the operation on its key; the claims are those put forward, in order. *)
Definition wf_maps (M : list (nat * list (string * Cm))) (Tb : list (table_type * Cm)) : Prop :=
  NoDup (map fst M) /\ NoDup (map fst Tb) /\ forall n polys, In (n, polys) M -> NoDup (map fst polys).
Definition uses_node (n : nat) (o : vop) : bool := match o with OpCommon m (_ :: _) => n =? m | _ => false end.
Definition uses_table (t : table_type) (o : vop) : bool := match o with OpTable u _ => tt_eqb t u | _ => false end.
Definition count (f : vop -> bool) (l : list vop) : nat := length (filter f l).

Record linked (M : list (nat * list (string * Cm))) (Tb : list (table_type * Cm)) (ops : list vop) (s s' : vstate) : Prop := mkLinked {
  lk_claims : vs_claims s' = vs_claims s ++ filter big (flat_map (op_claims M Tb) ops);
  lk_trivial : vs_trivial s' = vs_trivial s ++ filter (fun x => negb (big x)) (flat_map (op_claims M Tb) ops);
  lk_model : forall n, assoc Nat.eqb n (vs_model s') = if 0 <? count (uses_node n) ops then None else assoc Nat.eqb n (vs_model s);
  lk_table : forall t, assoc tt_eqb t (vs_tables s') = if 0 <? count (uses_table t) ops then None else assoc tt_eqb t (vs_tables s);
  lk_once : forall n, count (uses_node n) ops <= (if assoc Nat.eqb n (vs_model s) then 1 else 0);
  lk_tonce : forall t, count (uses_table t) ops <= (if assoc tt_eqb t (vs_tables s) then 1 else 0);
  lk_full : forall n cls polys, In (OpCommon n cls) ops -> cls <> [] -> assoc Nat.eqb n M = Some polys -> forall id, In id (map fst polys) -> In id (map fst cls) }.
Definition sub_maps (M : list (nat * list (string * Cm))) (Tb : list (table_type * Cm)) (s : vstate) : Prop :=
  NoDup (map fst (vs_model s)) /\ NoDup (map fst (vs_tables s)) /\
  (forall n p, assoc Nat.eqb n (vs_model s) = Some p -> assoc Nat.eqb n M = Some p /\ NoDup (map fst p)) /\
  (forall t c, assoc tt_eqb t (vs_tables s) = Some c -> assoc tt_eqb t Tb = Some c).

Lemma count_cons f o l : count f (o :: l) = (if f o then 1 else 0) + count f l.
Proof. unfold count; cbn [filter]; destruct (f o); reflexivity. Qed.

Lemma step_linked M Tb o (s s' : vstate) : sub_maps M Tb s -> v_step trivial_nv o s = (true, s') -> sub_maps M Tb s' /\ linked M Tb [o] s s'.
Proof.
  intros (N1 & N2 & SM & ST) H. destruct o as [c cl|n cls|t cl]; cbn [v_step] in H.
  - injection H as <-. destruct (witness_model c cl s) as [W1 W2]. destruct (witness_claims c cl s) as [W3 W4]. split.
    + unfold sub_maps; rewrite W1, W2; auto.
    + constructor; cbn [flat_map op_claims app]; unfold count; cbn [filter uses_node uses_table length]; rewrite ?W1, ?W2; auto; try (intros; lia).
      intros n cls polys [E|[]]; discriminate.
  - destruct cls as [|c0 cls]; cbn [v_common] in H.
    + injection H as <-. split; [unfold sub_maps; auto|]. constructor; cbn [flat_map op_claims app filter]; unfold count; cbn [filter uses_node uses_table length]; rewrite ?app_nil_r; auto; try (intros; lia).
      intros n0 cls0 polys [E|[]] Ne; injection E as <- <-; contradiction.
    + destruct (m_remove Nat.compare n (vs_model s)) as [[polys rest]|] eqn:E; [|discriminate].
      pose proof (m_remove_assoc _ key_nat _ nat_refl _ _ _ _ E) as A. destruct (SM _ _ A) as [AM NP].
      destruct (m_remove_nodup _ key_nat _ _ _ _ E N1) as [NR NI].
      destruct (node_claims_spec _ _ _ _ NP H) as (H1 & H2 & H3 & H4 & H5). cbn [vs_model vs_tables vs_claims vs_trivial] in H1, H2, H3, H4.
      assert (RN : assoc Nat.eqb n rest = None) by now apply (assoc_none _ nat_refl).
      assert (RO : forall m, m <> n -> assoc Nat.eqb m rest = assoc Nat.eqb m (vs_model s)) by (intros m Hm; exact (m_remove_other _ key_nat _ nat_refl _ _ _ _ m E Hm)).
      split.
      * unfold sub_maps. rewrite H1, H2. split; [exact NR|split; [exact N2|split; [|exact ST]]]. intros m p Hm.
        destruct (Nat.eq_dec m n) as [->|Nm]; [congruence|]. rewrite (RO _ Nm) in Hm. now apply SM.
      * constructor; cbn [flat_map op_claims]; rewrite ?AM, ?app_nil_r; auto.
        -- intros m. rewrite H1. unfold count; cbn [filter uses_node]. destruct (m =? n) eqn:Em; cbn [length].
           ++ apply Nat.eqb_eq in Em; subst m; exact RN. ++ apply Nat.eqb_neq in Em; cbn. now apply RO.
        -- intros t. rewrite H2. reflexivity.
        -- intros m. unfold count; cbn [filter uses_node]. destruct (m =? n) eqn:Em; cbn [length]; [|destruct (assoc _ _ _); lia].
           apply Nat.eqb_eq in Em; subst m; rewrite A; lia.
        -- intros t. unfold count; cbn [filter uses_table length]. destruct (assoc _ _ _); lia.
        -- intros n0 cls0 polys0 [E0|[]] Ne A0; injection E0 as <- <-. rewrite AM in A0; injection A0 as <-. exact H5.
  - unfold v_table in H. destruct (m_remove (tt_cmp tt_eqb) t (vs_tables s)) as [[c rest]|] eqn:E; [|discriminate]. injection H as <-.
    pose proof (m_remove_assoc _ key_tt _ tt_refl _ _ _ _ E) as A.
    destruct (m_remove_nodup _ key_tt _ _ _ _ E N2) as [NR NI].
    set (s1 := mkVst (vs_model s) rest (vs_claims s) (vs_trivial s)).
    destruct (witness_model c cl s1) as [W1 W2]. destruct (witness_claims c cl s1) as [W3 W4].
    change (vs_model s1) with (vs_model s) in *; change (vs_tables s1) with rest in *; change (vs_claims s1) with (vs_claims s) in *; change (vs_trivial s1) with (vs_trivial s) in *.
    assert (RN : assoc tt_eqb t rest = None) by now apply (assoc_none _ tt_refl).
    assert (RO : forall u, u <> t -> assoc tt_eqb u rest = assoc tt_eqb u (vs_tables s)) by (intros u Hu; exact (m_remove_other _ key_tt _ tt_refl _ _ _ _ u E Hu)).
    assert (TD : forall u : table_type, u = t \/ u <> t) by (intros u; destruct (tt_eqb u t) eqn:Eu; [left; now apply tt_eqb_eq|right; intros ->; rewrite (proj2 (tt_eqb_eq t t) eq_refl) in Eu; discriminate]).
    split.
    + unfold sub_maps. rewrite W1, W2. split; [exact N1|split; [exact NR|split; [exact SM|]]].
      intros u c' Hu. destruct (TD u) as [->|Nu]; [congruence|]. rewrite (RO _ Nu) in Hu. now apply ST.
    + constructor; cbn [flat_map op_claims]; rewrite ?(ST _ _ A), ?app_nil_r; auto.
      * intros n. rewrite W1. reflexivity.
      * intros u. rewrite W2. unfold count; cbn [filter uses_table]. destruct (tt_eqb u t) eqn:Eu; cbn [length].
        -- apply tt_eqb_eq in Eu; subst u; exact RN.
        -- cbn. apply RO. intros ->. assert (tt_eqb t t = true) by now apply tt_eqb_eq. congruence.
      * intros n. unfold count; cbn [filter uses_node length]. destruct (assoc _ _ _); lia.
      * intros u. unfold count; cbn [filter uses_table]. destruct (tt_eqb u t) eqn:Eu; cbn [length]; [|destruct (assoc _ _ _); lia].
        apply tt_eqb_eq in Eu; subst u; rewrite A; lia.
      * intros n cls polys [E0|[]]; discriminate.
Qed.
Lemma run_linked M Tb ops : forall s s' : vstate, sub_maps M Tb s -> v_run ops s = Some s' -> sub_maps M Tb s' /\ linked M Tb ops s s'.
Proof.
  induction ops as [|o ops IH]; intros s s' SM H; cbn [M_Commit.v_run] in H.
  - injection H as <-. split; [exact SM|]. constructor; cbn [flat_map filter]; rewrite ?app_nil_r; auto; try (intros; cbn; destruct (assoc _ _ _); lia). intros n cls polys [].
  - destruct (v_step trivial_nv o s) as [b s1] eqn:E. destruct b; [|discriminate].
    destruct (step_linked M Tb o s s1 SM E) as [SM1 [A1 A2 A3 A4 A5 A6 A7]].
    destruct (IH _ _ SM1 H) as [SM2 [B1 B2 B3 B4 B5 B6 B7]]. split; [exact SM2|].
    assert (C1 : forall f, count f [o] = if f o then 1 else 0) by (intros f; rewrite count_cons; unfold count; cbn; lia).
    cbn [flat_map app] in A1, A2. rewrite app_nil_r in A1, A2.
    constructor.
    + rewrite B1, A1. cbn [flat_map]. now rewrite filter_app, app_assoc.
    + rewrite B2, A2. cbn [flat_map]. now rewrite filter_app, app_assoc.
    + intros n. rewrite B3, A3, (count_cons _ o ops), C1. destruct (uses_node n o); destruct (count (uses_node n) ops); reflexivity.
    + intros t. rewrite B4, A4, (count_cons _ o ops), C1. destruct (uses_table t o); destruct (count (uses_table t) ops); reflexivity.
    + intros n. rewrite count_cons. specialize (A5 n); specialize (B5 n). rewrite A3 in B5. rewrite C1 in *. destruct (uses_node n o); cbn [Nat.ltb Nat.leb] in B5; lia.
    + intros t. rewrite count_cons. specialize (A6 t); specialize (B6 t). rewrite A4 in B6. rewrite C1 in *. destruct (uses_table t o); cbn [Nat.ltb Nat.leb] in B6; lia.
    + intros n cls polys [->|Hi]; [apply A7; now left|now apply B7].
Qed.
Definition maps_ok (x : @cctx K CW) : Prop :=
  NoDup (map fst (cx_model x)) /\ NoDup (map fst (cx_tables x)) /\ forall n polys, In (n, polys) (cx_model x) -> NoDup (map fst polys).
Definition new_model (x : @cctx K CW) := map (fun n => (fst n, map (fun ip => (fst ip, pure (fst (snd ip)))) (snd n))) (cx_model x).
Definition new_tables (x : @cctx K CW) := map (fun t => (fst t, pure (fst (snd t)))) (cx_tables x).
Lemma map_fst_pair {A B C} (f : B -> C) (l : list (A * B)) : map fst (map (fun p => (fst p, f (snd p))) l) = map fst l.
Proof. rewrite map_map. apply map_ext; reflexivity. Qed.
Lemma new_keys x : map fst (new_model x) = map fst (cx_model x) /\ map fst (new_tables x) = map fst (cx_tables x).
Proof. unfold new_model, new_tables. split; rewrite map_map; apply map_ext; reflexivity. Qed.
Lemma new_sub x : maps_ok x -> sub_maps (new_model x) (new_tables x) (v_new x).
Proof.
  intros (N1 & N2 & N3). destruct (new_keys x) as [K1 K2]. unfold sub_maps; cbn [M_Commit.v_new vs_model vs_tables].
  fold (new_model x). fold (new_tables x). rewrite K1, K2. split; [exact N1|split; [exact N2|split; [|auto]]]. intros n p H. split; [exact H|].
  apply (assoc_in _ nat_refl) in H. unfold new_model in H. apply in_map_iff in H. destruct H as ([n' pl] & E & Hi). cbn [fst snd] in E. injection E as -> <-.
  rewrite map_map. erewrite map_ext; [exact (N3 _ _ Hi)|reflexivity].
Qed.

Lemma verify_inv s proof h : v_verify s proof h = true -> vs_model s = [] /\ vs_tables s = [] /\
  length (vs_trivial s) = length (snd proof) /\
  (forall i c cl pr, nth_error (vs_trivial s) i = Some (c, cl) -> nth_error (snd proof) i = Some pr -> pcs_verify c (cl_point cl) (cl_eval cl) pr = true) /\
  pcs_batch_verify (map fst (vs_claims s)) (map (fun p => cl_point (snd p)) (vs_claims s))
    (map (fun ip => (fst ip, fst ip, cl_eval (snd (snd ip)))) (combine (seq 0 (length (vs_claims s))) (vs_claims s))) (fst proof) h = true.
Proof.
  unfold M_Commit.v_verify, batch_parts. destruct (vs_model s); [|discriminate]. destruct (vs_tables s); [|discriminate].
  intros H. apply andb_true_iff in H; destruct H as [H H3]. apply andb_true_iff in H; destruct H as [H1 H2]. apply Nat.eqb_eq in H1.
  repeat split; auto. intros i c cl pr E1 E2. rewrite forallb_forall in H2.
  apply (H2 (c, cl, pr)). clear -E1 E2. revert i E1 E2. generalize (snd proof). induction (vs_trivial s) as [|y l IH]; intros q i E1 E2; [destruct i; discriminate|].
  destruct q as [|z q]; [destruct i; discriminate|]. destruct i; cbn [nth_error combine] in *; [injection E1 as ->; injection E2 as ->; now left|right; eauto].
Qed.
Lemma nth_error_combine_seq {A} (l : list A) i x k : nth_error l i = Some x -> nth_error (combine (seq k (length l)) l) i = Some (k + i, x).
Proof. revert i k; induction l as [|y l IH]; intros i k H; [destruct i; discriminate|]. destruct i; cbn [length seq combine nth_error] in *; [injection H as ->; do 2 f_equal; lia|]. rewrite (IH _ _ H). do 2 f_equal; lia. Qed.
Lemma opened_all s proof h c cl : v_verify s proof h = true -> In (c, cl) (vs_claims s) /\ big (c, cl) = true \/ In (c, cl) (vs_trivial s) /\ big (c, cl) = false -> opened proof h c cl.
Proof.
  intros V. destruct (verify_inv _ _ _ V) as (_ & _ & L & Tr & Bt). unfold big; cbn [snd]. intros [[Hi Hb]|[Hi Hb]]; apply In_nth_error in Hi; destruct Hi as [i Hi].
  - right. apply negb_true_iff, Nat.leb_gt in Hb. split; [exact Hb|]. do 3 eexists; exists i. repeat split; [| | |exact Bt].
    + exact (map_nth_error fst _ _ Hi). + exact (map_nth_error (fun p => cl_point (snd p)) _ _ Hi).
    + rewrite (map_nth_error _ _ _ (nth_error_combine_seq _ _ _ 0 Hi)). reflexivity.
  - left. apply negb_false_iff, Nat.leb_le in Hb. split; [exact Hb|].
    destruct (nth_error (snd proof) i) as [pr|] eqn:E; [|apply nth_error_None in E; rewrite <- L in E; apply nth_error_None in E; congruence].
    exists pr. split; [exact (nth_error_In _ _ E)|exact (Tr _ _ _ _ Hi E)].
Qed.
Lemma count_split f ops : count f ops = 1 -> exists pre o post, ops = pre ++ o :: post /\ f o = true /\ (forall o', In o' (pre ++ post) -> f o' = false).
Proof.
  induction ops as [|o ops IH]; intros H; [discriminate|]. rewrite count_cons in H. destruct (f o) eqn:E.
  - exists [], o, ops. repeat split; auto. cbn [app]. intros o' Hi. destruct (f o') eqn:E'; [|reflexivity].
    assert (In o' (filter f ops)) by now apply filter_In. unfold count in H. destruct (filter f ops); [destruct H0|cbn in H; lia].
  - destruct IH as (pre & o1 & post & -> & F1 & F2); [lia|]. exists (o :: pre), o1, post. repeat split; auto. cbn [app]. intros o' [<-|Hi]; auto.
Qed.

(** Everything put forward is opened, and nothing else. *)
Lemma claims_exact x ops s : maps_ok x -> v_run ops (v_new x) = Some s ->
  vs_claims s = filter big (flat_map (op_claims (new_model x) (new_tables x)) ops) /\
  vs_trivial s = filter (fun y => negb (big y)) (flat_map (op_claims (new_model x) (new_tables x)) ops).
Proof. intros W R. destruct (run_linked _ _ _ _ _ (new_sub x W) R) as [_ [A1 A2 _ _ _ _ _]]. auto. Qed.
Lemma op_opened x ops s proof h o c cl : maps_ok x -> v_run ops (v_new x) = Some s -> v_verify s proof h = true ->
  In o ops -> In (c, cl) (op_claims (new_model x) (new_tables x) o) -> opened proof h c cl.
Proof.
  intros W R V Ho Hc. destruct (claims_exact _ _ _ W R) as [C1 C2]. apply (opened_all s); [exact V|].
  assert (F : In (c, cl) (flat_map (op_claims (new_model x) (new_tables x)) ops)) by (apply in_flat_map; eauto).
  rewrite C1, C2. destruct (big (c, cl)) eqn:E; [left|right]; rewrite filter_In; rewrite ?E; auto.
Qed.

Lemma all_opened x ops s proof h : maps_ok x -> v_run ops (v_new x) = Some s -> v_verify s proof h = true ->
  (forall n polys, In (n, polys) (cx_model x) -> exists pre cls post, ops = pre ++ OpCommon n cls :: post /\ cls <> [] /\
     (forall cls', In (OpCommon n cls') (pre ++ post) -> cls' = []) /\
     (forall id cw m, In (id, (cw, m)) polys -> exists cl, In (id, cl) cls /\ opened proof h (pure cw) cl)) /\
  (forall t cw m, In (t, (cw, m)) (cx_tables x) -> exists pre cl post, ops = pre ++ OpTable t cl :: post /\
     (forall cl', ~ In (OpTable t cl') (pre ++ post)) /\ opened proof h (pure cw) cl) /\
  (forall c cl, In (OpWitness c cl) ops -> opened proof h c cl).
Proof.
  intros W R V. pose proof (op_opened x ops s proof h) as OP.
  destruct (verify_inv _ _ _ V) as (E1 & E2 & _). destruct W as (N1 & N2 & N3). assert (W : maps_ok x) by (repeat split; auto).
  destruct (run_linked _ _ _ _ _ (new_sub x W) R) as [_ [_ _ A3 A4 A5 A6 A7]]. destruct (new_keys x) as [K1 K2].
  repeat split.
  - intros n polys Hn. specialize (A3 n); specialize (A5 n). rewrite E1 in A3. cbn [M_Commit.v_new vs_model] in A3, A5. fold (new_model x) in A3, A5.
    assert (AM : assoc Nat.eqb n (new_model x) = Some (map (fun ip => (fst ip, pure (fst (snd ip)))) polys)).
    { apply (assoc_nodup _ nat_refl); [now rewrite K1|]. unfold new_model. apply in_map_iff. exists (n, polys); auto. }
    rewrite AM in A3, A5. destruct (0 <? count (uses_node n) ops) eqn:Ec; [|discriminate]. apply Nat.ltb_lt in Ec.
    destruct (count_split (uses_node n) ops) as (pre & o & post & -> & F1 & F2); [lia|].
    destruct o as [?|m cls|?]; try discriminate. destruct cls as [|c0 cls]; [discriminate|]. cbn [uses_node] in F1. apply Nat.eqb_eq in F1; subst m.
    exists pre, (c0 :: cls), post. repeat split; [discriminate| |].
    + intros cls' Hi. specialize (F2 _ Hi). destruct cls'; [reflexivity|]. cbn [uses_node] in F2. rewrite Nat.eqb_refl in F2; discriminate.
    + intros id cw m Hid.
      assert (Hin : In id (map fst (c0 :: cls))).
      { refine (A7 n (c0 :: cls) _ _ _ AM id _); [apply in_app_iff; right; now left|discriminate|]. rewrite map_map. apply in_map_iff. exists (id, (cw, m)); auto. }
      destruct (assoc String.eqb id (c0 :: cls)) as [cl|] eqn:Ea; [|apply (assoc_none _ str_refl) in Ea; contradiction].
      exists cl. split; [exact (assoc_in _ str_refl _ _ _ Ea)|].
      apply (OP (OpCommon n (c0 :: cls)) (pure cw) cl W R V); [apply in_app_iff; right; now left|].
      cbn [op_claims]. rewrite AM. apply in_flat_map. exists (id, pure cw). cbn [fst snd]. rewrite Ea. split; [|now left]. apply in_map_iff. exists (id, (cw, m)); auto.
  - intros t cw m Ht. specialize (A4 t); specialize (A6 t). rewrite E2 in A4. cbn [M_Commit.v_new vs_tables] in A4, A6. fold (new_tables x) in A4, A6.
    assert (AT : assoc tt_eqb t (new_tables x) = Some (pure cw)).
    { apply (assoc_nodup _ tt_refl); [now rewrite K2|]. unfold new_tables. apply in_map_iff. exists (t, (cw, m)); auto. }
    rewrite AT in A4, A6. destruct (0 <? count (uses_table t) ops) eqn:Ec; [|discriminate]. apply Nat.ltb_lt in Ec.
    destruct (count_split (uses_table t) ops) as (pre & o & post & -> & F1 & F2); [lia|].
    destruct o as [?|?|u cl]; try discriminate. cbn [uses_table] in F1. apply tt_eqb_eq in F1; subst u.
    exists pre, cl, post. repeat split.
    + intros cl' Hi. specialize (F2 _ Hi). cbn [uses_table] in F2. assert (tt_eqb t t = true) by now apply tt_eqb_eq. congruence.
    + apply (OP (OpTable t cl) (pure cw) cl W R V); [apply in_app_iff; right; now left|]. cbn [op_claims]. rewrite AT. now left.
  - intros c cl Hi. apply (OP (OpWitness c cl) c cl W R V Hi). now left.
Qed.
(** The claims handed to the scheme, in order. *)
Lemma checked_exactly x ops s proof h : maps_ok x -> v_run ops (v_new x) = Some s ->
  let all := flat_map (op_claims (new_model x) (new_tables x)) ops in
  let small := filter (fun y => negb (big y)) all in let large := filter big all in
  (v_verify s proof h = true <->
   (forall n, In n (map fst (cx_model x)) -> count (uses_node n) ops = 1) /\ (forall t, In t (map fst (cx_tables x)) -> count (uses_table t) ops = 1) /\
   length small = length (snd proof) /\
   (forall i c cl pr, nth_error small i = Some (c, cl) -> nth_error (snd proof) i = Some pr -> pcs_verify c (cl_point cl) (cl_eval cl) pr = true) /\
   pcs_batch_verify (map fst large) (map (fun p => cl_point (snd p)) large) (map (fun ip => (fst ip, fst ip, cl_eval (snd (snd ip)))) (combine (seq 0 (length large)) large)) (fst proof) h = true).
Proof.
  intros W R all small large. destruct (claims_exact _ _ _ W R) as [C1 C2]. fold all in C1, C2. fold small in C2. fold large in C1.
  destruct (run_linked _ _ _ _ _ (new_sub x W) R) as [SMs [_ _ A3 A4 A5 A6 _]]. destruct (new_keys x) as [K1 K2].
  cbn [M_Commit.v_new vs_model vs_tables] in A3, A4, A5, A6. fold (new_model x) in A3, A5. fold (new_tables x) in A4, A6. split.
  - intros V. destruct (verify_inv _ _ _ V) as (E1 & E2 & L & Tr & Bt). rewrite C1 in Bt; rewrite C2 in L, Tr. repeat split; auto.
    + intros n Hn. specialize (A3 n); specialize (A5 n). rewrite E1 in A3. destruct (assoc Nat.eqb n (new_model x)) eqn:Ea.
      * destruct (0 <? count (uses_node n) ops) eqn:Ec; [apply Nat.ltb_lt in Ec; lia|discriminate].
      * apply (assoc_none _ nat_refl) in Ea. rewrite K1 in Ea. contradiction.
    + intros t Ht. specialize (A4 t); specialize (A6 t). rewrite E2 in A4. destruct (assoc tt_eqb t (new_tables x)) eqn:Ea.
      * destruct (0 <? count (uses_table t) ops) eqn:Ec; [apply Nat.ltb_lt in Ec; lia|discriminate].
      * apply (assoc_none _ tt_refl) in Ea. rewrite K2 in Ea. contradiction.
  - intros (U1 & U2 & L & Tr & Bt).
    assert (E1 : vs_model s = []).
    { destruct (vs_model s) as [|[n p] l] eqn:E; [reflexivity|exfalso]. specialize (A3 n). unfold assoc in A3 at 1; cbn [find fst] in A3. rewrite Nat.eqb_refl in A3. cbn [option_map snd] in A3.
      destruct (0 <? count (uses_node n) ops) eqn:Ec; [discriminate|]. symmetry in A3; apply (assoc_in _ nat_refl) in A3.
      apply (in_map fst) in A3; rewrite K1 in A3; cbn [fst] in A3. specialize (U1 _ A3). rewrite U1 in Ec; discriminate. }
    assert (E2 : vs_tables s = []).
    { destruct (vs_tables s) as [|[t p] l] eqn:E; [reflexivity|exfalso]. specialize (A4 t). unfold assoc in A4 at 1; cbn [find fst] in A4. rewrite (proj2 (tt_eqb_eq t t) eq_refl) in A4. cbn [option_map snd] in A4.
      destruct (0 <? count (uses_table t) ops) eqn:Ec; [discriminate|]. symmetry in A4; apply (assoc_in _ tt_refl) in A4.
      apply (in_map fst) in A4; rewrite K2 in A4; cbn [fst] in A4. specialize (U2 _ A4). rewrite U2 in Ec; discriminate. }
    unfold M_Commit.v_verify, batch_parts. rewrite E1, E2, C1, C2. rewrite L, Nat.eqb_refl, Bt, andb_true_r. cbn [andb].
    apply forallb_forall. intros [[c cl] pr] Hi. cbn [fst snd]. apply In_nth_error in Hi. destruct Hi as [i Hi].
    assert (nth_error small i = Some (c, cl) /\ nth_error (snd proof) i = Some pr).
    { clear -Hi. revert i Hi. generalize (snd proof). induction small as [|y l IH]; intros q i Hi; [destruct i; discriminate|]. destruct q as [|z q]; [destruct i; discriminate|].
      destruct i; cbn [combine nth_error] in *; [injection Hi as -> ->; auto|eauto]. }
    destruct H as [H1 H2]. exact (Tr _ _ _ _ H1 H2).
Qed.
(** A commitment whose node or table never gets claims makes every proof fail. *)
Lemma omitted_rejected x ops s proof h n : maps_ok x -> v_run ops (v_new x) = Some s -> In n (map fst (cx_model x)) ->
  (forall cls, In (OpCommon n cls) ops -> cls = []) -> v_verify s proof h = false.
Proof.
  intros W R Hn H. destruct (v_verify s proof h) eqn:V; [exfalso|reflexivity]. apply in_map_iff in Hn. destruct Hn as ([n' polys] & <- & Hi). cbn [fst] in *.
  destruct (proj1 (all_opened _ _ _ _ _ W R V) _ _ Hi) as (pre & cls & post & -> & Ne & _). apply Ne, H, in_app_iff. right; now left.
Qed.
Lemma omitted_table_rejected x ops s proof h t : maps_ok x -> v_run ops (v_new x) = Some s -> In t (map fst (cx_tables x)) ->
  (forall cl, ~ In (OpTable t cl) ops) -> v_verify s proof h = false.
Proof.
  intros W R Hn H. destruct (v_verify s proof h) eqn:V; [exfalso|reflexivity]. apply in_map_iff in Hn. destruct Hn as ([n' [cw m]] & <- & Hi). cbn [fst] in *.
  destruct (proj1 (proj2 (all_opened _ _ _ _ _ W R V)) _ _ _ Hi) as (pre & cl & post & -> & _). apply (H cl), in_app_iff. right; now left.
Qed.
(** Runs that stop with an error: a second opening of a node or table, an unknown node or table, a missing claim. *)
Lemma run_ok_iff x ops : maps_ok x ->
  (exists s, v_run ops (v_new x) = Some s) <->
  (forall n, count (uses_node n) ops <= (if assoc Nat.eqb n (cx_model x) then 1 else 0)) /\
  (forall t, count (uses_table t) ops <= (if assoc tt_eqb t (cx_tables x) then 1 else 0)) /\
  (forall n cls polys, In (OpCommon n cls) ops -> cls <> [] -> assoc Nat.eqb n (cx_model x) = Some polys -> forall id, In id (map fst polys) -> In id (map fst cls)).
Proof.
  intros W.
  assert (AM : forall n, assoc Nat.eqb n (new_model x) = option_map (map (fun ip => (fst ip, pure (fst (snd ip))))) (assoc Nat.eqb n (cx_model x))).
  { intros n. unfold assoc, new_model. induction (cx_model x) as [|[a b] l IH]; cbn [map find fst]; [reflexivity|]. destruct (n =? a); [reflexivity|exact IH]. }
  assert (AT : forall t, assoc tt_eqb t (new_tables x) = option_map (fun cm => pure (fst cm)) (assoc tt_eqb t (cx_tables x))).
  { intros t. unfold assoc, new_tables. induction (cx_tables x) as [|[a b] l IH]; cbn [map find fst]; [reflexivity|]. destruct (tt_eqb t a); [reflexivity|exact IH]. }
  pose proof (new_sub x W) as S0. split.
  - intros [s R]. destruct (run_linked _ _ _ _ _ S0 R) as [_ [_ _ _ _ A5 A6 A7]].
    cbn [M_Commit.v_new vs_model vs_tables] in A5, A6. fold (new_model x) in A5. fold (new_tables x) in A6. repeat split.
    + intros n. specialize (A5 n). rewrite AM in A5. destruct (assoc Nat.eqb n (cx_model x)); exact A5.
    + intros t. specialize (A6 t). rewrite AT in A6. destruct (assoc tt_eqb t (cx_tables x)); exact A6.
    + intros n cls polys Hi Ne A id Hid. apply (A7 n cls (map (fun ip => (fst ip, pure (fst (snd ip)))) polys) Hi Ne); [now rewrite AM, A|]. rewrite map_map; exact Hid.
  - intros (U1 & U2 & U3).
    assert (G : forall s, sub_maps (new_model x) (new_tables x) s -> (forall n, count (uses_node n) ops <= (if assoc Nat.eqb n (vs_model s) then 1 else 0)) ->
      (forall t, count (uses_table t) ops <= (if assoc tt_eqb t (vs_tables s) then 1 else 0)) -> exists s', v_run ops s = Some s').
    { clear U1 U2 S0. induction ops as [|o ops IH]; intros s SS V1 V2; [exists s; reflexivity|]. cbn [M_Commit.v_run].
      assert (X : exists s1, v_step trivial_nv o s = (true, s1)).
      { destruct SS as (N1 & N2 & SM & ST). destruct o as [c cl|n cls|t cl]; cbn [v_step]; [eauto| |].
        - destruct cls as [|c0 cls]; cbn [v_common]; [eauto|].
          specialize (V1 n). rewrite count_cons in V1. cbn [uses_node] in V1. rewrite Nat.eqb_refl in V1.
          destruct (assoc Nat.eqb n (vs_model s)) as [p|] eqn:Ea; [|lia]. destruct (SM _ _ Ea) as [Em NP].
          destruct (m_remove_some _ key_nat n (vs_model s)) as (v & r & Er); [apply in_map_iff; exists (n, p); split; [reflexivity|exact (assoc_in _ nat_refl _ _ _ Ea)]|].
          rewrite Er. pose proof (m_remove_assoc _ key_nat _ nat_refl _ _ _ _ Er) as Ev. rewrite Ea in Ev; injection Ev as ->.
          apply node_claims_ok; [exact NP|]. rewrite AM in Em. destruct (assoc Nat.eqb n (cx_model x)) as [q|] eqn:Eq; [|discriminate]. cbn in Em; injection Em as <-.
          intros id Hid. rewrite map_map in Hid. refine (U3 n (c0 :: cls) q _ _ Eq id Hid); [now left|discriminate].
        - unfold v_table. specialize (V2 t). rewrite count_cons in V2. cbn [uses_table] in V2. rewrite (proj2 (tt_eqb_eq t t) eq_refl) in V2.
          destruct (assoc tt_eqb t (vs_tables s)) as [p|] eqn:Ea; [|lia].
          destruct (m_remove_some _ key_tt t (vs_tables s)) as (v & r & Er); [apply in_map_iff; exists (t, p); split; [reflexivity|exact (assoc_in _ tt_refl _ _ _ Ea)]|].
          rewrite Er. eauto. }
      destruct X as [s1 X]. rewrite X. destruct (step_linked _ _ _ _ _ SS X) as [S1 [_ _ A3 A4 _ _ _]]. apply IH; [|exact S1| |].
      - intros n cls polys Hi. apply U3. now right.
      - intros n. rewrite A3. specialize (V1 n). rewrite count_cons in V1. unfold count at 2; cbn [filter]. destruct (uses_node n o); cbn [length Nat.ltb Nat.leb]; [destruct (assoc _ _ _); lia|lia].
      - intros t. rewrite A4. specialize (V2 t). rewrite count_cons in V2. unfold count at 2; cbn [filter]. destruct (uses_table t o); cbn [length Nat.ltb Nat.leb]; [destruct (assoc _ _ _); lia|lia]. }
    apply G; [exact S0| |]; cbn [M_Commit.v_new vs_model vs_tables]; [fold (new_model x)|fold (new_tables x)].
    + intros n. rewrite AM. specialize (U1 n). destruct (assoc Nat.eqb n (cx_model x)); exact U1.
    + intros t. rewrite AT. specialize (U2 t). destruct (assoc tt_eqb t (cx_tables x)); exact U2.
Qed.
End Proofs.
