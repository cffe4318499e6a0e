(** Completeness of the LogUp-GKR prover: one round, all rounds, whole proofs. *)
From Coq Require Import List Arith Lia Bool ZArith Field Permutation.
From Verif Require Import ListAux FieldDef PolyList MleMath M_Mle P_Mle P_Eq M_Interp P_Interp M_Sumcheck
  P_ScVerify P_ScProve P_ScProve2 P_ScBatch P_ScFinal M_ScParallel P_ScParallel P_ScApi M_SamePoly P_SamePoly M_LogUp P_LogUp P_LogUp2 P_LogUp3 P_LogUp4 P_LogUp7.
Import ListNotations.

Section P.
Context {K : field}.
Add Field Kf_lu8 : (fth K).
Local Open Scope F_scope.

(** A schedule for a sum-check over [nt] tables of [v] variables and [np] products, in round [k]. *)
Record uniform_sched (v nt np k : nat) (sc : rsched) : Prop := {
  us_fix : 2 <= k -> forall i, i < nt -> k <= v -> valid_order (2 ^ (v - (k - 1))) (rs_fix sc i);
  us_sum : forall q, q < np -> k < v -> Permutation (flat (rs_sum sc q)) (evens (2 ^ (v - k)));
  us_prods : Permutation (flat (rs_prods sc)) (seq 0 np) }.
Lemma uniform_valid v nt np k sc (p : @vp K) : uniform_sched v nt np k sc -> wf_vp p -> length (vp_mles p) = nt -> length (vp_products p) = np ->
  (forall x, In x (vp_mles p) -> num_vars x = v) -> valid_rsched p k sc.
Proof.
  intros [A B C] Hw Hn Hp Hv. constructor.
  - intros H2 i Hi Hk. rewrite (Hv (nth i (vp_mles p) dm)) in * by (apply nth_In; auto). apply A; auto. lia.
  - intros q Hq Hk. assert (E : prod_nv p q = v).
    { unfold prod_nv. apply Hv. apply nth_In. pose proof (nth_In (vp_products p) (0, []) Hq) as Hin.
      destruct (nth q (vp_products p) (0, [])) as [c ix] eqn:Ex. destruct (wv_prods p Hw c ix Hin) as (L & _ & _ & Hix & _). cbn [snd].
      apply Hix. apply nth_In. auto. }
    rewrite E in *. apply B; auto. lia.
  - rewrite Hp. auto.
Qed.

Lemma next_claim4_spec evals b na nl : next_claim4 evals b na nl = (qs <- omapM get4 (chunks 4 evals) ;; Some (wsum na (map (q_next b nl) qs) : K)).
Proof.
  unfold next_claim4.
  assert (G : forall l acc ac, ofold (fun '(acc, ac) e => q <- get4 e ;; let '(e0, e1, e2, e3) := q in
         Some (acc + ac * (b * (e2 - e0) + e0 + nl * (b * (e1 - e3) + e3)), ac * na)) l (acc, ac)
    = (qs <- omapM get4 l ;; Some (acc + ac * wsum na (map (q_next b nl) qs), ac * fpow na (length qs)))).
  { induction l as [|e l IH]; intros acc ac; cbn [ofold omapM].
    - cbn [obind map wsum length fpow]. apply some2; ring.
    - destruct (get4 e) as [[[[e0 e1] e2] e3]|]; [|reflexivity]. cbn [obind]. rewrite IH. destruct (omapM get4 l) as [qs|]; [|reflexivity].
      cbn [obind map wsum length fpow q_next]. apply some2; ring. }
  rewrite G. destruct (omapM get4 (chunks 4 evals)) as [qs|]; [|reflexivity]. cbn [obind fst]. f_equal. ring.
Qed.
Lemma next_claim2_spec evals b na : next_claim2 evals b na = (qs <- omapM get2 (chunks 2 evals) ;; Some (wsum na (map (p_next b) qs) : K)).
Proof.
  unfold next_claim2.
  assert (G : forall l acc ac, ofold (fun '(acc, ac) e => q <- get2 e ;; let '(e0, e1) := q in
         Some (acc + ac * (b * (e0 - e1) + e1), ac * na)) l (acc, ac)
    = (qs <- omapM get2 l ;; Some (acc + ac * wsum na (map (p_next b) qs), ac * fpow na (length qs)))).
  { induction l as [|e l IH]; intros acc ac; cbn [ofold omapM].
    - cbn [obind map wsum length fpow]. apply some2; ring.
    - destruct (get2 e) as [[e0 e1]|]; [|reflexivity]. cbn [obind]. rewrite IH. destruct (omapM get2 l) as [qs|]; [|reflexivity].
      cbn [obind map wsum length fpow]. set (W := wsum na (map (p_next b) qs)). unfold p_next; cbn [fst snd]. apply some2; ring. }
  rewrite G. destruct (omapM get2 (chunks 2 evals)) as [qs|]; [|reflexivity]. cbn [obind fst]. f_equal. ring.
Qed.

Lemma chunks_flat {A B} n (f : A -> list B) l : 0 < n -> (forall x, In x l -> length (f x) = n) -> chunks n (flat_map f l) = map f l.
Proof.
  intros Hn H. rewrite flat_map_concat_map. apply chunks_uniform; auto. intros y Hy. apply in_map_iff in Hy as (x & <- & Hx). auto.
Qed.
Lemma flat_map_len {A B} n (f : A -> list B) l : (forall x, In x l -> length (f x) = n) -> length (flat_map f l) = (n * length l)%nat.
Proof.
  induction l as [|x l IH]; intros H; cbn [flat_map length]; [lia|]. rewrite app_length, IH by (intros; apply H; right; auto). rewrite H by (left; auto). lia.
Qed.
Lemma omapM_get_map {A B} (f : list K -> option B) (g : A -> list K) (h : A -> B) l : (forall x, In x l -> f (g x) = Some (h x)) -> omapM f (map g l) = Some (map h l).
Proof.
  induction l as [|x l IH]; intros H; [reflexivity|]. cbn [map omapM]. rewrite H by (left; auto). cbn [obind]. rewrite IH by (intros; apply H; right; auto). reflexivity.
Qed.

Lemma omapM_len {A B} (f : A -> option B) : forall l r, omapM f l = Some r -> length r = length l.
Proof.
  induction l as [|a l IH]; intros r H; cbn [omapM] in H; [injection H as <-; reflexivity|]. destruct (f a); [|discriminate]. cbn [obind] in H.
  destruct (omapM f l) as [t|]; [|discriminate]. cbn [obind] in H. injection H as <-. cbn [length]. rewrite (IH t) by auto. reflexivity.
Qed.

Section Rounds.
Variables (T : @hist K -> K) (ncpus : nat) (scs : nat -> nat -> rsched) (lk : bool) (k : nat) (ils : list (@layer K)).
Notation bases := (map base_of ils).
Notation ni := (length ils).
Hypothesis Hnc : 0 < ncpus.
Hypothesis Hch : char_gt K 3.
Hypothesis Hne : ils <> [].
Hypothesis Hwf : forall l, In l ils -> wf_lay (S k) (base_of l).
Hypothesis Hkind : forall l, In l ils -> match l with InitLookup _ => lk = true | InitTable _ _ => lk = false | Generic _ _ => False end.
Hypothesis Hk : lk = true -> 0 < k.
Definition circ (l : @layer K) : list layer := l :: map (fun m => gen (lev (S m) (base_of l))) (seq 0 k).
Definition round_tabs (i : nat) : nat := (1 + (if last_lk lk k i then 2 else 4) * ni)%nat.
Hypothesis Hsc : forall i, i < k -> forall j, j < S i -> uniform_sched (S i) (round_tabs i) (3 * ni) j (scs (S i) j).

Definition round_layer (v : nat) (l : @layer K) : layer := if Nat.eqb v k then l else gen (lev (k - v) (base_of l)).
Lemma round_layers v : 0 < v <= k -> omapM (fun c => nth_error (tl (rev c)) (v - 1)) (map circ ils) = Some (map (round_layer v) ils).
Proof.
  intros Hv. rewrite omapM_map.
  assert (G : forall l, In l ils -> nth_error (tl (rev (circ l))) (v - 1) = Some (round_layer v l)).
  { intros l Hl. pose proof (circuit_level k l v l (Hwf l Hl) ltac:(lia)) as C. fold (circ l) in C. unfold round_layer. rewrite <- C.
    assert (L : length (rev (circ l)) = S k) by (rewrite rev_length; unfold circ; cbn [length]; rewrite map_length, seq_length; auto).
    destruct (rev (circ l)) as [|x r]; [discriminate|]. cbn [tl length] in *. destruct v as [|v]; [lia|]. cbn [nth]. rewrite Nat.sub_succ, Nat.sub_0_r.
    apply nth_error_nth'. lia. }
  clear - G. induction ils as [|l ls IH]; [reflexivity|]. cbn [omapM map]. rewrite G by (left; auto). cbn [obind]. rewrite IH by (intros; apply G; right; auto). reflexivity.
Qed.
Lemma round_layer_base v l : v <= k -> In l ils -> base_of (round_layer v l) = lev (k - v) (base_of l).
Proof.
  intros Hv Hl. unfold round_layer. destruct (Nat.eqb_spec v k) as [->|]; [rewrite Nat.sub_diag; reflexivity|]. destruct (lev (k - v) (base_of l)); reflexivity.
Qed.
Lemma round_layer_wf v l : v <= k -> In l (map (round_layer v) ils) -> wf_lay (S v) (base_of l).
Proof.
  intros Hv Hin. apply in_map_iff in Hin as (l0 & <- & Hl). rewrite round_layer_base by auto.
  replace v with (k - (k - v))%nat at 1 by lia. apply lev_wf; [lia|auto].
Qed.
Lemma round_layer_bases i : i < k -> map base_of (map (round_layer (S i)) ils) = layer_at k bases (S i).
Proof.
  intros Hi. unfold layer_at. rewrite !map_map. apply map_ext_in. intros l Hl. rewrite round_layer_base by (auto; lia). reflexivity.
Qed.
(** All layers of a round have the same kind. *)
Lemma round_layer_kind i l : i < k -> In l (map (round_layer (S i)) ils) ->
  if last_lk lk k i then exists d, l = InitLookup d else match l with InitLookup _ => False | _ => True end.
Proof.
  intros Hi Hin. apply in_map_iff in Hin as (l0 & <- & Hl). specialize (Hkind l0 Hl). unfold round_layer, last_lk.
  destruct (Nat.eqb_spec (S i) k) as [E|E]; [|rewrite andb_false_r; exact I]. rewrite andb_true_r.
  destruct l0; [contradiction| |]; rewrite Hkind; [auto|eauto].
Qed.

Definition round_evals (i : nat) (x : list K) : list K := flat_map (fun l => lay_evals (S i) l x) (map (round_layer (S i)) ils).
Lemma evq_evals i x : i < k -> length x = S i -> evq lk k i (round_evals i x) = Some (true_q k bases i x) /\
  length (round_evals i x) = ((if last_lk lk k i then 2 else 4) * ni)%nat.
Proof.
  intros Hi Hx. unfold round_evals, evq, true_q. rewrite <- (round_layer_bases i) by auto. rewrite map_map.
  pose proof (round_layer_kind i) as Hkd. pose proof (fun l Hl => round_layer_wf (S i) l Hi Hl) as Hw.
  assert (Hlen : length (map (round_layer (S i)) ils) = ni) by apply map_length. rewrite <- Hlen.
  generalize dependent (map (round_layer (S i)) ils). intros ls Hkd Hw Hlen.
  destruct (last_lk lk k i) eqn:E.
  - assert (L2 : forall l, In l ls -> length (lay_evals (S i) l x) = 2%nat) by (intros l Hl; destruct (Hkd l Hi Hl) as [d ->]; reflexivity).
    split; [|apply flat_map_len; auto]. rewrite chunks_flat by (auto; lia).
    rewrite (omapM_get_map get2 _ (fun l => (mle (hi (S i) (snd (base_of l))) x, mle (lo (S i) (snd (base_of l))) x))).
    + cbn [obind]. f_equal. rewrite map_map. apply map_ext_in. intros l Hl. destruct (Hkd l Hi Hl) as [d ->]. destruct (Hw _ Hl) as [_ W].
      cbn [base_of snd] in *. symmetry. apply (lay_quad_lookup (S i) d x); auto.
    + intros l Hl. destruct (Hkd l Hi Hl) as [d ->]. reflexivity.
  - assert (L2 : forall l, In l ls -> length (lay_evals (S i) l x) = 4%nat) by (intros l Hl; specialize (Hkd l Hi Hl); destruct l; [reflexivity|reflexivity|contradiction]).
    split; [|apply flat_map_len; auto]. rewrite chunks_flat by (auto; lia).
    apply omapM_get_map. intros l Hl. specialize (Hkd l Hi Hl). destruct l; [reflexivity|reflexivity|contradiction].
Qed.

Lemma prover_round_ok i s pfs evs : i < k -> length (ls_point s) = S i ->
  ls_claim s = V lk k bases i (ls_alpha s) (ls_lambda s) (ls_point s) ->
  exists pf ev s', prover_round T ncpus scs lk k (map circ ils) (s, (pfs, evs)) (S i) = Some (s', (pfs ++ [pf], evs ++ [ev])) /\
    length (pf_point pf) = S i /\ length (ls_point s') = S (S i) /\
    ls_claim s' = V lk k bases (S i) (ls_alpha s') (ls_lambda s') (ls_point s') /\
    ((forall r, In r (pf_point pf) -> not_node 3 r) -> logup_round T ni s (i, (pf, ev)) = Some s' /\ round_shape T lk k bases i s pf ev).
Proof.
  intros Hi Hp Hc. unfold prover_round. fold (hist_in s).
  rewrite compute_betas_spec, (into_mle_ext_ok (S i)) by (rewrite eq_table_length, Hp; auto). cbn [obind].
  rewrite round_layers by lia. cbn [obind]. set (ls := map (round_layer (S i)) ils).
  assert (Hw : forall l, In l ls -> wf_lay (S (S i)) (base_of l)) by (intros l Hl; apply round_layer_wf; auto).
  assert (Hls : length ls = ni) by apply map_length.
  set (eqm := emle (S i) (eq_table (ls_point s))).
  destruct (round_terms_ok (S i) (ls_alpha s) (ls_lambda s) ls [eqm] 1 Hw) as [ts Hts].
  change (mkMle (Ext (eq_table (ls_point s))) (S i)) with eqm. rewrite Hts. cbn [obind fst snd].
  set (fin := [eqm] ++ flat_map (lay_mles (S i)) ls) in *. set (heap := tables_heap fin).
  assert (Hh : forall a, a < length fin -> heap a = nth a fin dm) by reflexivity.
  destruct (round_addr (S i) _ _ ls [eqm] 1 ts fin Hts Hw ltac:(cbn; lia)) as (Hlt & Hdeg & Haddr).
  assert (Hfin : forall x, In x fin -> wf_mle x /\ num_vars x = S i).
  { intros x Hx. unfold fin in Hx. apply in_app_or in Hx as [[<-|[]]|Hx].
    - split; [|reflexivity]. apply emle_wf. rewrite eq_table_length, Hp. auto.
    - apply in_flat_map in Hx as (l & Hl & Hx). apply (lay_mles_wf (S i) l x); auto. }
  assert (Hwt : wf_terms heap (S i) ts).
  { intros c ps Hin. destruct (Haddr c ps Hin) as (A1 & A2 & A3). split; [auto|]. split; [lia|].
    assert (Ha : forall a, In a ps -> wf_mle (heap a) /\ num_vars (heap a) = S i) by (intros a Hain; rewrite Hh by auto; apply Hfin; apply nth_In; auto).
    split; [intros a Hain; destruct (Ha a Hain) as [? ->]; split; [auto|lia]|]. intros a b Hain Hbin. destruct (Ha a Hain) as [_ ->]. destruct (Ha b Hbin) as [_ ->]. auto. }
  assert (Hne' : ls <> []) by (intros E; rewrite E in Hls; destruct ils; [congruence|discriminate]).
  assert (Hts0 : ts <> []) by (intros E; rewrite E in Hlt; destruct ls; [congruence|cbn in Hlt; lia]).
  destruct (build_new heap (S i) ts ltac:(lia) Hts0 Hwt) as (t & p & Eb & Hwp & Hpn & Hpd & Hval).
  rewrite Eb. cbn [obind snd].
  assert (Htr : tracks heap [] (@nil (nat * nat)) (vp_mles (@vp_new K (S i)))) by (split; [reflexivity|]; intros a; cbn; split; [intros []|congruence]).
  destruct (build_tracks heap ts [] [] (vp_new (S i)) t p Htr Eb) as ((Hms & _) & Hnp & _). cbn [vp_products vp_new length] in Hnp.
  assert (Hd3 : vp_deg p = 3%nat) by (rewrite Hpd, Hdeg; destruct ls; [congruence|reflexivity]).
  assert (H0ts : flat_map snd ts = 0%nat :: tl (flat_map snd ts)).
  { destruct ls as [|l ls']; [congruence|]. rewrite (round_terms_cons _ _ _ _ _ _ (S i)) in Hts by (apply Hw; left; auto).
    destruct (round_terms ls' _ _ _ _) as [[f2 t2]|]; [|discriminate]. cbn [obind fst snd] in Hts.
    assert (Et : ts = layer_terms l (length [eqm]) 1 (ls_lambda s) ++ t2) by congruence. rewrite Et. destruct l; reflexivity. }
  assert (Hmles : vp_mles p = eqm :: flat_map (lay_tabs (S i)) ls).
  { rewrite Hms. pose proof (round_order (S i) _ _ heap ls [eqm] 1 ts fin Hts Hw ltac:(cbn; lia) Hh [0%nat] (or_introl eq_refl)) as O.
    rewrite H0ts in O |- *. cbn [fold_left] in O |- *. change (add_first [] 0) with [0%nat]. rewrite (add_first_in [0%nat] 0) in O by (left; auto).
    rewrite O; [reflexivity|]. intros a [<-|[]]. cbn. lia. }
  assert (Hnt : length (vp_mles p) = round_tabs i).
  { rewrite Hmles. cbn [length]. unfold round_tabs. apply eq_S. rewrite <- Hls. apply flat_map_len. intros l Hl. pose proof (round_layer_kind i l Hi Hl) as Hkd.
    destruct (last_lk lk k i); [destruct Hkd as [d ->]; reflexivity|]. destruct l; [reflexivity|reflexivity|contradiction]. }
  assert (Hnvs : forall x, In x (vp_mles p) -> num_vars x = S i).
  { rewrite Hmles. intros x [<-|Hx]; [reflexivity|]. apply in_flat_map in Hx as (l & _ & Hx). destruct l; cbn [lay_tabs In] in Hx;
      repeat (destruct Hx as [<-|Hx]; [reflexivity|]); destruct Hx. }
  destruct (parallel_completeness T ncpus (scs (S i)) p (hist_in s) Hnc) as (pf & st & h2 & Epf & Hlpt & Hfev & Hver); auto.
  { rewrite Hd3. auto. }
  { rewrite Hpn. intros j Hj. apply (uniform_valid (S i) (round_tabs i) (3 * ni)); auto. lia. }
  rewrite Epf. cbn [obind]. rewrite Hfev. cbn [obind]. destruct (three T lbl_lb lbl_la lbl_ll h2) as [[[b na] nl] h3] eqn:E3.
  rewrite Hpn in *. rewrite Hd3 in Hver. set (x := pf_point pf) in *.
  assert (Hev : tl (map (fun m => mval m x) (vp_mles p)) = round_evals i x).
  { rewrite Hmles. cbn [map tl]. unfold round_evals. fold ls. clearbody ls. clear - Hlpt. induction ls as [|l ls IH]; [reflexivity|]. cbn [flat_map].
    rewrite map_app, IH. f_equal. destruct l; cbn [lay_tabs map lay_evals]; unfold mval; cbn [emle num_vars tbl evaluations]; rewrite !firstn_all2 by lia; reflexivity. }
  rewrite Hev. destruct (evq_evals i x Hi Hlpt) as [Eq Elen].
  assert (Hnx : (if (S i =? k)%nat && lk then next_claim2 (round_evals i x) b na else next_claim4 (round_evals i x) b na nl) = Some (nxt lk k i b na nl (true_q k bases i x))).
  { rewrite andb_comm. fold (last_lk lk k i). unfold evq in Eq. unfold nxt. destruct (last_lk lk k i).
    - rewrite next_claim2_spec. destruct (omapM get2 (chunks 2 (round_evals i x))) as [ps|]; [|discriminate]. cbn [obind] in *.
      assert (E : map emb ps = true_q k bases i x) by congruence. rewrite <- E, map_map. f_equal.
    - rewrite next_claim4_spec, Eq. reflexivity. }
  rewrite Hnx. cbn [obind].
  assert (HVx : nxt lk k i b na nl (true_q k bases i x) = V lk k bases (S i) na nl (x ++ [b])).
  { apply nxt_true; auto. intros q Hq. apply in_map_iff in Hq as (l & <- & Hl). auto. }
  exists pf, (round_evals i x), (mkLs na nl (nxt lk k i b na nl (true_q k bases i x)) (x ++ [b]) h3).
  split; [reflexivity|]. split; [auto|]. cbn [ls_point ls_claim ls_alpha ls_lambda]. split; [rewrite app_length; cbn [length]; lia|]. split; [auto|].
  intros Hr. unfold logup_round. fold (hist_in s). rewrite Nat.add_1_r.
  assert (Hni : 0 < ni) by (destruct ils; [congruence|cbn; lia]).
  assert (Hgate : forall pt, length pt = S i -> vp_val p pt = round_gate k bases i s pt).
  { intros pt Hpt. rewrite Hval. rewrite (round_value (S i) _ _ heap ls [eqm] 1 ts fin Hts Hw ltac:(cbn; lia) Hh pt Hpt).
    unfold round_gate, gate_poly. rewrite <- (round_layer_bases i) by auto. fold ls. rewrite map_map. unfold lay_quad.
    assert (E : mval (heap 0%nat) pt = eqp (ls_point s) pt).
    { rewrite Hh by (unfold fin; cbn; lia). cbn [fin app nth]. unfold mval. cbn [eqm emle num_vars tbl evaluations]. rewrite firstn_all2 by lia.
      unfold eq_table. rewrite mle_map_seq by congruence. apply mlef_eqw. congruence. }
    rewrite E. ring. }
  assert (Hsum : ls_claim s = hsum (S i) (vp_val p)).
  { rewrite Hc, V_gate by (auto; intros q Hq; apply in_map_iff in Hq as (l & <- & Hl); auto). apply hsum_ext. intros pt Hpt. symmetry. auto. }
  assert (Hsh : round_shape T lk k bases i s pf (round_evals i x)).
  { split; [|rewrite map_length; exact Elen]. pose proof (Hver Hr) as Hvv. apply verify_point in Hvv. exact Hvv. }
  split; [|exact Hsh].
  rewrite Hsum. rewrite Hver by auto. cbn [obind]. rewrite E3. destruct (Nat.eqb_spec ni 0) as [|_]; [lia|].
  rewrite identity_eval_eqp. fold x.
  assert (Hg2 : vp_val p x = eqp (ls_point s) x * wsum (ls_alpha s) (map (q_gate (ls_lambda s)) (true_q k bases i x))).
  { rewrite Hgate by auto. unfold round_gate, gate_poly, true_q. rewrite map_map. reflexivity. }
  assert (Hd : (length (round_evals i x) / ni = if last_lk lk k i then 2 else 4)%nat) by (rewrite Elen; destruct (last_lk lk k i); apply Nat.div_mul; lia).
  rewrite Hd. unfold evq in Eq. unfold nxt. destruct (last_lk lk k i).
  - cbn [Nat.eqb]. rewrite combine2_spec. destruct (omapM get2 (chunks 2 (round_evals i x))) as [ps|]; [|discriminate]. cbn [obind] in *.
    assert (E : map emb ps = true_q k bases i x) by congruence. rewrite Hg2, <- E, !map_map, feqb_refl. reflexivity.
  - cbn [Nat.eqb]. rewrite combine4_spec, Eq. cbn [obind]. rewrite Hg2, feqb_refl. reflexivity.
Qed.

Lemma combine_snoc {A B} (l : list A) (m : list B) a b : length l = length m -> combine (l ++ [a]) (m ++ [b]) = combine l m ++ [(a, b)].
Proof. revert m. induction l as [|x l IH]; intros [|y m] H; cbn in *; try discriminate; auto. rewrite IH by lia. reflexivity. Qed.
Lemma prover_rounds_ok s0 : length (ls_point s0) = 1%nat -> ls_claim s0 = V lk k bases 0 (ls_alpha s0) (ls_lambda s0) (ls_point s0) ->
  forall n, n <= k -> exists s pfs evs, ofold (prover_round T ncpus scs lk k (map circ ils)) (seq 1 n) (s0, ([], [])) = Some (s, (pfs, evs)) /\
    length pfs = n /\ length evs = n /\ length (ls_point s) = S n /\ ls_claim s = V lk k bases n (ls_alpha s) (ls_lambda s) (ls_point s) /\
    ((forall pf r, In pf pfs -> In r (pf_point pf) -> not_node 3 r) -> ofold (logup_round T ni) (combine (seq 0 n) (combine pfs evs)) s0 = Some s /\
       forall i t p ev, ofold (logup_round T ni) (firstn i (combine (seq 0 n) (combine pfs evs))) s0 = Some t ->
         nth_error (combine pfs evs) i = Some (p, ev) -> round_shape T lk k bases i t p ev).
Proof.
  intros Hp0 Hc0. induction n as [|n IH]; intros Hn.
  - exists s0, [], []. cbn. do 5 (split; [auto|]). intros _. split; [auto|]. intros [|i] t p ev _ E; discriminate E.
  - destruct IH as (s & pfs & evs & E & L1 & L2 & L3 & Hc & Hv); [lia|].
    destruct (prover_round_ok n s pfs evs ltac:(lia) L3 Hc) as (pf & ev & s' & E' & M1 & M2 & M3 & M4).
    exists s', (pfs ++ [pf]), (evs ++ [ev]). rewrite seq_S, ofold_app, E. cbn [obind ofold]. rewrite Nat.add_1_l, E'. cbn [obind].
    split; [reflexivity|]. rewrite !app_length, L1, L2. cbn [length]. do 2 (split; [lia|]). split; [auto|]. split; [auto|].
    intros Hr. rewrite combine_snoc, seq_S, combine_snoc by (rewrite ?combine_length, ?seq_length; lia).
    destruct Hv as [Hv Hshp]; [intros p r Hp Hr'; apply (Hr p r); auto; apply in_or_app; auto|].
    destruct M4 as [M4 M5]; [intros r Hr'; apply (Hr pf r); auto; apply in_or_app; right; left; auto|].
    split; [rewrite ofold_app, Hv; cbn [obind ofold]; rewrite Nat.add_0_l, M4; reflexivity|].
    assert (Lc : length (combine pfs evs) = n) by (rewrite combine_length; lia).
    assert (Lc2 : length (combine (seq 0 n) (combine pfs evs)) = n) by (rewrite combine_length, seq_length; lia).
    intros i t p ev0 Ht Hi. destruct (Nat.lt_ge_cases i n) as [Hlt|Hge].
    + rewrite firstn_app, (proj2 (Nat.sub_0_le i _)), firstn_O, app_nil_r in Ht by lia. rewrite nth_error_app1 in Hi by lia. apply Hshp; auto.
    + assert (i < S n) by (rewrite <- Lc, <- (Nat.add_1_r (length _)); change 1%nat with (length [(pf, ev)]); rewrite <- app_length; apply nth_error_Some; congruence).
      assert (i = n) by lia. subst i. rewrite nth_error_app2, Lc, Nat.sub_diag in Hi by lia. cbn in Hi. injection Hi as <- <-.
      rewrite firstn_app, Lc2, Nat.sub_diag, firstn_O, app_nil_r, firstn_all2 in Ht by lia. rewrite Hv in Ht. injection Ht as <-. exact M5.
Qed.

Lemma outs_ok : exists outs, omapM outputs (map circ ils) = Some outs /\ omapM get4 outs = Some (true_out k bases).
Proof.
  assert (G : forall l, In l ils -> exists o, outputs (circ l) = Some o /\
    get4 o = Some (let p := lev k (base_of l) in (nth 0 (fst p) 0, nth 1 (fst p) 0, nth 0 (snd p) 0, nth 1 (snd p) 0))).
  { intros l Hl. pose proof (Hwf l Hl) as Hw. pose proof (lev_wf k k _ (Nat.le_refl _) Hw) as [Hn Hd]. rewrite Nat.sub_diag in Hn, Hd.
    exists (fst (lev k (base_of l)) ++ snd (lev k (base_of l))). unfold circ. rewrite (outputs_ok k l Hw). split.
    - destruct (Nat.eqb_spec k 0) as [E0|]; [|reflexivity]. specialize (Hkind l Hl). destruct l; [contradiction| |].
      + rewrite E0. reflexivity.
      + specialize (Hk Hkind). lia.
    - cbv zeta. destruct (fst (lev k (base_of l))) as [|n0 [|n1 [|]]]; cbn in Hn; try discriminate.
      destruct (snd (lev k (base_of l))) as [|d0 [|d1 [|]]]; cbn in Hd; try discriminate. reflexivity. }
  unfold true_out, layer_at. rewrite Nat.sub_0_r. clear - G. induction ils as [|l ls IH]; [exists []; auto|].
  destruct (G l (or_introl eq_refl)) as (o & E1 & E2). destruct IH as (outs & F1 & F2); [intros; apply G; right; auto|].
  exists (o :: outs). cbn [map omapM]. rewrite E1, F1. cbn [obind]. rewrite E2. cbn [obind]. rewrite F2. auto.
Qed.
Lemma nvs_ok : omapM circuit_nv (map circ ils) = Some (map (fun _ => k) ils) /\ fold_left Nat.max (map (fun _ => k) ils) 0%nat = k.
Proof.
  split.
  - rewrite omapM_map. clear - Hwf. induction ils as [|l ls IH]; [reflexivity|]. cbn [omapM map]. change (circuit_nv (circ l)) with (layer_nv l). rewrite (layer_nv_ok k) by (apply Hwf; left; auto).
    cbn [obind]. rewrite IH by (intros; apply Hwf; right; auto). reflexivity.
  - destruct ils as [|l ls]; [congruence|]. cbn [map fold_left]. rewrite Nat.max_0_l. clear. induction ls as [|x ls IH]; [reflexivity|]. cbn [map fold_left]. rewrite Nat.max_id. auto.
Qed.

Lemma core_complete esch inp cst csc cols h : make_circuits inp = Some (map circ ils) ->
  base_mles inp = Some (map (fun c => mkMle (Base c) (S k)) cols) -> (forall c, In c cols -> length c = 2 ^ S k) ->
  (match inp with LookupIn _ _ _ _ => true | TableIn _ _ _ _ => false end) = lk -> valid_sched (S k) esch ->
  (forall pfs evs outs al la x, length x = S k ->
     final_eval (mkLp pfs evs (map (fun c => mkClaim x (mle c x)) cols) outs (if lk then PtLookup else PtTable)) cst csc al la ni = Some (V lk k bases k al la x)) ->
  exists pf h' nums dens x, batch_prove T ncpus scs esch inp h = Some (pf, h') /\
    lp_claims pf = map (fun c => mkClaim x (mle c x)) cols /\ length x = S k /\ length (lp_sumchecks pf) = k /\
    combine nums dens = map (fun p => frac_list (combine (fst p) (snd p))) bases /\ length nums = ni /\ length dens = ni /\
    ((forall p r, In p (lp_sumchecks pf) -> In r (pf_point p) -> not_node 3 r) ->
     verify_logup T pf ni cst csc h = Some (lp_claims pf, nums, dens, h') /\
     shaped T lk k bases pf h /\ claims_true T pf ni k h cols).
Proof.
  intros Hmk Hbm Hcl Hlk Hes Hfe. unfold batch_prove. rewrite Hmk. cbn [obind]. destruct nvs_ok as [Nv1 Nv2]. rewrite Nv1. cbn [obind]. rewrite Nv2.
  destruct outs_ok as (outs & Eo & Eq). rewrite Eo. cbn [obind]. rewrite map_length.
  destruct (three T lbl_ib lbl_ia lbl_il (absorb_outputs ni outs h)) as [[[b al] la] h1] eqn:E3.
  rewrite initial_claim_spec, Eq. cbn [obind]. rewrite Hlk.
  assert (HwB : forall p, In p bases -> wf_lay (S k) p) by (intros p Hp; apply in_map_iff in Hp as (l & <- & Hl); auto).
  assert (Hc0 : wsum al (map (o_val b la) (true_out k bases)) = V lk k bases 0 al la [b]) by (apply o_val_true; auto).
  set (s0 := mkLs al la (wsum al (map (o_val b la) (true_out k bases))) [b] h1).
  destruct (prover_rounds_ok s0 eq_refl Hc0 k (Nat.le_refl _)) as (s & pfs & evs & Er & L1 & L2 & L3 & Hc & Hv).
  rewrite Er. cbn [obind]. rewrite Hbm. cbn [obind].
  assert (Ecl : omapM (fun m => e <- evaluate esch m (ls_point s) ;; Some (mkClaim (ls_point s) e)) (map (fun c => mkMle (Base c) (S k)) cols)
     = Some (map (fun c => mkClaim (ls_point s) (mle c (ls_point s))) cols)).
  { rewrite omapM_map. clear - Hcl Hes L3. induction cols as [|c cs IH]; [reflexivity|]. cbn [omapM map].
    rewrite (evaluate_spec esch _ (S k) c) by (auto; repeat split; cbn; auto; apply Hcl; left; auto). cbn [obind].
    rewrite IH by (intros; apply Hcl; right; auto). reflexivity. }
  rewrite Ecl. cbn [obind].
  set (pf := mkLp pfs evs (map (fun c => mkClaim (ls_point s) (mle c (ls_point s))) cols) outs (if lk then PtLookup else PtTable)).
  exists pf, (ls_hist s), (fst (List.split (map q_frac (true_out k bases)))), (snd (List.split (map q_frac (true_out k bases)))), (ls_point s).
  split; [reflexivity|]. split; [reflexivity|]. split; [auto|]. split; [auto|].
  split; [rewrite combine_split'; apply true_out_frac; auto|].
  assert (Lt : length (true_out k bases) = ni) by (unfold true_out; rewrite map_length, layer_at_length; apply map_length).
  split; [rewrite split_maps; cbn [fst]; rewrite !map_length; auto|]. split; [rewrite split_maps; cbn [snd]; rewrite !map_length; auto|].
  intros Hr. destruct (Hv Hr) as [Hv1 Hv2]. split; [|split].
  2:{ assert (Hst : forall i, state_at T pf ni h i = ofold (logup_round T ni) (firstn i (irounds pf)) s0) by (intros i; unfold state_at; cbn [pf lp_outputs]; rewrite E3, initial_claim_spec, Eq; reflexivity).
    constructor; cbn [pf lp_outputs lp_sumchecks lp_evals lp_type]; auto.
    - rewrite map_length, (omapM_len _ _ _ Eo). apply map_length.
    - intros i t p ev Ht Hi. rewrite map_length, Hst in Ht. apply Hv2; [|exact Hi]. rewrite <- Ht. unfold irounds, rounds_of. cbn [pf lp_sumchecks lp_evals].
      rewrite combine_length, L1, L2, Nat.min_id. reflexivity. }
  2:{ split; [cbn [pf lp_claims]; clear; induction cols; cbn [map]; constructor; auto|].
    intros t Ht c Hc'. cbn [pf lp_claims] in Hc'. apply in_map_iff in Hc' as (col & <- & _). cbn [cl_point].
    unfold state_at in Ht. cbn [pf lp_outputs] in Ht. rewrite E3, initial_claim_spec, Eq in Ht. cbn [obind] in Ht. fold s0 in Ht.
    unfold irounds, rounds_of in Ht. cbn [pf lp_sumchecks lp_evals] in Ht. rewrite combine_length, L1, L2, Nat.min_id in Ht.
    rewrite firstn_all2 in Ht by (rewrite !combine_length, seq_length; lia). congruence. }
  unfold verify_logup. cbn [pf lp_outputs]. rewrite (fractional_spec pf (true_out k bases) Eq). cbn [obind]. rewrite E3.
  rewrite initial_claim_spec, Eq. cbn [obind]. change (lp_sumchecks pf) with pfs. change (lp_evals pf) with evs. rewrite combine_length, L1, L2, Nat.min_id. fold s0.
  rewrite Hv1. cbn [obind]. fold pf. unfold pf at 1. rewrite Hfe by auto. cbn [obind]. rewrite Hc, feqb_refl. reflexivity.
Qed.
End Rounds.

Lemma base_mle_ok k (c : list K) : length c = 2 ^ S k -> base_mle c = Some (mkMle (Base c) (S k)).
Proof.
  intros Hc. unfold base_mle. rewrite Hc. pose proof (pow2_pos (S k)). destruct (Nat.eqb_spec (2 ^ S k) 0); [lia|].
  rewrite Nat.log2_pow2 by lia. unfold from_evaluations_vec. rewrite Hc, Nat.eqb_refl. reflexivity.
Qed.
Lemma base_mles_ok k (cols : list (list K)) : (forall c, In c cols -> length c = 2 ^ S k) -> omapM base_mle cols = Some (map (fun c => mkMle (Base c) (S k)) cols).
Proof.
  induction cols as [|c cols IH]; intros H; [reflexivity|]. cbn [omapM map]. rewrite (base_mle_ok k) by (apply H; left; auto). cbn [obind].
  rewrite IH by (intros; apply H; right; auto). reflexivity.
Qed.

(** Schedules for all the sum-checks of a LogUp proof with [k] rounds over [ni] instances. *)
Definition logup_scheds (lk : bool) (k ni : nat) (scs : nat -> nat -> rsched) : Prop :=
  forall i, i < k -> forall j, j < S i -> uniform_sched (S i) (1 + (if lk && Nat.eqb (S i) k then 2 else 4) * ni) (3 * ni) j (scs (S i) j).

Lemma lookup_complete (T : @hist K -> K) ncpus scs esch k per insts cst csc h : char_gt K 3 -> 0 < ncpus ->
  0 < per -> insts <> [] -> (forall cs, In cs insts -> length cs = per /\ forall c, In c cs -> length c = 2 ^ S (S k)) ->
  logup_scheds true (S k) (length insts) scs -> valid_sched (S (S k)) esch ->
  exists pf h' nums dens x, batch_prove T ncpus scs esch (LookupIn (concat insts) cst csc per) h = Some (pf, h') /\
    lp_claims pf = map (fun c => mkClaim x (mle c x)) (concat insts) /\ length x = S (S k) /\ length (lp_sumchecks pf) = S k /\
    combine nums dens = map (fun cs => frac_list (map (fun i => (- (1), row_val cst csc cs i)) (seq 0 (2 ^ S (S k))))) insts /\
    length nums = length insts /\ length dens = length insts /\
    ((forall p r, In p (lp_sumchecks pf) -> In r (pf_point p) -> not_node 3 r) ->
     verify_logup T pf (length insts) cst csc h = Some (lp_claims pf, nums, dens, h') /\
     shaped T true (S k) (lk_bases cst csc (S (S k)) insts) pf h /\ claims_true T pf (length insts) (S k) h (concat insts)).
Proof.
  intros Hch Hnc Hper Hne Hw Hsc Hes.
  set (ils := map (fun cs => InitLookup (merged cst csc (S (S k)) cs)) insts).
  assert (Hlen : length ils = length insts) by apply map_length.
  assert (Hbs : map base_of ils = lk_bases cst csc (S (S k)) insts).
  { unfold ils, lk_bases. rewrite map_map. apply map_ext. intros cs. cbn [base_of]. rewrite merged_length. reflexivity. }
  assert (Hwf : forall l, In l ils -> wf_lay (S (S k)) (base_of l)).
  { intros l Hl. apply in_map_iff in Hl as (cs & <- & Hcs). split; cbn [base_of fst snd]; rewrite ?repeat_length; apply merged_length. }
  rewrite <- Hlen in Hsc.
  destruct (core_complete T ncpus scs true (S k) ils Hnc Hch) with (esch := esch) (inp := LookupIn (concat insts) cst csc per) (cst := cst) (csc := csc) (cols := concat insts) (h := h)
    as (pf & h' & nums & dens & x & E & Ec & Hx & Hs & Ef & L1 & L2 & Hv); auto.
  - intros E. apply Hne. destruct insts; [auto|discriminate].
  - intros l Hl. apply in_map_iff in Hl as (cs & <- & Hcs). reflexivity.
  - lia.
  - cbn [make_circuits]. destruct (Nat.eqb_spec per 0); [lia|]. rewrite chunks_uniform by (auto; intros l Hl; apply Hw; auto).
    unfold ils. rewrite map_map. clear - Hw Hper. induction insts as [|cs cl IH]; [reflexivity|]. cbn [omapM map].
    destruct (Hw cs (or_introl eq_refl)) as [H1 H2]. unfold new_lookup_circuit at 1. rewrite (merged_ok cs cst csc (2 ^ S (S k))).
    + cbn [obind]. change (map (row_val cst csc cs) (seq 0 (2 ^ S (S k)))) with (merged cst csc (S (S k)) cs).
      rewrite (circuit_new_ok (S k)) by (split; cbn [base_of fst snd]; rewrite ?repeat_length; apply merged_length). cbn [obind].
      rewrite IH by (intros; apply Hw; right; auto). reflexivity.
    + intros ->. cbn in H1. lia.
    + auto.
  - cbn [base_mles]. apply base_mles_ok. intros c Hc. apply in_concat in Hc as (cs & Hcs & Hc). apply (Hw cs Hcs). auto.
  - intros c Hc. apply in_concat in Hc as (cs & Hcs & Hc). apply (Hw cs Hcs). auto.
  - intros pfs evs outs al la x Hx. rewrite Hbs, Hlen. unfold final_eval. cbn [lp_type lp_claims].
    destruct (Nat.eqb_spec (length insts) 0) as [E|_]; [destruct insts; [congruence|discriminate]|].
    rewrite map_length, (length_concat_uniform _ per) by (intros cs Hcs; apply Hw; auto).
    rewrite Nat.div_mul by (destruct insts; [congruence|discriminate]). destruct (Nat.eqb_spec per 0); [lia|].
    rewrite wsum_fold. f_equal. unfold V. rewrite Nat.eqb_refl. cbn [andb]. rewrite concat_map.
    rewrite chunks_uniform by (auto; intros l Hl; apply in_map_iff in Hl as (cs & <- & Hcs); rewrite map_length; apply Hw; auto).
    unfold lk_bases. rewrite !map_map. apply wsum_ext. intros cs Hcs. rewrite map_map. cbn [cl_eval].
    rewrite col_comb_spec. cbn [lk_base snd]. rewrite merged_mle by auto. reflexivity.
  - rewrite Hlen in *. exists pf, h', nums, dens, x. do 4 (split; [assumption|]). rewrite Hbs in Hv. split; [|auto].
    rewrite Ef, Hbs. unfold lk_bases. rewrite map_map. apply map_ext_in. intros cs Hcs. cbn [lk_base fst snd].
    rewrite combine_repeat by apply merged_length. unfold merged. rewrite map_map. reflexivity.
Qed.

Lemma table_complete (T : @hist K -> K) ncpus scs esch k cols mult cst csc h : char_gt K 3 -> 0 < ncpus ->
  cols <> [] -> (forall c, In c cols -> length c = 2 ^ S k) -> length mult = 2 ^ S k ->
  logup_scheds false k 1 scs -> valid_sched (S k) esch ->
  exists pf h' n d x, batch_prove T ncpus scs esch (TableIn cols mult cst csc) h = Some (pf, h') /\
    lp_claims pf = map (fun c => mkClaim x (mle c x)) (mult :: cols) /\ length x = S k /\ length (lp_sumchecks pf) = k /\
    (n, d) = frac_list (map (fun i => (nth i mult 0, row_val cst csc cols i)) (seq 0 (2 ^ S k))) /\
    ((forall p r, In p (lp_sumchecks pf) -> In r (pf_point p) -> not_node 3 r) ->
     verify_logup T pf 1 cst csc h = Some (lp_claims pf, [n], [d], h') /\
     shaped T false k [tb_base cst csc (S k) mult cols] pf h /\ claims_true T pf 1 k h (mult :: cols)).
Proof.
  intros Hch Hnc Hne Hw Hm Hsc Hes.
  set (ils := [InitTable mult (merged cst csc (S k) cols)]).
  assert (Hbs : map base_of ils = [tb_base cst csc (S k) mult cols]) by reflexivity.
  assert (Hwf : forall l, In l ils -> wf_lay (S k) (base_of l)).
  { intros l [<-|[]]. split; cbn [base_of fst snd]; [auto|apply merged_length]. }
  destruct (core_complete T ncpus scs false k ils Hnc Hch) with (esch := esch) (inp := TableIn cols mult cst csc) (cst := cst) (csc := csc) (cols := mult :: cols) (h := h)
    as (pf & h' & nums & dens & x & E & Ec & Hx & Hs & Ef & L1 & L2 & Hv); auto.
  - discriminate.
  - intros l [<-|[]]. reflexivity.
  - discriminate.
  - cbn [make_circuits]. unfold new_table_circuit. rewrite (merged_ok cols cst csc (2 ^ S k)) by auto. cbn [obind].
    change (map (row_val cst csc cols) (seq 0 (2 ^ S k))) with (merged cst csc (S k) cols).
    rewrite (circuit_new_ok k) by (apply Hwf; left; auto). reflexivity.
  - cbn [base_mles]. apply base_mles_ok. intros c [<-|Hc]; auto.
  - intros c [<-|Hc]; auto.
  - intros pfs evs outs al la x Hx. rewrite Hbs. unfold final_eval. cbn [lp_type lp_claims map cl_eval]. f_equal.
    unfold V. cbn [andb]. unfold lay_val, layer_at. rewrite Nat.sub_diag. cbn [map lev tb_base wsum fst snd].
    rewrite map_map. cbn [cl_eval]. rewrite col_comb_spec, merged_mle by auto. ring.
  - destruct nums as [|n [|]]; try discriminate L1. destruct dens as [|d [|]]; try discriminate L2.
    exists pf, h', n, d, x. do 4 (split; [assumption|]). split; [|assumption].
    rewrite Hbs in Ef. cbn [combine map tb_base fst snd] in Ef. injection Ef as Ef. rewrite Ef. f_equal. unfold merged.
    apply nth_ext with (d := (0, 0)) (d' := (0, 0)).
    + rewrite combine_length, !map_length, seq_length. lia.
    + intros i Hi. rewrite combine_length, map_length, seq_length in Hi. rewrite combine_nth by (rewrite map_length, seq_length; lia).
      rewrite !nth_map_seq by lia. reflexivity.
Qed.
End P.
