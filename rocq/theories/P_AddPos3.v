(** Proofs about M_AddPos, part 3: honest positional proofs are accepted; with several inputs only the claim about the
    positional matrix of the last one survives. *)
From Coq Require Import List Arith Lia Bool ZArith Field.
From Verif Require Import ListAux FieldDef MleMath M_Mle M_Sumcheck M_SamePoly M_Tensor M_Layers P_Tensor P_Mle P_SamePoly P_Eq P_Code4 P_Layers2 P_LayerNorm5 M_AddPos P_AddPos P_AddPos2.
Import ListNotations.

Section P.
Context {K : field}.
Add Field Kf_ap3 : (fth K).
Local Open Scope F_scope.

Lemma slice_2d_ok {A} (t : ten A) r b s e : sh t = [r; b] -> length (dat t) = (r * b)%nat -> s <= e <= r ->
  slice_2d t s e = Some (mkTen [(e - s)%nat; b] (firstn ((e - s) * b) (skipn (s * b) (dat t)))).
Proof.
  intros E L H. unfold slice_2d. rewrite E. unfold slice, csub. rewrite L.
  destruct (Nat.leb_spec (s * b) (e * b)); [|nia]. destruct (Nat.leb_spec (e * b) (r * b)); [|nia]. cbn [andb obind].
  destruct (Nat.leb_spec s e); [|lia]. cbn [obind]. rewrite <- Nat.mul_sub_distr_r. reflexivity.
Qed.
Lemma pos_slices_ok (pos : ten K) a b : sh pos = [2 ^ a; 2 ^ b]%nat -> length (dat pos) = (2 ^ (a + b))%nat -> forall d i, (i + d = a)%nat ->
  pos_slices pos (2 ^ i) d = Some (map (fun k => mkTen [2 ^ (i + k); 2 ^ b]%nat (block (i + b + k) (dat pos))) (seq 0 d), 2 ^ a)%nat.
Proof.
  intros E L. induction d as [|d IH]; intros i H.
  - cbn [pos_slices seq map]. do 3 f_equal. lia.
  - cbn [pos_slices]. rewrite (slice_2d_ok pos (2 ^ a) (2 ^ b)); [|exact E|rewrite <- Nat.pow_add_r; exact L|].
    2:{ split; [lia|]. change (2 ^ i * 2)%nat with (2 ^ i * 2 ^ 1)%nat. rewrite <- Nat.pow_add_r. apply Nat.pow_le_mono_r; lia. }
    cbn [obind]. replace (2 ^ i * 2)%nat with (2 ^ S i)%nat by (cbn [Nat.pow]; lia). rewrite (IH (S i)) by lia. cbn [obind fst snd seq map]. do 3 f_equal.
    + replace (2 ^ S i - 2 ^ i)%nat with (2 ^ i)%nat by (cbn [Nat.pow]; lia). rewrite !Nat.add_0_r. unfold block. rewrite <- Nat.pow_add_r. reflexivity.
    + rewrite <- seq_shift, map_map. apply map_ext. intros k. replace (S i + k)%nat with (i + S k)%nat by lia. replace (S i + b + k)%nat with (i + b + S k)%nat by lia. reflexivity.
Qed.
Lemma block_len k (P : list K) : 2 ^ S k <= length P -> length (block k P) = (2 ^ k)%nat.
Proof. intros H. unfold block. rewrite firstn_length, skipn_length. cbn [Nat.pow] in H. lia. Qed.

(** One input: the honest prover runs, its proof is accepted with the same claims, and both hold. *)
Lemma pos_complete1 (T : @hist K -> K) es c (pos input : ten K) a b i (O : list K) (last : claim) h : (forall n, valid_sched n (es n)) -> ad_static c = false ->
  sh pos = [2 ^ a; 2 ^ b]%nat -> length (dat pos) = (2 ^ (a + b))%nat -> sh input = [2 ^ i; 2 ^ b]%nat -> length (dat input) = (2 ^ (i + b))%nat -> i <= a ->
  scaled_sum (fZ (ad_left c)) (fZ (ad_right c)) (dat input) (pos_part (i + b) (dat pos)) O -> claim_true O last ->
  exists ic pc pf h', pos_prove1 T es c pos last input h = Some (ic, pc, pf, h') /\ pos_verify1 T c (a + b) last pf h = Some (ic, pc, h') /\
    claim_true (dat input) ic /\ claim_true (dat pos) pc.
Proof.
  intros He St Ep Lp Ei Li Hi S HO.
  assert (Ln : length (cl_point last) = (i + b)%nat).
  { destruct HO as (H1 & _). destruct S as (H2 & _). apply (Nat.pow_inj_r 2); [lia|]. congruence. }
  assert (Sub : slice_2d pos 0 (2 ^ i) = Some (mkTen [2 ^ i; 2 ^ b]%nat (pos_part (i + b) (dat pos)))).
  { rewrite (slice_2d_ok pos (2 ^ a) (2 ^ b)); [|exact Ep|rewrite <- Nat.pow_add_r; exact Lp|split; [lia|apply Nat.pow_le_mono_r; lia]].
    rewrite Nat.sub_0_r, <- Nat.pow_add_r. reflexivity. }
  assert (Lsub : length (pos_part (i + b) (dat pos)) = (2 ^ (i + b))%nat).
  { unfold pos_part. rewrite firstn_length, Lp. apply Nat.min_l. apply Nat.pow_le_mono_r; lia. }
  set (sub := mkTen [2 ^ i; 2 ^ b]%nat (pos_part (i + b) (dat pos))) in *.
  destruct (add_complete es c input sub [input; sub] O last) as (ics & op & apf & A1 & A2 & A3 & A4); auto.
  { congruence. } { cbn [dat sub]. congruence. }
  rewrite St in A3, A4. destruct (add_verify_inv _ _ _ _ _ A2) as (_ & Eics & _). rewrite St in Eics.
  assert (T1 : claim_true (dat input) (mkClaim (cl_point last) (ap_left apf)) /\ claim_true (dat sub) (mkClaim (cl_point last) (ap_right apf))).
  { rewrite Eics in A3. destruct (F2_cons_inv _ _ _ _ _ A3) as (F1 & F2). split; [exact F1|exact (proj1 (F2_cons_inv _ _ _ _ _ F2))]. }
  destruct T1 as (TX & (_ & TS)). cbn [cl_point cl_eval dat sub] in TS.
  set (sc := mkClaim (cl_point last) (ap_right apf)) in *.
  set (xs := fst (pos_coords T (a - i) last sc h)). set (pt := cl_point last ++ xs).
  assert (Lxs : length xs = (a - i)%nat) by apply pos_coords_len.
  assert (Lpt : length pt = (a + b)%nat) by (unfold pt; rewrite app_length; lia).
  set (evs := map (fun k => mle (block (i + b + k) (dat pos)) (firstn (i + b + k) pt)) (seq 0 (a - i))).
  assert (Levs : length evs = (a - i)%nat) by (unfold evs; rewrite map_length, seq_length; reflexivity).
  assert (Sev : subs_true (length (cl_point last)) (length xs) (dat pos) pt evs).
  { rewrite Ln, Lxs. split; [exact Levs|]. intros k Hk. unfold evs. rewrite (nth_map_lt _ _ _ 0%nat) by (rewrite seq_length; lia). rewrite seq_nth by lia. reflexivity. }
  set (pc := mkClaim pt (fold_left comb_step (combine evs xs) (ap_right apf))).
  assert (Epc : pos_matrix_claim pt (ap_right apf) evs = Some pc).
  { unfold pos_matrix_claim, csub. rewrite Lpt, Levs. destruct (Nat.leb_spec (a - i) (a + b)); [|lia]. cbn [obind]. rewrite fold_comb. unfold pc.
    replace (skipn (a + b - (a - i)) pt) with xs; [reflexivity|]. unfold pt. rewrite skipn_app, skipn_all2 by lia. rewrite Ln. replace (a + b - (a - i) - (i + b))%nat with 0%nat by lia. reflexivity. }
  assert (TP : claim_true (dat pos) pc).
  { split; [cbn [pc cl_point]; rewrite Lpt; exact Lp|]. cbn [pc cl_point cl_eval]. unfold pt in Sev. rewrite (fold_subs (dat pos) xs (cl_point last) evs _ Sev). fold pt. rewrite Ln, TS. change (mlef (fun i => nth i (dat pos) 0) pt) with (mle (dat pos) pt). ring. }
  exists (mkClaim (cl_point last) (ap_left apf)), pc, (mkPp evs apf), (snd (pos_coords T (a - i) last sc h)).
  split; [|split; [|split; assumption]].
  - unfold pos_prove1. rewrite Ei. rewrite Sub. cbn [obind]. rewrite A1. cbn [obind]. rewrite Eics. change (cl_point sc) with (cl_point last). change (cl_eval sc) with (ap_right apf).
    assert (Env : pos_nv pos = Some (a + b)%nat).
    { unfold pos_nv. rewrite (nrows_pow pos a b Ep), (ncols_pow pos a b Ep). cbn [obind]. rewrite !ilog2_pow. reflexivity. }
    rewrite Env. cbn [obind]. unfold csub at 1. rewrite Ln. destruct (Nat.leb_spec (i + b) (a + b)); [|lia]. cbn [obind].
    replace (a + b - (i + b))%nat with (a - i)%nat by lia. fold sc.
    rewrite (surjective_pairing (pos_coords T (a - i) last sc h)). fold xs. fold pt.
    rewrite (pos_slices_ok pos a b Ep Lp (a - i) i) by lia. cbn [obind fst snd]. rewrite (nrows_pow pos a b Ep). cbn [obind]. rewrite Nat.eqb_refl.
    assert (Ee : omapM (fun '(k, s) => m <- to_mle_2d s ;; evaluate (es (num_vars m)) m (firstn (i + b + k) pt))
        (combine (seq 0 (a - i)) (map (fun k => mkTen [2 ^ (i + k); 2 ^ b]%nat (block (i + b + k) (dat pos))) (seq 0 (a - i)))) = Some evs).
    { assert (G : combine (seq 0 (a - i)) (map (fun k => mkTen [2 ^ (i + k); 2 ^ b]%nat (block (i + b + k) (dat pos))) (seq 0 (a - i)))
        = map (fun k => (k, mkTen [2 ^ (i + k); 2 ^ b]%nat (block (i + b + k) (dat pos)))) (seq 0 (a - i))).
      { generalize (seq 0 (a - i)). intros l. induction l as [|y l IHl]; [reflexivity|]. cbn [map combine]. f_equal. exact IHl. }
      rewrite G. rewrite P_Code3.omapM_pre. unfold evs. apply P_Code3.omapM_map_some. intros k Hk. apply in_seq in Hk.
      assert (Lb : length (block (i + b + k) (dat pos)) = (2 ^ (i + b + k))%nat) by (apply block_len; rewrite Lp; apply Nat.pow_le_mono_r; lia).
      rewrite (to_mle_2d_ok _ (i + k) b) by (cbn [sh dat]; auto; rewrite Lb; f_equal; lia). cbn [obind num_vars dat].
      replace (i + k + b)%nat with (i + b + k)%nat by lia. apply evaluate_ext; auto. rewrite firstn_length. lia. }
    rewrite Ee. cbn [obind]. rewrite Epc. reflexivity.
  - unfold pos_verify1. cbn [pp_add pp_subs]. rewrite A2. cbn [obind fst]. rewrite Eics. change (cl_point sc) with (cl_point last). change (cl_eval sc) with (ap_right apf). unfold csub at 1. rewrite Ln. destruct (Nat.leb_spec (i + b) (a + b)); [|lia]. cbn [obind].
    replace (a + b - (i + b))%nat with (a - i)%nat by lia. fold sc. rewrite (surjective_pairing (pos_coords T (a - i) last sc h)). fold xs. fold pt. rewrite Epc. reflexivity.
Qed.

(** Any number of inputs, each with its own number of rows. *)
Definition pos_case (c : add_ctx) (pos : ten K) (a b : nat) (last : claim) (input : ten K) : Prop :=
  exists i O, sh input = [2 ^ i; 2 ^ b]%nat /\ length (dat input) = (2 ^ (i + b))%nat /\ i <= a /\
    scaled_sum (fZ (ad_left c)) (fZ (ad_right c)) (dat input) (pos_part (i + b) (dat pos)) O /\ claim_true O last.
Lemma pos_complete_loop (T : @hist K -> K) es c (pos : ten K) a b : (forall n, valid_sched n (es n)) -> ad_static c = false ->
  sh pos = [2 ^ a; 2 ^ b]%nat -> length (dat pos) = (2 ^ (a + b))%nat ->
  forall lasts inputs com h, Forall2 (pos_case c pos a b) lasts inputs -> (forall pc, com = Some pc -> claim_true (dat pos) pc) ->
  exists ics com' pfs h', pos_prove_loop T es c pos (combine lasts inputs) com h = Some (ics, com', pfs, h') /\ length pfs = length lasts /\
    pos_loop T c (a + b) (combine lasts pfs) com h = Some (ics, com', h') /\ Forall2 claim_true (map dat inputs) ics /\
    (forall pc, com' = Some pc -> claim_true (dat pos) pc) /\ (com' = None -> com = None /\ lasts = []).
Proof.
  intros He St Ep Lp. induction lasts as [|last lasts IH]; intros inputs com h F Hc; inversion F as [|x y l l' H1 H2 E1 E2]; subst.
  - exists [], com, [], h. cbn. split; [reflexivity|]. split; [reflexivity|]. split; [reflexivity|]. split; [constructor|]. split; [exact Hc|auto].
  - destruct H1 as (i & O & A1 & A2 & A3 & A4 & A5).
    destruct (pos_complete1 T es c pos y a b i O last h) as (ic & pc & pf & h1 & B1 & B2 & B3 & B4); auto.
    destruct (IH l' (Some pc) h1 H2) as (ics & com' & pfs & h2 & C1 & C2 & C3 & C4 & C5 & C6). { intros pc' Epc. injection Epc as <-. exact B4. }
    exists (ic :: ics), com', (pf :: pfs), h2. cbn [combine pos_prove_loop pos_loop map length]. rewrite B1, B2. cbn [obind]. rewrite C1, C3. cbn [obind].
    split; [reflexivity|]. split; [congruence|]. split; [reflexivity|]. split; [constructor; auto|]. split; [exact C5|]. intros Z. destruct (C6 Z); discriminate.
Qed.
Lemma pos_complete (T : @hist K -> K) es c (pos : ten K) a b lasts inputs h : (forall n, valid_sched n (es n)) -> ad_static c = false ->
  sh pos = [2 ^ a; 2 ^ b]%nat -> length (dat pos) = (2 ^ (a + b))%nat ->
  Forall2 (pos_case c pos a b) lasts inputs -> inputs <> [] ->
  exists ics pc pfs h', pos_prove T es c pos lasts inputs h = Some (ics, Some pc, pfs, h') /\
    pos_verify T c (a + b) lasts pfs h = Some (ics, Some pc, h') /\ Forall2 claim_true (map dat inputs) ics /\ claim_true (dat pos) pc.
Proof.
  intros He St Ep Lp F Hne. assert (Ll : length lasts = length inputs) by (clear - F; induction F; cbn; congruence).
  destruct (pos_complete_loop T es c pos a b He St Ep Lp lasts inputs None h F) as (ics & com & pfs & h' & C1 & C2 & C3 & C4 & C5 & C6); [discriminate|].
  destruct com as [pc|]; [|destruct (C6 eq_refl) as (_ & ->); inversion F; congruence].
  exists ics, pc, pfs, h'. unfold pos_prove, pos_verify. rewrite <- Ll, C2, Nat.eqb_refl. split; [exact C1|]. split; [exact C3|]. split; [exact C4|]. apply C5. reflexivity.
Qed.

(** *** Several inputs: the claims about the positional matrix of all but the last are dropped. *)
Lemma pos_lie (T : @hist K -> K) c nv (last : claim) (X : list K) h : ad_static c = false -> @fZ K (ad_right c) <> 0 ->
  length X = (2 ^ length (cl_point last))%nat -> length (cl_point last) <= nv ->
  exists pf ic pc h', pos_verify1 T c nv last pf h = Some (ic, pc, h') /\ length (pp_subs pf) = (nv - length (cl_point last))%nat /\ claim_true X ic.
Proof.
  intros St Hr LX Hn. set (re := (cl_eval last - mle X (cl_point last) * fZ (ad_left c)) / fZ (ad_right c)). set (n := length (cl_point last)) in *.
  exists (mkPp (repeat 0 (nv - n)) (mkAp (mle X (cl_point last)) re)). unfold pos_verify1, add_verify. cbn [pp_add pp_subs ap_left ap_right].
  assert (E : (mle X (cl_point last) * fZ (ad_left c) + re * fZ (ad_right c) =? cl_eval last) = true) by (apply feqb_spec; unfold re; field; exact Hr).
  rewrite E, St. cbn [obind fst cl_point cl_eval]. unfold csub. fold n. destruct (Nat.leb_spec n nv); [|lia]. cbn [obind].
  assert (Lx := pos_coords_len T (nv - n) last (mkClaim (cl_point last) re) h).
  rewrite (surjective_pairing (pos_coords T (nv - n) last (mkClaim (cl_point last) re) h)).
  unfold pos_matrix_claim, csub. rewrite app_length, Lx, repeat_length. fold n. destruct (Nat.leb_spec (nv - n) (n + (nv - n))); [|lia]. cbn [obind].
  do 3 eexists. split; [reflexivity|]. split; [reflexivity|]. split; [exact LX|reflexivity].
Qed.
Lemma pos_overwrite_loop (T : @hist K -> K) es c (pos : ten K) a b last input : (forall n, valid_sched n (es n)) -> ad_static c = false -> @fZ K (ad_right c) <> 0 ->
  sh pos = [2 ^ a; 2 ^ b]%nat -> length (dat pos) = (2 ^ (a + b))%nat -> pos_case c pos a b last input ->
  forall lies com h, Forall (fun '(cl, X) => length X = (2 ^ length (cl_point cl))%nat /\ length (cl_point cl) <= a + b) lies ->
  exists pfs ics pc h', length pfs = S (length lies) /\ pos_loop T c (a + b) (combine (map fst lies ++ [last]) pfs) com h = Some (ics, Some pc, h') /\
    Forall2 claim_true (map snd lies ++ [dat input]) ics /\ claim_true (dat pos) pc.
Proof.
  intros He St Hr Ep Lp H. induction lies as [|[cl X] lies IH]; intros com h F.
  - destruct H as (i & O & A1 & A2 & A3 & A4 & A5). destruct (pos_complete1 T es c pos input a b i O last h) as (ic & pc & pf & h1 & B1 & B2 & B3 & B4); auto.
    exists [pf], [ic], pc, h1. cbn [map app combine pos_loop]. rewrite B2. cbn [obind]. split; [reflexivity|]. split; [reflexivity|]. split; [constructor; auto|exact B4].
  - apply Forall_cons_iff in F. destruct F as ((L1 & L2) & F). destruct (pos_lie T c (a + b) cl X h St Hr L1 L2) as (pf & ic & pc1 & h1 & B1 & _ & B3).
    destruct (IH (Some pc1) h1 F) as (pfs & ics & pc & h2 & C1 & C2 & C3 & C4). exists (pf :: pfs), (ic :: ics), pc, h2.
    cbn [map app combine pos_loop length fst snd]. rewrite B1. cbn [obind]. rewrite C2. cbn [obind]. split; [congruence|]. split; [reflexivity|]. split; [constructor; auto|exact C4].
Qed.
(** Whatever is claimed about the outputs of the other inputs, together with one honest last input everything is accepted and
    every claim returned holds; no condition on the challenges. *)
Lemma pos_overwrite (T : @hist K -> K) es c (pos : ten K) a b last input lies h : (forall n, valid_sched n (es n)) -> ad_static c = false -> @fZ K (ad_right c) <> 0 ->
  sh pos = [2 ^ a; 2 ^ b]%nat -> length (dat pos) = (2 ^ (a + b))%nat -> pos_case c pos a b last input ->
  Forall (fun '(cl, X) => length X = (2 ^ length (cl_point cl))%nat /\ length (cl_point cl) <= a + b) lies ->
  exists pfs ics pc h', pos_verify T c (a + b) (map fst lies ++ [last]) pfs h = Some (ics, Some pc, h') /\
    Forall2 claim_true (map snd lies ++ [dat input]) ics /\ claim_true (dat pos) pc.
Proof.
  intros He St Hr Ep Lp H F. destruct (pos_overwrite_loop T es c pos a b last input He St Hr Ep Lp H lies None h F) as (pfs & ics & pc & h' & C1 & C2 & C3 & C4).
  exists pfs, ics, pc, h'. unfold pos_verify. rewrite app_length, map_length. cbn [length]. rewrite C1. replace (length lies + 1)%nat with (S (length lies)) by lia.
  rewrite Nat.eqb_refl. auto.
Qed.

(** *** The integer layer. *)
Lemma pos_evaluate_scaled (c : add_ctx) (pos x O : ten Z) a b i : sh pos = [2 ^ a; 2 ^ b]%nat -> length (dat pos) = (2 ^ (a + b))%nat ->
  sh x = [2 ^ i; 2 ^ b]%nat -> i <= a -> pos_evaluate c pos x = Some O ->
  scaled_sum (@fZ K (ad_left c)) (fZ (ad_right c)) (map fZ (dat x)) (pos_part (i + b) (map fZ (dat pos))) (map fZ (dat O)).
Proof.
  intros Ep Lp Ex Hi. unfold pos_evaluate. rewrite Ex.
  rewrite (slice_2d_ok pos (2 ^ a) (2 ^ b)); [|exact Ep|rewrite <- Nat.pow_add_r; exact Lp|split; [lia|apply Nat.pow_le_mono_r; lia]]. cbn [obind].
  intros H. set (sub := mkTen _ _) in H. assert (G := add_evaluate_scaled (K := K) c None [x; sub] O x sub H eq_refl eq_refl).
  cbn [sub dat] in G. rewrite Nat.sub_0_r, <- Nat.pow_add_r in G. cbn [skipn Nat.mul] in G. rewrite <- firstn_map in G. exact G.
Qed.
(** With one input: what the verifier's claims say about the layer. *)
Lemma pos_layer_sound (T : @hist K -> K) (c : add_ctx) (pos x O : ten Z) a b i (last : claim) pf h ic pc h' : pos_evaluate c pos x = Some O ->
  sh pos = [2 ^ a; 2 ^ b]%nat -> length (dat pos) = (2 ^ (a + b))%nat -> sh x = [2 ^ i; 2 ^ b]%nat -> i <= a -> length (cl_point last) = (i + b)%nat ->
  pos_verify1 T c (a + b) last pf h = Some (ic, pc, h') ->
  subs_true (i + b) (a - i) (map fZ (dat pos)) (cl_point pc) (pp_subs pf) -> (forall z, In z (skipn (i + b) (cl_point pc)) -> z <> 1) ->
  claim_true (map fZ (dat x)) ic -> claim_true (map fZ (dat pos)) pc -> claim_true (map fZ (dat O)) last.
Proof.
  intros Ev Ep Lp Ex Hi Ln V Hs Hx TX TP.
  assert (G := pos_evaluate_scaled c pos x O a b i Ep Lp Ex Hi Ev).
  destruct (pos_verify1_inv _ _ _ _ _ _ _ _ _ V) as (_ & _ & _ & _ & _ & Epc & _).
  assert (Ept : cl_point pc = cl_point last ++ extra T (a + b) last pf h) by (rewrite Epc; reflexivity). rewrite Ept in Hs, Hx.
  rewrite skipn_app, skipn_all2 in Hx by lia. rewrite Ln, Nat.sub_diag in Hx. cbn [app skipn] in Hx.
  apply (pos_sound T c (a + b) last pf h ic pc h' (map fZ (dat x)) (map fZ (dat pos)) _ V); auto; rewrite Ln; auto.
  replace (a + b - (i + b))%nat with (a - i)%nat by lia. exact Hs.
Qed.
(** The honest prover on the integer layer, any number of inputs. *)
Lemma pos_honest (T : @hist K -> K) es (c : add_ctx) (pos : ten Z) (xs os : list (ten Z)) a b (lasts : list claim) h : (forall n, valid_sched n (es n)) -> ad_static c = false ->
  sh pos = [2 ^ a; 2 ^ b]%nat -> length (dat pos) = (2 ^ (a + b))%nat -> xs <> [] ->
  Forall (fun x => exists i, sh x = [2 ^ i; 2 ^ b]%nat /\ length (dat x) = (2 ^ (i + b))%nat /\ i <= a) xs ->
  Forall2 (fun x o => pos_evaluate c pos x = Some o) xs os -> Forall2 (fun o last => claim_true (map fZ (dat o)) last) os lasts ->
  exists ics pc pfs h', pos_prove T es c (to_f pos) lasts (map to_f xs) h = Some (ics, Some pc, pfs, h') /\
    pos_verify T c (a + b) lasts pfs h = Some (ics, Some pc, h') /\ Forall2 claim_true (map (fun x => map fZ (dat x)) xs) ics /\ claim_true (map fZ (dat pos)) pc.
Proof.
  intros He St Ep Lp Hne Hx He2 Hl.
  assert (F : Forall2 (pos_case c (to_f pos) a b) lasts (map to_f xs)).
  { clear Hne. revert os lasts He2 Hl. induction xs as [|x xs IH]; intros os lasts He2 Hl; inversion He2; subst; inversion Hl; subst; [constructor|].
    apply Forall_cons_iff in Hx. destruct Hx as ((i & S1 & S2 & S3) & Hx). constructor; [|eapply IH; eauto].
    exists i, (map fZ (dat y)). unfold to_f at 1 2 3. cbn [sh dat]. rewrite map_length. split; [exact S1|]. split; [exact S2|]. split; [exact S3|]. split; [apply (pos_evaluate_scaled c pos x y a b i); auto|]. destruct (F2_cons_inv _ _ _ _ _ Hl) as (G & _). exact G. }
  destruct (pos_complete T es c (to_f pos) a b lasts (map to_f xs) h) as (ics & pc & pfs & h' & C1 & C2 & C3 & C4); auto.
  - cbn [to_f dat]. rewrite map_length. exact Lp.
  - destruct xs; [congruence|discriminate].
  - exists ics, pc, pfs, h'. rewrite map_map in C3. auto.
Qed.
End P.
