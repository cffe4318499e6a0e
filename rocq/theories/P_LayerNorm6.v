(** Proofs about the layer normalisation proof: runs on integers, honest and with a quotient that is too small. *)
From Coq Require Import List Arith Lia Bool ZArith Ring Field Znumtheory.
From Verif Require Import ListAux FieldDef PolyList MleMath M_Mle P_Mle P_Eq M_Interp P_Interp M_Sumcheck P_ScVerify P_ScProve P_ScProve2 P_ScBatch P_ScFinal M_ScParallel
  P_ScParallel P_ScApi M_SamePoly P_SamePoly M_LogUp P_LogUp3 P_LogUp4 P_LogUp8 P_LogUp9 M_Tensor P_Tensor M_Layers P_Layers P_Layers2 P_Layers3 P_Transformer P_Transformer2 M_Sop P_Sop P_Code3
  M_Tables P_Tables M_Quant M_Requant P_Requant P_Requant2 P_Pooling P_Pooling2 M_RequantP P_RequantP P_RequantP2 P_RequantP3 M_LayerNorm P_LayerNorm P_LayerNorm2 P_LayerNorm3 P_LayerNorm5.
From Verif Require M_Basefold P_Basefold.
Import ListNotations.

Section P.
Context {K : field} {C : Type}.
Local Open Scope F_scope.
Add Field Kf_ln6 : (fth K).

Lemma zp n : (0 < 2 ^ Z.of_nat n)%Z.
Proof. apply Z.pow_pos_nonneg; [lia|apply Nat2Z.is_nonneg]. Qed.
Lemma land_mod x B : Z.land x (2 ^ Z.of_nat B - 1) = (x mod 2 ^ Z.of_nat B)%Z.
Proof. replace (2 ^ Z.of_nat B - 1)%Z with (Z.ones (Z.of_nat B)) by (rewrite Z.ones_equiv; lia). apply Z.land_ones. lia. Qed.
Lemma ln_chunks_ok B rcb tsl k e : (0 < k)%nat -> (rcb + tsl = k * B)%nat -> (tsl < B)%nat -> (0 <= e < 2 ^ Z.of_nat rcb)%Z ->
  length (ln_chunks B k tsl e) = k /\ Forall (in_range B) (ln_chunks B k tsl e) /\
  (digits_val B (firstn (k - 1) (ln_chunks B k tsl e)) = e mod 2 ^ Z.of_nat ((k - 1) * B) /\ nth (k - 1) (ln_chunks B k tsl e) 0 = e / 2 ^ Z.of_nat ((k - 1) * B) * 2 ^ Z.of_nat tsl)%Z.
Proof.
  intros Hk Hkb Ht He. set (f := fun j => Z.land (Z.shiftr e (Z.of_nat (j * B))) (2 ^ Z.of_nat B - 1)).
  assert (Ef : forall j, f j = ((e / 2 ^ Z.of_nat (j * B)) mod 2 ^ Z.of_nat B)%Z) by (intros j; unfold f; rewrite Z.shiftr_div_pow2, land_mod by lia; reflexivity).
  assert (EL : ln_chunks B k tsl e = map f (seq 0 (k - 1)) ++ [f (k - 1)%nat * 2 ^ Z.of_nat tsl]%Z).
  { unfold ln_chunks. assert (Es : seq 0 k = seq 0 (k - 1) ++ [(k - 1)%nat]) by (destruct k as [|k']; [lia|]; cbn [Nat.sub]; rewrite Nat.sub_0_r, seq_S; reflexivity). rewrite Es, map_app. cbn [map]. rewrite Nat.eqb_refl. f_equal. apply map_ext_in. intros j Hj. apply in_seq in Hj. fold (f j). destruct (Nat.eqb_spec j (k - 1)); [lia|reflexivity]. }
  rewrite EL. assert (L1 : length (map f (seq 0 (k - 1))) = (k - 1)%nat) by (rewrite map_length, seq_length; reflexivity).
  assert (PB : (0 < 2 ^ Z.of_nat B)%Z) by apply zp. assert (PW : (0 < 2 ^ Z.of_nat ((k - 1) * B))%Z) by apply zp. assert (PT : (0 < 2 ^ Z.of_nat tsl)%Z) by apply zp.
  assert (Htop : (f (k - 1)%nat = e / 2 ^ Z.of_nat ((k - 1) * B) /\ 0 <= f (k - 1)%nat < 2 ^ Z.of_nat (B - tsl))%Z).
  { rewrite Ef. assert (Q : (0 <= e / 2 ^ Z.of_nat ((k - 1) * B) < 2 ^ Z.of_nat (B - tsl))%Z).
    { split; [apply Z.div_pos; lia|]. apply Z.div_lt_upper_bound; [lia|]. rewrite <- Z.pow_add_r by apply Nat2Z.is_nonneg. rewrite <- Nat2Z.inj_add. replace ((k - 1) * B + (B - tsl))%nat with rcb; [apply He|]. destruct k as [|k]; [lia|]. cbn [Nat.sub]. rewrite Nat.sub_0_r. lia. }
    assert (Q2 : (2 ^ Z.of_nat (B - tsl) <= 2 ^ Z.of_nat B)%Z) by (apply Z.pow_le_mono_r; lia). rewrite Z.mod_small by lia. split; [reflexivity|exact Q]. }
  destruct Htop as [Et Hb]. split; [rewrite app_length, L1; cbn [length]; lia|]. split; [|split].
  - apply Forall_app. split.
    + apply Forall_forall. intros x Hx. apply in_map_iff in Hx as (j & <- & _). rewrite Ef. apply Z.mod_pos_bound. exact PB.
    + constructor; [|constructor]. unfold in_range. assert (E : (2 ^ Z.of_nat B = 2 ^ Z.of_nat (B - tsl) * 2 ^ Z.of_nat tsl)%Z) by (rewrite <- Z.pow_add_r by lia; f_equal; lia). rewrite E. split; [apply Z.mul_nonneg_nonneg; lia|]. apply Z.mul_lt_mono_pos_r; lia.
  - rewrite firstn_app, L1, Nat.sub_diag. cbn [firstn]. rewrite app_nil_r, firstn_all2 by lia. rewrite (map_ext _ _ Ef), digits_div by lia. change (2 ^ Z.of_nat (0 * B))%Z with 1%Z. now rewrite Z.div_1_r.
  - rewrite app_nth2 by lia. rewrite L1, Nat.sub_diag. cbn [nth]. now rewrite Et.
Qed.
Lemma ln_row_honest B rcb tsl k v : (0 < k)%nat -> (rcb + tsl = k * B)%nat -> (tsl < B)%nat -> fZ (2 ^ Z.of_nat tsl) <> (0 : K) ->
  recomb B rcb tsl k (fZ (v / 2 ^ Z.of_nat rcb)) (map fZ (ln_chunks B k tsl (v mod 2 ^ Z.of_nat rcb))) = (fZ v : K).
Proof.
  intros Hk Hkb Ht Hn. assert (PR : (0 < 2 ^ Z.of_nat rcb)%Z) by apply zp. pose proof (Z.mod_pos_bound v _ PR) as He. set (e := (v mod 2 ^ Z.of_nat rcb)%Z) in *.
  destruct (ln_chunks_ok B rcb tsl k e Hk Hkb Ht He) as (L & _ & D & N). apply (fmul_cancel_l (fZ (2 ^ Z.of_nat tsl))); [exact Hn|]. rewrite recomb_fZ by auto. rewrite D, N, <- fZ_mul. f_equal.
  set (W := (2 ^ Z.of_nat ((k - 1) * B))%Z) in *. assert (PW : (0 < W)%Z) by apply zp. pose proof (Z.div_mod e W ltac:(lia)) as Q. pose proof (Z.div_mod v (2 ^ Z.of_nat rcb) ltac:(lia)) as Q2. fold e in Q2.
  set (R := (2 ^ Z.of_nat rcb)%Z) in *. set (T2 := (2 ^ Z.of_nat tsl)%Z) in *. transitivity (T2 * (R * (v / R) + (W * (e / W) + e mod W)))%Z; [ring|]. rewrite <- Q, <- Q2. reflexivity.
Qed.

(** The tables claimed by a row-by-row witness. *)
Lemma ln_rows_complete (T : @hist K -> K) ncpus sc1 es1 sc2 es2 sca sci scn B c c1 s1 c2 s2 k s nb nr (ws : list row) (data gamma beta : list Z) (comms : list C) (last : claim) h :
  let m := S (S k) in
  char_gt K 4 -> (0 < ncpus)%nat -> (0 < nr)%nat -> ln_nrc B c = Some nr ->
  ceil_log2 (ln_dim c) = Some s -> (s < 64)%nat -> ceil_log2 (2 + nr) = Some nb ->
  length data = (2 ^ (s + m))%nat -> length gamma = (2 ^ s)%nat -> length beta = (2 ^ s)%nat -> length comms = (2 + nr)%nat ->
  (B < 64)%nat -> (ln_rcb c < 64)%nat -> (ln_tsl c < 64)%nat -> fZ (2 ^ Z.of_nat (ln_tsl c)) <> (0 : K) ->
  Forall2 (fun v w => length (snd w) = nr /\ recomb B (ln_rcb c) (ln_tsl c) nr (fZ (r_in w)) (map fZ (snd w)) = (fZ v : K)) (ln_values s c data) ws ->
  claim_true (map fZ (concat (map (fun '(ch, d) => ln_out c gamma beta ch d) (combine (chunks (2 ^ s) data) (map r_out ws))))) last ->
  ln_scheds (K := K) k s nr sc1 es1 sc2 es2 sca sci scn ->
  ln_run T ncpus sc1 es1 sc2 es2 sca sci scn B c c1 s1 c2 s2 s m (col r_in ws) (col r_out ws) (chunk_cols nr ws) (map fZ data) (map fZ gamma) (map fZ beta) comms last h.
Proof.
  intros m Hch Hnc Hk Hnr Hs Hs64 Hnb Ld Lg Lb Lcm HB Hr Ht Hn Hrow Hl Hsch.
  assert (Lcc : length (chunk_cols (K := K) nr ws) = nr) by (unfold chunk_cols; now rewrite map_length, seq_length).
  destruct (rows_ok s m data Ld) as (L1 & L2 & L3). assert (Lw : length ws = (2 ^ m)%nat) by (apply F2_len in Hrow; unfold ln_values in Hrow; rewrite map_length, L1 in Hrow; symmetry; exact Hrow).
  apply (ln_complete T ncpus sc1 es1 sc2 es2 sca sci scn B c c1 s1 c2 s2 k s nb); auto; try (rewrite ?map_length, ?Lcc; auto; fail).
  - constructor; [unfold col; now rewrite map_length|]. constructor; [unfold col; now rewrite map_length|]. apply Forall_forall. intros co Hc. apply in_map_iff in Hc as (j & <- & _). unfold col. now rewrite map_length.
  - intros X. apply (f_equal (@length _)) in X. rewrite Lcc in X. cbn [length] in X. lia.
  - unfold col. rewrite <- (map_map r_out fZ), (ln_table_fZ s m data Ld) by (auto; rewrite map_length; exact Lw). exact Hl.
  - intros j Hj. rewrite Lcc. rewrite (ln_var_fZ s m data Ld) by exact Hj. unfold col at 1. rewrite (nth_map_lt _ ws j (0%Z, 0%Z, [])) by (rewrite Lw; exact Hj).
    assert (HR : length (snd (nth j ws (0%Z, 0%Z, []))) = nr /\ recomb B (ln_rcb c) (ln_tsl c) nr (fZ (r_in (nth j ws (0%Z, 0%Z, [])))) (map fZ (snd (nth j ws (0%Z, 0%Z, [])))) = (fZ (nth j (ln_values s c data) 0%Z) : K)).
    { assert (Hj2 : (j < length (ln_values s c data))%nat) by (unfold ln_values; rewrite map_length, L1; exact Hj). clear - Hrow Hj2. revert j Hj2. induction Hrow as [|v w vs ws H Hr IH]; intros j Hj; cbn [length] in Hj; [lia|]. destruct j as [|j]; [exact H|]. cbn [nth]. apply IH. lia. }
    destruct HR as [Lk HR]. unfold ln_values in HR. rewrite (nth_map_lt _ _ j []) in HR by (rewrite L1; exact Hj). etransitivity; [|exact HR].
    f_equal. unfold chunk_cols. rewrite map_map. apply nth_ext_all with (d := 0); [rewrite !map_length, seq_length; auto|]. intros i Hi. rewrite map_length, seq_length in Hi. rewrite nth_map_seq by exact Hi.
    unfold col. rewrite (nth_map_lt _ ws j (0%Z, 0%Z, [])) by (rewrite Lw; exact Hj). rewrite (nth_map_lt _ _ i 0%Z) by lia. reflexivity.
Qed.
(** The witness of an honest prover (layernorm.rs:1132-1159). *)
Definition ln_ws (B nr : nat) (c : ln_ctx) (rows : list (Z * Z * Z)) : list row := map (fun r => (fst (fst r), snd (fst r), ln_chunks B nr (ln_tsl c) (snd r))) rows.
Lemma ln_honest (T : @hist K -> K) lut ncpus sc1 es1 sc2 es2 sca sci scn B c c1 s1 c2 s2 k s nb nr (data gamma beta outs : list Z) rows (comms : list C) (last : claim) h :
  let m := S (S k) in
  char_gt K 4 -> (0 < ncpus)%nat -> (0 < nr)%nat -> ln_nrc B c = Some nr -> (ln_rcb c + ln_tsl c = nr * B)%nat -> (ln_tsl c < B < 64)%nat -> (ln_rcb c < 64)%nat ->
  ceil_log2 (ln_dim c) = Some s -> (s < 64)%nat -> ceil_log2 (2 + nr) = Some nb ->
  length data = (2 ^ (s + m))%nat -> length gamma = (2 ^ s)%nat -> length beta = (2 ^ s)%nat -> length comms = (2 + nr)%nat -> fZ (2 ^ Z.of_nat (ln_tsl c)) <> (0 : K) ->
  ln_evaluate lut c gamma beta (2 ^ s) data = Some (outs, rows) -> claim_true (map fZ outs) last ->
  ln_scheds (K := K) k s nr sc1 es1 sc2 es2 sca sci scn ->
  let ws := ln_ws B nr c rows in
  ln_run T ncpus sc1 es1 sc2 es2 sca sci scn B c c1 s1 c2 s2 s m (col r_in ws) (col r_out ws) (chunk_cols nr ws) (map fZ data) (map fZ gamma) (map fZ beta) comms last h /\
  Forall (fun w => r_out w = lut (r_in w) /\ length (snd w) = nr /\ Forall (in_range B) (snd w)) ws.
Proof.
  intros m Hch Hnc Hk Hnr Hkb HB Hr Hs Hs64 Hnb Ld Lg Lb Lcm Hn He Hl Hsch ws. destruct (rows_ok s m data Ld) as (L1 & L2 & L3).
  assert (He2 : outs = concat (map (fun '(ch, r) => ln_out c gamma beta ch (snd (fst r))) (combine (chunks (2 ^ s) data) (map (ln_row lut c) (chunks (2 ^ s) data)))) /\ rows = map (ln_row lut c) (chunks (2 ^ s) data)).
  { unfold ln_evaluate in He. destruct (2 ^ s)%nat as [|fd] eqn:E2; [pose proof (Nat.pow_nonzero 2 s); lia|]. rewrite <- E2 in *. split; congruence. }
  destruct He2 as [Eo Er].
  assert (Ews : ws = map (fun ch => (fst (fst (ln_row lut c ch)), snd (fst (ln_row lut c ch)), ln_chunks B nr (ln_tsl c) (snd (ln_row lut c ch)))) (chunks (2 ^ s) data)) by (unfold ws, ln_ws; rewrite Er, map_map; reflexivity).
  assert (Erow : forall v, Z.shiftr v (Z.of_nat (ln_rcb c)) = (v / 2 ^ Z.of_nat (ln_rcb c))%Z /\ Z.land v (2 ^ Z.of_nat (ln_rcb c) - 1) = (v mod 2 ^ Z.of_nat (ln_rcb c))%Z) by (intros v; rewrite Z.shiftr_div_pow2, land_mod by lia; auto).
  assert (PR : (0 < 2 ^ Z.of_nat (ln_rcb c))%Z) by apply zp.
  split.
  - apply (ln_rows_complete T ncpus sc1 es1 sc2 es2 sca sci scn B c c1 s1 c2 s2 k s nb nr ws); auto; try lia.
    + rewrite Ews. unfold ln_values. clear - Hk Hkb HB Hn Erow PR. induction (chunks (2 ^ s) data) as [|ch cs IH]; cbn [map]; constructor; [|exact IH]. unfold ln_row, r_in. cbn [fst snd]. destruct (Erow (ln_value c ch)) as [-> ->].
      pose proof (Z.mod_pos_bound (ln_value c ch) _ PR) as Hm. destruct (ln_chunks_ok B (ln_rcb c) (ln_tsl c) nr _ Hk Hkb ltac:(lia) Hm) as (L & _). split; [exact L|]. apply ln_row_honest; auto; lia.
    + replace (concat _) with outs; [exact Hl|]. rewrite Eo. f_equal. rewrite Ews, map_map. unfold r_out. cbn [fst snd]. clear. induction (chunks (2 ^ s) data) as [|ch cs IH]; cbn [map combine]; [reflexivity|]. f_equal. exact IH.
  - rewrite Ews. apply Forall_forall. intros w Hw. apply in_map_iff in Hw as (ch & <- & _). unfold ln_row, r_in, r_out. cbn [fst snd]. destruct (Erow (ln_value c ch)) as [-> ->]. pose proof (Z.mod_pos_bound (ln_value c ch) _ PR) as Hm.
    destruct (ln_chunks_ok B (ln_rcb c) (ln_tsl c) nr _ Hk Hkb ltac:(lia) Hm) as (L & R & _). auto.
Qed.
(** With a scaled top chunk the quotient of a row may be lowered by one when the remainder is small: the wrong outputs are accepted
    with columns that pass the lookups. *)
Definition low_ok (B rcb tsl nr : nat) (v i : Z) : Prop :=
  i = (v / 2 ^ Z.of_nat rcb)%Z \/ (i = v / 2 ^ Z.of_nat rcb - 1 /\ v mod 2 ^ Z.of_nat rcb < 2 ^ Z.of_nat ((nr - 1) * B) - 2 ^ Z.of_nat ((nr - 1) * B - tsl))%Z.
Lemma ln_low_quotient (T : @hist K -> K) lut ncpus sc1 es1 sc2 es2 sca sci scn B c c1 s1 c2 s2 k s nb nr (data gamma beta quots : list Z) (comms : list C) (last : claim) h :
  let m := S (S k) in
  char_gt K 4 -> (0 < ncpus)%nat -> (1 < nr)%nat -> ln_nrc B c = Some nr -> (ln_rcb c + ln_tsl c = nr * B)%nat -> (0 < ln_tsl c < B)%nat -> (B < 64)%nat -> (ln_rcb c < 64)%nat ->
  ceil_log2 (ln_dim c) = Some s -> (s < 64)%nat -> ceil_log2 (2 + nr) = Some nb ->
  length data = (2 ^ (s + m))%nat -> length gamma = (2 ^ s)%nat -> length beta = (2 ^ s)%nat -> length comms = (2 + nr)%nat -> fZ (2 ^ Z.of_nat (ln_tsl c)) <> (0 : K) ->
  Forall2 (low_ok B (ln_rcb c) (ln_tsl c) nr) (ln_values s c data) quots ->
  claim_true (map fZ (concat (map (fun '(ch, d) => ln_out c gamma beta ch d) (combine (chunks (2 ^ s) data) (map lut quots))))) last ->
  ln_scheds (K := K) k s nr sc1 es1 sc2 es2 sca sci scn ->
  exists ws, map r_in ws = quots /\ Forall (fun w => r_out w = lut (r_in w) /\ length (snd w) = nr /\ Forall (in_range B) (snd w)) ws /\
  ln_run T ncpus sc1 es1 sc2 es2 sca sci scn B c c1 s1 c2 s2 s m (col r_in ws) (col r_out ws) (chunk_cols nr ws) (map fZ data) (map fZ gamma) (map fZ beta) comms last h.
Proof.
  intros m Hch Hnc Hk Hnr Hkb Ht HB Hr Hs Hs64 Hnb Ld Lg Lb Lcm Hn Hq Hl Hsch. assert (PR : (0 < 2 ^ Z.of_nat (ln_rcb c))%Z) by apply zp.
  assert (HW : exists ws, map r_in ws = quots /\ map r_out ws = map lut quots /\ Forall (fun w => r_out w = lut (r_in w) /\ length (snd w) = nr /\ Forall (in_range B) (snd w)) ws /\
     Forall2 (fun v w => length (snd w) = nr /\ recomb B (ln_rcb c) (ln_tsl c) nr (fZ (r_in w)) (map fZ (snd w)) = (fZ v : K)) (ln_values s c data) ws).
  { clear Hl. induction Hq as [|v i vs is Hi Hq IH]; [exists []; repeat split; constructor|]. destruct IH as (ws & E1 & E2 & F1 & F2).
    assert (HC : exists chs, length chs = nr /\ Forall (in_range B) chs /\ recomb B (ln_rcb c) (ln_tsl c) nr (fZ i) (map fZ chs) = (fZ v : K)).
    { destruct Hi as [->|[-> Hv]].
      - pose proof (Z.mod_pos_bound v _ PR) as Hm. destruct (ln_chunks_ok B (ln_rcb c) (ln_tsl c) nr _ ltac:(lia) Hkb ltac:(lia) Hm) as (L & R & _). exists (ln_chunks B nr (ln_tsl c) (v mod 2 ^ Z.of_nat (ln_rcb c))). split; [exact L|]. split; [exact R|]. apply ln_row_honest; auto; lia.
      - apply ln_row_slack; auto. }
    destruct HC as (chs & L & R & E). exists ((i, lut i, chs) :: ws). split; [cbn [map]; unfold r_in at 1; cbn [fst]; now rewrite E1|]. split; [cbn [map]; unfold r_out at 1; cbn [fst snd]; now rewrite E2|]. split; constructor; auto. }
  destruct HW as (ws & E1 & E2 & F1 & F2). exists ws. split; [exact E1|]. split; [exact F1|].
  apply (ln_rows_complete T ncpus sc1 es1 sc2 es2 sca sci scn B c c1 s1 c2 s2 k s nb nr ws); auto; try lia. now rewrite E2.
Qed.
End P.
