(** The basic transcript: challenges are a function of the history of absorbed items, and what messages it confuses. *)
From Coq Require Import List Arith Lia Bool ZArith.
From Verif Require Import ListAux FieldDef FpInst FpGold M_Mle M_Sumcheck M_Hash P_Hash P_Hash2.
Import ListNotations.

Section Tr.
Context {F : Type} {K : field} (zero : F) (perm : list F -> list F) (of_u64 : Z -> F) (as_bases : K -> list F) (of_bases : F -> F -> K).
Hypothesis perm_len : forall s, length s = 8 -> length (perm s) = 8.
Notation tr_new := (tr_new zero perm of_u64).
Notation tr_message := (tr_message perm of_u64).
Notation tr_ext := (tr_ext perm as_bases).
Notation tr_exts := (tr_exts perm as_bases).
Notation tr_elements := (tr_elements perm).
Notation tr_read := (tr_read perm of_bases).
Notation tr_run := (tr_run perm of_u64 as_bases of_bases).

Lemma tr_new_wf l : dwf (tr_new l).
Proof. apply observe_slice_wf; auto. apply dup_new_wf. Qed.
Lemma tr_exts_wf xs : forall d, dwf d -> dwf (tr_exts d xs).
Proof. induction xs as [|x xs IH]; intros d H; [exact H|]. cbn. apply IH. now apply observe_slice_wf. Qed.
Lemma tr_read_total d : dwf d -> exists c d', tr_read d = Some (c, d') /\ dwf d'.
Proof.
  intros H. unfold M_Hash.tr_read. destruct (sample_total perm perm_len d H) as (a & d1 & -> & W1). cbn [obind].
  destruct (sample_total perm perm_len d1 W1) as (b & d2 & -> & W2). cbn [obind]. eauto.
Qed.
(** Every run succeeds, with one challenge per read. *)
Definition reads (ops : list (@top F K)) : nat := length (filter (fun o => match o with ORead => true | _ => false end) ops).
Lemma tr_run_total : forall ops d, dwf d -> exists cs d', tr_run ops d = Some (cs, d') /\ dwf d' /\ length cs = reads ops.
Proof.
  induction ops as [|o ops IH]; intros d H; [exists [], d; auto|]. destruct o; cbn [M_Hash.tr_run]; unfold reads; cbn [filter]; fold (reads ops).
  - apply IH. now apply observe_slice_wf.
  - apply IH. now apply observe_slice_wf.
  - apply IH. now apply tr_exts_wf.
  - destruct (tr_read_total d H) as (c & d1 & -> & W). cbn [obind]. destruct (IH d1 W) as (cs & d2 & -> & W2 & L). cbn [obind].
    exists (c :: cs), d2. cbn [length]. auto.
Qed.
(** Agreement: what follows has no influence on the challenges already drawn. *)
Lemma tr_run_app : forall o1 o2 d cs d1, tr_run o1 d = Some (cs, d1) ->
  tr_run (o1 ++ o2) d = (r <- tr_run o2 d1 ;; Some (cs ++ fst r, snd r)).
Proof.
  induction o1 as [|o o1 IH]; intros o2 d cs d1 H.
  - cbn in H. assert (cs = [] /\ d1 = d) as [-> ->] by (split; congruence). cbn [app]. destruct (tr_run o2 d) as [[a b]|]; reflexivity.
  - destruct o; cbn [app M_Hash.tr_run] in *; try (now apply IH).
    destruct (tr_read d) as [[c d2]|]; [|discriminate]. cbn [obind] in *.
    destruct (tr_run o1 d2) as [[cs' d3]|] eqn:E1; [|discriminate]. cbn [obind] in H.
    assert (cs = c :: cs' /\ d1 = d3) as [-> ->] by (split; congruence). rewrite (IH o2 d2 cs' d3 E1). destruct (tr_run o2 d3) as [[a b]|]; reflexivity.
Qed.
Lemma agreement pre o1 o2 d cs1 cs2 d1 d2 : dwf d -> tr_run (pre ++ o1) d = Some (cs1, d1) -> tr_run (pre ++ o2) d = Some (cs2, d2) ->
  firstn (reads pre) cs1 = firstn (reads pre) cs2 /\ length (firstn (reads pre) cs1) = reads pre.
Proof.
  intros W H1 H2. destruct (tr_run_total pre d W) as (cs & d3 & E & W3 & L). rewrite (tr_run_app pre o1 d cs d3 E) in H1. rewrite (tr_run_app pre o2 d cs d3 E) in H2.
  destruct (tr_run o1 d3) as [[a b]|]; [|discriminate]. destruct (tr_run o2 d3) as [[a' b']|]; [|discriminate]. cbn [obind fst snd] in *.
  assert (cs1 = cs ++ a) by congruence. assert (cs2 = cs ++ a') by congruence. subst. rewrite !firstn_app, <- L, !firstn_all, !Nat.sub_diag. cbn [firstn]. rewrite !app_nil_r. auto.
Qed.

(** * Histories *)
(** The abstract transcript used by the models of the protocols: a function of the history of events. *)
Fixpoint abs_run (T : hist -> K) (ops : list (@top F K)) (h : hist) : list K :=
  match ops with
  | [] => []
  | OMsg bs :: r => abs_run T r (EvBytes bs :: h)
  | OElems _ :: r => abs_run T r h
  | OExts xs :: r => abs_run T r (absorb h xs)
  | ORead :: r => T h :: abs_run T r (EvSample :: h)
  end.
Definition step_ev (d : duplex) (e : @ev K) : duplex :=
  match e with
  | EvBytes bs => tr_message d bs
  | EvFelt x => tr_ext d x
  | EvSample => match tr_read d with Some (_, d') => d' | None => d end
  end.
Definition replay (d0 : duplex) (h : hist) : duplex := fold_right (fun e d => step_ev d e) d0 h.
Definition T_of (d0 : duplex) (h : hist) : K := match tr_read (replay d0 h) with Some (c, _) => c | None => @f0 K end.
Lemma replay_wf d0 h : dwf d0 -> dwf (replay d0 h).
Proof.
  intros H. induction h as [|e h IH]; [exact H|]. change (replay d0 (e :: h)) with (step_ev (replay d0 h) e). destruct e; cbn [step_ev].
  - now apply observe_slice_wf.
  - now apply observe_slice_wf.
  - destruct (tr_read_total _ IH) as (c & d' & -> & W). exact W.
Qed.
Lemma replay_absorb d0 xs : forall h, replay d0 (absorb h xs) = tr_exts (replay d0 h) xs.
Proof.
  unfold absorb, replay. induction xs as [|x xs IH]; intros h; [reflexivity|]. cbn [map rev M_Hash.tr_exts fold_left]. rewrite <- app_assoc. cbn [app].
  rewrite IH. reflexivity.
Qed.
Lemma history_gen d0 : dwf d0 -> forall ops h, (forall xs, ~ In (OElems xs) ops) ->
  exists d', tr_run ops (replay d0 h) = Some (abs_run (T_of d0) ops h, d').
Proof.
  intros W. induction ops as [|o ops IH]; intros h Hn; [eexists; reflexivity|].
  assert (Hn' : forall xs, ~ In (OElems xs) ops) by (intros xs I; apply (Hn xs); now right).
  destruct o; cbn [M_Hash.tr_run abs_run].
  - change (tr_message (replay d0 h) bs) with (replay d0 (EvBytes bs :: h)). now apply IH.
  - exfalso. apply (Hn xs). now left.
  - rewrite <- replay_absorb. now apply IH.
  - destruct (tr_read_total _ (replay_wf d0 h W)) as (c & d1 & E & W1). rewrite E. cbn [obind].
    assert (R : d1 = replay d0 (EvSample :: h)) by (unfold replay; cbn [fold_right]; fold (replay d0 h); unfold step_ev; rewrite E; reflexivity).
    rewrite R. destruct (IH (EvSample :: h) Hn') as (d2 & ->). cbn [obind]. exists d2. unfold T_of at 2. rewrite E. reflexivity.
Qed.
Lemma history label : exists T : hist -> K, forall ops, (forall xs, ~ In (OElems xs) ops) ->
  exists d', tr_run ops (tr_new label) = Some (abs_run T ops [], d').
Proof. exists (T_of (tr_new label)). intros ops Hn. apply (history_gen (tr_new label) (tr_new_wf label) ops [] Hn). Qed.

(** * Confusions *)
(** Messages cut at a multiple of eight bytes are not separated. *)
Lemma framing m1 m2 d : length m1 mod 8 = 0 -> tr_message d (m1 ++ m2) = tr_message (tr_message d m1) m2.
Proof.
  intros H. unfold M_Hash.tr_message, M_Hash.tr_elements, observe_slice. rewrite enc_app by auto. apply fold_left_app.
Qed.
(** A message is not separated from the field elements it encodes, nor two lists of elements from their concatenation. *)
Lemma kinds m d : tr_message d m = tr_elements d (bytes_to_field_elements of_u64 m).
Proof. reflexivity. Qed.
Lemma elements_app xs ys d : tr_elements d (xs ++ ys) = tr_elements (tr_elements d xs) ys.
Proof. apply fold_left_app. Qed.
Lemma exts_flat xs : forall d, tr_exts d xs = tr_elements d (flat_map as_bases xs).
Proof.
  induction xs as [|x xs IH]; intros d; [reflexivity|]. cbn [flat_map]. rewrite elements_app. rewrite <- IH. reflexivity.
Qed.
(** A partial block is not separated from the block completed by the cells it does not overwrite. *)
Lemma partial_block d x xs : dwf d -> d_in d = [] -> let r := x :: xs in length r < 4 ->
  let ys := firstn (4 - length r) (skipn (length r) (d_state d)) in
  tr_read (tr_elements d (r ++ ys)) = tr_read (tr_elements d r) /\ length ys = 4 - length r.
Proof.
  intros W Hi r Hr ys. destruct W as (W1 & W2 & W3). assert (Ly : length ys = 4 - length r) by (unfold ys; rewrite firstn_length, skipn_length; lia). split; [|exact Ly].
  unfold M_Hash.tr_elements. rewrite (observe_four perm (r ++ ys) d) by (rewrite ?app_length; lia || auto).
  rewrite (observe_short perm r d) by (try discriminate; rewrite Hi; cbn [length]; lia). rewrite Hi. cbn [app].
  assert (Ed : duplexing perm (mkDup (d_state d) (r ++ ys) []) = duplexing perm (mkDup (d_state d) r [])).
  { unfold duplexing. cbn [d_in d_state].
    assert (Es : (r ++ ys) ++ skipn (length (r ++ ys)) (d_state d) = r ++ skipn (length r) (d_state d)); [|now rewrite Es].
    rewrite <- app_assoc. f_equal. rewrite app_length, Ly. replace (length r + (4 - length r)) with ((4 - length r) + length r) by lia.
    rewrite <- P_Tensor2.skipn_skipn'. unfold ys. apply firstn_skipn. }
  rewrite Ed. unfold M_Hash.tr_read.
  assert (Esm : sample perm (mkDup (d_state d) r []) = sample perm (duplexing perm (mkDup (d_state d) r []))).
  { destruct (duplexing_len perm perm_len (mkDup (d_state d) r [])) as (A & B & C); cbn [d_state d_in]; try lia.
    unfold sample at 1. cbn [d_in r]. unfold sample. rewrite B. fold r. destruct (d_out (duplexing perm (mkDup (d_state d) r []))) as [|z o] eqn:Eo; [discriminate|]. rewrite Eo. reflexivity. }
  now rewrite Esm.
Qed.

(** * Forks *)
Lemma forks_distinct d n i j : dwf d -> (forall s1 s2, perm s1 = perm s2 -> s1 = s2) -> (of_u64 (Z.of_nat i) <> of_u64 (Z.of_nat j)) -> i < n -> j < n ->
  nth i (tr_fork perm of_u64 d n) d <> nth j (tr_fork perm of_u64 d n) d.
Proof.
  intros W Hp Hd Hi Hj. unfold tr_fork. rewrite !(nth_indep _ d (tr_elements d [of_u64 (Z.of_nat 0)])) by (rewrite map_length, seq_length; auto).
  rewrite !(map_nth (fun i => tr_elements d [of_u64 (Z.of_nat i)])). rewrite !seq_nth by auto. cbn [Nat.add]. unfold M_Hash.tr_elements, observe_slice. cbn [fold_left]. unfold observe. cbn [d_in].
  rewrite !app_length. cbn [length]. destruct (length (d_in d) + 1 =? rate) eqn:Q.
  - intros C. apply (f_equal d_state) in C. unfold duplexing in C. cbn [d_state d_in] in C. apply Hp in C. rewrite <- !app_assoc in C. apply app_inv_head in C. cbn [app] in C. congruence.
  - intros C. apply (f_equal d_in) in C. cbn [d_in] in C. apply app_inv_head in C. congruence.
Qed.
End Tr.

(** * The Goldilocks field *)
Definition gold_of_u64 (v : Z) : Fp gold := mkFp gold v.
Lemma gold_inj a b : (0 <= a < Zpos gold)%Z -> (0 <= b < Zpos gold)%Z -> gold_of_u64 a = gold_of_u64 b -> a = b.
Proof. intros Ha Hb H. apply (f_equal (fpv gold)) in H. unfold gold_of_u64, mkFp, fpv in H. cbn [proj1_sig] in H. rewrite !Z.mod_small in H; auto. Qed.
Lemma gold_enc_length m1 m2 : Forall byte m1 -> Forall byte m2 -> canonical (Zpos gold) m1 -> canonical (Zpos gold) m2 ->
  length m1 = length m2 -> bytes_to_field_elements gold_of_u64 m1 = bytes_to_field_elements gold_of_u64 m2 -> m1 = m2.
Proof. apply (enc_inj_length gold_of_u64 (Zpos gold) gold_inj). Qed.
Lemma gold_enc_strip m1 m2 : Forall byte m1 -> Forall byte m2 -> canonical (Zpos gold) m1 -> canonical (Zpos gold) m2 ->
  last m1 1%Z <> 0%Z -> last m2 1%Z <> 0%Z -> bytes_to_field_elements gold_of_u64 m1 = bytes_to_field_elements gold_of_u64 m2 -> m1 = m2.
Proof. apply (enc_inj_strip gold_of_u64 (Zpos gold) gold_inj). Qed.
Lemma gold_enc_ascii m1 m2 : Forall (fun b => 0 < b < 128)%Z m1 -> Forall (fun b => 0 < b < 128)%Z m2 ->
  bytes_to_field_elements gold_of_u64 m1 = bytes_to_field_elements gold_of_u64 m2 -> m1 = m2.
Proof. apply (enc_inj_ascii gold_of_u64 (Zpos gold) gold_inj). discriminate. Qed.
Lemma gold_enc_zero m k : 0 < length m mod 8 -> length m mod 8 + k <= 8 ->
  bytes_to_field_elements gold_of_u64 (m ++ repeat 0%Z k) = bytes_to_field_elements gold_of_u64 m.
Proof. apply enc_trailing_zero. Qed.
(** Eight bytes can exceed the modulus. *)
Lemma gold_enc_wrap : exists m1 m2, Forall byte m1 /\ Forall byte m2 /\ length m1 = 8 /\ length m2 = 8 /\ m1 <> m2 /\
  bytes_to_field_elements gold_of_u64 m1 = bytes_to_field_elements gold_of_u64 m2.
Proof.
  exists [0; 0; 0; 0; 0; 0; 0; 0]%Z, [1; 0; 0; 0; 255; 255; 255; 255]%Z.
  repeat split; try (repeat constructor; unfold byte; lia); try discriminate.
  unfold bytes_to_field_elements. cbn [chunks chunks_fuel length firstn skipn map]. f_equal. apply Fp_eq. vm_compute. reflexivity.
Qed.
