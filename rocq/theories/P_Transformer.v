(** Proofs about the masks, one-hot claims, embeddings and argmax. *)
From Coq Require Import List Arith Lia Bool ZArith Ring Field Permutation.
From Verif Require Import ListAux FieldDef PolyList MleMath M_Mle P_Mle P_Eq M_Interp M_Sumcheck P_ScVerify P_ScProve P_ScProve2 P_ScBatch P_ScFinal M_ScParallel
  P_ScParallel P_ScApi M_SamePoly M_LogUp M_Tensor P_Tensor P_Tensor2 P_Tensor3 M_Pad P_Pad P_Pad2 M_Layers P_Layers P_Layers2 P_Layers3 M_Transformer.
Import ListNotations.

Section P.
Context {K : field}.
Local Open Scope F_scope.
Add Field Kf_transf : (fth K).

(** *** Masks *)
(** The causal order with [acc] on the diagonal. *)
Definition lecode (acc : K) (c r : nat) : K := if Nat.ltb c r then 1 else if Nat.eqb c r then acc else 0.
Lemma eval_zero_gen : forall cs rs acc, length cs = length rs ->
  fold_left (fun acc '(c, r) => acc * (1 - c - r + fnat 2 * c * r) + (1 - c) * r) (combine cs rs) acc
  = mlef (fun r => mlef (fun c => lecode acc c r) cs) rs.
Proof.
  induction cs as [|c cs IH]; intros [|r rs] acc H; try discriminate.
  - cbn [combine fold_left]. rewrite !mlef_nil. reflexivity.
  - injection H as H. cbn [combine fold_left]. rewrite IH by auto. rewrite mlef_cons.
    apply mlef_ext. intros j Hj. rewrite !mlef_cons.
    rewrite <- mlef_sub, <- mlef_scal, <- mlef_add. apply mlef_ext. intros i Hi.
    unfold lecode.
    destruct (Nat.ltb_spec i j).
    + rewrite !(proj2 (Nat.ltb_lt _ _)) by lia. ring.
    + destruct (Nat.eqb_spec i j).
      * subst j. rewrite !Nat.eqb_refl, !Nat.ltb_irrefl.
        rewrite (proj2 (Nat.ltb_lt (2 * i) (2 * i + 1))) by lia.
        rewrite (proj2 (Nat.ltb_ge (2 * i + 1) (2 * i))) by lia. rewrite (proj2 (Nat.eqb_neq (2 * i + 1) (2 * i))) by lia.
        cbn [fnat]. ring.
      * rewrite !(proj2 (Nat.ltb_ge _ _)) by lia. rewrite !(proj2 (Nat.eqb_neq _ _)) by lia. ring.
Qed.

Lemma flat_map_uniform {A} (f : nat -> list A) n m d i j : (forall x, length (f x) = m) -> j < n -> i < m ->
  nth (i + m * j) (flat_map f (seq 0 n)) d = nth i (f j) d.
Proof.
  intros Hf Hj Hi. rewrite flat_map_concat_map. rewrite (nth_concat_uniform _ m).
  - rewrite nth_map_seq by auto. reflexivity.
  - intros c Hc. apply in_map_iff in Hc as (x & <- & _). auto.
  - rewrite map_length, seq_length. auto.
  - auto.
Qed.
Lemma flat_map_len {A} (f : nat -> list A) n m : (forall x, length (f x) = m) -> length (flat_map f (seq 0 n)) = (m * n)%nat.
Proof.
  intros Hf. rewrite flat_map_concat_map, (length_concat_uniform _ m); [rewrite map_length, seq_length; reflexivity|].
  intros c Hc. apply in_map_iff in Hc as (x & <- & _). auto.
Qed.

(** Three-dimensional mask repeated over the first dimension. *)
Definition mask_dat {A} (g : nat -> nat -> A) (nh nq ns : nat) : list A :=
  flat_map (fun _ : nat => flat_map (fun q => map (fun e => g q e) (seq 0 ns)) (seq 0 nq)) (seq 0 nh).
Lemma mask_len {A} (g : nat -> nat -> A) nh nq ns : length (mask_dat g nh nq ns) = (ns * nq * nh)%nat.
Proof.
  unfold mask_dat. rewrite (flat_map_len _ _ (ns * nq)); [reflexivity|]. intros _.
  apply flat_map_len. intros x. rewrite map_length, seq_length. reflexivity.
Qed.
Lemma mask_nth {A} (g : nat -> nat -> A) nh nq ns d hd q e : hd < nh -> q < nq -> e < ns ->
  nth (e + ns * (q + nq * hd)) (mask_dat g nh nq ns) d = g q e.
Proof.
  intros Hh Hq He. unfold mask_dat. replace (e + ns * (q + nq * hd))%nat with ((e + ns * q) + (ns * nq) * hd)%nat by lia.
  rewrite (flat_map_uniform _ nh (ns * nq)); try nia.
  - rewrite (flat_map_uniform _ nq ns); auto; [apply nth_map_seq; auto|]. intros x. rewrite map_length, seq_length. reflexivity.
  - intros _. apply flat_map_len. intros x. rewrite map_length, seq_length. reflexivity.
Qed.
Lemma mask_mle (g : nat -> nat -> K) hv qv sv cp rp hp : length cp = sv -> length rp = qv -> length hp = hv ->
  mle (mask_dat g (2 ^ hv) (2 ^ qv) (2 ^ sv)) (cp ++ rp ++ hp) = mlef (fun q => mlef (fun e => g q e) cp) rp.
Proof.
  intros Lc Lr Lh. unfold mle. rewrite !mlef_app.
  transitivity (mlef (fun _ : nat => mlef (fun q => mlef (fun e => g q e) cp) rp) hp); [|apply mlef_const].
  apply mlef_ext. intros hd Hh. apply mlef_ext. intros q Hq. apply mlef_ext. intros e He.
  rewrite Lc, Lr in *. rewrite Lh in Hh. apply mask_nth; auto.
Qed.

Definition masked_at (A : Type) (t : ten A) (nh nq ns : nat) (above below d : A) : Prop :=
  sh t = [nh; nq; ns] /\ wft t /\
  forall hd q e, hd < nh -> q < nq -> e < ns -> entry d t [hd; q; e] = if Nat.ltb q e then above else below.
Lemma mask_at {A} (nh nq ns : nat) (above below d : A) :
  masked_at A (mkTen [nh; nq; ns] (mask_dat (fun q e => if Nat.ltb q e then above else below) nh nq ns)) nh nq ns above below d.
Proof.
  split; [reflexivity|]. split; [unfold wft; cbn [sh dat fold_right]; rewrite mask_len; lia|].
  intros hd q e Hh Hq He. unfold entry. cbn [sh dat].
  etransitivity; [|exact (mask_nth (fun q e => if Nat.ltb q e then above else below) nh nq ns d hd q e Hh Hq He)].
  f_equal. rewrite flat3. nia.
Qed.
Lemma zeroifier_at {A} (zero one d : A) nh nq ns : masked_at A (zeroifier zero one nh nq ns) nh nq ns zero one d.
Proof. apply mask_at. Qed.
Lemma infinitizer_at {A} (zero mi d : A) nh nq ns : masked_at A (infinitizer zero nh nq ns mi) nh nq ns mi zero d.
Proof. apply mask_at. Qed.

Lemma zeroifier_mle (hv nv : nat) (cp rp hp : list K) : length cp = nv -> length rp = nv -> length hp = hv ->
  eval_zeroifier_mle cp rp = mle (dat (zeroifier (0 : K) 1 (2 ^ hv) (2 ^ nv) (2 ^ nv))) (cp ++ rp ++ hp).
Proof.
  intros Lc Lr Lh. change (dat (zeroifier (0 : K) 1 (2 ^ hv) (2 ^ nv) (2 ^ nv))) with (mask_dat (fun q e => if Nat.ltb q e then 0 else 1 : K) (2 ^ hv) (2 ^ nv) (2 ^ nv)).
  rewrite mask_mle by auto. unfold eval_zeroifier_mle. rewrite eval_zero_gen by lia. apply mlef_ext. intros q _. apply mlef_ext. intros e _.
  unfold lecode. destruct (Nat.ltb_spec e q), (Nat.ltb_spec q e), (Nat.eqb_spec e q); try lia; reflexivity.
Qed.
Lemma infinitizer_mle (hv nv : nat) (mi : Z) (cp rp hp : list K) : length cp = nv -> length rp = nv -> length hp = hv ->
  eval_infinitizer_mle cp rp (fZ mi) = mle (embed (dat (infinitizer 0%Z (2 ^ hv) (2 ^ nv) (2 ^ nv) mi))) (cp ++ rp ++ hp).
Proof.
  intros Lc Lr Lh. unfold eval_infinitizer_mle. rewrite (zeroifier_mle hv nv) with (hp := hp) by auto.
  change (dat (zeroifier (0 : K) 1 (2 ^ hv) (2 ^ nv) (2 ^ nv))) with (mask_dat (fun q e => if Nat.ltb q e then 0 else 1 : K) (2 ^ hv) (2 ^ nv) (2 ^ nv)).
  change (dat (infinitizer 0%Z (2 ^ hv) (2 ^ nv) (2 ^ nv) mi)) with (mask_dat (fun q e => if Nat.ltb q e then mi else 0%Z) (2 ^ hv) (2 ^ nv) (2 ^ nv)).
  replace (embed (mask_dat (fun q e => if Nat.ltb q e then mi else 0%Z) (2 ^ hv) (2 ^ nv) (2 ^ nv)) : list K)
    with (mask_dat (fun q e => fZ (if Nat.ltb q e then mi else 0%Z) : K) (2 ^ hv) (2 ^ nv) (2 ^ nv)).
  2: { unfold embed, mask_dat. rewrite !flat_map_concat_map, concat_map, map_map. f_equal. apply map_ext. intros _.
       rewrite concat_map, map_map. f_equal. apply map_ext. intros q. rewrite map_map. reflexivity. }
  rewrite !mask_mle by auto. 
  rewrite <- (mlef_const 1 rp) at 1. rewrite <- mlef_sub, <- mlef_scal. apply mlef_ext. intros q _.
  rewrite <- (mlef_const 1 cp) at 1. rewrite <- mlef_sub, <- mlef_scal. apply mlef_ext. intros e _.
  destruct (Nat.ltb q e); rewrite ?fZ_0; ring.
Qed.

(** *** One-hot matrices *)
(** [L] has one row of 2^nv entries for each of 2^ns positions; the row of position [i] has a one at the [i]-th token,
    rows after the last token are zero. *)
Definition is_onehot (nv ns : nat) (toks : list nat) (L : list K) : Prop :=
  length L = 2 ^ (ns + nv) /\
  forall i v, i < 2 ^ ns -> v < 2 ^ nv ->
    nth (i * 2 ^ nv + v) L 0 = match nth_error toks i with Some t => if Nat.eqb t v then 1 else 0 | None => 0 end.
Definition onehot (nv ns : nat) (toks : list nat) : list K :=
  map (fun x => match nth_error toks (x / 2 ^ nv) with Some t => if Nat.eqb t (x mod 2 ^ nv) then 1 else 0 | None => 0 end) (seq 0 (2 ^ (ns + nv))).
Lemma onehot_is nv ns toks : is_onehot nv ns toks (onehot nv ns toks).
Proof.
  unfold onehot. split; [rewrite map_length, seq_length; reflexivity|]. intros i v Hi Hv.
  assert (i * 2 ^ nv + v < 2 ^ (ns + nv)) by (rewrite Nat.pow_add_r; nia).
  rewrite nth_map_seq by auto. rewrite Nat.div_add_l, Nat.div_small, Nat.add_0_r by lia.
  rewrite Nat.add_comm, Nat.mod_add, Nat.mod_small by lia. reflexivity.
Qed.

Lemma mlef_single (f : nat -> K) t (r : list K) : t < 2 ^ length r -> mlef (fun v => if Nat.eqb t v then f v else 0) r = f t * eqw t r.
Proof.
  intros Ht. unfold mlef. rewrite (FieldDef.sumn_single _ t) by (auto; intros i _ Hi; rewrite (proj2 (Nat.eqb_neq t i)) by auto; ring).
  rewrite Nat.eqb_refl. reflexivity.
Qed.
Lemma testbit_mod t n k : k < n -> Nat.testbit (t mod 2 ^ n) k = Nat.testbit t k.
Proof. intros. apply Nat.mod_pow2_bits_low. auto. Qed.
Lemma eqw_mod t (r : list K) : eqw (t mod 2 ^ length r) r = eqw t r.
Proof. unfold eqw. apply prodn_ext. intros k Hk. rewrite testbit_mod by auto. reflexivity. Qed.
Lemma bits_le_eqw t (r : list K) : identity_eval r (bits_le t (length r)) = eqw t r.
Proof.
  rewrite identity_eval_eqp, eqp_sym. rewrite <- (eqp_bpt (length r) t r eq_refl). f_equal. unfold bits_le, bpt.
  apply map_ext. intros k. destruct (Nat.testbit t k); cbn [fnat]; ring.
Qed.

Lemma combine_fold {A} (f : A -> K) : forall (data : list A) (bs : list K) acc,
  fold_left (fun acc '(x, b) => acc + b * f x) (combine data bs) acc
  = acc + sumn (length bs) (fun i => match nth_error data i with Some x => nth i bs 0 * f x | None => 0 end).
Proof.
  induction data as [|x data IH]; intros bs acc.
  - cbn [combine fold_left]. rewrite sumn_0; [ring|]. intros [|i] _; reflexivity.
  - destruct bs as [|b bs]; cbn [combine fold_left]; [cbn [length sumn]; ring|].
    rewrite IH. cbn [length]. rewrite sumn_S_l. cbn [nth_error nth]. ring.
Qed.

Lemma one_hot_sum_spec (tok : K -> nat) data (r1 r2 : list K) L :
  is_onehot (length r1) (length r2) (map (fun x => tok x mod 2 ^ length r1)%nat data) L ->
  one_hot_sum tok data r1 r2 = mle L (r1 ++ r2).
Proof.
  intros [_ HL]. unfold one_hot_sum. rewrite compute_betas_spec.
  etransitivity; [apply (combine_fold (fun x => identity_eval r1 (bits_le (tok x) (length r1))))|].
  rewrite eq_table_length. unfold mle. rewrite mlef_app. unfold mlef at 1.
  match goal with |- 0 + ?a = _ => transitivity a; [ring|] end. apply sumn_ext. intros i Hi.
  rewrite eq_table_at by auto. 
  rewrite (mlef_ext _ (fun v => match nth_error data i with Some x => if Nat.eqb (tok x mod 2 ^ length r1) v then 1 else 0 | None => 0 end)).
  - destruct (nth_error data i) as [x|].
    + rewrite (mlef_single (fun _ => 1)) by (apply Nat.mod_upper_bound; apply Nat.pow_nonzero; lia).
      rewrite bits_le_eqw, eqw_mod. ring.
    + rewrite mlef_const. ring.
  - intros v Hv. replace (v + 2 ^ length r1 * i)%nat with (i * 2 ^ length r1 + v)%nat by lia. rewrite HL by auto.
    rewrite nth_error_map. destruct (nth_error data i); reflexivity.
Qed.

Definition vars_of (n : nat) : nat := Nat.log2 (npow2 n).
Lemma vars_of_pow n : (2 ^ vars_of n)%nat = npow2 n.
Proof. unfold vars_of, npow2. rewrite Nat.log2_pow2; [reflexivity|lia]. Qed.

Lemma emb_input_spec (tok : K -> nat) vocab_size (input : ten K) c d0 rest L :
  sh input = d0 :: rest ->
  is_onehot (vars_of vocab_size) (vars_of d0) (map (fun x => tok x mod npow2 vocab_size)%nat (dat input)) L ->
  (emb_verify_input tok vocab_size input c = Some tt <-> claim_true L c).
Proof.
  intros Es HL. assert (HL' := HL). destruct HL' as [LL _]. unfold emb_verify_input. rewrite Es. cbn [nth_error obind]. fold (vars_of vocab_size) (vars_of d0).
  unfold claim_true. rewrite LL.
  destruct (Nat.eqb_spec (vars_of vocab_size + vars_of d0) (length (cl_point c))) as [E|E].
  - set (r1 := firstn _ _). set (r2 := skipn _ _).
    assert (L1 : length r1 = vars_of vocab_size) by (unfold r1; rewrite firstn_length; lia).
    assert (L2 : length r2 = vars_of d0) by (unfold r2; rewrite skipn_length; lia).
    assert (Ep : cl_point c = r1 ++ r2) by (symmetry; apply firstn_skipn).
    rewrite (one_hot_sum_spec tok (dat input) r1 r2 L) by (rewrite L1, L2, vars_of_pow; auto). rewrite <- Ep. split.
    + destruct (feqb _ _) eqn:F; [|discriminate]. intros _. apply feqb_true in F. split; [f_equal; lia|auto].
    + intros [_ ->]. rewrite feqb_refl. reflexivity.
  - split; [discriminate|]. intros [H _]. apply (Nat.pow_inj_r 2) in H; lia.
Qed.

Lemma map_mod_small (tok : K -> nat) data n : (forall x, In x data -> tok x < n) -> map (fun x => tok x mod n)%nat data = map tok data.
Proof. intros H. apply map_ext_in. intros x Hx. apply Nat.mod_small. auto. Qed.

(** The verifier accepts exactly the true claims on the one-hot matrix of the tokens. *)
Lemma emb_input_iff (tok : K -> nat) vocab_size (input : ten K) c d0 rest L :
  sh input = d0 :: rest -> (forall x, In x (dat input) -> tok x < npow2 vocab_size) ->
  is_onehot (vars_of vocab_size) (vars_of d0) (map tok (dat input)) L ->
  (emb_verify_input tok vocab_size input c = Some tt <-> claim_true L c).
Proof. intros Es Hx HL. apply (emb_input_spec tok vocab_size input c d0 rest); auto. rewrite map_mod_small; auto. Qed.

(** Tokens are only seen modulo the padded vocabulary. *)
Lemma emb_input_mod (tok : K -> nat) vocab_size (input input' : ten K) c :
  sh input = sh input' -> map (fun x => tok x mod npow2 vocab_size)%nat (dat input) = map (fun x => tok x mod npow2 vocab_size)%nat (dat input') ->
  emb_verify_input tok vocab_size input c = emb_verify_input tok vocab_size input' c.
Proof.
  intros Es Ed. destruct (sh input) as [|d0 rest] eqn:E.
  - unfold emb_verify_input. rewrite <- Es, E. reflexivity.
  - pose proof (emb_input_spec tok vocab_size input c d0 rest _ E (onehot_is _ _ _)) as H1.
    pose proof (emb_input_spec tok vocab_size input' c d0 rest _ (eq_sym Es) (onehot_is _ _ _)) as H2.
    rewrite <- Ed in H2. destruct (emb_verify_input tok vocab_size input c) as [[]|], (emb_verify_input tok vocab_size input' c) as [[]|]; try reflexivity.
    + symmetry. apply H2. apply H1. reflexivity.
    + apply H1. apply H2. reflexivity.
Qed.

Lemma logits_output_spec (tok : K -> nat) (o : ten K) ns nv rest c L :
  sh o = (2 ^ ns)%nat :: rest -> shape_is_pow2 (sh o) = true -> length (cl_point c) = (nv + ns)%nat ->
  is_onehot nv ns (map (fun x => tok x mod 2 ^ nv)%nat (dat o)) L ->
  (logits_verify_output tok [o] c = Some tt <-> claim_true L c).
Proof.
  intros Es Hp Lc HL. assert (HL' := HL). destruct HL' as [LL _]. unfold logits_verify_output. rewrite Hp, Es. cbn [nth_error obind].
  rewrite ilog2_pow. cbn [obind]. unfold logits_split, csub. rewrite Lc. destruct (Nat.leb_spec ns (nv + ns)) as [_|]; [|lia].
  cbn [obind fst snd]. replace (nv + ns - ns)%nat with nv by lia.
  set (r1 := firstn _ _). set (r2 := skipn _ _).
  assert (L1 : length r1 = nv) by (unfold r1; rewrite firstn_length; lia).
  assert (L2 : length r2 = ns) by (unfold r2; rewrite skipn_length; lia).
  assert (Ep : cl_point c = r1 ++ r2) by (symmetry; apply firstn_skipn).
  rewrite (one_hot_sum_spec tok (dat o) r1 r2 L) by (rewrite L1, L2; auto). rewrite <- Ep. unfold claim_true. rewrite LL, Lc. split.
  - destruct (feqb _ _) eqn:F; [|discriminate]. intros _. apply feqb_true in F. split; [f_equal; lia|auto].
  - intros [_ ->]. rewrite feqb_refl. reflexivity.
Qed.
Lemma logits_output_iff (tok : K -> nat) (o : ten K) ns nv rest c L :
  sh o = (2 ^ ns)%nat :: rest -> shape_is_pow2 (sh o) = true -> length (cl_point c) = (nv + ns)%nat ->
  (forall x, In x (dat o) -> tok x < 2 ^ nv) -> is_onehot nv ns (map tok (dat o)) L ->
  (logits_verify_output tok [o] c = Some tt <-> claim_true L c).
Proof. intros Es Hp Lc Hx HL. apply (logits_output_spec tok o ns nv rest); auto. rewrite map_mod_small; auto. Qed.
End P.
