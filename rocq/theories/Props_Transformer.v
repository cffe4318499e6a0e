(** Property theorems C38 (causal masks), C39 (one-hot encodings and embeddings) and C41 (argmax).  Statements only.
    [masked_at], [is_onehot], [looked_up], [first_max], [picked] and [row_diff] are the small specifications;
    [root_event] (P_ScApi) says that a challenge of this run is a root of an explicit non-zero polynomial of small degree
    fixed before it was drawn. *)
From Coq Require Import List Arith Lia Bool ZArith Permutation.
From Verif Require Import ListAux FieldDef FpInst MleMath M_Mle P_Mle M_Sumcheck M_ScParallel P_ScProve2 P_ScParallel P_ScApi M_SamePoly M_LogUp P_LogUp8 P_LogUp9 P_Eq M_Tensor P_Tensor P_Tensor2 P_Tensor3 M_Pad P_Pad
  M_Layers P_Layers P_Layers2 P_Layers3 M_Sop P_Sop M_Transformer P_Transformer P_Transformer2 P_Transformer3 P_Transformer4 P_Transformer5 Props_Layers.
Import ListNotations.

(** The zeroifier has 0 exactly above the diagonal of every head and 1 elsewhere. *)
Theorem C38_zeroifier_entries :
  forall (A : Type) (zero one d : A) (nh nq ns : nat),
  masked_at A (zeroifier zero one nh nq ns) nh nq ns zero one d.
Proof. exact @zeroifier_at. Qed.
Print Assumptions C38_zeroifier_entries.

(** The infinitizer has minus infinity exactly above the diagonal of every head and 0 elsewhere. *)
Theorem C38_infinitizer_entries :
  forall (A : Type) (zero mi d : A) (nh nq ns : nat),
  masked_at A (infinitizer zero nh nq ns mi) nh nq ns mi zero d.
Proof. exact @infinitizer_at. Qed.
Print Assumptions C38_infinitizer_entries.

Example C38_ex_entries : dat (zeroifier 0%Z 1%Z 1 2 2) = [1; 0; 1; 1]%Z /\ dat (infinitizer 0%Z 1 2 2 (-9)%Z) = [0; -9; 0; 0]%Z.
Proof. split; reflexivity. Qed.

(** The formula the verifier evaluates is the multilinear extension of the mask the prover multiplies with, at every point and for every number of heads. *)
Theorem C38_zeroifier_mle :
  forall (K : field) (hv nv : nat) (cp rp hp : list K),
  length cp = nv ->
  length rp = nv ->
  length hp = hv ->
  eval_zeroifier_mle cp rp = mle (dat (zeroifier 0%F 1%F (2 ^ hv) (2 ^ nv) (2 ^ nv))) (cp ++ rp ++ hp).
Proof. exact @zeroifier_mle. Qed.
Print Assumptions C38_zeroifier_mle.

(** The same for the additive mask. *)
Theorem C38_infinitizer_mle :
  forall (K : field) (hv nv : nat) (mi : Z) (cp rp hp : list K),
  length cp = nv ->
  length rp = nv ->
  length hp = hv ->
  eval_infinitizer_mle cp rp (fZ mi) =
  mle (embed (dat (infinitizer 0%Z (2 ^ hv) (2 ^ nv) (2 ^ nv) mi))) (cp ++ rp ++ hp).
Proof. exact @infinitizer_mle. Qed.
Print Assumptions C38_infinitizer_mle.

Example C38_ex_mle : fpv 101 (eval_zeroifier_mle [q 3; q 4] [q 5; q 6]) = fpv 101 (mle (dat (zeroifier (q 0) (q 1) 2 4 4)) [q 3; q 4; q 5; q 6; q 7]) /\
  fpv 101 (eval_zeroifier_mle [q 3; q 4] [q 5; q 6]) = 85%Z.
Proof. vm_compute. split; reflexivity. Qed.

(** The check on the embeddings input accepts exactly the true claims about the one-hot encoding of the public tokens. *)
Theorem C39_embeddings_iff :
  forall (K : field) (tok : K -> nat) (vocab_size : nat) (input : ten K) (c : claim) 
    (d0 : nat) (rest : list nat) (L : list K),
  sh input = d0 :: rest ->
  (forall x : K, In x (dat input) -> tok x < npow2 vocab_size) ->
  is_onehot (vars_of vocab_size) (vars_of d0) (map tok (dat input)) L ->
  emb_verify_input tok vocab_size input c = Some tt <-> claim_true L c.
Proof. exact @emb_input_iff. Qed.
Print Assumptions C39_embeddings_iff.

(** The check on the logits output accepts exactly the true claims about the one-hot encoding of the public output. *)
Theorem C39_logits_iff :
  forall (K : field) (tok : K -> nat) (o : ten K) (ns nv : nat) (rest : list nat) (c : claim) (L : list K),
  sh o = 2 ^ ns :: rest ->
  shape_is_pow2 (sh o) = true ->
  length (cl_point c) = nv + ns ->
  (forall x : K, In x (dat o) -> tok x < 2 ^ nv) ->
  is_onehot nv ns (map tok (dat o)) L -> logits_verify_output tok [o] c = Some tt <-> claim_true L c.
Proof. exact @logits_output_iff. Qed.
Print Assumptions C39_logits_iff.

Definition tr_tok (x : F101) : nat := Z.to_nat (fpv 101 x).
Definition tr_in : ten F101 := mkTen [2] (q_list [2; 1]%Z).
Definition tr_oh : list F101 := onehot 2 1 [2; 1].
Example C39_ex_onehot : map (fpv 101) tr_oh = [0; 0; 1; 0; 0; 1; 0; 0]%Z /\ is_onehot (K := F101) (vars_of 3) (vars_of 2) (map tr_tok (dat tr_in)) tr_oh /\
  emb_verify_input tr_tok 3 tr_in (mkClaim [q 5; q 6; q 7] (mle tr_oh [q 5; q 6; q 7])) = Some tt /\
  emb_verify_input tr_tok 3 tr_in (mkClaim [q 5; q 6; q 7] (mle (onehot 2 1 [1; 2]) [q 5; q 6; q 7])) = None.
Proof.
  split; [reflexivity|]. split; [apply onehot_is|]. split; vm_compute; reflexivity.
Qed.

(** Two inputs whose tokens agree modulo the padded vocabulary size cannot be told apart. *)
Theorem C39_only_modulo :
  forall (K : field) (tok : K -> nat) (vocab_size : nat) (input input' : ten K) (c : claim),
  sh input = sh input' ->
  map (fun x : K => tok x mod npow2 vocab_size) (dat input) =
  map (fun x : K => tok x mod npow2 vocab_size) (dat input') ->
  emb_verify_input tok vocab_size input c = emb_verify_input tok vocab_size input' c.
Proof. exact @emb_input_mod. Qed.
Print Assumptions C39_only_modulo.

(** Hence a token outside the vocabulary is accepted as another one: 6 passes for 2 with a vocabulary of 3. *)
Theorem C39_out_of_vocabulary_refuted : exists (tok : F101 -> nat) (vocab : nat) (x x' : ten F101) (c : claim),
  map tok (dat x) = [6; 1] /\ map tok (dat x') = [2; 1] /\ vocab < 6 /\ claim_true (onehot (vars_of vocab) 1 [2; 1]) c /\
  emb_verify_input tok vocab x c = Some tt /\ emb_verify_input tok vocab x' c = Some tt.
Proof.
  exists tr_tok, 3, (mkTen [2] (q_list [6; 1]%Z)), tr_in, (mkClaim [q 5; q 6; q 7] (mle tr_oh [q 5; q 6; q 7])).
  split; [reflexivity|]. split; [reflexivity|]. split; [lia|]. split; [split; reflexivity|]. split; vm_compute; reflexivity.
Qed.
Print Assumptions C39_out_of_vocabulary_refuted.

(** Soundness of the embeddings layer: true claims on the one-hot input and on the table make the output claim true. *)
Theorem C39_embeddings_sound :
  forall (K : field) (T : hist -> K) (vocab_size emb_size ns : nat) (toks : list nat) 
    (E Y : list K) (last : claim) (pf : emb_proof) (h : hist) (c1 c2 : claim) (h' : hist) 
    (L : list K),
  char_gt K 2 ->
  1 < vocab_size ->
  (forall t : nat, In t toks -> t < npow2 vocab_size) ->
  looked_up (vars_of vocab_size) ns (vars_of emb_size) toks E Y ->
  is_onehot (vars_of vocab_size) ns toks L ->
  emb_verify T vocab_size emb_size last pf h = Some (c1, c2, h') ->
  claim_true L c1 ->
  claim_true E c2 ->
  claim_true Y last \/
  root_event T (vars_of vocab_size) 2
    (prodf
       [fun pt : list K => mle L (pt ++ skipn (vars_of emb_size) (cl_point last));
        fun pt : list K => mle E (firstn (vars_of emb_size) (cl_point last) ++ pt)]) h 
    (ep_sumcheck pf).
Proof. exact @emb_sound. Qed.
Print Assumptions C39_embeddings_sound.

(** The two verifications together: with the public tokens inside the padded vocabulary and a true claim on the table, the output claim is true. *)
Theorem C39_embeddings_end_to_end :
  forall (K : field) (T : hist -> K) (tok : K -> nat) (vocab_size emb_size : nat) (input : ten K) 
    (d0 : nat) (rest : list nat) (E Y : list K) (last : claim) (pf : emb_proof) (h : hist) 
    (c1 c2 : claim) (h' : hist),
  char_gt K 2 ->
  1 < vocab_size ->
  sh input = d0 :: rest ->
  (forall x : K, In x (dat input) -> tok x < npow2 vocab_size) ->
  looked_up (vars_of vocab_size) (vars_of d0) (vars_of emb_size) (map tok (dat input)) E Y ->
  emb_verify T vocab_size emb_size last pf h = Some (c1, c2, h') ->
  emb_verify_input tok vocab_size input c1 = Some tt ->
  claim_true E c2 ->
  claim_true Y last \/
  root_event T (vars_of vocab_size) 2
    (prodf
       [fun pt : list K =>
        mle (onehot (vars_of vocab_size) (vars_of d0) (map tok (dat input)))
          (pt ++ skipn (vars_of emb_size) (cl_point last));
        fun pt : list K => mle E (firstn (vars_of emb_size) (cl_point last) ++ pt)]) h 
    (ep_sumcheck pf).
Proof. exact @emb_end_to_end. Qed.
Print Assumptions C39_embeddings_end_to_end.

(** Honest embeddings proofs are produced under every thread schedule and accepted unless a challenge is an interpolation node. *)
Theorem C39_embeddings_complete :
  forall (K : field) (T : hist -> K) (ncpus : nat) (scs : nat -> rsched) (fs : nat -> list nat)
    (tokb : K -> option nat) (vocab_size emb_size ns : nat) (toks : list nat) (emb input : ten K) 
    (Y : list K) (last : claim) (h : hist),
  0 < ncpus ->
  char_gt K 2 ->
  1 < vocab_size ->
  sh emb = [npow2 vocab_size; npow2 emb_size] ->
  map tokb (dat input) = map Some toks ->
  (forall t : nat, In t toks -> t < npow2 vocab_size) ->
  length toks <= 2 ^ ns ->
  looked_up (vars_of vocab_size) ns (vars_of emb_size) toks (dat emb) Y ->
  claim_true Y last ->
  (forall k : nat, valid_order (length (dat emb)) (fs k)) ->
  (forall i : nat, i < vars_of vocab_size -> valid_rsched (K := K) (prod_shape 2 (vars_of vocab_size)) i (scs i)) ->
  exists (c1 c2 : claim) (pf : emb_proof) (h' : hist),
    emb_prove T ncpus scs fs tokb vocab_size emb_size emb input last h = Some (c1, c2, pf, h') /\
    claim_true (onehot (vars_of vocab_size) ns toks) c1 /\
    claim_true (dat emb) c2 /\
    ((forall r : K, In r (pf_point (ep_sumcheck pf)) -> not_node 2 r) ->
     emb_verify T vocab_size emb_size last pf h = Some (c1, c2, h')).
Proof. exact @emb_complete. Qed.
Print Assumptions C39_embeddings_complete.

Definition tr_emb : ten F101 := mkTen [4; 2] (q_list [10; 11; 20; 21; 30; 31; 0; 0]%Z).
Definition tr_out : list F101 := q_list [30; 31; 20; 21]%Z.
Definition tr_last : @claim F101 := mkClaim [q 8; q 9] (mle tr_out [q 8; q 9]).
Example C39_ex_hyps : looked_up (vars_of 3) (vars_of 2) (vars_of 2) (map tr_tok (dat tr_in)) (dat tr_emb) tr_out /\ claim_true tr_out tr_last /\
  (forall i, i < vars_of 3 -> valid_rsched (K := F101) (prod_shape 2 (vars_of 3)) i (seq_rsched 1 2 i)) /\ (forall k : nat, valid_order (length (dat tr_emb)) ((fun _ => seq 0 4) k)).
Proof.
  split; [|split; [|split]].
  - split; [reflexivity|]. split; [reflexivity|]. intros [|[|i]] [|[|j]] Hi Hj; try (cbn in Hi, Hj; lia); f101.
  - split; reflexivity.
  - intros i _. apply seq_prod_sched.
  - intros k. apply Permutation_refl.
Qed.
Example C39_ex_run :
  match emb_prove lay_T 2 (seq_rsched 1 2) (fun _ => seq 0 4) (fun x => Some (tr_tok x)) 3 2 tr_emb tr_in tr_last [] with
  | Some (_, _, pf, _) => match emb_verify lay_T 3 2 tr_last pf [] with
      | Some (c1, c2, _) => emb_verify_input tr_tok 3 tr_in c1 = Some tt /\ fpv 101 (cl_eval c2) = fpv 101 (mle (dat tr_emb) (cl_point c2))
      | None => False end
  | None => False end.
Proof. vm_compute. split; reflexivity. Qed.

(** Plain evaluation returns the row of the table at each token. *)
Theorem C39_embeddings_evaluate :
  forall (A : Type) (d : A) (emb : ten A) (x : ten Z) (s v e : nat),
  wft emb ->
  sh emb = [v; e] ->
  sh x = [s] ->
  wft x ->
  (forall t : Z, In t (dat x) -> (0 <= t < Z.of_nat v)%Z) ->
  exists y : ten A,
    emb_eval emb x = Some y /\
    sh y = [s; e] /\
    wft y /\
    (forall i j : nat, i < s -> j < e -> entry d y [i; j] = entry d emb [Z.to_nat (nth i (dat x) 0%Z); j]).
Proof. exact @emb_eval_ok. Qed.
Print Assumptions C39_embeddings_evaluate.

(** Plain evaluation fails on tokens outside the table. *)
Theorem C39_embeddings_rejects :
  forall (A : Type) (emb : ten A) (x : ten Z) (s v e : nat) (t : Z),
  sh emb = [v; e] ->
  sh x = [s] ->
  (Z.of_nat v <= 2 ^ 63)%Z ->
  In t (dat x) -> (- 2 ^ 63 <= t < 2 ^ 63)%Z -> ~ (0 <= t < Z.of_nat v)%Z -> emb_eval emb x = None.
Proof. exact @emb_eval_rejects. Qed.
Print Assumptions C39_embeddings_rejects.

(** The integer layer meets the specification used by the proof theorems. *)
Theorem C39_embeddings_integer :
  forall (K : field) (emb x : ten Z) (ns nv ne : nat),
  wft emb ->
  sh emb = [2 ^ nv; 2 ^ ne] ->
  sh x = [2 ^ ns] ->
  wft x ->
  (forall t : Z, In t (dat x) -> (0 <= t < 2 ^ Z.of_nat nv)%Z) ->
  exists y : ten Z,
    emb_eval emb x = Some y /\
    sh y = [2 ^ ns; 2 ^ ne] /\ looked_up (K := K) nv ns ne (map Z.to_nat (dat x)) (embed (dat emb)) (embed (dat y)).
Proof. exact @emb_integer. Qed.
Print Assumptions C39_embeddings_integer.

Example C39_ex_eval : emb_eval (mkTen [2; 2] [10; 11; 20; 21]%Z) (mkTen [3] [1; 0; 1]%Z) = Some (mkTen [3; 2] [20; 21; 10; 11; 20; 21]%Z) /\
  emb_eval (mkTen [2; 2] [10; 11; 20; 21]%Z) (mkTen [1] [2]%Z) = None.
Proof. split; reflexivity. Qed.

(** [max_in_slice] returns the first position of the maximum and its value. *)
Theorem C41_max_in_slice :
  forall (amin : Z) (v : list Z) (m : Z) (k : nat),
  (forall x : Z, In x v -> (amin <= x)%Z) ->
  max_in_slice Z.ltb amin v = Some (m, k) <-> first_max v k /\ m = nth k v 0%Z.
Proof. exact @max_in_slice_iff. Qed.
Print Assumptions C41_max_in_slice.

(** [argmax_slice] returns the first position of the maximum. *)
Theorem C41_argmax_slice :
  forall (amin : Z) (v : list Z) (k : nat),
  (forall x : Z, In x v -> (amin <= x)%Z) -> argmax_slice Z.ltb amin v = Some k <-> first_max v k.
Proof. exact @argmax_slice_iff. Qed.
Print Assumptions C41_argmax_slice.

(** [argmax] returns the first position of the maximum. *)
Theorem C41_argmax :
  forall (v : list Z) (k : nat), argmax Z.ltb v = Some k <-> first_max v k.
Proof. exact @argmax_iff. Qed.
Print Assumptions C41_argmax.

(** There is only one such position. *)
Theorem C41_first_max_unique :
  forall (v : list Z) (k k' : nat), first_max v k -> first_max v k' -> k = k'.
Proof. exact @first_max_unique. Qed.
Print Assumptions C41_first_max_unique.

(** [Tensor::argmax] returns the first position of the maximum of a non-empty tensor. *)
Theorem C41_tensor_argmax :
  forall (amin : Z) (t : ten Z),
  dat t <> [] -> (forall x : Z, In x (dat t) -> (amin <= x)%Z) -> first_max (dat t) (tensor_argmax Z.ltb amin t).
Proof. exact @tensor_argmax_ok. Qed.
Print Assumptions C41_tensor_argmax.

(** The layer never fails on non-degenerate inputs, and returns for every row the first position of its maximum, and that maximum. *)
Theorem C41_evaluate :
  forall (amin : Z) (inputs : list (ten Z)),
  (forall t : ten Z,
   In t inputs ->
   wft t /\ Forall (lt 0) (sh t) /\ 2 <= length (sh t) /\ (forall x : Z, In x (dat t) -> (amin <= x)%Z)) ->
  exists outs : list (ten nat * ten Z),
    logits_eval Z.ltb amin inputs = Some outs /\
    Forall2
      (fun (t : ten Z) (o : ten nat * ten Z) =>
       sh (fst o) = [sprod (lead t); 1] /\
       wft (fst o) /\
       sh (snd o) = [sprod (lead t); 1] /\
       wft (snd o) /\
       (forall i1 : list nat,
        inb (lead t) i1 ->
        first_max (row_at t i1) (nth (flat (lead t) i1) (dat (fst o)) 0) /\
        nth (flat (lead t) i1) (dat (snd o)) 0%Z =
        nth (nth (flat (lead t) i1) (dat (fst o)) 0) (row_at t i1) 0%Z)) inputs outs.
Proof. exact @logits_eval_ok. Qed.
Print Assumptions C41_evaluate.

Example C41_ex_eval : logits_eval Z.ltb (-128)%Z [mkTen [2; 3] [4; 9; 9; -3; -1; -2]%Z] = Some [(mkTen [2; 1] [1; 1]%nat, mkTen [2; 1] [9; -1]%Z)] /\ first_max [4; 9; 9]%Z 1.
Proof.
  split; [reflexivity|]. split; [cbn; lia|]. split; intros [|[|[|i]]] Hi; cbn in *; lia.
Qed.

(** Padding a matrix of logits with zeros does not change the indices of its rows, for rows with an entry that is not negative.  Missing: rows of negative entries, for which this is false (next theorem). *)
Theorem C41_padded_partial :
  forall (amin : Z) (t t' : ten Z) (a b a' b' : nat),
  (amin <= 0)%Z ->
  wft t ->
  sh t = [a; b] ->
  0 < a ->
  0 < b ->
  (forall x : Z, In x (dat t) -> (amin <= x)%Z) ->
  a <= a' ->
  b <= b' ->
  padded_with 0%Z t [a'; b'] t' ->
  (forall i : nat, i < a -> exists x : Z, In x (row_at t [i]) /\ (0 <= x)%Z) ->
  exists (idx : ten nat) (mx : ten Z) (idx' : ten nat) (mx' : ten Z),
    logits_eval Z.ltb amin [t] = Some [(idx, mx)] /\
    logits_eval Z.ltb amin [t'] = Some [(idx', mx')] /\
    (forall i : nat, i < a -> nth i (dat idx') 0 = nth i (dat idx) 0 /\ nth i (dat mx') 0%Z = nth i (dat mx) 0%Z).
Proof. exact @logits_padded. Qed.
Print Assumptions C41_padded_partial.

(** On every row of negative entries the padded layer returns the first padding column. *)
Theorem C41_padded_negative :
  forall (amin : Z) (v : list Z) (p : nat),
  (amin <= 0)%Z ->
  (forall x : Z, In x v -> (amin <= x < 0)%Z) ->
  v <> [] ->
  0 < p ->
  argmax_slice Z.ltb amin (v ++ repeat 0%Z p) = Some (length v) /\ argmax_slice Z.ltb amin v <> Some (length v).
Proof. exact @padded_argmax_negative. Qed.
Print Assumptions C41_padded_negative.

Theorem C41_padded_refuted : exists t t' : ten Z, wft t /\ sh t = [1; 3] /\ padded_with 0%Z t [1; 4] t' /\
  (exists o, logits_eval Z.ltb (-128)%Z [t] = Some [o] /\ dat (fst o) = [1]) /\ (exists o, logits_eval Z.ltb (-128)%Z [t'] = Some [o] /\ dat (fst o) = [3]).
Proof.
  exists (mkTen [1; 3] [-3; -1; -2]%Z), (mkTen [1; 4] [-3; -1; -2; 0]%Z). split; [reflexivity|]. split; [reflexivity|]. split.
  - split; [reflexivity|]. split; [reflexivity|]. intros ix Hix. apply inb_inv in Hix as (i & ix1 & -> & Hi & Hix). apply inb_inv in Hix as (j & ix2 & -> & Hj & Hix). apply inb_nil_inv in Hix. subst ix2.
    destruct i as [|i]; [|lia]. destruct j as [|[|[|[|j]]]]; [| | | |lia]; (split; [intros _; reflexivity|intros N]); try reflexivity;
      exfalso; apply N; repeat constructor.
  - split; (eexists; split; [reflexivity|reflexivity]).
Qed.
Print Assumptions C41_padded_refuted.
(** The declared output shape is wrong for inputs of rank 3. *)
Theorem C41_declared_shape_refuted : exists (t : ten Z) o, wft t /\ logits_eval Z.ltb (-128)%Z [t] = Some [o] /\ logits_output_shapes [sh t] <> Some [sh (fst o)].
Proof.
  exists (mkTen [2; 2; 1] [1; 2; 3; 4]%Z). eexists. split; [reflexivity|]. split; [reflexivity|]. vm_compute. discriminate.
Qed.
Print Assumptions C41_declared_shape_refuted.

(** Soundness of the proof: the claim produced by the lookup is a true claim on the differences between the committed maxima and the logits, and the committed maxima are the logits selected by the public output.  Missing: the length of the claim point of the lookup, which the verifier does not check, is assumed. *)
Theorem C41_proof_sound_partial :
  forall (K : field) (T : hist -> K) (tok : K -> nat) (cst csc : K) (nr nc : nat) (o : ten K) 
    (rest : list nat) (m X : list K) (pf : logits_proof) (h : hist) (c : claim) (nums dens : list K) 
    (h1 : hist) (cin cmax : claim) (h' : hist),
  char_gt K 3 ->
  0 < nc ->
  sh o = 2 ^ nr :: rest ->
  shape_is_pow2 (sh o) = true ->
  (forall x : K, In x (dat o) -> tok x < 2 ^ nc) ->
  length X = 2 ^ (nr + nc) ->
  length m = 2 ^ nr ->
  verify_logup T (lg_logup pf) 1 cst csc h = Some ([c], nums, dens, h1) ->
  length (cl_point c) = nr + nc ->
  logits_verify T tok cst csc nc (nr + nc) (2 ^ nr) [o] pf h = Some (cin, cmax, h') ->
  claim_true X cin ->
  claim_true m cmax ->
  claim_true (row_diff nr nc m X) c /\
  cl_point cmax = skipn nc (cl_point c) /\ claim_true (picked nr nc (map tok (dat o)) X) cmax \/
  logits_fooled T nr nc (onehot nc nr (map tok (dat o))) X pf c h1.
Proof. exact @logits_sound. Qed.
Print Assumptions C41_proof_sound_partial.

(** With differences in the range table, the selected entries are maxima of their rows (an index of a tie that is not the first one is accepted too). *)
Theorem C41_range_means_max :
  forall (K : field) (n nr nc : nat) (toks : list nat) (X : list Z) (R b : Z),
  char_gt K n ->
  (2 * b + R <= Z.of_nat n)%Z ->
  length X = 2 ^ (nr + nc) ->
  (forall x : Z, In x X -> (Z.abs x <= b)%Z) ->
  length toks = 2 ^ nr ->
  (forall t : nat, In t toks -> t < 2 ^ nc) ->
  (forall d : K,
   In d (row_diff nr nc (picked nr nc toks (embed X)) (embed X)) -> exists z : Z, (0 <= z < R)%Z /\ d = fZ z) ->
  forall i j : nat,
  i < 2 ^ nr -> j < 2 ^ nc -> (nth (i * 2 ^ nc + j) X 0 <= nth (i * 2 ^ nc + nth i toks 0%nat) X 0)%Z.
Proof. exact @range_max. Qed.
Print Assumptions C41_range_means_max.

(** Honest proofs are produced under every thread schedule and are accepted unless a challenge is an interpolation node or the value the verifier divides by is zero. *)
Theorem C41_proof_complete :
  forall (K : field) (T : hist -> K) (ncpus : nat) (scl : nat -> nat -> rsched) (esl : nat -> list nat)
    (sc1 sc2 : nat -> rsched) (es : nat -> list nat) (toel : K -> nat) (cst csc : K) 
    (k nr nc : nat) (rest : list nat) (diffs : list K) (maxv input output : ten K) (h : hist),
  char_gt K 3 ->
  0 < ncpus ->
  0 < nc ->
  nr + nc = S (S k) ->
  sh input = [2 ^ nr; 2 ^ nc] ->
  length (dat input) = 2 ^ (nr + nc) ->
  sh maxv = [2 ^ nr; 1] ->
  length (dat output) = 2 ^ nr ->
  sh output = 2 ^ nr :: rest ->
  shape_is_pow2 (sh output) = true ->
  (forall x : K, In x (dat output) -> toel x < 2 ^ nc) ->
  dat maxv = picked nr nc (map toel (dat output)) (dat input) ->
  logits_diffs fsub input maxv = Some diffs ->
  logup_scheds true (S k) 1 scl ->
  valid_sched (S (S k)) esl ->
  valid_sched nr es ->
  (forall i : nat, i < nc -> valid_rsched (K := K) (prod_shape 2 nc) i (sc1 i)) ->
  (forall i : nat, i < nr + nc -> valid_rsched (K := K) (sop_shape (nr + nc) 5 [[0; 1; 2]; [3; 4]]) i (sc2 i)) ->
  exists (pf : logits_proof) (cin cmax : claim) (h' : hist),
    logits_prove T ncpus scl esl sc1 sc2 es toel cst csc diffs maxv input output h = Some (cin, cmax, pf, h') /\
    claim_true (dat input) cin /\
    claim_true (dat maxv) cmax /\
    ((forall (p : proof) (r : K), In p (lp_sumchecks (lg_logup pf)) -> In r (pf_point p) -> not_node 3 r) ->
     (forall r : K, In r (pf_point (lg_sumcheck pf)) -> not_node 2 r) ->
     (forall r : K, In r (pf_point (lg_hadamard pf)) -> not_node 3 r) ->
     (eqp (pf_point (lg_sumcheck pf) ++ cl_point cmax) (cl_point cin) * cl_eval cin)%F <> 0%F ->
     logits_verify T toel cst csc nc (nr + nc) (2 ^ nr) [output] pf h = Some (cin, cmax, h')).
Proof. exact @logits_complete. Qed.
Print Assumptions C41_proof_complete.

(** When all logits are zero no proof with a true input claim is ever accepted: the verifier divides by an evaluation of the input. *)
Theorem C41_zero_logits_rejected :
  forall (K : field) (T : hist -> K) (tok : K -> nat) (cst csc : K) (sv hv rows : nat) 
    (outputs : list (ten K)) (n : nat) (X : list K) (pf : logits_proof) (h : hist) (cin cmax : claim)
    (h' : hist),
  length X = 2 ^ n ->
  (forall x : K, In x X -> x = 0%F) ->
  logits_verify T tok cst csc sv hv rows outputs pf h = Some (cin, cmax, h') -> ~ claim_true X cin.
Proof. exact @logits_zero_rejected. Qed.
Print Assumptions C41_zero_logits_rejected.

Definition lg_in : ten F101 := mkTen [2; 2] (q_list [3; 5; 9; 4]%Z).
Definition lg_mx : ten F101 := mkTen [2; 1] (q_list [5; 9]%Z).
Definition lg_o : ten F101 := mkTen [2; 1] (q_list [1; 0]%Z).
Definition lg_df : list F101 := q_list [2; 0; 0; 5]%Z.
Definition lg_run := logits_prove lay_T 2 (seq_rsched 3) (@seq_sched 2) (seq_rsched 1 1) (seq_rsched 2 2) (@seq_sched 1) tr_tok (q 10) (q 3) lg_df lg_mx lg_in lg_o [].
Definition lg_ver pf := logits_verify lay_T tr_tok (q 10) (q 3) 1 2 2 [lg_o] pf [].
Example C41_ex_hyps : char_gt F101 3 /\ map (fpv 101) (dat lg_mx) = map (fpv 101) (picked 1 1 (map tr_tok (dat lg_o)) (dat lg_in)) /\
  option_map (map (fpv 101)) (logits_diffs fsub lg_in lg_mx) = Some [2; 0; 0; 5]%Z /\
  logup_scheds true 1 1 (seq_rsched 3) /\ valid_sched 2 (@seq_sched 2) /\ (forall i, valid_rsched (K := F101) (prod_shape 2 1) i (seq_rsched 1 1 i)) /\
  (forall i, valid_rsched (K := F101) (sop_shape 2 5 [[0; 1; 2]; [3; 4]]) i (seq_rsched 2 2 i)).
Proof.
  split; [apply Fp_char; cbn; lia|]. split; [reflexivity|]. split; [reflexivity|]. split; [exact (seq_logup_scheds true 1 1)|]. split; [apply seq_sched_valid|].
  split; intros i; [apply seq_prod_sched|apply (seq_sop_sched 2 5 [[0; 1; 2]; [3; 4]])].
Qed.
(** The whole run: proof, verification, and the two claims it leaves. *)
Example C41_ex_run : match lg_run with
  | Some (_, _, pf, _) => match lg_ver pf with
      | Some (cin, cmax, _) => length (cl_point cin) = 2 /\ fpv 101 (cl_eval cin) = fpv 101 (mle (dat lg_in) (cl_point cin)) /\
                               length (cl_point cmax) = 1 /\ fpv 101 (cl_eval cmax) = fpv 101 (mle (dat lg_mx) (cl_point cmax))
      | None => False end
  | None => False end.
Proof. vm_compute. repeat split; reflexivity. Qed.
(** A wrong output is rejected on the same proof. *)
Example C41_ex_wrong : match lg_run with
  | Some (_, _, pf, _) => match logits_verify lay_T tr_tok (q 10) (q 3) 1 2 2 [mkTen [2; 1] (q_list [1; 1]%Z)] pf [] with None => True | Some _ => False end
  | None => False end.
Proof. vm_compute. exact I. Qed.
Example C41_ex_range : forall i j, i < 2 ^ 1 -> j < 2 ^ 1 -> (nth (i * 2 ^ 1 + j) [3; 5; 9; 4] 0 <= nth (i * 2 ^ 1 + nth i [1; 0]%nat 0%nat) [3; 5; 9; 4] 0)%Z.
Proof.
  apply (range_max (K := F101) 100 1 1 [1; 0]%nat [3; 5; 9; 4]%Z 80 10); try reflexivity; try lia.
  - apply Fp_char. cbn. lia.
  - intros x [<-|[<-|[<-|[<-|[]]]]]; lia.
  - intros t [<-|[<-|[]]]; cbn; lia.
  - intros d Hd. assert (E : row_diff 1 1 (picked 1 1 [1; 0]%nat (embed [3; 5; 9; 4]%Z)) (embed [3; 5; 9; 4]%Z) = map fZ [2; 0; 0; 5]%Z :> list F101).
    { assert (M : forall l l' : list F101, map (fpv 101) l = map (fpv 101) l' -> l = l').
      { induction l as [|x l IH]; intros [|y l'] H; try discriminate; [reflexivity|]. injection H as H1 H2. f_equal; [apply (Fp_eq 101); exact H1|apply IH; exact H2]. }
      apply M. vm_compute. reflexivity. }
    rewrite E in Hd. cbn [map] in Hd. destruct Hd as [<-|[<-|[<-|[<-|[]]]]]; eexists; (split; [|reflexivity]); lia.
Qed.

