(** Property C71: the decoder is causal, answers every text that fits, and generation with it; the cache of C70 with its projections. *)
From Coq Require Import List Arith Lia Bool ZArith.
From Verif Require Import ListAux FieldDef M_Mle M_Tensor P_Tensor M_Pad M_LayerNorm M_AddPos M_Softmax M_Mha P_Mha2 M_Driver P_Driver P_Driver2 P_Driver3 P_Driver4 P_Driver5.
Import ListNotations.

(** ** A decoder for the examples: width 3, two heads of dimension 2, two blocks, inner width 2, five tokens, eight positions *)
Definition xexp (j : Z) : Z := nth (Z.to_nat j) [100; 75; 50; 25; 10]%Z 0%Z.
Definition xlse (l : list Z) : Z := if forallb (Z.eqb 0) l then 131072%Z else 65536%Z.
Definition c0 : sm_ctx := mkSm 327680 65536 0 0.
Definition c2 : sm_ctx := mkSm 196608 65536 0 0.
Definition rq (k : Z) (z : Z) : option Z := Some (Z.max (-64) (Z.min 63 (Z.shiftr z k))).
Definition lnl : ln_layer := mkLnL (fun i => 1 + Z.max 0 (8 - Z.abs i))%Z (mkLnCtx 3 6 0 1) [3; 2; 1]%Z [1; -1; 2]%Z.
Definition bl (c : sm_ctx) : block := mkBlock lnl
  (mkTen [3; 4] [1; 0; 2; 1; 0; 1; -1; 1; 1; 1; 0; 2]%Z) (mkTen [4] [0; 1; 0; -1]%Z) (mkTen [3; 4] [1; 1; 0; 0; -1; 0; 1; 2; 0; 1; 1; 0]%Z) (mkTen [4] [1; 0; 0; 0]%Z)
  (mkTen [3; 4] [2; -1; 0; 1; 1; 3; -2; 0; 0; 1; 1; 1]%Z) (mkTen [4] [0; 0; 1; 1]%Z) xexp xlse c
  (mkTen [4; 3] [1; 0; 2; -1; 1; 0; 3; -2; 1; 0; 1; -1]%Z) (mkTen [3] [0; 2; 1]%Z) (mkAddCtx 2 3 false)
  lnl (mkTen [3; 2] [1; 2; -1; 1; 2; 0]%Z) (mkTen [2] [3; -3]%Z) (fun z => Some (Z.max 0 z)) (mkTen [2; 3] [1; -1; 2; 0; 2; 1]%Z) (mkTen [3] [1; 0; 1]%Z) (mkAddCtx 2 1 false)
  (fun i => rq (nth i [4; 2; 2; 2; 5; 1; 1; 4]%Z 1%Z)).
Definition de (c : sm_ctx) : decoder := mkDecoder 2 2 (mkTen [5; 3] [10; -7; 3; 2; 9; -12; -5; 1; 8; 14; 0; -6; -3; 6; 5]%Z) (mkAddCtx 2 1 false)
  (mkTen [8; 3] [1; -2; 3; 0; 2; -1; 2; 1; -3; -1; 3; 0; 1; 1; -2; -3; 0; 2; 2; -1; 1; 0; -2; 2]%Z) [bl c; bl c] lnl
  (mkTen [3; 5] [1; -2; 3; 0; 2; 2; 1; -1; 3; -2; 0; 2; 1; -3; 1]%Z) None (fun _ => rq 1).
Lemma bl_ok : block_ok 2 2 3 2 (bl c0).
Proof. unfold block_ok, ln_ok, lin_ok, mat. split; [split; reflexivity|]. split; [split; reflexivity|]. repeat (split; [repeat split|]). { exists 3. split; [reflexivity|left; reflexivity]. } repeat split. Qed.
Lemma de_ok : decoder_ok 3 2 5 5 (de c0).
Proof.
  unfold decoder_ok. cbn [de de_nh de_hd de_emb de_pos de_blocks de_norm de_proj de_proj_bias]. repeat (split; [lia|]). split; [split; reflexivity|]. split; [exists 8; split; reflexivity|].
  split; [apply Forall_cons; [exact bl_ok|apply Forall_cons; [exact bl_ok|apply Forall_nil]]|]. split; [split; reflexivity|]. split; [split; reflexivity|exact I].
Qed.
Lemma de_total : total_ops (de c0).
Proof. split; [intros i z; eexists; reflexivity|]. repeat constructor; try (intros z; eexists; reflexivity); intros i z; eexists; reflexivity. Qed.

(** A decoder of any number of blocks and any sizes, whose masks lose no bit, is causal: its answers to a prefix of a text are a prefix of its answers to the text. *)
Theorem C71_causal :
  forall (dm dff vocab vo : nat) (d : decoder), decoder_ok dm dff vocab vo d -> causal_model (decoder_run d).
Proof. exact @decoder_causal. Qed.
Print Assumptions C71_causal.
Example C71_causal_ex : decoder_ok 3 2 5 5 (de c0) /\ option_map (map dat) (decoder_run (de c0) [vec [1]%Z]) = Some [[3]]%Z /\ option_map (map dat) (decoder_run (de c0) [vec [1; 2; 3]%Z]) = Some [[3; 3; 3]]%Z.
Proof. split; [exact de_ok|]. split; vm_compute; reflexivity. Qed.

(** Texts of any lengths that agree on the first tokens get the same answers there, one for each position. *)
Theorem C71_agree :
  forall (dm dff vocab vo : nat) (d : decoder) (t : nat) (a a' : list Z) (y y' : ten Z),
  decoder_ok dm dff vocab vo d ->
  0 < t ->
  t <= length a ->
  t <= length a' ->
  firstn t a = firstn t a' ->
  decoder_eval d (vec a) = Some y ->
  decoder_eval d (vec a') = Some y' ->
  sh y = [length a; 1] /\
  sh y' = [length a'; 1] /\
  length (dat y) = length a /\ length (dat y') = length a' /\ firstn t (dat y) = firstn t (dat y').
Proof. exact @decoder_agree. Qed.
Print Assumptions C71_agree.
Example C71_agree_ex : option_map dat (decoder_eval (de c0) (vec [3; 1; 4]%Z)) = Some [2; 2; 1]%Z /\ option_map dat (decoder_eval (de c0) (vec [3; 1; 0; 2]%Z)) = Some [2; 2; 2; 2]%Z.
Proof. split; vm_compute; reflexivity. Qed.

(** The decoder answers every text of tokens of its vocabulary that is not longer than its positional matrix, with one token of its output vocabulary for each position. *)
Theorem C71_total :
  forall (dm dff vocab vo ctx : nat) (d : decoder) (a : list Z),
  decoder_ok dm dff vocab vo d ->
  total_ops d ->
  mat ctx dm (de_pos d) ->
  0 < length a ->
  length a <= ctx ->
  Forall (fun v : Z => (0 <= v < Z.of_nat vocab)%Z) a ->
  exists y : ten Z,
    decoder_eval d (vec a) = Some y /\
    mat (length a) 1 y /\ Forall (fun v : Z => (0 <= v < Z.of_nat vo)%Z) (dat y).
Proof. exact @decoder_total. Qed.
Print Assumptions C71_total.
Example C71_total_ex : exists y, decoder_eval (de c0) (vec [4; 4; 0]%Z) = Some y /\ mat 3 1 y /\ Forall (fun v => 0 <= v < Z.of_nat 5)%Z (dat y).
Proof. apply (C71_total 3 2 5 5 8); [exact de_ok|exact de_total|split; reflexivity|cbn; lia|cbn; lia|]. repeat constructor; lia. Qed.

(** Whenever generation with a decoder returns, the only output of the returned trace holds, from the last position of the prompt on, the generated text and the token after it. *)
Theorem C71_whole :
  forall (dm dff vocab vo : nat) (d : decoder) (context_length : nat) (eos : Z) (max_context : option nat)
    (input : list nat) (tr : trace Z) (obs : list (nat * trace Z)),
  decoder_ok dm dff vocab vo d ->
  input <> [] ->
  run_inference Z.eqb Z.of_nat (decoder_run d) context_length eos max_context input = Some (tr, obs) ->
  length input < window context_length max_context ->
  exists (gen : list Z) (lastt : Z) (out : ten Z),
    greedy Z.eqb (decoder_run d) eos (map Z.of_nat input) gen /\
    tr_input tr = [vec (map Z.of_nat input ++ gen)] /\
    tr_output tr = [out] /\
    sh out = [length input + length gen; 1] /\
    skipn (length input - 1) (dat out) = gen ++ [lastt] /\
    (lastt = eos \/ S (length input + length gen) = window context_length max_context).
Proof. exact @decoder_whole. Qed.
Print Assumptions C71_whole.
Example C71_whole_ex : option_map (fun r => (map dat (tr_input (fst r)), map dat (tr_output (fst r)))) (run_inference Z.eqb Z.of_nat (decoder_run (de c0)) 9 1%Z None [3; 1]) = Some ([[3; 1; 2]], [[2; 2; 1]])%Z.
Proof. vm_compute. reflexivity. Qed.

(** Generation with a decoder returns for every prompt of known tokens and every window that fits the positional matrix, and the returned trace holds the whole text. *)
Theorem C71_generates :
  forall (dm dff vocab vo ctx : nat) (d : decoder) (context_length : nat) (eos : Z) 
    (max_context : option nat) (input : list nat),
  decoder_ok dm dff vocab vo d ->
  total_ops d ->
  mat ctx dm (de_pos d) ->
  vo <= vocab ->
  input <> [] ->
  Forall (fun k : nat => k < vocab) input ->
  S (length input) < context_length ->
  length input < window context_length max_context ->
  window context_length max_context <= S ctx ->
  exists (tr : trace Z) (obs : list (nat * trace Z)),
    run_inference Z.eqb Z.of_nat (decoder_run d) context_length eos max_context input = Some (tr, obs) /\
    (exists (gen : list Z) (lastt : Z) (out : ten Z),
       greedy Z.eqb (decoder_run d) eos (map Z.of_nat input) gen /\
       tr_input tr = [vec (map Z.of_nat input ++ gen)] /\
       tr_output tr = [out] /\
       sh out = [length input + length gen; 1] /\
       skipn (length input - 1) (dat out) = gen ++ [lastt] /\
       (lastt = eos \/ S (length input + length gen) = window context_length max_context)).
Proof. exact @decoder_generates. Qed.
Print Assumptions C71_generates.
Example C71_generates_ex : exists tr obs, run_inference Z.eqb Z.of_nat (decoder_run (de c0)) 9 0%Z (Some 6) [3; 1] = Some (tr, obs).
Proof. destruct (C71_generates 3 2 5 5 8 (de c0) 9 0%Z (Some 6) [3; 1]) as (tr & obs & E & _); [exact de_ok|exact de_total|split; reflexivity|lia|discriminate|repeat constructor; lia|cbn; lia..|]. exists tr, obs. exact E. Qed.

Lemma not_causal {N} (run : list (ten N) -> option (list (ten N))) a b va vb : a <> [] -> option_map (map dat) (run [vec a]) = Some [va] ->
  option_map (map (fun o => firstn (length a) (dat o))) (run [vec (a ++ b)]) = Some [vb] -> va <> vb -> ~ causal_model run.
Proof.
  intros Hne A B D H. destruct (run [vec a]) as [oa|] eqn:Ea; [|discriminate]. destruct (run [vec (a ++ b)]) as [ob|] eqn:Eb; [|discriminate].
  destruct (H a b oa ob Hne Ea Eb) as (ra & rb & ta & tb & -> & -> & _ & _ & E). cbn [option_map] in A, B. injection A as A. injection B as B. rewrite map_app in A, B. cbn [map] in A, B.
  destruct ra as [|? [|? ra]]; try discriminate A. destruct rb as [|? [|? rb]]; try discriminate B. injection A as <-. injection B as <-. exact (D E).
Qed.
(** With a mask value that is a power of two and no zero chunks, the same decoder is not causal: the answer to a prefix changes with the text after it, so
    the last trace does not contain the tokens that were generated. *)
Theorem C71_refuted : exists mk : sm_ctx -> decoder, (forall c, Forall (fun b => bk_sm b = c) (de_blocks (mk c))) /\
  (exists c, decoder_ok 3 2 5 5 (mk c)) /\ exists c, ~ causal_model (decoder_run (mk c)).
Proof.
  exists de. split; [intros c; repeat constructor|]. split; [exists c0; exact de_ok|]. exists c2. intros H.
  refine (not_causal (decoder_run (de c2)) [0]%Z [1; 2; 3; 4]%Z [2]%Z [1]%Z _ _ _ _ H); [discriminate|vm_compute; reflexivity|vm_compute; reflexivity|discriminate].
Qed.
Print Assumptions C71_refuted.

(** ** The cache filled by the projections *)

(** A cache that is given the keys and values of a text row by row holds the keys and the values of the whole text. *)
Theorem C70_qkv :
  forall (n a p : nat) (wk bk wv bv x : ten Z),
  0 < n ->
  0 < a ->
  0 < p ->
  lin_ok a p wk bk ->
  lin_ok a p wv bv ->
  mat n a x ->
  exists (kvs : list (ten Z * ten Z)) (k v : ten Z),
    omapM
      (fun row : list Z =>
       kr <- qkv_eval 0%Z Z.add Z.mul wk bk {| sh := [1; a]; dat := row |};;
       vr <- qkv_eval 0%Z Z.add Z.mul wv bv {| sh := [1; a]; dat := row |};; Some (kr, vr)) 
      (chunks a (dat x)) = Some kvs /\
    qkv_eval 0%Z Z.add Z.mul wk bk x = Some k /\
    qkv_eval 0%Z Z.add Z.mul wv bv x = Some v /\
    cache_run cache_new kvs = Some {| ca_k := k; ca_v := v; ca_init := true |}.
Proof. exact @cache_qkv. Qed.
Print Assumptions C70_qkv.
Example C70_qkv_ex : lin_ok 3 4 (bk_wk (bl c0)) (bk_bk (bl c0)) /\ lin_ok 3 4 (bk_wv (bl c0)) (bk_bv (bl c0)) /\ mat 5 3 (de_emb (de c0)).
Proof. repeat split. Qed.

