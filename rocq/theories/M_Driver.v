(** Model of text generation: the driver of zkml/src/model/llm.rs, the cache of keys and values of
    zkml/src/layers/transformer/qkv.rs, and the decoder that zkml/src/parser/llm.rs assembles, on integers. *)
From Coq Require Import List Arith Lia Bool ZArith.
From Verif Require Import ListAux FieldDef M_Mle M_Tensor M_Pad M_Requant M_Transformer M_LayerNorm M_AddPos M_Softmax M_Mha.
Import ListNotations.

(** [last] of a slice. *)
Definition last_opt {A} (l : list A) : option A := match rev l with x :: _ => Some x | [] => None end.

(** ** The driver *)
Section Driver.
Context {N : Type}.
Variable neqb : N -> N -> bool.                               (* [==] of the number type *)
Variable of_usize : nat -> N.                                 (* [N::from_usize] *)
Variable run : list (ten N) -> option (list (ten N)).         (* the outputs of [Model::run] *)

(** model/trace.rs:16-20 [Trace]; the steps are left out.  [Default]: everything empty. *)
Record trace := mkTrace { tr_input : list (ten N); tr_output : list (ten N) }.
Definition default_trace : trace := mkTrace [] [].
(** model/mod.rs:425-429 and 523-525 [run_with_tracker]: the trace holds the input and the outputs. *)
Definition model_run (ins : list (ten N)) : option trace := o <- run ins ;; Some (mkTrace ins o).

(** model/llm.rs:121-140: the loop; [left]: how many times it can still go round ([max_window - seq_len]).  The observer's
    calls are collected in order. *)
Fixpoint drive (eos : N) (user_len left seq_len : nat) (tensor : ten N) (tr : trace) (obs : list (nat * trace)) : option (trace * list (nat * trace)) :=
  match left with
  | O => Some (tr, obs)
  | S left' =>
      tr' <- model_run [tensor] ;;
      output <- last_opt (tr_output tr') ;;
      rows <- slice_last_dim output ;;
      last_token <- last_opt rows ;;
      match last_token with
      | [tok] =>
          if neqb tok eos then Some (tr', obs)
          else tensor' <- tconcat tensor (mkTen [1; 1] [tok]) ;;
               d <- nth_error (sh tensor') 0 ;;
               if d =? S seq_len then drive eos user_len left' (S seq_len) tensor' tr' (obs ++ [(S seq_len - user_len, tr')]) else None
      | _ => None
      end
  end.
(** model/llm.rs:97-142 [run_inference]; [context_length] and the end token come from the configuration. *)
Definition run_inference (context_length : nat) (eos : N) (max_context : option nat) (input : list nat) : option (trace * list (nat * trace)) :=
  c1 <- csub context_length 1 ;;
  if length input <? c1 then
    tensor <- tensor_new [length input] (map of_usize input) ;;
    let max_window := match max_context with Some m => m | None => context_length end in
    drive eos (length input) (max_window - length input) (length input) tensor default_trace []
  else None.
End Driver.
Arguments trace : clear implicits.

(** ** The cache of keys and values *)
Section Cache.
Context {N : Type}.
(** qkv.rs:821-825 [CacheQKV], 834-840 [new]. *)
Record cache := mkCache { ca_k : ten N; ca_v : ten N; ca_init : bool }.
Definition cache_new : cache := mkCache (mkTen [0] []) (mkTen [0] []) false.
(** qkv.rs:841-865 [stack]. *)
Definition cache_stack (c : cache) (k v : ten N) : option cache :=
  if is_vector k then
    if list_eq_dec Nat.eq_dec (sh k) (sh v) then
      if ca_init c then
        a <- nth_error (sh (ca_k c)) 1 ;; b <- nth_error (sh k) 1 ;;
        if a =? b then k' <- tconcat (ca_k c) k ;; v' <- tconcat (ca_v c) v ;; Some (mkCache k' v' true) else None
      else Some (mkCache k v true)
    else None
  else None.
Definition cache_run (c : cache) (kvs : list (ten N * ten N)) : option cache := ofold (fun c p => cache_stack c (fst p) (snd p)) kvs c.
End Cache.

(** ** The decoder *)
(** tensor.rs:1881-1891 [try_map]: an operation on every element; the requantisation after a node (requant.rs:471-482) and the
    activation (activation.rs:147-150) are of this form. *)
Definition emap (f : Z -> option Z) (t : ten Z) : option (ten Z) := d <- omapM f (dat t) ;; Some (mkTen (sh t) d).

Record ln_layer := mkLnL { ll_lut : Z -> Z; ll_ctx : ln_ctx; ll_gamma : list Z; ll_beta : list Z }.
(** layernorm.rs:394-471 [evaluate] on a tensor. *)
Definition ln_eval (l : ln_layer) (t : ten Z) : option (ten Z) :=
  fd <- last_opt (sh t) ;;
  r <- ln_evaluate (ll_lut l) (ll_ctx l) (ll_gamma l) (ll_beta l) fd (dat t) ;;
  tensor_new (sh t) (fst r).
(** matrix_mul.rs:176-179 [MatMul::new_constant]. *)
Definition mm_constant (w : ten Z) (b : option (ten Z)) : matmul_layer := mkMM Input (Weight w (sh w)) b false.
Definition mm_eval (w : ten Z) (b : option (ten Z)) (x : ten Z) : option (ten Z) := matmul_op 0%Z Z.add Z.mul (mm_constant w b) [x].

(** parser/llm.rs:182-201 [Attention], [FeedForward], after quantisation: [bk_rq i] is the operation on every element
    that follows the [i]-th node (the identity when no requantisation was inserted). *)
Record block := mkBlock {
  bk_norm : ln_layer;
  bk_wq : ten Z; bk_bq : ten Z; bk_wk : ten Z; bk_bk : ten Z; bk_wv : ten Z; bk_bv : ten Z;
  bk_exp : Z -> Z; bk_lse : list Z -> Z; bk_sm : sm_ctx;
  bk_out : ten Z; bk_out_bias : ten Z; bk_add1 : add_ctx;
  bk_norm2 : ln_layer; bk_up : ten Z; bk_up_bias : ten Z; bk_act : Z -> option Z; bk_down : ten Z; bk_down_bias : ten Z; bk_add2 : add_ctx;
  bk_rq : nat -> Z -> option Z }.

(** parser/llm.rs:203-228 [FeedForward::write_to_model]. *)
Definition ffn_eval (b : block) (x : ten Z) : option (ten Z) :=
  n <- ln_eval (bk_norm2 b) x ;; n <- emap (bk_rq b 7) n ;;
  u <- mm_eval (bk_up b) (Some (bk_up_bias b)) n ;; u <- emap (bk_rq b 8) u ;;
  a <- emap (bk_act b) u ;; a <- emap (bk_rq b 9) a ;;
  d <- mm_eval (bk_down b) (Some (bk_down_bias b)) a ;; d <- emap (bk_rq b 10) d ;;
  y <- add_evaluate (bk_add2 b) None [x; d] ;; emap (bk_rq b 11) y.
(** parser/llm.rs:232-273 [Attention::write_to_model]; [nh], [hd]: number and dimension of the heads. *)
Definition block_eval (nh hd : nat) (b : block) (x : ten Z) : option (ten Z) :=
  n <- ln_eval (bk_norm b) x ;; n <- emap (bk_rq b 0) n ;;
  q <- qkv_eval 0%Z Z.add Z.mul (bk_wq b) (bk_bq b) n ;; q <- emap (bk_rq b 1) q ;;
  k <- qkv_eval 0%Z Z.add Z.mul (bk_wk b) (bk_bk b) n ;; k <- emap (bk_rq b 2) k ;;
  v <- qkv_eval 0%Z Z.add Z.mul (bk_wv b) (bk_bv b) n ;; v <- emap (bk_rq b 3) v ;;
  m <- mha_evaluate (bk_exp b) (bk_lse b) (bk_sm b) nh hd q k v ;; a <- emap (bk_rq b 4) (snd m) ;;
  o <- mm_eval (bk_out b) (Some (bk_out_bias b)) a ;; o <- emap (bk_rq b 5) o ;;
  y <- add_evaluate (bk_add1 b) None [x; o] ;; y <- emap (bk_rq b 6) y ;;
  ffn_eval b y.

(** parser/llm.rs:127-135 [GPT2Model]. *)
Record decoder := mkDecoder {
  de_nh : nat; de_hd : nat; de_emb : ten Z; de_padd : add_ctx; de_pos : ten Z; de_blocks : list block;
  de_norm : ln_layer; de_proj : ten Z; de_proj_bias : option (ten Z); de_rq : nat -> Z -> option Z }.
(** parser/llm.rs:156-178 [into_provable_model], evaluated node after node; the least element is [N::MIN] (tensor.rs:81). *)
Definition decoder_eval (d : decoder) (x : ten Z) : option (ten Z) :=
  e <- emb_eval (de_emb d) x ;; e <- emap (de_rq d 0) e ;;
  p <- pos_evaluate (de_padd d) (de_pos d) e ;; p <- emap (de_rq d 1) p ;;
  y <- ofold (fun y b => block_eval (de_nh d) (de_hd d) b y) (de_blocks d) p ;;
  n <- ln_eval (de_norm d) y ;; n <- emap (de_rq d 2) n ;;
  l <- mm_eval (de_proj d) (de_proj_bias d) n ;; l <- emap (de_rq d 3) l ;;
  r <- logits_eval Z.ltb (- 2 ^ 63)%Z [l] ;;
  match r with [(idx, _)] => Some (mkTen (sh idx) (map Z.of_nat (dat idx))) | _ => None end.
Definition decoder_run (d : decoder) (ins : list (ten Z)) : option (list (ten Z)) :=
  match ins with [x] => y <- decoder_eval d x ;; Some [y] | _ => None end.
