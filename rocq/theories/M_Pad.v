(** Model of zkml/src/padding.rs for dense, flatten, matrix-product and QKV layers, and of the
    evaluation of those layers (zkml/src/layers/dense.rs, matrix_mul.rs, flatten.rs,
    transformer/qkv.rs).

    Conventions as in M_Tensor: [Err] and panics are both [None].  [ShapeInfo] holds one [ShapeData]
    per input; the layers modelled here read one or two.  The optional range checks and the
    proving-related fields of the layers are left out. *)
From Coq Require Import List Arith Lia Bool.
From Verif Require Import ListAux FieldDef M_Mle M_Tensor.
Import ListNotations.

(** [pad_minimum] (padding.rs:578-581). *)
Definition pad_minimum (dim : nat) : nat := let r := npow2 dim in if r <? 4 then 4 else r.

(** [GarbagePad] (padding.rs:26-29), [ShapeData] (padding.rs:97-101). *)
Inductive garbage := GConv (og pad : list nat) | GMha (og pad : list nat).
Record shape_data := mkSd { sd_padded : list nat; sd_garbage : option garbage; sd_og : list nat }.
(** [ShapeData::new] (padding.rs:105-111). *)
Definition sd_new (s : list nat) : shape_data := mkSd (shape_npow2 s) None s.
(** The shape update of a [Flatten] node, [reshape] (padding.rs:184-192). *)
Definition pad_flatten (sd : shape_data) : shape_data :=
  mkSd (sd_padded sd) (Some (GConv (sd_og sd) (sd_padded sd))) (sd_og sd).

Section Layers.
Context {A : Type}.
Variable zero : A.
Variables add mul : A -> A -> A.
Notation ten := (ten A).

(** [GarbagePad::pad_matrix_to_ignore_garbage] (padding.rs:32-58). *)
Definition ignore_garbage (g : garbage) (m : ten) (mp : list nat) : option ten :=
  match g with
  | GConv og pad => pad_matrix_to_ignore_garbage zero m og pad mp
  | GMha og pad => pad_matrix_to_ignore_mha_garbage zero m og pad mp
  end.

(** *** Dense: [Dense] (dense.rs:38-43), evaluation (dense.rs:161-185). *)
Record dense := mkDense { d_mat : ten; d_bias : ten }.
Definition dense_eval (d : dense) (x : ten) : option ten :=
  y <- (if length (sh x) =? 1 then matvec zero add mul (d_mat d) x
        else c <- ncols_2d (d_mat d) ;;
             if length (dat x) =? c then matvec zero add mul (d_mat d) (flatten x) else None) ;;
  tadd add y (d_bias d).
(** [pad_dense] (padding.rs:251-305). *)
Definition pad_dense (d : dense) (sd : shape_data) : option (dense * shape_data) :=
  match sh (d_mat d) with
  | [nrows0; _] =>
    if length (dat (d_bias d)) =? nrows0 then
    if shape_is_pow2 (sd_padded sd) then
      let dim := if length (sd_padded sd) =? 1 then nth 0 (sd_padded sd) 0 else sprod (sd_padded sd) in
      c <- ncols_2d (d_mat d) ;;
      if c <=? dim then
        let ncols := pad_minimum dim in
        r <- nrows_2d (d_mat d) ;;
        let nrows := pad_minimum r in
        m <- match sd_garbage sd with
             | Some g => ignore_garbage g (d_mat d) [nrows; ncols]
             | None => reshape_to_fit_2d zero (d_mat d) [nrows; ncols]
             end ;;
        b <- pad_1d zero (d_bias d) nrows ;;
        Some (mkDense m b, mkSd [nrows] None [nrows0])
      else None
    else None
    else None
  | _ => None
  end.

(** A chain of dense layers and element-wise layers.  An element-wise layer is ReLU or GELU
    (activation.rs:137-153) or requantisation (requant.rs:472-482), which fail if one element fails;
    they are padded by doing nothing (provable/mod.rs:450-455, activation.rs:210, requant.rs:187).
    The loop of [pad_model] (padding.rs:145-179) over the nodes of such a chain. *)
Inductive clayer := CDense (d : dense) | CMap (f : A -> option A).
Definition clayer_eval (l : clayer) (x : ten) : option ten :=
  match l with
  | CDense d => dense_eval d x
  | CMap f => d <- omapM f (dat x) ;; tensor_new (sh x) d
  end.
Definition chain_eval (ls : list clayer) (x : ten) : option ten := ofold (fun x l => clayer_eval l x) ls x.
Definition pad_clayer (l : clayer) (sd : shape_data) : option (clayer * shape_data) :=
  match l with
  | CDense d => r <- pad_dense d sd ;; Some (CDense (fst r), snd r)
  | CMap f => Some (CMap f, sd)
  end.
Fixpoint pad_chain (ls : list clayer) (sd : shape_data) : option (list clayer * shape_data) :=
  match ls with
  | [] => Some ([], sd)
  | l :: ls' => r <- pad_clayer l sd ;; r' <- pad_chain ls' (snd r) ;; Some (fst r :: fst r', snd r')
  end.

(** *** MatMul: [OperandMatrix], [MatMul] (matrix_mul.rs:127-132), [op] (matrix_mul.rs:230-311). *)
Inductive operand := Input | Weight (t : ten) (unpadded : list nat).
Record matmul_layer := mkMM { mm_left : operand; mm_right : operand; mm_bias : option ten; mm_transpose : bool }.
Definition maybe_transpose (tr : bool) (t : ten) : option ten := if tr then transpose t else Some t.
Definition mm_product (l r : ten) : option ten :=
  n <- nrows_2d r ;; c <- ncols_2d l ;; if c =? n then matmul zero add mul l r else None.
Definition matmul_op (mm : matmul_layer) (inputs : list ten) : option ten :=
  y <- match mm_left mm, mm_right mm with
       | Weight _ _, Weight _ _ => None
       | Weight w _, Input =>
           x <- nth_error inputs 0 ;; r <- maybe_transpose (mm_transpose mm) x ;; mm_product w r
       | Input, Weight w _ =>
           x <- nth_error inputs 0 ;; r <- maybe_transpose (mm_transpose mm) w ;; mm_product x r
       | Input, Input =>
           match inputs with
           | [x; x'] => r <- maybe_transpose (mm_transpose mm) x' ;; mm_product x r
           | _ => None
           end
       end ;;
  match mm_bias mm with
  | Some b =>
      match sh y, sh b with
      | _ :: p :: _, p' :: _ => if p =? p' then add_dim2 add y b else None
      | _, _ => None
      end
  | None => Some y
  end.
(** [compute_output_shapes] (matrix_mul.rs:395-442) on the unpadded shapes. *)
Definition mm_output_shape (mm : matmul_layer) (ins : list (list nat)) : option (list nat) :=
  lr <- match mm_left mm, mm_right mm with
        | Input, Input => match ins with [a; b] => Some (a, b) | _ => None end
        | Input, Weight _ s => match ins with [a] => Some (a, s) | _ => None end
        | Weight _ s, Input => match ins with [b] => Some (s, b) | _ => None end
        | Weight _ _, Weight _ _ => None
        end ;;
  let right := if mm_transpose mm then rev (snd lr) else snd lr in
  match fst lr, right with
  | l0 :: l1 :: _, r0 :: r1 :: _ => if l1 =? r0 then Some [l0; r1] else None
  | _, _ => None
  end.
Definition mm_num_inputs (mm : matmul_layer) : nat :=                    (* matrix_mul.rs:327-334 *)
  match mm_left mm, mm_right mm with
  | Weight _ _, Weight _ _ => 0 | Weight _ _, Input => 1 | Input, Weight _ _ => 1 | Input, Input => 2
  end.
(** [pad_matmul] (padding.rs:307-391). *)
Definition pad_matmul (mm : matmul_layer) (si : list shape_data) : option (matmul_layer * shape_data) :=
  if length si =? mm_num_inputs mm then
  if forallb (fun s => (length (sd_og s) =? 2) && (length (sd_padded s) =? 2)) si then
    og <- mm_output_shape mm (map sd_og si) ;;
    r <- match mm_left mm, mm_right mm, si with
         | Weight w u, Input, [s] =>
             nr <- nrows_2d w ;; nc <- nth_error (sd_padded s) 0 ;;
             w' <- reshape_to_fit_2d zero w [pad_minimum nr; nc] ;;
             Some (Weight w' u, Input, sh w', sd_padded s, [sd_garbage s])
         | Input, Weight w u, [s] =>
             nr <- nth_error (sd_padded s) 1 ;; c <- ncols_2d w ;;
             let mp := [nr; pad_minimum c] in
             w' <- match sd_garbage s with
                   | Some g => ignore_garbage g w mp
                   | None => reshape_to_fit_2d zero w mp
                   end ;;
             Some (Input, Weight w' u, sd_padded s, sh w', [])
         | Input, Input, [s; s'] => Some (Input, Input, sd_padded s, sd_padded s', [sd_garbage s; sd_garbage s'])
         | _, _, _ => None
         end ;;
    let '(l, rt, lsh, rsh0, gs) := r in
    let rsh := if mm_transpose mm then rev rsh0 else rsh0 in
    match lsh, rsh with
    | l0 :: l1 :: _, r0 :: r1 :: rs =>
        if l1 =? r0 then
        if forallb (fun g : option garbage => match g with None => true | Some _ => false end) gs then
          b <- match mm_bias mm with
               | Some b => b' <- pad_to_shape zero b (r1 :: rs) ;; Some (Some b')
               | None => Some None
               end ;;
          Some (mkMM l rt b (mm_transpose mm), mkSd [l0; r1] None og)
        else None
        else None
    | _, _ => None
    end
  else None
  else None.

(** *** QKV: one weight matrix and bias; evaluation (transformer/qkv.rs:278-317), padding (padding.rs:433-462). *)
Definition qkv_eval (w b x : ten) : option ten := y <- matmul zero add mul x w ;; add_dim2 add y b.
Definition pad_qkv_weight (w : ten) (num_heads head_dim dim1 : nat) : option ten :=
  nr <- nrows_2d w ;;
  if nr <=? dim1 then
    w1 <- reshape w [nr; num_heads; head_dim] ;;
    let nrows := pad_minimum dim1 in
    w2 <- pad_to_shape zero w1 [nrows; pad_minimum num_heads; pad_minimum head_dim] ;;
    reshape w2 [nrows; pad_minimum num_heads * pad_minimum head_dim]
  else None.
Definition pad_qkv_bias (b : ten) (num_heads head_dim : nat) : option ten :=
  b1 <- reshape b [num_heads; head_dim] ;;
  b2 <- pad_to_shape zero b1 [pad_minimum num_heads; pad_minimum head_dim] ;;
  reshape b2 [pad_minimum num_heads * pad_minimum head_dim].
End Layers.
