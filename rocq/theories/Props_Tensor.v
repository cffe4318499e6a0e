(** Property theorems C27, C29, C30, C31, C33: tensors.  Statements only.
    The specification (P_Tensor.v, P_Tensor2.v): [inb s idx] - the multi-index [idx] is inside the shape [s];
    [flat s idx] - its row-major position; [wft t] - the data has as many entries as the shape says;
    [entry d t idx] - the entry of [t] at a multi-index; [padded_with d t ns t'] - [t'] has shape [ns], the entries of
    [t] at their own multi-indices and [d] elsewhere; [rdim s i] - the i-th dimension from the right, 1 past the end;
    [is_max2 k v m] - [m] is the maximum of the k by k window [v]. *)
From Coq Require Import List Arith Lia Bool ZArith Permutation.
From Verif Require Import ListAux FieldDef M_Mle M_Tensor P_Tensor P_Tensor2 P_Tensor3 P_Tensor4 M_Pool P_Pool P_Pad2.
Import ListNotations.

(** Padding to a larger shape keeps every entry at its multi-index and fills the rest with zero: any rank, shape, content. *)
Theorem C27_pad_to_shape :
  forall (A : Type) (zero : A) (t : ten A) (ns : list nat),
  wft t ->
  Forall (lt 0) (sh t) ->
  Forall2 le (sh t) ns -> exists t' : ten A, pad_to_shape zero t ns = Some t' /\ padded_with zero t ns t'.
Proof. exact @pad_to_shape_ok. Qed.
Print Assumptions C27_pad_to_shape.

Example C27_ex_pad : let t := mkTen [2; 3] [1; 2; 3; 4; 5; 6]%Z in
  wft t /\ Forall (lt 0) (sh t) /\ Forall2 le (sh t) [3; 4] /\
  pad_to_shape 0%Z t [3; 4] = Some (mkTen [3; 4] [1; 2; 3; 0; 4; 5; 6; 0; 0; 0; 0; 0]%Z).
Proof. cbn. split; [reflexivity|]. split; [repeat constructor|]. split; [repeat constructor|vm_compute; reflexivity]. Qed.

(** The specification determines the padded tensor. *)
Theorem C27_pad_unique :
  forall (A : Type) (d : A) (t : ten A) (ns : list nat) (t1 t2 : ten A),
  padded_with d t ns t1 -> padded_with d t ns t2 -> t1 = t2.
Proof. exact @padded_with_unique. Qed.
Print Assumptions C27_pad_unique.

(** A target of another rank, a smaller dimension or an empty tensor is rejected. *)
Theorem C27_pad_rejects :
  forall (A : Type) (zero : A) (t : ten A) (ns : list nat),
  length ns <> length (sh t) \/
  Exists (fun p : nat * nat => snd p < fst p) (combine (sh t) ns) \/ Exists (eq 0) (sh t) ->
  pad_to_shape zero t ns = None.
Proof. exact @pad_to_shape_rejects. Qed.
Print Assumptions C27_pad_rejects.

Example C27_ex_rejects : pad_to_shape 0%Z (mkTen [2; 2] [1; 2; 3; 4]%Z) [4; 1] = None. Proof. reflexivity. Qed.

(** The recursive padding to the next powers of two, with any padding value. *)
Theorem C27_generic_pad :
  forall (A : Type) (pv : A) (t : ten A),
  wft t ->
  sh t <> [] ->
  Forall (lt 0) (sh t) ->
  exists t' : ten A, generic_pad_next_power_of_two pv t = Some t' /\ padded_with pv t (shape_npow2 (sh t)) t'.
Proof. exact @generic_pad_ok. Qed.
Print Assumptions C27_generic_pad.

Example C27_ex_generic : generic_pad_next_power_of_two 9%Z (mkTen [2; 3] [1; 2; 3; 4; 5; 6]%Z) =
  Some (mkTen [2; 4] [1; 2; 3; 9; 4; 5; 6; 9]%Z). Proof. reflexivity. Qed.

(** Padding to the next powers of two is the same operation as padding to that shape. *)
Theorem C27_pad_pow2 :
  forall (A : Type) (zero : A) (t : ten A),
  wft t ->
  sh t <> [] -> Forall (lt 0) (sh t) -> pad_next_power_of_two zero t = pad_to_shape zero t (map npow2 (sh t)).
Proof. exact @pad_pow2_is_pad_to_shape. Qed.
Print Assumptions C27_pad_pow2.

(** Padding in two steps is padding in one. *)
Theorem C27_pad_twice :
  forall (A : Type) (zero : A) (t : ten A) (ns ns' : list nat),
  wft t ->
  Forall (lt 0) (sh t) ->
  Forall2 le (sh t) ns ->
  Forall2 le ns ns' -> (x <- pad_to_shape zero t ns;; pad_to_shape zero x ns') = pad_to_shape zero t ns'.
Proof. exact @pad_twice. Qed.
Print Assumptions C27_pad_twice.

(** The third implementation, for matrices, agrees too. *)
Theorem C27_fit_2d :
  forall (A : Type) (zero : A) (t : ten A) (r c r' c' : nat),
  wft t ->
  sh t = [r; c] ->
  0 < r -> 0 < c -> r <= r' -> c <= c' -> reshape_to_fit_2d zero t [r'; c'] = pad_to_shape zero t [r'; c'].
Proof. exact @reshape_to_fit_is_pad. Qed.
Print Assumptions C27_fit_2d.

(** On an empty tensor the two paddings differ: [0] is padded to one zero by one and rejected by the other, and [0; n] is rejected by both. *)
Theorem C27_empty_refuted :
  forall (A : Type) (zero : A),
  pad_next_power_of_two zero {| sh := [0]; dat := [] |} = Some {| sh := [1]; dat := [zero] |} /\
  (forall ns : list nat, pad_to_shape zero {| sh := [0]; dat := [] |} ns = None) /\
  (forall n : nat, pad_next_power_of_two zero {| sh := [0; n]; dat := [] |} = None).
Proof. exact @pad_empty. Qed.
Print Assumptions C27_empty_refuted.

(** The strides compute the row-major position. *)
Theorem C29_strides :
  forall s idx : list nat, length idx = length s -> dot idx (strides s) = flat s idx.
Proof. exact @strides_flat. Qed.
Print Assumptions C29_strides.

(** The strides map the multi-indices of a shape one-to-one onto 0..product. *)
Theorem C29_bijection :
  forall s : list nat,
  (forall idx : list nat, inb s idx -> dot idx (strides s) < fold_right Nat.mul 1 s) /\
  (forall i j : list nat, inb s i -> inb s j -> dot i (strides s) = dot j (strides s) -> i = j) /\
  (forall o : nat, o < fold_right Nat.mul 1 s -> exists idx : list nat, inb s idx /\ dot idx (strides s) = o).
Proof. exact @strides_bijection. Qed.
Print Assumptions C29_bijection.

Example C29_ex_strides : strides [2; 3; 4] = [12; 4; 1] /\ inb [2; 3; 4] [1; 2; 3] /\ dot [1; 2; 3] (strides [2; 3; 4]) = 23.
Proof. split; [reflexivity|]. split; [repeat constructor|reflexivity]. Qed.

(** Transposition moves entry (i, j) to (j, i). *)
Theorem C29_transpose :
  forall (A : Type) (d : A) (t : ten A) (m n : nat),
  wft t ->
  sh t = [m; n] ->
  exists t' : ten A,
    transpose t = Some t' /\
    sh t' = [n; m] /\ wft t' /\ (forall i j : nat, i < m -> j < n -> entry d t' [j; i] = entry d t [i; j]).
Proof. exact @transpose_ok. Qed.
Print Assumptions C29_transpose.

(** Transposing twice is the identity. *)
Theorem C29_transpose_twice :
  forall A : Type,
  A -> forall (t : ten A) (m n : nat), wft t -> sh t = [m; n] -> (u <- transpose t;; transpose u) = Some t.
Proof. exact @transpose_twice. Qed.
Print Assumptions C29_transpose_twice.

Example C29_ex_transpose : transpose (mkTen [2; 3] [1; 2; 3; 4; 5; 6]%Z) = Some (mkTen [3; 2] [1; 4; 2; 5; 3; 6]%Z).
Proof. reflexivity. Qed.

(** Axis permutation moves each entry to its permuted multi-index. *)
Theorem C29_permute3d :
  forall (A : Type) (zero : A) (t : ten A) (order : list nat),
  wft t ->
  length (sh t) = 3 ->
  Permutation order [0; 1; 2] ->
  exists t' : ten A,
    permute3d zero t order = Some t' /\
    sh t' = perm_idx order (sh t) /\
    wft t' /\
    (forall idx : list nat,
     inb (sh t) idx -> inb (sh t') (perm_idx order idx) /\ entry zero t' (perm_idx order idx) = entry zero t idx).
Proof. exact @permute3d_ok. Qed.
Print Assumptions C29_permute3d.

(** Permuting with the inverse order restores the tensor. *)
Theorem C29_permute3d_back :
  forall (A : Type) (zero : A) (t : ten A) (order back : list nat),
  wft t ->
  length (sh t) = 3 ->
  Permutation order [0; 1; 2] ->
  Permutation back [0; 1; 2] ->
  perm_idx back (perm_idx order [0; 1; 2]) = [0; 1; 2] ->
  (u <- permute3d zero t order;; permute3d zero u back) = Some t.
Proof. exact @permute3d_back. Qed.
Print Assumptions C29_permute3d_back.

Example C29_ex_permute : permute3d 0%Z (mkTen [2; 1; 3] [1; 2; 3; 4; 5; 6]%Z) [2; 0; 1] = Some (mkTen [3; 2; 1] [1; 4; 2; 5; 3; 6]%Z)
  /\ Permutation [2; 0; 1] [0; 1; 2] /\ perm_idx [1; 2; 0] (perm_idx [2; 0; 1] [0; 1; 2]) = [0; 1; 2].
Proof. split; [reflexivity|]. split; [|reflexivity]. apply perm_trans with [0; 2; 1]; [apply perm_swap|apply perm_skip, perm_swap]. Qed.

(** An order with a repeated axis is accepted; the result's shape does not even match its data. *)
Theorem C29_permute3d_repeated_refuted :
  exists (t : ten Z) order t', wft t /\ ~ Permutation order [0; 1; 2] /\ permute3d 0%Z t order = Some t' /\ ~ wft t'.
Proof.
  exists (mkTen [1; 1; 2] [7; 8]%Z), [0; 0; 0]. eexists. split; [reflexivity|]. split; [|split; [reflexivity|unfold wft; cbn; discriminate]].
  intros P. apply Permutation_sym in P. assert (Q : In 1 [0; 0; 0]) by (apply (Permutation_in 1 P); cbn; auto). cbn in Q. intuition discriminate.
Qed.
Print Assumptions C29_permute3d_repeated_refuted.

(** The accessor computes the row-major position; all accessors but the last are compared with their dimension. *)
Theorem C29_get_idx :
  forall (A : Type) (t : ten A) (a s : nat) (accs dims : list nat),
  sh t = dims ++ [s] ->
  length accs = length dims ->
  (Forall2 lt accs dims -> get_idx t (accs ++ [a]) = Some (flat dims accs * s + a)) /\
  (~ Forall2 lt accs dims -> get_idx t (accs ++ [a]) = None).
Proof. exact @get_idx_spec. Qed.
Print Assumptions C29_get_idx.

(** In range, the accessor returns the entry. *)
Theorem C29_get_in_range :
  forall (A : Type) (d : A) (t : ten A) (idx : list nat),
  wft t ->
  sh t <> [] -> inb (sh t) idx -> get_idx t idx = Some (flat (sh t) idx) /\ tget t idx = Some (entry d t idx).
Proof. exact @get_in_range. Qed.
Print Assumptions C29_get_in_range.

(** A wrong number of accessors, or one out of range before the last, is rejected. *)
Theorem C29_get_rejects :
  forall (A : Type) (t : ten A) (acc : list nat),
  length acc <> length (sh t) \/ ~ Forall2 lt (removelast acc) (removelast (sh t)) -> get_idx t acc = None.
Proof. exact @get_idx_rejects. Qed.
Print Assumptions C29_get_rejects.

(** An out-of-range last accessor is not rejected: it reads an entry of the next row. *)
Theorem C29_get_last_refuted :
  forall (A : Type) (d : A) (t : ten A) (m n i k : nat),
  sh t = [m; n] ->
  wft t -> 0 < k -> S i < m -> k < n -> ~ inb (sh t) [i; n + k] /\ tget t [i; n + k] = Some (entry d t [S i; k]).
Proof. exact @get_last_unchecked. Qed.
Print Assumptions C29_get_last_refuted.

Example C29_ex_get : tget (mkTen [2; 3] [1; 2; 3; 4; 5; 6]%Z) [1; 2] = Some 6%Z /\ tget (mkTen [2; 3] [1; 2; 3; 4; 5; 6]%Z) [0; 4] = Some 5%Z
  /\ tget (mkTen [2; 3] [1; 2; 3; 4; 5; 6]%Z) [2; 0] = None.
Proof. repeat split. Qed.

(** Concatenation along the first axis: shape, data length and every entry. *)
Theorem C30_concat :
  forall (A : Type) (d : A) (t o : ten A) (s0 k : nat) (r : list nat),
  wft t ->
  wft o ->
  joins (sh t) (sh o) s0 k r ->
  exists c : ten A,
    tconcat t o = Some c /\
    sh c = s0 + k :: r /\
    wft c /\
    (forall (i : nat) (idx : list nat), i < s0 -> inb r idx -> entry d c (i :: idx) = entry d t (i :: idx)) /\
    (forall (i : nat) (idx : list nat),
     i < k -> inb r idx -> entry d c (s0 + i :: idx) = nth (i * fold_right Nat.mul 1 r + flat r idx) (dat o) d).
Proof. exact @concat_ok. Qed.
Print Assumptions C30_concat.

(** The slices of a concatenation of matrices are the operands. *)
Theorem C30_slices_2d :
  forall (A : Type) (t o : ten A) (a k n : nat),
  wft t ->
  wft o ->
  sh t = [a; n] ->
  sh o = [k; n] ->
  (c <- tconcat t o;; slice_2d c 0 a) = Some t /\ (c <- tconcat t o;; slice_2d c a (a + k)) = Some o.
Proof. exact @concat_slices_2d. Qed.
Print Assumptions C30_slices_2d.

(** The same in three dimensions. *)
Theorem C30_slices_3d :
  forall (A : Type) (t o : ten A) (a k m n : nat),
  wft t ->
  wft o ->
  sh t = [a; m; n] ->
  sh o = [k; m; n] ->
  0 < a ->
  0 < k -> (c <- tconcat t o;; slice_3d c 0 a) = Some t /\ (c <- tconcat t o;; slice_3d c a (a + k)) = Some o.
Proof. exact @concat_slices_3d. Qed.
Print Assumptions C30_slices_3d.

Example C30_ex_concat : let t := mkTen [1; 2] [1; 2]%Z in let o := mkTen [2; 2] [3; 4; 5; 6]%Z in
  joins (sh t) (sh o) 1 2 [2] /\ tconcat t o = Some (mkTen [3; 2] [1; 2; 3; 4; 5; 6]%Z) /\
  (c <- tconcat t o ;; slice_2d c 1 3) = Some o.
Proof. cbv zeta. split; [|split; reflexivity]. unfold joins. cbn. auto. Qed.

(** Operands of lower rank whose dimensions do not match are rejected. *)
Theorem C30_rejects :
  forall (A : Type) (t o : ten A),
  sh t = [] \/ length (sh o) < length (sh t) /\ sh o <> tl (sh t) -> tconcat t o = None.
Proof. exact @concat_rejects. Qed.
Print Assumptions C30_rejects.

(** Operands of the same or a higher rank are never compared: the result keeps the first trailing dimensions, and its shape does not match its data when the products of the trailing dimensions differ. *)
Theorem C30_unchecked_refuted :
  forall (A : Type) (t o : ten A) (s0 : nat) (r : list nat) (o0 : nat) (r' : list nat),
  sh t = s0 :: r ->
  sh o = o0 :: r' ->
  length r <= length r' ->
  tconcat t o = Some {| sh := s0 + o0 :: r; dat := dat t ++ dat o |} /\
  (wft t -> wft o -> 0 < o0 -> sprod r <> sprod r' -> ~ wft {| sh := s0 + o0 :: r; dat := dat t ++ dat o |}).
Proof. exact @concat_unchecked. Qed.
Print Assumptions C30_unchecked_refuted.

Example C30_ex_unchecked : tconcat (mkTen [1; 2] [1; 2]%Z) (mkTen [1; 3] [3; 4; 5]%Z) = Some (mkTen [2; 2] [1; 2; 3; 4; 5]%Z).
Proof. reflexivity. Qed.

(** Stacking any number of tensors: block [j] of the result is tensor [j]. *)
Theorem C30_stack_all :
  forall (A : Type) (d : A) (r : list nat) (ts : list (ten A)),
  ts <> [] ->
  Forall (fun u : ten A => wft u /\ (exists k : nat, sh u = k :: r)) ts ->
  exists c : ten A,
    stack_all ts = Some c /\
    sh c = sumlist (heads ts) :: r /\
    wft c /\
    (forall (j : nat) (t : ten A) (i : nat) (idx : list nat),
     nth_error ts j = Some t ->
     i < hd 0 (sh t) -> inb r idx -> entry d c (sumlist (firstn j (heads ts)) + i :: idx) = entry d t (i :: idx)).
Proof. exact @stack_all_ok. Qed.
Print Assumptions C30_stack_all.

(** Slicing on a dimension returns the sub-tensors below it, in order. *)
Theorem C30_slice_on_dim :
  forall (A : Type) (d : A) (t : ten A) (dim : nat),
  wft t ->
  Forall (lt 0) (sh t) ->
  dim + 1 < length (sh t) ->
  exists ss : list (list A),
    slice_on_dim t dim = Some (ss, skipn (dim + 1) (sh t)) /\
    length ss = sprod (firstn (dim + 1) (sh t)) /\
    (forall i1 i2 : list nat,
     inb (firstn (dim + 1) (sh t)) i1 ->
     inb (skipn (dim + 1) (sh t)) i2 ->
     nth (flat (skipn (dim + 1) (sh t)) i2) (nth (flat (firstn (dim + 1) (sh t)) i1) ss []) d =
     entry d t (i1 ++ i2)).
Proof. exact @slice_on_dim_ok. Qed.
Print Assumptions C30_slice_on_dim.

Example C30_ex_stack : stack_all [mkTen [1; 2] [1; 2]%Z; mkTen [2; 2] [3; 4; 5; 6]%Z; mkTen [1; 2] [7; 8]%Z] =
    Some (mkTen [4; 2] [1; 2; 3; 4; 5; 6; 7; 8]%Z) /\
  slice_on_dim (mkTen [2; 1; 2] [1; 2; 3; 4]%Z) 0 = Some ([[1; 2]; [3; 4]]%Z, [1; 2]).
Proof. split; reflexivity. Qed.

(** Max pooling returns the maximum of each window: any rank, shape, kernel and stride. *)
Theorem C31_maxpool :
  forall (t : ten Z) (pre : list nat) (h w k s : nat),
  wft t ->
  sh t = pre ++ [h; w] ->
  0 < k ->
  0 < s ->
  k <= h ->
  k <= w ->
  exists o : ten Z,
    maxpool2d t k s = Some o /\
    sh o = pre ++ [(h - k) / s + 1; (w - k) / s + 1] /\
    wft o /\
    (forall (ip : list nat) (i j : nat),
     inb pre ip ->
     i < (h - k) / s + 1 ->
     j < (w - k) / s + 1 ->
     is_max2 k (fun a b : nat => entry 0%Z t (ip ++ [i * s + a; j * s + b])) (entry 0%Z o (ip ++ [i; j]))).
Proof. exact @maxpool2d_ok. Qed.
Print Assumptions C31_maxpool.

(** A window larger than the image, or a zero stride, is rejected. *)
Theorem C31_maxpool_rejects :
  forall (t : ten Z) (pre : list nat) (h w k s : nat),
  sh t = pre ++ [h; w] -> h < k \/ w < k \/ s = 0 -> maxpool2d t k s = None.
Proof. exact @maxpool2d_rejects. Qed.
Print Assumptions C31_maxpool_rejects.

Example C31_ex_pool : maxpool2d (mkTen [1; 2; 4] [1; 5; -3; -4; 2; 0; -1; -9]%Z) 2 2 = Some (mkTen [1; 1; 2] [5; -1]%Z). Proof. reflexivity. Qed.

(** For a square image the declared output shape is the produced one. *)
Theorem C31_declared_square :
  forall (t : ten Z) (c h : nat),
  wft t ->
  sh t = [c; h; h] ->
  2 <= h ->
  exists o : ten Z, maxpool2d t 2 2 = Some o /\ maxpool2d_shape (sh t) = Some (sh o) /\ sh o = [c; h / 2; h / 2].
Proof. exact @declared_shape_ok. Qed.
Print Assumptions C31_declared_square.

(** For a non-square image it is not. *)
Theorem C31_declared_refuted :
  forall (t : ten Z) (c h w : nat),
  wft t ->
  sh t = [c; h; w] ->
  2 <= h ->
  2 <= w ->
  h / 2 <> w / 2 ->
  exists (o : ten Z) (s : list nat), maxpool2d t 2 2 = Some o /\ maxpool2d_shape (sh t) = Some s /\ s <> sh o.
Proof. exact @declared_shape_wrong. Qed.
Print Assumptions C31_declared_refuted.

Example C31_ex_declared : maxpool2d_shape [1; 4; 6] = Some [1; 2; 2] /\ maxpool2d_shape [3; 4; 4] = Some [3; 2; 2]. Proof. split; reflexivity. Qed.

(** The difference columns: column 2b+a holds, for each window, the output minus the input at offset (a, b). *)
Theorem C31_columns :
  forall (t : ten Z) (c h w : nat),
  wft t ->
  sh t = [c; 2 * h; 2 * w] ->
  0 < c ->
  0 < h ->
  0 < w ->
  exists (inp o out : ten Z) (polys : list (list Z)),
    pad_next_power_of_two 0%Z t = Some inp /\
    maxpool2d t 2 2 = Some o /\
    pad_next_power_of_two 0%Z o = Some out /\
    sh inp = [npow2 c; 2 * npow2 h; 2 * npow2 w] /\
    sh out = [npow2 c; npow2 h; npow2 w] /\
    compute_polys 2 2 t = Some polys /\
    length polys = 4 /\
    (forall k : nat, k < 4 -> length (nth k polys []) = npow2 c * npow2 h * npow2 w) /\
    (forall a b z i j : nat,
     a < 2 ->
     b < 2 ->
     z < npow2 c ->
     i < npow2 h ->
     j < npow2 w ->
     nth (flat [npow2 c; npow2 h; npow2 w] [z; i; j]) (nth (2 * b + a) polys []) 0%Z =
     (entry 0 out [z; i; j] - entry 0 inp [z; (2 * i + a)%nat; (2 * j + b)%nat])%Z).
Proof. exact @compute_polys_ok. Qed.
Print Assumptions C31_columns.

(** They are non-negative with product zero. *)
Theorem C31_columns_sound :
  forall (t : ten Z) (c h w : nat) (inp out : ten Z) (polys : list (list Z)),
  wft t ->
  sh t = [c; 2 * h; 2 * w] ->
  0 < c ->
  0 < h ->
  0 < w ->
  pad_next_power_of_two 0%Z t = Some inp ->
  (o <- maxpool2d t 2 2;; pad_next_power_of_two 0%Z o) = Some out ->
  compute_polys 2 2 t = Some polys ->
  forall z i j : nat,
  z < npow2 c ->
  i < npow2 h ->
  j < npow2 w ->
  let q := flat [npow2 c; npow2 h; npow2 w] [z; i; j] in
  (forall k : nat, k < 4 -> (0 <= nth q (nth k polys []) 0)%Z) /\
  (nth q (nth 0 polys []) 0 * nth q (nth 1 polys []) 0 * nth q (nth 2 polys []) 0 * nth q (nth 3 polys []) 0)%Z =
  0%Z /\ is_max2 2 (fun a b : nat => entry 0%Z inp [z; 2 * i + a; 2 * j + b]) (entry 0%Z out [z; i; j]).
Proof. exact @polys_sound. Qed.
Print Assumptions C31_columns_sound.

(** And a value with non-negative differences of product zero is the maximum. *)
Theorem C31_columns_exact :
  forall (v : nat -> nat -> Z) (x : Z),
  (forall a b : nat, a < 2 -> b < 2 -> (0 <= x - v a b)%Z) /\
  ((x - v 0%nat 0%nat) * (x - v 1%nat 0%nat) * (x - v 0%nat 1%nat) * (x - v 1%nat 1%nat))%Z = 0%Z <->
  is_max2 2 v x.
Proof. exact @polys_max. Qed.
Print Assumptions C31_columns_exact.

Example C31_ex_columns : compute_polys 2 2 (mkTen [1; 2; 4] [1; 5; -3; -4; 2; 0; -1; -9]%Z) =
  Some [[4; 2]; [3; 0]; [0; 3]; [5; 8]]%Z. Proof. vm_compute. reflexivity. Qed.

(** Broadcasting is commutative. *)
Theorem C33_commutative :
  forall a b : list nat, get_broadcasted_shape a b = get_broadcasted_shape b a.
Proof. exact @broadcast_comm. Qed.
Print Assumptions C33_commutative.

(** It fails exactly when some aligned pair of dimensions differs with neither equal to 1. *)
Theorem C33_succeeds_exactly :
  forall a b : list nat, get_broadcasted_shape a b = None <-> (exists i : nat, ~ dim_ok (rdim a i) (rdim b i)).
Proof. exact @broadcast_rejects. Qed.
Print Assumptions C33_succeeds_exactly.

(** For positive dimensions each resulting dimension is the maximum of the pair. *)
Theorem C33_maximum :
  forall a b : list nat,
  Forall (lt 0) a ->
  Forall (lt 0) b ->
  (forall i : nat, dim_ok (rdim a i) (rdim b i)) ->
  exists r : list nat,
    get_broadcasted_shape a b = Some r /\
    length r = Nat.max (length a) (length b) /\ (forall i : nat, rdim r i = Nat.max (rdim a i) (rdim b i)).
Proof. exact @broadcast_ok. Qed.
Print Assumptions C33_maximum.

(** With a zero dimension the result is not the maximum: 1 against 0 gives 0. *)
Theorem C33_zero_refuted : exists a b r, get_broadcasted_shape a b = Some r /\ rdim r 0 <> Nat.max (rdim a 0) (rdim b 0).
Proof. exists [1], [0], [0]. split; [reflexivity|cbn; lia]. Qed.
Print Assumptions C33_zero_refuted.
Example C33_ex_broadcast : get_broadcasted_shape [3; 1; 5] [4; 1] = Some [3; 4; 5] /\ get_broadcasted_shape [3; 2] [3] = None.
Proof. split; reflexivity. Qed.

(** Expanding repeats the entries along the dimensions of size 1 and leaves the others in place. *)
Theorem C33_expand :
  forall (A : Type) (d : A) (t : ten A) (es : list nat),
  wft t ->
  expands (sh t) es ->
  exists t' : ten A,
    expand t es = Some t' /\
    sh t' = es /\
    wft t' /\
    (forall idx : list nat,
     inb es idx -> entry d t' idx = entry d t (clamp (sh t) (skipn (length es - length (sh t)) idx))).
Proof. exact @expand_correct. Qed.
Print Assumptions C33_expand.

(** Every other target shape is rejected. *)
Theorem C33_expand_rejects :
  forall (A : Type) (t : ten A) (es : list nat), ~ expands (sh t) es -> expand t es = None.
Proof. exact @expand_rejects. Qed.
Print Assumptions C33_expand_rejects.

Example C33_ex_expand : expand (mkTen [2; 1] [1; 2]%Z) [2; 2; 3] = Some (mkTen [2; 2; 3] [1; 1; 1; 2; 2; 2; 1; 1; 1; 2; 2; 2]%Z).
Proof. reflexivity. Qed.

