(** Property theorems C28: padded layers compute the unpadded result.  Statements only.
    [zero], [add] and [mul] are arbitrary: the only laws used are [x + 0 = x], [0 * x = 0] and [x * 0 = 0], so the
    theorems hold for machine integers with any overflow behaviour.  [agrees d t t'] - the entries of [t] are found in
    [t'] at the same multi-indices, the other entries of [t'] being arbitrary. *)
From Coq Require Import List Arith Lia Bool ZArith.
From Verif Require Import ListAux FieldDef M_Mle M_Tensor P_Tensor P_Tensor2 P_Tensor3 P_Tensor4 M_Pad P_Pad P_Pad2 P_Pad3.
Import ListNotations.

(** A padded dense layer on a vector with arbitrary garbage beyond the original entries returns the zero-padded output. *)
Theorem C28_dense :
  forall (A : Type) (zero : A) (add mul : A -> A -> A),
  (forall x : A, add x zero = x) ->
  (forall x : A, mul zero x = zero) ->
  forall (d : dense) (r c P : nat),
  wf_dense d r c ->
  is_pow2 P = true ->
  4 <= P ->
  c <= P ->
  forall og : list nat,
  exists d' : dense,
    pad_dense zero d {| sd_padded := [P]; sd_garbage := None; sd_og := og |} =
    Some (d', {| sd_padded := [pad_minimum r]; sd_garbage := None; sd_og := [r] |}) /\
    wf_dense d' (pad_minimum r) P /\
    (forall x x' : ten A,
     wft x ->
     sh x = [c] ->
     wft x' ->
     sh x' = [P] ->
     agrees zero x x' ->
     exists y y' : ten A,
       dense_eval zero add mul d x = Some y /\
       dense_eval zero add mul d' x' = Some y' /\ padded_with zero y [pad_minimum r] y').
Proof. exact @dense_padded. Qed.
Print Assumptions C28_dense.

Definition ex_dense : dense := mkDense (mkTen [2; 3] [1; 2; 3; 4; 5; 6]%Z) (mkTen [2] [10; 20]%Z).
Example C28_ex_dense : wf_dense ex_dense 2 3 /\ is_pow2 4 = true /\
  (r <- pad_dense 0%Z ex_dense (mkSd [4] None [3]) ;; dense_eval 0%Z Z.add Z.mul (fst r) (mkTen [4] [1; 1; 1; 77]%Z)) =
    Some (mkTen [4] [16; 35; 0; 0]%Z) /\
  dense_eval 0%Z Z.add Z.mul ex_dense (mkTen [3] [1; 1; 1]%Z) = Some (mkTen [2] [16; 35]%Z).
Proof. split; [unfold wf_dense, wft; cbn; repeat split; lia|]. split; [reflexivity|]. split; vm_compute; reflexivity. Qed.

(** After Flatten of a padded three-dimensional tensor with arbitrary garbage in its padding positions. *)
Theorem C28_flatten_dense :
  forall (A : Type) (zero : A) (add mul : A -> A -> A),
  (forall x : A, add x zero = x) ->
  (forall x : A, mul zero x = zero) ->
  forall (d : dense) (r : nat) (og pad : list nat),
  length og = 3 ->
  Forall (lt 0) og ->
  Forall2 le og pad ->
  shape_is_pow2 pad = true ->
  4 <= sprod pad ->
  wf_dense d r (sprod og) ->
  exists d' : dense,
    pad_dense zero d (pad_flatten {| sd_padded := pad; sd_garbage := None; sd_og := og |}) =
    Some (d', {| sd_padded := [pad_minimum r]; sd_garbage := None; sd_og := [r] |}) /\
    wf_dense d' (pad_minimum r) (sprod pad) /\
    (forall x x' : ten A,
     wft x ->
     sh x = og ->
     wft x' ->
     sh x' = pad ->
     agrees zero x x' ->
     exists y y' : ten A,
       dense_eval zero add mul d (flatten x) = Some y /\
       dense_eval zero add mul d' (flatten x') = Some y' /\ padded_with zero y [pad_minimum r] y').
Proof. exact @dense_after_flatten. Qed.
Print Assumptions C28_flatten_dense.

Example C28_ex_flatten : let d := mkDense (mkTen [1; 3] [1; 2; 3]%Z) (mkTen [1] [10]%Z) in
  let x := mkTen [1; 1; 3] [1; 1; 1]%Z in let x' := mkTen [1; 2; 4] [1; 1; 1; 9; 9; 9; 9; 9]%Z in
  wf_dense d 1 (sprod [1; 1; 3]) /\ agrees 0%Z x x' /\
  (r <- pad_dense 0%Z d (pad_flatten (mkSd [1; 2; 4] None [1; 1; 3])) ;; dense_eval 0%Z Z.add Z.mul (fst r) (flatten x')) =
    Some (mkTen [4] [16; 0; 0; 0]%Z).
Proof.
  cbv zeta. split; [unfold wf_dense, wft; cbn; repeat split; lia|]. split; [|vm_compute; reflexivity].
  intros idx I. apply inb3_inv in I as (i & j & k & -> & Hi & Hj & Hk). assert (i = 0) by lia. assert (j = 0) by lia. subst.
  destruct k as [|[|[|]]]; try lia; reflexivity.
Qed.

(** Whole chains of dense and element-wise layers: padding succeeds and the padded chain returns the padded output. *)
Theorem C28_chain :
  forall (A : Type) (zero : A) (add mul : A -> A -> A),
  (forall x : A, add x zero = x) ->
  (forall x : A, mul zero x = zero) ->
  forall (ls : list clayer) (c e : nat),
  fits zero ls c e ->
  forall (P : nat) (og : list nat),
  is_pow2 P = true ->
  4 <= P ->
  c <= P ->
  exists (ls' : list clayer) (P' : nat) (og' : list nat),
    pad_chain zero ls {| sd_padded := [P]; sd_garbage := None; sd_og := og |} =
    Some (ls', {| sd_padded := [P']; sd_garbage := None; sd_og := og' |}) /\
    e <= P' /\
    is_pow2 P' = true /\
    (forall x x' y : ten A,
     wft x ->
     sh x = [c] ->
     padded_with zero x [P] x' ->
     chain_eval zero add mul ls x = Some y ->
     exists y' : ten A, chain_eval zero add mul ls' x' = Some y' /\ sh y = [e] /\ padded_with zero y [P'] y').
Proof. exact @chain_padded. Qed.
Print Assumptions C28_chain.

(** The same for a chain that starts with a Flatten. *)
Theorem C28_flatten_chain :
  forall (A : Type) (zero : A) (add mul : A -> A -> A),
  (forall x : A, add x zero = x) ->
  (forall x : A, mul zero x = zero) ->
  forall (d : dense) (ls : list clayer) (r e : nat) (og pad : list nat),
  length og = 3 ->
  Forall (lt 0) og ->
  Forall2 le og pad ->
  shape_is_pow2 pad = true ->
  4 <= sprod pad ->
  wf_dense d r (sprod og) ->
  fits zero ls r e ->
  exists (ls' : list clayer) (P' : nat) (og' : list nat),
    pad_chain zero (CDense d :: ls) (pad_flatten {| sd_padded := pad; sd_garbage := None; sd_og := og |}) =
    Some (ls', {| sd_padded := [P']; sd_garbage := None; sd_og := og' |}) /\
    e <= P' /\
    (forall x x' y : ten A,
     wft x ->
     sh x = og ->
     wft x' ->
     sh x' = pad ->
     agrees zero x x' ->
     chain_eval zero add mul (CDense d :: ls) (flatten x) = Some y ->
     exists y' : ten A,
       chain_eval zero add mul ls' (flatten x') = Some y' /\ sh y = [e] /\ padded_with zero y [P'] y').
Proof. exact @flatten_chain_padded. Qed.
Print Assumptions C28_flatten_chain.

Definition ex_relu (x : Z) : option Z := Some (if (x <? 0)%Z then 0%Z else x).
Definition ex_chain : list clayer :=
  [CDense ex_dense; CMap ex_relu; CDense (mkDense (mkTen [1; 2] [1; -1]%Z) (mkTen [1] [5]%Z))].
Example C28_ex_chain : fits 0%Z ex_chain 3 1 /\
  (r <- pad_chain 0%Z ex_chain (mkSd [4] None [3]) ;; chain_eval 0%Z Z.add Z.mul (fst r) (mkTen [4] [1; 1; 1; 0]%Z)) =
    Some (mkTen [4] [-14; 0; 0; 0]%Z) /\
  chain_eval 0%Z Z.add Z.mul ex_chain (mkTen [3] [1; 1; 1]%Z) = Some (mkTen [1] [-14]%Z).
Proof.
  split; [|split; vm_compute; reflexivity]. apply (fits_dense _ _ _ 2); [unfold wf_dense, wft; cbn; repeat split; lia|]. apply fits_map; [reflexivity|].
  apply (fits_dense _ _ _ 1); [unfold wf_dense, wft; cbn; repeat split; lia|]. constructor.
Qed.

(** A layer with more columns than its vector input has values, or whose bias does not fit its rows, is rejected by the padding. *)
Theorem C28_unfit :
  forall (A : Type) (zero : A) (d : dense) (r c P : nat) (g : option garbage) (og : list nat) (d' : dense) (sd : shape_data),
  sh (d_mat d) = [r; c] ->
  pad_dense zero d {| sd_padded := [P]; sd_garbage := g; sd_og := og |} = Some (d', sd) ->
  c <= P /\ length (dat (d_bias d)) = r.
Proof. exact @dense_unfit. Qed.
Print Assumptions C28_unfit.

Example C28_ex_unfit : let d := mkDense (mkTen [1; 3] [1; 1; 1]%Z) (mkTen [1] [0]%Z) in
  sh (d_mat d) = [1; 3] /\ pad_dense 0%Z d (mkSd [2] None [2]) = None /\ pad_dense 0%Z d (mkSd [4] None [3]) <> None.
Proof. cbv zeta. split; [reflexivity|]. split; [vm_compute; reflexivity|]. vm_compute. discriminate. Qed.

(** A padded input width below four (an input of one or two values) is widened to four by the padding of the layer, and the padded layer then rejects every padded input. *)
Theorem C28_small_refuted :
  forall (A : Type) (zero : A) (add mul : A -> A -> A) (d : dense) (r c P : nat) (og : list nat),
  wf_dense d r c ->
  is_pow2 P = true ->
  P < 4 ->
  c <= P ->
  exists (d' : dense) (sd : shape_data),
    pad_dense zero d {| sd_padded := [P]; sd_garbage := None; sd_og := og |} = Some (d', sd) /\
    (forall x' : ten A, sh x' = [P] -> dense_eval zero add mul d' x' = None).
Proof. exact @dense_small. Qed.
Print Assumptions C28_small_refuted.

Example C28_ex_small : let d := mkDense (mkTen [1; 2] [1; 1]%Z) (mkTen [1] [0]%Z) in
  wf_dense d 1 2 /\ is_pow2 2 = true /\ dense_eval 0%Z Z.add Z.mul d (mkTen [2] [3; 4]%Z) = Some (mkTen [1] [7]%Z) /\
  (r <- pad_dense 0%Z d (sd_new [2]) ;; dense_eval 0%Z Z.add Z.mul (fst r) (mkTen [2] [3; 4]%Z)) = None.
Proof. cbv zeta. split; [unfold wf_dense, wft; cbn; repeat split; lia|]. split; [reflexivity|]. split; vm_compute; reflexivity. Qed.
(** Dense on a multi-dimensional input without a Flatten before it: the unpadded layer accepts it, the padded layer
    computes something else, although the input is zero-padded. *)
Theorem C28_no_flatten_refuted : exists d x x' y y' d' sd,
  wf_dense d 1 9 /\ sh x = [3; 3] /\ wft x /\ pad_next_power_of_two 0%Z x = Some x' /\
  dense_eval 0%Z Z.add Z.mul d x = Some y /\ pad_dense 0%Z d (sd_new [3; 3]) = Some (d', sd) /\
  dense_eval 0%Z Z.add Z.mul d' x' = Some y' /\ entry 0%Z y' [0] <> entry 0%Z y [0].
Proof.
  exists (mkDense (mkTen [1; 9] [0; 0; 0; 1; 0; 0; 0; 0; 0]%Z) (mkTen [1] [0]%Z)), (mkTen [3; 3] [1; 2; 3; 4; 5; 6; 7; 8; 9]%Z).
  do 5 eexists. split; [unfold wf_dense, wft; cbn; repeat split; lia|]. split; [reflexivity|]. split; [reflexivity|]. split; [vm_compute; reflexivity|].
  split; [vm_compute; reflexivity|]. split; [vm_compute; reflexivity|]. split; [vm_compute; reflexivity|]. vm_compute. discriminate.
Qed.
Print Assumptions C28_no_flatten_refuted.

(** Input times weight matrix, with garbage outside the original entries of the input: the original entries of the product are right, its extra columns are zero, and a zero-padded input gives the zero-padded product. *)
Theorem C28_input_weight :
  forall (A : Type) (zero : A) (add mul : A -> A -> A),
  (forall x : A, add x zero = x) ->
  (forall x : A, mul zero x = zero) ->
  (forall a : A, mul a zero = zero) ->
  forall (w : ten A) (u : list nat) (n p N s S' : nat),
  wft w ->
  sh w = [n; p] ->
  0 < n ->
  0 < p ->
  n <= N ->
  s <= S' ->
  u = [n; p] ->
  exists w' : ten A,
    pad_matmul zero {| mm_left := Input; mm_right := Weight w u; mm_bias := None; mm_transpose := false |}
      [{| sd_padded := [S'; N]; sd_garbage := None; sd_og := [s; n] |}] =
    Some
      ({| mm_left := Input; mm_right := Weight w' u; mm_bias := None; mm_transpose := false |},
       {| sd_padded := [S'; pad_minimum p]; sd_garbage := None; sd_og := [s; p] |}) /\
    (forall x x' : ten A,
     wft x ->
     sh x = [s; n] ->
     wft x' ->
     sh x' = [S'; N] ->
     agrees zero x x' ->
     exists y y' : ten A,
       matmul_op zero add mul
         {| mm_left := Input; mm_right := Weight w u; mm_bias := None; mm_transpose := false |} [x] = 
       Some y /\
       matmul_op zero add mul
         {| mm_left := Input; mm_right := Weight w' u; mm_bias := None; mm_transpose := false |} [x'] = 
       Some y' /\
       sh y = [s; p] /\
       wft y /\
       sh y' = [S'; pad_minimum p] /\
       wft y' /\
       agrees zero y y' /\
       (forall i j : nat, i < S' -> p <= j < pad_minimum p -> entry zero y' [i; j] = zero) /\
       (padded_with zero x [S'; N] x' -> padded_with zero y [S'; pad_minimum p] y')).
Proof. exact @matmul_input_weight. Qed.
Print Assumptions C28_input_weight.

Example C28_ex_input_weight : let w := mkTen [3; 2] [1; 2; 3; 4; 5; 6]%Z in let mm := mkMM Input (Weight w [3; 2]) None false in
  matmul_op 0%Z Z.add Z.mul mm [mkTen [1; 3] [1; 1; 1]%Z] = Some (mkTen [1; 2] [9; 12]%Z) /\
  (r <- pad_matmul 0%Z mm [mkSd [2; 4] None [1; 3]] ;; matmul_op 0%Z Z.add Z.mul (fst r) [mkTen [2; 4] [1; 1; 1; 50; 1; 0; 0; 60]%Z]) =
    Some (mkTen [2; 4] [9; 12; 0; 0; 1; 2; 0; 0]%Z).
Proof. cbv zeta. split; vm_compute; reflexivity. Qed.

(** With a bias: the original entries and the extra columns are right; the extra rows of a zero-padded input hold the bias. *)
Theorem C28_input_weight_bias :
  forall (A : Type) (zero : A) (add mul : A -> A -> A),
  (forall x : A, add x zero = x) ->
  (forall x : A, mul zero x = zero) ->
  (forall a : A, mul a zero = zero) ->
  forall (w : ten A) (n p N s S' : nat) (b : ten A),
  wft w ->
  sh w = [n; p] ->
  0 < n ->
  0 < p ->
  n <= N ->
  s <= S' ->
  wft b ->
  sh b = [p] ->
  exists w' b' : ten A,
    pad_matmul zero
      {| mm_left := Input; mm_right := Weight w [n; p]; mm_bias := Some b; mm_transpose := false |}
      [{| sd_padded := [S'; N]; sd_garbage := None; sd_og := [s; n] |}] =
    Some
      ({| mm_left := Input; mm_right := Weight w' [n; p]; mm_bias := Some b'; mm_transpose := false |},
       {| sd_padded := [S'; pad_minimum p]; sd_garbage := None; sd_og := [s; p] |}) /\
    (forall x x' : ten A,
     wft x ->
     sh x = [s; n] ->
     wft x' ->
     sh x' = [S'; N] ->
     agrees zero x x' ->
     exists y y' : ten A,
       matmul_op zero add mul
         {| mm_left := Input; mm_right := Weight w [n; p]; mm_bias := Some b; mm_transpose := false |} [x] =
       Some y /\
       matmul_op zero add mul
         {| mm_left := Input; mm_right := Weight w' [n; p]; mm_bias := Some b'; mm_transpose := false |} [x'] =
       Some y' /\
       sh y = [s; p] /\
       wft y /\
       sh y' = [S'; pad_minimum p] /\
       wft y' /\
       agrees zero y y' /\
       (forall i j : nat, i < S' -> p <= j < pad_minimum p -> entry zero y' [i; j] = zero) /\
       (padded_with zero x [S'; N] x' ->
        forall i j : nat, s <= i < S' -> j < p -> entry zero y' [i; j] = add zero (entry zero b [j]))).
Proof. exact @matmul_input_weight_bias. Qed.
Print Assumptions C28_input_weight_bias.

(** So with a bias the product of a zero-padded input is not zero-padded. *)
Theorem C28_bias_refuted : exists mm mm' sd (x x' y y' : ten Z),
  pad_matmul 0%Z mm [sd_new [3; 2]] = Some (mm', sd) /\ sh x = [3; 2] /\ wft x /\ pad_next_power_of_two 0%Z x = Some x' /\
  matmul_op 0%Z Z.add Z.mul mm [x] = Some y /\ matmul_op 0%Z Z.add Z.mul mm' [x'] = Some y' /\
  ~ padded_with 0%Z y (sd_padded sd) y'.
Proof.
  exists (mkMM Input (Weight (mkTen [2; 1] [1; 1]%Z) [2; 1]) (Some (mkTen [1] [8]%Z)) false). do 2 eexists.
  exists (mkTen [3; 2] [1; 2; 3; 4; 5; 6]%Z). do 3 eexists. split; [vm_compute; reflexivity|]. split; [reflexivity|]. split; [reflexivity|].
  split; [vm_compute; reflexivity|]. split; [vm_compute; reflexivity|]. split; [vm_compute; reflexivity|].
  intros (_ & _ & H). specialize (H [3; 0]). cbn [sd_padded sh] in H. destruct H as [_ H]; [repeat constructor|].
  assert (E : entry 0%Z (mkTen [4; 4] [11; 0; 0; 0; 15; 0; 0; 0; 19; 0; 0; 0; 8; 0; 0; 0]%Z) [3; 0] = 0%Z) by (apply H; rewrite inb2; lia).
  vm_compute in E. discriminate.
Qed.
Print Assumptions C28_bias_refuted.

(** Weight times input. *)
Theorem C28_weight_input :
  forall (A : Type) (zero : A) (add mul : A -> A -> A),
  (forall x : A, add x zero = x) ->
  (forall x : A, mul zero x = zero) ->
  (forall a : A, mul a zero = zero) ->
  forall (w : ten A) (n m N q Q : nat),
  wft w ->
  sh w = [m; n] ->
  0 < n ->
  0 < m ->
  n <= N ->
  q <= Q ->
  exists w' : ten A,
    pad_matmul zero {| mm_left := Weight w [m; n]; mm_right := Input; mm_bias := None; mm_transpose := false |}
      [{| sd_padded := [N; Q]; sd_garbage := None; sd_og := [n; q] |}] =
    Some
      ({| mm_left := Weight w' [m; n]; mm_right := Input; mm_bias := None; mm_transpose := false |},
       {| sd_padded := [pad_minimum m; Q]; sd_garbage := None; sd_og := [m; q] |}) /\
    (forall x x' : ten A,
     wft x ->
     sh x = [n; q] ->
     wft x' ->
     sh x' = [N; Q] ->
     agrees zero x x' ->
     exists y y' : ten A,
       matmul_op zero add mul
         {| mm_left := Weight w [m; n]; mm_right := Input; mm_bias := None; mm_transpose := false |} [x] =
       Some y /\
       matmul_op zero add mul
         {| mm_left := Weight w' [m; n]; mm_right := Input; mm_bias := None; mm_transpose := false |} [x'] =
       Some y' /\
       sh y = [m; q] /\
       wft y /\
       sh y' = [pad_minimum m; Q] /\
       wft y' /\
       agrees zero y y' /\
       (forall i j : nat, m <= i < pad_minimum m -> j < Q -> entry zero y' [i; j] = zero) /\
       (padded_with zero x [N; Q] x' -> padded_with zero y [pad_minimum m; Q] y')).
Proof. exact @matmul_weight_input. Qed.
Print Assumptions C28_weight_input.

(** Input times input, the second possibly transposed: right on the original entries when the first has zeros in its extra columns, which the preceding theorems provide. *)
Theorem C28_input_input :
  forall (A : Type) (zero : A) (add mul : A -> A -> A),
  (forall x : A, add x zero = x) ->
  (forall x : A, mul zero x = zero) ->
  (forall a : A, mul a zero = zero) ->
  forall (tr : bool) (m n p M N P : nat),
  0 < n ->
  m <= M ->
  n <= N ->
  p <= P ->
  let mm := {| mm_left := Input; mm_right := Input; mm_bias := None; mm_transpose := tr |} in
  let r := if tr then [p; n] else [n; p] in
  let r' := if tr then [P; N] else [N; P] in
  pad_matmul zero mm
    [{| sd_padded := [M; N]; sd_garbage := None; sd_og := [m; n] |};
     {| sd_padded := r'; sd_garbage := None; sd_og := r |}] =
  Some (mm, {| sd_padded := [M; P]; sd_garbage := None; sd_og := [m; p] |}) /\
  (forall x x' z z' : ten A,
   wft x ->
   sh x = [m; n] ->
   wft x' ->
   sh x' = [M; N] ->
   wft z ->
   sh z = r ->
   wft z' ->
   sh z' = r' ->
   agrees zero x x' ->
   agrees zero z z' ->
   (forall i k : nat, i < m -> n <= k < N -> entry zero x' [i; k] = zero) ->
   exists y y' : ten A,
     matmul_op zero add mul mm [x; z] = Some y /\
     matmul_op zero add mul mm [x'; z'] = Some y' /\
     sh y = [m; p] /\
     wft y /\
     sh y' = [M; P] /\
     wft y' /\
     agrees zero y y' /\
     (padded_with zero x [M; N] x' -> padded_with zero z r' z' -> padded_with zero y [M; P] y')).
Proof. exact @matmul_input_input. Qed.
Print Assumptions C28_input_input.

(** Without those zeros the original entries are wrong: garbage on both sides of the inner dimension. *)
Theorem C28_input_input_garbage_refuted : exists (x x' z z' y y' : ten Z),
  let mm := mkMM Input Input None false in
  sh x = [1; 1] /\ sh z = [1; 1] /\ sh x' = [1; 2] /\ sh z' = [2; 1] /\ agrees 0%Z x x' /\ agrees 0%Z z z' /\
  matmul_op 0%Z Z.add Z.mul mm [x; z] = Some y /\ matmul_op 0%Z Z.add Z.mul mm [x'; z'] = Some y' /\ ~ agrees 0%Z y y'.
Proof.
  exists (mkTen [1; 1] [2]%Z), (mkTen [1; 2] [2; 5]%Z), (mkTen [1; 1] [3]%Z), (mkTen [2; 1] [3; 7]%Z). do 2 eexists. cbv zeta.
  do 4 (split; [reflexivity|]).
  assert (G : forall idx, inb [1; 1] idx -> idx = [0; 0]).
  { intros idx I. apply inb2_inv in I as (i & j & -> & Hi & Hj). f_equal; [lia|f_equal; lia]. }
  split; [intros idx I; apply G in I as ->; reflexivity|]. split; [intros idx I; apply G in I as ->; reflexivity|].
  split; [vm_compute; reflexivity|]. split; [vm_compute; reflexivity|].
  intros H. specialize (H [0; 0]). assert (E : entry 0%Z (mkTen [1; 1] [41]%Z) [0; 0] = entry 0%Z (mkTen [1; 1] [6]%Z) [0; 0]) by (apply H; repeat constructor).
  vm_compute in E. discriminate.
Qed.
Print Assumptions C28_input_input_garbage_refuted.
(** A transposed weight matrix: padding fails although the layer is valid, because the matrix is fitted to the shape of
    its transpose. *)
Theorem C28_transposed_weight_refuted : exists (w x y : ten Z),
  let mm := mkMM Input (Weight w (sh w)) None true in
  wft w /\ sh w = [5; 3] /\ sh x = [1; 3] /\ matmul_op 0%Z Z.add Z.mul mm [x] = Some y /\ pad_matmul 0%Z mm [sd_new [1; 3]] = None.
Proof.
  exists (mkTen [5; 3] [1; 2; 3; 4; 5; 6; 7; 8; 9; 10; 11; 12; 13; 14; 15]%Z), (mkTen [1; 3] [1; 1; 1]%Z). eexists. cbv zeta.
  split; [reflexivity|]. split; [reflexivity|]. split; [reflexivity|]. split; vm_compute; reflexivity.
Qed.
Print Assumptions C28_transposed_weight_refuted.

(** The projection after multi-head attention ignores the garbage of padded heads and of the padding inside each head. *)
Theorem C28_after_mha :
  forall (A : Type) (zero : A) (add mul : A -> A -> A),
  (forall x : A, add x zero = x) ->
  (forall a : A, mul a zero = zero) ->
  forall (w : ten A) (nh hd pnh phd p s S' s0 s0' : nat),
  wft w ->
  sh w = [nh * hd; p] ->
  0 < nh ->
  0 < hd ->
  0 < p ->
  nh <= pnh ->
  hd <= phd ->
  s <= S' ->
  let mm := {| mm_left := Input; mm_right := Weight w [nh * hd; p]; mm_bias := None; mm_transpose := false |} in
  exists w' : ten A,
    pad_matmul zero mm
      [{|
         sd_padded := [S'; pnh * phd];
         sd_garbage := Some (GMha [s0; nh; hd] [s0'; pnh; phd]);
         sd_og := [s; nh * hd]
       |}] =
    Some
      ({| mm_left := Input; mm_right := Weight w' [nh * hd; p]; mm_bias := None; mm_transpose := false |},
       {| sd_padded := [S'; pad_minimum p]; sd_garbage := None; sd_og := [s; p] |}) /\
    (forall x x' : ten A,
     wft x ->
     sh x = [s; nh * hd] ->
     wft x' ->
     sh x' = [S'; pnh * phd] ->
     (forall i a b : nat,
      i < s -> a < nh -> b < hd -> entry zero x' [i; a * phd + b] = entry zero x [i; a * hd + b]) ->
     exists y y' : ten A,
       matmul_op zero add mul mm [x] = Some y /\
       matmul_op zero add mul
         {| mm_left := Input; mm_right := Weight w' [nh * hd; p]; mm_bias := None; mm_transpose := false |} [x'] =
       Some y' /\
       sh y = [s; p] /\
       wft y /\
       sh y' = [S'; pad_minimum p] /\
       wft y' /\
       agrees zero y y' /\ (forall i j : nat, i < S' -> p <= j < pad_minimum p -> entry zero y' [i; j] = zero)).
Proof. exact @matmul_after_mha. Qed.
Print Assumptions C28_after_mha.

Example C28_ex_mha : let w := mkTen [2; 1] [1; 2]%Z in let mm := mkMM Input (Weight w [2; 1]) None false in
  (r <- pad_matmul 0%Z mm [mkSd [1; 4] (Some (GMha [1; 2; 1] [1; 2; 2])) [1; 2]] ;;
   matmul_op 0%Z Z.add Z.mul (fst r) [mkTen [1; 4] [3; 99; 4; 99]%Z]) = Some (mkTen [1; 4] [11; 0; 0; 0]%Z) /\
  matmul_op 0%Z Z.add Z.mul mm [mkTen [1; 2] [3; 4]%Z] = Some (mkTen [1; 1] [11]%Z).
Proof. cbv zeta. split; vm_compute; reflexivity. Qed.

(** QKV projections: the columns of each head are found in the padded head, everything else is zero. *)
Theorem C28_qkv :
  forall (A : Type) (zero : A) (add mul : A -> A -> A),
  (forall x : A, add x zero = x) ->
  (forall a : A, mul a zero = zero) ->
  forall (w b : ten A) (n nh hd dim1 s S' : nat),
  wft w ->
  sh w = [n; nh * hd] ->
  wft b ->
  sh b = [nh * hd] ->
  0 < n ->
  0 < nh ->
  0 < hd ->
  n <= dim1 ->
  is_pow2 dim1 = true ->
  4 <= dim1 ->
  s <= S' ->
  let ph := pad_minimum nh in
  let pd := pad_minimum hd in
  exists w' b' : ten A,
    pad_qkv_weight zero w nh hd dim1 = Some w' /\
    pad_qkv_bias zero b nh hd = Some b' /\
    (forall x x' : ten A,
     wft x ->
     sh x = [s; n] ->
     wft x' ->
     sh x' = [S'; dim1] ->
     agrees zero x x' ->
     exists y y' : ten A,
       qkv_eval zero add mul w b x = Some y /\
       qkv_eval zero add mul w' b' x' = Some y' /\
       sh y = [s; nh * hd] /\
       wft y /\
       sh y' = [S'; ph * pd] /\
       wft y' /\
       (forall i h e : nat,
        i < s -> h < nh -> e < hd -> entry zero y' [i; h * pd + e] = entry zero y [i; h * hd + e]) /\
       (forall i h e : nat,
        i < S' -> h < ph -> e < pd -> ~ (h < nh /\ e < hd) -> entry zero y' [i; h * pd + e] = zero)).
Proof. exact @qkv_padded. Qed.
Print Assumptions C28_qkv.

Example C28_ex_qkv : let w := mkTen [2; 2] [1; 2; 3; 4]%Z in let b := mkTen [2] [10; 20]%Z in
  qkv_eval 0%Z Z.add Z.mul w b (mkTen [1; 2] [1; 1]%Z) = Some (mkTen [1; 2] [14; 26]%Z) /\
  (w' <- pad_qkv_weight 0%Z w 2 1 4 ;; b' <- pad_qkv_bias 0%Z b 2 1 ;; qkv_eval 0%Z Z.add Z.mul w' b' (mkTen [1; 4] [1; 1; 9; 9]%Z)) =
    Some (mkTen [1; 16] [14; 0; 0; 0; 26; 0; 0; 0; 0; 0; 0; 0; 0; 0; 0; 0]%Z).
Proof. cbv zeta. split; vm_compute; reflexivity. Qed.

