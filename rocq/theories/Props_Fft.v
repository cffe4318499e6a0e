(** Property theorems C32: the FFT is the discrete Fourier transform, and the convolution layer computed through it is
    the direct convolution.  Statements only.  [gen] is the generator of the 2^32-th roots of unity (its 2^31-th power is
    -1), [dft w n a j] is the sum of [a t * w^(j t)] for t < n, [root_of gen m] is [gen^(2^(32-m))], [emb]/[unemb] stand
    for [to_field]/[to_element].  [direct x f ci k o r c] is the sum over j < ci, p < k, q < k of
    [x[j, r+p, c+q] * f[o, j, p, q]].  Integers are unbounded here: i64 overflow is outside the model. *)
From Coq Require Import List Arith Lia Bool ZArith.
From Verif Require Import ListAux FieldDef FpInst FpGold M_Mle M_Tensor P_Tensor P_Tensor2 P_Tensor3 P_Tensor4 M_Pool P_Pad M_Quant M_Fft P_Fft P_Fft2 P_Fft3 P_Fft4.
Import ListNotations.

(** The in-place iterative FFT computes the discrete Fourier transform, for every length 2^m with 1 <= m <= 32. *)
Theorem C32_fft_is_dft :
  forall (K : field) (gen : K),
  fpow gen (2 ^ 31) = (- (1))%F ->
  forall (m : nat) (v : list K),
  1 <= m <= 32 ->
  length v = 2 ^ m ->
  exists r : list K,
    fft gen false v = Some r /\
    length r = 2 ^ m /\
    (forall j : nat, j < 2 ^ m -> nth j r 0%F = dft (root_of gen m) (2 ^ m) (fun t : nat => nth t v 0%F) j).
Proof. exact @fft_forward. Qed.
Print Assumptions C32_fft_is_dft.

Example C32_ex_gen : fpow gold_gen (2 ^ 31) = fopp (f1 : Fgold) /\ fadd f1 f1 <> (f0 : Fgold).
Proof. split; [exact gold_gen_root|exact gold_char2]. Qed.
Definition gz (l : list Z) : list Fgold := map (mkFp gold) l.
Example C32_ex_fft : option_map (map (fpv gold)) (fft gold_gen false (gz [1; 2; 3; 4]%Z)) =
  Some [10; 18446181119461163007; 18446744069414584319; 562949953421310]%Z.
Proof. vm_compute. reflexivity. Qed.

(** The same routine with the flag set computes the inverse transform. *)
Theorem C32_inverse :
  forall (K : field) (gen : K),
  fpow gen (2 ^ 31) = (- (1))%F ->
  (1 + 1)%F <> (0%F : K) ->
  forall (m : nat) (v : list K),
  1 <= m <= 32 ->
  length v = 2 ^ m ->
  exists r : list K,
    fft gen true v = Some r /\
    length r = 2 ^ m /\
    (forall j : nat,
     j < 2 ^ m -> nth j r 0%F = (dft (/ root_of gen m) (2 ^ m) (fun t : nat => nth t v 0) j * / fnat (2 ^ m))%F).
Proof. exact @fft_backward. Qed.
Print Assumptions C32_inverse.

(** The inverse undoes the transform. *)
Theorem C32_round_trip :
  forall (K : field) (gen : K),
  fpow gen (2 ^ 31) = (- (1))%F ->
  (1 + 1)%F <> (0%F : K) ->
  forall (m : nat) (v r : list K),
  1 <= m <= 32 -> length v = 2 ^ m -> fft gen false v = Some r -> fft gen true r = Some v.
Proof. exact @fft_round_trip. Qed.
Print Assumptions C32_round_trip.

Example C32_ex_round_trip : (r <- fft gold_gen false (gz [1; 2; 3; 4]%Z) ;; u <- fft gold_gen true r ;; Some (map (fpv gold) u)) = Some [1; 2; 3; 4]%Z.
Proof. vm_compute. reflexivity. Qed.

(** Multiplying transforms pointwise and transforming back gives the cyclic convolution. *)
Theorem C32_cyclic :
  forall (K : field) (gen : K),
  fpow gen (2 ^ 31) = (- (1))%F ->
  (1 + 1)%F <> (0%F : K) ->
  forall (m : nat) (a b : nat -> K) (p : nat),
  m <= 32 ->
  p < 2 ^ m ->
  (dft (/ root_of gen m) (2 ^ m)
     (fun j : nat => dft (root_of gen m) (2 ^ m) a j * dft (root_of gen m) (2 ^ m) b j) p * 
   / fnat (2 ^ m))%F =
  sumn (2 ^ m)
    (fun s : nat =>
     sumn (2 ^ m) (fun t : nat => if (s + t =? p) || (s + t =? p + 2 ^ m) then (a s * b t)%F else 0%F)).
Proof. exact @conv_theorem. Qed.
Print Assumptions C32_cyclic.

(** The direct convolution (stride 1) is the textbook sum at every position. *)
Theorem C32_direct :
  forall (x f b : ten Z) (co ci h k : nat),
  wft x ->
  sh x = [ci; h; h] ->
  wft f ->
  sh f = [co; ci; k; k] ->
  wft b ->
  sh b = [co] ->
  k <= h ->
  exists d : ten Z,
    conv2d 0%Z Z.add Z.mul x f b 1 = Some d /\
    sh d = [1; co; h - k + 1; h - k + 1] /\
    wft d /\
    (forall o r c : nat,
     o < co ->
     r < h - k + 1 -> c < h - k + 1 -> entry 0%Z d [0; o; r; c] = (direct x f ci k o r c + nth o (dat b) 0)%Z).
Proof. exact @conv2d_ok. Qed.
Print Assumptions C32_direct.

(** The padded convolution layer, for any shape hint that makes the filter grid as large as the padded input, on any padded input (garbage allowed in its padding positions): the direct convolution inside the unpadded region and zero outside, whenever the sums survive the embedding. *)
Theorem C32_layer :
  forall (K : field) (gen : K),
  fpow gen (2 ^ 31) = (- (1))%F ->
  (1 + 1)%F <> (0%F : K) ->
  forall (emb : Z -> K) (unemb : K -> Z),
  emb 0%Z = 0%F ->
  (forall a b : Z, emb (a + b)%Z = (emb a + emb b)%F) ->
  (forall a b : Z, emb (a * b)%Z = (emb a * emb b)%F) ->
  forall (f b x x' d : ten Z) (og s : list nat) (co ci k h l s1 : nat),
  let n := npow2 h in
  let out := h - k + 1 in
  wft f ->
  sh f = [co; ci; k; k] ->
  wft b ->
  sh b = [co] ->
  wft x ->
  sh x = [ci; h; h] ->
  0 < co ->
  0 < ci ->
  0 < k <= h ->
  n = 2 ^ l ->
  2 * l + 1 <= 32 ->
  wft x' ->
  sh x' = [npow2 ci; n; n] ->
  agrees 0%Z x x' ->
  nth_error s 1 = Some s1 ->
  npow2 k <= npow2 s1 ->
  npow2 (npow2 s1 - npow2 k + 1) = n ->
  conv2d 0%Z Z.add Z.mul x f b 1 = Some d ->
  (forall o r c : nat,
   o < co ->
   r < out ->
   c < out ->
   unemb (emb (entry 0 d [0%nat; o; r; c] - nth o (dat b) 0)%Z) =
   (entry 0 d [0%nat; o; r; c] - nth o (dat b) 0)%Z) ->
  exists (c' : conv) (t : ten Z),
    into_padded_and_ffted {| cv_filter := f; cv_og := og; cv_bias := b; cv_unpadded := sh f |} s = Some c' /\
    conv_op gen emb unemb c' x' (sh x) = Some t /\
    sh t = [npow2 co; n; n] /\
    wft t /\
    (forall o r c : nat,
     inb (sh t) [o; r; c] ->
     entry 0%Z t [o; r; c] = (if (o <? co) && (r <? out) && (c <? out) then entry 0%Z d [0; o; r; c] else 0%Z)).
Proof. exact @conv_layer. Qed.
Print Assumptions C32_layer.

(** The layer built by [pad_conv], and the shapes it announces, when the output needs the same padded side as the input and the kernel leaves room. *)
Theorem C32_pad_conv :
  forall (K : field) (gen : K),
  fpow gen (2 ^ 31) = (- (1))%F ->
  (1 + 1)%F <> (0%F : K) ->
  forall (emb : Z -> K) (unemb : K -> Z),
  emb 0%Z = 0%F ->
  (forall a b : Z, emb (a + b)%Z = (emb a + emb b)%F) ->
  (forall a b : Z, emb (a * b)%Z = (emb a * emb b)%F) ->
  forall (f b x x' d : ten Z) (og : list nat) (co ci k h l : nat),
  let n := npow2 h in
  let out := h - k + 1 in
  wft f ->
  sh f = [co; ci; k; k] ->
  wft b ->
  sh b = [co] ->
  wft x ->
  sh x = [ci; h; h] ->
  0 < co ->
  0 < ci ->
  0 < k <= h ->
  n = 2 ^ l ->
  2 * l + 1 <= 32 ->
  npow2 out = n ->
  k = 1 \/ 2 * npow2 k <= n ->
  wft x' ->
  sh x' = [npow2 ci; n; n] ->
  agrees 0%Z x x' ->
  conv2d 0%Z Z.add Z.mul x f b 1 = Some d ->
  (forall o r c : nat,
   o < co ->
   r < out ->
   c < out ->
   unemb (emb (entry 0 d [0%nat; o; r; c] - nth o (dat b) 0)%Z) =
   (entry 0 d [0%nat; o; r; c] - nth o (dat b) 0)%Z) ->
  exists (c' : conv) (t : ten Z),
    pad_conv {| cv_filter := f; cv_og := og; cv_bias := b; cv_unpadded := sh f |} (sh x) (sh x') =
    Some (c', (skipn 1 (sh d), sh t)) /\
    conv_op gen emb unemb c' x' (sh x) = Some t /\
    sh t = [npow2 co; n; n] /\
    wft t /\
    (forall o r c : nat,
     inb (sh t) [o; r; c] ->
     entry 0%Z t [o; r; c] = (if (o <? co) && (r <? out) && (c <? out) then entry 0%Z d [0; o; r; c] else 0%Z)).
Proof. exact @pad_conv_layer. Qed.
Print Assumptions C32_pad_conv.

(** The same for Goldilocks and the code's own embedding, with an explicit bound on the entries. *)
Theorem C32_goldilocks :
  forall (f b x x' d : ten Z) (og : list nat) (co ci k h l : nat) (X W : Z),
  let n := npow2 h in
  let out := h - k + 1 in
  wft f ->
  sh f = [co; ci; k; k] ->
  wft b ->
  sh b = [co] ->
  wft x ->
  sh x = [ci; h; h] ->
  0 < co ->
  0 < ci ->
  0 < k <= h ->
  n = 2 ^ l ->
  2 * l + 1 <= 32 ->
  npow2 out = n ->
  k = 1 \/ 2 * npow2 k <= n ->
  wft x' ->
  sh x' = [npow2 ci; n; n] ->
  agrees 0%Z x x' ->
  (forall v : Z, In v (dat x) -> (Z.abs v <= X)%Z) ->
  (forall v : Z, In v (dat f) -> (Z.abs v <= W)%Z) ->
  (Z.of_nat (ci * k * k) * (X * W) <= 2 ^ 63 - 2 ^ 31)%Z ->
  conv2d 0%Z Z.add Z.mul x f b 1 = Some d ->
  exists (c' : conv) (t : ten Z),
    pad_conv {| cv_filter := f; cv_og := og; cv_bias := b; cv_unpadded := sh f |} (sh x) (sh x') =
    Some (c', (skipn 1 (sh d), sh t)) /\
    conv_op gold_gen (to_field gold) (to_element gold) c' x' (sh x) = Some t /\
    sh t = [npow2 co; n; n] /\
    wft t /\
    (forall o r c : nat,
     inb (sh t) [o; r; c] ->
     entry 0%Z t [o; r; c] = (if (o <? co) && (r <? out) && (c <? out) then entry 0%Z d [0; o; r; c] else 0%Z)).
Proof. exact @gold_conv_layer. Qed.
Print Assumptions C32_goldilocks.

Definition exf : ten Z := mkTen [1; 1; 2; 2] [1; -2; 3; 4]%Z.
Definition exb : ten Z := mkTen [1] [100]%Z.
Definition exx : ten Z := mkTen [1; 4; 4] [1; 2; 3; 4; 5; 6; 7; 8; 9; 10; 11; 12; -13; -14; -15; -16]%Z.
Example C32_ex_layer : wft exf /\ wft exb /\ wft exx /\ npow2 4 = 2 ^ 2 /\ npow2 (4 - 2 + 1) = npow2 4 /\ 2 * npow2 2 <= npow2 4 /\
  (r <- pad_conv (mkConv exf [] exb (sh exf)) (sh exx) (sh exx) ;;
   conv_op gold_gen (to_field gold) (to_element gold) (fst r) exx (sh exx)) =
    Some (mkTen [1; 4; 4] [136; 142; 148; 0; 160; 166; 172; 0; -6; -14; -22; 0; 0; 0; 0; 0]%Z) /\
  conv2d 0%Z Z.add Z.mul exx exf exb 1 = Some (mkTen [1; 1; 3; 3] [136; 142; 148; 160; 166; 172; -6; -14; -22]%Z).
Proof. do 5 (split; [reflexivity|]). split; [cbn; lia|]. split; vm_compute; reflexivity. Qed.
(** A three by three input in a four by four padded tensor with garbage. *)
Example C32_ex_garbage : let x := mkTen [1; 3; 3] [1; 2; 3; 4; 5; 6; 7; 8; 9]%Z in
  let x' := mkTen [1; 4; 4] [1; 2; 3; 71; 4; 5; 6; 72; 7; 8; 9; 73; 74; 75; 76; 77]%Z in
  let f := mkTen [1; 1; 1; 1] [2]%Z in
  agrees 0%Z x x' /\
  (r <- pad_conv (mkConv f [] exb (sh f)) (sh x) (sh x') ;; conv_op gold_gen (to_field gold) (to_element gold) (fst r) x' (sh x)) =
    Some (mkTen [1; 4; 4] [102; 104; 106; 0; 108; 110; 112; 0; 114; 116; 118; 0; 0; 0; 0; 0]%Z).
Proof.
  cbv zeta. split; [|vm_compute; reflexivity]. intros idx H. cbn [sh] in H.
  apply inb3_inv in H as (i & j & k & -> & Hi & Hj & Hk). assert (i = 0) by lia. subst.
  destruct j as [|[|[|]]]; try lia; destruct k as [|[|[|]]]; try lia; reflexivity.
Qed.

(** A filter grid smaller than the padded input makes the convolution fail on every input (index out of range). *)
Theorem C32_small_grid_fails :
  forall (K : field) (gen : K),
  fpow gen (2 ^ 31) = (- (1))%F ->
  (1 + 1)%F <> (0%F : K) ->
  forall (emb : Z -> K) (unemb : K -> Z) (f x : ten Z) (og : list nat) (kw a x1 : nat),
  nth_error (sh f) 0 = Some kw ->
  0 < kw ->
  nth_error (sh f) 2 = Some (2 ^ a) ->
  nth_error (sh x) 1 = Some x1 -> 2 ^ a < npow2 x1 -> fft_conv gen emb unemb f og x = None.
Proof. exact @fft_conv_small. Qed.
Print Assumptions C32_small_grid_fails.

(** [pad_conv] sizes the filter grid from the output shape of the convolution instead of its input shape: in every case not covered by [C32_pad_conv] padding panics or the padded layer fails on every input. *)
Theorem C32_pad_conv_fails :
  forall (K : field) (gen : K),
  fpow gen (2 ^ 31) = (- (1))%F ->
  (1 + 1)%F <> (0%F : K) ->
  forall (emb : Z -> K) (unemb : K -> Z) (f b : ten Z) (og : list nat) (co ci k h : nat),
  wft f ->
  sh f = [co; ci; k; k] ->
  wft b ->
  sh b = [co] ->
  0 < co ->
  0 < ci ->
  0 < k <= h ->
  ~ (npow2 (h - k + 1) = npow2 h /\ (k = 1 \/ 2 * npow2 k <= npow2 h)) ->
  match
    pad_conv {| cv_filter := f; cv_og := og; cv_bias := b; cv_unpadded := sh f |} [ci; h; h]
      [npow2 ci; npow2 h; npow2 h]
  with
  | Some (c', _) =>
      forall (x' : ten Z) (us : list nat),
      sh x' = [npow2 ci; npow2 h; npow2 h] -> conv_op gen emb unemb c' x' us = None
  | None => True
  end.
Proof. exact @pad_conv_fails. Qed.
Print Assumptions C32_pad_conv_fails.

(** A legal layer, 10 x 10 input and 3 x 3 kernel, which the unpadded model evaluates and the padded one never does. *)
Theorem C32_pad_conv_refuted : exists f b x d c' s,
  wft f /\ sh f = [1; 1; 3; 3] /\ wft b /\ sh b = [1] /\ wft x /\ sh x = [1; 10; 10] /\
  conv2d 0%Z Z.add Z.mul x f b 1 = Some d /\
  pad_conv (mkConv f [] b (sh f)) [1; 10; 10] [1; 16; 16] = Some (c', s) /\
  forall x' us, sh x' = [1; 16; 16] -> conv_op gold_gen (to_field gold) (to_element gold) c' x' us = None.
Proof.
  pose (f := mkTen [1; 1; 3; 3] (repeat 1%Z 9)). pose (b := mkTen [1] [0%Z]). pose (x := mkTen [1; 10; 10] (repeat 1%Z 100)).
  pose proof (C32_pad_conv_fails Fgold gold_gen gold_gen_root gold_char2 (to_field gold) (to_element gold) f b [] 1 1 3 10 eq_refl eq_refl eq_refl eq_refl
    ltac:(lia) ltac:(lia) ltac:(lia)) as H.
  assert (N : ~ (npow2 (10 - 3 + 1) = npow2 10 /\ (3 = 1 \/ 2 * npow2 3 <= npow2 10))) by (intros [E _]; vm_compute in E; discriminate).
  specialize (H N). change (npow2 1) with 1 in H. change (npow2 10) with 16 in H.
  destruct (pad_conv (mkConv f [] b (sh f)) [1; 10; 10] [1; 16; 16]) as [[c' s]|] eqn:E; [|vm_compute in E; discriminate].
  exists f, b, x. eexists. exists c', s. do 6 (split; [reflexivity|]). split; [vm_compute; reflexivity|]. split; [exact E|exact H].
Qed.
Print Assumptions C32_pad_conv_refuted.
(** Twelve by twelve with a 5 x 5 kernel fails as well, and 10 x 10 with 7 x 7 already panics in the padding. *)
Example C32_ex_sizes : npow2 (12 - 5 + 1) <> npow2 12 /\
  pad_conv (mkConv (mkTen [1; 1; 7; 7] (repeat 1%Z 49)) [] (mkTen [1] [0%Z]) [1; 1; 7; 7]) [1; 10; 10] [1; 16; 16] = None.
Proof. split; [vm_compute; discriminate|vm_compute; reflexivity]. Qed.

