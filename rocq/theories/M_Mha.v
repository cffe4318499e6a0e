(** Model of multi-head attention: zkml/src/layers/transformer/mha.rs, the integer evaluation, the prover and the verifier,
    which call the batched matrix product twice and the softmax layer once.  Only padded shapes are computed (the unpadded
    ones are not used by the checks modelled here).  Commitments are opaque. *)
From Coq Require Import List Arith Lia Bool ZArith.
From Verif Require Import ListAux FieldDef M_Mle M_Sumcheck M_ScParallel M_SamePoly M_LogUp M_Tensor M_Layers M_Sop M_LayerNorm M_Softmax.
Import ListNotations.

(** mha.rs:151-154 and 164-168 [Mha::new]: the two batched products. *)
Definition qk_perm : cperm := mkCperm (mkDims 1 2 0) (mkDims 1 2 0) None.
Definition fm_perm : cperm := mkCperm (mkDims 0 2 1) (mkDims 1 0 2) (Some [1; 0; 2]).

(** [Vec::splice] with the range [lo..hi]: panics outside the vector. *)
Definition splice (lo hi : nat) (add s : list nat) : option (list nat) :=
  if (lo <=? hi) && (hi <=? length s) then Some (firstn lo s ++ add ++ skipn hi s) else None.
(** reshape.rs:105-138 [internal_output] of [Reshape::Subspace] for one shape. *)
Definition subspace (lo hi : nat) (add s : list nat) : option (list nat) :=
  n <- splice lo hi add s ;; if sprod n =? sprod s then Some n else None.
(** reshape.rs:141-155 [evaluate_layer] for one tensor. *)
Definition subspace_eval {A} (lo hi : nat) (add : list nat) (t : ten A) : option (ten A) :=
  n <- subspace lo hi add (sh t) ;; reshape t n.
(** tensor.rs:2160-2162 [Shape::permute]. *)
Definition shape_permute (o s : list nat) : option (list nat) := omapM (fun i => nth_error s i) o.
Definition shape_maybe_permute (p : option (list nat)) (s : list nat) : option (list nat) :=
  match p with Some o => shape_permute o s | None => Some s end.
(** concat_matmul.rs:207-237 [output_shapes] with [PaddingMode::Padding]. *)
Definition concat_shape (p : cperm) (sa sb : list nat) : option (list nat) :=
  _ <- shapes_consistent p sa sb ;;
  pa <- compute_permutation (cp_left p) expected_left ;; a <- shape_maybe_permute pa sa ;;
  pb <- compute_permutation (cp_right p) expected_right ;; b <- shape_maybe_permute pb sb ;;
  d0 <- nth_error a 0 ;; d1 <- nth_error a 1 ;; d2 <- nth_error b 2 ;;
  shape_maybe_permute (cp_permute p) (map npow2 [d0; d1; d2]).

(** mha.rs:223-297 [evaluate_with_intermediate_outputs] on integers and 339-363 [evaluate]: the output of the first product,
    the softmax data, its output, the output of the second product and the result. *)
Definition mha_evaluate (expf : Z -> Z) (lse : list Z -> Z) (c : sm_ctx) (nh hd : nat) (q k v : ten Z)
  : option (ten Z * (list Z * list Z * list sm_cell) * ten Z * ten Z * ten Z) :=
  q' <- subspace_eval 1 2 [nh; hd] q ;; k' <- subspace_eval 1 2 [nh; hd] k ;; v' <- subspace_eval 1 2 [nh; hd] v ;;
  s <- concat_eval 0%Z Z.add Z.mul qk_perm q' k' ;;
  e <- sm_evaluate expf lse c (sh s) (dat s) ;;
  let o := mkTen (sh s) (map ce_out (snd e)) in
  y <- concat_eval 0%Z Z.add Z.mul fm_perm o v' ;;
  out <- subspace_eval 1 3 [nh * hd] y ;;
  Some (s, e, o, y, out).

Section Mha.
Context {K : field} {C : Type}.
Local Open Scope F_scope.

(** mha.rs:124-128 [MhaProof]. *)
Record mha_proof := mkMhp { mhp_final : @concat_proof K; mhp_softmax : @sm_proof K C; mhp_qk : @concat_proof K }.

(** mha.rs:767-847 [verify]: the claims about the committed columns, the claims about queries, keys and values, the
    transcript.  [nvf], [nvq]: numbers of variables in the contexts of the two products; [nh], [hd]: the heads' number and
    dimension in the reshape; [sq], [sk], [sv]: the padded input shapes. *)
Definition mha_verify (T : hist -> K) (c : sm_ctx) (ce cr cx cz : K * K) (nvf nvq nh hd : nat) (sq sk sv : list nat) (last : claim) (pf : mha_proof) (h : hist)
  : option (list (C * claim) * list claim * hist) :=
  rq <- subspace 1 2 (map npow2 [nh; hd]) sq ;; rk <- subspace 1 2 (map npow2 [nh; hd]) sk ;; rv <- subspace 1 2 (map npow2 [nh; hd]) sv ;;
  so <- concat_shape qk_perm rq rk ;;
  sf <- concat_shape fm_perm so rv ;;
  r1 <- concat_verify T nvf fm_perm so rv sf last (mhp_final pf) h ;;
  match fst r1 with
  | [cs; cv] =>
      r2 <- sm_verify T c ce cr cx cz so cs (mhp_softmax pf) (snd r1) ;;
      let '(wit, nc, h2) := r2 in
      r3 <- concat_verify T nvq qk_perm rq rk so nc (mhp_qk pf) h2 ;;
      Some (wit, fst r3 ++ [cv], snd r3)
  | _ => None
  end.

(** mha.rs:633-723 [prove]: [q], [k], [v] the inputs; [s], [o], [y] from the evaluation; then the softmax columns of
    [sm_prove].  The schedules of the two products: rounds, and fixing of the left and right table. *)
Definition mha_prove (T : hist -> K) (ncpus : nat)
    (scf : nat -> rsched) (flf frf : nat -> list nat)
    (sc : nat -> nat -> nat -> rsched) (es : nat -> nat -> list nat) (sca scm : nat -> rsched) (esh : nat -> list nat)
    (scq : nat -> rsched) (flq frq : nat -> list nat)
    (nz : nat) (ce cr cx cz : K * K) (nh hd : nat) (q k v s o y : ten K)
    (cin cout lo hi : list K) (zcols : list (list K)) (sums shift shifted tril bias : list K) (comms : list C)
    (last : claim) (h : hist) : option (list (C * claim) * list claim * mha_proof * hist) :=
  q' <- subspace_eval 1 2 [nh; hd] q ;; k' <- subspace_eval 1 2 [nh; hd] k ;; v' <- subspace_eval 1 2 [nh; hd] v ;;
  r1 <- concat_prove T ncpus scf flf frf fm_perm o v' y last h ;;
  let '(cl1, pf1, h1) := r1 in
  match cl1 with
  | [cs; cv] =>
      r2 <- sm_prove T ncpus sc es sca scm esh nz ce cr cx cz cin cout lo hi zcols sums shift shifted tril bias comms cs h1 ;;
      let '(wit, nc, pf2, h2) := r2 in
      r3 <- concat_prove T ncpus scq flq frq qk_perm q' k' s nc h2 ;;
      let '(cl3, pf3, h3) := r3 in
      if (length cl3 =? 2)%nat then Some (wit, cl3 ++ [cv], mkMhp pf1 pf2 pf3, h3) else None
  | _ => None
  end.
End Mha.
