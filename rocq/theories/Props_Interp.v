(** C05-C06: interpolation, batch inversion and barycentric extrapolation.

    Specification vocabulary: [peval c x] evaluates the polynomial with coefficient list [c]
    (lowest degree first); [char_gt K n]: 1, .., n are non-zero in [K]. *)
From Coq Require Import List Arith Lia Bool ZArith.
From Verif Require Import ListAux FieldDef FpInst PolyList M_Mle M_Interp P_Interp.
Import ListNotations.
Local Open Scope F_scope.

(** ** C05 *)
Theorem C05_interpolation_exact : forall (K : field) (c p_i : list K) x y,
  p_i <> [] -> char_gt K (length p_i - 1) -> length c <= length p_i ->
  (forall k, k < length p_i -> nth k p_i 0 = peval c (fnat k)) ->
  interpolate_uni_poly p_i x = Some y -> y = peval c x.
Proof. exact @interpolate_exact. Qed.
Print Assumptions C05_interpolation_exact.

Theorem C05_panics_exactly_on_nodes : forall (K : field) (p_i : list K) x,
  p_i <> [] -> char_gt K (length p_i - 1) ->
  (interpolate_uni_poly p_i x = None <-> exists i, i < length p_i /\ x = fnat i).
Proof. exact @interpolate_panics_iff. Qed.
Print Assumptions C05_panics_exactly_on_nodes.

Theorem C05_empty_panics : forall (K : field) (x : K), interpolate_uni_poly [] x = None.
Proof. exact @interpolate_empty. Qed.

(** 2 + 3x + 5x^2 + x^3 at 0..3 over F101, interpolated at 40 and at the node 3. *)
Definition ex_poly : list F101 := q_list [2; 3; 5; 1]%Z.
Definition ex_evals : list F101 := q_list [2; 11; 36; 83]%Z.
Example C05_ex_hyp : ex_evals <> [] /\ char_gt F101 (length ex_evals - 1) /\
  length ex_poly <= length ex_evals /\
  (forall k, k < length ex_evals -> nth k ex_evals 0 = peval ex_poly (fnat k)).
Proof.
  split; [discriminate|]. split; [|split; [auto|]].
  - apply Fp_char. reflexivity.
  - change (length ex_evals) with 4%nat. intros k Hk.
    destruct k as [|[|[|[|k]]]]; try lia; apply Fp_eq; vm_compute; reflexivity.
Qed.
Example C05_ex : option_map (@fpv 101) (interpolate_uni_poly ex_evals (q 40)) = Some (fpv 101 (peval ex_poly (q 40)))
  /\ interpolate_uni_poly ex_evals (q 3) = None.
Proof. vm_compute. auto. Qed.

(** ** C06 *)
Theorem C06_batch_inversion : forall (K : field) ncpus v (coeff : K), 0 < ncpus ->
  exists w, batch_inversion_and_mul ncpus v coeff = Some w /\
            serial_batch_inversion_and_mul v coeff = Some w /\ length w = length v /\
    forall i, i < length v -> (nth i v 0 = 0 -> nth i w 0 = 0) /\
                              (nth i v 0 <> 0 -> nth i w 0 * nth i v 0 = coeff).
Proof. exact @batch_inversion_entry. Qed.
Print Assumptions C06_batch_inversion.

Theorem C06_extrapolation_exact : forall (K : field) par ncpus (c points evals : list K) x,
  NoDup points -> points <> [] -> length evals = length points -> 0 < ncpus ->
  (forall n, par = Some n -> 0 < n) -> length c <= length points ->
  (forall k, k < length points -> nth k evals 0 = peval c (nth k points 0)) ->
  ~ In x points ->
  exists ws, barycentric_weights ncpus points = Some ws /\
             inner_extrapolate par points ws evals x = Some (peval c x).
Proof. exact @extrapolate_exact. Qed.
Print Assumptions C06_extrapolation_exact.

(** The restriction to non-nodes is necessary: at a node the code silently returns another value
    (the line through (0,5), (1,9) evaluated at 0 gives 9). *)
Theorem C06_extrapolation_at_node_refuted :
  exists (points evals c : list F101) ws x y, NoDup points /\ In x points /\
    (forall k, k < length points -> nth k evals 0 = peval c (nth k points 0)) /\
    length c <= length points /\
    barycentric_weights 4 points = Some ws /\ inner_extrapolate None points ws evals x = Some y /\
    fpv 101 y <> fpv 101 (peval c x).
Proof.
  exists (q_list [0; 1]%Z), (q_list [5; 9]%Z), (q_list [5; 4]%Z). eexists. exists (q 0). eexists.
  split; [|split; [|split; [|split; [|split; [|split]]]]].
  - repeat constructor; simpl; intros H; repeat destruct H as [H|H]; auto;
      apply (f_equal (@fpv 101)) in H; vm_compute in H; discriminate.
  - left. apply Fp_eq. reflexivity.
  - intros [|[|k]] Hk; [apply Fp_eq; vm_compute; reflexivity..|]. simpl in Hk. lia.
  - simpl. lia.
  - reflexivity.
  - reflexivity.
  - vm_compute. discriminate.
Qed.
Print Assumptions C06_extrapolation_at_node_refuted.

Example C06_ex : option_map (map (@fpv 101)) (batch_inversion_and_mul 3 (q_list [2; 0; 5; 7; 0; 3; 1]%Z) (q 4))
   = Some [2; 0; 21; 15; 0; 35; 4]%Z.
Proof. vm_compute. auto. Qed.
Example C06_ex2 : exists ws, barycentric_weights 2 (q_list [0; 1; 2; 3]%Z : list F101) = Some ws /\
   option_map (@fpv 101) (inner_extrapolate (Some 2%nat) (q_list [0; 1; 2; 3]%Z) ws ex_evals (q 4)) = Some (fpv 101 (peval ex_poly (q 4))).
Proof. eexists. split; [reflexivity|]. vm_compute. reflexivity. Qed.
