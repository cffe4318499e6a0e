(** C01-C04: multilinear extensions and equality tables.

    Specification vocabulary (MleMath.v): [mle l pt] is
    sum_b l[b] * prod_i (pt_i if bit i of b else 1 - pt_i); [bpt n b] is the boolean point with the
    little-endian bits of [b]; [eqw b r] the product weight; [multi_affine n f]: [f] is affine in
    each of its [n] arguments.  [built m n l]: [m] was built from the table [l] by
    from_evaluations_vec or from_evaluations_ext_vec. [valid_sched]: every chunk task of every
    parallel round is run exactly once, in any order. *)
From Coq Require Import List Arith Lia Bool ZArith Permutation.
From Verif Require Import ListAux FieldDef FpInst PolyList MleMath M_Mle P_Mle P_Eq.
Import ListNotations.
Local Open Scope F_scope.

(** ** C01 *)
Theorem C01_evaluate_is_mle : forall (K : field) sched (m : dmle K) n l pt,
  built m n l -> length pt = n -> valid_sched n sched ->
  evaluate sched m pt = Some (sumn (2 ^ n) (fun b => nth b l 0 *
     prodn n (fun i => if Nat.testbit b i then nth i pt 0 else 1 - nth i pt 0))).
Proof. exact @evaluate_formula. Qed.
Print Assumptions C01_evaluate_is_mle.

Theorem C01_boolean_point : forall (K : field) sched (m : dmle K) n l b,
  built m n l -> valid_sched n sched -> b < 2 ^ n ->
  evaluate sched m (bpt n b) = Some (nth b l 0).
Proof. exact @evaluate_bool. Qed.
Print Assumptions C01_boolean_point.

Theorem C01_unique : forall (K : field) sched (m : dmle K) n l (f : list K -> K),
  built m n l -> valid_sched n sched -> multi_affine n f ->
  (forall b, b < 2 ^ n -> f (bpt n b) = nth b l 0) ->
  forall pt, length pt = n -> evaluate sched m pt = Some (f pt).
Proof. exact @evaluate_unique. Qed.
Print Assumptions C01_unique.

(** A table is accepted exactly when it has 2^n entries; a point of the wrong length panics. *)
Theorem C01_built_iff : forall (K : field) n (l : list K), (exists m, built m n l) <-> length l = 2 ^ n.
Proof. exact @built_iff. Qed.
Theorem C01_point_length : forall (K : field) sched (m : dmle K) pt,
  num_vars m <> length pt -> evaluate sched m pt = None.
Proof. exact @evaluate_wrong_len. Qed.
Print Assumptions C01_point_length.

Definition ex_tbl : list F101 := q_list [3; 1; 4; 1; 5; 9; 2; 6]%Z.
Definition ex_mle : dmle F101 := mkMle (Base ex_tbl) 3.
Example C01_ex_built : built ex_mle 3 ex_tbl /\ valid_sched 3 (rev_sched 3).
Proof. split; [left; reflexivity | apply rev_sched_valid]. Qed.
Example C01_ex : option_map (@fpv 101) (evaluate (rev_sched 3) ex_mle (q_list [2; 10; 7]%Z)) = Some 48%Z
  /\ option_map (@fpv 101) (evaluate (rev_sched 3) ex_mle (q_list [1; 0; 1]%Z)) = Some 9%Z.
Proof. vm_compute. auto. Qed.

(** ** C02 *)
Theorem C02_fix_low_then_evaluate : forall (K : field) s1 s2 (m : dmle K) n l pp rest,
  built m n l -> length (pp ++ rest) = n -> valid_sched n s1 -> valid_sched (length rest) s2 ->
  exists m', fix_variables m pp = Some m' /\ evaluate s2 m' rest = evaluate s1 m (pp ++ rest).
Proof. exact @fix_low_api. Qed.
Print Assumptions C02_fix_low_then_evaluate.

Theorem C02_fix_high_then_evaluate : forall (K : field) s1 s2 (m : dmle K) n l pp rest,
  built m n l -> length (rest ++ pp) = n -> valid_sched n s1 -> valid_sched (length rest) s2 ->
  exists m', fix_high_variables m pp = Some m' /\ evaluate s2 m' rest = evaluate s1 m (rest ++ pp).
Proof. exact @fix_high_api. Qed.
Print Assumptions C02_fix_high_then_evaluate.

(** In-place, parallel and in-place-parallel variants give the same result as the copying ones,
    under every task order. *)
Theorem C02_variants_agree : forall (K : field) (m : dmle K) n l p pp s1 s2,
  built m n l -> length (p :: pp) <= n -> valid_sched n s1 -> valid_ip_sched m s2 ->
  fix_variables_in_place m (p :: pp) = fix_variables m (p :: pp) /\
  fix_variables_parallel s1 m (p :: pp) = fix_variables m (p :: pp) /\
  fix_variables_in_place_parallel s2 m (p :: pp) = fix_variables m (p :: pp) /\
  fix_high_variables_in_place m (p :: pp) = fix_high_variables m (p :: pp).
Proof. exact @variants_agree. Qed.
Print Assumptions C02_variants_agree.

(** The excluded case: on a base-field table and an empty partial point the copying variant is the
    identity but the in-place one panics. *)
Theorem C02_in_place_base_empty_refuted : exists (m : dmle F101) n l,
  built m n l /\ fix_variables m [] = Some m /\ fix_variables_in_place m [] = None.
Proof. exact (ex_intro _ ex_mle (ex_intro _ 3%nat (ex_intro _ ex_tbl (conj (or_introl eq_refl) (conj eq_refl eq_refl))))). Qed.
Print Assumptions C02_in_place_base_empty_refuted.

Definition show (o : option (dmle F101)) : option (list Z * nat) :=
  match o with
  | Some m => match op_slice m with Some l => Some (map (@fpv 101) l, num_vars m) | None => None end
  | None => None
  end.
Example C02_ex :
  show (fix_variables ex_mle (q_list [2; 10]%Z)) = Some ([90; 84]%Z, 1%nat) /\
  show (fix_variables_in_place_parallel (fun _ => [1; 0]%nat) ex_mle (q_list [2; 10]%Z)) = Some ([90; 84]%Z, 1%nat) /\
  show (fix_high_variables ex_mle (q_list [10; 7]%Z)) = Some ([50; 49]%Z, 1%nat).
Proof. vm_compute. auto. Qed.
Example C02_ex_sched : valid_ip_sched ex_mle (fun _ => [1; 0]%nat).
Proof. exact (fun _ => perm_swap 0%nat 1%nat []). Qed.

(** ** C03 *)
Theorem C03_eq_table_sequential : forall (K : field) (r : list K),
  exists t, build_eq_seq r = Some t /\ length t = 2 ^ length r /\
    forall b, b < 2 ^ length r -> eq_eval (bpt (length r) b) r = Some (nth b t 0).
Proof. exact @eq_table_api. Qed.
Print Assumptions C03_eq_table_sequential.

Theorem C03_builders_agree : forall (K : field) nbits (r : list K),
  build_eq_par nbits r = build_eq_seq r /\ build_eq_seq r = Some (compute_betas_eval r).
Proof. exact @builders_api. Qed.
Print Assumptions C03_builders_agree.

(** Inner product with the table = evaluation of the table's MLE. *)
Theorem C03_inner_product : forall (K : field) (l r : list K), length l = 2 ^ length r ->
  fsum (map (fun '(a, b) => a * b) (combine l (compute_betas_eval r))) = mle l r.
Proof. exact @inner_product_api. Qed.
Print Assumptions C03_inner_product.

Theorem C03_eq_eval_symmetric : forall (K : field) (x y : list K), length x = length y ->
  eq_eval x y = eq_eval y x.
Proof. exact @eq_eval_sym_api. Qed.
Theorem C03_eq_eval_boolean : forall (K : field) n i j, i < 2 ^ n -> j < 2 ^ n ->
  @eq_eval K (bpt n i) (bpt n j) = Some (if Nat.eqb i j then 1 else 0).
Proof. exact @eq_eval_bool_api. Qed.
Theorem C03_identity_eval : forall (K : field) (x y : list K), length x = length y ->
  eq_eval x y = Some (identity_eval x y).
Proof. exact @identity_eval_api. Qed.
Print Assumptions C03_eq_eval_boolean.

(** identity_eval silently truncates to the shorter point, where eq_eval panics: two points of
    different lengths can be "equal". *)
Theorem C03_identity_eval_truncates_refuted : exists (x y : list F101),
  x <> y /\ identity_eval x y = 1 /\ eq_eval x y = None.
Proof.
  exists (bpt 2 3), (bpt 1 1). split; [intros E; discriminate (f_equal (@length _) E)|].
  split; [apply Fp_eq; vm_compute; reflexivity | reflexivity].
Qed.
Print Assumptions C03_identity_eval_truncates_refuted.

Theorem C03_aggregated_rlc : forall (K : field) splits (cl ch : list K), length cl = length ch ->
  aggregated_rlc splits cl ch = Some (fsum (map (fun '(c, r) => c * r) (combine cl ch))).
Proof. exact @aggregated_rlc_spec. Qed.

Example C03_ex : option_map (map (@fpv 101)) (build_eq_par 1 (q_list [2; 10; 7]%Z))
  = option_map (map (@fpv 101)) (build_eq_seq (q_list [2; 10; 7]%Z)) /\
  option_map (map (@fpv 101)) (build_eq_seq (q_list [2; 10; 7]%Z)) = Some [47; 7; 60; 82; 63; 76; 31; 39]%Z.
Proof. vm_compute. auto. Qed.

(** ** C04 *)
(** Fixing variables of a non-empty partial point honours the range. *)
Theorem C04_ranged_fix : forall (K : field) (m : dmle K) n l k idx r pp,
  built m n l -> k < n -> idx < 2 ^ k -> get_ranged_mle m (2 ^ k) idx = Some r ->
  length pp = (n - k)%nat ->
  let sl := firstn (2 ^ (n - k)) (skipn (2 ^ (n - k) * idx) l) in
  ranged_fix_variables r pp = Some (mkMle (Ext [mle sl pp]) 0) /\
  ranged_fix_high_variables r pp = Some (mkMle (Ext [mle sl pp]) 0).
Proof. exact @ranged_full. Qed.
Print Assumptions C04_ranged_fix.

(** ... for partial points as well: the result is the dense table of the sliced values with the
    variables fixed. *)
Theorem C04_ranged_fix_partial_point : forall (K : field) (m : dmle K) n l k idx r pp,
  built m n l -> k <= n -> idx < 2 ^ k -> get_ranged_mle m (2 ^ k) idx = Some r ->
  pp <> [] -> length pp <= n - k ->
  let sl := firstn (2 ^ (n - k)) (skipn (2 ^ (n - k) * idx) l) in
  rnum_vars r = (n - k)%nat /\
  ranged_fix_variables r pp = Some (mkMle (Ext (low_table (n - k) sl pp)) (n - k - length pp)) /\
  ranged_fix_high_variables r pp = Some (mkMle (Ext (high_table (n - k) sl pp)) (n - k - length pp)).
Proof. exact @ranged_fix_low. Qed.
Print Assumptions C04_ranged_fix_partial_point.

(** The full claim of C04 ("evaluating a ranged view at a point of its own arity gives the extension of the
    range") is false: [evaluate] delegates to the whole table, so a point of the view's arity
    panics, and the view accepts a point of the inner arity and ignores the range. *)
Theorem C04_ranged_evaluate_refuted : exists (m : dmle F101) r pt pt_full,
  built m 3 ex_tbl /\ get_ranged_mle m 2 1 = Some r /\
  rnum_vars r = 2%nat /\ length pt = 2%nat /\ ranged_evaluate (seq_sched 3) r pt = None /\
  ranged_evaluate (seq_sched 3) r pt_full = evaluate (seq_sched 3) m pt_full /\ length pt_full = 3%nat /\
  ranged_fix_variables r [] = Some m.
Proof.
  exact (ex_intro _ ex_mle (ex_intro _ (mkRanged ex_mle 4 4 2) (ex_intro _ (q_list [5; 6]%Z)
   (ex_intro _ (q_list [5; 6; 7]%Z) (conj (or_introl eq_refl) (conj eq_refl (conj eq_refl (conj eq_refl
     (conj eq_refl (conj eq_refl (conj eq_refl eq_refl))))))))))).
Qed.
Print Assumptions C04_ranged_evaluate_refuted.
Example C04_ex : show (match get_ranged_mle ex_mle 2 1 with Some r => ranged_fix_variables r (q_list [2; 10]%Z) | None => None end)
  = Some ([84]%Z, 0%nat).
Proof. vm_compute. reflexivity. Qed.
