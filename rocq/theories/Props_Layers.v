(** Property theorems C34 (dense layer), C35 (matrix products) and the entry-wise product used by C37.  Statements only.
    [claim_true l c] says that the evaluation of claim [c] is that of the multilinear extension of [l] at its point.
    [affine], [linear], [matprod], [batched] and [entrywise] are the textbook sums, [root_event] (P_ScApi) says that a
    challenge of this run is a root of an explicit non-zero polynomial of small degree fixed before it was drawn. *)
From Coq Require Import List Arith Lia Bool ZArith Permutation.
From Verif Require Import ListAux FieldDef FpInst MleMath M_Mle P_Mle M_Sumcheck M_ScParallel P_ScProve2 P_ScParallel P_ScApi M_SamePoly M_Tensor P_Tensor P_Tensor3 M_Pad P_Pad M_Layers P_Layers P_Layers2 P_Layers3 P_Layers4 P_Layers5.
Import ListNotations.

Definition lay_T (h : @hist F101) : F101 := q (10 + Z.of_nat (length h)).
Definition lay_sc (k : nat) : rsched := mkRs (fun i => seq 0 (2 ^ (1 - (k - 1)) / 2)) (fun i => PLeaf (evens (2 ^ (1 - k)))) (PLeaf [0%nat]).
Definition lay_T10 (h : @hist F101) : F101 := q 10.
Lemma obind_some {A B} (x : option A) (f : A -> option B) a y : x = Some a -> f a = y -> obind x f = y.
Proof. intros -> <-. reflexivity. Qed.
Lemma if_true {A} (b : bool) (x y z : A) : b = true -> x = y -> (if b then x else z) = y.
Proof. intros -> <-. reflexivity. Qed.
Ltac vcbn := cbn -[verify virtual_claim identity_eval mle feqb q].
Ltac vrun := vcbn; eapply obind_some; [reflexivity|cbv beta iota]; vcbn;
  repeat (eapply if_true; [vm_compute; reflexivity|]; vcbn); reflexivity.
Ltac f101 := apply (Fp_eq 101); vm_compute; reflexivity.
Ltac ctrue := split; [reflexivity|f101].
Ltac noroot := intros (i & Hi & _ & _ & H); assert (i = 0) by lia; subst i; apply (f_equal (fpv 101)) in H; vm_compute in H; discriminate.

(** Soundness of the dense layer, for proofs with exactly two evaluations (the verifier does not check that, see [C34_extra_claim]). *)
Theorem C34_sound_partial :
  forall (K : field) (T : hist -> K) (a b : nat) (mat bias x y : list K) (last : claim) 
    (pf : dense_proof) (h : hist) (c : claim) (com : list (poly_id * claim)) (h' : hist),
  char_gt K 2 ->
  0 < b ->
  affine a b mat bias x y ->
  dense_verify T b last pf h = Some (c, com, h') ->
  length (dp_claims pf) = 2 ->
  (forall w : claim, In (WeightPoly, w) com -> claim_true mat w) ->
  (forall w : claim, In (BiasPoly, w) com -> claim_true bias w) ->
  claim_true x c ->
  claim_true y last \/
  root_event T b 2 (prodf [fun pt : list K => mle mat (pt ++ cl_point last); mle x]) h (dp_sumcheck pf).
Proof. exact @dense_sound. Qed.
Print Assumptions C34_sound_partial.

(** Honest proofs are produced, carry two evaluations, give true claims, and are accepted unless a challenge hits one of the three interpolation nodes. *)
Theorem C34_complete :
  forall (K : field) (T : hist -> K) (ncpus : nat) (scs : nat -> rsched) (es : nat -> list nat) 
    (d : dense) (a b : nat) (x : list K) (input output : ten K) (last : claim) (h : hist),
  0 < ncpus ->
  char_gt K 2 ->
  0 < b ->
  sh (d_mat d) = [2 ^ a; 2 ^ b] ->
  dat input = x ->
  affine a b (dat (d_mat d)) (dat (d_bias d)) x (dat output) ->
  claim_true (dat output) last ->
  valid_sched a es ->
  (forall i : nat, i < b -> valid_rsched (K := K) (prod_shape 2 b) i (scs i)) ->
  exists (c : claim) (com : list (poly_id * claim)) (pf : dense_proof) (h' : hist),
    dense_prove T ncpus scs es d input output last h = Some (c, com, pf, h') /\
    dense_ctx d = Some b /\
    length (dp_claims pf) = 2 /\
    length (cl_point c) = b /\
    claim_true x c /\
    (forall w : claim, In (WeightPoly, w) com -> claim_true (dat (d_mat d)) w) /\
    (forall w : claim, In (BiasPoly, w) com -> claim_true (dat (d_bias d)) w) /\
    ((forall r : K, In r (cl_point c) -> not_node 2 r) -> dense_verify T b last pf h = Some (c, com, h')).
Proof. exact @dense_complete. Qed.
Print Assumptions C34_complete.

Definition ex_d : dense (A := F101) := mkDense (mkTen [2; 2] (q_list [1; 2; 3; 4]%Z)) (mkTen [2] (q_list [5; 6]%Z)).
Definition ex_x := q_list [7; 8]%Z.
Definition ex_y := q_list [28; 59]%Z.
Definition ex_last : @claim F101 := mkClaim [q 9] (mle ex_y [q 9]).
Example C34_ex_hyps : affine 1 1 (dat (d_mat ex_d)) (dat (d_bias ex_d)) ex_x ex_y /\ claim_true ex_y ex_last /\
  (forall i, i < 1 -> valid_rsched (K := F101) (prod_shape 2 1) i (lay_sc i)).
Proof.
  split; [|split].
  - do 4 (split; [reflexivity|]). intros [|[|i]] Hi; [f101|f101|cbn in Hi; lia].
  - split; reflexivity.
  - intros [|i] Hi; [|lia]; constructor; try (intros; lia); try apply Permutation_refl;
      intros [|q0] Hq Hk; try (cbn in Hq; lia); apply Permutation_refl.
Qed.
Example C34_ex_run :
  match dense_prove lay_T 2 lay_sc (fun _ => [0]) ex_d (mkTen [2] ex_x) (mkTen [2] ex_y) ex_last [] with
  | Some (_, _, pf, _) => match dense_verify lay_T 1 ex_last pf [] with
      | Some (c, com, _) => fpv 101 (cl_eval c) = fpv 101 (mle ex_x (cl_point c)) /\ map (fpv 101) (cl_point c) = [16]%Z /\ length com = 2
      | None => False end
  | None => False end.
Proof. vm_compute. repeat split; reflexivity. Qed.

(** The integer layer computes, after the embedding in the field, the affine map of the statements above. *)
Theorem C34_evaluate :
  forall (K : field) (d : dense) (a b : nat) (x : ten Z),
  sh (d_mat d) = [2 ^ a; 2 ^ b] ->
  wft (d_mat d) ->
  sh (d_bias d) = [2 ^ a] ->
  wft (d_bias d) ->
  sh x = [2 ^ b] ->
  wft x ->
  exists y : ten Z,
    dense_eval 0%Z Z.add Z.mul d x = Some y /\
    affine (K := K) a b (embed (dat (d_mat d))) (embed (dat (d_bias d))) (embed (dat x)) (embed (dat y)).
Proof. exact @dense_integer. Qed.
Print Assumptions C34_evaluate.

Example C34_ex_evaluate : dense_eval 0%Z Z.add Z.mul (mkDense (mkTen [2; 2] [1; 2; 3; 4]%Z) (mkTen [2] [5; 6]%Z)) (mkTen [2] [7; 8]%Z)
  = Some (mkTen [2] [28; 59]%Z).
Proof. reflexivity. Qed.

(** Without the length check the layer proves nothing: a third evaluation absorbs any discrepancy, so that every output claim, true or not, is accepted with true claims about weights, bias and input. *)
Theorem C34_extra_claim :
  forall (K : field) (T : hist -> K) (a b : nat) (mat bias x : list K) (last : claim) (h : hist),
  char_gt K 2 ->
  0 < b ->
  length mat = 2 ^ (a + b) ->
  length bias = 2 ^ a ->
  length x = 2 ^ b ->
  length (cl_point last) = a ->
  let sc := {| pf_point := []; pf_proofs := bogus_messages T (cl_eval last - mle bias (cl_point last)) b 2 h |}
    in
  let rs := sc_point T b 2 h sc in
  (forall r : K, In r rs -> not_node 2 r) ->
  mle mat (rs ++ cl_point last) <> 0%F ->
  mle x rs <> 0%F ->
  exists (pf : dense_proof) (c : claim) (com : list (poly_id * claim)) (h' : hist),
    dense_verify T b last pf h = Some (c, com, h') /\
    claim_true x c /\
    (forall w : claim, In (WeightPoly, w) com -> claim_true mat w) /\
    (forall w : claim, In (BiasPoly, w) com -> claim_true bias w).
Proof. exact @dense_forge. Qed.
Print Assumptions C34_extra_claim.

Theorem C34_extra_claim_refuted : exists (T : @hist F101 -> F101) mat bias x y last pf c com h',
  affine 1 1 mat bias x y /\ dense_verify T 1 last pf [] = Some (c, com, h') /\
  (forall w, In (WeightPoly, w) com -> claim_true mat w) /\ (forall w, In (BiasPoly, w) com -> claim_true bias w) /\ claim_true x c /\
  cl_eval last <> mle y (cl_point last) /\
  ~ root_event T 1 2 (prodf [(fun pt => mle mat (pt ++ cl_point last)); mle x]) [] (dp_sumcheck pf).
Proof.
  exists lay_T10, (dat (d_mat ex_d)), (dat (d_bias ex_d)), ex_x, ex_y, (mkClaim [q 9] (q 5)),
    (mkDp (mkProof [] [q_list [-9; 0; 9]%Z]) (q 14) (q_list [29; 17; 69]%Z)), (mkClaim [q 10] (q 17)),
    [(WeightPoly, mkClaim [q 10; q 9] (q 29)); (BiasPoly, mkClaim [q 9] (q 14))].
  eexists. split; [exact (proj1 C34_ex_hyps)|]. split; [unfold dense_verify; vrun|].
  split; [intros w [E|[E|[]]]; [|apply (f_equal fst) in E; discriminate E]; apply (f_equal snd) in E; cbn [snd] in E; subst w; ctrue|].
  split; [intros w [E|[E|[]]]; [apply (f_equal fst) in E; discriminate E|]; apply (f_equal snd) in E; cbn [snd] in E; subst w; ctrue|].
  split; [ctrue|]. split; [apply feqb_false; vm_compute; reflexivity|]. noroot.
Qed.
Print Assumptions C34_extra_claim_refuted.

(** Soundness of the matrix product, plain and transposed, with or without bias, whichever factors are inputs, for proofs with exactly two evaluations (not checked by the verifier). *)
Theorem C35_matmul_sound_partial :
  forall (K : field) (T : hist -> K) (c : matmul_ctx) (m k n : nat) (L R : list K) (bias : option (list K))
    (Y : list K) (last : claim) (pf : matmul_proof) (h : hist) (out : list claim) (com : list (poly_id * claim))
    (h' : hist),
  char_gt K 2 ->
  0 < k ->
  matprod (mc_transposed c) m k n L R bias Y ->
  mc_nv c = k ->
  mc_out_vars c = (m, n) ->
  mc_bias c = true <-> bias <> None ->
  matmul_verify T c last pf h = Some (out, com, h') ->
  length (mp_claims pf) = 2 ->
  Forall2 claim_true (factors (mc_left_const c) (mc_right_const c) L R) out ->
  (forall w : claim, In (MatrixPoly, w) com -> claim_true (weight_of (mc_left_const c) L R) w) ->
  (forall (w : claim) (b : list K), bias = Some b -> In (BiasPoly, w) com -> claim_true b w) ->
  claim_true Y last \/
  root_event T k 2
    (prodf
       [fun pt : list K => mle L (pt ++ skipn n (cl_point last));
        fun pt : list K => mle R (right_point (mc_transposed c) pt (firstn n (cl_point last)))]) h
    (mp_sumcheck pf).
Proof. exact @matmul_sound. Qed.
Print Assumptions C35_matmul_sound_partial.

(** Honest matrix product proofs. *)
Theorem C35_matmul_complete :
  forall (K : field) (T : hist -> K) (ncpus : nat) (scs : nat -> rsched) (es : nat -> list nat)
    (mm : matmul_layer) (inputs : list (ten K)) (lt0 rt : ten K) (lc rc : bool) (m k n : nat) 
    (output : ten K) (last : claim) (h : hist),
  0 < ncpus ->
  char_gt K 2 ->
  0 < k ->
  wired mm inputs lt0 rt lc rc ->
  sh lt0 = [2 ^ m; 2 ^ k] ->
  sh rt = right_shape (mm_transpose mm) k n ->
  sh output = [2 ^ m; 2 ^ n] ->
  matprod (mm_transpose mm) m k n (dat lt0) (dat rt) (option_map dat (mm_bias mm)) (dat output) ->
  claim_true (dat output) last ->
  valid_sched n es ->
  (forall i : nat, i < k -> valid_rsched (K := K) (prod_shape 2 k) i (scs i)) ->
  exists (out : list claim) (com : list (poly_id * claim)) (pf : matmul_proof) (h' : hist) 
  (c : matmul_ctx),
    matmul_prove T ncpus scs es mm inputs output last h = Some (out, com, pf, h') /\
    matmul_mk_ctx mm (sh lt0) (sh rt) = Some c /\
    length (mp_claims pf) = 2 /\
    Forall2 claim_true (map dat inputs) out /\
    (forall w : claim, In (MatrixPoly, w) com -> claim_true (weight_of lc (dat lt0) (dat rt)) w) /\
    (forall (w : claim) (b : ten K), mm_bias mm = Some b -> In (BiasPoly, w) com -> claim_true (dat b) w) /\
    ((forall r : K, In r (pf_point (mp_sumcheck pf)) -> not_node 2 r) ->
     matmul_verify T c last pf h = Some (out, com, h')).
Proof. exact @matmul_complete. Qed.
Print Assumptions C35_matmul_complete.

Definition ex_l : ten F101 := mkTen [2; 2] (q_list [1; 2; 3; 4]%Z).
Definition ex_r : ten F101 := mkTen [2; 2] (q_list [5; 6; 7; 8]%Z).
Definition ex_mm : matmul_layer (A := F101) := mkMM Input (Weight ex_r [2; 2]) (Some (mkTen [2] (q_list [10; 20]%Z))) true.
(** [1 2; 3 4] times the transpose of [5 6; 7 8], plus bias [10 20]. *)
Definition ex_o : ten F101 := mkTen [2; 2] (q_list [27; 43; 49; 73]%Z).
Definition ex_last2 : @claim F101 := mkClaim [q 9; q 30] (mle (dat ex_o) [q 9; q 30]).
Example C35_ex_hyps : wired ex_mm [ex_l] ex_l ex_r false true /\ sh ex_r = right_shape true 1 1 /\
  matprod true 1 1 1 (dat ex_l) (dat ex_r) (option_map dat (mm_bias ex_mm)) (dat ex_o) /\ claim_true (dat ex_o) ex_last2.
Proof.
  split; [apply (w_right ex_mm ex_l ex_r [2; 2]); reflexivity|]. split; [reflexivity|]. split; [|split; reflexivity].
  do 2 (split; [reflexivity|]). split; [reflexivity|]. split; [reflexivity|].
  intros [|[|i]] [|[|j]] Hi Hj; try (cbn in Hi; cbn in Hj; lia); f101.
Qed.
Example C35_ex_run :
  match matmul_prove lay_T 2 lay_sc (fun _ => [0]) ex_mm [ex_l] ex_o ex_last2 [], matmul_mk_ctx ex_mm (sh ex_l) (sh ex_r) with
  | Some (_, _, pf, _), Some c => match matmul_verify lay_T c ex_last2 pf [] with
      | Some ([c], com, _) => fpv 101 (cl_eval c) = fpv 101 (mle (dat ex_l) (cl_point c)) /\ length com = 2
      | _ => False end
  | _, _ => False end.
Proof. vm_compute. repeat split; reflexivity. Qed.

(** The integer matrix product computes, after the embedding, the product of the statements above. *)
Theorem C35_matmul_evaluate :
  forall (K : field) (mm : matmul_layer) (inputs : list (ten Z)) (lt rt : ten Z) (m k n : nat),
  wired_z mm inputs lt rt ->
  wft lt ->
  wft rt ->
  sh lt = [2 ^ m; 2 ^ k] ->
  sh rt = right_shape (mm_transpose mm) k n ->
  (forall b : ten Z, mm_bias mm = Some b -> wft b /\ sh b = [2 ^ n]) ->
  exists y : ten Z,
    matmul_op 0%Z Z.add Z.mul mm inputs = Some y /\
    sh y = [2 ^ m; 2 ^ n] /\
    matprod (K := K) (mm_transpose mm) m k n (embed (dat lt)) (embed (dat rt))
      (option_map (fun b : ten Z => embed (dat b)) (mm_bias mm)) (embed (dat y)).
Proof. exact @matmul_integer. Qed.
Print Assumptions C35_matmul_evaluate.

(** Without the length check every output claim of a product of two inputs is accepted with true input claims. *)
Theorem C35_matmul_extra_claim :
  forall (K : field) (T : hist -> K) (tr : bool) (m k n : nat) (L R : list K) (last : claim) (h : hist),
  char_gt K 2 ->
  0 < k ->
  length L = 2 ^ (m + k) ->
  length R = 2 ^ (k + n) ->
  length (cl_point last) = m + n ->
  let sc := {| pf_point := []; pf_proofs := bogus_messages T (cl_eval last) k 2 h |} in
  let rs := sc_point T k 2 h sc in
  (forall r : K, In r rs -> not_node 2 r) ->
  mle L (rs ++ skipn n (cl_point last)) <> 0%F ->
  mle R (right_point tr rs (firstn n (cl_point last))) <> 0%F ->
  exists (pf : matmul_proof) (out : list claim) (h' : hist),
    matmul_verify T
      {|
        mc_nv := k;
        mc_out_vars := (m, n);
        mc_left_const := false;
        mc_right_const := false;
        mc_bias := false;
        mc_transposed := tr
      |} last pf h = Some (out, [], h') /\ Forall2 claim_true [L; R] out.
Proof. exact @matmul_forge. Qed.
Print Assumptions C35_matmul_extra_claim.

Theorem C35_matmul_extra_claim_refuted : exists (T : @hist F101 -> F101) L R Y last pf out h',
  matprod false 0 1 0 L R None Y /\ matmul_verify T (mkMctx 1 (0, 0) false false false false) last pf [] = Some (out, [], h') /\
  Forall2 claim_true [L; R] out /\ cl_eval last <> mle Y (cl_point last) /\
  ~ root_event T 1 2 (prodf [(fun pt => mle L (pt ++ [])); (fun pt => mle R pt)]) [] (mp_sumcheck pf).
Proof.
  exists lay_T10, (q_list [7; 8]%Z), (q_list [1; 2]%Z), (q_list [23]%Z), (mkClaim [] (q 24)),
    (mkMp (mkProof [] [q_list [24; 0; -24]%Z]) (q_list [17; 11; 75]%Z) None), [mkClaim [q 10] (q 17); mkClaim [q 10] (q 11)].
  eexists. split.
  { do 2 (split; [reflexivity|]). split; [exact I|]. split; [reflexivity|].
    intros [|i] [|j] Hi Hj; try (cbn in Hi; cbn in Hj; lia); f101. }
  split; [unfold matmul_verify; vrun|]. split; [constructor; [ctrue|constructor; [ctrue|constructor]]|].
  split; [apply feqb_false; vm_compute; reflexivity|]. noroot.
Qed.
Print Assumptions C35_matmul_extra_claim_refuted.

(** Honest matrix-vector proofs. *)
Theorem C35_matvec_complete :
  forall (K : field) (T : hist -> K) (ncpus : nat) (scs : nat -> rsched) (mat input : ten K) 
    (a b : nat) (y : list K) (last : claim) (h : hist),
  0 < ncpus ->
  char_gt K 2 ->
  0 < b ->
  sh mat = [2 ^ a; 2 ^ b] ->
  linear a b (dat mat) (dat input) y ->
  claim_true y last ->
  (forall i : nat, i < b -> valid_rsched (K := K) (prod_shape 2 b) i (scs i)) ->
  exists (pf : matvec_proof) (c : claim) (h' : hist),
    matvec_prove T ncpus scs mat input last h = Some (pf, c, h') /\
    claim_true (dat input) c /\
    ((forall r : K, In r (cl_point c) -> not_node 2 r) ->
     matvec_verify T b (mle (dat mat)) last pf h = Some (c, h')).
Proof. exact @matvec_complete. Qed.
Print Assumptions C35_matvec_complete.

Definition ex_y0 := q_list [23; 53]%Z.
Example C35_ex_linear : linear 1 1 (dat ex_l) ex_x ex_y0.
Proof. do 4 (split; [reflexivity|]). intros [|[|i]] Hi; [f101|f101|cbn in Hi; lia]. Qed.
Example C35_ex_matvec :
  match matvec_prove lay_T 2 lay_sc ex_l (mkTen [2] ex_x) (mkClaim [q 9] (mle ex_y0 [q 9])) [] with
  | Some (pf, _, _) => match matvec_verify lay_T 1 (mle (dat ex_l)) (mkClaim [q 9] (mle ex_y0 [q 9])) pf [] with
      | Some (c, _) => fpv 101 (cl_eval c) = fpv 101 (mle ex_x (cl_point c))
      | None => False end
  | None => False end.
Proof. vm_compute. reflexivity. Qed.

(** The matrix-vector verifier is sound if its caller also compares the product of the two evaluations with the evaluation left by the sumcheck; the code does not. *)
Theorem C35_matvec_guarded_partial :
  forall (K : field) (T : hist -> K) (a b : nat) (mat x y : list K) (last : claim) (pf : matvec_proof)
    (h : hist) (c : claim) (h' : hist) (rs : list K) (e : K) (hv : hist),
  char_gt K 2 ->
  0 < b ->
  linear a b mat x y ->
  length (cl_point last) = a ->
  matvec_verify T b (mle mat) last pf h = Some (c, h') ->
  verify T (cl_eval last) (mv_sumcheck pf) b 2 h = Some (rs, e, hv) ->
  (mle mat (rs ++ cl_point last) * cl_eval c)%F = e ->
  claim_true x c ->
  claim_true y last \/
  root_event T b 2 (prodf [fun pt : list K => mle mat (pt ++ cl_point last); mle x]) h (mv_sumcheck pf).
Proof. exact @matvec_guarded. Qed.
Print Assumptions C35_matvec_guarded_partial.

(** As it stands the matrix-vector verifier accepts every claim. *)
Theorem C35_matvec_forge :
  forall (K : field) (T : hist -> K) (b : nat) (mat x : list K) (last : claim) (h : hist),
  char_gt K 2 ->
  0 < b ->
  length x = 2 ^ b ->
  let sc := {| pf_point := []; pf_proofs := bogus_messages T (cl_eval last) b 2 h |} in
  (forall r : K, In r (sc_point T b 2 h sc) -> not_node 2 r) ->
  exists (pf : matvec_proof) (c : claim) (h' : hist),
    matvec_verify T b (mle mat) last pf h = Some (c, h') /\ claim_true x c.
Proof. exact @matvec_forge. Qed.
Print Assumptions C35_matvec_forge.

Theorem C35_matvec_refuted : exists (T : @hist F101 -> F101) mat x y last pf c h',
  linear 1 1 mat x y /\ matvec_verify T 1 (mle mat) last pf [] = Some (c, h') /\ claim_true x c /\
  cl_eval last <> mle y (cl_point last) /\
  ~ root_event T 1 2 (prodf [(fun pt => mle mat (pt ++ cl_point last)); mle x]) [] (mv_sumcheck pf).
Proof.
  exists lay_T10, (dat ex_l), ex_x, ex_y0, (mkClaim [q 9] (q 92)), (mkMvp (mkProof [] [q_list [92; 0; -92]%Z]) (q_list [29; 17]%Z)),
    (mkClaim [q 10] (q 17)).
  eexists. split; [exact C35_ex_linear|]. split; [unfold matvec_verify; vrun|]. split; [ctrue|].
  split; [apply feqb_false; vm_compute; reflexivity|]. noroot.
Qed.
Print Assumptions C35_matvec_refuted.

(** Soundness of the batched product for all arrangements of the dimensions, for proofs with exactly three evaluations (not checked). *)
Theorem C35_concat_sound_partial :
  forall (K : field) (T : hist -> K) (p : cperm) (nc nm nr nk : nat) (a b y : ten K) 
    (last : claim) (pf : concat_proof) (h : hist) (out : list claim) (h' : hist),
  char_gt K 3 ->
  0 < nm + nc ->
  good_cperm p ->
  batched p nc nm nr nk a b y ->
  concat_verify T (nm + nc) p (sh a) (sh b) (sh y) last pf h = Some (out, h') ->
  length (cpf_claims pf) = 3 ->
  Forall2 claim_true [dat a; dat b] out ->
  claim_true (dat y) last \/
  (exists pc prow pcol : list K,
     split_output_point p (sh y) (cl_point last) = Some (pc, prow, pcol) /\
     root_event T (nm + nc) 3 (prodf (map mle (concat_tables p nm nc a b pc prow pcol))) h (cpf_sumcheck pf)).
Proof. exact @concat_sound. Qed.
Print Assumptions C35_concat_sound_partial.

(** Honest batched product proofs. *)
Theorem C35_concat_complete :
  forall (K : field) (T : hist -> K) (ncpus : nat) (scs : nat -> rsched) (fl fr : nat -> list nat) 
    (p : cperm) (nc nm nr nk : nat) (a b y : ten K) (last : claim) (h : hist),
  0 < ncpus ->
  char_gt K 3 ->
  0 < nm + nc ->
  good_cperm p ->
  batched p nc nm nr nk a b y ->
  claim_true (dat y) last ->
  (forall k : nat, valid_order (2 ^ (nc + nm + nr)) (fl k)) ->
  (forall k : nat, valid_order (2 ^ (nc + nm + nk)) (fr k)) ->
  (forall i : nat, i < nm + nc -> valid_rsched (K := K) (prod_shape 3 (nm + nc)) i (scs i)) ->
  exists (out : list claim) (pf : concat_proof) (h' : hist),
    concat_prove T ncpus scs fl fr p a b y last h = Some (out, pf, h') /\
    concat_ctx p (sh a) (sh b) = Some (nm + nc) /\
    length (cpf_claims pf) = 3 /\
    Forall2 claim_true [dat a; dat b] out /\
    ((forall r : K, In r (pf_point (cpf_sumcheck pf)) -> not_node 3 r) ->
     concat_verify T (nm + nc) p (sh a) (sh b) (sh y) last pf h = Some (out, h')).
Proof. exact @concat_complete. Qed.
Print Assumptions C35_concat_complete.

(** The evaluation of the layer is the batched product, over any ring of numbers. *)
Theorem C35_concat_evaluate :
  forall (A : Type) (zero : A) (add mul : A -> A -> A) (p : cperm) (a b : ten A) (n m r k : nat),
  good_cperm p ->
  wft a ->
  sh a = place (cp_left p) n m r ->
  wft b ->
  sh b = place (cp_right p) n m k ->
  0 < n ->
  exists y : ten A,
    concat_eval zero add mul p a b = Some y /\
    sh y = permuted p [n; r; k] /\
    wft y /\
    (forall c i j : nat,
     c < n ->
     i < r ->
     j < k ->
     entry zero y (permuted p [c; i; j]) =
     sumto zero add m
       (fun t : nat => mul (entry zero a (place (cp_left p) c t i)) (entry zero b (place (cp_right p) c t j)))).
Proof. exact @concat_eval_ok. Qed.
Print Assumptions C35_concat_evaluate.

(** ... and, after the embedding, the one of the statements above. *)
Theorem C35_concat_evaluate_field :
  forall (K : field) (p : cperm) (nc nm nr nk : nat) (a b : ten Z),
  good_cperm p ->
  wft a ->
  sh a = place (cp_left p) (2 ^ nc) (2 ^ nm) (2 ^ nr) ->
  wft b ->
  sh b = place (cp_right p) (2 ^ nc) (2 ^ nm) (2 ^ nk) ->
  exists y : ten Z,
    concat_eval 0%Z Z.add Z.mul p a b = Some y /\
    batched (K := K) p nc nm nr nk (embed_ten a) (embed_ten b) (embed_ten y).
Proof. exact @concat_integer. Qed.
Print Assumptions C35_concat_evaluate_field.

Definition ex_p : cperm := mkCperm (mkDims 1 2 0) (mkDims 1 0 2) (Some [1; 0; 2]).
Definition ex_a : ten F101 := mkTen [1; 2; 2] (q_list [1; 2; 3; 4]%Z).
Definition ex_b : ten F101 := mkTen [2; 2; 1] (q_list [5; 6; 7; 8]%Z).
(** Two products of a row and a column, the batch being dimension 1 of both inputs: 1*5+2*7 and 3*6+4*8. *)
Definition ex_c : ten F101 := mkTen [1; 2; 1] (q_list [19; 50]%Z).
Definition ex_last3 : @claim F101 := mkClaim [q 30] (mle (dat ex_c) [q 30]).
Definition lay_sc2 (k : nat) : rsched := mkRs (fun i => seq 0 (2 ^ (2 - (k - 1)) / 2)) (fun i => PLeaf (evens (2 ^ (2 - k)))) (PLeaf [0%nat]).
Example C35_ex_concat : good_cperm ex_p /\ batched ex_p 1 1 0 0 ex_a ex_b ex_c /\ claim_true (dat ex_c) ex_last3 /\
  (forall i, i < 2 -> valid_rsched (K := F101) (prod_shape 3 2) i (lay_sc2 i)).
Proof.
  assert (P : Permutation [1; 0; 2] [0; 1; 2]) by apply perm_swap.
  split; [split; [|split; [exact P|exact P]]|].
  { unfold good_dims. cbn. transitivity [1; 0; 2]; [apply perm_skip, perm_swap|exact P]. }
  split; [|split; [split; reflexivity|]].
  - do 6 (split; [reflexivity|]). intros [|[|c]] [|i] [|j] Hc Hi Hj; try (cbn in Hc, Hi, Hj; lia); f101.
  - intros [|[|i]] Hi; [| |lia]; constructor; try (intros; lia); try apply Permutation_refl;
      intros [|q0] Hq Hk; try (cbn in Hq; lia); apply Permutation_refl.
Qed.
Example C35_ex_concat_run :
  match concat_prove lay_T 2 lay_sc2 (fun _ => []) (fun _ => []) ex_p ex_a ex_b ex_c ex_last3 [] with
  | Some (_, pf, _) => match concat_verify lay_T 2 ex_p (sh ex_a) (sh ex_b) (sh ex_c) ex_last3 pf [] with
      | Some ([c1; c2], _) => fpv 101 (cl_eval c1) = fpv 101 (mle (dat ex_a) (cl_point c1)) /\
                              fpv 101 (cl_eval c2) = fpv 101 (mle (dat ex_b) (cl_point c2))
      | _ => False end
  | None => False end.
Proof. vm_compute. repeat split; reflexivity. Qed.

(** A fourth evaluation lets the batched product accept any output claim with true input claims. *)
Theorem C35_concat_extra_claim :
  forall (K : field) (T : hist -> K) (p : cperm) (nc nm nr nk : nat) (a b y : ten K) 
    (last : claim) (h : hist) (pc prow pcol : list K),
  char_gt K 3 ->
  0 < nm + nc ->
  good_cperm p ->
  wft a ->
  sh a = place (cp_left p) (2 ^ nc) (2 ^ nm) (2 ^ nr) ->
  wft b ->
  sh b = place (cp_right p) (2 ^ nc) (2 ^ nm) (2 ^ nk) ->
  sh y = permuted p [2 ^ nc; 2 ^ nr; 2 ^ nk] ->
  split_output_point p (sh y) (cl_point last) = Some (pc, prow, pcol) ->
  let sc := {| pf_point := []; pf_proofs := bogus_messages T (cl_eval last) (nm + nc) 3 h |} in
  let rs := sc_point T (nm + nc) 3 h sc in
  (forall r : K, In r rs -> not_node 3 r) ->
  eqp (skipn nm rs) pc <> 0%F ->
  mle (dat a) (build_point (cp_left p) (skipn nm rs) (firstn nm rs) prow) <> 0%F ->
  mle (dat b) (build_point (cp_right p) (skipn nm rs) (firstn nm rs) pcol) <> 0%F ->
  exists (pf : concat_proof) (out : list claim) (h' : hist),
    concat_verify T (nm + nc) p (sh a) (sh b) (sh y) last pf h = Some (out, h') /\
    Forall2 claim_true [dat a; dat b] out.
Proof. exact @concat_forge. Qed.
Print Assumptions C35_concat_extra_claim.

Theorem C35_concat_extra_claim_refuted : exists (T : @hist F101 -> F101) p a b y last pf out h',
  good_cperm p /\ batched p 0 1 0 0 a b y /\ concat_verify T 1 p (sh a) (sh b) (sh y) last pf [] = Some (out, h') /\
  Forall2 claim_true [dat a; dat b] out /\ cl_eval last <> mle (dat y) (cl_point last) /\
  ~ root_event T 1 3 (prodf (map mle (concat_tables p 1 0 a b [] [] []))) [] (cpf_sumcheck pf).
Proof.
  exists lay_T10, (mkCperm (mkDims 0 2 1) (mkDims 0 1 2) None), (mkTen [1; 1; 2] (q_list [7; 8]%Z)), (mkTen [1; 2; 1] (q_list [1; 2]%Z)),
    (mkTen [1; 1; 1] (q_list [23]%Z)), (mkClaim [] (q 24)),
    (mkCp (mkProof [] [q_list [24; 0; -24; -48]%Z]) (q_list [1; 17; 11; 75]%Z)), [mkClaim [q 10] (q 17); mkClaim [q 10] (q 11)].
  eexists. split; [split; [apply perm_skip, perm_swap|split; [apply Permutation_refl|exact I]]|].
  split; [do 6 (split; [reflexivity|]); intros [|c] [|i] [|j] Hc Hi Hj; try (cbn in Hc, Hi, Hj; lia); f101|].
  split; [unfold concat_verify; vrun|]. split; [constructor; [ctrue|constructor; [ctrue|constructor]]|].
  split; [apply feqb_false; vm_compute; reflexivity|]. noroot.
Qed.
Print Assumptions C35_concat_extra_claim_refuted.

(** Soundness of the entry-wise product, for proofs that state the point the verifier drew (not checked by the verifier). *)
Theorem C37_hadamard_sound_partial :
  forall (K : field) (T : hist -> K) (n : nat) (es : nat -> list nat) (v1 v2 y : list K) 
    (last : claim) (ev2 : K) (pf : hadamard_proof) (h : hist) (c : claim) (h' : hist),
  char_gt K 3 ->
  0 < n ->
  entrywise n v1 v2 y ->
  length (cl_point last) = n ->
  valid_sched n es ->
  hadamard_verify T n es last ev2 pf h = Some (c, h') ->
  pf_point (hp_sumcheck pf) = sc_point T n 3 h (hp_sumcheck pf) ->
  claim_true v1 c ->
  ev2 = mle v2 (cl_point c) ->
  claim_true y last \/ root_event T n 3 (prodf [mle v1; mle v2; eqp (cl_point last)]) h (hp_sumcheck pf).
Proof. exact @hadamard_sound. Qed.
Print Assumptions C37_hadamard_sound_partial.

(** Honest entry-wise products. *)
Theorem C37_hadamard_complete :
  forall (K : field) (T : hist -> K) (ncpus : nat) (scs : nat -> rsched) (es : nat -> list nat) 
    (n : nat) (v1 v2 : ten K) (y : list K) (last : claim) (h : hist),
  0 < ncpus ->
  char_gt K 3 ->
  0 < n ->
  entrywise n (dat v1) (dat v2) y ->
  claim_true y last ->
  shape_is_pow2 (sh v1) = true ->
  shape_is_pow2 (sh v2) = true ->
  valid_sched n es ->
  (forall i : nat, i < n -> valid_rsched (K := K) (prod_shape 3 n) i (scs i)) ->
  exists (pf : hadamard_proof) (h' : hist),
    hadamard_prove T ncpus scs last v1 v2 h = Some (pf, h') /\
    hadamard_ctx (2 ^ n) = n /\
    (let r := pf_point (hp_sumcheck pf) in
     (forall x : K, In x r -> not_node 3 x) ->
     exists c : claim, hadamard_verify T n es last (mle (dat v2) r) pf h = Some (c, h') /\ claim_true (dat v1) c).
Proof. exact @hadamard_complete. Qed.
Print Assumptions C37_hadamard_complete.

Example C37_ex_entrywise : entrywise 1 (q_list [3; 5]%Z) (q_list [2; 7]%Z) (q_list [6; 35]%Z).
Proof. do 3 (split; [reflexivity|]). intros [|[|i]] Hi; [f101|f101|cbn in Hi; lia]. Qed.
Example C37_ex_hadamard :
  match hadamard_prove lay_T 2 lay_sc (mkClaim [q 9] (mle (q_list [6; 35]%Z) [q 9])) (mkTen [2] (q_list [3; 5]%Z)) (mkTen [2] (q_list [2; 7]%Z)) [] with
  | Some (pf, _) => match hadamard_verify lay_T 1 (fun _ => [0]) (mkClaim [q 9] (mle (q_list [6; 35]%Z) [q 9]))
                            (mle (q_list [2; 7]%Z) (pf_point (hp_sumcheck pf))) pf [] with
      | Some (c, _) => fpv 101 (cl_eval c) = fpv 101 (mle (q_list [3; 5]%Z) (cl_point c))
      | None => False end
  | None => False end.
Proof. vm_compute. reflexivity. Qed.

(** A prover that may state any point only has to find one where the three tables multiply to the value left by the sumcheck. *)
Theorem C37_hadamard_forge :
  forall (K : field) (T : hist -> K) (n : nat) (es : nat -> list nat) (v1 v2 : list K) 
    (last : claim) (h : hist) (pt : list K),
  char_gt K 3 ->
  0 < n ->
  length v1 = 2 ^ n ->
  length (cl_point last) = n ->
  length pt = n ->
  valid_sched n es ->
  let ms := bogus_messages T (cl_eval last) n 3 h in
  (forall r : K, In r (sc_point T n 3 h {| pf_point := pt; pf_proofs := ms |}) -> not_node 3 r) ->
  (forall (e : K) (h' : hist),
   verify T (cl_eval last) {| pf_point := pt; pf_proofs := ms |} n 3 h =
   Some (sc_point T n 3 h {| pf_point := pt; pf_proofs := ms |}, e, h') ->
   (eqp (cl_point last) pt * mle v1 pt * mle v2 pt)%F = e) ->
  exists (pf : hadamard_proof) (c : claim) (h' : hist),
    hadamard_verify T n es last (mle v2 pt) pf h = Some (c, h') /\ claim_true v1 c.
Proof. exact @hadamard_forge. Qed.
Print Assumptions C37_hadamard_forge.

Theorem C37_hadamard_point_refuted : exists (T : @hist F101 -> F101) v1 v2 y last pf c h',
  entrywise 1 v1 v2 y /\ hadamard_verify T 1 (fun _ => [0]) last (mle v2 (cl_point c)) pf [] = Some (c, h') /\ claim_true v1 c /\
  cl_eval last <> mle y (cl_point last) /\
  ~ root_event T 1 3 (prodf [mle v1; mle v2; eqp (cl_point last)]) [] (hp_sumcheck pf).
Proof.
  exists lay_T10, (q_list [3; 5]%Z), (q_list [2; 7]%Z), (q_list [6; 35]%Z), (mkClaim [q 9] (q 66)),
    (mkHp (mkProof [q 56] [q_list [66; 0; -66; -132]%Z]) [q 14; q 80]), (mkClaim [q 56] (q 14)).
  eexists. split; [exact C37_ex_entrywise|].
  split; [unfold hadamard_verify; cbn -[verify evaluate mle feqb q fmul]; eapply obind_some; [reflexivity|cbv beta iota];
    cbn -[evaluate mle feqb q fmul]; eapply obind_some; [reflexivity|]; repeat (eapply if_true; [vm_compute; reflexivity|]; cbn -[mle feqb q fmul]); reflexivity|]. split; [ctrue|].
  split; [apply feqb_false; vm_compute; reflexivity|]. noroot.
Qed.
Print Assumptions C37_hadamard_point_refuted.

