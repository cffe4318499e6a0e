(** Model of the Basefold commitment scheme of mpcs: mpcs/src/basefold.rs (commit, open, verify, batch_verify,
    simple_batch_verify), basefold/commit_phase.rs, basefold/sumcheck.rs, basefold/query_phase.rs, basefold/structure.rs and
    the classic sum-check verifier of mpcs/src/sum_check.

    [K] is the extension field, [B] the base field with its embedding [emb]; digests, hashing and Merkle trees are those of
    [M_Merkle].  [dig d] is what [digest_to_transcript] absorbs (mpcs/src/util/hash.rs:58-63, 93-95), [to_usize] is
    [ext_to_usize] (mpcs/src/util.rs:16-19).  A panic and a returned error are both [None].
    The prover is modelled for extension-field polynomials; the verifier for both kinds of leaves. *)
From Coq Require Import List Arith Lia Bool ZArith.
From Verif Require Import ListAux FieldDef M_Mle M_Tensor M_Sumcheck M_Fft M_Merkle M_Code.
Import ListNotations.

Section Basefold.
Context {K : field} {B D : Type} (as_bases : K -> list B) (emb : B -> K) (hash_bases : list B -> D)
  (hash_two_digests : D -> D -> D) (deqb : D -> D -> bool) (dig : D -> list (@ev K)) (T : @hist K -> K) (to_usize : K -> nat)
  (nbits : nat) (scm : @scheme K).
Local Open Scope F_scope.
Notation col := (@col B K). Notation mtree := (@mtree B K D).
Notation from_batch_leaves := (from_batch_leaves as_bases emb hash_bases hash_two_digests).

(** b"commit round", b"query indices", b"batch coeffs", b"sumcheck round". *)
Definition lbl_commit : list Z := [99; 111; 109; 109; 105; 116; 32; 114; 111; 117; 110; 100]%Z.
Definition lbl_query : list Z := [113; 117; 101; 114; 121; 32; 105; 110; 100; 105; 99; 101; 115]%Z.
Definition lbl_batch : list Z := [98; 97; 116; 99; 104; 32; 99; 111; 101; 102; 102; 115]%Z.
Definition lbl_sumcheck : list Z := [115; 117; 109; 99; 104; 101; 99; 107; 32; 114; 111; 117; 110; 100]%Z.

(** util/arithmetic.rs:69-78 [inner_product] and 80-91 [inner_product_three]: [zip_eq] panics on unequal lengths. *)
Definition inner_product (a b : list K) : option K :=
  if (length a =? length b)%nat then Some (fsum (map (fun p => fst p * snd p) (combine a b))) else None.
Definition inner_product_three (a b c : list K) : option K :=
  if ((length a =? length b) && (length a =? length c))%nat
  then Some (fsum (map (fun p => fst (fst p) * snd (fst p) * snd p) (combine (combine a b) c))) else None.
(** util/arithmetic.rs:144-150. *)
Definition degree_2_zero_plus_one (p : list K) : option K :=
  a <- nth_error p 0 ;; b <- nth_error p 1 ;; c <- nth_error p 2 ;; Some (a + a + b + c).
Definition degree_2_eval (p : list K) (x : K) : option K :=
  a <- nth_error p 0 ;; b <- nth_error p 1 ;; c <- nth_error p 2 ;; Some (a + x * b + x * x * c).
(** sum_check.rs:126-135 [eq_xy_eval]. *)
Definition eq_xy_eval (x y : list K) : option K :=
  match x with
  | [] => None
  | _ => if (length x =? length y)%nat
         then Some (fprod (map (fun p => (fst p * snd p + fst p * snd p) + 1 - fst p - snd p) (combine x y))) else None
  end.

(** structure.rs:161-166. *)
Record commitment := mkComm { bc_root : D; bc_nv : option nat; bc_is_base : bool; bc_polys : option nat }.
(** query_phase.rs:541-553 [CodewordPointPair]. *)
Inductive ppair := PExt (x y : K) | PBase (x y : B).
Definition as_ext (p : ppair) : K * K := match p with PExt x y => (x, y) | PBase x y => (emb x, emb y) end.
Definition pcol (p : ppair) : col := match p with PExt x y => CExt [x; y] | PBase x y => CBase [x; y] end.
(** query_phase.rs:609-662: a pair of leaves, the index claimed for it, and a Merkle path. *)
Record qres := mkQ { q_pts : ppair; q_index : nat; q_path : list D }.
(** query_phase.rs:669-690 [check_merkle_path]: the index used is the one inside the query result. *)
Definition check_merkle_path (q : qres) (root : D) : option unit :=
  authenticate as_bases hash_bases hash_two_digests deqb (q_path q) (pcol (q_pts q)) (q_index q) root.
(** query_phase.rs:848-857 [check_merkle_paths]: [zip] stops at the shorter list. *)
Definition check_merkle_paths (qs : list qres) (roots : list D) : option (list unit) :=
  omapM (fun p => check_merkle_path (fst p) (snd p)) (combine qs roots).

(** query_phase.rs:878-885, 1080-1087, 1432-1439. *)
Record squery := mkSq { sq_oracle : list qres; sq_comm : qres }.
Record bquery := mkBq { bq_oracle : list qres; bq_comms : list qres }.
(** query_phase.rs:560-566 and 1376-1383: the leaves of all columns at two adjacent positions. *)
Inductive lpairs := LExt (l : list (K * K)) | LBase (l : list (B * B)).
Record sbqres := mkSb { sb_leaves : lpairs; sb_index : nat; sb_path : list D }.
Record sbquery := mkSbq { sbq_oracle : list qres; sbq_comm : sbqres }.
(** structure.rs:302-345 [ProofQueriesResultWithMerklePath], [BasefoldProof]. *)
Inductive pqueries :=
| QSingle (l : list (nat * squery)) | QBatched (l : list (nat * bquery)) | QSimpleBatched (l : list (nat * sbquery)).
Record bproof := mkBp {
  bp_msgs : list (list K); bp_roots : list D; bp_final : list K; bp_queries : pqueries;
  bp_sumcheck : option (list (list K)); bp_trivial : list col }.

(** ** Verifier, query phase *)
Section Query.
Variables (fold_challenges : list K) (num_rounds num_vars : nat) (final_codeword : list K) (roots : list D).
Definition level_of (i : nat) : nat := num_vars + sc_rate scm - i - 1.
(** One round of the loops query_phase.rs:941-973 and 1495-1529.  The state is (curr_left, curr_right, left_index,
    right_index). *)
Definition check_round (oracle : list qres) (s : K * K * nat * nat) (i : nat) : option (K * K * nat * nat) :=
  let '(l, r, li, ri) := s in
  c <- nth_error fold_challenges i ;;
  co <- sc_vcoef scm (level_of i) (Nat.shiftr li 1) ;;
  let '(x0, x1, w) := co in
  let res := interpolate2_weights x0 l x1 r w c in
  let next := Nat.shiftr ri 1 in
  if (i <? num_rounds - 1)%nat then
    q <- nth_error oracle i ;;
    let '(l', r') := as_ext (q_pts q) in
    let ri' := Nat.lor next 1 in
    if feqb res (if Nat.even next then l' else r') then Some (l', r', (ri' - 1)%nat, ri') else None
  else
    v <- nth_error final_codeword next ;;
    if feqb res v then Some (l, r, li, ri) else None.
Definition check_rounds (oracle : list qres) (lr : K * K) (index : nat) : option (K * K * nat * nat) :=
  let ri := Nat.lor index 1 in
  ofold (check_round oracle) (seq 0 (Nat.min num_rounds (length fold_challenges))) (fst lr, snd lr, (ri - 1)%nat, ri).
(** query_phase.rs:915-975 [SingleQueryResultWithMerklePath::check]. *)
Definition single_check (comm : commitment) (index : nat) (q : squery) : option unit :=
  _ <- check_merkle_paths (sq_oracle q) roots ;;
  _ <- check_merkle_path (sq_comm q) (bc_root comm) ;;
  _ <- check_rounds (sq_oracle q) (as_ext (q_pts (sq_comm q))) index ;; Some tt.
(** query_phase.rs:1031-1059: the queries of the proof zipped with the sampled indices. *)
Definition queries_check (comm : commitment) (indices : list nat) (qs : list (nat * squery)) : option (list unit) :=
  omapM (fun p => if (snd p =? fst (fst p))%nat then single_check comm (fst (fst p)) (snd (fst p)) else None) (combine qs indices).

(** query_phase.rs:582-601 [SimpleBatchLeavesPair::batch]. *)
Definition lp_ext (l : lpairs) : list (K * K) :=
  match l with LExt l => l | LBase l => map (fun p => (emb (fst p), emb (snd p))) l end.
Definition lp_batch (l : lpairs) (coeffs : list K) : option (K * K) :=
  ofold (fun acc (ip : nat * (K * K)) => c <- nth_error coeffs (fst ip) ;;
                 Some (fst acc + c * fst (snd ip), snd acc + c * snd (snd ip)))
        (combine (seq 0 (length (lp_ext l))) (lp_ext l)) (0, 0).
(** query_phase.rs:1390-1411. *)
Definition sb_check_path (q : sbqres) (root : D) : option unit :=
  match sb_leaves q with
  | LExt l => authenticate_batch as_bases hash_bases hash_two_digests deqb (sb_path q) (CExt (map fst l)) (CExt (map snd l)) (sb_index q) root
  | LBase l => authenticate_batch as_bases hash_bases hash_two_digests deqb (sb_path q) (CBase (map fst l)) (CBase (map snd l)) (sb_index q) root
  end.
(** query_phase.rs:1468-1530. *)
Definition sb_check (comm : commitment) (batch_coeffs : list K) (index : nat) (q : sbquery) : option unit :=
  _ <- check_merkle_paths (sbq_oracle q) roots ;;
  _ <- sb_check_path (sbq_comm q) (bc_root comm) ;;
  lr <- lp_batch (sb_leaves (sbq_comm q)) batch_coeffs ;;
  _ <- check_rounds (sbq_oracle q) lr index ;; Some tt.
(** query_phase.rs:1582-1612. *)
Definition sb_queries_check (comm : commitment) (batch_coeffs : list K) (indices : list nat) (qs : list (nat * sbquery)) : option (list unit) :=
  omapM (fun p => if (snd p =? fst (fst p))%nat then sb_check comm batch_coeffs (fst (fst p)) (snd (fst p)) else None) (combine qs indices).

(** query_phase.rs:1155-1172: add the commitments whose polynomial has the current number of variables. *)
Definition matching (comms : list commitment) (n : nat) : list nat :=
  map fst (filter (fun p => match bc_nv (snd p) with Some m => (m =? n)%nat | None => false end) (combine (seq 0 (length comms)) comms)).
Definition add_matching (comms : list commitment) (coeffs : list K) (cqs : list qres) (n pos : nat) (lr : K * K) : option (K * K) :=
  ofold (fun acc j => q <- nth_error cqs j ;; c <- nth_error coeffs j ;;
           if (Nat.shiftr (q_index q) 1 =? pos)%nat
           then Some (fst acc + fst (as_ext (q_pts q)) * c, snd acc + snd (as_ext (q_pts q)) * c) else None)
        (matching comms n) lr.
(** query_phase.rs:1153-1234. *)
Definition b_round (comms : list commitment) (coeffs : list K) (bq : bquery) (s : K * K * nat * nat) (i : nat) : option (K * K * nat * nat) :=
  let '(l0, r0, li, ri) := s in
  c <- nth_error fold_challenges i ;;
  lr <- add_matching comms coeffs (bq_comms bq) (num_vars - i) (Nat.shiftr li 1) (l0, r0) ;;
  co <- sc_vcoef scm (level_of i) (Nat.shiftr li 1) ;;
  let '(x0, x1, w) := co in
  let res := interpolate2_weights x0 (fst lr) x1 (snd lr) w c in
  let next := Nat.shiftr ri 1 in
  if (i <? num_rounds - 1)%nat then
    q <- nth_error (bq_oracle bq) i ;;
    let '(l', r') := as_ext (q_pts q) in
    let ri' := Nat.lor next 1 in
    if feqb res (if Nat.even next then l' else r') then Some (l', r', (ri' - 1)%nat, ri') else None
  else
    add <- add_matching comms coeffs (bq_comms bq) (num_vars - i - 1) (Nat.shiftr next 1) (res, res) ;;
    v <- nth_error final_codeword next ;;
    if feqb (if Nat.even next then fst add else snd add) v then Some (fst lr, snd lr, li, ri) else None.
(** query_phase.rs:1116-1236 and 1288-1320. *)
Definition b_check (comms : list commitment) (coeffs : list K) (index : nat) (q : bquery) : option unit :=
  _ <- check_merkle_paths (bq_oracle q) roots ;;
  _ <- check_merkle_paths (bq_comms q) (map bc_root comms) ;;
  let ri := Nat.lor index 1 in
  _ <- ofold (b_round comms coeffs q) (seq 0 (Nat.min num_rounds (length fold_challenges))) (0, 0, (ri - 1)%nat, ri) ;; Some tt.
Definition b_queries_check (comms : list commitment) (coeffs : list K) (indices : list nat) (qs : list (nat * bquery)) : option (list unit) :=
  omapM (fun p => if (snd p =? fst (fst p))%nat then b_check comms coeffs (fst (fst p)) (snd (fst p)) else None) (combine qs indices).
End Query.

(** query_phase.rs:160-171: the single verifier interpolates and then reverses; 235-246 and 315-326: the batch verifiers
    reverse and then interpolate. *)
Definition final_codeword_single (final : list K) : option (list K) :=
  m <- interpolate_hc final ;;
  m' <- (if sc_even_odd scm then reverse_index_bits m else Some m) ;;
  c <- sc_encode_small scm m' ;; reverse_index_bits c.
Definition final_codeword_batch (final : list K) : option (list K) :=
  m <- (if sc_even_odd scm then reverse_index_bits final else Some final) ;;
  m' <- interpolate_hc m ;;
  c <- sc_encode_small scm m' ;; reverse_index_bits c.
(** query_phase.rs:188-206, 268-286, 346-367: the checks on the sum-check messages. *)
Definition check_eq (a b : option K) : option unit := x <- a ;; y <- b ;; if feqb x y then Some tt else None.
Definition final_checks (msgs : list (list K)) (fold_challenges : list K) (final partial_eq : list K) (eval : K) : option unit :=
  m0 <- nth_error msgs 0 ;;
  _ <- check_eq (Some eval) (degree_2_zero_plus_one m0) ;;
  n <- csub (length fold_challenges) 1 ;;
  _ <- omapM (fun i => c <- nth_error fold_challenges i ;; a <- nth_error msgs i ;; b <- nth_error msgs (i + 1)%nat ;;
                       check_eq (degree_2_eval a c) (degree_2_zero_plus_one b)) (seq 0 n) ;;
  c <- nth_error fold_challenges n ;; a <- nth_error msgs n ;;
  check_eq (degree_2_eval a c) (inner_product final partial_eq).

(** ** Verifier *)
(** basefold.rs:906-918 = 1041-1053 = 1146-1158. *)
Fixpoint verifier_rounds (num_rounds i k : nat) (msgs : list (list K)) (roots : list D) (h : @hist K) : option (list K * @hist K) :=
  match k with
  | O => Some ([], h)
  | S k' =>
      m <- nth_error msgs i ;;
      let '(c, h1) := get_challenge T lbl_commit (absorb h m) in
      h2 <- (if (i <? num_rounds - 1)%nat then r <- nth_error roots i ;; Some (rev (dig r) ++ h1) else Some h1) ;;
      rest <- verifier_rounds num_rounds (S i) k' msgs roots h2 ;;
      Some (c :: fst rest, snd rest)
  end.
(** [n] challenges with one label (basefold.rs:807-813, 923-931, 997-1003, 1057-1065, 1134-1140, 1162-1170). *)
Fixpoint challenges (lbl : list Z) (n : nat) (h : @hist K) : list K * @hist K :=
  match n with
  | O => ([], h)
  | S n' => let '(c, h1) := get_challenge T lbl h in let '(cs, h2) := challenges lbl n' h1 in (c :: cs, h2)
  end.
Definition query_indices (num_vars : nat) (h : @hist K) : list nat * @hist K :=
  let '(cs, h') := challenges lbl_query (sc_nq scm) h in
  (map (fun c => to_usize c mod 2 ^ (num_vars + sc_rate scm)) cs, h').
(** basefold.rs:936-943 = 1070-1079 = 1175-1182. *)
Definition partial_eq_of (point fold_challenges : list K) : option (list K) :=
  n <- csub (length point) (length fold_challenges) ;;
  coeff <- eq_xy_eval (skipn n point) (rev fold_challenges) ;;
  eq <- build_eq_par nbits (firstn n point) ;;
  Some (map (fun e => e * coeff) eq).

Definition col_ftype (c : col) : ftype K := match c with CBase l => Base (map emb l) | CExt l => Ext l end.
(** basefold.rs:863-962 [verify]. *)
Definition verify_trivial (sched : nat -> list nat) (comm : commitment) (point : list K) (eval : K) (c0 : col) (cs : list col) : option unit :=
  tree <- from_batch_leaves (c0 :: cs) ;; root <- mt_root tree ;;
  if deqb (bc_root comm) root then
    e <- evaluate sched (mkMle (col_ftype c0) (Nat.log2 (col_len c0))) point ;;
    if feqb eval e then Some tt else None
  else None.
Definition verify (sched : nat -> list nat) (comm : commitment) (point : list K) (eval : K) (pf : bproof) (h : @hist K) : option (@hist K) :=
  match bp_trivial pf with
  | c0 :: cs => _ <- verify_trivial sched comm point eval c0 cs ;; Some h
  | [] =>
      let num_vars := length point in
      if negb (match bc_nv comm with Some n => ((num_vars =? n) && (sc_msg scm <=? num_vars))%nat | None => true end) then None else
      num_rounds <- csub num_vars (sc_msg scm) ;;
      rounds <- verifier_rounds num_rounds 0 num_rounds (bp_msgs pf) (bp_roots pf) h ;;
      let '(fold_challenges, h1) := rounds in
      let '(indices, h2) := query_indices num_vars (absorb h1 (bp_final pf)) in
      qs <- match bp_queries pf with QSingle qs => Some qs | _ => None end ;;
      eq <- partial_eq_of point fold_challenges ;;
      fc <- final_codeword_single (bp_final pf) ;;
      _ <- queries_check fold_challenges num_rounds num_vars fc (bp_roots pf) comm indices qs ;;
      _ <- final_checks (bp_msgs pf) fold_challenges (bp_final pf) eq eval ;;
      Some h2
  end.

(** sum_check/classic.rs:287-314 [verify] with 199-218 [verify_consistency] and sum_check/classic/coeff.rs:44-61. *)
Fixpoint sc_challenges (k i : nat) (rounds : list (list K)) (h : @hist K) : option (list (list K) * list K * @hist K) :=
  match k with
  | O => Some ([], [], h)
  | S k' =>
      m <- nth_error rounds i ;;
      let '(c, h1) := get_challenge T lbl_sumcheck (absorb h m) in
      rest <- sc_challenges k' (S i) rounds h1 ;;
      let '(ms, cs, h2) := rest in Some (m :: ms, c :: cs, h2)
  end.
Definition msg_sum (m : list K) : option K := a <- nth_error m 0 ;; Some (a + fsum m).
Definition sc_verify (num_vars : nat) (sum : K) (rounds : list (list K)) (h : @hist K) : option (K * list K * @hist K) :=
  r <- sc_challenges num_vars 0 rounds h ;;
  let '(ms, cs, h1) := r in
  s <- ofold (fun s (mc : list K * K) => x <- msg_sum (fst mc) ;; if feqb s x then Some (horner (fst mc) (snd mc)) else None) (combine ms cs) sum ;;
  Some (s, cs, h1).

(** mpcs/src/lib.rs [Evaluation]: polynomial, point and value. *)
Record evaluation := mkEval { ev_poly : nat; ev_point : nat; ev_value : K }.
(** basefold.rs:964-1098 [batch_verify]. *)
Definition batch_verify (comms : list commitment) (points : list (list K)) (evals : list evaluation) (pf : bproof) (h : @hist K) : option (@hist K) :=
  if ((length comms =? 0) && (length points =? 0) && (length evals =? 0) && (length (bp_trivial pf) =? 0))%nat then Some h else
  if (length points =? 0)%nat then None else
  let num_vars := fold_left Nat.max (map (@length K) points) 0%nat in
  num_rounds <- csub num_vars (sc_msg scm) ;;
  poly_nv <- omapM bc_nv comms ;;
  _ <- omapM (fun e => p <- nth_error points (ev_point e) ;; n <- nth_error poly_nv (ev_poly e) ;;
                       if (length p =? n)%nat then Some tt else None) evals ;;
  if (length comms =? 0)%nat then None else
  if negb (forallb (fun n => sc_msg scm <=? n)%nat poly_nv) then None else
  if negb (length (bp_trivial pf) =? 0)%nat then None else
  let '(t, h1) := challenges lbl_batch (Nat.log2_up (length evals)) h in
  eq_xt <- build_eq_par nbits t ;;
  scales <- omapM (fun e => p <- nth_error points (ev_point e) ;; Some (fnat (2 ^ (num_vars - length p)))) evals ;;
  target <- inner_product_three (map ev_value evals) scales (firstn (length evals) eq_xt) ;;
  rounds <- bp_sumcheck pf ;;
  sv <- sc_verify num_vars target rounds h1 ;;
  let '(new_target, verify_point, h2) := sv in
  eq_evals <- omapM (fun p => eq_xy_eval (firstn (length p) verify_point) p) points ;;
  coeffs <- ofold (fun cs (ex : evaluation * K) =>
                     c <- nth_error cs (ev_poly (fst ex)) ;; q <- nth_error eq_evals (ev_point (fst ex)) ;;
                     Some (upd (ev_poly (fst ex)) (c + q * snd ex) cs))
                  (combine evals eq_xt) (repeat 0 (length comms)) ;;
  vr <- verifier_rounds num_rounds 0 num_rounds (bp_msgs pf) (bp_roots pf) h2 ;;
  let '(fold_challenges, h3) := vr in
  let '(indices, h4) := query_indices num_vars (absorb h3 (bp_final pf)) in
  qs <- match bp_queries pf with QBatched qs => Some qs | _ => None end ;;
  eq <- partial_eq_of verify_point fold_challenges ;;
  fc <- final_codeword_batch (bp_final pf) ;;
  _ <- b_queries_check fold_challenges num_rounds num_vars fc (bp_roots pf) comms coeffs indices qs ;;
  _ <- final_checks (bp_msgs pf) fold_challenges (bp_final pf) eq new_target ;;
  Some h4.

(** basefold.rs:1100-1202 [simple_batch_verify]. *)
Definition simple_batch_verify (comm : commitment) (point : list K) (evals : list K) (pf : bproof) (h : @hist K) : option (@hist K) :=
  if negb (match bc_polys comm with Some n => (n =? length evals)%nat | None => true end) then None else
  match bp_trivial pf with
  | c0 :: cs =>
      tree <- from_batch_leaves (c0 :: cs) ;; root <- mt_root tree ;;
      if deqb (bc_root comm) root then Some h else None
  | [] =>
      let num_vars := length point in
      if negb (match bc_nv comm with Some n => ((num_vars =? n) && (sc_msg scm <=? num_vars))%nat | None => true end) then None else
      num_rounds <- csub num_vars (sc_msg scm) ;;
      let '(t, h0) := challenges lbl_batch (Nat.log2_up (length evals)) h in
      eqt <- build_eq_par nbits t ;;
      eq_xt <- slice 0 (length evals) eqt ;;
      rounds <- verifier_rounds num_rounds 0 num_rounds (bp_msgs pf) (bp_roots pf) h0 ;;
      let '(fold_challenges, h1) := rounds in
      let '(indices, h2) := query_indices num_vars (absorb h1 (bp_final pf)) in
      qs <- match bp_queries pf with QSimpleBatched qs => Some qs | _ => None end ;;
      eq <- partial_eq_of point fold_challenges ;;
      fc <- final_codeword_batch (bp_final pf) ;;
      _ <- sb_queries_check fold_challenges num_rounds num_vars fc (bp_roots pf) comm eq_xt indices qs ;;
      target <- inner_product eq_xt evals ;;
      _ <- final_checks (bp_msgs pf) fold_challenges (bp_final pf) eq target ;;
      Some h2
  end.

(** ** Prover (extension-field polynomials) *)
(** structure.rs:63-72 [BasefoldCommitmentWithWitness] for one polynomial. *)
Record commit_wit := mkCw { cw_tree : mtree; cw_evals : list K; cw_nv : nat }.
(** structure.rs:78-85 [to_commitment]. *)
Definition to_commitment (c : commit_wit) : option commitment :=
  r <- mt_root (cw_tree c) ;; Some (mkComm r (Some (cw_nv c)) false (Some 1%nat)).
(** basefold.rs:106-151: codeword and evaluations, both with reversed indices. *)
Definition evals_codeword (evals : list K) : option (list K * list K) :=
  coeffs <- interpolate_hc evals ;;
  m <- (if sc_even_odd scm then reverse_index_bits coeffs else Some coeffs) ;;
  cw <- sc_encode scm m ;;
  bh <- reverse_index_bits evals ;;
  cw' <- reverse_index_bits cw ;;
  Some (bh, cw').
(** basefold.rs:304-354 [commit] with 86-154 [get_poly_bh_evals_and_codeword]. *)
Definition commit (num_vars : nat) (evals : list K) : option commit_wit :=
  if (sc_max scm <? num_vars)%nat then None else
  if (num_vars <=? sc_msg scm)%nat then
    tree <- from_batch_leaves [CExt evals] ;; Some (mkCw tree evals num_vars)
  else
    ec <- evals_codeword evals ;;
    tree <- from_batch_leaves [CExt (snd ec)] ;; Some (mkCw tree (fst ec) num_vars).

(** sumcheck.rs:43-50 [one_level_interp_hc], 52-57 [one_level_eval_hc]. *)
Definition one_level_interp_hc (l : list K) : option (list K) :=
  if (length l =? 1)%nat then Some l
  else if Nat.even (length l) then Some (flat_map (fun p => [fst p; snd p - fst p]) (pairs2 l)) else None.
Definition one_level_eval_hc (l : list K) (c : K) : option (list K) :=
  if Nat.even (length l) then Some (map (fun p => fst p + c * snd p) (pairs2 l)) else None.
(** sumcheck.rs:67-93 [parallel_pi]; the rayon fold and reduce add field elements, in any order. *)
Definition parallel_pi (evals eq : list K) : option (list K) :=
  match evals with
  | [e] => Some [e; e; e]
  | _ =>
      if (Nat.even (length evals) && Nat.even (length eq))%bool then
        let ps := combine (pairs2 evals) (pairs2 eq) in
        Some [fsum (map (fun p => fst (fst p) * fst (snd p)) ps);
              fsum (map (fun p => snd (fst p) * fst (snd p) + fst (fst p) * snd (snd p)) ps);
              fsum (map (fun p => snd (fst p) * snd (snd p)) ps)]
      else None
  end.
(** commit_phase.rs:82-172, [k] rounds left.  The tree over an oracle is completed one round later in the code (100-106);
    with no round at all the capacity [num_rounds - 1] underflows (79). *)
Fixpoint commit_rounds (k : nat) (oracle evals eq msg : list K) (h : @hist K)
  : option (list mtree * list (list K) * list D * list K * @hist K) :=
  match k with
  | O => None
  | S k' =>
      let '(c, h1) := get_challenge T lbl_commit (absorb h msg) in
      n <- log2_strict (length oracle) ;; level <- csub n 1 ;;
      oracle' <- one_round (sc_pcoef scm) level oracle c ;;
      evals' <- one_level_eval_hc evals c ;; eq' <- one_level_eval_hc eq c ;;
      match k' with
      | O => final <- reverse_index_bits evals' ;; Some ([], [msg], [], final, absorb h1 final)
      | S _ =>
          eq'' <- one_level_interp_hc eq' ;; evals'' <- one_level_interp_hc evals' ;;
          msg' <- parallel_pi evals'' eq'' ;;
          tree <- from_batch_leaves [CExt oracle'] ;; root <- mt_root tree ;;
          rest <- commit_rounds k' oracle' evals'' eq'' msg' (rev (dig root) ++ h1) ;;
          let '(ts, ms, rs, f, h2) := rest in Some (tree :: ts, msg :: ms, root :: rs, f, h2)
      end
  end.
(** commit_phase.rs:30-183 [commit_phase]. *)
Definition commit_phase (point oracle bh_evals : list K) (num_rounds : nat) (h : @hist K) :=
  eq0 <- build_eq_par nbits point ;; eq1 <- reverse_index_bits eq0 ;;
  eq <- one_level_interp_hc eq1 ;; evals <- one_level_interp_hc bh_evals ;;
  msg <- parallel_pi evals eq ;;
  commit_rounds num_rounds oracle evals eq msg h.

(** query_phase.rs:373-417 [basefold_get_query] with the Merkle paths of 892-912. *)
Definition get_pair (tree : mtree) (x_index : nat) : option qres :=
  let p1 := Nat.lor x_index 1 in let p0 := (p1 - 1)%nat in
  a <- get_leaf_as_extension emb tree p0 ;; b <- get_leaf_as_extension emb tree p1 ;;
  x <- nth_error a 0 ;; y <- nth_error b 0 ;;
  path <- merkle_path tree p0 ;;
  Some (mkQ (PExt x y) p0 path).
Fixpoint get_oracles (trees : list mtree) (index : nat) : option (list qres) :=
  match trees with
  | [] => Some []
  | t :: ts => q <- get_pair t index ;; qs <- get_oracles ts (Nat.shiftr index 1) ;; Some (q :: qs)
  end.
Definition get_query (comm : mtree) (trees : list mtree) (x_index : nat) : option squery :=
  q <- get_pair comm x_index ;; qs <- get_oracles trees (Nat.shiftr x_index 1) ;; Some (mkSq qs q).
(** basefold.rs:466-539 [open]; query_phase.rs:31-65 [prover_query_phase]. *)
Definition open (num_vars : nat) (poly : list K) (c : commit_wit) (point : list K) (h : @hist K) : option (bproof * @hist K) :=
  if (cw_nv c <=? sc_msg scm)%nat then Some (mkBp [] [] [] (QSingle []) None [CExt poly], h) else
  num_rounds <- csub num_vars (sc_msg scm) ;;
  match mt_leaves (cw_tree c) with
  | CExt cw :: _ =>
      cp <- commit_phase point cw (cw_evals c) num_rounds h ;;
      let '(trees, ms, rs, final, h1) := cp in
      let '(cs, h2) := challenges lbl_query (sc_nq scm) h1 in
      let xs := map (fun x => to_usize x mod length cw) cs in
      qs <- omapM (fun x => q <- get_query (cw_tree c) trees x ;; Some (x, q)) xs ;;
      Some (mkBp ms rs final (QSingle qs) None [], h2)
  | _ => None
  end.
End Basefold.
