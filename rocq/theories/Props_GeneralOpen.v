(** Property C57: an accepted general batched Basefold opening. *)
From Coq Require Import List Arith Lia Bool ZArith.
From Verif Require Import ListAux FieldDef FpInst FpGold PolyList MleMath M_Mle M_Tensor M_Sumcheck M_Fft M_Hash M_Merkle M_Code M_Basefold P_Mle P_Eq P_Merkle P_Merkle2 P_Basefold P_Basefold2 P_Basefold3 P_Basefold4 P_BasefoldSc P_BasefoldGb P_BasefoldGq Props_Basefold Props_BatchOpen.
Import ListNotations.

(** C57, in part, for several commitments.  Take any polynomial f with which the final message of an accepted batched opening agrees, with the last variables fixed to the challenges, and any function g with the value of f at the point of the reduction.  Then the combination of the claimed values is the sum of g over the cube, or in some round of the sum-check or of the commit phase the message sent is not the honest one and yet agrees with it at the challenge; there are at most as many such challenges as the degree.  Missing: as for C57_messages_partial. *)
Theorem C57_general_messages_partial :
  forall (K : field) (B D : Type) (as_bases : K -> list B) (emb : B -> K) (hash_bases : list B -> D)
    (hash_two_digests : D -> D -> D) (deqb : D -> D -> bool) (dig : D -> list ev) (T : hist -> K)
    (to_usize : K -> nat) (nbits : nat) (scm : scheme) (comms : list commitment) (points : list (list K))
    (evals : list evaluation) (pf : bproof) (h h' : hist),
  let n := fold_left Nat.max (map (length (A:=K)) points) 0 in
  let nr := n - sc_msg scm in
  batch_verify as_bases emb hash_bases hash_two_digests deqb dig T to_usize nbits scm comms points evals pf h =
  Some h' ->
  points <> [] ->
  sc_msg scm < n ->
  exists
    (ts : list K) (h1 : hist) (rounds : list (list K)) (nt : K) (vp : list K) (h2 : hist) 
  (cs : list K) (h3 : hist),
    challenges T lbl_batch (Nat.log2_up (length evals)) h = (ts, h1) /\
    bp_sumcheck pf = Some rounds /\
    sc_verify T n (batch_claim n points evals (eq_table ts)) rounds h1 = Some (nt, vp, h2) /\
    length vp = n /\
    verifier_rounds dig T nr 0 nr (bp_msgs pf) (bp_roots pf) h2 = Some (cs, h3) /\
    length cs = nr /\
    (forall (g : list K -> K) (f : list K),
     length f = 2 ^ n ->
     mle (bp_final pf) (firstn (sc_msg scm) vp) = mle f (firstn (sc_msg scm) vp ++ rev cs) ->
     mle f vp = g vp ->
     batch_claim n points evals (eq_table ts) = csum n g \/
     (exists (j : nat) (m : list K), j < n /\ nth_error rounds j = Some m /\ lucky_round n g vp j m) \/
     (exists (i : nat) (m : list K),
        i < nr /\
        nth_error (bp_msgs pf) i = Some m /\
        degree_2_zero_plus_one m <> Some (round_value f vp cs i 0 + round_value f vp cs i 1)%F /\
        degree_2_eval m (nth i cs 0%F) = Some (round_value f vp cs i (nth i cs 0%F)) /\
        (forall l : list K,
         NoDup l ->
         (forall x : K, In x l -> degree_2_eval m x = Some (round_value f vp cs i x)) -> length l <= 2))).
Proof. exact @accepted_general_messages. Qed.
Print Assumptions C57_general_messages_partial.
(** An opening of two polynomials at two points that meets the hypotheses: g is the sum of the polynomials times the indicators of their points. *)
Definition xp2 : list F101 := map z [4; 5; 6]%Z.
Definition gb_ts : list F101 := fst (challenges hval lbl_batch 1 []).
Definition gb_eq (x p : list F101) : F101 := mle (eq_table p) x.
Definition gb_g (x : list F101) : F101 :=
  fadd (fmul (nth 0 (eq_table gb_ts) f0) (fmul (mle msg3 x) (gb_eq x xp))) (fmul (nth 1 (eq_table gb_ts) f0) (fmul (mle msg3' x) (gb_eq x xp2))).
(** The honest message of a round, from its values at 0, 1 and 2; 51 is the inverse of 2. *)
Definition gb_msg (cs : list F101) (i : nat) : list F101 :=
  let v x := round_sum_of 3 gb_g cs i x in
  let a := v f0 in let b := v f1 in let c2 := fmul (z 51) (fadd (fsub (v (z 2)) (fadd b b)) a) in
  [a; fsub (fsub b a) c2; c2].
Fixpoint gb_rounds (k : nat) (cs : list F101) (h : @hist F101) : list (list F101) * list F101 * @hist F101 :=
  match k with O => ([], cs, h) | S k' =>
    let m := gb_msg cs (length cs) in let '(c, h1) := get_challenge hval lbl_sumcheck (absorb h m) in
    let '(ms, cs', h') := gb_rounds k' (cs ++ [c]) h1 in (m :: ms, cs', h') end.
Definition gb_vp : list F101 := let '(_, cs, _) := gb_rounds 3 [] (snd (challenges hval lbl_batch 1 [])) in cs.
(** The combination of the polynomials that is folded. *)
Definition gb_f : list F101 := map (fun p => fadd (fmul (fmul (nth 0 (eq_table gb_ts) f0) (gb_eq gb_vp xp)) (fst p)) (fmul (fmul (nth 1 (eq_table gb_ts) f0) (gb_eq gb_vp xp2)) (snd p))) (combine msg3 msg3').
Definition gb_proof : option (list (@commitment D2) * @bproof F101 F101 D2 * list F101) :=
  let '(ms, vp, h2) := gb_rounds 3 [] (snd (challenges hval lbl_batch 1 [])) in
  c1 <- xcommit 3 msg3 ;; c2 <- xcommit 3 msg3' ;; m1 <- to_commitment c1 ;; m2 <- to_commitment c2 ;;
  cw <- xcommit 3 gb_f ;; o <- xopen 3 gb_f cw vp h2 ;;
  qs <- match bp_queries (fst o) with QSingle qs => Some qs | _ => None end ;;
  qs' <- omapM (fun p => let i := q_index (sq_comm (snd p)) in
     let at_ cw w := (path <- merkle_path (cw_tree cw) i ;; Some (mkQ (PExt (nth (2 * (i / 2)) w f0) (nth (2 * (i / 2) + 1) w f0)) i path)) in
     q1 <- at_ c1 (word_of msg3) ;; q2 <- at_ c2 (word_of msg3') ;;
     Some (fst p, mkBq (sq_oracle (snd p)) [q1; q2])) qs ;;
  vr <- verifier_rounds dg hval 2 0 2 (bp_msgs (fst o)) (bp_roots (fst o)) h2 ;;
  Some ([m1; m2], mkBp (bp_msgs (fst o)) (bp_roots (fst o)) (bp_final (fst o)) (QBatched qs') (Some ms) [], fst vr).
Definition gb_verify (a b : F101) (comms : list (@commitment D2)) (pf : @bproof F101 F101 D2) : bool :=
  match batch_verify ab (fun x => x) hb h2 deq dg hval tu 0 xs comms [xp; xp2] [mkEval 0 0 a; mkEval 1 1 b] pf [] with Some _ => true | None => false end.
Example C57_ex_general :
  match gb_proof with None => None | Some (comms, pf, cs) =>
    Some (gb_verify (mle msg3 xp) (mle msg3' xp2) comms pf, gb_verify (mle msg3 xp) (mle msg3' xp) comms pf,
          feqb (mle (bp_final pf) (firstn (sc_msg xs) gb_vp)) (mle gb_f (firstn (sc_msg xs) gb_vp ++ rev cs)) && feqb (mle gb_f gb_vp) (gb_g gb_vp) &&
          feqb (csum 3 gb_g) (batch_claim 3 [xp; xp2] [mkEval 0 0 (mle msg3 xp); mkEval 1 1 (mle msg3' xp2)] (eq_table gb_ts))) end = Some (true, false, true).
Proof. vm_compute. reflexivity. Qed.

(** C57, in part, for several commitments.  An accepted batched opening has checked, at every sampled position, that the word of each round, with the committed words of the polynomials of that size added under their weights, folds to the word of the next round and at the end to the final codeword, or a collision of the hash is found among the openings of the proof; provided that the proof carries one query for each sampled position and the Merkle openings are of the right kind and height, those of the rounds at their sampled positions.  Here the positions in the commitments are checked by the verifier.  Missing: the guards and the distance argument. *)
Theorem C57_general_queries_partial :
  forall (K : field) (B D : Type) (as_bases : K -> list B) (emb : B -> K) (hash_bases : list B -> D)
    (hash_two_digests : D -> D -> D) (deqb : D -> D -> bool) (dig : D -> list ev) (T : hist -> K)
    (to_usize : K -> nat) (nbits : nat) (scm : scheme),
  (forall x y : D, deqb x y = true <-> x = y) ->
  (forall x y : B, {x = y} + {x <> y}) ->
  forall (nb : nat) (comms : list commitment) (points : list (list K)) (evals : list evaluation) 
    (pf : bproof) (h h' : hist) (qs : list (nat * bquery)) (W : nat -> list K) (tW : nat -> mtree)
    (O0 : nat -> list K) (trees : nat -> mtree),
  (forall e : K, length (as_bases e) = nb) ->
  (forall e e' : K, as_bases e = as_bases e' -> e = e') ->
  0 < sc_rate scm ->
  let n := fold_left Nat.max (map (length (A:=K)) points) 0 in
  let nr := n - sc_msg scm in
  batch_verify as_bases emb hash_bases hash_two_digests deqb dig T to_usize nbits scm comms points evals pf h =
  Some h' ->
  points <> [] ->
  sc_msg scm < n ->
  bp_queries pf = QBatched qs ->
  length qs = sc_nq scm ->
  (forall (j : nat) (c : commitment) (m : nat),
   nth_error comms j = Some c ->
   bc_nv c = Some m ->
   length (W j) = 2 ^ (m + sc_rate scm) /\
   from_batch_leaves as_bases emb hash_bases hash_two_digests [CExt (W j)] = Some (tW j) /\
   mt_root (tW j) = Some (bc_root c)) ->
  O0 0 = repeat 0%F (2 ^ (n + sc_rate scm)) ->
  (forall i : nat,
   0 < i < nr ->
   length (O0 i) = 2 ^ (n + sc_rate scm - i) /\
   from_batch_leaves as_bases emb hash_bases hash_two_digests [CExt (O0 i)] = Some (trees i)) ->
  (forall j : nat, j < nr - 1 -> mt_root (trees (S j)) = nth_error (bp_roots pf) j) ->
  final_codeword_batch scm (bp_final pf) = Some (O0 nr) ->
  length (O0 nr) = 2 ^ (n + sc_rate scm - nr) ->
  (forall (x : nat) (q : bquery),
   In (x, q) qs ->
   length (bq_oracle q) = nr - 1 /\
   (forall (j : nat) (o : qres),
    nth_error (bq_oracle q) j = Some o -> placed o (x / 2 ^ S j) (n + sc_rate scm - S j - 1)) /\
   (forall (j : nat) (o : qres) (c : commitment) (m : nat),
    nth_error (bq_comms q) j = Some o ->
    nth_error comms j = Some c ->
    bc_nv c = Some m -> length (q_path o) = m + sc_rate scm - 1 /\ (exists a b : K, q_pts o = PExt a b))) ->
  exists
    (ts : list K) (h1 : hist) (rounds : list (list K)) (target nt : K) (vp : list K) 
  (h2 : hist) (coeffs cs : list K) (h3 : hist),
    challenges T lbl_batch (Nat.log2_up (length evals)) h = (ts, h1) /\
    bp_sumcheck pf = Some rounds /\
    sc_verify T n target rounds h1 = Some (nt, vp, h2) /\
    length coeffs = length comms /\
    (forall j : nat, nth j coeffs 0%F = poly_weight points evals (eq_table ts) vp j) /\
    verifier_rounds dig T nr 0 nr (bp_msgs pf) (bp_roots pf) h2 = Some (cs, h3) /\
    ((forall x : nat,
      In x (fst (query_indices T to_usize scm n (absorb h3 (bp_final pf)))) ->
      forall i : nat, i < nr -> gfold_at scm n nr comms coeffs W O0 cs i x) \/
     (exists (x : nat) (q : bquery),
        In (x, q) qs /\
        ((exists (j : nat) (o : qres),
            nth_error (bq_comms q) j = Some o /\
            opening_collision as_bases emb hash_bases hash_two_digests o (W j)) \/
         (exists (j : nat) (o : qres),
            nth_error (bq_oracle q) j = Some o /\
            opening_collision as_bases emb hash_bases hash_two_digests o (O0 (S j)))))).
Proof. exact @accepted_general_queries. Qed.
Print Assumptions C57_general_queries_partial.
(** The opening of the example meets the guards. *)
Example C57_ex_general_guards :
  match gb_proof with None => false | Some (comms, pf, _) => match bp_queries pf with QBatched qs =>
    (length qs =? sc_nq xs)%nat && (0 <? sc_rate xs)%nat && forallb (fun c => match bc_nv c with Some m => (m =? 3)%nat | None => false end) comms &&
    (length (word_of msg3) =? 16)%nat && (length (word_of msg3') =? 16)%nat &&
    forallb (fun p => (length (bq_oracle (snd p)) =? 1)%nat && forallb (fun o => placed_ok o (fst p / 2) 2) (bq_oracle (snd p)) &&
      (length (bq_comms (snd p)) =? 2)%nat && forallb (fun o => (length (q_path o) =? 3)%nat && match q_pts o with PExt _ _ => true | _ => false end) (bq_comms (snd p))) qs
    | _ => false end end = true.
Proof. vm_compute. reflexivity. Qed.

