(** Property C57: the queries of an accepted simple batched Basefold opening. *)
From Coq Require Import List Arith Lia Bool ZArith.
From Verif Require Import ListAux FieldDef FpInst FpGold MleMath M_Mle M_Tensor M_Sumcheck M_Fft M_Hash M_Merkle M_Code M_Basefold P_Mle P_Eq P_Merkle P_Merkle2 P_Basefold P_Basefold2 P_Basefold3 P_Basefold4 P_BasefoldSc P_BasefoldSb Props_Basefold.
Import ListNotations.

(** C57, in part, for several polynomials under one commitment.  An accepted simple batched opening has checked, at every sampled position, that the committed columns, combined with the batching coefficients, fold through the oracles of all rounds to the final codeword, or a collision of the hash is found among the openings of the proof; provided that the proof carries one query for each sampled position, one pair of values for each column, and each Merkle opening is at its sampled position.  Missing: these guards, which the verifier does not check, and the distance argument. *)
Theorem C57_batch_queries_partial :
  forall (K : field) (B D : Type) (as_bases : K -> list B) (emb : B -> K) (hash_bases : list B -> D)
    (hash_two_digests : D -> D -> D) (deqb : D -> D -> bool) (dig : D -> list ev) (T : hist -> K)
    (to_usize : K -> nat) (nbits : nat) (scm : scheme),
  (forall x y : D, deqb x y = true <-> x = y) ->
  (forall x y : B, {x = y} + {x <> y}) ->
  forall (nb : nat) (comm : commitment) (point evals : list K) (pf : bproof) (h h' : hist)
    (qs : list (nat * sbquery)) (cols : list (list K)) (t0 : mtree) (O0 : nat -> list K) 
    (trees : nat -> mtree),
  (forall e : K, length (as_bases e) = nb) ->
  (forall e e' : K, as_bases e = as_bases e' -> e = e') ->
  let n := length point in
  let nr := n - sc_msg scm in
  simple_batch_verify as_bases emb hash_bases hash_two_digests deqb dig T to_usize nbits scm comm point evals pf
    h = Some h' ->
  bp_trivial pf = [] ->
  sc_msg scm < n ->
  bp_queries pf = QSimpleBatched qs ->
  length qs = sc_nq scm ->
  cols <> [] ->
  (forall c : list K, In c cols -> length c = 2 ^ (n + sc_rate scm)) ->
  from_batch_leaves as_bases emb hash_bases hash_two_digests (map CExt cols) = Some t0 ->
  mt_root t0 = Some (bc_root comm) ->
  (forall i : nat,
   0 < i < nr ->
   length (O0 i) = 2 ^ (n + sc_rate scm - i) /\
   from_batch_leaves as_bases emb hash_bases hash_two_digests [CExt (O0 i)] = Some (trees i)) ->
  (forall j : nat, j < nr - 1 -> mt_root (trees (S j)) = nth_error (bp_roots pf) j) ->
  final_codeword_batch scm (bp_final pf) = Some (O0 nr) ->
  length (O0 nr) = 2 ^ (n + sc_rate scm - nr) ->
  (forall (x : nat) (q : sbquery),
   In (x, q) qs ->
   (exists l : list (K * K), sb_placed (sbq_comm q) l x (n + sc_rate scm - 1) (length cols)) /\
   length (sbq_oracle q) = nr - 1 /\
   (forall (j : nat) (o : qres),
    nth_error (sbq_oracle q) j = Some o -> placed o (x / 2 ^ S j) (n + sc_rate scm - S j - 1))) ->
  exists (ts : list K) (h0 : hist) (coeffs cs : list K) (h1 : hist),
    challenges T lbl_batch (Nat.log2_up (length evals)) h = (ts, h0) /\
    coeffs = firstn (length evals) (eq_table ts) /\
    verifier_rounds dig T nr 0 nr (bp_msgs pf) (bp_roots pf) h0 = Some (cs, h1) /\
    (O0 0 = map (combined coeffs cols) (seq 0 (2 ^ (n + sc_rate scm))) ->
     (forall x : nat,
      In x (fst (query_indices T to_usize scm n (absorb h1 (bp_final pf)))) ->
      forall i : nat, i < nr -> fold_at scm n O0 cs i x) \/
     (exists (x : nat) (q : sbquery),
        In (x, q) qs /\
        ((exists l : list (K * K), batch_collision as_bases emb hash_bases hash_two_digests (sbq_comm q) l cols) \/
         (exists (j : nat) (o : qres),
            nth_error (sbq_oracle q) j = Some o /\
            opening_collision as_bases emb hash_bases hash_two_digests o (O0 (S j)))))).
Proof. exact @accepted_batch_queries. Qed.
Print Assumptions C57_batch_queries_partial.
(** An opening of two polynomials that meets the hypotheses: the rounds are those of the honest proof for the combined
    polynomial, the first openings are those of the tree of both columns. *)
Definition msg3' : list F101 := map z [2; 7; 1; 8; 2; 8; 1; 8]%Z.
Definition sb_cols : list (list F101) := [word_of msg3; word_of msg3'].
Definition sb_coeffs : list F101 := let '(ts, _) := challenges hval lbl_batch 1 [] in eq_table ts.
Definition sb_mix (f g : list F101) : list F101 := map (fun p => fadd (fmul (nth 0 sb_coeffs f0) (fst p)) (fmul (nth 1 sb_coeffs f0) (snd p))) (combine f g).
Definition sb_proof : option (@commitment D2 * @bproof F101 F101 D2) :=
  let '(_, h0) := challenges hval lbl_batch 1 [] in
  t <- from_batch_leaves ab (fun x => x) hb h2 (map CExt sb_cols) ;; r <- mt_root t ;;
  cw <- xcommit 3 (sb_mix msg3 msg3') ;;
  o <- xopen 3 (sb_mix msg3 msg3') cw xp h0 ;;
  qs <- match bp_queries (fst o) with QSingle qs => Some qs | _ => None end ;;
  qs' <- omapM (fun p => let i := q_index (sq_comm (snd p)) in
     path <- merkle_path t i ;; l <- get_leaf_as_extension (fun x => x) t (2 * (i / 2)) ;; r <- get_leaf_as_extension (fun x => x) t (2 * (i / 2) + 1) ;;
     Some (fst p, mkSbq (sq_oracle (snd p)) (mkSb (LExt (combine l r)) i path))) qs ;;
  Some (mkComm r (Some 3) false (Some 2), mkBp (bp_msgs (fst o)) (bp_roots (fst o)) (bp_final (fst o)) (QSimpleBatched qs') None []).
Example C57_ex_batch : 
  match sb_proof with None => None | Some (comm, pf) => match bp_queries pf with QSimpleBatched qs =>
    Some (match simple_batch_verify ab (fun x => x) hb h2 deq dg hval tu 0 xs comm xp [mle msg3 xp; mle msg3' xp] pf [] with Some _ => true | None => false end,
          match simple_batch_verify ab (fun x => x) hb h2 deq dg hval tu 0 xs comm xp [mle msg3' xp; mle msg3 xp] pf [] with Some _ => true | None => false end,
          (length qs =? sc_nq xs)%nat && forallb (fun c => length c =? 16)%nat sb_cols &&
          forallb (fun p => let q := sbq_comm (snd p) in (sb_index q / 2 =? fst p / 2)%nat && (length (sb_path q) =? 3)%nat && match sb_leaves q with LExt l => (length l =? 2)%nat | _ => false end &&
             (length (sbq_oracle (snd p)) =? 1)%nat && forallb (fun o => placed_ok o (fst p / 2) 2) (sbq_oracle (snd p))) qs) | _ => None end end = Some (true, false, true).
Proof. vm_compute. reflexivity. Qed.

(** C57, in part, for several polynomials under one commitment.  Take any polynomial f with which the final message of an accepted simple batched opening agrees, with the last variables fixed to the challenges.  Then the combination of the claimed values with the batching coefficients is f at the point, or in some round the message sent is not the honest one and yet agrees with it at the challenge, of which there are at most two.  Missing: as for C57_messages_partial. *)
Theorem C57_batch_messages_partial :
  forall (K : field) (B D : Type) (as_bases : K -> list B) (emb : B -> K) (hash_bases : list B -> D)
    (hash_two_digests : D -> D -> D) (deqb : D -> D -> bool) (dig : D -> list ev) (T : hist -> K)
    (to_usize : K -> nat) (nbits : nat) (scm : scheme) (comm : commitment) (point evals : list K) 
    (pf : bproof) (h h' : hist),
  let n := length point in
  let nr := n - sc_msg scm in
  simple_batch_verify as_bases emb hash_bases hash_two_digests deqb dig T to_usize nbits scm comm point evals pf
    h = Some h' ->
  bp_trivial pf = [] ->
  sc_msg scm < n ->
  exists (ts : list K) (h0 : hist) (cs : list K) (h1 : hist),
    challenges T lbl_batch (Nat.log2_up (length evals)) h = (ts, h0) /\
    verifier_rounds dig T nr 0 nr (bp_msgs pf) (bp_roots pf) h0 = Some (cs, h1) /\
    length cs = nr /\
    (forall f : list K,
     length f = 2 ^ n ->
     mle (bp_final pf) (firstn (sc_msg scm) point) = mle f (firstn (sc_msg scm) point ++ rev cs) ->
     fsum (map (fun p : K * K => (fst p * snd p)%F) (combine (eq_table ts) evals)) = mle f point \/
     (exists (i : nat) (m : list K),
        i < nr /\
        nth_error (bp_msgs pf) i = Some m /\
        degree_2_zero_plus_one m <> Some (round_value f point cs i 0 + round_value f point cs i 1)%F /\
        degree_2_eval m (nth i cs 0%F) = Some (round_value f point cs i (nth i cs 0%F)) /\
        (forall l : list K,
         NoDup l ->
         (forall x : K, In x l -> degree_2_eval m x = Some (round_value f point cs i x)) -> length l <= 2))).
Proof. exact @accepted_batch_messages. Qed.
Print Assumptions C57_batch_messages_partial.
(** The final message of the example agrees with the combined polynomial. *)
Example C57_ex_batch_messages :
  match sb_proof with None => false | Some (_, pf) => let '(_, h0) := challenges hval lbl_batch 1 [] in
  match verifier_rounds dg hval 2 0 2 (bp_msgs pf) (bp_roots pf) h0 with None => false | Some (cs, _) =>
    (length cs =? 2)%nat && feqb (mle (bp_final pf) (firstn (sc_msg xs) xp)) (mle (sb_mix msg3 msg3') (firstn (sc_msg xs) xp ++ rev cs)) end end = true.
Proof. vm_compute. reflexivity. Qed.

