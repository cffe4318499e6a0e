(** Property C57: the sum-check messages of an accepted Basefold opening. *)
From Coq Require Import List Arith Lia Bool ZArith.
From Verif Require Import ListAux FieldDef FpInst FpGold MleMath M_Mle M_Tensor M_Sumcheck M_Fft M_Hash M_Merkle M_Code M_Basefold P_Mle P_Eq P_Merkle P_Merkle2 P_Basefold P_Basefold2 P_Basefold3 P_Basefold4 P_BasefoldSc Props_Basefold.
Import ListNotations.

(** C57, in part.  Take any polynomial f with which the final message of an accepted opening agrees, with the last variables fixed to the challenges.  Then the opened value is f at the point, or in some round the message sent is not the honest one and yet agrees with it at the challenge, of which there are at most two.  Missing: that the final message agrees with the committed polynomial (the distance argument, on top of C57_queries_partial). *)
Theorem C57_messages_partial :
  forall (K : field) (B D : Type) (as_bases : K -> list B) (emb : B -> K) (hash_bases : list B -> D)
    (hash_two_digests : D -> D -> D) (deqb : D -> D -> bool) (dig : D -> list ev) (T : hist -> K)
    (to_usize : K -> nat) (nbits : nat) (scm : scheme) (sched : nat -> list nat) (comm : commitment)
    (point : list K) (e : K) (pf : bproof) (h h' : hist),
  let n := length point in
  let nr := n - sc_msg scm in
  verify as_bases emb hash_bases hash_two_digests deqb dig T to_usize nbits scm sched comm point e pf h =
  Some h' ->
  bp_trivial pf = [] ->
  sc_msg scm < n ->
  exists (cs : list K) (h1 : hist),
    verifier_rounds dig T nr 0 nr (bp_msgs pf) (bp_roots pf) h = Some (cs, h1) /\
    length cs = nr /\
    (forall f : list K,
     length f = 2 ^ n ->
     mle (bp_final pf) (firstn (sc_msg scm) point) = mle f (firstn (sc_msg scm) point ++ rev cs) ->
     e = mle f point \/
     (exists (i : nat) (m : list K),
        i < nr /\
        nth_error (bp_msgs pf) i = Some m /\
        degree_2_zero_plus_one m <> Some (round_value f point cs i 0 + round_value f point cs i 1)%F /\
        degree_2_eval m (nth i cs 0%F) = Some (round_value f point cs i (nth i cs 0%F)) /\
        (forall l : list K,
         NoDup l ->
         (forall x : K, In x l -> degree_2_eval m x = Some (round_value f point cs i x)) -> length l <= 2))).
Proof. exact @accepted_messages. Qed.
Print Assumptions C57_messages_partial.
(** The honest proof of the example meets the hypotheses: two rounds, and a final message that agrees with the polynomial. *)
Example C57_ex_messages :
  match xcommit 3 msg3 with None => false | Some cw => match to_commitment cw with None => false | Some comm =>
  match xopen 3 msg3 cw xp [] with None => false | Some (pf, _) =>
  match xverify (seq_sched 3) comm xp (mle msg3 xp) pf [] with None => false | Some _ =>
  match verifier_rounds dg hval 2 0 2 (bp_msgs pf) (bp_roots pf) [] with None => false | Some (cs, _) =>
    match bp_trivial pf with [] => true | _ => false end && (sc_msg xs <? 3)%nat && (length cs =? 2)%nat &&
    feqb (mle (bp_final pf) (firstn (sc_msg xs) xp)) (mle msg3 (firstn (sc_msg xs) xp ++ rev cs)) end end end end end = true.
Proof. vm_compute. reflexivity. Qed.

(** C57, in part.  Two accepted openings at one point, under any transcripts, whose final messages are both those of one polynomial, open to the same value, or one of them sent a message that is not the honest one and yet agrees with it at its challenge.  Missing: as for C57_messages_partial. *)
Theorem C57_one_value_partial :
  forall (K : field) (B D : Type) (as_bases : K -> list B) (emb : B -> K) (hash_bases : list B -> D)
    (hash_two_digests : D -> D -> D) (deqb : D -> D -> bool) (dig : D -> list ev) (T : hist -> K)
    (to_usize : K -> nat) (nbits : nat) (scm : scheme) (sched sched' : nat -> list nat)
    (comm comm' : commitment) (point f : list K) (e e' : K) (pf pf' : bproof) (h h' h1 h1' : hist),
  verify as_bases emb hash_bases hash_two_digests deqb dig T to_usize nbits scm sched comm point e pf h =
  Some h1 ->
  verify as_bases emb hash_bases hash_two_digests deqb dig T to_usize nbits scm sched' comm' point e' pf' h' =
  Some h1' ->
  bp_trivial pf = [] ->
  bp_trivial pf' = [] ->
  sc_msg scm < length point ->
  length f = 2 ^ length point ->
  final_of dig T scm f point pf h ->
  final_of dig T scm f point pf' h' ->
  e = e' \/ lucky_opening dig T scm f point pf h \/ lucky_opening dig T scm f point pf' h'.
Proof. exact @one_value. Qed.
Print Assumptions C57_one_value_partial.
(** Two honest openings of the example, under different transcripts, with different messages. *)
Example C57_ex_one_value :
  let go h := match xcommit 3 msg3 with None => None | Some cw => match to_commitment cw with None => None | Some comm =>
    match xopen 3 msg3 cw xp h with None => None | Some (pf, _) =>
    match xverify (seq_sched 3) comm xp (mle msg3 xp) pf h with None => None | Some _ =>
    match verifier_rounds dg hval 2 0 2 (bp_msgs pf) (bp_roots pf) h with None => None | Some (cs, _) =>
      Some (cs, feqb (mle (bp_final pf) (firstn (sc_msg xs) xp)) (mle msg3 (firstn (sc_msg xs) xp ++ rev cs))) end end end end end in
  match go [], go (absorb [] [z 7]) with Some (cs, true), Some (cs', true) => negb (seq101 cs cs') | _, _ => false end = true.
Proof. vm_compute. reflexivity. Qed.

