(** Properties C45, C56 and C57: the foldable codes and the Basefold commitment. *)
From Coq Require Import List Arith Lia Bool ZArith.
From Verif Require Import ListAux FieldDef FpInst FpGold MleMath M_Mle M_Tensor M_Sumcheck M_Fft M_Hash M_Merkle M_Code M_Basefold P_Mle P_Eq P_Merkle P_Merkle2 P_Code P_Code2 P_Code3 P_Basefold P_Basefold2 P_Basefold3 P_Basefold4 P_Basefold5 P_Basefold6.
Import ListNotations.

(** ** Schemes for the examples *)
(** The parameters of the code over Goldilocks: p3's generator of the group of order 2^32 and its coset shift 7. *)
Definition g32 : Fgold := mkFp gold 1753635133440165772.
Definition g7 : Fgold := mkFp gold 7.
Example C45_ex_goldilocks : exp_power_of_2 g32 31 = fopp f1 /\ g7 <> f0 /\ fadd f1 f1 <> (f0 : Fgold).
Proof. split; [apply feqb_spec; vm_compute; reflexivity|]. split; apply feqb_false; vm_compute; reflexivity. Qed.
(** Every size the library allows gives a scheme the theorems are about. *)
Example C45_ex_rs rate msg nq setup_max max : msg <= max -> max <= setup_max -> setup_max + rate <= 32 ->
  exists pp vp, rs_setup_trim g32 g7 rate msg setup_max max = Some (pp, vp) /\ valid_scheme (rs_scheme g7 rate msg nq pp vp).
Proof.
  destruct C45_ex_goldilocks as (E1 & E2 & E3). intros H1 H2 H3. eexists. eexists. split; [now apply setup_trim_ok|].
  apply (VRs g32 g7 rate msg nq setup_max max); auto. now apply setup_trim_ok.
Qed.
Definition flat (i : nat) : F101 := fnat (i + 1).
Definition tabs := match bc_tables flat 4 with Some x => x | None => ([], []) end.
Definition xs : @scheme F101 := bc_scheme flat 1 1 2 3 (fst tabs) (snd tabs).
Example C45_ex_bc : valid_scheme xs.
Proof.
  apply VBc. unfold tabs. assert (E : match bc_tables flat 4 with Some _ => true | None => false end = true) by (vm_compute; reflexivity).
  change (3 + 1) with 4. destruct (bc_tables flat 4) as [[a b]|]; [reflexivity|discriminate E].
Qed.
Definition z (n : Z) : F101 := mkFp 101 n.
Definition msg3 : list F101 := map z [3; 1; 4; 1; 5; 9; 2; 6]%Z.
Definition seq101 (a b : list F101) : bool := (length a =? length b)%nat && forallb (fun p => feqb (fst p) (snd p)) (combine a b).
Definition word_of (f : list F101) : list F101 := match evals_codeword xs f with Some (_, w) => w | None => [] end.
(** A fold of a codeword of eight values, and the codeword of the folded table; the code word is not a constant. *)
Example C45_ex_fold : length (word_of msg3) = 16 /\ seq101 (word_of msg3) (repeat (z 1) 16) = false /\
  match one_round (sc_pcoef xs) 3 (word_of msg3) (z 10) with Some w => seq101 w (word_of (fixed 3 msg3 [z 10])) && (length w =? 8)%nat | None => false end = true /\
  match one_round (sc_pcoef xs) 3 (word_of msg3) (z 11) with Some w => seq101 w (word_of (fixed 3 msg3 [z 10])) | None => true end = false.
Proof. vm_compute. repeat split; reflexivity. Qed.

(** ** C45 *)

(** C45.  For both codes: folding the codeword of a table with a challenge gives the codeword of the table with its last variable set to the challenge, at the next level, with the coefficients of the prover as well as with those of the verifier. *)
Theorem C45_fold_codeword :
  forall (K : field) (sc : scheme),
  valid_scheme sc ->
  forall (n : nat) (f : list K) (c : K),
  sc_msg sc <= n < sc_max sc ->
  0 < n ->
  length f = 2 ^ S n ->
  exists bh bh' word word' : list K,
    evals_codeword sc f = Some (bh, word) /\
    length word = 2 ^ (S n + sc_rate sc) /\
    evals_codeword sc (fixed (S n) f [c]) = Some (bh', word') /\
    one_round (sc_pcoef sc) (n + sc_rate sc) word c = Some word' /\
    one_round (sc_vcoef sc) (n + sc_rate sc) word c = Some word'.
Proof. exact @fold_codeword. Qed.
Print Assumptions C45_fold_codeword.

(** The message of a codeword is the list of monomial coefficients of the multilinear extension of the table. *)
Theorem C45_interpolation :
  forall (K : field) (l : list K) (n : nat),
  0 < n ->
  length l = 2 ^ n ->
  exists c : list K,
    interpolate_hc l = Some c /\
    length c = 2 ^ n /\
    (forall r : list K,
     length r = n ->
     sumn (2 ^ n)
       (fun i : nat =>
        (nth i c 0 * fprod (map (fun j : nat => if Nat.testbit i j then nth j r 0 else 1) (seq 0 n)))%F) =
     mle l r).
Proof. exact @interpolation_spec. Qed.
Print Assumptions C45_interpolation.

(** The Reed-Solomon codeword is the list of values of the message polynomial on a coset of the group of roots of unity; short messages are encoded alike by the verifier. *)
Theorem C45_rs_encoding :
  forall (K : field) (generator32 GENERATOR : K) (rate msg setup_max max : nat) (pp vp : rs_params),
  exp_power_of_2 generator32 31 = (- (1))%F ->
  GENERATOR <> 0%F ->
  (1 + 1)%F <> (0%F : K) ->
  msg <= max ->
  max <= setup_max ->
  setup_max + rate <= 32 ->
  rs_setup_trim generator32 GENERATOR rate msg setup_max max = Some (pp, vp) ->
  forall n : nat,
  msg <= n <= max ->
  exists omega shift : K,
    fpow omega (2 ^ (n + rate)) = 1%F /\
    (0 < n + rate -> fpow omega (2 ^ (n + rate - 1)) = (- (1))%F) /\
    shift <> 0%F /\
    (forall c : list K,
     length c = 2 ^ n ->
     exists cw : list K,
       rs_encode GENERATOR rate msg pp c = Some cw /\
       length cw = 2 ^ (n + rate) /\
       (n = msg -> rs_encode_small GENERATOR rate vp c = Some cw) /\
       (forall j : nat,
        j < 2 ^ (n + rate) ->
        nth j cw 0%F = sumn (2 ^ n) (fun i : nat => (nth i c 0 * fpow (shift * fpow omega j) i)%F))).
Proof. exact @rs_encoding. Qed.
Print Assumptions C45_rs_encoding.

(** The codeword the verifier computes from the final message is the codeword of that table. *)
Theorem C45_final_word :
  forall (K : field) (sc : scheme),
  valid_scheme sc ->
  0 < sc_msg sc <= sc_max sc ->
  forall f : list K,
  length f = 2 ^ sc_msg sc ->
  exists bh word : list K,
    evals_codeword sc f = Some (bh, word) /\
    final_codeword_single sc f = Some word /\ final_codeword_batch sc f = Some word.
Proof. exact @final_word. Qed.
Print Assumptions C45_final_word.

(** The commit phase of an honest prover: every oracle is the codeword of the polynomial with its last variables fixed to the challenges so far, the final message is the fully folded table, and the verifier derives the same challenges. *)
Theorem C45_oracles :
  forall (K : field) (B D : Type) (as_bases : K -> list B) (emb : B -> K) (hash_bases : list B -> D)
    (hash_two_digests : D -> D -> D) (deqb : D -> D -> bool) (dig : D -> list ev) (T : hist -> K) 
    (nbits : nat) (scm : scheme),
  (forall x y : D, deqb x y = true <-> x = y) ->
  valid_scheme scm ->
  forall (point evals : list K) (h : hist),
  0 < sc_msg scm < length point ->
  length point <= sc_max scm ->
  length evals = 2 ^ length point ->
  let n := length point in
  let k := n - sc_msg scm in
  exists
    (bh oracle0 : list K) (trees : list mtree) (msgs : list (list K)) (roots : list D) 
  (final : list K) (h' : hist) (cs : list K) (h1 : hist),
    evals_codeword scm evals = Some (bh, oracle0) /\
    commit_phase as_bases emb hash_bases hash_two_digests dig T nbits scm point oracle0 bh k h =
    Some (trees, msgs, roots, final, h') /\
    verifier_rounds dig T k 0 k msgs roots h = Some (cs, h1) /\
    h' = absorb h1 final /\
    length cs = k /\
    final = fixed n evals cs /\
    (forall j : nat,
     j < k - 1 ->
     exists (t : mtree) (oracle : list K) (r : D),
       nth_error trees j = Some t /\
       mt_leaves t = [CExt oracle] /\
       mt_root t = Some r /\
       nth_error roots j = Some r /\
       (exists bh' : list K, evals_codeword scm (fixed n evals (firstn (S j) cs)) = Some (bh', oracle))).
Proof. exact @oracles_are_codewords. Qed.
Print Assumptions C45_oracles.

(** ** C56 *)
(** A toy hash for the examples: a pair of elements is its own digest, two digests are mixed by a polynomial. *)
Definition D2 := (F101 * F101)%type.
Definition hb (l : list F101) : D2 := match l with [a; b] => (a, b) | _ => (fsum l, f0) end.
Definition h2 (x y : D2) : D2 := (fadd (fmul (z 3) (fst x)) (fadd (snd x) (fmul (fst y) (fst y))), fadd (fmul (snd y) (z 7)) (fmul (fst x) (snd y))).
Definition deq (x y : D2) : bool := feqb (fst x) (fst y) && feqb (snd x) (snd y).
Definition dg (x : D2) : list (@ev F101) := [EvFelt (fst x); EvFelt (snd x)].
Fixpoint hval (h : @hist F101) : F101 := match h with [] => z 5 | EvBytes l :: r => fadd (fmul (z 2) (hval r)) (fnat (length l)) | EvFelt x :: r => fadd (fmul (z 3) (hval r)) x | EvSample :: r => fadd (hval r) f1 end.
Definition tu (x : F101) : nat := Z.to_nat (fpv 101 x).
Example C56_ex_deq : forall x y, deq x y = true <-> x = y.
Proof. intros [a b] [c d]. unfold deq. cbn [fst snd]. rewrite andb_true_iff, !feqb_spec. split; [intros [-> ->]; reflexivity|intros E; injection E as -> ->; auto]. Qed.
Notation ab := (fun x : F101 => [x]).
Notation xcommit := (commit ab (fun x => x) hb h2 xs).
Notation xopen := (open ab (fun x => x) hb h2 dg hval tu 0 xs).
Notation xverify := (verify ab (fun x => x) hb h2 deq dg hval tu 0 xs).
Definition xp : list F101 := map z [10; 20; 30]%Z.
Definition run (f p : list F101) (v : F101) : option (bool * nat * nat) :=
  match xcommit (length p) f with None => None | Some cw => match to_commitment cw with None => None | Some comm =>
  match xopen (length p) f cw p [] with None => None | Some (pf, h') =>
    Some (match xverify (seq_sched (length p)) comm p v pf [] with Some h'' => (length h' =? length h'')%nat | None => false end, length (bp_msgs pf), match bp_queries pf with QSingle qs => length qs | _ => 0 end) end end end.
(** A polynomial in three variables is opened with two rounds and two queries; a wrong value is rejected. *)
Example C56_ex_run : run msg3 xp (mle msg3 xp) = Some (true, 2, 2) /\ run msg3 xp (fadd (mle msg3 xp) f1) = Some (false, 2, 2) /\
  run (firstn 2 msg3) (firstn 1 xp) (mle (firstn 2 msg3) (firstn 1 xp)) = Some (true, 0, 0).
Proof. vm_compute. repeat split; reflexivity. Qed.

(** C56.  For both codes, every polynomial, every point and every transcript: commit and open of an honest prover succeed, and the verifier with the same transcript accepts the value of the polynomial at the point and ends with the same transcript. *)
Theorem C56_complete :
  forall (K : field) (B D : Type) (as_bases : K -> list B) (emb : B -> K) (hash_bases : list B -> D)
    (hash_two_digests : D -> D -> D) (deqb : D -> D -> bool) (dig : D -> list ev) (T : hist -> K)
    (to_usize : K -> nat) (nbits : nat) (scm : scheme),
  (forall x y : D, deqb x y = true <-> x = y) ->
  valid_scheme scm ->
  0 < sc_msg scm ->
  forall (evals point : list K) (sched : nat -> list nat) (h : hist),
  0 < length point <= sc_max scm ->
  length evals = 2 ^ length point ->
  valid_sched (length point) sched ->
  exists (cw : commit_wit) (comm : commitment) (pf : bproof) (h' : hist),
    commit as_bases emb hash_bases hash_two_digests scm (length point) evals = Some cw /\
    to_commitment cw = Some comm /\
    open as_bases emb hash_bases hash_two_digests dig T to_usize nbits scm (length point) evals cw point h =
    Some (pf, h') /\
    verify as_bases emb hash_bases hash_two_digests deqb dig T to_usize nbits scm sched comm point
      (mle evals point) pf h = Some h'.
Proof. exact @opening_complete. Qed.
Print Assumptions C56_complete.

Example C56_ex_hyps : valid_scheme xs /\ 0 < sc_msg xs /\ 0 < length xp <= sc_max xs /\ length msg3 = 2 ^ length xp /\ valid_sched (length xp) (seq_sched (length xp)).
Proof. split; [exact C45_ex_bc|]. split; [cbn; lia|]. split; [cbn; lia|]. split; [reflexivity|apply seq_sched_valid]. Qed.

(** ** C57 *)

(** C57, in part.  An accepted opening has checked every sampled position in every round, or a collision of the hash is found among the openings of the proof, provided that the proof carries one query for each sampled position and each Merkle opening is at its sampled position. Missing: these two guards, which the verifier does not check (see the forgeries below), and the distance argument from consistent positions to one polynomial. *)
Theorem C57_queries_partial :
  forall (K : field) (B D : Type) (as_bases : K -> list B) (emb : B -> K) (hash_bases : list B -> D)
    (hash_two_digests : D -> D -> D) (deqb : D -> D -> bool) (dig : D -> list ev) (T : hist -> K)
    (to_usize : K -> nat) (nbits : nat) (scm : scheme),
  (forall x y : D, deqb x y = true <-> x = y) ->
  (forall x y : B, {x = y} + {x <> y}) ->
  forall (nb : nat) (sched : nat -> list nat) (comm : commitment) (point : list K) (e : K) 
    (pf : bproof) (h h' : hist) (qs : list (nat * squery)) (O0 : nat -> list K) (trees : nat -> mtree),
  (forall e0 : K, length (as_bases e0) = nb) ->
  (forall e0 e' : K, as_bases e0 = as_bases e' -> e0 = e') ->
  let n := length point in
  let nr := n - sc_msg scm in
  verify as_bases emb hash_bases hash_two_digests deqb dig T to_usize nbits scm sched comm point e pf h =
  Some h' ->
  bp_trivial pf = [] ->
  sc_msg scm < n ->
  bp_queries pf = QSingle qs ->
  length qs = sc_nq scm ->
  (forall i : nat,
   i < nr ->
   length (O0 i) = 2 ^ (n + sc_rate scm - i) /\
   from_batch_leaves as_bases emb hash_bases hash_two_digests [CExt (O0 i)] = Some (trees i)) ->
  mt_root (trees 0) = Some (bc_root comm) ->
  (forall j : nat, j < nr - 1 -> mt_root (trees (S j)) = nth_error (bp_roots pf) j) ->
  final_codeword_single scm (bp_final pf) = Some (O0 nr) ->
  length (O0 nr) = 2 ^ (n + sc_rate scm - nr) ->
  (forall (x : nat) (q : squery),
   In (x, q) qs ->
   placed (sq_comm q) x (n + sc_rate scm - 1) /\
   length (sq_oracle q) = nr - 1 /\
   (forall (j : nat) (o : qres),
    nth_error (sq_oracle q) j = Some o -> placed o (x / 2 ^ S j) (n + sc_rate scm - S j - 1))) ->
  exists (cs : list K) (h1 : hist),
    verifier_rounds dig T nr 0 nr (bp_msgs pf) (bp_roots pf) h = Some (cs, h1) /\
    ((forall x : nat,
      In x (fst (query_indices T to_usize scm n (absorb h1 (bp_final pf)))) ->
      forall i : nat, i < nr -> fold_at scm n O0 cs i x) \/
     (exists (x : nat) (q : squery),
        In (x, q) qs /\
        (opening_collision as_bases emb hash_bases hash_two_digests (sq_comm q) (O0 0) \/
         (exists (j : nat) (o : qres),
            nth_error (sq_oracle q) j = Some o /\
            opening_collision as_bases emb hash_bases hash_two_digests o (O0 (S j)))))).
Proof. exact @accepted_queries. Qed.
Print Assumptions C57_queries_partial.

(** The guards hold for the honest proof of the example: the openings are at the sampled positions, with the right path lengths. *)
Definition placed_ok (q : @qres F101 F101 D2) (y k : nat) : bool := (q_index q / 2 =? y / 2)%nat && (length (q_path q) =? k)%nat && match q_pts q with PExt _ _ => true | _ => false end.
Example C57_ex_guards :
  match xcommit 3 msg3 with Some cw => match xopen 3 msg3 cw xp [] with Some (pf, _) => match bp_queries pf with QSingle qs =>
    (length qs =? sc_nq xs)%nat && forallb (fun p => placed_ok (sq_comm (snd p)) (fst p) 3 && (length (sq_oracle (snd p)) =? 1)%nat && forallb (fun o => placed_ok o (fst p / 2) 2) (sq_oracle (snd p))) qs
    | _ => false end | None => false end | None => false end = true.
Proof. vm_compute. reflexivity. Qed.

(** The number of queries is not checked: for every commitment and point, a proof without queries of any value is accepted. *)
Theorem C57_no_queries_refuted :
  forall (K : field) (B D : Type) (as_bases : K -> list B) (emb : B -> K) (hash_bases : list B -> D)
    (hash_two_digests : D -> D -> D) (deqb : D -> D -> bool) (dig : D -> list ev) (T : hist -> K)
    (to_usize : K -> nat) (nbits : nat) (scm : scheme),
  valid_scheme scm ->
  0 < sc_msg scm <= sc_max scm ->
  forall (sched : nat -> list nat) (comm : commitment) (point : list K) (eval : K) (roots : list D) (h : hist),
  bc_nv comm = None \/ bc_nv comm = Some (length point) ->
  sc_msg scm < length point ->
  length point <= sc_msg scm + S (length roots) ->
  exists (msgs : list (list K)) (h' : hist),
    verify as_bases emb hash_bases hash_two_digests deqb dig T to_usize nbits scm sched comm point eval
      {|
        bp_msgs := msgs;
        bp_roots := roots;
        bp_final := repeat eval (2 ^ sc_msg scm);
        bp_queries := QSingle [];
        bp_sumcheck := None;
        bp_trivial := []
      |} h = Some h'.
Proof. exact @forge_single. Qed.
Print Assumptions C57_no_queries_refuted.

(** Likewise for the batched opening of one commitment: any values. *)
Theorem C57_no_queries_simple_batch_refuted :
  forall (K : field) (B D : Type) (as_bases : K -> list B) (emb : B -> K) (hash_bases : list B -> D)
    (hash_two_digests : D -> D -> D) (deqb : D -> D -> bool) (dig : D -> list ev) (T : hist -> K)
    (to_usize : K -> nat) (nbits : nat) (scm : scheme),
  valid_scheme scm ->
  0 < sc_msg scm <= sc_max scm ->
  forall (comm : commitment) (point evals : list K) (roots : list D) (h : hist),
  bc_nv comm = None \/ bc_nv comm = Some (length point) ->
  bc_polys comm = None \/ bc_polys comm = Some (length evals) ->
  sc_msg scm < length point ->
  length point <= sc_msg scm + S (length roots) ->
  exists (msgs : list (list K)) (final : list K) (h' : hist),
    simple_batch_verify as_bases emb hash_bases hash_two_digests deqb dig T to_usize nbits scm comm point evals
      {|
        bp_msgs := msgs;
        bp_roots := roots;
        bp_final := final;
        bp_queries := QSimpleBatched [];
        bp_sumcheck := None;
        bp_trivial := []
      |} h = Some h'.
Proof. exact @forge_simple_batch. Qed.
Print Assumptions C57_no_queries_simple_batch_refuted.

(** Likewise for the batched opening of many commitments at many points: any values. *)
Theorem C57_no_queries_batch_refuted :
  forall (K : field) (B D : Type) (as_bases : K -> list B) (emb : B -> K) (hash_bases : list B -> D)
    (hash_two_digests : D -> D -> D) (deqb : D -> D -> bool) (dig : D -> list ev) (T : hist -> K)
    (to_usize : K -> nat) (nbits : nat) (scm : scheme),
  valid_scheme scm ->
  0 < sc_msg scm <= sc_max scm ->
  forall (comms : list commitment) (points : list (list K)) (evals : list evaluation) 
    (roots : list D) (h : hist),
  comms <> [] ->
  points <> [] ->
  (forall c : commitment, In c comms -> exists n : nat, bc_nv c = Some n /\ sc_msg scm <= n) ->
  (forall p : list K, In p points -> p <> []) ->
  (forall e : evaluation,
   In e evals ->
   exists (p : list K) (c : commitment),
     nth_error points (ev_point e) = Some p /\ nth_error comms (ev_poly e) = Some c /\ bc_nv c = Some (length p)) ->
  sc_msg scm < fold_left Nat.max (map (length (A:=K)) points) 0 ->
  fold_left Nat.max (map (length (A:=K)) points) 0 <= sc_msg scm + S (length roots) ->
  exists (msgs rounds : list (list K)) (final : list K) (h' : hist),
    batch_verify as_bases emb hash_bases hash_two_digests deqb dig T to_usize nbits scm comms points evals
      {|
        bp_msgs := msgs;
        bp_roots := roots;
        bp_final := final;
        bp_queries := QBatched [];
        bp_sumcheck := Some rounds;
        bp_trivial := []
      |} h = Some h'.
Proof. exact @forge_batch. Qed.
Print Assumptions C57_no_queries_batch_refuted.

(** The position of an opened leaf is not compared with the sampled position: one commitment opens to any two values, with the full number of queries and valid Merkle paths. *)
Theorem C57_position_refuted :
  forall (K : field) (B D : Type) (as_bases : K -> list B) (emb : B -> K) (hash_bases : list B -> D)
    (hash_two_digests : D -> D -> D) (deqb : D -> D -> bool) (dig : D -> list ev) (T : hist -> K)
    (to_usize : K -> nat) (nbits : nat) (scm : scheme),
  (forall x y : D, deqb x y = true <-> x = y) ->
  valid_scheme scm ->
  forall (point : list K) (v0 v1 : K) (sched : nat -> list nat) (h : hist),
  0 < sc_msg scm < length point ->
  length point <= sc_max scm ->
  exists (comm : commitment) (pf0 pf1 : bproof) (h0 h1 : hist) (qs0 qs1 : list (nat * squery)),
    verify as_bases emb hash_bases hash_two_digests deqb dig T to_usize nbits scm sched comm point v0 pf0 h =
    Some h0 /\
    verify as_bases emb hash_bases hash_two_digests deqb dig T to_usize nbits scm sched comm point v1 pf1 h =
    Some h1 /\
    bp_trivial pf0 = [] /\
    bp_trivial pf1 = [] /\
    bp_queries pf0 = QSingle qs0 /\
    bp_queries pf1 = QSingle qs1 /\ length qs0 = sc_nq scm /\ length qs1 = sc_nq scm.
Proof. exact @lie_about_positions. Qed.
Print Assumptions C57_position_refuted.

(** Indeed every commitment whose leaf pair carries a value twice opens to that value at every point. *)
Theorem C57_leaf_refuted :
  forall (K : field) (B D : Type) (as_bases : K -> list B) (emb : B -> K) (hash_bases : list B -> D)
    (hash_two_digests : D -> D -> D) (deqb : D -> D -> bool) (dig : D -> list ev) (T : hist -> K)
    (to_usize : K -> nat) (nbits : nat) (scm : scheme),
  (forall x y : D, deqb x y = true <-> x = y) ->
  valid_scheme scm ->
  forall (point O0 : list K) (t : mtree) (r : D) (a : nat) (v : K) (sched : nat -> list nat) (h : hist),
  0 < sc_msg scm < length point ->
  length point <= sc_max scm ->
  length O0 = 2 ^ (length point + sc_rate scm) ->
  from_batch_leaves as_bases emb hash_bases hash_two_digests [CExt O0] = Some t ->
  mt_root t = Some r ->
  2 * a + 1 < 2 ^ (length point + sc_rate scm) ->
  nth (2 * a) O0 0%F = v ->
  nth (2 * a + 1) O0 0%F = v ->
  exists (pf : bproof) (h' : hist) (qs : list (nat * squery)),
    verify as_bases emb hash_bases hash_two_digests deqb dig T to_usize nbits scm sched
      {| bc_root := r; bc_nv := Some (length point); bc_is_base := false; bc_polys := Some 1 |} point v pf h =
    Some h' /\ bp_trivial pf = [] /\ bp_queries pf = QSingle qs /\ length qs = sc_nq scm.
Proof. exact @lie_about_position. Qed.
Print Assumptions C57_leaf_refuted.

(** The batched opening of small polynomials does not look at the claimed values: any values are accepted at any point. *)
Theorem C57_trivial_batch_refuted :
  forall (K : field) (B D : Type) (as_bases : K -> list B) (emb : B -> K) (hash_bases : list B -> D)
    (hash_two_digests : D -> D -> D) (deqb : D -> D -> bool) (dig : D -> list ev) (T : hist -> K)
    (to_usize : K -> nat) (nbits : nat) (scm : scheme),
  (forall x y : D, deqb x y = true <-> x = y) ->
  forall (c0 : col) (cols : list col) (t : mtree) (r : D) (point evals : list K) (h : hist),
  from_batch_leaves as_bases emb hash_bases hash_two_digests (c0 :: cols) = Some t ->
  mt_root t = Some r ->
  length evals = S (length cols) ->
  simple_batch_verify as_bases emb hash_bases hash_two_digests deqb dig T to_usize nbits scm
    {|
      bc_root := r;
      bc_nv := Some (Nat.log2 (col_len c0));
      bc_is_base := false;
      bc_polys := Some (S (length cols))
    |} point evals
    {|
      bp_msgs := [];
      bp_roots := [];
      bp_final := [];
      bp_queries := QSimpleBatched [];
      bp_sumcheck := None;
      bp_trivial := c0 :: cols
    |} h = Some h.
Proof. exact @sb_trivial_any. Qed.
Print Assumptions C57_trivial_batch_refuted.

(** The batching challenge does not depend on the claimed values: every accepted batched opening is accepted for other values as well. *)
Theorem C57_simple_batch_malleable :
  forall (K : field) (B D : Type) (as_bases : K -> list B) (emb : B -> K) (hash_bases : list B -> D)
    (hash_two_digests : D -> D -> D) (deqb : D -> D -> bool) (dig : D -> list ev) (T : hist -> K)
    (to_usize : K -> nat) (nbits : nat) (scm : scheme) (comm : commitment) (point evals : list K) 
    (pf : bproof) (h h' : hist),
  2 <= length evals ->
  simple_batch_verify as_bases emb hash_bases hash_two_digests deqb dig T to_usize nbits scm comm point evals pf
    h = Some h' ->
  exists evals' : list K,
    evals' <> evals /\
    length evals' = length evals /\
    simple_batch_verify as_bases emb hash_bases hash_two_digests deqb dig T to_usize nbits scm comm point evals'
      pf h = Some h'.
Proof. exact @sb_malleable. Qed.
Print Assumptions C57_simple_batch_malleable.

(** Likewise for the batched opening of many commitments. *)
Theorem C57_batch_malleable :
  forall (K : field) (B D : Type) (as_bases : K -> list B) (emb : B -> K) (hash_bases : list B -> D)
    (hash_two_digests : D -> D -> D) (deqb : D -> D -> bool) (dig : D -> list ev) (T : hist -> K)
    (to_usize : K -> nat) (nbits : nat) (scm : scheme) (comms : list commitment) (points : list (list K))
    (e0 e1 : evaluation) (es : list evaluation) (pf : bproof) (h h' : hist),
  batch_verify as_bases emb hash_bases hash_two_digests deqb dig T to_usize nbits scm comms points
    (e0 :: e1 :: es) pf h = Some h' ->
  exists v0 v1 : K,
    (v0 <> ev_value e0 \/ v1 <> ev_value e1) /\
    batch_verify as_bases emb hash_bases hash_two_digests deqb dig T to_usize nbits scm comms points
      (set_value e0 v0 :: set_value e1 v1 :: es) pf h = Some h'.
Proof. exact @batch_malleable. Qed.
Print Assumptions C57_batch_malleable.

(** A proof by listing the polynomial is accepted for every commitment: the digests one or more levels up the tree, read as a table, have the same root. So every commitment to a codeword also opens to the value of the table of digests. *)
Theorem C57_digests_refuted :
  forall (K : field) (B D : Type) (as_bases : K -> list B) (emb : B -> K) (hash_bases : list B -> D)
    (hash_two_digests : D -> D -> D) (deqb : D -> D -> bool) (dig : D -> list ev) (T : hist -> K)
    (to_usize : K -> nat) (nbits : nat) (scm : scheme),
  (forall x y : D, deqb x y = true <-> x = y) ->
  forall sp : D -> K * K,
  (forall d : D, hash_bases (as_bases (fst (sp d)) ++ as_bases (snd (sp d))) = d) ->
  forall (comm : commitment) (point O0 : list K) (t : mtree) (sched : nat -> list nat) (h : hist),
  0 < length point ->
  length O0 = 2 ^ (length point + sc_rate scm) ->
  from_batch_leaves as_bases emb hash_bases hash_two_digests [CExt O0] = Some t ->
  mt_root t = Some (bc_root comm) ->
  valid_sched (length point) sched ->
  let C := digest_columns as_bases hash_bases hash_two_digests sp (sc_rate scm) (length point - 1) O0 in
  verify as_bases emb hash_bases hash_two_digests deqb dig T to_usize nbits scm sched comm point 
    (mle C point)
    {|
      bp_msgs := [];
      bp_roots := [];
      bp_final := [];
      bp_queries := QSingle [];
      bp_sumcheck := None;
      bp_trivial := [CExt C]
    |} h = Some h.
Proof. exact @digest_forgery. Qed.
Print Assumptions C57_digests_refuted.

(** The leaf hash of a pair of extension elements is the identity on its four base elements (poseidon_hash.rs): the hypothesis of
    the last theorem is what the library does. *)
Example C57_ex_hash_noop (F : Type) (zero : F) perm (x : list F) : length x = 4 -> hash_or_noop zero perm x = Some x.
Proof. destruct x as [|a [|b [|c [|d [|? ?]]]]]; intros L; try discriminate L. reflexivity. Qed.
Example C57_ex_noop : forall d : D2, hb ([fst d] ++ [snd d]) = d.
Proof. intros [a b]. reflexivity. Qed.
(** The forgeries, run: a commitment to one table opens to other values. *)
Example C57_ex_forged (comm : @commitment D2) (v : F101) : bc_nv comm = Some 3 -> exists pf h', xverify (seq_sched 3) comm xp v pf [] = Some h'.
Proof.
  intros Hc. destruct (forge_single ab (fun x : F101 => x) hb h2 deq dg hval tu 0 xs C45_ex_bc ltac:(cbn; lia) (seq_sched 3) comm xp v [hb []] []) as (msgs & h'' & E); [now right|cbn; lia|cbn; lia|eauto].
Qed.
Example C57_ex_digest : match xcommit 3 msg3 with Some cw => match to_commitment cw with Some comm =>
    let C := digest_columns ab hb h2 (fun d : D2 => d) 1 2 (word_of msg3) in
    (length C =? 8)%nat && match xverify (seq_sched 3) comm xp (mle C xp) (mkBp [] [] [] (QSingle []) None [CExt C]) [] with Some _ => negb (feqb (mle C xp) (mle msg3 xp)) | None => false end
  | None => false end | None => false end = true.
Proof. vm_compute. reflexivity. Qed.

