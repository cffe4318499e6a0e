(** A small instance of the verifier over F_101, and runs on which prover and verifier disagree. *)
From Coq Require Import String.
From Coq Require Import List Arith Lia Bool ZArith Permutation Field.
From Verif Require Import ListAux FieldDef FpInst MleMath PolyList M_Mle P_Mle P_Eq M_Sumcheck M_ScParallel M_SamePoly M_LogUp M_Lookup M_Tables M_Graph P_Graph P_Graph2 P_Graph3 P_Graph4 P_Graph5 P_Graph6 M_Verifier P_Verifier P_Verifier2 P_Verifier3 P_Verifier4 P_Verifier5.
Import ListNotations.
Local Open Scope F_scope.

Definition xT (h : @M_Sumcheck.hist F101) : F101 := q (Z.of_nat (length h) + 2).
Definition xFL : floats := mkFloats (fun x => x) (fun _ x => x) (fun _ x => x) (fun _ => ""%string).
(** Layers: 0 doubles its input, 1 leaves it alone and is never verified (as Reshape), 2 is a Logits layer. *)
Definition x_logits (op : nat) : bool := Nat.eqb op 2.
Definition x_has (op : nat) : bool := true.
Definition x_prov (op : nat) : bool := negb (Nat.eqb op 1).
Definition x_data (p : list F101 * list F101) : option (list F101 * list F101) := if Nat.eqb (length (fst p)) (length (snd p)) then Some p else None.
Lemma x_paired : paired x_data.
Proof. intros [a b] c d. unfold x_data. cbn [fst snd]. destruct (Nat.eqb_spec (length a) (length b)); [|discriminate]. intros H. injection H as <- <-. auto. Qed.
Definition x_shapes (ns : @nodes nat) (s : list (list nat)) : option unit := Some tt.
Definition x_layer (i : nat) (op : nat) (p : option (list F101 * list F101)) (cl : list (@claim F101)) (outs : list (@tensor F101)) (sh : unit) (stg : @storage F101) (s : unit)
  (h : @M_Sumcheck.hist F101) : option (list (@claim F101) * (unit * @M_Sumcheck.hist F101)) :=
  match op, cl with 0%nat, [c] => Some ([mkClaim (cl_point c) (cl_eval c * / (1 + 1))], (s, h)) | _, _ => None end.
Definition x_special (op : nat) : option (list (@tensor F101) -> list (@claim F101) -> bool) := None.
Definition x_verify := verify_model (LP := list F101 * list F101) xT (@seq_sched) xFL x_logits x_has x_prov x_data x_shapes x_layer 2 (fun (s : unit) (c : unit) (_ : @claim F101) => Some s) (fun s _ _ => Some s) x_special tt (fun _ (_ : unit) _ => true).
Definition x_checks := verify_checks (LP := list F101 * list F101) xT (@seq_sched) xFL x_logits x_has x_prov x_data x_shapes x_layer 2 (fun (s : unit) (c : unit) (_ : @claim F101) => Some s) (fun s _ _ => Some s) x_special tt (fun _ (_ : unit) _ => true).
Definition x_eval (op : nat) (l : list (@tensor F101)) : option (list (@tensor F101)) :=
  match op, l with
  | 0%nat, [x] => Some [mkT (t_shape x) (map (fun v => v + v) (t_data x))]
  | 1%nat, [x] => Some [x]
  | _, _ => None
  end.
Definition x_ns : @nodes nat :=
  [(0%nat, mkNode [mkEdge None 0] [[mkEdge (Some 1%nat) 0]] 0%nat); (1%nat, mkNode [mkEdge (Some 0%nat) 0] [[mkEdge None 0]] 1%nat)].
Definition x_ctx : @vctx F101 nat := mkVctx x_ns [] [EvBytes [1%Z]].
Definition x_in : @tensor F101 := mkT [2; 2] (q_list [1; 2; 3; 4]%Z).
Definition x_out : @tensor F101 := mkT [4] (q_list [2; 4; 6; 8]%Z).
Definition x_pf (fr : list F101 * list F101) (l : list (@table_proof F101 unit)) : @vproof F101 (list F101 * list F101) unit unit :=
  mkVproof [(0%nat, fr); (1%nat, ([], []))] l tt.

Lemma x_built : built x_ns.
Proof.
  eapply built_default; [|instantiate (1 := [(0%nat, mkNode [mkEdge None 0] [[mkEdge (Some 1%nat) 0]] 0%nat); (1%nat, mkNode [mkEdge (Some 0%nat) 0] [[]] 1%nat)]); reflexivity].
  eapply (built_add _ (fun _ _ => 1%nat) [mkEdge (Some 0%nat) 0] 1%nat _ 1%nat); [|instantiate (1 := [(0%nat, mkNode [mkEdge None 0] [[]] 0%nat)]); reflexivity].
  apply (built_add [] (fun _ _ => 1%nat) [mkEdge None 0] 0%nat _ 0%nat); [constructor|reflexivity].
Qed.
Lemma x_accept : x_verify (fun m => m) x_ctx (x_pf ([], []) []) [x_in] [x_out] [] = true.
Proof. vm_compute. reflexivity. Qed.

(** Two output nodes visited in the other order: the verifier draws other points than the prover. *)
Definition y_ns : @nodes nat := [(0%nat, mkNode [mkEdge None 0] [[mkEdge None 0]] 0%nat); (1%nat, mkNode [mkEdge None 1] [[mkEdge None 1]] 0%nat)].
Definition points (r : option (list (@claim F101) * @M_Sumcheck.hist F101)) : option (list (list Z) * nat) :=
  match r with None => None | Some (l, h) => Some (map (fun c : @claim F101 => map (fpv 101) (cl_point c : list F101)) l, length h) end.
Lemma order_refuted : exists (T : @M_Sumcheck.hist F101 -> F101) esch (ns : @nodes nat) outs order order' m h, (forall n, valid_sched n (esch n)) /\ (forall l, Permutation (order l) l) /\ (forall l, Permutation (order' l) l) /\
  no_logits x_logits ns /\ bind_outputs_to_node ns (length outs) = Some m /\
  verifier_out_claims T esch x_logits ns outs (order m) (repeat default_claim (length outs)) h = prover_out_claims T esch outs h /\
  verifier_out_claims T esch x_logits ns outs (order' m) (repeat default_claim (length outs)) h <> prover_out_claims T esch outs h.
Proof.
  exists xT, (@seq_sched), y_ns, [mkT [2] (q_list [1; 2]%Z); mkT [2] (q_list [3; 4]%Z)], (fun l => l), (@rev (nat * list nat)), [(0%nat, [0%nat]); (1%nat, [1%nat])], [].
  split; [apply seq_sched_valid|]. split; [auto|]. split; [intros l; apply Permutation_sym, Permutation_rev|]. split.
  { intros i n G. unfold y_ns in G. cbn [get] in G. destruct (Nat.eqb i 0); [injection G as <-; reflexivity|]. destruct (Nat.eqb i 1); [injection G as <-; reflexivity|discriminate]. }
  split; [reflexivity|]. split.
  - apply (out_agree xT (@seq_sched) x_logits y_ns); [|intros i I; exact I|reflexivity].
    intros i n G. unfold y_ns in G. cbn [get] in G. destruct (Nat.eqb i 0); [injection G as <-; reflexivity|]. destruct (Nat.eqb i 1); [injection G as <-; reflexivity|discriminate].
  - intros H. apply (f_equal points) in H. vm_compute in H. discriminate.
Qed.
(** A Logits output with more than one element: the prover draws challenges, the verifier draws none. *)
Lemma logits_refuted : forall (K : field) (T : @M_Sumcheck.hist K -> K) esch (Ctx : Type) (is_logits : Ctx -> bool) (ns : @nodes Ctx) i n out h, (forall n, valid_sched n (esch n)) ->
  get ns i = Some n -> is_logits (n_op n) = true -> (exists k, length (t_data out) = 2 ^ S k) ->
  exists cs h' cs' h'', verifier_out_claims T esch is_logits ns [out] [(i, [0%nat])] (repeat default_claim 1) h = Some (cs, h') /\
    prover_out_claims T esch [out] h = Some (cs', h'') /\ h' = h /\ length h < length h'' /\ cs <> cs'.
Proof.
  intros K T esch Ctx isl ns i n out h Hs G L [k Lk]. destruct (out_claim_ok T esch Hs out (S k) h Lk) as (c & h2 & E).
  destruct (out_claim_inv T esch Hs _ _ _ _ E) as (nv & X1 & X2 & X3 & X4).
  assert (nv = S k) by (apply (Nat.pow_inj_r 2); [lia|congruence]). rewrite H in *. clear nv H.
  exists [default_claim], h, [c], h2. split; [|split; [|split; [auto|split]]].
  - cbn [verifier_out_claims]. rewrite G. cbn [obind omapM nth_error]. cbn [obind]. unfold node_out_claims. rewrite L. reflexivity.
  - unfold prover_out_claims. cbn [out_claims]. rewrite E. reflexivity.
  - assert (Gr : forall m h, length h <= length (snd (read_challenges T m h))).
    { clear. induction m as [|m IH]; intros h; cbn [read_challenges]; [auto|]. specialize (IH (EvSample :: h)).
      destruct (read_challenges T m (EvSample :: h)). cbn [snd length] in *. lia. }
    cbn [read_challenges] in X2. specialize (Gr k (EvSample :: h)). destruct (read_challenges T k (EvSample :: h)) as [rs hh]. assert (hh = h2) by congruence. subst hh.
    cbn [snd length] in Gr. lia.
  - intros Q. assert (c = default_claim) by congruence. subst c. cbn in X3. discriminate.
Qed.

(** One node and the 2-bit range table.  The node looks up the values 0, 1, 1, 3; both LogUp fractions and the table proof
    are computed by the models of the circuit and of the prover. *)
Definition z_ns : @nodes nat := [(0%nat, mkNode [mkEdge None 0] [[mkEdge None 0]] 0%nat)].
Definition z_ctx : @vctx F101 nat := mkVctx z_ns [TRange] [EvBytes [1%Z]].
Definition z_scs (v k : nat) : rsched := mkRs (fun _ => seq 0 (2 ^ (v - (k - 1)) / 2)) (fun _ => PLeaf (evens (2 ^ (v - k)))) (PLeaf [0; 1; 2]%nat).
Definition z_run : option (list F101 * list F101 * @logup_proof F101) :=
  let '(stg, h1) := setup xT xFL z_ctx [] in
  oc <- out_claims xT (@seq_sched) [x_out] h1 ;;
  ch <- challenges_by_name stg (table_name xFL TRange) ;;
  c <- new_lookup_circuit [q_list [0; 1; 1; 3]%Z] (fst ch) (snd ch) ;;
  fr <- circuit_fraction c ;;
  pf <- batch_prove xT 3 z_scs (@seq_sched 2) (TableIn [q_list [0; 1; 2; 3]%Z] (q_list [1; 2; 0; 1]%Z) (fst ch) (snd ch)) (snd oc) ;;
  Some ([fst fr], [snd fr], fst pf).
Definition z_pf (fr : list F101 * list F101) (l : list (@table_proof F101 unit)) : @vproof F101 (list F101 * list F101) unit unit := mkVproof [(0%nat, fr)] l tt.
Definition z_fr : list F101 * list F101 := match z_run with Some (a, b, _) => (a, b) | None => ([], []) end.
Definition z_tp : @table_proof F101 unit := mkTp tt (match z_run with Some (_, _, l) => l | None => fake_lookup 0 1 end).
Lemma z_accept : x_verify (fun m => m) z_ctx (z_pf z_fr [z_tp]) [x_in] [x_out] [] = true.
Proof. vm_compute. reflexivity. Qed.
Lemma z_built : built z_ns.
Proof.
  eapply built_default; [|instantiate (1 := [(0%nat, mkNode [mkEdge None 0] [[]] 0%nat)]); reflexivity].
  apply (built_add [] (fun _ _ => 1%nat) [mkEdge None 0] 0%nat _ 0%nat); [constructor|reflexivity].
Qed.
