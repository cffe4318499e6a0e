(** Property C67: the multi-head attention layer. *)
From Coq Require Import List Arith Lia Bool ZArith.
From Verif Require Import ListAux FieldDef FpInst FpGold PolyList MleMath M_Mle P_Mle P_Eq M_Interp M_Sumcheck P_ScVerify P_ScProve P_ScProve2 P_ScBatch P_ScFinal M_ScParallel
  P_ScParallel P_ScApi M_SamePoly P_SamePoly M_LogUp P_LogUp3 P_LogUp4 P_LogUp8 P_LogUp9 M_Tensor P_Tensor M_Layers P_Layers P_Layers2 P_Layers4 P_Layers5 M_Transformer P_Transformer M_Sop P_Sop P_Transformer5
  P_Pooling P_Pooling2 M_Quant P_Quant M_RequantP P_RequantP P_RequantP2 M_LayerNorm P_LayerNorm P_LayerNorm2 P_LayerNorm5 P_LayerNorm6 M_Softmax P_Softmax P_Softmax2 P_Softmax3 P_Softmax4 P_Softmax5 P_Softmax6 P_Softmax7
  M_Mha P_Mha.
Import ListNotations.

(** ** Inputs for the examples: two positions, two heads of dimension two *)
Definition z (n : Z) : F101 := mkFp 101 n.
Definition xT (h : @hist F101) : F101 := z (11 + 7 * (Z.of_nat (length h) mod 12)).
Lemma ch101 n : n < 101 -> char_gt F101 n.
Proof.
  intros Hn i Hi. apply feqb_false. assert (A : forallb (fun i => negb (feqb (fnat i : F101) f0)) (seq 1 100) = true) by (vm_compute; reflexivity).
  rewrite forallb_forall in A. apply negb_true_iff, A, in_seq. lia.
Qed.
Definition xexp (j : Z) : Z := nth (Z.to_nat j) [100; 75; 50; 25; 10]%Z 0%Z.
Definition xlse (l : list Z) : Z := if forallb (Z.eqb 0) l then 131072%Z else 65536%Z.
Definition c0 : sm_ctx := mkSm 327680 65536 0 0.
Definition c1 : sm_ctx := mkSm 131072 65536 1 2.
Definition tq : ten Z := mkTen [2; 4] [1; 2; 0; 1; 1; 1; 2; -1]%Z.
Definition tk : ten Z := mkTen [2; 4] [2; 0; 1; 3; 1; 2; 1; 2]%Z.
Definition tv : ten Z := mkTen [2; 4] [3; -1; 4; 1; 5; 9; -2; 6]%Z.
Definition ev (c : sm_ctx) := match mha_evaluate xexp xlse c 2 2 tq tk tv with Some o => o | None => (tq, ([], [], []), tq, tq, tq) end.
Definition eS (c : sm_ctx) : ten Z := fst (fst (fst (fst (ev c)))). Definition eO (c : sm_ctx) : ten Z := snd (fst (fst (ev c))). Definition eY (c : sm_ctx) : ten Z := snd (fst (ev c)).
Definition shifts (c : sm_ctx) : list Z := fst (fst (snd (fst (fst (fst (ev c)))))). Definition cells (c : sm_ctx) : list sm_cell := snd (snd (fst (fst (fst (ev c))))).
Example mha_ex : mha_evaluate xexp xlse c0 2 2 tq tk tv = Some (ev c0) /\ mha_evaluate xexp xlse c1 2 2 tq tk tv = Some (ev c1) /\
  eS c0 = mkTen [2; 2; 2] [2; 5; 2; 3; 3; 2; -1; 0]%Z /\ eO c0 = mkTen [2; 2; 2] [100; 0; 50; 75; 100; 0; 50; 75]%Z /\
  snd (ev c0) = mkTen [2; 4] [300; -100; 400; 100; 525; 625; 50; 500]%Z.
Proof. repeat split; vm_compute; reflexivity. Qed.

(** Whatever proof the verifier accepts, if the claims that it returns about queries, keys and values are true, and those about the softmax columns are true of columns with rows in the lookup tables: the claim about the output is true of the attention computed from those integers (the products of each head, the table values of the masked and shifted scores, their product with the values); the masked scores are at most zero and in range; no weight is above the diagonal; the error lookup is about the sums over blocks of [2 ^ s] weights; or challenges of one of the four sumchecks hit a zero of an equation fixed before them.  Missing: the proofs of the two products are assumed to carry three evaluations ([C67_refuted]); [s] is chosen by the proof, and the zero columns must be opened, as for [C66_sound_partial]. *)
Theorem C67_sound_partial :
  forall (K : field) (C : Type) (T : @hist K -> K) (P V : Z) (expf : Z -> Z) (c : sm_ctx) 
    (ce cr cx cz : K * K) (tv s m cv hv dv n nh hd : nat) (q k v S0 Y : ten Z) (last : @claim K) 
    (pf : mha_proof) (h : hist) (wit : list (C * claim)) (out : list claim) (h' : hist) 
    (cs cvc : claim) (h1 : hist) (p qq xp z : list K) (vi vo vl vh vx : K) (vz : list K) 
    (h3 : hist) (cells : list sm_cell) (shift : list Z),
  let O0 :=
    {|
      sh := sh S0;
      dat :=
        map (fun b : nat => sm_weight expf (sm_bkm c) tv (- masked_int c s cv (dat S0) shift b)) (seq 0 (2 ^ n))
    |} in
  small_inj (K := K) P ->
  char_gt K (sm_nz c + 3) ->
  npow2 nh = 2 ^ hv ->
  npow2 hd = 2 ^ dv ->
  wft q ->
  wft k ->
  wft v ->
  sh q = [2 ^ cv; 2 ^ hv * 2 ^ dv] ->
  sh k = [2 ^ cv; 2 ^ hv * 2 ^ dv] ->
  sh v = [2 ^ cv; 2 ^ hv * 2 ^ dv] ->
  0 < cv + hv ->
  0 < dv + hv ->
  length p = n ->
  length xp = m ->
  n = s + m ->
  n = cv + cv + hv ->
  sm_tv c = Some tv ->
  concat_eval 0%Z Z.add Z.mul qk_perm (heads cv hv dv q) (heads cv hv dv k) = Some S0 ->
  concat_eval 0%Z Z.add Z.mul fm_perm O0 (heads cv hv dv v) = Some Y ->
  mha_verify T c ce cr cx cz (cv + hv) (dv + hv) nh hd (sh q) (sh k) (sh v) last pf h = Some (wit, out, h') ->
  length (cpf_claims (mhp_final pf)) = 3 ->
  length (cpf_claims (mhp_qk pf)) = 3 ->
  concat_verify T (cv + hv) fm_perm [2 ^ hv; 2 ^ cv; 2 ^ cv] [2 ^ cv; 2 ^ hv; 2 ^ dv] [
    2 ^ cv; 2 ^ hv; 2 ^ dv] last (mhp_final pf) h = Some ([cs; cvc], h1) ->
  sm_lookups T c ce cr cx cz (mhp_softmax pf) h1 = Some (sm_cls (sm_nz c) p qq xp z vi vo vl vh vx vz, h3) ->
  length vz = 2 * sm_nz c ->
  Forall2 claim_true [map fZ (dat q); map fZ (dat k); map fZ (dat v)] out ->
  Forall2 claim_true
    (ccol ce_in cells
     :: ccol ce_exp cells :: ccol ce_low cells :: ccol ce_high cells :: map fZ shift :: zcols (sm_nz c) cells)
    (map snd wit) ->
  Forall (cell_ok expf (sm_bkm c) tv (sm_nz c) (sm_zv c)) cells ->
  (forall b : nat, b < 2 ^ n -> (Z.abs (masked_int c s cv (dat S0) shift b) <= V)%Z) ->
  (V + 2 ^ Z.of_nat (16 + tv + sm_nz c * sm_zv c) <= P)%Z ->
  claim_true (map fZ (dat Y)) last /\
  (forall b : nat,
   b < 2 ^ n -> (- 2 ^ Z.of_nat (16 + tv + sm_nz c * sm_zv c) < masked_int c s cv (dat S0) shift b <= 0)%Z) /\
  (forall b : nat, b < 2 ^ n -> above cv b = true -> nth b (dat O0) 0%Z = 0%Z) /\
  mle (row_sums s m (map fZ (dat O0))) xp = vx \/
  prod_event T fm_perm cv hv O0 (heads cv hv dv v) Y (cl_point last) h (mhp_final pf) \/
  sm_fooled T c s cv n p qq xp z vi vo vl vh vx vz cs (mhp_softmax pf) h3 (ccol ce_in cells) 
    (ccol ce_exp cells) (ccol ce_low cells) (ccol ce_high cells) (map fZ shift) (zcols (sm_nz c) cells)
    (map fZ (dat S0)) \/
  table_event
    (add2 n
       (sm_comb tv (sm_zv c) n (ccol ce_in cells) (ccol ce_low cells) (ccol ce_high cells)
          (zcols (sm_nz c) cells)) (sm_masked c s cv n (map fZ (dat S0)) (map fZ shift)))
    (sm_ap T n (sm_nz c) (mhp_softmax pf) h3) \/
  (exists (nc : claim) (h2 : hist),
     sm_verify T c ce cr cx cz [2 ^ hv; 2 ^ cv; 2 ^ cv] cs (mhp_softmax pf) h1 = Some (wit, nc, h2) /\
     prod_event T qk_perm dv hv (heads cv hv dv q) (heads cv hv dv k) S0 (cl_point nc) h2 (mhp_qk pf)).
Proof. exact @mha_sound. Qed.
Print Assumptions C67_sound_partial.

(** The honest prover on what the layer computes for any queries, keys and values, of any power-of-two sizes, is accepted; both sides have the same claims about queries, keys, values and columns, and all are true.  The scaled claim that the softmax prover passes on ([C66_claim_refuted]) does no harm here, since only its point is used. *)
Theorem C67_complete :
  forall (K : field) (C : Type) (T : @hist K -> K) (ncpus : nat) (scf : nat -> rsched) 
    (flf frf : nat -> list nat) (sc : nat -> nat -> nat -> rsched) (es : nat -> nat -> list nat)
    (sca scm : nat -> rsched) (esh : nat -> list nat) (scq : nat -> rsched) (flq frq : nat -> list nat)
    (expf : Z -> Z) (lse : list Z -> Z) (c : sm_ctx) (ce cr cx cz : K * K) (tv k0 cv hv dv : nat)
    (q k v S0 O0 Y out : ten Z) (shifts shifted : list Z) (cells : list sm_cell) (comms : list C) 
    (last : @claim K) (h : hist),
  let m := S (S k0) in
  let n := cv + m in
  let nz := sm_nz c in
  m = cv + hv ->
  0 < dv + hv ->
  char_gt K (nz + 3) ->
  0 < ncpus ->
  nz <= 3 ->
  (nz <> 0 -> 16 + tv < 64 /\ 0 < sm_zv c < 64) ->
  cv < 64 ->
  sm_tv c = Some tv ->
  fZ (sm_scalar c) <> (0%F : K) ->
  wft q ->
  wft k ->
  wft v ->
  sh q = [2 ^ cv; 2 ^ hv * 2 ^ dv] ->
  sh k = [2 ^ cv; 2 ^ hv * 2 ^ dv] ->
  sh v = [2 ^ cv; 2 ^ hv * 2 ^ dv] ->
  mha_evaluate expf lse c (2 ^ hv) (2 ^ dv) q k v = Some (S0, (shifts, shifted, cells), O0, Y, out) ->
  (forall b : nat,
   b < 2 ^ n -> (- 2 ^ Z.of_nat (16 + tv + nz * sm_zv c) < masked_int c cv cv (dat S0) shifts b <= 0)%Z) ->
  length comms = 5 + 2 * nz ->
  claim_true (map fZ (dat out)) last ->
  (forall i : nat, valid_order (2 ^ (hv + cv + cv)) (flf i)) ->
  (forall i : nat, valid_order (2 ^ (hv + cv + dv)) (frf i)) ->
  (forall i : nat, i < cv + hv -> valid_rsched (K := K) (prod_shape 3 (cv + hv)) i (scf i)) ->
  sm_scheds (K := K) k0 cv nz sc es sca scm esh ->
  (forall i : nat, valid_order (2 ^ (hv + dv + cv)) (flq i)) ->
  (forall i : nat, valid_order (2 ^ (hv + dv + cv)) (frq i)) ->
  (forall i : nat, i < dv + hv -> valid_rsched (K := K) (prod_shape 3 (dv + hv)) i (scq i)) ->
  exists (wit : list (C * claim)) (cl : list claim) (nc : list K) (pf : mha_proof) (h' : hist),
    mha_prove T ncpus scf flf frf sc es sca scm esh scq flq frq nz ce cr cx cz (2 ^ hv) 
      (2 ^ dv) (embed_ten q) (embed_ten k) (embed_ten v) (embed_ten S0) (embed_ten O0) 
      (embed_ten Y) (ccol ce_in cells) (ccol ce_exp cells) (ccol ce_low cells) (ccol ce_high cells)
      (zcols nz cells) (row_sums cv m (ccol ce_out cells)) (map fZ shifts)
      (sm_shifted c cv n (map fZ (dat S0)) (map fZ shifts)) (sm_tri cv n) (sm_bias c cv n) comms last h =
    Some (wit, cl, pf, h') /\
    map fst wit = comms /\
    Forall2 claim_true
      (ccol ce_in cells
       :: ccol ce_exp cells :: ccol ce_low cells :: ccol ce_high cells :: map fZ shifts :: zcols nz cells)
      (map snd wit) /\
    Forall2 claim_true [map fZ (dat q); map fZ (dat k); map fZ (dat v)] cl /\
    length (cpf_claims (mhp_final pf)) = 3 /\
    length (cpf_claims (mhp_qk pf)) = 3 /\
    length nc = n /\
    ((forall x : K, In x (pf_point (cpf_sumcheck (mhp_final pf))) -> not_node 3 x) ->
     (forall x : K, In x (pf_point (cpf_sumcheck (mhp_qk pf))) -> not_node 3 x) ->
     (forall (pr : proof) (x : K),
      In pr (flat_map (fun l : logup_proof => lp_sumchecks l) (smp_logups (mhp_softmax pf))) ->
      In x (pf_point pr) -> not_node 3 x) ->
     (forall x : K, In x (pf_point (smp_acc (mhp_softmax pf))) -> not_node (nz + 2) x) ->
     (forall x : K, In x (pf_point (smp_mask (mhp_softmax pf))) -> not_node 3 x) ->
     (eqp nc (pf_point (smp_acc (mhp_softmax pf))) * sm_tril cv nc)%F <> (0%F : K) ->
     mha_verify T c ce cr cx cz (cv + hv) (dv + hv) (2 ^ hv) (2 ^ dv) (sh q) (sh k) (sh v) last pf h =
     Some (wit, cl, h')).
Proof. exact @mha_honest. Qed.
Print Assumptions C67_complete.

Definition pt : list F101 := [z 20; z 30; z 40].
Definition claim_b (l : list F101) (c : @claim F101) : bool := (length l =? 2 ^ length (cl_point c)) && feqb (cl_eval c) (mle l (cl_point c)).
Lemma claim_b_ok l c : claim_b l c = true -> claim_true l c.
Proof. unfold claim_b. intros H. apply andb_true_iff in H as [H1 H2]. split; [now apply Nat.eqb_eq|now apply feqb_true]. Qed.
Lemma claim_b_no l c : claim_b l c = false -> ~ claim_true l c.
Proof. unfold claim_b. intros H [H1 H2]. apply andb_false_iff in H as [H|H]; [apply Nat.eqb_neq in H|apply feqb_false in H]; auto. Qed.
Fixpoint claims_b (ls : list (list F101)) (cs : list (@claim F101)) : bool := match ls, cs with
  | [], [] => true | l :: ls', c :: cs' => claim_b l c && claims_b ls' cs' | _, _ => false end.
Lemma claims_b_ok ls : forall cs, claims_b ls cs = true -> Forall2 claim_true ls cs.
Proof. induction ls as [|l ls IH]; intros [|c cs] H; try discriminate; [constructor|]. apply andb_true_iff in H as [H1 H2]. constructor; [now apply claim_b_ok|auto]. Qed.
Definition ch (n : Z) : F101 * F101 := (z n, z 3).
Definition xsc (nz : nat) (i : nat) : nat -> nat -> rsched := seq_rsched (3 * (match i with O => 1 | S O => 2 | S (S O) => 1 | _ => nz end)).
Definition xes (i : nat) : nat -> list nat := match i with S (S O) => seq_sched 2 | _ => seq_sched 3 end.
Definition emb (t : ten Z) : ten F101 := mkTen (sh t) (map fZ (dat t)).
(** The softmax and first product proved honestly from any claim about the weights. *)
Definition tailrun (c : sm_ctx) (cs : @claim F101) (h : @hist F101) :=
  match sm_prove (C := nat) xT 2 (xsc (sm_nz c)) xes (seq_rsched (6 + 2 * sm_nz c) 3) (seq_rsched 2 3) (seq_sched 2)
    (sm_nz c) (ch 10) (ch 20) (z 30, f1) (ch 40) (ccol ce_in (cells c)) (ccol ce_exp (cells c)) (ccol ce_low (cells c)) (ccol ce_high (cells c)) (zcols (sm_nz c) (cells c)) (row_sums 1 2 (ccol ce_out (cells c))) (map fZ (shifts c))
    (sm_shifted c 1 3 (map fZ (dat (eS c))) (map fZ (shifts c))) (sm_tri 1 3) (sm_bias c 1 3) (seq 0 (5 + 2 * sm_nz c)) cs h with
  | Some (_, nc, pf2, h2) => match concat_prove xT 2 (seq_rsched 1 2) (seq_sched 3) (seq_sched 3) qk_perm (heads 1 1 1 (emb tq)) (heads 1 1 1 (emb tk)) (emb (eS c)) nc h2 with Some (_, pf3, _) => Some (pf2, pf3) | None => None end
  | None => None end.
Definition prun (c : sm_ctx) (l : @claim F101) :=
  mha_prove (C := nat) xT 2 (seq_rsched 1 2) (seq_sched 3) (seq_sched 3) (xsc (sm_nz c)) xes (seq_rsched (6 + 2 * sm_nz c) 3) (seq_rsched 2 3) (seq_sched 2) (seq_rsched 1 2) (seq_sched 3) (seq_sched 3)
    (sm_nz c) (ch 10) (ch 20) (z 30, f1) (ch 40) 2 2 (emb tq) (emb tk) (emb tv) (emb (eS c)) (emb (eO c)) (emb (eY c))
    (ccol ce_in (cells c)) (ccol ce_exp (cells c)) (ccol ce_low (cells c)) (ccol ce_high (cells c)) (zcols (sm_nz c) (cells c)) (row_sums 1 2 (ccol ce_out (cells c))) (map fZ (shifts c))
    (sm_shifted c 1 3 (map fZ (dat (eS c))) (map fZ (shifts c))) (sm_tri 1 3) (sm_bias c 1 3) (seq 0 (5 + 2 * sm_nz c)) l [].
Definition vrun (c : sm_ctx) (l : @claim F101) (pf : @mha_proof F101 nat) := mha_verify xT c (ch 10) (ch 20) (z 30, f1) (ch 40) 2 2 2 2 [2; 4] [2; 4] [2; 4] l pf [].
Definition acc_b (c : sm_ctx) (r : option (list (nat * @claim F101) * list (@claim F101) * @hist F101)) : bool := match r with
  | Some (wit, cl, _) => claims_b (ccol ce_in (cells c) :: ccol ce_exp (cells c) :: ccol ce_low (cells c) :: ccol ce_high (cells c) :: map fZ (shifts c) :: zcols (sm_nz c) (cells c)) (map snd wit) && claims_b (map (fun t => map fZ (dat t)) [tq; tk; tv]) cl
  | None => false end.
Lemma acc_b_ok c r : acc_b c r = true -> exists wit cl h', r = Some (wit, cl, h') /\
  Forall2 claim_true (ccol ce_in (cells c) :: ccol ce_exp (cells c) :: ccol ce_low (cells c) :: ccol ce_high (cells c) :: map fZ (shifts c) :: zcols (sm_nz c) (cells c)) (map snd wit) /\
  Forall2 claim_true (map (fun t => map fZ (dat t)) [tq; tk; tv]) cl.
Proof. destruct r as [[[wit cl] h']|]; [|discriminate]. cbn [acc_b]. intros H. apply andb_true_iff in H as [H1 H2]. exists wit, cl, h'. auto using claims_b_ok. Qed.
Definition run_b (c : sm_ctx) (l : @claim F101) : bool := match prun c l with Some (_, _, pf, _) => acc_b c (vrun c l pf) | None => false end.
Definition last (c : sm_ctx) : @claim F101 := mkClaim pt (mle (map fZ (dat (eY c))) pt).
Definition lastx (y : F101) : @claim F101 := mkClaim pt y.
(** Honest runs without and with zero chunks; a wrong output is rejected. *)
Example C67_ex : run_b c0 (last c0) = true /\ run_b c1 (last c1) = true /\ run_b c0 (lastx (z 5)) = false /\ feqb (z 5) (cl_eval (last c0)) = false.
Proof. split; [vm_compute; reflexivity|]. split; [vm_compute; reflexivity|]. split; vm_compute; reflexivity. Qed.
Example C67_ex_range : sm_tv c0 = Some 3 /\ sm_tv c1 = Some 1 /\
  forallb (fun b => (- 2 ^ Z.of_nat (16 + 3 + 0 * 0) <? masked_int c0 1 1 (dat (eS c0)) (shifts c0) b)%Z && (masked_int c0 1 1 (dat (eS c0)) (shifts c0) b <=? 0)%Z) (seq 0 8) = true /\
  forallb (fun b => (- 2 ^ Z.of_nat (16 + 1 + 1 * 2) <? masked_int c1 1 1 (dat (eS c1)) (shifts c1) b)%Z && (masked_int c1 1 1 (dat (eS c1)) (shifts c1) b <=? 0)%Z) (seq 0 8) = true /\
  fZ (sm_scalar c0) <> (0%F : F101) /\ char_gt F101 4 /\ small_inj (K := Fgold) (2 ^ 40).
Proof.
  split; [reflexivity|]. split; [reflexivity|]. split; [vm_compute; reflexivity|]. split; [vm_compute; reflexivity|]. split; [apply feqb_false; vm_compute; reflexivity|]. split; [apply ch101; lia|].
  intros x H Hx. assert (E : @fZ Fgold x = mkFp gold x) by apply (fZ_mk gold prime_gold). rewrite E in H. apply (f_equal (fpv gold)) in H. rewrite fpv_mk in H. change (fpv gold (@f0 Fgold)) with 0%Z in H.
  apply Z.mod_divide in H; [|discriminate]. destruct H as [u ->]. unfold gold in Hx. lia.
Qed.
(** The first product of the proof forged: meaningless messages, and a fourth evaluation that makes the product come out. *)
Definition forged (y : F101) : @mha_proof F101 nat :=
  let sc := mkProof [] (bogus_messages xT y 2 3 []) in
  let rs := sc_point xT 2 3 [] sc in
  match split_output_point fm_perm [2; 2; 2] pt, verify xT y sc 2 3 [] with
  | Some (pc, prow, pcol), Some (_, e, _) =>
      let q := eqp (skipn 1 rs) pc in
      let w := mle (map fZ (dat (eO c0))) (build_point (cp_left fm_perm) (skipn 1 rs) (firstn 1 rs) prow) in
      let v := mle (map fZ (dat tv)) (build_point (cp_right fm_perm) (skipn 1 rs) (firstn 1 rs) pcol) in
      let f := mkCp sc [q; w; v; fmul e (finv (fmul (fmul q w) v))] in
      match concat_verify xT 2 fm_perm [2; 2; 2] [2; 2; 2] [2; 2; 2] (lastx y) f [] with
      | Some ([cs; _], h1) => match tailrun c0 cs h1 with Some (pf2, pf3) => mkMhp f pf2 pf3 | None => mkMhp f (mkSmp [] [] sc sc []) f end
      | _ => mkMhp f (mkSmp [] [] sc sc []) f end
  | _, _ => mkMhp (mkCp sc []) (mkSmp [] [] sc sc []) (mkCp sc []) end.
(** A false claim about the output is accepted, with true claims about everything else. *)
Theorem C67_refuted : exists (pf : @mha_proof F101 nat) wit cl h', vrun c0 (lastx (z 5)) pf = Some (wit, cl, h') /\
  Forall2 claim_true (ccol ce_in (cells c0) :: ccol ce_exp (cells c0) :: ccol ce_low (cells c0) :: ccol ce_high (cells c0) :: map fZ (shifts c0) :: zcols 0 (cells c0)) (map snd wit) /\
  Forall2 claim_true (map (fun t => map fZ (dat t)) [tq; tk; tv]) cl /\ mha_evaluate xexp xlse c0 2 2 tq tk tv = Some (ev c0) /\ ~ claim_true (map fZ (dat (snd (ev c0)))) (lastx (z 5)).
Proof.
  assert (A : acc_b c0 (vrun c0 (lastx (z 5)) (forged (z 5))) = true) by (vm_compute; reflexivity).
  destruct (acc_b_ok _ _ A) as (wit & cl & h' & E & T1 & T2).
  exists (forged (z 5)), wit, cl, h'. split; [exact E|]. split; [exact T1|]. split; [exact T2|]. split; [exact (proj1 mha_ex)|]. apply claim_b_no. vm_compute. reflexivity.
Qed.
Print Assumptions C67_refuted.

