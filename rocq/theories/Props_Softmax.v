(** Properties C65 and C66: the softmax layer, its evaluation and its proof. *)
From Coq Require Import List Arith Lia Bool ZArith.
From Verif Require Import ListAux FieldDef FpInst FpGold PolyList MleMath M_Mle P_Mle P_Eq M_Interp M_Sumcheck P_ScVerify P_ScProve P_ScProve2 P_ScBatch P_ScFinal M_ScParallel
  P_ScParallel P_ScApi M_SamePoly P_SamePoly M_LogUp P_LogUp3 P_LogUp4 P_LogUp8 P_LogUp9 M_Tensor P_Tensor M_Layers P_Layers P_Layers2 M_Transformer P_Transformer M_Sop P_Sop P_Transformer5
  P_Pooling P_Pooling2 M_Quant P_Quant M_RequantP P_RequantP P_RequantP2 M_LayerNorm P_LayerNorm P_LayerNorm2 P_LayerNorm5 P_LayerNorm6 M_Softmax P_Softmax P_Softmax2 P_Softmax3 P_Softmax4 P_Softmax5 P_Softmax6 P_Softmax7.
Import ListNotations.

(** ** Inputs for the examples: two heads, two rows of two entries.  The exponential table has the entries 100, 75, 50, 25, 10 *)
Definition z (n : Z) : F101 := mkFp 101 n.
Definition xT (h : @hist F101) : F101 := z (11 + 7 * (Z.of_nat (length h) mod 12)).
Lemma ch101 n : n < 101 -> char_gt F101 n.
Proof.
  intros Hn i Hi. apply feqb_false. assert (A : forallb (fun i => negb (feqb (fnat i : F101) f0)) (seq 1 100) = true) by (vm_compute; reflexivity).
  rewrite forallb_forall in A. apply negb_true_iff, A, in_seq. lia.
Qed.
Definition xexp (j : Z) : Z := nth (Z.to_nat j) [100; 75; 50; 25; 10]%Z 0%Z.
Definition xlse (l : list Z) : Z := if forallb (Z.eqb 0) l then 131072%Z else 65536%Z.
(** Without and with zero chunks; in the third the mask's value is a power of two. *)
Definition c0 : sm_ctx := mkSm 327680 65536 0 0.
Definition c1 : sm_ctx := mkSm 131072 65536 1 2.
Definition c2 : sm_ctx := mkSm 196608 65536 0 0.
Definition data : list Z := [3; 9; 4; 4; -1; 2; 5; 3]%Z.
Definition ev (c : sm_ctx) := match sm_evaluate xexp xlse c [2; 2; 2] data with Some o => o | None => ([], [], []) end.
Definition shifts c := fst (fst (ev c)). Definition shifted c := snd (fst (ev c)). Definition cells c := snd (ev c).
Example sm_ex : sm_evaluate xexp xlse c0 [2; 2; 2] data = Some (ev c0) /\ sm_evaluate xexp xlse c1 [2; 2; 2] data = Some (ev c1) /\ sm_evaluate xexp xlse c2 [2; 2; 2] data = Some (ev c2) /\
  sm_tv c0 = Some 3 /\ sm_tv c1 = Some 1 /\ sm_tv c2 = Some 2 /\
  map ce_out (cells c0) = [100; 0; 50; 50; 100; 0; 75; 25]%Z /\ map ce_out (cells c1) = [100; 0; 0; 0; 100; 0; 75; 0]%Z /\
  shifts c0 = [-196608; -393216; 65536; -393216]%Z.
Proof. repeat split. Qed.

(** ** C65: the evaluation *)

(** Every entry on or below the diagonal is the table value of its shifted input, whatever zero chunks there are, if the shifted input fits in the chunks; every entry above the diagonal is zero, if the mask value fits in the table or there are zero chunks. *)
Theorem C65_entries :
  forall (expf : Z -> Z) (lse : list Z -> Z) (c : sm_ctx) (shape : list nat) (data : list Z) 
    (m n : nat) (shifts shifted : list Z) (cells : list sm_cell) (tv : nat),
  mask_shape shape m n ->
  length data = m * n * n ->
  sm_evaluate expf lse c shape data = Some (shifts, shifted, cells) ->
  sm_tv c = Some tv ->
  length cells = m * n * n /\
  (forall r e : nat,
   r < m * n ->
   e < n ->
   let x := nth (e + n * r) data 0%Z in
   let s := nth r shifts 0%Z in
   let cell := nth (e + n * r) cells cell0 in
   (e <= r mod n ->
    (Z.abs (sm_scalar c * x + s) < 2 ^ Z.of_nat (16 + tv + sm_nz c * sm_zv c))%Z ->
    ce_out cell = sm_weight expf (sm_bkm c) tv (Z.abs (sm_scalar c * x + s))) /\
   (r mod n < e ->
    (Z.shiftr (sm_bkm c) 16 + 1 < 2 ^ Z.of_nat tv)%Z \/ 0 < sm_nz c * sm_zv c /\ (2 <= Z.shiftr (sm_bkm c) 16)%Z ->
    ce_out cell = 0%Z)).
Proof. exact @sm_entries. Qed.
Print Assumptions C65_entries.
Example C65_entries_ex : mask_shape [2; 2; 2] 2 2 /\ length data = 2 * 2 * 2 /\ (Z.shiftr (sm_bkm c0) 16 + 1 < 2 ^ Z.of_nat 3)%Z /\ (0 < sm_nz c1 * sm_zv c1 /\ (2 <= Z.shiftr (sm_bkm c1) 16)%Z) /\
  forallb (fun v => (Z.abs v <? 2 ^ Z.of_nat (16 + 3 + 0 * 0))%Z) (firstn 1 (shifted c0) ++ firstn 2 (skipn 2 (shifted c0))) = true.
Proof. split; [left; reflexivity|]. split; [reflexivity|]. split; [reflexivity|]. split; [split; [cbn; lia|vm_compute; discriminate]|]. vm_compute. reflexivity. Qed.

(** If the logarithm of a sum of at least one 1 and numbers at most 1 lies between 0 and a bound, then every shifted input on or below the diagonal is at most zero and at least minus the spread of the input minus that bound; in the first row of a head it is zero. *)
Theorem C65_bound :
  forall (expf : Z -> Z) (lse : list Z -> Z) (c : sm_ctx) (shape : list nat) (data : list Z) 
    (m n : nat) (shifts shifted : list Z) (cells : list sm_cell) (L lo hi : Z),
  mask_shape shape m n ->
  length data = m * n * n ->
  sm_evaluate expf lse c shape data = Some (shifts, shifted, cells) ->
  lse_between lse L ->
  (0 <= sm_scalar c)%Z ->
  (forall x : Z, In x data -> (lo <= x <= hi)%Z) ->
  forall r e : nat,
  r < m * n ->
  e <= r mod n ->
  let v := (sm_scalar c * nth (e + n * r) data 0 + nth r shifts 0)%Z in
  (- (sm_scalar c * (hi - lo)) - L <= v <= 0)%Z /\ (r mod n = 0 -> v = 0%Z).
Proof. exact @sm_shift_bound. Qed.
Print Assumptions C65_bound.
Example C65_bound_ex : lse_between xlse 131072 /\ (0 <= sm_scalar c0)%Z /\ (forall x, In x data -> (-1 <= x <= 9)%Z).
Proof.
  split; [|split; [cbn; lia|intros x Hx; cbn [In data] in Hx; lia]]. unfold lse_between. intros. unfold xlse. destruct (forallb _ _); lia.
Qed.

(** The chunks of a number that fits add up to its absolute value, each is in the range of its table, and the output is the table value or zero. *)
Theorem C65_chunks :
  forall (lut : Z -> Z) (tv nz zv : nat) (e : Z),
  (Z.abs e < 2 ^ Z.of_nat (16 + tv + nz * zv))%Z ->
  let c := sm_elem lut tv nz zv e in
  (ce_low c + 2 ^ 8 * ce_high c + 2 ^ 16 * ce_in c + 2 ^ Z.of_nat (16 + tv) * chunk_sum zv (ce_zin c))%Z =
  Z.abs e /\
  (0 <= ce_low c < 2 ^ 8)%Z /\
  (0 <= ce_high c < 2 ^ 8)%Z /\
  (0 <= ce_in c < 2 ^ Z.of_nat tv)%Z /\
  length (ce_zin c) = nz /\
  Forall (fun z : Z => (0 <= z < 2 ^ Z.of_nat zv)%Z) (ce_zin c) /\
  ce_exp c = lut (ce_in c) /\
  ce_zout c = map (fun z : Z => if (z =? 0)%Z then 1%Z else 0%Z) (ce_zin c) /\
  ce_out c = (if (Z.abs e / 2 ^ 16 <? 2 ^ Z.of_nat tv)%Z then lut (Z.abs e / 2 ^ 16)%Z else 0%Z).
Proof. exact @sm_elem_ok. Qed.
Print Assumptions C65_chunks.
Example C65_chunks_ex : (Z.abs (-393216) < 2 ^ Z.of_nat (16 + 1 + 1 * 2))%Z /\ sm_elem (sm_table xexp (sm_bkm c1)) 1 1 2 (-393216) = mkCell 0 0 0 100 [3%Z] [0%Z] 0.
Proof. split; [reflexivity|]. vm_compute. reflexivity. Qed.

(** The number and size of the zero chunks chosen by [quantise] cover every value greater than the smallest input it was given. *)
Theorem C65_sizes :
  forall (min : Z) (tv nz zv : nat) (v : Z),
  (min <= 0)%Z ->
  sm_sizes min tv = Some (nz, zv) -> (min < v <= 0)%Z -> (Z.abs v < 2 ^ Z.of_nat (16 + tv + nz * zv))%Z.
Proof. exact @sm_sizes_ok. Qed.
Print Assumptions C65_sizes.
Example C65_sizes_ex : sm_sizes (-2000000) 3 = Some (1, 2) /\ sm_sizes (-2000000) 1 = Some (4, 1).
Proof. split; vm_compute; reflexivity. Qed.

(** Without zero chunks and with a mask value of a power of two times 2^16, every entry above the diagonal is given the largest weight instead of none. *)
Theorem C65_mask_refuted :
  forall (expf : Z -> Z) (lse : list Z -> Z) (c : sm_ctx) (shape : list nat) (data : list Z) 
    (m n : nat) (shifts shifted : list Z) (cells : list sm_cell) (tv : nat),
  mask_shape shape m n ->
  length data = m * n * n ->
  sm_evaluate expf lse c shape data = Some (shifts, shifted, cells) ->
  sm_tv c = Some tv ->
  sm_nz c = 0 ->
  (Z.shiftr (sm_bkm c) 16 + 1)%Z = (2 ^ Z.of_nat tv)%Z ->
  forall r e : nat,
  r < m * n ->
  r mod n < e < n ->
  let cell := nth (e + n * r) cells cell0 in
  ce_out cell = expf 0%Z /\ ce_low cell = 0%Z /\ ce_high cell = 0%Z /\ ce_in cell = 0%Z.
Proof. exact @sm_mask_leak. Qed.
Print Assumptions C65_mask_refuted.
Example C65_mask_ex : sm_evaluate xexp xlse c2 [2; 2; 2] data = Some (ev c2) /\ sm_tv c2 = Some 2 /\ sm_nz c2 = 0 /\ (Z.shiftr (sm_bkm c2) 16 + 1 = 2 ^ Z.of_nat 2)%Z /\
  map ce_out (cells c2) = [100; 100; 50; 50; 100; 100; 75; 0]%Z.
Proof. repeat split. Qed.

(** The smallest input itself is not covered when it is a power of two just beyond the table: its top bit is lost and it is given the largest weight. *)
Theorem C65_sizes_refuted :
  forall (lut : Z -> Z) (tv nz zv : nat),
  sm_sizes (- 2 ^ Z.of_nat (17 + tv)) tv = Some (nz, zv) ->
  0 < tv ->
  let cell := sm_elem lut tv nz zv (- 2 ^ Z.of_nat (17 + tv)) in
  (ce_low cell + 2 ^ 8 * ce_high cell + 2 ^ 16 * ce_in cell +
   2 ^ Z.of_nat (16 + tv) * chunk_sum zv (ce_zin cell))%Z = 0%Z /\ ce_out cell = lut 0%Z.
Proof. exact @sm_sizes_edge. Qed.
Print Assumptions C65_sizes_refuted.
Example C65_edge_ex : sm_sizes (- 2 ^ Z.of_nat (17 + 3)) 3 = Some (1, 1).
Proof. vm_compute. reflexivity. Qed.

(** ** C66: the proof *)

Definition pt : list F101 := [z 20; z 30; z 40].
Definition pt4 : list F101 := [z 20; z 30; z 40; z 50].
Definition claim_b (l : list F101) (c : @claim F101) : bool := (length l =? 2 ^ length (cl_point c)) && feqb (cl_eval c) (mle l (cl_point c)).
Lemma claim_b_ok l c : claim_b l c = true -> claim_true l c.
Proof. unfold claim_b. intros H. apply andb_true_iff in H as [H1 H2]. split; [now apply Nat.eqb_eq|now apply feqb_true]. Qed.
Lemma claim_b_no l c : claim_b l c = false -> ~ claim_true l c.
Proof. unfold claim_b. intros H [H1 H2]. apply andb_false_iff in H as [H|H]; [apply Nat.eqb_neq in H|apply feqb_false in H]; auto. Qed.
Fixpoint claims_b (ls : list (list F101)) (cs : list (@claim F101)) : bool := match ls, cs with
  | [], [] => true | l :: ls', c :: cs' => claim_b l c && claims_b ls' cs' | _, _ => false end.
Lemma claims_b_ok ls : forall cs, claims_b ls cs = true -> Forall2 claim_true ls cs.
Proof. induction ls as [|l ls IH]; intros [|c cs] H; try discriminate; [constructor|]. apply andb_true_iff in H as [H1 H2]. constructor; [now apply claim_b_ok|auto]. Qed.
Definition last (o : list Z) : @claim F101 := mkClaim pt (mle (map fZ o) pt).
Definition ch (n : Z) : F101 * F101 := (z n, z 3).
Definition xsc (s nz : nat) (i : nat) : nat -> nat -> rsched := seq_rsched (3 * (match i with O => 1 | S O => 2 | S (S O) => 1 | _ => nz end)).
Definition xes (s m : nat) (i : nat) : nat -> list nat := match i with S (S O) => seq_sched m | _ => seq_sched (s + m) end.
Definition prun (c : sm_ctx) (cv s m : nat) (cs : list sm_cell) (xs shift : list Z) (o : list Z) (l : @claim F101) :=
  sm_prove (C := nat) xT 2 (xsc s (sm_nz c)) (xes s m) (seq_rsched (6 + 2 * sm_nz c) (s + m)) (seq_rsched 2 (s + m)) (seq_sched m)
    (sm_nz c) (ch 10) (ch 20) (z 30, f1) (ch 40) (ccol ce_in cs) (ccol ce_exp cs) (ccol ce_low cs) (ccol ce_high cs) (zcols (sm_nz c) cs) (row_sums s m (map fZ o)) (map fZ shift)
    (sm_shifted c s (s + m) (map fZ xs) (map fZ shift)) (sm_tri cv (s + m)) (sm_bias c cv (s + m)) (seq 0 (5 + 2 * sm_nz c)) l [].
Definition vrun (c : sm_ctx) (hd cv : nat) (l : @claim F101) (pf : @sm_proof F101 nat) := sm_verify xT c (ch 10) (ch 20) (z 30, f1) (ch 40) [hd; 2 ^ cv; 2 ^ cv] l pf [].
(** Accepted with true claims about the columns and the input. *)
Definition acc_b (c : sm_ctx) (cs : list sm_cell) (xs shift : list Z) (r : option (list (nat * @claim F101) * @claim F101 * @hist F101)) : bool := match r with
  | Some (wit, nc, _) => claims_b (ccol ce_in cs :: ccol ce_exp cs :: ccol ce_low cs :: ccol ce_high cs :: map fZ shift :: zcols (sm_nz c) cs) (map snd wit) && claim_b (map fZ xs) nc
  | None => false end.
Lemma acc_b_ok c cs xs shift r : acc_b c cs xs shift r = true -> exists wit nc h', r = Some (wit, nc, h') /\
  Forall2 claim_true (ccol ce_in cs :: ccol ce_exp cs :: ccol ce_low cs :: ccol ce_high cs :: map fZ shift :: zcols (sm_nz c) cs) (map snd wit) /\ claim_true (map fZ xs) nc.
Proof. destruct r as [[[wit nc] h']|]; [|discriminate]. cbn [acc_b]. intros H. apply andb_true_iff in H as [H1 H2]. exists wit, nc, h'. auto using claims_b_ok, claim_b_ok. Qed.
Definition run_b (c : sm_ctx) (cv s m : nat) (cs : list sm_cell) (xs shift o : list Z) (l : @claim F101) : bool := match prun c cv s m cs xs shift o l with
  | Some (_, _, pf, _) => acc_b c cs xs shift (vrun c 2 cv l pf) | None => false end.
Definition outs c := map ce_out (cells c).

(** Whatever proof the verifier accepts, with true claims about the columns, the shifts and the input and with rows in the lookup tables: the last claim holds of the table values of the masked shifted input; every masked shifted input is at most zero and in range; every entry above the diagonal is zero; the error lookup is about the sums over blocks of [2 ^ s] entries; the lookup claims are true; or challenges hit a zero of an equation fixed before them.  Missing: [s] is chosen by the proof ([C66_rows]), so that the blocks need not be the rows; and the zero columns must be opened ([zcols] among the claims). *)
Theorem C66_sound_partial :
  forall (K : field) (C : Type) (T : @hist K -> K) (P V : Z) (expf : Z -> Z) (c : sm_ctx) 
    (ce cr cx cz : K * K) (pre : list nat) (tv s m cv hv n : nat) (last : @claim K) (pf : sm_proof) 
    (h : hist) (p q xp z : list K) (vi vo vl vh vx : K) (vz : list K) (h1 : hist) (wit : list (C * claim))
    (nc : claim) (h' : hist) (cells : list sm_cell) (shift xs : list Z),
  small_inj (K := K) P ->
  char_gt K (sm_nz c + 3) ->
  0 < n ->
  length p = n ->
  length xp = m ->
  n = s + m ->
  n = cv + cv + hv ->
  sm_tv c = Some tv ->
  sm_lookups T c ce cr cx cz pf h = Some (sm_cls (sm_nz c) p q xp z vi vo vl vh vx vz, h1) ->
  length vz = 2 * sm_nz c ->
  sm_verify T c ce cr cx cz (pre ++ [2 ^ cv; 2 ^ cv]) last pf h = Some (wit, nc, h') ->
  Forall2 claim_true
    (ccol ce_in cells
     :: ccol ce_exp cells :: ccol ce_low cells :: ccol ce_high cells :: map fZ shift :: zcols (sm_nz c) cells)
    (map snd wit) ->
  Forall (cell_ok expf (sm_bkm c) tv (sm_nz c) (sm_zv c)) cells ->
  claim_true (map fZ xs) nc ->
  (forall b : nat, b < 2 ^ n -> (Z.abs (masked_int c s cv xs shift b) <= V)%Z) ->
  (V + 2 ^ Z.of_nat (16 + tv + sm_nz c * sm_zv c) <= P)%Z ->
  (let out := map (fun b : nat => sm_weight expf (sm_bkm c) tv (- masked_int c s cv xs shift b)) (seq 0 (2 ^ n))
     in
   claim_true (map fZ out) last /\
   (forall b : nat,
    b < 2 ^ n -> (- 2 ^ Z.of_nat (16 + tv + sm_nz c * sm_zv c) < masked_int c s cv xs shift b <= 0)%Z) /\
   (forall b : nat, b < 2 ^ n -> above cv b = true -> nth b out 0%Z = 0%Z) /\
   mle (row_sums s m (map fZ out)) xp = vx /\
   mle (ccol ce_in cells) p = vi /\
   mle (ccol ce_exp cells) p = vo /\
   mle (ccol ce_low cells) q = vl /\ mle (ccol ce_high cells) q = vh /\ evals_at (zcols (sm_nz c) cells) z = vz) \/
  sm_fooled T c s cv n p q xp z vi vo vl vh vx vz last pf h1 (ccol ce_in cells) (ccol ce_exp cells)
    (ccol ce_low cells) (ccol ce_high cells) (map fZ shift) (zcols (sm_nz c) cells) 
    (map fZ xs) \/
  table_event
    (add2 n
       (sm_comb tv (sm_zv c) n (ccol ce_in cells) (ccol ce_low cells) (ccol ce_high cells)
          (zcols (sm_nz c) cells)) (sm_masked c s cv n (map fZ xs) (map fZ shift))) 
    (sm_ap T n (sm_nz c) pf h1).
Proof. exact @sm_layer_sound. Qed.
Print Assumptions C66_sound_partial.

(** The same for arbitrary columns over any field: the claims are those of the columns, and the combined chunks equal the negated masked input at the point of the first sumcheck. *)
Theorem C66_sound_field :
  forall (K : field) (C : Type) (T : @hist K -> K) (c : sm_ctx) (ce cr cx cz : K * K) (pre : list nat)
    (tv s m cv hv n : nat) (last : @claim K) (pf : sm_proof) (h : hist) (p q xp z : list K) 
    (vi vo vl vh vx : K) (vz : list K) (h1 : hist) (wit : list (C * claim)) (nc : claim) 
    (h' : hist) (cin cout lo hi shift : list K) (zc : list (list K)) (xs : list K),
  char_gt K (sm_nz c + 3) ->
  0 < n ->
  length p = n ->
  length xp = m ->
  n = s + m ->
  n = cv + cv + hv ->
  sm_tv c = Some tv ->
  sm_lookups T c ce cr cx cz pf h = Some (sm_cls (sm_nz c) p q xp z vi vo vl vh vx vz, h1) ->
  length vz = 2 * sm_nz c ->
  sm_verify T c ce cr cx cz (pre ++ [2 ^ cv; 2 ^ cv]) last pf h = Some (wit, nc, h') ->
  Forall2 claim_true (cin :: cout :: lo :: hi :: shift :: zc) (map snd wit) ->
  length zc = 2 * sm_nz c ->
  claim_true xs nc ->
  (Forall (fun l : list K => length l = 2 ^ n) (cin :: cout :: lo :: hi :: xs :: zc) /\ length shift = 2 ^ m) /\
  (claim_true (sm_out n cout zc) last /\
   mle cin p = vi /\
   mle cout p = vo /\
   mle lo q = vl /\
   mle hi q = vh /\
   evals_at zc z = vz /\
   mle (row_sums s m (sm_out n cout zc)) xp = vx /\
   (let ap := sm_ap T n (sm_nz c) pf h1 in
    length ap = n /\ mle (sm_comb tv (sm_zv c) n cin lo hi zc) ap = (- mle (sm_masked c s cv n xs shift) ap)%F) \/
   sm_fooled T c s cv n p q xp z vi vo vl vh vx vz last pf h1 cin cout lo hi shift zc xs).
Proof. exact @sm_sound. Qed.
Print Assumptions C66_sound_field.

(** The honest prover on what the layer computes for any input, of any power-of-two sizes, up to three zero chunks and all entries in range, is accepted; the claims about the columns are the same on both sides and true; the claim that the verifier derives about the input is true.  The prover derives the scaled value instead. *)
Theorem C66_complete :
  forall (K : field) (C : Type) (T : @hist K -> K) (ncpus : nat) (sc : nat -> nat -> nat -> rsched)
    (es : nat -> nat -> list nat) (sca scm : nat -> rsched) (esh : nat -> list nat) 
    (expf : Z -> Z) (lse : list Z -> Z) (c : sm_ctx) (ce cr cx cz : K * K) (pre : list nat) 
    (tv k cv hv : nat) (data shifts shifted : list Z) (cells : list sm_cell) (comms : list C) 
    (last : @claim K) (h : hist),
  let m := S (S k) in
  let n := cv + m in
  let nz := sm_nz c in
  m = cv + hv ->
  char_gt K (nz + 3) ->
  0 < ncpus ->
  nz <= 3 ->
  (nz <> 0 -> 16 + tv < 64 /\ 0 < sm_zv c < 64) ->
  cv < 64 ->
  sm_tv c = Some tv ->
  fZ (sm_scalar c) <> (0%F : K) ->
  length data = 2 ^ n ->
  sm_evaluate expf lse c [2 ^ hv; 2 ^ cv; 2 ^ cv] data = Some (shifts, shifted, cells) ->
  (forall b : nat,
   b < 2 ^ n -> (- 2 ^ Z.of_nat (16 + tv + nz * sm_zv c) < masked_int c cv cv data shifts b <= 0)%Z) ->
  length comms = 5 + 2 * nz ->
  claim_true (ccol ce_out cells) last ->
  length (cl_point last) = n ->
  sm_scheds (K := K) k cv nz sc es sca scm esh ->
  exists (wit : list (C * claim)) (nc : claim) (pf : sm_proof) (h' : hist),
    sm_prove T ncpus sc es sca scm esh nz ce cr cx cz (ccol ce_in cells) (ccol ce_exp cells) 
      (ccol ce_low cells) (ccol ce_high cells) (zcols nz cells) (row_sums cv m (ccol ce_out cells))
      (map fZ shifts) (sm_shifted c cv n (map fZ data) (map fZ shifts)) (sm_tri cv n) 
      (sm_bias c cv n) comms last h = Some (wit, nc, pf, h') /\
    map fst wit = comms /\
    Forall2 claim_true
      (ccol ce_in cells
       :: ccol ce_exp cells :: ccol ce_low cells :: ccol ce_high cells :: map fZ shifts :: zcols nz cells)
      (map snd wit) /\
    length (cl_point nc) = n /\
    cl_eval nc = (fZ (sm_scalar c) * mle (map fZ data) (cl_point nc))%F /\
    ((forall (pr : proof) (x : K),
      In pr (flat_map (fun l : logup_proof => lp_sumchecks l) (smp_logups pf)) ->
      In x (pf_point pr) -> not_node 3 x) ->
     (forall x : K, In x (pf_point (smp_acc pf)) -> not_node (nz + 2) x) ->
     (forall x : K, In x (pf_point (smp_mask pf)) -> not_node 3 x) ->
     (eqp (cl_point nc) (pf_point (smp_acc pf)) * sm_tril cv (cl_point nc))%F <> (0%F : K) ->
     exists nv : claim,
       sm_verify T c ce cr cx cz (pre ++ [2 ^ cv; 2 ^ cv]) last pf h = Some (wit, nv, h') /\
       claim_true (map fZ data) nv /\ cl_point nv = cl_point nc).
Proof. exact @sm_honest. Qed.
Print Assumptions C66_complete.

(** For every block size [2 ^ s], not only the row length: columns whose chunks make up the masked input, shifted block by block, are accepted with the sums over the blocks as the error lookup. *)
Theorem C66_rows :
  forall (K : field) (C : Type) (T : @hist K -> K) (ncpus : nat) (sc : nat -> nat -> nat -> rsched)
    (es : nat -> nat -> list nat) (sca scm : nat -> rsched) (esh : nat -> list nat) 
    (expf : Z -> Z) (c : sm_ctx) (ce cr cx cz : K * K) (pre : list nat) (tv k s cv hv : nat)
    (cells : list sm_cell) (xs shift : list Z) (comms : list C) (last : @claim K) (h : hist),
  let m := S (S k) in
  let n := s + m in
  let nz := sm_nz c in
  let out := map (fun b : nat => sm_weight expf (sm_bkm c) tv (- masked_int c s cv xs shift b)) (seq 0 (2 ^ n))
    in
  char_gt K (nz + 3) ->
  0 < ncpus ->
  nz <= 3 ->
  (nz <> 0 -> 16 + tv < 64 /\ 0 < sm_zv c < 64) ->
  s < 64 ->
  n = cv + cv + hv ->
  sm_tv c = Some tv ->
  fZ (sm_scalar c) <> (0%F : K) ->
  length cells = 2 ^ n ->
  length xs = 2 ^ n ->
  length shift = 2 ^ m ->
  Forall (cell_ok expf (sm_bkm c) tv nz (sm_zv c)) cells ->
  (forall b : nat, b < 2 ^ n -> cell_val tv (sm_zv c) (nth b cells cell0) = (- masked_int c s cv xs shift b)%Z) ->
  length comms = 5 + 2 * nz ->
  claim_true (map fZ out) last ->
  length (cl_point last) = n ->
  sm_scheds (K := K) k s nz sc es sca scm esh ->
  exists (wit : list (C * claim)) (nc : claim) (pf : sm_proof) (h' : hist) (p q xp z : list K) 
  (h1 : hist),
    sm_prove T ncpus sc es sca scm esh nz ce cr cx cz (ccol ce_in cells) (ccol ce_exp cells) 
      (ccol ce_low cells) (ccol ce_high cells) (zcols nz cells) (row_sums s m (map fZ out)) 
      (map fZ shift) (sm_shifted c s n (map fZ xs) (map fZ shift)) (sm_tri cv n) (sm_bias c cv n) comms last h =
    Some (wit, nc, pf, h') /\
    map fst wit = comms /\
    Forall2 claim_true
      (ccol ce_in cells
       :: ccol ce_exp cells :: ccol ce_low cells :: ccol ce_high cells :: map fZ shift :: zcols nz cells)
      (map snd wit) /\
    length (cl_point nc) = n /\
    cl_eval nc = (fZ (sm_scalar c) * mle (map fZ xs) (cl_point nc))%F /\
    (length p = n /\ length q = n /\ length xp = m /\ smp_comms pf = comms) /\
    ((forall (pr : proof) (x : K),
      In pr (flat_map (fun l : logup_proof => lp_sumchecks l) (smp_logups pf)) ->
      In x (pf_point pr) -> not_node 3 x) ->
     sm_lookups T c ce cr cx cz pf h =
     Some
       (sm_cls nz p q xp z (mle (ccol ce_in cells) p) (mle (ccol ce_exp cells) p) (mle (ccol ce_low cells) q)
          (mle (ccol ce_high cells) q) (mle (row_sums s m (map fZ out)) xp) (evals_at (zcols nz cells) z), h1) /\
     ((forall x : K, In x (pf_point (smp_acc pf)) -> not_node (nz + 2) x) ->
      (forall x : K, In x (pf_point (smp_mask pf)) -> not_node 3 x) ->
      (eqp (cl_point nc) (pf_point (smp_acc pf)) * sm_tril cv (cl_point nc))%F <> (0%F : K) ->
      sm_verify T c ce cr cx cz (pre ++ [2 ^ cv; 2 ^ cv]) last pf h =
      Some (wit, {| cl_point := cl_point nc; cl_eval := mle (map fZ xs) (cl_point nc) |}, h'))).
Proof. exact @sm_run. Qed.
Print Assumptions C66_rows.

(** An honest run with zero chunks; without zero chunks a wrong output is rejected (the right one is accepted in
    [C66_claim_refuted]). *)
Example C66_ex : run_b c1 1 1 2 (cells c1) data (shifts c1) (outs c1) (last (outs c1)) = true /\
  run_b c0 1 1 2 (cells c0) data (shifts c0) (outs c0) (last [100; 0; 50; 51; 100; 0; 75; 25]%Z) = false.
Proof. split; vm_compute; reflexivity. Qed.
Example C66_ex_range : forallb (fun b => (- 2 ^ Z.of_nat (16 + 3 + 0 * 0) <? masked_int c0 1 1 data (shifts c0) b)%Z && (masked_int c0 1 1 data (shifts c0) b <=? 0)%Z) (seq 0 8) = true /\
  forallb (fun b => (- 2 ^ Z.of_nat (16 + 1 + 1 * 2) <? masked_int c1 1 1 data (shifts c1) b)%Z && (masked_int c1 1 1 data (shifts c1) b <=? 0)%Z) (seq 0 8) = true /\
  fZ (sm_scalar c0) <> (0%F : F101) /\ char_gt F101 4 /\ small_inj (K := Fgold) (2 ^ 40).
Proof.
  split; [vm_compute; reflexivity|]. split; [vm_compute; reflexivity|]. split; [apply feqb_false; vm_compute; reflexivity|]. split; [apply ch101; lia|].
  intros x H Hx. assert (E : @fZ Fgold x = mkFp gold x) by apply (fZ_mk gold prime_gold). rewrite E in H. apply (f_equal (fpv gold)) in H. rewrite fpv_mk in H. change (fpv gold (@f0 Fgold)) with 0%Z in H.
  apply Z.mod_divide in H; [|discriminate]. destruct H as [u ->]. unfold gold in Hx. lia.
Qed.
Example C66_ex_sched s k nz : nz <= 3 -> sm_scheds (K := F101) k s nz (xsc s nz) (xes s (S (S k))) (seq_rsched (6 + 2 * nz) (s + S (S k))) (seq_rsched 2 (s + S (S k))) (seq_sched (S (S k))).
Proof.
  intros Hn. split; [|split; [|split; [|split]]].
  - split; [apply (seq_logup_scheds true (S (s + k)) 1)|]. split; [apply (seq_logup_scheds true (S (s + k)) 2)|]. split; [apply (seq_logup_scheds true (S k) 1)|]. intros _. apply (seq_logup_scheds true (S (s + k)) nz).
  - split; [apply seq_sched_valid|]. split; [apply seq_sched_valid|]. split; apply seq_sched_valid.
  - intros i Hi. assert (E : 6 + 2 * nz = length (map snd (sm_acc_terms (0%F : F101) 0%F nz))) by (destruct nz as [|[|[|[|?]]]]; [reflexivity|reflexivity|reflexivity|reflexivity|lia]). rewrite E. apply seq_sop_sched.
  - intros i Hi. apply (seq_sop_sched _ 4 mask_ix).
  - apply seq_sched_valid.
Qed.
(** Four heads, each block of two rows summing to 100: the rows sum to 50, and the layer itself computes other weights. *)
Definition data2 : list Z := concat (repeat [0; 7; -1; -1]%Z 4).
Definition shift2 : list Z := repeat (-131072)%Z 4.
Definition cells2 : list sm_cell := map (fun b => sm_elem (sm_table xexp (sm_bkm c0)) 3 0 0 (masked_int c0 2 1 data2 shift2 b)) (seq 0 16).
Definition outs2 : list Z := concat (repeat [50; 0; 25; 25]%Z 4).
Definition last2 : @claim F101 := mkClaim pt4 (mle (map fZ outs2) pt4).
Definition dummy : @sm_proof F101 nat := mkSmp [] [] (mkProof [] []) (mkProof [] []) [].
Definition forged : @sm_proof F101 nat := match prun c0 1 2 2 cells2 data2 shift2 outs2 last2 with Some (_, _, pf, _) => pf | None => dummy end.
Lemma cells2_ok : Forall (cell_ok xexp (sm_bkm c0) 3 0 0) cells2.
Proof.
  apply Forall_forall. intros x Hx. unfold cells2 in Hx. apply in_map_iff in Hx as (b & <- & Hb). apply in_seq in Hb.
  assert (H : (Z.abs (masked_int c0 2 1 data2 shift2 b) < 2 ^ Z.of_nat (16 + 3 + 0 * 0))%Z).
  { assert (A : forallb (fun b => (Z.abs (masked_int c0 2 1 data2 shift2 b) <? 2 ^ Z.of_nat (16 + 3 + 0 * 0))%Z) (seq 0 16) = true) by (vm_compute; reflexivity).
    rewrite forallb_forall in A. apply Z.ltb_lt, A, in_seq. lia. }
  destruct (sm_elem_ok (sm_table xexp (sm_bkm c0)) 3 0 0 _ H) as (S1 & S2 & S3 & S4 & S5 & S6 & S7 & S8 & S9). unfold cell_ok. do 6 (split; [assumption|]). assumption.
Qed.
Theorem C66_rows_refuted : exists pf wit nc h', vrun c0 4 1 last2 pf = Some (wit, nc, h') /\
  Forall2 claim_true (ccol ce_in cells2 :: ccol ce_exp cells2 :: ccol ce_low cells2 :: ccol ce_high cells2 :: map fZ shift2 :: zcols 0 cells2) (map snd wit) /\
  Forall (cell_ok xexp (sm_bkm c0) 3 0 0) cells2 /\ claim_true (map fZ data2) nc /\ claim_true (map fZ outs2) last2 /\
  map (fold_right Z.add 0%Z) (chunks 4 outs2) = [100; 100; 100; 100]%Z /\ map (fold_right Z.add 0%Z) (chunks 2 outs2) = repeat 50%Z 8 /\
  exists sh sd cs, sm_evaluate xexp xlse c0 [4; 2; 2] data2 = Some (sh, sd, cs) /\ map ce_out cs = concat (repeat [100; 0; 50; 50]%Z 4).
Proof.
  assert (H : acc_b c0 cells2 data2 shift2 (vrun c0 4 1 last2 forged) = true) by (vm_compute; reflexivity).
  destruct (acc_b_ok _ _ _ _ _ H) as (wit & nc & h' & E & T1 & T2). exists forged, wit, nc, h'. split; [exact E|]. split; [exact T1|]. split; [exact cells2_ok|]. split; [exact T2|].
  split; [apply claim_b_ok; vm_compute; reflexivity|]. split; [reflexivity|]. split; [reflexivity|]. do 3 eexists. split; reflexivity.
Qed.
Print Assumptions C66_rows_refuted.
(** The claim that the honest prover passes on is not about the input; the one that the verifier derives is. *)
Definition pv_b (xs : list Z) (v : @sm_proof F101 nat -> option (list (nat * @claim F101) * @claim F101 * @hist F101)) (r : option (list (nat * @claim F101) * @claim F101 * @sm_proof F101 nat * @hist F101)) : bool := match r with
  | Some (_, nc, pf, _) => match v pf with Some (_, nv, _) => negb (claim_b (map fZ xs) nc) && claim_b (map fZ xs) nv | None => false end | None => false end.
Lemma pv_b_ok xs v r : pv_b xs v r = true -> exists wit nc pf h', r = Some (wit, nc, pf, h') /\ ~ claim_true (map fZ xs) nc /\ exists wit' nv h'', v pf = Some (wit', nv, h'') /\ claim_true (map fZ xs) nv.
Proof.
  unfold pv_b. destruct r as [[[[wit nc] pf] h']|]; [|discriminate]. destruct (v pf) as [[[wit' nv] h'']|] eqn:E; [|discriminate]. intros H. apply andb_true_iff in H as [H1 H2]. apply negb_true_iff in H1.
  exists wit, nc, pf, h'. split; [reflexivity|]. split; [now apply claim_b_no|]. exists wit', nv, h''. split; [exact E|]. now apply claim_b_ok.
Qed.
Theorem C66_claim_refuted : exists wit nc pf h', prun c0 1 1 2 (cells c0) data (shifts c0) (outs c0) (last (outs c0)) = Some (wit, nc, pf, h') /\ ~ claim_true (map fZ data) nc /\
  exists wit' nv h'', vrun c0 2 1 (last (outs c0)) pf = Some (wit', nv, h'') /\ claim_true (map fZ data) nv.
Proof. apply (pv_b_ok data (vrun c0 2 1 (last (outs c0)))). vm_compute. reflexivity. Qed.
Print Assumptions C66_claim_refuted.

