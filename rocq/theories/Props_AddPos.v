(** Properties C61 and C62: the addition and positional encoding layers. *)
From Coq Require Import List Arith Lia Bool ZArith.
From Verif Require Import ListAux FieldDef FpInst MleMath M_Mle P_Mle P_Eq M_Sumcheck M_SamePoly M_Tensor P_Tensor M_Layers P_Layers2 P_Quant
  M_AddPos P_AddPos P_AddPos2 P_AddPos3 P_AddPos4.
Import ListNotations.

(** ** Inputs for the examples *)
Definition z (n : Z) : F101 := mkFp 101 n.
Definition xT (h : @hist F101) : F101 := z (7 + 3 * Z.of_nat (length h)).
Definition es (n : nat) : nat -> list nat := seq_sched n.
Definition cs : add_ctx := mkAddCtx 3 5 true.
Definition cd : add_ctx := mkAddCtx 3 5 false.
Definition x1 : ten Z := mkTen [2; 2] [1; 2; 3; -4]%Z.
Definition x2 : ten Z := mkTen [2; 2] [7; 0; -1; 2]%Z.
Definition pt : list F101 := [z 20; z 30].
Definition last (t : ten Z) : @claim F101 := mkClaim pt (mle (map fZ (dat t)) pt).
Definition claim_b (l : list Z) (c : @claim F101) : bool := (length l =? 2 ^ length (cl_point c)) && feqb (cl_eval c) (mle (map fZ l) (cl_point c)).
Lemma claim_b_ok l c : claim_b l c = true -> claim_true (map fZ l) c.
Proof. unfold claim_b. intros H. apply andb_true_iff in H as [H1 H2]. split; [rewrite map_length; now apply Nat.eqb_eq|now apply feqb_true]. Qed.

(** ** C61 *)

(** Whatever proof the addition verifier accepts: if the claims it returns for the inputs, and the claim it adds for the static operand, hold, then the claim about the output holds of what the layer computes.  No condition on challenges. *)
Theorem C61_sound :
  forall (K : field) (c : add_ctx) (operand : option (ten Z)) (inputs : list (ten Z)) 
    (O0 : ten Z) (last : @claim K) (pf : add_proof) (ics : list claim) (op : option claim),
  add_evaluate c operand inputs = Some O0 ->
  ad_static c = match operand with
                | Some _ => true
                | None => false
                end ->
  add_verify c last pf = Some (ics, op) ->
  Forall2 claim_true
    (map (fun t : ten Z => map fZ (dat t)) match operand with
                                           | Some _ => firstn 1 inputs
                                           | None => inputs
                                           end) ics ->
  (forall (o : ten Z) (oc : claim), operand = Some o -> op = Some oc -> claim_true (map fZ (dat o)) oc) ->
  claim_true (map fZ (dat O0)) last.
Proof. exact @add_layer_sound. Qed.
Print Assumptions C61_sound.

(** The honest prover on the evaluation of any inputs is accepted, and both sides derive the same true claims; a static operand must have a multiplier that is not zero. *)
Theorem C61_complete :
  forall (K : field) (es : nat -> nat -> list nat) (c : add_ctx) (operand : option (ten Z))
    (inputs : list (ten Z)) (O0 : ten Z) (last : @claim K),
  (forall n : nat, valid_sched n (es n)) ->
  add_evaluate c operand inputs = Some O0 ->
  ad_static c = match operand with
                | Some _ => true
                | None => false
                end ->
  (forall L R : ten Z,
   nth_error inputs 0 = Some L ->
   match operand with
   | Some o => R = o
   | None => nth_error inputs 1 = Some R
   end -> length (dat L) = length (dat R)) ->
  (ad_static c = true -> fZ (ad_right c) <> (0%F : K)) ->
  claim_true (map fZ (dat O0)) last ->
  exists (ics : list claim) (op : option claim) (pf : add_proof),
    add_prove es c (map to_f inputs) last = Some (ics, op, pf) /\
    add_verify c last pf = Some (ics, op) /\
    Forall2 claim_true
      (map (fun t : ten Z => map fZ (dat t)) match operand with
                                             | Some _ => firstn 1 inputs
                                             | None => inputs
                                             end) ics /\
    match operand with
    | Some o => exists oc : claim, op = Some oc /\ claim_true (map fZ (dat o)) oc
    | None => op = None
    end.
Proof. exact @add_honest. Qed.
Print Assumptions C61_complete.

(** A static operand with multiplier zero: the prover divides by zero, whatever the input. *)
Theorem C61_zero_panics :
  forall (K : field) (es : nat -> nat -> list nat) (c : add_ctx) (inputs : list (ten K)) (last : @claim K),
  ad_static c = true -> fZ (ad_right c) = (0%F : K) -> add_prove es c inputs last = None.
Proof. exact @add_zero_panics. Qed.
Print Assumptions C61_zero_panics.

(** The two kinds of layer on concrete inputs: accepted with true claims; not with a wrong output. *)
Definition out1 : ten Z := mkTen [2; 2] [38; 6; 4; -2]%Z.
Definition run (c : add_ctx) (ins : list (ten Z)) (l : @claim F101) : option (list (@claim F101) * option (@claim F101)) :=
  match add_prove es c (map to_f ins) l with Some (_, _, pf) => add_verify c l pf | None => None end.
Definition good (r : option (list (@claim F101) * option (@claim F101))) : bool := match r with
  | Some ([a], Some o) => claim_b (dat x1) a && claim_b (dat x2) o
  | Some ([a; b], None) => claim_b (dat x1) a && claim_b (dat x2) b
  | _ => false end.
Example C61_ex : add_evaluate cs (Some x2) [x1] = Some out1 /\ add_evaluate cd None [x1; x2] = Some out1 /\
  good (run cs [x1] (last out1)) = true /\ good (run cd [x1; x2] (last out1)) = true /\
  good (run cd [x1; x2] (last (mkTen [2; 2] [38; 6; 4; -1]%Z))) = false /\ good (run cs [x1] (last (mkTen [2; 2] [38; 6; 4; -1]%Z))) = false /\
  (forall n, valid_sched n (es n)) /\ fZ (ad_right cs) <> (f0 : F101).
Proof.
  split; [reflexivity|]. split; [reflexivity|]. do 4 (split; [vm_compute; reflexivity|]). split; [intros n; apply seq_sched_valid|]. apply feqb_false. vm_compute. reflexivity.
Qed.

(** ** C62 *)

(** One input.  If the evaluations of the sub-matrices are right and the extra coordinates are not one, then true claims about the input and the positional matrix make the output claim true.  Missing: the verifier checks neither the number of evaluations nor that they are fixed before the coordinates are drawn. *)
Theorem C62_sound_partial :
  forall (K : field) (T : @hist K -> K) (c : add_ctx) (pos x O0 : ten Z) (a b i : nat) 
    (last : @claim K) (pf : pos_proof) (h : hist) (ic pc : claim) (h' : hist),
  pos_evaluate c pos x = Some O0 ->
  sh pos = [2 ^ a; 2 ^ b] ->
  length (dat pos) = 2 ^ (a + b) ->
  sh x = [2 ^ i; 2 ^ b] ->
  i <= a ->
  length (cl_point last) = i + b ->
  pos_verify1 T c (a + b) last pf h = Some (ic, pc, h') ->
  subs_true (i + b) (a - i) (map fZ (dat pos)) (cl_point pc) (pp_subs pf) ->
  (forall z : K, In z (skipn (i + b) (cl_point pc)) -> z <> 1%F) ->
  claim_true (map fZ (dat x)) ic -> claim_true (map fZ (dat pos)) pc -> claim_true (map fZ (dat O0)) last.
Proof. exact @pos_layer_sound. Qed.
Print Assumptions C62_sound_partial.

(** The honest prover, on any number of inputs with any power-of-two numbers of rows, is accepted, and both sides derive the same true claims. *)
Theorem C62_complete :
  forall (K : field) (T : @hist K -> K) (es : nat -> nat -> list nat) (c : add_ctx) (pos : ten Z)
    (xs os : list (ten Z)) (a b : nat) (lasts : list (@claim K)) (h : hist),
  (forall n : nat, valid_sched n (es n)) ->
  ad_static c = false ->
  sh pos = [2 ^ a; 2 ^ b] ->
  length (dat pos) = 2 ^ (a + b) ->
  xs <> [] ->
  Forall (fun x : ten Z => exists i : nat, sh x = [2 ^ i; 2 ^ b] /\ length (dat x) = 2 ^ (i + b) /\ i <= a) xs ->
  Forall2 (fun x o : ten Z => pos_evaluate c pos x = Some o) xs os ->
  Forall2 (fun (o : ten Z) (last : @claim K) => claim_true (map fZ (dat o)) last) os lasts ->
  exists (ics : list claim) (pc : claim) (pfs : list pos_proof) (h' : hist),
    pos_prove T es c (to_f pos) lasts (map to_f xs) h = Some (ics, Some pc, pfs, h') /\
    pos_verify T c (a + b) lasts pfs h = Some (ics, Some pc, h') /\
    Forall2 claim_true (map (fun x : ten Z => map fZ (dat x)) xs) ics /\ claim_true (map fZ (dat pos)) pc.
Proof. exact @pos_honest. Qed.
Print Assumptions C62_complete.

(** A matrix of four rows, inputs of two rows and of one. *)
Definition pos : ten Z := mkTen [4; 2] [1; -2; 3; 0; 5; 6; -7; 8]%Z.
Definition y1 : ten Z := mkTen [1; 2] [9; 1]%Z.
Definition out2 : ten Z := mkTen [2; 2] [8; -4; 24; -12]%Z.
Definition out3 : ten Z := mkTen [1; 2] [32; -7]%Z.
Definition last3 : @claim F101 := mkClaim [z 20] (mle (map fZ (dat out3)) [z 20]).
Definition prun (lasts : list (@claim F101)) (ins : list (ten Z)) := pos_prove xT es cd (to_f pos) lasts (map to_f ins) [].
Definition hyps_b (lasts : list (@claim F101)) (r : option (list (@claim F101) * option (@claim F101) * list (@pos_proof F101) * @hist F101)) : bool := match r with
  | Some (ics, Some pc, [pf; pf2], _) => match pos_verify xT cd 3 lasts [pf; pf2] [] with
    | Some ([i1; i2], Some pc', _) => claim_b (dat y1) i1 && claim_b (dat x1) i2 && claim_b (dat pos) pc' && (length (pp_subs pf) =? 2) && (length (pp_subs pf2) =? 1) &&
        forallb (fun c => negb (feqb c f1)) (skipn 2 (cl_point pc')) && feqb (nth 0 (pp_subs pf2) f0) (mle (block 2 (map fZ (dat pos))) (firstn 2 (cl_point pc')))
    | _ => false end
  | _ => false end.
Example C62_ex : pos_evaluate cd pos x1 = Some out2 /\ pos_evaluate cd pos y1 = Some out3 /\ hyps_b [last3; last out2] (prun [last3; last out2] [y1; x1]) = true /\
  hyps_b [last3; last (mkTen [2; 2] [8; -4; 24; -11]%Z)] (prun [last3; last (mkTen [2; 2] [8; -4; 24; -11]%Z)] [y1; x1]) = false.
Proof. split; [reflexivity|]. split; [reflexivity|]. split; vm_compute; reflexivity. Qed.

(** For every claim about the output, every input and every positional matrix, with any number of evaluations from one to the number of variables, there is an accepted proof whose claims about the input and the positional matrix hold; the last coordinate must not be zero. *)
Theorem C62_forgery :
  forall (K : field) (T : @hist K -> K) (c : add_ctx) (last : @claim K) (k : nat) (X P : list K) (h : hist) (nv : nat),
  ad_static c = false ->
  fZ (ad_right c) <> (0%F : K) ->
  let n := length (cl_point last) in
  let re := ((cl_eval last - mle X (cl_point last) * fZ (ad_left c)) / fZ (ad_right c))%F in
  let pt := cl_point last ++ fst (pos_coords T (nv - n) last {| cl_point := cl_point last; cl_eval := re |} h)
    in
  length X = 2 ^ n ->
  length P = 2 ^ nv ->
  n <= nv ->
  1 <= k <= nv ->
  nth (nv - 1) pt 0%F <> 0%F ->
  exists (pf : pos_proof) (ic pc : claim) (h' : hist),
    pos_verify1 T c nv last pf h = Some (ic, pc, h') /\
    length (pp_subs pf) = k /\ claim_true X ic /\ claim_true P pc.
Proof. exact @pos_forge. Qed.
Print Assumptions C62_forgery.

(** A false output claim, accepted with true claims and as many evaluations as an honest proof has. *)
Theorem C62_refuted : forall y : F101, feqb (nth 2 (pt ++ fst (pos_coords xT 1 (mkClaim pt y) (mkClaim pt ((y - mle (map fZ (dat x1)) pt * fZ 3) / fZ 5)%F) [])) f0) f0 = false ->
  exists pf ic pc h', pos_evaluate cd pos x1 = Some out2 /\ pos_verify1 xT cd 3 (mkClaim pt y) pf [] = Some (ic, pc, h') /\ length (pp_subs pf) = 1 /\
  claim_true (map fZ (dat x1)) ic /\ claim_true (map fZ (dat pos)) pc.
Proof.
  intros y Hy. destruct (pos_forge xT cd (mkClaim pt y) 1 (map fZ (dat x1)) (map fZ (dat pos)) [] 3) as (pf & ic & pc & h' & A & B & C & D); try reflexivity; try (cbn; lia).
  - apply feqb_false. vm_compute. reflexivity.
  - apply feqb_false. exact Hy.
  - exists pf, ic, pc, h'. split; [reflexivity|]. auto.
Qed.
Print Assumptions C62_refuted.
Example C62_ex_refuted : feqb (nth 2 (pt ++ fst (pos_coords xT 1 (mkClaim pt (z 77)) (mkClaim pt ((z 77 - mle (map fZ (dat x1)) pt * fZ 3) / fZ 5)%F) [])) f0) f0 = false /\
  feqb (z 77) (cl_eval (last out2)) = false.
Proof. split; vm_compute; reflexivity. Qed.

(** With several inputs the claims about the positional matrix of all but the last are overwritten.  Whatever is claimed about the outputs of the others, together with one honest last input everything is accepted and every claim returned holds; no condition on the challenges. *)
Theorem C62_overwrite :
  forall (K : field) (T : @hist K -> K) (es : nat -> nat -> list nat) (c : add_ctx) (pos : ten K) 
    (a b : nat) (last : @claim K) (input : ten K) (lies : list (claim * list K)) (h : hist),
  (forall n : nat, valid_sched n (es n)) ->
  ad_static c = false ->
  fZ (ad_right c) <> (0%F : K) ->
  sh pos = [2 ^ a; 2 ^ b] ->
  length (dat pos) = 2 ^ (a + b) ->
  pos_case c pos a b last input ->
  Forall (fun '(cl, X) => length X = 2 ^ length (cl_point cl) /\ length (cl_point cl) <= a + b) lies ->
  exists (pfs : list pos_proof) (ics : list claim) (pc : claim) (h' : hist),
    pos_verify T c (a + b) (map fst lies ++ [last]) pfs h = Some (ics, Some pc, h') /\
    Forall2 claim_true (map snd lies ++ [dat input]) ics /\ claim_true (dat pos) pc.
Proof. exact @pos_overwrite. Qed.
Print Assumptions C62_overwrite.

(** Any claim about the output of a first input of two rows. *)
Theorem C62_overwrite_refuted : forall (p : list F101) y, length p = 2 -> exists pfs ics pc h', pos_evaluate cd pos y1 = Some out3 /\
  pos_verify xT cd 3 [mkClaim p y; last3] pfs [] = Some (ics, Some pc, h') /\ Forall2 claim_true [map fZ (dat x1); map fZ (dat y1)] ics /\ claim_true (map fZ (dat pos)) pc.
Proof.
  intros p y Lp. destruct (pos_overwrite xT es cd (to_f pos) 2 1 last3 (to_f y1) [(mkClaim p y, map fZ (dat x1))] []) as (pfs & ics & pc & h' & A & B & C); try reflexivity.
  - intros n. apply seq_sched_valid.
  - apply feqb_false. vm_compute. reflexivity.
  - exists 0, (map fZ (dat out3)). split; [reflexivity|]. split; [reflexivity|]. split; [lia|]. split; [|split; reflexivity].
    apply (pos_evaluate_scaled cd pos y1 out3 2 1 0); try reflexivity. lia.
  - constructor; [|constructor]. cbn [cl_point]. rewrite Lp. split; [reflexivity|]. cbn. lia.
  - exists pfs, ics, pc, h'. split; [reflexivity|]. split; [exact A|]. split; [exact B|exact C].
Qed.
Print Assumptions C62_overwrite_refuted.

(** The coordinates drawn for the positional matrix depend on the whole of both claims, their values included. *)
Theorem C62_binds :
  forall (K : field) (n : nat) (out sub out' sub' : @claim K) (h : @hist K), 0 < n -> length (cl_point out) = length (cl_point out') ->
  length (cl_point sub) = length (cl_point sub') -> out <> out' \/ sub <> sub' ->
  exists T : @hist K -> K, fst (pos_coords T n out sub h) <> fst (pos_coords T n out' sub' h).
Proof. exact @pos_binds. Qed.
Print Assumptions C62_binds.
Example C62_binds_ex : exists T : @hist F101 -> F101, fst (pos_coords T 1 (mkClaim pt (z 1)) (mkClaim pt (z 2)) []) <> fst (pos_coords T 1 (mkClaim pt (z 1)) (mkClaim pt (z 3)) []).
Proof. apply C62_binds; [lia|reflexivity|reflexivity|]. right. intros H. injection H as H. discriminate H. Qed.
