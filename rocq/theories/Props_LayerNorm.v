(** Property C60: what a layer normalisation proof says about its input and output. *)
From Coq Require Import List Arith Lia Bool ZArith String.
From Coq Require Import List.
From Verif Require Import ListAux FieldDef FpInst FpGold PolyList MleMath M_Mle P_Mle P_Eq M_Interp M_Sumcheck P_ScVerify M_ScParallel P_ScParallel P_ScApi M_SamePoly P_SamePoly P_Count M_LogUp P_LogUp3 P_LogUp8 P_LogUp9
  M_Tensor P_Tensor M_Layers P_Layers2 M_Sop P_Sop P_Transformer5 M_Tables M_Quant P_Quant M_Requant P_Requant P_Requant2 P_Pooling M_RequantP P_RequantP P_RequantP2 P_RequantP3
  M_LayerNorm P_LayerNorm P_LayerNorm2 P_LayerNorm3 P_LayerNorm4 P_LayerNorm5 P_LayerNorm6.
Import ListNotations.

(** ** Inputs for the examples *)
Definition z (n : Z) : F101 := mkFp 101 n.
Definition xT (h : @hist F101) : F101 := z (11 + 7 * (Z.of_nat (length h) mod 12)).
Definition not_node_b (deg : nat) (r : F101) : bool := forallb (fun i => negb (feqb r (fnat i))) (seq 0 (S deg)).
Lemma not_node_ok deg r : not_node_b deg r = true -> not_node deg r.
Proof.
  unfold not_node_b. intros H i Hi. rewrite forallb_forall in H. specialize (H i). assert (Hin : In i (seq 0 (S deg))) by (apply in_seq; lia). specialize (H Hin).
  apply negb_true_iff in H. now apply feqb_false.
Qed.
Lemma ch101 n : n < 101 -> char_gt F101 n.
Proof.
  intros Hn i Hi. apply feqb_false. assert (A : forallb (fun i => negb (feqb (fnat i : F101) f0)) (seq 1 100) = true) by (vm_compute; reflexivity).
  rewrite forallb_forall in A. apply negb_true_iff, A, in_seq. lia.
Qed.
Lemma inj101 : small_inj (K := F101) 101.
Proof.
  intros x H Hx. assert (E : @fZ F101 x = mkFp 101 x) by apply (fZ_mk 101 prime_101). rewrite E in H. apply (f_equal (fpv 101)) in H. rewrite fpv_mk in H. change (fpv 101 (@f0 F101)) with 0%Z in H.
  apply Z.mod_divide in H; [|lia]. destruct H as [u ->]. lia.
Qed.
(** Two-bit quantisation, rows of two elements, four rows.  With multiplier 1 the quantiser picks three range-checked bits
    in two chunks, the top one scaled by 2; with multiplier 2 it picks four bits and no scaling. *)
Definition ctx1 : ln_ctx := mkLnCtx 2 3 1 1.
Definition ctx2 : ln_ctx := mkLnCtx 2 4 0 2.
Definition FL : floats := mkFloats (fun x => x) (fun _ x => x) (fun _ x => if (x =? 0)%Z then 5%Z else if (x <? 0)%Z then 0%Z else 1%Z) (fun _ => ""%string).
Definition lut (c : ln_ctx) (i : Z) : Z := fl_isqrt FL 0 (i * 2 ^ Z.of_nat (ln_rcb c)).
Definition data : list Z := [1; 0; 0; 1; 2; 2; 1; 1]%Z.
Definition gamma : list Z := [2; 1]%Z.
Definition beta : list Z := [0; 3]%Z.
Definition ev (c : ln_ctx) := match ln_evaluate (lut c) c gamma beta (2 ^ 1) data with Some o => o | None => ([], []) end.
Definition outs (c : ln_ctx) : list Z := fst (ev c).
Definition ws (c : ln_ctx) : list row := ln_ws 2 2 c (snd (ev c)).
Example ln_ex : ln_sizes 2 2 1 = Some ctx1 /\ ln_sizes 2 2 2 = Some ctx2 /\ ln_values 1 ctx1 data = [1; 1; 0; 0]%Z /\ ln_values 1 ctx2 data = [2; 2; 0; 0]%Z /\
  outs ctx1 = [10; -2; -10; 8; 0; 3; 0; 3]%Z /\ map snd (ws ctx1) = [[1; 0]; [1; 0]; [0; 0]; [0; 0]]%Z /\ ln_evaluate (lut ctx2) ctx2 gamma beta 2 data = Some (ev ctx2).
Proof. repeat split. Qed.
Definition pt : list F101 := [z 20; z 30; z 40].
Definition last (o : list Z) : @claim F101 := mkClaim pt (mle (map fZ o) pt).
Definition prove1 (c : ln_ctx) (w : list row) (l : @claim F101) := ln_prove (C := nat) xT 2 (seq_rsched 3) (seq_sched 2) (seq_rsched 6) (seq_sched 2) (fun i => seq_rsched 4 2 i) (fun i => seq_rsched 6 3 i) (fun i => seq_rsched 2 3 i)
  c (z 10) (z 3) (z 10) f1 (map fZ gamma) (map fZ beta) (map fZ data) 2 (col r_in w) (col r_out w) (chunk_cols 2 w) [0; 1; 2; 3] l [].

(** ** C60 *)

(** An accepted layer normalisation proof with one accumulated evaluation and one evaluation per column, equal where both exist (three conditions the verifier does not check), whose claims are true of columns, of the input, of gamma and of beta: the last claim is true of the normalised table built from the input and the looked-up column, all lookup claims are true of these columns, and the columns recombine to the scaled variances at the challenge point; otherwise one of the named events of the run happened. *)
Theorem C60_sound_partial :
  forall (K : field) (C : Type) (T : hist -> K) (B : nat) (c : ln_ctx) (c1 s1 c2 s2 : K) 
    (s m nb : nat) (last : claim) (pf : ln_proof) (h : hist) (lp1 lp2 : logup_proof) 
    (p q : list K) (vi vo : K) (vs n1 d1 : list K) (h1 : hist) (n2 d2 : list K) (h2 : hist) 
    (rec : K) (wit : list (C * claim)) (nc gc bc : claim) (h' : hist) (lin lout : list K) 
    (rcs : list (list K)) (xs gam bet : list K),
  char_gt K 4 ->
  0 < m ->
  Datatypes.length p = m ->
  vs <> [] ->
  ln_nrc B c = Some (Datatypes.length vs) ->
  ceil_log2 (ln_dim c) = Some s ->
  s < 64 ->
  ceil_log2 (2 + Datatypes.length vs) = Some nb ->
  lnp_logups pf = [lp1; lp2] ->
  verify_logup T lp1 1 c1 s1 h =
  Some ([{| cl_point := p; cl_eval := vi |}; {| cl_point := p; cl_eval := vo |}], n1, d1, h1) ->
  verify_logup T lp2 (Datatypes.length vs) c2 s2 h1 = Some (map (mkClaim q) vs, n2, d2, h2) ->
  ln_verify T B c c1 s1 c2 s2 last pf h = Some (wit, nc, (gc, bc), h') ->
  Datatypes.length (lnp_evals pf) = 4 + Datatypes.length vs ->
  Datatypes.length (lnp_acc_evals pf) = 2 + Datatypes.length vs ->
  (forall i : nat,
   i < 2 + Datatypes.length vs -> i <> 1 -> nth i (lnp_acc_evals pf) 0%F = nth i (lnp_evals pf) 0%F) ->
  ln_recombine B c (Datatypes.length vs) (lnp_acc_evals pf) = Some rec ->
  Forall2 claim_true (lin :: lout :: rcs) (map snd wit) ->
  Datatypes.length rcs = Datatypes.length vs ->
  claim_true gam gc ->
  claim_true bet bc ->
  claim_true xs nc ->
  let dim := fZ (Z.of_nat (ln_dim c)) in
  (Datatypes.length lin = 2 ^ m /\
   Datatypes.length lout = 2 ^ m /\
   Datatypes.length xs = 2 ^ (s + m) /\ Datatypes.length gam = 2 ^ s /\ Datatypes.length bet = 2 ^ s) /\
  (claim_true (ln_table dim s m xs gam bet lout) last /\
   mle lin p = vi /\
   mle lout p = vo /\
   evals_at rcs q = vs /\
   (let ap := f_ap T m nb pf h2 in
    ln_recombine B c (Datatypes.length vs) (mle lin ap :: mle lout ap :: evals_at rcs ap) =
    Some (fZ (ln_mult c) * mle (ln_vars dim s m xs) ap)%F) \/
   ln_fooled T c s m nb last pf h2 p q vi vo vs rec lin lout rcs xs gam bet).
Proof. exact @ln_sound. Qed.
Print Assumptions C60_sound_partial.

(** If the rows of the columns are rows of the inverse-square-root and range tables and the values are bounded, the last claim is true of the layer output for denominators looked up at a quotient that is the right one or, when the top chunk is scaled and the remainder is small, one less; otherwise one of the named events happened. *)
Theorem C60_layer_partial :
  forall (K : field) (C : Type) (T : hist -> K) (P : Z) (B : nat) (FL : floats) (ls : nat) 
    (eb : Z) (c : ln_ctx) (c1 s1 c2 s2 : K) (s m nb k : nat) (last : claim) (pf : ln_proof) 
    (h : hist) (lp1 lp2 : logup_proof) (p q : list K) (vi vo : K) (vs n1 d1 : list K) 
    (h1 : hist) (n2 d2 : list K) (h2 : hist) (rec : K) (wit : list (C * claim)) (nc gc bc : claim) 
    (h' : hist) (rows : list (list Z)) (ws : list row) (data gamma beta : list Z) (V : Z),
  small_inj (K := K) P ->
  char_gt K 4 ->
  0 < m ->
  Datatypes.length p = m ->
  vs <> [] ->
  Datatypes.length vs = k ->
  ln_nrc B c = Some (Datatypes.length vs) ->
  ceil_log2 (ln_dim c) = Some s ->
  s < 64 ->
  ceil_log2 (2 + Datatypes.length vs) = Some nb ->
  0 < B < 64 ->
  ln_rcb c < 64 ->
  ln_rcb c + ln_tsl c = k * B ->
  ln_tsl c < B ->
  (2 ^ Z.of_nat (ln_tsl c) * (V + (2 ^ Z.of_nat (2 * (B - 1)) + 2) * 2 ^ Z.of_nat (ln_rcb c)) < P)%Z ->
  lnp_logups pf = [lp1; lp2] ->
  verify_logup T lp1 1 c1 s1 h =
  Some ([{| cl_point := p; cl_eval := vi |}; {| cl_point := p; cl_eval := vo |}], n1, d1, h1) ->
  verify_logup T lp2 (Datatypes.length vs) c2 s2 h1 = Some (map (mkClaim q) vs, n2, d2, h2) ->
  ln_verify T B c c1 s1 c2 s2 last pf h = Some (wit, nc, (gc, bc), h') ->
  Datatypes.length (lnp_evals pf) = 4 + Datatypes.length vs ->
  Datatypes.length (lnp_acc_evals pf) = 2 + Datatypes.length vs ->
  (forall i : nat,
   i < 2 + Datatypes.length vs -> i <> 1 -> nth i (lnp_acc_evals pf) 0%F = nth i (lnp_evals pf) 0%F) ->
  ln_recombine B c (Datatypes.length vs) (lnp_acc_evals pf) = Some rec ->
  Forall2 claim_true (col r_in ws :: col r_out ws :: chunk_cols k ws) (map snd wit) ->
  table_rows B FL ls (TInvSqrt eb (ln_rcb c)) = Some rows ->
  Forall
    (fun w : row => In [r_in w; r_out w] rows /\ Datatypes.length (snd w) = k /\ Forall (in_range B) (snd w)) ws ->
  claim_true (map fZ gamma) gc ->
  claim_true (map fZ beta) bc ->
  claim_true (map fZ data) nc ->
  Forall (fun v : Z => (Z.abs v <= V)%Z) (ln_values s c data) ->
  (exists dens : list Z,
     Forall2
       (den_ok (fun i : Z => fl_isqrt FL eb (i * 2 ^ Z.of_nat (ln_rcb c))) (ln_rcb c) (ln_slack B (ln_tsl c) k))
       (ln_values s c data) dens /\
     claim_true
       (map fZ (concat (map (fun '(ch, d) => ln_out c gamma beta ch d) (combine (chunks (2 ^ s) data) dens))))
       last) \/
  ln_fooled T c s m nb last pf h2 p q vi vo vs rec (col r_in ws) (col r_out ws) (chunk_cols k ws) 
    (map fZ data) (map fZ gamma) (map fZ beta) \/
  table_event (err m (ln_recombs B c k ws) (map fZ (ln_values s c data))) (f_ap T m nb pf h2).
Proof. exact @ln_layer_sound. Qed.
Print Assumptions C60_layer_partial.

(** When the top chunk is not scaled the last claim is true of exactly the output the layer computes. *)
Theorem C60_exact_partial :
  forall (K : field) (C : Type) (T : hist -> K) (P : Z) (B : nat) (FL : floats) (ls : nat) 
    (eb : Z) (c : ln_ctx) (c1 s1 c2 s2 : K) (s m nb k : nat) (last : claim) (pf : ln_proof) 
    (h : hist) (lp1 lp2 : logup_proof) (p q : list K) (vi vo : K) (vs n1 d1 : list K) 
    (h1 : hist) (n2 d2 : list K) (h2 : hist) (rec : K) (wit : list (C * claim)) (nc gc bc : claim) 
    (h' : hist) (rows : list (list Z)) (ws : list row) (data gamma beta outs : list Z)
    (lrows : list (Z * Z * Z)) (V : Z),
  small_inj (K := K) P ->
  char_gt K 4 ->
  0 < m ->
  Datatypes.length p = m ->
  vs <> [] ->
  Datatypes.length vs = k ->
  ln_nrc B c = Some (Datatypes.length vs) ->
  ceil_log2 (ln_dim c) = Some s ->
  s < 64 ->
  ceil_log2 (2 + Datatypes.length vs) = Some nb ->
  0 < B < 64 ->
  ln_rcb c < 64 ->
  ln_rcb c = k * B ->
  ln_tsl c = 0 ->
  (V + (2 ^ Z.of_nat (2 * (B - 1)) + 2) * 2 ^ Z.of_nat (ln_rcb c) < P)%Z ->
  lnp_logups pf = [lp1; lp2] ->
  verify_logup T lp1 1 c1 s1 h =
  Some ([{| cl_point := p; cl_eval := vi |}; {| cl_point := p; cl_eval := vo |}], n1, d1, h1) ->
  verify_logup T lp2 (Datatypes.length vs) c2 s2 h1 = Some (map (mkClaim q) vs, n2, d2, h2) ->
  ln_verify T B c c1 s1 c2 s2 last pf h = Some (wit, nc, (gc, bc), h') ->
  Datatypes.length (lnp_evals pf) = 4 + Datatypes.length vs ->
  Datatypes.length (lnp_acc_evals pf) = 2 + Datatypes.length vs ->
  (forall i : nat,
   i < 2 + Datatypes.length vs -> i <> 1 -> nth i (lnp_acc_evals pf) 0%F = nth i (lnp_evals pf) 0%F) ->
  ln_recombine B c (Datatypes.length vs) (lnp_acc_evals pf) = Some rec ->
  Forall2 claim_true (col r_in ws :: col r_out ws :: chunk_cols k ws) (map snd wit) ->
  table_rows B FL ls (TInvSqrt eb (ln_rcb c)) = Some rows ->
  Forall
    (fun w : row => In [r_in w; r_out w] rows /\ Datatypes.length (snd w) = k /\ Forall (in_range B) (snd w)) ws ->
  claim_true (map fZ gamma) gc ->
  claim_true (map fZ beta) bc ->
  claim_true (map fZ data) nc ->
  Forall (fun v : Z => (Z.abs v <= V)%Z) (ln_values s c data) ->
  ln_evaluate (fun i : Z => fl_isqrt FL eb (i * 2 ^ Z.of_nat (ln_rcb c))) c gamma beta (2 ^ s) data =
  Some (outs, lrows) ->
  claim_true (map fZ outs) last \/
  ln_fooled T c s m nb last pf h2 p q vi vo vs rec (col r_in ws) (col r_out ws) (chunk_cols k ws) 
    (map fZ data) (map fZ gamma) (map fZ beta) \/
  table_event (err m (ln_recombs B c k ws) (map fZ (ln_values s c data))) (f_ap T m nb pf h2).
Proof. exact @ln_layer_exact. Qed.
Print Assumptions C60_exact_partial.

(** The sizes the quantiser picks meet the conditions on sizes of the two theorems above. *)
Theorem C60_sizes :
  forall (B dim : nat) (mult : Z) (c : ln_ctx),
  0 < B ->
  ln_sizes B dim mult = Some c ->
  exists k : nat, 0 < k /\ ln_nrc B c = Some k /\ ln_rcb c + ln_tsl c = k * B /\ ln_tsl c < B.
Proof. exact @ln_sizes_ok. Qed.
Print Assumptions C60_sizes.

(** The honest runs meet every hypothesis of the three soundness theorems and of the forgeries below. *)
Definition list_feqb (a b : list F101) : bool := (length a =? length b) && forallb (fun p => feqb (fst p) (snd p)) (combine a b).
Lemma list_feqb_ok : forall a b, list_feqb a b = true -> a = b.
Proof.
  unfold list_feqb. induction a as [|x a IH]; intros [|y b] H; cbn [length Nat.eqb combine forallb fst snd andb] in H; try discriminate H; [reflexivity|]. apply andb_true_iff in H as [H1 H2]. apply andb_true_iff in H2 as [H2 H3].
  apply feqb_true in H2. f_equal; [exact H2|]. apply IH. apply andb_true_iff. split; [exact H1|exact H3].
Qed.
Definition at_one_point (l : list (@claim F101)) (n m : nat) : bool := match l with c0 :: _ => (length l =? m) && (length (cl_point c0) =? n) && forallb (fun c => list_feqb (cl_point c) (cl_point c0)) l | [] => false end.
Lemma at_one_point_ok l n m : at_one_point l n m = true -> exists p vs, l = map (mkClaim p) vs /\ length p = n /\ length vs = m /\ vs <> [].
Proof.
  destruct l as [|c0 l]; [discriminate|]. unfold at_one_point. rewrite !andb_true_iff. intros ((H1 & H2) & H3). exists (cl_point c0), (map cl_eval (c0 :: l)).
  apply Nat.eqb_eq in H1, H2. split; [|split; [exact H2|split; [now rewrite map_length|discriminate]]]. rewrite map_map. rewrite forallb_forall in H3. revert H3. generalize (c0 :: l). intros l' H3.
  symmetry. rewrite <- (map_id l') at 2. apply map_ext_in. intros c Hc. specialize (H3 c Hc). apply list_feqb_ok in H3. destruct c as [pp e]. cbn [cl_point cl_eval] in *. now rewrite H3.
Qed.
Definition claim_b (l : list F101) (c : @claim F101) : bool := (length l =? 2 ^ length (cl_point c)) && feqb (cl_eval c) (mle l (cl_point c)).
Fixpoint claims_b (ls : list (list F101)) (cs : list (@claim F101)) : bool := match ls, cs with l :: ls, c :: cs => claim_b l c && claims_b ls cs | [], [] => true | _, _ => false end.
Lemma claim_b_ok l c : claim_b l c = true -> claim_true l c.
Proof. unfold claim_b, claim_true. rewrite andb_true_iff, Nat.eqb_eq. intros [A B]. split; [exact A|now apply feqb_true]. Qed.
Lemma claims_b_ok : forall ls cs, claims_b ls cs = true -> Forall2 claim_true ls cs.
Proof. induction ls as [|l ls IH]; intros [|c cs] H; cbn in H; try discriminate H; constructor; apply andb_true_iff in H as [A B]; [now apply claim_b_ok|auto]. Qed.


(** The checks below are run once, on the proof that is passed as an argument. *)
Definition ne (a b : F101) : bool := negb (feqb a b).
Definition hyps_b (c : ln_ctx) (w : list row) (l : @claim F101) (o : option (list (nat * @claim F101) * @claim F101 * (@claim F101 * @claim F101) * @ln_proof F101 nat * @hist F101)) : bool := match o with
  | Some (_, _, _, pf, _) => match lnp_logups pf with
    | [lp1; lp2] => (length (lnp_evals pf) =? 6) && (length (lnp_acc_evals pf) =? 4) &&
        forallb (fun i => feqb (nth i (lnp_acc_evals pf) f0) (nth i (lnp_evals pf) f0)) [0; 2; 3] &&
        match ln_recombine 2 c 2 (lnp_acc_evals pf) with Some _ => true | None => false end &&
        match verify_logup xT lp1 1 (z 10) (z 3) [] with
        | Some (ccl, _, _, h1) => at_one_point ccl 2 2 && match verify_logup xT lp2 2 (z 10) f1 h1 with
          | Some (scl, _, _, h2) => at_one_point scl 2 2 && match ccl, scl with
            | [c0; c1], s0 :: _ => ne (f_fb xT 2 2 pf h2 (cl_eval c0) (cl_eval c1) (map cl_eval scl)) f0 &&
                (let ap := f_ap xT 2 2 pf h2 in let w i := nth i (compute_betas_eval (f_bch xT 2 h2)) f0 in
                 ne (fmul (eqp (cl_point s0) ap) (w 2)) f0 && ne (fmul (fZ (2 ^ Z.of_nat (ln_rcb c))) (fmul (eqp (cl_point s0) ap) (w 2))) (fmul (eqp (cl_point c0) ap) (w 0)))
            | _, _ => false end &&
            match ln_verify xT 2 c (z 10) (z 3) (z 10) f1 l pf [] with
            | Some (wit, nc, (gc, bc), _) => claims_b (col r_in w :: col r_out w :: chunk_cols 2 w) (map snd wit) && claim_b (map fZ gamma) gc && claim_b (map fZ beta) bc && claim_b (map fZ data) nc
            | None => false end
          | None => false end
        | None => false end
    | _ => false end
  | None => false end.
Definition hyps (c : ln_ctx) (w : list row) (l : @claim F101) : Prop := exists (pf : @ln_proof F101 nat) lp1 lp2 p q vi vo vs n1 d1 h1 n2 d2 h2 rec wit nc gc bc h',
  length p = 2 /\ length vs = 2 /\ lnp_logups pf = [lp1; lp2] /\
  verify_logup xT lp1 1 (z 10) (z 3) [] = Some ([mkClaim p vi; mkClaim p vo], n1, d1, h1) /\
  verify_logup xT lp2 (length vs) (z 10) f1 h1 = Some (map (mkClaim q) vs, n2, d2, h2) /\
  ln_verify xT 2 c (z 10) (z 3) (z 10) f1 l pf [] = Some (wit, nc, (gc, bc), h') /\
  length (lnp_evals pf) = 4 + length vs /\ length (lnp_acc_evals pf) = 2 + length vs /\
  (forall i, i < 2 + length vs -> i <> 1 -> nth i (lnp_acc_evals pf) f0 = nth i (lnp_evals pf) f0) /\
  ln_recombine 2 c (length vs) (lnp_acc_evals pf) = Some rec /\
  Forall2 claim_true (col r_in w :: col r_out w :: chunk_cols 2 w) (map snd wit) /\
  claim_true (map fZ gamma) gc /\ claim_true (map fZ beta) bc /\ claim_true (map fZ data) nc /\
  f_fb xT 2 2 pf h2 vi vo vs <> f0 /\
  (let ap := f_ap xT 2 2 pf h2 in let w i := nth i (compute_betas_eval (f_bch xT 2 h2)) f0 in
   fmul (eqp q ap) (w 2) <> f0 /\ fmul (fZ (2 ^ Z.of_nat (ln_rcb c))) (fmul (eqp q ap) (w 2)) <> fmul (eqp p ap) (w 0)).
Lemma ne_ok a b : ne a b = true -> a <> b.
Proof. unfold ne. intros H. apply feqb_false. now apply negb_true_iff. Qed.
Lemma hyps_b_ok c w l o : hyps_b c w l o = true -> hyps c w l.
Proof.
  unfold hyps_b. destruct o as [[[[[wit0 nc0] gb0] pf] hf]|]; [|discriminate]. destruct (lnp_logups pf) as [|lp1 [|lp2 [|? ?]]] eqn:El; try discriminate. rewrite !andb_true_iff, !Nat.eqb_eq. intros ((((Le & La) & Hl) & Hr) & H).
  destruct (ln_recombine 2 c 2 (lnp_acc_evals pf)) as [rec|] eqn:Er; [|discriminate Hr].
  destruct (verify_logup xT lp1 1 (z 10) (z 3) []) as [[[[ccl n1] d1] h1]|] eqn:E1; [|discriminate H]. apply andb_true_iff in H as [A1 H].
  destruct (verify_logup xT lp2 2 (z 10) f1 h1) as [[[[scl n2] d2] h2]|] eqn:E2; [|discriminate H]. apply andb_true_iff in H as [A2 H]. apply andb_true_iff in A2 as [A2 A2'].
  destruct (ln_verify xT 2 c (z 10) (z 3) (z 10) f1 l pf []) as [[[[wit nc] [gc bc]] h']|] eqn:E3; [|discriminate H]. rewrite !andb_true_iff in H. destruct H as (((A4 & A5) & A6) & A7).
  apply at_one_point_ok in A1 as (p & us & -> & Lp & Lu & _). apply at_one_point_ok in A2 as (q & vs & -> & _ & Lv & Nv). destruct us as [|vi [|vo [|? ?]]]; try discriminate Lu. destruct vs as [|v0 [|v1 [|? ?]]]; try discriminate Lv.
  cbn [map cl_eval cl_point] in A2'. apply andb_true_iff in A2' as [B1 B2]. apply andb_true_iff in B2 as [B2 B3].
  exists pf, lp1, lp2, p, q, vi, vo, [v0; v1], n1, d1, h1, n2, d2, h2, rec, wit, nc, gc, bc, h'. split; [exact Lp|]. split; [reflexivity|]. split; [exact El|]. split; [exact E1|]. split; [exact E2|]. split; [exact E3|]. split; [exact Le|]. split; [exact La|]. split.
  { intros i Hi H1. cbn [length] in Hi. rewrite forallb_forall in Hl. apply feqb_true, Hl. cbn [In]. lia. }
  split; [exact Er|]. split; [now apply claims_b_ok|]. split; [now apply claim_b_ok|]. split; [now apply claim_b_ok|]. split; [now apply claim_b_ok|]. split; [now apply ne_ok|]. split; now apply ne_ok.
Qed.
Lemma ex_hyps1 : hyps_b ctx1 (ws ctx1) (last (outs ctx1)) (prove1 ctx1 (ws ctx1) (last (outs ctx1))) = true.
Proof. vm_compute. reflexivity. Qed.
Lemma ex_hyps2 : hyps_b ctx2 (ws ctx2) (last (outs ctx2)) (prove1 ctx2 (ws ctx2) (last (outs ctx2))) = true.
Proof. vm_compute. reflexivity. Qed.
Lemma rows_in c : c = ctx1 \/ c = ctx2 -> exists rows, table_rows 2 FL 0 (TInvSqrt 0 (ln_rcb c)) = Some rows /\
  Forall (fun w => In [r_in w; r_out w] rows /\ length (snd w) = 2 /\ Forall (in_range 2) (snd w)) (ws c).
Proof.
  intros [->| ->]; eexists; (split; [vm_compute; reflexivity|]); repeat (apply Forall_cons; [split; [vm_compute; tauto|split; [reflexivity|repeat (apply Forall_cons; [split; vm_compute; [discriminate|reflexivity]|]); apply Forall_nil]]|]); apply Forall_nil.
Qed.
Example C60_ex_hyps : hyps ctx1 (ws ctx1) (last (outs ctx1)) /\ hyps ctx2 (ws ctx2) (last (outs ctx2)) /\ small_inj (K := F101) 101 /\ char_gt F101 4 /\
  forall c, c = ctx1 \/ c = ctx2 -> ln_nrc 2 c = Some 2 /\ ceil_log2 (ln_dim c) = Some 1 /\ ceil_log2 (2 + 2) = Some 2 /\ ln_rcb c + ln_tsl c = 2 * 2 /\ ln_tsl c < 2 /\
    (2 ^ Z.of_nat (ln_tsl c) * (ln_mult c + (2 ^ Z.of_nat (2 * (2 - 1)) + 2) * 2 ^ Z.of_nat (ln_rcb c)) < 101)%Z /\
    Forall (fun v => (Z.abs v <= ln_mult c)%Z) (ln_values 1 c data) /\
    exists rows, table_rows 2 FL 0 (TInvSqrt 0 (ln_rcb c)) = Some rows /\ Forall (fun w => In [r_in w; r_out w] rows /\ length (snd w) = 2 /\ Forall (in_range 2) (snd w)) (ws c).
Proof.
  split; [exact (hyps_b_ok _ _ _ _ ex_hyps1)|]. split; [exact (hyps_b_ok _ _ _ _ ex_hyps2)|]. split; [exact inj101|]. split; [apply ch101; lia|]. intros c Hc. pose proof (rows_in c Hc) as Hr.
  destruct Hc as [->| ->]; (split; [reflexivity|]); (split; [reflexivity|]); (split; [reflexivity|]); (split; [reflexivity|]); (split; [cbn; lia|]); (split; [reflexivity|]); (split; [|exact Hr]); repeat (apply Forall_cons; [vm_compute; discriminate|]); apply Forall_nil.
Qed.

(** The honest prover, on the evaluation of any input tensor: the columns pass both lookups, the run succeeds, all claims it registers or returns are true, and the verifier accepts and derives the same claims, unless a challenge is an interpolation node or a batching denominator is zero. *)
Theorem C60_complete :
  forall (K : field) (C : Type) (T : hist -> K) (lut : Z -> Z) (ncpus : nat) (sc1 : nat -> nat -> rsched)
    (es1 : nat -> list nat) (sc2 : nat -> nat -> rsched) (es2 : nat -> list nat) (sca sci scn : nat -> rsched)
    (B : nat) (c : ln_ctx) (c1 s1 c2 s2 : K) (k s nb nr : nat) (data gamma beta outs : list Z)
    (rows : list (Z * Z * Z)) (comms : list C) (last : claim) (h : hist),
  let m := S (S k) in
  char_gt K 4 ->
  0 < ncpus ->
  0 < nr ->
  ln_nrc B c = Some nr ->
  ln_rcb c + ln_tsl c = nr * B ->
  ln_tsl c < B < 64 ->
  ln_rcb c < 64 ->
  ceil_log2 (ln_dim c) = Some s ->
  s < 64 ->
  ceil_log2 (2 + nr) = Some nb ->
  Datatypes.length data = 2 ^ (s + m) ->
  Datatypes.length gamma = 2 ^ s ->
  Datatypes.length beta = 2 ^ s ->
  Datatypes.length comms = 2 + nr ->
  fZ (2 ^ Z.of_nat (ln_tsl c)) <> (0%F : K) ->
  ln_evaluate lut c gamma beta (2 ^ s) data = Some (outs, rows) ->
  claim_true (map fZ outs) last ->
  ln_scheds (K := K) k s nr sc1 es1 sc2 es2 sca sci scn ->
  let ws := ln_ws B nr c rows in
  ln_run T ncpus sc1 es1 sc2 es2 sca sci scn B c c1 s1 c2 s2 s m (col r_in ws) (col r_out ws) 
    (chunk_cols nr ws) (map fZ data) (map fZ gamma) (map fZ beta) comms last h /\
  Forall (fun w : row => r_out w = lut (r_in w) /\ Datatypes.length (snd w) = nr /\ Forall (in_range B) (snd w))
    ws.
Proof. exact @ln_honest. Qed.
Print Assumptions C60_complete.

(** The runs on these inputs are accepted; with one output or one chunk changed they are not. *)
Definition accepted (c : ln_ctx) (w : list row) (l : @claim F101) : bool := match prove1 c w l with
  | Some (_, _, _, pf, _) => match ln_verify xT 2 c (z 10) (z 3) (z 10) f1 l pf [] with Some (_, nc, _, _) => feqb (cl_eval nc) (mle (map fZ data) (cl_point nc)) | None => false end | None => false end.
Example C60_ex_run : accepted ctx1 (ws ctx1) (last (outs ctx1)) = true /\ accepted ctx2 (ws ctx2) (last (outs ctx2)) = true /\ accepted ctx2 (ws ctx2) (last (outs ctx1 ++ [])) = true /\
  accepted ctx1 (ws ctx1) (last [10; -2; -10; 8; 0; 3; 0; 4]%Z) = false /\
  accepted ctx1 (match ws ctx1 with (c, o, _) :: t => (c, o, [1; 2]%Z) :: t | [] => [] end) (last (outs ctx1)) = false.
Proof. repeat split; vm_compute; reflexivity. Qed.
Example C60_ex_scheds : ln_scheds (K := F101) 0 1 2 (seq_rsched 3) (seq_sched 2) (seq_rsched 6) (seq_sched 2) (fun i => seq_rsched 4 2 i) (fun i => seq_rsched 6 3 i) (fun i => seq_rsched 2 3 i).
Proof.
  split; [apply (seq_logup_scheds true 1 1)|]. split; [apply seq_sched_valid|]. split; [apply (seq_logup_scheds true 1 2)|]. split; [apply seq_sched_valid|]. split; [intros i Hi; apply (seq_sop_sched 2 6 (acc_ix 2))|].
  split; intros i Hi; [apply (seq_sop_sched 3 7 (map snd (ln_io_terms (f0 : F101) f0 f0 f0 f0 f0)))|apply (seq_sop_sched 3 3 (map snd (ln_in_terms (f0 : F101) f0)))].
Qed.

(** The number of accumulated evaluations is not checked.  Any accepted proof becomes, with one more accumulated evaluation, an accepted proof of any other output evaluation with the same claims for everything else. *)
Theorem C60_forgery :
  forall (K : field) (C : Type) (T : hist -> K) (B : nat) (c : ln_ctx) (c1 s1 c2 s2 : K) 
    (m nb : nat) (last : claim) (pf : ln_proof) (h : hist) (lp1 lp2 : logup_proof) (p q : list K) 
    (vi vo : K) (vs n1 d1 : list K) (h1 : hist) (n2 d2 : list K) (h2 : hist)
    (res : list (C * claim) * claim * (claim * claim) * hist),
  Datatypes.length p = m ->
  vs <> [] ->
  ln_nrc B c = Some (Datatypes.length vs) ->
  ceil_log2 (2 + Datatypes.length vs) = Some nb ->
  fZ 2 <> (0%F : K) ->
  lnp_logups pf = [lp1; lp2] ->
  verify_logup T lp1 1 c1 s1 h =
  Some ([{| cl_point := p; cl_eval := vi |}; {| cl_point := p; cl_eval := vo |}], n1, d1, h1) ->
  verify_logup T lp2 (Datatypes.length vs) c2 s2 h1 = Some (map (mkClaim q) vs, n2, d2, h2) ->
  ln_verify T B c c1 s1 c2 s2 last pf h = Some res ->
  Datatypes.length (lnp_acc_evals pf) = 2 + Datatypes.length vs ->
  f_fb T m nb pf h2 vi vo vs <> 0%F ->
  forall y : K,
  exists z : K,
    ln_verify T B c c1 s1 c2 s2 {| cl_point := cl_point last; cl_eval := y |}
      (with_acc pf (lnp_acc_evals pf ++ [z])) h = Some res.
Proof. exact @ln_forge. Qed.
Print Assumptions C60_forgery.

(** Nor are the accumulated evaluations compared with the evaluations that are opened: a list of the right length does the same. *)
Theorem C60_forgery_same_length :
  forall (K : field) (C : Type) (T : hist -> K) (B : nat) (c : ln_ctx) (c1 s1 c2 s2 : K) 
    (m nb : nat) (last : claim) (pf : ln_proof) (h : hist) (lp1 lp2 : logup_proof) (p q : list K) 
    (vi vo : K) (vs n1 d1 : list K) (h1 : hist) (n2 d2 : list K) (h2 : hist)
    (res : list (C * claim) * claim * (claim * claim) * hist),
  Datatypes.length p = m ->
  2 <= Datatypes.length vs ->
  ln_nrc B c = Some (Datatypes.length vs) ->
  ceil_log2 (2 + Datatypes.length vs) = Some nb ->
  lnp_logups pf = [lp1; lp2] ->
  verify_logup T lp1 1 c1 s1 h =
  Some ([{| cl_point := p; cl_eval := vi |}; {| cl_point := p; cl_eval := vo |}], n1, d1, h1) ->
  verify_logup T lp2 (Datatypes.length vs) c2 s2 h1 = Some (map (mkClaim q) vs, n2, d2, h2) ->
  ln_verify T B c c1 s1 c2 s2 last pf h = Some res ->
  Datatypes.length (lnp_acc_evals pf) = 2 + Datatypes.length vs ->
  f_fb T m nb pf h2 vi vo vs <> 0%F ->
  let ap := f_ap T m nb pf h2 in
  let w := fun i : nat => nth i (compute_betas_eval (f_bch T nb h2)) 0%F in
  (eqp q ap * w 2%nat)%F <> 0%F ->
  (fZ (2 ^ Z.of_nat (ln_rcb c)) * (eqp q ap * w 2%nat))%F <> (eqp p ap * w 0%nat)%F ->
  forall y : K,
  exists acc : list K,
    Datatypes.length acc = 2 + Datatypes.length vs /\
    ln_verify T B c c1 s1 c2 s2 {| cl_point := cl_point last; cl_eval := y |} (with_acc pf acc) h = Some res.
Proof. exact @ln_forge_same. Qed.
Print Assumptions C60_forgery_same_length.

(** False output claims accepted, with claims that are true of the honest columns and of the input, gamma and beta. *)
Theorem C60_refuted : forall y, exists (pf : @ln_proof F101 nat) wit nc gc bc h',
  ln_evaluate (lut ctx1) ctx1 gamma beta 2 data = Some (ev ctx1) /\
  ln_verify xT 2 ctx1 (z 10) (z 3) (z 10) f1 (mkClaim pt y) pf [] = Some (wit, nc, (gc, bc), h') /\ length (lnp_acc_evals pf) = 4 /\
  Forall2 claim_true (col r_in (ws ctx1) :: col r_out (ws ctx1) :: chunk_cols 2 (ws ctx1)) (map snd wit) /\
  claim_true (map fZ gamma) gc /\ claim_true (map fZ beta) bc /\ claim_true (map fZ data) nc.
Proof.
  intros y. destruct (hyps_b_ok _ _ _ _ ex_hyps1) as (pf & lp1 & lp2 & p & q & vi & vo & vs & n1 & d1 & h1 & n2 & d2 & h2 & rec & wit & nc & gc & bc & h' & Lp & Lv & El & E1 & E2 & Hv & Le & La & Hl & Hr & Hc & Hg & Hb & Hd & Hf & Hw & Hw2).
  assert (Hk : 2 <= length vs) by lia. assert (Hnr : ln_nrc 2 ctx1 = Some (length vs)) by (rewrite Lv; reflexivity). assert (Hnb : ceil_log2 (2 + length vs) = Some 2) by (rewrite Lv; reflexivity).
  destruct (ln_forge_same xT 2 ctx1 (z 10) (z 3) (z 10) f1 2 2 (last (outs ctx1)) pf [] lp1 lp2 p q vi vo vs n1 d1 h1 n2 d2 h2 _ Lp Hk Hnr Hnb El E1 E2 Hv La Hf Hw Hw2 y) as (acc & Lacc & Q).
  exists (with_acc pf acc), wit, nc, gc, bc, h'. split; [reflexivity|]. split; [exact Q|]. split; [cbn [with_acc lnp_acc_evals]; now rewrite Lacc, Lv|]. auto.
Qed.
Print Assumptions C60_refuted.
Theorem C60_refuted_appended : forall y, exists (pf : @ln_proof F101 nat) wit nc gc bc h',
  ln_verify xT 2 ctx1 (z 10) (z 3) (z 10) f1 (mkClaim pt y) pf [] = Some (wit, nc, (gc, bc), h') /\ length (lnp_acc_evals pf) = 5 /\
  Forall2 claim_true (col r_in (ws ctx1) :: col r_out (ws ctx1) :: chunk_cols 2 (ws ctx1)) (map snd wit) /\
  claim_true (map fZ gamma) gc /\ claim_true (map fZ beta) bc /\ claim_true (map fZ data) nc.
Proof.
  intros y. destruct (hyps_b_ok _ _ _ _ ex_hyps1) as (pf & lp1 & lp2 & p & q & vi & vo & vs & n1 & d1 & h1 & n2 & d2 & h2 & rec & wit & nc & gc & bc & h' & Lp & Lv & El & E1 & E2 & Hv & Le & La & Hl & Hr & Hc & Hg & Hb & Hd & Hf & Hw & Hw2).
  assert (Hk : vs <> []) by (intros ->; discriminate Lv). assert (Hnr : ln_nrc 2 ctx1 = Some (length vs)) by (rewrite Lv; reflexivity). assert (Hnb : ceil_log2 (2 + length vs) = Some 2) by (rewrite Lv; reflexivity).
  assert (H2 : fZ 2 <> (f0 : F101)) by (apply feqb_false; vm_compute; reflexivity).
  destruct (ln_forge xT 2 ctx1 (z 10) (z 3) (z 10) f1 2 2 (last (outs ctx1)) pf [] lp1 lp2 p q vi vo vs n1 d1 h1 n2 d2 h2 _ Lp Hk Hnr Hnb H2 El E1 E2 Hv La Hf y) as (e & Q).
  exists (with_acc pf (lnp_acc_evals pf ++ [e])), wit, nc, gc, bc, h'. split; [exact Q|]. split; [cbn [with_acc lnp_acc_evals]; rewrite app_length, La, Lv; reflexivity|]. auto.
Qed.
Print Assumptions C60_refuted_appended.

(** Nor is the number of commitments: cutting the list of an accepted proof cuts the list of opening claims, and the proof is still accepted. *)
Theorem C60_commitments_dropped :
  forall (K : field) (C : Type) (T : hist -> K) (B : nat) (c : ln_ctx) (c1 s1 c2 s2 : K) 
    (last : claim) (pf : ln_proof) (h : hist) (wit : list (C * claim)) (nc : claim) 
    (gb : claim * claim) (h' : hist) (m : nat),
  ln_verify T B c c1 s1 c2 s2 last pf h = Some (wit, nc, gb, h') ->
  ln_verify T B c c1 s1 c2 s2 last
    {|
      lnp_logups := lnp_logups pf;
      lnp_comms := firstn m (lnp_comms pf);
      lnp_acc := lnp_acc pf;
      lnp_io := lnp_io pf;
      lnp_input := lnp_input pf;
      lnp_acc_evals := lnp_acc_evals pf;
      lnp_evals := lnp_evals pf;
      lnp_gamma := lnp_gamma pf;
      lnp_beta := lnp_beta pf
    |} h = Some (firstn m wit, nc, gb, h').
Proof. exact @ln_drop. Qed.
Print Assumptions C60_commitments_dropped.

(** When the top chunk is scaled, a prover that lowers the quotient of any rows with a small remainder by one has columns that pass both lookups, and the whole run is accepted with the outputs for the wrong denominators. *)
Theorem C60_low_quotient :
  forall (K : field) (C : Type) (T : hist -> K) (lut : Z -> Z) (ncpus : nat) (sc1 : nat -> nat -> rsched)
    (es1 : nat -> list nat) (sc2 : nat -> nat -> rsched) (es2 : nat -> list nat) (sca sci scn : nat -> rsched)
    (B : nat) (c : ln_ctx) (c1 s1 c2 s2 : K) (k s nb nr : nat) (data gamma beta quots : list Z) 
    (comms : list C) (last : claim) (h : hist),
  let m := S (S k) in
  char_gt K 4 ->
  0 < ncpus ->
  1 < nr ->
  ln_nrc B c = Some nr ->
  ln_rcb c + ln_tsl c = nr * B ->
  0 < ln_tsl c < B ->
  B < 64 ->
  ln_rcb c < 64 ->
  ceil_log2 (ln_dim c) = Some s ->
  s < 64 ->
  ceil_log2 (2 + nr) = Some nb ->
  Datatypes.length data = 2 ^ (s + m) ->
  Datatypes.length gamma = 2 ^ s ->
  Datatypes.length beta = 2 ^ s ->
  Datatypes.length comms = 2 + nr ->
  fZ (2 ^ Z.of_nat (ln_tsl c)) <> (0%F : K) ->
  Forall2 (low_ok B (ln_rcb c) (ln_tsl c) nr) (ln_values s c data) quots ->
  claim_true
    (map fZ
       (concat (map (fun '(ch, d) => ln_out c gamma beta ch d) (combine (chunks (2 ^ s) data) (map lut quots)))))
    last ->
  ln_scheds (K := K) k s nr sc1 es1 sc2 es2 sca sci scn ->
  exists ws : list row,
    map r_in ws = quots /\
    Forall
      (fun w : row => r_out w = lut (r_in w) /\ Datatypes.length (snd w) = nr /\ Forall (in_range B) (snd w)) ws /\
    ln_run T ncpus sc1 es1 sc2 es2 sca sci scn B c c1 s1 c2 s2 s m (col r_in ws) (col r_out ws)
      (chunk_cols nr ws) (map fZ data) (map fZ gamma) (map fZ beta) comms last h.
Proof. exact @ln_low_quotient. Qed.
Print Assumptions C60_low_quotient.

(** All four rows of the example can be lowered: the looked-up quotient is -1 instead of 0, the table gives 0, and the
    output is beta everywhere. *)
Definition low : list row := [(-1, 0, [3; 3]); (-1, 0, [3; 3]); (-1, 0, [2; 3]); (-1, 0, [2; 3])]%Z.
Definition low_outs : list Z := [0; 3; 0; 3; 0; 3; 0; 3]%Z.
Lemma low_true : hyps_b ctx1 low (last low_outs) (prove1 ctx1 low (last low_outs)) = true.
Proof. vm_compute. reflexivity. Qed.
Example C60_ex_low : Forall2 (low_ok 2 (ln_rcb ctx1) (ln_tsl ctx1) 2) (ln_values 1 ctx1 data) [-1; -1; -1; -1]%Z /\
  concat (map (fun '(ch, d) => ln_out ctx1 gamma beta ch d) (combine (chunks (2 ^ 1) data) (map (lut ctx1) [-1; -1; -1; -1]%Z))) = low_outs /\ outs ctx1 <> low_outs /\
  hyps ctx1 low (last low_outs) /\
  exists rows, table_rows 2 FL 0 (TInvSqrt 0 (ln_rcb ctx1)) = Some rows /\ Forall (fun w => In [r_in w; r_out w] rows /\ length (snd w) = 2 /\ Forall (in_range 2) (snd w)) low.
Proof.
  split. { vm_compute ln_values. repeat constructor; right; (split; [reflexivity|vm_compute; reflexivity]). } split; [reflexivity|]. split; [vm_compute; discriminate|]. split; [exact (hyps_b_ok _ _ _ _ low_true)|].
  eexists; (split; [vm_compute; reflexivity|]); repeat (apply Forall_cons; [split; [vm_compute; tauto|split; [reflexivity|repeat (apply Forall_cons; [split; vm_compute; [discriminate|reflexivity]|]); apply Forall_nil]]|]); apply Forall_nil.
Qed.

