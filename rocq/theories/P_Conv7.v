(** Completeness of the transforms of [prove_convolution_step]: the tables of [phi_g_init], the delegation, one transform. *)
From Coq Require Import List Arith Lia Bool ZArith Field.
From Verif Require Import ListAux FieldDef PolyList MleMath M_Mle P_Mle P_Eq M_Interp M_Sumcheck P_ScVerify P_ScProve P_ScProve2 P_ScApi
  M_ScParallel P_ScParallel M_SamePoly P_SamePoly M_Tensor P_Tensor M_Pool M_Fft P_Fft P_Fft2 M_Layers P_Layers P_Layers2 P_Pooling P_Pooling2 M_Conv P_Conv P_Conv2.
Import ListNotations.

Lemma lxor_pow b j : b < 2 ^ j -> Nat.lxor b (2 ^ j) = 2 ^ j + b.
Proof.
  intros H. rewrite <- Nat.add_nocarry_lxor; [lia|]. apply Nat.bits_inj. intros i. rewrite Nat.land_spec, Nat.bits_0, Nat.pow2_bits_eqb.
  destruct (Nat.eqb_spec j i) as [<-|]; [|apply andb_false_r]. rewrite andb_true_r. rewrite Nat.testbit_eqb, Nat.div_small by auto. reflexivity.
Qed.

Lemma csub_S d : M_Tensor.csub (S (S d)) 1 = Some (S d).
Proof. reflexivity. Qed.

Section Phi.
Context {K : field}.
Add Field Kf_conv7 : (fth K).
Local Open Scope F_scope.

Section Rounds.
Variables (w : K) (n : nat) (x : list K) (s : K).
Hypothesis Lx : length x = n.
Hypothesis Hw : fpow w (2 ^ (n - 1)) = - (1).
Let pt := pow_table w 1 (2 ^ n).

Lemma pow_at i : (i < 2 ^ n)%nat -> nth_error pt i = Some (fpow w i).
Proof. intros H. rewrite (nth_error_some 0) by (unfold pt; rewrite pow_table_len; auto). f_equal. unfold pt. rewrite pow_table_nth by auto. ring. Qed.

Lemma phi_g_round_ok j (g : list K) : (j < n)%nat -> length g = (2 ^ n)%nat -> (forall b, (b < 2 ^ j)%nat -> nth b g 0 = Ftab w n x s j b) ->
  exists g', phi_g_round pt x n (S j) g = Some g' /\ length g' = (2 ^ n)%nat /\ (forall b, (b < 2 ^ S j)%nat -> nth b g' 0 = Ftab w n x s (S j) b) /\
    (forall b, (2 ^ S j <= b)%nat -> nth b g' 0 = nth b g 0).
Proof.
  intros Hj Lg Hg. unfold phi_g_round. unfold csub. destruct (Nat.leb_spec (S j) n); [|lia]. cbn [obind].
  rewrite (nth_error_some 0) by lia. cbn [obind]. replace (S j - 1)%nat with j by lia.
  assert (P2 : (2 ^ S j = 2 * 2 ^ j)%nat) by apply Nat.pow_succ_r'. assert (Pn : (2 ^ n = 2 ^ S j * 2 ^ (n - S j))%nat) by (rewrite <- Nat.pow_add_r; f_equal; lia).
  assert (Pm := pow2_pos (n - S j)). assert (Pl : (2 ^ S j <= 2 ^ n)%nat) by (apply Nat.pow_le_mono_r; lia).
  match goal with |- context [ofold ?f _ _] => destruct (ofold_inv f (fun k g' => length g' = (2 ^ n)%nat /\
     (forall b, (b < k)%nat -> nth b g' 0 = Ftab w n x s (S j) b /\ nth (2 ^ j + b) g' 0 = Ftab w n x s (S j) (2 ^ j + b)) /\
     (forall b, (k <= b < 2 ^ j)%nat -> nth b g' 0 = Ftab w n x s j b) /\
     (forall b, (2 ^ S j <= b)%nat -> nth b g' 0 = nth b g 0)) (seq 0 (2 ^ j)) 0%nat g) as (g' & E & L & A & B & C) end.
  - intros i b g1 Hb (L1 & A & B & C). apply nth_error_seq0 in Hb. destruct Hb as [Hi ->]. rewrite !Nat.add_0_l in *.
    rewrite Nat.shiftl_mul_pow2. rewrite pow_at by (rewrite Pn; apply Nat.mul_lt_mono_pos_r; lia). cbn [obind].
    rewrite (nth_error_some 0) by lia. cbn [obind]. rewrite lxor_pow by auto. cbv zeta. destruct (Nat.ltb_spec (2 ^ j + i) (length g1)); [|lia].
    eexists. split; [reflexivity|]. split; [rewrite !upd_length; auto|]. split; [|split].
    + intros b Hb. destruct (Nat.eq_dec b i) as [->|Nb].
      * rewrite nth_upd_eq by (rewrite upd_length; lia). rewrite nth_upd_neq by lia. rewrite nth_upd_eq by lia.
        rewrite B by lia. rewrite Ftab_S, Ftab_hi by auto. split; ring.
      * rewrite !nth_upd_neq by lia. apply A. lia.
    + intros b Hb. rewrite !nth_upd_neq by lia. apply B. lia.
    + intros b Hb. rewrite !nth_upd_neq by lia. apply C. lia.
  - split; [auto|]. split; [intros; lia|]. split; [intros; apply Hg; lia|auto].
  - rewrite seq_length, Nat.add_0_l in *. exists g'. split; [exact E|]. split; [auto|]. split; [|auto].
    intros b Hb. destruct (lt_dec b (2 ^ j)) as [H1|H1]; [apply A; auto|]. replace b with (2 ^ j + (b - 2 ^ j))%nat by lia. apply A. lia.
Qed.

Definition mids (k : nat) : list (list K) := map (fun i => map (Ftab w n x s i) (seq 0 (2 ^ i))) (seq 1 k).
Lemma firstn_tab (g : list K) i f : (2 ^ i <= length g)%nat -> (forall b, (b < 2 ^ i)%nat -> nth b g 0 = f b) -> firstn (2 ^ i) g = map f (seq 0 (2 ^ i)).
Proof.
  intros L H. apply (nth_ext_all _ _ 0); [rewrite map_length, seq_length; apply firstn_length_le; auto|]. rewrite firstn_length_le by auto. intros b Hb.
  rewrite nth_firstn_lt by auto. rewrite nth_map_seq by auto. auto.
Qed.
Lemma phi_g_rounds_ok (g : list K) : (0 < n)%nat -> length g = (2 ^ n)%nat -> nth 0 g 0 = s -> forall k, (k <= n)%nat ->
  exists g', phi_g_rounds pt x n k g = Some (g', mids (min k (n - 1))) /\ length g' = (2 ^ n)%nat /\
    (forall b, (b < 2 ^ k)%nat -> nth b g' 0 = Ftab w n x s k b) /\ (forall b, (2 ^ k <= b)%nat -> nth b g' 0 = nth b g 0).
Proof.
  intros Hn Lg H0. induction k as [|k IH]; intros Hk.
  - exists g. split; [reflexivity|]. split; [auto|]. split; [|auto]. intros b Hb. rewrite Ftab_0 by auto. replace b with 0%nat by (cbn in Hb; lia). exact H0.
  - destruct IH as (g1 & E1 & L1 & A1 & B1); [lia|]. destruct (phi_g_round_ok k g1) as (g2 & E2 & L2 & A2 & B2); auto.
    exists g2. unfold phi_g_rounds in *. rewrite seq_S, ofold_app, E1. cbn [obind ofold]. change (1 + k)%nat with (S k). cbn [fst snd]. rewrite E2. cbn [obind].
    split.
    + f_equal. f_equal. assert (Pl : (2 ^ S k <= 2 ^ n)%nat) by (apply Nat.pow_le_mono_r; lia). destruct (Nat.ltb_spec (S k) n).
      * rewrite (Nat.min_l k), (Nat.min_l (S k)) by lia. unfold mids. rewrite seq_S, map_app. cbn [map]. f_equal. f_equal. change (1 + k)%nat with (S k). apply firstn_tab; [lia|auto].
      * rewrite (Nat.min_l k), (Nat.min_r (S k)) by lia. f_equal. lia.
    + split; [auto|]. split; [auto|]. intros b Hb. rewrite B2 by auto. apply B1. assert (2 ^ k <= 2 ^ S k)%nat by (apply Nat.pow_le_mono_r; lia). lia.
Qed.
End Rounds.

Variable gen : K.
Hypothesis gen_root : fpow gen (2 ^ 31) = - (1).
(** The root used by a transform; the flag of the code says whether it is inverted. *)
Definition troot (inv : bool) (n : nat) : K := if inv then / root_of gen n else root_of gen n.
Lemma troot_half inv n : (1 <= n <= 32)%nat -> fpow (troot inv n) (2 ^ (n - 1)) = - (1).
Proof. intros H. unfold troot. destruct inv; [apply inv_half; auto|apply root_half; auto]. Qed.
Lemma phi_pow_init_ok inv n : (1 <= n <= 32)%nat -> phi_pow_init gen n inv = Some (pow_table (troot inv n) 1 (2 ^ n)).
Proof.
  intros H. unfold phi_pow_init. rewrite get_root_ok by lia. cbn [obind]. unfold troot. destruct inv; [|reflexivity].
  rewrite finv_opt_nz; [reflexivity|]. apply root_nz; auto. lia.
Qed.

Lemma phi_g_init_ok inv n (x : list K) s : (1 <= n <= 32)%nat -> length x = n ->
  phi_g_init gen x s n inv = Some (map (dtab (negb inv) (troot inv n) n x s 0) (seq 0 (2 ^ n)), mids (troot inv n) n x s (n - 1)).
Proof.
  intros Hn Lx. unfold phi_g_init. rewrite phi_pow_init_ok by auto. cbn [obind]. set (w := troot inv n).
  assert (Hw : fpow w (2 ^ (n - 1)) = - (1)) by (apply troot_half; auto).
  assert (P1 : (2 ^ 1 <= 2 ^ n)%nat) by (apply Nat.pow_le_mono_r; lia). change (2 ^ 1)%nat with 2%nat in P1.
  assert (Pn : (2 ^ n = 2 * 2 ^ (n - 1))%nat) by (rewrite <- Nat.pow_succ_r'; f_equal; lia).
  destruct inv; cbn [negb].
  - destruct (Nat.ltb_spec (2 ^ n) 2); [lia|].
    destruct (phi_g_rounds_ok w n x s Lx Hw (upd 1 s (upd 0 s (repeat 0 (2 ^ n))))) with (k := n) as (g & E & L & A & B); auto; try lia.
    { rewrite !upd_length, repeat_length. reflexivity. }
    { rewrite nth_upd_neq by lia. rewrite nth_upd_eq by (rewrite repeat_length; lia). reflexivity. }
    rewrite E. f_equal. f_equal; [|f_equal; lia]. apply (nth_ext_all _ _ 0); [rewrite map_length, seq_length; auto|]. rewrite L. intros b Hb. rewrite nth_map_seq by auto.
    rewrite A by auto. unfold dtab. cbn [andb]. rewrite Nat.sub_0_r. reflexivity.
  - unfold csub. destruct (Nat.leb_spec 1 n); [|lia]. cbn [obind].
    destruct (phi_g_rounds_ok w n x s Lx Hw (upd 0 s (repeat 0 (2 ^ n)))) with (k := (n - 1)%nat) as (g & E & L & A & B); auto; try lia.
    { rewrite !upd_length, repeat_length. reflexivity. }
    { rewrite nth_upd_eq by (rewrite repeat_length; lia). reflexivity. }
    rewrite E. cbn [obind fst snd]. rewrite (nth_error_some 0) by lia. cbn [obind].
    match goal with |- context [ofold ?f _ _] => destruct (ofold_inv f (fun k g' => length g' = (2 ^ n)%nat /\
       (forall b, (b < k)%nat -> nth b g' 0 = Ftab w n x s n b) /\ (forall b, (k <= b < 2 ^ (n - 1))%nat -> nth b g' 0 = Ftab w n x s (n - 1) b) /\
       (forall b, (2 ^ (n - 1) <= b)%nat -> nth b g' 0 = 0)) (seq 0 (2 ^ (n - 1))) 0%nat g) as (g' & E' & L' & A' & B' & C') end.
    + intros i b g1 Hb (L1 & A1 & B1 & C1). apply nth_error_seq0 in Hb. destruct Hb as [Hi ->]. rewrite !Nat.add_0_l in *.
      rewrite pow_at by lia. cbn [obind]. rewrite (nth_error_some 0) by lia. cbn [obind]. eexists. split; [reflexivity|]. split; [rewrite upd_length; auto|]. split; [|split].
      * intros b Hb. destruct (Nat.eq_dec b i) as [->|Nb].
        -- rewrite nth_upd_eq by lia. rewrite B1 by lia. replace (Ftab w n x s n i) with (Ftab w n x s (S (n - 1)) i) by (f_equal; lia). rewrite Ftab_S by (auto; lia).
           replace (n - S (n - 1))%nat with 0%nat by lia. cbn [Nat.pow]. rewrite Nat.mul_1_r. reflexivity.
        -- rewrite nth_upd_neq by lia. apply A1. lia.
      * intros b Hb. rewrite nth_upd_neq by lia. apply B1. lia.
      * intros b Hb. rewrite nth_upd_neq by lia. apply C1. lia.
    + split; [auto|]. split; [intros; lia|]. split; [intros; apply A; lia|]. intros b Hb. rewrite B by auto. assert (0 < 2 ^ (n - 1))%nat by apply pow2_pos.
      rewrite nth_upd_neq by lia. apply nth_repeat.
    + rewrite E'. cbn [obind]. f_equal. f_equal; [|f_equal; lia]. rewrite seq_length, Nat.add_0_l in *. apply (nth_ext_all _ _ 0); [rewrite map_length, seq_length; auto|]. rewrite L'. intros b Hb. rewrite nth_map_seq by auto.
      unfold dtab. cbn [Nat.eqb andb]. unfold Gtab. destruct (Nat.ltb_spec b (2 ^ (n - 1))); auto.
Qed.

(** *** The delegation *)
Variable T : @hist K -> K.
Definition pf_nodes (deg : nat) (pf : @proof K) : Prop := forall r, In r (pf_point pf) -> not_node deg r.

Lemma mids_at (w : K) n x s k i : (i < k)%nat -> nth_error (mids w n x s k) i = Some (map (Ftab w n x s (S i)) (seq 0 (2 ^ S i))).
Proof.
  intros H. rewrite (nth_error_some []) by (unfold mids; rewrite map_length, seq_length; auto). f_equal. unfold mids.
  rewrite (nth_map_lt _ _ _ 0%nat) by (rewrite seq_length; auto). rewrite seq_nth by auto. reflexivity.
Qed.
Lemma phi_table_ok (inv : bool) w n (x r2 : list K) l : length x = n -> length r2 = S (S l) -> (S l < n)%nat ->
  phi_table inv (pow_table w 1 (2 ^ n)) x r2 (n - 1) l (2 ^ S l)
  = Some (map ((if negb inv && (n - 2 - l =? 0)%nat then phi_first else phi_mid) (nth (n - 2 - l) x 0) (nth (S l) r2 0) (fpow w (2 ^ (n - 2 - l)))) (seq 0 (2 ^ S l))).
Proof.
  intros Lx Lr H. unfold phi_table. apply omapM_range. intros i Hi. unfold csub. destruct (Nat.leb_spec l (n - 1 - 1)); [|lia]. cbn [obind].
  replace (n - 1 - 1 - l)%nat with (n - 2 - l)%nat by lia. rewrite (nth_error_some 0) by lia. cbn [obind]. rewrite Lr. cbn [Nat.leb obind]. replace (S (S l) - 1)%nat with (S l) by lia.
  rewrite (nth_error_some 0) by lia. cbn [obind]. rewrite Nat.shiftl_mul_pow2.
  assert (Hi2 : (i * 2 ^ (n - 2 - l) < 2 ^ n)%nat).
  { replace n with (S l + 1 + (n - 2 - l))%nat at 2 by lia. rewrite (Nat.pow_add_r 2 (S l + 1)). apply Nat.mul_lt_mono_pos_r; [apply pow2_pos|].
    apply Nat.lt_le_trans with (2 ^ S l)%nat; [auto|apply Nat.pow_le_mono_r; lia]. }
  rewrite pow_at by auto. cbn [obind]. f_equal. replace (n - 1 - 1)%nat with (n - 2)%nat by lia. replace (l =? n - 2)%nat with (n - 2 - l =? 0)%nat.
  2: { apply eq_true_iff_eq. rewrite !Nat.eqb_eq. lia. }
  rewrite (Nat.mul_comm i), fpow_mul. destruct (negb inv && (n - 2 - l =? 0)%nat); [unfold phi_first; ring|]. unfold phi_mid. cbn [fnat]. ring.
Qed.

Lemma hsum_tabs n (ls : list (list K)) (fs : list (list K -> K)) : length ls = length fs ->
  (forall r, length r = n -> map (fun l => mle l r) ls = map (fun f => f r) fs) -> hsum n (prodf (map mle ls)) = hsum n (prodf fs).
Proof.
  intros L H. apply hsum_ext. intros r Hr. unfold prodf. rewrite map_map. rewrite H by auto. reflexivity.
Qed.

Section Del.
Variables (inv : bool) (w : K) (n : nat) (x : list K) (s : K) (ncpus : nat) (scs : nat -> nat -> rsched).
Hypothesis Lx : length x = n.
Hypothesis Hw : fpow w (2 ^ (n - 1)) = - (1).
Hypothesis Hcpu : (0 < ncpus)%nat.
Hypothesis Hch : char_gt K 3.
Hypothesis Hsc : forall k, (k < n)%nat -> forall i, (i < k)%nat -> valid_rsched (K := K) (prod_shape 3 k) i (scs k i).
(** One round: the tables of the prover have the extensions of [deleg_fs]. *)
Lemma deleg_loop_ok : forall d pfs0 cls0 r2 h, (length pfs0 + d = n - 1)%nat -> (0 < n)%nat -> length cls0 = length pfs0 -> length r2 = S d ->
  exists pfs cls p h', ofold (fun st l =>
      let '(pfs, cls, r2, h) := st in
      fm <- nth_error (mids w n x s (n - 1)) l ;;
      lp <- csub (length r2) 1 ;;
      let beta := compute_betas_eval (firstn lp r2) in
      phi <- phi_table inv (pow_table w 1 (2 ^ n)) x r2 (length (mids w n x s (n - 1))) l (length fm) ;;
      f1 <- into_mle_ext beta ;; f2 <- into_mle_ext phi ;; f3 <- into_mle_ext fm ;;
      res <- product_prove T ncpus (scs (num_vars f1)) (num_vars f1) [f1; f2; f3] h ;;
      let '(pf, cl, h') := res in
      Some (pfs ++ [pf], cls ++ [cl], pf_point pf, h')%list) (rev (seq 0 d)) (pfs0, cls0, r2, h) = Some ((pfs0 ++ pfs)%list, (cls0 ++ cls)%list, p, h') /\
    length pfs = d /\ length p = 1%nat /\
    (Forall (pf_nodes 3) pfs -> forall (rand1 : nat -> option K) (aux : list nat), (forall i, (i < n - 1)%nat -> nth_error aux i = Some (n - 1 - i)%nat) ->
       (forall i, (i < n - 1)%nat -> rand1 i = Some (nth i x 0)) -> forall calls, exists ks,
       ofold (deleg_step T (negb inv) (squares (n - 1) w) rand1 aux (pfs0 ++ pfs) (cls0 ++ cls)) (seq (length pfs0) d)
         (mlef (dtab (negb inv) w n x s (length pfs0)) r2, r2, h, calls) = Some (mlef (dtab (negb inv) w n x s (n - 1)) p, p, h', (calls ++ ks)%list) /\
       Forall (checked T) ks).
Proof.
  assert (Lm : length (mids w n x s (n - 1)) = (n - 1)%nat) by (unfold mids; rewrite map_length, seq_length; reflexivity).
  induction d as [|d IH]; intros pfs0 cls0 r2 h Hd Hn Lc Lr.
  - exists [], [], r2, h. rewrite !app_nil_r. split; [reflexivity|]. split; [reflexivity|]. split; [auto|]. intros _ rand1 aux Haux Hrand calls. exists []. rewrite app_nil_r. split; [|constructor].
    cbn [seq ofold]. replace (length pfs0) with (n - 1)%nat by lia. reflexivity.
  - rewrite seq_S, rev_app_distr. cbn [rev app Nat.add]. set (i := length pfs0) in *.
    set (fs := deleg_fs (negb inv) w n x s i r2).
    set (ls := [eq_table (firstn (S d) r2); map ((if negb inv && (i =? 0)%nat then phi_first else phi_mid) (nth i x 0) (nth (S d) r2 0) (fpow w (2 ^ i))) (seq 0 (2 ^ S d));
                map (Ftab w n x s (S d)) (seq 0 (2 ^ S d))]).
    assert (Li : (n - 2 - d = i)%nat) by lia. assert (Lfi : length (firstn (S d) r2) = S d) by (apply firstn_length_le; lia).
    assert (Lls : forall l, In l ls -> length l = (2 ^ S d)%nat).
    { intros l [<-|[<-|[<-|[]]]]; [rewrite eq_table_length, Lfi; reflexivity|rewrite map_length, seq_length; reflexivity|rewrite map_length, seq_length; reflexivity]. }
    destruct (product_prove_ok T ncpus (scs (S d)) (S d) ls h) as (pf & h1 & Epp & Lpt & Hver); auto; try lia.
    { cbn [ls length]. lia. } { intros j Hj. apply Hsc; lia. }
    assert (Efs : forall r, length r = S d -> map (fun l => mle l r) ls = map (fun f => f r) fs).
    { intros r Hr. unfold ls, fs, deleg_fs. cbn [map]. replace (n - 1 - i)%nat with (S d) by lia. f_equal; [|f_equal; [|f_equal]].
      - apply mle_eq_table. lia.
      - apply mle_map_seq. auto.
      - apply mle_map_seq. auto. }
    destruct (IH (pfs0 ++ [pf])%list (cls0 ++ [map (fun l => mle l (pf_point pf)) ls])%list (pf_point pf) h1) as (pfs & cls & p & h' & E & Lp & Lp1 & Hv); auto.
    { rewrite app_length. cbn [length]. lia. } { rewrite !app_length. cbn [length]. lia. }
    exists (pf :: pfs), (map (fun l => mle l (pf_point pf)) ls :: cls), p, h'.
    assert (App : forall {A} (u : list A) v t, (u ++ v :: t = (u ++ [v]) ++ t)%list) by (intros; rewrite <- app_assoc; reflexivity).
    rewrite (App _ pfs0 pf pfs), (App _ cls0 _ cls). split; [|split; [cbn; lia|split; [auto|]]].
    + rewrite <- E. cbn [ofold]. rewrite (mids_at w n x s (n - 1) d) by lia. cbn [obind]. rewrite Lr. rewrite csub_S. cbn [obind]. rewrite map_length, seq_length, Lm.
      rewrite phi_table_ok by (auto; lia). cbn [obind]. rewrite compute_betas_spec. rewrite Li.
      rewrite !(into_mle_ext_ok (S d)) by (apply Lls; cbn; auto). cbn [obind num_vars].
      change [mkMle (Ext (eq_table (firstn (S d) r2))) (S d); _; _] with (map (fun l => mkMle (Ext l) (S d)) ls). rewrite Epp. reflexivity.
    + intros F rand1 aux Haux Hrand calls. apply Forall_cons_iff in F. destruct F as [Fp F].
      assert (Vf : verify T (mlef (dtab (negb inv) w n x s i) r2) pf (S d) 3 h = Some (pf_point pf, fprod (map (fun l => mle l (pf_point pf)) ls), h1)).
      { rewrite dtab_hsum by (auto; lia). fold fs. replace (n - 1 - i)%nat with (S d) by lia.
        rewrite <- (hsum_tabs (S d) ls fs) by (auto; reflexivity). etransitivity; [exact (Hver Fp)|]. unfold prodf. rewrite map_map. reflexivity. }
      set (k := mkCall (mlef (dtab (negb inv) w n x s i) r2) pf (S d) 3 h (map (fun l => mle l (pf_point pf)) ls)).
      destruct (Hv F rand1 aux Haux Hrand (calls ++ [k])%list) as (ks & Ek & Fk). rewrite app_length in Ek. cbn [length] in Ek. fold i in Ek.
      exists (k :: ks). split.
      * rewrite (App _ calls k ks). rewrite <- Ek. cbn [seq ofold]. unfold deleg_step at 1. rewrite <- (App _ pfs0 pf pfs), <- (App _ cls0 _ cls).
        rewrite nth_error_app2 by lia. rewrite Nat.sub_diag. cbn [nth_error obind]. rewrite Haux by lia. cbn [obind]. replace (n - 1 - i)%nat with (S d) by lia.
        unfold run_sc. rewrite Vf. cbn [obind snd]. rewrite nth_error_app2 by lia. replace (i - length cls0)%nat with 0%nat by lia. cbn [nth_error obind].
        rewrite (Efs (pf_point pf)) by auto. unfold fs, deleg_fs. cbn [map nth_error obind]. replace (n - 1 - i)%nat with (S d) by lia.
        rewrite identity_eval_eqp, eqp_trunc, Lpt by lia. rewrite (proj2 (feqb_spec _ _ _)) by reflexivity.
        rewrite Hrand by lia. cbn [obind]. rewrite Lr, csub_S. cbn [obind]. rewrite (nth_error_some 0) by lia. cbn [obind].
        rewrite phi_eval_ok by lia. cbn [obind]. rewrite Lpt. replace (n - 1 - S d)%nat with i by lia. rewrite (proj2 (feqb_spec _ _ _)) by reflexivity. cbn [obind].
        replace (i + 1)%nat with (S i) by lia. unfold k. rewrite (Efs (pf_point pf)) by auto.
        assert (Ed : dtab (negb inv) w n x s (S i) = Ftab w n x s (S d)). { unfold dtab. rewrite andb_false_r. f_equal. lia. }
        rewrite Ed. unfold fs, deleg_fs. cbn [map]. replace (n - 1 - i)%nat with (S d) by lia. reflexivity.
      * constructor; [|auto]. exists h1. unfold k. cbn [ca_claimed ca_pf ca_nv ca_deg ca_hist ca_evals]. rewrite Vf. reflexivity.
Qed.
End Del.

(** *** One transform *)
Definition fs_valid (n : nat) (fs : @fft_sched) : Prop :=
  (forall i, (i < n)%nat -> valid_rsched (K := K) (prod_shape 2 n) i (fs_main fs i)) /\
  (forall k, (k < n)%nat -> forall i, (i < k)%nat -> valid_rsched (K := K) (prod_shape 3 k) i (fs_del fs k i)).
Lemma transform_ok inv n (x : list K) s ncpus fs (fm : list K) h : (1 <= n <= 32)%nat -> length x = n -> length fm = (2 ^ n)%nat ->
  (0 < ncpus)%nat -> char_gt K 3 -> fs_valid n fs ->
  let w := troot inv n in let D := dtab (negb inv) w n x s in
  exists bf h', prove_transform gen T ncpus fs x s inv (mkMle (Ext fm) n) h = Some (bf, h') /\
    let pt := pf_point (bf_proof bf) in length pt = n /\ bf_claims bf = [mle fm pt; mlef (D 0%nat) pt] /\ length (bf_del bf) = (n - 1)%nat /\
    (pf_nodes 2 (bf_proof bf) -> Forall (pf_nodes 3) (bf_del bf) ->
     exists h1, verify T (hsum n (prodf [mle fm; mlef (D 0%nat)])) (bf_proof bf) n 2 h = Some (pt, fprod (bf_claims bf), h1) /\
       forall (rand1 : nat -> option K) (aux : list nat), (forall i, (i < n - 1)%nat -> nth_error aux i = Some (n - 1 - i)%nat) ->
         (forall i, (i < n - 1)%nat -> rand1 i = Some (nth i x 0)) ->
         exists ks p, ofold (deleg_step T (negb inv) (squares (n - 1) w) rand1 aux (bf_del bf) (bf_del_claims bf)) (seq 0 (n - 1)) (mlef (D 0%nat) pt, pt, h1, [])
             = Some (mlef (D (n - 1)%nat) p, p, h', ks) /\ Forall (checked T) ks /\ length p = 1%nat).
Proof.
  intros Hn Lx Lf Hcpu Hch (Hs2 & Hs3) w D. unfold prove_transform. rewrite Lx, phi_g_init_ok by auto. cbn [obind fst snd]. fold w.
  rewrite (into_mle_ext_ok n) by (rewrite map_length, seq_length; reflexivity). cbn [obind num_vars]. fold D.
  set (ls := [fm; map (D 0%nat) (seq 0 (2 ^ n))]).
  destruct (product_prove_ok T ncpus (fs_main fs) n ls h) as (pf & h1 & Epp & Lpt & Hver); auto; try lia.
  { eapply char_gt_le; [|exact Hch]. cbn. lia. } { cbn [ls length]. lia. } { intros l [<-|[<-|[]]]; [auto|rewrite map_length, seq_length; reflexivity]. }
  change [mkMle (Ext fm) n; _] with (map (fun l => mkMle (Ext l) n) ls). rewrite Epp. cbn [obind].
  unfold delegate_matrix_evaluation. rewrite Lx, phi_pow_init_ok by auto. cbn [obind]. assert (Ec : csub n 1 = Some (n - 1)%nat) by (unfold csub; destruct (Nat.leb_spec 1 n); [reflexivity|lia]). rewrite Ec. cbn [obind]. fold w.
  destruct (deleg_loop_ok inv w n x s ncpus (fs_del fs) Lx ltac:(apply troot_half; auto) Hcpu Hch Hs3 (n - 1) [] [] (pf_point pf) h1) as (pfs & cls & p & h' & Ed & Lp & Lp1 & Hv); cbn [length]; auto; try lia.
  cbv zeta in Ed |- *. rewrite Ed. cbn [obind app]. eexists. eexists. split; [reflexivity|]. cbn [bf_proof bf_claims bf_del bf_del_claims].
  assert (Ecl : map (fun l => mle l (pf_point pf)) ls = [mle fm (pf_point pf); mlef (D 0%nat) (pf_point pf)]). { unfold ls. cbn [map]. rewrite mle_map_seq by auto. reflexivity. }
  rewrite Ecl. split; [auto|]. split; [reflexivity|]. split; [auto|]. intros F2 F3. exists h1. split.
  - rewrite <- (hsum_tabs n ls [mle fm; mlef (D 0%nat)]). 2: { reflexivity. } 2: { intros r Hr. unfold ls. cbn [map]. rewrite mle_map_seq by auto. reflexivity. }
    etransitivity; [exact (Hver F2)|]. unfold prodf. rewrite map_map, Ecl. reflexivity.
  - intros rand1 aux Ha Hr. destruct (Hv F3 rand1 aux Ha Hr []) as (ks & Ek & Fk). exists ks, p. auto.
Qed.

(** The verifier's two delegations on such a proof. *)
Lemma fft_deleg_complete cx (hadp : list K) n pfs cls pt h h' : (2 <= n <= 32)%nat -> (n <= length hadp)%nat -> length pfs = (n - 1)%nat ->
  cx_deleg_fft cx = rev (map S (seq 0 (n - 1))) ->
  let x := firstn n hadp in let w := root_of gen n in let D := dtab true w n x 1 in
  (forall (rand1 : nat -> option K) (aux : list nat), (forall i, (i < n - 1)%nat -> nth_error aux i = Some (n - 1 - i)%nat) ->
         (forall i, (i < n - 1)%nat -> rand1 i = Some (nth i x 0)) ->
         exists ks p, ofold (deleg_step T true (squares (n - 1) w) rand1 aux pfs cls) (seq 0 (n - 1)) (mlef (D 0%nat) pt, pt, h, [])
             = Some (mlef (D (n - 1)%nat) p, p, h', ks) /\ Forall (checked T) ks /\ length p = 1%nat) ->
  exists ks, verify_fft_delegation gen T cx hadp (mlef (D 0%nat) pt) pfs cls pt h = Some (h', ks) /\ Forall (checked T) ks.
Proof.
  intros Hn Lh Lp Ea x w D H. assert (Lx : length x = n) by (apply firstn_length_le; auto). destruct (H (nth_error hadp) (cx_deleg_fft cx)) as (ks & p & E & F & L1).
  { intros i Hi. rewrite Ea. apply deleg_aux. auto. } { intros i Hi. apply nth_error_firstn_some; lia. }
  exists ks. split; [|auto]. unfold verify_fft_delegation. rewrite Lp. assert (E1 := pow_two_omegas_ok gen gen_root (n - 1) false ltac:(lia) ltac:(lia)). replace (n - 1 + 1)%nat with n in * by lia. rewrite E1. cbn [obind].
  fold w. rewrite E. cbn [obind]. rewrite (nth_error_firstn_some hadp n) by lia. fold x. cbn [obind]. destruct p as [|q [|]]; try discriminate. cbn [nth_error obind].
  rewrite (proj2 (feqb_spec _ _ _)); [reflexivity|]. unfold D, dtab. replace (n - 1 =? 0)%nat with false by (symmetry; apply Nat.eqb_neq; lia). cbn [andb]. replace (n - (n - 1))%nat with 1%nat by lia.
  rewrite Ftab_1 by (auto; try lia; apply root_half; auto; lia). cbn [fnat]. ring.
Qed.
Lemma ifft_deleg_complete cx (lp : list K) m pfs cls pt h h' : (1 + 1 : K) <> 0 -> (1 <= m)%nat -> (m + 1 <= 32)%nat -> (m <= length lp)%nat -> length pfs = m ->
  cx_deleg_ifft cx = rev (map S (seq 0 m)) ->
  let n := (m + 1)%nat in let x := ifft_x m lp in let w := / root_of gen n in let D := dtab false w n x (/ fnat (2 ^ n)) in
  (forall (rand1 : nat -> option K) (aux : list nat), (forall i, (i < n - 1)%nat -> nth_error aux i = Some (n - 1 - i)%nat) ->
         (forall i, (i < n - 1)%nat -> rand1 i = Some (nth i x 0)) ->
         exists ks p, ofold (deleg_step T false (squares (n - 1) w) rand1 aux pfs cls) (seq 0 (n - 1)) (mlef (D 0%nat) pt, pt, h, [])
             = Some (mlef (D (n - 1)%nat) p, p, h', ks) /\ Forall (checked T) ks /\ length p = 1%nat) ->
  exists ks, verify_ifft_delegation gen T cx lp (mlef (D 0%nat) pt) pfs cls pt h = Some (h', ks) /\ Forall (checked T) ks.
Proof.
  intros char2 H1 H2 Ll Lp Ea n x w D H. assert (Lx : length x = n) by (unfold x, ifft_x; rewrite app_length, map_length, firstn_length_le by auto; reflexivity).
  destruct (H (fun i => y <- nth_error lp i ;; Some (1 - y)) (cx_deleg_ifft cx)) as (ks & p & E & F & L1).
  { intros i Hi. rewrite Ea. unfold n in *. rewrite deleg_aux by lia. f_equal. lia. }
  { intros i Hi. unfold n in Hi. rewrite (nth_error_firstn_some lp m) by lia. cbn [obind]. f_equal. unfold x, ifft_x.
    rewrite app_nth1 by (rewrite map_length, firstn_length_le; lia). rewrite (nth_map_lt _ _ _ 0) by (rewrite firstn_length_le; lia). reflexivity. }
  exists ks. split; [|auto]. unfold verify_ifft_delegation. rewrite Lp. assert (E1 := pow_two_omegas_ok gen gen_root m true H1 H2). rewrite E1. cbn [obind]. fold n w.
  assert (En : (n - 1)%nat = m) by (unfold n; lia). rewrite En in E. rewrite E. cbn [obind]. rewrite finv_opt_nz by (apply fnat_pow2_nz; auto). cbn [obind].
  destruct p as [|q [|]]; try discriminate. cbn [nth_error obind].
  rewrite (proj2 (feqb_spec _ _ _)); [reflexivity|]. unfold D, dtab. cbn [andb]. replace (n - m)%nat with 1%nat by lia.
  rewrite Ftab_1 by (auto; try lia; apply inv_half; auto; lia). rewrite En.
  replace (nth m x 0) with (0 : K). 2: { unfold x, ifft_x. rewrite app_nth2 by (rewrite map_length, firstn_length_le; lia). rewrite map_length, firstn_length_le, Nat.sub_diag by lia. reflexivity. }
  ring.
Qed.
End Phi.
