(** Proofs about M_Fft: the padded, FFT-based convolution layer computes the direct convolution. *)
From Coq Require Import List Arith Lia Bool ZArith.
From Verif Require Import ListAux FieldDef M_Mle P_Graph4 M_Tensor P_Tensor P_Tensor2 P_Tensor3 P_Tensor4 M_Pool P_Pad P_Pad2 P_LogUp3 M_Fft P_Fft P_Fft2.
Import ListNotations.

Lemma zsum_ext n f g : (forall i, i < n -> f i = g i) -> zsum n f = zsum n g.
Proof. apply sumto_ext. Qed.
Lemma zsum_0 n f : (forall i, i < n -> f i = 0%Z) -> zsum n f = 0%Z.
Proof. apply (sumto_zero 0%Z Z.add Z.add_0_r). Qed.
Lemma zsum_trail n P f : n <= P -> (forall q, n <= q < P -> f q = 0%Z) -> zsum P f = zsum n f.
Proof. apply (sum_trail 0%Z Z.add Z.add_0_r). Qed.
Lemma zsum_split a b f : zsum (a + b) f = (zsum a f + zsum b (fun i => f (a + i)%nat))%Z.
Proof.
  induction b as [|b IH]; [rewrite Nat.add_0_r; cbn; lia|]. rewrite Nat.add_succ_r. unfold zsum in *. cbn [sumto]. rewrite IH. lia.
Qed.
Lemma zsum_grid m n f : zsum (m * n) f = zsum m (fun p => zsum n (fun q => f (p * n + q))).
Proof.
  induction m as [|m IH]; [reflexivity|]. replace (S m * n) with (m * n + n) by lia. rewrite zsum_split, IH. reflexivity.
Qed.
Lemma flat3 a b c i j k : flat [a; b; c] [i; j; k] = (i * b + j) * c + k. Proof. cbn. lia. Qed.
Lemma flat4 a b c d i j k l : flat [a; b; c; d] [i; j; k; l] = ((i * b + j) * c + k) * d + l. Proof. cbn. lia. Qed.
Lemma inb3 a b c i j k : inb [a; b; c] [i; j; k] <-> i < a /\ j < b /\ k < c.
Proof.
  rewrite !inb_cons. split; [intros (?&?&?&?); auto|]. intros (?&?&?). do 3 (split; auto). constructor.
Qed.
Lemma inb4 a b c d i j k l : inb [a; b; c; d] [i; j; k; l] <-> i < a /\ j < b /\ k < c /\ l < d.
Proof.
  rewrite !inb_cons. split; [intros (?&?&?&?&?); auto|]. intros (?&?&?&?). do 4 (split; auto). constructor.
Qed.
Lemma lt3 a b c i j k : i < a -> j < b -> k < c -> (i * b + j) * c + k < a * b * c.
Proof. intros. apply lt2; auto. apply lt2; auto. Qed.
Lemma lt4 a b c d i j k l : i < a -> j < b -> k < c -> l < d -> ((i * b + j) * c + k) * d + l < a * b * c * d.
Proof. intros. apply lt2; auto. apply lt3; auto. Qed.

(** *** The direct convolution. *)
Lemma ofold_zsum (f : Z -> nat -> option Z) g n : (forall s i, i < n -> f s i = Some (s + g i)%Z) ->
  forall s, ofold f (seq 0 n) s = Some (s + zsum n g)%Z.
Proof.
  induction n as [|n IH]; intros H s; [cbn; f_equal; lia|]. rewrite seq_S, Nat.add_0_l, ofold_app, IH by auto. cbn [obind ofold].
  rewrite H by auto. cbn [obind]. f_equal. unfold zsum. cbn [sumto]. lia.
Qed.

(** What the direct convolution of x with filter o is at (r, c), without the bias. *)
Definition direct (x f : ten Z) (ci k o r c : nat) : Z :=
  zsum ci (fun j => zsum k (fun p => zsum k (fun q => entry 0 x [j; (r + p)%nat; (c + q)%nat] * entry 0 f [o; j; p; q])))%Z.

Lemma get_at_4d_3 (x : ten Z) ci h w c i j : wft x -> sh x = [ci; h; w] -> c < ci -> i < h -> j < w ->
  get_at_4d x 0 c i j = Some (entry 0%Z x [c; i; j]).
Proof.
  intros W S Hc Hi Hj. unfold get_at_4d, get4d. rewrite S. cbn [length Nat.leb negb Nat.eqb nth_error Nat.ltb].
  unfold entry. rewrite S, flat3. cbn [Nat.mul]. rewrite Nat.add_0_l.
  replace (c * (h * w) + i * w + j) with ((c * h + i) * w + j) by lia. apply nth_error_some.
  unfold wft in W. rewrite W, S. cbn [fold_right]. pose proof (lt3 ci h w c i j Hc Hi Hj). lia.
Qed.
Lemma get_at_4d_4 (f : ten Z) co ci h w o c i j : wft f -> sh f = [co; ci; h; w] -> o < co -> c < ci -> i < h -> j < w ->
  get_at_4d f o c i j = Some (entry 0%Z f [o; c; i; j]).
Proof.
  intros W S Ho Hc Hi Hj. unfold get_at_4d, get4d. rewrite S. cbn [length Nat.leb negb Nat.eqb nth_error].
  destruct (Nat.ltb_spec o co); [|lia]. cbn [negb].
  unfold entry. rewrite S, flat4.
  replace (o * (ci * h * w) + c * (h * w) + i * w + j) with (((o * ci + c) * h + i) * w + j) by lia. apply nth_error_some.
  unfold wft in W. rewrite W, S. cbn [fold_right]. pose proof (lt4 co ci h w o c i j Ho Hc Hi Hj). lia.
Qed.

Theorem conv2d_ok (x f b : ten Z) co ci h k : wft x -> sh x = [ci; h; h] -> wft f -> sh f = [co; ci; k; k] -> wft b -> sh b = [co] -> k <= h ->
  exists d, conv2d 0%Z Z.add Z.mul x f b 1 = Some d /\ sh d = [1; co; h - k + 1; h - k + 1] /\ wft d /\
    forall o r c, o < co -> r < h - k + 1 -> c < h - k + 1 -> entry 0%Z d [0; o; r; c] = (direct x f ci k o r c + nth o (dat b) 0)%Z.
Proof.
  intros Wx Sx Wf Sf Wb Sb Hk. unfold conv2d. unfold get4d. rewrite Sx, Sf, Sb. cbn [length Nat.eqb nth_error Nat.leb andb].
  rewrite !Nat.eqb_refl. cbn [negb]. unfold csub. destruct (Nat.leb_spec k h); [|lia]. cbn [obind]. rewrite !Nat.div_1_r.
  set (oh := h - k + 1). assert (Hoh : 0 < oh) by (unfold oh; lia).
  assert (Lb : length (dat b) = co) by (unfold wft in Wb; rewrite Wb, Sb; cbn; lia).
  destruct (omapM_spec 0%Z
    (fun flat_idx => s <- ofold (fun s c => ofold (fun s0 kh => ofold (fun s1 kw =>
              a <- get_at_4d x (flat_idx / (co * oh * oh)) c (flat_idx mod (co * oh * oh) mod (oh * oh) / oh * 1 + kh) (flat_idx mod (co * oh * oh) mod (oh * oh) mod oh * 1 + kw) ;;
              b0 <- get_at_4d f (flat_idx mod (co * oh * oh) / (oh * oh)) c kh kw ;; Some (s1 + a * b0)%Z)
            (seq 0 k) s0) (seq 0 k) s) (seq 0 ci) 0%Z ;;
      b0 <- nth_error (dat b) (flat_idx mod (co * oh * oh) / (oh * oh)) ;;
      Some (s + b0)%Z)
    (fun i => (direct x f ci k (i / (oh * oh)) (i mod (oh * oh) / oh) (i mod oh) + nth (i / (oh * oh)) (dat b) 0)%Z) (1 * co * oh * oh)) as (out & E & L & N).
  - intros i Hi. rewrite Nat.mul_1_l in Hi. assert (E0 : i / (co * oh * oh) = 0) by (apply Nat.div_small; lia). rewrite E0.
    rewrite (Nat.mod_small i (co * oh * oh)) by lia. rewrite !Nat.mul_1_r.
    assert (Ho : i / (oh * oh) < co) by (apply Nat.div_lt_upper_bound; nia).
    assert (Hr : i mod (oh * oh) / oh < oh). { apply Nat.div_lt_upper_bound; [lia|]. apply Nat.mod_upper_bound. nia. }
    assert (Hm : i mod (oh * oh) mod oh = i mod oh). { rewrite Nat.mod_mul_r by lia. rewrite Nat.mul_comm, Nat.mod_add, Nat.mod_mod by lia. reflexivity. }
    rewrite Hm. assert (Hc : i mod oh < oh) by (apply Nat.mod_upper_bound; lia).
    set (o := i / (oh * oh)) in *. set (r := i mod (oh * oh) / oh) in *. set (c := i mod oh) in *.
    rewrite (ofold_zsum _ (fun j => zsum k (fun p => zsum k (fun q => entry 0 x [j; (r + p)%nat; (c + q)%nat] * entry 0 f [o; j; p; q])))%Z).
    + cbn [obind]. rewrite (nth_error_some 0%Z) by lia. cbn [obind]. reflexivity.
    + intros s j Hj. apply ofold_zsum. intros s0 p Hp. apply ofold_zsum. intros s1 q Hq.
      rewrite (get_at_4d_3 x ci h h) by (auto; unfold oh in *; lia). cbn [obind].
      rewrite (get_at_4d_4 f co ci k k) by auto. reflexivity.
  - rewrite E. cbn [obind]. eexists. split; [reflexivity|]. split; [reflexivity|]. split.
    + unfold wft. cbn [sh dat fold_right]. rewrite L. lia.
    + intros o r c Ho Hr Hc. unfold entry at 1. cbn [sh dat]. rewrite flat4. rewrite Nat.mul_0_l, Nat.add_0_l.
      rewrite N by (rewrite Nat.mul_1_l; apply lt3; auto).
      assert (A1 : ((o * oh + r) * oh + c) / (oh * oh) = o).
      { replace ((o * oh + r) * oh + c) with (o * (oh * oh) + (r * oh + c)) by lia. rewrite Nat.div_add_l by nia.
        rewrite Nat.div_small; [lia|]. apply lt2; auto. }
      assert (A2 : ((o * oh + r) * oh + c) mod (oh * oh) = r * oh + c).
      { replace ((o * oh + r) * oh + c) with (r * oh + c + o * (oh * oh)) by lia. rewrite Nat.mod_add by nia. apply Nat.mod_small. apply lt2; auto. }
      assert (A3 : (r * oh + c) / oh = r) by (rewrite Nat.div_add_l, Nat.div_small; lia).
      assert (A4 : ((o * oh + r) * oh + c) mod oh = c) by (rewrite Nat.add_comm, Nat.mod_add, Nat.mod_small; lia).
      rewrite A1, A2, A3, A4. reflexivity.
Qed.

(** *** From the field back to the integers. *)
Section Int.
Context {K : field}.
Add Field Kf_fft3 : (fth K).
Variable gen : K.
Hypothesis gen_root : fpow gen (2 ^ 31) = fopp f1.
Hypothesis char2 : fadd f1 f1 <> (f0 : K).
Variable emb : Z -> K.
Variable unemb : K -> Z.
Hypothesis emb_0 : emb 0 = f0.
Hypothesis emb_add : forall a b, emb (a + b) = fadd (emb a) (emb b).
Hypothesis emb_mul : forall a b, emb (a * b) = fmul (emb a) (emb b).

Lemma emb_zsum n f : emb (zsum n f) = sumn n (fun i => emb (f i)).
Proof. induction n as [|n IH]; [exact emb_0|]. unfold zsum in *. cbn [sumto sumn]. rewrite emb_add, IH. reflexivity. Qed.

(** The field value of M_Fft2 at (r, c) is the embedding of the direct convolution, when the kernel only has
    coefficients in its first kr rows and columns and first ci channels. *)
Lemma cval_direct l k kw kx ci kr (f x : ten Z) o r c : let n := 2 ^ l in
  wft f -> sh f = [kw; kx; k; k] -> wft x -> sh x = [kx; n; n] -> k <= n -> kr <= k -> ci <= kx -> o < kw -> r + kr <= n -> c + kr <= n ->
  0 < kr ->
  (forall j p q, j < kx -> p < k -> q < k -> ci <= j \/ kr <= p \/ kr <= q -> entry 0%Z f [o; j; p; q] = 0%Z) ->
  cval emb l k kx (dat f) (dat x) o (r * n + c) = emb (direct x f ci kr o r c).
Proof.
  cbv zeta. intros Wf Sf Wx Sx Hk Hkr Hci Ho Hr Hc Hkr0 Hz. set (n := 2 ^ l) in *. assert (Hn : 0 < n) by apply pow2_pos.
  unfold cval, direct. fold n.
  assert (Hzd : zsum ci (fun j => zsum kr (fun p => zsum kr (fun q => entry 0 x [j; (r + p)%nat; (c + q)%nat] * entry 0 f [o; j; p; q])))%Z =
     zsum kx (fun j => zsum kr (fun p => zsum kr (fun q => entry 0 x [j; (r + p)%nat; (c + q)%nat] * entry 0 f [o; j; p; q])))%Z).
  { symmetry. apply zsum_trail; auto. intros j Hj. apply zsum_0. intros p Hp. apply zsum_0. intros q Hq. rewrite (Hz j p q); lia. }
  rewrite Hzd, emb_zsum. apply sumn_ext. intros j Hj.
  assert (G : zsum kr (fun p => zsum kr (fun q => entry 0 x [j; (r + p)%nat; (c + q)%nat] * entry 0 f [o; j; p; q]))%Z =
    zsum (n * n) (fun t => if ((t / n <? kr) && (t mod n <? kr))%nat then entry 0 x [j; (r + t / n)%nat; (c + t mod n)%nat] * entry 0 f [o; j; (t / n)%nat; (t mod n)%nat] else 0)%Z).
  { rewrite zsum_grid. symmetry. rewrite (zsum_trail kr n).
    - apply zsum_ext. intros p Hp. rewrite (zsum_trail kr n).
      + apply zsum_ext. intros q Hq.
        assert (Q1 : (p * n + q) / n = p) by (rewrite Nat.div_add_l, Nat.div_small; lia).
        assert (Q2 : (p * n + q) mod n = q) by (rewrite Nat.add_comm, Nat.mod_add, Nat.mod_small; lia).
        rewrite Q1, Q2. destruct (Nat.ltb_spec p kr); [|lia]. destruct (Nat.ltb_spec q kr); [|lia]. reflexivity.
      + lia.
      + intros q Hq. assert (Q2 : (p * n + q) mod n = q) by (rewrite Nat.add_comm, Nat.mod_add, Nat.mod_small; lia). rewrite Q2.
        destruct (Nat.ltb_spec q kr); [lia|]. rewrite andb_false_r. reflexivity.
    - lia.
    - intros p Hp. apply zsum_0. intros q Hq. assert (Q1 : (p * n + q) / n = p) by (rewrite Nat.div_add_l, Nat.div_small; lia). rewrite Q1.
      destruct (Nat.ltb_spec p kr); [lia|]. reflexivity. }
  rewrite G, emb_zsum. apply sumn_ext. intros t Ht.
  assert (D := Nat.div_mod t n ltac:(lia)). set (p := t / n) in *. set (q := t mod n) in *.
  assert (Hp : p < n) by (apply Nat.div_lt_upper_bound; lia). assert (Hq : q < n) by (apply Nat.mod_upper_bound; lia).
  assert (Fe : forall p' q', p' < k -> q' < k -> nth (p' * k + q') (fslice k kx (dat f) o j) 0%Z = entry 0%Z f [o; j; p'; q']).
  { intros p' q' Hp' Hq'. rewrite fslice_nth by (apply lt2; auto). unfold entry. rewrite Sf, flat4. f_equal. lia. }
  unfold wcoef. fold p q.
  destruct (Nat.ltb_spec p kr) as [P1|P1]; cbn [andb].
  - destruct (Nat.ltb_spec q kr) as [Q1|Q1].
    + assert (Hin : r * n + c + t = (r + p) * n + (c + q)) by (rewrite D; lia).
      rewrite Hin. destruct (Nat.ltb_spec ((r + p) * n + (c + q)) (n * n)) as [L|L]; [|pose proof (lt2 n n (r + p) (c + q)); lia].
      destruct (Nat.ltb_spec p k); [|lia]. destruct (Nat.ltb_spec q k); [|lia]. cbn [andb]. rewrite Fe by lia.
      rewrite emb_mul. unfold xval. fold n. replace (nth (j * (n * n) + ((r + p) * n + (c + q))) (dat x) 0%Z) with (entry 0%Z x [j; r + p; c + q]); [ring|].
      unfold entry. rewrite Sx, flat3. f_equal. lia.
    + rewrite emb_0. destruct (_ <? n * n); [|reflexivity]. destruct (Nat.ltb_spec p k); cbn [andb]; [|ring]. destruct (Nat.ltb_spec q k); [|ring].
      rewrite Fe by lia. rewrite Hz by (auto; lia). rewrite emb_0. ring.
  - rewrite emb_0. destruct (_ <? n * n); [|reflexivity]. destruct (Nat.ltb_spec p k); cbn [andb]; [|ring]. destruct (Nat.ltb_spec q k); [|ring].
    rewrite Fe by lia. rewrite Hz by (auto; lia). rewrite emb_0. ring.
Qed.

(** *** Bias and clearing. *)
Lemma add_bias_ok (b t : ten Z) a n bl : wft t -> sh t = [a; n; n] -> a <= bl -> length (dat b) = bl -> 0 < n ->
  exists u, add_bias b t = Some u /\ sh u = [a; n; n] /\ wft u /\
    forall o r c, o < a -> r < n -> c < n -> entry 0%Z u [o; r; c] = (entry 0 t [o; r; c] + nth o (dat b) 0)%Z.
Proof.
  intros Wt St Hb Lb Hn. unfold add_bias. rewrite St. cbn [nth_error obind].
  assert (Lt : length (dat t) = a * (n * n)) by (unfold wft in Wt; rewrite Wt, St; cbn [fold_right]; lia).
  rewrite Lt, Nat.eqb_refl. cbn [negb].
  destruct (omapM_spec 0%Z (fun idx => a0 <- nth_error (dat t) idx;; b0 <- nth_error (dat b) (idx / (n * n));; Some (a0 + b0)%Z)
    (fun idx => (nth idx (dat t) 0 + nth (idx / (n * n)) (dat b) 0)%Z) (a * (n * n))) as (arr & E & L & N).
  - intros i Hi. rewrite (nth_error_some 0%Z) by lia. cbn [obind]. rewrite (nth_error_some 0%Z); [reflexivity|].
    assert (i / (n * n) < a) by (apply Nat.div_lt_upper_bound; nia). lia.
  - rewrite E. cbn [obind]. unfold tensor_new. replace (sprod [a; n; n]) with (length arr) by (rewrite L; cbn [sprod fold_right]; lia).
    rewrite Nat.eqb_refl. eexists. split; [reflexivity|]. split; [reflexivity|]. split; [unfold wft; cbn [sh dat fold_right]; lia|].
    intros o r c Ho Hr Hc. unfold entry. cbn [sh dat]. rewrite St, !flat3. assert (Q := lt3 a n n o r c Ho Hr Hc).
    rewrite N by lia. f_equal. f_equal. replace ((o * n + r) * n + c) with (o * (n * n) + (r * n + c)) by lia.
    rewrite Nat.div_add_l by nia. rewrite Nat.div_small; [lia|]. apply lt2; auto.
Qed.
Lemma clear_ok (t : ten Z) a n s o0 o1 o2 : wft t -> sh t = [a; n; n] -> 0 < n -> drop_batch s = [o0; o1; o2] ->
  exists u, clear_garbage t s = Some u /\ sh u = [a; n; n] /\ wft u /\
    forall o r c, o < a -> r < n -> c < n -> entry 0%Z u [o; r; c] = if (o <? o0) && (r <? o1) && (c <? o2) then entry 0%Z t [o; r; c] else 0%Z.
Proof.
  intros Wt St Hn Es. unfold clear_garbage. rewrite St, Es. unfold inside. cbn [nth_error obind].
  assert (Lt : length (dat t) = a * n * n) by (unfold wft in Wt; rewrite Wt, St; cbn [fold_right]; lia).
  destruct (omapM_spec 0%Z (fun idx => x <- nth_error (dat t) idx;;
      Some (if (idx / (n * n) <? o0) && ((idx / n) mod n <? o1) && (idx mod n <? o2) then x else 0%Z))
    (fun idx => if (idx / (n * n) <? o0) && ((idx / n) mod n <? o1) && (idx mod n <? o2) then nth idx (dat t) 0%Z else 0%Z) (a * n * n)) as (arr & E & L & N).
  - intros i Hi. rewrite (nth_error_some 0%Z) by lia. reflexivity.
  - rewrite E. cbn [obind]. rewrite skipn_all2 by lia. rewrite app_nil_r. unfold tensor_new.
    replace (sprod [a; n; n]) with (length arr) by (rewrite L; cbn [sprod fold_right]; lia).
    rewrite Nat.eqb_refl. eexists. split; [reflexivity|]. split; [reflexivity|]. split; [unfold wft; cbn [sh dat fold_right]; lia|].
    intros o r c Ho Hr Hc. unfold entry. cbn [sh dat]. rewrite St, !flat3. assert (Q := lt3 a n n o r c Ho Hr Hc).
    rewrite N by lia.
    assert (A1 : ((o * n + r) * n + c) / (n * n) = o).
    { replace ((o * n + r) * n + c) with (o * (n * n) + (r * n + c)) by lia. rewrite Nat.div_add_l by nia. rewrite Nat.div_small; [lia|]. apply lt2; auto. }
    assert (A2 : ((o * n + r) * n + c) / n = o * n + r) by (rewrite Nat.div_add_l, Nat.div_small; lia).
    assert (A3 : (o * n + r) mod n = r) by (rewrite Nat.add_comm, Nat.mod_add, Nat.mod_small; lia).
    assert (A4 : ((o * n + r) * n + c) mod n = c) by (rewrite Nat.add_comm, Nat.mod_add, Nat.mod_small; lia).
    rewrite A1, A2, A3, A4. reflexivity.
Qed.

(** *** The padded layer. *)
Lemma into_padded_ok (f b : ten Z) og un s co ci k s1 : wft f -> sh f = [co; ci; k; k] -> wft b -> sh b = [co] -> 0 < co -> 0 < ci -> 0 < k ->
  nth_error s 1 = Some s1 -> npow2 k <= npow2 s1 ->
  exists f' b', into_padded_and_ffted (mkConv f og b un) s =
      Some (mkConv (mkTen [npow2 co; npow2 ci; npow2 (npow2 s1 - npow2 k + 1); npow2 (npow2 s1 - npow2 k + 1)] (dat f')) (sh f') b' un) /\
    padded_with 0%Z f [npow2 co; npow2 ci; npow2 k; npow2 k] f' /\ padded_with 0%Z b [npow2 co] b'.
Proof.
  intros Wf Sf Wb Sb Hco Hci Hk Es Hle. unfold into_padded_and_ffted. cbn [cv_filter cv_bias cv_unpadded].
  destruct (generic_pad_ok 0%Z f Wf) as (f' & Ef & Pf); [rewrite Sf; discriminate|rewrite Sf; repeat constructor; auto|].
  destruct (generic_pad_ok 0%Z b Wb) as (b' & Eb & Pb); [rewrite Sb; discriminate|rewrite Sb; repeat constructor; auto|].
  unfold pad_next_power_of_two. rewrite Ef, Eb. cbn [obind]. rewrite Sf in Pf. rewrite Sb in Pb. cbn [shape_npow2 map] in Pf, Pb.
  exists f', b'. split; [|auto]. destruct Pf as (Sf' & Wf' & _). unfold into_fft_conv. rewrite Sf'.
  rewrite <- Sf' at 1. change (sprod (sh f')) with (fold_right Nat.mul 1 (sh f')). rewrite <- Wf', Nat.eqb_refl.
  assert (P : is_pow2 (npow2 k) = true) by (apply is_pow2_iff; eexists; reflexivity). rewrite P. cbn [negb orb].
  rewrite (map_nth_error npow2 1 s Es). cbn [obind]. unfold csub. destruct (Nat.leb_spec (npow2 k) (npow2 s1)); [|lia]. cbn [obind fst snd].
  reflexivity.
Qed.

Theorem conv_layer (f b x x' d : ten Z) og s co ci k h l s1 : let n := npow2 h in let out := h - k + 1 in
  wft f -> sh f = [co; ci; k; k] -> wft b -> sh b = [co] -> wft x -> sh x = [ci; h; h] ->
  0 < co -> 0 < ci -> 0 < k <= h -> n = 2 ^ l -> 2 * l + 1 <= 32 ->
  (* the padded input: agrees with the unpadded one, arbitrary elsewhere *)
  wft x' -> sh x' = [npow2 ci; n; n] -> agrees 0%Z x x' ->
  (* the shape given to [into_padded_and_ffted] makes the filter grid as large as the input grid *)
  nth_error s 1 = Some s1 -> npow2 k <= npow2 s1 -> npow2 (npow2 s1 - npow2 k + 1) = n ->
  conv2d 0%Z Z.add Z.mul x f b 1 = Some d ->
  (* every sum fits in the field *)
  (forall o r c, o < co -> r < out -> c < out -> unemb (emb (entry 0 d [0%nat; o; r; c] - nth o (dat b) 0))%Z = (entry 0 d [0%nat; o; r; c] - nth o (dat b) 0)%Z) ->
  exists c' t, into_padded_and_ffted (mkConv f og b (sh f)) s = Some c' /\ conv_op gen emb unemb c' x' (sh x) = Some t /\
    sh t = [npow2 co; n; n] /\ wft t /\
    forall o r c, inb (sh t) [o; r; c] ->
      entry 0%Z t [o; r; c] = if (o <? co) && (r <? out) && (c <? out) then entry 0%Z d [0; o; r; c] else 0%Z.
Proof.
  cbv zeta. intros Wf Sf Wb Sb Wx Sx Hco Hci Hk Hn Hl Wx' Sx' Ag Es Hs Hnw Ed Hfit. set (n := npow2 h) in *.
  assert (Hnp : 0 < n) by apply npow2_pos. assert (Hhn : h <= n) by apply npow2_ge.
  destruct (into_padded_ok f b og (sh f) s co ci k s1) as (f' & b' & Ec & (Sf' & Wf' & Pf) & (Sb' & Wb' & Pb)); auto; [lia|].
  assert (Hkp : npow2 k <= n). { unfold n, npow2. apply Nat.pow_le_mono_r; [lia|]. apply Nat.log2_up_le_mono. lia. }
  rewrite Hnw in Ec. eexists. 
  set (F := mkTen [npow2 co; npow2 ci; n; n] (dat f')) in *.
  destruct (fft_conv_ok gen gen_root char2 emb unemb l (npow2 k) (npow2 co) (npow2 ci) Hl ltac:(rewrite <- Hn; auto) (dat f') (dat x')
     ltac:(unfold wft in Wf'; rewrite Wf', Sf'; cbn [fold_right]; lia)
     ltac:(unfold wft in Wx'; rewrite Wx', Sx', <- Hn; cbn [fold_right]; lia) F (sh f') x' n n) as (t1 & E1 & S1 & W1 & N1).
  { unfold F. rewrite <- Hn. reflexivity. } { reflexivity. } { rewrite Sf'. reflexivity. } { rewrite Sx'. reflexivity. }
  { rewrite Hn. apply npow2_pow2. } { reflexivity. }
  rewrite <- Hn in S1, N1.
  assert (Lb' : length (dat b') = npow2 co) by (unfold wft in Wb'; rewrite Wb', Sb'; cbn; lia).
  destruct (add_bias_ok b' t1 (npow2 co) n (npow2 co) W1 S1 ltac:(auto) Lb' Hnp) as (t2 & E2 & S2 & W2 & N2).
  assert (Es2 : conv2d_shape (sh x) (sh f) = Some [co; h - k + 1; h - k + 1]).
  { unfold conv2d_shape. rewrite Sx, Sf. cbn [length Nat.eqb nth_error obind]. unfold csub.
    destruct (Nat.leb_spec 1 k); [|lia]. cbn [obind]. destruct (Nat.leb_spec (k - 1) h); [|lia]. cbn [obind].
    destruct (Nat.leb_spec 1 (h - (k - 1))); [|lia]. cbn [obind]. replace (h - (k - 1) - 1 + 1) with (h - k + 1) by lia. reflexivity. }
  destruct (clear_ok t2 (npow2 co) n [co; h - k + 1; h - k + 1] co (h - k + 1) (h - k + 1) W2 S2 Hnp eq_refl) as (t & E3 & S3 & W3 & N3).
  exists t. split; [exact Ec|]. split.
  { unfold conv_op. cbn [cv_filter cv_og cv_bias cv_unpadded]. fold F. rewrite E1. cbn [obind]. rewrite E2. cbn [obind]. rewrite Es2. cbn [obind]. exact E3. }
  split; [exact S3|]. split; [exact W3|]. intros o r c Hb. rewrite S3 in Hb. apply inb3 in Hb. destruct Hb as (Ho & Hr & Hc).
  rewrite N3 by auto. destruct (Nat.ltb_spec o co) as [Ho'|]; cbn [andb]; [|reflexivity].
  destruct (Nat.ltb_spec r (h - k + 1)) as [Hr'|]; cbn [andb]; [|reflexivity]. destruct (Nat.ltb_spec c (h - k + 1)) as [Hc'|]; [|reflexivity].
  rewrite N2 by auto.
  destruct (conv2d_ok x f b co ci h k Wx Sx Wf Sf Wb Sb ltac:(lia)) as (d' & Ed' & Sd & Wd & Nd). assert (d' = d) by congruence. subst d'.
  pose proof (Hfit o r c Ho' Hr' Hc') as Fit. rewrite (Nd o r c Ho' Hr' Hc') in *.
  replace (direct x f ci k o r c + nth o (dat b) 0 - nth o (dat b) 0)%Z with (direct x f ci k o r c) in Fit by lia.
  assert (Eb : nth o (dat b') 0%Z = nth o (dat b) 0%Z).
  { destruct (Pb [o]) as [X _]; [apply inb1; auto|]. specialize (X ltac:(rewrite Sb; apply inb1; auto)).
    unfold entry in X. rewrite Sb', Sb, !flat1 in X. exact X. }
  rewrite Eb. f_equal.
  assert (Ee : entry 0%Z t1 [o; r; c] = nth (o * (n * n) + (r * n + c)) (dat t1) 0%Z). { unfold entry. rewrite S1, flat3. f_equal. lia. }
  rewrite Ee, N1 by (auto; apply lt2; auto).
  pose proof (cval_direct l (npow2 k) (npow2 co) (npow2 ci) ci k f' x' o r c) as CD. cbv zeta in CD. rewrite <- Hn in CD. rewrite CD; auto.
  - etransitivity; [|exact Fit]. f_equal. f_equal. unfold direct. apply zsum_ext. intros j Hj. apply zsum_ext. intros p Hp. apply zsum_ext. intros q Hq.
    f_equal.
    + apply Ag. rewrite Sx. apply inb3. lia.
    + destruct (Pf [o; j; p; q]) as [X _].
      * pose proof (npow2_ge ci). pose proof (npow2_ge k). apply inb4. lia.
      * apply X. rewrite Sf. apply inb4. lia.
  - apply npow2_ge. - apply npow2_ge. - lia. - lia. - lia.
  - intros j p q Hj Hp Hq Hz. destruct (Pf [o; j; p; q]) as [_ X]; [apply inb4; auto|]. apply X. rewrite Sf, inb4. lia.
Qed.
End Int.
