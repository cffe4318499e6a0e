(** Basefold: the honest commit phase. *)
From Coq Require Import List Arith Lia Bool ZArith Field.
From Verif Require Import ListAux FieldDef MleMath M_Mle M_Tensor M_Sumcheck M_Fft M_Merkle M_Code M_Basefold P_Mle P_Eq P_Tensor P_Graph4 P_Hash P_Layers2 P_Merkle2 P_Basefold P_Fft P_Code P_Code2 P_Code3 P_Code4 P_Code5.
Import ListNotations.

Section Comb.
Context {K : field}.
Local Open Scope F_scope.
Add Field Kf_b2 : (fth K).
Implicit Types a b f g : list K.

Definition dot f g : K := fsum (map (fun p => fst p * snd p) (combine f g)).
Definition lin a b (c : K) : list K := zipw (fun x y => x + c * (y - x)) a b.
(** Fixing the last of [S n] variables to [c]. *)
Definition linh (n : nat) f (c : K) : list K := lin (firstn (2 ^ n) f) (skipn (2 ^ n) f) c.
Lemma lin_length a b c : length a = length b -> length (lin a b c) = length a.
Proof. apply zipw_length. Qed.
Lemma linh_length n f c : length f = (2 ^ S n)%nat -> length (linh n f c) = (2 ^ n)%nat.
Proof. intros H. destruct (half_lengths f n H) as [H1 H2]. unfold linh. rewrite lin_length; congruence. Qed.
Lemma linh_app n a b c : length a = (2 ^ n)%nat -> linh n (a ++ b) c = lin a b c.
Proof. intros Ha. unfold linh. now rewrite firstn_app, skipn_app, <- Ha, firstn_all, skipn_all, Nat.sub_diag, firstn_O, skipn_O, app_nil_r. Qed.

Lemma even_pow n : Nat.even (2 ^ S n) = true.
Proof. rewrite Nat.pow_succ_r'. apply Nat.even_spec. now exists (2 ^ n)%nat. Qed.
Lemma flat_inter (h : K -> K -> K) : forall a b, length a = length b -> flat_map (fun p => [fst p; h (snd p) (fst p)]) (combine a b) = inter a (zipw h b a).
Proof. induction a as [|x a IH]; intros [|y b] H; try discriminate H; [reflexivity|]. cbn [combine flat_map fst snd app]. rewrite zipw_cons. cbn [inter]. now rewrite IH by (cbn in H; lia). Qed.
Lemma interp_br n a b : length a = (2 ^ n)%nat -> length b = (2 ^ n)%nat ->
  one_level_interp_hc (br (S n) (a ++ b)) = Some (inter (br n a) (zsub (br n b) (br n a))).
Proof.
  intros Ha Hb. unfold one_level_interp_hc. assert (L : length (a ++ b) = (2 ^ S n)%nat) by (rewrite app_length, Ha, Hb; cbn; lia).
  rewrite br_length by assumption. rewrite even_pow. replace (2 ^ S n =? 1)%nat with false.
  2: { symmetry. apply Nat.eqb_neq. rewrite Nat.pow_succ_r'. lia. }
  rewrite br_app by assumption. rewrite pairs2_inter by (rewrite !br_length; auto). f_equal. apply (flat_inter fsub). rewrite !br_length; auto.
Qed.
Lemma eval_interp n a b c : length a = (2 ^ n)%nat -> length b = (2 ^ n)%nat ->
  one_level_eval_hc (inter (br n a) (zsub (br n b) (br n a))) c = Some (br n (lin a b c)).
Proof.
  intros Ha Hb. pose proof (br_length n a Ha) as La. pose proof (br_length n b Hb) as Lb. unfold one_level_eval_hc.
  assert (Lz : length (zsub (br n b) (br n a)) = (2 ^ n)%nat) by (unfold zsub; rewrite zipw_length; congruence).
  rewrite inter_length by congruence. rewrite La. rewrite <- Nat.pow_succ_r', even_pow. rewrite pairs2_inter by congruence. f_equal.
  unfold lin. rewrite br_zipw by assumption. generalize (br n b) (br n a) La Lb. intros u v Lv Lu. assert (E : length v = length u) by congruence. clear -E.
  revert u E. induction v as [|x v IH]; intros [|y u] E; try discriminate E; [reflexivity|]. unfold zsub in *. rewrite !zipw_cons. cbn [combine map fst snd]. f_equal. apply IH. cbn in E. lia.
Qed.
Lemma dot_nil : dot [] [] = 0. Proof. reflexivity. Qed.
Lemma dot_cons x f y g : dot (x :: f) (y :: g) = x * y + dot f g. Proof. reflexivity. Qed.
Lemma dot_app a b (p q : list K) : length a = length p -> dot (a ++ b) (p ++ q) = dot a p + dot b q.
Proof. revert p; induction a as [|x a IH]; intros [|y p] H; try discriminate H; [cbn [app]; rewrite dot_nil; ring|]. cbn [app]. rewrite !dot_cons, IH by (cbn in H; lia). ring. Qed.
Lemma dot_inter : forall a b (p q : list K), length a = length p -> length b = length q -> length a = length b -> dot (inter a b) (inter p q) = dot a p + dot b q.
Proof.
  induction a as [|x a IH]; intros [|y b] [|u p] [|v q] H H1 H2; try discriminate; [cbn [inter]; rewrite !dot_nil; ring|].
  cbn [inter]. rewrite !dot_cons, IH by (cbn in *; lia). ring.
Qed.
Lemma dot_br n : forall f g, length f = (2 ^ n)%nat -> length g = (2 ^ n)%nat -> dot (br n f) (br n g) = dot f g.
Proof.
  induction n as [|n IH]; intros f g Hf Hg; [reflexivity|]. destruct (split_half f n Hf) as (a & b & -> & La & Lb). destruct (split_half g n Hg) as (p & q & -> & Lp & Lq).
  rewrite !br_app by assumption. rewrite dot_inter by (rewrite !br_length; auto). rewrite !IH by assumption. rewrite dot_app by congruence. reflexivity.
Qed.
(** The message of a round for the current table [f = a ++ b] and equality table [g = p ++ q]. *)
Definition bmsg a b (p q : list K) : list K := [dot a p; dot (zsub b a) p + dot a (zsub q p); dot (zsub b a) (zsub q p)].
Definition bmsgh (n : nat) f g := bmsg (firstn (2 ^ n) f) (skipn (2 ^ n) f) (firstn (2 ^ n) g) (skipn (2 ^ n) g).
Lemma bmsgh_app n a b (p q : list K) : length a = (2 ^ n)%nat -> length p = (2 ^ n)%nat -> bmsgh n (a ++ b) (p ++ q) = bmsg a b p q.
Proof.
  intros Ha Hp. unfold bmsgh. rewrite !firstn_app, !skipn_app. rewrite <- Ha at 1 2 3 4. rewrite <- Hp at 1 2 3 4.
  rewrite !firstn_all, !skipn_all, !Nat.sub_diag. cbn [firstn skipn]. rewrite !app_nil_r. reflexivity.
Qed.
Lemma bmsg_sum a : forall b (p q : list K), length a = length b -> length a = length p -> length a = length q ->
  degree_2_zero_plus_one (bmsg a b p q) = Some (dot (a ++ b) (p ++ q)).
Proof.
  intros b p q H1 H2 H3. unfold degree_2_zero_plus_one, bmsg. cbn [nth_error obind]. f_equal. rewrite dot_app by assumption.
  revert b p q H1 H2 H3. induction a as [|x a IH]; intros [|y b] [|u p] [|v q] H1 H2 H3; try discriminate; [rewrite !dot_nil; cbn; ring|].
  unfold zsub in *. rewrite !zipw_cons, !dot_cons. cbn [length] in *. specialize (IH b p q ltac:(lia) ltac:(lia) ltac:(lia)).
  transitivity (x * u + x * u + ((y - x) * u + x * (v - u)) + (y - x) * (v - u) + (dot a p + dot a p + (dot (zipw fsub b a) p + dot a (zipw fsub q p)) + dot (zipw fsub b a) (zipw fsub q p))); [ring|].
  rewrite IH. ring.
Qed.
Lemma bmsg_eval c a : forall b (p q : list K), length a = length b -> length a = length p -> length a = length q ->
  degree_2_eval (bmsg a b p q) c = Some (dot (lin a b c) (lin p q c)).
Proof.
  intros b p q H1 H2 H3. unfold degree_2_eval, bmsg. cbn [nth_error obind]. f_equal.
  revert b p q H1 H2 H3. induction a as [|x a IH]; intros [|y b] [|u p] [|v q] H1 H2 H3; try discriminate; [cbn; ring|].
  unfold zsub, lin in *. rewrite !zipw_cons, !dot_cons. cbn [length] in *. rewrite <- (IH b p q ltac:(lia) ltac:(lia) ltac:(lia)). ring.
Qed.
Lemma bmsgh_sum n f g : length f = (2 ^ S n)%nat -> length g = (2 ^ S n)%nat -> degree_2_zero_plus_one (bmsgh n f g) = Some (dot f g).
Proof. intros Hf Hg. destruct (half_lengths f n Hf) as [F1 F2]. destruct (half_lengths g n Hg) as [G1 G2]. unfold bmsgh. rewrite bmsg_sum by congruence. now rewrite !firstn_skipn. Qed.
Lemma bmsgh_eval n f g c : length f = (2 ^ S n)%nat -> length g = (2 ^ S n)%nat -> degree_2_eval (bmsgh n f g) c = Some (dot (linh n f c) (linh n g c)).
Proof. intros Hf Hg. destruct (half_lengths f n Hf) as [F1 F2]. destruct (half_lengths g n Hg) as [G1 G2]. unfold bmsgh. now rewrite bmsg_eval by congruence. Qed.
Lemma parallel_pi_ok n a b (p q : list K) : length a = (2 ^ n)%nat -> length b = (2 ^ n)%nat -> length p = (2 ^ n)%nat -> length q = (2 ^ n)%nat ->
  parallel_pi (inter (br n a) (zsub (br n b) (br n a))) (inter (br n p) (zsub (br n q) (br n p))) = Some (bmsg a b p q).
Proof.
  intros Ha Hb Hp Hq. pose proof (br_length n a Ha) as La. pose proof (br_length n b Hb) as Lb. pose proof (br_length n p Hp) as Lp. pose proof (br_length n q Hq) as Lq.
  assert (Lz : length (zsub (br n b) (br n a)) = (2 ^ n)%nat) by (unfold zsub; rewrite zipw_length; congruence).
  assert (Lz' : length (zsub (br n q) (br n p)) = (2 ^ n)%nat) by (unfold zsub; rewrite zipw_length; congruence).
  set (X := inter (br n a) (zsub (br n b) (br n a))). set (Y := inter (br n p) (zsub (br n q) (br n p))).
  assert (LX : length X = (2 ^ S n)%nat) by (unfold X; rewrite inter_length by congruence; rewrite La; now rewrite Nat.pow_succ_r').
  assert (LY : length Y = (2 ^ S n)%nat) by (unfold Y; rewrite inter_length by congruence; rewrite Lp; now rewrite Nat.pow_succ_r').
  assert (E : parallel_pi X Y = let ps := combine (pairs2 X) (pairs2 Y) in
        Some [fsum (map (fun p => fst (fst p) * fst (snd p)) ps); fsum (map (fun p => snd (fst p) * fst (snd p) + fst (fst p) * snd (snd p)) ps); fsum (map (fun p => snd (fst p) * snd (snd p)) ps)]).
  { unfold parallel_pi. destruct X as [|x1 [|x2 X']]; [cbn [length] in LX; rewrite Nat.pow_succ_r' in LX; pose proof (Nat.pow_nonzero 2 n); lia|cbn [length] in LX; rewrite Nat.pow_succ_r' in LX; lia|]. rewrite LX, LY, even_pow. reflexivity. }
  rewrite E. cbv zeta. clear E. unfold X, Y. rewrite !pairs2_inter by congruence.
  assert (Ez : zsub (br n b) (br n a) = br n (zsub b a)) by (unfold zsub; now rewrite br_zipw). assert (Ez' : zsub (br n q) (br n p) = br n (zsub q p)) by (unfold zsub; now rewrite br_zipw).
  rewrite Ez, Ez'. assert (Mz : length (zsub b a) = (2 ^ n)%nat) by (unfold zsub; rewrite zipw_length; congruence). assert (Mz' : length (zsub q p) = (2 ^ n)%nat) by (unfold zsub; rewrite zipw_length; congruence).
  unfold bmsg. rewrite <- (dot_br n a p), <- (dot_br n (zsub b a) p), <- (dot_br n a (zsub q p)), <- (dot_br n (zsub b a) (zsub q p)) by assumption.
  rewrite Ez, Ez' in *. clear X Y LX LY Ez Ez'. generalize (br n a) (br n (zsub b a)) (br n p) (br n (zsub q p)) La Lz Lp Lz'. clear. intros a d p e La Ld Lp Le.
  assert (H1 : length a = length d) by congruence. assert (H2 : length a = length p) by congruence. assert (H3 : length a = length e) by congruence. clear La Ld Lp Le.
  f_equal. enough (G : forall a d p e : list K, length a = length d -> length a = length p -> length a = length e ->
    fsum (map (fun x => fst (fst x) * fst (snd x)) (combine (combine a d) (combine p e))) = dot a p /\
    fsum (map (fun x => snd (fst x) * fst (snd x) + fst (fst x) * snd (snd x)) (combine (combine a d) (combine p e))) = dot d p + dot a e /\
    fsum (map (fun x => snd (fst x) * snd (snd x)) (combine (combine a d) (combine p e))) = dot d e).
  { destruct (G a d p e H1 H2 H3) as (-> & -> & ->). reflexivity. }
  clear. induction a as [|x a IH]; intros [|y d] [|u p] [|v e] H1 H2 H3; try discriminate; [rewrite !dot_nil; cbn; repeat split; ring|].
  cbn [length] in *. destruct (IH d p e ltac:(lia) ltac:(lia) ltac:(lia)) as (E1 & E2 & E3). cbn [combine map fsum fst snd]. rewrite !dot_cons, E1, E2, E3. repeat split; ring.
Qed.
(** The equality table, one variable after the other. *)
Lemma eq_table_snoc (r : list K) x : eq_table (r ++ [x]) = map (fun e => e * (1 - x)) (eq_table r) ++ map (fun e => e * x) (eq_table r).
Proof.
  unfold eq_table. rewrite app_length. cbn [length]. rewrite Nat.add_1_r, Nat.pow_succ_r'. replace (2 * 2 ^ length r)%nat with (2 ^ length r + 2 ^ length r)%nat by lia.
  rewrite seq_app, map_app, !map_map. f_equal.
  - apply map_ext_in. intros i Hi. apply in_seq in Hi. replace i with (i + 2 ^ length r * 0)%nat at 1 by lia. rewrite eqw_app by lia. f_equal. unfold eqw. cbn. ring.
  - rewrite Nat.add_0_l. apply (nth_ext_all _ _ 0); [now rewrite !map_length, !seq_length|]. rewrite map_length, seq_length. intros i Hi.
    rewrite (nth_map_lt _ _ _ 0%nat 0) by now rewrite seq_length. rewrite nth_map_seq by assumption. rewrite seq_nth by assumption.
    replace (2 ^ length r + i)%nat with (i + 2 ^ length r * 1)%nat by lia. rewrite eqw_app by assumption. f_equal. unfold eqw. cbn. ring.
Qed.
Lemma linh_eq (r : list K) x k c : linh (length r) (map (fun e => e * k) (eq_table (r ++ [x]))) c = map (fun e => e * (k * eq1 x c)) (eq_table r).
Proof.
  rewrite eq_table_snoc, map_app, !map_map. rewrite linh_app by now rewrite map_length, eq_table_length. unfold lin. clear. induction (eq_table r) as [|e l IH]; [reflexivity|].
  cbn [map]. rewrite zipw_cons, IH. f_equal. unfold eq1. ring.
Qed.
Lemma dot_eq_table f (r : list K) : length f = (2 ^ length r)%nat -> dot f (eq_table r) = mle f r.
Proof.
  intros H. pose proof (eq_table_dot f r) as E. rewrite firstn_all2 in E by lia. rewrite <- E. unfold dot. f_equal. apply map_ext. now intros [x y].
Qed.
(** Fixing the last variable. *)
Lemma mle_linh n f (r : list K) c : length f = (2 ^ S n)%nat -> length r = n -> mle (linh n f c) r = mle f (r ++ [c]).
Proof.
  intros Hf Hr. destruct (split_half f n Hf) as (a & b & -> & La & Lb). rewrite linh_app by assumption. unfold mle. rewrite mlef_snoc. apply mlef_ext. intros i Hi.
  unfold lin. rewrite (nth_zipw _ _ _ _ 0 0) by (try congruence; rewrite La; congruence). rewrite Hr in *. rewrite (app_nth1 a b) by lia. rewrite app_nth2 by lia. replace (2 ^ n + i - length a)%nat with i by lia. reflexivity.
Qed.
Lemma hcI_lin n a b c : length a = (2 ^ n)%nat -> length b = (2 ^ n)%nat -> cfold (hcI n a) (zsub (hcI n b) (hcI n a)) c = hcI n (lin a b c).
Proof.
  intros Ha Hb. unfold lin. rewrite hcI_map2 by (auto; intros; ring). pose proof (hcI_length n a Ha) as La. pose proof (hcI_length n b Hb) as Lb.
  unfold cfold, zsub. apply (nth_ext_all _ _ 0); [rewrite !zipw_length; try congruence; rewrite zipw_length; congruence|]. rewrite zipw_length by (rewrite zipw_length; congruence). intros i Hi.
  rewrite !(nth_zipw _ _ _ _ 0 0) by (rewrite ?zipw_length; try congruence; lia). reflexivity.
Qed.
End Comb.
