(** The Goldilocks prime 2^64 - 2^32 + 1 (the base field of the code's [GoldilocksExt2]) as an instance of
    [field].  Primality is proved by Lucas' test from the factorisation of p - 1. *)
From Coq Require Import List Arith Lia Bool ZArith Znumtheory Zpow_facts.
From Verif Require Import ListAux FieldDef FpInst.
Import ListNotations.
Local Open Scope Z_scope.

Lemma prime_divisor e : 1 < e -> exists r, prime r /\ (r | e).
Proof.
  intros He. assert (H : 0 <= e) by lia. revert He. pattern e. apply Z_lt_induction; [|exact H]. clear.
  intros e IH He. destruct (prime_dec e) as [P|N]; [exists e; split; auto; apply Z.divide_refl|].
  destruct (not_prime_divide e He N) as (n & Hn & D). destruct (IH n) as (r & Hr & Dr); [lia|lia|].
  exists r. split; auto. eapply Z.divide_trans; eauto.
Qed.

Lemma pow_one_mod r a x y : 1 < r -> 0 <= x -> 0 <= y -> a ^ x mod r = 1 -> a ^ (x * y) mod r = 1.
Proof.
  intros Hr Hx Hy H. rewrite Z.pow_mul_r by lia. rewrite Zpower_mod by lia. rewrite H, Z.pow_1_l by lia. apply Z.mod_small. lia.
Qed.
Lemma pow_gcd r a : 1 < r -> forall y, 0 <= y -> forall x, 0 <= x -> a ^ x mod r = 1 -> a ^ y mod r = 1 -> a ^ Z.gcd x y mod r = 1.
Proof.
  intros Hr y Hy. pattern y. apply Z_lt_induction; [|exact Hy]. clear y Hy. intros y IH x Hx E1 E2.
  destruct (Z.le_gt_cases y 0) as [Hle|Hgt].
  - destruct (Z.eq_dec y 0) as [->|N]; [rewrite Z.gcd_0_r, Z.abs_eq by lia; auto|]. rewrite Z.pow_neg_r in E2 by lia.
    rewrite Z.mod_0_l in E2 by lia. discriminate.
  - assert (Hm := Z.mod_pos_bound x y Hgt).
    assert (G : Z.gcd x y = Z.gcd y (x mod y)) by (rewrite (Z.gcd_comm y (x mod y)), Z.gcd_mod by lia; apply Z.gcd_comm).
    rewrite G. apply IH; try lia; auto.
    rewrite (Z.div_mod x y) in E1 by lia. assert (0 <= x / y) by (apply Z.div_pos; lia).
    rewrite Z.pow_add_r in E1 by nia. rewrite Z.mul_mod, (pow_one_mod r a y (x / y)) in E1 by (auto; lia).
    rewrite Z.mul_1_l, Z.mod_mod in E1 by lia. exact E1.
Qed.

(** Lucas' test. *)
Lemma lucas p a qs : 2 < p -> a ^ (p - 1) mod p = 1 ->
  (forall r, prime r -> (r | p - 1) -> In r qs) ->
  (forall r, In r qs -> Z.gcd (a ^ ((p - 1) / r) - 1) p = 1) -> prime p.
Proof.
  intros Hp E1 Hqs Hg. destruct (prime_dec p) as [P|N]; auto. exfalso.
  destruct (not_prime_divide p ltac:(lia) N) as (r & Hr & D).
  assert (Er : a ^ (p - 1) mod r = 1).
  { assert (D2 : (r | a ^ (p - 1) - 1)).
    { apply Z.divide_trans with p; auto. exists (a ^ (p - 1) / p). rewrite (Z.div_mod (a ^ (p - 1)) p) at 1 by lia. rewrite E1. ring. }
    destruct D2 as [k Hk]. replace (a ^ (p - 1)) with (1 + k * r) by lia. rewrite Z.mod_add by lia. apply Z.mod_small. lia. }
  (* no smaller exponent gives one *)
  assert (Hmin : forall x, 0 < x < p - 1 -> a ^ x mod r <> 1).
  { intros x Hx E. pose proof (pow_gcd r a ltac:(lia) (p - 1) ltac:(lia) x ltac:(lia) E Er) as G.
    set (g := Z.gcd x (p - 1)) in *. assert (Hg0 : 0 < g).
    { assert (0 <= g) by apply Z.gcd_nonneg. assert (g <> 0); [|lia]. intros Z0. apply Z.gcd_eq_0_l in Z0. lia. }
    assert (Dx : (g | x)) by apply Z.gcd_divide_l. assert (Hgx : g <= x) by (apply Z.divide_pos_le; auto; lia).
    assert (Dp : (g | p - 1)) by apply Z.gcd_divide_r. destruct Dp as [e He].
    assert (He1 : 1 < e) by nia. destruct (prime_divisor e He1) as (s & Hs & [f Hf]). pose proof (prime_ge_2 s Hs) as Hs2.
    assert (Ds : (s | p - 1)) by (exists (f * g); rewrite He, Hf; ring). assert (Hi := Hqs s Hs Ds). apply Hg in Hi.
    assert (Eq : (p - 1) / s = g * f).
    { rewrite He, Hf. replace (f * s * g) with (g * f * s) by ring. apply Z.div_mul. lia. }
    rewrite Eq in Hi. assert (Hf0 : 0 < f) by nia.
    pose proof (pow_one_mod r a g f ltac:(lia) ltac:(lia) ltac:(lia) G) as G2.
    assert (D2 : (r | a ^ (g * f) - 1)).
    { exists (a ^ (g * f) / r). rewrite (Z.div_mod (a ^ (g * f)) r) at 1 by lia. rewrite G2. ring. }
    assert (D3 : (r | 1)) by (rewrite <- Hi; apply Z.gcd_greatest; auto).
    apply Z.divide_pos_le in D3; lia. }
  (* the powers are distinct *)
  assert (Hinj : forall i j, 0 <= i -> i < j -> j < p - 1 -> a ^ i mod r <> a ^ j mod r).
  { intros i j Hi Hij Hj E. apply (Hmin (j - i)); [lia|].
    assert (Em : (a ^ (p - 1 - i) * a ^ i) mod r = (a ^ (p - 1 - i) * a ^ j) mod r) by (rewrite Z.mul_mod, E, <- Z.mul_mod by lia; reflexivity).
    rewrite <- !Z.pow_add_r in Em by lia. replace (p - 1 - i + i) with (p - 1) in Em by lia.
    replace (p - 1 - i + j) with ((p - 1) + (j - i)) in Em by lia. rewrite Er, Z.pow_add_r in Em by lia.
    rewrite Z.mul_mod, Er, Z.mul_1_l, Z.mod_mod in Em by lia. auto. }
  (* pigeonhole *)
  set (l := map (fun i => a ^ Z.of_nat i mod r) (seq 0 (Z.to_nat (p - 1)))).
  assert (ND : NoDup l).
  { apply NoDup_nth with (d := 0). unfold l. rewrite map_length, seq_length. intros i j Hi Hj E.
    rewrite !nth_map_seq in E by auto.
    destruct (Nat.lt_trichotomy i j) as [L|[L|L]]; auto; exfalso.
    - apply (Hinj (Z.of_nat i) (Z.of_nat j)); auto; lia.
    - apply (Hinj (Z.of_nat j) (Z.of_nat i)); auto; lia. }
  assert (Inc : incl l (map Z.of_nat (seq 0 (Z.to_nat r)))).
  { intros x Hx. unfold l in Hx. apply in_map_iff in Hx. destruct Hx as (i & <- & _).
    pose proof (Z.mod_pos_bound (a ^ Z.of_nat i) r ltac:(lia)). apply in_map_iff. exists (Z.to_nat (a ^ Z.of_nat i mod r)).
    split; [lia|]. apply in_seq. lia. }
  pose proof (NoDup_incl_length ND Inc) as HL. unfold l in HL. rewrite !map_length, !seq_length in HL.
  assert (r = p - 1) by lia. subst r. destruct D as [k Hk]. assert (k = 1 \/ k <= 0 \/ 2 <= k) as [K|[K|K]] by lia; subst; nia.
Qed.

Lemma prime_small_divisors r l : prime r -> Forall prime l -> (r | fold_right Z.mul 1 l) -> In r l.
Proof.
  intros Hr. induction l as [|x l IH]; cbn; intros Hl D.
  - apply Z.divide_1_r_nonneg in D; [|pose proof (prime_ge_2 r Hr); lia]. pose proof (prime_ge_2 r Hr). lia.
  - inversion_clear Hl. apply prime_mult in D; auto. destruct D as [D|D]; [left; symmetry; apply prime_div_prime; auto|right; auto].
Qed.
Lemma lucas_check p a l : 2 < p -> Forall prime l -> fold_right Z.mul 1 l = p - 1 -> Zpow_mod a (p - 1) p = 1 ->
  forallb (fun r => Z.gcd (Zpow_mod a ((p - 1) / r) p - 1) p =? 1) l = true -> prime p.
Proof.
  intros Hp Hl E E1 Hc. rewrite Zpow_mod_correct in E1 by lia. apply (lucas p a l); auto.
  - intros r Hr D. apply prime_small_divisors; auto. rewrite E. auto.
  - intros r Hi. rewrite forallb_forall in Hc. specialize (Hc r Hi). apply Z.eqb_eq in Hc. rewrite Zpow_mod_correct in Hc by lia.
    rewrite Z.gcd_comm, <- Z.gcd_mod in Hc |- * by lia. rewrite Zminus_mod_idemp_l in Hc. exact Hc.
Qed.

Lemma prime_3 : prime 3. Proof. apply trial_prime. reflexivity. Qed.
Lemma prime_5 : prime 5. Proof. apply trial_prime. reflexivity. Qed.
Lemma prime_17 : prime 17. Proof. apply trial_prime. reflexivity. Qed.
Lemma prime_257 : prime 257. Proof. apply trial_prime. vm_compute. reflexivity. Qed.
Lemma prime_65537 : prime 65537.
Proof.
  apply (lucas_check 65537 3 (repeat 2 16)); [lia| |reflexivity|vm_compute; reflexivity|vm_compute; reflexivity].
  apply Forall_forall. intros x Hx. apply repeat_spec in Hx. subst. apply prime_2.
Qed.

Definition gold : positive := 18446744069414584321.
Lemma gold_value : Zpos gold = 2 ^ 64 - 2 ^ 32 + 1. Proof. reflexivity. Qed.
Lemma prime_gold : prime (Zpos gold).
Proof.
  apply (lucas_check (Zpos gold) 7 (repeat 2 32 ++ [3; 5; 17; 257; 65537])); [reflexivity| |reflexivity|vm_compute; reflexivity|vm_compute; reflexivity].
  apply Forall_app. split.
  - apply Forall_forall. intros x Hx. apply repeat_spec in Hx. subst. apply prime_2.
  - apply Forall_cons; [apply prime_3|]. apply Forall_cons; [apply prime_5|]. apply Forall_cons; [apply prime_17|].
    apply Forall_cons; [apply prime_257|]. apply Forall_cons; [apply prime_65537|apply Forall_nil].
Qed.
Definition Fgold : field := Fp_field gold prime_gold.
