(** The common interface of the two codes, and its two instances. *)
From Coq Require Import List Arith Lia Bool Field.
From Verif Require Import ListAux FieldDef MleMath M_Mle M_Tensor M_Fft M_Merkle M_Code P_Fft P_Hash P_Layers2 P_Tensor P_Graph4 P_Mle P_Verifier P_Pad2 P_Merkle2 P_LogUp3 P_Code P_Code2 P_Code3 P_Code4.
Import ListNotations.

Section CodeOk.
Context {K : field}.
Local Open Scope F_scope.
Add Field Kf_co : (fth K).

Definition mbr (sc : @scheme K) (n : nat) (c : list K) : list K := if sc_even_odd sc then br n c else c.
(** [wd n c] is the index-reversed codeword of the coefficient vector [c] of length 2^n. *)
Record code_ok (sc : @scheme K) (wd : nat -> list K -> list K) : Prop := {
  co_len : forall n c, (sc_msg sc <= n <= sc_max sc)%nat -> length c = (2 ^ n)%nat -> length (wd n c) = (2 ^ (n + sc_rate sc))%nat;
  co_enc : forall n c, (sc_msg sc <= n <= sc_max sc)%nat -> length c = (2 ^ n)%nat ->
    (cw <- sc_encode sc (mbr sc n c) ;; reverse_index_bits cw) = Some (wd n c);
  co_small : forall c, length c = (2 ^ sc_msg sc)%nat ->
    (cw <- sc_encode_small sc (mbr sc (sc_msg sc) c) ;; reverse_index_bits cw) = Some (wd (sc_msg sc) c);
  co_fold : forall n a b c, (sc_msg sc <= n < sc_max sc)%nat -> length a = (2 ^ n)%nat -> length b = (2 ^ n)%nat ->
    one_round (sc_pcoef sc) (n + sc_rate sc) (wd (S n) (a ++ b)) c = Some (wd n (cfold a b c));
  co_coef : forall l i, (l < sc_max sc + sc_rate sc)%nat -> (i < 2 ^ l)%nat -> sc_vcoef sc l i = sc_pcoef sc l i }.

Lemma rs_code_ok generator32 GENERATOR rate msg nq setup_max max :
  exp_power_of_2 generator32 31 = - (1) -> GENERATOR <> 0 -> (1 + 1 : K) <> 0 ->
  (msg <= max)%nat -> (max <= setup_max)%nat -> (setup_max + rate <= 32)%nat ->
  exists pp vp, rs_setup_trim generator32 GENERATOR rate msg setup_max max = Some (pp, vp) /\ rs_full pp = max /\
    code_ok (rs_scheme GENERATOR rate msg nq pp vp) (fun n c => br (n + rate) (rs_word generator32 GENERATOR rate max n (br n c))).
Proof.
  intros Hg Hn H2 Hm Hx Hl. exists (rs_pp generator32 GENERATOR rate max), (rs_vp generator32 GENERATOR rate msg max).
  assert (Lw : forall n c, length (rs_word generator32 GENERATOR rate max n c) = (2 ^ (n + rate))%nat) by (intros n c; unfold rs_word; rewrite map_length, seq_length; f_equal; lia).
  split; [now apply setup_trim_ok|]. split; [reflexivity|]. constructor; cbn [sc_rate sc_msg sc_nq sc_max sc_even_odd sc_encode sc_encode_small sc_pcoef sc_vcoef rs_scheme rs_full rs_pp]; unfold mbr; cbn [sc_even_odd rs_scheme].
  - intros n c Hr Lc. now apply br_length.
  - intros n c Hr Lc. rewrite (rs_encode_ok generator32 GENERATOR Hg rate msg setup_max max Hm Hx Hl n) by (try apply br_length; auto). cbn [obind]. now apply reverse_ok.
  - intros c Lc. rewrite (rs_encode_small_ok generator32 GENERATOR Hg rate msg setup_max max Hm Hx Hl msg) by (try apply br_length; auto). cbn [obind]. now apply reverse_ok.
  - intros n a b c Hr La Lb. rewrite br_app by assumption. pose proof (rs_fold generator32 GENERATOR Hg Hn H2 rate msg setup_max max Hm Hx Hl n (br n a) (br n b) c Hr) as E.
    rewrite !br_length in E by assumption. specialize (E eq_refl eq_refl). replace (n + rate)%nat with (rate + n)%nat by lia. replace (S n + rate)%nat with (rate + S n)%nat by lia.
    rewrite E. do 2 f_equal. f_equal. unfold cfold. now rewrite br_zipw.
  - intros l i Hl' Hi. now apply (rs_vcoef_ok generator32 GENERATOR Hg Hn H2 rate msg setup_max max Hm Hx Hl).
Qed.
Lemma bc_code_ok (flat : nat -> K) rate msg nq max table wtable :
  bc_tables flat (max + rate) = Some (table, wtable) ->
  code_ok (bc_scheme flat rate msg nq max table wtable) (fun n c => br (n + rate) (bw flat rate msg (n - msg) c)).
Proof.
  intros Ht. assert (Lw : forall n c, (msg <= n)%nat -> length (bw flat rate msg (n - msg) c) = (2 ^ (n + rate))%nat) by (intros n c H; rewrite bw_length; f_equal; lia).
  constructor; cbn [sc_rate sc_msg sc_nq sc_max sc_even_odd sc_encode sc_encode_small sc_pcoef sc_vcoef bc_scheme]; unfold mbr; cbn [sc_even_odd bc_scheme].
  - intros n c Hr Lc. apply br_length, Lw. lia.
  - intros n c Hr Lc. rewrite (bc_encode_ok flat rate msg max table wtable Ht (n - msg)) by (try replace (msg + (n - msg))%nat with n by lia; auto; lia). cbn [obind]. apply reverse_ok, Lw. lia.
  - intros c Lc. rewrite (bc_encode_small_ok flat rate msg) by assumption. cbn [obind]. rewrite Nat.sub_diag. apply reverse_ok. specialize (Lw msg c). rewrite Nat.sub_diag in Lw. apply Lw. lia.
  - intros n a b c Hr La Lb. pose proof (bc_fold_ok flat rate msg max table wtable Ht (n - msg) a b c) as E. replace (msg + (n - msg))%nat with n in E by lia.
    specialize (E ltac:(lia) La Lb). replace (S n - msg)%nat with (S (n - msg)) by lia. replace (msg + S (n - msg) + rate)%nat with (S n + rate)%nat in E by lia. exact E.
  - intros l i Hl' Hi. now apply (bc_vcoef_ok flat rate max table wtable).
Qed.
End CodeOk.
