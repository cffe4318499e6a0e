(** The quantisation error with rounded arithmetic. *)
From Coq Require Import List Arith Lia Lqa Bool ZArith QArith Qround Qabs.
From Verif Require Import ListAux M_Mle M_Tables M_Quant P_Quant.
Import ListNotations.
Local Open Scope Q_scope.

(** The rounding of [x] has relative error at most [u] (2^-24 for f32 values in the normal range). *)
Definition near (rnd : Q -> Q) (u x : Q) : Prop := Qabs (rnd x - x) <= u * Qabs x.

(** A clamped rounding of [w], near [t], is near [t] if [t] is at most [e] outside the domain. *)
Lemma clamp_near (m : Z) (t w d e : Q) : (0 <= m)%Z -> - d <= w - t <= d -> 0 <= d -> 0 <= e -> - (inject_Z m + e) <= t <= inject_Z m + e ->
  - ((1 # 2) + d + e) <= inject_Z (z_clamp (- m) m (q_round w)) - t <= (1 # 2) + d + e.
Proof.
  intros Hm Hw Hd He Ht. pose proof (q_round_bounds w) as R. unfold z_clamp. set (n := q_round w) in *.
  destruct (Z.max_spec (- m) (Z.min m n)) as [[C1 ->]|[C1 ->]]; [destruct (Z.min_spec m n) as [[C2 ->]|[C2 ->]]|].
  - rewrite Zlt_Qlt in C2. lra.
  - lra.
  - assert (m = 0 \/ n <= - m)%Z as [->|H] by lia; [change (inject_Z (- 0)) with 0; change (inject_Z 0) with 0 in Ht; lra|]. rewrite Zle_Qle, inject_Z_opp in H. rewrite inject_Z_opp. lra.
Qed.
Lemma quant_err_core rnd u s (m : Z) v over : 0 < sc_scale s -> sc_dom s = ((- m)%Z, m) -> (0 <= m)%Z -> 0 <= u -> 0 <= over ->
  Qabs v <= inject_Z m * sc_scale s + over -> near rnd u (v / sc_scale s) ->
  (forall z, (- m <= z <= m)%Z -> near rnd u (inject_Z z * sc_scale s)) ->
  exists z, quantize rnd s v = Some z /\ (- m <= z <= m)%Z /\
    Qabs (dequantize rnd s z - v) <= (1 + u) * (sc_scale s / 2 + u * Qabs v + over) + u * Qabs v.
Proof.
  intros Hs Hd Hm Hu Ho Hv Nt Nz. unfold quantize. rewrite Hd. cbn [fst snd]. destruct (Z.leb_spec (- m) m); [|lia].
  set (z := z_clamp (- m) m (q_round (rnd (v / sc_scale s)))). exists z. split; [reflexivity|]. assert (Hz : (- m <= z <= m)%Z) by (unfold z, z_clamp; lia). split; [exact Hz|].
  specialize (Nz z Hz). set (sc := sc_scale s) in *. unfold dequantize. fold sc. set (t := v / sc) in *.
  assert (Ev : v == t * sc) by (unfold t; rewrite Qmult_Qdiv by lra; reflexivity).
  assert (Ea : Qabs v == Qabs t * sc) by (rewrite Ev, Qabs_Qmult, (Qabs_pos sc) by lra; reflexivity).
  unfold near in *. set (e := over / sc). assert (Ee : over == e * sc) by (unfold e; rewrite Qmult_Qdiv by lra; reflexivity).
  assert (He : 0 <= e) by (unfold e; apply Qle_shift_div_l; lra).
  assert (Ht : Qabs t <= inject_Z m + e).
  { rewrite Ea, Ee in Hv. apply (Qmult_le_r _ _ sc Hs). setoid_replace ((inject_Z m + e) * sc) with (inject_Z m * sc + e * sc) by ring. exact Hv. }
  apply Qabs_Qle_condition in Nt. apply Qabs_Qle_condition in Ht.
  assert (Hp : 0 <= u * Qabs t) by (apply Qmult_le_0_compat; [exact Hu|apply Qabs_nonneg]).
  pose proof (clamp_near m t (rnd t) (u * Qabs t) e Hm Nt Hp He Ht) as C. fold z in C. clearbody z t e. set (n := inject_Z z) in *. clearbody n.
  assert (X : Qabs (n * sc - v) <= sc / 2 + u * Qabs v + over).
  { rewrite Ea, Ee, Ev. setoid_replace (n * sc - t * sc) with ((n - t) * sc) by ring. rewrite Qabs_Qmult, (Qabs_pos sc) by lra.
    setoid_replace (sc / 2 + u * (Qabs t * sc) + e * sc) with (((1 # 2) + u * Qabs t + e) * sc) by field. apply Qmult_le_compat_r; [|lra]. apply Qabs_Qle_condition. exact C. }
  set (d := rnd (n * sc)) in *. clearbody d. set (X0 := sc / 2 + u * Qabs v + over) in *.
  assert (Y : Qabs (n * sc) <= Qabs v + X0).
  { setoid_replace (n * sc) with (v + (n * sc - v)) at 1 by ring. eapply Qle_trans; [apply Qabs_triangle|]. lra. }
  assert (Z1 : u * Qabs (n * sc) <= u * (Qabs v + X0)) by (rewrite !(Qmult_comm u); apply Qmult_le_compat_r; auto).
  setoid_replace (d - v) with ((d - n * sc) + (n * sc - v)) by ring. eapply Qle_trans; [apply Qabs_triangle|].
  setoid_replace ((1 + u) * X0 + u * Qabs v) with (u * (Qabs v + X0) + X0) by ring. lra.
Qed.
Lemma quantize_error_rnd rnd u B a v : (2 <= B)%nat -> 0 < a -> Qabs v <= a -> 0 <= u -> u <= 1 # 4 ->
  let s := from_absolute_max rnd B a None in
  near rnd u (Qabs a - - Qabs a) -> near rnd u (rnd (Qabs a - - Qabs a) / inject_Z (q_max B - q_min B)) -> near rnd u (v / sc_scale s) ->
  (forall z, (q_min B <= z <= q_max B)%Z -> near rnd u (inject_Z z * sc_scale s)) ->
  exists z, quantize rnd s v = Some z /\ (q_min B <= z <= q_max B)%Z /\ Qabs (dequantize rnd s z - v) <= ((1 # 2) + 10 * u * inject_Z (q_max B)) * sc_scale s.
Proof.
  intros HB Ha Hv Hu Hu4 s N1 N2 N3 N4.
  assert (Hmx : (1 <= q_max B)%Z).
  { unfold q_max. assert (2 ^ 1 <= 2 ^ (Z.of_nat B - 1))%Z by (apply Z.pow_le_mono_r; lia). lia. }
  assert (Hmn : q_min B = (- q_max B)%Z) by (unfold q_min, q_max; lia).
  assert (Hdom : sc_dom s = ((- q_max B)%Z, q_max B)) by (unfold s; cbn; rewrite Hmn; reflexivity).
  assert (Hsc : sc_scale s = rnd (rnd (Qabs a - - Qabs a) / inject_Z (q_max B - q_min B))) by reflexivity.
  set (M := inject_Z (q_max B)) in *.
  assert (HM : 1 <= M) by (change 1 with (inject_Z 1); unfold M; rewrite <- Zle_Qle; lia).
  assert (E2 : inject_Z (q_max B - q_min B) == 2 * M) by (rewrite Hmn; unfold M; rewrite <- (inject_Z_mult 2); apply inject_Z_injective; lia).
  unfold near in N1, N2. rewrite <- Hsc in N2. set (sc := sc_scale s) in *. set (b := rnd (Qabs a - - Qabs a)) in *. set (w := b / inject_Z (q_max B - q_min B)) in *.
  assert (Ew : w * (2 * M) == b) by (unfold w; rewrite E2; field; lra). clearbody w.
  assert (Ea : Qabs a - - Qabs a == 2 * a) by (rewrite Qabs_pos by lra; ring). rewrite Ea in N1. rewrite (Qabs_pos (2 * a)) in N1 by lra. clear Hsc. clearbody b.
  apply Qabs_Qle_condition in N1. assert (Hb : 2 * a * (1 - u) <= b) by (clear - N1; lra).
  assert (Hbp : 0 < b) by (clear - Hb Ha Hu4; nra).
  assert (Hwp : 0 < w) by (clear - Ew Hbp HM; nra). rewrite (Qabs_pos w) in N2 by lra. apply Qabs_Qle_condition in N2.
  assert (Hsw : w * (1 - u) <= sc) by (clear - N2; lra). assert (Hsp : 0 < sc) by (clear - Hsw Hwp Hu4; nra).
  assert (Hms : a * (1 - u) * (1 - u) <= M * sc).
  { assert (A1 : a * (1 - u) <= M * w) by (clear - Ew Hb; lra). assert (A2 : a * (1 - u) * (1 - u) <= M * w * (1 - u)) by (apply Qmult_le_compat_r; [exact A1|lra]).
    assert (A3 : M * (w * (1 - u)) <= M * sc) by (rewrite !(Qmult_comm M); apply Qmult_le_compat_r; [exact Hsw|lra]). clear - A2 A3. lra. }
  assert (Hov : a <= M * sc + 2 * u * a) by (clear - Hms Ha Hu; nra).
  assert (Ha2 : a <= 2 * (M * sc)) by (clear - Hov Hu4 Ha; nra).
  rewrite Hmn in *. destruct (quant_err_core rnd u s (q_max B) v (2 * u * a) Hsp Hdom ltac:(lia) Hu ltac:(clear - Hu Ha; nra) ltac:(fold sc; fold M; lra) N3 N4) as (z & Q1 & Q2 & Q3).
  exists z. split; [exact Q1|]. split; [exact Q2|]. eapply Qle_trans; [exact Q3|]. fold sc. pose proof (Qabs_nonneg v) as Vn. set (V := Qabs v) in *. clearbody V sc M.
  assert (UV : u * V <= u * a) by (rewrite !(Qmult_comm u); apply Qmult_le_compat_r; auto).
  assert (UA : u * a <= u * (2 * (M * sc))) by (rewrite !(Qmult_comm u); apply Qmult_le_compat_r; auto).
  assert (US : u * sc <= u * (M * sc)) by (rewrite !(Qmult_comm u); apply Qmult_le_compat_r; auto; clear - HM Hsp; nra).
  assert (UUA : u * (u * a) <= (1 # 4) * (u * a)) by (apply Qmult_le_compat_r; auto; clear - Hu Ha; nra).
  assert (UUV : u * (u * V) <= (1 # 4) * (u * a)).
  { assert (u * (u * V) <= (1 # 4) * (u * V)) by (apply Qmult_le_compat_r; auto; clear - Hu Vn; nra). lra. }
  setoid_replace ((1 + u) * (sc / 2 + u * V + 2 * u * a) + u * V) with ((1 # 2) * sc + (1 # 2) * (u * sc) + 2 * (u * V) + u * (u * V) + 2 * (u * a) + 2 * (u * (u * a))) by field.
  setoid_replace (((1 # 2) + 10 * u * M) * sc) with ((1 # 2) * sc + 10 * (u * (M * sc))) by ring.
  set (P1 := u * (M * sc)) in *. setoid_replace (u * (2 * (M * sc))) with (2 * P1) in UA by (unfold P1; ring). clearbody P1. set (P2 := u * a) in *. set (P3 := u * V) in *. set (P4 := u * sc) in *.
  set (P5 := u * P2) in *. set (P6 := u * P3) in *. clearbody P2 P3 P4 P5 P6. lra.
Qed.
