(** Proofs about M_AddPos, part 4: the challenges of the positional layer depend on the whole of both claims. *)
From Coq Require Import List Arith Lia Bool ZArith.
From Verif Require Import ListAux FieldDef M_Mle M_Sumcheck M_SamePoly M_Tensor M_Layers M_AddPos.
Import ListNotations.

Section P.
Context {K : field}.
Local Open Scope F_scope.

Lemma ev_eq_dec (a b : @ev K) : {a = b} + {a <> b}.
Proof. decide equality; [apply (list_eq_dec Z.eq_dec)|]. destruct (feqb x x0) eqn:E; [left; now apply feqb_spec|right; now apply feqb_false]. Qed.

Lemma absorb_inj (h h' : @hist K) xs ys : length xs = length ys -> absorb h xs = absorb h' ys -> h = h' /\ xs = ys.
Proof.
  unfold absorb. intros L E.
  assert (E1 : rev (map EvFelt xs) = rev (map EvFelt ys) /\ h = h').
  { set (a := rev (map EvFelt xs)) in *. set (b := rev (map EvFelt ys)) in *. assert (La : length a = length b) by (unfold a, b; rewrite !rev_length, !map_length; exact L).
    clearbody a b. revert b La E. induction a as [|x a IH]; intros [|y b] La E; cbn in La; try lia; [split; [reflexivity|exact E]|].
    injection E as -> E. destruct (IH b ltac:(lia) E) as (-> & ->). split; reflexivity. }
  destruct E1 as (E1 & ->). split; [reflexivity|]. apply (f_equal (@rev _)) in E1. rewrite !rev_involutive in E1.
  clear E. revert ys L E1. induction xs as [|x xs IH]; intros [|y ys] L E; cbn in L; try lia; [reflexivity|]. injection E as -> E. f_equal. apply IH; [lia|exact E].
Qed.

(** Different claims can get different coordinates: nothing of a claim is left out of the transcript. *)
Lemma pos_binds n (out sub out' sub' : @claim K) h : (0 < n)%nat -> length (cl_point out) = length (cl_point out') -> length (cl_point sub) = length (cl_point sub') ->
  out <> out' \/ sub <> sub' -> exists T, fst (pos_coords T n out sub h) <> fst (pos_coords T n out' sub' h).
Proof.
  intros Hn Lo Ls Hd. set (H1 := absorb (absorb h (cl_point out ++ [cl_eval out])) (cl_point sub ++ [cl_eval sub])).
  exists (fun x => if list_eq_dec ev_eq_dec x H1 then f1 else f0). unfold pos_coords. fold H1.
  set (H2 := absorb (absorb h (cl_point out' ++ [cl_eval out'])) (cl_point sub' ++ [cl_eval sub'])).
  assert (Hne : H2 <> H1).
  { intros E. unfold H1, H2 in E. apply absorb_inj in E; [|rewrite !app_length; cbn; lia]. destruct E as (E & Es). apply absorb_inj in E; [|rewrite !app_length; cbn; lia]. destruct E as (_ & Eo).
    apply app_inj_tail in Es. apply app_inj_tail in Eo. destruct out, out', sub, sub'. cbn in *. destruct Es as (-> & ->), Eo as (-> & ->). destruct Hd as [C|C]; apply C; reflexivity. }
  destruct n as [|n]; [lia|]. cbn [read_challenges]. destruct (read_challenges _ n (EvSample :: H1)) as [r1 h1]. destruct (read_challenges _ n (EvSample :: H2)) as [r2 h2]. cbn [fst].
  destruct (list_eq_dec ev_eq_dec H1 H1) as [_|C]; [|contradiction C; reflexivity]. destruct (list_eq_dec ev_eq_dec H2 H1) as [C|_]; [contradiction|].
  intros E. injection E as E _. exact (f1_neq_0 E).
Qed.
End P.
