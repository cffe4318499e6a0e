(** Property C68: the attention layer is causal attention. *)
From Coq Require Import List Arith Lia Bool ZArith.
From Verif Require Import ListAux FieldDef M_Mle M_Tensor P_Tensor M_Layers M_Softmax P_Softmax M_Mha P_Mha P_Mha2.
Import ListNotations.

(** ** Inputs for the examples: three and five positions, two heads of dimension two; the first two positions agree *)
Definition xexp (j : Z) : Z := nth (Z.to_nat j) [100; 75; 50; 25; 10]%Z 0%Z.
Definition xlse (l : list Z) : Z := if forallb (Z.eqb 0) l then 131072%Z else 65536%Z.
Definition c0 : sm_ctx := mkSm 327680 65536 0 0.
Definition c1 : sm_ctx := mkSm 131072 65536 1 2.
Definition c2 : sm_ctx := mkSm 196608 65536 0 0.
Definition tq : ten Z := mkTen [3; 4] [1; 2; 0; 1; 1; 1; 2; -1; 0; 3; 1; 1]%Z.
Definition tk : ten Z := mkTen [3; 4] [2; 0; 1; 3; 1; 2; 1; 2; 1; 1; 0; 2]%Z.
Definition tv : ten Z := mkTen [3; 4] [3; -1; 4; 1; 5; 9; -2; 6; 5; 3; 5; 8]%Z.
Definition uq : ten Z := mkTen [5; 4] ([1; 2; 0; 1; 1; 1; 2; -1] ++ repeat 7 12)%Z.
Definition uk : ten Z := mkTen [5; 4] ([2; 0; 1; 3; 1; 2; 1; 2] ++ repeat (-3) 12)%Z.
Definition uv : ten Z := mkTen [5; 4] ([3; -1; 4; 1; 5; 9; -2; 6] ++ repeat 11 12)%Z.
Definition res (c : sm_ctx) (q k v : ten Z) : ten Z := match mha_evaluate xexp xlse c 2 2 q k v with Some o => snd o | None => q end.

(** Whenever the layer returns, for any number of positions, heads and any head dimension, the entry at a position is the sum, over the positions up to it, of the weight of that position times its value; the weights are the table values of the scores of those positions only, shifted by a function of those scores; provided that the mask value loses no bit. *)
Theorem C68_causal :
  forall (expf : Z -> Z) (lse : list Z -> Z) (c : sm_ctx) (tv n nh hd : nat) (q k v : ten Z),
  0 < n ->
  0 < nh ->
  sm_tv c = Some tv ->
  mask_fits c tv ->
  wft q ->
  wft k ->
  wft v ->
  sh q = [n; nh * hd] ->
  sh k = [n; nh * hd] ->
  sh v = [n; nh * hd] ->
  forall (s : ten Z) (e : list Z * list Z * list sm_cell) (o y out : ten Z),
  mha_evaluate expf lse c nh hd q k v = Some (s, e, o, y, out) ->
  sh out = [n; nh * hd] /\
  wft out /\
  (forall i h d : nat,
   i < n -> h < nh -> d < hd -> at_head nh hd out i h d = attention expf lse c tv nh hd q k v i h d).
Proof. exact @mha_causal. Qed.
Print Assumptions C68_causal.
Example C68_causal_ex : sm_tv c0 = Some 3 /\ mask_fits c0 3 /\ sm_tv c1 = Some 1 /\ mask_fits c1 1 /\ wft tq /\ wft tk /\ wft tv /\
  dat (res c0 tq tk tv) = [300; -100; 400; 100; 525; 625; 50; 500; 425; 705; 325; 575]%Z /\
  map (fun h => attention xexp xlse c0 3 2 2 tq tk tv 2 h 0) [0; 1] = [425; 325]%Z /\ score 2 2 tq tk 1 1 0 = (-1)%Z.
Proof. split; [reflexivity|]. split; [left; reflexivity|]. split; [reflexivity|]. split; [right; split; [cbn; lia|vm_compute; discriminate]|]. repeat split. Qed.

(** The layer returns for all tensors of these shapes. *)
Theorem C68_total :
  forall (expf : Z -> Z) (lse : list Z -> Z) (c : sm_ctx) (tv n nh hd : nat) (q k v : ten Z),
  0 < n ->
  0 < nh ->
  sm_tv c = Some tv ->
  wft q ->
  wft k ->
  wft v ->
  sh q = [n; nh * hd] ->
  sh k = [n; nh * hd] ->
  sh v = [n; nh * hd] ->
  exists (s : ten Z) (e : list Z * list Z * list sm_cell) (o y out : ten Z),
    mha_evaluate expf lse c nh hd q k v = Some (s, e, o, y, out).
Proof. exact @mha_total. Qed.
Print Assumptions C68_total.
Example C68_total_ex : mha_evaluate xexp xlse c0 2 2 tq tk tv <> None.
Proof. intros H. destruct (C68_total xexp xlse c0 3 3 2 2 tq tk tv) as (s & e & o & y & out & E); [lia|lia|reflexivity..|]. rewrite E in H. discriminate H. Qed.

(** If two inputs, even of different lengths, agree on the first positions, then so do the outputs: no position sees a later one, nor the padding after the last. *)
Theorem C68_prefix :
  forall (expf : Z -> Z) (lse : list Z -> Z) (c : sm_ctx) (tv n n' nh hd t : nat) (q k v q' k' v' : ten Z),
  0 < nh ->
  sm_tv c = Some tv ->
  mask_fits c tv ->
  0 < t ->
  t <= n ->
  t <= n' ->
  wft q ->
  wft k ->
  wft v ->
  sh q = [n; nh * hd] ->
  sh k = [n; nh * hd] ->
  sh v = [n; nh * hd] ->
  wft q' ->
  wft k' ->
  wft v' ->
  sh q' = [n'; nh * hd] ->
  sh k' = [n'; nh * hd] ->
  sh v' = [n'; nh * hd] ->
  (forall a b : ten Z,
   In (a, b) [(q, q'); (k, k'); (v, v')] -> firstn (t * (nh * hd)) (dat a) = firstn (t * (nh * hd)) (dat b)) ->
  forall (s : ten Z) (e : list Z * list Z * list sm_cell) (o y out s' : ten Z)
    (e' : list Z * list Z * list sm_cell) (o' y' out' : ten Z),
  mha_evaluate expf lse c nh hd q k v = Some (s, e, o, y, out) ->
  mha_evaluate expf lse c nh hd q' k' v' = Some (s', e', o', y', out') ->
  firstn (t * (nh * hd)) (dat out) = firstn (t * (nh * hd)) (dat out').
Proof. exact @mha_prefix. Qed.
Print Assumptions C68_prefix.
Example C68_prefix_ex : (forall a b, In (a, b) [(tq, uq); (tk, uk); (tv, uv)] -> firstn (2 * (2 * 2)) (dat a) = firstn (2 * (2 * 2)) (dat b)) /\ wft uq /\ wft uk /\ wft uv /\
  firstn 8 (dat (res c0 uq uk uv)) = firstn 8 (dat (res c0 tq tk tv)) /\ dat (res c0 uq uk uv) <> firstn 12 (dat (res c0 tq tk tv)).
Proof. split; [intros a b [H|[H|[H|[]]]]; injection H as <- <-; reflexivity|]. repeat split. vm_compute. discriminate. Qed.

(** Without zero chunks and with a mask value that is a power of two, the first position sees the second. *)
Theorem C68_refuted : exists expf lse c tv n nh hd q k v v' s e o y out s' e' o' y' out', sm_tv c = Some tv /\ sh v = [n; nh * hd] /\ sh v' = sh v /\ wft v /\ wft v' /\
  firstn (1 * (nh * hd)) (dat v) = firstn (1 * (nh * hd)) (dat v') /\
  mha_evaluate expf lse c nh hd q k v = Some (s, e, o, y, out) /\ mha_evaluate expf lse c nh hd q k v' = Some (s', e', o', y', out') /\
  firstn (1 * (nh * hd)) (dat out) <> firstn (1 * (nh * hd)) (dat out').
Proof.
  exists xexp, xlse, c2, 2, 3, 2, 2, tq, tk, tv, (mkTen [3; 4] [3; -1; 4; 1; 0; 0; 0; 0; 5; 3; 5; 8]%Z). do 10 eexists.
  split; [reflexivity|]. split; [reflexivity|]. split; [reflexivity|]. split; [reflexivity|]. split; [reflexivity|]. split; [reflexivity|].
  split; [vm_compute; reflexivity|]. split; [vm_compute; reflexivity|]. vm_compute. discriminate.
Qed.
Print Assumptions C68_refuted.

