(** Properties C72 (the inputs of a request) and C73 (a worker's answer to a request). *)
From Coq Require Import List Arith Lia Bool ZArith QArith Qabs.
From Verif Require Import ListAux M_Mle M_Tensor M_Tables M_Quant M_Input P_Quant P_Tensor P_Tensor2 P_Input.
Import ListNotations.
Local Open Scope nat_scope.

(** ** The request of the examples: two rows of three values, a model that pads three values to four *)
Definition two : input := [[1; -1; 1 # 2]; [0; 1 # 4; -(3 # 4)]]%Q.
Definition sf8 : scaling := from_absolute_max exact 8 1 None.
(* A model that refuses inputs whose first value is zero; a proof is the trace itself. *)
Definition xrun (ts : list (ten Z)) : option (option (list Z)) :=
  match ts with [t] => Some (match dat t with 0%Z :: _ => None | d => Some d end) | _ => None end.

(** An input file, reader or string is accepted exactly when it decodes to at least one row and every value is between -1 and 1. *)
Theorem C72_accepts :
  forall (S : Type) (decode : S -> option input) (s : S) (i : input),
  from_source decode s = Some i <->
  decode s = Some i /\ i <> [] /\ Forall (Forall (fun x : Q => (-1 <= x <= 1)%Q)) i.
Proof. exact @from_source_ok. Qed.
Print Assumptions C72_accepts.
Example C72_accepts_ex : from_source (fun x : input => Some x) two = Some two /\ from_source (fun x : input => Some x) [[2 # 1]]%Q = None.
Proof. split; vm_compute; reflexivity. Qed.

(** Whether or not an input was validated, its quantised rows have the same lengths and every element is the quantisation of its value and lies in the domain of the scaling factor. *)
Theorem C72_elements :
  forall (rnd : Q -> Q) (sf : scaling) (md : list scaling) (i : input),
  (fst (sc_dom sf) <= snd (sc_dom sf))%Z ->
  exists e : list (list Z),
    to_elements rnd (sf :: md) i = Some e /\
    Forall2
      (Forall2
         (fun (x : Q) (z : Z) => quantize rnd sf x = Some z /\ (fst (sc_dom sf) <= z <= snd (sc_dom sf))%Z)) i e.
Proof. exact @to_elements_range. Qed.
Print Assumptions C72_elements.
Example C72_elements_ex : to_elements exact [sf8] [[1; -1; 1 # 2]; [5; -7]]%Q = Some [[127; -127; 64]; [127; -127]]%Z.
Proof. vm_compute. reflexivity. Qed.

(** With exact arithmetic and a scaling factor that covers the accepted range, every element of an accepted input is within half a step of its value. *)
Theorem C72_error :
  forall (S0 : Type) (decode : S0 -> option input) (s : S0) (B : nat) (a : Q) (md : list scaling) (i : input),
  2 <= B ->
  (1 <= a)%Q ->
  from_source decode s = Some i ->
  let sf := from_absolute_max exact B a None in
  exists e : list (list Z),
    to_elements exact (sf :: md) i = Some e /\
    Forall2
      (Forall2
         (fun (x : Q) (z : Z) =>
          (q_min B <= z <= q_max B)%Z /\ (Qabs (dequantize exact sf z - x) <= sc_scale sf / 2)%Q)) i e.
Proof. exact @to_elements_error. Qed.
Print Assumptions C72_error.
Example C72_error_ex : from_source (fun x : input => Some x) two = Some two /\ to_elements exact [sf8] two = Some [[127; -127; 64]; [0; 32; -95]]%Z.
Proof. split; vm_compute; reflexivity. Qed.

(** A selection of rows returns the rows of the given indices, in their order, repeated where an index is repeated; no selection is the selection of every row. *)
Theorem C72_filter :
  forall (i : input) (sel : option (list nat)) (j : input),
  filter_rows i sel = Some j <->
  Forall2 (fun (k : nat) (row : list Q) => nth_error i k = Some row)
    match sel with
    | Some ix => ix
    | None => seq 0 (length i)
    end j.
Proof. exact @filter_rows_spec. Qed.
Print Assumptions C72_filter.
Example C72_filter_ex : filter_rows two (Some [1; 0; 1]) = Some [[0; 1 # 4; -(3 # 4)]; [1; -1; 1 # 2]; [0; 1 # 4; -(3 # 4)]]%Q /\ filter_rows two None = Some two.
Proof. split; reflexivity. Qed.

(** It answers whenever every index is in range, with one row for each index and only rows of the input. *)
Theorem C72_filter_total :
  forall (i : input) (ix : list nat),
  Forall (fun k : nat => k < length i) ix ->
  exists j : input, filter_rows i (Some ix) = Some j /\ length j = length ix /\ incl j i.
Proof. exact @filter_rows_total. Qed.
Print Assumptions C72_filter_total.

(** It panics if any index is out of range. *)
Theorem C72_filter_panics :
  forall (i : input) (ix : list nat), Exists (fun k : nat => length i <= k) ix -> filter_rows i (Some ix) = None.
Proof. exact @filter_rows_panics. Qed.
Print Assumptions C72_filter_panics.
Example C72_filter_panics_ex : Exists (fun k => length two <= k) [0; 2].
Proof. apply Exists_cons_tl, Exists_cons_hd. cbn. lia. Qed.

(** A non-empty selection from a valid input is valid. *)
Theorem C72_filter_valid :
  forall (i : input) (ix : list nat) (j : input),
  validate i = true -> ix <> [] -> filter_rows i (Some ix) = Some j -> validate j = true.
Proof. exact @filter_keeps_valid. Qed.
Print Assumptions C72_filter_valid.
Example C72_filter_valid_ex : validate two = true /\ filter_rows two (Some [1]) = Some [[0; 1 # 4; -(3 # 4)]]%Q.
Proof. split; reflexivity. Qed.

(** The empty selection is not refused, and gives an input that validation refuses. *)
Theorem C72_filter_refuted :
  forall i : input, filter_rows i (Some []) = Some [] /\ validate [] = false.
Proof. exact @filter_empty_invalid. Qed.
Print Assumptions C72_filter_refuted.

(** Flat inputs of the right lengths give one tensor for each input of the model: of the shape the model expects, with the data at its unpadded positions and zero elsewhere. *)
Theorem C72_load :
  forall (A : Type) (zero : A) (us ss : list (list nat)) (fs : list (list A)),
  Forall2 (Forall2 le) us ss ->
  Forall (Forall (lt 0)) us ->
  Forall2 (fun (f : list A) (u : list nat) => length f = fold_right Nat.mul 1 u) fs us ->
  exists ts : list (ten A),
    load_input_flat zero us ss fs = Some ts /\
    length ts = length ss /\
    (forall (k : nat) (u : list nat) (f : list A) (s : list nat) (t : ten A),
     nth_error us k = Some u ->
     nth_error fs k = Some f ->
     nth_error ss k = Some s -> nth_error ts k = Some t -> padded_with zero {| sh := u; dat := f |} s t).
Proof. exact @load_ok. Qed.
Print Assumptions C72_load.
Example C72_load_ex : load_input_flat 0%Z [[2; 3]] [[2; 4]] [[1; 2; 3; 4; 5; 6]%Z] = Some [mkTen [2; 4] [1; 2; 3; 0; 4; 5; 6; 0]%Z].
Proof. vm_compute. reflexivity. Qed.

(** A flat input of any other length fails. *)
Theorem C72_load_length :
  forall (A : Type) (zero : A) (us ss : list (list nat)) (fs : list (list A)) (k : nat) 
    (f : list A) (u : list nat),
  nth_error fs k = Some f ->
  nth_error us k = Some u -> length f <> fold_right Nat.mul 1 u -> load_input_flat zero us ss fs = None.
Proof. exact @load_wrong_length. Qed.
Print Assumptions C72_load_length.
Example C72_load_length_ex : nth_error [[1; 2]%Z] 0 = Some [1; 2]%Z /\ nth_error [[3]] 0 = Some [3] /\ length [1; 2]%Z <> fold_right Nat.mul 1 [3].
Proof. split; [reflexivity|]. split; [reflexivity|]. cbn. lia. Qed.

(** Too few flat inputs are an error. *)
Theorem C72_load_count :
  forall (A : Type) (zero : A) (us ss : list (list nat)) (fs : list (list A)),
  Nat.min (length fs) (length us) <> length ss -> load_input_flat zero us ss fs = None.
Proof. exact @load_count. Qed.
Print Assumptions C72_load_count.
Example C72_load_count_ex : Nat.min (length [[1; 2]%Z]) (length [[2]; [2]]) <> length [[2]; [2]].
Proof. cbn. lia. Qed.

(** Too many are not: whatever the surplus inputs are, they are dropped and the answer is the one without them. *)
Theorem C72_extra_refuted :
  forall (A : Type) (zero : A) (us ss : list (list nat)) (fs extra : list (list A)),
  length fs = length us -> load_input_flat zero us ss (fs ++ extra) = load_input_flat zero us ss fs.
Proof. exact @load_extra. Qed.
Print Assumptions C72_extra_refuted.
Example C72_extra_refuted_ex : load_input_flat 0%Z [[2]] [[2]] ([[1; 2]] ++ [[9; 9; 9]])%Z = Some [mkTen [2] [1; 2]%Z].
Proof. vm_compute. reflexivity. Qed.

(** A worker answers a request exactly when every row is loaded, run without a panic and, where its inference succeeds, proved; the answer is the proofs of the rows whose inference succeeds, in order. *)
Theorem C73_answer :
  forall (Tr Pr : Type) (us ss : list (list nat)) (run : list (ten Z) -> option (option Tr))
    (prove : Tr -> option Pr) (rnd : Q -> Q) (sf : scaling) (md : list scaling) (i : input) 
    (proofs : list Pr),
  answer us ss run prove rnd (sf :: md) i = Some proofs <->
  (exists outs : list (option Pr),
     Forall2 (row_outcome us ss run prove rnd sf) i outs /\ proofs = proofs_in outs).
Proof. exact @answer_iff. Qed.
Print Assumptions C73_answer.
Example C73_answer_ex : answer [[3]] [[4]] xrun (fun p => Some p) exact [sf8] two = Some [[127; -127; 64; 0]%Z].
Proof. vm_compute. reflexivity. Qed.

(** If no inference is an error, the answer has one proof for each row, in order. *)
Theorem C73_all :
  forall (Tr Pr : Type) (us ss : list (list nat)) (run : list (ten Z) -> option (option Tr))
    (prove : Tr -> option Pr) (rnd : Q -> Q) (sf : scaling) (md : list scaling) (i : input) 
    (proofs : list Pr),
  answer us ss run prove rnd (sf :: md) i = Some proofs ->
  Forall (fun row : list Q => ~ row_outcome us ss run prove rnd sf row None) i ->
  Forall2 (fun (row : list Q) (pf : Pr) => row_outcome us ss run prove rnd sf row (Some pf)) i proofs.
Proof. exact @answer_all. Qed.
Print Assumptions C73_all.
Example C73_all_ex : answer [[3]] [[4]] xrun (fun p => Some p) exact [sf8] [[1; 0; 0]; [-1; 0; 1]]%Q = Some [[127; 0; 0; 0]; [-127; 0; 127; 0]]%Z.
Proof. vm_compute. reflexivity. Qed.

(** The answer never has more proofs than rows, and it has as many exactly when no inference is an error. *)
Theorem C73_count :
  forall (Tr Pr : Type) (us ss : list (list nat)) (run : list (ten Z) -> option (option Tr))
    (prove : Tr -> option Pr) (rnd : Q -> Q) (sf : scaling) (md : list scaling) (i : input) 
    (proofs : list Pr),
  answer us ss run prove rnd (sf :: md) i = Some proofs ->
  length proofs <= length i /\
  (length proofs = length i <-> Forall (fun row : list Q => ~ row_outcome us ss run prove rnd sf row None) i).
Proof. exact @answer_count. Qed.
Print Assumptions C73_count.

(** A row whose inference is an error leaves no mark in the answer: the request is answered as if that row were absent, so the later proofs move up and nothing says which rows they are for. *)
Theorem C73_skip_refuted :
  forall (Tr Pr : Type) (us ss : list (list nat)) (run : list (ten Z) -> option (option Tr))
    (prove : Tr -> option Pr) (rnd : Q -> Q) (sf : scaling) (md : list scaling) (a : list (list Q))
    (row : list Q) (b : list (list Q)),
  row_outcome us ss run prove rnd sf row None ->
  answer us ss run prove rnd (sf :: md) (a ++ row :: b) = answer us ss run prove rnd (sf :: md) (a ++ b).
Proof. exact @answer_skips. Qed.
Print Assumptions C73_skip_refuted.
Example C73_skip_refuted_ex : row_outcome [[3]] [[4]] xrun (fun p : list Z => Some p) exact sf8 [0; 1 # 4; -(3 # 4)]%Q None /\
  answer [[3]] [[4]] xrun (fun p => Some p) exact [sf8] [[0; 1 # 4; -(3 # 4)]; [1; -1; 1 # 2]]%Q = answer [[3]] [[4]] xrun (fun p => Some p) exact [sf8] [[1; -1; 1 # 2]]%Q.
Proof.
  split; [|vm_compute; reflexivity]. exists [0; 32; -95]%Z, [mkTen [4] [0; 32; -95; 0]%Z], None.
  split; [repeat constructor|]. split; [vm_compute; reflexivity|]. split; reflexivity.
Qed.

(** One row of another length than the model input makes the whole request fail, whatever the other rows are; validation does not look at lengths. *)
Theorem C73_length_refuted :
  forall (Tr Pr : Type) (us ss : list (list nat)) (run : list (ten Z) -> option (option Tr))
    (prove : Tr -> option Pr) (rnd : Q -> Q) (sf : scaling) (md : list scaling) (u : list nat)
    (a : list (list Q)) (row : list Q) (b : list (list Q)),
  us = [u] ->
  length row <> fold_right Nat.mul 1 u -> answer us ss run prove rnd (sf :: md) (a ++ row :: b) = None.
Proof. exact @answer_wrong_length. Qed.
Print Assumptions C73_length_refuted.
Example C73_length_refuted_ex : validate (two ++ [[1; 1]%Q]) = true /\ answer [[3]] [[4]] xrun (fun p => Some p) exact [sf8] (two ++ [[1; 1]%Q]) = None.
Proof. split; vm_compute; reflexivity. Qed.

(** A worker never proves a model of two or more inputs: every non-empty request for it fails. *)
Theorem C73_inputs_refuted :
  forall (Tr Pr : Type) (us ss : list (list nat)) (run : list (ten Z) -> option (option Tr))
    (prove : Tr -> option Pr) (rnd : Q -> Q) (sf : scaling) (md : list scaling) (i : list (list Q)),
  2 <= length ss -> i <> [] -> answer us ss run prove rnd (sf :: md) i = None.
Proof. exact @answer_two_inputs. Qed.
Print Assumptions C73_inputs_refuted.
Example C73_inputs_refuted_ex : 2 <= length [[2]; [2]] /\ answer [[2]; [2]] [[2]; [2]] xrun (fun p => Some p) exact [sf8] [[1; 0]; [0; 1]]%Q = None.
Proof. split; [cbn; lia|vm_compute; reflexivity]. Qed.

