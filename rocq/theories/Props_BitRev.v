(** Property C74: the bit reversal that orders codewords. *)
From Coq Require Import List Arith Lia Bool NArith.
From Verif Require Import ListAux M_Mle M_Merkle M_Code P_Fft P_Code M_BitRev P_BitRev.
Import ListNotations.

(** The element that ends at an index is the one whose index has the same bits in the opposite order, for every size of element (the size decides whether the table or the chunks and transpositions are used). *)
Theorem C74_in_place :
  forall (A : Type) (size : N) (l r : list A) (k i j : nat),
  length l = 2 ^ k ->
  (N.of_nat (length l) < 2 ^ 64)%N ->
  reverse_index_bits_in_place size l = Some r -> i < 2 ^ k -> reversed k i j -> nth_error r i = nth_error l j.
Proof. exact @in_place_spec. Qed.
Print Assumptions C74_in_place.
Example C74_in_place_ex : reverse_index_bits_in_place 8 [10; 11; 12; 13; 14; 15; 16; 17] = Some [10; 14; 12; 16; 11; 15; 13; 17] /\
  reverse_index_bits_in_place 16383 [10; 11; 12; 13; 14; 15; 16; 17] = Some [10; 14; 12; 16; 11; 15; 13; 17] /\ reversed 3 1 4.
Proof.
  split; [vm_compute; reflexivity|]. split; [vm_compute; reflexivity|]. split; [cbn; lia|]. intros b Hb. destruct b as [|[|[|b]]]; [reflexivity|reflexivity|reflexivity|lia].
Qed.
(* 512 cells in the large branch: an odd exponent, and a transposition of 16 rows that splits into blocks. *)
Example C74_in_place_ex2 : reverse_index_bits_in_place 16383 (seq 0 512) = M_Code.reverse_index_bits (seq 0 512).
Proof. vm_compute. reflexivity. Qed.

(** It succeeds exactly for lengths that are powers of two: there no unchecked index is out of bounds, no two exchanged chunks overlap and the debug assertion holds. *)
Theorem C74_total :
  forall (A : Type) (size : N) (l : list A),
  (N.of_nat (length l) < 2 ^ 64)%N ->
  (exists r : list A, reverse_index_bits_in_place size l = Some r) <-> (exists k : nat, length l = 2 ^ k).
Proof. exact @in_place_total. Qed.
Print Assumptions C74_total.
Example C74_total_ex : reverse_index_bits_in_place 16383 [1; 2; 3; 4] = Some [1; 3; 2; 4] /\ reverse_index_bits_in_place 8 [1; 2; 3] = None.
Proof. split; vm_compute; reflexivity. Qed.

(** It is the function by which the models of the codes and of the commitment scheme stand for it. *)
Theorem C74_model :
  forall (A : Type) (size : N) (l : list A),
  (N.of_nat (length l) < 2 ^ 64)%N -> reverse_index_bits_in_place size l = reverse_index_bits l.
Proof. exact @in_place_eq. Qed.
Print Assumptions C74_model.

(** The version for aarch64 is the same function. *)
Theorem C74_aarch64 :
  forall (A : Type) (size : N) (l : list A),
  (N.of_nat (length l) < 2 ^ 64)%N -> reverse_index_bits_in_place_aarch64 size l = reverse_index_bits l.
Proof. exact @in_place_aarch64_eq. Qed.
Print Assumptions C74_aarch64.
Example C74_aarch64_ex : reverse_index_bits_in_place_aarch64 8 [1; 2; 3; 4] = Some [1; 3; 2; 4].
Proof. vm_compute. reflexivity. Qed.

(** So is the version that copies. *)
Theorem C74_copy :
  forall (A : Type) (l : list A),
  (N.of_nat (length l) < 2 ^ 64)%N -> reverse_index_bits_copy l = reverse_index_bits l.
Proof. exact @copy_eq. Qed.
Print Assumptions C74_copy.
Example C74_copy_ex : reverse_index_bits_copy [1; 2; 3; 4] = Some [1; 3; 2; 4] /\ reverse_index_bits_copy (seq 0 128) = reverse_index_bits_in_place 8 (seq 0 128).
Proof. split; vm_compute; reflexivity. Qed.

(** Doing it twice, even in two different ways, gives back the array. *)
Theorem C74_involutive :
  forall (A : Type) (size size' : N) (l r : list A),
  (N.of_nat (length l) < 2 ^ 64)%N ->
  reverse_index_bits_in_place size l = Some r ->
  length r = length l /\ reverse_index_bits_in_place size' r = Some l.
Proof. exact @in_place_involutive. Qed.
Print Assumptions C74_involutive.

(** The in-place transposition exchanges row and column within the square and leaves every other cell as it is, for every power-of-two size and stride. *)
Theorem C74_transpose :
  forall (A : Type) (lb_stride lb_size : nat) (l : list A),
  lb_size <= lb_stride ->
  (2 ^ lb_size - 1) * 2 ^ lb_stride + 2 ^ lb_size <= length l ->
  exists r : list A,
    transpose_in_place_square lb_stride lb_size 0 l = Some r /\
    length r = length l /\
    (forall i j : nat,
     i < 2 ^ lb_size ->
     j < 2 ^ lb_size -> nth_error r (i * 2 ^ lb_stride + j) = nth_error l (j * 2 ^ lb_stride + i)) /\
    (forall i j : nat,
     j < 2 ^ lb_stride ->
     2 ^ lb_size <= i \/ 2 ^ lb_size <= j ->
     nth_error r (i * 2 ^ lb_stride + j) = nth_error l (i * 2 ^ lb_stride + j)).
Proof. exact @transpose_spec. Qed.
Print Assumptions C74_transpose.
Example C74_transpose_ex : transpose_in_place_square 2 1 0 [0; 1; 2; 3; 4; 5; 6; 7] = Some [0; 4; 2; 3; 1; 5; 6; 7] /\ (2 ^ 1 - 1) * 2 ^ 2 + 2 ^ 1 <= 8.
Proof. split; [vm_compute; reflexivity|cbn; lia]. Qed.

