(** Model of the sponge, the hash functions and the Fiat-Shamir transcript: poseidon/src/{challenger,poseidon_hash,digest}.rs,
    transcript/src/{lib,basic}.rs and the byte encoding of ff_ext/src/lib.rs.

    The [DuplexChallenger] wrapped by [DefaultChallenger] comes from the p3_challenger crate, which is not part of /repo;
    [duplexing], [observe] and [sample] below follow its published code for width 8 and rate 4.  The permutation is an
    arbitrary function on arrays. *)
From Coq Require Import List Arith Lia Bool ZArith.
From Verif Require Import ListAux FieldDef M_Mle M_Sumcheck.
Import ListNotations.

(** ** Bytes to field elements *)
Section Bytes.
Context {F : Type} (of_u64 : Z -> F).
(** The little-endian value of at most eight bytes; the array of ff_ext/src/lib.rs:266-268 is zero beyond them.  [read_unaligned]
    reads native byte order; the model is that of a little-endian machine. *)
Definition le_value (bs : list Z) : Z := fold_right (fun b v => b + 256 * v)%Z 0%Z bs.
(** ff_ext/src/lib.rs:262-272 [bytes_to_field_elements].  [of_u64] is [from_canonical_u64]; its range check is a debug assertion
    of the field crate, so that a value of the modulus or more is reduced. *)
Definition bytes_to_field_elements (bs : list Z) : list F := map (fun c => of_u64 (le_value c)) (chunks 8 bs).
End Bytes.

(** ** The duplex sponge *)
Section Duplex.
Context {F : Type} (zero : F) (perm : list F -> list F).

(** Width and rate: poseidon/src/challenger.rs:19; DIGEST_WIDTH: poseidon/src/constants.rs:1. *)
Definition width := 8%nat.
Definition rate := 4%nat.
Definition digest_width := 4%nat.

Record duplex := mkDup { d_state : list F; d_in : list F; d_out : list F }.
(** poseidon/src/challenger.rs:38-42 [new_poseidon_default]. *)
Definition dup_new : duplex := mkDup (repeat zero width) [] [].
(** p3 [duplexing]: overwrite the first cells of the state by the buffered inputs, permute, expose the rate part. *)
Definition duplexing (d : duplex) : duplex :=
  let s := perm (d_in d ++ skipn (length (d_in d)) (d_state d)) in mkDup s [] (firstn rate s).
(** poseidon/src/challenger.rs:83-85 [observe]. *)
Definition observe (d : duplex) (x : F) : duplex :=
  let d1 := mkDup (d_state d) (d_in d ++ [x]) [] in
  if length (d_in d1) =? rate then duplexing d1 else d1.
Definition observe_slice (d : duplex) (xs : list F) : duplex := fold_left observe xs d.
(** poseidon/src/challenger.rs:103-105 [sample]: outputs are taken from the end of the buffer. *)
Definition sample (d : duplex) : option (F * duplex) :=
  let d1 := match d_in d, d_out d with [], _ :: _ => d | _, _ => duplexing d end in
  match rev (d_out d1) with
  | [] => None
  | x :: r => Some (x, mkDup (d_state d1) (d_in d1) (rev r))
  end.
Fixpoint sample_vec (n : nat) (d : duplex) : option (list F * duplex) :=
  match n with
  | O => Some ([], d)
  | S n' => r <- sample d ;; let '(x, d1) := r in r2 <- sample_vec n' d1 ;; let '(xs, d2) := r2 in Some (x :: xs, d2)
  end.

(** ** Hashing *)
(** poseidon/src/digest.rs:24-33 [from_partial]. *)
Definition from_partial (xs : list F) : list F := xs ++ repeat zero (digest_width - length xs).
(** poseidon/src/poseidon_hash.rs:39-43 [hash_n_to_m_no_pad]. *)
Definition hash_n_to_m_no_pad (xs : list F) (m : nat) : option (list F) :=
  r <- sample_vec m (observe_slice dup_new xs) ;; Some (fst r).
(** poseidon/src/poseidon_hash.rs:22-28 [hash_or_noop]. *)
Definition hash_or_noop (xs : list F) : option (list F) :=
  if length xs <=? digest_width then Some (from_partial xs) else hash_n_to_m_no_pad xs digest_width.
(** poseidon/src/poseidon_hash.rs:66-71 [compress], called by [two_to_one] (18-20). *)
Definition compress (x y : list F) : option (list F) :=
  r <- sample_vec digest_width (observe_slice (observe_slice dup_new x) y) ;; Some (fst r).
End Duplex.

(** ** The basic transcript over an extension field of degree two *)
Section Transcript.
Context {F : Type} {E : Type} (zero : F) (perm : list F -> list F) (of_u64 : Z -> F)
  (as_bases : E -> list F) (of_bases : F -> F -> E).

(** transcript/src/basic.rs:14-19 [new]. *)
Definition tr_new (label : list Z) : duplex :=
  observe_slice perm (dup_new zero) (bytes_to_field_elements of_u64 label).
(** transcript/src/basic.rs:23-25 [append_field_elements]. *)
Definition tr_elements (d : duplex) (xs : list F) : duplex := observe_slice perm d xs.
(** transcript/src/lib.rs:42-45 [append_message]. *)
Definition tr_message (d : duplex) (bs : list Z) : duplex := tr_elements d (bytes_to_field_elements of_u64 bs).
(** transcript/src/basic.rs:27-29 [append_field_element_ext]; transcript/src/lib.rs:59-63 [append_field_element_exts]. *)
Definition tr_ext (d : duplex) (x : E) : duplex := observe_slice perm d (as_bases x).
Definition tr_exts (d : duplex) (xs : list E) : duplex := fold_left tr_ext xs d.
(** transcript/src/basic.rs:31-35 [read_challenge]: one sample per coefficient. *)
Definition tr_read (d : duplex) : option (E * duplex) :=
  r <- sample perm d ;; let '(a, d1) := r in
  r2 <- sample perm d1 ;; let '(b, d2) := r2 in Some (of_bases a b, d2).
(** transcript/src/lib.rs:75-78 [get_and_append_challenge]. *)
Definition tr_challenge (d : duplex) (label : list Z) : option (E * duplex) := tr_read (tr_message d label).
(** transcript/src/lib.rs:98-106 [fork]. *)
Definition tr_fork (d : duplex) (n : nat) : list duplex :=
  map (fun i => tr_elements d [of_u64 (Z.of_nat i)]) (seq 0 n).

(** A party's use of its transcript. *)
Inductive top := OMsg (bs : list Z) | OElems (xs : list F) | OExts (xs : list E) | ORead.
Fixpoint tr_run (ops : list top) (d : duplex) : option (list E * duplex) :=
  match ops with
  | [] => Some ([], d)
  | OMsg bs :: r => tr_run r (tr_message d bs)
  | OElems xs :: r => tr_run r (tr_elements d xs)
  | OExts xs :: r => tr_run r (tr_exts d xs)
  | ORead :: r => s <- tr_read d ;; let '(c, d1) := s in q <- tr_run r d1 ;; let '(cs, d2) := q in Some (c :: cs, d2)
  end.
End Transcript.
