(** Model of mpcs/src/util/merkle_tree.rs and of the leaf hashing of mpcs/src/util/hash.rs.

    [B]: base field, [E]: extension field, [D]: digests.  [FieldType::Unreachable], on which every function panics, is left
    out.  Loops over rayon iterators write disjoint cells and are maps.  A failed assertion or an index out of range is [None]. *)
From Coq Require Import List Arith Lia Bool.
From Verif Require Import ListAux M_Mle.
Import ListNotations.

Section Merkle.
Context {B E D : Type} (as_bases : E -> list B) (emb : B -> E) (hash_bases : list B -> D) (hash_two_digests : D -> D -> D)
  (deqb : D -> D -> bool).

Inductive col := CBase (l : list B) | CExt (l : list E).
Definition col_len (c : col) : nat := match c with CBase l => length l | CExt l => length l end.
(** mpcs/src/util.rs:99-105 [field_type_index_base]. *)
Definition index_base (c : col) (i : nat) : option B := match c with CBase l => nth_error l i | CExt _ => None end.
(** mpcs/src/util.rs:107-113 [field_type_index_ext]. *)
Definition index_ext (c : col) (i : nat) : option E :=
  match c with CExt l => nth_error l i | CBase l => b <- nth_error l i ;; Some (emb b) end.

(** mpcs/src/util/hash.rs:17-41. *)
Definition hash_elems (xs : list E) : D := hash_bases (flat_map as_bases xs).
Definition hash_two_leaves (a b : E) : D := hash_bases (as_bases a ++ as_bases b).
Definition hash_two_leaves_base (a b : B) : D := hash_bases [a; b].
Definition hash_two_leaves_batch_base (a b : list B) : D := hash_two_digests (hash_bases a) (hash_bases b).
Definition hash_two_leaves_batch_ext (a b : list E) : D := hash_two_digests (hash_elems a) (hash_elems b).

(** plonky2_util [log2_strict]: panics unless the argument is a power of two. *)
Definition log2_strict (n : nat) : option nat := if is_pow2 n then Some (Nat.log2 n) else None.

(** merkle_tree.rs:273-315: cell [i] of the first layer. *)
Definition leaf_hash (values : list col) (i : nat) : option D :=
  match values with
  | [] => None
  | [CBase l] => a <- nth_error l (2 * i) ;; b <- nth_error l (2 * i + 1) ;; Some (hash_two_leaves_base a b)
  | [CExt l] => a <- nth_error l (2 * i) ;; b <- nth_error l (2 * i + 1) ;; Some (hash_two_leaves a b)
  | CBase _ :: _ => a <- omapM (fun v => index_base v (2 * i)) values ;; b <- omapM (fun v => index_base v (2 * i + 1)) values ;;
                    Some (hash_two_leaves_batch_base a b)
  | CExt _ :: _ => a <- omapM (fun v => index_ext v (2 * i)) values ;; b <- omapM (fun v => index_ext v (2 * i + 1)) values ;;
                   Some (hash_two_leaves_batch_ext a b)
  end.
(** merkle_tree.rs:320-323: [par_chunks_exact(2)] drops an odd last digest. *)
Fixpoint pair_up (l : list D) : list D :=
  match l with a :: b :: r => hash_two_digests a b :: pair_up r | _ => [] end.
(** merkle_tree.rs:319-326. *)
Definition layers (log_v : nat) (first : list D) : list (list D) :=
  fold_left (fun tree i => tree ++ [pair_up (nth (i - 1) tree [])]) (seq 1 (log_v - 1)) [first].
(** merkle_tree.rs:261-329 [merkelize]; 331-375 and 377-420 are its instances for columns of one kind. *)
Definition merkelize (values : list col) : option (list (list D)) :=
  match values with
  | [] => None
  | v0 :: _ =>
      log_v <- log2_strict (col_len v0) ;;
      first <- omapM (leaf_hash values) (seq 0 (col_len v0 / 2)) ;;
      Some (layers log_v first)
  end.

(** merkle_tree.rs:21-30, 68-74 [MerkleTree::from_batch_leaves] ([from_leaves], 60-66, is the case of one column). *)
Record mtree := mkMt { mt_inner : list (list D); mt_leaves : list col }.
Definition from_batch_leaves (leaves : list col) : option mtree := i <- merkelize leaves ;; Some (mkMt i leaves).
(** merkle_tree.rs:48-50, 76-78 [root]. *)
Definition mt_root (t : mtree) : option D :=
  match rev (mt_inner t) with [] => None | l :: _ => nth_error l 0 end.
(** merkle_tree.rs:109-121 [get_leaf_as_base] and 123-137 [get_leaf_as_extension]. *)
Definition get_leaf_as_base (t : mtree) (i : nat) : option (list B) :=
  match mt_leaves t with CBase _ :: _ => omapM (fun v => index_base v i) (mt_leaves t) | _ => None end.
Definition get_leaf_as_extension (t : mtree) (i : nat) : option (list E) :=
  match mt_leaves t with [] => None | _ => omapM (fun v => index_ext v i) (mt_leaves t) end.
(** merkle_tree.rs:139-152 [merkle_path_without_leaf_sibling_or_root]. *)
Definition merkle_path (t : mtree) (leaf_index : nat) : option (list D) :=
  match mt_leaves t with
  | [] => None
  | v0 :: _ =>
      if leaf_index <? col_len v0 then
        omapM (fun p : nat * list D => nth_error (snd p) (Nat.lxor (Nat.shiftr leaf_index (fst p + 1)) 1))
          (combine (seq 0 (length (mt_inner t) - 1)) (firstn (length (mt_inner t) - 1) (mt_inner t)))
      else None
  end.

(** merkle_tree.rs:436-445 = 479-488: the walk from a leaf digest to the root. *)
Definition walk (path : list D) (hash : D) (x_index : nat) : D :=
  fst (fold_left (fun s p => let '(hash, x) := s in
         ((if Nat.even x then hash_two_digests hash p else hash_two_digests p hash), Nat.shiftr x 1))
       path (hash, Nat.shiftr x_index 1)).
(** merkle_tree.rs:422-447 [authenticate_merkle_path_root]; [Some tt] is a normal return. *)
Definition authenticate (path : list D) (leaves : col) (x_index : nat) (root : D) : option unit :=
  h <- match leaves with
       | CBase [a; b] => Some (hash_two_leaves_base a b)
       | CExt [a; b] => Some (hash_two_leaves a b)
       | _ => None
       end ;;
  if deqb (walk path h x_index) root then Some tt else None.
(** merkle_tree.rs:449-490 [authenticate_merkle_path_root_batch]. *)
Definition batch_leaf (lft rgt : col) : option D :=
  if 1 <? col_len lft then
    match lft, rgt with
    | CBase a, CBase b => Some (hash_two_leaves_batch_base a b)
    | CExt a, CExt b => Some (hash_two_leaves_batch_ext a b)
    | _, _ => None
    end
  else
    match lft, rgt with
    | CBase a, CBase b => x <- nth_error a 0 ;; y <- nth_error b 0 ;; Some (hash_two_leaves_base x y)
    | CExt a, CExt b => x <- nth_error a 0 ;; y <- nth_error b 0 ;; Some (hash_two_leaves x y)
    | _, _ => None
    end.
Definition authenticate_batch (path : list D) (lft rgt : col) (x_index : nat) (root : D) : option unit :=
  h <- batch_leaf lft rgt ;;
  if deqb (walk path h x_index) root then Some tt else None.
End Merkle.
