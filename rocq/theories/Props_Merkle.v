(** Property theorems C42 (Merkle trees) and C44 (transcript).  Statements only.
    [tree_root] is the hash tree over a list of digests; [some_collision] says that two calls made by the two given runs are
    a collision of one of the two hash functions; [runs_collide] says that the permutation was applied in the two runs to two
    different states whose images agree on one half. *)
From Coq Require Import List Arith Lia Bool ZArith.
From Verif Require Import ListAux FieldDef FpInst FpGold M_Mle M_Sumcheck M_Hash M_Merkle P_Merkle P_Merkle2 P_Hash P_Hash2 P_Hash3 P_Hash4.
Import ListNotations.

(** Small hash functions for the examples. *)
Definition zeq (x y : list Z) : bool := if list_eq_dec Z.eq_dec x y then true else false.
Lemma zeq_ok x y : zeq x y = true <-> x = y.
Proof. unfold zeq. destruct (list_eq_dec Z.eq_dec x y); split; congruence. Qed.
Definition pbases (e : Z * Z) : list Z := [fst e; snd e].
Definition pof (a b : Z) : Z * Z := (a, b).
Definition pemb (a : Z) : Z * Z := (a, 0%Z).
Definition toy_perm (s : list Z) : list Z :=
  map (fun i => (nth i s 0 * nth i s 0 + 7 * nth ((i + 1) mod 8) s 0 + 3 * nth ((i + 5) mod 8) s 0 + Z.of_nat i + 1) mod 101)%Z (seq 0 8).
Lemma toy_len s : length s = 8 -> length (toy_perm s) = 8.
Proof. intros _. unfold toy_perm. now rewrite map_length, seq_length. Qed.
Notation ph := (pos_hash 0%Z toy_perm).
Notation p2 := (pos_two 0%Z toy_perm).
Definition cols : list (list Z) := [[1; 2; 3; 4; 5; 6; 7; 8]; [11; 12; 13; 14; 15; 16; 17; 18]]%Z.

(** Completeness for base columns: for every height, number of columns and index, the tree, its root and the path exist, and the path of the index authenticates the pair of rows, also through the function for a single column. *)
Theorem C42_complete_base :
  forall (B E D : Type) (as_bases : E -> list B) (emb : B -> E) (hb : list B -> D) (h2 : D -> D -> D)
    (deqb : D -> D -> bool),
  (forall x y : D, deqb x y = true <-> x = y) ->
  forall (b : B) (ls : list (list B)) (k x : nat),
  ls <> [] ->
  (forall l : list B, In l ls -> length l = 2 ^ S k) ->
  x < 2 ^ S k ->
  exists (t : mtree) (path : list D) (root : D),
    from_batch_leaves as_bases emb hb h2 (map (fun l : list B => CBase l) ls) = Some t /\
    merkle_path t x = Some path /\
    mt_root t = Some root /\
    length path = k /\
    get_leaf_as_base t (2 * (x / 2)) = Some (map (fun l : list B => nth (2 * (x / 2)) l b) ls) /\
    get_leaf_as_base t (2 * (x / 2) + 1) = Some (map (fun l : list B => nth (2 * (x / 2) + 1) l b) ls) /\
    authenticate_batch as_bases hb h2 deqb path (CBase (map (fun l : list B => nth (2 * (x / 2)) l b) ls))
      (CBase (map (fun l : list B => nth (2 * (x / 2) + 1) l b) ls)) x root = Some tt /\
    (forall l : list B,
     ls = [l] ->
     authenticate as_bases hb h2 deqb path (CBase [nth (2 * (x / 2)) l b; nth (2 * (x / 2) + 1) l b]) x root =
     Some tt).
Proof. exact @path_complete_base. Qed.
Print Assumptions C42_complete_base.

Example C42_ex_complete : cols <> [] /\ (forall l, In l cols -> length l = 2 ^ 3) /\ 5 < 2 ^ 3 /\
  (t <- from_batch_leaves pbases pemb ph p2 (map (fun l => CBase l) cols) ;; path <- merkle_path t 5 ;; root <- mt_root t ;;
   authenticate_batch pbases ph p2 zeq path (CBase [5; 15]%Z) (CBase [6; 16]%Z) 5 root) = Some tt /\
  (t <- from_batch_leaves pbases pemb ph p2 (map (fun l => CBase l) cols) ;; path <- merkle_path t 5 ;; root <- mt_root t ;;
   authenticate_batch pbases ph p2 zeq path (CBase [5; 15]%Z) (CBase [6; 17]%Z) 5 root) = None.
Proof.
  split; [discriminate|]. split; [intros l [<-|[<-|[]]]; reflexivity|]. split; [cbn; lia|]. split; vm_compute; reflexivity.
Qed.

(** Completeness when the first column is over the extension field; further columns may be over either field. *)
Theorem C42_complete_ext :
  forall (B E D : Type) (as_bases : E -> list B) (emb : B -> E) (hb : list B -> D) (h2 : D -> D -> D)
    (deqb : D -> D -> bool),
  (forall x y : D, deqb x y = true <-> x = y) ->
  forall (e : E) (l0 : list E) (vs : list col) (k x : nat),
  (forall v : col, In v (CExt l0 :: vs) -> col_len v = 2 ^ S k) ->
  x < 2 ^ S k ->
  exists (t : mtree) (path : list D) (root : D) (lft rgt : list E),
    from_batch_leaves as_bases emb hb h2 (CExt l0 :: vs) = Some t /\
    merkle_path t x = Some path /\
    mt_root t = Some root /\
    length path = k /\
    get_leaf_as_extension emb t (2 * (x / 2)) = Some lft /\
    get_leaf_as_extension emb t (2 * (x / 2) + 1) = Some rgt /\
    lft = map (fun v : col => ext_at emb e v (2 * (x / 2))) (CExt l0 :: vs) /\
    rgt = map (fun v : col => ext_at emb e v (2 * (x / 2) + 1)) (CExt l0 :: vs) /\
    authenticate_batch as_bases hb h2 deqb path (CExt lft) (CExt rgt) x root = Some tt /\
    (vs = [] ->
     authenticate as_bases hb h2 deqb path (CExt [nth (2 * (x / 2)) l0 e; nth (2 * (x / 2) + 1) l0 e]) x root =
     Some tt).
Proof. exact @path_complete_ext. Qed.
Print Assumptions C42_complete_ext.

Definition ecol : list (Z * Z) := [(1, 2); (3, 4); (5, 6); (7, 8)]%Z.
Example C42_ex_complete_ext : (forall v, In v [CExt ecol; CBase [21; 22; 23; 24]%Z] -> col_len v = 2 ^ 2) /\
  (t <- from_batch_leaves pbases pemb ph p2 [CExt ecol; CBase [21; 22; 23; 24]%Z] ;; path <- merkle_path t 3 ;; root <- mt_root t ;;
   authenticate_batch pbases ph p2 zeq path (CExt [(5, 6); (23, 0)]%Z) (CExt [(7, 8); (24, 0)]%Z) 3 root) = Some tt.
Proof. split; [intros v [<-|[<-|[]]]; reflexivity|]. vm_compute. reflexivity. Qed.

(** The root is the hash tree of the digests of the leaf pairs. *)
Theorem C42_root :
  forall (B E D : Type) (as_bases : E -> list B) (emb : B -> E) (hb : list B -> D) (h2 : D -> D -> D) 
    (b : B) (ls : list (list B)) (k : nat),
  ls <> [] ->
  (forall l : list B, In l ls -> length l = 2 ^ S k) ->
  exists t : mtree,
    from_batch_leaves as_bases emb hb h2 (map (fun l : list B => CBase l) ls) = Some t /\
    mt_root t =
    Some
      (tree_root h2 k
         (map
            (fun i : nat =>
             match ls with
             | [] =>
                 h2 (hb (map (fun l : list B => nth (2 * i) l b) ls))
                   (hb (map (fun l : list B => nth (2 * i + 1) l b) ls))
             | [l] => hb [nth (2 * i) l b; nth (2 * i + 1) l b]
             | l :: _ :: _ =>
                 h2 (hb (map (fun l3 : list B => nth (2 * i) l3 b) ls))
                   (hb (map (fun l3 : list B => nth (2 * i + 1) l3 b) ls))
             end) (seq 0 (2 ^ k))) (hb [])).
Proof. exact @root_spec_base. Qed.
Print Assumptions C42_root.

(** Binding for batches of base elements: two openings at the same index with paths of equal length and the same number of columns are equal, or two of the hash calls made in checking them collide. *)
Theorem C42_binding_base :
  forall (B E D : Type) (as_bases : E -> list B) (hb : list B -> D) (h2 : D -> D -> D) (deqb : D -> D -> bool),
  (forall x y : D, deqb x y = true <-> x = y) ->
  (forall x y : B, {x = y} + {x <> y}) ->
  forall (p1 p2 : list D) (a1 b1 a2 b2 : list B) (x : nat) (root : D),
  length p1 = length p2 ->
  length a1 = length a2 ->
  length a1 = length b1 ->
  length a2 = length b2 ->
  authenticate_batch as_bases hb h2 deqb p1 (CBase a1) (CBase b1) x root = Some tt ->
  authenticate_batch as_bases hb h2 deqb p2 (CBase a2) (CBase b2) x root = Some tt ->
  a1 = a2 /\ b1 = b2 /\ p1 = p2 \/
  some_collision hb h2 (open_queries_base hb h2 p1 a1 b1 x) (open_queries_base hb h2 p2 a2 b2 x).
Proof. exact @batch_binding_base. Qed.
Print Assumptions C42_binding_base.

(** Binding for batches of extension elements. *)
Theorem C42_binding_ext :
  forall (B E D : Type) (as_bases : E -> list B) (hb : list B -> D) (h2 : D -> D -> D) (deqb : D -> D -> bool),
  (forall x y : D, deqb x y = true <-> x = y) ->
  (forall x y : B, {x = y} + {x <> y}) ->
  forall (n : nat) (p1 p2 : list D) (a1 b1 a2 b2 : list E) (x : nat) (root : D),
  (forall e : E, length (as_bases e) = n) ->
  (forall e e' : E, as_bases e = as_bases e' -> e = e') ->
  length p1 = length p2 ->
  length a1 = length a2 ->
  length a1 = length b1 ->
  length a2 = length b2 ->
  authenticate_batch as_bases hb h2 deqb p1 (CExt a1) (CExt b1) x root = Some tt ->
  authenticate_batch as_bases hb h2 deqb p2 (CExt a2) (CExt b2) x root = Some tt ->
  a1 = a2 /\ b1 = b2 /\ p1 = p2 \/
  some_collision hb h2 (open_queries_ext as_bases hb h2 p1 a1 b1 x) (open_queries_ext as_bases hb h2 p2 a2 b2 x).
Proof. exact @batch_binding_ext. Qed.
Print Assumptions C42_binding_ext.

(** Binding for single pairs of base elements. *)
Theorem C42_binding_single_base :
  forall (B E D : Type) (as_bases : E -> list B) (hb : list B -> D) (h2 : D -> D -> D) (deqb : D -> D -> bool),
  (forall x y : D, deqb x y = true <-> x = y) ->
  (forall x y : B, {x = y} + {x <> y}) ->
  forall (p1 p2 : list D) (a1 b1 a2 b2 : B) (x : nat) (root : D),
  length p1 = length p2 ->
  authenticate as_bases hb h2 deqb p1 (CBase [a1; b1]) x root = Some tt ->
  authenticate as_bases hb h2 deqb p2 (CBase [a2; b2]) x root = Some tt ->
  a1 = a2 /\ b1 = b2 /\ p1 = p2 \/
  some_collision hb h2 (open_queries_base hb h2 p1 [a1] [b1] x) (open_queries_base hb h2 p2 [a2] [b2] x).
Proof. exact @single_binding_base. Qed.
Print Assumptions C42_binding_single_base.

(** Binding for single pairs of extension elements. *)
Theorem C42_binding_single_ext :
  forall (B E D : Type) (as_bases : E -> list B) (hb : list B -> D) (h2 : D -> D -> D) (deqb : D -> D -> bool),
  (forall x y : D, deqb x y = true <-> x = y) ->
  (forall x y : B, {x = y} + {x <> y}) ->
  forall (n : nat) (p1 p2 : list D) (a1 b1 a2 b2 : E) (x : nat) (root : D),
  (forall e : E, length (as_bases e) = n) ->
  (forall e e' : E, as_bases e = as_bases e' -> e = e') ->
  length p1 = length p2 ->
  authenticate as_bases hb h2 deqb p1 (CExt [a1; b1]) x root = Some tt ->
  authenticate as_bases hb h2 deqb p2 (CExt [a2; b2]) x root = Some tt ->
  a1 = a2 /\ b1 = b2 /\ p1 = p2 \/
  some_collision hb h2 (open_queries_ext as_bases hb h2 p1 [a1] [b1] x)
    (open_queries_ext as_bases hb h2 p2 [a2] [b2] x).
Proof. exact @single_binding_ext. Qed.
Print Assumptions C42_binding_single_ext.

(** With a hash that adds, two different openings of one root exist, and the collision is found among their calls. *)
Definition addh (l : list Z) : Z := fold_right Z.add 0%Z l.
Example C42_ex_binding :
  authenticate pbases addh Z.add Z.eqb [9; 4]%Z (CBase [1; 2]%Z) 2 16%Z = Some tt /\ authenticate pbases addh Z.add Z.eqb [6; 4]%Z (CBase [1; 5]%Z) 2 16%Z = Some tt /\
  some_collision addh Z.add (open_queries_base addh Z.add [9; 4]%Z [1]%Z [2]%Z 2) (open_queries_base addh Z.add [6; 4]%Z [1]%Z [5]%Z 2).
Proof.
  split; [reflexivity|]. split; [reflexivity|]. exists (QTwo 9%Z 3%Z), (QTwo 6%Z 6%Z). split; [right; left; reflexivity|]. split; [right; left; reflexivity|].
  split; [discriminate|]. split; [reflexivity|exact I].
Qed.

(** Binding for the Poseidon hasher, down to the permutation: two different openings give two states of the two runs whose images agree on one half. *)
Theorem C42_poseidon_binding_base :
  forall (F E : Type) (zero : F) (perm : list F -> list F) (as_bases : E -> list F),
  (F -> E) ->
  forall deqb : list F -> list F -> bool,
  (forall s : list F, length s = 8 -> length (perm s) = 8) ->
  (forall x y : list F, deqb x y = true <-> x = y) ->
  (forall x y : F, {x = y} + {x <> y}) ->
  forall (p1 p2 : list (list F)) (a1 b1 a2 b2 : list F) (x : nat) (root : list F),
  Forall (fun d : list F => length d = 4) p1 ->
  Forall (fun d : list F => length d = 4) p2 ->
  length p1 = length p2 ->
  length a1 = length a2 ->
  length a1 = length b1 ->
  length a2 = length b2 ->
  authenticate_batch as_bases (pos_hash zero perm) (pos_two zero perm) deqb p1 (CBase a1) (CBase b1) x root =
  Some tt ->
  authenticate_batch as_bases (pos_hash zero perm) (pos_two zero perm) deqb p2 (CBase a2) (CBase b2) x root =
  Some tt ->
  a1 = a2 /\ b1 = b2 /\ p1 = p2 \/
  runs_collide perm
    (run_inputs zero perm (open_queries_base (pos_hash zero perm) (pos_two zero perm) p1 a1 b1 x))
    (run_inputs zero perm (open_queries_base (pos_hash zero perm) (pos_two zero perm) p2 a2 b2 x)).
Proof. exact @pos_binding_base. Qed.
Print Assumptions C42_poseidon_binding_base.

(** The same for extension elements. *)
Theorem C42_poseidon_binding_ext :
  forall (F E : Type) (zero : F) (perm : list F -> list F) (as_bases : E -> list F),
  (F -> E) ->
  forall deqb : list F -> list F -> bool,
  (forall s : list F, length s = 8 -> length (perm s) = 8) ->
  (forall x y : list F, deqb x y = true <-> x = y) ->
  (forall x y : F, {x = y} + {x <> y}) ->
  forall (p1 p2 : list (list F)) (a1 b1 a2 b2 : list E) (x : nat) (root : list F),
  (forall e : E, length (as_bases e) = 2) ->
  (forall e e' : E, as_bases e = as_bases e' -> e = e') ->
  Forall (fun d : list F => length d = 4) p1 ->
  Forall (fun d : list F => length d = 4) p2 ->
  length p1 = length p2 ->
  length a1 = length a2 ->
  length a1 = length b1 ->
  length a2 = length b2 ->
  authenticate_batch as_bases (pos_hash zero perm) (pos_two zero perm) deqb p1 (CExt a1) (CExt b1) x root =
  Some tt ->
  authenticate_batch as_bases (pos_hash zero perm) (pos_two zero perm) deqb p2 (CExt a2) (CExt b2) x root =
  Some tt ->
  a1 = a2 /\ b1 = b2 /\ p1 = p2 \/
  runs_collide perm
    (run_inputs zero perm (open_queries_ext as_bases (pos_hash zero perm) (pos_two zero perm) p1 a1 b1 x))
    (run_inputs zero perm (open_queries_ext as_bases (pos_hash zero perm) (pos_two zero perm) p2 a2 b2 x)).
Proof. exact @pos_binding_ext. Qed.
Print Assumptions C42_poseidon_binding_ext.

(** Inputs of one length with the same digest are equal or make the permutation collide on one half. *)
Theorem C42_hash_binding :
  forall (F : Type) (zero : F) (perm : list F -> list F),
  (forall s : list F, length s = 8 -> length (perm s) = 8) ->
  (forall x y : F, {x = y} + {x <> y}) ->
  forall x y : list F,
  length x = length y ->
  hash_or_noop zero perm x = hash_or_noop zero perm y ->
  x = y \/ runs_collide perm (hash_inputs zero perm x) (hash_inputs zero perm y).
Proof. exact @hash_binding. Qed.
Print Assumptions C42_hash_binding.

(** The same for the compression of two digests. *)
Theorem C42_compress_binding :
  forall (F : Type) (zero : F) (perm : list F -> list F),
  (forall s : list F, length s = 8 -> length (perm s) = 8) ->
  (forall x y : F, {x = y} + {x <> y}) ->
  forall x1 y1 x2 y2 : list F,
  length x1 = 4 ->
  length y1 = 4 ->
  length x2 = 4 ->
  length y2 = 4 ->
  compress zero perm x1 y1 = compress zero perm x2 y2 ->
  x1 = x2 /\ y1 = y2 \/
  runs_collide perm (perm_inputs perm (zeros zero) [x1; y1]) (perm_inputs perm (zeros zero) [x2; y2]).
Proof. exact @compress_binding. Qed.
Print Assumptions C42_compress_binding.

Example C42_ex_poseidon : ph [1; 2; 3; 4; 5; 6]%Z = [19; 92; 72; 12]%Z /\ ph [1; 2; 3; 4; 5; 7]%Z <> ph [1; 2; 3; 4; 5; 6]%Z /\ length (ph [1; 2; 3]%Z) = 4.
Proof. vm_compute. split; [reflexivity|]. split; [discriminate|reflexivity]. Qed.

(** The walk reads only as many bits of the index as the path is long. *)
Theorem C42_index_low_bits :
  forall (D : Type) (h2 : D -> D -> D) (path : list D) (h : D) (x y : nat),
  (x / 2) mod 2 ^ length path = (y / 2) mod 2 ^ length path -> walk h2 path h x = walk h2 path h y.
Proof. exact @walk_index. Qed.
Print Assumptions C42_index_low_bits.

(** The length of the path is not checked: in every tree over the Poseidon hasher and at every index, the digest of an inner node opens as if it were a pair of extension leaves, with a shorter path. *)
Theorem C42_short_path_forgery :
  forall (F E : Type) (zero : F) (perm : list F -> list F) (as_bases : E -> list F) 
    (of_bases : F -> F -> E) (emb : F -> E) (deqb : list F -> list F -> bool),
  (forall s : list F, length s = 8 -> length (perm s) = 8) ->
  (forall x y : list F, deqb x y = true <-> x = y) ->
  (forall a b : F, as_bases (of_bases a b) = [a; b]) ->
  forall (vs : list col) (t : mtree) (k j x : nat),
  from_batch_leaves as_bases emb (pos_hash zero perm) (pos_two zero perm) vs = Some t ->
  match vs with
  | [] => True
  | v0 :: _ => col_len v0 = 2 ^ S k
  end ->
  1 <= j <= k ->
  exists (root : list F) (path : list (list F)) (lft rgt : E),
    mt_root t = Some root /\
    length path = k - j /\
    authenticate as_bases (pos_hash zero perm) (pos_two zero perm) deqb path (CExt [lft; rgt]) x root = Some tt /\
    as_bases lft ++ as_bases rgt = nth ((x / 2) mod 2 ^ (k - j)) (nth j (mt_inner t) []) [].
Proof. exact @short_path_forgery. Qed.
Print Assumptions C42_short_path_forgery.

(** A committed column and, at the same index, an accepted pair that is not in it. *)
Theorem C42_short_path_refuted : exists (leaves : list (Z * Z)) root path lft rgt x,
  (t <- from_batch_leaves pbases pemb ph p2 [CExt leaves] ;; mt_root t) = Some root /\ x < length leaves /\
  authenticate pbases ph p2 zeq path (CExt [lft; rgt]) x root = Some tt /\ ~ In lft leaves /\ ~ In rgt leaves.
Proof.
  exists ecol. destruct (from_batch_leaves pbases pemb ph p2 [CExt ecol]) as [t|] eqn:Et; [|vm_compute in Et; discriminate].
  destruct (short_path_forgery 0%Z toy_perm pbases pof pemb zeq toy_len zeq_ok (fun _ _ => eq_refl) [CExt ecol] t 1 1 1 Et eq_refl ltac:(lia)) as (root & path & lft & rgt & Hr & _ & Ha & Hd).
  exists root, path, lft, rgt, 1. cbn [obind]. split; [exact Hr|]. split; [cbn; lia|]. split; [exact Ha|].
  assert (E : nth (1 / 2 mod 2 ^ (1 - 1)) (nth 1 (mt_inner t) []) [] = [59; 52; 43; 12]%Z).
  { vm_compute in Et. assert (E : t = mkMt [[[1; 2; 3; 4]; [5; 6; 7; 8]]; [[59; 52; 43; 12]]]%Z [CExt ecol]) by (unfold ecol; congruence). rewrite E. reflexivity. }
  rewrite E in Hd. destruct lft as [a b], rgt as [c d]. unfold pbases in Hd. cbn in Hd. injection Hd as -> -> -> ->.
  split; intros [C|[C|[C|[C|[]]]]]; discriminate.
Qed.
Print Assumptions C42_short_path_refuted.

(** The kind of the opened values is not bound: a pair of base elements opens wherever the extension pair with these coefficients and a zero does. *)
Theorem C42_kind_forgery :
  forall (F E : Type) (zero : F) (perm : list F -> list F) (as_bases : E -> list F) 
    (of_bases : F -> F -> E) (deqb : list F -> list F -> bool),
  (forall a b : F, as_bases (of_bases a b) = [a; b]) ->
  forall (path : list (list F)) (a b : F) (x : nat) (root : list F),
  authenticate as_bases (pos_hash zero perm) (pos_two zero perm) deqb path
    (CExt [of_bases a b; of_bases zero zero]) x root =
  authenticate as_bases (pos_hash zero perm) (pos_two zero perm) deqb path (CBase [a; b]) x root.
Proof. exact @kind_unchecked. Qed.
Print Assumptions C42_kind_forgery.

(** Values beyond the first of the right batch of a single-column opening are not authenticated. *)
Theorem C42_width_forgery :
  forall (B E D : Type) (as_bases : E -> list B) (hb : list B -> D) (h2 : D -> D -> D) 
    (deqb : D -> D -> bool) (path : list D) (a b : B) (junk : list B) (x : nat) (root : D),
  authenticate_batch as_bases hb h2 deqb path (CBase [a]) (CBase (b :: junk)) x root =
  authenticate_batch as_bases hb h2 deqb path (CBase [a]) (CBase [b]) x root.
Proof. exact @width_unchecked. Qed.
Print Assumptions C42_width_forgery.

(** Eight elements and the two digests made of their halves have the same hash. *)
Theorem C42_no_domain_separation :
  forall (F : Type) (zero : F) (perm : list F -> list F),
  (forall s : list F, length s = 8 -> length (perm s) = 8) ->
  forall x y : list F, length x = 4 -> length y = 4 -> hash_or_noop zero perm (x ++ y) = compress zero perm x y.
Proof. exact @hash_is_compress. Qed.
Print Assumptions C42_no_domain_separation.

(** An input whose length is not a multiple of four has the hash of an explicit longer input. *)
Theorem C42_no_padding :
  forall (F : Type) (zero : F) (perm : list F -> list F),
  (forall s : list F, length s = 8 -> length (perm s) = 8) ->
  forall xs : list F,
  4 < length xs ->
  length xs mod 4 <> 0 ->
  exists ys : list F, ys <> [] /\ hash_or_noop zero perm (xs ++ ys) = hash_or_noop zero perm xs.
Proof. exact @no_padding. Qed.
Print Assumptions C42_no_padding.

(** Inputs of fewer than four elements have the hash of the input extended by zero. *)
Theorem C42_short_padding :
  forall (F : Type) (zero : F) (perm : list F -> list F) (xs : list F),
  length xs < 4 -> hash_or_noop zero perm (xs ++ [zero]) = hash_or_noop zero perm xs.
Proof. exact @short_padding. Qed.
Print Assumptions C42_short_padding.

Example C42_ex_padding : ph [1; 2; 3; 4; 5]%Z = ph ([1; 2; 3; 4; 5] ++ [27; 40; 23])%Z /\ ph [1; 2]%Z = ph [1; 2; 0]%Z.
Proof. vm_compute. split; reflexivity. Qed.

(** For every permutation there is one function from histories to challenges such that every use of the transcript gets the challenges of that function: the abstract transcript of all other models. Hence equal histories give equal challenges. *)
Theorem C44_history :
  forall (F : Type) (K : field) (zero : F) (perm : list F -> list F) (of_u64 : Z -> F) 
    (as_bases : K -> list F) (of_bases : F -> F -> K),
  (forall s : list F, length s = 8 -> length (perm s) = 8) ->
  forall label : list Z,
  exists T : hist -> K,
    forall ops : list top,
    (forall xs : list F, ~ In (OElems xs) ops) ->
    exists d' : duplex,
      tr_run perm of_u64 as_bases of_bases ops (tr_new zero perm of_u64 label) = Some (abs_run T ops [], d').
Proof. exact @history. Qed.
Print Assumptions C44_history.

(** Two parties whose operations agree up to a point have drawn the same challenges up to that point, whatever they do afterwards. *)
Theorem C44_agreement :
  forall (F : Type) (K : field) (perm : list F -> list F) (of_u64 : Z -> F) (as_bases : K -> list F)
    (of_bases : F -> F -> K),
  (forall s : list F, length s = 8 -> length (perm s) = 8) ->
  forall (pre o1 o2 : list top) (d : duplex) (cs1 cs2 : list K) (d1 d2 : duplex),
  dwf d ->
  tr_run perm of_u64 as_bases of_bases (pre ++ o1) d = Some (cs1, d1) ->
  tr_run perm of_u64 as_bases of_bases (pre ++ o2) d = Some (cs2, d2) ->
  firstn (reads pre) cs1 = firstn (reads pre) cs2 /\ length (firstn (reads pre) cs1) = reads pre.
Proof. exact @agreement. Qed.
Print Assumptions C44_agreement.

(** No sequence of operations panics, and each read gives one challenge. *)
Theorem C44_total :
  forall (F : Type) (K : field) (perm : list F -> list F) (of_u64 : Z -> F) (as_bases : K -> list F)
    (of_bases : F -> F -> K),
  (forall s : list F, length s = 8 -> length (perm s) = 8) ->
  forall (ops : list top) (d : duplex),
  dwf d ->
  exists (cs : list K) (d' : duplex),
    tr_run perm of_u64 as_bases of_bases ops d = Some (cs, d') /\ dwf d' /\ length cs = reads ops.
Proof. exact @tr_run_total. Qed.
Print Assumptions C44_total.

Definition tob (x : F101) : list Z := [fpv 101 x; 0]%Z.
Definition tof (a b : Z) : F101 := q (a + 10 * b).
Definition trun := tr_run toy_perm (fun z => z mod 101)%Z tob tof.
Definition tnew := tr_new 0%Z toy_perm (fun z => z mod 101)%Z [109; 50; 118; 101; 99]%Z.
Example C44_ex_run :
  match trun [OMsg [65; 66]%Z; OExts [q 5; q 6]; ORead; ORead; OExts [q 7]; ORead] tnew,
        trun [OMsg [65; 66]%Z; OExts [q 5; q 6]; ORead; ORead; OExts [q 8]; ORead] tnew with
  | Some (c1, _), Some (c2, _) => map (fpv 101) c1 = [29; 7; 63]%Z /\ map (fpv 101) c2 = [29; 7; 66]%Z
  | _, _ => False end.
Proof. vm_compute. split; reflexivity. Qed.

(** Forks for different indices have different states, for every injective permutation. *)
Theorem C44_forks :
  forall (F : Type) (perm : list F -> list F) (of_u64 : Z -> F) (d : duplex) (n i j : nat),
  dwf d ->
  (forall s1 s2 : list F, perm s1 = perm s2 -> s1 = s2) ->
  of_u64 (Z.of_nat i) <> of_u64 (Z.of_nat j) ->
  i < n -> j < n -> nth i (tr_fork perm of_u64 d n) d <> nth j (tr_fork perm of_u64 d n) d.
Proof. exact @forks_distinct. Qed.
Print Assumptions C44_forks.

(** Different messages of one length are absorbed as different elements, provided every group of eight bytes is below the modulus. *)
Theorem C44_encoding_length :
  forall m1 m2 : list Z,
  Forall byte m1 ->
  Forall byte m2 ->
  canonical (Z.pos gold) m1 ->
  canonical (Z.pos gold) m2 ->
  length m1 = length m2 ->
  bytes_to_field_elements gold_of_u64 m1 = bytes_to_field_elements gold_of_u64 m2 -> m1 = m2.
Proof. exact @gold_enc_length. Qed.
Print Assumptions C44_encoding_length.

(** Different messages that do not end in a zero byte are absorbed as different elements, under the same proviso. *)
Theorem C44_encoding_no_zero :
  forall m1 m2 : list Z,
  Forall byte m1 ->
  Forall byte m2 ->
  canonical (Z.pos gold) m1 ->
  canonical (Z.pos gold) m2 ->
  last m1 1%Z <> 0%Z ->
  last m2 1%Z <> 0%Z ->
  bytes_to_field_elements gold_of_u64 m1 = bytes_to_field_elements gold_of_u64 m2 -> m1 = m2.
Proof. exact @gold_enc_strip. Qed.
Print Assumptions C44_encoding_no_zero.

(** Different ASCII labels are absorbed as different elements. *)
Theorem C44_encoding_ascii :
  forall m1 m2 : list Z,
  Forall (fun b : Z => (0 < b < 128)%Z) m1 ->
  Forall (fun b : Z => (0 < b < 128)%Z) m2 ->
  bytes_to_field_elements gold_of_u64 m1 = bytes_to_field_elements gold_of_u64 m2 -> m1 = m2.
Proof. exact @gold_enc_ascii. Qed.
Print Assumptions C44_encoding_ascii.

Example C44_ex_encoding : Forall byte [73; 110; 116; 101; 114; 110; 97; 108; 32; 114]%Z /\ canonical (Zpos gold) [73; 110; 116; 101; 114; 110; 97; 108; 32; 114]%Z /\
  map (fpv gold) (bytes_to_field_elements gold_of_u64 [73; 110; 116; 101; 114; 110; 97; 108; 32; 114]%Z) = [7809644666444607049; 29216]%Z.
Proof.
  split; [repeat constructor; unfold byte; lia|]. split; [|vm_compute; reflexivity]. intros c [<-|[<-|[]]]; vm_compute; reflexivity.
Qed.

(** Messages that differ in trailing zero bytes of the last group are absorbed alike. *)
Theorem C44_trailing_zeros :
  forall (m : list Z) (k : nat),
  0 < length m mod 8 ->
  length m mod 8 + k <= 8 ->
  bytes_to_field_elements gold_of_u64 (m ++ repeat 0%Z k) = bytes_to_field_elements gold_of_u64 m.
Proof. exact @gold_enc_zero. Qed.
Print Assumptions C44_trailing_zeros.

(** Two different messages of eight bytes are absorbed alike. *)
Theorem C44_modulus_refuted :
  exists m1 m2 : list Z,
    Forall byte m1 /\
    Forall byte m2 /\
    length m1 = 8 /\
    length m2 = 8 /\ m1 <> m2 /\ bytes_to_field_elements gold_of_u64 m1 = bytes_to_field_elements gold_of_u64 m2.
Proof. exact @gold_enc_wrap. Qed.
Print Assumptions C44_modulus_refuted.

(** A message and its two parts, cut at a multiple of eight bytes, are absorbed alike. *)
Theorem C44_framing :
  forall (F : Type) (perm : list F -> list F) (of_u64 : Z -> F) (m1 m2 : list Z) (d : duplex),
  length m1 mod 8 = 0 ->
  tr_message perm of_u64 d (m1 ++ m2) = tr_message perm of_u64 (tr_message perm of_u64 d m1) m2.
Proof. exact @framing. Qed.
Print Assumptions C44_framing.

(** A message and the field elements that encode it are absorbed alike. *)
Theorem C44_kinds :
  forall (F : Type) (perm : list F -> list F) (of_u64 : Z -> F) (m : list Z) (d : duplex),
  tr_message perm of_u64 d m = tr_elements perm d (bytes_to_field_elements of_u64 m).
Proof. exact @kinds. Qed.
Print Assumptions C44_kinds.

(** A partial block and the block completed by the cells of the state lead to the same challenge, although one more element has been absorbed. *)
Theorem C44_partial_block :
  forall (F : Type) (K : field) (perm : list F -> list F) (of_bases : F -> F -> K),
  (forall s : list F, length s = 8 -> length (perm s) = 8) ->
  forall (d : duplex) (x : F) (xs : list F),
  dwf d ->
  d_in d = [] ->
  let r := x :: xs in
  length r < 4 ->
  let ys := firstn (4 - length r) (skipn (length r) (d_state d)) in
  tr_read perm of_bases (tr_elements perm d (r ++ ys)) = tr_read perm of_bases (tr_elements perm d r) /\
  length ys = 4 - length r.
Proof. exact @partial_block. Qed.
Print Assumptions C44_partial_block.

Example C44_ex_partial : match tr_read toy_perm tof (tr_elements toy_perm (dup_new 0%Z) [5]%Z), tr_read toy_perm tof (tr_elements toy_perm (dup_new 0%Z) [5; 0; 0; 0]%Z) with
  | Some (a, _), Some (b, _) => fpv 101 a = fpv 101 b | _, _ => False end /\ dwf (dup_new 0%Z) /\ d_in (dup_new 0%Z) = [].
Proof. split; [vm_compute; reflexivity|]. split; [apply dup_new_wf|reflexivity]. Qed.
(** So the claim about messages fails: two different messages, the same challenge. *)
Theorem C44_messages_refuted : forall perm : list Z -> list Z, (forall s, length s = 8 -> length (perm s) = 8) -> forall label,
  exists m1 m2, m1 <> m2 /\ tr_message perm (fun z => z mod Zpos gold)%Z (tr_new 0%Z perm (fun z => z mod Zpos gold)%Z label) m1
                          = tr_message perm (fun z => z mod Zpos gold)%Z (tr_new 0%Z perm (fun z => z mod Zpos gold)%Z label) m2.
Proof.
  intros perm Hp label. exists [1]%Z, [1; 0]%Z. split; [discriminate|]. unfold tr_message. f_equal.
Qed.
Print Assumptions C44_messages_refuted.

