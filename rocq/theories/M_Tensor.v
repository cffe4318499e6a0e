(** Model of zkml/src/tensor.rs: shapes, padding, matrix products, indexing, slicing, concatenation,
    axis permutation, expansion, broadcasting and max pooling.

    Conventions: a panic (assertion, out-of-range index, usize underflow, division or chunk size
    zero) is [None]; usize is [nat] (the products of dimensions are lengths of vectors that exist in
    memory, overflow of the product itself is not modelled); [par_iter] loops that write one cell per
    index are maps over the index range, whatever the schedule.  [og_shape], a second shape field
    that only the convolution code reads, is left out.  [T::default()] is the parameter [zero]. *)
From Coq Require Import List Arith Lia Bool ZArith.
From Verif Require Import ListAux FieldDef M_Mle.
Import ListNotations.

(** usize subtraction: underflow panics (in a release build it wraps; the theorems show it does not
    happen on the shapes they speak about). *)
Definition csub (a b : nat) : option nat := if b <=? a then Some (a - b) else None.
(** usize::next_power_of_two (0 and 1 give 1). *)
Definition npow2 (n : nat) : nat := 2 ^ Nat.log2_up n.
(** [Shape::product] (tensor.rs:2212-2214). *)
Definition sprod (s : list nat) : nat := fold_right Nat.mul 1 s.
(** The iterator [scan] of [Shape::strides]: running products, each emitted before its factor. *)
Fixpoint scan_mul (st : nat) (l : list nat) : list nat :=
  match l with [] => [] | x :: t => st :: scan_mul (st * x) t end.
(** [Shape::strides] (tensor.rs:2124-2138). *)
Definition strides (s : list nat) : list nat := rev (scan_mul 1 (rev s)).
(** [Shape::insert] / [Shape::unsqueeze] (tensor.rs:2104-2108, 2154-2158); [Vec::insert] panics past the end. *)
Definition shape_insert (index v : nat) (s : list nat) : option (list nat) :=
  if index <=? length s then Some (firstn index s ++ v :: skipn index s) else None.
(** [Shape::permute] (tensor.rs:2160-2162). *)
Definition shape_permute (p s : list nat) : option (list nat) := omapM (fun i => nth_error s i) p.
(** [Shape::is_power_of_two], [Shape::next_power_of_two] (tensor.rs:2209-2211, 2163-2165; lib.rs:217-221). *)
Definition shape_is_pow2 (s : list nat) : bool := forallb is_pow2 s.
Definition shape_npow2 (s : list nat) : list nat := map npow2 s.

(** Sub-slice [&l[a..b]]. *)
Definition slice {A} (a b : nat) (l : list A) : option (list A) :=
  if (a <=? b) && (b <=? length l) then Some (firstn (b - a) (skipn a l)) else None.
(** [Vec::resize] *)
Definition resize {A} (n : nat) (d : A) (l : list A) : list A := firstn n l ++ repeat d (n - length l).
(** [slice::swap] *)
Definition swap {A} (i j : nat) (l : list A) : option (list A) :=
  match nth_error l i, nth_error l j with
  | Some x, Some y => Some (upd j x (upd i y l))
  | _, _ => None
  end.
(** [slice::chunks]: a chunk size of zero panics. *)
Definition ochunks {A} (n : nat) (l : list A) : option (list (list A)) :=
  if n =? 0 then None else Some (chunks n l).

Record ten (A : Type) := mkTen { sh : list nat; dat : list A }.
Arguments mkTen {A}. Arguments sh {A}. Arguments dat {A}.

Section Tensor.
Context {A : Type}.
Variable zero : A.
Implicit Types t : ten A.

(** [Tensor::new] (tensor.rs:654-667). *)
Definition tensor_new (s : list nat) (d : list A) : option (ten A) :=
  if sprod s =? length d then Some (mkTen s d) else None.
(** [is_vector], [is_matrix] (tensor.rs:684-690). *)
Definition is_vector t : bool :=
  match sh t with [_] => true | [a; _] => a =? 1 | _ => false end.
Definition is_matrix t : bool := length (sh t) =? 2.
(** [nrows_2d], [ncols_2d] (tensor.rs:697-707, 710-723). *)
Definition nrows_2d t : option nat :=
  let n := match sh t with [r; _] => r | [a; _; c; _] => a * c * c | _ => 0 end in
  if n =? 0 then None else Some n.
Definition ncols_2d t : option nat :=
  let n := match sh t with [_; c] => c | [_; b; c; _] => b * c * c | _ => 0 end in
  if n =? 0 then None else Some n.
(** [flatten] (tensor.rs:794-802), [reshape] (tensor.rs:843-854). *)
Definition flatten t : ten A := mkTen [length (dat t)] (dat t).
Definition reshape t (s : list nat) : option (ten A) :=
  if sprod (sh t) =? sprod s then Some (mkTen s (dat t)) else None.

(** [pad_1d] (tensor.rs:985-993). *)
Definition pad_1d t (n : nat) : option (ten A) :=
  if length (sh t) =? 1 then Some (mkTen [n] (resize n zero (dat t))) else None.
(** [recursive_pad] (tensor.rs:1017-1043). *)
Fixpoint recursive_pad (pv : A) (dims : list nat) (data : list A) : option (list A) :=
  match dims with
  | [] => None
  | [n] => Some (firstn (npow2 n) (data ++ repeat pv (npow2 n)))
  | n :: rest =>
      cs <- ochunks (sprod rest) data ;;
      us <- omapM (recursive_pad pv rest) cs ;;
      u0 <- nth_error us 0 ;;
      Some (concat (resize (npow2 n) (repeat pv (length u0)) us))
  end.
(** [generic_pad_next_power_of_two], [pad_next_power_of_two] (tensor.rs:996-1016). *)
Definition generic_pad_next_power_of_two (pv : A) t : option (ten A) :=
  if shape_is_pow2 (sh t) then match sh t with [] => None | _ => Some t end
  else d <- recursive_pad pv (sh t) (dat t) ;; tensor_new (shape_npow2 (sh t)) d.
Definition pad_next_power_of_two t : option (ten A) := generic_pad_next_power_of_two zero t.

(** The inner loop of [pad_to_shape] (tensor.rs:1106-1115) walks the coordinates from the last to
    the first: here the coordinates, the old dimensions and the distances are given in reverse. *)
Fixpoint pad_step (ros rdist rc : list nat) (target : nat) : option (list nat * nat) :=
  match rc, ros, rdist with
  | [], _, _ => Some ([], target)
  | e :: rc', s :: ros', d :: rdist' =>
      if e =? 0 then
        e' <- csub s 1 ;; target' <- csub target d ;;
        r <- pad_step ros' rdist' rc' target' ;; Some (e' :: fst r, snd r)
      else target' <- csub target 1 ;; Some (e - 1 :: rc', target')
  | _, _, _ => None
  end.
(** The [loop] (tensor.rs:1097-1116), from the last old position down to 0. *)
Fixpoint pad_loop (ros rdist : list nat) (original : nat) (data : list A) (rc : list nat) (target : nat)
  : option (list A) :=
  match original with
  | O => None                                            (* [original -= 1] underflows *)
  | S o =>
      data' <- swap o target data ;;
      match o with
      | O => Some data'
      | S _ => r <- pad_step ros rdist rc target ;; pad_loop ros rdist o data' (fst r) (snd r)
      end
  end.
(** [pad_to_shape] (tensor.rs:1054-1119). *)
Definition pad_to_shape t (ns : list nat) : option (ten A) :=
  if length ns =? length (sh t) then
    distance <- omapM (fun p => csub (snd p) (fst p)) (combine (sh t) ns) ;;
    coord <- omapM (fun v => csub v 1) (sh t) ;;
    let st := strides ns in
    let target := fold_right Nat.add 0 (map (fun p => fst p * snd p) (combine coord st)) in
    let dist := map (fun p => fst p * snd p) (combine distance st) in
    d <- pad_loop (rev (sh t)) (rev dist) (sprod (sh t)) (resize (sprod ns) zero (dat t)) (rev coord) target ;;
    Some (mkTen ns d)
  else None.
(** [reshape_to_fit_inplace_2d] (tensor.rs:1302-1334). *)
Definition reshape_to_fit_2d t (ns : list nat) : option (ten A) :=
  old_rows <- nrows_2d t ;; old_cols <- ncols_2d t ;;
  match ns with
  | [new_rows; new_cols] =>
      if (old_rows <=? new_rows) && (old_cols <=? new_cols) then
        d <- omapM (fun idx =>
               let i := idx / new_cols in let j := idx mod new_cols in
               if (i <? old_rows) && (j <? old_cols) then nth_error (dat t) (i * old_cols + j) else Some zero)
             (seq 0 (new_rows * new_cols)) ;;
        tensor_new ns d
      else None
  | _ => None
  end.
(** [transpose] (tensor.rs:1257-1273). *)
Definition transpose t : option (ten A) :=
  match sh t with
  | [m; n] =>
      d <- omapM (fun idx => let i := idx mod m in let j := idx / m in nth_error (dat t) (i * n + j))
                 (seq 0 (n * m)) ;;
      Some (mkTen [n; m] d)
  | _ => None
  end.
(** [concat_matvec_col] (tensor.rs:1275-1300). *)
Definition concat_matvec_col t (v : ten A) : option (ten A) :=
  match sh t, sh v with
  | [rows; cols], vl :: _ =>
      if is_vector v && (rows =? vl) then
        d <- omapM (fun i => r <- slice (i * cols) ((i + 1) * cols) (dat t) ;;
                             x <- nth_error (dat v) i ;; Some (r ++ [x])) (seq 0 rows) ;;
        Some (mkTen [rows; cols + 1] (concat d))
      else None
  | _, _ => None
  end.
(** [get_idx] (tensor.rs:1585-1603): the last accessor is not compared with the last dimension. *)
Definition get_idx t (acc : list nat) : option nat :=
  if length (sh t) =? length acc then
    match rev acc, rev (sh t) with
    | a0 :: ra, s0 :: rs =>
        r <- ofold (fun (st : nat * nat) (p : nat * nat) =>
               if fst p <? snd p then Some (fst st + fst p * snd st, snd st * snd p) else None)
             (combine ra rs) (a0, s0) ;;
        Some (fst r)
    | _, _ => None
    end
  else None.
(** [get] (tensor.rs:1607-1610). *)
Definition tget t (acc : list nat) : option A := i <- get_idx t acc ;; nth_error (dat t) i.

(** [pad_matrix_to_ignore_garbage] (tensor.rs:1627-1675); a zero divisor panics. *)
Definition pad_matrix_to_ignore_garbage t (og pad mp : list nat) : option (ten A) :=
  match og, pad, mp, sh t with
  | [og0; og1; og2], [pd0; pd1; pd2], [mp0; mp1], [r; c] =>
      if (mp0 * mp1 =? 0) || negb (pd0 * pd1 * pd2 =? 0) then
        d <- omapM (fun loc =>
               let row := loc / mp1 in
               let channel := (loc / (pd1 * pd2)) mod pd0 in
               let h_in := (loc / pd2) mod pd1 in
               let w_in := loc mod pd2 in
               if (row <? r) && (channel <? og0) && (h_in <? og1) && (w_in <? og2)
               then nth_error (dat t) (channel * og1 * og2 + h_in * og2 + w_in + row * c)
               else Some zero)
             (seq 0 (mp0 * mp1)) ;;
        tensor_new mp d
      else None
  | _, _, _, _ => None
  end.
(** zkml/src/layers/transformer/mha.rs:502-568 [pad_matrix_to_ignore_mha_garbage]; an [Err] is [None]. *)
Definition pad_matrix_to_ignore_mha_garbage t (og pad mp : list nat) : option (ten A) :=
  match og, pad, mp, sh t with
  | [_; num_heads; head_dim], [_; padded_num_heads; padded_head_dim], [mp0; ncols], [_; c] =>
      let nrows := Nat.max mp0 (padded_num_heads * padded_head_dim) in
      if (nrows * ncols =? 0) || negb (padded_head_dim =? 0) then
        d <- omapM (fun i =>
               let row := i / ncols in
               let col := i mod ncols in
               if (row mod padded_head_dim <? head_dim) && (row / padded_head_dim <? num_heads) && (col <? c)
               then nth_error (dat t) ((row / padded_head_dim * head_dim + row mod padded_head_dim) * c + col)
               else Some zero)
             (seq 0 (nrows * ncols)) ;;
        tensor_new [nrows; ncols] d
      else None
  | _, _, _, _ => None
  end.

(** [permute3d] (tensor.rs:1769-1800): three nested loops that write one cell each. *)
Definition permute3d t (order : list nat) : option (ten A) :=
  match sh t, order with
  | [a; b; c], [o0; o1; o2] =>
      if forallb (fun x => x <? 3) order then
        let dim := fun o => nth o [a; b; c] 0 in
        let new_a := dim o0 in let new_b := dim o1 in let new_c := dim o2 in
        d <- ofold (fun data (p : nat * (nat * nat)) =>
               let '(i, (j, k)) := p in
               let old_loc := i * b * c + j * c + k in
               let pos := fun o => nth o [i; j; k] 0 in
               let new_loc := pos o0 * new_b * new_c + pos o1 * new_c + pos o2 in
               if new_loc <? new_a * new_b * new_c then
                 if new_loc <? length data then
                   x <- nth_error (dat t) old_loc ;; Some (upd new_loc x data)
                 else None
               else None)
             (list_prod (seq 0 a) (list_prod (seq 0 b) (seq 0 c))) (repeat zero (a * b * c)) ;;
        Some (mkTen [new_a; new_b; new_c] d)
      else None
  | _, _ => None
  end.

(** [expand] (tensor.rs:1805-1866). *)
Definition expand_ok (p : nat * nat) : bool :=            (* (new_dim, dim), tensor.rs:1823-1837 *)
  let '(new_dim, dim) := p in
  if new_dim =? 0 then false else if negb (dim =? 1) then dim =? new_dim else true.
Definition expand_step (st : list A * nat) (p : nat * nat) : option (list A * nat) :=   (* tensor.rs:1846-1860 *)
  let '(data, chunk_size) := st in let '(exp_dim, current_dim) := p in
  if current_dim =? exp_dim then Some (data, chunk_size * exp_dim)
  else cs <- ochunks chunk_size data ;;
       Some (flat_map (fun chunk => concat (repeat chunk exp_dim)) cs, chunk_size * exp_dim).
Definition expand t (es : list nat) : option (ten A) :=
  if length es <? length (sh t) then None else
  let padded := repeat 1 (length es - length (sh t)) ++ sh t in
  if forallb expand_ok (combine es padded) then
    r <- ofold expand_step (rev (combine es padded)) (dat t, 1) ;; tensor_new es (fst r)
  else None.

(** [slice_3d], [slice_2d] (tensor.rs:1911-1922, 1928-1938). *)
Definition slice_3d t (start stop : nat) : option (ten A) :=
  match sh t with
  | [a; b; c] =>
      if (start <? a) && (stop <=? a) then
        d <- slice (b * c * start) (b * c * stop) (dat t) ;; Some (mkTen [stop - start; b; c] d)
      else None
  | _ => None
  end.
Definition slice_2d t (start stop : nat) : option (ten A) :=
  match sh t with
  | [a; b] =>
      d <- slice (start * b) (stop * b) (dat t) ;; n <- csub stop start ;; Some (mkTen [n; b] d)
  | _ => None
  end.
(** [slice_on_dim], [slice_last_dim] (tensor.rs:1957-1971, 1944-1947). *)
Definition slice_on_dim t (dim : nat) : option (list (list A) * list nat) :=
  if dim <? length (sh t) then
    let '(st, s) := if dim <? length (sh t) - 1 then (sprod (skipn (dim + 1) (sh t)), skipn (dim + 1) (sh t))
                    else (sprod (sh t), sh t) in
    cs <- ochunks st (dat t) ;; Some (cs, s)
  else None.
Definition slice_last_dim t : option (list (list A)) :=
  d <- csub (length (sh t)) 2 ;; r <- slice_on_dim t d ;; Some (fst r).
(** [concat] (tensor.rs:1979-2001). *)
Definition tconcat t (o : ten A) : option (ten A) :=
  let common := Nat.min (length (sh t)) (length (sh o)) in
  added <- (if common <? length (sh t) then
              if forallb (fun p => fst p =? snd p) (firstn common (combine (rev (sh t)) (rev (sh o)))) then
                if common + 1 =? length (sh t) then Some 1 else None
              else None
            else if common =? length (sh t) then hd_error (sh o) else None) ;;
  match sh t with
  | [] => None
  | s0 :: s => Some (mkTen (s0 + added :: s) (dat t ++ dat o))
  end.
(** [stack_all] (tensor.rs:2007-2016). *)
Definition stack_all (ts : list (ten A)) : option (ten A) :=
  match ts with [] => None | t :: r => ofold tconcat r t end.
(** [unsqueeze] (tensor.rs:2018-2025). *)
Definition unsqueeze t (i : nat) : option (ten A) :=
  s <- shape_insert i 1 (sh t) ;; Some (mkTen s (dat t)).

(** *** Arithmetic; [Sum] starts from [zero] and adds from the left. *)
Variables add mul : A -> A -> A.
Definition tsum (l : list A) : A := fold_left add l zero.
(** [add], [add_dim2] (tensor.rs:889-906, 909-928). *)
Definition tadd t (o : ten A) : option (ten A) :=
  if sprod (sh t) =? sprod (sh o) then
    d <- omapM (fun i => x <- nth_error (dat t) i ;; y <- nth_error (dat o) i ;; Some (add x y))
               (seq 0 (length (dat t))) ;;
    Some (mkTen (sh t) d)
  else None.
Definition add_dim2 t (o : ten A) : option (ten A) :=
  match sh t, sh o with
  | [_; n], [n'] =>
      if n =? n' then
        cs <- ochunks n (dat t) ;;
        Some (mkTen (sh t) (flat_map (fun c => map (fun p => add (fst p) (snd p)) (combine c (dat o))) cs))
      else None
  | _, _ => None
  end.
(** [matmul] (tensor.rs:1122-1152). *)
Definition matmul t (o : ten A) : option (ten A) :=
  match sh t, sh o with
  | [m; n], [n2; p] =>
      if n =? n2 then
        d <- omapM (fun index =>
               let i := index / p in let j := index mod p in
               terms <- omapM (fun k => x <- nth_error (dat t) (i * n + k) ;;
                                        y <- nth_error (dat o) (k * p + j) ;; Some (mul x y)) (seq 0 n) ;;
               Some (tsum terms)) (seq 0 (m * p)) ;;
        Some (mkTen [m; p] d)
      else None
  | _, _ => None
  end.
(** [matvec] (tensor.rs:1155-1173). *)
Definition matvec t (v : ten A) : option (ten A) :=
  match sh t, sh v with
  | [m; n], vl :: _ =>
      if is_vector v && (n =? vl) then
        d <- omapM (fun i =>
               terms <- omapM (fun j => x <- nth_error (dat t) (i * n + j) ;;
                                        y <- nth_error (dat v) j ;; Some (mul x y)) (seq 0 n) ;;
               Some (tsum terms)) (seq 0 m) ;;
        Some (mkTen [m] d)
      else None
  | _, _ => None
  end.
End Tensor.

(** [get_broadcasted_shape] (tensor.rs:2285-2348): the closure [compatibility] (2290-2301) ... *)
Definition compatibility (a b : nat) : option nat :=
  if a =? 1 then Some b else if b =? 1 then Some a else if a =? b then Some a else None.
(** ... and the three cases on the ranks. *)
Definition get_broadcasted_shape (a b : list nat) : option (list nat) :=
  match length a ?= length b with
  | Lt => omapM (fun p => compatibility (snd p) (fst p)) (combine b (repeat 1 (length b - length a) ++ a))
  | Eq => omapM (fun p => compatibility (snd p) (fst p)) (combine b a)
  | Gt => omapM (fun p => compatibility (fst p) (snd p)) (combine a (repeat 1 (length a - length b) ++ b))
  end.

(** *** Max pooling, on quantised elements.
    [cmp_max] (tensor.rs:58-64). *)
Definition cmp_max (a b : Z) : Z := match (a ?= b)%Z with Gt => a | Eq => a | Lt => b end.
(** [maxpool2d] (tensor.rs:1335-1383). *)
Definition maxpool2d (t : ten Z) (kernel stride : nat) : option (ten Z) :=
  dims <- csub (length (sh t)) 2 ;;
  let h := nth dims (sh t) 0 in let w := nth (dims + 1) (sh t) 0 in
  hk <- csub h kernel ;; wk <- csub w kernel ;;
  if stride =? 0 then None else
  let out_h := hk / stride + 1 in let out_w := wk / stride + 1 in
  let outer := sprod (firstn dims (sh t)) in
  d <- omapM (fun idx =>
         let n := idx / (out_h * out_w) in
         let i := (idx / out_w) mod out_h in
         let j := idx mod out_w in
         let base := n * (h * w) in
         m0 <- nth_error (dat t) (base + (i * stride) * w + j * stride) ;;
         ofold (fun mx (p : nat * nat) =>
           v <- nth_error (dat t) (base + (i * stride + fst p) * w + (j * stride + snd p)) ;;
           Some (cmp_max mx v)) (list_prod (seq 0 kernel) (seq 0 kernel)) m0)
       (seq 0 (outer * out_h * out_w)) ;;
  Some (mkTen (upd (dims + 1) out_w (upd dims out_h (sh t))) d).
(** [padded_maxpool2d] (tensor.rs:1386-1432). *)
Definition padded_maxpool2d (t : ten Z) : option (ten Z * ten Z) :=
  mp <- maxpool2d t 2 2 ;;
  dims <- csub (length (sh t)) 2 ;;
  let h := nth dims (sh t) 0 in let w := nth (dims + 1) (sh t) 0 in
  if (h mod 2 =? 0) && (w mod 2 =? 0) then
    let mh := (h - 2) / 2 + 1 in let mw := (w - 2) / 2 + 1 in
    let outer := sprod (firstn dims (sh t)) in
    d <- omapM (fun idx =>
           let n := idx / (h * w) in let i := (idx / w) mod h / 2 in let j := idx mod w / 2 in
           nth_error (dat mp) (n * mh * mw + i * mw + j))
         (seq 0 (outer * h * w)) ;;
    Some (mp, mkTen (sh t) d)
  else None.
