(** Model of sfepy/linalg/sparse.py: composition of sparse block matrices and
    saving of sparse matrices.  A sparse matrix is a list of items
    (row, column, value), duplicates are summed (COO format). *)
From Verif Require Import Base.
Set Implicit Arguments.
Local Open Scope Z_scope.

(** A block: shape and items.  [None] is the integer 0 (an all-zero block). *)
Record coo := mkcoo { c_nr : nat; c_nc : nat; c_items : list (nat * nat * Z) }.
Definition block := option coo.

(** The argument [row_sizes]: missing, integers, or slices (start, stop). *)
Inductive sizes := SNone | SInts (l : list nat) | SSlices (l : list (nat * nat)).

Definition size_err {A} : res A := Err ValueError.

(** [len(row_sizes)]. *)
Definition sizes_len (s : sizes) (n : nat) : nat :=
  match s with SNone => n | SInts l => length l | SSlices l => length l end.
(** sparse.py l.57-83 [_normalize_sizes] and l.123-136; -1 marks an unknown size. *)
Definition init_sizes (s : sizes) (n : nat) : list Z :=
  match s with
  | SNone => repeat (-1) n
  | SInts l => map Z.of_nat l
  | SSlices l => map (fun p => Z.of_nat (snd p) - Z.of_nat (fst p)) l
  end.

(** The nonzero blocks with their positions, in the order of the loops
    [for ir, row in enumerate(blocks): for ic, mtx in enumerate(row)]. *)
Fixpoint enum_row (ir ic : nat) (row : list block) : list (nat * nat * coo) :=
  match row with
  | [] => []
  | None :: t => enum_row ir (S ic) t
  | Some m :: t => (ir, ic, m) :: enum_row ir (S ic) t
  end.
Fixpoint enum_blocks (ir : nat) (blocks : list (list block)) : list (nat * nat * coo) :=
  match blocks with
  | [] => []
  | row :: t => enum_row ir 0 row ++ enum_blocks (S ir) t
  end.

(** [if rs[i] == -1: rs[i] = n elif rs[i] != n: raise ValueError]. *)
Definition fix_size (rs : list Z) (i n : nat) : res (list Z) :=
  let v := nth i rs 0 in
  if v =? -1 then Ok (upd rs i (Z.of_nat n))
  else if v =? Z.of_nat n then Ok rs else Err ValueError.

(** sparse.py l.141-162: the first loop. *)
Fixpoint fix_sizes (ncs : nat) (bs : list (nat * nat * coo)) (rs cs : list Z)
  : res (list Z * list Z) :=
  match bs with
  | [] => Ok (rs, cs)
  | (ir, ic, m) :: t =>
      if Nat.leb ncs ic then Err ValueError else
      do rs' <- fix_size rs ir (c_nr m);
      do cs' <- fix_size cs ic (c_nc m);
      fix_sizes ncs t rs' cs'
  end.

(** [nm.cumsum(nm.r_[0, rs])]. *)
Fixpoint cumsum (a : Z) (l : list Z) : list Z :=
  match l with [] => [a] | x :: t => a :: cumsum (a + x) t end.

(** sparse.py l.170-184: offsets and the total size.  The offsets of slices are
    their starts. *)
Definition offsets (s : sizes) (rs : list Z) : list Z * Z :=
  match s with
  | SSlices l => (map (fun p => Z.of_nat (fst p)) l, Z.of_nat (snd (last l (0, 0)%nat)))
  | _ => let o := cumsum 0 rs in (o, last o 0)
  end.

(** sparse.py l.186-199: the second loop. *)
Definition shift_items (ro co : list Z) (b : nat * nat * coo) : list (Z * Z * Z) :=
  let '(ir, ic, m) := b in
  map (fun it => let '(i, j, v) := it in
                 (Z.of_nat i + nth ir ro 0, Z.of_nat j + nth ic co 0, v)) (c_items m).

(** The composed matrix: shape and items.  scipy's [coo_array] raises ValueError
    for negative or too large indices and for negative shapes. *)
Record zcoo := mkzcoo { z_nr : Z; z_nc : Z; z_items : list (Z * Z * Z) }.
Definition make_coo (nr nc : Z) (items : list (Z * Z * Z)) : res zcoo :=
  if (0 <=? nr) && (0 <=? nc)
     && forallb (fun it => let '(i, j, _) := it in
                  (0 <=? i) && (i <? nr) && (0 <=? j) && (j <? nc)) items
  then Ok (mkzcoo nr nc items) else Err ValueError.

(** sparse.py l.85-206 [compose_sparse].  The checks of l.164-168
    [nm.any(rs == -1)] compare a Python list with an integer: they are always
    False and are not modelled.  [nm.concatenate] of no arrays raises
    ValueError. *)
Definition compose_sparse (blocks : list (list block)) (row_sizes col_sizes : sizes) : res zcoo :=
  match blocks with
  | [] => Err ValueError
  | row0 :: _ =>
      let nr := length blocks in
      let nc := length row0 in
      if negb (Nat.eqb (sizes_len row_sizes nr) nr) then Err AssertionError else
      if negb (Nat.eqb (sizes_len col_sizes nc) nc) then Err AssertionError else
      let bs := enum_blocks 0 blocks in
      do sz <- fix_sizes nc bs (init_sizes row_sizes nr) (init_sizes col_sizes nc);
      let '(rs, cs) := sz in
      let '(ro, n_row) := offsets row_sizes rs in
      let '(co, n_col) := offsets col_sizes cs in
      match bs with
      | [] => Err ValueError
      | _ => make_coo n_row n_col (flat_map (shift_items ro co) bs)
      end
  end.

(** A CSR or CSC matrix: [indptr], [indices], [data]; [shape]. *)
Record csx := mkcsx { x_csr : bool; x_nr : nat; x_nc : nat;
                      x_indptr : list nat; x_indices : list nat; x_data : list Z }.
Definition ptr_range (ip : list nat) (k : nat) : list nat :=
  seq (nth k ip 0%nat) (nth (S k) ip 0%nat - nth k ip 0%nat).
(** sparse.py l.7-29 [save_sparse_txt]: the written items.  In the csc branch the
    variable [ir] is not defined: the loop over the columns, once entered, raises
    NameError. *)
Definition save_sparse_txt (m : csx) : res (nat * nat * nat * list (nat * nat * Z)) :=
  if x_csr m then
    Ok (x_nr m, x_nc m, length (x_data m),
        flat_map (fun ir => map (fun ii => (ir, nth ii (x_indices m) 0%nat, nth ii (x_data m) 0))
                                (ptr_range (x_indptr m) ir)) (seq 0 (x_nr m)))
  else match x_nr m with
       | O => Ok (x_nr m, x_nc m, length (x_data m), [])
       | S _ => Err NameError
       end.
