(** Model: inserting a sparse matrix into a CSR matrix and the infinity norm
    of a CSR matrix (sfepy/linalg/sparse.py). *)
From Coq Require Import Reals.
From Verif Require Import Base M_assemble.
Open Scope nat_scope.

(** A row (column) selection: an index array, or a slice with a positive step
    (sparse.py l.37-41: [nm.arange(start, stop, step)]). *)
Inductive sel := Idx (l : list Z) | Slice (start stop step : Z).
(** Python's [nm.arange] of integers, [step > 0]: ceil((stop - start) / step)
    items, none if [stop <= start]. *)
Definition arange (start stop step : Z) : list Z :=
  map (fun k => (start + Z.of_nat k * step)%Z)
      (seq 0 (Z.to_nat ((stop - start + step - 1) / step))).
Definition sel_items (s : sel) : list Z :=
  match s with Idx l => l | Slice a b st => arange a b st end.

Section Insert.
Variable V : Type.
Variables (v0 v1 : V) (add mul : V -> V -> V).

(** sparse.py l.29-55, insert_sparse_to_csr: [entries] are the items of
    [mtx2.tocoo()] - (row, column, value); the new data of [mtx1] are
    returned.  [min] of an empty array raises ValueError; [assert_] raises
    AssertionError; the fancy indexing [irs[aux.row]] raises IndexError.  Each
    item is one 1x1 element matrix of asm.assemble_matrix (C13).  When the
    assembling fails, the items before the failing one have been added: this
    part of the effect is not modelled. *)
Definition insert_sparse_to_csr (n_row n_col : nat) (data : list V) (prows cols : list nat)
    (entries : list (nat * nat * V)) (srs scs : sel) : res (list V) :=
  let irs := sel_items srs in
  let ics := sel_items scs in
  if (length irs =? 0) then Err ValueError else
  if negb (forallb (fun i => (0 <=? i)%Z && (i <? Z.of_nat n_row)%Z) irs) then Err AssertionError else
  if (length ics =? 0) then Err ValueError else
  if negb (forallb (fun i => (0 <=? i)%Z && (i <? Z.of_nat n_col)%Z) ics) then Err AssertionError else
  if negb (forallb (fun e => fst (fst e) <? length irs) entries) then Err IndexError else
  if negb (forallb (fun e => snd (fst e) <? length ics) entries) then Err IndexError else
  assemble_matrix v0 add mul (find_lin prows cols) data
    (map (fun e => [[snd e]]) entries) (seq 0 (length entries)) v1
    (map (fun e => [nth (fst (fst e)) irs 0%Z]) entries)
    (map (fun e => [nth (snd (fst e)) ics 0%Z]) entries).
End Insert.
Arguments insert_sparse_to_csr {V}.

(** sparse.py l.232-246, infinity_norm of a CSR matrix over the reals:
    [(abs_mtx @ ones).max()], where row [i] of the product is the sum over
    the stored items of the row.  [max] of an empty array raises ValueError
    ([None]). *)
Definition abs_row_sum (prows : list nat) (data : list R) (i : nat) : R :=
  fold_left (fun s ik => (s + Rabs (nth ik data 0) * 1)%R)
    (seq (nth i prows 0) (nth (S i) prows 0 - nth i prows 0)) 0%R.
Definition infinity_norm (n_row : nat) (prows : list nat) (data : list R) : option R :=
  match map (abs_row_sum prows data) (seq 0 n_row) with
  | [] => None
  | x :: l => Some (fold_left Rmax l x)
  end.
