(** Model: active DOF connectivities, assembling of element contributions,
    the matrix graph (variables.py, assemble.pyx, equations.py). *)
From Verif Require Import Base.
Open Scope nat_scope.

(** variables.py l.129-154, create_adof_conn.  Rows of [conn] are the nodes of
    the elements.  The branch [dpn == 1] is the general one with a single
    component.  [nm.take(eq, i)] : out-of-range reads give [0] in the model,
    the theorems assume all nodes are in the range of [eq]. *)
Definition shift (offset : Z) (a : Z) : Z := (a + (if 0 <=? a then offset else 0))%Z.
Definition create_adof_conn (eq : list Z) (conn : list (list nat)) (dpn : nat) (offset : Z) : list (list Z) :=
  if dpn =? 1 then map (map (fun c => shift offset (nth c eq 0%Z))) conn
  else map (fun row =>
         concat (map (fun idof => map (fun c => shift offset (nth (dpn * c + idof) eq 0%Z)) row) (seq 0 dpn)))
       conn.

(** variables.py l.60-68, the equation numbers used by create_adof_conns with
    [active_only=False]. *)
Definition full_eq (n : nat) (ebc master slave : list nat) (offset : Z) : list Z :=
  let eq0 := map Z.of_nat (seq 0 n) in
  let eq1 := put eq0 ebc (map (fun i => -1 - (Z.of_nat i + offset))%Z ebc) in
  put eq1 master (take 0%Z eq1 slave).

Section Asm.
Variable V : Type.
Variables (v0 : V) (add mul : V -> V -> V).

(** assemble.pyx l.35-44, the loop over one element row.  Bounds are not
    checked by the code ([boundscheck(False)]): the theorems require them. *)
Definition asm_vec_row (sign : V) (vec : list V) (row : list Z) (vin : list V) : list V :=
  fold_left (fun vec p =>
    if (fst p <? 0)%Z then vec
    else let i := Z.to_nat (fst p) in upd vec i (add (nth i vec v0) (mul sign (snd p))))
    (combine row vin) vec.

(** assemble.pyx l.14-44, assemble_vector (and its complex twin l.46-76);
    [els] are the element vectors (flattened), one per item of [iels]. *)
Definition assemble_vector (vec : list V) (els : list (list V)) (iels : list nat) (sign : V)
    (conn : list (list Z)) : list V :=
  fold_left (fun vec p => asm_vec_row sign vec (nth (fst p) conn []) (snd p)) (combine iels els) vec.

(** assemble.pyx l.124-131, [for ik in range(prows[irg], prows[irg+1]): if
    cols[ik] == icg: ...; break]: the position found. *)
Fixpoint lin_search (cols : list nat) (icg ik num : nat) : option nat :=
  match num with
  | 0 => None
  | S k => if nth ik cols 0 =? icg then Some ik else lin_search cols icg (S ik) k
  end.
Definition find_lin (prows cols : list nat) (irg icg : nat) : option nat :=
  lin_search cols icg (nth irg prows 0) (nth (S irg) prows 0 - nth irg prows 0).

(** assemble.pyx l.186-205, bsearch: [i1] is inclusive; -1 is [None].  Out of
    range reads of [cols] give [junk].  Indices in Z as [i1] may become
    [i0 - 1] = -1. *)
Fixpoint bsearch (fuel : nat) (junk : nat) (cols : list nat) (i0 i1 : Z) (ii : nat) : option nat :=
  match fuel with
  | 0 => None
  | S f =>
      if (i0 <=? i1)%Z then
        let im := ((i0 + i1) / 2)%Z in
        let c := nth (Z.to_nat im) cols junk in
        if c =? ii then Some (Z.to_nat im)
        else if c <? ii then bsearch f junk cols (im + 1) i1 ii
        else bsearch f junk cols i0 (im - 1) ii
      else None
  end.
(** assemble.pyx l.252: [bsearch(cols, prows[irg], prows[irg + 1], icg)]; the
    fuel covers every run of the loop. *)
Definition find_b (junk : nat) (prows cols : list nat) (irg icg : nat) : option nat :=
  bsearch (S (S (nth (S irg) prows 0 - nth irg prows 0))) junk cols
          (Z.of_nat (nth irg prows 0)) (Z.of_nat (nth (S irg) prows 0)) icg.

(** One item of the innermost loop: [val[ik] += sign * mtx_in_el[iloc]]. *)
Definition asm_item (find : nat -> nat -> option nat) (sign : V) (data : res (list V)) (irg icg : Z) (x : V) : res (list V) :=
  match data with
  | Err e => Err e
  | Ok d =>
      if (icg <? 0)%Z then Ok d else
      match find (Z.to_nat irg) (Z.to_nat icg) with
      | Some ik => Ok (upd d ik (add (nth ik d v0) (mul sign x)))
      | None => Err IndexError
      end
  end.

(** assemble.pyx l.108-131, the loops over rows and columns of one element
    matrix (a list of rows). *)
Definition asm_mtx_el (find : nat -> nat -> option nat) (sign : V) (data : res (list V))
    (rrow crow : list Z) (mel : list (list V)) : res (list V) :=
  fold_left (fun data p =>
      if (fst p <? 0)%Z then data
      else fold_left (fun data q => asm_item find sign data (fst p) (fst q) (snd q)) (combine crow (snd p)) data)
    (combine rrow mel) data.

(** assemble.pyx l.78-131 (linear search), l.207-258 (binary search), and the
    complex twins. *)
Definition assemble_matrix (find : nat -> nat -> option nat) (data : list V) (els : list (list (list V)))
    (iels : list nat) (sign : V) (rconn cconn : list (list Z)) : res (list V) :=
  fold_left (fun data p => asm_mtx_el find sign data (nth (fst p) rconn []) (nth (fst p) cconn []) (snd p))
    (combine iels els) (Ok data).
End Asm.
Arguments assemble_vector {V}. Arguments assemble_matrix {V}. Arguments asm_mtx_el {V}.
Arguments asm_vec_row {V}. Arguments asm_item {V}.

(** ** Matrix graph *)

(** equations.py l.49-66, create_dof_graph with [active_only=True]: the
    coordinates of the nonzeros. *)
Definition create_dof_graph (rdc cdc : list (list Z)) : list (Z * Z) :=
  filter (fun p => (0 <=? fst p)%Z && (0 <=? snd p)%Z)
    (concat (map (fun rc => list_prod (fst rc) (snd rc)) (combine rdc cdc))).

(** linalg/utils.py l.348-357, chunk_arrays on the pair of arrays; fuel is the
    length (chunk_size > 0). *)
Fixpoint chunk2 (fuel cs : nat) (r c : list (list Z)) : list (list (list Z) * list (list Z)) :=
  match fuel with
  | 0 => []
  | S f =>
      match r with
      | [] => []
      | _ => (firstn cs r, firstn cs c) :: chunk2 f cs (skipn cs r) (skipn cs c)
      end
  end.

(** equations.py l.113-117: [cs = int(n_cell / (n_cell // chunk_size + 0.5))]
    in exact arithmetic. *)
Definition chunk_len (n_cell chunk_size : nat) : nat := (2 * n_cell) / (2 * (n_cell / chunk_size) + 1).

(** equations.py l.102-129: the coordinates contributed by one connectivity
    pair, shifted back by the offsets; the sum of boolean COO arrays is the
    union of coordinates. *)
Definition block_graph (chunk_size : nat) (roff coff : Z) (rdc cdc : list (list Z)) : list (Z * Z) :=
  let srdc := map (map (fun a => a - roff)%Z) rdc in
  let scdc := map (map (fun a => a - coff)%Z) cdc in
  let n_cell := length rdc in
  concat (map (fun rc => create_dof_graph (fst rc) (snd rc)) (chunk2 n_cell (chunk_len n_cell chunk_size) srdc scdc)).

(** equations.py l.68-137, create_matrix_graph with [active_only=True]: a list
    of connectivity pairs with their block indices; sp.block_array puts block
    (ir, ic) at the offsets given by the sizes of the previous blocks, which
    are the slice starts [roffs], [coffs] of the gap-free DOF layout (C01). *)
Definition create_matrix_graph (chunk_size : nat) (roffs coffs : list Z)
    (items : list (list (list Z) * list (list Z) * (nat * nat))) : list (Z * Z) :=
  concat (map (fun it =>
    let '(rdc, cdc, (ir, ic)) := it in
    let ro := nth ir roffs 0%Z in let co := nth ic coffs 0%Z in
    map (fun p => (fst p + ro, snd p + co)%Z) (block_graph chunk_size ro co rdc cdc)) items).

(** CSR structure of a set of coordinates: sorted distinct columns of each row
    (scipy's coo -> csr conversion with duplicates summed). *)
Definition csr_row (coords : list (Z * Z)) (i : nat) : list nat :=
  unique (map (fun p => Z.to_nat (snd p)) (filter (fun p => (fst p =? Z.of_nat i)%Z) coords)).
Definition csr_cols (coords : list (Z * Z)) (nr : nat) : list nat := concat (map (csr_row coords) (seq 0 nr)).
Definition csr_prows (coords : list (Z * Z)) (nr : nat) : list nat :=
  map (fun i => length (csr_cols coords i)) (seq 0 (S nr)).
