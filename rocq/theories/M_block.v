(** Model of the block mesh generator and of the triangulation:
    sfepy/mesh/mesh_generators.py (get_tensor_product_conn, gen_block_mesh) and
    sfepy/mesh/mesh_tools.py (elems_q2t, triangulate).  Coordinates are exact rationals. *)
From Coq Require Import QArith.
From Verif Require Import Base M_parallel M_periodic M_merge.
Set Implicit Arguments.
Open Scope nat_scope.

Definition d1_2 := 12. Definition d2_3 := 23. Definition d2_4 := 24. Definition d3_4 := 34. Definition d3_8 := 38.

Definition prod (l : list nat) : nat := fold_right Nat.mul 1 l.
(** [:-1] and [1:] of an axis with [n] items. *)
Definition rng (hi : bool) (n : nat) : list nat := seq (if hi then 1 else 0) (n - 1).
(** [grid[s0, s1, ...].flat] for [grid = arange(prod(shape)).reshape(shape)] and the
    slices given by [bits]; [off] is the number of the items before the subarray, in
    units of its size. *)
Fixpoint flat (off : nat) (shape : list nat) (bits : list bool) : list nat :=
  match shape, bits with
  | n :: sh, b :: bs => flat_map (fun i => flat (off * n + i) sh bs) (rng b n)
  | _, _ => [off]
  end.
(** mesh_generators.py l.38-63: the slices of the columns of [conn]. *)
Definition columns (dim : nat) : list (list bool) :=
  match dim with
  | 1 => [[false]; [true]]
  | 2 => [[false; false]; [true; false]; [true; true]; [false; true]]
  | _ => [[false; false; false]; [true; false; false]; [true; true; false]; [false; true; false];
          [false; false; true]; [true; false; true]; [true; true; true]; [false; true; true]]
  end.
Definition desc_of (dim : nat) : nat := match dim with 1 => d1_2 | 2 => d2_4 | _ => d3_8 end.
(** mesh_generators.py l.11-65 [get_tensor_product_conn] (1 <= dim <= 3 is asserted). *)
Definition get_tensor_product_conn (shape : list nat) : list (list nat) :=
  let n_el := prod (map (fun n => n - 1) shape) in
  let cols := map (flat 0 shape) (columns (length shape)) in
  map (fun e => map (fun c => nth e c 0) cols) (seq 0 n_el).

(** Columns of [ngrid] (rows of [ngrid.T]): the index tuples in the C order. *)
Fixpoint tuples (shape : list nat) : list (list nat) :=
  match shape with
  | [] => [[]]
  | n :: sh => flat_map (fun i => map (cons i) (tuples sh)) (seq 0 n)
  end.
Definition q_of (n : nat) : Q := inject_Z (Z.of_nat n).
(** mesh_generators.py l.88-123 [gen_block_mesh], coors=None, dims, shape and centre
    of the same length; shape[i] >= 2. *)
Definition block_coors (dims centre : list Q) (shape : list nat) : list point :=
  let x0 := map (fun p => fst p - (1 # 2) * snd p)%Q (combine centre dims) in
  let dd := map (fun p => fst p / q_of (snd p - 1))%Q (combine dims shape) in
  map (fun t => map (fun p => fst (fst p) + q_of (snd p) * snd (fst p))%Q (combine (combine x0 dd) t)) (tuples shape).
Definition gen_block_mesh (dims centre : list Q) (shape : list nat) (mat_id : Z) : mesh :=
  let n_el := prod (map (fun n => n - 1) shape) in
  mkM (block_coors dims centre shape) (repeat 0%Z (prod shape))
      [mkG (desc_of (length shape)) (get_tensor_product_conn shape) (repeat mat_id n_el)].

(** ** Triangulation *)
(** mesh_tools.py l.16-26 *)
Definition q2t (nnd : nat) : list (list nat) :=
  if 4 <? nnd then [[0; 2; 3; 6]; [0; 3; 7; 6]; [0; 7; 4; 6]; [0; 5; 6; 4]; [1; 5; 6; 0]; [1; 6; 2; 0]]
  else [[0; 1; 2]; [0; 2; 3]].
(** mesh_tools.py l.13-38: the row [r] of the result is written in the turn
    [r mod ns] from the row [r / ns] of [el] ([idxs = arange(ii, nel, ns)]). *)
Definition elems_q2t (nnd : nat) (el : list (list nat)) : list (list nat) :=
  let tab := q2t nnd in
  let ns := length tab in
  map (fun r => take 0 (nth (r / ns) el []) (nth (r mod ns) tab [])) (seq 0 (length el * ns)).
(** [nm.repeat(a, n)] *)
Definition repeat_each {A} (n : nat) (l : list A) : list A := flat_map (fun x => repeat x n) l.
(** mesh.py l.472-493 [get_conn]: the cells of a kind in the order of cell numbers. *)
Definition get_conn (m : mesh) (desc : nat) : list (list nat) :=
  flat_map (fun g => if g_desc g =? desc then g_conn g else []) (m_groups m).
Definition cell_groups (m : mesh) : list Z := flat_map g_mat (m_groups m).
Definition has_desc (m : mesh) (desc : nat) : bool := existsb (fun g => g_desc g =? desc) (m_groups m).
(** mesh_tools.py l.40-74; all cells have the dimension of the mesh. *)
Definition triangulate_kind (m : mesh) (nnd old new : nat) : mesh :=
  let conns := get_conn m old in
  let new_conns := elems_q2t nnd conns in
  let nn := length new_conns / length conns in
  mkM (m_coors m) (m_vg m) [mkG new new_conns (repeat_each nn (cell_groups m))].
Definition triangulate (m : mesh) : mesh :=
  if has_desc m d3_8 then triangulate_kind m 8 d3_8 d3_4
  else if has_desc m d2_4 then triangulate_kind m 4 d2_4 d2_3 else m.
