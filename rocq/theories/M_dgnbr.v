(** Model of the facet neighbour index of DG fields,
    /repo/sfepy/discrete/dg/fields.py l.485-640. Cells and facets are numbers,
    the mesh connectivities are lists of rows; the array [facet_neighbours] is
    the pair of functions of its two components (entries -1 are real -1). *)
From Coq Require Import ZArith.
From Verif Require Import Base M_mesh.

(** facet_neighbours[:, :, 0] and facet_neighbours[:, :, 1] *)
Definition nbrs : Type := (nat -> nat -> Z) * (nat -> nat -> Z).

(** fields.py l.541-546: one row of [fis = nm.c_[c2ci, ii]], the cells incident
    to facet [fa] with the local index of [fa] in each of them
    (cmesh.get_incident(dim, ..., dim - 1), cmesh.get_local_ids). A facet not
    found in an incident cell is the C error; it gets index 0 here. *)
Definition fis (c2f f2c : list (list nat)) (fa : nat) : list (nat * nat) :=
  map (fun c => (c, unsome (index_nat fa (nth c c2f [])))) (nth fa f2c []).

(** l.549-559, one facet of cell [cell] *)
Definition facet_nbr (c2f f2c : list (list nat)) (cell fa : nat) : Z * Z :=
  let g := fis c2f f2c fa in
  if length g =? 1 then ((-1)%Z, (-1)%Z)
  else
    let zz (p : nat * nat) := (Z.of_nat (fst p), Z.of_nat (snd p)) in
    if fst (hd (0, 0) g) =? cell then zz (last g (0, 0)) else zz (hd (0, 0) g).

(** l.533-560: the loop over the cells of the region (here the whole mesh, the
    only case in which the array is indexed consistently). *)
Definition mesh_nbrs (c2f f2c : list (list nat)) : nbrs :=
  (fun c j => fst (facet_nbr c2f f2c c (nth j (nth c c2f []) 0)),
   fun c j => snd (facet_nbr c2f f2c c (nth j (nth c c2f []) 0))).

(** numpy: [A[rows, cols] = vals], entry by entry *)
Definition zupd (A : nat -> nat -> Z) (c j : nat) (v : Z) : nat -> nat -> Z :=
  fun c' j' => if ((c' =? c) && (j' =? j))%bool then v else A c' j'.
Definition fancy_set (ix : list (nat * nat)) (vals : list nat) (A : nat -> nat -> Z) : nat -> nat -> Z :=
  fold_left (fun A p => zupd A (fst (fst p)) (snd (fst p)) (Z.of_nat (snd p))) (combine ix vals) A.

(** l.593-606, one pair (master_bc2bfi, slave_bc2bfi) of [eq_map.dg_epbc] *)
Definition set_pair (N : nbrs) (ms : list (nat * nat) * list (nat * nat)) : nbrs :=
  let '(m, s) := ms in
  let n0 := fancy_set m (map fst s) (fst N) in
  let n0 := fancy_set s (map fst m) n0 in
  let n1 := fancy_set s (map snd m) (snd N) in
  let n1 := fancy_set m (map snd s) n1 in
  (n0, n1).

(** l.566-608 *)
Definition set_dg_periodic (N : nbrs) (dg_epbc : list (list (nat * nat) * list (nat * nat))) : nbrs :=
  fold_left set_pair dg_epbc N.

(** l.485-564 get_facet_neighbor_idx(region, eq_map) with its cache
    [self.facet_neighbour_index], keyed by the region name. [eq_map] is its
    list [dg_epbc]; classical periodic conditions (eq_map.n_epbc > 0, l.610-660)
    are not modelled. *)
Definition cache := list (nat * nbrs).
Fixpoint lookup (k : nat) (c : cache) : option nbrs :=
  match c with [] => None | (k', v) :: t => if k =? k' then Some v else lookup k t end.
Definition get_facet_neighbor_idx (c2f f2c : list (list nat)) (region : nat)
    (eq_map : list (list (nat * nat) * list (nat * nat))) (c : cache) : nbrs * cache :=
  match lookup region c with
  | Some v => (v, c)
  | None => let v := set_dg_periodic (mesh_nbrs c2f f2c) eq_map in (v, (region, v) :: c)
  end.
(** l.471-482 clear_facet_neighbour_idx_cache() *)
Definition clear_cache (c : cache) : cache := [].
