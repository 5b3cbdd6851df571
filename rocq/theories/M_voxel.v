(** Model of sfepy/mesh/mesh_generators.py [gen_mesh_from_voxels]. *)
From Coq Require Import QArith.
From Verif Require Import Base M_parallel M_periodic M_merge M_block L_block.
Set Implicit Arguments.
Open Scope nat_scope.

(** l.767, 787: [iy, ix = nm.where(voxels)]: the index tuples (iy, ix, ...) of nonzero
    voxels in the C order are used as (ix, iy, ...). *)
Definition swap12 (t : list nat) : list nat := match t with y :: x :: r => x :: y :: r | _ => t end.
Definition in_shapeb (shape t : list nat) : bool := (length t =? length shape) && forallb (fun p => snd p <? fst p) (combine shape t).
Definition tup_eqb (t u : list nat) : bool := if list_eq_dec Nat.eq_dec t u then true else false.
Fixpoint pos_of_tuple (l : list (list nat)) (t : list nat) : nat :=
  match l with [] => 0 | u :: l => if tup_eqb u t then 0 else S (pos_of_tuple l t) end.
Definition mul_dims (t : list nat) (dims : list Q) : point := map (fun p => q_of (fst p) * snd p)%Q (combine t dims).
(** mesh_generators.py l.738-847; [tet] is etype == 't'.  [vox] are the nonzero voxels of
    the array of the shape [shape].  nodemtx is nonzero in the nodes of some voxel (all
    increments are positive), an index out of the shape + 2 is an IndexError. *)
Definition gen_mesh_from_voxels (vox : list nat -> bool) (shape : list nat) (dims : list Q) (tet : bool) : res mesh :=
  let dim := length dims in
  if negb ((dim =? 2) || (dim =? 3)) then Err ValueError else
  let nd := map (fun n => n + 2) shape in
  let cells := map swap12 (filter vox (tuples shape)) in
  let cs := columns dim in
  if negb (forallb (fun c => forallb (fun bits => in_shapeb nd (addb c bits)) cs) cells) then Err IndexError else
  let used t := existsb (fun c => existsb (fun bits => tup_eqb (addb c bits) t) cs) cells in
  let ndidx := filter used (tuples nd) in
  let coors := map (fun t => mul_dims t dims) ndidx in
  let elems := map (fun c => map (fun bits => pos_of_tuple ndidx (addb c bits)) cs) cells in
  let conn := if tet then elems_q2t (length cs) elems else elems in
  let desc := if dim =? 2 then (if tet then d2_3 else d2_4) else (if tet then d3_4 else d3_8) in
  Ok (mkM coors (repeat 1%Z (length coors)) [mkG desc conn (repeat 1%Z (length conn))]).
