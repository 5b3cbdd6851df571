(** Model of the facets of a field as rows of its element connectivity
    (fields_base.py l.417-450 [_setup_esurface]) and of the basis used in all the facets
    (l.1351-1355). *)
From Coq Require Import Reals.
From Verif Require Import Base M_mesh M_lagnodes M_lagrange M_facet.
Open Scope nat_scope.

(** geometry_element.py l.342-366 get_edges_per_face; [dim3] is dim == 3.  se.index raises a
    ValueError for an edge not in the list (never the case), modelled by 0. *)
Definition same_edge (a b : list nat) : bool :=
  forallb (fun x => existsb (Nat.eqb x) b) a && forallb (fun x => existsb (Nat.eqb x) a) b.
Fixpoint edge_index (e : list nat) (es : list (list nat)) : nat :=
  match es with [] => 0 | x :: es => if same_edge x e then 0 else S (edge_index e es) end.
Definition face_edges (face : list nat) : list (list nat) :=
  map (fun i => [nth i face 0; nth ((i + 1) mod length face) face 0]) (seq 0 (length face)).
Definition edges_per_face (g : gel) : list (list nat) :=
  match g_faces g with
  | [] => map (fun i => [i]) (seq 0 (length (g_edges g)))
  | faces => map (fun face => map (fun e => edge_index e (g_edges g)) (face_edges face)) faces
  end.
(** get_surface_entities: faces in 3D, edges in 2D ([g_faces] is empty in 2D) *)
Definition surf_entities (g : gel) : list (list nat) := match g_faces g with [] => g_edges g | faces => faces end.
(** fields_base.py l.417-439 *)
Definition efaces (g : gel) (nodes : list lnode) : list (list nat) :=
  map (fun p : nat * list nat => let '(f, facet) := p in
    facet
    ++ match describe_facets nodes 1 with
       | Some nd => concat (map (fun ie => nth ie nd []) (nth f (edges_per_face g) []))
       | None => []
       end
    ++ match describe_facets nodes 2 with Some nd => nth f nd [] | None => [] end)
   (combine (seq 0 (length (surf_entities g))) (surf_entities g)).

(** Barycentric coordinates of the point of facet [f] of a simplex with facet coordinates [bc]
    (l.109-119 [_interp_to_faces] of the vertices) *)
Definition facet_bary (g : gel) (f : nat) (bc : list R) : list R :=
  map (fun v => match index_nat v (nth f (surf_entities g) []) with Some i => nth i bc 0%R | None => 0%R end) (seq 0 (g_nv g)).
Definition node_of (nodes : list lnode) (k : nat) : list nat := ln_node (nth k nodes (mkLN 0 0 [])).
(** l.1354-1355: bf = abf[..., efaces[0]], abf in the points of the facet 0; used for all facets,
    column [j] *)
Definition facet_basis (g : gel) (nodes : list lnode) (order : nat) (bc : list R) (j : nat) : R :=
  simplex_val order (facet_bary g 0 bc) (node_of nodes (nth j (nth 0 (efaces g nodes) []) 0)).
(** fe_surface.py l.14-36: the row of the facet [f] of a cell with DOFs [row] *)
Definition facet_dofs (g : gel) (nodes : list lnode) (row : list nat) (f : nat) : list nat :=
  map (fun k => nth k row 0) (nth f (efaces g nodes) []).
