(** Specification of the DOF connectivity of a nodal field: geometric position of the nodes,
    the mesh and the region of the field. *)
From Coq Require Import Permutation.
From Verif Require Import Base M_mesh M_lagnodes M_facet.
Set Implicit Arguments.
Open Scope nat_scope.

(** The weight of the vertex [v] in the combination of the vertices [vs] with the weights [ws]:
    a point sum_i ws_i X(vs_i) is sum_v (gw vs ws v) X(v). *)
Definition gw (vs ws : list nat) (v : nat) : nat := list_sum (map (fun p => if fst p =? v then snd p else 0) (combine vs ws)).
(** The vertex weights of a node of a simplex: the node itself, the barycentric coordinates
    times the order. *)
Definition simplex_w (n : lnode) : list nat := ln_node n.
(** The vertex weights of a node of a tensor product cell: a node is (o - i, i) for each axis;
    the weight of a vertex is the product over the axes, the multilinear functions times
    order^dim. *)
Definition tensor_w (dim : nat) (n : lnode) : list nat :=
  map (fun vm => fold_right Nat.mul 1 (map (fun d => nth (2 * d + nth d vm 0) (ln_node n) 0) (seq 0 dim))) (vertex_maps dim).

(** The same set of vertices *)
Notation same_verts := (@Permutation nat).
(** The vertices of the local facet [ref] of a cell *)
Definition fverts (cell ref : list nat) : list nat := map (fun i => nth i cell 0) ref.

(** The mesh has cells of one type with distinct vertices, edges and faces are built from the
    cells; no two cells have the same vertices. *)
Record mesh_ok (g : gel) (m : cmesh) (n_vert : nat) : Prop := {
  mo_len : forall row, In row (m_cells m) -> length row = g_nv g;
  mo_nodup : forall row, In row (m_cells m) -> NoDup row;
  mo_bound : forall row, In row (m_cells m) -> forall v, In v row -> v < n_vert;
  mo_edge : build_entities (of_rows (m_cells m)) (fun _ => g_edges g) (length (m_cells m)) n_vert = Some (m_edge m);
  mo_face : build_entities (of_rows (m_cells m)) (fun _ => g_faces g) (length (m_cells m)) n_vert = Some (m_face m);
  mo_dist : forall c c', c < length (m_cells m) -> c' < length (m_cells m) -> same_verts (nth c (m_cells m) []) (nth c' (m_cells m) []) -> c = c'
}.
(** [b] is [a] with another starting vertex or in the other direction *)
Definition rot (l : list nat) : list nat := match l with [] => [] | a :: t => t ++ [a] end.
Inductive same_cycle : list nat -> list nat -> Prop :=
| sc_refl : forall a, same_cycle a a
| sc_rot : forall a b, same_cycle a b -> same_cycle a (rot b)
| sc_rev : forall a b, same_cycle a b -> same_cycle a (rev b).
(** The quadrilaterals shared by two cells are the same quadrilaterals: the vertices go round
    in the same cyclic order.  Always true for edges and triangles. *)
Definition faces_ok (g : gel) (m : cmesh) : Prop :=
  forall c c' f f', In c (m_cells m) -> In c' (m_cells m) -> In f (g_faces g) -> In f' (g_faces g) ->
    same_verts (fverts c f) (fverts c' f') -> same_cycle (fverts c f) (fverts c' f').
(** The region consists of its cells, their vertices, edges and faces. *)
Record region_ok (m : cmesh) (r : region) : Prop := {
  ro_cells : forall c, In c (r_cells r) -> c < length (m_cells m);
  ro_nodup : NoDup (r_cells r);
  ro_vnodup : NoDup (r_verts r);
  ro_enodup : NoDup (r_edges r);
  ro_fnodup : NoDup (r_faces r);
  ro_verts : forall v, In v (r_verts r) <-> exists c, In c (r_cells r) /\ In v (nth c (m_cells m) []);
  ro_edges : forall e, In e (r_edges r) <-> exists c, In c (r_cells r) /\ In e (irow (b_cDd (m_edge m)) c);
  ro_faces : forall f, In f (r_faces r) <-> exists c, In c (r_cells r) /\ In f (irow (b_cDd (m_face m)) c)
}.
