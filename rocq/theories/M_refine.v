(** Model of sfepy/discrete/common/extmods/mesh.c l.886-1195 (centroids, volumes and facet normals of
    mesh entities) and of sfepy/discrete/fem/refine.py (uniform refinement, FEDomain.refine()).
    Exact real arithmetic. *)
From Coq Require Import Reals.
From Verif Require Import Base M_mesh M_lagnodes M_fmf M_map.
Set Implicit Arguments.
Open Scope nat_scope.

(** Coordinates: vertex, component *)
Definition crd := nat -> nat -> R.
(** mesh.c l.887-913, mesh_get_centroids: the centroid of an entity with vertices [vs] *)
Definition centroid (x : crd) (vs : list nat) (k : nat) : R :=
  (fold_left (fun s v => s + x v k) vs 0 / INR (length vs))%R.

(** mesh.c l.915-919, _det3x3 *)
Definition det9 (j : nat -> R) : R :=
  (j 0%nat * j 4%nat * j 8%nat + j 3%nat * j 7%nat * j 2%nat + j 1%nat * j 5%nat * j 6%nat
   - j 2%nat * j 4%nat * j 6%nat - j 5%nat * j 7%nat * j 0%nat - j 1%nat * j 3%nat * j 8%nat)%R.
(** VS(ic, id) *)
Definition VS (x : crd) (ind : list nat) (ic id : nat) : R := x (nth ic ind 0) id.
(** geomtrans.c l.9-16, gtr_cross_product is [cross] of M_map *)
(** mesh.c l.921-948, _tri_area *)
Definition tri_area (nc : nat) (x : crd) (ind : list nat) : R :=
  let v0 := fun id => if id <? nc then (VS x ind 1 id - VS x ind 0 id)%R else 0%R in
  let v1 := fun id => if id <? nc then (VS x ind 2 id - VS x ind 0 id)%R else 0%R in
  let nd := cross v0 v1 in
  if nc =? 2 then (/ 2 * Rabs (nd 2%nat))%R
  else (/ 2 * sqrt (nd 0%nat * nd 0%nat + nd 1%nat * nd 1%nat + nd 2%nat * nd 2%nat))%R.
(** mesh.c l.950-969, _aux_hex *)
Definition aux_hex (x : crd) (ind : list nat) (h i j k : nat) : R :=
  det9 (fun m => let id := m mod 3 in
    match (m / 3)%nat with 0%nat => VS x ind i id + VS x ind h id | 1%nat => VS x ind j id - VS x ind i id | _ => VS x ind k id - VS x ind h id end)%R.
(** mesh.c l.972-1084, mesh_get_volumes: the volume of an entity of dimension [dim] > 0 with vertices [ind] in the space
    of dimension [nc]. *)
Definition volume (nc dim : nat) (x : crd) (ind : list nat) : R :=
  let num := length ind in
  let i := fun k => nth k ind 0 in
  let area := fun a b c => tri_area nc x [i a; i b; i c] in
  if dim =? 1 then sqrt (sm nc (fun id => (VS x ind 1 id - VS x ind 0 id) * (VS x ind 1 id - VS x ind 0 id))%R)
  else if num =? 3 then tri_area nc x ind
  else if nc =? 2 then Rplus (tri_area nc x ind) (area 2 3 0)
  else if nc =? 3 then
    (let d := fun a b id => (VS x ind a id - VS x ind b id)%R in
     if num =? 4 then
       if dim =? 2 then
         Rmult (/ 2) (Rplus (Rplus (Rplus (area 0 1 2) (area 1 2 3)) (area 2 3 0)) (area 3 0 1))
       else (sm 3 (fun k => d 3%nat 2%nat k * cross (d 1%nat 0%nat) (d 2%nat 0%nat) k) / 6)%R
     else if num =? 6 then (sm 3 (fun k => d 3%nat 2%nat k * cross (d 1%nat 0%nat) (d 2%nat 0%nat) k) / 2)%R
     else let a := aux_hex x ind in let m := Rminus in let p := Rplus in
          Rdiv (m (p (p (m (m (a 0 1 3 2) (a 4 5 7 6)) (a 0 1 4 5)) (a 3 2 7 6)) (a 0 3 4 7)) (a 1 2 5 6)) 12)
  else 0%R.
(** geomtrans.c l.24-52, gtr_normalize_v3; [eps] is CONST_MachEps *)
Definition normalize (eps : R) (nc : nat) (v : nat -> R) (k : nat) : R :=
  let norm := sqrt (sm nc (fun k => v k * v k)%R) in
  if Rlt_dec eps norm then (v k / norm)%R else 0%R.
(** mesh.c l.1087-1168, mesh_get_facet_normals: the normal of the facet with local vertices [ik] of the cell [cv];
    [which]: Some 0, Some 1 or None (-1, the average). *)
Definition facet_normal (eps : R) (nc : nat) (which : option nat) (x : crd) (cv ik : list nat) : nat -> R :=
  let V := fun ic id => VS x cv (nth ic ik 0) id in
  let d := fun a b id => (V a id - V b id)%R in
  let nd := match length ik with
            | 2 => fun k => match k with 0 => d 1 0 1 | 1 => (- d 1%nat 0%nat 0%nat)%R | _ => 0%R end
            | 3 => cross (d 1 0) (d 2 0)
            | _ => match which with
                   | Some 0 => cross (d 1 0) (d 3 0)
                   | Some 1 => cross (d 3 2) (d 1 2)
                   | _ => fun k => (cross (d 1%nat 0%nat) (d 3%nat 0%nat) k + cross (d 3%nat 2%nat) (d 1%nat 2%nat) k)%R
                   end
            end in
  normalize eps nc nd.

(** ** Uniform refinement *)
(** Edges of the reference cells, geometry_element.py *)
Definition gedges (g : geom) : list (list nat) :=
  match g with Seg => [] | Tri => edges_2_3 | Quad => edges_2_4 | Tet => edges_3_4 | Hex => edges_3_8 end.
(** A new node in a cell: a vertex c[i], the centre of an edge e[i], of a face f[i], of the cell b *)
Inductive rnode := RC (i : nat) | RE (i : nat) | RF (i : nat) | RB.
(** refine.py l.57-60, 97-100, 150-157, 206-213: the rows given to vstack *)
Definition rtab (g : geom) : list rnode :=
  match g with
  | Tri => [RC 0; RE 0; RE 2;  RE 0; RE 1; RE 2;  RC 1; RE 1; RE 0;  RC 2; RE 2; RE 1]
  | Quad => [RC 0; RE 0; RB; RE 3;  RC 1; RE 1; RB; RE 0;  RC 2; RE 2; RB; RE 1;  RC 3; RE 3; RB; RE 2]
  | Tet => [RC 0; RE 0; RE 2; RE 3;  RE 0; RC 1; RE 1; RE 4;  RE 2; RE 1; RC 2; RE 5;  RE 3; RE 4; RE 5; RC 3;
            RE 0; RE 2; RE 3; RE 4;  RE 0; RE 2; RE 4; RE 1;  RE 2; RE 3; RE 4; RE 5;  RE 2; RE 1; RE 5; RE 4]
  | Hex => [RC 0; RE 0; RF 0; RE 3; RE 8; RF 2; RB; RF 1;
            RC 1; RE 1; RF 0; RE 0; RE 9; RF 4; RB; RF 2;
            RC 2; RE 2; RF 0; RE 1; RE 10; RF 5; RB; RF 4;
            RC 3; RE 3; RF 0; RE 2; RE 11; RF 1; RB; RF 5;
            RC 4; RE 7; RF 3; RE 4; RE 8; RF 1; RB; RF 2;
            RC 5; RE 4; RF 3; RE 5; RE 9; RF 2; RB; RF 4;
            RC 6; RE 5; RF 3; RE 6; RE 10; RF 4; RB; RF 5;
            RC 7; RE 6; RF 3; RE 7; RE 11; RF 5; RB; RF 1]
  | Seg => []
  end.
(** new_conn.reshape((-1, n)) *)
Fixpoint chop {A} (fuel n : nat) (l : list A) : list (list A) :=
  match fuel with 0 => [] | S fuel => match l with [] => [] | _ => firstn n l :: chop fuel n (skipn n l) end end.
Definition reshape {A} (n : nat) (l : list A) : list (list A) := chop (length l) n l.
(** A mesh: number of nodes, coordinates, connectivity of the cells, their groups (mat_id); the name and the vertex
    groups are left out *)
Record mesh := mkMesh { m_n : nat; m_x : crd; m_conn : list (list nat); m_grp : list nat }.
(** The topology used: cells -> edges, edges -> vertices, cells -> faces, faces -> vertices as rows *)
Definition rows_of (c : conn) (n : nat) : list (list nat) := map (irow c) (seq 0 n).
Record topo := mkTopo { t_ce : list (list nat); t_ev : list (list nat); t_cf : list (list nat); t_fv : list (list nat) }.
Definition ent_rows (n_el : nat) (st : bstate) : list (list nat) * list (list nat) :=
  (rows_of (b_cDd st) n_el, rows_of (mk_conn (b_off st) (map Some (b_ind st))) (b_id st)).
Definition topology (g : geom) (m : mesh) : option topo :=
  let n_el := length (m_conn m) in
  match build_entities (of_rows (m_conn m)) (fun _ => gedges g) n_el (m_n m) with
  | None => None
  | Some es =>
    let '(ce, ev) := ent_rows n_el es in
    match g with
    | Hex => match build_entities (of_rows (m_conn m)) (fun _ => faces_3_8) n_el (m_n m) with
             | None => None
             | Some fs => let '(cf, fv) := ent_rows n_el fs in Some (mkTopo ce ev cf fv)
             end
    | _ => Some (mkTopo ce ev [] [])
    end
  end.
(** o1, o2, o3 *)
Definition o1 (m : mesh) : nat := m_n m.
Definition o2 (m : mesh) (t : topo) : nat := o1 m + length (t_ev t).
Definition o3 (m : mesh) (t : topo) : nat := o2 m t + length (t_fv t).
(** The number of the new node of cell [c] *)
Definition gid (m : mesh) (t : topo) (c : nat) (r : rnode) : nat :=
  match r with
  | RC i => nth i (nth c (m_conn m) []) 0
  | RE i => nth i (nth c (t_ce t) []) 0 + o1 m
  | RF i => nth i (nth c (t_cf t) []) 0 + o2 m t
  | RB => c + o3 m t
  end.
Definition has_centres (g : geom) : bool := match g with Quad | Hex => true | _ => false end.
(** nm.r_[coors, e_centres, f_centres, centres] *)
Definition new_coors (m : mesh) (t : topo) (k : nat) : nat -> R :=
  if k <? o1 m then m_x m k
  else if k <? o2 m t then centroid (m_x m) (nth (k - o1 m) (t_ev t) [])
  else if k <? o3 m t then centroid (m_x m) (nth (k - o2 m t) (t_fv t) [])
  else centroid (m_x m) (nth (k - o3 m t) (m_conn m) []).
(** ndarray.repeat(k) *)
Definition repeat_each {A} (k : nat) (l : list A) : list A := flat_map (fun a => repeat a k) l.
Definition n_child (g : geom) : nat := length (rtab g) / gnv g.
(** refine.py l.35-219 *)
Definition refine (g : geom) (m : mesh) : option mesh :=
  match topology g m with
  | None => None
  | Some t =>
    let n_el := length (m_conn m) in
    Some (mkMesh (o3 m t + (if has_centres g then n_el else 0)) (new_coors m t)
            (reshape (gnv g) (flat_map (fun c => map (gid m t c) (rtab g)) (seq 0 n_el)))
            (repeat_each (n_child g) (m_grp m)))
  end.
(** refine.py l.9-33, refine_1_2: the check (first component, the only one), centres on odd positions; a single centre is
    broadcast *)
Definition sorted_x (m : mesh) : bool := forallb (fun k => if Rle_dec (m_x m k 0) (m_x m (S k) 0) then true else false) (seq 0 (m_n m - 1)).
Definition refine_1 (m : mesh) : res mesh :=
  let n_el := length (m_conn m) in
  if negb (sorted_x m) then Err ValueError else
  if m_n m =? 0 then Err ValueError else
  if (n_el =? m_n m - 1) || (n_el =? 1) then
    let n_nod := 2 * m_n m - 1 in
    Ok (mkMesh n_nod (fun k => if Nat.even k then m_x m (k / 2)
                               else centroid (m_x m) (nth (if n_el =? m_n m - 1 then k / 2 else 0) (m_conn m) []))
          (reshape 2 (removelast (tl (repeat_each 2 (seq 0 n_nod))))) (repeat_each 2 (m_grp m)))
  else Err ValueError.

(** refine.py l.258-287, refine_reference: aux_conn[:, ir, ic], the triples of one cell of the previous level:
    (child, vertex) pairs *)
Definition eetab (g : geom) : list (list (nat * nat)) :=
  let z := fun ir ic => map (fun p => combine (fst p : list nat) (snd p : list nat)) (combine (ir : list (list nat)) (ic : list (list nat))) in
  match g with
  | Tri => z [[0; 1; 2]; [2; 2; 3]; [3; 3; 0]] [[0; 0; 0]; [0; 1; 0]; [0; 1; 0]]
  | Quad => z [[0; 0; 1]; [1; 1; 2]; [2; 2; 3]; [3; 3; 0]; [0; 0; 2]; [3; 3; 1]]
              [[0; 1; 0]; [0; 1; 0]; [0; 1; 0]; [0; 1; 0]; [1; 2; 1]; [1; 2; 1]]
  | Tet => z [[0; 0; 1]; [1; 1; 2]; [2; 0; 0]; [3; 1; 1]; [3; 2; 2]; [3; 0; 0]]
             [[0; 1; 1]; [1; 2; 2]; [2; 2; 0]; [3; 3; 1]; [3; 3; 2]; [3; 3; 0]]
  | Hex => z [[0; 0; 1]; [1; 1; 2]; [2; 2; 3]; [3; 0; 0]; [0; 0; 2]; [0; 0; 1];
              [0; 0; 1]; [1; 1; 2]; [2; 2; 3]; [3; 0; 0]; [0; 0; 2]; [0; 0; 1];
              [4; 4; 5]; [5; 5; 6]; [6; 6; 7]; [7; 4; 4]; [4; 4; 6]; [4; 4; 5];
              [0; 0; 4]; [1; 1; 5]; [2; 2; 6]; [3; 3; 7];
              [0; 0; 4]; [1; 1; 5]; [2; 2; 6]; [0; 0; 4];
              [0; 0; 4]]
             [[0; 1; 0]; [0; 1; 0]; [0; 1; 0]; [0; 3; 0]; [1; 2; 1]; [3; 2; 1];
              [4; 5; 4]; [4; 5; 4]; [4; 5; 4]; [4; 7; 4]; [5; 6; 5]; [7; 6; 5];
              [0; 3; 0]; [0; 3; 0]; [0; 3; 0]; [0; 1; 0]; [3; 2; 3]; [1; 2; 3];
              [0; 4; 0]; [0; 4; 0]; [0; 4; 0]; [0; 4; 0];
              [1; 5; 3]; [1; 5; 3]; [1; 5; 3]; [3; 7; 1];
              [2; 6; 2]]
  | Seg => []
  end.
(** error_edges of the cells of the refined mesh [rows] *)
Definition error_edges (g : geom) (rows : list (list nat)) : list (list (list nat)) :=
  map (fun c => map (map (fun p => nth (snd p) (nth (c * n_child g + fst p) rows []) 0)) (eetab g)) (seq 0 (length rows / n_child g)).
