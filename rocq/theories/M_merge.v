(** Model of merging and extracting meshes: sfepy/discrete/fem/mesh.py and
    sfepy/mesh/mesh_tools.py.  Coordinates are exact rational numbers. *)
From Coq Require Import QArith Qabs.
From Verif Require Import Base M_parallel M_periodic.
Set Implicit Arguments.
Open Scope nat_scope.

Notation point := (list Q).

Section Merge.
(** [cKDTree.query_pairs], [nm.argsort] of integers, and
    [scipy.sparse.csgraph.connected_components] of the graph with the given edges
    (only the labels): specified in P_merge.v. *)
Variable query_pairs : Q -> list point -> list (nat * nat).
Variable argsort : list nat -> list nat.
Variable components : nat -> list (nat * nat) -> list nat.
(** the global variable [eps] of mesh.py l.10 *)
Variable eps : Q.

(** [nm.sum(nm.abs(x1[i,:-1] - x2[j,:-1]))] *)
Definition row_err (a b : point) : Q :=
  fold_right Qplus 0%Q (map Qabs (vsub (removelast a) (removelast b))).
(** mesh.py l.45-76 [merge_mesh]; [cm] are the two columns of cmap. *)
Definition merge_mesh (x1 : list point) (g1 : list Z) (c1 : list (list nat)) (m1 : list Z)
    (x2 : list point) (g2 : list Z) (c2 : list (list nat)) (m2 : list Z) (cm : list nat * list nat)
    : res (list point * list Z * list (list nat) * list Z) :=
  let n1 := length x1 in
  let n2 := length x2 in
  let e := fold_right Qplus 0%Q (map (fun p => row_err (nth (fst p) x1 []) (nth (snd p) x2 []))
                                     (combine (fst cm) (snd cm))) in
  if Qlt_le_dec (10 * eps) (Qabs e) then Err ValueError else
  let mask := put1 (repeat 1 n2) (snd cm) 0 in
  let remap := put (map (fun c => c + n1 - 1) (cumsum_from 0 mask)) (snd cm) (fst cm) in
  let i2 := setdiff1d (seq 0 n2) (snd cm) in
  Ok (x1 ++ take [] x2 i2, g1 ++ take 0%Z g2 i2, c1 ++ map (take 0 remap) c2, m1 ++ m2).

(** mesh.py l.324-341 [Mesh.__add__] of meshes with one kind of cells. *)
Definition mesh_add (x1 : list point) (g1 : list Z) (c1 : list (list nat)) (m1 : list Z)
    (x2 : list point) (g2 : list Z) (c2 : list (list nat)) (m2 : list Z) :=
  do cm <- find_map query_pairs eps false x1 x2;
  merge_mesh x1 g1 c1 m1 x2 g2 c2 m2 cm.

(** [a[i]] with a Python index. *)
Definition zindex (l : list Z) (i : Z) : option Z :=
  let n := Z.of_nat (length l) in
  if ((0 <=? i) && (i <? n))%Z then nth_error l (Z.to_nat i)
  else if ((i <? 0) && (- n <=? i))%Z then nth_error l (Z.to_nat (n + i)) else None.
Fixpoint zindexl (l : list Z) (is : list Z) : res (list Z) :=
  match is with
  | [] => Ok []
  | i :: t => match zindex l i with None => Err IndexError | Some x => do r <- zindexl l t; Ok (x :: r) end
  end.
Fixpoint mapres {A B} (f : A -> res B) (l : list A) : res (list B) :=
  match l with [] => Ok [] | x :: t => do y <- f x; do r <- mapres f t; Ok (y :: r) end.
(** mesh.py l.92-109: one pass of the loop of [fix_double_nodes].  The second
    column of cmap is j - n_nod (find_map() with an empty second array): a
    negative index of the node j. *)
Definition fix_pass (pairs : list (nat * nat)) (coor : list point) (ng : list Z) (conns : list (list Z))
    : res (list point * list Z * list (list Z)) :=
  let n := length coor in
  let ii := argsort (map snd pairs) in
  let sc := take (0, 0) pairs ii in
  let eq := put1 (map Z.of_nat (seq 0 n)) (map snd sc) (-1)%Z in
  let eqi := map Z.to_nat (filter (fun z => (0 <=? z)%Z) eq) in
  let eq := put eq eqi (map Z.of_nat (seq 0 (length eqi))) in
  let remap := put eq (map snd sc) (take 0%Z eq (map fst sc)) in
  do cs <- mapres (zindexl remap) conns;
  Ok (take [] coor eqi, take 0%Z ng eqi, cs).
(** mesh.py l.78-112; [fuel] bounds the number of passes. *)
Fixpoint fix_double_nodes (fuel : nat) (coor : list point) (ng : list Z) (conns : list (list Z))
    : res (list point * list Z * list (list Z)) :=
  match query_pairs eps coor with
  | [] => Ok (coor, ng, conns)
  | pairs => match fuel with
             | 0 => Err OutOfFuel
             | S f => do r <- fix_pass pairs coor ng conns;
                      let '(coor, ng, conns) := r in fix_double_nodes f coor ng conns
             end
  end.

(** ** Meshes for mesh_tools.py *)
(** A group: the cells of one kind with their material ids. *)
Record group := mkG { g_desc : nat; g_conn : list (list nat); g_mat : list Z }.
(** All cells have the dimension of the mesh (get_conn() of a kind of a lower
    dimension fails). *)
Record mesh := mkM { m_coors : list point; m_vg : list Z; m_groups : list group }.
(** mesh.py l.354-407: no groups is a ValueError ([nm.max] of an empty list). *)
Definition from_data (coors : list point) (vg : list Z) (gs : list group) : res mesh :=
  match gs with [] => Err ValueError | _ => Ok (mkM coors vg gs) end.

(** [nm.unique(a, return_index=True)[1]]: the first positions. *)
Fixpoint first_index (x : nat) (l : list nat) : nat :=
  match l with [] => 0 | y :: t => if x =? y then 0 else S (first_index x t) end.
(** mesh_tools.py l.726-768 [get_unique_coor_map] and [merge_nodes]. *)
Definition merge_nodes (tol : Q) (m : mesh) : mesh :=
  match query_pairs tol (m_coors m) with
  | [] => m
  | pairs =>
      let remap := components (length (m_coors m)) pairs in
      let nidxs := map (fun l => first_index l remap) (unique remap) in
      mkM (take [] (m_coors m) nidxs) (take 0%Z (m_vg m) nidxs)
          (map (fun g => mkG (g_desc g) (map (take 0 remap) (g_conn g)) (g_mat g)) (m_groups m))
  end.
End Merge.

(** utils.py l.31-46 [prepare_translate]; [max] of an empty array is a ValueError. *)
Definition prepare_translate (old new : list nat) : res (list nat) :=
  match old with
  | [] => Err ValueError
  | _ => Ok (put (repeat 0 (fold_right Nat.max 0 old + 1)) old new)
  end.
(** mesh_tools.py l.437-461: [nm.unique] of a list of arrays of different lengths
    is a ValueError. *)
Definition unique_list (ls : list (list nat)) : res (list nat) :=
  match ls with
  | [] => Ok []
  | l :: t => if forallb (fun l' => length l' =? length l) t then Ok (unique (concat ls)) else Err ValueError
  end.
Definition get_cell_vertices_only (m : mesh) : res mesh :=
  do vertices <- unique_list (map (fun g => unique (concat (g_conn g))) (m_groups m));
  do remap <- prepare_translate vertices (seq 0 (length vertices));
  from_data (take [] (m_coors m) vertices) (take 0%Z (m_vg m) vertices)
    (map (fun g => mkG (g_desc g) (map (take 0 remap) (g_conn g)) (g_mat g)) (m_groups m)).

(** The argument [value]: an integer, a list, or a tuple (range). *)
Inductive value := VInt (v : Z) | VList (l : list Z) | VRange (a b : Z).
Definition selected (v : value) (x : Z) : bool :=
  match v with
  | VInt k => (x =? k)%Z
  | VList l => existsb (fun k => (x =? k)%Z) l
  | VRange a b => ((a <=? x) && (x <=? b))%Z
  end.
(** [a[mask]] *)
Fixpoint mask_take {A} (mask : list bool) (l : list A) : list A :=
  match mask, l with b :: ms, x :: t => if b then x :: mask_take ms t else mask_take ms t | _, _ => [] end.
Definition some_true (mask : list bool) : bool := existsb (fun b => b) mask.
(** mesh_tools.py l.464-504 *)
Definition get_mesh_by_cgroup (m : mesh) (v : value) (cell_vertices_only : bool) : res mesh :=
  let gs := flat_map (fun g =>
      let mask := map (selected v) (g_mat g) in
      if some_true mask then [mkG (g_desc g) (mask_take mask (g_conn g)) (mask_take mask (g_mat g))] else [])
    (m_groups m) in
  do out <- from_data (m_coors m) (m_vg m) gs;
  if cell_vertices_only then get_cell_vertices_only out else Ok out.
(** mesh_tools.py l.507-560; the numbers of the vertices that are not selected are
    -1, here [None]. *)
Definition get_mesh_by_ngroup (m : mesh) (v : value) (cell_vertices_only : bool) : res mesh :=
  let mask := map (selected v) (m_vg m) in
  let idx := nonzero (fun b : bool => b) mask in
  let remap := put (repeat None (length mask)) idx (map Some (seq 0 (length idx))) in
  let good row := forallb (fun i => match nth i remap None with Some _ => true | None => false end) row in
  let num i := match nth i remap None with Some k => k | None => 0 end in
  let gs := flat_map (fun g =>
      let cmask := map good (g_conn g) in
      if some_true cmask then [mkG (g_desc g) (map (map num) (mask_take cmask (g_conn g))) (mask_take cmask (g_mat g))] else [])
    (m_groups m) in
  do out <- from_data (mask_take mask (m_coors m)) (mask_take mask (m_vg m)) gs;
  if cell_vertices_only then get_cell_vertices_only out else Ok out.
