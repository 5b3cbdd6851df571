(** Model of the tiling of periodic meshes: sfepy/mesh/mesh_generators.py
    (tiled_mesh1d, gen_tiled_mesh).  Coordinates are exact rationals. *)
From Coq Require Import QArith.
From Verif Require Import Base M_parallel M_periodic M_merge M_block.
Set Implicit Arguments.
Open Scope nat_scope.

Definition qltb (a b : Q) : bool := if Qlt_le_dec a b then true else false.
(** [dd]: the vector of the repetition ([zeros(dim)], [dd[idim] = bb[1] - bb[0]]) *)
Definition axis_vec (dim idim : nat) (l : Q) : point := upd (repeat 0%Q dim) idim l.

Section Tile.
(** [match_grid_plane(coors1, coors2, idim)] of periodic.py (M_periodic.v [do_call]) *)
Variable match_plane : list point -> list point -> nat -> res (list nat * list nat).

Record tiled := mkT { t_conn : list (list nat); t_coors : list point; t_grp : list Z; t_map : list nat }.
(** The iterations ii > 0 of the loop of mesh_generators.py l.480-513; the arrays are
    filled in consecutive slices.  [mask], [cidx] are l.489-493. *)
Section Loop.
Variables (conn : list (list nat)) (coors : list point) (grp : list Z) (dd : point) (a1 a2 : list nat).   (* s1[m1], s2[m2] *)
Variables (mask cidx : list nat).
Fixpoint tile_loop (n ii nd_off : nat) (mapto : list nat) : tiled :=
  match n with
  | 0 => mkT [] [] [] []
  | S n =>
      let remap := put (map (fun c => c + nd_off - 1) (cumsum_from 0 mask)) a1 mapto in
      let mapto' := take 0 remap a2 in
      let r := tile_loop n (S ii) (nd_off + length cidx) mapto' in
      mkT (map (take 0 remap) conn ++ t_conn r)
          (map (fun p => vadd p (vscale (q_of ii) dd)) (take [] coors cidx) ++ t_coors r)
          (take 0%Z grp cidx ++ t_grp r) (cidx ++ t_map r)
  end.
End Loop.
(** mesh_generators.py l.445-523 [tiled_mesh1d], n_rep >= 1, always with the node map.
    [ndmap]: the argument, [None] for the first axis. *)
Definition tiled_mesh1d (conn : list (list nat)) (coors : list point) (grp : list Z) (idim n_rep : nat) (b0 b1 eps : Q) (ndmap : option (list nat)) : res tiled :=
  let s1 := nonzero (fun p => qltb (nth idim p 0%Q) (b0 + eps)) coors in
  let s2 := nonzero (fun p => qltb (b1 - eps) (nth idim p 0%Q)) coors in
  if negb (length s1 =? length s2) then Err ValueError else
  let dim := length (nth 0 coors []) in
  do mm <- match_plane (take [] coors s1) (take [] coors s2) idim;
  let mask := put1 (repeat 1 (length coors)) s1 0 in
  let cidx := setdiff1d (seq 0 (length coors)) s1 in
  let a1 := take 0 s1 (fst mm) in let a2 := take 0 s2 (snd mm) in
  let r := tile_loop conn coors grp (axis_vec dim idim (b1 - b0)) a1 a2 mask cidx (n_rep - 1) 1 (length coors) a2 in
  let m := seq 0 (length coors) ++ t_map r in
  let m := match ndmap with
           | None => m
           | Some nd => let mx := list_max nd in map (fun v => if mx <? v then nth v nd 0 else v) m
           end in
  Ok (mkT (conn ++ t_conn r) (coors ++ t_coors r) (grp ++ t_grp r) m).

(** mesh_generators.py l.560-577: the loop over the axes; [bb] is the transposed
    bounding box. *)
Fixpoint tile_axes (ii : nat) (grid : list nat) (bb : list (Q * Q)) (eps : Q) (t : tiled) (ndmap : option (list nat)) : res tiled :=
  match grid, bb with
  | gr :: grid, b :: bb =>
      do t' <- tiled_mesh1d (t_conn t) (t_coors t) (t_grp t) ii gr (fst b) (snd b) eps ndmap;
      tile_axes (S ii) grid bb eps t' (Some (t_map t'))
  | _, _ => Ok t
  end.
(** mesh.py l.450-455 [get_bounding_box], one axis *)
Definition qmin (l : list Q) : Q := fold_right (fun a b => if Qlt_le_dec a b then a else b) (hd 0%Q l) l.
Definition qmax (l : list Q) : Q := fold_right (fun a b => if Qlt_le_dec b a then a else b) (hd 0%Q l) l.
Definition bbox (dim : nat) (x : list point) : list (Q * Q) :=
  map (fun a => (qmin (map (fun p => nth a p 0%Q) x), qmax (map (fun p => nth a p 0%Q) x))) (seq 0 dim).
(** mesh_generators.py l.525-586 [gen_tiled_mesh] with the grid given; all cells have
    the dimension of the mesh, [descs[0]] is the kind of the first group. *)
Definition gen_tiled_mesh (m : mesh) (grid : list nat) (scale eps : Q) : res (mesh * list nat) :=
  let dim := length (nth 0 (m_coors m) []) in
  let desc := match m_groups m with g :: _ => g_desc g | [] => 0 end in
  do t <- tile_axes 0 grid (bbox dim (m_coors m)) eps
            (mkT (get_conn m desc) (m_coors m) (m_vg m) (seq 0 (length (m_coors m)))) None;
  let mat := concat (repeat (cell_groups m) (prod grid)) in
  Ok (mkM (map (vscale scale) (t_coors t)) (t_grp t) [mkG desc (t_conn t) mat], t_map t).
End Tile.
