(** Model of the finite element reference mappings.
    Code modelled: sfepy/discrete/fem/mappings.py l.15-191, 247-277, 330-379,
    sfepy/discrete/common/mappings.py l.31-40, sfepy/linalg/utils.py l.55-145 (dets_fast,
    invs_fast), sfepy/discrete/fem/fields_base.py l.109-119, 765-780, 1256-1263, 1278-1285,
    1351-1373 (geometries with one kind of facets, integration other than 'facet_extra').
    Arithmetic is over the reals; arrays are functions of their indices, so the
    shapes are explicit arguments. *)
From Coq Require Import Reals.
From Verif Require Import Base M_fmf M_nls.
Open Scope nat_scope.

Notation mtx := (nat -> nat -> R).

(** mappings.py l.115-121, [ecoors = coors[conn, :]] and the einsum 'qij,cjk->cqik' in one
    cell and quadrature point: [ng] nodes of the geometry. *)
Definition mtxRM (ng : nat) (bg ec : mtx) : mtx := fun i k => sm ng (fun j => (bg i j * ec j k)%R).
(** utils.py l.55 dets_fast = numpy.linalg.det *)
Definition detm (dim : nat) (a : mtx) : R :=
  (match dim with
   | 1%nat => a 0%nat 0%nat
   | 2%nat => a 0%nat 0%nat * a 1%nat 1%nat - a 0%nat 1%nat * a 1%nat 0%nat
   | _ => a 0%nat 0%nat * (a 1%nat 1%nat * a 2%nat 2%nat - a 1%nat 2%nat * a 2%nat 1%nat)
          - a 0%nat 1%nat * (a 1%nat 0%nat * a 2%nat 2%nat - a 1%nat 2%nat * a 2%nat 0%nat)
          + a 0%nat 2%nat * (a 1%nat 0%nat * a 2%nat 1%nat - a 1%nat 1%nat * a 2%nat 0%nat)
   end)%R.
(** utils.py l.98-145 invs_fast *)
Definition invm (dim : nat) (a : mtx) (d : R) : mtx := fun i j =>
  ((match dim, i, j with
    | 1, _, _ => 1
    | 2, 0, 0 => a 1%nat 1%nat
    | 2, 1, 0 => - a 1%nat 0%nat
    | 2, 0, 1 => - a 0%nat 1%nat
    | 2, _, _ => a 0%nat 0%nat
    | _, 0, 0 => - a 1%nat 2%nat * a 2%nat 1%nat + a 1%nat 1%nat * a 2%nat 2%nat
    | _, 1, 0 => a 1%nat 2%nat * a 2%nat 0%nat - a 1%nat 0%nat * a 2%nat 2%nat
    | _, _, 0 => - a 1%nat 1%nat * a 2%nat 0%nat + a 1%nat 0%nat * a 2%nat 1%nat
    | _, 0, 1 => a 0%nat 2%nat * a 2%nat 1%nat - a 0%nat 1%nat * a 2%nat 2%nat
    | _, 1, 1 => - a 0%nat 2%nat * a 2%nat 0%nat + a 0%nat 0%nat * a 2%nat 2%nat
    | _, _, 1 => a 0%nat 1%nat * a 2%nat 0%nat - a 0%nat 0%nat * a 2%nat 1%nat
    | _, 0, _ => - a 0%nat 2%nat * a 1%nat 1%nat + a 0%nat 1%nat * a 1%nat 2%nat
    | _, 1, _ => a 0%nat 2%nat * a 1%nat 0%nat - a 0%nat 0%nat * a 1%nat 2%nat
    | _, _, _ => - a 0%nat 1%nat * a 1%nat 0%nat + a 0%nat 0%nat * a 1%nat 1%nat
    end) / d)%R.

(** The attributes of a mapping: [m_det] (cell, point), [m_volume] (cell), [m_bfg] (cell,
    point, direction, base function), [m_normal] (cell, point, direction). *)
Record fmap := mkM { m_det : nat -> nat -> R; m_volume : nat -> R; m_bfg : nat -> nat -> mtx; m_normal : nat -> nat -> nat -> R }.
Definition volume_of (n_qp : nat) (det : nat -> nat -> R) (c : nat) : R := sm n_qp (det c).
(** Whether a predicate holds for some cell and quadrature point. *)
Definition any_cq (n_el n_qp : nat) (p : nat -> nat -> bool) : bool :=
  existsb (fun c => existsb (p c) (seq 0 n_qp)) (seq 0 n_el).

(** mappings.py l.115-191 with is_face=False: [bf_g] (point, direction, node) are reference
    gradients of the geometry, [ebf_g] those of the field ([c]-dependent for a transformed
    basis).  RuntimeError stands for NotImplementedError. *)
Definition volume_mapping (dim n_el n_qp ng : nat) (coors : mtx) (conn : nat -> nat -> nat)
    (bf_g : nat -> mtx) (w : nat -> R) (ebf_g : nat -> nat -> mtx) : res fmap :=
  let J c q := mtxRM ng (bf_g q) (fun j => coors (conn c j)) in
  let det0 c q := detm dim (J c q) in
  if any_cq n_el n_qp (fun c q => Rleb (det0 c q) 0) then Err ValueError
  else if (dim =? 0) || (3 <? dim) then Err RuntimeError
  else
    let det c q := (det0 c q * w q)%R in
    let bfg c q := fun k e => sm dim (fun j => (invm dim (J c q) (det0 c q) k j * ebf_g c q j e)%R) in
    Ok (mkM det (volume_of n_qp det) bfg (fun _ _ _ => 0%R)).

(** l.123-160 with is_face=True and no ebf_g; [bf_g] has dim - 1 rows (one in 1D).  In 1D the
    connectivity has one column. *)
Definition surface_mapping (dim n_el n_qp ng : nat) (coors : mtx) (conn : nat -> nat -> nat)
    (bf_g : nat -> mtx) (w : nat -> R) (eps : R) : fmap :=
  let J c q := mtxRM ng (bf_g q) (fun j => coors (conn c j)) in
  let fix0 d := if Rltb (Rabs d) eps then 1%R else d in
  match dim with
  | 1 => let det c q := w q in
         mkM det (volume_of n_qp det) (fun _ _ _ _ => 0%R) (fun c q _ => if conn c 0 =? 0 then (-1)%R else 1%R)
  | 2 => let c1 c q := J c q 0 0 in let c2 c q := J c q 0 1 in
         let det0 c q := sqrt ((c1 c q) ^ 2 + (c2 c q) ^ 2)%R in
         let det c q := (det0 c q * w q)%R in
         mkM det (volume_of n_qp det) (fun _ _ _ _ => 0%R)
             (fun c q k => ((match k with 0 => c2 c q | _ => - c1 c q end) / fix0 (det0 c q))%R)
  | _ => let a c q i := J c q 0 i in let b c q i := J c q 1 i in
         let c1 c q := (a c q 1%nat * b c q 2%nat - b c q 1%nat * a c q 2%nat)%R in
         let c2 c q := (a c q 0%nat * b c q 2%nat - b c q 0%nat * a c q 2%nat)%R in
         let c3 c q := (a c q 0%nat * b c q 1%nat - b c q 0%nat * a c q 1%nat)%R in
         let det0 c q := sqrt ((c1 c q) ^ 2 + (c2 c q) ^ 2 + (c3 c q) ^ 2)%R in
         let det c q := (det0 c q * w q)%R in
         mkM det (volume_of n_qp det) (fun _ _ _ _ => 0%R)
             (fun c q k => ((match k with 0 => c1 c q | 1 => - c2 c q | _ => c3 c q end) / fix0 (det0 c q))%R)
  end.

(** l.259-277 get_physical_qps: [bf] (point, node) *)
Definition physical_qps (ng : nat) (bf : mtx) (coors : mtx) (conn : nat -> nat -> nat) (c q k : nat) : R :=
  sm ng (fun j => (bf q j * coors (conn c j) k)%R).

(** common/mappings.py l.31-40 integrate, modes 0 and 1, one component of the field *)
Definition integrate (n_qp : nat) (m : fmap) (field : nat -> nat -> R) (average : bool) (c : nat) : R :=
  let s := sm n_qp (fun q => (field c q * m_det m c q)%R) in
  if average then (s / m_volume m c)%R else s.

(** ** Geometry elements *)
(** geometry_element.py l.108-224: 1_2, 2_3, 2_4, 3_4, 3_8 *)
Inductive geom := Seg | Tri | Quad | Tet | Hex.
Definition gdim (g : geom) : nat := match g with Seg => 1 | Tri | Quad => 2 | Tet | Hex => 3 end.
Definition gverts (g : geom) : list (list nat) :=
  match g with
  | Seg => [[0]; [1]]
  | Tri => [[0; 0]; [1; 0]; [0; 1]]
  | Quad => [[0; 0]; [1; 0]; [1; 1]; [0; 1]]
  | Tet => [[0; 0; 0]; [1; 0; 0]; [0; 1; 0]; [0; 0; 1]]
  | Hex => [[0; 0; 0]; [1; 0; 0]; [1; 1; 0]; [0; 1; 0]; [0; 0; 1]; [1; 0; 1]; [1; 1; 1]; [0; 1; 1]]
  end.
Definition gnv (g : geom) : nat := length (gverts g).
Definition gcoor (g : geom) (j k : nat) : R := INR (nth k (nth j (gverts g) []) 0).
(** get_surface_entities(): edges in 2D, faces in 3D, vertices in 1D *)
Definition gfacets (g : geom) : list (list nat) :=
  match g with
  | Seg => [[0]; [1]]
  | Tri => [[0; 1]; [1; 2]; [2; 0]]
  | Quad => [[0; 1]; [1; 2]; [2; 3]; [3; 0]]
  | Tet => [[0; 2; 1]; [0; 3; 2]; [0; 1; 3]; [1; 2; 3]]
  | Hex => [[0; 3; 2; 1]; [0; 4; 7; 3]; [0; 1; 5; 4]; [4; 5; 6; 7]; [1; 2; 6; 5]; [3; 7; 6; 2]]
  end.
(** vertex [j] of facet [f] *)
Definition fvert (g : geom) (f j : nat) : nat := nth j (nth f (gfacets g) []) 0.
Definition gsurf (g : geom) : geom := match g with Tet => Tri | Hex => Quad | _ => Seg end.
Definition simplexb (g : geom) : bool := match g with Quad | Hex => false | _ => true end.

(** The Lagrange basis of order 1 and its gradient in closed form; lagrange.c is modelled in
    M_lagrange, theorem C134_geometry_basis links the two. *)
Definition pf (v : nat) (x : R) : R := if v =? 0 then (1 - x)%R else x.
Fixpoint prodf (n : nat) (f : nat -> R) : R := match n with 0 => 1%R | S n => (prodf n f * f n)%R end.
Definition gbase (g : geom) (x : nat -> R) (j : nat) : R :=
  if simplexb g then match j with 0 => (1 - sm (gdim g) x)%R | S j => x j end
  else prodf (gdim g) (fun k => pf (nth k (nth j (gverts g) []) 0) (x k)).
Definition ggrad (g : geom) (x : nat -> R) (i j : nat) : R :=
  if simplexb g then match j with 0 => (-1)%R | S j => if i =? j then 1%R else 0%R end
  else prodf (gdim g) (fun k => let v := nth k (nth j (gverts g) []) 0 in
         if k =? i then (if v =? 0 then (-1)%R else 1%R) else pf v (x k)).

(** ** Facet mappings of volume fields of order 1 *)
(** fields_base.py l.109-119, 765-780 (create_bqp): points of facet [f] in the reference cell *)
Definition facet_point (g : geom) (f : nat) (xi : nat -> R) (k : nat) : R :=
  sm (gnv (gsurf g)) (fun j => (gbase (gsurf g) xi j * gcoor g (fvert g f j) k)%R).
(** l.1357-1360: roll(indx, -1)[::-1] *)
Definition roll1 (l : list nat) : list nat := match l with [] => [] | x :: t => t ++ [x] end.
Definition fix_indx (l : list nat) : list nat := rev (roll1 l).
(** l.1354-1355 *)
Definition facet_bf (g : geom) (xi : nat -> R) (j : nat) : R :=
  gbase g (facet_point g 0 xi) (fvert g 0 j).
(** l.1360, 1372 and mappings.py l.228-252, eval_basis with indices *)
Definition facet_bf_g (g : geom) (xi : nat -> R) (i j : nat) : R :=
  ggrad g (facet_point g 0 xi) i (nth j (fix_indx (nth 0 (gfacets g) [])) 0).
(** fe_surface.py l.14-36: connectivity of the facets given by (cell, facet) pairs *)
Definition facet_conn (g : geom) (conn : nat -> nat -> nat) (fis : nat -> nat * nat) (c j : nat) : nat :=
  conn (fst (fis c)) (fvert g (snd (fis c)) j).
(** fields_base.py l.1278-1285, 1351-1373 *)
Definition facet_mapping (g : geom) (n_fa n_qp : nat) (coors : mtx) (conn : nat -> nat -> nat) (fis : nat -> nat * nat)
    (qp : nat -> nat -> R) (w : nat -> R) (eps : R) : fmap :=
  surface_mapping (gdim g) n_fa n_qp (gnv (gsurf g)) coors (facet_conn g conn fis) (fun q => facet_bf_g g (qp q)) w eps.

(** ** Lower dimensional cells *)
(** mappings.py l.15-63 [transform_coors_to_lower_dim] of one cell with [n] nodes; the two
    supported cases (a 3D to 1D transformation raises NotImplementedError). *)
Definition cross (a b : nat -> R) (k : nat) : R :=
  (match k with
   | 0 => a 1%nat * b 2%nat - a 2%nat * b 1%nat
   | 1 => a 2%nat * b 0%nat - a 0%nat * b 2%nat
   | _ => a 0%nat * b 1%nat - a 1%nat * b 0%nat
   end)%R.
Definition rot3 (tol : R) (bv : nat -> R) : mtx :=
  let b := sqrt (bv 0%nat ^ 2 + bv 1%nat ^ 2 + bv 2%nat ^ 2) in
  let ab := sqrt (bv 0%nat ^ 2 + bv 1%nat ^ 2) in
  let cphi := (bv 2%nat / b)%R in let sphi := (ab / b)%R in
  let e i j := if i =? j then cphi else 0%R in
  if Rltb tol (Rabs ab) then
    let u1 := (bv 1%nat / ab)%R in let u2 := (- bv 0%nat / ab)%R in let cphi1 := (1 - cphi)%R in
    let R0 i j : R := (match i, j with
      | 0, 0 => u1 ^ 2 * cphi1 | 0, 1 => u1 * u2 * cphi1 | 0, _ => u2 * sphi
      | 1, 0 => u1 * u2 * cphi1 | 1, 1 => u2 ^ 2 * cphi1 | 1, _ => - u1 * sphi
      | _, 0 => - u2 * sphi | _, 1 => u1 * sphi | _, _ => 0
      end)%R in
    fun i j => (e i j + R0 i j)%R
  else e.
Definition rot2 (tol : R) (bv : nat -> R) : mtx :=
  let b := sqrt (bv 0%nat ^ 2 + bv 1%nat ^ 2) in
  if Rltb tol (Rabs b) then
    let cphi := (bv 0%nat / b)%R in let sphi := (bv 1%nat / b)%R in
    fun i j => match i, j with 0, 0 => cphi | 0, _ => sphi | _, 0 => (- sphi)%R | _, _ => cphi end
  else fun i j => if i =? j then 1%R else 0%R.
Definition dif (x y : nat -> R) (k : nat) : R := (x k - y k)%R.
Definition lower_dim (tol : R) (dim n : nat) (x : mtx) : mtx :=
  let m := match dim with
           | 3 => rot3 tol (cross (dif (x 1%nat) (x 0%nat)) (dif (x (n - 1)) (x 0%nat)))
           | _ => rot2 tol (dif (x (n - 1)) (x 0%nat))
           end in
  fun j i => sm dim (fun k => (m i k * x j k)%R).
