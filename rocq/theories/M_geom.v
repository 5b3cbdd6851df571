(** Model of sfepy/linalg/geometry.py and of the small-matrix functions of
    sfepy/linalg/utils.py.  Floating point numbers are modelled by real numbers.
    The vectorised code works row by row: the model is of one row (point,
    simplex, face, matrix). *)
From Coq Require Import Reals List Bool.
Import ListNotations.
Set Implicit Arguments.
Local Open Scope R_scope.

Definition Rltb (a b : R) : bool := if Rlt_dec a b then true else false.
Definition Rleb (a b : R) : bool := if Rle_dec a b then true else false.

(** Vectors are lists of numbers. *)
Definition vec := list R.
Fixpoint vadd (a b : vec) : vec :=
  match a, b with x :: a', y :: b' => (x + y) :: vadd a' b' | _, _ => [] end.
Fixpoint vsub (a b : vec) : vec :=
  match a, b with x :: a', y :: b' => (x - y) :: vsub a' b' | _, _ => [] end.
Definition vscale (c : R) (a : vec) : vec := map (Rmult c) a.
Fixpoint dot (a b : vec) : R :=
  match a, b with x :: a', y :: b' => x * y + dot a' b' | _, _ => 0 end.
(** utils.py l.10-37 [norm_l2_along_axis] of one row: squared, or not. *)
Definition norm2 (a : vec) : R := fold_left (fun s x => s + x ^ 2) a 0.
Definition norm (a : vec) : R := sqrt (norm2 a).
(** the same with [n_item]: only the first items are used. *)
Definition norm2_items (n_item : nat) (a : vec) : R := norm2 (firstn n_item a).
(** [nm.cross] of vectors with three components. *)
Definition cross (a b : vec) : vec :=
  match a, b with
  | [a0; a1; a2], [b0; b1; b2] => [a1 * b2 - a2 * b1; a2 * b0 - a0 * b2; a0 * b1 - a1 * b0]
  | _, _ => []
  end.
Definition rsum (l : list R) : R := fold_right Rplus 0 l.

(** utils.py l.39-53 [normalize_vectors] of one row. *)
Definition normalize_vector (eps : R) (v : vec) : vec :=
  if Rltb eps (norm v) then map (fun x => x / norm v) v else v.

(** geometry.py l.10-19 [transform_bar_to_space_coors]: the loop over the vertices
    starts from zeros. *)
Definition transform_bar (dim : nat) (bar : list R) (coors : list vec) : vec :=
  fold_left (fun s p => vadd s (vscale (fst p) (snd p))) (combine bar coors) (repeat 0 dim).

(** geometry.py l.49-57: triangles. *)
Definition tri_bar (p0 p1 p2 : vec) : list R :=
  let a2 := norm2 (vsub p1 p2) in
  let b2 := norm2 (vsub p0 p2) in
  let c2 := norm2 (vsub p0 p1) in
  [a2 * (- a2 + b2 + c2); b2 * (a2 - b2 + c2); c2 * (a2 + b2 - c2)].
(** geometry.py l.59-82: tetrahedrons. *)
Definition tet_bar (p0 p1 p2 p3 : vec) : list R :=
  let a2 := norm2 (vsub p2 p1) in
  let b2 := norm2 (vsub p2 p0) in
  let c2 := norm2 (vsub p1 p0) in
  let d2 := norm2 (vsub p3 p0) in
  let e2 := norm2 (vsub p3 p1) in
  let f2 := norm2 (vsub p3 p2) in
  [d2 * a2 * (f2 + e2 - a2) + b2 * e2 * (a2 + f2 - e2) + c2 * f2 * (e2 + a2 - f2) - 2 * a2 * e2 * f2;
   e2 * b2 * (f2 + d2 - b2) + c2 * f2 * (d2 + b2 - f2) + a2 * d2 * (b2 + f2 - d2) - 2 * b2 * d2 * f2;
   f2 * c2 * (e2 + d2 - c2) + b2 * e2 * (d2 + c2 - e2) + a2 * d2 * (c2 + e2 - d2) - 2 * c2 * e2 * d2;
   d2 * a2 * (b2 + c2 - a2) + e2 * b2 * (c2 + a2 - b2) + f2 * c2 * (a2 + b2 - c2) - 2 * a2 * b2 * c2].
(** geometry.py l.87 [bar_coors /= nm.sum(bar_coors, axis=1)[:,None]]. *)
Definition normalize_bar (b : list R) : list R := map (fun x => x / rsum b) b.

(** geometry.py l.88-110: [force_inside_eps]. *)
Definition lmin (l : list R) : R :=
  match l with [] => 0 | x :: t => fold_left Rmin t x end.
Definition force_inside (eps0 : R) (bar : list R) : list R :=
  let bc := 1 / INR (length bar) in
  let limit := 9 / 10 * bc in
  let eps := if Rltb limit eps0 then limit else eps0 in
  let mb := lmin bar in
  if Rltb mb eps then
    let alpha := (eps - mb) / (bc - mb) in
    map (fun b => (1 - alpha) * b + alpha * bc) bar
  else bar.

(** geometry.py l.21-114 [get_simplex_circumcentres] of one simplex; [dim] is
    the space dimension.  [None] stands for the failed assertions. *)
Definition circumcentre (dim : nat) (coors : list vec) (feps : option R) : option vec :=
  if negb (Nat.leb 2 (length coors) && Nat.leb (length coors) (dim + 1)
           && Nat.leb 1 dim && Nat.leb dim 3) then None else
  let finish b :=
    let b := normalize_bar b in
    let b := match feps with None => b | Some e => force_inside e b end in
    Some (transform_bar dim b coors) in
  match coors with
  | [p; q] => Some (map (fun x => 1 / 2 * x) (vadd p q))
  | [p0; p1; p2] => finish (tri_bar p0 p1 p2)
  | [p0; p1; p2; p3] => finish (tet_bar p0 p1 p2 p3)
  | _ => None
  end.

(** geometry.py l.139-164 [barycentric_coors]: the unique solution of the
    linear system assembled there; [numpy.linalg.solve] is specified, not
    modelled. *)
Definition solves_barycentric (bc : list R) (x : vec) (s_coors : list vec) : Prop :=
  length bc = length s_coors /\
  (forall k, (k < length x)%nat ->
     rsum (map (fun p => fst p * nth k (snd p) 0) (combine bc s_coors)) = nth k x 0) /\
  rsum bc = 1.
(** geometry.py l.166-177 [points_in_simplex] of one point. *)
Definition in_simplex_flag (eps : R) (bc : list R) : bool :=
  forallb (fun b => Rltb (- eps) b && Rltb b (1 + eps)) bc.

(** geometry.py l.179-211 [flag_points_in_polygon2d] of one point: the toggling by
    the edge from [vj] (the previous vertex) to [vi]. *)
Definition pt := (R * R)%type.
Definition edge_toggle (p vi vj : pt) (flag : bool) : bool :=
  let '(px, py) := p in let '(vix, viy) := vi in let '(vjx, vjy) := vj in
  if xorb (Rltb py viy) (Rltb py vjy) then
    if Rltb px ((vjx - vix) * (py - viy) / (vjy - viy) + vix) then negb flag else flag
  else flag.
Fixpoint polygon_loop (p prev : pt) (poly : list pt) (flag : bool) : bool :=
  match poly with
  | [] => flag
  | v :: t => polygon_loop p v t (edge_toggle p v prev flag)
  end.
Definition in_polygon (poly : list pt) (p : pt) : bool :=
  polygon_loop p (last poly (0, 0)) poly false.

(** geometry.py l.254-282 [get_perpendiculars]; the argument is normalised in
    place ([vec /= nvec]), the first component of the result is its new value. *)
Definition get_perpendiculars2 (v : vec) : option (vec * vec) :=
  let u := map (fun x => x / norm v) v in
  match u with [a; b] => Some (u, [b; - a]) | _ => None end.
Definition get_perpendiculars3 (v : vec) : vec * vec * vec :=
  let u := map (fun x => x / norm v) v in
  let v1 := cross u [0; 0; 1] in
  let v1 := if Rltb (norm v1) (1 / 10) then cross u [0; 1; 0] else v1 in
  let v1 := map (fun x => x / norm v1) v1 in
  let v2 := cross u v1 in
  let v2 := map (fun x => x / norm v2) v2 in
  (u, v1, v2).

(** geometry.py l.284-324 [get_face_areas] of one face. *)
Definition pad3 (v : vec) : vec := match v with [x; y] => [x; y; 0] | _ => v end.
Definition tri_area (p0 p1 p2 : vec) : R :=
  1 / 2 * norm (cross (vsub (pad3 p1) (pad3 p0)) (vsub (pad3 p2) (pad3 p0))).
Definition face_area (face : list vec) : option R :=
  match face with
  | [p0; p1; p2] => Some (tri_area p0 p1 p2)
  | [p0; p1; p2; p3] => Some (tri_area p0 p1 p2 + tri_area p0 p2 p3)
  | _ => None
  end.

(** geometry.py l.326-333 [rotation_matrix2d] (degrees). *)
Definition rotation_matrix2d (angle : R) : list vec :=
  let angle := angle * (PI / 180) in
  [[cos angle; - sin angle]; [sin angle; cos angle]].
(** [mtx @ v]. *)
Definition mvec (m : list vec) (v : vec) : vec := map (fun r => dot r v) m.

(** geometry.py l.400-436 [get_coors_in_tube], one point (three components). *)
Definition in_tube (centre axis : vec) (r_in r_out len : R) (inside : bool) (x : vec) : bool :=
  let v := vsub x centre in
  let drv := cross axis v in
  let dr := sqrt (rsum (map (fun c => c * c) drv)) in
  let dl := dot v axis in
  let l2 := 1 / 2 * len in
  if inside then Rleb (- l2) dl && Rleb dl l2 && Rleb r_in dr && Rleb dr r_out
  else Rleb (- l2) dl && Rleb dl l2 && Rleb dr r_in && Rleb r_out dr.
(** geometry.py l.438-478 [get_coors_in_ball], one point. *)
Definition in_ball (centre : vec) (radius : R) (radius2 : option R) (inside : bool) (x : vec) : bool :=
  let nv := norm (vsub x centre) in
  match radius2 with
  | None => if inside then Rleb nv radius else Rleb radius nv
  | Some r2 => if inside then Rleb nv radius && Rleb r2 nv
               else Rleb radius nv && Rleb nv r2
  end.

(** [a[..., i, j]] *)
Definition elt (a : list vec) (i j : nat) : R := nth j (nth i a []) 0.
(** utils.py l.98-145 [invs_fast] of one matrix, with a given determinant.
    [None]: NotImplementedError. *)
Definition inv_fast (a : list vec) (det : R) : option (list vec) :=
  match length a with
  | 3%nat =>
      Some [[(- elt a 1 2 * elt a 2 1 + elt a 1 1 * elt a 2 2) / det;
             (elt a 0 2 * elt a 2 1 - elt a 0 1 * elt a 2 2) / det;
             (- elt a 0 2 * elt a 1 1 + elt a 0 1 * elt a 1 2) / det];
            [(elt a 1 2 * elt a 2 0 - elt a 1 0 * elt a 2 2) / det;
             (- elt a 0 2 * elt a 2 0 + elt a 0 0 * elt a 2 2) / det;
             (elt a 0 2 * elt a 1 0 - elt a 0 0 * elt a 1 2) / det];
            [(- elt a 1 1 * elt a 2 0 + elt a 1 0 * elt a 2 1) / det;
             (elt a 0 1 * elt a 2 0 - elt a 0 0 * elt a 2 1) / det;
             (- elt a 0 1 * elt a 1 0 + elt a 0 0 * elt a 1 1) / det]]
  | 2%nat => Some [[elt a 1 1 / det; - elt a 0 1 / det]; [- elt a 1 0 / det; elt a 0 0 / det]]
  | 1%nat => Some [[1 / det]]
  | _ => None
  end.
(** The determinant ([numpy.linalg.det]) of matrices up to 3 x 3. *)
Definition det (a : list vec) : R :=
  match length a with
  | 1%nat => elt a 0 0
  | 2%nat => elt a 0 0 * elt a 1 1 - elt a 0 1 * elt a 1 0
  | 3%nat => elt a 0 0 * (elt a 1 1 * elt a 2 2 - elt a 1 2 * elt a 2 1)
             - elt a 0 1 * (elt a 1 0 * elt a 2 2 - elt a 1 2 * elt a 2 0)
             + elt a 0 2 * (elt a 1 0 * elt a 2 1 - elt a 1 1 * elt a 2 0)
  | _ => 1
  end.
(** geometry.py l.116-137 [get_simplex_volumes] of one simplex. *)
Definition simplex_volume (dim : nat) (p : list vec) : R :=
  let deltas := map (fun q => vsub q (hd [] p)) (tl p) in
  det deltas / INR (fact dim).
