(** Model of sfepy/mechanics/contact_bodies.py (ContactPlane.get_distance, ContactSphere), of
    mechanics/membranes.py create_transformation_matrix and transform_asm_* and of
    homogenization/convolutions.py with integrate_in_time of homogenization/utils.py, over
    exact real numbers. *)
From Coq Require Import Reals.
From Verif Require Import Base.
Open Scope R_scope.

Definition vec3 := (R * R * R)%type.
Definition vdot (a b : vec3) : R := let '(a1, a2, a3) := a in let '(b1, b2, b3) := b in a1 * b1 + a2 * b2 + a3 * b3.
Definition vsub (a b : vec3) : vec3 := let '(a1, a2, a3) := a in let '(b1, b2, b3) := b in (a1 - b1, a2 - b2, a3 - b3).
Definition vcross (a b : vec3) : vec3 :=
  let '(a1, a2, a3) := a in let '(b1, b2, b3) := b in (a2 * b3 - a3 * b2, a3 * b1 - a1 * b3, a1 * b2 - a2 * b1).
Definition vnorm (a : vec3) : R := sqrt (vdot a a).
Definition vdiv (a : vec3) (k : R) : vec3 := let '(a1, a2, a3) := a in (a1 / k, a2 / k, a3 / k).

(** ** contact_bodies.py l.8-15, 39, 51-54: the plane *)
Definition plane_normal (normal : vec3) : vec3 := vdiv normal (vnorm normal).
Definition plane_distance (anchor normal point : vec3) : R :=
  vdot point (plane_normal normal) - vdot anchor (plane_normal normal).

(** ** l.56-94: the sphere *)
Definition sphere_mask (centre : vec3) (radius eps : R) (p : vec3) : bool :=
  if Rle_dec (vdot (vsub p centre) (vsub p centre)) ((1 + eps) * (1 + eps) * (radius * radius)) then true else false.
Definition sphere_far (centre p : vec3) : bool := if Rlt_dec (1 / 100000000) (vnorm (vsub centre p)) then true else false.
(** The result of [nm.where(ii[:, None], x, y)] for [x], [y] with as many rows as [ii] has
    true items: broadcasting repeats a single row and fails (ValueError) for other numbers
    than the number of items of [ii] (if this is 1, [where] has as many rows as [x]). *)
Definition where_rows (ii : list bool) (x y : list vec3) : res (list vec3) :=
  let n := List.length ii in
  let k := List.length x in
  if Nat.eqb k n then Ok (map (fun q => if fst q : bool then fst (snd q) else snd (snd q)) (combine ii (combine x y)))
  else if Nat.eqb k 1 then Ok (map (fun b : bool => if b then hd (0, 0, 0) x else hd (0, 0, 0) y) ii)
  else if Nat.eqb n 1 then Ok (map (fun q => if hd false ii then fst q else snd q) (combine x y))
  else Err ValueError.
Definition sphere_distance (centre : vec3) (radius : R) (points : list vec3) : res (list R * list vec3) :=
  let vecs := map (fun p => vsub centre p) points in
  let dist := map vnorm vecs in
  let ii := map (sphere_far centre) points in
  let sel := map snd (filter fst (combine ii vecs)) in
  let normals := map (fun v => vdiv v (vnorm v)) sel in
  do out <- where_rows ii normals sel;
  Ok (map (fun d => radius - d) dist, out).
(** [_get_derivatives] for one point *)
Definition sphere_dd (centre p : vec3) : vec3 := vdiv (vsub centre p) (vnorm (vsub centre p)).
Definition sphere_dn (centre p : vec3) : vec3 * vec3 * vec3 :=
  let '(n1, n2, n3) := sphere_dd centre p in
  let d := vnorm (vsub centre p) in
  ((- (1 - n1 * n1) / d, - (0 - n1 * n2) / d, - (0 - n1 * n3) / d),
   (- (0 - n2 * n1) / d, - (1 - n2 * n2) / d, - (0 - n2 * n3) / d),
   (- (0 - n3 * n1) / d, - (0 - n3 * n2) / d, - (1 - n3 * n3) / d)).

(** ** membranes.py l.10-49 for one face: the columns of the matrix; [p0], [p1], [pl] are the
    first, the second and the last node. *)
Definition face_basis (p0 p1 pl : vec3) : vec3 * vec3 * vec3 :=
  let t1 := vsub p1 p0 in
  let t2 := vsub pl p0 in
  let n := vcross t1 t2 in
  let t2 := vcross n t1 in
  (vdiv t1 (vnorm t1), vdiv t2 (vnorm t2), vdiv n (vnorm n)).
(** l.51-68: T f for the forces in one node *)
Definition to_global (b : vec3 * vec3 * vec3) (f : vec3) : vec3 :=
  let '((a1, a2, a3), (b1, b2, b3), (c1, c2, c3)) := b in
  let '(x, y, z) := f in
  (a1 * x + b1 * y + c1 * z, a2 * x + b2 * y + c2 * z, a3 * x + b3 * y + c3 * z).
(** terms_membrane.py l.189-190: [u^T T] in one node *)
Definition to_local (b : vec3 * vec3 * vec3) (u : vec3) : vec3 :=
  let '(a, b, c) := b in (vdot u a, vdot u b, vdot u c).

(** ** convolutions.py: one component of a kernel: [c] its values, [ts] the times,
    [ec] = (c1, c2) the coefficients of the exponential. *)
Definition eval_exponential (ec : R * R) (x : R) : R := fst ec * exp (- snd ec * x).
(** utils.py l.97-110 *)
Fixpoint forward_sum (c ts : list R) : R :=
  match c, ts with
  | c0 :: c', t0 :: ((t1 :: _) as ts') => c0 * (t1 - t0) + forward_sum c' ts'
  | _, _ => 0
  end.
Fixpoint trapezoid_sum (c ts : list R) : R :=
  match c, ts with
  | c0 :: ((c1 :: _) as c'), t0 :: ((t1 :: _) as ts') => 1 / 2 * (c1 + c0) * (t1 - t0) + trapezoid_sum c' ts'
  | _, _ => 0
  end.
(** [int_dt]; [e] are the values of the exponential at the times *)
Definition int_dt (use_exp : bool) (ec : R * R) (c ts : list R) : R :=
  let e := map (eval_exponential ec) ts in
  if use_exp then (hd 0 c * hd 0 e / snd ec) * (1 - last e 0 / hd 0 e) else forward_sum c ts.
(** [diff_dt] *)
Fixpoint diff_quot (c ts : list R) : list R :=
  match c, ts with
  | c0 :: ((c1 :: _) as c'), t0 :: ((t1 :: _) as ts') => (c1 - c0) / (t1 - t0) :: diff_quot c' ts'
  | _, _ => []
  end.
Definition diff_dt (use_exp : bool) (ec : R * R) (c ts : list R) : list R :=
  if use_exp then map (fun t => - snd ec * hd 0 c * eval_exponential ec t) ts else diff_quot c ts ++ [0].
(** [get_exp] *)
Definition get_exp (ec : R * R) (c ts : list R) : list R := map (fun t => hd 0 c * eval_exponential ec t) ts.

(** compute_mean_decay(): a kernel is a list of flattened values. *)
Definition rsum (l : list R) : R := fold_right Rplus 0 l.
Definition mean_decay (coef : list (list R)) : list R :=
  let w := map Rabs (nth (List.length coef / 2) coef []) in
  let w := map (fun x => x / rsum w) w in
  let avgs := map (fun row => rsum (map (fun q => fst q * snd q) (combine w row))) coef in
  map (fun a => a / hd 0 avgs) avgs.
