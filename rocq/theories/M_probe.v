(** Model of sfepy/discrete/probes.py: the probe points and their refinement (Probe,
    PointsProbe, LineProbe, RayProbe, CircleProbe) and of linalg/geometry.py
    make_axis_rotation_matrix, over exact real numbers.

    Points are lists of coordinates.  The diameter of the element found for a point is
    an arbitrary function [ed] of the point.  The evaluation of the variable and the
    caches are left out. *)
From Coq Require Import Reals.
From Verif Require Import Base.
Set Implicit Arguments.
Open Scope R_scope.

Definition point := list R.
Definition Rltb (a b : R) : bool := if Rlt_dec a b then true else false.
Definition padd (a b : point) : point := map (fun q => fst q + snd q) (combine a b).
Definition psub (a b : point) : point := map (fun q => fst q - snd q) (combine a b).
Definition pscale (k : R) (a : point) : point := map (fun x => x * k) a.
Definition sumsq (a : point) : R := fold_right (fun x s => x * x + s) 0 a.
(** [nla.norm] *)
Definition pnorm (a : point) : R := sqrt (sumsq a).

(** [nm.linspace(a, b, n)] for n >= 2 *)
Definition linspace (a b : R) (n : nat) : list R :=
  map (fun i => a + INR i * ((b - a) / INR (n - 1))) (seq 0 n).

(** l.231-246, [set_n_point]: the number of points and the required one ([None]: -1,
    i.e. adaptive); [None] stands for -10. *)
Definition set_n_point (n : option Z) : nat * option nat :=
  let n := match n with Some n => n | None => (-10)%Z end in
  if (n <=? 0)%Z then (Z.to_nat (Z.max (- n) 2), None)
  else let n := Z.to_nat (Z.max n 2) in (n, Some n).

(** l.388-407, [refine_pars] without [cyclic_val]: the middle of every flagged interval
    is inserted between its ends ([nm.insert] with the positions of the right ends). *)
Fixpoint refine (l : list R) (flags : list bool) : list R :=
  match l, flags with
  | a :: ((b :: _) as t), f :: flags => a :: (if f then (a + b) / 2 :: refine t flags else refine t flags)
  | _, _ => l
  end.
(** With [cyclic_val]: the intervals are those of the closed list, the closing value is
    not in the result. *)
Definition refine_pars (pars : list R) (flags : list bool) (cyclic_val : option R) : list R :=
  match cyclic_val with
  | None => refine pars flags
  | Some c => removelast (refine (pars ++ [c]) flags)
  end.

(** l.354-386, [refine_points] of an adaptive probe: [hint] is the option
    [size_hint]; [ed] is unbound if it is given, so that the last part of a cyclic
    probe fails. *)
Section Refine.
Variables (ed : point -> R) (hint : option R).
Definition too_far (p q : point) : bool :=
  let pd := match hint with Some h => h | None => (1 / 2) * (ed q + ed p) end in
  Rltb pd (pnorm (psub q p)).
Fixpoint pair_flags (l : list point) : list bool :=
  match l with
  | p :: ((q :: _) as t) => too_far p q :: pair_flags t
  | _ => []
  end.
Definition refine_flags (is_cyclic : bool) (points : list point) : res (list bool) :=
  if is_cyclic then
    match hint with
    | Some _ => Err NameError
    | None =>
        let p0 := hd [] points in
        let p1 := last points [] in
        Ok (pair_flags points ++ [Rltb ((1 / 2) * (ed p0 + ed p1)) (pnorm (psub p0 p1))])
    end
  else Ok (pair_flags points).

(** l.296-341, the loop of [probe] of an adaptive probe from the parametrization
    [pars]; [at_par] gives the point of a parameter, [cyc] the cyclic value. *)
Fixpoint probe_loop (fuel : nat) (at_par : R -> point) (cyc : option R) (pars : list R) : res (list R) :=
  match fuel with
  | O => Err OutOfFuel
  | S fuel =>
      do flags <- refine_flags (match cyc with Some _ => true | None => false end) (map at_par pars);
      if existsb (fun f => f) flags then probe_loop fuel at_par cyc (refine_pars pars flags cyc) else Ok pars
  end.
End Refine.

(** ** LineProbe, l.474-569 *)
Definition line_length (p0 p1 : point) : R := pnorm (psub p1 p0).
Definition line_dir (p0 p1 : point) : point := map (fun x => x / line_length p0 p1) (psub p1 p0).
Definition line_point (p0 p1 : point) (t : R) : point := padd p0 (pscale t (line_dir p0 p1)).
(** The result of a probe: parameters and points ([ed], [hint] are used if adaptive).
    For a fixed number of points the flags are [[False]]. *)
Definition line_probe (ed : point -> R) (hint : option R) (fuel : nat) (p0 p1 : point) (n_point : option Z) : res (list R * list point) :=
  let '(n, required) := set_n_point n_point in
  let pars := linspace 0 (line_length p0 p1) n in
  do pars <- match required with
             | Some _ => Ok pars
             | None => probe_loop ed hint fuel (line_point p0 p1) None pars
             end;
  Ok (pars, map (line_point p0 p1) pars).

(** ** PointsProbe, l.409-462: the number of points is set by [set_n_point]. *)
Definition points_probe (points : list point) : list R * list point :=
  let n := fst (set_n_point (Some (Z.of_nat (List.length points)))) in
  (map INR (seq 0 n), points).

(** ** RayProbe, l.571-663 (a positive number of points).  The norm of [dirvec] is
    divided out in the constructor. *)
Definition ray_dir (dirvec : point) : point := map (fun x => x / pnorm dirvec) dirvec.
Definition gen_points (p0 dirvec : point) (p_fun : R -> R) (n : nat) (sign : R) : list R * list point :=
  let pars := map (fun i => p_fun (INR i)) (seq 0 n) in
  (pars, map (fun t => padd p0 (pscale t (pscale sign (ray_dir dirvec)))) pars).
Definition ray_probe (p0 dirvec : point) (p_fun : R -> R) (n : nat) (both : bool) : list R * list point :=
  let '(pars, points) := gen_points p0 dirvec p_fun n 1 in
  if both then
    let '(pars0, points0) := gen_points p0 dirvec p_fun n (-1) in
    (map Ropp (rev pars0) ++ pars, rev points0 ++ points)
  else (pars, points).
(** The number of points in the report. *)
Definition ray_n_point (n : nat) (both : bool) : nat :=
  fst (set_n_point (Some (Z.of_nat (if both then 2 * n else n)))).

(** ** geometry.py l.381-399 *)
Definition rotation_matrix (d : R * R * R) (angle : R) : list (list R) :=
  let '(x, y, z) := d in
  let n := pnorm [x; y; z] in
  let d0 := x / n in let d1 := y / n in let d2 := z / n in
  let c := cos angle in let s := sin angle in
  [ [d0 * d0 + c * (1 - d0 * d0) + s * 0; d0 * d1 + c * (0 - d0 * d1) + s * d2; d0 * d2 + c * (0 - d0 * d2) + s * (- d1)];
    [d1 * d0 + c * (0 - d1 * d0) + s * (- d2); d1 * d1 + c * (1 - d1 * d1) + s * 0; d1 * d2 + c * (0 - d1 * d2) + s * d0];
    [d2 * d0 + c * (0 - d2 * d0) + s * d1; d2 * d1 + c * (0 - d2 * d1) + s * (- d0); d2 * d2 + c * (1 - d2 * d2) + s * 0] ].
(** [nm.dot(point, mtx)] *)
Definition row_times (p : R * R * R) (m : list (list R)) : point :=
  let '(x, y, z) := p in
  map (fun j => x * nth j (nth 0 m []) 0 + y * nth j (nth 1 m []) 0 + z * nth j (nth 2 m []) 0) [0; 1; 2]%nat.

(** ** CircleProbe, l.665-757: [a, b, c] is the normalized normal. *)
Definition unit_normal (n : R * R * R) : R * R * R :=
  let '(x, y, z) := n in let k := pnorm [x; y; z] in (x / k, y / k, z / k).
Definition circle_point3 (centre : point) (normal : R * R * R) (radius t : R) : point :=
  let '(a, b, c) := unit_normal normal in
  let x := radius * cos t in
  let y := radius * sin t in
  let axis := (0 * c - 1 * b, 1 * a - 0 * c, 0 * b - 0 * a) in
  let angle := acos (0 * a + 0 * b + 1 * c) in
  let q := if Rlt_dec (pnorm [fst (fst axis); snd (fst axis); snd axis]) (1 / 10)
           then [x; y; 0]
           else row_times (x, y, 0) (rotation_matrix axis angle) in
  padd q centre.
Definition circle_point2 (centre : point) (radius t : R) : point :=
  padd [radius * cos t; radius * sin t] centre.
(** [linspace(0, 2 pi, n + 1)[:-1]] *)
Definition circle_pars (n : nat) : list R := removelast (linspace 0 (2 * PI) (n + 1)).
Definition circle_probe (ed : point -> R) (hint : option R) (fuel : nat) (at_par : R -> point) (n_point : option Z) : res (list R * list point) :=
  let '(n, required) := set_n_point n_point in
  let pars := circle_pars n in
  do pars <- match required with
             | Some _ => Ok pars
             | None => probe_loop ed hint fuel at_par (Some (2 * PI)) pars
             end;
  Ok (pars, map at_par pars).
