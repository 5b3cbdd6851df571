(** Model of sfepy/discrete/quadratures.py and sfepy/discrete/simplex_cubature.py: quadrature
    points and weights of all geometries and orders, over the reals. *)
From Coq Require Import Reals.
From Verif Require Import Base M_nls M_lagrange M_quadtab.
Set Implicit Arguments.
Open Scope nat_scope.

(** ** simplex_cubature.py *)
(** l.8-28 (generate_decreasing_nonnegative_tuples_summing_to); max = None is [None]: with length 1 it is a TypeError in
    Python, which no caller reaches (length = n + 1 >= 2) *)
Fixpoint decreasing (length n min : nat) (max : option nat) : list (list nat) :=
  match length with
  | 0 => [[]]
  | 1 => match max with Some m => if n <=? m then [[n]] else [] | None => [] end
  | S length =>
    let max := match max with None => n | Some m => if n <? m then n else m end in
    flat_map (fun i => map (cons i) (decreasing length (n - i) min (Some i))) (seq min (S max - min))
  end.
(** l.30-42 (generate_permutations) *)
Fixpoint permutations (original : list nat) : list (list nat) :=
  match original with
  | [] => [[]]
  | [x] => [[x]]
  | x :: l => flat_map (fun perm => map (fun i => firstn i perm ++ x :: skipn i perm) (seq 0 (S (length perm)))) (permutations l)
  end.
(** l.44-54 (generate_unique_permutations) *)
Fixpoint unique_from (had : list (list nat)) (l : list (list nat)) : list (list nat) :=
  match l with
  | [] => []
  | p :: l => if in_dec (list_eq_dec Nat.eq_dec) p had then unique_from had l else p :: unique_from (p :: had) l
  end.
Definition unique_permutations (original : list nat) : list (list nat) := unique_from [] (permutations original).
(** l.66-86 (_extended_euclidean): the loop, p only; [fuel] bounds the number of iterations *)
Fixpoint euclid (fuel : nat) (q r : Z) : Z :=
  match fuel with
  | 0 => q
  | S fuel => if (r =? 0)%Z then q else euclid fuel r (q mod r)%Z
  end.
(** l.74-76: the arguments swapped when abs(q) < abs(r) *)
Definition gcd_ (q r : Z) : Z :=
  let run q r := euclid (S (Z.to_nat (Z.abs r))) q r in
  if (Z.abs q <? Z.abs r)%Z then run r q else run q r.
(** l.91-94 (_simplify_fraction) *)
Definition simplify_fraction (ab : Z * Z) : Z * Z :=
  let g := gcd_ (fst ab) (snd ab) in ((fst ab / g)%Z, (snd ab / g)%Z).
(** The dictionary points_to_weights, in the order of insertion; l.130-131: get(point, 0) + weight *)
Notation fpoint := (list (Z * Z)).
Definition fpoint_dec (p q : fpoint) : {p = q} + {p <> q}.
Proof. apply list_eq_dec. intros [a b] [c d]. destruct (Z.eq_dec a c), (Z.eq_dec b d); [left|right..]; congruence. Defined.
Fixpoint add_weight (d : list (fpoint * R)) (p : fpoint) (w : R) : list (fpoint * R) :=
  match d with
  | [] => [(p, w)]
  | (q, v) :: d => if fpoint_dec q p then (q, (v + w)%R) :: d else (q, v) :: add_weight d p w
  end.
(** l.117-120 *)
Definition gm_weight (s n i : nat) : R :=
  let d := 2 * s + 1 in ((-1) ^ i * / 2 ^ (2 * s) * INR (d + n - 2 * i) ^ d / INR (fact i) / INR (fact (d + n - i)))%R.
(** l.123-131: the points and weights in the order they are produced *)
Definition gm_items (s n : nat) : list (fpoint * R) :=
  let d := 2 * s + 1 in
  flat_map (fun i =>
    flat_map (fun t =>
      map (fun beta => (map (fun b => simplify_fraction (Z.of_nat (2 * b + 1), Z.of_nat (d + n - 2 * i))) beta, gm_weight s n i))
          (unique_permutations t))
      (decreasing (n + 1) (s - i) 0 None)) (seq 0 (s + 1)).
(** l.133-136: vertices of the simplex in [-1, 1]; l.56-58 (wandering_element) *)
Definition gm_vertices (n : nat) : list (list R) :=
  map (fun _ => (-1)%R) (seq 0 n) :: map (fun i => map (fun k => if k =? i then 1%R else (-1)%R) (seq 0 n)) (seq 0 n).
(** l.144 *)
Definition real_point (n : nat) (p : fpoint) : list R :=
  map (fun k => sumf (fun j => (IZR (fst (nth j p (0, 1)%Z)) / IZR (snd (nth j p (0, 1)%Z)) * nth k (nth j (gm_vertices n) []) 0)%R) (length p)) (seq 0 n).
(** l.96-155 (get_simplex_cubature) *)
Definition get_simplex_cubature (s n : nat) : list (list R) * list R * nat :=
  let d := fold_left (fun d pw => add_weight d (fst pw) (snd pw)) (gm_items s n) [] in
  let pos := filter (fun pw => Rltb 0 (snd pw)) d in
  let neg := filter (fun pw => negb (Rltb 0 (snd pw))) d in
  let l := pos ++ neg in
  (map (fun pw => real_point n (fst pw)) l, map (fun pw => (2 ^ n * snd pw)%R) l, 2 * s + 1).

(** ** quadratures.py *)
Record qpoints := mkQP { qp_coors : list (list R); qp_weights : list R; qp_order : nat }.
(** l.209-238: the end of __init__; [isym] is None without symmetric, else whether data[0, 0] == 0 *)
Definition finish (coors : list (list R)) (weights : list R) (dim : nat) (bounds : option (R * R)) (tp_fix : R) (isym : option bool) : res (list (list R) * list R) :=
  let '(coors, weights) :=
    match bounds with
    | None => (coors, weights)
    | Some (a, b) =>
      let volume1 := (1 ^ dim * tp_fix)%R in
      let volume := ((b - a) ^ dim * tp_fix)%R in
      let c1 := ((1 - 0) / (b - a))%R in
      let c2 := ((b * 0 - a * 1) / (b - a))%R in
      (map (map (fun x => (c1 * x + c2)%R)) coors, map (fun w => (w * (volume1 / volume))%R) weights)
    end in
  match isym with
  | None => Ok (coors, weights)
  | Some z =>
    if negb (dim =? 1) then Err ValueError
    else
      let rest {A} (l : list A) := rev (if z then tl l else l) in
      Ok (map (map (fun x => (2 * (/ 2 * (0 + 1)) - x)%R)) (rest coors) ++ coors, rest weights ++ weights)
  end.
Definition Rzerob (x : R) : bool := negb (Rltb x 0) && negb (Rltb 0 x).
(** l.191-238 (QuadraturePoints.__init__) with data: the last column are the weights *)
Definition init_data (r : rule) : res (list (list R) * list R) :=
  let coors := map (fun row => removelast row) (ru_data r) in
  let weights := map (fun row => (last row 0 * ru_weight_fix r)%R) (ru_data r) in
  let dim := length (nth 0 coors []) in
  finish coors weights dim (ru_bounds r) (ru_tp_fix r)
    (if ru_symmetric r then Some (Rzerob (nth 0 (nth 0 (ru_data r) []) 0%R)) else None).
(** The same with coors and weights: symmetric reads data, which is None then (l.213) *)
Definition init_coors (coors : list (list R)) (weights : list R) (bounds : option (R * R)) (tp_fix weight_fix : R) (symmetric : bool) : res (list (list R) * list R) :=
  if symmetric then Err TypeError
  else finish coors (map (fun w => (w * weight_fix)%R) weights) (length (nth 0 coors [])) bounds tp_fix None.

(** The geometries, the keys of quadrature_tables (l.240-850) *)
Inductive geom := G01 | G12 | G23 | G24 | G34 | G36 | G38.
Definition table (g : geom) : list (nat * rule) :=
  match g with G01 => table_0_1 | G12 => table_1_2 | G23 => table_2_3 | G24 => table_2_4 | G34 => table_3_4 | G36 => table_3_6 | G38 => table_3_8 end.
(** int(geometry[0]) *)
Definition gdim (g : geom) : nat := match g with G01 => 0 | G12 => 1 | G23 | G24 => 2 | G34 | G36 | G38 => 3 end.
(** l.58 *)
Definition is_simplex (g : geom) : bool := match g with G12 | G23 | G34 => true | _ => false end.
(** l.855-863 *)
Definition max_order (g : geom) : nat := fold_right Nat.max 0 (map fst (table g)).
(** l.64-95 (get_actual_order); numpy.searchsorted on the keys (which are increasing) *)
Definition get_actual_order (g : geom) (order : nat) : nat :=
  if existsb (Nat.eqb order) (map fst (table g)) then order
  else match find (fun o => order <=? o) (map fst (table g)) with Some o => o | None => max_order g end.
Fixpoint lookup (t : list (nat * rule)) (o : nat) : res rule :=
  match t with [] => Err KeyError | (k, r) :: t => if o =? k then Ok r else lookup t o end.
(** table[order]: the rules are built when the module is imported *)
Definition from_order (g : geom) (o : nat) : res (list (list R) * list R) := do r <- lookup (table g) o; init_data r.
(** l.128-189 (QuadraturePoints.from_table) *)
Definition from_table (g : geom) (order : nat) (full_order : bool) : res qpoints :=
  if is_simplex g then
    if max_order g <? order then
      let oo := order / 2 in
      let dim := gdim g in
      let tp_fix := (if dim =? 2 then / 2 else / 6)%R in
      let '(coors, weights, exact) := get_simplex_cubature oo dim in
      do cw <- init_coors coors weights (Some (-1, 1)%R) tp_fix 1 false;
      if order <=? exact then Ok (mkQP (fst cw) (snd cw) order) else Err AssertionError
    else
      let order := get_actual_order g order in
      do cw <- from_order g order; Ok (mkQP (fst cw) (snd cw) order)
  else
    let dim := gdim g in
    let order1d := order in
    let order := if full_order then order else dim * order1d in
    if order <=? max_order g then
      let order := get_actual_order g order in
      do cw <- from_order g order; Ok (mkQP (fst cw) (snd cw) order)
    else if full_order then Err NameError (* order1d is not defined: UnboundLocalError *)
    else
      let oo := get_actual_order G12 order1d in
      do cw <- from_order G12 oo;
      let '(c1, w1) := cw in
      let ix := seq 0 (length c1) in
      let '(coors, weights) :=
        if dim =? 3 then
          (flat_map (fun iz => flat_map (fun iy => map (fun ix => nth ix c1 [] ++ nth iy c1 [] ++ nth iz c1 []) ix) ix) ix,
           flat_map (fun a => map (fun b => (a * b)%R) (flat_map (fun a => map (fun b => (a * b)%R) w1) w1)) w1)
        else
          (flat_map (fun iy => map (fun ix => nth ix c1 [] ++ nth iy c1 []) ix) ix,
           flat_map (fun a => map (fun b => (a * b)%R) w1) w1) in
      do cw <- init_coors coors weights None 1 1 false;
      Ok (mkQP (fst cw) (snd cw) (dim * oo)).
