(** Model of sfepy/discrete/fem/poly_spaces.py: the second derivatives of the Lagrange basis. *)
From Coq Require Import Reals.
From Verif Require Import Base M_nls M_lagrange.
Set Implicit Arguments.
Open Scope nat_scope.

Definition isin (i : nat) (l : list nat) : bool := existsb (Nat.eqb i) l.
(** l.384-389 (LagrangeSimplexPolySpace._eval_hessian, get_bc) *)
Definition get_bc (dim : nat) (mtx_i : list (list R)) (x : point) : list R := map (fun row => bary_val dim row x) mtx_i.
(** l.391-400 *)
Definition get_val (order : nat) (bc : list R) (node omit : list nat) : R :=
  fold_left (fun v i1 => if isin i1 omit then v
                         else fold_left (fun v i2 => (v * ((INR order * nth i1 bc 0 - INR i2) / (INR i2 + 1)))%R) (seq 0 (nth i1 node 0)) v)
            (seq 0 (length bc)) 1%R.
(** l.402-415 *)
Definition get_der (order : nat) (b : R) (n : nat) (omit : list nat) : R :=
  fold_left (fun v i1 => if isin i1 omit then v
    else (v + fold_left (fun a i2 => if (i1 =? i2) || isin i2 omit then a else (a * ((INR order * b - INR i2) / (INR i2 + 1)))%R) (seq 0 n) 1
              * INR order / (INR i1 + 1))%R) (seq 0 n) 0%R.
(** l.428-441: the coefficient of the pair (ig1, ig2) *)
Definition hess_val (order : nat) (bc : list R) (node : list nat) (ig1 ig2 : nat) : R :=
  if ig1 =? ig2 then
    (get_val order bc node [ig1] *
     sumf (fun i1 => get_der order (nth ig2 bc 0%R) (nth ig2 node 0%nat) [i1] * INR order / (INR i1 + 1)) (nth ig1 node 0%nat))%R
  else (get_val order bc node [ig1; ig2] * get_der order (nth ig1 bc 0) (nth ig1 node 0%nat) [] * get_der order (nth ig2 bc 0) (nth ig2 node 0%nat) [])%R.
(** l.417-445: bfgg[ic, a, b, ii] *)
Definition simplex_hess (order dim : nat) (mtx_i : list (list R)) (x : point) (node : list nat) (a b : nat) : R :=
  let bc := get_bc dim mtx_i x in
  sumf (fun ig1 => sumf (fun ig2 => (hess_val order bc node ig1 ig2 * nth b (nth ig1 mtx_i []) 0 * nth a (nth ig2 mtx_i []) 0)%R) (length bc)) (length bc).
(** l.636-676 (LagrangeTensorProductPolySpace._eval_hessian) for one point of the element; the
    1D values and derivatives come from [evaluate]. *)
Definition value1 (order : nat) (mtx_i : list (list R)) (nodes : list (list nat)) (diff : bool) (x : R) : res (list R) :=
  match fst (evaluate (mkCtx order nodes None mtx_i 1 false) diff (Rpower 10 (-15)) true [[x]] false []) with
  | Ok [[row]] => Ok row
  | Ok _ => Err IndexError
  | Err e => Err e
  end.
Fixpoint mapr {A B} (f : A -> res B) (l : list A) : res (list B) :=
  match l with [] => Ok [] | a :: l => do b <- f a; do bs <- mapr f l; Ok (b :: bs) end.
(** bfgg[ic, ir, ic, :] *)
Definition tensor_hess (order dim : nat) (mtx_i : list (list R)) (nodes : list (list nat)) (x : point) : res (list (list (list R))) :=
  do v0s <- mapr (fun ii => value1 order mtx_i (map (slice ii) nodes) false (nth ii x 0%R)) (seq 0 dim);
  do v1s <- mapr (fun ii => value1 order mtx_i (map (slice ii) nodes) true (nth ii x 0%R)) (seq 0 dim);
  let v2s := map (fun ii => map (fun node => simplex_hess order 1 mtx_i [nth ii x 0%R] (slice ii node) 0 0) nodes) (seq 0 dim) in
  let at_ (v : list (list R)) k i := nth i (nth k v []) 0%R in
  Ok (map (fun ir => map (fun ic => map (fun i =>
        if ir =? ic then fold_left (fun v ik => if ik =? ir then v else (v * at_ v0s ik i)%R) (seq 0 dim) (at_ v2s ir i)
        else fold_left (fun v ik => if (ik =? ir) || (ik =? ic) then v else (v * at_ v0s ik i)%R) (seq 0 dim) (at_ v1s ir i * at_ v1s ic i)%R)
      (seq 0 (length nodes))) (seq 0 dim)) (seq 0 dim)).
