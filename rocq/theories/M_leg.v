(** Model of the Legendre bases of the discontinuous fields,
    /repo/sfepy/discrete/dg/poly_spaces.py l.101-711. Numbers are reals; arrays of
    points are handled one point at a time. The multi-indices are those of
    [iter_by_order], M_dglim. *)
From Coq Require Import List Arith ZArith Lia Reals Lra.
From Verif Require Import M_fmf M_dglim S_iga.
Import ListNotations.
Open Scope R_scope.

(** ** The external functions *)
(** scipy.special.comb(n, k) *)
Definition comb (n k : nat) : R := INR (binom n k).
(** scipy.special.factorial(n) *)
Definition factorial (n : nat) : R := INR (fact n).
(** scipy.special.eval_jacobi(n, alpha, 0, x): the Jacobi polynomial
    P_n^(alpha,0); only natural alpha and beta = 0 are used. *)
Definition eval_jacobi (n alpha : nat) (x : R) : R :=
  sm (S n) (fun m => comb n m * comb (n + alpha + m) n * ((x - 1) / 2) ^ m).
(** scipy.special.jacobi(n, alpha, 0).deriv(m=1)(x) *)
Definition jacobi_deriv (n alpha : nat) (x : R) : R :=
  sm (S n) (fun m => comb n m * comb (n + alpha + m) n * (INR m * ((x - 1) / 2) ^ pred m * (1 / 2))).
(** list(scipy.special.jacobi(n, 0, 0).coef)[::-1]: the coefficients of the
    powers of x in the same polynomial, the constant first *)
Definition jacobi_coefs (n : nat) : list R :=
  map (fun k => sm (S n) (fun m => comb n m * comb (n + m) n * (comb m k * (-1) ^ (m - k) / 2 ^ m))) (seq 0 (S n)).

(** ** One dimension *)
(** l.309-320: the explicit polynomials *)
Definition legendre_funs (n : nat) (x : R) : R :=
  match n with
  | 0%nat => 0 * x + 1
  | 1%nat => 2 * x - 1
  | 2%nat => 6 * x ^ 2 - 6 * x + 1
  | 3%nat => 20 * x ^ 3 - 30 * x ^ 2 + 12 * x - 1
  | 4%nat => 70 * x ^ 4 - 140 * x ^ 3 + 90 * x ^ 2 - 20 * x + 1
  | _ => 252 * x ^ 5 - 630 * x ^ 4 + 560 * x ^ 3 - 210 * x ^ 2 + 30 * x - 1
  end.
(** l.322-348 get_nth_fun *)
Definition get_nth_fun (n : nat) (x : R) : R :=
  if Nat.ltb n 6 then legendre_funs n x
  else sm (n + 1) (fun k => comb n k * comb (n + k) k * (- x) ^ k) * (if Nat.eqb (n mod 2) 0 then 1 else -1).
(** l.350-387 get_nth_fun_der; [range(diff, n + 1)]; the sign is that of the
    Python remainder of n - diff, which can be negative *)
Definition get_nth_fun_der (n diff : nat) (x : R) : R :=
  sm (n + 1 - diff) (fun j => let k := (diff + j)%nat in
    comb n k * comb (n + k) k * factorial k / factorial (k - diff) * (- x) ^ (k - diff))
  * (if Z.eqb ((Z.of_nat n - Z.of_nat diff) mod 2) 0 then 1 else -1).
(** l.273-306 legendreP, gradlegendreP (at one coordinate) *)
Definition legendreP (x : R) (i : nat) : R := eval_jacobi i 0 x.
Definition gradlegendreP (x : R) (i : nat) : R := jacobi_deriv i 0 x.

(** ** Tensor product elements: LegendreTensorProductPolySpace l.468-520 *)
(** l.136: the map to [-1, 1] *)
Definition to_ref (y : R) : R := 2 * y - 1.
Definition prodl (l : list R) : R := fold_right Rmult 1 l.
(** l.476-477 _combine_polyvals, l.479-483 _combine_polyvals_diff *)
Definition tp_combine (coors : list R) (idx : list nat) : R :=
  prodl (map (fun p => legendreP (fst p) (snd p)) (combine coors idx)).
Definition tp_combine_diff (coors : list R) (dvar : nat) (idx : list nat) : R :=
  prodl (map (fun p => if Nat.eqb (fst p) dvar then gradlegendreP (fst (snd p)) (snd (snd p)) else legendreP (fst (snd p)) (snd (snd p)))
             (combine (seq 0 (length idx)) (combine coors idx))).
(** l.119-170 _eval_basis, one function and one point: the values and the
    derivatives with respect to the coordinate [d]. *)
Definition tp_value (idx : list nat) (p : list R) : R := tp_combine (map to_ref p) idx.
Definition tp_grad (idx : list nat) (p : list R) (d : nat) : R := 2 * tp_combine_diff (map to_ref p) d idx.
(** The list of the multi-indices as tuples, l.15-65. *)
Definition idx_list (order dim : nat) (extended : bool) : list (list nat) :=
  match dim with
  | 1%nat => iter1 order
  | 2%nat => map (fun p => [fst p; snd p]) (iter2 order extended)
  | 3%nat => map (fun p => [fst (fst p); snd (fst p); snd p]) (iter3 order extended)
  | _ => []
  end.
(** l.485-520 build_interpol_scheme: the rows of F and of P (in the order of the
    basis functions). [None]: [coef_mat[idx]] with three indices of a matrix
    raises IndexError. *)
Definition pad (n : nat) (l : list R) : list R := l ++ repeat 0 (n - length l).
Definition tp_P (order : nat) (dim : nat) : list (list nat) :=
  map (fun idx => idx ++ repeat 0%nat (3 - dim)) (idx_list order dim true).
Definition tp_F_row (order dim : nat) (idx : list nat) : option (list R) :=
  let xcoefs := pad (order + 1) (jacobi_coefs (nth 0 idx 0%nat)) in
  let ycoefs := pad (order + 1) (jacobi_coefs (nth 1 idx 0%nat)) in
  if Nat.eqb dim 2 then Some (map (fun id => nth (nth 0 id 0%nat) xcoefs 0 * nth (nth 1 id 0%nat) ycoefs 0) (idx_list order dim true))
  else None.

(** ** Triangles: LegendreSimplexPolySpace l.523-605 *)
(** l.553-555: a, with the value -1 for the quotient 0 / 0 (in the vertex
    s = 1, r = -1; a point with s = 1 and another r is not in the triangle, and
    its infinite value is not modelled) *)
Definition coll_a (r s : R) : R := if Req_EM_T (1 - s) 0 then -1 else 2 * (1 + r) / (1 - s) - 1.
(** l.551-558 _combine_polyvals *)
Definition sx_combine (r s : R) (i j : nat) : R :=
  let a := coll_a r s in let b := s in
  eval_jacobi i 0 a * eval_jacobi j (2 * i + 1) b * (1 - b) ^ i.
(** l.575-609 _combine_polyvals_diff *)
Definition sx_combine_diff (r s : R) (dvar i j : nat) : R :=
  let a := coll_a r s in let b := s in
  let fa := eval_jacobi i 0 a in let dfa := jacobi_deriv i 0 a in
  let gb := eval_jacobi j (2 * i + 1) b in let dgb := jacobi_deriv j (2 * i + 1) b in
  if Nat.eqb dvar 0 then
    let dmodedr := dfa * gb in
    let dmodedr := if Nat.ltb 0 i then dmodedr * (1 / 2 * (1 - b)) ^ (i - 1) else dmodedr in
    2 ^ i * dmodedr
  else
    let dmodeds := dfa * (gb * (1 / 2 * (1 + a))) in
    let dmodeds := if Nat.ltb 0 i then dmodeds * (1 / 2 * (1 - b)) ^ (i - 1) else dmodeds in
    let tmp := dgb * (1 / 2 * (1 - b)) ^ i in
    let tmp := if Nat.ltb 0 i then tmp - 1 / 2 * INR i * gb * (1 / 2 * (1 - b)) ^ (i - 1) else tmp in
    let dmodeds := dmodeds + fa * tmp in
    2 ^ i * dmodeds.
(** l.119-170 *)
Definition sx_value (i j : nat) (x y : R) : R := sx_combine (to_ref x) (to_ref y) i j.
Definition sx_grad (i j : nat) (x y : R) (d : nat) : R := 2 * sx_combine_diff (to_ref x) (to_ref y) d i j.
(** l.665-711: the tables *)
Definition simplex_coefM5 : list (list Z) :=
 [[1; 0; 0; 0; 0; 0; 0; 0; 0; 0; 0; 0; 0; 0; 0; 0; 0; 0; 0; 0; 0];
  [-1; 3; 0; 0; 0; 0; 0; 0; 0; 0; 0; 0; 0; 0; 0; 0; 0; 0; 0; 0; 0];
  [-2; 2; 4; 0; 0; 0; 0; 0; 0; 0; 0; 0; 0; 0; 0; 0; 0; 0; 0; 0; 0];
  [1; -8; 0; 10; 0; 0; 0; 0; 0; 0; 0; 0; 0; 0; 0; 0; 0; 0; 0; 0; 0];
  [2; -12; -4; 10; 20; 0; 0; 0; 0; 0; 0; 0; 0; 0; 0; 0; 0; 0; 0; 0; 0];
  [4; -8; -24; 4; 24; 24; 0; 0; 0; 0; 0; 0; 0; 0; 0; 0; 0; 0; 0; 0; 0];
  [-1; 15; 0; -45; 0; 0; 35; 0; 0; 0; 0; 0; 0; 0; 0; 0; 0; 0; 0; 0; 0];
  [-2; 26; 4; -66; -48; 0; 42; 84; 0; 0; 0; 0; 0; 0; 0; 0; 0; 0; 0; 0; 0];
  [-4; 36; 24; -60; -192; -24; 28; 168; 168; 0; 0; 0; 0; 0; 0; 0; 0; 0; 0; 0; 0];
  [-8; 24; 96; -24; -192; -240; 8; 96; 240; 160; 0; 0; 0; 0; 0; 0; 0; 0; 0; 0; 0];
  [1; -24; 0; 126; 0; 0; -224; 0; 0; 0; 126; 0; 0; 0; 0; 0; 0; 0; 0; 0; 0];
  [2; -44; -4; 210; 84; 0; -336; -336; 0; 0; 168; 336; 0; 0; 0; 0; 0; 0; 0; 0; 0];
  [4; -72; -24; 276; 408; 24; -352; -1248; -384; 0; 144; 864; 864; 0; 0; 0; 0; 0; 0; 0; 0];
  [8; -96; -96; 240; 1056; 240; -224; -1824; -2400; -160; 72; 864; 2160; 1440; 0; 0; 0; 0; 0; 0; 0];
  [16; -64; -320; 96; 960; 1440; -64; -960; -2880; -2240; 16; 320; 1440; 2240; 1120; 0; 0; 0; 0; 0; 0];
  [-1; 35; 0; -280; 0; 0; 840; 0; 0; 0; -1050; 0; 0; 0; 0; 462; 0; 0; 0; 0; 0];
  [-2; 66; 4; -496; -128; 0; 1392; 864; 0; 0; -1620; -1920; 0; 0; 0; 660; 1320; 0; 0; 0; 0];
  [-4; 116; 24; -760; -672; -24; 1848; 3888; 648; 0; -1860; -7200; -3240; 0; 0; 660; 3960; 3960; 0; 0; 0];
  [-8; 184; 96; -944; -2112; -240; 1808; 9216; 5040; 160; -1480; -12480; -18000; -3200; 0; 440; 5280; 13200; 8800; 0; 0];
  [-16; 240; 320; -800; -4480; -1440; 1120; 11520; 18720; 2240; -720; -10880; -33120; -26880; -1120; 176; 3520; 15840; 24640; 12320; 0];
  [-32; 160; 960; -320; -3840; -6720; 320; 5760; 20160; 17920; -160; -3840; -20160; -35840; -20160; 32; 960; 6720; 17920; 20160; 8064]]%Z.
Definition simplex_expoM5 : list (list nat) :=
 [[0; 0; 0]; [0; 1; 0]; [1; 0; 0]; [0; 2; 0]; [1; 1; 0]; [2; 0; 0]; [0; 3; 0]; [1; 2; 0]; [2; 1; 0]; [3; 0; 0]; [0; 4; 0]; [1; 3; 0]; [2; 2; 0]; [3; 1; 0]; [4; 0; 0]; [0; 5; 0]; [1; 4; 0]; [2; 3; 0]; [3; 2; 0]; [4; 1; 0]; [5; 0; 0]]%nat.
(** l.527-549 __init__ in 2D: the matrices of [get_interpol_scheme]. [None]: the
    files with the coefficients for order > 5 are not distributed and IOError is
    raised. *)
Definition sx_scheme (order : nat) : option (list (list Z) * list (list nat)) :=
  if Nat.leb order 5
  then let n := get_n_el_nod order 2 false in
       Some (map (firstn n) (firstn n simplex_coefM5), firstn n simplex_expoM5)
  else None.

(** ** The projection to the basis: DGField.set_cell_dofs, dg/fields.py l.1188-1205,
    one cell: the values of the basis [bas q m] and of the function [fv q] in the
    quadrature points, the weights [w q]. *)
Definition lhs_diag (nq : nat) (w : nat -> R) (bas : nat -> nat -> R) (m : nat) : R :=
  sm nq (fun q => w q * bas q m ^ 2).
Definition rhs_vec (nq : nat) (w : nat -> R) (bas : nat -> nat -> R) (fv : nat -> R) (m : nat) : R :=
  sm nq (fun q => w q * bas q m * fv q).
Definition project (nq : nat) (w : nat -> R) (bas : nat -> nat -> R) (fv : nat -> R) (m : nat) : R :=
  rhs_vec nq w bas fv m / lhs_diag nq w bas m.
(** l.1178-1181: a scalar *)
Definition scalar_dofs (c : R) (m : nat) : R := if Nat.eqb m 0 then c else 0.
