(** Model: sfepy/mechanics/matcoefs.py, sfepy/mechanics/elastic_constants.py -
    conversions of elastic parameters, over the real numbers (exact). *)
From Coq Require Import Reals List.
From Verif Require Import Base.
Import ListNotations.
Set Implicit Arguments.
Open Scope R_scope.

(** Division of NumPy scalars: no value (nan, inf) for a zero denominator. *)
Definition rdiv (a b : R) : option R := if Req_EM_T b 0 then None else Some (a / b).
Definition bind {A B} (x : option A) (f : A -> option B) : option B := match x with Some a => f a | None => None end.
Notation "'let!' x := e 'in' k" := (bind e (fun x => k)) (at level 200, x pattern, right associativity).

(** matcoefs.py l.11-37, lame_from_youngpoisson() *)
Inductive plane_t := Strain | Stress.
Definition lame_from_youngpoisson (young poisson : R) (plane : plane_t) : option (R * R) :=
  let! mu := rdiv young (2 * (1 + poisson)) in
  let! lam := rdiv (young * poisson) ((1 + poisson) * (1 - 2 * poisson)) in
  match plane with
  | Strain => Some (lam, mu)
  | Stress => let! lam := rdiv (2 * lam * mu) (lam + 2 * mu) in Some (lam, mu)
  end.
(** l.39-60, stiffness_from_lame(); a matrix is a function of its (row, column); sym is its size. *)
Definition mtx := nat -> nat -> R.
Definition dim2sym (dim : nat) : nat := ((dim + 1) * dim / 2)%nat.
Definition o_vec (dim i : nat) : R := if (i <? dim)%nat then 1 else 0.
Definition stiffness_from_lame (dim : nat) (lam mu : R) : mtx := fun i j =>
  lam * (o_vec dim i * o_vec dim j) + mu * (if (i =? j)%nat then o_vec dim i + 1 else 0).
(** l.62-69 *)
Definition stiffness_from_youngpoisson (dim : nat) (young poisson : R) (plane : plane_t) : option mtx :=
  let! (lam, mu) := lame_from_youngpoisson young poisson plane in Some (stiffness_from_lame dim lam mu).
(** l.71-96 *)
Definition stiffness_from_lame_mixed (dim : nat) (lam mu : R) : mtx := stiffness_from_lame dim (- (2) / 3 * mu) mu.
(** l.107-122 *)
Definition bulk_from_lame (lam mu : R) : R := lam + 2 * mu / 3.
Definition bulk_from_youngpoisson (young poisson : R) (plane : plane_t) : option R :=
  let! (lam, mu) := lame_from_youngpoisson young poisson plane in Some (bulk_from_lame lam mu).
(** l.124-133, lame_from_stiffness(); sym is the size of the matrix, index -1 is sym - 1. *)
Definition lame_from_stiffness (sym : nat) (d : mtx) (plane : plane_t) : option (R * R) :=
  let lam := d 0%nat 1%nat in
  let mu := d (sym - 1)%nat (sym - 1)%nat in
  match plane with
  | Strain => Some (lam, mu)
  | Stress => let! lam := rdiv (- (2) * mu * lam) (lam - 2 * mu) in Some (lam, mu)
  end.
(** l.135-144 *)
Definition youngpoisson_from_stiffness (sym : nat) (d : mtx) (plane : plane_t) : option (R * R) :=
  let! (lam, mu) := lame_from_stiffness sym d plane in
  let! young := rdiv (3 * lam * mu + 2 * mu ^ 2) (lam + mu) in
  let! poisson := rdiv lam (2 * lam + 2 * mu) in
  Some (young, poisson).
(** l.174-184: the compliance matrix of stiffness_from_yps_ortho3(); the result is
    its inverse. *)
Definition ortho3_compliance (e1 e2 e3 n12 n13 n23 g12 g13 g23 : R) : mtx := fun i j =>
  match i, j with
  | 0%nat, 0%nat => 1 / e1 | 1%nat, 1%nat => 1 / e2 | 2%nat, 2%nat => 1 / e3
  | 0%nat, 1%nat | 1%nat, 0%nat => - n12 / e1
  | 0%nat, 2%nat | 2%nat, 0%nat => - n13 / e1
  | 1%nat, 2%nat | 2%nat, 1%nat => - n23 / e2
  | 3%nat, 3%nat => 1 / g12 | 4%nat, 4%nat => 1 / g13 | 5%nat, 5%nat => 1 / g23
  | _, _ => 0
  end.
(** l.456-487, youngpoisson_from_wave_speeds(); l.489-520,
    wave_speeds_from_youngpoisson(); the square root of a negative number is nan. *)
Definition rsqrt (a : R) : option R := if Rle_dec 0 a then Some (sqrt a) else None.
Definition youngpoisson_from_wave_speeds (vp vs rho : R) : option (R * R) :=
  let vs2 := vs ^ 2 in
  let vp2 := vp ^ 2 in
  let aux := vp2 - vs2 in
  let! young := rdiv (vs2 * rho * (3 * vp2 - 4 * vs ^ 2)) aux in
  let! poisson := rdiv (vp2 / 2 - vs2) aux in
  Some (young, poisson).
Definition wave_speeds_from_youngpoisson (young poisson rho : R) : option (R * R) :=
  let! a := rdiv (young * (1 - poisson)) (rho * (1 + poisson) * (1 - 2 * poisson)) in
  let! vp := rsqrt a in
  let! b := rdiv young (2 * rho * (1 + poisson)) in
  let! vs := rsqrt b in
  Some (vp, vs).

(** ** ElasticConstants *)
Inductive ec := Bulk | Lam | Mu | PWave | Poisson | Young.
Inductive expr := Var (c : ec) | Num (n : Z) | Add (a b : expr) | Sub (a b : expr) | Mul (a b : expr) | Div (a b : expr)
  | Opp (a : expr) | Pow2 (a : expr) | Sqrt (a : expr).
(** expr.n(subs=values); no value for a division by zero or a complex number *)
Fixpoint eval (env : ec -> option R) (e : expr) : option R :=
  match e with
  | Var c => env c
  | Num n => Some (IZR n)
  | Add a b => let! x := eval env a in let! y := eval env b in Some (x + y)
  | Sub a b => let! x := eval env a in let! y := eval env b in Some (x - y)
  | Mul a b => let! x := eval env a in let! y := eval env b in Some (x * y)
  | Div a b => let! x := eval env a in let! y := eval env b in rdiv x y
  | Opp a => let! x := eval env a in Some (- x)
  | Pow2 a => let! x := eval env a in Some (x ^ 2)
  | Sqrt a => let! x := eval env a in rsqrt x
  end.

(** elastic_constants.py, the dictionary [relations], item by item *)
Definition relations : list ((ec * ec * ec) * expr) := [
  (* l.8 *) ((Mu, Poisson, Young), (Add (Mul (Num 2) (Var Mu)) (Mul (Mul (Num 2) (Var Mu)) (Var Poisson))));
  (* l.9 *) ((PWave, Poisson, Mu), (Div (Sub (Var PWave) (Mul (Mul (Num 2) (Var PWave)) (Var Poisson))) (Sub (Num 2) (Mul (Num 2) (Var Poisson)))));
  (* l.10 *) ((Bulk, Lam, Poisson), (Div (Var Lam) (Add (Opp (Var Lam)) (Mul (Num 3) (Var Bulk)))));
  (* l.11 *) ((Bulk, Poisson, Lam), (Div (Mul (Mul (Num 3) (Var Bulk)) (Var Poisson)) (Add (Num 1) (Var Poisson))));
  (* l.12 *) ((Lam, Poisson, PWave), (Div (Sub (Var Lam) (Mul (Var Lam) (Var Poisson))) (Var Poisson)));
  (* l.13 *) ((PWave, Poisson, Lam), (Div (Mul (Var PWave) (Var Poisson)) (Sub (Num 1) (Var Poisson))));
  (* l.14 *) ((Bulk, Young, PWave), (Div (Add (Mul (Mul (Num 3) (Var Bulk)) (Var Young)) (Mul (Num 9) (Pow2 (Var Bulk)))) (Add (Opp (Var Young)) (Mul (Num 9) (Var Bulk)))));
  (* l.15 *) ((PWave, Poisson, Bulk), (Div (Add (Var PWave) (Mul (Var PWave) (Var Poisson))) (Sub (Num 3) (Mul (Num 3) (Var Poisson)))));
  (* l.16 *) ((Bulk, Mu, PWave), (Add (Var Bulk) (Div (Mul (Num 4) (Var Mu)) (Num 3))));
  (* l.17 *) ((Lam, Mu, Poisson), (Div (Var Lam) (Add (Mul (Num 2) (Var Lam)) (Mul (Num 2) (Var Mu)))));
  (* l.18 *) ((Bulk, Mu, Poisson), (Div (Add (Mul (Opp (Num 2)) (Var Mu)) (Mul (Num 3) (Var Bulk))) (Add (Mul (Num 2) (Var Mu)) (Mul (Num 6) (Var Bulk)))));
  (* l.19 *) ((Lam, Mu, PWave), (Add (Var Lam) (Mul (Num 2) (Var Mu))));
  (* l.20 *) ((Bulk, PWave, Poisson), (Div (Add (Opp (Var PWave)) (Mul (Num 3) (Var Bulk))) (Add (Var PWave) (Mul (Num 3) (Var Bulk)))));
  (* l.21 *) ((Bulk, PWave, Lam), (Add (Div (Opp (Var PWave)) (Num 2)) (Div (Mul (Num 3) (Var Bulk)) (Num 2))));
  (* l.22 *) ((Lam, PWave, Mu), (Sub (Div (Var PWave) (Num 2)) (Div (Var Lam) (Num 2))));
  (* l.23 *) ((Bulk, PWave, Young), (Div (Add (Mul (Mul (Opp (Num 9)) (Var Bulk)) (Var PWave)) (Mul (Num 9) (Pow2 (Var Bulk)))) (Sub (Opp (Var PWave)) (Mul (Num 3) (Var Bulk)))));
  (* l.24 *) ((Bulk, Poisson, PWave), (Div (Sub (Mul (Num 3) (Var Bulk)) (Mul (Mul (Num 3) (Var Bulk)) (Var Poisson))) (Add (Num 1) (Var Poisson))));
  (* l.25 *) ((PWave, Young, Bulk), (Add (Sub (Div (Var PWave) (Num 2)) (Div (Var Young) (Num 6))) (Div (Sqrt (Add (Add (Mul (Mul (Opp (Num 90)) (Var PWave)) (Var Young)) (Mul (Num 9) (Pow2 (Var Young)))) (Mul (Num 81) (Pow2 (Var PWave))))) (Num 18))));
  (* l.26 *) ((Bulk, Poisson, Young), (Sub (Mul (Num 3) (Var Bulk)) (Mul (Mul (Num 6) (Var Bulk)) (Var Poisson))));
  (* l.27 *) ((Lam, Mu, Young), (Div (Add (Mul (Mul (Num 3) (Var Lam)) (Var Mu)) (Mul (Num 2) (Pow2 (Var Mu)))) (Add (Var Lam) (Var Mu))));
  (* l.28 *) ((Lam, PWave, Young), (Div (Sub (Add (Mul (Var Lam) (Var PWave)) (Pow2 (Var PWave))) (Mul (Num 2) (Pow2 (Var Lam)))) (Add (Var Lam) (Var PWave))));
  (* l.29 *) ((Lam, Young, Poisson), (Div (Add (Sub (Opp (Var Lam)) (Var Young)) (Sqrt (Add (Add (Mul (Mul (Num 2) (Var Lam)) (Var Young)) (Pow2 (Var Young))) (Mul (Num 9) (Pow2 (Var Lam)))))) (Mul (Num 4) (Var Lam))));
  (* l.30 *) ((Bulk, Mu, Young), (Div (Mul (Mul (Num 9) (Var Bulk)) (Var Mu)) (Add (Var Mu) (Mul (Num 3) (Var Bulk)))));
  (* l.31 *) ((Mu, Young, PWave), (Div (Add (Mul (Opp (Var Mu)) (Var Young)) (Mul (Num 4) (Pow2 (Var Mu)))) (Add (Opp (Var Young)) (Mul (Num 3) (Var Mu)))));
  (* l.32 *) ((Bulk, Poisson, Mu), (Div (Sub (Mul (Num 3) (Var Bulk)) (Mul (Mul (Num 6) (Var Bulk)) (Var Poisson))) (Add (Num 2) (Mul (Num 2) (Var Poisson)))));
  (* l.33 *) ((Mu, Young, Poisson), (Div (Sub (Var Young) (Mul (Num 2) (Var Mu))) (Mul (Num 2) (Var Mu))));
  (* l.34 *) ((Mu, PWave, Bulk), (Sub (Var PWave) (Div (Mul (Num 4) (Var Mu)) (Num 3))));
  (* l.35 *) ((Lam, Young, Mu), (Add (Add (Div (Mul (Opp (Num 3)) (Var Lam)) (Num 4)) (Div (Var Young) (Num 4))) (Div (Sqrt (Add (Add (Mul (Mul (Num 2) (Var Lam)) (Var Young)) (Pow2 (Var Young))) (Mul (Num 9) (Pow2 (Var Lam))))) (Num 4))));
  (* l.36 *) ((Lam, Poisson, Bulk), (Div (Add (Var Lam) (Mul (Var Lam) (Var Poisson))) (Mul (Num 3) (Var Poisson))));
  (* l.37 *) ((Lam, Poisson, Young), (Div (Sub (Sub (Var Lam) (Mul (Var Lam) (Var Poisson))) (Mul (Mul (Num 2) (Var Lam)) (Pow2 (Var Poisson)))) (Var Poisson)));
  (* l.38 *) ((Mu, PWave, Lam), (Sub (Var PWave) (Mul (Num 2) (Var Mu))));
  (* l.39 *) ((Mu, PWave, Poisson), (Div (Add (Opp (Var PWave)) (Mul (Num 2) (Var Mu))) (Add (Mul (Opp (Num 2)) (Var PWave)) (Mul (Num 2) (Var Mu)))));
  (* l.40 *) ((Poisson, Young, Bulk), (Div (Var Young) (Sub (Num 3) (Mul (Num 6) (Var Poisson)))));
  (* l.41 *) ((Mu, PWave, Young), (Div (Add (Mul (Mul (Opp (Num 3)) (Var Mu)) (Var PWave)) (Mul (Num 4) (Pow2 (Var Mu)))) (Sub (Var Mu) (Var PWave))));
  (* l.42 *) ((Bulk, Young, Lam), (Div (Add (Mul (Mul (Opp (Num 3)) (Var Bulk)) (Var Young)) (Mul (Num 9) (Pow2 (Var Bulk)))) (Add (Opp (Var Young)) (Mul (Num 9) (Var Bulk)))));
  (* l.43 *) ((Lam, PWave, Poisson), (Div (Var Lam) (Add (Var Lam) (Var PWave))));
  (* l.44 *) ((Bulk, Young, Mu), (Div (Mul (Mul (Num 3) (Var Bulk)) (Var Young)) (Add (Opp (Var Young)) (Mul (Num 9) (Var Bulk)))));
  (* l.45 *) ((Bulk, Lam, PWave), (Add (Mul (Opp (Num 2)) (Var Lam)) (Mul (Num 3) (Var Bulk))));
  (* l.46 *) ((Lam, Young, PWave), (Add (Sub (Div (Var Young) (Num 2)) (Div (Var Lam) (Num 2))) (Div (Sqrt (Add (Add (Mul (Mul (Num 2) (Var Lam)) (Var Young)) (Pow2 (Var Young))) (Mul (Num 9) (Pow2 (Var Lam))))) (Num 2))));
  (* l.47 *) ((Bulk, Young, Poisson), (Div (Add (Mul (Opp (Num 2)) (Var Young)) (Mul (Num 6) (Var Bulk))) (Mul (Num 12) (Var Bulk))));
  (* l.48 *) ((Poisson, Young, Lam), (Div (Mul (Var Poisson) (Var Young)) (Sub (Sub (Num 1) (Var Poisson)) (Mul (Num 2) (Pow2 (Var Poisson))))));
  (* l.49 *) ((Mu, Young, Lam), (Div (Add (Mul (Opp (Var Mu)) (Var Young)) (Mul (Num 2) (Pow2 (Var Mu)))) (Sub (Var Young) (Mul (Num 3) (Var Mu)))));
  (* l.50 *) ((Lam, Poisson, Mu), (Div (Sub (Var Lam) (Mul (Mul (Num 2) (Var Lam)) (Var Poisson))) (Mul (Num 2) (Var Poisson))));
  (* l.51 *) ((Bulk, Lam, Mu), (Add (Div (Mul (Opp (Num 3)) (Var Lam)) (Num 2)) (Div (Mul (Num 3) (Var Bulk)) (Num 2))));
  (* l.52 *) ((Poisson, Young, Mu), (Div (Var Young) (Add (Num 2) (Mul (Num 2) (Var Poisson)))));
  (* l.53 *) ((Lam, PWave, Bulk), (Add (Div (Var PWave) (Num 3)) (Div (Mul (Num 2) (Var Lam)) (Num 3))));
  (* l.54 *) ((PWave, Young, Poisson), (Div (Add (Sub (Var Young) (Var PWave)) (Sqrt (Add (Add (Mul (Mul (Opp (Num 10)) (Var PWave)) (Var Young)) (Pow2 (Var Young))) (Mul (Num 9) (Pow2 (Var PWave)))))) (Mul (Num 4) (Var PWave))));
  (* l.55 *) ((PWave, Young, Mu), (Sub (Add (Div (Var Young) (Num 8)) (Div (Mul (Num 3) (Var PWave)) (Num 8))) (Div (Sqrt (Add (Add (Mul (Mul (Opp (Num 10)) (Var PWave)) (Var Young)) (Pow2 (Var Young))) (Mul (Num 9) (Pow2 (Var PWave))))) (Num 8))));
  (* l.56 *) ((Mu, Poisson, PWave), (Div (Sub (Mul (Num 2) (Var Mu)) (Mul (Mul (Num 2) (Var Mu)) (Var Poisson))) (Sub (Num 1) (Mul (Num 2) (Var Poisson)))));
  (* l.57 *) ((Lam, Mu, Bulk), (Add (Var Lam) (Div (Mul (Num 2) (Var Mu)) (Num 3))));
  (* l.58 *) ((PWave, Young, Lam), (Add (Add (Div (Opp (Var Young)) (Num 4)) (Div (Var PWave) (Num 4))) (Div (Sqrt (Add (Add (Mul (Mul (Opp (Num 10)) (Var PWave)) (Var Young)) (Pow2 (Var Young))) (Mul (Num 9) (Pow2 (Var PWave))))) (Num 4))));
  (* l.59 *) ((Bulk, Mu, Lam), (Sub (Var Bulk) (Div (Mul (Num 2) (Var Mu)) (Num 3))));
  (* l.60 *) ((Mu, Poisson, Bulk), (Div (Add (Mul (Num 2) (Var Mu)) (Mul (Mul (Num 2) (Var Mu)) (Var Poisson))) (Sub (Num 3) (Mul (Num 6) (Var Poisson)))));
  (* l.61 *) ((Poisson, Young, PWave), (Div (Sub (Var Young) (Mul (Var Poisson) (Var Young))) (Sub (Sub (Num 1) (Var Poisson)) (Mul (Num 2) (Pow2 (Var Poisson))))));
  (* l.62 *) ((Mu, Young, Bulk), (Div (Mul (Var Mu) (Var Young)) (Add (Mul (Opp (Num 3)) (Var Young)) (Mul (Num 9) (Var Mu)))));
  (* l.63 *) ((PWave, Poisson, Young), (Div (Sub (Sub (Var PWave) (Mul (Var PWave) (Var Poisson))) (Mul (Mul (Num 2) (Var PWave)) (Pow2 (Var Poisson)))) (Sub (Num 1) (Var Poisson))));
  (* l.64 *) ((Bulk, Lam, Young), (Div (Add (Mul (Mul (Opp (Num 9)) (Var Bulk)) (Var Lam)) (Mul (Num 9) (Pow2 (Var Bulk)))) (Add (Opp (Var Lam)) (Mul (Num 3) (Var Bulk)))));
  (* l.65 *) ((Mu, Poisson, Lam), (Div (Mul (Mul (Num 2) (Var Mu)) (Var Poisson)) (Sub (Num 1) (Mul (Num 2) (Var Poisson)))));
  (* l.66 *) ((Bulk, PWave, Mu), (Add (Div (Mul (Opp (Num 3)) (Var Bulk)) (Num 4)) (Div (Mul (Num 3) (Var PWave)) (Num 4))));
  (* l.67 *) ((Lam, Young, Bulk), (Add (Add (Div (Var Lam) (Num 2)) (Div (Var Young) (Num 6))) (Div (Sqrt (Add (Add (Mul (Mul (Num 18) (Var Lam)) (Var Young)) (Mul (Num 9) (Pow2 (Var Young)))) (Mul (Num 81) (Pow2 (Var Lam))))) (Num 18))))
].

(** matcoefs.py l.342-368, init(): the names in the order of sorting *)
Definition names : list ec := [Bulk; Lam; Mu; PWave; Poisson; Young].
Definition ec_dec : forall a b : ec, {a = b} + {a <> b}. Proof. decide equality. Defined.
Definition ecb (a b : ec) : bool := if ec_dec a b then true else false.
Fixpoint rlook (a b c : ec) (l : list ((ec * ec * ec) * expr)) : option expr :=
  match l with
  | [] => None
  | ((a', b', c'), e) :: t => if ecb a a' && ecb b b' && ecb c c' then Some e else rlook a b c t
  end.
Definition known (given : ec -> option R) : list ec := filter (fun c => match given c with Some _ => true | None => false end) names.
(** The constants after init(): the given ones and, for the others, the values of
    the relations ([None]: nan or an exception). *)
Definition init (given : ec -> option R) : res (ec -> option R) :=
  match known given with
  | [a; b] =>
      if forallb (fun c => match given c with Some _ => true | None => match rlook a b c relations with Some _ => true | None => false end end) names then
        Ok (fun c => match given c with
                     | Some v => Some v
                     | None => match rlook a b c relations with Some e => eval given e | None => None end
                     end)
      else Err KeyError
  | _ => Err ValueError
  end.
