(** Specification for isogeometric analysis: Bernstein polynomials, B-splines by the Cox - de Boor
    recurrence, open knot vectors. *)
From Coq Require Import Reals Arith List.
Open Scope R_scope.

Fixpoint binom (n k : nat) : nat :=
  match n, k with _, O => 1%nat | O, S _ => 0%nat | S n, S k => (binom n k + binom n (S k))%nat end.
(** B_{j,p}(x) = C(p, j) x^j (1 - x)^(p - j). *)
Definition bernstein (p j : nat) (x : R) : R := INR (binom p j) * x ^ j * (1 - x) ^ (p - j).

(** 0/0 = 0. *)
Definition ratio (a b : R) : R := if Req_EM_T b 0 then 0 else a / b.
(** The i-th B-spline of degree p on the knots t. *)
Fixpoint bspline (t : nat -> R) (p i : nat) (x : R) : R :=
  match p with
  | O => if Rle_dec (t i) x then (if Rlt_dec x (t (S i)) then 1 else 0) else 0
  | S q => ratio (x - t i) (t (i + p)%nat - t i) * bspline t q i x
           + ratio (t (i + p + 1)%nat - x) (t (i + p + 1)%nat - t (i + 1)%nat) * bspline t q (S i) x
  end.

(** n knots in a non-decreasing sequence, the first and the last one of multiplicity exactly p + 1. *)
Definition open_knots (t : nat -> R) (n p : nat) : Prop :=
  (2 * p + 2 <= n)%nat /\ (forall i, (i + 1 < n)%nat -> t i <= t (i + 1)%nat) /\
  (forall i, (i <= p)%nat -> t i = t 0%nat) /\ t p < t (p + 1)%nat /\
  (forall i, (n - p - 1 <= i < n)%nat -> t i = t (n - 1)%nat) /\ t (n - p - 2)%nat < t (n - p - 1)%nat.
(** The indices of the left ends of the non-empty knot intervals. *)
Definition spans (t : nat -> R) (n : nat) : list nat :=
  filter (fun s => if Rlt_dec (t s) (t (s + 1)%nat) then true else false) (seq 0 (n - 1)).
