(** Specification for the Legendre bases. *)
From Coq Require Import List Arith ZArith Lia Reals Lra.
From Coquelicot Require Import Coquelicot.
From Verif Require Import Base M_fmf S_quad.
Import ListNotations.
Open Scope R_scope.

(** p is the shifted Legendre polynomial of degree n: a polynomial of degree at
    most n, equal to 1 in 1, and orthogonal on [0, 1] to all polynomials of lower
    degree. *)
Definition polynomial (n : nat) (p : R -> R) : Prop := exists c : nat -> R, forall x, p x = sm (S n) (fun k => c k * x ^ k).
Definition shifted_legendre (n : nat) (p : R -> R) : Prop :=
  polynomial n p /\ p 1 = 1 /\ forall k, (k < n)%nat -> S_quad.is_RInt (fun x => p x * x ^ k) 0 1 0.
(** Polynomials of two variables of total degree at most n. *)
Inductive polynomial2 : nat -> (R -> R -> R) -> Prop :=
| p2_const : forall n c, polynomial2 n (fun _ _ => c)
| p2_x : forall n p, polynomial2 n p -> polynomial2 (S n) (fun x y => x * p x y)
| p2_y : forall n p, polynomial2 n p -> polynomial2 (S n) (fun x y => y * p x y)
| p2_plus : forall n p q, polynomial2 n p -> polynomial2 n q -> polynomial2 n (fun x y => p x y + q x y)
| p2_ext : forall n p q, polynomial2 n p -> (forall x y, p x y = q x y) -> polynomial2 n q.
(** The list with the entry d replaced *)
Fixpoint setn (l : list R) (d : nat) (z : R) : list R :=
  match l, d with [], _ => [] | _ :: l, O => z :: l | a :: l, S d => a :: setn l d z end.
