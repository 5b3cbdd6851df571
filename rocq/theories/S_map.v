(** What a reference mapping is supposed to give. *)
From Coq Require Import Reals.
From Verif Require Import Base M_fmf.
Open Scope nat_scope.

Definition kron (i j : nat) : R := if i =? j then 1%R else 0%R.
(** The point [xi] moved by [t] along axis [i]. *)
Definition shift (xi : nat -> R) (i : nat) (t : R) : nat -> R := fun k => if k =? i then (xi k + t)%R else xi k.
(** [l] is the partial derivative of [f] along axis [i] in [xi]. *)
Definition pderiv (f : (nat -> R) -> R) (i : nat) (xi : nat -> R) (l : R) : Prop :=
  derivable_pt_lim (fun t => f (shift xi i t)) 0 l.
(** [G] is the gradient of [U] in [x0] (Frechet). *)
Definition has_grad (dim : nat) (U : (nat -> R) -> R) (x0 G : nat -> R) : Prop :=
  forall eps, (0 < eps)%R -> exists delta, (0 < delta)%R /\
    forall x, (forall k, k < dim -> (Rabs (x k - x0 k) < delta)%R) ->
      (Rabs (U x - U x0 - sm dim (fun k => G k * (x k - x0 k))) <= eps * sm dim (fun k => Rabs (x k - x0 k)))%R.
(** The physical point of [xi] in a cell with nodes [x] and base functions [N]. *)
Definition phys (ng : nat) (N : nat -> (nat -> R) -> R) (x : nat -> nat -> R) (xi : nat -> R) (k : nat) : R :=
  sm ng (fun j => (N j xi * x j k)%R).

Definition dot (dim : nat) (a b : nat -> R) : R := sm dim (fun k => (a k * b k)%R).
(** Signed volume of the simplex with vertices [x 0], ..., [x dim]. *)
Definition edge (x : nat -> nat -> R) (j k : nat) : R := (x (S j) k - x 0%nat k)%R.
Definition det3 (a b c : nat -> R) : R :=
  (a 0%nat * (b 1%nat * c 2%nat - b 2%nat * c 1%nat) - a 1%nat * (b 0%nat * c 2%nat - b 2%nat * c 0%nat)
   + a 2%nat * (b 0%nat * c 1%nat - b 1%nat * c 0%nat))%R.
Definition det2 (a b : nat -> R) : R := (a 0%nat * b 1%nat - a 1%nat * b 0%nat)%R.
Definition simplex_volume (dim : nat) (x : nat -> nat -> R) : R :=
  (match dim with
   | 1 => edge x 0 0
   | 2 => det2 (edge x 0) (edge x 1) / 2
   | _ => det3 (edge x 0) (edge x 1) (edge x 2) / 6
   end)%R.
(** Shoelace area of a quadrilateral. *)
Definition quad_area (x : nat -> nat -> R) : R :=
  (det2 (fun k => x 2%nat k - x 0%nat k) (fun k => x 3%nat k - x 1%nat k) / 2)%R.
