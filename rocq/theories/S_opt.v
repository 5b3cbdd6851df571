(** Specification of the steepest descent optimizer. *)
From Coq Require Import Reals.
From Verif Require Import Base M_nls.
Open Scope R_scope.

(** The documented meaning of the flag in the iteration [it] with the objective [obj], the
    previous objective [prev] and the norm of the gradient [gn]. *)
Definition flag_means (eps_of eps_ofg eps_rd : R) (flag it : nat) (obj prev gn : R) : Prop :=
  match flag with
  | 0%nat => Rabs obj < eps_of
  | 2%nat => gn < eps_ofg
  | 3%nat => (0 < it)%nat /\ Rabs (prev - obj) < eps_rd * Rabs prev
  | _ => True
  end.

(** The objective decreases along the negative gradient as that of a function with a
    Lipschitz gradient (constant L). *)
Definition smooth_descent (f : vec -> R) (grad : vec -> vec) (L : R) : Prop :=
  forall x t, 0 <= t -> f (vsub x (vscale t (grad x))) <= f x - t * sumsq (grad x) + L / 2 * t ^ 2 * sumsq (grad x).
