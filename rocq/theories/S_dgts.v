(** Specification of explicit time stepping of a semi-discrete problem
    [M dp/dt + Vol(t, p) + Flux(t, p) = 0]. *)
From Coq Require Import List Reals.
Import ListNotations.
Open Scope R_scope.

Definition dofs := nat -> R.
Definition linear_op (f : dofs -> dofs) : Prop :=
  (forall x y, f (fun i => x i + y i) = (fun i => f x i + f y i)) /\
  (forall c x, f (fun i => c * x i) = (fun i => c * f x i)).
(** The linear solver solves [M y = r] exactly. *)
Definition exact_solver (mass solve : dofs -> dofs) : Prop :=
  linear_op mass /\ (forall x, solve (mass x) = x) /\ (forall r, mass (solve r) = r).
(** The rate: [dp/dt = - rate t p p]; the two arguments are the state seen by
    the volume terms and the state seen by the facet terms. *)
Definition rate (solve : dofs -> dofs) (Vol Flux : R -> dofs -> dofs) (t : R) (xv xf : dofs) : dofs :=
  solve (fun i => Vol t xv i + Flux t xf i).

(** [y] is one forward Euler step from [x]. *)
Definition euler_of (dt : R) (L : dofs -> dofs) (x : dofs) : dofs := fun i => x i - dt * L x i.

(** Shu-Osher: the three stages of the third order TVD Runge-Kutta method of
    [dp/dt = - L p], with a limiter applied to each stage. *)
Definition tvd1 (lim : dofs -> dofs) (dt : R) (L1 : dofs -> dofs) (x : dofs) : dofs :=
  lim (fun i => x i - dt * L1 x i).
Definition tvd2 (lim : dofs -> dofs) (dt : R) (L2 : dofs -> dofs) (x x1 : dofs) : dofs :=
  lim (fun i => 3 / 4 * x i + 1 / 4 * x1 i - 1 / 4 * dt * L2 x1 i).
Definition tvd3 (lim : dofs -> dofs) (dt : R) (L3 : dofs -> dofs) (x x2 : dofs) : dofs :=
  lim (fun i => 1 / 3 * x i + 2 / 3 * x2 i - 2 / 3 * dt * L3 x2 i).

(** The classical fourth order Runge-Kutta method of [dp/dt = g p]. *)
Definition classical_rk4 (dt : R) (g : dofs -> dofs) (x : dofs) : dofs :=
  let k1 := g x in
  let k2 := g (fun i => x i + dt / 2 * k1 i) in
  let k3 := g (fun i => x i + dt / 2 * k2 i) in
  let k4 := g (fun i => x i + dt * k3 i) in
  fun i => x i + dt / 6 * (k1 i + 2 * k2 i + 2 * k3 i + k4 i).
