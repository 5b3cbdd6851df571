(** Model of sfepy/mechanics/membranes.py (describe_deformation, get_tangent_stress_matrix,
    get_invariants, get_green_strain_sym3d) and of the quadrature point data of
    terms/terms_membrane.py (eval_membrane_mooney_rivlin, TLMembraneTerm.weak_function),
    over exact real numbers, for one quadrature point of one element.

    [n] is the number of the element nodes; [u m i] the displacement component [i] of the node
    [m] in the local coordinates; [g a m] the in-plane base function gradients.  Columns
    [i * n + m] of the matrices belong to the component [i] of the node [m].  The thickness,
    the integration weights and the transformation to the global system are left out. *)
From Coq Require Import Reals.
From Verif Require Import Base.
Open Scope R_scope.

Fixpoint sm (n : nat) (f : nat -> R) : R := match n with O => 0 | S n => sm n f + f n end.

Section Membrane.
Variables (n : nat) (g : nat -> nat -> R).

Definition field := nat -> nat -> R.
(** l.203-213: du = bfg el_disps, mtx_f = du + eye(2, 3) *)
Definition mtx_f (u : field) (a i : nat) : R := sm n (fun m => g a m * u m i) + (if Nat.eqb a i then 1 else 0).
(** l.215-217, dot_sequences(mtx_f, mtx_f, 'ABT') *)
Definition mtx_c (u : field) (a b : nat) : R := sm 3 (fun k => mtx_f u a k * mtx_f u b k).
(** l.219-221 *)
Definition c33 (u : field) : R := 1 / (mtx_c u 0 0 * mtx_c u 1 1 - mtx_c u 0 1 * mtx_c u 0 1).
(** l.223-236 *)
Definition mtx_b (u : field) (r col : nat) : R :=
  let i := (col / n)%nat in
  let m := (col mod n)%nat in
  match r, i with
  | O, _ => g 0%nat m * mtx_f u 0 i
  | S O, _ => g 1%nat m * mtx_f u 1 i
  | _, O => g 1%nat m * mtx_f u 0 i + g 0%nat m * mtx_f u 1 i
  | _, _ => g 0%nat m * mtx_f u 1 i + g 1%nat m * mtx_f u 0 i
  end.
(** l.240-276, [s] is the stress 11, 22, 12 *)
Definition tangent_stress (s : nat -> R) (row col : nat) : R :=
  let k := (row mod n)%nat in
  let m := (col mod n)%nat in
  if Nat.eqb (row / n) (col / n)
  then s 0%nat * (g 0%nat k * g 0%nat m) + s 2%nat * (g 0%nat k * g 1%nat m) + s 2%nat * (g 1%nat k * g 0%nat m) + s 1%nat * (g 1%nat k * g 1%nat m)
  else 0.
(** l.303-308 *)
Definition invariants (c : nat -> nat -> R) (c3 : R) : R * R :=
  (c 0%nat 0%nat + c 1%nat 1%nat + c3,
   c 0%nat 0%nat * c 1%nat 1%nat + c 1%nat 1%nat * c3 + c 0%nat 0%nat * c3 - c 0%nat 1%nat * c 0%nat 1%nat).
(** l.331-343 *)
Definition green_strain (c : nat -> nat -> R) (c3 : R) : list R :=
  [1 / 2 * (c 0%nat 0%nat - 1); 1 / 2 * (c 1%nat 1%nat - 1); 1 / 2 * (c3 - 1); 1 / 2 * c 0%nat 1%nat; 0; 0].
End Membrane.

(** terms_membrane.py l.9-72; [a1], [a2] the materials. *)
Section MooneyRivlin.
Variables (a1 a2 c11 c12 c22 c3 : R).
Definition a12 : R := 2 * a1.
Definition a22 : R := 2 * a2.
Definition pressure : R := c3 * (a12 + a22 * (c11 + c22)).
(** mode 0 *)
Definition mr_stress (r : nat) : R :=
  match r with
  | O => - pressure * c22 * c3 + a12 + a22 * (c22 + c3)
  | S O => - pressure * c11 * c3 + a12 + a22 * (c11 + c3)
  | _ => pressure * c12 * c3 - a22 * c12
  end.
Definition dp11 : R := a22 * c3 - pressure * c22 * c3.
Definition dp22 : R := a22 * c3 - pressure * c11 * c3.
Definition dp12 : R := 2 * pressure * c12 * c3.
(** mode 1: the lower triangle is copied to the upper one *)
Definition mr_tangent (r s : nat) : R :=
  match Nat.max r s, Nat.min r s with
  | O, _ => - (2) * ((a22 - pressure * c22) * c22 * (c3 * c3) + c3 * c22 * dp11)
  | S O, O => 2 * ((a22 - pressure * c3 - (a22 - pressure * c11) * c22 * (c3 * c3)) - c3 * c11 * dp11)
  | S O, _ => - (2) * ((a22 - pressure * c11) * c11 * (c3 * c3) + c3 * c11 * dp22)
  | _, O => 2 * (- pressure * c12 * c22 * (c3 * c3) + c12 * c3 * dp11)
  | _, S O => 2 * (- pressure * c12 * c11 * (c3 * c3) + c12 * c3 * dp22)
  | _, _ => - a22 + pressure * (c3 + 2 * (c12 * c12) * (c3 * c3)) + c12 * c3 * dp12
  end.
End MooneyRivlin.

(** terms_membrane.py l.110-131 in a quadrature point: the residual and the tangent matrix. *)
Section Weak.
Variables (n : nat) (g : nat -> nat -> R) (a1 a2 : R) (u : field).
Let c := mtx_c n g u.
Definition stress (r : nat) : R := mr_stress a1 a2 (c 0%nat 0%nat) (c 0%nat 1%nat) (c 1%nat 1%nat) (c33 n g u) r.
Definition tangent (r s : nat) : R := mr_tangent a1 a2 (c 0%nat 0%nat) (c 0%nat 1%nat) (c 1%nat 1%nat) (c33 n g u) r s.
Definition residual (row : nat) : R := sm 3 (fun r => mtx_b n g u r row * stress r).
Definition stiffness (row col : nat) : R :=
  tangent_stress n g stress row col +
  sm 3 (fun s => sm 3 (fun r => mtx_b n g u r row * tangent r s) * mtx_b n g u s col).
End Weak.
