(** What the hyperelastic terms are supposed to be: derivatives along every
    differentiable path of deformation gradients. *)
From Coq Require Import Reals.
From Coquelicot Require Import Coquelicot.
From Verif Require Import M_fmf M_hyper L_terms.
Open Scope R_scope.

(** Green strain E = (F^T F - I) / 2 of a dim x dim deformation gradient stored by rows. *)
Definition green (dim : nat) (F : nat -> R) (i j : nat) : R :=
  (sm dim (fun k => F (dim * k + i)%nat * F (dim * k + j)%nat) - (if (i =? j)%nat then 1 else 0)) / 2.

(** Engineering strain: the shear components are counted twice. *)
Definition eng (dim k : nat) : R := if (k <? dim)%nat then 1 else 2.

(** A differentiable path of deformation gradients [F t] through a state with
    det F > 0 (and det F^2 > 1e-55, where the code inverts C instead of returning 0);
    [E'] is the rate of the engineering Green strain of the code at [t0]. *)
Definition fs (dim : nat) (F : R -> nat -> R) (t : R) : Fam := finite_strain false dim (F t).
Definition path (dim : nat) (F : R -> nat -> R) (t0 : R) (E' : nat -> R) : Prop :=
  dim_ok dim /\
  (forall k, (k < dim * dim)%nat -> ex_derive (fun t => F t k) t0) /\
  0 < detF (fs dim F t0) /\ inv_eps < detF (fs dim F t0) * detF (fs dim F t0) /\
  (forall k, (k < dim2sym dim)%nat -> is_derive (fun t => eng dim k * vecES (fs dim F t) k) t0 (E' k)).

(** The tangent modulus [D] is the derivative of the stress [S]: along every path the
    stress changes by D times the strain rate. *)
Definition consistent (dim : nat) (S : Fam -> nat -> R) (D : Fam -> nat -> nat -> R) : Prop :=
  forall F t0 E', path dim F t0 E' -> forall ir, (ir < dim2sym dim)%nat ->
    is_derive (fun t => S (fs dim F t) ir) t0 (sm (dim2sym dim) (fun ic => D (fs dim F t0) ir ic * E' ic)).
(** The stress [S] derives from the stored energy [W]: the energy changes by the
    stress power S : E'. *)
Definition derives_from (dim : nat) (S : Fam -> nat -> R) (W : Fam -> R) : Prop :=
  forall F t0 E', path dim F t0 E' ->
    is_derive (fun t => W (fs dim F t)) t0 (sm (dim2sym dim) (fun ir => S (fs dim F t0) ir * E' ir)).

(** Stored energies (J = det F, isochoric invariants; plane strain in 2D). *)
Definition W_bulk (K : R) (f : Fam) : R := K / 2 * (detF f - 1) ^ 2.
Definition W_bulk_active (m : R) (f : Fam) : R := m * detF f.
Definition W_neohook (mu : R) (f : Fam) : R := mu / 2 * (Rpower (detF f) (- 2 / 3) * trC f - 3).
Definition W_mooney_rivlin (kappa : R) (f : Fam) : R := kappa / 2 * (Rpower (detF f) (- 4 / 3) * in2C f - 3).

(** A rotation (by rows): Q^T Q = I, det Q = 1; and the product of matrices. *)
Definition rotation (dim : nat) (Q : nat -> R) : Prop :=
  (forall i j, (i < dim)%nat -> (j < dim)%nat -> sm dim (fun k => Q (dim * k + i)%nat * Q (dim * k + j)%nat) = if (i =? j)%nat then 1 else 0) /\
  geme_det3x3 dim Q = 1.
Definition mmul (dim : nat) (A B : nat -> R) : nat -> R :=
  fun k => sm dim (fun a => A (dim * (k / dim) + a)%nat * B (dim * a + k mod dim)%nat).

(** The components of a symmetric tensor in symmetric storage, and the push-forward
    F A F^T of a tensor of order 2 and of order 4. *)
Definition tens2 (dim : nat) (a : nat -> R) (i j : nat) : R := a (t4s dim (dim * i + j)).
Definition tens4 (dim : nat) (d : nat -> nat -> R) (i j k l : nat) : R := d (t4s dim (dim * i + j)) (t4s dim (dim * k + l)).
Definition push2 (dim : nat) (F : nat -> R) (A : nat -> nat -> R) (i j : nat) : R :=
  sm dim (fun I => sm dim (fun J => F (dim * i + I)%nat * F (dim * j + J)%nat * A I J)).
Definition push4 (dim : nat) (F : nat -> R) (A : nat -> nat -> nat -> nat -> R) (i j k l : nat) : R :=
  sm dim (fun I => sm dim (fun J => sm dim (fun K => sm dim (fun L =>
    F (dim * i + I)%nat * F (dim * j + J)%nat * F (dim * k + K)%nat * F (dim * l + L)%nat * A I J K L)))).
