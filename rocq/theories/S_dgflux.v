(** Specification for the DG facet terms: traces, numerical fluxes, conforming
    meshes. Only the data of the field record is used. *)
From Coq Require Import List Reals ZArith Arith.
From Verif Require Import M_fmf M_dgflux.
Import ListNotations.
Open Scope R_scope.

(** Value at the quadrature point [q] of side [f] of the polynomial with the
    coefficients [u] in cell [i]. *)
Definition trace (F : field) (u : nat -> R) (i f q : nat) : R :=
  sm (nnod F) (fun d => u (i * nnod F + d)%nat * fb F d f q).
(** Its derivative along axis [k]. *)
Definition dtrace (F : field) (u : nat -> R) (k i f q : nat) : R :=
  sm (nnod F) (fun d => u (i * nnod F + d)%nat * fbd F d f k q).

(** The side (i, f) has no neighbour, or its neighbour is side (i', f'). *)
Definition bnd (F : field) (i f : nat) : Prop := (n0 F i f < 0)%Z.
Definition facing (F : field) (i f i' f' : nat) : Prop :=
  n0 F i f = Z.of_nat i' /\ n1 F i f = Z.of_nat f'.

(** [v] is the value seen across side (i, f) at point [q]: the prescribed one
    if there is one, else the trace from the neighbour, whose points run in the
    opposite direction, else zero. *)
Definition seen (F : field) (e : ebcs) (u : nat -> R) (i f q : nat) (v : R) : Prop :=
  (forall g, In (i, f, g) e -> v = g (nq F - 1 - q)%nat) /\
  ((forall g, ~ In (i, f, g) e) ->
     (bnd F i f -> v = 0) /\
     (forall i' f', facing F i f i' f' -> v = trace F u i' f' (nq F - 1 - q)%nat)).

(** All neighbours are mutual. *)
Definition mutual (F : field) : Prop :=
  forall i f, (i < ncell F)%nat -> (f < nfac F)%nat -> ~ bnd F i f ->
    exists i' f', (i' < ncell F)%nat /\ (f' < nfac F)%nat /\ facing F i f i' f' /\ facing F i' f' i f.
(** Facing sides have opposite normals and the same size; the quadrature rule
    is symmetric. *)
Definition matching (F : field) : Prop :=
  (forall i f i' f' k, (i < ncell F)%nat -> (f < nfac F)%nat -> facing F i f i' f' -> (k < dim F)%nat ->
     nrm F i' f' k = - nrm F i f k) /\
  (forall i f i' f', (i < ncell F)%nat -> (f < nfac F)%nat -> facing F i f i' f' -> vol F i' f' = vol F i f) /\
  (forall q, (q < nq F)%nat -> w F (nq F - 1 - q)%nat = w F q).
Definition unit_normals (F : field) : Prop :=
  forall i f, (i < ncell F)%nat -> (f < nfac F)%nat -> sm (dim F) (fun k => nrm F i f k * nrm F i f k) = 1.
(** Prescribed values are given once per side, at sides without neighbour. *)
Definition boundary_data (F : field) (e : ebcs) : Prop :=
  NoDup (map fst e) /\ forall i f g, In (i, f, g) e -> bnd F i f.
Definition weights_nonneg (F : field) : Prop :=
  (forall i f, (i < ncell F)%nat -> (f < nfac F)%nat -> 0 <= vol F i f) /\
  (forall q, (q < nq F)%nat -> 0 <= w F q).

(** Normal component of a cell-wise constant velocity. *)
Definition normal_part (F : field) (a : nat -> nat -> R) (i f : nat) : R :=
  sm (dim F) (fun k => nrm F i f k * a i k).

(** The Lax-Friedrichs flux in the normal direction. *)
Definition lf_flux (an al pin pout : R) : R := an * (pin + pout) / 2 + (1 - al) * Rabs an * (pin - pout) / 2.

(** Integral over the side (i, f). *)
Definition over_side (F : field) (i f : nat) (g : nat -> R) : R :=
  sm (nq F) (fun q => g q * (vol F i f * w F q)).
(** Sum over all sides / all sides without (with) a neighbour. *)
Definition over_sides (F : field) (g : nat -> nat -> R) : R :=
  sm (ncell F) (fun i => sm (nfac F) (fun f => g i f)).
Definition on_bnd (F : field) (g : nat -> nat -> R) (i f : nat) : R := if (n0 F i f <? 0)%Z then g i f else 0.
Definition on_int (F : field) (g : nat -> nat -> R) (i f : nat) : R := if (n0 F i f <? 0)%Z then 0 else g i f.

(** Value of the linear form with coefficients [r] at the function [v]. *)
Definition test_with (F : field) (v : nat -> R) (r : nat -> nat -> R) : R :=
  sm (ncell F) (fun i => sm (nnod F) (fun d => v (i * nnod F + d)%nat * r i d)).
