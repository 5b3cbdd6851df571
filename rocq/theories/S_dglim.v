(** Specification of the minmod function and of slope limiting. *)
From Coq Require Import Reals.
Open Scope R_scope.

(** [r] is the minmod of three numbers: the one closest to zero if they have
    the same sign, zero otherwise. *)
Definition is_minmod (a b c r : R) : Prop :=
  (0 < a /\ 0 < b /\ 0 < c -> r = Rmin a (Rmin b c)) /\
  (a < 0 /\ b < 0 /\ c < 0 -> r = Rmax a (Rmax b c)) /\
  (~ (0 < a /\ 0 < b /\ 0 < c) -> ~ (a < 0 /\ b < 0 /\ c < 0) -> r = 0).

(** [r] is obtained from [a] by shrinking towards zero. *)
Definition shrinks (a r : R) : Prop := 0 <= r * a /\ Rabs r <= Rabs a.
