(** Specification of the semi-smooth Newton solver. *)
From Coq Require Import Reals.
From Verif Require Import Base M_nls.
Open Scope R_scope.

(** F = 0, A >= 0, B >= 0, <A, B> = 0 (the problem solved). *)
Definition solves (s a b : list R) : Prop :=
  (forall v, In v s -> v = 0) /\
  (forall v, In v a -> 0 <= v) /\ (forall v, In v b -> 0 <= v) /\
  (forall i, (i < length a)%nat -> nth i a 0 * nth i b 0 = 0).

(** The same up to [eps]. *)
Definition solves_up_to (eps : R) (s a b : list R) : Prop :=
  (forall v, In v s -> Rabs v <= eps) /\
  (forall i, (i < length a)%nat ->
     - eps <= nth i a 0 /\ - eps <= nth i b 0 /\
     Rmin (nth i a 0) (nth i b 0) <= eps / (2 - sqrt 2)).
