(** Specification of facet neighbourhoods in a mesh of cells and facets. *)
From Coq Require Import List ZArith Arith.
Import ListNotations.

(** [c2f] lists the facets of every cell and [f2c] the cells of every facet;
    they are transposes of each other, without repetition, and no facet belongs
    to more than two cells. *)
Definition manifold_mesh (c2f f2c : list (list nat)) : Prop :=
  (forall c fa, c < length c2f -> (In fa (nth c c2f []) <-> In c (nth fa f2c []))) /\
  (forall fa c, In c (nth fa f2c []) -> c < length c2f) /\
  (forall c, NoDup (nth c c2f [])) /\
  (forall fa, NoDup (nth fa f2c []) /\ length (nth fa f2c []) <= 2).

(** Side [j] of cell [c] is facet [fa]. *)
Definition side (c2f : list (list nat)) (c j fa : nat) : Prop :=
  c < length c2f /\ j < length (nth c c2f []) /\ nth j (nth c c2f []) 0 = fa.

(** A pair of arrays pairs the sides (c, j) and (c', j') with each other. *)
Definition paired (n0 n1 : nat -> nat -> Z) (c j c' j' : nat) : Prop :=
  n0 c j = Z.of_nat c' /\ n1 c j = Z.of_nat j' /\ n0 c' j' = Z.of_nat c /\ n1 c' j' = Z.of_nat j.
Definition unpaired (n0 n1 : nat -> nat -> Z) (c j : nat) : Prop := n0 c j = (-1)%Z /\ n1 c j = (-1)%Z.
