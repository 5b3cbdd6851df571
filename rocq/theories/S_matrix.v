(** Specification of sparse operators by their dense entries. *)
From Verif Require Import Base BaseSum.
Open Scope nat_scope.

Section Spec.
Variable V : Type.
Variables (v0 v1 : V) (add mul : V -> V -> V).

(** Entry (i, j) of the COO matrix with ones in the given coordinates
    (repeated coordinates are summed, as scipy does). *)
Definition coo_ones (coords : list (nat * nat)) (i j : nat) : V :=
  lsum v0 add (map (fun p => ind v0 (Nat.eqb (fst p) i && Nat.eqb (snd p) j) v1) coords).

(** Dense matrix - vector products; a matrix is a function of row and column. *)
Definition mat_vec (nr nc : nat) (m : nat -> nat -> V) (x : list V) : list V :=
  map (fun i => bigsum v0 add nc (fun j => mul (m i j) (nth j x v0))) (seq 0 nr).
Definition transp (m : nat -> nat -> V) : nat -> nat -> V := fun i j => m j i.
Definition dot (n : nat) (x y : list V) : V := bigsum v0 add n (fun i => mul (nth i x v0) (nth i y v0)).
(** R^T A R' *)
Definition sandwich (n1 n2 : nat) (r1 : nat -> nat -> V) (a : nat -> nat -> V) (r2 : nat -> nat -> V) (i j : nat) : V :=
  bigsum v0 add n1 (fun k => bigsum v0 add n2 (fun l => mul (mul (r1 k i) (a k l)) (r2 l j))).
End Spec.
Arguments coo_ones {V}. Arguments mat_vec {V}. Arguments transp {V}. Arguments dot {V}. Arguments sandwich {V}.
