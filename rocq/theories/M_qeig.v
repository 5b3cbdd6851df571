(** Model of sfepy/solvers/qeigen.py l.66-141 [LQuadraticEVPSolver.__call__]: linearizations of
    (w^2 M + w D + K) x = 0.  Matrices over any field, without the debug output; the solver of the
    linear problem, self.solver(A, B), is a function giving eigenvalues with eigenvectors.
    An infinite eigenvalue is [None]. *)
From mathcomp Require Import all_ssreflect all_algebra.
Set Implicit Arguments.
Unset Strict Implicit.
Unset Printing Implicit Defensive.
Import GRing.Theory.
Local Open Scope ring_scope.

Inductive method := Companion | Cholesky.
Inductive mode := Normal | Inverted.

Section Model.
Variables (F : fieldType) (n : nat).
Notation mat := 'M[F]_n.
(** l.80-86 and l.88-105: [l] is the factor of the Cholesky decomposition, permuted back (l.93-96) *)
Definition mtx_a (m : method) (md mk : mat) : 'M[F]_(n + n) :=
  match m with Companion => block_mx md mk (- 1%:M) 0 | Cholesky => block_mx (- mk) 0 0 1%:M end.
Definition mtx_b (m : method) (mm md ml : mat) : 'M[F]_(n + n) :=
  match m with Companion => block_mx (- mm) 0 0 (- 1%:M) | Cholesky => block_mx md ml ml^T 0 end.
(** 1.0 / eigs *)
Definition recip (mu : F) : option F := if mu == 0 then None else Some mu^-1.
(** l.120-141 *)
Definition lsolver := 'M[F]_(n + n) -> 'M[F]_(n + n) -> seq (F * 'cV[F]_(n + n)).
Definition qevp (m : method) (md_ : mode) (solver : lsolver) (mm md mk ml : mat) : seq (option F * 'cV[F]_n) :=
  let a := mtx_a m md mk in let b := mtx_b m mm md ml in
  match md_ with
  | Normal => [seq (Some p.1, usubmx p.2) | p <- solver a b]
  | Inverted => [seq (recip p.1, usubmx p.2) | p <- solver b a]
  end.
End Model.
