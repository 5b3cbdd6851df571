(** Specification of tensor product NURBS. *)
From Coq Require Import Reals Arith List.
From Verif Require Import S_iga.
Import ListNotations.
Open Scope R_scope.

(** The multi-indices (I_0, I_1, ...) with I_k < shape_k, in the row-major order. *)
Fixpoint multi (shape : list nat) : list (list nat) :=
  match shape with [] => [[]] | d :: r => flat_map (fun i => map (cons i) (multi r)) (seq 0 d) end.
Fixpoint prodn (l : list nat) : nat := match l with [] => 1%nat | d :: r => (d * prodn r)%nat end.
(** The row-major position of a multi-index. *)
Fixpoint position (shape idx : list nat) : nat :=
  match shape, idx with d :: r, i :: s => (i * prodn r + position r s)%nat | _, _ => 0%nat end.
Definition inside (idx shape : list nat) : Prop := Forall2 lt idx shape.
Definition sumR (l : list R) : R := fold_right Rplus 0 l.
Definition prodR (l : list R) : R := fold_right Rmult 1 l.

(** A knot vector with its number of knots, and a degree; the number of its B-splines. *)
Definition knot_vector := ((nat -> R) * nat)%type.
Definition n_funs (kp : knot_vector * nat) : nat := (snd (fst kp) - snd kp - 1)%nat.
(** The tensor product B-spline of the multi-index I at the parametric point x. *)
Definition tp_spline (kps : list (knot_vector * nat)) (I : list nat) (x : nat -> R) : R :=
  prodR (map (fun k => let '(kv, p) := nth k kps ((fun _ => 0, 0%nat), 0%nat) in bspline (fst kv) p (nth k I 0%nat) (x k)) (seq 0 (length kps))).
(** The NURBS function of the multi-index I; the weights are numbered row-major. *)
Definition nurbs (kps : list (knot_vector * nat)) (w : nat -> R) (I : list nat) (x : nat -> R) : R :=
  let shape := map n_funs kps in
  w (position shape I) * tp_spline kps I x / sumR (map (fun J => w (position shape J) * tp_spline kps J x) (multi shape)).
