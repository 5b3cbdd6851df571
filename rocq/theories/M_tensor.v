(** Model: sfepy/linalg/utils.py (invs_fast) and sfepy/mechanics/tensors.py, over
    an arbitrary field (exact arithmetic), one item of the arrays. *)
From mathcomp Require Import all_ssreflect all_algebra.
Set Implicit Arguments. Unset Strict Implicit. Unset Printing Implicit Defensive.
Import GRing.Theory Num.Theory.
Local Open Scope ring_scope.

(** ** linalg/utils.py, invs_fast(): l.98-145: numpy.linalg.det() is the
    determinant, [invN A i j] is the value assigned to inv_ax[i, j] (0 elsewhere);
    the branches dim == 3, 2 and 1. *)
Section Invs.
Variable F : fieldType.
Definition ent n (A : 'M[F]_n.+1) (i j : nat) : F := A (inord i) (inord j).
Definition inv3 (A : 'M[F]_3) (i j : nat) : F :=
  let ax := ent A in
  match i, j with
  | 0, 0 => - ax 1%N 2%N * ax 2%N 1%N + ax 1%N 1%N * ax 2%N 2%N
  | 1, 0 => ax 1%N 2%N * ax 2%N 0%N - ax 1%N 0%N * ax 2%N 2%N
  | 2, 0 => - ax 1%N 1%N * ax 2%N 0%N + ax 1%N 0%N * ax 2%N 1%N
  | 0, 1 => ax 0%N 2%N * ax 2%N 1%N - ax 0%N 1%N * ax 2%N 2%N
  | 1, 1 => - ax 0%N 2%N * ax 2%N 0%N + ax 0%N 0%N * ax 2%N 2%N
  | 2, 1 => ax 0%N 1%N * ax 2%N 0%N - ax 0%N 0%N * ax 2%N 1%N
  | 0, 2 => - ax 0%N 2%N * ax 1%N 1%N + ax 0%N 1%N * ax 1%N 2%N
  | 1, 2 => ax 0%N 2%N * ax 1%N 0%N - ax 0%N 0%N * ax 1%N 2%N
  | 2, 2 => - ax 0%N 1%N * ax 1%N 0%N + ax 0%N 0%N * ax 1%N 1%N
  | _, _ => 0
  end.
Definition inv2 (A : 'M[F]_2) (i j : nat) : F :=
  let ax := ent A in
  match i, j with
  | 0, 0 => ax 1%N 1%N
  | 1, 0 => - ax 1%N 0%N
  | 0, 1 => - ax 0%N 1%N
  | 1, 1 => ax 0%N 0%N
  | _, _ => 0
  end.
Definition invs_fast3 (A : 'M[F]_3) : 'M[F]_3 := \matrix_(i, j) (inv3 A i j / \det A).
Definition invs_fast2 (A : 'M[F]_2) : 'M[F]_2 := \matrix_(i, j) (inv2 A i j / \det A).
Definition invs_fast1 (A : 'M[F]_1) : 'M[F]_1 := \matrix_(i, j) (1 / \det A).
End Invs.

(** ** mechanics/tensors.py *)
(** l.29-45, get_full_indices(), get_sym_indices() (indices of the raveled array) *)
Definition full_indices (dim : nat) : seq (seq nat) :=
  match dim with
  | 2 => [:: [:: 0; 2]; [:: 2; 1]]%N
  | 3 => [:: [:: 0; 3; 4]; [:: 3; 1; 5]; [:: 4; 5; 2]]%N
  | _ => [::]
  end.
Definition sym_indices (dim : nat) : seq nat :=
  match dim with
  | 2 => [:: 0; 3; 1]%N
  | 3 => [:: 0; 4; 8; 1; 2; 5]%N
  | _ => [::]
  end.
Definition fi (dim i j : nat) : nat := nth 0%N (nth [::] (full_indices dim) i) j.
(** l.10-14, dim2sym() *)
Definition dim2sym (dim : nat) : nat := ((dim + 1) * dim %/ 2)%N.

Section Tensors.
Variable F : rcfType.
Notation vec := (nat -> F).
Notation tens := (nat -> nat -> F).
(** data[:, iif]: from the symmetric to the full storage *)
Definition to_full (dim : nat) (v : vec) : tens := fun i j => v (fi dim i j).
(** t.reshape(dim * dim)[iis]: from the full to the symmetric storage *)
Definition to_sym (dim : nat) (t : tens) : vec := fun a =>
  let ii := nth 0%N (sym_indices dim) a in t (ii %/ dim)%N (ii %% dim)%N.

(** l.56-67, get_trace() *)
Definition trace_sym (dim : nat) (v : vec) : F := \sum_(i < dim) v i.
Definition trace_full (dim : nat) (t : tens) : F := \sum_(i < dim) t i i.
(** l.69-87, get_volumetric_tensor() *)
Definition vol_sym (dim : nat) (v : vec) : vec := fun a => if (a < dim)%N then trace_sym dim v / dim%:R else 0.
Definition vol_full (dim : nat) (t : tens) : tens := fun i j => trace_full dim t / dim%:R * (i == j)%:R.
(** l.89-96, get_deviator() *)
Definition dev_sym (dim : nat) (v : vec) : vec := fun a => v a - vol_sym dim v a.
Definition dev_full (dim : nat) (t : tens) : tens := fun i j => t i j - vol_full dim t i j.

(** l.99-122, get_cauchy_strain(): [g i j] is grad[i, j] *)
Definition strain_tab (dim : nat) : seq (seq nat) :=
  match dim with
  | 1 => [:: [:: 0]]%N
  | 2 => [:: [:: 0]; [:: 3]; [:: 1; 2]]%N
  | 3 => [:: [:: 0]; [:: 4]; [:: 8]; [:: 1; 3]; [:: 2; 6]; [:: 5; 7]]%N
  | _ => [::]
  end.
Definition cauchy_strain (dim : nat) (g : tens) : vec := fun a =>
  \sum_(ii <- nth [::] (strain_tab dim) a) g (ii %/ dim)%N (ii %% dim)%N.

(** l.124-175, get_von_mises_stress() *)
Definition vm2 (s11 s22 s12 : F) : F := Num.sqrt (s11 ^+ 2 - s11 * s22 + s22 ^+ 2 + 3%:R * s12 ^+ 2).
Definition vm3 (s11 s22 s33 s12 s13 s23 : F) : F :=
  Num.sqrt (2%:R^-1 * ((s11 - s22) ^+ 2 + (s22 - s33) ^+ 2 + (s11 - s33) ^+ 2 + 6%:R * (s12 ^+ 2 + s13 ^+ 2 + s23 ^+ 2))).
Definition von_mises_sym (dim : nat) (s : vec) : F :=
  if dim == 2%N then vm2 (s 0%N) (s 1%N) (s 2%N) else vm3 (s 0%N) (s 1%N) (s 2%N) (s 3%N) (s 4%N) (s 5%N).
Definition von_mises_full (dim : nat) (s : tens) : F :=
  if dim == 2%N then vm2 (s 0%N 0%N) (s 1%N 1%N) (s 0%N 1%N)
  else vm3 (s 0%N 0%N) (s 1%N 1%N) (s 2%N 2%N) (s 0%N 1%N) (s 0%N 2%N) (s 1%N 2%N).

(** l.177-199, get_t4_from_t2s() *)
Definition t4_from_t2s (dim : nat) (d : tens) : nat -> nat -> nat -> nat -> F := fun i j k l => d (fi dim i j) (fi dim k l).

(** l.236-340, transform_data(): vectors, symmetric tensors of the second order and
    the 6x6 matrices of the fourth order. *)
Definition transform1 (m : tens) (v : vec) : vec := fun i => \sum_(p < 3) m i p * v p.
Definition rot2 (m t : tens) : tens := fun i j => \sum_(q < 3) (\sum_(p < 3) m i p * t p q) * m j q.
Definition transform2 (m : tens) (v : vec) : vec := to_sym 3 (rot2 m (to_full 3 v)).
Definition rot4 (m : tens) (t : nat -> nat -> nat -> nat -> F) : nat -> nat -> nat -> nat -> F := fun i j k l =>
  \sum_(p < 3) \sum_(q < 3) \sum_(r < 3) \sum_(s < 3) t p q r s * m i p * m j q * m k r * m l s.
Definition transform4 (m : tens) (d : tens) : tens := fun a b =>
  let ia := nth 0%N (sym_indices 3) a in
  let ib := nth 0%N (sym_indices 3) b in
  rot4 m (t4_from_t2s 3 d) (ia %/ 3)%N (ia %% 3)%N (ib %/ 3)%N (ib %% 3)%N.

(** l.342-433, StressTransform *)
Definition pk1_from_pk2 (dim : nat) (f : tens) (s : vec) : tens := fun i j => \sum_(k < dim) f i k * to_full dim s k j.
Definition cauchy_full (dim : nat) (f : tens) (jac : F) (s : vec) : tens := fun i j =>
  (\sum_(l < dim) pk1_from_pk2 dim f s i l * f j l) / jac.
Definition cauchy_from_pk2 (dim : nat) (f : tens) (jac : F) (s : vec) : vec := to_sym dim (cauchy_full dim f jac s).

(** linalg/geometry.py l.335-399, make_axis_rotation_matrix(): [c] and [s] are the
    cosine and the sine of the angle. *)
Definition norm3 (d : vec) : F := Num.sqrt (d 0%N ^+ 2 + d 1%N ^+ 2 + d 2%N ^+ 2).
Definition skew (d : vec) : tens := fun i j =>
  nth 0 (nth [::] [:: [:: 0; d 2%N; - d 1%N]; [:: - d 2%N; 0; d 0%N]; [:: d 1%N; - d 0%N; 0]] i) j.
Definition axis_rotation (direction : vec) (c s : F) : tens :=
  let d : vec := fun i => direction i / norm3 direction in
  fun i j => d i * d j + c * ((i == j)%:R - d i * d j) + s * skew d i j.
(** mechanics/tensors.py l.201-234, prepare_cylindrical_transform(), one point: the
    cosine and the sine of arctan2(y, x) are x / r and y / r (1 and 0 if r = 0);
    of the opposite angle x / r and -y / r. [data] is mode == 'data'. *)
Definition cylindrical (data : bool) (coor origin : vec) : tens :=
  let x := coor 0%N - origin 0%N in
  let y := coor 1%N - origin 1%N in
  let r := Num.sqrt (x ^+ 2 + y ^+ 2) in
  let c := if r == 0 then 1 else x / r in
  let s := if r == 0 then 0 else y / r in
  axis_rotation (fun i => (i == 2%N)%:R) c (if data then - s else s).
End Tensors.
