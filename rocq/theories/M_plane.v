(** Model: sfepy/mechanics/matcoefs.py l.376-455, TransformToPlane: reduction of 3D
    (piezo)elasticity coefficients to plane stress, over a field (exact). *)
From mathcomp Require Import all_ssreflect all_algebra.
Set Implicit Arguments. Unset Strict Implicit. Unset Printing Implicit Defensive.
Import GRing.Theory.
Local Open Scope ring_scope.

(** l.383-403, __init__(): the (sorted) plane of the master indices [i_m], the
    slave indices [i_s], and those of the symmetric storage. Other planes raise
    KeyError. *)
Inductive plane := P01 | P02 | P12.
Definition i_m (p : plane) : seq nat := match p with P01 => [:: 0; 1] | P02 => [:: 0; 2] | P12 => [:: 1; 2] end%N.
Definition i_s (p : plane) : seq nat := [seq i <- iota 0 3 | i \notin i_m p].
Definition i_ms (p : plane) : seq nat := match p with P01 => [:: 0; 1; 3] | P02 => [:: 0; 2; 4] | P12 => [:: 1; 2; 5] end%N.
Definition i_ss (p : plane) : seq nat := [seq i <- iota 0 6 | i \notin i_ms p].

Section Plane.
Variables (F : fieldType) (p : plane).
(** a[tuple(nm.meshgrid(ii, jj))]: the item (k, l) is a[ii[l], jj[k]] *)
Definition gather n m (a : 'M[F]_(n.+1, m.+1)) (ii jj : seq nat) nk nl : 'M[F]_(nk, nl) :=
  \matrix_(k, l) a (inord (nth 0%N ii l)) (inord (nth 0%N jj k)).

Section Elastic.
Variable c3 : 'M[F]_6.
(** l.422-432 *)
Definition cs : 'M[F]_3 := gather c3 (i_ss p) (i_ss p) 3 3.
Definition cm : 'M[F]_3 := (gather c3 (i_ss p) (i_ms p) 3 3)^T.
Definition plane_stress : 'M[F]_3 :=
  gather c3 (i_ms p) (i_ms p) 3 3 - cm^T *m (invmx cs *m cm).
End Elastic.

Section Piezo.
Variables (c3 : 'M[F]_6) (d3 : 'M[F]_3) (b3 : 'M[F]_(3, 6)).
(** l.435-455 *)
Definition dm : 'M[F]_(1, 2) := (gather d3 (i_s p) (i_m p) 2 1)^T.
Definition ds : 'M[F]_1 := gather d3 (i_s p) (i_s p) 1 1.
Definition bss : 'M[F]_(3, 1) := gather b3 (i_s p) (i_ss p) 3 1.
Definition mA : 'M[F]_(3 + 1) := block_mx (cs c3) bss bss^T (- ds).
Definition mF : 'M[F]_(3 + 1, 3 + 2) :=
  block_mx (cm c3) (gather b3 (i_m p) (i_ss p) 3 2) (gather b3 (i_s p) (i_ms p) 3 1)^T (- dm).
Definition Feps : 'M[F]_(3 + 1, 3) := lsubmx mF.
Definition FE : 'M[F]_(3 + 1, 2) := rsubmx mF.
Definition piezo_c2 : 'M[F]_3 := gather c3 (i_ms p) (i_ms p) 3 3 - Feps^T *m (invmx mA *m Feps).
Definition piezo_d2 : 'M[F]_2 := gather d3 (i_m p) (i_m p) 2 2 - FE^T *m (invmx mA *m FE).
Definition piezo_b2 : 'M[F]_(2, 3) := (gather b3 (i_m p) (i_ms p) 3 2)^T - FE^T *m (invmx mA *m Feps).
End Piezo.
End Plane.
