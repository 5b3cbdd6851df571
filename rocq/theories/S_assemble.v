(** Specification of assembling: dense meaning of CSR data and the scatter-add. *)
From Verif Require Import Base BaseSum.
Open Scope nat_scope.
Section Spec.
Variable V : Type.
Variables (v0 : V) (add mul : V -> V -> V).

(** All contributions of an assemble_vector call: (DOF, value). *)
Definition vec_contribs (conn : list (list Z)) (iels : list nat) (els : list (list V)) : list (Z * V) :=
  concat (map (fun p => combine (nth (fst p) conn []) (snd p)) (combine iels els)).

(** All contributions of an assemble_matrix call: ((row, column), value). *)
Definition mtx_contribs (rconn cconn : list (list Z)) (iels : list nat) (els : list (list (list V))) : list (Z * Z * V) :=
  concat (map (fun p =>
    concat (map (fun q => map (fun c => (fst q, fst c, snd c)) (combine (nth (fst p) cconn []) (snd q)))
                (combine (nth (fst p) rconn []) (snd p))))
    (combine iels els)).

(** Entry (i, j) of a CSR matrix. *)
Definition csr_entry (prows cols : list nat) (data : list V) (i j : nat) : V :=
  lsum v0 add (map (fun ik => ind v0 (Nat.eqb (nth ik cols 0) j) (nth ik data v0))
                   (seq (nth i prows 0) (nth (S i) prows 0 - nth i prows 0))).

(** (i, j) is in the sparsity pattern. *)
Definition in_pattern (prows cols : list nat) (i j : nat) : Prop :=
  exists ik, nth i prows 0 <= ik < nth (S i) prows 0 /\ nth ik cols 0 = j.

(** Valid CSR structure of [nr] rows. *)
Definition wf_csr (nr : nat) (prows cols : list nat) : Prop :=
  length prows = S nr /\ (forall i j, i <= j <= nr -> nth i prows 0 <= nth j prows 0) /\
  nth nr prows 0 = length cols.

(** Columns in each row are strictly increasing. *)
Definition sorted_csr (nr : nat) (prows cols : list nat) : Prop :=
  forall i a b, i < nr -> nth i prows 0 <= a -> a < b -> b < nth (S i) prows 0 -> nth a cols 0 < nth b cols 0.
End Spec.
Arguments vec_contribs {V}. Arguments mtx_contribs {V}. Arguments csr_entry {V}.
