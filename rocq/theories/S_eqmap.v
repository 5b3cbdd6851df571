(** Specification of the equation mapping: what the user's boundary conditions
    say about individual DOFs.  Only the input type [bcond] and NumPy's
    [unique] (the sorted distinct node numbers) are taken from elsewhere. *)
From Coq Require Import String Relations.
From Verif Require Import Base M_dofs S_dofs.
Open Scope nat_scope.
Set Implicit Arguments.

(** [d] is the DOF name number [p] in [names] (first occurrence). *)
Definition at_pos (names : list string) (d : string) (p : nat) : Prop :=
  p < length names /\ nth p names EmptyString = d /\ forall q, q < p -> nth q names EmptyString <> d.

Section Spec.
Variable V : Type.
Variable names : list string.     (* all DOF names of the variable *)

(** The active essential condition [bc] constrains DOF [x]: the DOF [d] in a
    node [n] of its region. *)
Definition fixes (bc : bcond V) (x : nat) : Prop :=
  match bc with
  | Ebc true rnods dofs _ =>
      exists n d p, In n rnods /\ In d dofs /\ at_pos names d p /\ x = length names * n + p
  | _ => False
  end.

(** [bc] prescribes the value [v] in DOF [x] (values are given node by node in
    the order of increasing node numbers; a single value is for all). *)
Definition gives (bc : bcond V) (x : nat) (v : V) : Prop :=
  match bc with
  | Ebc true rnods dofs (Some vs) =>
      exists k i p, k < length (unique rnods) /\ i < length dofs /\
        at_pos names (nth i dofs EmptyString) p /\ x = length names * nth k (unique rnods) 0 + p /\
        nth_error vs (if length vs =? 1 then 0 else k * length dofs + i) = Some v
  | _ => False
  end.

(** The value prescribed by the last condition giving one; [dflt] if none. *)
Definition last_value (dflt : V) (bcs : list (bcond V)) (x : nat) (v : V) : Prop :=
  (exists b1 bc b2, bcs = b1 ++ bc :: b2 /\ gives bc x v /\
                    (forall b w, In b b2 -> ~ gives b x w)) \/
  (v = dflt /\ forall b w, In b bcs -> ~ gives b x w).

(** The active periodic condition [bc] matches the master DOF [m] with the
    slave DOF [s]. *)
Definition ties (bc : bcond V) (m s : nat) : Prop :=
  match bc with
  | Epbc true mnods snods i1 i2 dofs0 dofs1 =>
      exists k i p q, k < length i1 /\ k < length i2 /\ i < length dofs0 /\ i < length dofs1 /\
        at_pos names (nth i dofs0 EmptyString) p /\ at_pos names (nth i dofs1 EmptyString) q /\
        nth k i1 0 < length (unique mnods) /\
        m = length names * nth (nth k i1 0) (unique mnods) 0 + p /\
        s = length names * nth (nth k i2 0) (unique snods) 0 + q
  | _ => False
  end.

Definition occurs (bcs : list (bcond V)) (x : nat) : Prop :=
  exists bc y, In bc bcs /\ (ties bc x y \/ ties bc y x).

(** Transitively matched DOFs. *)
Definition tied (bcs : list (bcond V)) : nat -> nat -> Prop :=
  clos_refl_sym_trans nat (fun m s => exists bc, In bc bcs /\ ties bc m s).

(** Well-formed conditions: no DOF name is listed twice; the matching is
    one-to-one and no DOF is both a master and a slave of one condition. *)
Definition wf_bc (bc : bcond V) : Prop :=
  match bc with
  | Ebc _ _ dofs _ => NoDup dofs
  | Epbc _ _ _ i1 i2 d0 d1 =>
      NoDup i1 /\ NoDup i2 /\ NoDup d0 /\ NoDup d1 /\ length i1 = length i2 /\ length d0 = length d1 /\
      forall m s m', ties bc m s -> ~ ties bc m' m
  end.
Definition wf_bcs (bcs : list (bcond V)) : Prop := forall bc, In bc bcs -> wf_bc bc.

(** Each condition matches DOFs that both did or both did not occur in the
    previous periodic conditions (true for opposite faces of a box, where the
    images of corners and edges are corners and edges). *)
Definition balanced (bcs : list (bcond V)) : Prop :=
  forall b1 bc b2, bcs = b1 ++ bc :: b2 -> forall m s, ties bc m s -> (occurs b1 m <-> occurs b1 s).

Definition is_ebc (bc : bcond V) : bool := match bc with Ebc _ _ _ _ => true | _ => false end.
Definition n_epbc (bcs : list (bcond V)) : nat := length (filter (fun b => negb (is_ebc b)) bcs).

(** The essential conditions do not contradict each other on matched DOFs. *)
Definition compatible (dflt : V) (bcs : list (bcond V)) : Prop :=
  forall x y v w, tied bcs x y -> (exists b, In b bcs /\ fixes b x) -> (exists b, In b bcs /\ fixes b y) ->
    last_value dflt bcs x v -> last_value dflt bcs y w -> v = w.

End Spec.
