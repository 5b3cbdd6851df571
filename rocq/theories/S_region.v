(** Specification: what a region should contain. *)
From Verif Require Import Base M_region.
Open Scope nat_scope.

(** A mesh of dimension [tdim]: all lists of entities of dimension [d1] have the
    same length, and refer to existing entities. *)
Definition mesh_wf (M : mesh_rows) (tdim : nat) : Prop :=
  forall d1 d2, d1 <= tdim -> d2 <= tdim ->
    length (M d1 d2) = n_ent M d1 /\ forall row, In row (M d1 d2) -> forall x, In x row -> x < n_ent M d2.

(** [k] is a kind that a region of dimension [tdim] can have. *)
Definition good_kind (tdim : nat) (k : rkind) : Prop :=
  match k_base k with KCell => True | KFace => tdim = 3 | KEdge => 2 <= tdim | KVertex => True end.

(** Reading the entities of the given dimensions one after another. *)
Fixpoint read_all (M : mesh_rows) (r : region) (ds : list nat) : res (list (list nat)) :=
  match ds with
  | [] => Ok []
  | d :: t => do (r', e) <- get_entities M r d; do es <- read_all M r' t; Ok (e :: es)
  end.

(** [e] are the entities of dimension [d] a region of kind [kd] with the
    entities [K] of the kind dimension should have. *)
Definition entities_of_kind (M : mesh_rows) (tdim : nat) (kd : rkind) (K : list nat) (d : nat) (e : list nat) : Prop :=
  let k := kind_tdim tdim kd in
  if d =? k then e = K
  else if (d <? k) && negb (k_only kd) then
    sinc e /\ forall x, In x e <-> exists c, In c K /\ In x (nth c (M k d) [])
  else e = [].
