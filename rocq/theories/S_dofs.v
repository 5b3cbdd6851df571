(** Specifications (independent of the model's helpers) for DOF layout and
    equation mapping. *)
From Coq Require Import String Relations.
From Verif Require Import Base.
Open Scope nat_scope.
Set Implicit Arguments.

(** ** C01: an append call is [(name, n_dof, shared)].  *)
Notation op := (string * nat * option string)%type.
Definition op_name (o : op) : string := fst (fst o).
Definition op_size (o : op) : nat := snd (fst o).
Definition owns (o : op) : bool := match snd o with None => true | Some _ => false end.

(** The calls that reserve their own DOFs. *)
Definition owners (ops : list op) : list op := filter owns ops.

Fixpoint sum (l : list nat) : nat := match l with [] => 0 | x :: t => x + sum t end.

(** Consecutive slices of the given sizes. *)
Fixpoint slices_from (start : nat) (sizes : list nat) : list (nat * nat) :=
  match sizes with
  | [] => []
  | n :: t => (start, start + n) :: slices_from (start + n) t
  end.

(** ** C09: connectivity by a list of pairs. *)
Definition linked (pairs : list (nat * nat)) : nat -> nat -> Prop :=
  clos_refl_sym_trans nat (fun a b => In (a, b) pairs).
Definition touched (pairs : list (nat * nat)) (x : nat) : Prop :=
  exists y, In (x, y) pairs \/ In (y, x) pairs.
