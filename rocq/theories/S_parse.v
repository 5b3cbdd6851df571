(** Specification: region expressions.  Operators have equal priority and
    associate to the right; parentheses override it. *)
From Verif Require Import Base M_region.
Open Scope nat_scope.
Arguments TLeaf {leaf oper}. Arguments TOp {leaf oper}. Arguments TL {leaf oper}. Arguments TR {leaf oper}.
Arguments ILeaf {leaf oper}. Arguments IOp {leaf oper}.
Arguments parse_expr {leaf oper}. Arguments parse_atom {leaf oper}. Arguments parse_aux {leaf oper}.

Inductive tree (leaf oper : Type) := Leaf (a : leaf) | Node (o : oper) (l r : tree leaf oper).
Arguments Leaf {leaf oper}. Arguments Node {leaf oper}.

(** The tokens [ts] are read as the tree [t]. *)
Inductive reads {leaf oper} : list (tok leaf oper) -> tree leaf oper -> Prop :=
| reads_atom : forall ts t, reads_atomic ts t -> reads ts t
| reads_op : forall ts1 t1 o ts2 t2, reads_atomic ts1 t1 -> reads ts2 t2 -> reads (ts1 ++ TOp o :: ts2) (Node o t1 t2)
with reads_atomic {leaf oper} : list (tok leaf oper) -> tree leaf oper -> Prop :=
| reads_leaf : forall a, reads_atomic [TLeaf a] (Leaf a)
| reads_par : forall ts t, reads ts t -> reads_atomic (TL :: ts ++ [TR]) t.
Scheme reads_ind2 := Induction for reads Sort Prop
with reads_atomic_ind2 := Induction for reads_atomic Sort Prop.
Combined Scheme reads_mut from reads_ind2, reads_atomic_ind2.

Fixpoint tree_eval {leaf oper V} (fo : oper -> V -> V -> V) (fl : leaf -> V) (t : tree leaf oper) : V :=
  match t with Leaf a => fl a | Node o l r => fo o (tree_eval fo fl l) (tree_eval fo fl r) end.
