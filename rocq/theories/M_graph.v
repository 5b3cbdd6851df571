(** Model: sorting of region definitions by dependencies
    (sfepy/discrete/common/region.py l.17-72).  Region names are numbers (names
    are only compared). *)
From Verif Require Import Base.
Open Scope nat_scope.

(** The dict [name -> [flag] + deps] in the insertion order. *)
Definition graph := list (nat * (bool * list nat)).

Fixpoint glook (g : graph) (x : nat) : option (bool * list nat) :=
  match g with [] => None | (y, v) :: t => if x =? y then Some v else glook t x end.
Fixpoint gset (g : graph) (x : nat) (v : bool * list nat) : graph :=
  match g with
  | [] => []
  | (y, w) :: t => if x =? y then (y, v) :: t else (y, w) :: gset t x v
  end.

(** region.py l.17-41, get_dependency_graph: [defs] are (name, the names found
    in the selector, parent); regular expression search is not modelled. *)
Fixpoint get_dependency_graph (defs : list (nat * list nat * option nat)) (g : graph) : res graph :=
  match defs with
  | [] => Ok g
  | (name, parents, parent) :: t =>
      match glook g name with
      | Some _ => Err ValueError
      | None => get_dependency_graph t
                  (g ++ [(name, (false, parents ++ match parent with Some p => [p] | None => [] end))])
      end
  end.

(** [deps.pop(deps.index(dep))] *)
Fixpoint remove_first (x : nat) (l : list nat) : list nat :=
  match l with [] => [] | y :: t => if x =? y then t else y :: remove_first x t end.

(** region.py l.57-66: the loop over a copy of the dependencies; [n] counts the
    removed ones. *)
Fixpoint deps_loop (g : graph) (node : nat) (ds : list nat) (n : nat) : res (graph * nat) :=
  match ds with
  | [] => Ok (g, n)
  | d :: t =>
      match glook g d with
      | None => Err ValueError
      | Some (true, _) =>
          match glook g node with
          | Some (f, deps) => deps_loop (gset g node (f, remove_first d deps)) node t (S n)
          | None => Err KeyError
          end
      | Some (false, _) => deps_loop g node t n
      end
  end.

(** region.py l.48-66: one pass over the nodes: (graph, out, dep_removed). *)
Fixpoint sort_pass (nodes : list nat) (g : graph) (out : list nat) (n : nat) : res (graph * list nat * nat) :=
  match nodes with
  | [] => Ok (g, out, n)
  | x :: t =>
      match glook g x with
      | Some (false, []) => sort_pass t (gset g x (true, [])) (out ++ [x]) n
      | Some (false, ds) =>
          match deps_loop g x ds n with
          | Ok (g', n') => sort_pass t g' out n'
          | Err e => Err e
          end
      | _ => sort_pass t g out n
      end
  end.

(** region.py l.42-72, sort_by_dependency; [idone = len(out)]; [idone0 = None]
    is -1. *)
Fixpoint sort_loop (fuel : nat) (g : graph) (out : list nat) (idone0 : option nat) : res (list nat) :=
  match fuel with
  | 0 => Err OutOfFuel
  | S fuel' =>
      if length out <? length g then
        match sort_pass (map fst g) g out 0 with
        | Err e => Err e
        | Ok (g', out', n) =>
            if (match idone0 with None => false | Some i0 => length out' <=? i0 end) && (n =? 0)
            then Err ValueError
            else sort_loop fuel' g' out' (Some (length out'))
        end
      else Ok out
  end.

Definition graph_of (g : list (nat * list nat)) : graph := map (fun p => (fst p, (false, snd p))) g.
Definition sort_fuel (g : graph) : nat := length g + length (concat (map (fun p => snd (snd p)) g)) + 3.
Definition sort_by_dependency (g : graph) : res (list nat) := sort_loop (sort_fuel g) g [] None.
