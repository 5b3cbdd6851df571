(** Model of sfepy/base/resolve_deps.py: ordering of the blocks of a system of
    equations by their dependencies.  Names are natural numbers (the code uses
    strings; only equality and the total order used by [sorted] matter).  A
    dictionary is an association list in insertion order with distinct keys. *)
From Verif Require Import Base.
Set Implicit Arguments.

Definition deps_t := list (nat * list nat).
Definition keys (d : deps_t) : list nat := map fst d.

(** [deps[name]]; the code only looks up existing keys. *)
Fixpoint lookup (d : deps_t) (k : nat) : list nat :=
  match d with
  | [] => []
  | (k', v) :: t => if k' =? k then v else lookup t k
  end.

(** resolve_deps.py l.7-15 [get_nums], only the values are used. *)
Definition get_nums (d : deps_t) : list nat := map (fun kv => length (snd kv)) d.

(** [dep_names == set(names)]. *)
Definition set_eqb (a b : list nat) : bool :=
  forallb (fun x => memb x b) a && forallb (fun x => memb x a) b.

(** resolve_deps.py l.17-28. *)
Definition solvable (d : deps_t) (names : list nat) : bool :=
  match names with
  | [] => false
  | _ => set_eqb (flat_map (lookup d) names) names
  end.

(** resolve_deps.py l.34-40: [remove_known] of one name. *)
Definition remove_known1 (d : deps_t) (known : nat) : deps_t :=
  map (fun kv => (fst kv, filter (fun i => negb (i =? known)) (snd kv)))
      (filter (fun kv => negb (fst kv =? known)) d).

(** resolve_deps.py l.42-47: [remove_known] of several names. *)
Definition remove_known (d : deps_t) (known : list nat) : deps_t :=
  fold_left remove_known1 known d.

(** [itertools.combinations(keys, num)]: lexicographic order of positions. *)
Fixpoint combinations (l : list nat) (n : nat) : list (list nat) :=
  match n, l with
  | 0, _ => [[]]
  | S _, [] => []
  | S n', x :: t => map (cons x) (combinations t n') ++ combinations t n
  end.

(** [sorted]. *)
Fixpoint insert (x : nat) (l : list nat) : list nat :=
  match l with
  | [] => [x]
  | y :: t => if x <=? y then x :: l else y :: insert x t
  end.
Definition sorted (l : list nat) : list nat := fold_right insert [] l.

(** resolve_deps.py l.49-56. *)
Definition try_block (d : deps_t) (num : nat) : list (list nat) :=
  map sorted (filter (solvable d) (combinations (keys d) num)).

(** [min(values)] of a nonempty list. *)
Definition min_list (l : list nat) : nat :=
  match l with
  | [] => 0
  | x :: t => fold_left Nat.min t x
  end.

(** resolve_deps.py l.82-90: the loop over the block sizes [ibs]; [rec] stands
    for the recursive call. *)
Fixpoint resolve_loop (rec : deps_t -> list (list nat)) (d : deps_t)
         (ibs : list nat) (order : list (list nat)) : list (list nat) :=
  match ibs with
  | [] => order
  | ib :: ibs' =>
      let order' :=
        match try_block d ib with
        | [] => order
        | b :: _ => order ++ [b] ++ rec (remove_known d b)
        end in
      if length (concat order') =? length d then order'
      else resolve_loop rec d ibs' order'
  end.

(** resolve_deps.py l.58-92.  [fuel] bounds the depth of the recursion: each
    recursive call has fewer keys ([resolve_fuel_enough] in L_resolve.v). *)
Fixpoint resolve_fuel (fuel : nat) (d : deps_t) : list (list nat) :=
  match fuel, d with
  | 0, _ => []
  | _, [] => []
  | S fuel', _ =>
      let ib0 := min_list (get_nums d) in
      resolve_loop (resolve_fuel fuel') d
                   (seq ib0 (length d + 1 - ib0)) []
  end.
Definition resolve (d : deps_t) : list (list nat) := resolve_fuel (length d) d.
