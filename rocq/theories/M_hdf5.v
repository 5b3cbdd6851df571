(** Model of storing dictionaries in HDF5 files: sfepy/base/ioutils.py l.301-346.

    The tree of nodes of a file is modelled by its contents.  Modelled from PyTables
    (not part of the repository): a node name must not contain '/' and must not
    begin with '_c_', '_f_', '_g_', '_v_' (ValueError); a second node of the same
    name in a group is an error (NodeError); nodes with names beginning with '_i_'
    or '_p_' are hidden, i.e. not in [_v_groups] and [_v_leaves]; an array reads
    back as written. *)
From Verif Require Import Base M_io.
Set Implicit Arguments.

Definition under : nat := 95.   (* '_' *)
(** [name.replace('_', '', 1)] *)
Fixpoint drop_under (s : str) : str :=
  match s with [] => [] | c :: t => if c =? under then t else c :: drop_under t end.
Definition prefix3 (p : nat -> bool) (s : str) : bool :=
  match s with a :: b :: c :: _ => (a =? under) && p b && (c =? under) | _ => false end.
Definition reserved : str -> bool := prefix3 (fun c => memb c [99; 102; 103; 118]).   (* c f g v *)
Definition hidden : str -> bool := prefix3 (fun c => memb c [105; 112]).              (* i p *)
Definition valid_name (s : str) : bool := negb (memb 47 s) && negb (reserved s).
Definition streqb (a b : str) : bool := if list_eq_dec Nat.eq_dec a b then true else false.

Section Dict.
(** Strings, bytes and other values (numbers, arrays...). *)
Context {W B : Type}.
Variable enc : str -> B.
Variable dec : B -> str.
Inductive leaf := LStr (s : str) | LBytes (b : B) | LOther (w : W).
(** A dictionary value; the keys are [str(key)]. *)
Inductive dval := Leaf (x : leaf) | Dict (l : list (str * dval)).
(** Stored arrays and groups. *)
Inductive arr := ABytes (b : B) | AOther (w : W).
Inductive hnode := HArr (a : arr) | HGroup (l : list (str * hnode)).

(** Creating a node in a group (PyTables). *)
Definition create (g : list (str * hnode)) (name : str) (x : hnode) : res (list (str * hnode)) :=
  if negb (valid_name name) then Err ValueError
  else if existsb (fun y => streqb (fst y) name) g then Err RuntimeError
  else Ok (g ++ [(name, x)]).
Definition store (x : leaf) : arr :=
  match x with LStr s => ABytes (enc s) | LBytes b => ABytes b | LOther w => AOther w end.
(** l.301-320; the group is checked before its contents are written, the contents
    of a new group cannot collide with anything else. *)
Fixpoint write_val (v : dval) : res hnode :=
  match v with
  | Leaf x => Ok (HArr (store x))
  | Dict l =>
      do g <- (fix items (l : list (str * dval)) (g : list (str * hnode)) : res (list (str * hnode)) :=
                 match l with
                 | [] => Ok g
                 | (key, v) :: t => do x <- write_val v; do g <- create g (under :: key) x; items t g
                 end) l [];
      Ok (HGroup g)
  end.
(** l.322-346 *)
Definition load (a : arr) : leaf := match a with ABytes b => LStr (dec b) | AOther w => LOther w end.
Fixpoint read_node (x : hnode) : dval :=
  match x with
  | HArr a => Leaf (load a)
  | HGroup g =>
      let items := map (fun y => (fst y, match snd y with HGroup _ => true | _ => false end, read_node (snd y))) g in
      let visible := filter (fun y => negb (hidden (fst (fst y)))) items in
      let groups := filter (fun y => snd (fst y)) visible in
      let leaves := filter (fun y => negb (snd (fst y))) visible in
      Dict (map (fun y => (drop_under (fst (fst y)), snd y)) (groups ++ leaves))
  end.
End Dict.
Arguments leaf : clear implicits.
Arguments dval : clear implicits.
