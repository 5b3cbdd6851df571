(** Model of the combination of problem descriptions (conf.py l.599-641, [update_conf],
    [add_missing]) and of the named integrals (sfepy/discrete/integrals.py l.12-75,
    [Integrals.get]).

    [getattr(self, x, None)] is the attribute of the object itself (the methods of the
    class, which are never dicts nor None, are left out).  The integrals are
    represented by their names and orders; which object is returned is its position in
    the container. *)
From Coq Require Import String Ascii ZArith DecimalString.
From Verif Require Import Base M_conf.
Set Implicit Arguments.
Open Scope nat_scope.

(** conf.py l.612-621 *)
Definition update_one (me : dict) (p : string * pv) : dict :=
  match lookup me (fst p), snd p with
  | Some (VDict a), VDict b => store me (fst p) (VDict (update_items a b))
  | _, _ => store me (fst p) (snd p)
  end.
Definition update_conf (me his : dict) : dict := fold_left update_one his me.

(** l.633-641: only the missing keys are added. *)
Definition add_items (a b : dict) : dict :=
  fold_left (fun acc p => match lookup acc (fst p) with Some _ => acc | None => store acc (fst p) (snd p) end) b a.
Definition add_one (me : dict) (p : string * pv) : dict :=
  match lookup me (fst p), snd p with
  | Some (VDict a), VDict b => store me (fst p) (VDict (add_items a b))
  | None, _ | Some VNone, _ => store me (fst p) (snd p)
  | _, _ => me
  end.
Definition add_missing (me his : dict) : dict := fold_left add_one his me.

(** ** integrals.py *)
Record integral := Integral { i_name : string; i_order : Z }.
(** The argument of [get]: an integer or a string. *)
Inductive iref := RInt (z : Z) | RStr (s : string).

(** ['%d' % z] *)
Definition decZ (z : Z) : string :=
  match z with
  | Zneg p => ("-" ++ dec (Pos.to_nat p))%string
  | _ => dec (Z.to_nat z)
  end.
(** [int(s)]: optional spaces around an optional sign and decimal digits (underscores
    between digits, which Python allows, are left out). *)
Definition parse_nat (s : string) : option nat :=
  match s with
  | EmptyString => None
  | _ => option_map Nat.of_uint (NilEmpty.uint_of_string s)
  end.
Definition parse_int (s : string) : option Z :=
  match strip s with
  | String "-" s => option_map (fun n => (- Z.of_nat n)%Z) (parse_nat s)
  | String "+" s => option_map Z.of_nat (parse_nat s)
  | s => option_map Z.of_nat (parse_nat s)
  end.

Fixpoint index_of (objs : list integral) (name : string) : option nat :=
  match objs with
  | [] => None
  | o :: objs => if String.eqb (i_name o) name then Some 0 else option_map S (index_of objs name)
  end.
(** l.65-73 *)
Definition get_order (objs : list integral) (z : Z) : list integral * nat :=
  let name := ("__o" ++ decZ z)%string in
  match index_of objs name with
  | Some i => (objs, i)
  | None => (objs ++ [Integral name z], List.length objs)
  end.
(** l.36-75: the container after the call and the position of the returned integral.
    A NotImplementedError is a RuntimeError. *)
Definition integrals_get (objs : list integral) (r : iref) : res (list integral * nat) :=
  match r with
  | RInt z => Ok (get_order objs z)
  | RStr s =>
      if String.eqb s "a" then Err RuntimeError
      else match s with
           | EmptyString => Err IndexError
           | String c _ =>
               if Ascii.eqb c "i"
               then match index_of objs s with Some i => Ok (objs, i) | None => Err ValueError end
               else match parse_int s with Some z => Ok (get_order objs z) | None => Err ValueError end
           end
  end.
