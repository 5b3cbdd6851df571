(** Model of the solver options and of the automatic choice of solvers:
    sfepy/base/base.py Struct (get, __add__, copy), sfepy/solvers/solvers.py
    (make_get_conf, use_first_available, Solver.process_conf, build_solver_kwargs),
    sfepy/solvers/auto_fallback.py and problem.py l.1155-1168.

    The attributes of a Struct are an association list without repeated keys; values
    that are not Structs are opaque, except for None and strings.  The attributes of
    the class Struct itself are left out.  The construction of a solver from its
    options is an arbitrary function that may fail. *)
From Coq Require Import String.
From Verif Require Import Base.
Set Implicit Arguments.
Open Scope nat_scope.

Section Conf.
Variable V : Type.
(** Values of attributes. *)
Inductive sval := PyNone | Str (s : string) | Val (v : V) | Sub (items : list (string * sval)).
Notation struct := (list (string * sval)).

Definition get_item (d : struct) (k : string) : option sval :=
  option_map snd (find (fun p => String.eqb (fst p) k) d).
Fixpoint set_item (d : struct) (k : string) (v : sval) : struct :=
  match d with
  | [] => [(k, v)]
  | (k', v') :: d => if String.eqb k' k then (k, v) :: d else (k', v') :: set_item d k v
  end.
Definition del_item (d : struct) (k : string) : struct :=
  filter (fun p => negb (String.eqb (fst p) k)) d.

(** base.py l.428-437, [Struct.get] *)
Definition struct_get (d : struct) (k : string) (default : sval) (required : bool) : res sval :=
  let out := match get_item d k with Some v => v | None => default end in
  match out with
  | PyNone => if required then Err ValueError else Ok out
  | _ => Ok out
  end.

(** base.py l.384-399, [Struct.__add__]: [vadd s v] is the new value of an attribute
    given in both; the attributes of the first win. *)
Fixpoint vadd (s v : sval) {struct v} : sval :=
  match s, v with
  | Sub x, Sub y =>
      Sub ((fix go (acc y : struct) : struct :=
              match y with
              | [] => acc
              | (k, w) :: y =>
                  go (set_item acc k (match get_item x k with Some s' => vadd s' w | None => w end)) y
              end) x y)
  | _, _ => s
  end.
Definition struct_add (a b : struct) : struct :=
  match vadd (Sub a) (Sub b) with Sub c => c | _ => a end.

(** solvers.py l.8-13, [make_get_conf]: the value in [conf] is looked up (and checked)
    even if the option is in [kwargs]. *)
Definition get_conf_item (conf kwargs : struct) (k : string) (default : sval) (required : bool) : res sval :=
  do v <- struct_get conf k default required;
  Ok (match get_item kwargs k with Some w => w | None => v end).

(** An item of [_parameters]: name, default value, is required. *)
Record param := Param { pa_name : string; pa_default : sval; pa_required : bool }.
Definition star : string := "*".
(** solvers.py l.161-175: [Solver._parameters] ([false_]: False). *)
Variable false_ : sval.
Definition solver_parameters : list param :=
  [Param "name" PyNone true; Param "kind" PyNone true; Param "report_status" false_ false; Param "verbose" false_ false].
(** l.184-188 *)
Definition own_options (ps : list param) : bool :=
  match ps with [] => false | p :: _ => negb (String.eqb (pa_name p) "name") end.
Definition all_options (ps : list param) : list param :=
  if own_options ps then solver_parameters ++ ps else solver_parameters.

(** l.190-199 *)
Fixpoint process_options (ps : list param) (conf kwargs : struct) (opts : struct) (extra : bool) : res (struct * bool) :=
  match ps with
  | [] => Ok (opts, extra)
  | p :: ps =>
      if String.eqb (pa_name p) star then process_options ps conf kwargs opts true
      else do v <- get_conf_item conf kwargs (pa_name p) (pa_default p) (pa_required p);
           process_options ps conf kwargs (set_item opts (pa_name p) v) extra
  end.
(** l.201-205 *)
Fixpoint add_extra (keys : list string) (conf kwargs opts : struct) : res struct :=
  match keys with
  | [] => Ok opts
  | k :: keys => do v <- get_conf_item conf kwargs k PyNone false; add_extra keys conf kwargs (set_item opts k v)
  end.
Definition has_item (d : struct) (k : string) : bool := match get_item d k with Some _ => true | None => false end.
(** l.178-207 *)
Definition process_conf (ps : list param) (conf kwargs : struct) : res struct :=
  do oe <- process_options (all_options ps) conf kwargs [] false;
  if snd oe then
    add_extra (filter (fun k => negb (has_item (fst oe) k)) (map fst conf)) conf kwargs (fst oe)
  else Ok (fst oe).

(** l.233-252, [build_solver_kwargs] *)
Definition build_solver_kwargs (ps : list param) (conf : struct) : struct :=
  let options := if own_options ps then solver_parameters ++ ps else ps in
  let std := filter (fun n => negb (String.eqb n star)) (map pa_name options) in
  filter (fun p => negb (existsb (String.eqb (fst p)) std)) conf.

(** l.63-106, [use_first_available].  [make name conf]: a new solver or an exception.
    base.py l.459-477: the copy of the options has the name with '_copy'. *)
Variable S : Type.
Variable make : string -> struct -> option S.
Definition copied (conf : struct) : struct :=
  match get_item conf "name" with
  | Some (Str n) => set_item conf "name" (Str (n ++ "_copy"))
  | _ => conf
  end.
Fixpoint use_first_available (l : list (string * struct)) : res S :=
  match l with
  | [] => Err ValueError
  | (name, conf) :: l =>
      match make name (del_item (copied conf) "fallback") with
      | Some s => Ok s
      | None => use_first_available l
      end
  end.

(** auto_fallback.py l.11-32; [fixed]: [cls._ls_solvers].  Also returns what is left in
    the dictionary given by the caller. *)
Definition auto_list (fixed : list (string * struct)) (conf : struct) : list (string * struct) :=
  let dconf := del_item conf "kind" in
  map (fun lc => (fst lc, struct_add (struct_add (snd lc) [("kind"%string, Str (fst lc))]) dconf)) fixed.
Definition auto_new (fixed : list (string * struct)) (is_struct : bool) (conf : struct) : res S * struct :=
  (use_first_available (auto_list fixed conf), if is_struct then conf else del_item conf "kind").

(** problem.py l.1155-1168: the list of linear solvers given by the options 'fallback'. *)
Fixpoint fallback_list (n : nat) (confs : string -> option struct) (conf : struct) : res (list (string * struct)) :=
  match n with
  | 0 => Ok []
  | Datatypes.S n =>
      match get_item conf "kind" with
      | Some (Str kind) =>
          match get_item conf "fallback" with
          | None => Ok [(kind, conf)]
          | Some (Str fb) =>
              match n with
              | 0 => match confs fb with Some _ => Ok [(kind, conf)] | None => Err KeyError end
              | _ => match confs fb with
                     | None => Err KeyError
                     | Some conf' => do l <- fallback_list n confs conf'; Ok ((kind, conf) :: l)
                     end
              end
          | Some _ => Err KeyError
          end
      | _ => Err NameError (* an AttributeError *)
      end
  end.
(** With one solver only its own exception is raised (here always [ValueError]). *)
Definition choose_solver (confs : string -> option struct) (conf : struct) : res S :=
  do l <- fallback_list 100 confs conf;
  match l with
  | [(kind, c)] => match make kind c with Some s => Ok s | None => Err ValueError end
  | _ => use_first_available l
  end.
End Conf.
