(** Model of the processing of problem descriptions: sfepy/base/base.py
    update_dict_recursively, sfepy/base/conf.py (tuple_to_conf, the transform_*
    functions, ProblemConf.validate, transform_input_trivial, get_item_by_name) and
    sfepy/discrete/conditions.py (iter_single, group_by_variables, _canonize).

    A dict is an association list in insertion order, without repeated keys; in-place
    changes of a dict are the returned new dict (so sharing of dicts between two
    places is not modelled).  Strings are sequences of 8-bit characters.  Values that
    are neither None, strings, integers, tuples, dicts nor Structs are opaque. *)
From Coq Require Import String Ascii ZArith DecimalString.
From Verif Require Import Base.
Set Implicit Arguments.
Open Scope nat_scope.

Inductive pv :=
| VNone | VInt (z : Z) | VStr (s : string) | VObj (n : nat)
| VTup (l : list pv) | VDict (d : list (string * pv)) | VStruct (d : list (string * pv)).
Notation dict := (list (string * pv)).

Section Assoc.
Variable V : Type.
Fixpoint lookup (d : list (string * V)) (k : string) : option V :=
  match d with
  | [] => None
  | (k', v) :: d => if String.eqb k' k then Some v else lookup d k
  end.
(** [d[k] = v]: the position of an existing key is kept, a new key is last. *)
Fixpoint store (d : list (string * V)) (k : string) (v : V) : list (string * V) :=
  match d with
  | [] => [(k, v)]
  | (k', v') :: d => if String.eqb k' k then (k', v) :: d else (k', v') :: store d k v
  end.
Definition remove_key (d : list (string * V)) (k : string) : list (string * V) :=
  filter (fun p => negb (String.eqb (fst p) k)) d.
(** [d.update(e)] *)
Definition update_items (d e : list (string * V)) : list (string * V) :=
  fold_left (fun acc p => store acc (fst p) (snd p)) e d.
End Assoc.
(** [d.setdefault(k, v)] *)
Definition set_default (d : dict) (k : string) (v : pv) : dict :=
  match lookup d k with Some _ => d | None => store d k v end.

(** ** base.py l.1157-1200, [update_dict_recursively] *)
Definition is_none (v : pv) : bool := match v with VNone => true | _ => false end.

(** One pass of the loop l.1183-1198 over the items of [src]; [rec] stands for the
    recursive calls of the function (destination, source). *)
Definition tuplezip (rec : dict -> dict -> dict) (a : pv * pv) : pv :=
  match fst a, snd a with
  | VDict x, VDict y => VDict (rec x y)
  | _, y => y
  end.
Definition upd_item (rec : bool -> dict -> dict -> dict) (tuples_too by_none : bool) (acc : dict) (p : string * pv) : dict :=
  let assign := if by_none || negb (is_none (snd p)) then store acc (fst p) (snd p) else acc in
  match lookup acc (fst p) with
  | None => assign
  | Some w =>
      match snd p, w with
      | VDict s, VDict d => store acc (fst p) (VDict (rec tuples_too d s))
      | VTup s, VTup d =>
          if tuples_too
          then store acc (fst p) (VTup (firstn (List.length d) (map (tuplezip (rec true)) (combine s d))))
          else assign
      | _, _ => assign
      end
  end.
(** The recursive calls use the default [overwrite_by_none=True] (l.1180, 1186).  The
    recursion is bounded by the nesting depth. *)
Fixpoint upd (n : nat) (tuples_too by_none : bool) (dst src : dict) {struct n} : dict :=
  match n with
  | O => dst
  | S n => fold_left (upd_item (fun tt d s => upd n tt true d s) tuples_too by_none) src dst
  end.

Fixpoint depth (v : pv) : nat :=
  match v with
  | VTup l => S (fold_right (fun x m => Nat.max (depth x) m) 0 l)
  | VDict d => S (fold_right (fun p m => Nat.max (depth (snd p)) m) 0 d)
  | _ => 0
  end.
Definition ddepth (d : dict) : nat := depth (VDict d).
Definition update_dict_recursively (dst src : dict) (tuples_too by_none : bool) : dict :=
  upd (ddepth src + ddepth dst) tuples_too by_none dst src.

(** ** conf.py l.37-48, [tuple_to_conf]: a Struct is its attributes. *)
Definition tuple_to_conf (name : string) (vals : list pv) (order : list string) : dict :=
  fold_left (fun c p => store c (fst p) (snd p)) (combine order vals) [("name"%string, VStr name)].

(** ['%d' % ii] *)
Definition dec (n : nat) : string := NilZero.string_of_uint (Nat.to_uint n).
Definition short_key (prefix name : string) (ii : nat) : string := prefix ++ "_" ++ name ++ "__" ++ dec ii.
Definition long_key (prefix name : string) : string := prefix ++ "_" ++ name.

(** The [name] attribute of a Struct; a name that is not a string makes the formatting
    of the long key fail with a TypeError, a missing one with an AttributeError. *)
Definition attr (c : dict) (k : string) : res pv :=
  match lookup c k with Some v => Ok v | None => Err KeyError end.
Definition str_attr (c : dict) (k : string) : res string :=
  do v <- attr c k; match v with VStr s => Ok s | _ => Err TypeError end.

(** base.py l.993-1041, [dict_to_struct] with [flag=(1,)]: nested dicts stay dicts.
    Only a dict is accepted here: other values are returned unchanged and fail at
    their [name] attribute. *)
Definition to_struct_1 (v : pv) : res dict := match v with VDict d => Ok d | _ => Err KeyError end.

(** The common loop of all the transform functions: [one ii key conf st] gives the key
    and the Struct stored in the output; [st] is the value of the local variable [c2]
    left by the previous entry. *)
Fixpoint transform_loop (one : nat -> string -> pv -> option dict -> res (string * dict))
    (ii : nat) (adict : dict) (st : option dict) (d2 : list (string * dict)) : res (list (string * dict)) :=
  match adict with
  | [] => Ok d2
  | (key, conf) :: adict =>
      do kc <- one ii key conf st;
      transform_loop one (S ii) adict (Some (snd kc)) (store d2 (fst kc) (snd kc))
  end.
Definition transform one (adict : dict) : res (list (string * dict)) := transform_loop one 0 adict None [].

Definition long_one (prefix : string) (conf : pv) : res (string * dict) :=
  do c2 <- to_struct_1 conf;
  do nm <- str_attr c2 "name";
  Ok (long_key prefix nm, c2).
Definition short (prefix : string) (ii : nat) (c2 : dict) : res (string * dict) :=
  do nm <- str_attr c2 "name"; Ok (short_key prefix nm ii, c2).

(** [s.split()[0]]: the first word. *)
Definition is_space (c : ascii) : bool := Ascii.eqb c " " || Ascii.eqb c "009" || Ascii.eqb c "010" || Ascii.eqb c "013".
Fixpoint lstrip (s : string) : string :=
  match s with
  | EmptyString => EmptyString
  | String c s' => if is_space c then lstrip s' else s
  end.
Fixpoint take_word (s : string) : string :=
  match s with
  | EmptyString => EmptyString
  | String c s' => if is_space c then EmptyString else String c (take_word s')
  end.
Definition first_word (s : string) : res string :=
  match lstrip s with EmptyString => Err IndexError | s => Ok (take_word s) end.

(** l.50-73, [transform_variables] *)
Definition one_variable (ii : nat) (key : string) (conf : pv) (_ : option dict) : res (string * dict) :=
  match conf with
  | VTup t =>
      let c2 := tuple_to_conf key t ["kind"; "field"]%string in
      do c2 <-
        match nth_error t 2 with
        | None => Ok c2
        | Some t2 =>
            do kind <- str_attr c2 "kind";
            do w <- first_word kind;
            let c2 :=
              if String.eqb w "unknown" then store c2 "order" t2
              else if String.eqb w "test" then store c2 "dual" t2
              else if String.eqb w "parameter" then
                match t2 with
                | VStr _ | VNone => store c2 "like" t2
                | _ => store (store c2 "like" VNone) "special" t2
                end
              else c2 in
            match t with
            | [_; _; _; h] => Ok (store c2 "history" h)
            | _ => Ok c2
            end
        end;
      short "variable" ii c2
  | _ => long_one "variable" conf
  end.

(** l.75-91, [transform_conditions] *)
Definition one_condition (prefix : string) (ii : nat) (key : string) (conf : pv) (_ : option dict) : res (string * dict) :=
  match conf with
  | VTup t =>
      let order := if Nat.eqb (List.length t) 2 then ["region"; "dofs"]%string else ["region"; "times"; "dofs"]%string in
      short prefix ii (tuple_to_conf key t order)
  | _ => long_one prefix conf
  end.

(** l.102-132, [transform_lcbcs] (a SyntaxError is a ValueError here) *)
Definition one_lcbc (ii : nat) (key : string) (conf : pv) (_ : option dict) : res (string * dict) :=
  match conf with
  | VTup t =>
      if Nat.leb 4 (List.length t) then
        let c2 :=
          match nth_error t 1 with
          | Some (VDict _) =>
              store (tuple_to_conf key t ["region"; "dofs"; "dof_map_fun"; "kind"]%string) "arguments" (VTup (skipn 4 t))
          | _ =>
              store (tuple_to_conf key t ["region"; "times"; "dofs"; "dof_map_fun"; "kind"]%string) "arguments" (VTup (skipn 5 t))
          end in
        short "lcbc" ii c2
      else Err ValueError
  | _ =>
      do c2 <- to_struct_1 conf;
      let c2 := set_default (set_default c2 "dof_map_fun" VNone) "arguments" (VTup []) in
      do nm <- str_attr c2 "name";
      Ok (long_key "lcbc" nm, c2)
  end.

(** l.134-149, [transform_epbcs] *)
Definition one_epbc (prefix : string) (ii : nat) (key : string) (conf : pv) (_ : option dict) : res (string * dict) :=
  match conf with
  | VTup t =>
      let order := if Nat.eqb (List.length t) 3 then ["region"; "dofs"; "match"]%string
                   else ["region"; "times"; "dofs"; "match"]%string in
      short prefix ii (tuple_to_conf key t order)
  | _ => long_one prefix conf
  end.

(** l.154-171, [transform_regions] *)
Definition one_region (ii : nat) (key : string) (conf : pv) (_ : option dict) : res (string * dict) :=
  match conf with
  | VStr s => short "region" ii [("name"%string, VStr key); ("select"%string, conf)]
  | VTup t =>
      let c2 := tuple_to_conf key t ["select"; "kind"]%string in
      let c2 := match t with
                | [_; _; p] => store c2 "parent" p
                | [_; _; p; e] => store (store c2 "parent" p) "extra_options" e
                | _ => c2
                end in
      short "region" ii c2
  | _ => long_one "region" conf
  end.

(** l.173-196, [transform_integrals]: for a tuple of another length, [c2] is not
    assigned: it is the one of the previous entry, or unbound. *)
Definition one_integral (ii : nat) (key : string) (conf : pv) (st : option dict) : res (string * dict) :=
  match conf with
  | VInt _ => short "integral" ii [("name"%string, VStr key); ("order"%string, conf)]
  | VTup t =>
      match t with
      | [_; o] => short "integral" ii [("name"%string, VStr key); ("order"%string, o)]
      | [_; _; _] => short "integral" ii (tuple_to_conf key t ["order"; "vals"; "weights"]%string)
      | _ => match st with Some c2 => short "integral" ii c2 | None => Err NameError end
      end
  | _ => long_one "integral" conf
  end.

(** l.198-215, [transform_fields]; the NumPy types are the opaque values 0 and 1. *)
Definition conv_dtype (c2 : dict) : dict :=
  match lookup c2 "dtype" with
  | Some (VStr s) => if String.eqb s "real" then store c2 "dtype" (VObj 0)
                     else if String.eqb s "complex" then store c2 "dtype" (VObj 1) else c2
  | _ => c2
  end.
Definition one_field (ii : nat) (key : string) (conf : pv) (_ : option dict) : res (string * dict) :=
  match conf with
  | VTup t =>
      let c2 := tuple_to_conf key t ["dtype"; "shape"; "region"; "approx_order"; "space"; "poly_space_basis"]%string in
      do _ <- attr c2 "dtype";
      short "field" ii (conv_dtype c2)
  | _ =>
      do c2 <- to_struct_1 conf;
      let c2 := conv_dtype (set_default c2 "dtype" (VObj 0)) in
      do nm <- str_attr c2 "name";
      Ok (long_key "field" nm, c2)
  end.

(** l.217-235, [transform_materials] *)
Definition one_material (ii : nat) (key : string) (conf : pv) (_ : option dict) : res (string * dict) :=
  match conf with
  | VStr s => short "material" ii [("name"%string, VStr key); ("function"%string, conf)]
  | VTup t =>
      let c2 := tuple_to_conf key t ["values"; "function"; "kind"]%string in
      let c2 := match t with [_; _; _; f] => store c2 "flags" f | _ => c2 end in
      short "material" ii c2
  | _ => long_one "material" conf
  end.

(** l.237-249, [transform_solvers] *)
Definition one_solver (ii : nat) (key : string) (conf : pv) (_ : option dict) : res (string * dict) :=
  match conf with
  | VTup t =>
      let c2 := tuple_to_conf key t ["kind"; "params"]%string in
      do ps <- attr c2 "params";
      match ps with
      | VDict ps => short "solvers" ii (remove_key (update_items c2 ps) "params")
      | _ => Err KeyError
      end
  | _ => long_one "solvers" conf
  end.

(** l.251-260, [transform_functions] *)
Definition one_function (ii : nat) (key : string) (conf : pv) (_ : option dict) : res (string * dict) :=
  match conf with
  | VTup t => short "function" ii (tuple_to_conf key t ["function"%string])
  | _ => long_one "function" conf
  end.

(** l.267-285, the table of the transform functions ([options] and [nbcs], which are
    only converted to Structs, are left out), with the prefixes used by them. *)
Inductive kind := KVar | KEbc | KIc | KDgebc | KEpbc | KDgepbc | KLcbc | KRegion | KIntegral | KField | KMaterial
  | KSolver | KFunction.
Definition prefix_of (k : kind) : string :=
  match k with
  | KVar => "variable" | KEbc => "ebc" | KIc => "ic" | KDgebc => "dgebc" | KEpbc => "epbc" | KDgepbc => "dgepbc"
  | KLcbc => "lcbc" | KRegion => "region" | KIntegral => "integral" | KField => "field" | KMaterial => "material"
  | KSolver => "solvers" | KFunction => "function"
  end.
Definition one_of (k : kind) : nat -> string -> pv -> option dict -> res (string * dict) :=
  match k with
  | KVar => one_variable | KEbc => one_condition "ebc" | KIc => one_condition "ic" | KDgebc => one_condition "dgebc"
  | KEpbc => one_epbc "epbc" | KDgepbc => one_epbc "dgepbc" | KLcbc => one_lcbc | KRegion => one_region
  | KIntegral => one_integral | KField => one_field | KMaterial => one_material | KSolver => one_solver
  | KFunction => one_function
  end.
Definition transform_of (k : kind) (adict : dict) : res (list (string * dict)) := transform (one_of k) adict.

(** l.565-572, [get_item_by_name] *)
Definition get_item_by_name (group : list (string * dict)) (name : string) : option dict :=
  option_map snd (find (fun p => match lookup (snd p) "name" with Some (VStr s) => String.eqb s name | _ => false end) group).

(** ** Keywords, l.20-36 and 478-520.  A pattern is a list of alternatives; an
    alternative is a word, optionally followed by [_[0-9]+]. *)
Record alt := Alt { a_word : string; a_num : bool }.
Definition is_digit (c : ascii) : bool :=
  let n := nat_of_ascii c in Nat.leb 48 n && Nat.leb n 57.
Fixpoint all_digits (s : string) : bool :=
  match s with EmptyString => true | String c s => is_digit c && all_digits s end.
Definition starts_digit (s : string) : bool :=
  match s with EmptyString => false | String c _ => is_digit c end.
(** The rest of [s] after the prefix [p]. *)
Fixpoint strip_prefix (p s : string) : option string :=
  match p, s with
  | EmptyString, _ => Some s
  | String a p, String b s => if Ascii.eqb a b then strip_prefix p s else None
  | _, EmptyString => None
  end.
Definition alt_text (a : alt) : string := if a_num a then a_word a ++ "_" else a_word a.
(** [re.match] of an alternative without [$]: anything may follow. *)
Definition match_open (a : alt) (key : string) : bool :=
  match strip_prefix (alt_text a) key with
  | Some r => if a_num a then starts_digit r else true
  | None => false
  end.
(** With [$] (a final newline, which [$] would allow, is left out). *)
Definition match_closed (a : alt) (key : string) : bool :=
  match strip_prefix (alt_text a) key with
  | Some r => if a_num a then starts_digit r && all_digits r else String.eqb r ""
  | None => false
  end.
(** [re.compile('^' + item + '$').match(key)]: the alternation binds weaker than the
    concatenation, so that the [$] belongs to the last alternative only. *)
Fixpoint match_item (item : list alt) (key : string) : bool :=
  match item with
  | [] => false
  | [a] => match_closed a key
  | a :: item => match_open a key || match_item item key
  end.

Definition kw (s : string) : list alt := [Alt s true; Alt (s ++ "s") false].
(** l.20-36 *)
Definition std_required : list (list alt) :=
  [ [Alt "filename_mesh" false; Alt "filename_domain" false]; kw "field";
    (kw "ebc" ++ kw "dgebc" ++ kw "dgepbc")%list; [Alt "equations" false]; kw "region";
    kw "variable"; kw "material"; kw "solver" ]%string.
Definition std_other : list (list alt) :=
  [ kw "epbc"; kw "lcbc"; kw "nbc"; kw "ic"; kw "function"; [Alt "options" false]; kw "integral" ]%string.

(** [left_over.remove(key)] *)
Fixpoint list_remove (l : list string) (k : string) : res (list string) :=
  match l with
  | [] => Err ValueError
  | x :: l => if String.eqb x k then Ok l else do r <- list_remove l k; Ok (x :: r)
  end.
Fixpoint remove_matching (item : list alt) (keys left_over : list string) : res (list string) :=
  match keys with
  | [] => Ok left_over
  | k :: keys => if match_item item k then do l <- list_remove left_over k; remove_matching item keys l
                 else remove_matching item keys left_over
  end.
Fixpoint remove_items (items : list (list alt)) (keys left_over : list string) : res (list string) :=
  match items with
  | [] => Ok left_over
  | i :: items => do l <- remove_matching i keys left_over; remove_items items keys l
  end.
(** l.478-500, [_validate_helper]: first the keys of [but_nots] are removed, then
    those of [items] (the two loops differ only by the record of the missing items). *)
Definition missing_items (items : list (list alt)) (keys : list string) : list (list alt) :=
  filter (fun i => negb (existsb (match_item i) keys)) items.
Definition validate_helper (keys : list string) (items but_nots : list (list alt)) : res (list string * list (list alt)) :=
  do l <- remove_items but_nots keys keys;
  do l <- remove_items items keys l;
  Ok (l, missing_items items keys).
(** l.502-518, [validate] *)
Fixpoint strs_eqb (a b : list string) : bool :=
  match a, b with
  | [], [] => true
  | x :: a, y :: b => String.eqb x y && strs_eqb a b
  | _, _ => false
  end.
Definition validate (keys : list string) (required other : list (list alt)) : res (list (list alt)) :=
  do r <- validate_helper keys required other;
  do o <- validate_helper keys other required;
  if strs_eqb (fst r) (fst o) then
    match snd r with [] => Ok (snd o) | _ => Err ValueError end
  else Err AssertionError.

(** ** l.520-548, [transform_input_trivial]: the attributes of the configuration. *)
Definition is_alnum (c : ascii) : bool :=
  let n := nat_of_ascii c in
  is_digit c || (Nat.leb 65 n && Nat.leb n 90) || (Nat.leb 97 n && Nat.leb n 122).
(** [re.compile('([a-zA-Z0-9]+)_[0-9]+').match(key)]: group 1. *)
Fixpoint alnum_split (s : string) : string * string :=
  match s with
  | EmptyString => (EmptyString, EmptyString)
  | String c s' => if is_alnum c then let '(a, b) := alnum_split s' in (String c a, b) else (EmptyString, s)
  end.
Definition numbered (key : string) : option string :=
  match alnum_split key with
  | (EmptyString, _) => None
  | (base, String u rest) => if Ascii.eqb u "_" && starts_digit rest then Some base else None
  | _ => None
  end.
Definition group_keys : list string :=
  ["options"; "solvers"; "integrals"; "regions"; "fields"; "variables"; "ebcs"; "epbcs"; "dgebcs"; "dgepbcs";
   "nbcs"; "lcbcs"; "ics"; "materials"; "functions"]%string.
(** l.532-534 *)
Definition add_groups (c : dict) : dict := fold_left (fun c k => set_default c k (VDict [])) group_keys c.
(** l.539-548; [__dict__[new]] is read after the update, so a key that is its own
    group does not exist here ([new] ends by 's', the keys moved do not matter). *)
Definition move_key (c : dict) (key : string) : dict :=
  match numbered key with
  | None => c
  | Some base =>
      let new := (base ++ "s")%string in
      match lookup c key with
      | None => c
      | Some v =>
          let c := match lookup c new with
                   | Some (VDict g) => store c new (VDict (store g key v))
                   | _ => store c new (VDict [(key, v)])
                   end in
          remove_key c key
      end
  end.
Definition transform_input_trivial (c : dict) : dict :=
  let c := add_groups c in fold_left move_key (map fst c) c.

(** ** conditions.py *)
(** [s.split(sep)] for a one-character separator. *)
Fixpoint split (sep : ascii) (s : string) : list string :=
  match s with
  | EmptyString => [EmptyString]
  | String c s' =>
      if Ascii.eqb c sep then EmptyString :: split sep s'
      else match split sep s' with
           | [] => [String c EmptyString]
           | w :: ws => String c w :: ws
           end
  end.
Fixpoint rstrip (s : string) : string :=
  match s with
  | EmptyString => EmptyString
  | String c s' => match rstrip s' with
                   | EmptyString => if is_space c then EmptyString else String c EmptyString
                   | r => String c r
                   end
  end.
Definition strip (s : string) : string := rstrip (lstrip s).
(** ['grad' in s] *)
Fixpoint contains (p s : string) : bool :=
  match strip_prefix p s with
  | Some _ => true
  | None => match s with EmptyString => false | String _ s' => contains p s' end
  end.
Fixpoint join (sep : string) (l : list string) : string :=
  match l with [] => "" | [x] => x | x :: l => x ++ sep ++ join sep l end.

(** A condition: its name and its [dofs] dictionary; the other attributes are copied. *)
Record single := Single { s_name : string; s_dofs : string; s_val : pv; s_diff : bool }.
(** l.182-198, [iter_single] *)
Definition iter_single (name : string) (dofs : dict) : list single :=
  map (fun p => if contains "grad" (fst p)
                then Single name (join "." (skipn 1 (split "." (fst p)))) (snd p) true
                else Single name (fst p) (snd p) false) dofs.
(** l.98-125, [group_by_variables] *)
Definition var_of (s : single) : string := hd ""%string (split "." (s_dofs s)).
Fixpoint group_add (out : list (string * list single)) (k : string) (s : single) : list (string * list single) :=
  match out with
  | [] => [(k, [s])]
  | (k', l) :: out => if String.eqb k' k then (k', l ++ [s]) :: out else (k', l) :: group_add out k s
  end.
Definition group_by_variables (conds : list (string * dict)) : list (string * list single) :=
  fold_left (fun out c => fold_left (fun out s => group_add out (var_of s) s) (iter_single (fst c) (snd c)) out) conds [].

(** l.149-166, [_canonize].  [dd[1:-1]] *)
Fixpoint but_last (s : string) : string :=
  match s with
  | EmptyString => EmptyString
  | String _ EmptyString => EmptyString
  | String c s' => String c (but_last s')
  end.
Definition canonize (dofs : string) (all_dofs : list string) : res (list string) :=
  match split "." dofs with
  | [vname; dd] =>
      if String.eqb dd "all" then Ok all_dofs
      else match dd with
           | EmptyString => Err IndexError
           | String "["%char r => Ok (map (fun w => (vname ++ "." ++ strip w)%string) (split "," (but_last r)))
           | _ => Ok [dofs]
           end
  | _ => Err ValueError
  end.
