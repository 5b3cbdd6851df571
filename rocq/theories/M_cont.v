(** Model of sfepy/base/base.py l.520-690: Container.

    An object is its name and the rest.  The list of objects and the list of names are
    kept separately, as in the code. *)
From Coq Require Import String.
From Verif Require Import Base.
Set Implicit Arguments.
Open Scope nat_scope.

Section Container.
Variable X : Type.
Notation obj := (string * X)%type.
Record cont := Cont { objs : list obj; names : list string }.
(** Keys: an index or a name. *)
Inductive key := Idx (i : Z) | Name (n : string).

(** Python's indices of lists of the length [n]. *)
Definition py_index (n : nat) (i : Z) : option nat :=
  let j := if (i <? 0)%Z then (i + Z.of_nat n)%Z else i in
  if (0 <=? j)%Z && (j <? Z.of_nat n)%Z then Some (Z.to_nat j) else None.
Definition py_insert {A} (l : list A) (i : Z) (a : A) : list A :=
  let n := Z.of_nat (length l) in
  let j := if (i <? 0)%Z then Z.max 0 (i + n) else Z.min i n in
  firstn (Z.to_nat j) l ++ a :: skipn (Z.to_nat j) l.
(** list.index *)
Fixpoint index (l : list string) (s : string) : option nat :=
  match l with
  | [] => None
  | x :: l => if String.eqb x s then Some 0 else option_map S (index l s)
  end.

(** l.522-537 *)
Definition empty : cont := Cont [] [].
Definition from_objs (l : list obj) : cont := Cont l (map fst l).

(** l.539-559, [__setitem__] *)
Definition set_key (c : cont) (k : key) (o : obj) : res cont :=
  let put (ii : Z) :=
    if (Z.of_nat (length (names c)) <=? ii)%Z then Ok (Cont (objs c ++ [o]) (names c ++ [fst o]))
    else match py_index (length (objs c)) ii, py_index (length (names c)) ii with
         | Some i, Some j => Ok (Cont (upd (objs c) i o) (upd (names c) j (fst o)))
         | _, _ => Err IndexError
         end in
  match k with
  | Name n => match index (names c) n with
              | Some i => put (Z.of_nat i)
              | None => put (Z.of_nat (length (names c)))
              end
  | Idx i => put i
  end.
(** l.561-571, [__getitem__] *)
Definition get_key (c : cont) (k : key) : res obj :=
  match (match k with Name n => option_map Z.of_nat (index (names c) n) | Idx i => Some i end) with
  | None => Err IndexError
  | Some ii => match py_index (length (objs c)) ii with
               | None => Err IndexError
               | Some i => match nth_error (objs c) i with Some o => Ok o | None => Err IndexError end
               end
  end.
(** l.603-618 *)
Definition insert (c : cont) (i : Z) (o : obj) : cont :=
  Cont (py_insert (objs c) i o) (py_insert (names c) i (fst o)).
Definition append (c : cont) (o : obj) : res cont := set_key c (Idx (Z.of_nat (length (names c)))) o.
Fixpoint extend (c : cont) (l : list obj) : res cont :=
  match l with [] => Ok c | o :: l => do c <- append c o; extend c l end.
(** l.576-596, [__add__], [__iadd__] *)
Definition add (c other : cont) : cont := from_objs (objs c ++ objs other).
Definition iadd (c other : cont) : res cont :=
  do c <- extend c (objs other); Ok (from_objs (objs c)).
(** l.650-653 *)
Definition remove_name (c : cont) (n : string) : res cont :=
  match index (names c) n with
  | None => Err ValueError
  | Some i => Ok (Cont (firstn i (objs c) ++ skipn (S i) (objs c)) (firstn i (names c) ++ skipn (S i) (names c)))
  end.
(** l.620-648, [get]; the message of the error is left out. *)
Definition get (c : cont) (k : key) (default : option obj) (msg : bool) : res obj :=
  match get_key c k with
  | Ok o => Ok o
  | Err e => match default with
             | Some d => Ok d
             | None => if msg then Err ValueError else Err e
             end
  end.
(** l.668-683 *)
Definition has_key (c : cont) (k : key) : bool :=
  match k with
  | Idx i => (i <? Z.of_nat (length (objs c)))%Z && (- Z.of_nat (length (objs c)) <=? i)%Z
  | Name n => match index (names c) n with Some _ => true | None => false end
  end.
(** l.690-698, [as_dict], as the function giving the value of a key. *)
Definition as_dict (c : cont) (n : string) : option obj :=
  fold_left (fun d o => if String.eqb (fst o) n then Some o else d) (objs c) None.

(** Operations of a user. *)
Inductive op := SetKey (k : key) (o : obj) | Insert (i : Z) (o : obj) | Append (o : obj) | Extend (l : list obj)
              | IAdd (l : list obj) | IAddSelf | Remove (n : string).
Definition apply_op (c : cont) (p : op) : res cont :=
  match p with
  | SetKey k o => set_key c k o
  | Insert i o => Ok (insert c i o)
  | Append o => append c o
  | Extend l => extend c l
  | IAdd l => iadd c (from_objs l)
  | IAddSelf => iadd c c
  | Remove n => remove_name c n
  end.
(** A failed operation leaves the container as it was. *)
Fixpoint run (c : cont) (l : list op) : cont :=
  match l with
  | [] => c
  | p :: l => run (match apply_op c p with Ok c' => c' | Err _ => c end) l
  end.
(** The list of objects is shared with the caller, who can change it. *)
Definition caller_appends (c : cont) (o : obj) : cont := Cont (objs c ++ [o]) (names c).
End Container.
Arguments Idx i : clear implicits.
Arguments Name n : clear implicits.
