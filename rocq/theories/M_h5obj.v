(** Model of storing general data in HDF5 files with sharing of objects:
    write_to_hdf5() and read_from_hdf5(), sfepy/base/ioutils.py l.602-905.

    Simplifications: the groups 'type', 'len' and 'data' made for each value are
    the constructor of its node; names of nodes are numbers (list items are named
    by their positions, the rules of PyTables for names are those of M_hdf5);
    DataSoftLink and SoftLink, and unpack_markers=True are not modelled. *)
From Verif Require Import Base.
Set Implicit Arguments.

Definition path := list nat.
Inductive hkind := KDict | KStruct | KList | KTuple.

Section H5.
(** [A]: values stored as a whole (constants, numbers, arrays, strings, pickled
    objects); [W]: sparse matrices, meshes, IGA domains. *)
Context {A W : Type}.
(** Data: [PObj i w] is an object with id() = i, [PCached i d] is Cached(d) with
    id(d) = i, [PUncached d] is Uncached(d). *)
Inductive pdata :=
| PAtom (a : A) | PNode (k : hkind) (l : list (nat * pdata)) | PObj (i : nat) (w : W)
| PCached (i : nat) (d : pdata) | PUncached (d : pdata).
(** Nodes of the file. *)
Inductive fnode := FAtom (a : A) | FNode (k : hkind) (l : list (nat * fnode)) | FObj (w : W) | FLink (q : path).

(** The cache of the stored objects: id() -> path (l.622-627). *)
Definition wcache := list (nat * path).
Fixpoint look {B} (c : list (nat * B)) (i : nat) : option B :=
  match c with [] => None | (j, q) :: t => if i =? j then Some q else look t i end.

(** l.642-733, _write_to_hdf5() at the path [p]. *)
Fixpoint write (p : path) (d : pdata) (c : wcache) : fnode * wcache :=
  match d with
  | PAtom a => (FAtom a, c)                                       (* save_value, save_type *)
  | PNode k l =>                                                  (* save_dict, save_list *)
      let '(l, c) :=
        (fix items (l : list (nat * pdata)) (c : wcache) : list (nat * fnode) * wcache :=
           match l with
           | [] => ([], c)
           | (key, d) :: t => let '(n, c) := write (p ++ [key]) d c in
                              let '(t, c) := items t c in ((key, n) :: t, c)
           end) l c in (FNode k l, c)
  | PObj i w => match look c i with                               (* save_by_function(type, ..., cached=True) *)
                | Some q => (FLink q, c)
                | None => (FObj w, (i, p) :: c)
                end
  | PCached i d => match look c i with                            (* save_by_function(None, ..., cached=True) *)
                   | Some q => (FLink q, c)
                   | None => let '(n, c) := write p d c in (n, (i, p) :: c)
                   end
  | PUncached d => (fst (write p d []), c)                        (* l.722-723: a new cache *)
  end.

(** The node at a path. *)
Fixpoint getn (n : fnode) (p : path) : option fnode :=
  match p with
  | [] => Some n
  | k :: t => match n with FNode _ l => match look l k with Some m => getn m t | None => None end | _ => None end
  end.

(** The data read: each value carries its identity, the path where it was made. *)
Inductive rdata := RAtom (o : path) (a : A) | RNode (o : path) (k : hkind) (l : list (nat * rdata)) | RObj (o : path) (w : W).
Definition ident (r : rdata) : path := match r with RAtom o _ => o | RNode o _ _ => o | RObj o _ => o end.

Definition path_eqb (a b : path) : bool := if list_eq_dec Nat.eq_dec a b then true else false.
Fixpoint plook (c : list (path * rdata)) (p : path) : option rdata :=
  match c with [] => None | (q, r) :: t => if path_eqb p q then Some r else plook t p end.
(** l.798-819, _read_from_hdf5(): follow the links, look in the cache (by real
    paths), or read and put to the cache; [fuel] bounds the recursion. *)
Fixpoint read (fuel : nat) (root : fnode) (p : path) (n : fnode) (c : list (path * rdata)) : res (rdata * list (path * rdata)) :=
  match fuel with
  | 0 => Err OutOfFuel
  | S f =>
      match n with
      | FLink q => match getn root q with Some m => read f root q m c | None => Err KeyError end
      | _ =>
          match plook c p with
          | Some r => Ok (r, c)
          | None =>
              do x <- match n with
                      | FAtom a => Ok (RAtom p a, c)
                      | FObj w => Ok (RObj p w, c)
                      | FLink _ => Err KeyError
                      | FNode k l =>
                          do y <- (fix items (l : list (nat * fnode)) (c : list (path * rdata)) :=
                                     match l with
                                     | [] => Ok ([], c)
                                     | (key, m) :: t => do x <- read f root (p ++ [key]) m c;
                                                        let '(r, c) := x in
                                                        do y <- items t c;
                                                        let '(t, c) := y in Ok ((key, r) :: t, c)
                                     end) l c;
                          let '(l, c) := y in Ok (RNode p k l, c)
                      end;
              let '(r, c) := x in Ok (r, (p, r) :: c)
          end
      end
  end.
End H5.
Arguments pdata : clear implicits.
Arguments fnode : clear implicits.
Arguments rdata : clear implicits.
