(** Model: sfepy/mechanics/units.py and sym2dim() of sfepy/mechanics/tensors.py,
    over the real numbers (exact arithmetic). *)
From Coq Require Import Reals List ZArith Ascii String Lia Bool.
From Verif Require Import M_elast.
Import ListNotations.
Set Implicit Arguments.
Open Scope R_scope.

(** ** apply_unit_multipliers(), l.252-286 *)
Inductive kind := One | Time | Length | Mass | Frequency | WaveNumber | Velocity | Acceleration
  | Density | Force | Stress | DynViscosity | Compressibility | Energy.
(** l.263-280, the dictionary coefs; [None] is a division by zero *)
Definition coef (a b c : R) (k : kind) : option R :=
  match k with
  | One => rdiv 1 1
  | Time => rdiv 1 a
  | Length => rdiv 1 b
  | Mass => rdiv 1 c
  | Frequency => let! x := rdiv 1 a in rdiv 1 x
  | WaveNumber => let! x := rdiv 1 b in rdiv 1 x
  | Velocity => let! x := rdiv b a in rdiv 1 x
  | Acceleration => let! x := rdiv b (a ^ 2) in rdiv 1 x
  | Density => let! x := rdiv c (b ^ 3) in rdiv 1 x
  | Force => let! x := rdiv (c * b) (a ^ 2) in rdiv 1 x
  | Stress => let! x := rdiv c (b * a ^ 2) in rdiv 1 x
  | DynViscosity => let! x := rdiv c (b * a) in rdiv 1 x
  | Compressibility => let! x := rdiv (b * a ^ 2) c in rdiv 1 x
  | Energy => let! x := rdiv (c * b ^ 2) (a ^ 2) in rdiv 1 x
  end.
(** l.281-286: for ii, kind in enumerate(unit_kinds), values[ii] (IndexError); a
    value is a scalar (NumPy scales arrays item by item). [ii] counts from the given
    index. The whole dictionary is built first, so that any zero multiplier raises
    ZeroDivisionError. *)
Fixpoint apply_from (a b c : R) (values : list R) (kinds : list kind) : option (list R) :=
  match kinds, values with
  | [], _ => Some []
  | k :: ks, v :: vs =>
      let! x := coef a b c k in
      let! r := apply_from a b c vs ks in Some (x * v :: r)
  | _ :: _, [] => None
  end.
Definition all_kinds : list kind := [One; Time; Length; Mass; Frequency; WaveNumber; Velocity; Acceleration;
  Density; Force; Stress; DynViscosity; Compressibility; Energy].
Definition is_some {A} (x : option A) : bool := match x with Some _ => true | None => false end.
Definition apply_unit_multipliers (values : list R) (kinds : list kind) (mul : R * R * R) : option (list R) :=
  let '(a, b, c) := mul in
  if forallb (fun k => is_some (coef a b c k)) all_kinds then apply_from a b c values kinds else None.

(** l.288-319, apply_units_to_pars(): dictionaries are association lists *)
Definition lookup {A} (n : string) (d : list (string * A)) : option A :=
  match find (fun x => String.eqb (fst x) n) d with Some x => Some (snd x) | None => None end.
Fixpoint all_some {A} (l : list (option A)) : option (list A) :=
  match l with [] => Some [] | x :: r => let! y := x in let! s := all_some r in Some (y :: s) end.
Definition apply_units_to_pars (pars : list (string * R)) (kinds : list (string * kind)) (mul : R * R * R) :
  option (list (string * R)) :=
  let! ks := all_some (map (fun x => lookup (fst x) kinds) pars) in
  let! vs := apply_unit_multipliers (map snd pars) ks mul in
  Some (combine (map fst pars) vs).

(** ** Unit, l.55-128: the keys of the dictionary of prefixes are lists of characters,
    the prefix 10^k is represented by k. *)
Definition str := list ascii.
Fixpoint str_leb (s t : str) : bool :=
  match s, t with
  | [], _ => true
  | _ :: _, [] => false
  | x :: s, y :: t => if (N_of_ascii x <? N_of_ascii y)%N then true
                      else if (N_of_ascii y <? N_of_ascii x)%N then false else str_leb s t
  end.
(** sorted(keys, reverse=True) *)
Fixpoint insert_desc (x : str) (l : list str) : list str :=
  match l with [] => [x] | y :: r => if str_leb y x then x :: l else y :: insert_desc x r end.
Fixpoint sort_desc (l : list str) : list str := match l with [] => [] | x :: r => insert_desc x (sort_desc r) end.
Fixpoint starts_with (p s : str) : bool :=
  match p, s with
  | [], _ => true
  | x :: p, y :: s => Ascii.eqb x y && starts_with p s
  | _ :: _, [] => false
  end.
(** l.113-126, __init__(): the loop breaks at the first match, the last prefix is
    left in the variable otherwise *)
Fixpoint find_prefix (keys : list str) (last : str) (name : str) : str :=
  match keys with
  | [] => last
  | p :: r => if starts_with p name && (List.length p <? List.length name)%nat then p else find_prefix r p name
  end.
Definition unit_prefix (keys : list str) (name : str) : str := find_prefix (sort_desc keys) [] name.
Definition unit_unit (keys : list str) (name : str) : str := skipn (List.length (unit_prefix keys name)) name.
(** l.94-111, get_prefix(): [coefs] are the (sorted) values of the allowed prefixes,
    searchsorted(side='left') is the number of the smaller ones *)
Fixpoint searchsorted (l : list R) (x : R) : nat :=
  match l with [] => 0%nat | y :: r => if Rlt_dec y x then S (searchsorted r x) else 0%nat end.
Definition get_prefix (coefs : list R) (cf bias : R) : R * R :=
  let ii := searchsorted coefs (bias * cf) in
  let ii := if (ii =? List.length coefs)%nat then (ii - 1)%nat else ii in
  let cc := nth ii coefs 0 in
  (cc, cf / cc).
(** l.35-52: the prefixes with powers of ten *)
Definition named_prefixes : list (string * Z) :=
  [("p", -12); ("n", -9); ("mu", -6); ("m", -3); ("c", -2); ("", 0); ("d", 1); ("k", 3); ("M", 6); ("G", 9); ("T", 12)]%Z%string.

(** ** tensors.py l.16-27, sym2dim(): int(-0.5 + sqrt(2 * sym + 0.25)) and the
    assertion; int() of a non-negative number is its integer part *)
Definition sym2dim (sym : nat) : option nat :=
  let val := Z.to_nat (Int_part (- (1 / 2) + sqrt (2 * INR sym + 1 / 4))) in
  if Nat.eqb ((val + 1) * val / 2)%nat sym then Some val else None.
