(** Specifications for the processing of problem descriptions, written without the
    model's own loops: paths in nested dictionaries, matching of keywords. *)
From Coq Require Import String.
From Verif Require Import Base M_conf.
Set Implicit Arguments.
Open Scope nat_scope.

(** The value found by following the keys [p] through nested dictionaries. *)
Fixpoint at_path (v : pv) (p : list string) : option pv :=
  match p with
  | [] => Some v
  | k :: p => match v with
              | VDict d => match lookup d k with Some w => at_path w p | None => None end
              | _ => None
              end
  end.
(** Python dictionaries have distinct keys, at every level. *)
Fixpoint wf (v : pv) : Prop :=
  match v with
  | VTup l => fold_right (fun x P => wf x /\ P) True l
  | VDict d => NoDup (map fst d) /\ fold_right (fun p P => wf (snd p) /\ P) True d
  | _ => True
  end.
Definition wfd (d : dict) : Prop := wf (VDict d).

(** A keyword as written in the table of keywords: exactly a word, or a word, an
    underscore and a number. *)
Definition number (s : string) : Prop := s <> ""%string /\ all_digits s = true.
Definition is_keyword (a : alt) (key : string) : Prop :=
  if a_num a then exists n, number n /\ key = (a_word a ++ "_" ++ n)%string else key = a_word a.

(** No character of [s] is [c]. *)
Fixpoint free_of (c : Ascii.ascii) (s : string) : Prop :=
  match s with EmptyString => True | String a s => a <> c /\ free_of c s end.

(** The attributes given by the items of a tuple of [n] values (users guide: short
    syntax); an item with an empty name is ignored. *)
Definition positions (k : kind) (n : nat) : option (list string) :=
  match k, n with
  | (KEbc | KIc | KDgebc), 2 => Some ["region"; "dofs"]
  | (KEbc | KIc | KDgebc), 3 => Some ["region"; "times"; "dofs"]
  | (KEpbc | KDgepbc), 3 => Some ["region"; "dofs"; "match"]
  | (KEpbc | KDgepbc), 4 => Some ["region"; "times"; "dofs"; "match"]
  | KRegion, 1 => Some ["select"]
  | KRegion, 2 => Some ["select"; "kind"]
  | KRegion, 3 => Some ["select"; "kind"; "parent"]
  | KRegion, 4 => Some ["select"; "kind"; "parent"; "extra_options"]
  | KIntegral, 2 => Some [""; "order"]
  | KIntegral, 3 => Some ["order"; "vals"; "weights"]
  | KField, 4 => Some ["dtype"; "shape"; "region"; "approx_order"]
  | KField, 5 => Some ["dtype"; "shape"; "region"; "approx_order"; "space"]
  | KField, 6 => Some ["dtype"; "shape"; "region"; "approx_order"; "space"; "poly_space_basis"]
  | KMaterial, 1 => Some ["values"]
  | KMaterial, 2 => Some ["values"; "function"]
  | KMaterial, 3 => Some ["values"; "function"; "kind"]
  | KMaterial, 4 => Some ["values"; "function"; "kind"; "flags"]
  | KVar, 2 => Some ["kind"; "field"]
  | KFunction, 1 => Some ["function"]
  | _, _ => None
  end%string.

(** The [name] items of the entries in the long syntax. *)
Definition long_names (adict : dict) : list string :=
  flat_map (fun p => match snd p with
                     | VDict d => match lookup d "name" with Some (VStr s) => [s] | _ => [] end
                     | _ => []
                     end) adict.
(** No two entries in the long syntax have the same name, and no such name looks like
    one made from an entry in the short syntax. *)
Definition no_clash (adict : dict) : Prop :=
  NoDup (long_names adict) /\
  forall n b d, In n (long_names adict) -> number d -> n <> (b ++ "__" ++ d)%string.
