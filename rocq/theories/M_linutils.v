(** Model of parts of sfepy/linalg/utils.py: index maps, chunking, cycling,
    assembling into a vector. *)
From Verif Require Import Base.
Set Implicit Arguments.
Local Open Scope Z_scope.

(** Arrays with one or two dimensions; [A2 n_col rows]. *)
Inductive arr := A1 (l : list Z) | A2 (n_col : nat) (rows : list (list Z)).
Definition a_len (a : arr) : nat :=
  match a with A1 l => length l | A2 _ r => length r end.
Definition same_shape (a b : arr) : bool :=
  match a, b with
  | A1 l, A1 l' => Nat.eqb (length l) (length l')
  | A2 n r, A2 n' r' => Nat.eqb n n' && Nat.eqb (length r) (length r')
  | _, _ => false
  end.

(** Stable sort of the indices [l] by the key [k] (one pass of numpy.lexsort). *)
Fixpoint kinsert (k : nat -> Z) (x : nat) (l : list nat) : list nat :=
  match l with
  | [] => [x]
  | y :: t => if k x <=? k y then x :: l else y :: kinsert k x t
  end.
Definition ksort (k : nat -> Z) (l : list nat) : list nat := fold_right (kinsert k) [] l.

(** [numpy.lexsort(keys)] of [n] items: the last key is the primary one. *)
Definition lexsort (keys : list (list Z)) (n : nat) : list nat :=
  fold_left (fun l k => ksort (fun i => nth i k 0) l) keys (seq 0 n).

(** [seq.T]: the columns. *)
Definition transpose (n_col : nat) (rows : list (list Z)) : list (list Z) :=
  map (fun j => map (fun r => nth j r 0) rows) (seq 0 n_col).

Section Argsort.
(** [numpy.argsort]: not stable in general (quicksort); the theorems hold for
    every function returning a sorting permutation. *)
Variable argsort : list Z -> list nat.

(** utils.py l.291-304 [argsort_rows]; lexsort of no keys raises TypeError. *)
Definition argsort_rows (a : arr) : res (list nat) :=
  match a with
  | A1 l => Ok (argsort l)
  | A2 0 _ => Err TypeError
  | A2 n r => Ok (lexsort (rev (transpose n r)) (length r))
  end.

(** [a[ii]] *)
Definition a_take (a : arr) (ii : list nat) : arr :=
  match a with
  | A1 l => A1 (take 0 l ii)
  | A2 n r => A2 n (take [] r ii)
  end.
(** [(a == b).all()] for arrays of the same shape. *)
Definition a_eqb (a b : arr) : bool :=
  match a, b with
  | A1 l, A1 l' => if list_eq_dec Z.eq_dec l l' then true else false
  | A2 _ r, A2 _ r' => if list_eq_dec (list_eq_dec Z.eq_dec) r r' then true else false
  | _, _ => false
  end.

(** utils.py l.306-330 [map_permutations]. *)
Definition map_permutations (s1 s2 : arr) (check_same_items : bool) : res (list nat) :=
  if negb (Nat.eqb (a_len s1) (a_len s2)) then Err AssertionError else
  do i1 <- argsort_rows s1;
  do i2 <- argsort_rows s2;
  if check_same_items && negb (same_shape s1 s2) then Err AssertionError else
  if check_same_items && negb (a_eqb (a_take s1 i1) (a_take s2 i2)) then Err AssertionError else
  let ii := argsort (map Z.of_nat i2) in
  Ok (take 0%nat i1 ii).
End Argsort.

(** utils.py l.348-358 [chunk_arrays]: the list of the yielded items; [None] when
    the generator does not end ([chunk_size] 0).  All arrays have the length of
    the first one. *)
Fixpoint chunk_loop {A} (fuel : nat) (arrs : list (list A)) (chunk_size ii : nat)
  : option (list (list (list A))) :=
  match fuel with
  | O => None
  | S f =>
      if Nat.ltb ii (length (hd [] arrs)) then
        match chunk_loop f arrs chunk_size (ii + chunk_size) with
        | None => None
        | Some r => Some (map (fun a => firstn chunk_size (skipn ii a)) arrs :: r)
        end
      else Some []
  end.
Definition chunk_arrays {A} (arrs : list (list A)) (chunk_size : nat) :=
  chunk_loop (S (length (hd [] arrs))) arrs chunk_size 0.

(** utils.py l.229-249 [cycle]: [itertools.product] of ranges, the last index
    changes fastest. *)
Fixpoint cycle (bounds : list nat) : list (list nat) :=
  match bounds with
  | [] => [[]]
  | b :: t => flat_map (fun i => map (cons i) (cycle t)) (seq 0 b)
  end.

(** utils.py l.251-262 [assemble1d]: coo -> csr -> coo sums the duplicates: one
    item for each distinct index, in increasing order, then one fancy [+=]. *)
Definition assemble1d (out : list Z) (indx : list nat) (vals : list Z) : list Z :=
  let pairs := combine indx vals in
  let rows := unique indx in
  let data := map (fun r => fold_left Z.add
                (map snd (filter (fun p => Nat.eqb (fst p) r) pairs)) 0) rows in
  put out rows (map (fun p => nth (fst p) out 0 + snd p) (combine rows data)).

(** A naive NumPy [ar_out[indx] += ar_in], for comparison. *)
Definition fancy_iadd (out : list Z) (indx : list nat) (vals : list Z) : list Z :=
  put out indx (map (fun p => nth (fst p) out 0 + snd p) (combine indx vals)).
