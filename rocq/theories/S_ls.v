(** Specification of the matrix bookkeeping of the linear solvers. *)
From Coq Require Import QArith Qabs.
From Verif Require Import Base M_ls.
Import ListNotations.
Local Open Scope nat_scope.

(** A well formed CSR matrix of order [n], its items taking [w] words each. *)
Definition csr_ok (n w : nat) (m : csr) : Prop :=
  length (indptr m) = S n /\
  (forall i, i < n -> nth i (indptr m) 0 <= nth (S i) (indptr m) 0) /\
  nth n (indptr m) 0 = length (indices m) /\
  length (data m) = length (indices m) /\
  Forall (fun e => length e = w) (data m).

(** The matrix of an operation of a history. *)
Definition mats_of (o : op) : list cmat :=
  match o with Call m _ _ => [m] | Presolve m _ => [m] | Clear => [] end.
(** The operation determines the reuse by the digest. *)
Definition with_digest (o : op) : Prop :=
  match o with Call _ _ ud => ud = true | Presolve _ ud => ud = true | Clear => True end.
Definition without_digest (o : op) : Prop :=
  match o with Call _ _ ud => ud = false | Presolve _ ud => ud = false | Clear => False end.

(** The matrices of the calls, in order: the systems to be solved. *)
Definition calls (ops : list op) : list (cmat * bool) :=
  flat_map (fun o => match o with Call m up _ => [(m, up)] | _ => [] end) ops.

(** No two different matrices of the history have the same SHA1 digest. *)
Definition collision_free (sha1 : list nat -> nat) (ops : list op) : Prop :=
  forall m1 m2, In m1 (flat_map mats_of ops) -> In m2 (flat_map mats_of ops) ->
    sha1 (hash_input 100000 (cm_cnt m1)) = sha1 (hash_input 100000 (cm_cnt m2)) ->
    hash_input 100000 (cm_cnt m1) = hash_input 100000 (cm_cnt m2).

(** Every position is stored at most once, and (i, j) is stored iff (j, i). *)
Definition canonical (m : list entry) : Prop := NoDup (map fst m).
Definition sym_pattern (m : list entry) : Prop :=
  forall i j, In (i, j) (map fst m) -> In (j, i) (map fst m).
Definition has_off_diag (m : list entry) : Prop :=
  exists i j v, In ((i, j), v) m /\ i <> j.
