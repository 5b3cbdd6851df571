(** Model of the matrix bookkeeping of the linear solvers: the digest of a
    sparse matrix, the cached factorization of the direct solvers, and the
    symmetry test of the MUMPS interface.
    Source: sfepy/solvers/ls.py (l.30-60, 133-213, 840-951, 955-1004),
    sfepy/solvers/solvers.py (l.264). *)
From Coq Require Import QArith Qabs.
From Verif Require Import Base.
Import ListNotations.
Local Open Scope nat_scope.

(** The three arrays of a [csr_array] of order [length indptr - 1].  An item
    of [data] is given by its machine words (two 32 bit words for float64),
    an index by one word.  The data type of [data] is kept apart ([dt]):
    [tobytes] does not show it. *)
Record csr := Csr { indptr : list nat; indices : list nat;
                    data : list (list nat); dt : nat }.

(** ls.py l.31-35, [_gen_array_chunks]: slices of [chunk_size] items while the
    rest is not empty.  [fuel]: the generator stops after [len(arr)] slices at
    the latest (a zero [chunk_size] would loop; the default is 100000). *)
Fixpoint array_chunks {A} (tob : A -> list nat) (cs : nat) (fuel : nat)
    (arr : list A) (ii : nat) : list (list nat) :=
  match fuel with
  | 0 => []
  | S f => match skipn ii arr with
           | [] => []
           | _ => flat_map tob (firstn cs (skipn ii arr))
                  :: array_chunks tob cs f arr (ii + cs)
           end
  end.

(** ls.py l.30-46, [_get_cs_matrix_hash]: what is fed to SHA1. *)
Definition hash_input (cs : nat) (m : csr) : list nat :=
  let ch {A} (tob : A -> list nat) (arr : list A) :=
    concat (array_chunks tob cs (S (length arr)) arr 0) in
  ch (fun i => [i]) (indptr m) ++ ch (fun i => [i]) (indices m)
     ++ ch (fun e => e) (data m).

(** A matrix passed to a solver: the identity of the object, whether it is a
    [csr_array], and its contents at the time of the call (so an object
    modified in place is a new [cmat] with the same [cm_id]). *)
Record cmat := Cmat { cm_id : nat; cm_csr : bool; cm_cnt : csr }.

(** [LinearSolver.mtx_digest]: (id, digest), [None] for the Python None. The
    initial digest '' (solvers.py l.264) is no SHA1 digest: inner [None]. *)
Definition digest_t := option (nat * option nat).

Section Solver.
(** SHA1, as a function of the bytes; whether a factorization of a matrix
    exists (otherwise [factorized] raises). *)
Variable sha1 : list nat -> nat.
Variable fact_ok : csr -> bool.

Definition mhash (m : csr) : nat := sha1 (hash_input 100000 m).

(** ls.py l.48-62, [_is_new_matrix] with [force_reuse=False]. Unpacking a
    digest that is None raises TypeError. *)
Definition is_new_matrix (m : cmat) (d : digest_t) : res (bool * digest_t) :=
  if negb (cm_csr m) then Ok (true, d)
  else match d with
       | None => Err TypeError
       | Some (id0, dig0) =>
           let id1 := cm_id m in
           let dig1 := mhash (cm_cnt m) in
           let d1 := Some (id1, Some dig1) in
           if (id1 =? id0) && match dig0 with Some x => dig1 =? x | None => false end
           then Ok (false, d1) else Ok (true, d1)
       end.

(** The state of a [ScipyDirect] / [CholeskySolver] instance: the contents
    whose factorization [self.solve] holds, and [self.mtx_digest]. *)
Record dstate := DS { solve : option csr; mdig : digest_t }.

(** ls.py l.155 + solvers.py l.264. *)
Definition dinit : dstate := DS None (Some (0, None)).

(** ls.py l.198-202 *)
Definition dclear (st : dstate) : dstate := DS None (mdig st).

(** ls.py l.204-213 (and l.993-1003): [presolve]. *)
Definition dpresolve (st : dstate) (m : cmat) (use_digest : bool)
  : dstate * option err :=
  match (if use_digest then is_new_matrix m (mdig st) else Ok (false, None)) with
  | Err e => (st, Some e)
  | Ok (is_new, d) =>
      if is_new || match solve st with None => true | Some _ => false end
      then if fact_ok (cm_cnt m) then (DS (Some (cm_cnt m)) d, None)
           else (st, Some RuntimeError)
      else (st, None)
  end.

(** What a call does with its right-hand side: solve the system of the
    matrix with the given contents, or raise. *)
Inductive outcome := Solved (c : csr) | Raised (e : err).

Definition dapply (p : dstate * option err) : dstate * outcome :=
  let '(st, e) := p in
  match e with
  | Some e => (st, Raised e)
  | None => match solve st with
            | Some c => (st, Solved c)
            | None => (st, Raised TypeError)
            end
  end.

(** ls.py l.183-196, [ScipyDirect.__call__]. *)
Definition scipy_call (st : dstate) (m : cmat) (use_presolve use_digest : bool) :=
  if use_presolve then dapply (dpresolve st m use_digest)
  else (dclear st, Solved (cm_cnt m)).

(** ls.py l.983-991, [CholeskySolver.__call__]. *)
Definition chol_call (st : dstate) (m : cmat) (use_presolve use_digest : bool) :=
  dapply (dpresolve (if use_presolve then st else dclear st) m use_digest).

(** A history of one solver instance. *)
Inductive op :=
  | Call (m : cmat) (use_presolve use_digest : bool)
  | Presolve (m : cmat) (use_digest : bool)
  | Clear.

Definition dstep (call : dstate -> cmat -> bool -> bool -> dstate * outcome)
    (st : dstate) (o : op) : dstate * list outcome :=
  match o with
  | Call m up ud => let '(st', r) := call st m up ud in (st', [r])
  | Presolve m ud => (fst (dpresolve st m ud), [])
  | Clear => (dclear st, [])
  end.

(** The answers of the calls of a history, in order. *)
Fixpoint drun call (st : dstate) (ops : list op) : list outcome :=
  match ops with
  | [] => []
  | o :: t => let '(st', r) := dstep call st o in r ++ drun call st' t
  end.

(** The MUMPS interface.  [ls]: the symmetry flag, contents held by the
    external object and whether they are factorized.  [mumpspy]: which of the
    two Python packages is used. *)
Record mheld := MH { mh_sym : bool; mh_cnt : csr; mh_fact : bool }.
Record mstate := MS { mumps_ls : option mheld; mmdig : digest_t }.
Definition minit : mstate := MS None (Some (0, None)).
Definition mclear (st : mstate) : mstate := MS None (mmdig st).

Variable is_sym : csr -> res bool.
Variable mumpspy : bool.

(** ls.py l.916-948, [MUMPSSolver.presolve] with [factorize=True].  With
    mumpspy the flag is given when the object is created, with mumps whenever
    a matrix is set. *)
Definition mpresolve (st : mstate) (m : cmat) (use_digest : bool)
  : mstate * option err :=
  match (if use_digest then is_new_matrix m (mmdig st) else Ok (false, None)) with
  | Err e => (st, Some e)
  | Ok (is_new, d) =>
      if is_new || match mumps_ls st with None => true | Some _ => false end
      then match is_sym (cm_cnt m) with
           | Err e => (st, Some e)
           | Ok s =>
               let s' := match mumps_ls st with
                         | Some h => if mumpspy then mh_sym h else s
                         | None => s
                         end in
               if fact_ok (cm_cnt m)
               then (MS (Some (MH s' (cm_cnt m) true)) d, None)
               else (MS (Some (MH s' (cm_cnt m) false)) (mmdig st), Some RuntimeError)
           end
      else (st, None)
  end.

Inductive moutcome := MSolved (h : mheld) | MRaised (e : err).

(** ls.py l.900-907, [MUMPSSolver.__call__]. *)
Definition mumps_call (st : mstate) (m : cmat) (use_presolve use_digest : bool)
  : mstate * moutcome :=
  let '(st, e) := mpresolve (if use_presolve then st else mclear st) m use_digest in
  match e with
  | Some e => (st, MRaised e)
  | None => match mumps_ls st with
            | Some h => (st, MSolved h)
            | None => (st, MRaised TypeError)
            end
  end.

Definition mstep (st : mstate) (o : op) : mstate * list moutcome :=
  match o with
  | Call m up ud => let '(st', r) := mumps_call st m up ud in (st', [r])
  | Presolve m ud => (fst (mpresolve st m ud), [])
  | Clear => (mclear st, [])
  end.
Fixpoint mrun (st : mstate) (ops : list op) : list moutcome :=
  match ops with
  | [] => []
  | o :: t => let '(st', r) := mstep st o in r ++ mrun st' t
  end.
End Solver.

(** ** The symmetry test, ls.py l.869-892. *)

(** One stored entry of a [coo_array]: (row, col), value (a finite float, as
    the rational it is). *)
Definition entry := ((nat * nat) * Q)%type.

(** [nm.lexsort((k2, k1))]: a stable sort, [k1] first, [k2] next. *)
Definition lexle (a b : nat * nat) : bool :=
  (fst a <? fst b) || ((fst a =? fst b) && (snd a <=? snd b)).
Fixpoint ins (key : entry -> nat * nat) (x : entry) (l : list entry) :=
  match l with
  | [] => [x]
  | y :: t => if lexle (key x) (key y) then x :: l else y :: ins key x t
  end.
Definition lexsorted (key : entry -> nat * nat) (l : list entry) : list entry :=
  fold_right (ins key) [] l.

(** [data.max()], ValueError for an empty array. *)
Definition qmax (l : list Q) : res Q :=
  match l with
  | [] => Err ValueError
  | x :: t => Ok (fold_left (fun a b => if Qle_bool a b then b else a) t x)
  end.

(** [err / abs(mx) >= tol] in floating point: x/0 is inf for x > 0 and nan for
    x = 0. *)
Definition rel_ge (tol mx e : Q) : bool :=
  if Qeq_bool mx 0 then negb (Qle_bool e 0)
  else Qle_bool tol (e / Qabs mx).

Definition coo_is_symmetric (tol : Q) (m : list entry) : res bool :=
  let off := filter (fun e => negb (fst (fst e) =? snd (fst e))) m in
  let u := filter (fun e => fst (fst e) <? snd (fst e)) off in
  let l := filter (fun e => snd (fst e) <? fst (fst e)) off in
  if negb (length l =? length u) then Ok false
  else
    let us := lexsorted (fun e => (snd (fst e), fst (fst e))) u in
    let ls := lexsorted (fun e => fst e) l in
    do mx <- qmax (map snd u);
    if existsb (fun p => rel_ge tol mx (Qabs (snd (fst p) - snd (snd p))))
               (combine us ls)
    then Ok false else Ok true.
