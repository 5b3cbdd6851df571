(** Model of parallel assembling: sfepy/parallel/parallel.py.  Each task
    assembles the vector and the matrix of its cells in a local numbering and
    puts them to global PETSc objects, here a list and a function; the tasks
    are executed in some order (MPI messages are not modelled, PETSc's
    [assemble()] is the completion of all insertions). *)
From Verif Require Import Base M_assemble M_parallel.
Set Implicit Arguments.

(** parallel.py l.386-387, l.407: owned and overlap cells of a task. *)
Definition local_cells (parts ovls : list (list nat)) (t : nat) : list nat :=
  union1d (nth t parts []) (nth t ovls []).
(** l.395-400, l.410-419: [id_map[field.econn[cells]]], expanded. *)
Definition petsc_conn (idm : list nat) (econn : nat -> list nat) (nc : nat) (cells : list nat) : list (list nat) :=
  map (fun c => map (fun d => nth d idm 0) (expand_dofs nc (econn c))) cells.
(** l.524-541 [get_local_ordering]; [junk] is the contents of [nm.empty()]. *)
Definition get_local_ordering (nc : nat) (junk : list nat) (lconn pconn : list (list nat)) : list nat :=
  put junk (concat (map (expand_dofs nc) lconn)) (concat pconn).

Section PAsm.
Variable V : Type.
Variables (v0 : V) (add mul : V -> V -> V) (is0 : V -> bool).

(** [prhs.setValues(rdofs, rhs, INSERT_VALUES)] with negative indices ([None]) ignored. *)
Fixpoint set_insert (p : list V) (rdofs : list (option nat)) (rhs : list V) : list V :=
  match rdofs, rhs with
  | Some i :: rd, x :: r => set_insert (upd p i x) rd r
  | None :: rd, _ :: r => set_insert p rd r
  | _, _ => p
  end.
(** [prhs.setValues(pdofs, rhs, ADD_VALUES)] *)
Fixpoint set_add (p : list V) (pdofs : list nat) (rhs : list V) : list V :=
  match pdofs, rhs with
  | i :: pd, x :: r => set_add (upd p i (add (nth i p v0) x)) pd r
  | _, _ => p
  end.
(** l.764-795 [assemble_rhs_to_petsc], one task. *)
Definition rdofs (pdofs : list nat) (lo hi : nat) : list (option nat) :=
  map (fun p => if (p <? lo) || (hi <=? p) then None else Some p) pdofs.
Definition assemble_rhs (is_overlap : bool) (prhs rhs : list V) (pdofs : list nat) (lo hi : nat) : list V :=
  if is_overlap then set_insert prhs (rdofs pdofs lo hi) rhs else set_add prhs pdofs rhs.

(** A matrix: a function of the row and the column. *)
Definition pmat := nat -> nat -> V.
Definition mset (m : pmat) (i j : nat) (x : V) : pmat := fun a b => if (a =? i) && (b =? j) then x else m a b.
(** The stored entries of a CSR matrix with [nr] rows, in order. *)
Definition csr_items (nr : nat) (prows cols : list nat) (data : list V) : list (nat * nat * V) :=
  concat (map (fun i => map (fun ik => (i, nth ik cols 0, nth ik data v0))
                          (seq (nth i prows 0) (nth (S i) prows 0 - nth i prows 0))) (seq 0 nr)).
(** l.797-840 [assemble_mtx_to_petsc], one task: with overlap, the rows that are
    not owned are zeroed and the zeros are eliminated before the insertion. *)
Definition assemble_mtx (is_overlap : bool) (pm : pmat) (nr : nat) (prows cols : list nat) (data : list V)
    (pdofs : list nat) (lo hi : nat) : pmat :=
  let items := csr_items nr prows cols data in
  let at_ i := nth i pdofs 0 in
  if is_overlap then
    let masked i := (at_ i <? lo) || (hi <=? at_ i) in
    let items := map (fun it => let '(i, j, x) := it in (i, j, if masked i then v0 else x)) items in
    let items := filter (fun it => negb (is0 (snd it))) items in
    fold_left (fun m it => let '(i, j, x) := it in mset m (at_ i) (at_ j) x) items pm
  else
    fold_left (fun m it => let '(i, j, x) := it in mset m (at_ i) (at_ j) (add (m (at_ i) (at_ j)) x)) items pm.
End PAsm.
