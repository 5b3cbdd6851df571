(** Model of the task-level data of sfepy/parallel/parallel.py: partitioning of
    cells, interfaces of tasks, ownership and numbering of DOFs.  MPI messages
    and PETSc objects are not modelled (see M_passemble for the assembling). *)
From Verif Require Import Base.
Set Implicit Arguments.

(** ** Dictionaries with integer keys. *)
Fixpoint aget {A} (d : list (nat * A)) (k : nat) : option A :=
  match d with
  | [] => None
  | (k', v) :: t => if k =? k' then Some v else aget t k
  end.
Fixpoint aset {A} (d : list (nat * A)) (k : nat) (v : A) : list (nat * A) :=
  match d with
  | [] => [(k, v)]
  | (k', v') :: t => if k =? k' then (k', v) :: t else (k', v') :: aset t k v
  end.
Definition get_or {A} (d : list (nat * A)) (k : nat) (v : A) : A :=
  match aget d k with Some x => x | None => v end.
(** [d.setdefault(k, v)] *)
Definition setdefault {A} (d : list (nat * A)) (k : nat) (v : A) : list (nat * A) :=
  match aget d k with Some _ => d | None => aset d k v end.
(** base.py l.1437-1442 [ordered_iteritems]: by increasing keys. *)
Definition ordered_items {A} (d : list (nat * A)) (dflt : A) : list (nat * A) :=
  map (fun k => (k, get_or d k dflt)) (unique (map fst d)).

(** ** Partitioning without metis: parallel.py l.62-70. *)
Fixpoint cumsum_from (s : nat) (l : list nat) : list nat :=
  match l with [] => [] | x :: t => (s + x) :: cumsum_from (s + x) t end.
(** [nm.digitize(x, bins)] for increasing [bins]. *)
Definition digitize (x : nat) (bins : list nat) : nat :=
  length (filter (fun b => b <=? x) bins).
Definition cell_counts (n_el n_parts : nat) : list nat :=
  map (fun i => n_el / n_parts + (if i <? n_el mod n_parts then 1 else 0)) (seq 0 n_parts).
Definition partition_naive (n_el n_parts : nat) : res (list nat) :=
  let counts := cell_counts n_el n_parts in
  if negb (list_sum counts =? n_el) then Err AssertionError else
  if negb (forallb (fun c => 0 <? c) counts) then Err AssertionError else
  let offs := cumsum_from 0 (0 :: counts) in
  Ok (map (fun x => digitize x offs - 1) (seq 0 (last offs 0))).

(** ** The mesh and the field, as seen by this module. *)
Record fmesh := mkfmesh {
  f_ncell : nat;
  f_cfc : list (list nat);          (* facet-to-cell connectivity *)
  f_fverts : nat -> list nat;       (* vertices of a facet *)
  f_cverts : nat -> list nat;       (* vertices of a cell *)
  f_ndof : nat;                     (* field.n_nod *)
  f_econn : nat -> list nat;        (* DOFs of a cell: field.econn *)
  f_frow : nat -> nat -> list nat;  (* DOFs of a facet, in the order given by a cell: FESurface.econn *)
  f_fdofs : nat -> list nat;        (* field.get_dofs_in_region of one facet *)
  f_all : list nat }.               (* field.get_dofs_in_region(field.region) *)

(** parallel.py l.598-617 [expand_dofs] (of a flattened array);
    [edofs[idof::n] = n * dofs + idof]. *)
Definition expand_dofs (n : nat) (dofs : list nat) : list nat :=
  concat (map (fun d => map (fun i => n * d + i) (seq 0 n)) dofs).

(** ** parallel.py l.76-117 [get_inter_facets]. *)
Definition push (d : list (nat * list (nat * list nat))) (a b f : nat)
  : list (nat * list (nat * list nat)) :=
  let nt := get_or d a [] in
  aset d a (aset nt b (get_or nt b [] ++ [f])).
Definition facet_tasks (cell_tasks : list nat) (cells : list nat) : nat * nat :=
  (nth (nth 0 cells 0) cell_tasks 0, nth (nth 1 cells 0) cell_tasks 0).
(** l.91-95: inner facets (not surface ones, i.e. not in one cell only) with cells
    of two tasks. *)
Definition inter_list (m : fmesh) (cell_tasks : list nat) : list nat :=
  filter (fun f => let cells := nth f (f_cfc m) [] in
            negb (length cells =? 1) &&
            (let '(a, b) := facet_tasks cell_tasks cells in negb (a =? b)))
    (seq 0 (length (f_cfc m))).
Definition get_inter_facets (m : fmesh) (cell_tasks : list nat) : list (nat * list (nat * list nat)) :=
  fold_left (fun d f => let '(a, b) := facet_tasks cell_tasks (nth f (f_cfc m) []) in
               push (push d a b f) b a f) (inter_list m cell_tasks) [].

(** ** parallel.py l.119-296 [create_task_dof_maps]. *)
(** [[inner, [own_inter...], [overlap_cells...], n_task_total, task_offset]]. *)
Record dmap := mkdm {
  d_inner : option (list nat); d_inter : list (list nat); d_ovl : list (list nat);
  d_n : nat; d_off : nat }.
Definition dm0 : dmap := mkdm None [] [] 0 0.

Section Maps.
Variable m : fmesh.
Variable nc : nat.               (* n_components with use_expand_dofs, else 1 *)
Variable is_overlap : bool.
Variable cell_tasks : list nat.

(** [cmesh.get_incident(tdim, get_incident(0, facets, tdim - 1), 0)] l.239-241 *)
Definition cells_around (facets : list nat) : list nat :=
  let ovs := concat (map (f_fverts m) facets) in
  concat (map (fun v => filter (fun c => memb v (f_cverts m c)) (seq 0 (f_ncell m))) ovs).

(** The cell of the facet in the parent region (task [ir]); region.py l.656-664. *)
Definition cell_in (ir f : nat) : nat :=
  match find (fun c => nth c cell_tasks 0 =? ir) (nth f (f_cfc m) []) with Some c => c | None => 0 end.

(** l.228-243 and l.245-259: the DOFs not yet owned are given to the task [t]. *)
Definition half_step (t : nat) (rows : list (list nat)) (facets : list nat)
  (st : list nat * list (nat * dmap)) : list nat * list (nat * dmap) :=
  let '(idm, maps) := st in
  let dr := expand_dofs nc (unique (concat rows)) in
  let new := filter (fun d => nth d idm 1 =? 0) dr in
  if length new =? 0 then st else
  let dm := get_or maps t dm0 in
  (put1 idm new 1,
   aset maps t (mkdm (d_inner dm) (d_inter dm ++ [new])
                     (if is_overlap then d_ovl dm ++ [cells_around facets] else d_ovl dm)
                     (d_n dm + length new) (d_off dm))).
(** l.197-259: one neighbour. *)
Definition pair_step (ir : nat) (st : list nat * list (nat * dmap)) (nf : nat * list nat)
  : list nat * list (nat * dmap) :=
  let '(ic, facets) := nf in
  let '(idm, maps) := st in
  let maps := setdefault maps ic dm0 in
  let rows := map (fun f => f_frow m (cell_in ir f) f) facets in
  let ii2 := Nat.max (length rows / 2) 1 in
  half_step ic (skipn ii2 rows) (skipn ii2 facets)
    (half_step ir (firstn ii2 rows) (firstn ii2 facets) (idm, maps)).
Definition cells_of (ir : nat) : list nat := nonzero (Nat.eqb ir) cell_tasks.
(** l.184-271: one task. *)
Definition task_step (st : list nat * list (nat * dmap)) (tn : nat * list (nat * list nat))
  : res (list nat * list (nat * dmap)) :=
  let '(ir, ntasks) := tn in
  let '(idm, maps) := st in
  let dofs := expand_dofs nc (concat (map (f_econn m) (cells_of ir))) in
  let items := ordered_items ntasks [] in
  let '(idm, maps) := fold_left (pair_step ir) items (idm, setdefault maps ir dm0) in
  let inter_dofs := map (fun nf => expand_dofs nc (concat (map (f_fdofs m) (snd nf)))) items in
  let inner := setdiff1d dofs (concat inter_dofs) in
  if negb (forallb (fun d => nth d idm 1 =? 0) inner) then Err AssertionError else
  let dm := get_or maps ir dm0 in
  Ok (put1 idm inner 1,
      aset maps ir (mkdm (Some inner) (d_inter dm) (d_ovl dm) (d_n dm + length inner) (d_off dm))).
Fixpoint tasks_loop (items : list (nat * list (nat * list nat))) (st : list nat * list (nat * dmap))
  : res (list nat * list (nat * dmap)) :=
  match items with
  | [] => Ok st
  | tn :: t => do st <- task_step st tn; tasks_loop t st
  end.

(** l.273-296: numbering.  [None] for the inner DOFs is a TypeError. *)
Fixpoint number_inter (idm : list nat) (start : nat) (auxs : list (list nat)) : list nat * nat :=
  match auxs with
  | [] => (idm, start)
  | aux :: t => number_inter (put idm aux (seq start (length aux))) (start + length aux) t
  end.
Fixpoint number_loop (items : list (nat * dmap)) (idm : list nat) (offset : nat)
  : res (list (nat * dmap) * list nat * list (list nat)) :=
  match items with
  | [] => Ok ([], idm, [])
  | (ir, dm) :: t =>
      match d_inner dm with
      | None => Err TypeError
      | Some inner =>
          let idm := put idm inner (seq offset (length inner)) in
          let '(idm, stop) := number_inter idm (offset + length inner) (d_inter dm) in
          let ocs := unique (concat (d_ovl dm)) in
          if negb (stop - offset =? d_n dm) then Err AssertionError else
          do r <- number_loop t idm (offset + d_n dm);
          let '(maps, idm, ovls) := r in
          Ok ((ir, mkdm (d_inner dm) (d_inter dm) (d_ovl dm) (d_n dm) offset) :: maps, idm, ocs :: ovls)
      end
  end.

(** The result: dof_maps (by task), id_map, cell_parts, overlap_cells. *)
Definition create_task_dof_maps (inter : list (nat * list (nat * list nat)))
  : res (list (nat * dmap) * list nat * list (list nat) * list (list nat)) :=
  let n := f_ndof m * nc in
  let items := ordered_items inter [] in
  do st <- tasks_loop items (repeat 0 n, []);
  let '(idm, maps) := st in
  do r <- number_loop (ordered_items maps dm0) idm 0;
  let '(maps, idm, ovls) := r in
  let parts := map (fun tn => cells_of (fst tn)) items in
  let '(maps, idm) :=
    if length maps =? 0 then
      let dofs := expand_dofs nc (f_all m) in
      ([(0, mkdm (Some dofs) [] [] (length dofs) 0)], seq 0 (length dofs))
    else (maps, idm) in
  let parts := if length parts =? 0 then [seq 0 (length cell_tasks)] else parts in
  let ovls := if length ovls =? 0 then [[]] else ovls in
  Ok (maps, idm, parts, ovls).
End Maps.

(** ** parallel.py l.298-364 [verify_task_dof_maps].  The DOFs of a task:
    [dof_map[0]] and the arrays of [dof_map[1]]. *)
Definition dm_blocks (dm : dmap) : list (list nat) :=
  match d_inner dm with Some l => l :: d_inter dm | None => d_inter dm end.
Definition has_inner (dm : dmap) : bool := match d_inner dm with Some _ => true | None => false end.
(** l.329-331 and l.340-341, for one task. *)
Definition verify_range (idm : list nat) (dm : dmap) : res unit :=
  if negb (forallb (forallb (fun d => d <? length idm)) (dm_blocks dm)) then Err IndexError else
  if negb (forallb (forallb (fun d => (d_off dm <=? nth d idm 0) && (nth d idm 0 <? d_off dm + d_n dm)))
             (dm_blocks dm)) then Err AssertionError else Ok tt.
(** The loop l.321-345; the state is [vec], [dofs], [count], [count2]. *)
Fixpoint verify_loop (expanded : bool) (idm : list nat) (items : list (nat * dmap))
  (st : list nat * list nat * nat * nat) : res (list nat * list nat * nat * nat) :=
  match items with
  | [] => Ok st
  | (ir, dm) :: t =>
      let '(vec, dofs, count, count2) := st in
      if negb (has_inner dm) then Err TypeError else
      do _ <- (if expanded then Ok tt else verify_range idm dm);
      let ds := concat (dm_blocks dm) in
      if negb (forallb (fun d => d <? length vec) ds) then Err IndexError else
      verify_loop expanded idm t (put1 vec ds ir, dofs ++ ds, count + length ds, count2 + d_n dm)
  end.
(** [vec = nm.empty(...)]: the initial contents are arbitrary.
    l.352 [if not expand_dofs:] tests the function, not the argument
    [use_expand_dofs]: the comparison of [dofs] with [id_map] never runs. *)
Definition verify_task_dof_maps (expanded : bool) (junk : list nat) (maps : list (nat * dmap)) (idm : list nat)
  : res (list nat) :=
  let n_dof := length junk in
  do st <- verify_loop expanded idm (ordered_items maps dm0) (junk, [], 0, 0);
  let '(vec, dofs, count, count2) := st in
  if length maps =? 0 then Err ValueError else
  if negb (n_dof =? length dofs) then Err AssertionError else
  let dofs := unique dofs in
  if negb (n_dof =? length dofs) then Err AssertionError else
  if length dofs =? 0 then Err IndexError else
  if negb (n_dof =? last dofs 0 + 1) then Err AssertionError else
  if negb (n_dof =? count) then Err AssertionError else
  if negb (n_dof =? count2) then Err AssertionError else
  if negb (n_dof =? length idm) then Err AssertionError else
  if negb (n_dof =? length (unique idm)) then Err AssertionError else
  Ok vec.

(** ** parallel.py l.487-508: composite numbering of several fields,
    [distribute_fields_dofs].  A field: its DOF maps, its [id_map], [coffsets]. *)
Definition gfd : Type := (list (nat * dmap) * list nat * list nat)%type.
Definition dm_owned (dm : dmap) : list nat := concat (dm_blocks dm).
(** [gfd.id_map[iown] += offset - off], for arrays of distinct [iown];
    subtraction in machine integers, here in Z and back. *)
Definition shift_ids (idm iown : list nat) (offset off : nat) : list nat :=
  fold_left (fun m i => upd m i (Z.to_nat (Z.of_nat (nth i m 0) + (Z.of_nat offset - Z.of_nat off)))) iown idm.
(** One task: the loop over fields. *)
Fixpoint renumber_fields (ir : nat) (gs : list gfd) (offset : nat) : res (list gfd * nat) :=
  match gs with
  | [] => Ok ([], offset)
  | (maps, idm, coffs) :: t =>
      match aget maps ir with
      | None => Err KeyError
      | Some dm =>
          if negb (has_inner dm) then Err TypeError else
          do r <- renumber_fields ir t (offset + d_n dm);
          let '(t, off') := r in
          Ok ((maps, shift_ids idm (dm_owned dm) offset (d_off dm), coffs ++ [offset]) :: t, off')
      end
  end.
Fixpoint renumber_tasks (irs : list nat) (gs : list gfd) (offset : nat) : res (list gfd) :=
  match irs with
  | [] => Ok gs
  | ir :: t => do r <- renumber_fields ir gs offset; renumber_tasks t (fst r) (snd r)
  end.
Definition get_coffs (size : nat) (maps : list (nat * dmap)) : res (list nat) :=
  fold_right (fun ir r => do l <- r;
     match aget maps ir with Some dm => Ok (d_off dm :: l) | None => Err KeyError end) (Ok []) (seq 0 size).
Definition composite (size : nat) (fields : list (list (nat * dmap) * list nat)) : res (list gfd) :=
  match fields with
  | [(maps, idm)] => do cs <- get_coffs size maps; Ok [(maps, idm, cs)]
  | _ => renumber_tasks (seq 0 size) (map (fun f => (fst f, snd f, [])) fields) 0
  end.
