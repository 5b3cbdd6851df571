(** Model: regions (sfepy/discrete/common/region.py, domain.py, parse_regions.py). *)
From Verif Require Import Base M_mesh.
Open Scope nat_scope.

(** The mesh: [rows d1 d2] lists for each entity of dimension [d1] its incident
    entities of dimension [d2]; [setup_connectivity] (mesh.c, modelled in
    M_mesh) provides it on demand, here it is simply available. *)
Definition mesh_rows := nat -> nat -> list (list nat).
(** Number of entities of dimension [d]. *)
Definition n_ent (M : mesh_rows) (d : nat) : nat := length (M d 0).
Definition cm_complete (M : mesh_rows) (dim : nat) (ents : list nat) (dent : nat) : list nat :=
  get_complete (of_rows (M dim dent)) (n_ent M dent) ents.
Definition cm_incident (M : mesh_rows) (dim : nat) (ents : list nat) (dent : nat) : list nat :=
  get_incident (of_rows (M dent dim)) ents.

(** true_kind: the base kind and the "_only" flag. *)
Inductive base := KCell | KFace | KEdge | KVertex.
Record rkind := mk_kind { k_base : base; k_only : bool }.

(** region.py l.113-128, __facet_kinds *)
Definition facet_base (tdim : nat) : base :=
  match tdim with 1 => KVertex | 2 => KEdge | _ => KFace end.

(** region.py l.102-112, __can; l.262-276 of set_kind: the positions used for
    the given dimension. *)
Definition can4 (k : rkind) : list bool :=
  match k_base k, k_only k with
  | KCell, false => [true; true; true; true]
  | KFace, false => [true; true; true; false]
  | KEdge, false => [true; true; false; false]
  | KVertex, _ => [true; false; false; false]
  | KCell, true => [false; false; false; true]
  | KFace, true => [false; false; true; false]
  | KEdge, true => [false; true; false; false]
  end.
Definition can (tdim : nat) (k : rkind) (d : nat) : bool :=
  let c := can4 k in
  match tdim with
  | 1 => nth d [nth 0 c false; nth 3 c false] false
  | 2 => nth d [nth 0 c false; nth 1 c false; nth 3 c false] false
  | _ => nth d c false
  end.

(** region.py l.284-295, set_kind_tdim *)
Definition kind_tdim (tdim : nat) (k : rkind) : nat :=
  match k_base k with KVertex => 0 | KEdge => 1 | KFace => 2 | KCell => tdim end.

(** Region: [r_ents] are the entities by dimension, [None] = not yet
    determined. *)
Record region := mk_region { r_tdim : nat; r_kind : rkind; r_ents : list (option (list nat)); r_is_empty : bool }.
Definition ents_of (r : region) (d : nat) : option (list nat) := nth d (r_ents r) None.
Definition set_ents (r : region) (d : nat) (v : list nat) : region :=
  mk_region (r_tdim r) (r_kind r) (upd (r_ents r) d (Some v)) (r_is_empty r).
Definition set_is_empty (r : region) (b : bool) : region :=
  mk_region (r_tdim r) (r_kind r) (r_ents r) b.

(** region.py l.278-282 of set_kind: the entities that cannot be present are
    emptied. *)
Definition set_kind (r : region) (k : rkind) : region :=
  mk_region (r_tdim r) k
    (map (fun d => if can (r_tdim r) k d then ents_of r d else Some []) (seq 0 (S (r_tdim r)))) (r_is_empty r).
(** region.py l.214-252, __init__ *)
Definition new_region (tdim : nat) (k : rkind) : region :=
  set_kind (mk_region tdim k (repeat None (S tdim)) false) k.

(** region.py l.303-308, 336-341, 358-363, 410-415: the setters. *)
Definition set_entities (r : region) (d : nat) (v : list nat) : res region :=
  if can (r_tdim r) (r_kind r) d then Ok (set_ents r d v) else Err ValueError.

(** region.py l.448-452: the highest dimension with nonempty entities. *)
Definition nonempty (o : option (list nat)) : bool :=
  match o with Some (_ :: _) => true | _ => false end.
Definition highest (r : region) : option nat :=
  find (fun d => nonempty (ents_of r d)) (rev (seq 0 (S (r_tdim r)))).

Definition get_or (o : option (list nat)) : list nat := match o with Some v => v | None => [] end.

(** region.py l.441-490, setup_from_highest *)
Definition setup_from_highest (M : mesh_rows) (r : region) (dim : nat) (allow_lower allow_empty : bool) : res region :=
  if negb (can (r_tdim r) (r_kind r) dim) then Ok r else
  match highest r with
  | None =>
      if negb (allow_empty || r_is_empty r) then Err ValueError else
      let r1 := match ents_of r dim with None => set_ents r dim [] | Some _ => r end in
      Ok (set_is_empty r1 true)
  | Some idim =>
      if idim <=? dim then
        if negb (allow_lower || allow_empty) then Err ValueError else
        if allow_lower then
          (* get_entities(idim): already determined *)
          Ok (set_ents r dim (cm_complete M dim (get_or (ents_of r idim)) idim))
        else
          Ok (set_is_empty (fold_left (fun r d => set_ents r d []) (rev (seq 0 (kind_tdim (r_tdim r) (r_kind r)))) r) true)
      else
        Ok (set_ents r dim (unique (cm_incident M dim (get_or (ents_of r idim)) idim)))
  end.

(** region.py l.297-301 (vertices), 310-327 (edges), 343-356 (faces), 399-408
    (cells), 417-438 (_access), 492-502 (setup_from_vertices): make the
    entities of dimension [d <= tdim] available.  A getter calls other getters;
    Python's recursion limit (RecursionError, a RuntimeError) is the fuel. *)
Definition kind_is (r : region) (d : nat) : bool :=
  match k_base (r_kind r), d with KEdge, 1 => true | KFace, 2 => true | _, _ => false end.
Fixpoint access (M : mesh_rows) (fuel : nat) (r : region) (d : nat) : res region :=
  match fuel with
  | 0 => Err RuntimeError
  | S fuel' =>
      match ents_of r d with
      | Some _ => Ok r
      | None =>
          if (d =? r_tdim r) || (negb (d =? 0) && kind_is r d) then
            (* setup_from_vertices(d) *)
            if negb (can (r_tdim r) (r_kind r) d) then Ok r else
            do r1 <- access M fuel' r 0;
            Ok (set_ents r1 d (cm_complete M d (get_or (ents_of r1 0)) 0))
          else
            do r1 <- access M fuel' r (S d);
            setup_from_highest M r1 d true false
      end
  end.
(** Any recursion limit above 8 gives the same results. *)
Definition rec_limit : nat := 10.

(** region.py l.575-585, get_entities; the updated region and the entities. *)
Definition get_entities (M : mesh_rows) (r : region) (d : nat) : res (region * list nat) :=
  if d <=? r_tdim r then
    do r1 <- access M rec_limit r d; Ok (r1, get_or (ents_of r1 d))
  else Ok (r, []).

(** region.py l.504-531, finalize *)
Definition finalize_dims (M : mesh_rows) (allow_empty : bool) (dims : list nat) (r0 : region) : res region :=
  fold_left (fun acc d =>
    do r <- acc;
    if can (r_tdim r) (r_kind r) d && match ents_of r d with Some _ => true | None => false end
    then setup_from_highest M r d false allow_empty else Ok r) dims (Ok r0).
Definition finalize (M : mesh_rows) (r : region) (allow_empty : bool) : res region :=
  let k := kind_tdim (r_tdim r) (r_kind r) in
  do r1 <- access M rec_limit r k;
  let is_empty := length (get_or (ents_of r1 k)) =? 0 in
  do r2 <- (if allow_empty then Ok (set_is_empty r1 is_empty)
            else if is_empty then Err ValueError else Ok r1);
  finalize_dims M allow_empty (rev (seq 0 k)) r2.

(** region.py l.121-125, __op_to_fun *)
Inductive rop := OpAdd | OpSub | OpMul.
Definition op_fun (o : rop) : list nat -> list nat -> list nat :=
  match o with OpAdd => union1d | OpSub => setdiff1d | OpMul => intersect1d end.

(** region.py l.533-571, eval_op_*: [d] is the dimension of the entities
    (facets: tdim - 1); returns the operands (possibly with more entities
    determined) and the new region of the kind of the first operand. *)
Definition eval_op (M : mesh_rows) (d : nat) (o : rop) (r1 r2 : region) : res (region * region * region) :=
  do (r1', e1) <- get_entities M r1 d;
  do (r2', e2) <- get_entities M r2 d;
  do t <- set_entities (new_region (r_tdim r1) (r_kind r1)) d (op_fun o e1 e2);
  Ok (r1', r2', t).

(** region.py l.129-206, from_vertices, from_facets, from_cells *)
Definition from_entities (tdim : nat) (k : rkind) (d : nat) (v : list nat) : res region :=
  set_entities (new_region tdim k) d v.

(** region.py l.766-778, contains: the returned number, used as a truth value. *)
Definition region_contains (M : mesh_rows) (r other : region) : res (region * nat) :=
  let d := kind_tdim (r_tdim other) (r_kind other) in
  do (r', se) <- get_entities M r d;
  Ok (r', length (intersect1d se (get_or (ents_of other d)))).

(** region.py l.74-81, are_disjoint *)
Definition are_disjoint (M : mesh_rows) (r1 r2 : region) : res bool :=
  do (_, v1) <- get_entities M r1 0;
  do (_, v2) <- get_entities M r2 0;
  Ok (length (intersect1d v1 v2) =? 0).

(** cmesh.pyx l.499-508, get_surface_facets *)
Definition surface_facets (M : mesh_rows) (tdim : nat) : list nat :=
  nonzero (fun row => length row =? 1) (M (tdim - 1) tdim).

(** region.py l.587-618, get_cells(true_cells_only=False) for a region without
    cells: [pcells] are the cells of the parent region, if given. *)
Definition facet_cells (M : mesh_rows) (tdim : nat) (facets : list nat) (pcells : option (list nat)) : list nat :=
  let out := cm_incident M tdim facets (tdim - 1) in
  match pcells with None => out | Some pc => filter (fun c => memb c pc) out end.

(** [nm.bincount(pos, weights=ip)] *)
Definition bincount (pos : list nat) (ip : list bool) : list nat :=
  let n := match pos with [] => 0 | _ => S (fold_right Nat.max 0 pos) end in
  map (fun k => length (filter (fun p => (fst p =? k) && snd p) (combine pos ip))) (seq 0 n).
(** [nm.diff] *)
Definition diffs (offs : list nat) : list nat :=
  map (fun k => nth (S k) offs 0 - nth k offs 0) (seq 0 (length offs - 1)).

(** region.py l.642-670, get_facet_indices: the (cell, local facet) pairs.
    [None] is the "entity not found" error of mesh.c. *)
Definition facet_indices (M : mesh_rows) (tdim : nat) (facets : list nat) (pcells : option (list nat))
  : option (list (nat * nat)) :=
  let c := of_rows (M (tdim - 1) tdim) in
  let cells := get_incident c facets in
  let offs := get_incident_offsets c facets in
  let '(cells1, offs1) :=
    match pcells with
    | None => (cells, offs)
    | Some pc =>
        let ip := map (fun x => memb x pc) cells in
        let pos := concat (map (fun k => repeat k (nth k (diffs offs) 0)) (seq 0 (length facets))) in
        (filter (fun x => memb x pc) cells, cumsum 0 (bincount pos ip))
    end in
  match get_local_ids (of_rows (M tdim (tdim - 1))) facets cells1 offs1 with
  | None => None
  | Some ii => Some (combine cells1 ii)
  end.

(** [nm.searchsorted(a, x)] (left): the loop of NumPy's binary search, also on
    unsorted data. *)
Fixpoint bs_loop (fuel : nat) (a : list nat) (x lo hi : nat) : nat :=
  match fuel with
  | 0 => lo
  | S f => if lo <? hi then
             let mid := lo + (hi - lo) / 2 in
             if nth mid a 0 <? x then bs_loop f a x (S mid) hi else bs_loop f a x lo mid
           else lo
  end.
Definition searchsorted (a : list nat) (x : nat) : nat := bs_loop (S (length a)) a x 0 (length a).
(** region.py l.620-640, get_cell_indices: [fcells] are the cells of the region. *)
Definition get_cell_indices (fcells cells : list nat) : res (list nat) :=
  if negb (forallb (fun c => memb c fcells) cells) then Err ValueError else
  let iis := map (searchsorted fcells) cells in
  if negb (forallb (fun i => i <? length fcells) iis) then Err IndexError else
  if negb (forallb (fun p => nth (fst p) fcells 0 =? snd p) (combine iis cells)) then Err AssertionError else Ok iis.

(** ** The grammar and its stack, parse_regions.py *)
Section Grammar.
Variable leaf : Type.
Variable oper : Type.
Inductive tok := TLeaf (a : leaf) | TOp (o : oper) | TL | TR.
(** A stack item: a leaf or an operator. *)
Inductive item := ILeaf (a : leaf) | IOp (o : oper).

(** parse_regions.py l.170-185: [region_expression = atom (op region_expression)*],
    [atom = leaf | "(" region_expression ")"]; a leaf is pushed when recognised,
    an operator after the whole right operand.  [None]: ParseException.  The
    text level (pyparsing words, keywords) is not modelled. *)
Fixpoint parse_expr (fuel : nat) (ts : list tok) (st : list item) : option (list tok * list item) :=
  match fuel with
  | 0 => None
  | S f =>
      match parse_atom f ts st with
      | None => None
      | Some (ts1, st1) => parse_aux f ts1 st1
      end
  end
with parse_atom (fuel : nat) (ts : list tok) (st : list item) : option (list tok * list item) :=
  match fuel with
  | 0 => None
  | S f =>
      match ts with
      | TLeaf a :: ts1 => Some (ts1, st ++ [ILeaf a])
      | TL :: ts1 =>
          match parse_expr f ts1 st with
          | Some (TR :: ts2, st2) => Some (ts2, st2)
          | _ => None
          end
      | _ => None
      end
  end
with parse_aux (fuel : nat) (ts : list tok) (st : list item) : option (list tok * list item) :=
  (* ZeroOrMore(aux): when [aux] does not match, stop and succeed *)
  match fuel with
  | 0 => None
  | S f =>
      match ts with
      | TOp o :: ts1 =>
          match parse_expr f ts1 st with
          | Some (ts2, st2) => parse_aux f ts2 (st2 ++ [IOp o])
          | None => Some (ts, st)
          end
      | _ => Some (ts, st)
      end
  end.
(** StringStart + region_expression + StringEnd *)
Definition parse (ts : list tok) (st : list item) : option (list item) :=
  match parse_expr (4 * length ts + 4) ts st with Some ([], st') => Some st' | _ => None end.

(** parse_regions.py l.56-78, visit_stack: pops from the end. *)
Variable value : Type.
Variable op_visitor : oper -> value -> value -> value.
Variable leaf_visitor : leaf -> value.
Fixpoint visit (fuel : nat) (st : list item) : res (value * list item) :=
  match fuel with
  | 0 => Err OutOfFuel
  | S f =>
      match rev st with
      | [] => Err IndexError
      | ILeaf a :: _ => Ok (leaf_visitor a, removelast st)
      | IOp o :: _ =>
          do (v2, st2) <- visit f (removelast st);
          do (v1, st1) <- visit f st2;
          Ok (op_visitor o v1 v2, st1)
      end
  end.
Definition visit_stack (st : list item) : res (value * list item) := visit (S (length st)) st.
End Grammar.
