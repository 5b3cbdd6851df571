(** Model: mesh connectivities (sfepy/discrete/common/extmods/mesh.c, cmesh.pyx). *)
From Verif Require Import Base.
Open Scope nat_scope.

(** MeshConnectivity, mesh.h: [num] entities, [offsets] (num + 1 items) and
    flat [indices]; [None] stands for UINT32_None. *)
Record conn := mk_conn { c_off : list nat; c_ind : list (option nat) }.

Definition c_num (c : conn) : nat := length (c_off c) - 1.

(** mei_init_conn / mei_go / mei_next (mesh.c l.134-192) and me_get_incident2
    (l.1193-1200): the entities incident to the entity [i]. *)
Definition crow (c : conn) (i : nat) : list (option nat) :=
  firstn (nth (S i) (c_off c) 0 - nth i (c_off c) 0) (skipn (nth i (c_off c) 0) (c_ind c)).

(** The same for a filled connectivity. *)
Definition unsome (o : option nat) : nat := match o with Some x => x | None => 0 end.
Definition irow (c : conn) (i : nat) : list nat := map unsome (crow c i).

(** A connectivity with all slots filled, given by its rows (data from Python:
    cmesh.pyx, CConnectivity). *)
Fixpoint cumsum (acc : nat) (l : list nat) : list nat :=
  match l with [] => [acc] | x :: t => acc :: cumsum (acc + x) t end.
Definition of_rows (rows : list (list nat)) : conn :=
  mk_conn (cumsum 0 (map (@length nat) rows)) (map Some (concat rows)).

(** mesh.c l.301-324, conn_set_to_free: put [x] to the first free slot of the
    row [i]; [None] is the "no free connectivity position" error. *)
Fixpoint first_free (inds : list (option nat)) (k num : nat) : option nat :=
  match num with
  | 0 => None
  | S n => match nth k inds (Some 0) with None => Some k | Some _ => first_free inds (S k) n end
  end.
Definition conn_set_to_free (c : conn) (i x : nat) : option conn :=
  match first_free (c_ind c) (nth i (c_off c) 0) (nth (S i) (c_off c) 0 - nth i (c_off c) 0) with
  | None => None
  | Some k => Some (mk_conn (c_off c) (upd (c_ind c) k (Some x)))
  end.

(** The two-pass pattern of mesh_transpose and mesh_intersect.  [evs] are the
    pairs (row, incident) in the order of the loops.
    Pass 1: [nd2[row]++]; then the cumsum; pass 2: conn_set_to_free. *)
Definition count_rows (n : nat) (evs : list (nat * nat)) : list nat :=
  fold_left (fun cnt e => upd cnt (fst e) (S (nth (fst e) cnt 0))) evs (repeat 0 n).
Definition alloc_rows (caps : list nat) : conn :=
  let off := cumsum 0 caps in mk_conn off (repeat None (last off 0)).
Definition fill (evs : list (nat * nat)) (c : conn) : option conn :=
  fold_left (fun oc e => match oc with None => None | Some c => conn_set_to_free c (fst e) (snd e) end) evs (Some c).

(** mesh.c l.570-625, mesh_transpose: [c21] is d2 -> d1, [n2 = num[d2]],
    [n1 = num[d1]]. *)
Definition transpose_events (c21 : conn) (n2 : nat) : list (nat * nat) :=
  concat (map (fun j => map (fun i => (i, j)) (irow c21 j)) (seq 0 n2)).
Definition mesh_transpose (c21 : conn) (n2 n1 : nat) : option conn :=
  let evs := transpose_events c21 n2 in
  fill evs (alloc_rows (count_rows n1 evs)).

(** mesh.c l.1202-1221, contains *)
Definition contains (i1 i2 : list nat) : bool :=
  forallb (fun v2 => existsb (fun v1 => v1 =? v2) i1) i2.

(** mesh.c l.659-690 and l.705-735: the loops over [it3], [it2] for one [it1].
    [cands] are the visited [it2] in the order of the loops, [ok] is the
    condition for an entity not masked; returns the final mask and the accepted
    entities. *)
Fixpoint mask_loop (ok : nat -> bool) (cands : list nat) (mask : list bool) : list bool * list nat :=
  match cands with
  | [] => (mask, [])
  | x :: t =>
      if nth x mask false then mask_loop ok t mask
      else let '(m', out) := mask_loop ok t (upd mask x true) in
           (m', if ok x then x :: out else out)
  end.
Definition clear_mask (cands : list nat) (mask : list bool) : list bool :=
  fold_left (fun m x => upd m x false) cands mask.

(** The entities [it2] met from [it1] through [c13], [c32]. *)
Definition candidates (c13 c32 : conn) (i : nat) : list nat :=
  concat (map (irow c32) (irow c13 i)).

(** mesh.c l.628-740, mesh_intersect.  [same] is [d1 == d2]; [c10], [c20] are
    used for [d1 > d2] only. *)
Definition accept (same : bool) (c10 c20 : conn) (i j : nat) : bool :=
  if same then negb (i =? j) else contains (irow c10 i) (irow c20 j).
Fixpoint intersect_pass (same : bool) (c13 c32 c10 c20 : conn) (is : list nat) (mask : list bool)
  : list bool * list (nat * nat) :=
  match is with
  | [] => (mask, [])
  | i :: t =>
      let cs := candidates c13 c32 i in
      let '(m1, out) := mask_loop (accept same c10 c20 i) cs (clear_mask cs mask) in
      let '(m2, evs) := intersect_pass same c13 c32 c10 c20 t m1 in
      (m2, map (fun j => (i, j)) out ++ evs)
  end.
Definition mesh_intersect (same : bool) (c13 c32 c10 c20 : conn) (n1 n2 : nat) : option conn :=
  let '(m1, evs1) := intersect_pass same c13 c32 c10 c20 (seq 0 n1) (repeat false n2) in
  let '(_, evs2) := intersect_pass same c13 c32 c10 c20 (seq 0 n1) m1 in
  fill evs2 (alloc_rows (count_rows n1 evs1)).

(** mesh.c l.341-385, mesh_setup_connectivity for d1 = d2 = D: D -> 0 is given,
    0 -> D by transposition, D -> D by mesh_intersect through vertices. *)
Definition no_conn : conn := mk_conn [] [].
Definition setup_DD (cD0 : conn) (n_cell n_vert : nat) : option conn :=
  match mesh_transpose cD0 n_cell n_vert with
  | None => None
  | Some c0D => mesh_intersect true cD0 c0D no_conn no_conn n_cell n_cell
  end.

(** mesh.c l.341-385, mesh_setup_connectivity for d1 > d2 > 0 when both d1 -> 0
    and d2 -> 0 exist (3D faces -> edges): 0 -> d2 by transposition, then
    mesh_intersect with the inclusion test. *)
Definition setup_d1d2 (c10 c20 : conn) (n1 n2 n_vert : nat) : option conn :=
  match mesh_transpose c20 n2 n_vert with
  | None => None
  | Some c02 => mesh_intersect false c10 c02 c10 c20 n1 n2
  end.

(** mesh.c l.341-385, mesh_setup_connectivity for d1 = d2 = 0: through cells. *)
Definition setup_00 (cD0 : conn) (n_cell n_vert : nat) : option conn :=
  match mesh_transpose cD0 n_cell n_vert with
  | None => None
  | Some c0D => mesh_intersect true c0D cD0 no_conn no_conn n_vert n_vert
  end.

(** ** Sorting networks, mesh.c l.1269-1356 *)
Definition cswap (i j : nat) (p : list nat) : list nat :=
  let a := nth i p 0 in let b := nth j p 0 in
  if b <? a then upd (upd p i b) j a else p.
Definition SORT4 (p : list nat) : list nat :=
  cswap 0 1 (cswap 1 2 (cswap 0 1 (cswap 2 3 (cswap 1 2 (cswap 0 1 p))))).
Definition SORT3 (p : list nat) : list nat := cswap 0 1 (cswap 1 2 (cswap 0 1 p)).
Definition SORT2 (p : list nat) : list nat := cswap 0 1 p.

(** l.1294-1313, uint32_sort234_copy; l.1242-1267, the sort part of
    sort_local_connectivity. *)
Definition sort234 (p : list nat) : list nat :=
  match length p with 2 => SORT2 p | 3 => SORT3 p | 4 => SORT4 p | _ => p end.

Definition ltk (p : list nat) (i j w : nat) : nat := if nth i p 0 <? nth j p 0 then w else 0.
(** l.1346-1355, l.1332-1344, l.1315-1330: the returned keys *)
Definition key2 (p : list nat) : nat := ltk p 0 1 1.
Definition key3 (p : list nat) : nat := ltk p 0 1 1 + ltk p 0 2 2 + ltk p 1 2 4.
Definition key4 (p : list nat) : nat :=
  ltk p 0 1 1 + ltk p 0 2 2 + ltk p 1 2 4 + ltk p 0 3 8 + ltk p 1 3 16 + ltk p 2 3 32.
(** l.1242-1267, sort_local_connectivity: the key; for other numbers of items
    the key of the previous entity (initially -1) is stored - [prev]. *)
Definition ori_key (prev : option nat) (p : list nat) : option nat :=
  match length p with 2 => Some (key2 p) | 3 => Some (key3 p) | 4 => Some (key4 p) | _ => prev end.

(** ** mesh_build, mesh.c l.400-567 *)

(** l.1223-1240, get_local_connectivity: vertices of the local entities. *)
Definition local_conn (cell : list nat) (ref : list (list nat)) : list (list nat) :=
  map (map (fun i => nth i cell 0)) ref.

(** The state: D -> d, d -> 0 as offsets and flat indices, orientations. *)
Record bstate := mk_b { b_cDd : conn; b_off : list nat; b_ind : list nat; b_ori : list (option nat) }.
(** [id] *)
Definition b_id (st : bstate) : nat := length (b_off st) - 1.

(** l.489-506: is the entity [e] equal to the sorted local entity [s]?  The
    first [n_loc] vertices from the offset of [e] are read, whatever the size
    of [e]. *)
Definition same_entity (st : bstate) (s : list nat) (e : nat) : bool :=
  let n := length s in
  let facet := sort234 (firstn n (skipn (nth e (b_off st) 0) (b_ind st ++ repeat 0 n))) in
  forallb (fun p => fst p =? snd p) (combine facet s).

(** l.483-512: search the entities of the neighbouring cells with a smaller
    number. *)
Definition find_entity (cDD : conn) (st : bstate) (ic : nat) (s : list nat) : option nat :=
  find (same_entity st s)
    (concat (map (fun jc => if ic <=? jc then [] else irow (b_cDd st) jc) (irow cDD ic))).

(** l.533-544: the position of the last used item of the row. *)
Fixpoint last_used (inds : list (option nat)) (k num : nat) : nat :=
  match num with
  | 0 => k
  | S n => match nth (k + n) inds None with Some _ => k + n | None => last_used inds k n end
  end.

(** l.479-545, one local entity [g] (global vertices) of the cell [ic]. *)
Definition build_entity (cDD : conn) (ic : nat) (st : bstate) (gk : list nat * option nat) : option bstate :=
  let '(g, key) := gk in
  let s := sort234 g in
  let set_ori (c : conn) (ori : list (option nat)) :=
    upd ori (last_used (c_ind c) (nth ic (c_off c) 0) (nth (S ic) (c_off c) 0 - nth ic (c_off c) 0)) key in
  match find_entity cDD st ic s with
  | Some e =>
      match conn_set_to_free (b_cDd st) ic e with
      | None => None
      | Some c => Some (mk_b c (b_off st) (b_ind st) (set_ori c (b_ori st)))
      end
  | None =>
      match conn_set_to_free (b_cDd st) ic (b_id st) with
      | None => None
      | Some c => Some (mk_b c (b_off st ++ [last (b_off st) 0 + length g]) (b_ind st ++ g) (set_ori c (b_ori st)))
      end
  end.

Fixpoint keys_from (prev : option nat) (gs : list (list nat)) : list (option nat) :=
  match gs with [] => [] | g :: t => let k := ori_key prev g in k :: keys_from k t end.

Definition build_cell (cD0 cDD : conn) (refs : nat -> list (list nat)) (ost : option bstate) (ic : nat) : option bstate :=
  let gs := local_conn (irow cD0 ic) (refs ic) in
  fold_left (fun ost gk => match ost with None => None | Some st => build_entity cDD ic st gk end)
    (combine gs (keys_from None gs)) ost.

(** [refs ic]: the reference local entities of the type of the cell [ic]
    ([locs[cell_types[ic]]]).  The C code ignores the return value of
    conn_set_to_free here; in the model a failure is [None], shown not to
    occur. *)
Definition mesh_build (cD0 cDD : conn) (refs : nat -> list (list nat)) (n_cell : nat) : option bstate :=
  let caps := map (fun ic => length (refs ic)) (seq 0 n_cell) in
  fold_left (build_cell cD0 cDD refs) (seq 0 n_cell)
    (Some (mk_b (alloc_rows caps) [0] [] (repeat None (last (cumsum 0 caps) 0)))).

(** mesh.c l.420-422: D -> D is set up first, if missing. *)
Definition build_entities (cD0 : conn) (refs : nat -> list (list nat)) (n_cell n_vert : nat) : option bstate :=
  match setup_DD cD0 n_cell n_vert with
  | None => None
  | Some cDD => mesh_build cD0 cDD refs n_cell
  end.

(** ** Queries *)

(** mesh.c l.742-792, cmesh.pyx l.510-555, get_incident with offsets. *)
Definition get_incident (c : conn) (ents : list nat) : list nat := concat (map (irow c) ents).
Definition get_incident_offsets (c : conn) (ents : list nat) : list nat :=
  match ents with [] => [] | _ => cumsum 0 (map (fun e => length (irow c e)) ents) end.

(** mesh.c l.842-884, cmesh.pyx l.593-630, get_complete: [c] is dim -> dent. *)
Definition get_complete (c : conn) (n_dent : nat) (ents : list nat) : list nat :=
  match ents with
  | [] => []
  | _ =>
      let mask := put1 (repeat false n_dent) ents true in
      filter (fun i => length (filter (fun e => nth e mask false) (irow c i)) =? length (irow c i))
             (seq 0 (c_num c))
  end.

(** mesh.c l.794-839, cmesh.pyx l.557-591, get_local_ids: [c] is dim -> dent;
    [None] is the "entity not found" error (the C code prints it and leaves
    the rest of the output uninitialised). *)
Fixpoint index_nat (x : nat) (l : list nat) : option nat :=
  match l with [] => None | y :: t => if x =? y then Some 0 else option_map S (index_nat x t) end.
Fixpoint all_some {A} (l : list (option A)) : option (list A) :=
  match l with
  | [] => Some []
  | Some x :: t => option_map (cons x) (all_some t)
  | None :: _ => None
  end.
Definition get_local_ids (c : conn) (ents incident offs : list nat) : option (list nat) :=
  all_some (concat (map (fun k =>
      map (fun ic => index_nat (nth k ents 0) (irow c (nth ic incident 0)))
          (seq (nth k offs 0) (nth (S k) offs 0 - nth k offs 0)))
    (seq 0 (length ents)))).
