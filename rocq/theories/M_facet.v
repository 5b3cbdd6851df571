(** Model of sfepy/discrete/fem/facets.py (permutations of the DOFs of facets), of
    poly_spaces.py [NodeDescription] and of the DOF connectivity of a nodal field:
    fields_base.py [_setup_global_basis], [_setup_vertex_dofs], fields_nodal.py
    [GlobalNodalLikeBasis].

    The cells of the region are of one type; the region is of the topological dimension of the
    mesh (volume fields). *)
From Verif Require Import Base M_dofs M_mesh M_lagnodes.
Set Implicit Arguments.
Open Scope nat_scope.

(** range(num - 1, -1, -1) *)
Definition down (num : nat) : list nat := rev (seq 0 num).
(** facets.py l.121-127 *)
Definition iter0 (num : nat) : list nat := down num.
Definition iter1 (num : nat) : list nat := seq 0 num.
(** l.143-146 *)
Definition iter01 (num : nat) : list (nat * nat) := flat_map (fun ir => map (fun ic => (ir, ic)) (seq 0 (ir + 1))) (down num).
(** l.148-151: range(ir, -1, -1) *)
Definition iter10 (num : nat) : list (nat * nat) := flat_map (fun ir => map (fun ic => (ir, ic)) (down (ir + 1))) (down num).
(** l.153-156: range(num - 1, ic - 1, -1) *)
Definition iter02 (num : nat) : list (nat * nat) := flat_map (fun ic => map (fun ir => (ir, ic)) (rev (seq ic (num - ic)))) (seq 0 num).
(** l.158-161 *)
Definition iter20 (num : nat) : list (nat * nat) := flat_map (fun ic => map (fun ir => (ir, ic)) (seq ic (num - ic))) (seq 0 num).
(** l.163-167: diag_indices(n) are (0, 0), ..., (n - 1, n - 1) *)
Definition iter12 (num : nat) : list (nat * nat) := flat_map (fun idiag => map (fun ii => (ii + idiag, ii)) (down (num - idiag))) (seq 0 num).
(** l.169-173 *)
Definition iter21 (num : nat) : list (nat * nat) := flat_map (fun idiag => map (fun ii => (ii + idiag, ii)) (seq 0 (num - idiag))) (seq 0 num).
(** l.196-199 *)
Definition iter01x01y (num : nat) : list (nat * nat) := flat_map (fun ir => map (fun ic => (ir, ic)) (seq 0 num)) (seq 0 num).
Definition swap (p : nat * nat) : nat * nat := (snd p, fst p).
(** l.201-233 *)
Definition iter01y01x (num : nat) := map swap (iter01x01y num).
Definition iter10x01y (num : nat) : list (nat * nat) := flat_map (fun ir => map (fun ic => (ir, ic)) (seq 0 num)) (down num).
Definition iter10y01x (num : nat) := map swap (iter10x01y num).
Definition iter01x10y (num : nat) : list (nat * nat) := flat_map (fun ir => map (fun ic => (ir, ic)) (down num)) (seq 0 num).
Definition iter01y10x (num : nat) := map swap (iter01x10y num).
Definition iter10x10y (num : nat) : list (nat * nat) := flat_map (fun ir => map (fun ic => (ir, ic)) (down num)) (down num).
Definition iter10y10x (num : nat) := map swap (iter10x10y num).

(** l.129-132 *)
Definition ori_line_to_iter (key : nat) : option (nat -> list nat) :=
  match key with 0 => Some iter0 | 1 => Some iter1 | _ => None end.
(** l.175-182 *)
Definition ori_triangle_to_iter (key : nat) : option (nat -> list (nat * nat)) :=
  match key with 0 => Some iter21 | 1 => Some iter12 | 3 => Some iter02 | 4 => Some iter20 | 6 => Some iter10 | 7 => Some iter01 | _ => None end.
(** l.235-244 *)
Definition ori_square_to_iter (key : nat) : option (nat -> list (nat * nat)) :=
  match key with
  | 0 => Some iter10x01y | 7 => Some iter10y01x | 11 => Some iter01y01x | 30 => Some iter01x10y
  | 33 => Some iter10x10y | 52 => Some iter01y10x | 56 => Some iter10y10x | 63 => Some iter01x01y | _ => None end.
(** l.66-91 *)
Definition quad_ori_groups (key : nat) : option nat :=
  match key with
  | 0 => Some 0 | 1 => Some 0 | 3 => Some 7 | 4 => Some 0 | 6 => Some 7 | 7 => Some 7 | 11 => Some 11 | 15 => Some 11
  | 20 => Some 52 | 22 => Some 30 | 30 => Some 30 | 31 => Some 63 | 32 => Some 33 | 33 => Some 33 | 41 => Some 33 | 43 => Some 11
  | 48 => Some 56 | 52 => Some 52 | 56 => Some 56 | 57 => Some 56 | 59 => Some 63 | 60 => Some 52 | 62 => Some 30 | 63 => Some 63
  | _ => None end.

(** l.134-141: the matrix of a line is arange(order - 1), its item i is i. *)
(** l.184-194: the matrix of a triangle, zeros with mtx[ir, ic] = ii set in the loop *)
Definition make_triangle_matrix (order : nat) : nat -> nat -> nat :=
  let oo := order - 2 in
  fold_left (fun m p => let '(ii, (ir, ic)) := p in fun r c => if (r =? ir) && (c =? ic) then ii else m r c)
    (combine (seq 0 (length (iter01 oo))) (iter01 oo)) (fun _ _ => 0).
(** l.246-254 *)
Definition make_square_matrix (order : nat) : nat -> nat -> nat := let oo := order - 1 in fun r c => r * oo + c.

(** l.256-302: the row [key] of the array; the rows of the keys that are not in the dictionary
    are filled with -1, here [None]. *)
Definition facet_dof_permutation (n_fp order key : nat) : option (list nat) :=
  match n_fp with
  | 2 => option_map (fun it => it (order - 1)) (ori_line_to_iter key)
  | 3 => let mtx := make_triangle_matrix order in
         option_map (fun it : nat -> list (nat * nat) => map (fun p => mtx (fst p) (snd p)) (it (order - 2))) (ori_triangle_to_iter key)
  | 4 => let mtx := make_square_matrix order in
         match quad_ori_groups key with
         | None => None
         | Some v => option_map (fun it : nat -> list (nat * nat) => map (fun p => mtx (fst p) (snd p)) (it (order - 1))) (ori_square_to_iter v)
         end
  | _ => None
  end.

(** ** NodeDescription, poly_spaces.py l.161-220 *)
(** nm.where(node_types[:,0] == t)[0] *)
Definition nodes_of_type (l : list lnode) (t : nat) : list nat := filter (fun k => ln_type (nth k l (mkLN 0 0 [])) =? t) (seq 0 (length l)).
(** l.172-173: ii[ik[ir] : ik[ir+1]] for the consecutive items of ik *)
Fixpoint cut (ii : list nat) (a : nat) (bs : list nat) : list (list nat) :=
  match bs with [] => [] | b :: bs => firstn (b - a) (skipn a ii) :: cut ii b bs end.
(** l.161-176: [None] when there is no facet *)
Definition describe_facets (l : list lnode) (t : nat) : option (list (list nat)) :=
  let ii := nodes_of_type l t in
  let ents := map (fun k => ln_ent (nth k l (mkLN 0 0 []))) ii in
  let ik := filter (fun r => nth r ents 0 <? nth (S r) ents 0) (seq 0 (length ents - 1)) in
  match ik with [] => None | _ => Some (cut ii 0 (map S ik ++ [length ii])) end.
(** l.178-183 *)
Definition describe_other (l : list lnode) (t : nat) : option (list nat) := match nodes_of_type l t with [] => None | ii => Some ii end.

(** ** DOF connectivity *)
(** fem/utils.py l.7-16, prepare_remap: the position in the entities of the region; an entity
    not in the region, -1 in the array, is an error here (a region contains the vertices, edges
    and faces of its cells). *)
Definition remap (ents : list nat) (e : nat) : res nat := match index_nat e ents with Some i => Ok i | None => Err ValueError end.
Fixpoint mapM {A B} (f : A -> res B) (l : list A) : res (list B) :=
  match l with [] => Ok [] | a :: l => do b <- f a; do bs <- mapM f l; Ok (b :: bs) end.
(** fields_nodal.py l.63-115, the row of one cell [c]: [desc] is facet_desc, [st] the
    connectivity cell -> facet with the orientations, [ents] region.entities[dim], [facets]
    gel.edges or gel.faces. *)
Definition facet_row (facets : list (list nat)) (order : nat) (desc : list (list nat)) (offset : nat) (st : bstate) (ents : list nat) (c : nat) (row : list nat) : res (list nat) :=
  let n_fp := length (nth 0 facets []) in
  let n_f := length facets in
  if length desc <? n_f then Err IndexError else
  let n_dof := length (nth 0 desc []) in
  do vals <- mapM (fun ies =>
       do f <- remap ents (nth ies (irow (b_cDd st) c) 0);
       let gdofs := map (fun i => offset + i) (nth 0 (expand_nodes_to_dofs [f] n_dof) []) in
       match nth (nth c (c_off (b_cDd st)) 0 + ies) (b_ori st) None with
       | None => Err IndexError
       | Some key => match facet_dof_permutation n_fp order key with
                     | None => Err IndexError
                     | Some perm => Ok (map (fun p => nth p gdofs 0) perm)
                     end
       end) (seq 0 n_f);
  Ok (put row (concat (firstn n_f desc)) (concat vals)).

(** The reference element: the vertices, edges and faces *)
Record gel := mkGel { g_nv : nat; g_edges : list (list nat); g_faces : list (list nat) }.
Record region := mkReg { r_cells : list nat; r_verts : list nat; r_edges : list nat; r_faces : list nat }.
(** The mesh: cells by vertices, cell -> edge, cell -> face with the orientations *)
Record cmesh := mkCM { m_cells : list (list nat); m_edge : bstate; m_face : bstate }.

Definition count_dofs (desc : option (list (list nat))) (n : nat) : nat := match desc with None => 0 | Some d => length (nth 0 d []) * n end.
(** fields_base.py l.360-398, 394-415, fields_nodal.py l.26-136: the row of the [k]-th cell of
    the region. *)
Definition econn_row (g : gel) (nodes : list lnode) (order : nat) (m : cmesh) (r : region) (k : nat) : res (list nat) :=
  let c := nth k (r_cells r) 0 in
  let row := repeat 0 (length nodes) in
  let n_vertex := match describe_other nodes 0 with None => 0 | Some _ => length (r_verts r) end in
  do row <- match describe_other nodes 0 with
            | None => Ok row
            | Some _ => do vs <- mapM (remap (r_verts r)) (nth c (m_cells m) []);
                        Ok (put row (seq 0 (length (nth c (m_cells m) []))) vs)
            end;
  let edge := describe_facets nodes 1 in
  do row <- match edge with
            | None => Ok row
            | Some desc => facet_row (g_edges g) order desc n_vertex (m_edge m) (r_edges r) c row
            end;
  let n_edge := count_dofs edge (length (r_edges r)) in
  let face := describe_facets nodes 2 in
  do row <- match face with
            | None => Ok row
            | Some desc => facet_row (g_faces g) order desc (n_vertex + n_edge) (m_face m) (r_faces r) c row
            end;
  let n_face := count_dofs face (length (r_faces r)) in
  match describe_other nodes 3 with
  | None => Ok row
  | Some b =>
    let iep := nth 0 b 0 in
    (* l.133: econn[:,iep:] = all_dofs, the shapes must agree *)
    if length nodes - iep =? length b
    then Ok (put row (seq iep (length b)) (map (fun i => n_vertex + n_edge + n_face + (k * length b + i)) (seq 0 (length b))))
    else Err ValueError
  end.
Definition econn (g : gel) (nodes : list lnode) (order : nat) (m : cmesh) (r : region) : res (list (list nat)) :=
  mapM (econn_row g nodes order m r) (seq 0 (length (r_cells r))).
(** fields_base.py l.381-382 *)
Definition n_nod (nodes : list lnode) (r : region) : nat :=
  match describe_other nodes 0 with None => 0 | Some _ => length (r_verts r) end
  + count_dofs (describe_facets nodes 1) (length (r_edges r)) + count_dofs (describe_facets nodes 2) (length (r_faces r))
  + match describe_other nodes 3 with None => 0 | Some b => length b * length (r_cells r) end.

(** fem/geometry_element.py l.108-165: 1_2, 2_3, 3_4; the faces of 2_3 are None. *)
Definition sgel (dim : nat) : gel := match dim with 1 => mkGel 2 [] [] | 2 => mkGel 3 edges_2_3 [] | _ => mkGel 4 edges_3_4 faces_3_4 end.
(** l.108-145, 193-224: 1_2, 2_4, 3_8 *)
Definition tgel (dim : nat) : gel := match dim with 1 => mkGel 2 [] [] | 2 => mkGel 4 edges_2_4 [] | _ => mkGel 8 edges_3_8 faces_3_8 end.
