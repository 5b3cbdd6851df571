(** Model of the facet terms of the discontinuous Galerkin method,
    /repo/sfepy/terms/terms_dg.py, with the facet data of
    /repo/sfepy/discrete/dg/fields.py. Arrays are functions of their indices,
    numbers are reals; an einsum is the sum over the indices missing in its
    output. One scalar state variable on a DG field over the whole mesh. *)
From Coq Require Import Reals ZArith.
From Verif Require Import Base M_fmf.
Open Scope nat_scope.

(** What the field provides (fields.py): sizes; [fb d f q], the values of the
    basis at the facet quadrature points (get_facet_basis(basis_only=True)
    [:, 0, :, 0, :].T, l.420-470); [fbd d f k q], its derivatives with respect
    to the reference coordinates (l.445-462, diff=1); [w q], the quadrature
    weights of the reference facet; [vol i f] (get_facet_vols); [nrm i f k]
    (get_cell_normals_per_facet); [n0], [n1], the two components of
    get_facet_neighbor_idx(region, eq_map). *)
Record field := mkField {
  ncell : nat; nfac : nat; nq : nat; nnod : nat; dim : nat;
  fb : nat -> nat -> nat -> R;
  fbd : nat -> nat -> nat -> nat -> R;
  w : nat -> R;
  vol : nat -> nat -> R;
  nrm : nat -> nat -> nat -> R;
  n0 : nat -> nat -> Z;
  n1 : nat -> nat -> Z }.

(** numpy indexing of an axis of length [n]: negative indices count from the end *)
Definition npidx (n : nat) (z : Z) : nat := Z.to_nat (if (z <? 0)%Z then z + Z.of_nat n else z)%Z.

(** fields.py l.766-770: [whs = facet_vols * whs[None, :, :, 0]] *)
Definition whs (F : field) (i f q : nat) : R := (vol F i f * w F q)%R.

(** l.777-800 get_both_facet_basis_vals: inner values are the same in all cells;
    outer values are those of the neighbouring facet with the quadrature points
    in the reverse order. *)
Definition in_b (F : field) (i d f q : nat) : R := fb F d f q.
Definition out_b (F : field) (i d f q : nat) : R := fb F d (npidx (nfac F) (n1 F i f)) (nq F - 1 - q).
Definition in_bd (F : field) (i d f k q : nat) : R := fbd F d f k q.
Definition out_bd (F : field) (i d f k q : nat) : R := fbd F d (npidx (nfac F) (n1 F i f)) k (nq F - 1 - q).

(** l.15-54 unravel_sol(state.data[0]) *)
Definition dofs (F : field) (u : nat -> R) (i d : nat) : R := u (i * nnod F + d).

(** [state.eq_map.dg_ebc], [dg_ebc_val] for one order of the derivative: the
    sides with their values; [ebc_vals[:, ::-1]] is written (l.738-740). *)
Definition ebcs := list (nat * nat * (nat -> R)).
Definition set_ebc (F : field) (e : ebcs) (v : nat -> nat -> nat -> R) : nat -> nat -> nat -> R :=
  fold_left (fun v p => let '(c, j, g) := p in
     fun i f q => if ((i =? c) && (f =? j))%bool then g (nq F - 1 - q) else v i f q) e v.

(** l.662-743 get_both_facet_state_vals(derivative=None): the values at the
    sides without a neighbour are set to zero, then the prescribed ones. *)
Definition in_v (F : field) (u : nat -> R) (i f q : nat) : R :=
  sm (nnod F) (fun d => dofs F u i d * in_b F i d f q)%R.
Definition out_v (F : field) (e : ebcs) (u : nat -> R) : nat -> nat -> nat -> R :=
  set_ebc F e (fun i f q => if (n0 F i f <? 0)%Z then 0%R else
    sm (nnod F) (fun d => dofs F u (npidx (ncell F) (n0 F i f)) d * out_b F i d f q)%R).
(** derivative=True: one value per direction [k]; [e1 k] are the prescribed derivatives *)
Definition in_vd (F : field) (u : nat -> R) (k i f q : nat) : R :=
  sm (nnod F) (fun d => dofs F u i d * in_bd F i d f k q)%R.
Definition out_vd (F : field) (e1 : nat -> ebcs) (u : nat -> R) (k : nat) : nat -> nat -> nat -> R :=
  set_ebc F (e1 k) (fun i f q => if (n0 F i f <? 0)%Z then 0%R else
    sm (nnod F) (fun d => dofs F u (npidx (ncell F) (n0 F i f)) d * out_bd F i d f k q)%R).

(** terms_dg.py l.61-92 _get_nbrhd_dof_indexes: nm.repeat, nm.tile of the rows
    of [field.bubble_dofs] (fields.py l.243-258) *)
Definition bubble_dofs (F : field) : list (list nat) :=
  map (fun i => map (fun d => i * nnod F + d) (seq 0 (nnod F))) (seq 0 (ncell F)).
Definition np_repeat (rows : list (list nat)) (k : nat) : list nat := flat_map (fun x => repeat x k) (concat rows).
Definition np_tile (rows : list (list nat)) (k : nat) : list nat := flat_map (fun r => concat (repeat r k)) rows.
Definition take_rows (rows : list (list nat)) (ix : list nat) : list (list nat) := map (fun i => nth i rows []) ix.
Definition nbrhd_dof_indexes (F : field) (cells nrbhs : list nat) : list (nat * nat) :=
  let bd := bubble_dofs F in
  combine (np_repeat bd (nnod F)) (np_tile bd (nnod F)) ++
  combine (np_repeat (take_rows bd cells) (nnod F)) (np_tile (take_rows bd nrbhs) (nnod F)).

(** [active_cells, active_facets = nm.where(nbrhd_idx[:, :, 0] >= 0)] *)
Definition active (F : field) : list (nat * nat) :=
  filter (fun p => (0 <=? n0 F (fst p) (snd p))%Z) (list_prod (seq 0 (ncell F)) (seq 0 (nfac F))).

(** [vals = nm.vstack((inner_vals, outer_vals)).flatten()] *)
Definition flatten2 (F : field) (a : nat -> nat -> R) : list R :=
  flat_map (fun d => map (a d) (seq 0 (nnod F))) (seq 0 (nnod F)).
Definition coo := list (R * (nat * nat)).
(** the returned tuple (vals, iels[:, 0], iels[:, 1]) *)
Definition mtx_tuple (F : field) (inner : nat -> nat -> nat -> R) (outer : nat -> nat -> nat -> nat -> R) : coo :=
  let act := active F in
  let vals := flat_map (fun i => flatten2 F (inner i)) (seq 0 (ncell F)) ++
              flat_map (fun p => flatten2 F (outer (fst p) (snd p))) act in
  combine vals (nbrhd_dof_indexes F (map fst act) (map (fun p => Z.to_nat (n0 F (fst p) (snd p))) act)).
(** scipy: the product of the matrix of a COO list with a vector, entry [r]
    (duplicate entries are summed; terms.py l.1686-1698, equations.py l.780) *)
Definition coo_apply (m : coo) (u : nat -> R) (r : nat) : R :=
  fold_right (fun e acc => (if fst (snd e) =? r then fst e * u (snd (snd e)) else 0) + acc)%R 0%R m.

(** ** AdvectionDGFluxTerm, l.95-236; [a i k] is [advelo[:, 0, :, 0]], [al] alpha *)
Section Adv.
Variables (F : field) (al : R) (a : nat -> nat -> R).
Definition adv_C (i f : nat) : R := Rabs (sm (dim F) (fun k => nrm F i f k * a i k)%R).
(** l.188-197 *)
Definition adv_inner_diff (i f : nat) : R :=
  (sm (dim F) (fun k => nrm F i f k * (a i k + ((1 - al) * nrm F i f k) * adv_C i f)) / 2)%R.
Definition adv_outer_diff (i f : nat) : R :=
  (sm (dim F) (fun k => nrm F i f k * (a i k - ((1 - al) * nrm F i f k) * adv_C i f)) / 2)%R.
(** l.199-208 *)
Definition adv_inner_vals (i d b : nat) : R :=
  sm (nfac F) (fun f => sm (nq F) (fun q => adv_inner_diff i f * in_b F i d f q * in_b F i b f q * whs F i f q)%R).
Definition adv_outer_vals (i f d b : nat) : R :=
  sm (nq F) (fun q => adv_outer_diff i f * in_b F i d f q * out_b F i b f q * whs F i f q)%R.
Definition adv_matrix : coo := mtx_tuple F adv_inner_vals adv_outer_vals.
(** l.217-233: [out[:, :, d, 0] = cell_fluxes[:, d]] *)
Definition adv_residual (e : ebcs) (u : nat -> R) (i d : nat) : R :=
  sm (nfac F) (fun f => sm (dim F) (fun k => sm (nq F) (fun q =>
    let avg := ((in_v F u i f q + out_v F e u i f q) / 2)%R in
    let jmp := (in_v F u i f q - out_v F e u i f q)%R in
    let central := (a i k * avg)%R in
    let upwind := ((1 - al) / 2 * (adv_C i f * nrm F i f k * jmp))%R in
    (nrm F i f k * (central + upwind) * fb F d f q * whs F i f q)%R))).
End Adv.

(** ** DiffusionDGFluxTerm, l.239-438; [D i k l] is the diffusion tensor *)
Section Diff.
Variables (F : field) (D : nat -> nat -> nat -> R).
(** [D] enters every einsum as "nkl" with [l] in no other operand *)
Definition Dsum (i k : nat) : R := sm (dim F) (fun l => D i k l).
(** l.364-377 *)
Definition ds_inner (i d b : nat) : R :=
  sm (nfac F) (fun f => sm (dim F) (fun k => sm (nq F) (fun q =>
    Dsum i k * (in_bd F i b f k q / 2) * nrm F i f k * in_b F i d f q * whs F i f q)%R)).
Definition ds_outer (i f d b : nat) : R :=
  sm (dim F) (fun k => sm (nq F) (fun q =>
    Dsum i k * (out_bd F i b f k q / 2) * nrm F i f k * in_b F i d f q * whs F i f q)%R).
Definition ds_matrix : coo := mtx_tuple F ds_inner ds_outer.
(** l.379-394 *)
Definition dv_inner (i d b : nat) : R :=
  sm (nfac F) (fun f => sm (dim F) (fun k => sm (nq F) (fun q =>
    Dsum i k * (in_bd F i d f k q / 2) * nrm F i f k * in_b F i b f q * whs F i f q)%R)).
Definition dv_outer (i f d b : nat) : R :=
  sm (dim F) (fun k => sm (nq F) (fun q =>
    Dsum i k * (in_bd F i d f k q / 2) * nrm F i f k * (- out_b F i b f q) * whs F i f q)%R).
Definition dv_matrix : coo := mtx_tuple F dv_inner dv_outer.
(** l.405-438 *)
Definition ds_residual (e1 : nat -> ebcs) (u : nat -> R) (i d : nat) : R :=
  sm (nfac F) (fun f => sm (dim F) (fun k => sm (nq F) (fun q =>
    let avg := ((Dsum i k * in_vd F u k i f q + Dsum i k * out_vd F e1 u k i f q) / 2)%R in
    (avg * nrm F i f k * in_b F i d f q * whs F i f q)%R))).
Definition dv_residual (e : ebcs) (u : nat -> R) (i d : nat) : R :=
  sm (nfac F) (fun f => sm (dim F) (fun k => sm (nq F) (fun q =>
    let jmp := (in_v F u i f q - out_v F e u i f q)%R in
    (Dsum i k * in_bd F i d f k q / 2 * nrm F i f k * jmp * whs F i f q)%R))).
End Diff.

(** ** DiffusionInteriorPenaltyTerm, l.441-545 *)
Section Pen.
Variables (F : field) (D : nat -> nat -> nat -> R) (Cw : R) (order : nat).
(** l.493-499 *)
Definition facet_vols (i f : nat) : R := sm (nq F) (fun q => whs F i f q).
Definition nu (i : nat) : R := (sm (dim F) (fun k => D i k k) / INR (dim F))%R.
Definition sigma (i f : nat) : R := (nu i * Cw * INR order ^ 2 / facet_vols i f)%R.
(** l.507-521 *)
Definition pen_inner (i d b : nat) : R :=
  sm (nfac F) (fun f => sm (nq F) (fun q => sigma i f * in_b F i d f q * in_b F i b f q * whs F i f q)%R).
Definition pen_outer (i f d b : nat) : R :=
  sm (nq F) (fun q => sigma i f * in_b F i d f q * (- out_b F i b f q) * whs F i f q)%R.
Definition pen_matrix : coo := mtx_tuple F pen_inner pen_outer.
(** l.530-545 *)
Definition pen_residual (e : ebcs) (u : nat -> R) (i d : nat) : R :=
  sm (nfac F) (fun f => sm (nq F) (fun q =>
    sigma i f * (in_v F u i f q - out_v F e u i f q) * in_b F i d f q * whs F i f q)%R).
End Pen.

(** ** NonlinearHyperbolicDGFluxTerm, l.548-668; [fu p k], [df p k] *)
Section Nonl.
Variables (F : field) (al : R) (fu df : R -> nat -> R).
(** l.645-649: nm.amax of the absolute values over the quadrature points and the
    two sides *)
Fixpoint mx (n : nat) (g : nat -> R) : R := match n with 0 => 0%R | S n => Rmax (mx n g) (g n) end.
Definition nl_C (e : ebcs) (u : nat -> R) (i f : nat) : R :=
  mx (nq F) (fun q => Rmax (Rabs (sm (dim F) (fun k => nrm F i f k * df (in_v F u i f q) k)))
                           (Rabs (sm (dim F) (fun k => nrm F i f k * df (out_v F e u i f q) k))))%R.
(** l.651-665 *)
Definition nl_residual (e : ebcs) (u : nat -> R) (i d : nat) : R :=
  sm (nfac F) (fun f => sm (dim F) (fun k => sm (nq F) (fun q =>
    let avg := ((fu (in_v F u i f q) k + fu (out_v F e u i f q) k) / 2)%R in
    let jmp := (in_v F u i f q - out_v F e u i f q)%R in
    let upwind := ((1 - al) / 2 * (nl_C e u i f * nrm F i f k * jmp))%R in
    (nrm F i f k * (avg + upwind) * fb F d f q * whs F i f q)%R))).
End Nonl.
