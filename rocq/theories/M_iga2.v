(** Model of the tensor product basis of sfepy/discrete/iga: iga.py, extmods/nurbs.c,
    extmods/igac.pyx, mappings.py.  One, two or three parametric dimensions. *)
From Coq Require Import Reals Arith List Bool.
From Verif Require Import M_fmf M_map S_iga M_iga.
Import ListNotations.
Open Scope R_scope.

(** The index tuples of nested for loops over [range(d0)], [range(d1)], ... in loop order. *)
Fixpoint tuples (ds : list nat) : list (list nat) :=
  match ds with [] => [[]] | d :: ds => flat_map (fun i => map (cons i) (tuples ds)) (seq 0 d) end.
(** nurbs.c l.3-22 ravel_multi_index (numpy.ravel_multi_index in iga.py l.28-33): the loop from the
    last index to the second one with the running stride, then the first index. *)
Definition ravel_multi_index (indices shape : list nat) : nat :=
  let num := length shape in
  let '(raveled, stride) := fold_left (fun '(r, st) ii => (r + st * nth ii indices 0, st * nth ii shape 0)%nat)
      (rev (seq 1 (num - 1))) (0%nat, 1%nat) in
  (raveled + stride * nth 0 indices 0)%nat.
(** nurbs.c l.24-34 unravel_index (numpy.unravel_index in iga.py l.35-40). *)
Definition unravel_index (index : nat) (shape : list nat) : list nat :=
  let num := length shape in
  let '(rest, index) := fold_left (fun '(acc, ix) ii => (ix mod nth ii shape 0 :: acc, ix / nth ii shape 0)%nat)
      (rev (seq 1 (num - 1))) ([], index) in
  (index mod nth 0 shape 0)%nat :: rest.

(** iga.py l.42-60 tensor_product.  [n0], [n1] are the numbers of rows and columns of b; the
    slices of c are as in the code ([n1] for rows, [n0] for columns). *)
Definition tensor_product (r0 c0 n0 n1 : nat) (a b : mat) : mat :=
  fold_left (fun (c : mat) '(ir, ic) => (fun i j =>
      if ((n1 * ir <=? i) && (i <? n1 * (ir + 1)) && (n0 * ic <=? j) && (j <? n0 * (ic + 1)))%nat
      then a ir ic * b (i - n1 * ir)%nat (j - n0 * ic)%nat else c i j))
    (flat_map (fun ir => map (pair ir) (seq 0 c0)) (seq 0 r0)) (fun _ _ => 0).
(** iga.py l.166-215 combine_bezier_extraction: the operator of the element with indices [ic]. *)
Definition combine_bezier (degrees : list nat) (cs : list (list mat)) (ic : list nat) : mat :=
  let m k := (nth k degrees 0 + 1)%nat in
  let c k := nth (nth k ic 0%nat) (nth k cs []) eye in
  match length cs with
  | 3%nat => tensor_product (m 0%nat) (m 0%nat) (m 1 * m 2)%nat (m 1 * m 2)%nat (c 0%nat) (tensor_product (m 1%nat) (m 1%nat) (m 2%nat) (m 2%nat) (c 1%nat) (c 2%nat))
  | 2%nat => tensor_product (m 0%nat) (m 0%nat) (m 1%nat) (m 1%nat) (c 0%nat) (c 1%nat)
  | _ => c 0%nat
  end.

(** iga.py l.254-351 create_connectivity, l.293-351: the arrays conn (or bconn) of the patch from
    the 1D ones, [n_gfuns[ii] = conn1d.max() + 1]; assignments conn[ie, iloc] = ig in loop order. *)
Definition max_entry (c : list (list nat)) : nat := fold_right Nat.max 0%nat (map (fold_right Nat.max 0%nat) c).
Definition make_conn (n_els n_efuns : list nat) (conns : list (list (list nat))) : nat -> nat -> nat :=
  let n_gfuns := map (fun c => max_entry c + 1)%nat conns in
  match length conns with
  | 1%nat => fun ie iloc => nth iloc (nth ie (nth 0 conns []) []) 0%nat
  | _ =>
    fold_left (fun (conn : nat -> nat -> nat) '(ies, ils) =>
        let ie := ravel_multi_index ies n_els in
        let iloc := ravel_multi_index ils n_efuns in
        let cl := map (fun k => nth (nth k ils 0) (nth (nth k ies 0) (nth k conns []) []) 0)%nat (seq 0 (length conns)) in
        let ig := ravel_multi_index cl n_gfuns in
        (fun e l => if ((e =? ie) && (l =? iloc))%nat then ig else conn e l))
      (flat_map (fun ies => map (pair ies) (tuples n_efuns)) (tuples n_els)) (fun _ _ => 0%nat)
  end.

(** iga.py l.129-164 compute_bezier_extraction and l.276-286 the 1D connectivities of create_connectivity. *)
Fixpoint all_some {A : Type} (l : list (option A)) : option (list A) :=
  match l with [] => Some [] | Some a :: l => option_map (cons a) (all_some l) | None :: _ => None end.
Definition compute_bezier_extraction (knots : list ((nat -> R) * nat)) (degrees : list nat) : option (list (list mat)) :=
  all_some (map (fun '((t, n), p) => compute_bezier_extraction_1d t n p) (combine knots degrees)).
Definition create_connectivity (n_els : list nat) (knots : list ((nat -> R) * nat)) (degrees : list nat)
    : option ((nat -> nat -> nat) * (nat -> nat -> nat)) :=
  option_map (fun cbs => let n_efuns := map (fun p => p + 1)%nat degrees in
                         (make_conn n_els n_efuns (map fst cbs), make_conn n_els n_efuns (map snd cbs)))
    (all_some (map (fun '(n_el, ((t, n), p)) => create_connectivity_1d t n p n_el) (combine n_els (combine knots degrees)))).
(** domain.py l.83-86: n_els = [len(ii) for ii in cs]. *)
Definition create_patch (knots : list ((nat -> R) * nat)) (degrees : list nat)
    : option (list (list mat) * (nat -> nat -> nat) * (nat -> nat -> nat)) :=
  match compute_bezier_extraction knots degrees with
  | Some cs => option_map (fun '(conn, bconn) => (cs, conn, bconn)) (create_connectivity (map (@length mat) cs) knots degrees)
  | None => None
  end.

Section Basis.
Variables (dim : nat) (degrees : list nat) (cs : list (list mat)).
Definition n_efun : nat := fold_right Nat.mul 1%nat (map (fun p => p + 1)%nat degrees).
(** iga.py l.790-808, nurbs.c l.353-374: N = C B, dN/dxi = C dB/dxi for the element [ie]. *)
Definition elem_C (ie ii : nat) : mat := nth (nth ii (unravel_index ie (map (@length mat) cs)) 0%nat) (nth ii cs []) eye.
Definition elem_N (bern : R -> nat -> arr * arr) (qp : nat -> R) (ie ii i : nat) : R :=
  sm (nth ii degrees 0 + 1)%nat (fun j => elem_C ie ii i j * fst (bern (qp ii) (nth ii degrees 0%nat)) j).
Definition elem_dN (bern : R -> nat -> arr * arr) (qp : nat -> R) (ie ii i : nat) : R :=
  sm (nth ii degrees 0 + 1)%nat (fun j => elem_C ie ii i j * snd (bern (qp ii) (nth ii degrees 0%nat)) j).

(** iga.py l.813-857, nurbs.c l.540-606: R[a] and dR_dxi[a, k] of the tuple, before the weights. *)
Definition tp_val (N : nat -> nat -> R) (idx : list nat) : R :=
  match idx with
  | [i0; i1; i2] => N 0%nat i0 * N 1%nat i1 * N 2%nat i2
  | [i0; i1] => N 0%nat i0 * N 1%nat i1
  | [i0] => N 0%nat i0
  | _ => 0
  end.
Definition tp_der (N dN : nat -> nat -> R) (k : nat) (idx : list nat) : R :=
  match idx, k with
  | [i0; i1; i2], 0%nat => dN 0%nat i0 * N 1%nat i1 * N 2%nat i2
  | [i0; i1; i2], 1%nat => N 0%nat i0 * dN 1%nat i1 * N 2%nat i2
  | [i0; i1; i2], 2%nat => N 0%nat i0 * N 1%nat i1 * dN 2%nat i2
  | [i0; i1], 0%nat => dN 0%nat i0 * N 1%nat i1
  | [i0; i1], 1%nat => N 0%nat i0 * dN 1%nat i1
  | [i0], 0%nat => dN 0%nat i0
  | _, _ => 0
  end.
(** The loop with the counter [a] and the sums w, dw_dxi ([rational]); nurbs.c l.376-432
    without weights ([rational] = false). *)
Record tpst := mkTP { s_a : nat; s_R : arr; s_dR : mat; s_w : R; s_dw : arr }.
Definition tp_step (rational : bool) (W : nat -> R) (N dN : nat -> nat -> R) (s : tpst) (idx : list nat) : tpst :=
  let a := s_a s in
  let Wa := if rational then W a else 1 in
  let Ra := if rational then tp_val N idx * Wa else tp_val N idx in
  let dRa k := if rational then tp_der N dN k idx * Wa else tp_der N dN k idx in
  mkTP (a + 1) (upd (s_R s) a Ra) (fun b k => if (b =? a)%nat && (k <? dim)%nat then dRa k else s_dR s b k)
       (s_w s + Ra) (fun k => if (k <? dim)%nat then s_dw s k + dRa k else s_dw s k).
Definition tp_loop (rational : bool) (W : nat -> R) (N dN : nat -> nat -> R) : tpst :=
  fold_left (tp_step rational W N dN) (tuples (map (fun p => p + 1)%nat degrees)) (mkTP 0 (fun _ => 0) (fun _ _ => 0) 0 (fun _ => 0)).
(** l.859-863 / nurbs.c l.608-617: R and dR_dxi (rows a, columns k). *)
Definition tp_basis (rational : bool) (bern : R -> nat -> arr * arr) (qp : nat -> R) (ie : nat) (W : nat -> R) : arr * mat :=
  let s := tp_loop rational W (elem_N bern qp ie) (elem_dN bern qp ie) in
  if rational then
    (fun a => s_R s a * (1 / s_w s), fun a k => (s_dR s a k - s_R s a * (1 / s_w s) * s_dw s k) / s_w s)
  else (s_R s, s_dR s).
(** l.865-875 / nurbs.c l.619-642: dx_dxi (rows x, columns xi), det and dR_dx (row a, column x).
    geommech.c l.14-74 geme_invert3x3: the cofactors of M_map.invm, all zero for a small determinant. *)
Definition geme_eps : R := / 10 ^ 55.
Definition tp_physical (dR_dxi : mat) (n_efun : nat) (P : nat -> nat -> R) : mat * R * mat :=
  let dx_dxi : mat := fun i j => sm n_efun (fun a => P a i * dR_dxi a j) in
  let det := detm dim dx_dxi in
  let dxi_dx : mat := fun i j => if Rlt_dec (Rabs det) geme_eps then 0 else invm dim dx_dxi det i j in
  (dx_dxi, det, fun a k => sm dim (fun j => dR_dxi a j * dxi_dx j k)).
(** igac.pyx l.255-259 is_nurbs, l.274-461 eval_mapping_data_in_qp: (bf, bfg, det) in one
    element and point (the pointers walking over elements and points are left out). *)
Definition is_nurbs (n_w : nat) (weights : nat -> R) : bool :=
  existsb (fun k => if Req_EM_T (weights k) 1 then false else true) (seq 0 n_w).
Definition eval_mapping_data_in_qp (n_w : nat) (cps : nat -> nat -> R) (weights : nat -> R) (conn : nat -> nat -> nat)
    (qp : nat -> R) (ie : nat) : arr * mat * R :=
  let '(bf, bfg_dxi) := tp_basis (is_nurbs n_w weights) eval_bernstein_basis_c qp ie (fun a => weights (conn ie a)) in
  let '(_, det, bfg) := tp_physical bfg_dxi n_efun (fun a => cps (conn ie a)) in
  (bf, bfg, det).
(** iga.py l.729-877 eval_nurbs_basis_tp; numpy.linalg.inv is the closed formula (a singular
    Jacobian raises LinAlgError in the code, theorems assume a non-zero determinant). *)
Definition eval_nurbs_basis_tp (cps : nat -> nat -> R) (weights : nat -> R) (conn : nat -> nat -> nat)
    (qp : nat -> R) (ie : nat) : arr * mat * R :=
  let '(bf, bfg_dxi) := tp_basis true eval_bernstein_basis qp ie (fun a => weights (conn ie a)) in
  let dx_dxi : mat := fun i j => sm n_efun (fun a => cps (conn ie a) i * bfg_dxi a j) in
  let det := detm dim dx_dxi in
  (bf, (fun a k => sm dim (fun j => bfg_dxi a j * invm dim dx_dxi det j k)), det).
(** igac.pyx l.463-689 eval_variable_in_qp: the value of a field variable in a point. *)
Definition eval_variable (n_w : nat) (cps : nat -> nat -> R) (weights : nat -> R) (conn : nat -> nat -> nat)
    (var : nat -> nat -> R) (qp : nat -> R) (ie ic : nat) : R :=
  let '(bf, _, _) := eval_mapping_data_in_qp n_w cps weights conn qp ie in
  sm n_efun (fun a => bf a * var (conn ie a) ic).
End Basis.
