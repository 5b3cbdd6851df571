(** Model of the hyperelastic terms (total and updated Lagrangian formulations).
    Code modelled: sfepy/terms/extmods/terms_hyperelastic.c l.8-80, 95-300, 306-380,
    454-570, 618-1510, 1512-1580, sfepy/discrete/common/extmods/geommech.c l.14-75,
    142-300, 447-620, fmfield.c l.725-750, 815-845, 1201-1225, 1306-1330,
    sfepy/terms/terms_hyperelastic_base.py l.150-215, terms_hyperelastic_tl.py
    l.54-296, 479-520, 586-763, terms_hyperelastic_ul.py.
    Arithmetic is over the reals.  The constitutive functions of the C file are loops
    over cells and quadrature points whose pointers advance by the size of one
    matrix; here each is a function of the data of ONE quadrature point, a flat
    array [nat -> R] indexed as the C pointer is ([dim*i+j], [sym*ir+ic]).  The
    assembly of one cell ([dw_he_rtm], [dw_tl_volume]) is over all quadrature points,
    on the buffers of M_fmf. *)
From Coq Require Import Reals List.
From Verif Require Import Base M_fmf M_terms.
Import ListNotations.
Open Scope R_scope.

(** geommech.c l.428 sym2dim and its inverse. *)
Definition dim2sym (dim : nat) : nat := match dim with 1 => 1 | 2 => 3 | _ => 6 end%nat.
Definition sym2dim (sym : nat) : nat := match sym with 1 => 1 | 3 => 2 | _ => 3 end%nat.
(** geommech.c l.447-464: the tables of the symmetric storage. *)
Definition t2i (dim k : nat) : nat :=
  nth k (match dim with 1 => [0] | 2 => [0; 1; 0] | _ => [0; 1; 2; 0; 0; 1] end)%nat 0%nat.
Definition t2j (dim k : nat) : nat :=
  nth k (match dim with 1 => [0] | 2 => [0; 1; 1] | _ => [0; 1; 2; 1; 2; 2] end)%nat 0%nat.
Definition t4s (dim k : nat) : nat :=
  nth k (match dim with 1 => [0] | 2 => [0; 2; 2; 1]
         | _ => [0; 3; 4; 3; 1; 5; 4; 5; 2] end)%nat 0%nat.
(** terms_hyperelastic.c l.8-26 get_trace. *)
Definition get_trace (sym k : nat) : R :=
  nth k (match sym with 1%nat => [1] | 3%nat => [1; 1; 0] | _ => [1; 1; 1; 0; 0; 0] end) 0.

(** geommech.c l.14-75 geme_invert3x3, eps = 1e-55. *)
Definition inv_eps : R := / 10 ^ 55.
Definition safe_inv (idet : R) : R := if Rlt_dec (Rabs idet) inv_eps then 0 else 1 / idet.
Definition geme_invert3x3 (dim : nat) (j : nat -> R) (k : nat) : R :=
  match dim with
  | 1%nat => 1 * safe_inv (j 0%nat)
  | 2%nat => let det := safe_inv (j 0%nat * j 3%nat - j 1%nat * j 2%nat) in
     match k with 0%nat => j 3%nat * det | 1%nat => - j 1%nat * det | 2%nat => - j 2%nat * det | _ => j 0%nat * det end
  | _ =>
    let a k := match k with
      | 0%nat => j 4%nat * j 8%nat - j 7%nat * j 5%nat | 1%nat => - (j 1%nat * j 8%nat - j 2%nat * j 7%nat) | 2%nat => j 1%nat * j 5%nat - j 2%nat * j 4%nat
      | 3%nat => - (j 3%nat * j 8%nat - j 5%nat * j 6%nat) | 4%nat => j 0%nat * j 8%nat - j 2%nat * j 6%nat | 5%nat => - (j 0%nat * j 5%nat - j 2%nat * j 3%nat)
      | 6%nat => j 3%nat * j 7%nat - j 4%nat * j 6%nat | 7%nat => - (j 0%nat * j 7%nat - j 1%nat * j 6%nat) | _ => j 0%nat * j 4%nat - j 1%nat * j 3%nat
      end in
    let idet := j 0%nat * a 0%nat + j 1%nat * a 3%nat + j 2%nat * a 6%nat in
    a k * safe_inv idet
  end.
(** geommech.c l.142-180 geme_tensor2vectorS3. *)
Definition geme_tensor2vectorS3 (dim : nat) (m : nat -> R) (k : nat) : R :=
  match dim with
  | 1%nat => m 0%nat
  | 2%nat => match k with 0%nat => m 0%nat | 1%nat => m 3%nat | _ => m 1%nat end
  | _ => match k with 0%nat => m 0%nat | 1%nat => m 4%nat | 2%nat => m 8%nat | 3%nat => m 1%nat | 4%nat => m 2%nat | _ => m 5%nat end
  end.
(** geommech.c l.183-208 geme_det3x3. *)
Definition geme_det3x3 (dim : nat) (j : nat -> R) : R :=
  match dim with
  | 1%nat => j 0%nat
  | 2%nat => j 0%nat * j 3%nat - j 1%nat * j 2%nat
  | _ => j 0%nat * j 4%nat * j 8%nat + j 3%nat * j 7%nat * j 2%nat + j 1%nat * j 5%nat * j 6%nat
         - j 2%nat * j 4%nat * j 6%nat - j 5%nat * j 7%nat * j 0%nat - j 1%nat * j 3%nat * j 8%nat
  end.
(** geommech.c l.243-267 geme_invar1 and l.270-293 geme_invar2. *)
Definition geme_invar1 (dim : nat) (j : nat -> R) : R :=
  match dim with 1%nat => j 0%nat | 2%nat => 1 + j 0%nat + j 3%nat | _ => j 0%nat + j 4%nat + j 8%nat end.
Definition geme_invar2 (dim : nat) (j : nat -> R) : R :=
  match dim with
  | 1%nat => 0
  | 2%nat => j 0%nat * j 3%nat + j 0%nat + j 3%nat - j 1%nat * j 1%nat
  | _ => (j 0%nat * j 4%nat + j 0%nat * j 8%nat + j 4%nat * j 8%nat - j 1%nat * j 1%nat - j 2%nat * j 2%nat - j 5%nat * j 5%nat)
  end.
(** geommech.c l.469-520 geme_mulT2ST2S_T4S_ikjl and l.525-574 ..._iljk. *)
Definition mulT4_ikjl (dim : nat) (a b : nat -> R) (ir ic : nat) : R :=
  a (t4s dim (dim * t2i dim ir + t2i dim ic)) * b (t4s dim (dim * t2j dim ir + t2j dim ic)).
Definition mulT4_iljk (dim : nat) (a b : nat -> R) (ir ic : nat) : R :=
  a (t4s dim (dim * t2i dim ir + t2j dim ic)) * b (t4s dim (dim * t2j dim ir + t2i dim ic)).
(** geommech.c l.577-615 geme_mulT2S_AA. *)
Definition mulT2S_AA (sym : nat) (a : nat -> R) (k : nat) : R :=
  match sym with
  | 1%nat => a 0%nat * a 0%nat
  | 3%nat => match k with
      | 0%nat => a 0%nat * a 0%nat + a 2%nat * a 2%nat | 1%nat => a 2%nat * a 2%nat + a 1%nat * a 1%nat | _ => a 2%nat * a 0%nat + a 1%nat * a 2%nat end
  | _ => match k with
      | 0%nat => a 0%nat * a 0%nat + a 5%nat * a 5%nat + a 4%nat * a 4%nat
      | 1%nat => a 5%nat * a 5%nat + a 1%nat * a 1%nat + a 3%nat * a 3%nat
      | 2%nat => a 4%nat * a 4%nat + a 3%nat * a 3%nat + a 2%nat * a 2%nat
      | 3%nat => a 4%nat * a 5%nat + a 1%nat * a 3%nat + a 2%nat * a 3%nat
      | 4%nat => a 0%nat * a 4%nat + a 5%nat * a 3%nat + a 4%nat * a 2%nat
      | _ => a 0%nat * a 5%nat + a 5%nat * a 1%nat + a 4%nat * a 3%nat end
  end.

(** terms_hyperelastic.c l.38-80 form_tlcc_strainGreen_VS. *)
Definition strainGreen_VS (dim : nat) (pf : nat -> R) (ii : nat) : R :=
  let s := sm dim (fun ik => pf (dim * ik + t2i dim ii)%nat * pf (dim * ik + t2j dim ii)%nat) in
  (if (ii <? dim)%nat then s - 1 else s) * (5 / 10).

(** The data of one quadrature point (terms_hyperelastic_base.py l.18-30 data_shapes;
    for the updated formulation [vecCS], [trC], [in2C] hold b = F F^T). *)
Record Fam := mkFam { mtxF : nat -> R; detF : R; vecCS : nat -> R; trC : R; in2C : R;
                      vecInvCS : nat -> R; vecES : nat -> R }.
(** terms_hyperelastic.c l.331-366, the loop body of dq_finite_strain after the
    deformation gradient; [fmf_mulATB_nn], [fmf_mulABT_nn] on one level. *)
Definition finite_strain (mode_ul : bool) (dim : nat) (F : nat -> R) : Fam :=
  let mtx1 := if mode_ul
    then fun k => sm dim (fun a => F (dim * (k / dim) + a)%nat * F (dim * (k mod dim) + a)%nat)
    else fun k => sm dim (fun a => F (dim * a + k / dim)%nat * F (dim * a + k mod dim)%nat) in
  let mtx2 := geme_invert3x3 dim mtx1 in
  mkFam F (geme_det3x3 dim F) (geme_tensor2vectorS3 dim mtx1) (geme_invar1 dim mtx1)
        (geme_invar2 dim mtx1) (geme_tensor2vectorS3 dim mtx2) (strainGreen_VS dim F).

(** [exp( -2.0/3.0 * log( detF ) )] (log of a nonpositive number is NaN in C; the
    caller raises for detF < 0, terms_hyperelastic_base.py l.82-113). *)
Definition detF23 (J : R) : R := exp (- 2 / 3 * ln J).

(** terms_hyperelastic.c l.620-718, 721-791, 795-890, 1346-1385: stresses. *)
Definition stress_bulk (ul : bool) (dim : nat) (bulk : R) (f : Fam) (ir : nat) : R :=
  bulk * detF f * (detF f - 1) * (if ul then get_trace (dim2sym dim) ir else vecInvCS f ir).
Definition stress_bulk_active (dim : nat) (mat : R) (f : Fam) (ir : nat) : R :=
  mat * detF f * vecInvCS f ir.
Definition stress_neohook (ul : bool) (dim : nat) (mu : R) (f : Fam) (ir : nat) : R :=
  let tr := get_trace (dim2sym dim) in
  if ul then mu * detF23 (detF f) * (vecCS f ir - trC f / 3 * tr ir)
  else mu * detF23 (detF f) * (tr ir - trC f / 3 * vecInvCS f ir).
Definition stress_mooney_rivlin (ul : bool) (dim : nat) (kappa : R) (f : Fam) (ir : nat) : R :=
  let tr := get_trace (dim2sym dim) in
  let d := detF23 (detF f) in
  if ul then kappa * d * d * (trC f * vecCS f ir - mulT2S_AA (dim2sym dim) (vecCS f) ir
                              - (2 / 3) * in2C f * tr ir)
  else kappa * d * d * (trC f * tr ir - vecCS f ir - (2 / 3) * in2C f * vecInvCS f ir).
Definition stress_bulk_pressure (ul : bool) (dim : nat) (p : R) (f : Fam) (ir : nat) : R :=
  let aux := - p * detF f in
  aux * (if ul then get_trace (dim2sym dim) ir else vecInvCS f ir).

(** terms_hyperelastic.c l.895-1001 dq_{tl,ul}_he_tan_mod_bulk. *)
Definition tan_mod_bulk (ul : bool) (dim : nat) (bulk : R) (f : Fam) (ir ic : nat) : R :=
  let a := if ul then get_trace (dim2sym dim) else vecInvCS f in
  let cbulk21 := bulk * detF f * (detF f - 1) in
  let cbulk22 := bulk * detF f * detF f in
  (cbulk21 + cbulk22) * a ir * a ic
  - cbulk21 * (mulT4_ikjl dim a a ir ic + mulT4_iljk dim a a ir ic).
(** l.1004-1054 dq_tl_he_tan_mod_bulk_active. *)
Definition tan_mod_bulk_active (dim : nat) (mat : R) (f : Fam) (ir ic : nat) : R :=
  let a := vecInvCS f in let cmat := mat * detF f in
  cmat * a ir * a ic - cmat * (mulT4_ikjl dim a a ir ic + mulT4_iljk dim a a ir ic).
(** l.1057-1180 dq_{tl,ul}_he_tan_mod_neohook. *)
Definition tan_mod_neohook (ul : bool) (dim : nat) (mu : R) (f : Fam) (ir ic : nat) : R :=
  let tr := get_trace (dim2sym dim) in
  let cc := mu * detF23 (detF f) in
  let c1 := 2 / 9 * cc * trC f in
  let c2 := - 2 / 3 * cc in
  let c3 := cc / 3 * trC f in
  if ul then
    c1 * tr ir * tr ic + c2 * (vecCS f ir * tr ic + vecCS f ic * tr ir)
    + c3 * (mulT4_ikjl dim tr tr ir ic + mulT4_iljk dim tr tr ir ic)
  else
    let a := vecInvCS f in
    c1 * a ir * a ic + c2 * (a ir * tr ic + a ic * tr ir)
    + c3 * (mulT4_ikjl dim a a ir ic + mulT4_iljk dim a a ir ic).
(** l.1182-1258 dq_tl_he_tan_mod_mooney_rivlin; the two loops that add to the diagonal
    are the last summand. *)
Definition tan_mod_mooney_rivlin_tl (dim : nat) (kappa : R) (f : Fam) (ir ic : nat) : R :=
  let tr := get_trace (dim2sym dim) in
  let a := vecInvCS f in
  let d43 := detF23 (detF f) * detF23 (detF f) in
  let c1 := 8 / 9 * kappa * d43 * in2C f in
  let c2 := - 4 / 3 * kappa * d43 * trC f in
  let c3 := 2 / 3 * kappa * d43 * in2C f in
  let c4 := 2 * kappa * d43 in
  let c5 := - kappa * d43 in
  let c6 := 4 / 3 * kappa * d43 in
  c1 * a ir * a ic + c2 * (a ir * tr ic + a ic * tr ir)
  + c3 * (mulT4_ikjl dim a a ir ic + mulT4_iljk dim a a ir ic)
  + c4 * (tr ir * tr ic)
  + c6 * (vecCS f ir * a ic + vecCS f ic * a ir)
  + (if (ir =? ic)%nat then (if (ir <? dim)%nat then 2 * c5 else c5) else 0).
(** l.1261-1343 dq_ul_he_tan_mod_mooney_rivlin. *)
Definition tan_mod_mooney_rivlin_ul (dim : nat) (kappa : R) (f : Fam) (ir ic : nat) : R :=
  let tr := get_trace (dim2sym dim) in
  let b := vecCS f in
  let bb := mulT2S_AA (dim2sym dim) b in
  let d43 := detF23 (detF f) * detF23 (detF f) in
  let F1 := 16 / 9 * kappa * d43 * in2C f in
  let F2 := - 8 / 3 * kappa * d43 * trC f in
  let F3 := 4 / 3 * kappa * d43 * in2C f in
  let F4 := 4 * kappa * d43 in
  let F5 := - 2 * kappa * d43 in
  let F6 := 8 / 3 * kappa * d43 in
  F1 * tr ir * tr ic + F2 * (b ir * tr ic + tr ir * b ic)
  + F3 * (mulT4_ikjl dim tr tr ir ic + mulT4_iljk dim tr tr ir ic)
  + F4 * b ir * b ic
  + F5 * (mulT4_ikjl dim b b ir ic + mulT4_iljk dim b b ir ic)
  + F6 * (bb ir * tr ic + bb ic * tr ir).
(** l.1402-1510 dq_{tl,ul}_tan_mod_bulk_pressure_u. *)
Definition tan_mod_bulk_pressure (ul : bool) (dim : nat) (p : R) (f : Fam) (ir ic : nat) : R :=
  let a := if ul then get_trace (dim2sym dim) else vecInvCS f in
  let cc := detF f * p in
  - cc * a ir * a ic + cc * (mulT4_ikjl dim a a ir ic + mulT4_iljk dim a a ir ic).

(** terms_hyperelastic_tl.py l.92-150 GenYeohTLTerm._get_stress_yeoh with [coef] =
    [K_1, K_2, K_3, m, p, q]; [x ** y] for x > 0 is Rpower, for 0 it is 0 ** y
    (1 if y = 0); i3 = det_f ** 2.  3D only. *)
Definition npow (x y : R) : R := if Rlt_dec 0 x then Rpower x y else if Req_EM_T y 0 then 1 else 0.
Definition yeoh_bracket (i1 i3 : R) : R := npow i3 (- 1 / 3) * i1 - 3.
Definition yeoh_pow (x p : R) : R :=
  let x_safe := if Rle_dec x 0 then 1 else x in
  let result := npow x_safe p in
  if Rlt_dec 0 x then result else if Rle_dec 0 p then result else 1.
Definition stress_genyeoh (coef : nat -> R) (f : Fam) (ir : nat) : R :=
  let i1 := trC f in let i3 := detF f ^ 2 in
  let K1 := coef 0%nat in let K2 := coef 1%nat in let K3 := coef 2%nat in
  let m := coef 3%nat in let p := coef 4%nat in let q := coef 5%nat in
  let b := yeoh_bracket i1 i3 in
  let term := m * K1 * yeoh_pow b (m - 1) + p * K2 * yeoh_pow b (p - 1) + q * K3 * yeoh_pow b (q - 1) in
  let fact := 2 * npow i3 (- 1 / 3) * term in
  fact * (get_trace 6 ir - i1 / 3 * vecInvCS f ir).
(** l.179-269 _get_tan_mod_yeoh. *)
Definition yeoh_m1 (b ex : R) : R :=
  if Rlt_dec 0 b then npow b (ex - 1) else if Rle_dec 1 ex then npow b (ex - 1) else 1.
Definition yeoh_m2 (b ex : R) : R :=
  if Rlt_dec 0 b then npow b (ex - 2) else if Rle_dec 2 ex then npow b (ex - 2) else 0.
Definition yeoh_term (m K b i1 i3 : R) (a : nat -> R) (ir ic : nat) : R :=
  let e := get_trace 6 in
  let b1 := yeoh_m1 b m in let b2 := yeoh_m2 b m in
  let i3m13 := npow i3 (- 1 / 3) in let i3m23 := npow i3 (- 2 / 3) in
  let i1_2 := i1 * i1 in
  m * K * (3 * (m - 1) * b2 * i3m23 * e ir * e ic
           - ((m - 1) * b2 * i1 * i3m23 + b1 * i3m13) * (e ir * a ic + a ir * e ic)
           + ((m - 1) * b2 * i1_2 * i3m23 + b1 * i3m13 * i1) / 3 * a ir * a ic
           + 5 / 10 * b1 * i3m13 * i1 * (mulT4_ikjl 3 a a ir ic + mulT4_iljk 3 a a ir ic)).
Definition tan_mod_genyeoh (coef : nat -> R) (f : Fam) (ir ic : nat) : R :=
  let i1 := trC f in let i3 := detF f ^ 2 in
  let b := yeoh_bracket i1 i3 in
  let t m K := yeoh_term m K b i1 i3 (vecInvCS f) ir ic in
  4 / 3 * (t (coef 3%nat) (coef 0%nat) + t (coef 4%nat) (coef 1%nat) + t (coef 5%nat) (coef 2%nat)).

(** terms_hyperelastic_tl.py l.505-518 SaintVenantKirchhoffTLTerm.  The material array
    has [n_mat] cells; [tile_mat] (terms.py l.377-381) copies it only when n_mat = 1
    and there are more cells, otherwise the [*= 2] changes the caller's array.
    Result: (stress or modulus of a cell, the caller's array afterwards); the
    quadrature point index is left out. *)
Definition mat_t := nat -> nat -> nat -> R.   (* cell, row, column *)
Definition tile_mat (n_mat nel : nat) (m : mat_t) : mat_t * bool :=
  if ((n_mat =? 1) && (1 <? nel))%bool%nat then (fun _ r c => m 0%nat r c, true) else (m, false).
Definition svk_stress (dim n_mat nel : nat) (m : mat_t) (sym_e : nat -> nat -> R)
  : (nat -> nat -> R) * mat_t :=
  let (mt, copied) := tile_mat n_mat nel m in
  let mt' := fun c i j => if (dim <=? j)%nat then mt c i j * 2 else mt c i j in
  (fun c k => sm (dim2sym dim) (fun l => mt' c k l * sym_e c l), if copied then m else mt').
Definition svk_tan_mod (dim n_mat nel : nat) (m : mat_t) : (nat -> nat -> nat -> R) * mat_t :=
  let (mt, copied) := tile_mat n_mat nel m in
  let mt' := fun c i j => if (dim <=? i)%nat then mt c i j * 2 else mt c i j in
  (mt', if copied then m else mt').

(** *** One cell *)
(** fmfield.c l.815 fmf_mulATBT_1n: objR = objA^T * objB^T, objA has one level. *)
Definition mulATBT_1n (r a b : FMF) : FMF :=
  stores r (for_ (nLev r) (fun il => let pr := ptr_level r il in let pb := ptr_level b il in
            for_ (nRow r) (fun i => for_ (nCol r) (fun j =>
              [((pr + nCol r * i + j)%nat,
                sm (nRow a) (fun k => val a (nCol a * k + i)%nat * val b (pb + nCol b * j + k)%nat))])))).
(** fmfield.c l.1201 fmfr_addA_blockNC (nColFull = nCol, offset = 0). *)
Definition addA_blockNC (r a : FMF) (row col : nat) : FMF :=
  stores r (for_ (nLev r) (fun il => for_ (nRow a) (fun ir => for_ (nCol a) (fun ic =>
     let k := (nCol r * nRow r * il + nCol r * row + col + nCol r * ir + ic)%nat in
     [(k, val r k + val a (nCol a * nRow a * il + nCol a * ir + ic)%nat)])))).
(** fmfield.c l.1306 fmf_sumLevelsTMulF. *)
Definition sumLevelsTMulF (r a : FMF) (v : nat -> R) : FMF :=
  stores (fill0 r) (for_ (nRow r) (fun ir => for_ (nCol r) (fun ic =>
     [((nCol r * ir + ic)%nat,
       sm (nLev a) (fun il => val a (ptr_level a il + nCol a * ic + ir)%nat * v il))]))).

(** terms_hyperelastic.c l.326-345: the deformation gradients of a cell. *)
Definition def_grad (state : nat -> R) (conn : nat -> nat) (g : FMF) : FMF :=
  let dim := nRow g in let nEP := nCol g in
  let mtxF := mulATBT_1n (alloc (nLev g) dim dim) (extractNBN (alloc 1 nEP dim) state conn) g in
  stores mtxF (for_ (nLev g) (fun iqp => for_ dim (fun id =>
     [((dim * (dim * iqp + id) + id)%nat, val mtxF (dim * (dim * iqp + id) + id)%nat + 1)]))).

(** Quadrature point data as a buffer (one level per point). *)
Definition qp_buf (nq r c : nat) (f : nat -> nat -> R) : FMF :=
  mkF nq r c (fun k => f (k / (c * r))%nat (k mod (c * r))%nat).
Definition level (o : FMF) (q : nat) : nat -> R := fun k => val o (ptr_level o q + k)%nat.

(** terms_hyperelastic.c l.95-215 form_tlcc_buildOpB_VS3. *)
Definition buildOpB (out F gc : FMF) : FMF :=
  let nEP := nCol gc in
  let g q d e := val gc (ptr_level gc q + d * nEP + e)%nat in
  let pd q k := val F (ptr_level F q + k)%nat in
  match nRow gc with
  | 3%nat => stores (fill0 out) (for_ (nLev gc) (fun q => let p := ptr_level out q in
      (for_ nEP (fun e =>
        [((p + e)%nat, pd q 0%nat * g q 0%nat e); ((p + (e + nEP))%nat, pd q 3%nat * g q 0%nat e);
         ((p + (e + 2 * nEP))%nat, pd q 6%nat * g q 0%nat e)]) ++
       for_ nEP (fun e => let p := (p + 3 * nEP)%nat in
        [((p + e)%nat, pd q 1%nat * g q 1%nat e); ((p + (e + nEP))%nat, pd q 4%nat * g q 1%nat e);
         ((p + (e + 2 * nEP))%nat, pd q 7%nat * g q 1%nat e)]) ++
       for_ nEP (fun e => let p := (p + 3 * nEP + 3 * nEP)%nat in
        [((p + e)%nat, pd q 2%nat * g q 2%nat e); ((p + (e + nEP))%nat, pd q 5%nat * g q 2%nat e);
         ((p + (e + 2 * nEP))%nat, pd q 8%nat * g q 2%nat e)]) ++
       for_ nEP (fun e => let p := (p + 3 * nEP + 3 * nEP + 3 * nEP)%nat in
        [((p + e)%nat, pd q 1%nat * g q 0%nat e + pd q 0%nat * g q 1%nat e);
         ((p + (e + nEP))%nat, pd q 4%nat * g q 0%nat e + pd q 3%nat * g q 1%nat e);
         ((p + (e + 2 * nEP))%nat, pd q 7%nat * g q 0%nat e + pd q 6%nat * g q 1%nat e)]) ++
       for_ nEP (fun e => let p := (p + 3 * nEP + 3 * nEP + 3 * nEP + 3 * nEP)%nat in
        [((p + e)%nat, pd q 2%nat * g q 0%nat e + pd q 0%nat * g q 2%nat e);
         ((p + (e + nEP))%nat, pd q 5%nat * g q 0%nat e + pd q 3%nat * g q 2%nat e);
         ((p + (e + 2 * nEP))%nat, pd q 8%nat * g q 0%nat e + pd q 6%nat * g q 2%nat e)]) ++
       for_ nEP (fun e => let p := (p + 3 * nEP + 3 * nEP + 3 * nEP + 3 * nEP + 3 * nEP)%nat in
        [((p + e)%nat, pd q 2%nat * g q 1%nat e + pd q 1%nat * g q 2%nat e);
         ((p + (e + nEP))%nat, pd q 5%nat * g q 1%nat e + pd q 4%nat * g q 2%nat e);
         ((p + (e + 2 * nEP))%nat, pd q 8%nat * g q 1%nat e + pd q 7%nat * g q 2%nat e)]))))
  | 2%nat => stores (fill0 out) (for_ (nLev gc) (fun q => let p := ptr_level out q in
      (for_ nEP (fun e =>
        [((p + e)%nat, pd q 0%nat * g q 0%nat e); ((p + (e + nEP))%nat, pd q 2%nat * g q 0%nat e)]) ++
       for_ nEP (fun e => let p := (p + 2 * nEP)%nat in
        [((p + e)%nat, pd q 1%nat * g q 1%nat e); ((p + (e + nEP))%nat, pd q 3%nat * g q 1%nat e)]) ++
       for_ nEP (fun e => let p := (p + 2 * nEP + 2 * nEP)%nat in
        [((p + e)%nat, pd q 1%nat * g q 0%nat e + pd q 0%nat * g q 1%nat e);
         ((p + (e + nEP))%nat, pd q 3%nat * g q 0%nat e + pd q 2%nat * g q 1%nat e)]))))
  | 1%nat => stores (fill0 out) (for_ (nLev gc) (fun q => let p := ptr_level out q in
      for_ nEP (fun e => [((p + e)%nat, pd q 0%nat * g q 0%nat e)])))
  | _ => fill0 out
  end.

(** terms_hyperelastic.c l.224-300 form_tlcc_buildOpKtsC_VS3. *)
Definition buildOpKtsC (out tau gc : FMF) : FMF :=
  let nEP := nCol gc in
  let g q d e := val gc (ptr_level gc q + d * nEP + e)%nat in
  let t q k := val tau (ptr_level tau q + k)%nat in
  let loop f := stores (fill0 out) (for_ (nLev gc) (fun q => for_ nEP (fun ir => for_ nEP (fun ic =>
      [((ptr_level out q + nEP * ir + ic)%nat, f q ir ic)])))) in
  match nRow gc with
  | 3%nat => loop (fun q ir ic =>
        t q 0%nat * g q 0%nat ir * g q 0%nat ic + t q 3%nat * g q 1%nat ir * g q 0%nat ic
      + t q 4%nat * g q 2%nat ir * g q 0%nat ic + t q 3%nat * g q 0%nat ir * g q 1%nat ic
      + t q 1%nat * g q 1%nat ir * g q 1%nat ic + t q 5%nat * g q 2%nat ir * g q 1%nat ic
      + t q 4%nat * g q 0%nat ir * g q 2%nat ic + t q 5%nat * g q 1%nat ir * g q 2%nat ic
      + t q 2%nat * g q 2%nat ir * g q 2%nat ic)
  | 2%nat => loop (fun q ir ic =>
        t q 0%nat * g q 0%nat ir * g q 0%nat ic + t q 2%nat * g q 1%nat ir * g q 0%nat ic
      + t q 2%nat * g q 0%nat ir * g q 1%nat ic + t q 1%nat * g q 1%nat ir * g q 1%nat ic)
  | 1%nat => loop (fun q ir ic => t q 0%nat * g q 0%nat ir * g q 0%nat ic)
  | _ => fill0 out
  end.

(** terms_hyperelastic.c l.454-570 dw_he_rtm, one cell.  [detF] as (nQP,1,1). *)
Definition dw_he_rtm (out stress tan_mod F detF : FMF) (vg : Geo) (isDiff mode_ul : bool) : FMF :=
  let g := bfGM vg in
  let nQP := nLev g in let sym := nRow stress in let nRw := nRow out in
  let dim := nRow g in let nEP := nCol g in
  if isDiff then
    let btd := alloc nQP nRw sym in let btdb := alloc nQP nRw nRw in
    let ktsc := alloc nQP nEP nEP in let iktsc := alloc 1 nEP nEP in
    let '(out, iktsc) :=
      if mode_ul then
        let aux := fun j => val (det vg) j / val detF j in
        let btd := actOpGT_M3 btd g tan_mod in
        let btdb := actOpG_RM3 btdb btd g in
        (sumLevelsMulF out btdb aux, sumLevelsMulF iktsc (buildOpKtsC ktsc stress g) aux)
      else
        let aux := buildOpB (alloc nQP sym nRw) F g in
        let btd := mulATB_nn btd aux tan_mod in
        let btdb := mulAB_nn btdb btd aux in
        (sumLevelsMulF out btdb (val (det vg)),
         sumLevelsMulF iktsc (buildOpKtsC ktsc stress g) (val (det vg))) in
    let out := addA_blockNC out iktsc 0 0 in
    let out := if (1 <? dim)%nat then addA_blockNC out iktsc nEP nEP else out in
    if (2 <? dim)%nat then addA_blockNC out iktsc (2 * nEP) (2 * nEP) else out
  else
    let out_qp := alloc nQP nRw 1 in
    if mode_ul then
      let aux := fun j => val (det vg) j / val detF j in
      sumLevelsMulF out (actOpGT_M3 out_qp g stress) aux
    else
      let aux := buildOpB (alloc nQP sym nRw) F g in
      sumLevelsMulF out (mulATB_nn out_qp aux stress) (val (det vg)).

(** terms_hyperelastic.c l.1512-1575 dw_tl_volume, modes 0, 1, -1, 2, one cell. *)
Definition dw_tl_volume (out F invC detF : FMF) (vgs vgv : Geo) (transpose : bool) (mode : Z) : FMF :=
  let g := bfGM vgv in
  if (mode =? 0)%Z then
    sumLevelsTMulF out (mul_ (bf vgs) (val detF)) (val (det vgv))
  else if ((mode =? 1) || (mode =? -1))%bool%Z then
    let nQP := nLev g in let sym := nRow invC in let nEP := nCol (bf vgs) in
    let nRw := (nRow g * nCol g)%nat in
    let aux := buildOpB (alloc nQP sym nRw) F g in
    let jcitb := mulATB_nn (alloc nQP 1 nRw) invC aux in
    let jcitb := mul_ jcitb (val detF) in
    let fjcitb := mulATB_nn (alloc nQP nEP nRw) (bf vgs) jcitb in
    let out := if transpose then sumLevelsTMulF out fjcitb (val (det vgv))
               else sumLevelsMulF out fjcitb (val (det vgv)) in
    mulC out (IZR mode)
  else sumLevelsMulF out detF (val (det vgv)).

(** terms_hyperelastic_base.py l.181-208 HyperElasticBase.get_fargs in the weak mode,
    followed by the kernel, for one cell: the residual stores the stress in
    [self.stress_cache], the tangent matrix takes the stress found there.  [S q], [D q]
    are the constitutive functions at the point [q] (with its material parameters);
    [cache] is the cell's part of the cache. *)
Definition he_weak (dim : nat) (S : nat -> Fam -> nat -> R) (D : nat -> Fam -> nat -> nat -> R)
    (cache : option FMF) (diff : bool) (junk st : nat -> R) (conn : nat -> nat) (vg : Geo) : FMF * option FMF :=
  let g := bfGM vg in let nq := nLev g in let sym := dim2sym dim in
  let F := def_grad st conn g in
  let fam q := finite_strain false dim (level F q) in
  let stress := qp_buf nq sym 1 (fun q k => S q (fam q) k) in
  let detf := qp_buf nq 1 1 (fun q _ => detF (fam q)) in
  let n := (dim * nCol g)%nat in
  if diff then
    let stress := match cache with Some s => s | None => stress end in
    let tan := qp_buf nq sym sym (fun q k => D q (fam q) (k / sym)%nat (k mod sym)%nat) in
    (dw_he_rtm (emp 1 n n junk) stress tan F detf vg true false, cache)
  else
    (dw_he_rtm (emp 1 n 1 junk) stress (qp_buf 1 1 1 (fun _ _ => 0)) F detf vg false false, Some stress).

(** The same for the updated Lagrangian terms (terms_hyperelastic_base.py l.53-70, 183-208,
    terms_hyperelastic_ul.py): the strains use the mapping [vg0] saved for the undeformed mesh
    ([get_saved=True]), the kernel the mapping [vg] of the current, moved mesh. *)
Definition he_weak_ul (dim : nat) (S : nat -> Fam -> nat -> R) (D : nat -> Fam -> nat -> nat -> R)
    (cache : option FMF) (diff : bool) (junk st : nat -> R) (conn : nat -> nat) (vg0 vg : Geo) : FMF * option FMF :=
  let nq := nLev (bfGM vg) in let sym := dim2sym dim in
  let F := def_grad st conn (bfGM vg0) in
  let fam q := finite_strain true dim (level F q) in
  let stress := qp_buf nq sym 1 (fun q k => S q (fam q) k) in
  let detf := qp_buf nq 1 1 (fun q _ => detF (fam q)) in
  let n := (dim * nCol (bfGM vg))%nat in
  if diff then
    let stress := match cache with Some s => s | None => stress end in
    let tan := qp_buf nq sym sym (fun q k => D q (fam q) (k / sym)%nat (k mod sym)%nat) in
    (dw_he_rtm (emp 1 n n junk) stress tan F detf vg true true, cache)
  else
    (dw_he_rtm (emp 1 n 1 junk) stress (qp_buf 1 1 1 (fun _ _ => 0)) F detf vg false true, Some stress).

(** terms_hyperelastic_tl.py l.722-757 VolumeTLTerm (weak mode, one cell) and l.643-671
    BulkPressureTLTerm, derivative with respect to the pressure; the bulk pressure
    residual and its derivative with respect to the displacement are [he_weak] with the
    stress [stress_bulk_pressure] of the pressure in the quadrature points. *)
Definition tl_volume (dim : nat) (diff : bool) (junk st : nat -> R) (conn : nat -> nat) (vgs vgv : Geo) : FMF :=
  let g := bfGM vgv in let nq := nLev g in
  let F := def_grad st conn g in
  let fam q := finite_strain false dim (level F q) in
  let invC := qp_buf nq (dim2sym dim) 1 (fun q k => vecInvCS (fam q) k) in
  let detf := qp_buf nq 1 1 (fun q _ => detF (fam q)) in
  dw_tl_volume (emp 1 (nCol (bf vgs)) (if diff then (dim * nCol g)%nat else 1%nat) junk) F invC detf vgs vgv false (if diff then 1 else 0).
Definition tl_bulk_pressure_dp (dim : nat) (junk st : nat -> R) (conn : nat -> nat) (vgs vgv : Geo) : FMF :=
  let g := bfGM vgv in let nq := nLev g in
  let F := def_grad st conn g in
  let fam q := finite_strain false dim (level F q) in
  let invC := qp_buf nq (dim2sym dim) 1 (fun q k => vecInvCS (fam q) k) in
  let detf := qp_buf nq 1 1 (fun q _ => detF (fam q)) in
  dw_tl_volume (emp 1 (dim * nCol g)%nat (nCol (bf vgs)) junk) F invC detf vgs vgv true (-1).
Definition p_in_qp (p : nat -> R) (pconn : nat -> nat) (vgs : Geo) (q : nat) : R :=
  val (dq_state_in_qp (emp (nLev (bf vgs)) 1 1 (fun _ => 0)) p (bf vgs) pconn) q.
