(** Model of the weak form terms: what one cell contributes to the residual
    vector, to the tangent matrix and to the evaluated integral.
    Code modelled: sfepy/terms/extmods/terms_basic.c l.5-110,
    terms_elastic.c l.101-224, 482-519, terms_diffusion.c l.5-430,
    terms_dot.c l.5-420, terms_navier_stokes.c l.10-110, 230-325, 483-870,
    terms_biot.c, and the argument preparation in terms_diffusion.py l.31-75,
    terms_elastic.py l.54-95, terms_dot.py l.60-135, 308-365,
    terms_navier_stokes.py l.31-90, 95-165, 226-290, terms_biot.py l.50-115,
    discrete/evaluate_variable.py l.6-45, discrete/common/mappings.py l.31-40.
    One cell is modelled; scratch buffers are zeroed for every cell, in C they are
    allocated zeroed once and each cell writes the same entries (only
    [convect_build_vtg] does not write all of them, and nothing writes the others).
    Complex values, the DEBUG_FMF shape checks and error returns are not modelled. *)
From Coq Require Import Reals.
From Verif Require Import Base M_fmf.
Open Scope nat_scope.

(** Reference mapping of a cell (geomtrans.h Mapping): values [bf] (nQP, 1, nEP) and
    physical gradients [bfGM] (nQP, dim, nEP) of the base functions, [det] = Jacobian
    times quadrature weight (nQP, 1, 1), facet normals (nQP, dim, 1). *)
Record Geo := mkG { bf : FMF; bfGM : FMF; det : FMF; normal : FMF }.

(** fmfield.h l.49 FMF_SetCellX1: an array with one cell serves all cells. *)
Definition cellX1 {A} (nCell : nat) (f : nat -> A) (ii : nat) : A := if 1 <? nCell then f ii else f 0.

(** numpy reshape/transpose of C-contiguous (n_el, n_qp, r, c) data, per cell. *)
Definition np_transpose (o : FMF) : FMF :=
  mkF (nLev o) (nCol o) (nRow o)
      (fun k => let il := k / (nRow o * nCol o) in let r := k mod (nRow o * nCol o) in
                at_ o il (r mod nRow o) (r / nRow o)).

(** terms_basic.c l.8 dq_state_in_qp, l.42 dq_grad, l.72 dq_div_vector,
    terms_elastic.c l.487 dq_cauchy_strain; [out] comes from [nm.empty]. *)
Definition dq_state_in_qp (out : FMF) (state : nat -> R) (b : FMF) (conn : nat -> nat) : FMF :=
  bf_act out b (extractDBD (alloc 1 (nRow out) (nCol b)) state conn).
Definition dq_grad (out : FMF) (state : nat -> R) (vg : Geo) (conn : nat -> nat) : FMF :=
  mulAB_n1 out (bfGM vg) (extractNBN (alloc 1 (nCol (bfGM vg)) (nCol out)) state conn).
Definition dq_div_vector (out : FMF) (state : nat -> R) (vg : Geo) (conn : nat -> nat) : FMF :=
  let g := bfGM vg in let nEP := nCol g in let dim := nRow g in
  mulAB_n1 out (pretend (nLev g) 1 (nEP * dim) g)
           (pretend 1 (nEP * dim) 1 (extractDBD (alloc 1 dim nEP) state conn)).
Definition dq_cauchy_strain (out : FMF) (state : nat -> R) (vg : Geo) (conn : nat -> nat) : FMF :=
  let g := bfGM vg in
  strainCauchy_VS out (mulAB_n1 (alloc (nLev g) (nRow g) (nRow g)) g
                                (extractNBN (alloc 1 (nCol g) (nRow g)) state conn)).

(** terms_diffusion.c l.11 laplace_build_gtg. *)
Definition laplace_build_gtg (out gc : FMF) : FMF :=
  let nEP := nCol gc in let nC := nCol out in
  let g iqp d iep := val gc (ptr_level gc iqp + d * nEP + iep) in
  let loop (f : nat -> nat -> nat -> R) :=
    stores (fill0 out) (for_ (nLev gc) (fun q => for_ nEP (fun ir => for_ nEP (fun ic =>
       [(ptr_level out q + nC * ir + ic, f q ir ic)])))) in
  match nRow gc with
  | 3 => loop (fun q ir ic => g q 0 ir *! g q 0 ic +! g q 1 ir *! g q 1 ic +! g q 2 ir *! g q 2 ic)
  | 2 => loop (fun q ir ic => g q 0 ir *! g q 0 ic +! g q 1 ir *! g q 1 ic)
  | 1 => loop (fun q ir ic => g q 0 ir *! g q 0 ic)
  | _ => fill0 out
  end.
(** terms_diffusion.c l.182 laplace_act_gt_m. *)
Definition laplace_act_gt_m (out gc mtx : FMF) : FMF :=
  let nEP := nCol gc in let nC := nCol mtx in
  let g iqp d iep := val gc (ptr_level gc iqp + d * nEP + iep) in
  let m iqp k ii := val mtx (ptr_level mtx iqp + k * nC + ii) in
  let loop (f : nat -> nat -> nat -> R) :=
    stores out (for_ (nLev gc) (fun q => for_ nEP (fun e => for_ nC (fun ii =>
       [(ptr_level out q + nC * e + ii, f q e ii)])))) in
  match nRow gc with
  | 3 => loop (fun q e ii => g q 0 e *! m q 0 ii +! g q 1 e *! m q 1 ii +! g q 2 e *! m q 2 ii)
  | 2 => loop (fun q e ii => g q 0 e *! m q 0 ii +! g q 1 e *! m q 1 ii)
  | 1 => loop (fun q e ii => g q 0 e *! m q 0 ii)
  | _ => out
  end.
(** terms_diffusion.c l.252 dw_laplace, l.313 d_laplace. *)
Definition dw_laplace (out grad coef : FMF) (vg : Geo) (isDiff : bool) : FMF :=
  let nQP := nLev (bfGM vg) in let nEP := nCol (bfGM vg) in
  if isDiff then
    let gtg := laplace_build_gtg (alloc nQP nEP nEP) (bfGM vg) in
    sumLevelsMulF out (mulAF gtg gtg (val coef)) (val (det vg))
  else
    let gtgu := laplace_act_gt_m (alloc nQP nEP 1) (bfGM vg) grad in
    sumLevelsMulF out (mulAF gtgu gtgu (val coef)) (val (det vg)).
Definition d_laplace (out gradP1 gradP2 coef : FMF) (vg : Geo) : FMF :=
  let nQP := nLev (bfGM vg) in let dim := nRow (bfGM vg) in
  let dgp2 := mulAF (alloc nQP dim 1) gradP2 (val coef) in
  sumLevelsMulF out (mulATB_nn (alloc nQP 1 1) gradP1 dgp2) (val (det vg)).
(** terms_diffusion.c l.336 dw_diffusion, l.405 d_diffusion. *)
Definition dw_diffusion (out grad mtxD : FMF) (vg : Geo) (isDiff : bool) : FMF :=
  let nQP := nLev (bfGM vg) in let nEP := nCol (bfGM vg) in let dim := nRow (bfGM vg) in
  if isDiff then
    let gtd := mulATB_nn (alloc nQP nEP dim) (bfGM vg) mtxD in
    sumLevelsMulF out (mulAB_nn (alloc nQP nEP nEP) gtd (bfGM vg)) (val (det vg))
  else
    let dgp := mulAB_nn (alloc nQP dim 1) mtxD grad in
    sumLevelsMulF out (mulATB_nn (alloc nQP nEP 1) (bfGM vg) dgp) (val (det vg)).
Definition d_diffusion (out gradP1 gradP2 mtxD : FMF) (vg : Geo) : FMF :=
  let nQP := nLev (bfGM vg) in let dim := nRow (bfGM vg) in
  let dgp2 := mulAB_nn (alloc nQP dim 1) mtxD gradP2 in
  sumLevelsMulF out (mulATB_nn (alloc nQP 1 1) gradP1 dgp2) (val (det vg)).

(** terms_elastic.c l.105 dw_lin_elastic, l.179 d_lin_elastic. *)
Definition dw_lin_elastic (out : FMF) (coef : R) (strain mtxD : FMF) (vg : Geo) (isDiff : bool) : FMF :=
  let g := bfGM vg in let nQP := nLev g in let nEP := nCol g in let dim := nRow g in
  let sym := (dim + 1) * dim / 2 in
  mulC (if isDiff then
          let gtd := actOpGT_M3 (alloc nQP (nEP * dim) sym) g mtxD in
          sumLevelsMulF out (actOpG_RM3 (alloc nQP (nEP * dim) (nEP * dim)) gtd g) (val (det vg))
        else
          let stress := mulAB_nn (alloc nQP sym 1) mtxD strain in
          sumLevelsMulF out (actOpGT_VS3 (alloc nQP (dim * nEP) 1) g stress) (val (det vg))) coef.
Definition d_lin_elastic (out : FMF) (coef : R) (strainV strainU mtxD : FMF) (vg : Geo) : FMF :=
  let nQP := nLev (bfGM vg) in let sym := nRow mtxD in
  let std := mulATB_nn (alloc nQP 1 sym) strainV mtxD in
  mulC (sumLevelsMulF out (mulAB_nn (alloc nQP 1 1) std strainU) (val (det vg))) coef.

(** terms_dot.c l.115 dw_volume_dot_vector ([dim] = rvg->dim), l.199 dw_volume_dot_scalar. *)
Definition dw_volume_dot_vector (out coef val_qp : FMF) (rvg cvg : Geo) (dim : nat) (isDiff : bool) : FMF :=
  let nQP := nLev (bf rvg) in let nEPR := nCol (bf rvg) in let nEPC := nCol (bf cvg) in
  if isDiff then
    let ftf := alloc nQP (nEPR * dim) (nEPC * dim) in
    let ftf := if nCol coef =? 1 then
        mul_ (bf_buildFTF ftf (mulATB_nn (alloc nQP nEPR nEPC) (bf rvg) (bf cvg))) (val coef)
      else bf_actt ftf (bf rvg) (bf_ract (alloc nQP dim (dim * nEPC)) (bf cvg) coef) in
    sumLevelsMulF out ftf (val (det rvg))
  else
    let ftfu := alloc nQP (dim * nEPR) 1 in
    let ftfu := if nCol coef =? 1 then mul_ (bf_actt ftfu (bf rvg) val_qp) (val coef)
      else bf_actt ftfu (bf rvg) (mulAB_nn (alloc nQP dim 1) coef val_qp) in
    sumLevelsMulF out ftfu (val (det rvg)).
Definition dw_volume_dot_scalar (out coef val_qp : FMF) (rvg cvg : Geo) (isDiff : bool) : FMF :=
  let nQP := nLev (bf rvg) in let nEPR := nCol (bf rvg) in let nEPC := nCol (bf cvg) in
  if isDiff then
    let ftf := mulATB_nn (alloc nQP nEPR nEPC) (bf rvg) (bf cvg) in
    sumLevelsMulF out (mulAF (alloc nQP nEPR nEPC) ftf (val coef)) (val (det rvg))
  else
    sumLevelsMulF out (mul_ (bf_actt (alloc nQP nEPR 1) (bf rvg) val_qp) (val coef)) (val (det rvg)).

(** terms_dot.c l.6 dw_surface_v_dot_n_s, l.58 dw_surface_s_v_dot_n. *)
Definition dw_surface_v_dot_n_s (out coef val_qp : FMF) (rsg csg : Geo) (isDiff : bool) : FMF :=
  let nQP := nLev (normal rsg) in let dim := nRow (normal rsg) in
  let nEPR := nCol (bf rsg) in let nEPC := nCol (bf csg) in
  let aux1 := bf_actt (alloc nQP (dim * nEPR) 1) (bf rsg) (normal rsg) in
  let aux2 := if isDiff then mulAB_nn (alloc nQP (dim * nEPR) nEPC) aux1 (bf csg)
              else mulAB_nn (alloc nQP (dim * nEPR) 1) aux1 val_qp in
  sumLevelsMulF out (mul_ aux2 (val coef)) (val (det rsg)).
Definition dw_surface_s_v_dot_n (out coef val_qp : FMF) (rsg csg : Geo) (isDiff : bool) : FMF :=
  let nQP := nLev (det rsg) in let dim := nRow (normal rsg) in
  let nEPR := nCol (bf rsg) in let nEPC := nCol (bf csg) in
  let aux2 := if isDiff then
      mulATBT_nn (alloc nQP nEPR (dim * nEPC)) (bf rsg)
                 (bf_actt (alloc nQP (dim * nEPC) 1) (bf csg) (normal rsg))
    else mulATB_nn (alloc nQP nEPR 1) (bf rsg) (mulATB_nn (alloc nQP 1 1) (normal rsg) val_qp) in
  sumLevelsMulF out (mul_ aux2 (val coef)) (val (det rsg)).

(** terms_dot.c l.258 dw_v_dot_grad_s_vw, l.326 dw_v_dot_grad_s_sw. *)
Definition dw_v_dot_grad_s_vw (out coef grad : FMF) (vvg svg : Geo) (isDiff : bool) : FMF :=
  let nQP := nLev (bfGM vvg) in let dim := nRow (bfGM vvg) in
  let nEPS := nCol (bfGM svg) in let nEPV := nCol (bf vvg) in
  let ftg := if isDiff then
      let ftg := alloc nQP (dim * nEPV) nEPS in
      if nCol coef =? 1 then mul_ (bf_actt ftg (bf vvg) (bfGM svg)) (val coef)
      else bf_actt ftg (bf vvg) (mulAB_nn (alloc nQP dim nEPS) coef (bfGM svg))
    else
      let ftg := alloc nQP (dim * nEPV) 1 in
      if nCol coef =? 1 then mul_ (bf_actt_c1 ftg (bf vvg) grad) (val coef)
      else bf_actt ftg (bf vvg) (mulAB_nn (alloc nQP dim 1) coef grad) in
  sumLevelsMulF out ftg (val (det vvg)).
Definition dw_v_dot_grad_s_sw (out coef val_qp : FMF) (vvg svg : Geo) (isDiff : bool) : FMF :=
  let nQP := nLev (bfGM vvg) in let dim := nRow (bfGM vvg) in
  let nEPS := nCol (bfGM svg) in let nEPV := nCol (bf vvg) in
  let gtf := if isDiff then
      let gtf := alloc nQP nEPS (dim * nEPV) in
      if nCol coef =? 1 then
        mul_ (bf_ract gtf (bf vvg) (mulATC (alloc nQP nEPS dim) (bfGM svg) 1)) (val coef)
      else
        mulATB_nn gtf (bfGM svg) (bf_ract (alloc nQP dim (dim * nEPV)) (bf vvg) (mulATC (alloc nQP dim dim) coef 1))
    else
      let gtf := alloc nQP nEPS 1 in
      if nCol coef =? 1 then mul_ (mulATB_nn gtf (bfGM svg) val_qp) (val coef)
      else mulATB_nn gtf (bfGM svg) (mulATB_nn (alloc nQP dim 1) coef val_qp) in
  sumLevelsMulF out gtf (val (det vvg)).

(** terms_navier_stokes.c l.16 divgrad_build_gtg: the block of component c starts at
    [(nCol + 1) * nEPv] past the previous one. *)
Definition divgrad_build_gtg (out gcv gcs : FMF) : FMF :=
  let nEPv := nCol gcv in let nEPs := nCol gcs in let nC := nCol out in
  let gv iqp d iep := val gcv (ptr_level gcv iqp + d * nEPv + iep) in
  let gs iqp d iep := val gcs (ptr_level gcs iqp + d * nEPs + iep) in
  match nRow gcv with
  | 3 => stores (fill0 out) (for_ (nLev gcv) (fun q =>
           let p1 := ptr_level out q in let p2 := p1 + (nC + 1) * nEPv in let p3 := p2 + (nC + 1) * nEPv in
           for_ nEPv (fun ir => for_ nEPs (fun ic =>
             let v := gv q 0 ir *! gs q 0 ic +! gv q 1 ir *! gs q 1 ic +! gv q 2 ir *! gs q 2 ic in
             [(p3 + nC * ir + ic, v); (p2 + nC * ir + ic, v); (p1 + nC * ir + ic, v)]))))
  | 2 => stores (fill0 out) (for_ (nLev gcv) (fun q =>
           let p1 := ptr_level out q in let p2 := p1 + (nC + 1) * nEPv in
           for_ nEPv (fun ir => for_ nEPs (fun ic =>
             let v := gv q 0 ir *! gs q 0 ic +! gv q 1 ir *! gs q 1 ic in
             [(p2 + nC * ir + ic, v); (p1 + nC * ir + ic, v)]))))
  | 1 => stores (fill0 out) (for_ (nLev gcv) (fun q => let p1 := ptr_level out q in
           for_ nEPv (fun ir => for_ nEPs (fun ic => [(p1 + nC * ir + ic, gv q 0 ir *! gs q 0 ic)]))))
  | _ => fill0 out
  end.
(** terms_navier_stokes.c l.237 divgrad_act_gt_m. *)
Definition divgrad_act_gt_m (out gc mtx : FMF) : FMF :=
  let nEP := nCol gc in let nC := nCol mtx in
  let g iqp d iep := val gc (ptr_level gc iqp + d * nEP + iep) in
  let m iqp k ii := val mtx (ptr_level mtx iqp + k * nC + ii) in
  match nRow gc with
  | 3 => stores out (for_ (nLev gc) (fun q => for_ nEP (fun e => let p1 := ptr_level out q + nC * e in
         let p2 := p1 + nC * nEP in let p3 := p2 + nC * nEP in for_ nC (fun ii =>
          [(p1 + ii, g q 0 e *! m q 0 ii +! g q 1 e *! m q 1 ii +! g q 2 e *! m q 2 ii);
           (p2 + ii, g q 0 e *! m q 3 ii +! g q 1 e *! m q 4 ii +! g q 2 e *! m q 5 ii);
           (p3 + ii, g q 0 e *! m q 6 ii +! g q 1 e *! m q 7 ii +! g q 2 e *! m q 8 ii)]))))
  | 2 => stores out (for_ (nLev gc) (fun q => for_ nEP (fun e => let p1 := ptr_level out q + nC * e in
         let p2 := p1 + nC * nEP in for_ nC (fun ii =>
          [(p1 + ii, g q 0 e *! m q 0 ii +! g q 1 e *! m q 1 ii);
           (p2 + ii, g q 0 e *! m q 2 ii +! g q 1 e *! m q 3 ii)]))))
  | 1 => stores out (for_ (nLev gc) (fun q => for_ nEP (fun e => let p1 := ptr_level out q + nC * e in
         for_ nC (fun ii => [(p1 + ii, g q 0 e *! m q 0 ii)]))))
  | _ => out
  end.
(** terms_navier_stokes.c l.568 term_ns_asm_div_grad. *)
Definition dw_div_grad (out grad viscosity : FMF) (vgv vgs : Geo) (isDiff : bool) : FMF :=
  let g := bfGM vgv in let nQP := nLev g in let nEPv := nCol g in let nEPs := nCol (bfGM vgs) in
  let dim := nRow g in
  let gtg := if isDiff then divgrad_build_gtg (alloc nQP (dim * nEPv) (dim * nEPs)) g (bfGM vgs)
             else divgrad_act_gt_m (alloc nQP (dim * nEPv) 1) g grad in
  sumLevelsMulF out (mul_ gtg (val viscosity)) (val (det vgv)).

(** terms_navier_stokes.c l.488 convect_build_vtg (no fill: off-diagonal blocks are
    left as they are). *)
Definition convect_build_vtg (out gc fv : FMF) : FMF :=
  let nEP := nCol gc in let dim := nRow gc in
  let g iqp d iep := val gc (ptr_level gc iqp + d * nEP + iep) in
  let f iqp k := val fv (ptr_level fv iqp + k) in
  match nRow gc with
  | 3 => stores out (for_ (nLev gc) (fun q => let p1 := ptr_level out q in
           let p2 := p1 + dim * nEP + nEP in let p3 := p2 + dim * nEP + nEP in
           for_ nEP (fun e => let v := g q 0 e *! f q 0 +! g q 1 e *! f q 1 +! g q 2 e *! f q 2 in
             [(p3 + e, v); (p2 + e, v); (p1 + e, v)])))
  | 2 => stores out (for_ (nLev gc) (fun q => let p1 := ptr_level out q in
           let p2 := p1 + dim * nEP + nEP in
           for_ nEP (fun e => let v := g q 0 e *! f q 0 +! g q 1 e *! f q 1 in
             [(p2 + e, v); (p1 + e, v)])))
  | 1 => stores out (for_ (nLev gc) (fun q => let p1 := ptr_level out q in
           for_ nEP (fun e => [(p1 + e, g q 0 e *! f q 0)])))
  | _ => out
  end.
(** terms_navier_stokes.c l.620 term_ns_asm_convect, l.690 dw_lin_convect (isDiff 0 and 1). *)
Definition dw_convect (out grad state : FMF) (vg : Geo) (isDiff : bool) : FMF :=
  let g := bfGM vg in let nQP := nLev g in let nEP := nCol g in let dim := nRow g in
  if isDiff then
    let guf := bf_ract (alloc nQP dim (dim * nEP)) (bf vg) grad in
    let ftguf := bf_actt (alloc nQP (dim * nEP) (dim * nEP)) (bf vg) guf in
    let utg := convect_build_vtg (alloc nQP dim (nEP * dim)) g state in
    let ftutg := bf_actt (alloc nQP (dim * nEP) (dim * nEP)) (bf vg) utg in
    sumLevelsMulF out (addAB_nn ftguf ftguf ftutg) (val (det vg))
  else
    let gufu := mulAB_nn (alloc nQP dim 1) grad state in
    sumLevelsMulF out (bf_actt (alloc nQP (dim * nEP) 1) (bf vg) gufu) (val (det vg)).
Definition dw_lin_convect (out grad stateB : FMF) (vg : Geo) (isDiff : bool) : FMF :=
  let g := bfGM vg in let nQP := nLev g in let nEP := nCol g in let dim := nRow g in
  if isDiff then
    let btg := convect_build_vtg (alloc nQP dim (nEP * dim)) g stateB in
    sumLevelsMulF out (bf_actt (alloc nQP (dim * nEP) (dim * nEP)) (bf vg) btg) (val (det vg))
  else
    let gufb := mulAB_nn (alloc nQP dim 1) grad stateB in
    sumLevelsMulF out (bf_actt (alloc nQP (dim * nEP) 1) (bf vg) gufb) (val (det vg)).

(** terms_navier_stokes.c l.759 dw_div, l.816 dw_grad. *)
Definition dw_div (out coef dv : FMF) (svg vvg : Geo) (isDiff : bool) : FMF :=
  let g := bfGM vvg in let nQP := nLev g in let nEP := nCol g in let dim := nRow g in
  let nEPP := nCol (bf svg) in
  let gcl := pretend nQP 1 (nEP * dim) g in
  let ftg := if isDiff then mulATB_nn (alloc nQP nEPP (dim * nEP)) (bf svg) gcl
             else mulATB_nn (alloc nQP nEPP 1) (bf svg) dv in
  sumLevelsMulF out (mulAF ftg ftg (val coef)) (val (det vvg)).
Definition dw_grad (out coef state : FMF) (svg vvg : Geo) (isDiff : bool) : FMF :=
  let g := bfGM vvg in let nQP := nLev g in let nEPU := nCol g in let dim := nRow g in
  let nEP := nCol (bf svg) in
  let gcl := pretend nQP 1 (nEPU * dim) g in
  let gtf := if isDiff then mulATB_nn (alloc nQP (dim * nEPU) nEP) gcl (bf svg)
             else mulATB_nn (alloc nQP (dim * nEPU) 1) gcl state in
  sumLevelsMulF out (mulAF gtf gtf (val coef)) (val (det vvg)).

(** terms_biot.c l.7 op_nonsym_biot, l.70 dw_biot_grad, l.148 dw_biot_div, l.222 d_biot_div. *)
Definition op_nonsym_biot (diff mtx gc : FMF) : FMF :=
  let nEP := nCol gc in
  let g iqp d iep := val gc (ptr_level gc iqp + d * nEP + iep) in
  let v iqp k := val mtx (ptr_level mtx iqp + k) in
  match nRow gc with
  | 3 => stores diff (for_ (nLev gc) (fun q => let p := ptr_level diff q in for_ nEP (fun e =>
          [(p + e, g q 0 e *! v q 0 +! g q 1 e *! v q 3 +! g q 2 e *! v q 6);
           (p + nEP + e, g q 0 e *! v q 1 +! g q 1 e *! v q 4 +! g q 2 e *! v q 7);
           (p + nEP + nEP + e, g q 0 e *! v q 2 +! g q 1 e *! v q 5 +! g q 2 e *! v q 8)])))
  | 2 => stores diff (for_ (nLev gc) (fun q => let p := ptr_level diff q in for_ nEP (fun e =>
          [(p + e, g q 0 e *! v q 0 +! g q 1 e *! v q 2);
           (p + nEP + e, g q 0 e *! v q 1 +! g q 1 e *! v q 3)])))
  | _ => diff
  end.
Definition dw_biot_grad (out : FMF) (coef : R) (pressure_qp mtxD : FMF) (svg vvg : Geo) (isDiff : bool) : FMF :=
  let g := bfGM vvg in let nQP := nLev g in let nEPU := nCol g in let dim := nRow g in
  let nEP := nCol (bf svg) in let sym := (dim + 1) * dim / 2 in
  mulC (if isDiff then
          let gtd := alloc nQP (dim * nEPU) 1 in
          let gtd := if nRow mtxD =? sym then actOpGT_M3 gtd g mtxD else op_nonsym_biot gtd mtxD g in
          sumLevelsMulF out (mulAB_nn (alloc nQP (dim * nEPU) nEP) gtd (bf svg)) (val (det vvg))
        else
          let dfp := mulAB_nn (alloc nQP (if nRow mtxD =? sym then sym else dim * dim) 1) mtxD pressure_qp in
          let gtdfp := alloc nQP (dim * nEPU) 1 in
          let gtdfp := if nRow mtxD =? sym then actOpGT_VS3 gtdfp g dfp else op_nonsym_biot gtdfp dfp g in
          sumLevelsMulF out gtdfp (val (det vvg))) coef.
Definition dw_biot_div (out : FMF) (coef : R) (strain mtxD : FMF) (svg vvg : Geo) (isDiff : bool) : FMF :=
  let g := bfGM vvg in let nQP := nLev g in let nEP := nCol g in let dim := nRow g in
  let nEPP := nCol (bf svg) in let sym := (dim + 1) * dim / 2 in
  mulC (if isDiff then
          let dtg := alloc nQP 1 (dim * nEP) in
          let dtg := if nRow mtxD =? sym then actOpG_RM3 dtg (pretend nQP 1 sym mtxD) g
                     else op_nonsym_biot dtg mtxD g in
          sumLevelsMulF out (mulATB_nn (alloc nQP nEPP (dim * nEP)) (bf svg) dtg) (val (det vvg))
        else
          let dtgu := mulATB_nn (alloc nQP 1 1) mtxD strain in
          sumLevelsMulF out (mulATB_nn (alloc nQP nEPP 1) (bf svg) dtgu) (val (det vvg))) coef.
Definition d_biot_div (out : FMF) (coef : R) (state strain mtxD : FMF) (vg : Geo) : FMF :=
  let nQP := nLev (bfGM vg) in
  let dtgu := mulATB_nn (alloc nQP 1 1) mtxD strain in
  mulC (sumLevelsMulF out (mulATB_nn (alloc nQP 1 1) state dtgu) (val (det vg))) coef.

(** discrete/common/mappings.py l.31 PyCMapping.integrate, mode 0, for a (n_qp, 1, 1) integrand. *)
Definition py_integrate (nQP : nat) (f : nat -> R) (vg : Geo) : R := sm nQP (fun q => (f q * val (det vg) q)%R).
(** sfepy/linalg/utils.py dot_sequences, modes 'AB' and 'ATB', on the n_qp matrices of a cell. *)
Definition np_AB (a b : FMF) : FMF := mulAB_nn (alloc (nLev a) (nRow a) (nCol b)) a b.
Definition np_ATB (a b : FMF) : FMF := mulATB_nn (alloc (nLev a) (nCol a) (nCol b)) a b.

(** terms_dot.py l.66 DotProductTerm.d_dot ([mat] already of shape (.., 1, 1) or (.., D, D);
    the branch [mat is None] equals mat = 1 in the cell case). *)
Definition d_dot (mat v1 v2 : FMF) (vg : Geo) : R :=
  py_integrate (nLev v1)
    (if nCol mat =? 1 then
       (if 1 <? nRow v1 then fun q => (val mat q * at_ (np_ATB v1 v2) q 0 0)%R
        else fun q => (val mat q * at_ v1 q 0 0 * at_ v2 q 0 0)%R)
     else fun q => at_ (np_ATB v1 (np_AB mat v2)) q 0 0) vg.
(** terms_navier_stokes.py l.40 DivGradTerm.d_div_grad (fmode 0): the gradients flattened. *)
Definition d_div_grad (grad1 grad2 mat : FMF) (vg : Geo) : R :=
  py_integrate (nLev grad1)
    (fun q => (val mat q * sm (nRow grad1 * nCol grad1)
        (fun k => val grad1 (ptr_level grad1 q + k) * val grad2 (ptr_level grad2 q + k)))%R) vg.
(** terms_navier_stokes.py l.264 StokesTerm.d_eval. *)
Definition d_stokes (coef vec_qp dv : FMF) (vg : Geo) : R :=
  py_integrate (nLev vec_qp) (fun q => (val coef q * at_ vec_qp q 0 0 * at_ dv q 0 0)%R) vg.

(** Storage returned by [nm.empty]: shape given, content arbitrary ([junk]). *)
Definition emp (l r c : nat) (junk : nat -> R) : FMF := mkF l r c junk.
(** discrete/evaluate_variable.py l.6 eval_real: modes 'val', 'grad', 'div', 'cauchy_strain'. *)
Definition ev_val (n_comp : nat) (junk st : nat -> R) (b : FMF) (conn : nat -> nat) : FMF :=
  dq_state_in_qp (emp (nLev b) n_comp 1 junk) st b conn.
Definition ev_grad (n_comp : nat) (junk st : nat -> R) (vg : Geo) (conn : nat -> nat) : FMF :=
  dq_grad (emp (nLev (bfGM vg)) (nRow (bfGM vg)) n_comp junk) st vg conn.
Definition ev_div (junk st : nat -> R) (vg : Geo) (conn : nat -> nat) : FMF :=
  dq_div_vector (emp (nLev (bfGM vg)) 1 1 junk) st vg conn.
Definition ev_strain (junk st : nat -> R) (vg : Geo) (conn : nat -> nat) : FMF :=
  let dim := nRow (bfGM vg) in
  dq_cauchy_strain (emp (nLev (bfGM vg)) ((dim + 1) * dim / 2) 1 junk) st vg conn.

(** terms_biot.py l.53-59: a (D, D) material is transposed and flattened to (D*D, 1);
    l.80, 98: so is the gradient, without the transposition. *)
Definition flat_DD (o : FMF) : FMF := pretend (nLev o) (nRow o * nCol o) 1 o.
Definition biot_mat (mat : FMF) : FMF :=
  if (nRow mat =? nCol mat) && (1 <? nCol mat) then flat_DD (np_transpose mat) else mat.
