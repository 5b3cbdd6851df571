(** Model of the flat multi-level matrix buffers ([FMField]) and the kernels on
    them that the weak form terms are made of.
    Code modelled: sfepy/discrete/common/extmods/fmfield.c and fmfield.h,
    sfepy/discrete/common/extmods/geommech.c l.678-895, 908-974,
    sfepy/terms/extmods/form_sdcc.c.
    Arithmetic is over the reals (rounding is not modelled).  One value of [FMF]
    is ONE cell of the C structure (the part between [val] and [val + cellSize]);
    the cell loop of a term is the quantification over cells in its model.
    Every kernel takes the destination buffer, as in C, and returns it updated:
    the loops are lists of (index, value) stores executed in order, so that a
    wrong offset overwrites something else here as it does in C. *)
From Coq Require Import Reals.
From Verif Require Import Base.
Open Scope nat_scope.

Notation "x +! y" := (Rplus x y) (at level 50, left associativity).
Notation "x *! y" := (Rmult x y) (at level 40, left associativity).

(** fmfield.h l.10-40: [nLev] levels (quadrature points) of [nRow] x [nCol]
    row-major matrices, all in the one array [val]. *)
Record FMF := mkF { nLev : nat; nRow : nat; nCol : nat; val : nat -> R }.

(** [s = 0.0; for (k = 0; k < n; k++) s += f(k);] *)
Fixpoint sm (n : nat) (f : nat -> R) : R :=
  match n with 0 => 0%R | S n => (sm n f + f n)%R end.

(** [for (i = 0; i < n; i++) body] where [body] is a list of stores. *)
Definition for_ {A} (n : nat) (body : nat -> list A) : list A := flat_map body (seq 0 n).

Definition upd (b : nat -> R) (k : nat) (v : R) : nat -> R := fun i => if i =? k then v else b i.
Definition wrs (l : list (nat * R)) (b : nat -> R) : nat -> R :=
  fold_left (fun b kv => upd b (fst kv) (snd kv)) l b.
Definition stores (o : FMF) (l : list (nat * R)) : FMF := mkF (nLev o) (nRow o) (nCol o) (wrs l (val o)).

(** fmfield.h l.69: FMF_PtrLevel(obj, il) as an index into [val]. *)
Definition ptr_level (o : FMF) (il : nat) : nat := nCol o * nRow o * il.
(** Entry (i, j) of level [q] - the meaning of the layout. *)
Definition at_ (o : FMF) (q i j : nat) : R := val o (ptr_level o q + nCol o * i + j).

(** fmfield.c l.12 fmf_alloc / l.36 fmf_createAlloc (alloc_mem zeroes the memory,
    common_python.c l.187) and l.227 fmf_fillC( obj, 0.0 ). *)
Definition alloc (l r c : nat) : FMF := mkF l r c (fun _ => 0%R).
Definition fill0 (o : FMF) : FMF := mkF (nLev o) (nRow o) (nCol o) (fun _ => 0%R).
(** fmfield.c l.114 fmf_pretend: another shape for the same data. *)
Definition pretend (l r c : nat) (o : FMF) : FMF := mkF l r c (val o).

(** fmfield.c l.323 fmfc_mulC on one cell ([pr[i] *= val] for the whole cell). *)
Definition mulC (o : FMF) (v : R) : FMF :=
  stores o (for_ (nLev o * nRow o * nCol o) (fun i => [(i, (val o i * v)%R)])).

(** fmfield.c l.341 fmf_mul: obj *= val[level]. *)
Definition mul_ (o : FMF) (v : nat -> R) : FMF :=
  stores o (for_ (nLev o) (fun il => let pr := ptr_level o il in
            for_ (nRow o * nCol o) (fun i => [(pr + i, (val o (pr + i) * v il)%R)]))).

(** fmfield.c l.393 fmf_mulATC: objR = objA^T * const. *)
Definition mulATC (r a : FMF) (v : R) : FMF :=
  stores r (for_ (nLev r) (fun il => let pr := ptr_level r il in let pa := ptr_level a il in
            for_ (nRow r) (fun ir => for_ (nCol r) (fun ic =>
              [(pr + nCol r * ir + ic, (val a (pa + nCol a * ic + ir) * v)%R)])))).

(** fmfield.c l.432 fmf_mulAF: objR = objA * val[level]. *)
Definition mulAF (r a : FMF) (v : nat -> R) : FMF :=
  stores r (for_ (nLev r) (fun il => let pr := ptr_level r il in let pa := ptr_level a il in
            for_ (nRow r * nCol r) (fun i => [(pr + i, (val a (pa + i) * v il)%R)]))).

(** fmfield.c l.506 fmf_mulAB_nn: objR = objA * objB (level by level). *)
Definition mulAB_nn (r a b : FMF) : FMF :=
  stores r (for_ (nLev r) (fun il => let pr := ptr_level r il in let pa := ptr_level a il in
            let pb := ptr_level b il in
            for_ (nRow r) (fun i => for_ (nCol r) (fun j =>
              [(pr + nCol r * i + j,
                sm (nCol a) (fun k => val a (pa + nCol a * i + k) * val b (pb + nCol b * k + j))%R)])))).
(** fmfield.c l.552 fmf_mulAB_n1: objB has one level only. *)
Definition mulAB_n1 (r a b : FMF) : FMF :=
  stores r (for_ (nLev r) (fun il => let pr := ptr_level r il in let pa := ptr_level a il in
            for_ (nRow r) (fun i => for_ (nCol r) (fun j =>
              [(pr + nCol r * i + j,
                sm (nCol a) (fun k => val a (pa + nCol a * i + k) * val b (nCol b * k + j))%R)])))).
(** fmfield.c l.638 fmf_mulATB_nn: objR = objA^T * objB. *)
Definition mulATB_nn (r a b : FMF) : FMF :=
  stores r (for_ (nLev r) (fun il => let pr := ptr_level r il in let pa := ptr_level a il in
            let pb := ptr_level b il in
            for_ (nRow r) (fun i => for_ (nCol r) (fun j =>
              [(pr + nCol r * i + j,
                sm (nRow a) (fun k => val a (pa + nCol a * k + i) * val b (pb + nCol b * k + j))%R)])))).
(** fmfield.c l.769 fmf_mulATBT_nn: objR = objA^T * objB^T. *)
Definition mulATBT_nn (r a b : FMF) : FMF :=
  stores r (for_ (nLev r) (fun il => let pr := ptr_level r il in let pa := ptr_level a il in
            let pb := ptr_level b il in
            for_ (nRow r) (fun i => for_ (nCol r) (fun j =>
              [(pr + nCol r * i + j,
                sm (nRow a) (fun k => val a (pa + nCol a * k + i) * val b (pb + nCol b * j + k))%R)])))).
(** fmfield.c l.860 fmf_addAB_nn: objR = objA + objB. *)
Definition addAB_nn (r a b : FMF) : FMF :=
  stores r (for_ (nLev r) (fun il => let pr := ptr_level r il in let pa := ptr_level a il in
            let pb := ptr_level b il in
            for_ (nRow r * nCol r) (fun i => [(pr + i, (val a (pa + i) + val b (pb + i))%R)]))).
(** fmfield.c l.1274 fmf_sumLevelsMulF: objR = sum over the levels of objA * val[level];
    [objR->val[i]] is accumulated over the levels, so each store holds the final sum. *)
Definition sumLevelsMulF (r a : FMF) (v : nat -> R) : FMF :=
  stores r (for_ (nRow r * nCol r) (fun i =>
            [(i, sm (nLev a) (fun il => val a (ptr_level a il + i) * v il)%R)])).

(** geommech.c l.687 bf_act: value of the field from its (dim, nEP) nodal values. *)
Definition bf_act (out bf inp : FMF) : FMF :=
  stores (fill0 out) (for_ (nLev bf) (fun iqp => for_ (nRow inp) (fun ic =>
     [(ptr_level out iqp + ic,
       sm (nCol bf) (fun ir => val bf (ptr_level bf iqp + ir) * val inp (nCol bf * ic + ir))%R)]))).
(** geommech.c l.730 bf_ract: [*pout = *pin * pbf[ii]; pout++] - the running pointers
    are at ir*dim*nEP + ic*nEP + ii and ir*dim + ic. *)
Definition bf_ract (out bf inp : FMF) : FMF :=
  let dim := nCol inp in let nEP := nCol bf in
  stores (fill0 out) (for_ (nLev bf) (fun iqp => for_ (nRow out) (fun ir => for_ dim (fun ic => for_ nEP (fun ii =>
     [(ptr_level out iqp + (ir * dim + ic) * nEP + ii,
       (val inp (ptr_level inp iqp + (ir * dim + ic)) * val bf (ptr_level bf iqp + ii))%R)]))))).
(** geommech.c l.777 bf_actt: [pout[nCol*ii+ic] = pbf[ii] * *pin], [pin++] per column,
    [pout += nCol*nEP] per row of the input. *)
Definition bf_actt (out bf inp : FMF) : FMF :=
  let nEP := nCol bf in
  stores (fill0 out) (for_ (nLev bf) (fun iqp => for_ (nRow inp) (fun ir => for_ (nCol out) (fun ic => for_ nEP (fun ii =>
     [(ptr_level out iqp + nCol out * nEP * ir + nCol out * ii + ic,
       (val bf (ptr_level bf iqp + ii) * val inp (ptr_level inp iqp + (ir * nCol out + ic)))%R)]))))).
(** geommech.c l.825 bf_actt_c1. *)
Definition bf_actt_c1 (out bf inp : FMF) : FMF :=
  let nEP := nCol bf in
  stores out (for_ (nLev bf) (fun iqp => for_ (nRow inp) (fun ic => for_ nEP (fun ir =>
     [(ptr_level out iqp + nEP * ic + ir,
       (val bf (ptr_level bf iqp + ir) * val inp (ptr_level inp iqp + ic))%R)])))).
(** geommech.c l.867 bf_buildFTF: the scalar block repeated on the diagonal;
    [if (dim == 1) continue; ... if (dim == 2) continue; ...]. *)
Definition bf_buildFTF (ftf ftf1 : FMF) : FMF :=
  let nEPR := nRow ftf1 in let nEPC := nCol ftf1 in
  let dim := nRow ftf / nEPR in
  stores (fill0 ftf) (for_ (nLev ftf1) (fun iqp => for_ nEPR (fun ir => for_ nEPC (fun ic =>
     let v := val ftf1 (ptr_level ftf1 iqp + nEPC * ir + ic) in
     let p := ptr_level ftf iqp in
     (p + dim * nEPC * ir + ic, v) ::
     (if dim =? 1 then [] else
      (p + dim * nEPC * (nEPR + ir) + ic + nEPC, v) ::
      (if dim =? 2 then [] else
       [(p + dim * nEPC * (2 * nEPR + ir) + ic + 2 * nEPC, v)])))))).

(** geommech.c l.932 ele_extractNodalValuesNBN and l.960 ele_extractNodalValuesDBD:
    the nodal values of a cell from the node-by-node state vector [inp]. *)
Definition extractNBN (out : FMF) (inp : nat -> R) (conn : nat -> nat) : FMF :=
  stores out (for_ (nRow out) (fun inod => for_ (nCol out) (fun idof =>
     [(nCol out * inod + idof, inp (nCol out * conn inod + idof))]))).
Definition extractDBD (out : FMF) (inp : nat -> R) (conn : nat -> nat) : FMF :=
  stores out (for_ (nRow out) (fun idof => for_ (nCol out) (fun inod =>
     [(nCol out * idof + inod, inp (nRow out * conn inod + idof))]))).

(** form_sdcc.c l.14 form_sdcc_strainCauchy_VS (a [switch] without a matching case
    prints an error and leaves the output as it was). *)
Definition strainCauchy_VS (strain dg : FMF) : FMF :=
  let d iqp k := val dg (ptr_level dg iqp + k) in
  match nRow dg with
  | 1 => stores strain (for_ (nLev dg) (fun q => let p := ptr_level strain q in
           [(p + 0, d q 0)]))
  | 2 => stores strain (for_ (nLev dg) (fun q => let p := ptr_level strain q in
           [(p + 0, d q 0); (p + 1, d q 3); (p + 2, (d q 1 +! d q 2))]))
  | 3 => stores strain (for_ (nLev dg) (fun q => let p := ptr_level strain q in
           [(p + 0, d q 0); (p + 1, d q 4); (p + 2, d q 8);
            (p + 3, (d q 1 +! d q 3)); (p + 4, (d q 2 +! d q 6)); (p + 5, (d q 5 +! d q 7))]))
  | _ => strain
  end.

(** form_sdcc.c l.81 form_sdcc_actOpGT_VS3. *)
Definition actOpGT_VS3 (diff gc vec : FMF) : FMF :=
  let nEP := nCol gc in
  let g iqp d iep := val gc (ptr_level gc iqp + d * nEP + iep) in
  let v iqp k := val vec (ptr_level vec iqp + k) in
  match nRow gc with
  | 3 => stores diff (for_ (nLev gc) (fun q => let p := ptr_level diff q in for_ nEP (fun e =>
          [(p + e, (g q 0 e *! v q 0 +! g q 1 e *! v q 3 +! g q 2 e *! v q 4));
           (p + nEP + e, (g q 0 e *! v q 3 +! g q 1 e *! v q 1 +! g q 2 e *! v q 5));
           (p + nEP + nEP + e, (g q 0 e *! v q 4 +! g q 1 e *! v q 5 +! g q 2 e *! v q 2))])))
  | 2 => stores diff (for_ (nLev gc) (fun q => let p := ptr_level diff q in for_ nEP (fun e =>
          [(p + e, (g q 0 e *! v q 0 +! g q 1 e *! v q 2));
           (p + nEP + e, (g q 0 e *! v q 2 +! g q 1 e *! v q 1))])))
  | 1 => stores diff (for_ (nLev gc) (fun q => let p := ptr_level diff q in for_ nEP (fun e =>
          [(p + e, (g q 0 e *! v q 0))])))
  | _ => diff
  end.

(** form_sdcc.c l.157 form_sdcc_actOpGT_M3. *)
Definition actOpGT_M3 (diff gc mtx : FMF) : FMF :=
  let nEP := nCol gc in let nC := nCol mtx in
  let g iqp d iep := val gc (ptr_level gc iqp + d * nEP + iep) in
  let m iqp k ii := val mtx (ptr_level mtx iqp + k * nC + ii) in
  match nRow gc with
  | 3 => stores diff (for_ (nLev gc) (fun q => for_ nEP (fun e => let p1 := ptr_level diff q + nC * e in
         let p2 := p1 + nC * nEP in let p3 := p2 + nC * nEP in for_ nC (fun ii =>
          [(p1 + ii, (g q 0 e *! m q 0 ii +! g q 1 e *! m q 3 ii +! g q 2 e *! m q 4 ii));
           (p2 + ii, (g q 0 e *! m q 3 ii +! g q 1 e *! m q 1 ii +! g q 2 e *! m q 5 ii));
           (p3 + ii, (g q 0 e *! m q 4 ii +! g q 1 e *! m q 5 ii +! g q 2 e *! m q 2 ii))]))))
  | 2 => stores diff (for_ (nLev gc) (fun q => for_ nEP (fun e => let p1 := ptr_level diff q + nC * e in
         let p2 := p1 + nC * nEP in for_ nC (fun ii =>
          [(p1 + ii, (g q 0 e *! m q 0 ii +! g q 1 e *! m q 2 ii));
           (p2 + ii, (g q 0 e *! m q 2 ii +! g q 1 e *! m q 1 ii))]))))
  | 1 => stores diff (for_ (nLev gc) (fun q => for_ nEP (fun e => let p1 := ptr_level diff q + nC * e in
         for_ nC (fun ii => [(p1 + ii, (g q 0 e *! m q 0 ii))]))))
  | _ => diff
  end.

(** form_sdcc.c l.247 form_sdcc_actOpG_RM3. *)
Definition actOpG_RM3 (diff mtx gc : FMF) : FMF :=
  let nEP := nCol gc in
  let g iqp d iep := val gc (ptr_level gc iqp + d * nEP + iep) in
  let v iqp ii k := val mtx (ptr_level mtx iqp + nCol mtx * ii + k) in
  match nRow gc with
  | 3 => stores diff (for_ (nLev gc) (fun q => for_ (nRow mtx) (fun ii => let p1 := ptr_level diff q + nCol diff * ii in
         let p2 := p1 + nEP in let p3 := p2 + nEP in for_ nEP (fun e =>
          [(p1 + e, (g q 0 e *! v q ii 0 +! g q 1 e *! v q ii 3 +! g q 2 e *! v q ii 4));
           (p2 + e, (g q 0 e *! v q ii 3 +! g q 1 e *! v q ii 1 +! g q 2 e *! v q ii 5));
           (p3 + e, (g q 0 e *! v q ii 4 +! g q 1 e *! v q ii 5 +! g q 2 e *! v q ii 2))]))))
  | 2 => stores diff (for_ (nLev gc) (fun q => for_ (nRow mtx) (fun ii => let p1 := ptr_level diff q + nCol diff * ii in
         let p2 := p1 + nEP in for_ nEP (fun e =>
          [(p1 + e, (g q 0 e *! v q ii 0 +! g q 1 e *! v q ii 2));
           (p2 + e, (g q 0 e *! v q ii 2 +! g q 1 e *! v q ii 1))]))))
  | 1 => stores diff (for_ (nLev gc) (fun q => for_ (nRow mtx) (fun ii => let p1 := ptr_level diff q + nCol diff * ii in
         for_ nEP (fun e => [(p1 + e, (g q 0 e *! v q ii 0))]))))
  | _ => diff
  end.
