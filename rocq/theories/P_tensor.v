(** C37, C40, C41 and C66-C69: small matrix inversion and tensor algebra. *)
From mathcomp Require Import all_ssreflect all_algebra.
From Coq Require Import Ring Field.
From Verif Require Import FieldTac M_tensor.
Set Implicit Arguments. Unset Strict Implicit. Unset Printing Implicit Defensive.
Import GRing.Theory Num.Theory.
Local Open Scope ring_scope.

(** ** C37 *)
Section Inverse.
Variable F : fieldType.
Add Field Ff1 : (F_field_theory F).

Lemma ent_val n (A : 'M[F]_n.+1) (i j : 'I_n.+1) : ent A i j = A i j.
Proof. by rewrite /ent !inord_val. Qed.

Lemma det1 (A : 'M[F]_1) : \det A = ent A 0 0.
Proof. by rewrite det_mx11 -ent_val. Qed.
Lemma ent_e n (A : 'M[F]_n.+1) (i j : 'I_n.+1) : A i j = ent A i j.
Proof. by rewrite ent_val. Qed.
Ltac exdet := rewrite (expand_det_row _ ord0) !big_ord_recl big_ord0 /cofactor.
Lemma det2 (A : 'M[F]_2) : \det A = ent A 0 0 * ent A 1 1 - ent A 0 1 * ent A 1 0.
Proof.
exdet; rewrite !det_mx11 !mxE !ent_e /= /bump /= !(addn0, add0n, addn1).
by ffold F; ring.
Qed.
Lemma det3 (A : 'M[F]_3) : \det A =
  ent A 0 0 * (ent A 1 1 * ent A 2 2 - ent A 1 2 * ent A 2 1)
  - ent A 0 1 * (ent A 1 0 * ent A 2 2 - ent A 1 2 * ent A 2 0)
  + ent A 0 2 * (ent A 1 0 * ent A 2 1 - ent A 1 1 * ent A 2 0).
Proof.
exdet; rewrite !det2 /ent !mxE !ent_e /= /bump /= !inordK //= !(addn0, add0n, addn1, addn2).
ffold F. ring.
Qed.

Ltac cases := case=> [[|[|[|?]]] ?] //; case=> [[|[|[|?]]] ?] //.
Theorem C37_invs_fast1 (A : 'M[F]_1) : \det A != 0 -> invs_fast1 A *m A = 1%:M /\ A *m invs_fast1 A = 1%:M.
Proof.
rewrite det1 => /eqP D; have D' := D; move: D'; rewrite /ent => D'.
split; apply/matrixP => i j; rewrite !ord1 !mxE big_ord1 !mxE !ent_e /= det1; ffold F; field; exact: D.
Qed.
Theorem C37_invs_fast2 (A : 'M[F]_2) : \det A != 0 -> invs_fast2 A *m A = 1%:M /\ A *m invs_fast2 A = 1%:M.
Proof.
rewrite det2 => /eqP D.
by split; apply/matrixP; cases; rewrite !mxE !big_ord_recl big_ord0 !mxE !ent_e /= /bump /= !(addn0, add0n, addn1) det2;
  ffold F; field; exact: D.
Qed.
Theorem C37_invs_fast3 (A : 'M[F]_3) : \det A != 0 -> invs_fast3 A *m A = 1%:M /\ A *m invs_fast3 A = 1%:M.
Proof.
rewrite det3 => /eqP D.
by split; apply/matrixP; cases; rewrite !mxE !big_ord_recl big_ord0 !mxE !ent_e /= /bump /= !(addn0, add0n, addn1, addn2) det3;
  ffold F; field; exact: D.
Qed.
(** Hence it agrees with any other inverse (here mathcomp's [invmx]). *)
Theorem C37_is_invmx (A1 : 'M[F]_1) (A2 : 'M[F]_2) (A3 : 'M[F]_3) :
  [/\ \det A1 != 0 -> invs_fast1 A1 = invmx A1,
      \det A2 != 0 -> invs_fast2 A2 = invmx A2 &
      \det A3 != 0 -> invs_fast3 A3 = invmx A3].
Proof.
have uniq n (A B : 'M[F]_n) : B *m A = 1%:M -> B = invmx A.
  move=> E; have U : A \in unitmx by case/mulmx1_unit: E.
  by rewrite -[B]mulmx1 -(mulmxV U) mulmxA E mul1mx.
by split=> D; apply: uniq; [case: (C37_invs_fast1 D)|case: (C37_invs_fast2 D)|case: (C37_invs_fast3 D)].
Qed.
End Inverse.

(** a matrix with a nonzero determinant *)
Example C37_ex : \det (\matrix_(i < 3, j < 3) (if (i + j == 2)%N then 2%:R else (i == 1%N :> nat)%:R) : 'M[rat]_3) != 0.
Proof. by rewrite det3 /ent !mxE !inordK. Qed.
Print Assumptions C37_invs_fast3.
Print Assumptions C37_is_invmx.

(** ** C40: storages of symmetric tensors *)
Section Storage.
Variable F : rcfType.
Notation vec := (nat -> F).
Notation tens := (nat -> nat -> F).
Add Field Ff2 : (F_field_theory F).
Definition dim23 (d : nat) := (d == 2%N) || (d == 3%N).
Definition symmetric (d : nat) (t : tens) := forall i j, (i < d)%N -> (j < d)%N -> t i j = t j i.
Lemma dim23P (P : nat -> Prop) : P 2%N -> P 3%N -> forall d, dim23 d -> P d.
Proof. by move=> H2 H3 d /orP[] /eqP ->. Qed.
Ltac natred := repeat match goal with
  | |- context [divn ?a ?b] => let v := eval compute in (divn a b) in change (divn a b) with v
  | |- context [modn ?a ?b] => let v := eval compute in (modn a b) in change (modn a b) with v
  end.
Ltac idx i := case: i => [|[|[|[|[|[|i]]]]]] //=.

(** Both storages have the documented order 11, 22, (33,) 12, (13, 23). *)
Definition sym_order (d : nat) : seq (nat * nat) :=
  if d == 2%N then [:: (0, 0); (1, 1); (0, 1)]%N else [:: (0, 0); (1, 1); (2, 2); (0, 1); (0, 2); (1, 2)]%N.
Theorem C40_storage d : dim23 d ->
  [/\ (* the documented order *)
      forall (t : tens) a, (a < dim2sym d)%N -> to_sym d t a = t (nth (0, 0)%N (sym_order d) a).1 (nth (0, 0)%N (sym_order d) a).2,
      (* symmetric -> full -> symmetric *)
      forall (v : vec) a, (a < dim2sym d)%N -> to_sym d (to_full d v) a = v a,
      (* the full storage is symmetric *)
      forall v : vec, symmetric d (to_full d v) &
      (* full -> symmetric -> full *)
      forall t : tens, symmetric d t -> forall i j, (i < d)%N -> (j < d)%N -> to_full d (to_sym d t) i j = t i j].
Proof.
move: d; apply: dim23P; split.
all: try by [move=> t a; idx a| move=> v i j; idx i; idx j].
all: by move=> t S i j; idx i; idx j => Hi Hj; apply: S.
Qed.
(** The full storage of a non-symmetric tensor is not restored. *)
Example C40_nonsymmetric : exists t : tens, to_full 2 (to_sym 2 t) 1%N 0%N <> t 1%N 0%N.
Proof. by exists (fun i j => (i < j)%:R); apply/eqP; rewrite /= oner_eq0. Qed.

Theorem C40_t4_symmetries d (D : tens) (dd : dim23 d) : forall i j k l,
  [&& i < d, j < d, k < d & l < d]%N ->
  [/\ t4_from_t2s d D i j k l = t4_from_t2s d D j i k l,
      t4_from_t2s d D i j k l = t4_from_t2s d D i j l k &
      (forall a b, (a < dim2sym d)%N -> (b < dim2sym d)%N -> D a b = D b a) ->
      t4_from_t2s d D i j k l = t4_from_t2s d D k l i j].
Proof.
have fs : forall i j, (i < d)%N -> (j < d)%N -> fi d i j = fi d j i /\ (fi d i j < dim2sym d)%N.
  by move: d dd; apply: dim23P => i j; idx i; idx j.
move=> i j k l /and4P[Hi Hj Hk Hl]; rewrite /t4_from_t2s.
have [e1 l1] := fs i j Hi Hj; have [e2 l2] := fs k l Hk Hl.
by split; [rewrite e1|rewrite e2|move=> S; apply: S].
Qed.

(** Contracting the fourth order tensor with the symmetric gradient is the
    product of the matrix and of the engineering strain vector: the strain is
    stored with doubled shear components. *)
Definition sym_grad (g : tens) : tens := fun k l => (g k l + g l k) / 2%:R.
Theorem C40_contraction d (D g : tens) : dim23 d -> forall i j, (i < d)%N -> (j < d)%N ->
  \sum_(k < d) \sum_(l < d) t4_from_t2s d D i j k l * sym_grad g k l
  = to_full d (fun a => \sum_(b < dim2sym d) D a b * cauchy_strain d g b) i j.
Proof.
have h2 : (1 + 1 : F) <> 0 by apply/eqP; rewrite (pnatr_eq0 _ 2).
move: d; apply: dim23P => i j Hi Hj; rewrite /to_full /t4_from_t2s /dim2sym /=.
all: rewrite !big_ord_recl !big_ord0 /= /bump /= /cauchy_strain /= !(big_cons, big_nil) /= /sym_grad.
all: set a := fi _ i j; rewrite !(addn0, add0n, addn1, addn2, addnS) /= /fi /=.
all: by natred; ffold F; field; apply: h2.
Qed.
End Storage.

(** ** C41: deviator, von Mises stress *)
Section Deviator.
Variable F : rcfType.
Notation vec := (nat -> F).
Notation tens := (nat -> nat -> F).
Add Field Ff3 : (F_field_theory F).
Ltac idx i := case: i => [|[|[|[|[|[|i]]]]]] //=.

Theorem C41_deviator d : (0 < d)%N ->
  [/\ (* zero trace in both storages *)
      forall v : vec, trace_sym d (dev_sym d v) = 0,
      forall t : tens, trace_full d (dev_full d t) = 0,
      (* deviator + volumetric part is the tensor *)
      (forall (v : vec) a, dev_sym d v a + vol_sym d v a = v a) /\
      (forall (t : tens) i j, dev_full d t i j + vol_full d t i j = t i j) &
      (* and this is the only splitting into a traceless part and a multiple of the identity *)
      forall (t s : tens) p, trace_full d s = 0 -> (forall i j, t i j = s i j + p * (i == j)%:R) ->
        forall i j, dev_full d t i j = s i j /\ vol_full d t i j = p * (i == j)%:R].
Proof.
move=> d0; have dn : (d%:R : F) != 0 by rewrite pnatr_eq0 -lt0n.
split.
- move=> v; rewrite /trace_sym /dev_sym sumrB /vol_sym.
  under [X in _ - X]eq_bigr => i _ do rewrite ltn_ord.
  by rewrite sumr_const card_ord -[X in _ - X]mulr_natr /trace_sym divfK // subrr.
- move=> t; rewrite /trace_full /dev_full sumrB /vol_full.
  under [X in _ - X]eq_bigr => i _ do rewrite eqxx mulr1.
  by rewrite sumr_const card_ord -[X in _ - X]mulr_natr /trace_full divfK // subrr.
- by split=> *; rewrite subrK.
- move=> t s p s0 H i j.
  have T : trace_full d t / d%:R = p.
    rewrite /trace_full; under eq_bigr => k _ do rewrite H eqxx mulr1.
    by rewrite big_split /= -/(trace_full d s) s0 add0r sumr_const card_ord -[p *+ d]mulr_natr mulfK.
  by rewrite /dev_full /vol_full T H addrK.
Qed.
(** The storages agree. *)
Theorem C41_deviator_storages d (v : vec) : dim23 d -> forall i j, (i < d)%N -> (j < d)%N ->
  [/\ trace_sym d v = trace_full d (to_full d v),
      to_full d (dev_sym d v) i j = dev_full d (to_full d v) i j &
      to_full d (vol_sym d v) i j = vol_full d (to_full d v) i j].
Proof.
have e d' (w : vec) : dim23 d' -> trace_sym d' w = trace_full d' (to_full d' w).
  by move: d'; apply: dim23P; rewrite /trace_sym /trace_full !big_ord_recl !big_ord0.
move=> dd i j Hi Hj.
have V : to_full d (vol_sym d v) i j = vol_full d (to_full d v) i j.
  rewrite /vol_full -e //; rewrite /vol_sym /to_full; move: (trace_sym d v) => x.
  by move: d dd i j Hi Hj; apply: dim23P => i j; idx i; idx j; rewrite ?mulr1 ?mulr0.
by split=> //; [exact: e|rewrite /dev_full -V].
Qed.

(** *** von Mises stress: the equivalent tensile stress sqrt(3/2 s : s), s the deviator *)
Definition double_dot (d : nat) (s : tens) : F := \sum_(i < d) \sum_(j < d) s i j ^+ 2.
Lemma n2' : (1 + 1 : F) <> 0. Proof. by apply/eqP; rewrite (pnatr_eq0 _ 2). Qed.
Lemma n3' : (1 + 1 + 1 : F) <> 0. Proof. by apply/eqP; rewrite -(natrD _ 2 1) pnatr_eq0. Qed.
Lemma n2 : (1 + (1 + 0) : F) <> 0. Proof. by rewrite addr0; apply: n2'. Qed.
Lemma n3 : (1 + (1 + (1 + 0)) : F) <> 0. Proof. by rewrite addr0 addrA; apply: n3'. Qed.
Lemma n3a : (1 + (1 + 1) : F) <> 0. Proof. by rewrite addrA; apply: n3'. Qed.
Lemma double_dot_ge0 d (s : tens) : 0 <= double_dot d s.
Proof. by apply: sumr_ge0 => i _; apply: sumr_ge0 => j _; apply: sqr_ge0. Qed.

Theorem C41_von_mises_3d (v : vec) :
  von_mises_sym 3 v = Num.sqrt (3%:R / 2%:R * double_dot 3 (dev_full 3 (to_full 3 v))).
Proof.
rewrite /von_mises_sym /= /vm3; congr (Num.sqrt _).
rewrite /double_dot /dev_full /vol_full /trace_full !big_ord_recl !big_ord0 /= /bump /= !(addn0, add0n, addn1) /=.
rewrite /to_full /fi /=.
ffold F; field; repeat split; first [exact: n3|exact: n3a|exact: n2|exact: n2'|exact: n3'].
Qed.

Lemma vm_invariants (v : vec) :
  von_mises_sym 3 v = Num.sqrt (3%:R / 2%:R * (double_dot 3 (to_full 3 v) - trace_sym 3 v ^+ 2 / 3%:R)).
Proof.
rewrite /von_mises_sym /= /vm3; congr (Num.sqrt _).
rewrite /double_dot /trace_sym !big_ord_recl !big_ord0 /= /bump /= !(addn0, add0n, addn1) /=.
rewrite /to_full /fi /=.
ffold F; field; repeat split; first [exact: n3|exact: n3a|exact: n2|exact: n2'|exact: n3'].
Qed.
(** pressure: invariance; zero exactly for spherical tensors; storages agree *)
Theorem C41_von_mises_pressure (v : vec) p :
  von_mises_sym 3 (fun a => v a + (if (a < 3)%N then p else 0)) = von_mises_sym 3 v.
Proof.
rewrite /von_mises_sym /= /vm3; congr (Num.sqrt _); rewrite !addr0.
by ffold F; field; repeat split; first [exact: n2|exact: n2'].
Qed.
Theorem C41_von_mises_zero (v : vec) :
  (von_mises_sym 3 v == 0) = [forall i : 'I_3, forall j : 'I_3, dev_full 3 (to_full 3 v) i j == 0].
Proof.
rewrite C41_von_mises_3d sqrtr_eq0.
have c : 0 < 3%:R / 2%:R :> F by rewrite divr_gt0 // ltr0n.
rewrite pmulr_rle0 //; set t := dev_full _ _.
have -> : (double_dot 3 t <= 0) = (double_dot 3 t == 0) by rewrite Order.POrderTheory.eq_le double_dot_ge0 andbT.
apply/idP/idP.
- rewrite psumr_eq0; last by move=> i _; apply: sumr_ge0 => j _; apply: sqr_ge0.
  move/allP => H; apply/forallP => i; apply/forallP => j.
  have := H i; rewrite mem_index_enum => /(_ isT) /=.
  rewrite psumr_eq0; last by move=> k _; apply: sqr_ge0.
  by move/allP => /(_ j); rewrite mem_index_enum => /(_ isT) /=; rewrite sqrf_eq0.
- move=> /forallP H; apply/eqP; apply: big1 => i _; apply: big1 => j _.
  by move: (H i) => /forallP /(_ j) /eqP ->; rewrite expr0n.
Qed.
Theorem C41_von_mises_storages d (v : vec) (t : tens) : dim23 d ->
  von_mises_full d (to_full d v) = von_mises_sym d v /\
  von_mises_sym d (to_sym d t) = von_mises_full d t.
Proof. by move: d; apply: dim23P. Qed.
(** In 2D the formula is the plane stress one: the out of plane stresses are zero. *)
Theorem C41_von_mises_2d (v : vec) :
  von_mises_sym 2 v = von_mises_sym 3 (fun a => nth 0 [:: v 0%N; v 1%N; 0; v 2%N; 0; 0] a).
Proof.
rewrite /von_mises_sym /= /vm3 /vm2; congr (Num.sqrt _).
by ffold F; field; repeat split; first [exact: n2|exact: n2'].
Qed.
(** Uniaxial tension in any of the axes: the absolute value of the stress. *)
Theorem C41_von_mises_uniaxial (s : F) (k : nat) : (k < 3)%N ->
  von_mises_sym 3 (fun a => if a == k then s else 0) = `|s|.
Proof.
move=> Hk; rewrite -sqrtr_sqr /von_mises_sym /= /vm3; congr (Num.sqrt _).
by move: k Hk => [|[|[|?]]] //= _; ffold F; field; repeat split; first [exact: n2|exact: n2'].
Qed.
(** Hence (plane stress) the 2D value does change with an in-plane pressure. *)
Theorem C41_von_mises_2d_pressure_refuted :
  exists (v : vec) p, von_mises_sym 2 (fun a => v a + (if (a < 2)%N then p else 0)) <> von_mises_sym 2 v.
Proof.
exists (fun=> 0), 1; rewrite /von_mises_sym /= /vm2 => E.
have : (Num.sqrt (1 : F)) = Num.sqrt 0.
  by move: E; rewrite !(mulr0, addr0, add0r, expr1n, expr0n, mul1r, subrr, oppr0).
by move/eqP; rewrite sqrtr0 sqrtr1 oner_eq0.
Qed.
End Deviator.

(** ** C66: transformations between orthogonal coordinate systems *)
Section Transform.
Variable F : rcfType.
Notation vec := (nat -> F).
Notation tens := (nat -> nat -> F).
Notation tens4 := (nat -> nat -> nat -> nat -> F).
Implicit Types (m : tens).
Add Field Ff4 : (F_field_theory F).
Ltac idx i := case: i => [|[|[|[|[|[|i]]]]]] //=.

Definition toM (t : tens) : 'M[F]_3 := \matrix_(i, j) t i j.
(** M is orthogonal: M M^T = I *)
Definition orthogonal m := forall i j, (i < 3)%N -> (j < 3)%N -> \sum_(p < 3) m i p * m j p = (i == j)%:R.
Definition transp (t : tens) : tens := fun i j => t j i.
Definition mul (a b : tens) : tens := fun i j => \sum_(p < 3) a i p * b p j.

Lemma toM_transp t : toM (transp t) = (toM t)^T.
Proof. by apply/matrixP => i j; rewrite !mxE. Qed.
Lemma toM_mul a b : toM (mul a b) = toM a *m toM b.
Proof. by apply/matrixP => i j; rewrite !mxE; apply: eq_bigr => k _; rewrite !mxE. Qed.
Lemma toM_rot2 m t : toM (rot2 m t) = toM m *m toM t *m (toM m)^T.
Proof.
apply/matrixP => i j; rewrite !mxE; apply: eq_bigr => k _; rewrite !mxE; congr (_ * _).
by apply: eq_bigr => p _; rewrite !mxE.
Qed.
Lemma toM_inj t u : toM t = toM u -> forall i j, (i < 3)%N -> (j < 3)%N -> t i j = u i j.
Proof. by move=> /matrixP E i j Hi Hj; move: (E (Ordinal Hi) (Ordinal Hj)); rewrite !mxE. Qed.
Lemma toM_ext t u : (forall i j, (i < 3)%N -> (j < 3)%N -> t i j = u i j) -> toM t = toM u.
Proof. by move=> E; apply/matrixP => i j; rewrite !mxE E. Qed.
Lemma orthoM m : orthogonal m -> toM m *m (toM m)^T = 1%:M.
Proof.
move=> O; apply/matrixP => i j; rewrite !mxE -val_eqE -(O i j (ltn_ord i) (ltn_ord j)).
by apply: eq_bigr => k _; rewrite !mxE.
Qed.
Lemma orthoM' m : orthogonal m -> (toM m)^T *m toM m = 1%:M.
Proof. by move=> O; apply: mulmx1C; apply: orthoM. Qed.
Lemma ortho_transp m : orthogonal m -> orthogonal (transp m).
Proof.
move=> O i j Hi Hj; have /matrixP/(_ (Ordinal Hi) (Ordinal Hj)) := orthoM' O; rewrite !mxE -val_eqE /= => <-.
by apply: eq_bigr => k _; rewrite !mxE.
Qed.
Lemma rot2_ext m t u : (forall i j, (i < 3)%N -> (j < 3)%N -> t i j = u i j) ->
  forall i j, (i < 3)%N -> (j < 3)%N -> rot2 m t i j = rot2 m u i j.
Proof.
move=> E i j Hi Hj; rewrite /rot2; apply: eq_bigr => q _; congr (_ * _).
by apply: eq_bigr => p _; rewrite E.
Qed.

(** vectors *)
Theorem C66_vectors m (v w : vec) : orthogonal m ->
  (forall i, (i < 3)%N -> transform1 (transp m) (transform1 m v) i = v i) /\
  \sum_(i < 3) transform1 m v i * transform1 m w i = \sum_(i < 3) v i * w i.
Proof.
move=> O; pose V (v : vec) : 'cV[F]_3 := \col_i v i.
have TV n (u : vec) : V (transform1 n u) = toM n *m V u.
  by apply/matrixP => i j; rewrite !mxE; apply: eq_bigr => k _; rewrite !mxE.
have dot (a b : vec) : \sum_(i < 3) a i * b i = ((V a)^T *m V b) 0 0.
  by rewrite !mxE; apply: eq_bigr => k _; rewrite !mxE.
split=> [i Hi|].
- have := TV (transp m) (transform1 m v); rewrite (TV m v) toM_transp mulmxA orthoM' // mul1mx.
  by move/matrixP/(_ (Ordinal Hi) 0); rewrite !mxE.
- rewrite (dot (transform1 m v) (transform1 m w)) (dot v w) !TV trmx_mul.
  by rewrite mulmxA -(mulmxA _ _ (toM m)) orthoM' // mulmx1.
Qed.

(** second order tensors: no information is lost in the symmetric storage, ... *)
Lemma rot2_sym m t : symmetric 3 t -> symmetric 3 (rot2 m t).
Proof.
move=> S; apply: (@toM_inj (rot2 m t) (transp (rot2 m t))).
have St : (toM t)^T = toM t by rewrite -toM_transp; apply: toM_ext => i j Hi Hj; apply: S.
by rewrite toM_transp toM_rot2 !trmx_mul trmxK St mulmxA.
Qed.
Theorem C66_second_order_lossless m (v : vec) i j : (i < 3)%N -> (j < 3)%N ->
  to_full 3 (transform2 m v) i j = \sum_(p < 3) \sum_(q < 3) m i p * m j q * to_full 3 v p q.
Proof.
move=> Hi Hj; rewrite /transform2.
case: (@C40_storage F 3 isT) => _ _ s3 -> //; last by apply: rot2_sym; apply: s3.
rewrite /rot2 exchange_big /=; apply: eq_bigr => q _; rewrite big_distrl /=.
by apply: eq_bigr => p _; rewrite mulrAC -!mulrA [m j q * _]mulrC.
Qed.
Lemma full_transform2 m (v : vec) i j : (i < 3)%N -> (j < 3)%N ->
  to_full 3 (transform2 m v) i j = rot2 m (to_full 3 v) i j.
Proof.
move=> Hi Hj; rewrite /transform2.
by case: (@C40_storage F 3 isT) => _ _ s3 -> //; apply: rot2_sym; apply: s3.
Qed.
Lemma to_sym_ext (t u : tens) : (forall i j, (i < 3)%N -> (j < 3)%N -> t i j = u i j) ->
  forall a, (a < 6)%N -> to_sym 3 t a = to_sym 3 u a.
Proof. by move=> E a; idx a => _; apply: E. Qed.
Lemma MM_full m v : toM (to_full 3 (transform2 m v)) = toM m *m toM (to_full 3 v) *m (toM m)^T.
Proof. by rewrite -toM_rot2; apply: toM_ext => i j; apply: full_transform2. Qed.
Lemma full_inj (v w : vec) : toM (to_full 3 v) = toM (to_full 3 w) -> forall a, (a < 6)%N -> v a = w a.
Proof.
move=> /toM_inj E a Ha; case: (@C40_storage F 3 isT) => _ R _ _.
by rewrite -(R v a) // -(R w a) //; apply: to_sym_ext.
Qed.
(** ... compositions, the inverse transformation, invariants *)
Theorem C66_second_order m n (v : vec) : 
  (forall a, (a < 6)%N -> transform2 m (transform2 n v) a = transform2 (mul m n) v a) /\
  (orthogonal m -> 
    [/\ forall a, (a < 6)%N -> transform2 (transp m) (transform2 m v) a = v a,
        trace_sym 3 (transform2 m v) = trace_sym 3 v,
        double_dot 3 (to_full 3 (transform2 m v)) = double_dot 3 (to_full 3 v) &
        von_mises_sym 3 (transform2 m v) = von_mises_sym 3 v]).
Proof.
have tr t : trace_full 3 t = \tr (toM t) by apply: eq_bigr => i _; rewrite mxE.
have ts (w : vec) : trace_sym 3 w = \tr (toM (to_full 3 w)).
  by rewrite -tr /trace_sym /trace_full !big_ord_recl !big_ord0.
have dd t : double_dot 3 t = \tr (toM t *m (toM t)^T).
  rewrite /mxtrace; apply: eq_bigr => i _; rewrite mxE; apply: eq_bigr => j _.
  by rewrite !mxE expr2.
split.
  by apply: full_inj; rewrite !MM_full toM_mul trmx_mul !mulmxA.
move=> O; have T : trace_sym 3 (transform2 m v) = trace_sym 3 v.
  by rewrite !ts MM_full mxtrace_mulC mulmxA orthoM' // mul1mx.
have D : double_dot 3 (to_full 3 (transform2 m v)) = double_dot 3 (to_full 3 v).
  rewrite !dd MM_full !trmx_mul trmxK !mulmxA -(mulmxA _ _ (toM m)) orthoM' // mulmx1.
  by rewrite mxtrace_mulC !mulmxA orthoM' // mul1mx.
split=> //.
  by apply: full_inj; rewrite !MM_full toM_transp trmxK !mulmxA orthoM' // mul1mx -mulmxA orthoM' // mulmx1.
by rewrite !vm_invariants D T.
Qed.

(** fourth order tensors: the stress given by a stiffness tensor and a strain tensor *)
Definition contract (C : tens4) (e : tens) : tens := fun i j => \sum_(k < 3) \sum_(l < 3) C i j k l * e k l.
Lemma rot4_rot2 m (C : tens4) i j k l :
  rot4 m C i j k l = rot2 m (fun r s => rot2 m (fun p q => C p q r s) i j) k l.
Proof.
rewrite /rot4 /rot2 /=.
under eq_bigr => p _ do rewrite exchange_big /=.
under eq_bigr => p _ do under eq_bigr => r _ do rewrite exchange_big /=.
rewrite exchange_big /=.
under eq_bigr => r _ do rewrite exchange_big /=.
rewrite exchange_big /=; apply: eq_bigr => s _; rewrite big_distrl /=; apply: eq_bigr => r _.
rewrite exchange_big /= mulrC mulrA big_distrr /=; apply: eq_bigr => q _.
rewrite mulrA big_distrr /= big_distrl /=; apply: eq_bigr => p _.
by ffold F; ring.
Qed.
Lemma frob (t u : tens) : \sum_(k < 3) \sum_(l < 3) t k l * u k l = \tr (toM t *m (toM u)^T).
Proof.
by rewrite /mxtrace; apply: eq_bigr => i _; rewrite mxE; apply: eq_bigr => j _; rewrite !mxE.
Qed.
Lemma frob_rot m t u : orthogonal m ->
  \sum_(k < 3) \sum_(l < 3) rot2 m t k l * rot2 m u k l = \sum_(k < 3) \sum_(l < 3) t k l * u k l.
Proof.
move=> O; rewrite !frob !toM_rot2 !trmx_mul trmxK !mulmxA -(mulmxA _ _ (toM m)) orthoM' // mulmx1.
by rewrite mxtrace_mulC !mulmxA orthoM' // mul1mx.
Qed.

Lemma rot4_minor m (C : tens4) : (forall i j k l, [&& i < 3, j < 3, k < 3 & l < 3]%N -> C i j k l = C j i k l /\ C i j k l = C i j l k) ->
  forall i j k l, [&& i < 3, j < 3, k < 3 & l < 3]%N -> rot4 m C i j k l = rot4 m C j i k l /\ rot4 m C i j k l = rot4 m C i j l k.
Proof.
move=> S i j k l /and4P[Hi Hj Hk Hl]; rewrite !rot4_rot2; split.
- apply: rot2_ext => // r s Hr Hs; apply: rot2_sym => // p q Hp Hq.
  by case: (S p q r s) => //; rewrite Hp Hq Hr Hs.
- apply: rot2_sym => // r s Hr Hs; apply: rot2_ext => // p q Hp Hq.
  by case: (S p q r s) => //; rewrite Hp Hq Hr Hs.
Qed.
Theorem C66_fourth_order_lossless m (D : tens) i j k l : [&& i < 3, j < 3, k < 3 & l < 3]%N ->
  t4_from_t2s 3 (transform4 m D) i j k l
  = \sum_(p < 3) \sum_(q < 3) \sum_(r < 3) \sum_(s < 3) t4_from_t2s 3 D p q r s * m i p * m j q * m k r * m l s.
Proof.
move=> H; rewrite -/(rot4 m _ i j k l).
have S : forall i j k l, [&& i < 3, j < 3, k < 3 & l < 3]%N ->
    rot4 m (t4_from_t2s 3 D) i j k l = rot4 m (t4_from_t2s 3 D) j i k l /\
    rot4 m (t4_from_t2s 3 D) i j k l = rot4 m (t4_from_t2s 3 D) i j l k.
  apply: rot4_minor => i' j' k' l' H'.
  by case: (C40_t4_symmetries (d := 3) D isT H').
have F1 i' j' k' l' : [&& i' < 3, j' < 3, k' < 3 & l' < 3]%N -> (j' < i')%N ->
    rot4 m (t4_from_t2s 3 D) i' j' k' l' = rot4 m (t4_from_t2s 3 D) j' i' k' l' by move=> H' _; case: (S _ _ _ _ H').
have F2 i' j' k' l' : [&& i' < 3, j' < 3, k' < 3 & l' < 3]%N -> (l' < k')%N ->
    rot4 m (t4_from_t2s 3 D) i' j' k' l' = rot4 m (t4_from_t2s 3 D) i' j' l' k' by move=> H' _; case: (S _ _ _ _ H').
rewrite {1}/t4_from_t2s /transform4.
move: (rot4 m (t4_from_t2s 3 D)) F1 F2 => R F1 F2; clear S.
move: i j k l H => [|[|[|i]]] [|[|[|j]]] [|[|[|k]]] [|[|[|l]]] //= _; first [by []|by rewrite [RHS]F1 // [RHS]F2|by rewrite [RHS]F1|by rewrite [RHS]F2].
Qed.
(** Hooke's law in the rotated coordinate system: the transformed stiffness
    applied to the transformed strain is the transformed stress. *)
Theorem C66_hooke m (D e : tens) : orthogonal m -> forall i j, (i < 3)%N -> (j < 3)%N ->
  contract (t4_from_t2s 3 (transform4 m D)) (rot2 m e) i j = rot2 m (contract (t4_from_t2s 3 D) e) i j.
Proof.
move=> O i j Hi Hj; rewrite {1}/contract.
transitivity (\sum_(k < 3) \sum_(l < 3) rot4 m (t4_from_t2s 3 D) i j k l * rot2 m e k l).
  apply: eq_bigr => k _; apply: eq_bigr => l _; congr (_ * _).
  by apply: C66_fourth_order_lossless; rewrite Hi Hj !ltn_ord.
under eq_bigr => k _ do under eq_bigr => l _ do rewrite rot4_rot2.
rewrite frob_rot // /rot2 /contract.
under eq_bigr => k _ do under eq_bigr => l _ do rewrite big_distrl /=.
under eq_bigr => k _ do rewrite exchange_big /=.
rewrite exchange_big /=; apply: eq_bigr => q _.
rewrite big_distrl /=.
under eq_bigr => k _ do under eq_bigr => l _ do rewrite !big_distrl /=.
under eq_bigr => k _ do rewrite exchange_big /=.
rewrite exchange_big /=; apply: eq_bigr => p _.
rewrite big_distrr big_distrl /=; apply: eq_bigr => k _; rewrite big_distrr big_distrl /=; apply: eq_bigr => l _.
by ffold F; ring.
Qed.
(** compositions, the inverse transformation restores the matrix *)
Lemma rot2_pair m t i j : rot2 m t i j = \sum_(x : 'I_3 * 'I_3) m i x.1 * m j x.2 * t x.1 x.2.
Proof.
rewrite -(pair_bigA _ (fun p q : 'I_3 => m i p * m j q * t p q)) /= /rot2 exchange_big /=.
apply: eq_bigr => q _; rewrite big_distrl /=; apply: eq_bigr => p _.
by ffold F; ring.
Qed.
Lemma rot2_swap m n (G : tens4) i j k l :
  rot2 m (fun p q => rot2 n (fun r s => G p q r s) k l) i j = rot2 n (fun r s => rot2 m (fun p q => G p q r s) i j) k l.
Proof.
rewrite !rot2_pair; under eq_bigr => x _ do rewrite rot2_pair big_distrr /=.
rewrite exchange_big /=; apply: eq_bigr => y _; rewrite rot2_pair big_distrr /=; apply: eq_bigr => x _.
by ffold F; ring.
Qed.
Lemma rot2_comp m n t i j : (i < 3)%N -> (j < 3)%N -> rot2 m (rot2 n t) i j = rot2 (mul m n) t i j.
Proof. by move: i j; apply: toM_inj; rewrite !toM_rot2 toM_mul trmx_mul !mulmxA. Qed.
Lemma rot4_comp m n (C : tens4) : forall i j k l, [&& i < 3, j < 3, k < 3 & l < 3]%N ->
  rot4 m (rot4 n C) i j k l = rot4 (mul m n) C i j k l.
Proof.
move=> i j k l /and4P[Hi Hj Hk Hl]; rewrite !rot4_rot2.
rewrite -(rot2_comp m n) //; apply: rot2_ext => // r s Hr Hs.
transitivity (rot2 m (fun p q => rot2 n (fun r' s' => rot2 n (fun p' q' => C p' q' r' s') p q) r s) i j).
  by apply: rot2_ext => // p q Hp Hq; rewrite rot4_rot2.
rewrite rot2_swap; apply: rot2_ext => // r' s' Hr' Hs'.
by rewrite rot2_comp.
Qed.
Lemma t4_inj (D E : tens) :
  (forall i j k l, [&& i < 3, j < 3, k < 3 & l < 3]%N -> t4_from_t2s 3 D i j k l = t4_from_t2s 3 E i j k l) ->
  forall a b, (a < 6)%N -> (b < 6)%N -> D a b = E a b.
Proof.
move=> H a b Ha Hb.
have P c : (c < 6)%N -> exists i j, [/\ (i < 3)%N, (j < 3)%N & fi 3 i j = c].
  by idx c => _; [exists 0%N, 0%N|exists 1%N, 1%N|exists 2%N, 2%N|exists 0%N, 1%N|exists 0%N, 2%N|exists 1%N, 2%N].
case: (P a Ha) => i [j [Hi Hj <-]]; case: (P b Hb) => k [l [Hk Hl <-]].
by apply: (H i j k l); rewrite Hi Hj Hk Hl.
Qed.
Lemma rot4_ext m n (C E : tens4) : (forall i j, (i < 3)%N -> (j < 3)%N -> m i j = n i j) ->
  (forall i j k l, [&& i < 3, j < 3, k < 3 & l < 3]%N -> C i j k l = E i j k l) ->
  forall i j k l, [&& i < 3, j < 3, k < 3 & l < 3]%N -> rot4 m C i j k l = rot4 n E i j k l.
Proof.
move=> Em EC i j k l /and4P[Hi Hj Hk Hl]; apply: eq_bigr => p _; apply: eq_bigr => q _.
apply: eq_bigr => r _; apply: eq_bigr => s _.
by rewrite EC ?ltn_ord // (Em i p) // (Em j q) // (Em k r) // (Em l s).
Qed.
Lemma rot4_id (C : tens4) : forall i j k l, [&& i < 3, j < 3, k < 3 & l < 3]%N ->
  rot4 (fun i j => (i == j)%:R) C i j k l = C i j k l.
Proof.
have r2 (t : tens) i j : (i < 3)%N -> (j < 3)%N -> rot2 (fun i j => (i == j)%:R) t i j = t i j.
  suff E : toM (rot2 (fun i j => (i == j)%:R) t) = toM t by apply: (toM_inj E).
  rewrite toM_rot2.
  have -> : toM (fun i j => (i == j)%:R) = 1%:M by apply/matrixP => ? ?; rewrite !mxE val_eqE.
  by rewrite trmx1 mul1mx mulmx1.
by move=> i j k l /and4P[Hi Hj Hk Hl]; rewrite rot4_rot2 !r2.
Qed.
Theorem C66_fourth_order m n (D : tens) a b : (a < 6)%N -> (b < 6)%N ->
  transform4 m (transform4 n D) a b = transform4 (mul m n) D a b /\
  (orthogonal m -> transform4 (transp m) (transform4 m D) a b = D a b) /\
  ((forall a' b', (a' < 6)%N -> (b' < 6)%N -> D a' b' = D b' a') -> transform4 m D a b = transform4 m D b a).
Proof.
move=> Ha Hb.
have C m' n' : forall a b, (a < 6)%N -> (b < 6)%N -> transform4 m' (transform4 n' D) a b = transform4 (mul m' n') D a b.
  apply: t4_inj => i j k l H; rewrite !C66_fourth_order_lossless //.
  rewrite -/(rot4 m' _ i j k l) -/(rot4 (mul m' n') _ i j k l) -rot4_comp //.
  by apply: rot4_ext => // *; rewrite C66_fourth_order_lossless.
split; first exact: C.
split=> [O|S].
  rewrite C //; move: a b Ha Hb; apply: t4_inj => i j k l H; rewrite C66_fourth_order_lossless // -/(rot4 _ _ i j k l).
  rewrite -[RHS]rot4_id //; apply: rot4_ext => // i' j' Hi' Hj'.
  have := ortho_transp O Hi' Hj' => <-; by apply: eq_bigr.
move: a b Ha Hb; apply: (@t4_inj (transform4 m D) (fun a b => transform4 m D b a)) => i j k l H.
have H' : [&& k < 3, l < 3, i < 3 & j < 3]%N by case/and4P: H => -> -> -> ->.
have -> : t4_from_t2s 3 (fun a b => transform4 m D b a) i j k l = t4_from_t2s 3 (transform4 m D) k l i j by [].
rewrite (C66_fourth_order_lossless m D H) (C66_fourth_order_lossless m D H').
have E (f : 'I_3 -> 'I_3 -> 'I_3 -> 'I_3 -> F) :
   \sum_(p < 3) \sum_(q < 3) \sum_(r < 3) \sum_(s < 3) f p q r s = \sum_(p < 3) \sum_(q < 3) \sum_(r < 3) \sum_(s < 3) f r s p q.
  rewrite pair_bigA [RHS]pair_bigA /=.
  under eq_bigr => x _ do rewrite pair_bigA /=.
  under [RHS]eq_bigr => x _ do rewrite pair_bigA /=.
  by rewrite exchange_big.
rewrite E; apply: eq_bigr => p _; apply: eq_bigr => q _; apply: eq_bigr => r _; apply: eq_bigr => s _.
have -> : t4_from_t2s 3 D r s p q = t4_from_t2s 3 D p q r s.
  by case: (@C40_t4_symmetries F 3 D isT r s p q) => [|_ _ ->] //; rewrite !ltn_ord.
by ffold F; ring.
Qed.

(** ** C67: StressTransform *)
(** the Cauchy stress is the documented J^-1 F S F^T, with no loss in the
    symmetric storage (_assert_symmetry() never fails) *)
Theorem C67_cauchy d (f : tens) (jac : F) (s : vec) : dim23 d -> forall i j, (i < d)%N -> (j < d)%N ->
  [/\ cauchy_full d f jac s i j = cauchy_full d f jac s j i,
      to_full d (cauchy_from_pk2 d f jac s) i j
        = jac^-1 * \sum_(k < d) \sum_(l < d) f i k * to_full d s k l * f j l &
      jac != 0 -> to_full d (cauchy_from_pk2 d f jac s) i j * jac = \sum_(l < d) pk1_from_pk2 d f s i l * f j l].
Proof.
move=> dd i j Hi Hj.
have E i' j' : cauchy_full d f jac s i' j' = jac^-1 * \sum_(k < d) \sum_(l < d) f i' k * to_full d s k l * f j' l.
  rewrite /cauchy_full mulrC; congr (_ * _); rewrite exchange_big /=; apply: eq_bigr => l _.
  by rewrite /pk1_from_pk2 big_distrl.
have S i' j' : (i' < d)%N -> (j' < d)%N -> cauchy_full d f jac s i' j' = cauchy_full d f jac s j' i'.
  move=> Hi' Hj'; rewrite !E; congr (_ * _); rewrite exchange_big /=; apply: eq_bigr => k _; apply: eq_bigr => l _.
  have -> : to_full d s l k = to_full d s k l by case: (C40_storage F dd) => _ _ Sy _; apply: Sy.
  by ffold F; ring.
have T : to_full d (cauchy_from_pk2 d f jac s) i j = cauchy_full d f jac s i j.
  by case: (C40_storage F dd) => _ _ _; apply.
split; [exact: S|by rewrite T E|].
by move=> n0; rewrite T /cauchy_full divfK.
Qed.
End Transform.

(** ** C68: rotations *)
Section Rotation.
Variable F : rcfType.
Notation vec := (nat -> F).
Notation tens := (nat -> nat -> F).
Implicit Types (d : vec) (c s : F).
Add Field Ff5 : (F_field_theory F).
Ltac idx3 i := case: i => [|[|[|i]]] //=.

Ltac fhyp H := match type of H with @eq _ ?a ?b => change (@eq (GRing.Field.sort F) a b) in H end.
Lemma unit_dir d : norm3 d != 0 ->
  (d 0%N / norm3 d) * (d 0%N / norm3 d) = 1 - (d 1%N / norm3 d) * (d 1%N / norm3 d) - (d 2%N / norm3 d) * (d 2%N / norm3 d).
Proof.
move=> n0.
have nn : norm3 d * norm3 d = d 0%N * d 0%N + d 1%N * d 1%N + d 2%N * d 2%N.
  by rewrite -expr2 /norm3 sqr_sqrtr ?expr2 // !addr_ge0 // -expr2 sqr_ge0.
have -> : 1 = (norm3 d * norm3 d) / (norm3 d * norm3 d) by rewrite divff // mulf_neq0.
rewrite {1}nn; move: n0 => /eqP n0; ffold F; field; exact: n0.
Qed.
Lemma norm3_eq0 d : (norm3 d == 0) = [&& d 0%N == 0, d 1%N == 0 & d 2%N == 0].
Proof.
rewrite /norm3 sqrtr_eq0.
have p i : 0 <= d i ^+ 2 by apply: sqr_ge0.
set x := _ + _; have -> : (x <= 0) = (x == 0) by rewrite Order.POrderTheory.eq_le !addr_ge0 // andbT.
rewrite /x.
by rewrite paddr_eq0 ?addr_ge0 // paddr_eq0 // !sqrf_eq0 andbA.
Qed.


Definition urot (u : vec) c s : tens := fun i j => u i * u j + c * ((i == j)%:R - u i * u j) + s * skew u i j.
Lemma urotE d c s : axis_rotation d c s = urot (fun i => d i / norm3 d) c s.
Proof. by []. Qed.
Ltac open_rot u := rewrite /transform1 /mul /transp /urot /ent ?mxE ?big_ord_recl ?big_ord0 ?inordK //= /skew /=;
  do ?[match goal with |- context [nat_of_ord (lift _ _)] => rewrite /= | |- context [bump _ _] => rewrite /bump /= | |- _ => fail end];
  move: (u 0%N) (u 1%N) (u 2%N).
Lemma urot_mul u c s c' s' : u 0%N * u 0%N = 1 - u 1%N * u 1%N - u 2%N * u 2%N ->
  forall i j, (i < 3)%N -> (j < 3)%N -> mul (urot u c s) (urot u c' s') i j = urot u (c * c' - s * s') (s * c' + c * s') i j.
Proof.
move=> Hu i j; idx3 i; idx3 j => _ _; move: Hu; open_rot u => u0 u1 u2; ffold F => Hu; ffold F; fhyp Hu; ring [Hu].
Qed.
Lemma urot_transp u c s : forall i j, (i < 3)%N -> (j < 3)%N -> transp (urot u c s) i j = urot u c (- s) i j.
Proof. by move=> i j; idx3 i; idx3 j => _ _; open_rot u => u0 u1 u2; ffold F; ring. Qed.
Lemma urot_id u : forall i j, (i < 3)%N -> (j < 3)%N -> urot u 1 0 i j = (i == j)%:R.
Proof. by move=> i j; idx3 i; idx3 j => _ _; open_rot u => u0 u1 u2; ffold F; ring. Qed.
Lemma urot_axis u c s : u 0%N * u 0%N = 1 - u 1%N * u 1%N - u 2%N * u 2%N ->
  forall i, (i < 3)%N -> transform1 (urot u c s) u i = u i.
Proof.
by move=> Hu i; idx3 i => _; move: Hu; open_rot u => u0 u1 u2; ffold F => Hu; ffold F; fhyp Hu; ring [Hu].
Qed.
Lemma urot_det u c s : u 0%N * u 0%N = 1 - u 1%N * u 1%N - u 2%N * u 2%N -> c * c = 1 - s * s ->
  \det (toM (urot u c s)) = 1.
Proof.
rewrite det3 => Hu Hc; move: Hu Hc; open_rot u => u0 u1 u2; ffold F => Hu Hc; ffold F; fhyp Hu; fhyp Hc; ring [Hu Hc].
Qed.

Lemma urot_cong u c s c' s' : c = c' -> s = s' -> urot u c s = urot u c' s'.
Proof. by move=> -> ->. Qed.
(** for any nonzero axis and any angle: a rotation (orthogonal, determinant 1)
    that fixes the axis *)
Theorem C68_rotation d c s : ~~ [&& d 0%N == 0, d 1%N == 0 & d 2%N == 0] -> c ^+ 2 + s ^+ 2 = 1 ->
  [/\ orthogonal (axis_rotation d c s),
      \det (toM (axis_rotation d c s)) = 1 &
      forall i, (i < 3)%N -> transform1 (axis_rotation d c s) d i = d i].
Proof.
rewrite -norm3_eq0 => n0 cs.
have Hc : c * c = 1 - s * s by rewrite -cs !expr2 addrK.
have Hu := @unit_dir d n0.
split.
- move=> i j Hi Hj; rewrite urotE; set u := fun k => d k / norm3 d.
  have -> : \sum_(p < 3) urot u c s i p * urot u c s j p = mul (urot u c s) (urot u c (- s)) i j.
    by apply: eq_bigr => p _; rewrite -(@urot_transp u c s p j).
  rewrite urot_mul // -(urot_id u) //; congr (urot u _ _ i j).
    by rewrite Hc mulrN opprK subrK.
  by rewrite mulrN [c * s]mulrC subrr.
- by rewrite urotE urot_det.
- move=> i Hi; rewrite urotE /transform1; set u := fun k => d k / norm3 d.
  have du k : d k = norm3 d * u k by rewrite /u mulrC divfK.
  rewrite [RHS]du -(@urot_axis u c s Hu i Hi) /transform1 big_distrr /=.
  by apply: eq_bigr => p _; rewrite (du p) mulrCA.
Qed.
(** rotations around the same axis compose by adding the angles, the rotation by
    the opposite angle is the transpose and the inverse *)
Theorem C68_angles d c s c' s' : ~~ [&& d 0%N == 0, d 1%N == 0 & d 2%N == 0] -> forall i j, (i < 3)%N -> (j < 3)%N ->
  mul (axis_rotation d c s) (axis_rotation d c' s') i j = axis_rotation d (c * c' - s * s') (s * c' + c * s') i j /\
  axis_rotation d c (- s) i j = axis_rotation d c s j i /\
  axis_rotation d 1 0 i j = (i == j)%:R.
Proof.
rewrite -norm3_eq0 => n0 i j Hi Hj; rewrite !urotE; split.
  by apply: urot_mul => //; apply: (@unit_dir d n0).
by split; [rewrite -urot_transp|rewrite urot_id].
Qed.
(** The rotation by 90 degrees around z in the documentation *)
Example C68_doc :
  axis_rotation (fun i => (i == 2%N)%:R) 0 1 0%N 1%N = 1 :> F /\
  axis_rotation (fun i => (i == 2%N)%:R) 0 1 1%N 0%N = -1 :> F.
Proof.
have n : norm3 (fun i => (i == 2%N)%:R) = 1 :> F by rewrite /norm3 /= !expr0n /= !add0r expr1n sqrtr1.
by rewrite /axis_rotation n /skew /=; split; ffold F; field; apply/eqP; rewrite oner_eq0.
Qed.

(** cylindrical coordinates: the radial direction becomes the first axis, the
    axis of the cylinder is kept, 'data' is the inverse of 'axes' *)
Theorem C68_cylindrical (coor origin : vec) : let x := coor 0%N - origin 0%N in let y := coor 1%N - origin 1%N in
  [/\ orthogonal (cylindrical false coor origin),
      forall z, let v := transform1 (cylindrical false coor origin) (fun i => nth 0 [:: x; y; z] i) in
        [/\ v 0%N = Num.sqrt (x ^+ 2 + y ^+ 2), v 1%N = 0 & v 2%N = z] &
      forall i j, (i < 3)%N -> (j < 3)%N -> cylindrical true coor origin i j = cylindrical false coor origin j i].
Proof.
move=> x y; rewrite /cylindrical -/x -/y /=.
set r := Num.sqrt _.
have rr : r * r = x * x + y * y by rewrite -expr2 sqr_sqrtr ?expr2 // addr_ge0 // -expr2 sqr_ge0.
set c := if r == 0 then 1 else x / r; set s := if r == 0 then 0 else y / r.
have cs : c ^+ 2 + s ^+ 2 = 1.
  rewrite /c /s; case: ifP => [_|/negbT n0]; first by rewrite expr1n expr0n addr0.
  rewrite !expr2 !mulrA -!(mulrAC _ _ r^-1) -mulrDl -mulrDl -rr mulfK // divff //.
have xr : x * c + y * s = r.
  rewrite /c /s; case: ifP => [/eqP r0|/negbT n0].
    have : x * x + y * y == 0 by rewrite -rr r0 mulr0.
    by rewrite paddr_eq0 -?expr2 ?sqr_ge0 // !sqrf_eq0 r0 => /andP[/eqP -> /eqP ->]; rewrite !mul0r addr0.
  by rewrite !mulrA -mulrDl -rr mulfK.
have yr : y * c - x * s = 0.
  rewrite /c /s; case: ifP => [/eqP r0|/negbT n0].
    have : x * x + y * y == 0 by rewrite -rr r0 mulr0.
    by rewrite paddr_eq0 -?expr2 ?sqr_ge0 // !sqrf_eq0 => /andP[/eqP -> /eqP ->]; rewrite !mul0r subr0.
  by rewrite !mulrA [y * x]mulrC subrr.
have d0 : ~~ [&& ((0 == 2)%N%:R : F) == 0, ((1 == 2)%N%:R : F) == 0 & ((2 == 2)%N%:R : F) == 0].
  by rewrite /= oner_eq0 eqxx.
have n : norm3 (fun i => (i == 2%N)%:R) = 1 :> F by rewrite /norm3 /= !expr0n /= !add0r expr1n sqrtr1.
split.
- by case: (@C68_rotation (fun i => (i == 2%N)%:R) c s d0 cs).
- move=> z; rewrite /transform1 !big_ord_recl !big_ord0 /= /axis_rotation n /skew /= !divr1.
  rewrite !(mul0r, mulr0, subr0, addr0, add0r, mul1r, mulr1, sub0r, subrr, oppr0).
  split=> //; first by rewrite mulrC [s * _]mulrC.
  by rewrite -[RHS]yr mulrN mulr1 addrC [c * y]mulrC mulNr [s * x]mulrC.
- move=> i j Hi Hj.
  by case: (@C68_angles (fun i => (i == 2%N)%:R) c s 1 0 d0 i j Hi Hj) => _ [].
Qed.
End Rotation.
Example C68_ex : ~~ [&& (1 : rat) == 0, (2%:R : rat) == 0 & (0 : rat) == 0] /\ (3%:R / 5%:R) ^+ 2 + (4%:R / 5%:R) ^+ 2 = 1 :> rat.
Proof. by split; [|apply/eqP]. Qed.
Print Assumptions C40_storage.
Print Assumptions C40_t4_symmetries.
Print Assumptions C40_contraction.
Print Assumptions C41_deviator.
Print Assumptions C41_von_mises_zero.
Print Assumptions C66_second_order.
Print Assumptions C66_fourth_order.
Print Assumptions C66_hooke.
Print Assumptions C67_cauchy.
Print Assumptions C68_rotation.
Print Assumptions C68_cylindrical.
