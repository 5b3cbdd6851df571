(** C137: quadratic eigenvalue problems. *)
From mathcomp Require Import all_ssreflect all_algebra.
From Verif Require Import M_qeig.
Set Implicit Arguments.
Unset Strict Implicit.
Unset Printing Implicit Defensive.
Import GRing.Theory.
Local Open Scope ring_scope.

Section Q.
Variables (F : fieldType) (n : nat).
Notation mat := 'M[F]_n.
(** An eigenpair of (w^2 M + w D + K) x = 0 *)
Definition qpair (mm md mk : mat) (w : F) (x : 'cV[F]_n) : Prop := x != 0 /\ (w ^+ 2 *: mm + w *: md + mk) *m x = 0.
(** An eigenpair of A v = w B v *)
Definition lpair (a b : 'M[F]_(n + n)) (w : F) (v : 'cV[F]_(n + n)) : Prop := v != 0 /\ a *m v = w *: (b *m v).

Lemma qpair_eq : forall (mm md mk : mat) w (x : 'cV[F]_n), (w ^+ 2 *: mm + w *: md + mk) *m x = w ^+ 2 *: (mm *m x) + w *: (md *m x) + mk *m x.
Proof. by move=> *; rewrite !mulmxDl -!scalemxAl. Qed.
Lemma col_mx_eq0' : forall (u v : 'cV[F]_n), (col_mx u v == 0) = (u == 0) && (v == 0).
Proof. by move=> u v; rewrite col_mx_eq0. Qed.

(** Companion: v = (w x, x). *)
Lemma companion_pair : forall (mm md mk ml : mat) w (u v : 'cV[F]_n),
  lpair (mtx_a Companion md mk) (mtx_b Companion mm md ml) w (col_mx u v) <-> u = w *: v /\ qpair mm md mk w v.
Proof.
move=> mm md mk ml w u v; rewrite /lpair /mtx_a /mtx_b !mul_block_col !mul0mx !addr0 !add0r scale_col_mx !mulNmx !mul1mx.
split.
- case=> nz /eq_col_mx [E1 E2]. have U : u = w *: v by apply: oppr_inj; rewrite E2 scalerN.
  split=> //. split.
  + move: nz; rewrite col_mx_eq0' U; apply: contraNN => /eqP ->. by rewrite scaler0 eqxx.
  + rewrite qpair_eq. move: E1. rewrite U -!scalemxAr !scalerN scalerA -expr2 -addrA => ->. by rewrite subrr.
- case=> -> [nz]. rewrite qpair_eq => E. split.
  + by rewrite col_mx_eq0' (negbTE nz) andbF.
  + congr col_mx; last by rewrite scalerN.
    rewrite -!scalemxAr !scalerN scalerA -expr2. apply/eqP. rewrite -subr_eq0 opprK addrC addrA. by apply/eqP.
Qed.
(** Cholesky, M = L L^T: v = (x, w L^T x). *)
Lemma cholesky_pair : forall (mm md mk ml : mat) w (u v : 'cV[F]_n), mm = ml *m ml^T ->
  lpair (mtx_a Cholesky md mk) (mtx_b Cholesky mm md ml) w (col_mx u v) <-> v = w *: (ml^T *m u) /\ qpair mm md mk w u.
Proof.
move=> mm md mk ml w u v ->; rewrite /lpair /mtx_a /mtx_b !mul_block_col !mul0mx !addr0 !add0r scale_col_mx !mulNmx !mul1mx.
split.
- case=> nz /eq_col_mx [E1 E2]. split=> //. split.
  + move: nz; rewrite col_mx_eq0' E2; apply: contraNN => /eqP ->. by rewrite mulmx0 scaler0 eqxx.
  + rewrite qpair_eq. move: E1. rewrite E2 scalerDr -scalemxAr scalerA -expr2 mulmxA [_ + w ^+ 2 *: _]addrC => <-. by rewrite addNr.
- case=> -> [nz]. rewrite qpair_eq => E. split.
  + by rewrite col_mx_eq0' (negbTE nz).
  + congr col_mx. rewrite scalerDr -scalemxAr scalerA -expr2 mulmxA [_ + w ^+ 2 *: _]addrC.
    apply/eqP. by rewrite eq_sym -addr_eq0 E.
Qed.

(** Assumptions on the linear solver: pairs are eigenpairs; all (finite) eigenvalues of the given problem are found. *)
Definition sound (solver : lsolver F n) : Prop := forall a b p, p \in solver a b -> lpair a b p.1 p.2.
Definition complete (solver : lsolver F n) (a b : 'M[F]_(n + n)) : Prop := forall w v, lpair a b w v -> exists v', (w, v') \in solver a b.
(** The problem given to the linear solver *)
Definition complete_for (m : method) (md_ : mode) (solver : lsolver F n) (mm md mk ml : mat) : Prop :=
  let a := mtx_a m md mk in let b := mtx_b m mm md ml in if md_ is Normal then complete solver a b else complete solver b a.
Definition factor_ok (m : method) (mm ml : mat) : Prop := if m is Cholesky then mm = ml *m ml^T else True.

(** The vector of unknowns of the linear problem for an eigenpair. *)
Lemma pair_split : forall m mm md mk ml w (z : 'cV[F]_(n + n)), factor_ok m mm ml ->
  lpair (mtx_a m md mk) (mtx_b m mm md ml) w z ->
  (m = Companion /\ qpair mm md mk w (dsubmx z) /\ usubmx z = w *: dsubmx z) \/ (m = Cholesky /\ qpair mm md mk w (usubmx z)).
Proof.
move=> m mm md mk ml w z; rewrite -{1}[z]vsubmxK; case: m => HF L.
- have [E Q] := proj1 (companion_pair mm md mk ml w _ _) L. by left.
- have [E Q] := proj1 (cholesky_pair md mk w _ _ HF) L. by right.
Qed.
Lemma qpair_scale : forall mm md mk w (c : F) (x : 'cV[F]_n), c != 0 -> qpair mm md mk w x -> qpair mm md mk w (c *: x).
Proof.
move=> mm md mk w c x C [nz E]. split; first by rewrite scaler_eq0 negb_or C.
by rewrite -scalemxAr E scaler0.
Qed.
Lemma swap_pair : forall (a b : 'M[F]_(n + n)) mu v, mu != 0 -> lpair b a mu v -> lpair a b mu^-1 v.
Proof. move=> a b mu v M [nz E]. split=> //. by rewrite E scalerA mulVf // scale1r. Qed.

(** Every returned pair with a finite eigenvalue is an eigenpair; with the companion linearization and the normal mode,
    if it is not zero. *)
Theorem C137_eigenpairs_partial : forall m md_ solver (mm md mk ml : mat) w x, sound solver -> factor_ok m mm ml ->
  (Some w, x) \in qevp m md_ solver mm md mk ml ->
  (m = Companion -> w != 0) -> qpair mm md mk w x.
Proof.
move=> m md_ solver mm md mk ml w x So HF I W.
have [z [Z ->]] : exists z, lpair (mtx_a m md mk) (mtx_b m mm md ml) w z /\ x = usubmx z.
{ move: I; rewrite /qevp; case: md_ => /mapP [[mu z] /So /= L] [].
  - move=> -> ->. by exists z.
  - rewrite /recip; case: ifP => // /negbT M [->] ->. exists z. split=> //. by apply: swap_pair. }
case: (pair_split HF Z) => [[E [Q ->]]|[E Q]] //. by apply: qpair_scale => //; apply: W.
Qed.
(** Inverted mode: the eigenvalues are not zero. *)
Theorem C137_inverted : forall m solver (mm md mk ml : mat) w x, sound solver -> factor_ok m mm ml ->
  (Some w, x) \in qevp m Inverted solver mm md mk ml -> w != 0 /\ qpair mm md mk w x.
Proof.
move=> m solver mm md mk ml w x So HF I.
have W : w != 0 by move: I => /mapP [[mu z] _] []; rewrite /recip; case: ifP => // /negbT M [->] _; rewrite invr_eq0.
split=> //. by apply: (C137_eigenpairs_partial So HF I).
Qed.
(** All the eigenvalues are found (the nonzero ones in the inverted mode). *)
Theorem C137_complete : forall m md_ solver (mm md mk ml : mat) w x, complete_for m md_ solver mm md mk ml -> factor_ok m mm ml ->
  qpair mm md mk w x -> (md_ = Inverted -> w != 0) ->
  exists x', (Some w, x') \in qevp m md_ solver mm md mk ml.
Proof.
move=> m md_ solver mm md mk ml w x Co HF Q W.
have [z Z] : exists z, lpair (mtx_a m md mk) (mtx_b m mm md ml) w z.
{ case: m HF {Co} => HF.
  - exists (col_mx (w *: x) x). exact: (proj2 (companion_pair mm md mk ml w _ _) (conj erefl Q)).
  - exists (col_mx x (w *: (ml^T *m x))). exact: (proj2 (cholesky_pair md mk w _ _ HF) (conj erefl Q)). }
rewrite /qevp; case: md_ W Co => W Co.
- have [v' V] := Co _ _ Z. exists (usubmx v'). by apply/mapP; exists (w, v').
- have W0 := W erefl. have Z' : lpair (mtx_b m mm md ml) (mtx_a m md mk) w^-1 z by apply: swap_pair; rewrite ?invr_eq0 ?invrK //; apply: Z.
  have [v' V] := Co _ _ Z'. exists (usubmx v'). apply/mapP; exists (w^-1, v') => //=. by rewrite /recip invr_eq0 (negbTE W0) invrK.
Qed.
(** A zero eigenvalue (K singular): the companion linearization returns the zero vector. *)
Theorem C137_zero_refuted : forall solver (mm md mk ml : mat) (x : 'cV[F]_n), sound solver ->
  (Some 0, x) \in qevp Companion Normal solver mm md mk ml -> x = 0.
Proof.
move=> solver mm md mk ml x So /mapP [[mu z] /So /= L] [E ->]; subst mu.
by case: (pair_split (m := Companion) (mm := mm) (ml := ml) I L) => [[_ [_ ->]]|[//]]; rewrite scale0r.
Qed.
Corollary C137_zero_refuted_exists : forall solver (mm md mk ml : mat) (x : 'cV[F]_n), sound solver -> complete_for Companion Normal solver mm md mk ml ->
  x != 0 -> mk *m x = 0 ->
  exists x', (Some 0, x') \in qevp Companion Normal solver mm md mk ml /\ ~ qpair mm md mk 0 x'.
Proof.
move=> solver mm md mk ml x So Co nz E.
have Q : qpair mm md mk 0 x by split=> //; rewrite expr0n /= !scale0r !add0r.
have [x' X] := C137_complete (m := Companion) (md_ := Normal) (mm := mm) (ml := ml) Co I Q (fun e => ltac:(discriminate e)).
exists x'. split=> //. rewrite (C137_zero_refuted So X) => - [] /eqP. by case.
Qed.

(** Multiplicities: the determinants of the linear and the quadratic problem are the same up to a sign. *)
Theorem C137_multiplicity : forall m (mm md mk ml : mat) w, factor_ok m mm ml ->
  \det (mtx_a m md mk - w *: mtx_b m mm md ml) = (if m is Cholesky then (-1) ^+ n else 1) * \det (w ^+ 2 *: mm + w *: md + mk).
Proof.
have U : forall (X : mat), \det (block_mx 1%:M X 0 1%:M) = 1 by move=> X; rewrite det_ublock !det1 mulr1.
have Lo : forall (X : mat), \det (block_mx 1%:M 0 X 1%:M) = 1 by move=> X; rewrite det_lblock !det1 mulr1.
case=> mm md mk ml w HF; rewrite /mtx_a /mtx_b.
- have T : \det (block_mx (w%:M : mat) (- 1%:M) 1%:M 0) = 1.
  { have -> : block_mx (w%:M : mat) (- 1%:M) 1%:M 0 = block_mx 1%:M (w%:M - 1%:M) 0 1%:M *m block_mx 1%:M 0 1%:M 1%:M *m block_mx 1%:M (- 1%:M) 0 1%:M.
    { rewrite !mulmx_block !mulmx1 !mul1mx !mul0mx !mulmx0 !addr0 !add0r. congr block_mx; rewrite ?mulmxN ?mulmx1 ?addrN ?addNr //.
      - by rewrite addrC subrK.
      - by rewrite opprD subrK. }
    by rewrite !det_mulmx !U Lo !mulr1. }
  rewrite mul1r -[LHS]mulr1 -[X in _ * X = _]T -det_mulmx.
  have -> : (block_mx md mk (- 1%:M) 0 - w *: block_mx (- mm) 0 0 (- 1%:M)) *m block_mx w%:M (- 1%:M) 1%:M 0
    = block_mx (w ^+ 2 *: mm + w *: md + mk) (- (md + w *: mm)) 0 1%:M.
  { rewrite scale_block_mx opp_block_mx add_block_mx !scaler0 !oppr0 !addr0 !scalerN !opprK mulmx_block !mulmx0 !mulmx1 !addr0.
    congr block_mx.
    - rewrite mul_mx_scalar scalerDr scalerA -expr2. congr (_ + _). by rewrite addrC.
    - by rewrite mulmxN mulmx1.
    - by rewrite mulNmx mul1mx add0r scalemx1 addNr.
    - by rewrite mulmxN mulmx1 opprK. }
  by rewrite det_ublock det1 mulr1.
- rewrite /= in HF. subst mm.
  rewrite -[LHS]mulr1 -[X in _ * X = _](Lo (w *: ml^T)) -det_mulmx.
  have -> : (block_mx (- mk) 0 0 1%:M - w *: block_mx md ml ml^T 0) *m block_mx 1%:M 0 (w *: ml^T) 1%:M
    = block_mx ((-1) *: (w ^+ 2 *: (ml *m ml^T) + w *: md + mk)) (- (w *: ml)) 0 1%:M.
  { rewrite scale_block_mx opp_block_mx add_block_mx !scaler0 !oppr0 !addr0 !add0r mulmx_block !mulmx0 !mulmx1 !mul1mx !add0r.
    congr block_mx.
    - rewrite scaleN1r !opprD mulNmx -scalemxAl -scalemxAr scalerA -expr2. rewrite addrC -addrA. congr (_ + _). by rewrite addrC.
    - by rewrite addNr. }
  by rewrite det_ublock det1 mulr1 detZ.
Qed.
End Q.
(** An instance: n = 1, M = 1, D = 3, K = 2 over the rationals: the eigenvalues -1, -2. *)
Example qpair_ex : qpair (1%:M : 'M[rat]_1) 3%:M 2%:M (-1) 1%:M /\ qpair (1%:M : 'M[rat]_1) 3%:M 2%:M (-2) 1%:M.
Proof. split; split; rewrite ?oner_eq0 //; apply/matrixP => i j; rewrite !ord1 mulmx1 !mxE /=; by apply/eqP. Qed.
Definition ex_a : 'M[rat]_(1 + 1) := mtx_a Companion (3%:M : 'M[rat]_1) 2%:M.
Definition ex_b : 'M[rat]_(1 + 1) := mtx_b Companion (1%:M : 'M[rat]_1) 3%:M 0.
Definition ex_solver : lsolver [fieldType of rat] 1 := fun a b => if (a == ex_a) && (b == ex_b)
  then [:: (-1, col_mx ((-1) *: 1%:M) 1%:M); (-2, col_mx ((-2) *: 1%:M) 1%:M)] else [::].
Example sound_ex : sound ex_solver.
Proof.
move=> a b p; rewrite /ex_solver; case: ifP => // /andP [/eqP -> /eqP ->]; rewrite !inE => /orP [] /eqP -> /=; apply/companion_pair; split=> //.
- exact: (proj1 qpair_ex).
- exact: (proj2 qpair_ex).
Qed.
Lemma ex_poly : forall w : rat, w ^+ 2 + w * 3%:R + 2%:R = (w + 1) * (w + 2%:R).
Proof.
move=> w. have -> : w * 3%:R = w * 2%:R + w by rewrite -{3}[w]mulr1 -mulrDr.
by rewrite [RHS]mulrDl mul1r (mulrDr w w 2%:R) -[w * w]expr2 !addrA.
Qed.
Example complete_ex : complete_for Companion Normal ex_solver 1%:M 3%:M 2%:M 0.
Proof.
move=> w v L; have {L} := L; rewrite -[v]vsubmxK => /companion_pair [_ [nz E]].
have W : (w == -1) || (w == -2).
{ have H : (w + 1) * (w + 2) = 0.
  { have := congr1 (fun M : 'M_1 => M ord0 ord0) E.
    have -> : (w ^+ 2 *: 1%:M + w *: 3%:M + 2%:M : 'M[rat]_1) = ((w + 1) * (w + 2))%:M.
    { apply/matrixP => i j; rewrite !ord1 !mxE /= !mulr1n mulr1. exact: ex_poly. }
    rewrite mul_scalar_mx !mxE => /eqP; rewrite mulf_eq0 => /orP [/eqP //|Z]. case/eqP: nz. apply/matrixP => i j. rewrite !ord1 !mxE. by apply/eqP. }
  move/eqP: H. by rewrite mulf_eq0 !addr_eq0. }
rewrite /ex_solver -/ex_a -/ex_b !eqxx /=. case/orP: W => /eqP ->; eexists; rewrite !inE; apply/orP; [left|right]; exact: eqxx.
Qed.
Print Assumptions C137_eigenpairs_partial.
Print Assumptions C137_inverted.
Print Assumptions C137_complete.
Print Assumptions C137_zero_refuted.
Print Assumptions C137_zero_refuted_exists.
Print Assumptions C137_multiplicity.
