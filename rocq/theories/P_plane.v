(** C69: reduction to plane stress. *)
From mathcomp Require Import all_ssreflect all_algebra.
From Coq Require Import Ring Field.
From Verif Require Import FieldTac M_plane.
Set Implicit Arguments. Unset Strict Implicit. Unset Printing Implicit Defensive.
Import GRing.Theory.
Local Open Scope ring_scope.

Section Spec.
Variables (F : fieldType) (p : plane).
(** the entries of a vector with the given indices *)
Definition pick n (ii : seq nat) k (v : 'cV[F]_n.+1) : 'cV[F]_k := \col_(i < k) v (inord (nth 0%N ii i)) 0.
(** in-plane and out-of-plane components of symmetric tensors: (i, j) of the
    storage order 11 22 33 12 13 23 is in the plane if both axes are *)
Definition axes (a : nat) : nat * nat := nth (0, 0)%N [:: (0, 0); (1, 1); (2, 2); (0, 1); (0, 2); (1, 2)]%N a.
Definition in_plane : seq nat := [seq a <- iota 0 6 | ((axes a).1 \in i_m p) && ((axes a).2 \in i_m p)].
Definition out_plane : seq nat := [seq a <- iota 0 6 | ~~ (((axes a).1 \in i_m p) && ((axes a).2 \in i_m p))].
Definition out_axis : seq nat := [seq a <- iota 0 3 | a \notin i_m p].
End Spec.
Lemma in_planeE p : in_plane p = i_ms p. Proof. by case: p. Qed.
Lemma out_planeE p : out_plane p = i_ss p. Proof. by case: p. Qed.
Lemma out_axisE p : out_axis p = i_s p. Proof. by []. Qed.

Section Thm.
Variables (F : fieldType) (p : plane).
Notation pm6 := (@pick F 5 (in_plane p) 3).
Notation ps6 := (@pick F 5 (out_plane p) 3).
Notation pm3 := (@pick F 2 (i_m p) 2).
Notation ps3 := (@pick F 2 (out_axis p) 1).
Definition sub n m (a : 'M[F]_(n.+1, m.+1)) (ii jj : seq nat) k l : 'M[F]_(k, l) :=
  \matrix_(i < k, j < l) a (inord (nth 0%N ii i)) (inord (nth 0%N jj j)).
Lemma gatherE n m (a : 'M[F]_(n.+1, m.+1)) ii jj k l : gather a ii jj k l = (sub a ii jj l k)^T.
Proof. by apply/matrixP => i j; rewrite !mxE. Qed.
Lemma sub_tr n m (a : 'M[F]_(n.+1, m.+1)) ii jj k l : (sub a ii jj k l)^T = sub a^T jj ii l k.
Proof. by apply/matrixP => i j; rewrite !mxE. Qed.

End Thm.
Section Sums.
Variable (F : fieldType).
Add Field Ff6 : (F_field_theory F).
Lemma sum6 p (G : 'I_6 -> F) : \sum_i G i = \sum_(j < 3) G (inord (nth 0%N (i_ms p) j)) + \sum_(j < 3) G (inord (nth 0%N (i_ss p) j)).
Proof.
rewrite !big_ord_recl !big_ord0.
have E (k : 'I_6) : G k = G (inord k) by rewrite inord_val.
rewrite [G ord0]E ![G (lift _ _)]E; case: p => /=; rewrite /bump /= ?addn0 ?add1n.
all: by ffold F; ring.
Qed.
Lemma sum3 p (G : 'I_3 -> F) : \sum_i G i = \sum_(j < 2) G (inord (nth 0%N (i_m p) j)) + \sum_(j < 1) G (inord (nth 0%N (i_s p) j)).
Proof.
rewrite !big_ord_recl !big_ord0.
have E (k : 'I_3) : G k = G (inord k) by rewrite inord_val.
rewrite [G ord0]E ![G (lift _ _)]E; case: p => /=; rewrite /bump /= ?addn0 ?add1n.
all: by ffold F; ring.
Qed.
End Sums.

Section Main.
Variables (F : fieldType) (p : plane).
Notation pm6 := (@pick F 5 (in_plane p) 3).
Notation ps6 := (@pick F 5 (out_plane p) 3).
Notation pm3 := (@pick F 2 (i_m p) 2).
Notation ps3 := (@pick F 2 (out_axis p) 1).
Lemma pick_mul6 n (a : 'M[F]_(n.+1, 6)) ii k (v : 'cV[F]_6) :
  pick ii k (a *m v) = sub a ii (i_ms p) k 3 *m pm6 v + sub a ii (i_ss p) k 3 *m ps6 v.
Proof.
apply/matrixP => i j; rewrite !mxE (sum6 p) in_planeE out_planeE; congr (_ + _).
all: by apply: eq_bigr => l _; rewrite !mxE.
Qed.
Lemma pick_mul3 n (a : 'M[F]_(n.+1, 3)) ii k (v : 'cV[F]_3) :
  pick ii k (a *m v) = sub a ii (i_m p) k 2 *m pm3 v + sub a ii (i_s p) k 1 *m ps3 v.
Proof.
apply/matrixP => i j; rewrite !mxE (sum3 p) out_axisE; congr (_ + _).
all: by apply: eq_bigr => l _; rewrite !mxE.
Qed.
(** every pair of in-plane and out-of-plane parts is the pair of parts of a vector *)
Lemma inordO n k (H : (k < n.+1)%N) : inord k = Ordinal H.
Proof. by apply: val_inj; rewrite /= inordK. Qed.
Lemma join6 (a b : 'cV[F]_3) : exists v : 'cV[F]_6, pm6 v = a /\ ps6 v = b.
Proof.
pose f (k : nat) : F := if k \in in_plane p then a (inord (index k (in_plane p))) 0 else b (inord (index k (out_plane p))) 0.
exists (\col_i f i); split; apply/matrixP => i j; rewrite !mxE ord1 inordK.
- by rewrite /f; case: p i => -[[|[|[|i]]] Hi] //=; rewrite -inordO.
- by case: p i => -[[|[|[|i]]] Hi].
- by rewrite /f; case: p i => -[[|[|[|i]]] Hi] //=; rewrite -inordO.
- by case: p i => -[[|[|[|i]]] Hi].
Qed.
Lemma join3 (a : 'cV[F]_2) (b : 'cV[F]_1) : exists v : 'cV[F]_3, pm3 v = a /\ ps3 v = b.
Proof.
pose f (k : nat) : F := if k \in i_m p then a (inord (index k (i_m p))) 0 else b 0 0.
exists (\col_i f i); split; apply/matrixP => i j; rewrite !mxE ord1 inordK.
- by rewrite /f; case: p i => -[[|[|i]] Hi] //=; rewrite -inordO.
- by case: p i => -[[|[|i]] Hi].
- by rewrite ord1 /f; case: p.
- by case: p.
Qed.

(** Elasticity: for a symmetric stiffness, the reduced stiffness gives the in-plane
    stress for exactly those strains whose out-of-plane stress is zero; each in-plane
    strain has exactly one such extension. *)
Theorem C69_plane_stress (c3 : 'M[F]_6) : c3^T = c3 -> \det (cs p c3) != 0 ->
  (forall e : 'cV[F]_6, ps6 (c3 *m e) = 0 -> pm6 (c3 *m e) = plane_stress p c3 *m pm6 e) /\
  (forall em : 'cV[F]_3, exists e : 'cV[F]_6, pm6 e = em /\ ps6 (c3 *m e) = 0) /\
  (forall e e' : 'cV[F]_6, pm6 e = pm6 e' -> ps6 (c3 *m e) = 0 -> ps6 (c3 *m e') = 0 -> ps6 e = ps6 e') /\
  (plane_stress p c3)^T = plane_stress p c3.
Proof.
move=> S D.
have U : cs p c3 \in unitmx by rewrite unitmxE unitfE.
have Cs : cs p c3 = sub c3 (i_ss p) (i_ss p) 3 3 by rewrite /cs gatherE sub_tr S.
have Cm : cm p c3 = sub c3 (i_ss p) (i_ms p) 3 3 by rewrite /cm gatherE trmxK.
have Cmt : (cm p c3)^T = sub c3 (i_ms p) (i_ss p) 3 3 by rewrite Cm sub_tr S.
have Es e : ps6 (c3 *m e) = cm p c3 *m pm6 e + cs p c3 *m ps6 e.
  by rewrite pick_mul6 Cs Cm out_planeE.
have Em e : pm6 (c3 *m e) = sub c3 (i_ms p) (i_ms p) 3 3 *m pm6 e + (cm p c3)^T *m ps6 e.
  by rewrite pick_mul6 Cmt in_planeE.
have Sol e : ps6 (c3 *m e) = 0 -> ps6 e = - (invmx (cs p c3) *m (cm p c3 *m pm6 e)).
  rewrite Es => /eqP; rewrite addrC addr_eq0 => /eqP E.
  by rewrite -[ps6 e]mul1mx -(mulVmx U) -mulmxA E mulmxN.
have G : gather c3 (i_ms p) (i_ms p) 3 3 = sub c3 (i_ms p) (i_ms p) 3 3 by rewrite gatherE sub_tr S.
split; [|split; [|split]].
- move=> e /Sol E; rewrite Em E /plane_stress G mulmxBl mulmxN; congr (_ - _).
  by rewrite !mulmxA.
- move=> em; case: (join6 em (- (invmx (cs p c3) *m (cm p c3 *m em)))) => e [e1 e2].
  by exists e; split=> //; rewrite Es e1 e2 mulmxN mulKVmx // subrr.
- by move=> e e' E /Sol -> /Sol ->; rewrite E.
- have Si : (invmx (cs p c3))^T = invmx (cs p c3) by rewrite trmx_inv {1}Cs sub_tr S -Cs.
  by rewrite /plane_stress G !linearB /= sub_tr S !trmx_mul trmxK Si mulmxA.
Qed.

Add Field Ff7 : (F_field_theory F).
Ltac lin := repeat match goal with |- context [@mulmx ?R ?a ?b ?c ?x ?y] => let t := fresh in set (t := @mulmx R a b c x y); clearbody t end;
  apply/matrixP => ? ?; rewrite !mxE; ffold F; ring.
(** Piezoelectricity: stress and electric displacement *)
Definition sigma (c3 : 'M[F]_6) (b3 : 'M[F]_(3, 6)) (e : 'cV[F]_6) (E : 'cV[F]_3) : 'cV[F]_6 := c3 *m e - b3^T *m E.
Definition displ (d3 : 'M[F]_3) (b3 : 'M[F]_(3, 6)) (e : 'cV[F]_6) (E : 'cV[F]_3) : 'cV[F]_3 := b3 *m e + d3 *m E.
(** The reduced stiffness and coupling tensors give the in-plane stress, and
    the electric displacement up to the dielectric tensor, for all states with zero
    out-of-plane stress and electric displacement. *)
Lemma pickB n ii k (v w : 'cV[F]_n.+1) : pick ii k (v - w) = pick ii k v - pick ii k w.
Proof. by apply/matrixP => i j; rewrite !mxE. Qed.
Lemma pickD n ii k (v w : 'cV[F]_n.+1) : pick ii k (v + w) = pick ii k v + pick ii k w.
Proof. by apply/matrixP => i j; rewrite !mxE. Qed.
Theorem C69_piezo_partial (c3 : 'M[F]_6) (d3 : 'M[F]_3) (b3 : 'M[F]_(3, 6)) :
  c3^T = c3 -> d3^T = d3 -> \det (mA p c3 d3 b3) != 0 ->
  forall e E, ps6 (sigma c3 b3 e E) = 0 -> ps3 (displ d3 b3 e E) = 0 ->
  pm6 (sigma c3 b3 e E) = piezo_c2 p c3 d3 b3 *m pm6 e - (piezo_b2 p c3 d3 b3)^T *m pm3 E /\
  pm3 (displ d3 b3 e E) = piezo_b2 p c3 d3 b3 *m pm6 e
    + (sub d3 (i_m p) (i_m p) 2 2 + (FE p c3 d3 b3)^T *m (invmx (mA p c3 d3 b3) *m FE p c3 d3 b3)) *m pm3 E.
Proof.
move=> Sc Sd D e E.
have U : mA p c3 d3 b3 \in unitmx by rewrite unitmxE unitfE.
have Cs : cs p c3 = sub c3 (i_ss p) (i_ss p) 3 3 by rewrite /cs gatherE sub_tr Sc.
have Cm : cm p c3 = sub c3 (i_ss p) (i_ms p) 3 3 by rewrite /cm gatherE trmxK.
have Ds : ds p d3 = sub d3 (i_s p) (i_s p) 1 1 by rewrite /ds gatherE sub_tr Sd.
have Dm : dm p d3 = sub d3 (i_s p) (i_m p) 1 2 by rewrite /dm gatherE trmxK.
have Bss : bss p b3 = sub b3^T (i_ss p) (i_s p) 3 1 by rewrite /bss gatherE sub_tr.
have FeE : Feps p c3 d3 b3 = col_mx (sub c3 (i_ss p) (i_ms p) 3 3) (sub b3 (i_s p) (i_ms p) 1 3).
  by rewrite /Feps /mF block_mxEh row_mxKl Cm gatherE trmxK.
have FEE : FE p c3 d3 b3 = col_mx (sub b3^T (i_ss p) (i_m p) 3 2) (- sub d3 (i_s p) (i_m p) 1 2).
  by rewrite /FE /mF block_mxEh row_mxKr gatherE sub_tr Dm.
have AE : mA p c3 d3 b3 = block_mx (sub c3 (i_ss p) (i_ss p) 3 3) (sub b3^T (i_ss p) (i_s p) 3 1)
                                   (sub b3 (i_s p) (i_ss p) 1 3) (- sub d3 (i_s p) (i_s p) 1 1).
  by rewrite /mA Cs Bss sub_tr trmxK Ds.
set A := mA _ _ _ _ in U AE *.
have SA : A^T = A.
  by rewrite AE tr_block_mx !linearN /= !sub_tr Sc Sd trmxK.
have SAi : (invmx A)^T = invmx A by rewrite trmx_inv SA.
pose x := col_mx (ps6 e) (- ps3 E).
have e6 ii k : pick ii k (sigma c3 b3 e E) =
  (sub c3 ii (i_ms p) k 3 *m pm6 e + sub c3 ii (i_ss p) k 3 *m ps6 e)
  - (sub b3^T ii (i_m p) k 2 *m pm3 E + sub b3^T ii (i_s p) k 1 *m ps3 E).
  by rewrite /sigma pickB pick_mul6 pick_mul3.
have e3 ii k : pick ii k (displ d3 b3 e E) =
  (sub b3 ii (i_ms p) k 3 *m pm6 e + sub b3 ii (i_ss p) k 3 *m ps6 e)
  + (sub d3 ii (i_m p) k 2 *m pm3 E + sub d3 ii (i_s p) k 1 *m ps3 E).
  by rewrite /displ pickD pick_mul6 pick_mul3.
rewrite in_planeE out_planeE out_axisE in e6 e3 x *.
rewrite !e6 !e3 => H1 H2.
have Ax : A *m x = - (Feps p c3 d3 b3 *m pick (i_ms p) 3 e - FE p c3 d3 b3 *m pm3 E).
  apply/eqP; rewrite -addr_eq0; apply/eqP.
  rewrite AE /x mul_block_col FeE FEE !mul_col_mx opp_col_mx !add_col_mx -[RHS]col_mx0; congr col_mx.
    by rewrite -[RHS]H1 mulmxN; lin.
  by rewrite -[RHS]H2 mulmxN !mulNmx; lin.
have Xs : x = - (invmx A *m (Feps p c3 d3 b3 *m pick (i_ms p) 3 e)) + invmx A *m (FE p c3 d3 b3 *m pm3 E).
  by rewrite -[x]mul1mx -(mulVmx U) -mulmxA Ax mulmxN mulmxBr opprB addrC.
have Fx : (Feps p c3 d3 b3)^T *m x = sub c3 (i_ms p) (i_ss p) 3 3 *m pick (i_ss p) 3 e - sub b3^T (i_ms p) (i_s p) 3 1 *m pick (i_s p) 1 E.
  by rewrite FeE tr_col_mx /x mul_row_col !sub_tr Sc mulmxN.
have TB n m (a b : 'M[F]_(n, m)) : (a - b)^T = a^T - b^T by rewrite linearB.
have TN n m (a : 'M[F]_(n, m)) : (- a)^T = - a^T by rewrite linearN.
have FEx : (FE p c3 d3 b3)^T *m x = sub b3 (i_m p) (i_ss p) 2 3 *m pick (i_ss p) 3 e + sub d3 (i_m p) (i_s p) 2 1 *m pick (i_s p) 1 E.
  by rewrite FEE tr_col_mx /x mul_row_col TN !sub_tr Sd trmxK mulmxN mulNmx opprK.
have Gc : gather c3 (i_ms p) (i_ms p) 3 3 = sub c3 (i_ms p) (i_ms p) 3 3 by rewrite gatherE sub_tr Sc.
have Gb : (gather b3 (i_m p) (i_ms p) 3 2)^T = sub b3 (i_m p) (i_ms p) 2 3 by rewrite gatherE trmxK.
have Gbt : (sub b3 (i_m p) (i_ms p) 2 3)^T = sub b3^T (i_ms p) (i_m p) 3 2 by rewrite sub_tr.
split.
- have -> : sub c3 (i_ms p) (i_ms p) 3 3 *m pick (i_ms p) 3 e + sub c3 (i_ms p) (i_ss p) 3 3 *m pick (i_ss p) 3 e -
     (sub b3^T (i_ms p) (i_m p) 3 2 *m pm3 E + sub b3^T (i_ms p) (i_s p) 3 1 *m pick (i_s p) 1 E)
     = sub c3 (i_ms p) (i_ms p) 3 3 *m pick (i_ms p) 3 e - sub b3^T (i_ms p) (i_m p) 3 2 *m pm3 E + (Feps p c3 d3 b3)^T *m x.
    by rewrite Fx; lin.
  rewrite /piezo_c2 /piezo_b2 Gc Gb -/A TB Gbt !trmx_mul trmxK SAi !mulmxBl Xs mulmxDr mulmxN !mulmxA. 
  by rewrite addrACA opprB; congr (_ + _); rewrite addrC.
- have -> : sub b3 (i_m p) (i_ms p) 2 3 *m pick (i_ms p) 3 e + sub b3 (i_m p) (i_ss p) 2 3 *m pick (i_ss p) 3 e +
     (sub d3 (i_m p) (i_m p) 2 2 *m pm3 E + sub d3 (i_m p) (i_s p) 2 1 *m pick (i_s p) 1 E)
     = sub b3 (i_m p) (i_ms p) 2 3 *m pick (i_ms p) 3 e + sub d3 (i_m p) (i_m p) 2 2 *m pm3 E + (FE p c3 d3 b3)^T *m x.
    by rewrite FEx; lin.
  rewrite /piezo_b2 Gb -/A !mulmxBl mulmxDl Xs mulmxDr mulmxN !mulmxA.
  by rewrite addrACA.
Qed.
End Main.

(** The reduced dielectric tensor has the wrong sign of the correction: with a
    uniform material without coupling, a state with zero out-of-plane stress and
    displacement has another in-plane displacement than the reduced law says. *)
Definition w_c3 : 'M[rat]_6 := 1%:M.
Definition w_b3 : 'M[rat]_(3, 6) := 0.
Definition w_d3 : 'M[rat]_3 := \matrix_(i, j) nth 0 (nth [::] [:: [:: 1; 0; 1]; [:: 0; 1; 0]; [:: 1; 0; 2%:R]] i) j.
Definition w_E : 'cV[rat]_3 := \col_i nth 0 [:: 1; 0; - 2%:R^-1] i.
Lemma w_det : \det (mA P01 w_c3 w_d3 w_b3) != 0.
Proof.
rewrite /mA; have -> : bss P01 w_b3 = 0 by apply/matrixP => i j; rewrite !mxE.
rewrite trmx0 det_ublock; have -> : cs P01 w_c3 = 1%:M.
  apply/matrixP => -[[|[|[|i]]] Hi] -[[|[|[|j]]] Hj]; rewrite !mxE //= -!val_eqE /= ?inordK //.
rewrite det1 mul1r det_mx11 !mxE.
by rewrite /= !inordK.
Qed.
Theorem C69_piezo_d2_refuted :
  exists p (c3 : 'M[rat]_6) (d3 : 'M[rat]_3) (b3 : 'M[rat]_(3, 6)),
  [/\ c3^T = c3, d3^T = d3 & \det (mA p c3 d3 b3) != 0] /\
  exists e E, [/\ pick (out_plane p) 3 (sigma c3 b3 e E) = 0, pick (out_axis p) 1 (displ d3 b3 e E) = 0 &
    pick (i_m p) 2 (displ d3 b3 e E) <> piezo_b2 p c3 d3 b3 *m pick (in_plane p) 3 e + piezo_d2 p c3 d3 b3 *m pick (i_m p) 2 E].
Proof.
have Sd : w_d3^T = w_d3 by apply/matrixP => -[[|[|[|i]]] Hi] -[[|[|[|j]]] Hj]; rewrite !mxE.
have Sc : w_c3^T = w_c3 by rewrite trmx1.
exists P01, w_c3, w_d3, w_b3; split; first by split=> //; exact: w_det.
exists 0, w_E.
have s0 : sigma w_c3 w_b3 0 w_E = 0 by rewrite /sigma mulmx0 trmx0 mul0mx subrr.
have dE : displ w_d3 w_b3 0 w_E = \col_i nth 0 [:: 2%:R^-1; 0; 0] i.
  by rewrite /displ mulmx0 add0r; apply/matrixP => -[[|[|[|i]]] Hi] j //; rewrite !mxE !big_ord_recl big_ord0 !mxE /=; apply/eqP.
have H1 : pick (out_plane P01) 3 (sigma w_c3 w_b3 0 w_E) = 0 by rewrite s0; apply/matrixP => i j; rewrite !mxE.
have H2 : pick (out_axis P01) 1 (displ w_d3 w_b3 0 w_E) = 0.
  by rewrite dE; apply/matrixP => i j; rewrite !ord1 !mxE /= inordK.
split=> //.
have [_ Q] := @C69_piezo_partial _ P01 _ _ w_b3 Sc Sd w_det 0 w_E H1 H2.
rewrite Q /piezo_d2; set X := (FE _ _ _ _)^T *m _ in Q *; set t := pick (i_m P01) 2 w_E in Q *.
have -> : gather w_d3 (i_m P01) (i_m P01) 2 2 = sub w_d3 (i_m P01) (i_m P01) 2 2 by rewrite gatherE sub_tr Sd.
set b := _ *m pick _ _ 0 => /addrI; rewrite mulmxDl mulmxBl => /addrI E.
have X0 : X *m t = 0.
  apply/matrixP => i j; move/matrixP/(_ i j): E; rewrite !mxE => /eqP.
  by rewrite -addr_eq0 -mulr2n -mulr_natr mulf_eq0 /= orbF => /eqP.
move: Q; rewrite (mulmxDl _ X t) X0 addr0 dE.
have -> : @pick rat_fieldType 5 (in_plane P01) 3 0 = 0 by apply/matrixP => i j; rewrite !mxE.
rewrite mulmx0 add0r => /matrixP /(_ 0 0); rewrite !mxE !big_ord_recl big_ord0 !mxE /= !inordK //=.
Qed.

(** Isotropic materials: the reduction is the 2D stiffness with the plane stress
    Lame parameter 2 lam mu / (lam + 2 mu) of lame_from_youngpoisson(..., 'stress');
    stiffness_from_lame() as in M_elast. *)
Section Iso.
Variable F : fieldType.
Add Field Ff8 : (F_field_theory F).
Definition iso_entry (dim : nat) (lam mu : F) (i j : nat) : F :=
  lam * ((i < dim)%:R * (j < dim)%:R) + mu * (if i == j then (i < dim)%:R + 1 else 0).
Definition iso3 (lam mu : F) : 'M[F]_6 := \matrix_(i, j) iso_entry 3 lam mu i j.
Definition iso2 (lam mu : F) : 'M[F]_3 := \matrix_(i, j) iso_entry 2 lam mu i j.
Lemma inv_uniq n (A B : 'M[F]_n) : B *m A = 1%:M -> invmx A = B.
Proof.
move=> E; have U : A \in unitmx by case/mulmx1_unit: E.
by rewrite -[RHS]mulmx1 -(mulmxV U) mulmxA E mul1mx.
Qed.
Theorem C69_isotropic p (lam mu : F) : mu != 0 -> lam + 2%:R * mu != 0 ->
  (iso3 lam mu)^T = iso3 lam mu /\ \det (cs p (iso3 lam mu)) != 0 /\
  plane_stress p (iso3 lam mu) = iso2 (2%:R * lam * mu / (lam + 2%:R * mu)) mu.
Proof.
move=> m0 l0.
split; first by apply/matrixP => i j; rewrite !mxE /iso_entry [_ * _%:R]mulrC [(nat_of_ord j) == _]eq_sym; case: eqP => // ->.
pose D : 'M[F]_3 := diag_mx (\row_(i < 3) if (i == 0 :> nat)%N then lam + 2%:R * mu else mu).
pose Di : 'M[F]_3 := diag_mx (\row_(i < 3) (if (i == 0 :> nat)%N then lam + 2%:R * mu else mu)^-1).
have CS : cs p (iso3 lam mu) = D.
  apply/matrixP => i j; rewrite !mxE /iso_entry.
  by case: p i j => -[[|[|[|i]]] Hi] -[[|[|[|j]]] Hj] //; rewrite /= !inordK //=; ffold F; ring.
have DD : Di *m D = 1%:M.
  rewrite /D /Di; apply/matrixP => i j; rewrite mul_diag_mx !mxE.
  have [->|ne] := eqVneq i j; last by rewrite mulr0n mulr0.
  by rewrite mulr1n; case: ifP => _; rewrite mulVf.
split.
  by have := congr1 (fun M : 'M_3 => \det M) DD; rewrite det_mulmx det1 CS => E; apply/eqP => E0; move: E; rewrite E0 mulr0 => /eqP; rewrite eq_sym oner_eq0.
rewrite /plane_stress CS (inv_uniq DD).
apply/matrixP => i j; rewrite !mxE !big_ord_recl big_ord0 !mxE !big_ord_recl !big_ord0 !mxE /iso_entry.
have l1 : lam + (1 + 1) * mu <> 0 by apply/eqP; rewrite -mulr2n.
have m1 : mu <> 0 by apply/eqP.
case: p i j {CS} => -[[|[|[|i]]] Hi] -[[|[|[|j]]] Hj] //; rewrite /= !inordK //= ?mulr1n ?mulr0n.
all: ffold F; field; repeat split; try exact: l1; try exact: m1.
Qed.
End Iso.
Example C69_ex : (1 : rat) != 0 /\ (1 : rat) + 2%:R * 1 != 0.
Proof. by []. Qed.
Print Assumptions C69_isotropic.
Print Assumptions C69_plane_stress.
Print Assumptions C69_piezo_partial.
Print Assumptions C69_piezo_d2_refuted.
