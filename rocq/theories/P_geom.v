(** C76: circumcentres of simplices; C77: points in polygons. *)
From Coq Require Import Reals List Bool Lra Lia.
From Verif Require Import M_geom.
Import ListNotations.
Set Implicit Arguments.
Local Open Scope R_scope.

(** ** Generic facts about vectors. *)
Lemma norm2_acc : forall v s, fold_left (fun s x => s + x ^ 2) v s = s + norm2 v.
Proof.
  unfold norm2. induction v as [|x v IH]; intros s; cbn [fold_left]; [lra|].
  rewrite IH, (IH (0 + x ^ 2)). lra.
Qed.
Lemma norm2_cons : forall x v, norm2 (x :: v) = x * x + norm2 v.
Proof. intros. unfold norm2. cbn [fold_left]. rewrite norm2_acc. unfold norm2. ring. Qed.
Lemma norm2_nil : norm2 [] = 0. Proof. reflexivity. Qed.
Lemma norm2_dot : forall v, norm2 v = dot v v.
Proof. induction v as [|x v IH]; [reflexivity|]. rewrite norm2_cons, IH. reflexivity. Qed.
Lemma norm2_ge0 : forall v, 0 <= norm2 v.
Proof. induction v as [|x v IH]; [rewrite norm2_nil; lra|]. rewrite norm2_cons. nra. Qed.
Lemma Rltb_true : forall a b, Rltb a b = true <-> a < b.
Proof. intros. unfold Rltb. destruct (Rlt_dec a b); split; auto; discriminate. Qed.
Lemma Rltb_false : forall a b, Rltb a b = false <-> b <= a.
Proof. intros. unfold Rltb. destruct (Rlt_dec a b); split; try discriminate; lra. Qed.
Lemma Rleb_true : forall a b, Rleb a b = true <-> a <= b.
Proof. intros. unfold Rleb. destruct (Rle_dec a b); split; auto; discriminate. Qed.

(** ** Specification. *)
(** The weighted sum of points, coordinate by coordinate. *)
Definition combo (b : list R) (ps : list vec) (k : nat) : R :=
  rsum (map (fun q => fst q * nth k (snd q) 0) (combine b ps)).
(** [c] is in the affine hull of the points [ps]. *)
Definition in_hull (dim : nat) (c : vec) (ps : list vec) : Prop :=
  exists b, length b = length ps /\ rsum b = 1 /\
    length c = dim /\ forall k, (k < dim)%nat -> nth k c 0 = combo b ps k.
Definition equidistant (c : vec) (ps : list vec) : Prop :=
  exists r2, forall p, In p ps -> norm2 (vsub c p) = r2.
(** [p0; p1; p2] are not on a line: the Gram determinant of the edges. *)
Definition tri_nondeg (p0 p1 p2 : vec) : Prop :=
  let u := vsub p1 p0 in let v := vsub p2 p0 in
  norm2 u * norm2 v - dot u v * dot u v <> 0.
(** [p0..p3] are not in a plane (three dimensions). *)
Definition tet_nondeg (p0 p1 p2 p3 : vec) : Prop :=
  det [vsub p1 p0; vsub p2 p0; vsub p3 p0] <> 0.

(** ** Weighted sums. *)
Fixpoint wsum3 (b0 b1 b2 : R) (p0 p1 p2 : vec) : vec :=
  match p0, p1, p2 with
  | x :: p0', y :: p1', z :: p2' => (b0 * x + b1 * y + b2 * z) :: wsum3 b0 b1 b2 p0' p1' p2'
  | _, _, _ => []
  end.
Lemma transform3 : forall b0 b1 b2 n p0 p1 p2, length p0 = n -> length p1 = n -> length p2 = n ->
  transform_bar n [b0; b1; b2] [p0; p1; p2] = wsum3 b0 b1 b2 p0 p1 p2.
Proof.
  intros b0 b1 b2. unfold transform_bar. simpl.
  induction n as [|n IH]; intros p0 p1 p2 L0 L1 L2;
    destruct p0, p1, p2; simpl in *; try discriminate; auto.
  rewrite IH by lia. f_equal. ring.
Qed.
Lemma wsum3_hull : forall b0 b1 b2 n p0 p1 p2, length p0 = n -> length p1 = n -> length p2 = n ->
  length (wsum3 b0 b1 b2 p0 p1 p2) = n /\
  forall k, (k < n)%nat -> nth k (wsum3 b0 b1 b2 p0 p1 p2) 0 = combo [b0; b1; b2] [p0; p1; p2] k.
Proof.
  intros b0 b1 b2; unfold combo; simpl.
  induction n as [|n IH]; intros p0 p1 p2 L0 L1 L2;
    destruct p0, p1, p2; simpl in *; try discriminate.
  - split; auto. intros; lia.
  - destruct (IH p0 p1 p2) as [L H]; try lia. split; [lia|].
    intros [|k] Hk; [ring|]. rewrite H by lia. ring.
Qed.
(** Distances of a weighted sum (weights with sum one) to the points. *)
Lemma wsum3_dist : forall b0 b1 b2 p0 p1 p2, b0 + b1 + b2 = 1 ->
  length p1 = length p0 -> length p2 = length p0 ->
  let a2 := norm2 (vsub p1 p2) in let d2 := norm2 (vsub p0 p2) in let c2 := norm2 (vsub p0 p1) in
  let m := b0 * b1 * c2 + b0 * b2 * d2 + b1 * b2 * a2 in
  let c := wsum3 b0 b1 b2 p0 p1 p2 in
  norm2 (vsub c p0) = b1 * c2 + b2 * d2 - m /\
  norm2 (vsub c p1) = b0 * c2 + b2 * a2 - m /\
  norm2 (vsub c p2) = b0 * d2 + b1 * a2 - m.
Proof.
  intros b0 b1 b2 p0 p1 p2 Hs. revert p1 p2.
  assert (E : b0 = 1 - b1 - b2) by lra. subst b0. clear Hs.
  induction p0 as [|x p0 IH]; intros [|y p1] [|z p2] L1 L2; simpl in L1, L2; try discriminate.
  - simpl. rewrite norm2_nil. repeat split; ring.
  - specialize (IH p1 p2 ltac:(lia) ltac:(lia)). cbv zeta in *. simpl.
    rewrite !norm2_cons. destruct IH as (I1 & I2 & I3). rewrite I1, I2, I3.
    repeat split; ring.
Qed.
Lemma tri_gram : forall p0 p1 p2, length p1 = length p0 -> length p2 = length p0 ->
  2 * dot (vsub p1 p0) (vsub p2 p0) = norm2 (vsub p0 p1) + norm2 (vsub p0 p2) - norm2 (vsub p1 p2) /\
  norm2 (vsub p1 p0) = norm2 (vsub p0 p1) /\ norm2 (vsub p2 p0) = norm2 (vsub p0 p2).
Proof.
  induction p0 as [|x p0 IH]; intros [|y p1] [|z p2] L1 L2; simpl in L1, L2; try discriminate.
  - simpl. rewrite norm2_nil. repeat split; ring.
  - destruct (IH p1 p2) as (I1 & I2 & I3); try lia. simpl.
    rewrite !norm2_cons, I2, I3. repeat split; try ring.
    rewrite Rmult_plus_distr_l, I1. ring.
Qed.
Lemma tri_bar_sum : forall p0 p1 p2, length p1 = length p0 -> length p2 = length p0 ->
  rsum (tri_bar p0 p1 p2)
  = 4 * (norm2 (vsub p1 p0) * norm2 (vsub p2 p0) - dot (vsub p1 p0) (vsub p2 p0) * dot (vsub p1 p0) (vsub p2 p0)).
Proof.
  intros p0 p1 p2 L1 L2. destruct (tri_gram p0 p1 p2 L1 L2) as (I1 & I2 & I3).
  rewrite I2, I3.
  assert (I1' : dot (vsub p1 p0) (vsub p2 p0) =
     (norm2 (vsub p0 p1) + norm2 (vsub p0 p2) - norm2 (vsub p1 p2)) / 2) by lra.
  rewrite I1'. unfold tri_bar, rsum. simpl. field.
Qed.

(** Four points. *)
Fixpoint wsum4 (b0 b1 b2 b3 : R) (p0 p1 p2 p3 : vec) : vec :=
  match p0, p1, p2, p3 with
  | x :: p0', y :: p1', z :: p2', w :: p3' =>
      (b0 * x + b1 * y + b2 * z + b3 * w) :: wsum4 b0 b1 b2 b3 p0' p1' p2' p3'
  | _, _, _, _ => []
  end.
Lemma transform4 : forall b0 b1 b2 b3 n p0 p1 p2 p3,
  length p0 = n -> length p1 = n -> length p2 = n -> length p3 = n ->
  transform_bar n [b0; b1; b2; b3] [p0; p1; p2; p3] = wsum4 b0 b1 b2 b3 p0 p1 p2 p3.
Proof.
  intros b0 b1 b2 b3. unfold transform_bar. simpl.
  induction n as [|n IH]; intros p0 p1 p2 p3 L0 L1 L2 L3;
    destruct p0, p1, p2, p3; simpl in *; try discriminate; auto.
  rewrite IH by lia. f_equal. ring.
Qed.
Lemma wsum4_hull : forall b0 b1 b2 b3 n p0 p1 p2 p3,
  length p0 = n -> length p1 = n -> length p2 = n -> length p3 = n ->
  length (wsum4 b0 b1 b2 b3 p0 p1 p2 p3) = n /\
  forall k, (k < n)%nat ->
    nth k (wsum4 b0 b1 b2 b3 p0 p1 p2 p3) 0 = combo [b0; b1; b2; b3] [p0; p1; p2; p3] k.
Proof.
  intros b0 b1 b2 b3; unfold combo; simpl.
  induction n as [|n IH]; intros p0 p1 p2 p3 L0 L1 L2 L3;
    destruct p0, p1, p2, p3; simpl in *; try discriminate.
  - split; auto. intros; lia.
  - destruct (IH p0 p1 p2 p3) as [L H]; try lia. split; [lia|].
    intros [|k] Hk; [ring|]. rewrite H by lia. ring.
Qed.
Lemma wsum4_dist : forall b0 b1 b2 b3 p0 p1 p2 p3, b0 + b1 + b2 + b3 = 1 ->
  length p1 = length p0 -> length p2 = length p0 -> length p3 = length p0 ->
  let a2 := norm2 (vsub p2 p1) in let d2 := norm2 (vsub p3 p0) in
  let e2 := norm2 (vsub p3 p1) in let f2 := norm2 (vsub p3 p2) in
  let g2 := norm2 (vsub p2 p0) in let c2 := norm2 (vsub p1 p0) in
  let m := b0 * b1 * c2 + b0 * b2 * g2 + b0 * b3 * d2 + b1 * b2 * a2 + b1 * b3 * e2 + b2 * b3 * f2 in
  let c := wsum4 b0 b1 b2 b3 p0 p1 p2 p3 in
  norm2 (vsub c p0) = b1 * c2 + b2 * g2 + b3 * d2 - m /\
  norm2 (vsub c p1) = b0 * c2 + b2 * a2 + b3 * e2 - m /\
  norm2 (vsub c p2) = b0 * g2 + b1 * a2 + b3 * f2 - m /\
  norm2 (vsub c p3) = b0 * d2 + b1 * e2 + b2 * f2 - m.
Proof.
  intros b0 b1 b2 b3 p0 p1 p2 p3 Hs. revert p1 p2 p3.
  assert (E : b0 = 1 - b1 - b2 - b3) by lra. subst b0. clear Hs.
  induction p0 as [|x p0 IH]; intros [|y p1] [|z p2] [|w p3] L1 L2 L3; simpl in L1, L2, L3; try discriminate.
  - simpl. rewrite norm2_nil. repeat split; ring.
  - specialize (IH p1 p2 p3 ltac:(lia) ltac:(lia) ltac:(lia)). cbv zeta in *. simpl.
    rewrite !norm2_cons. destruct IH as (I1 & I2 & I3 & I4). rewrite I1, I2, I3, I4.
    repeat split; ring.
Qed.
Lemma vec3_ex : forall v : vec, length v = 3%nat -> exists x y z, v = [x; y; z].
Proof.
  intros [|x [|y [|z [|? ?]]]] H; try discriminate. eauto.
Qed.
Lemma tet_bar_sum : forall p0 p1 p2 p3, length p0 = 3%nat -> length p1 = 3%nat ->
  length p2 = 3%nat -> length p3 = 3%nat ->
  rsum (tet_bar p0 p1 p2 p3) = 8 * det [vsub p1 p0; vsub p2 p0; vsub p3 p0] ^ 2.
Proof.
  intros p0 p1 p2 p3 L0 L1 L2 L3.
  destruct (vec3_ex p0 L0) as (x0 & y0 & z0 & ->). destruct (vec3_ex p1 L1) as (x1 & y1 & z1 & ->).
  destruct (vec3_ex p2 L2) as (x2 & y2 & z2 & ->). destruct (vec3_ex p3 L3) as (x3 & y3 & z3 & ->).
  unfold tet_bar, det, elt, rsum. simpl. rewrite !norm2_cons, !norm2_nil.
  (* relative coordinates *)
  remember (x1 - x0) as u0. remember (y1 - y0) as u1. remember (z1 - z0) as u2.
  remember (x2 - x0) as v0. remember (y2 - y0) as v1. remember (z2 - z0) as v2.
  remember (x3 - x0) as w0. remember (y3 - y0) as w1. remember (z3 - z0) as w2.
  replace (x2 - x1) with (v0 - u0) by lra. replace (y2 - y1) with (v1 - u1) by lra.
  replace (z2 - z1) with (v2 - u2) by lra. replace (x3 - x1) with (w0 - u0) by lra.
  replace (y3 - y1) with (w1 - u1) by lra. replace (z3 - z1) with (w2 - u2) by lra.
  replace (x3 - x2) with (w0 - v0) by lra. replace (y3 - y2) with (w1 - v1) by lra.
  replace (z3 - z2) with (w2 - v2) by lra.
  clear. ring.
Qed.

Lemma norm_bar3 : forall b0 b1 b2, b0 + b1 + b2 <> 0 ->
  normalize_bar [b0; b1; b2] = [b0 / (b0 + b1 + b2); b1 / (b0 + b1 + b2); b2 / (b0 + b1 + b2)].
Proof.
  intros b0 b1 b2 H. unfold normalize_bar, rsum. simpl.
  replace (b0 + (b1 + (b2 + 0))) with (b0 + b1 + b2) by ring. auto.
Qed.
Lemma norm_bar4 : forall b0 b1 b2 b3, b0 + b1 + b2 + b3 <> 0 -> let s := b0 + b1 + b2 + b3 in
  normalize_bar [b0; b1; b2; b3] = [b0 / s; b1 / s; b2 / s; b3 / s].
Proof.
  intros b0 b1 b2 b3 H. unfold normalize_bar, rsum. simpl.
  replace (b0 + (b1 + (b2 + (b3 + 0)))) with (b0 + b1 + b2 + b3) by ring. auto.
Qed.

(** ** C76: circumcentres. *)
Theorem C76_triangle : forall dim p0 p1 p2, (2 <= dim <= 3)%nat ->
  length p0 = dim -> length p1 = dim -> length p2 = dim -> tri_nondeg p0 p1 p2 ->
  exists c, circumcentre dim [p0; p1; p2] None = Some c /\
    in_hull dim c [p0; p1; p2] /\ equidistant c [p0; p1; p2].
Proof.
  intros dim p0 p1 p2 Hd L0 L1 L2 ND.
  pose proof (tri_bar_sum p0 p1 p2 ltac:(lia) ltac:(lia)) as S.
  assert (E : circumcentre dim [p0; p1; p2] None
              = Some (transform_bar dim (normalize_bar (tri_bar p0 p1 p2)) [p0; p1; p2])).
  { unfold circumcentre. destruct dim as [|[|[|[|dim]]]]; try lia; reflexivity. }
  rewrite E. eexists. split; [reflexivity|].
  destruct (tri_bar p0 p1 p2) as [|t0 [|t1 [|t2 [|]]]] eqn:ET; try discriminate.
  assert (Hs : t0 + t1 + t2 <> 0).
  { unfold rsum in S; simpl in S. intros F. apply ND. cbv zeta. lra. }
  rewrite norm_bar3, transform3 by auto. set (s := t0 + t1 + t2) in *.
  assert (H1 : t0 / s + t1 / s + t2 / s = 1) by (unfold s; field; exact Hs).
  split.
  - exists [t0 / s; t1 / s; t2 / s]. split; [reflexivity|]. split; [simpl; lra|].
    apply wsum3_hull; auto.
  - destruct (@wsum3_dist (t0 / s) (t1 / s) (t2 / s) p0 p1 p2 H1) as (D0 & D1 & D2); try lia.
    unfold tri_bar in ET.
    set (a2 := norm2 (vsub p1 p2)) in *. set (b2 := norm2 (vsub p0 p2)) in *.
    set (c2 := norm2 (vsub p0 p1)) in *. cbv zeta in *.
    injection ET as T0 T1 T2.
    exists (norm2 (vsub (wsum3 (t0 / s) (t1 / s) (t2 / s) p0 p1 p2) p0)).
    assert (Q1 : t1 / s * c2 + t2 / s * b2 = t0 / s * c2 + t2 / s * a2).
    { apply (Rmult_eq_reg_l s); auto. 
      replace (s * (t1 / s * c2 + t2 / s * b2)) with (t1 * c2 + t2 * b2) by (field; auto).
      replace (s * (t0 / s * c2 + t2 / s * a2)) with (t0 * c2 + t2 * a2) by (field; auto).
      rewrite <- T0, <- T1, <- T2. ring. }
    assert (Q2 : t1 / s * c2 + t2 / s * b2 = t0 / s * b2 + t1 / s * a2).
    { apply (Rmult_eq_reg_l s); auto. 
      replace (s * (t1 / s * c2 + t2 / s * b2)) with (t1 * c2 + t2 * b2) by (field; auto).
      replace (s * (t0 / s * b2 + t1 / s * a2)) with (t0 * b2 + t1 * a2) by (field; auto).
      rewrite <- T0, <- T1, <- T2. ring. }
    intros p [<-|[<-|[<-|[]]]]; auto.
    + rewrite D0, D1. lra.
    + rewrite D0, D2. lra.
Qed.

Theorem C76_tetrahedron : forall p0 p1 p2 p3,
  length p0 = 3%nat -> length p1 = 3%nat -> length p2 = 3%nat -> length p3 = 3%nat ->
  tet_nondeg p0 p1 p2 p3 ->
  exists c, circumcentre 3 [p0; p1; p2; p3] None = Some c /\
    in_hull 3 c [p0; p1; p2; p3] /\ equidistant c [p0; p1; p2; p3].
Proof.
  intros p0 p1 p2 p3 L0 L1 L2 L3 ND.
  pose proof (tet_bar_sum p0 p1 p2 p3 L0 L1 L2 L3) as S.
  change (circumcentre 3 [p0; p1; p2; p3] None)
    with (Some (transform_bar 3 (normalize_bar (tet_bar p0 p1 p2 p3)) [p0; p1; p2; p3])).
  eexists. split; [reflexivity|].
  destruct (tet_bar p0 p1 p2 p3) as [|t0 [|t1 [|t2 [|t3 [|]]]]] eqn:ET; try discriminate.
  assert (Hs : t0 + t1 + t2 + t3 <> 0).
  { unfold rsum in S; simpl fold_right in S. intros F. unfold tet_nondeg in ND.
    set (d := det _) in *. apply ND. clearbody d. nra. }
  rewrite norm_bar4, transform4 by auto. set (s := t0 + t1 + t2 + t3) in *.
  assert (H1 : t0 / s + t1 / s + t2 / s + t3 / s = 1) by (unfold s; field; exact Hs).
  split.
  - exists [t0 / s; t1 / s; t2 / s; t3 / s]. split; [reflexivity|]. split; [simpl; lra|].
    apply wsum4_hull; auto.
  - destruct (@wsum4_dist (t0 / s) (t1 / s) (t2 / s) (t3 / s) p0 p1 p2 p3 H1) as (D0 & D1 & D2 & D3); try lia.
    unfold tet_bar in ET.
    set (a2 := norm2 (vsub p2 p1)) in *. set (b2 := norm2 (vsub p2 p0)) in *.
    set (c2 := norm2 (vsub p1 p0)) in *. set (d2 := norm2 (vsub p3 p0)) in *.
    set (e2 := norm2 (vsub p3 p1)) in *. set (f2 := norm2 (vsub p3 p2)) in *. cbv zeta in *.
    injection ET as T0 T1 T2 T3.
    exists (norm2 (vsub (wsum4 (t0 / s) (t1 / s) (t2 / s) (t3 / s) p0 p1 p2 p3) p0)).
    assert (Q1 : t1 / s * c2 + t2 / s * b2 + t3 / s * d2 = t0 / s * c2 + t2 / s * a2 + t3 / s * e2).
    { apply (Rmult_eq_reg_l s); auto. 
      replace (s * (t1 / s * c2 + t2 / s * b2 + t3 / s * d2)) with (t1 * c2 + t2 * b2 + t3 * d2) by (field; auto).
      replace (s * (t0 / s * c2 + t2 / s * a2 + t3 / s * e2)) with (t0 * c2 + t2 * a2 + t3 * e2) by (field; auto).
      rewrite <- T0, <- T1, <- T2, <- T3. ring. }
    assert (Q2 : t1 / s * c2 + t2 / s * b2 + t3 / s * d2 = t0 / s * b2 + t1 / s * a2 + t3 / s * f2).
    { apply (Rmult_eq_reg_l s); auto. 
      replace (s * (t1 / s * c2 + t2 / s * b2 + t3 / s * d2)) with (t1 * c2 + t2 * b2 + t3 * d2) by (field; auto).
      replace (s * (t0 / s * b2 + t1 / s * a2 + t3 / s * f2)) with (t0 * b2 + t1 * a2 + t3 * f2) by (field; auto).
      rewrite <- T0, <- T1, <- T2, <- T3. ring. }
    assert (Q3 : t1 / s * c2 + t2 / s * b2 + t3 / s * d2 = t0 / s * d2 + t1 / s * e2 + t2 / s * f2).
    { apply (Rmult_eq_reg_l s); auto. 
      replace (s * (t1 / s * c2 + t2 / s * b2 + t3 / s * d2)) with (t1 * c2 + t2 * b2 + t3 * d2) by (field; auto).
      replace (s * (t0 / s * d2 + t1 / s * e2 + t2 / s * f2)) with (t0 * d2 + t1 * e2 + t2 * f2) by (field; auto).
      rewrite <- T0, <- T1, <- T2, <- T3. ring. }
    intros p [<-|[<-|[<-|[<-|[]]]]]; auto.
    + rewrite D0, D1. lra.
    + rewrite D0, D2. lra.
    + rewrite D0, D3. lra.
Qed.

Theorem C76_edge : forall dim p q, (1 <= dim <= 3)%nat -> length p = dim -> length q = dim ->
  forall feps, exists c, circumcentre dim [p; q] feps = Some c /\
    in_hull dim c [p; q] /\ equidistant c [p; q].
Proof.
  intros dim p q Hd Lp Lq feps.
  assert (E : circumcentre dim [p; q] feps = Some (map (fun x => 1 / 2 * x) (vadd p q))).
  { unfold circumcentre. destruct dim as [|[|[|[|dim]]]]; try lia; reflexivity. }
  rewrite E. eexists; split; [reflexivity|]. clear E Hd.
  split.
  - exists [1 / 2; 1 / 2]. split; [reflexivity|]. split; [simpl; lra|]. subst dim.
    revert q Lq. unfold combo. simpl.
    induction p as [|x p IH]; intros [|y q] L; simpl in *; try discriminate.
    + split; auto. intros; lia.
    + destruct (IH q ltac:(lia)) as [I1 I2]. split; [lia|]. intros [|k] Hk; [lra|].
      rewrite I2 by lia. reflexivity.
  - exists (norm2 (vsub (map (fun x => 1 / 2 * x) (vadd p q)) p)).
    intros r [<-|[<-|[]]]; auto. subst dim. revert q Lq.
    induction p as [|x p IH]; intros [|y q] L; simpl in *; try discriminate; auto.
    rewrite !norm2_cons, IH by lia. f_equal. lra.
Qed.

(** Moving the centre inside: all barycentric coordinates are at least the
    (limited) distance, their sum is kept, and centres that are already inside
    do not move. *)
Lemma fold_Rmin_le : forall l a, (forall x, In x (a :: l) -> fold_left Rmin l a <= x) /\
  In (fold_left Rmin l a) (a :: l).
Proof.
  induction l as [|y l IH]; intros a; simpl.
  - split; [intros x [<-|[]]; lra|auto].
  - destruct (IH (Rmin a y)) as [I1 I2]. simpl in I1, I2. split.
    + pose proof (I1 (Rmin a y) (or_introl eq_refl)) as M.
      pose proof (Rmin_l a y). pose proof (Rmin_r a y).
      intros x [<-|[<-|Hx]]; [lra|lra|apply I1; auto].
    + destruct I2 as [I2|I2]; auto. rewrite <- I2.
      destruct (Rle_dec a y); [left; symmetry; apply Rmin_left|right; left; symmetry; apply Rmin_right]; lra.
Qed.
Lemma lmin_spec : forall l, l <> [] -> In (lmin l) l /\ forall x, In x l -> lmin l <= x.
Proof.
  intros [|a l] H; [congruence|]. destruct (fold_Rmin_le l a) as [I1 I2]. split; auto.
Qed.
Lemma rsum_affine : forall l a b, rsum (map (fun x => a * x + b) l) = a * rsum l + INR (length l) * b.
Proof.
  induction l as [|x l IH]; intros a b.
  - simpl. ring.
  - change (length (x :: l)) with (S (length l)). rewrite S_INR. simpl. rewrite IH. ring.
Qed.
Theorem C76_force_inside : forall eps bar, bar <> [] -> rsum bar = 1 ->
  let r := force_inside eps bar in
  let lim := Rmin eps (9 / 10 * (1 / INR (length bar))) in
  length r = length bar /\ rsum r = 1 /\ (forall x, In x r -> lim <= x) /\
  ((forall x, In x bar -> lim <= x) -> r = bar) /\
  ((exists x, In x bar /\ x < lim) -> exists x, In x r /\ x = lim).
Proof.
  intros eps bar Hne Hsum r lim.
  assert (Hn : 0 < INR (length bar)).
  { destruct bar; [congruence|]. apply lt_0_INR. simpl; lia. }
  set (bc := 1 / INR (length bar)) in *.
  assert (Hbc : INR (length bar) * bc = 1) by (unfold bc; field; lra).
  assert (Hbc0 : 0 < bc) by (unfold bc; apply Rdiv_lt_0_compat; lra).
  assert (El : (if Rltb (9 / 10 * bc) eps then 9 / 10 * bc else eps) = lim).
  { unfold lim. destruct (Rltb (9 / 10 * bc) eps) eqn:E.
    - apply Rltb_true in E. rewrite Rmin_right; lra.
    - apply Rltb_false in E. rewrite Rmin_left; lra. }
  unfold r, force_inside. fold bc. rewrite El.
  assert (Hlim : lim < bc) by (unfold lim; pose proof (Rmin_r eps (9 / 10 * bc)); lra).
  destruct (@lmin_spec bar Hne) as [Hm1 Hm2]. set (mb := lmin bar) in *.
  destruct (Rltb mb lim) eqn:E.
  - apply Rltb_true in E. set (al := (lim - mb) / (bc - mb)).
    assert (Hd : bc - mb > 0) by lra.
    assert (Ha : al * (bc - mb) = lim - mb) by (unfold al; field; lra).
    assert (Ha1 : 0 < al < 1).
    { unfold al. split; [apply Rdiv_lt_0_compat; lra|].
      apply (Rmult_lt_reg_r (bc - mb)); auto. fold al. rewrite Ha. lra. }
    split; [apply map_length|]. split; [|split; [|split]].
    + rewrite rsum_affine, Hsum. 
      replace (INR (length bar) * (al * bc)) with (al * (INR (length bar) * bc)) by ring.
      rewrite Hbc. ring.
    + intros x Hx. apply in_map_iff in Hx. destruct Hx as [b [<- Hb]].
      specialize (Hm2 b Hb). nra.
    + intros H. specialize (H mb Hm1). lra.
    + intros _. exists ((1 - al) * mb + al * bc). split; [|nra].
      apply in_map_iff. exists mb; auto.
  - apply Rltb_false in E. split; auto. split; auto. split; [|split; auto].
    + intros x Hx. specialize (Hm2 x Hx). lra.
    + intros [x [Hx Hl]]. specialize (Hm2 x Hx). lra.
Qed.

(** Witnesses. *)
Example C76_ex : tri_nondeg [0; 0] [2; 0] [0; 2] /\
  exists c, circumcentre 2 [[0; 0]; [2; 0]; [0; 2]] None = Some c /\ c = [1; 1].
Proof.
  split.
  - unfold tri_nondeg. simpl. rewrite !norm2_cons, !norm2_nil. lra.
  - eexists; split; [reflexivity|]. simpl. unfold normalize_bar, tri_bar. simpl.
    rewrite !norm2_cons, !norm2_nil. unfold transform_bar, rsum. simpl.
    f_equal; [field|f_equal; field].
Qed.
Example C76_ex_tet : tet_nondeg [0; 0; 0] [1; 0; 0] [0; 1; 0] [0; 0; 1].
Proof. unfold tet_nondeg, det, elt. simpl. lra. Qed.
