(** C78-C81: small matrices, simplices, perpendicular vectors, face areas and the
    selection of points in balls and tubes. *)
From Coq Require Import Reals List Bool Lra Lia.
From Verif Require Import M_geom P_geom.
Import ListNotations.
Set Implicit Arguments.
Local Open Scope R_scope.

(** ** C78: inverses, volumes, points in simplices. *)
(** Specification: the product of matrices given by rows; the identity. *)
Definition is_square (n : nat) (a : list vec) : Prop :=
  length a = n /\ forall r, In r a -> length r = n.
Definition mat_mult (n : nat) (a b : list vec) : list vec :=
  map (fun i => map (fun j => rsum (map (fun k => elt a i k * elt b k j) (seq 0 n))) (seq 0 n)) (seq 0 n).
Definition identity (n : nat) : list vec :=
  map (fun i => map (fun j => if Nat.eqb i j then 1 else 0) (seq 0 n)) (seq 0 n).

Ltac rows :=
  repeat match goal with
  | H : length ?l = S _ |- _ => destruct l; simpl in H; [discriminate|apply Nat.succ_inj in H]
  | H : length ?l = 0%nat |- _ => destruct l; [clear H|discriminate]
  end.
Lemma square_1 : forall a, is_square 1 a -> exists x, a = [[x]].
Proof.
  intros a [L H]. destruct a as [|r [|]]; try discriminate.
  assert (Lr := H r (or_introl eq_refl)). destruct r as [|x [|]]; try discriminate. eauto.
Qed.
Lemma len2 : forall (r : vec), length r = 2%nat -> exists x y, r = [x; y].
Proof. intros [|x [|y [|]]] L; try discriminate; eauto. Qed.
Lemma len3 : forall (r : vec), length r = 3%nat -> exists x y z, r = [x; y; z].
Proof. intros [|x [|y [|z [|]]]] L; try discriminate; eauto. Qed.
Lemma square_2 : forall a, is_square 2 a -> exists x y z w, a = [[x; y]; [z; w]].
Proof.
  intros a [L H]. destruct a as [|r [|q [|]]]; try discriminate.
  destruct (len2 _ (H r ltac:(simpl; auto))) as (x & y & ->).
  destruct (len2 _ (H q ltac:(simpl; auto))) as (z & w & ->). eauto.
Qed.
Lemma square_3 : forall a, is_square 3 a ->
  exists x y z u v w p q r, a = [[x; y; z]; [u; v; w]; [p; q; r]].
Proof.
  intros a [L H]. destruct a as [|r1 [|r2 [|r3 [|]]]]; try discriminate.
  destruct (len3 _ (H r1 ltac:(simpl; auto))) as (x & y & z & ->).
  destruct (len3 _ (H r2 ltac:(simpl; auto))) as (u & v & w & ->).
  destruct (len3 _ (H r3 ltac:(simpl; auto))) as (p & q & r & ->).
  exists x, y, z, u, v, w, p, q, r. reflexivity.
Qed.
Theorem C78_inverse : forall n a, (1 <= n <= 3)%nat -> is_square n a -> det a <> 0 ->
  exists b, inv_fast a (det a) = Some b /\ is_square n b /\
    mat_mult n a b = identity n /\ mat_mult n b a = identity n.
Proof.
  intros n a Hn Ha Hd. destruct n as [|[|[|[|n]]]]; try lia.
  - destruct (square_1 Ha) as (x & ->). unfold det, elt in Hd; simpl in Hd.
    eexists. split; [reflexivity|]. split; [split; [reflexivity|intros r [<-|[]]; reflexivity]|].
    unfold mat_mult, identity, elt, det; simpl. unfold elt; simpl.
    split; do 2 f_equal; field; exact Hd.
  - destruct (square_2 Ha) as (x & y & z & w & ->). unfold det, elt in Hd; simpl in Hd.
    eexists. split; [reflexivity|]. split.
    { split; [reflexivity|]. intros r [<-|[<-|[]]]; reflexivity. }
    unfold mat_mult, identity, elt, det; simpl. unfold elt; simpl.
    split; repeat (apply f_equal2); try reflexivity; field; exact Hd.
  - destruct (square_3 Ha) as (x & y & z & u & v & w & p & q & r & ->). unfold det, elt in Hd; simpl in Hd.
    eexists. split; [reflexivity|]. split.
    { split; [reflexivity|]. intros s [<-|[<-|[<-|[]]]]; reflexivity. }
    unfold mat_mult, identity, elt, det; simpl. unfold elt; simpl.
    split; repeat (apply f_equal2); try reflexivity; field; exact Hd.
Qed.
Theorem C78_inverse_unsupported : forall a d, (4 <= length a)%nat -> inv_fast a d = None.
Proof.
  intros a d H. unfold inv_fast. destruct a as [|r1 [|r2 [|r3 [|r4 a]]]]; simpl in *; try lia; reflexivity.
Qed.

(** Volumes: the volume of the reference simplex is 1/dim!, and an affine map
    multiplies the volume of a simplex by its determinant. *)
Definition affine (m : list vec) (t : vec) (p : vec) : vec := vadd (mvec m p) t.
Theorem C78_volume : forall dim p m t, (1 <= dim <= 3)%nat -> length p = S dim ->
  (forall q, In q p -> length q = dim) -> is_square dim m -> length t = dim ->
  simplex_volume dim (map (affine m t) p) = det m * simplex_volume dim p.
Proof.
  intros dim p m t Hd Lp Lq Hm Lt. destruct dim as [|[|[|[|dim]]]]; try lia.
  - destruct (square_1 Hm) as (x & ->).
    destruct p as [|p0 [|p1 [|]]]; try discriminate.
    assert (L0 := Lq p0 ltac:(simpl; auto)). assert (L1 := Lq p1 ltac:(simpl; auto)).
    destruct p0 as [|a [|]], p1 as [|b [|]], t as [|c [|]]; try discriminate.
    unfold simplex_volume, det, elt; simpl. field.
  - destruct (square_2 Hm) as (x & y & z & w & ->).
    destruct p as [|p0 [|p1 [|p2 [|]]]]; try discriminate.
    destruct (len2 _ (Lq p0 ltac:(simpl; auto))) as (? & ? & ->).
    destruct (len2 _ (Lq p1 ltac:(simpl; auto))) as (? & ? & ->).
    destruct (len2 _ (Lq p2 ltac:(simpl; auto))) as (? & ? & ->).
    destruct (len2 _ Lt) as (? & ? & ->).
    unfold simplex_volume, det, elt; simpl. field.
  - destruct (square_3 Hm) as (x & y & z & u & v & w & pp & q & r & ->).
    destruct p as [|p0 [|p1 [|p2 [|p3 [|]]]]]; try discriminate.
    destruct (len3 _ (Lq p0 ltac:(simpl; auto))) as (? & ? & ? & ->).
    destruct (len3 _ (Lq p1 ltac:(simpl; auto))) as (? & ? & ? & ->).
    destruct (len3 _ (Lq p2 ltac:(simpl; auto))) as (? & ? & ? & ->).
    destruct (len3 _ (Lq p3 ltac:(simpl; auto))) as (? & ? & ? & ->).
    destruct (len3 _ Lt) as (? & ? & ? & ->).
    unfold simplex_volume, det, elt; simpl. field.
Qed.
Theorem C78_volume_reference :
  simplex_volume 1 [[0]; [1]] = 1 /\ simplex_volume 2 [[0; 0]; [1; 0]; [0; 1]] = 1 / 2 /\
  simplex_volume 3 [[0; 0; 0]; [1; 0; 0]; [0; 1; 0]; [0; 0; 1]] = 1 / 6.
Proof. unfold simplex_volume, det, elt; simpl. repeat split; field. Qed.

(** Points in simplices.  Specification: [x] is a convex combination. *)
Definition in_convex_hull (x : vec) (s : list vec) : Prop :=
  exists w, length w = length s /\ (forall b, In b w -> 0 <= b) /\ rsum w = 1 /\
    forall k, (k < length x)%nat -> combo w s k = nth k x 0.
(** A simplex is nondegenerate when the barycentric coordinates are unique. *)
Definition nondegenerate (dim : nat) (s : list vec) : Prop :=
  forall w w', length w = length s -> length w' = length s -> rsum w = rsum w' ->
    (forall k, (k < dim)%nat -> combo w s k = combo w' s k) -> w = w'.
Lemma in_rsum_le : forall w b, (forall c, In c w -> 0 <= c) -> In b w -> b <= rsum w.
Proof.
  induction w as [|c w IH]; intros b Hp Hb; [destruct Hb|].
  assert (0 <= rsum w).
  { clear IH Hb. assert (forall c, In c w -> 0 <= c) by (intros; apply Hp; simpl; auto).
    clear Hp. induction w as [|d w IHw]; simpl; [lra|].
    pose proof (H d (or_introl eq_refl)). assert (0 <= rsum w) by (apply IHw; intros; apply H; simpl; auto).
    unfold rsum in *. lra. }
  destruct Hb as [->|Hb]; simpl; unfold rsum in *.
  - lra.
  - pose proof (IH b ltac:(intros; apply Hp; simpl; auto) Hb). pose proof (Hp c (or_introl eq_refl)). lra.
Qed.
Theorem C78_points_in_simplex : forall s x bc, nondegenerate (length x) s ->
  solves_barycentric bc x s ->
  (forall eps, 0 < eps -> in_convex_hull x s -> in_simplex_flag eps bc = true) /\
  ((forall eps, 0 < eps -> in_simplex_flag eps bc = true) -> in_convex_hull x s).
Proof.
  intros s x bc Hnd [Lb [Hb Hs]]. split.
  - intros eps He [w [Lw [Hp [Hw Hc]]]].
    assert (w = bc).
    { apply Hnd; auto; [congruence|]. intros k Hk. rewrite (Hc k Hk). symmetry. apply Hb; auto. }
    subst w. unfold in_simplex_flag. apply forallb_forall. intros b Hin.
    pose proof (Hp b Hin). pose proof (@in_rsum_le bc b Hp Hin).
    apply andb_true_iff. split; apply Rltb_true; lra.
  - intros H. exists bc. split; [auto|]. split; [|split; auto].
    intros b Hin. destruct (Rle_lt_dec 0 b) as [|Hneg]; auto. exfalso.
    specialize (H (- b) ltac:(lra)). unfold in_simplex_flag in H.
    rewrite forallb_forall in H. specialize (H b Hin). apply andb_true_iff in H.
    destruct H as [H _]. apply Rltb_true in H. lra.
Qed.
(** The flag with a tolerance, exactly. *)
Theorem C78_tolerance : forall eps bc, in_simplex_flag eps bc = true <->
  forall b, In b bc -> - eps < b < 1 + eps.
Proof.
  intros. unfold in_simplex_flag. rewrite forallb_forall. split; intros H b Hb; specialize (H b Hb).
  - apply andb_true_iff in H. rewrite !Rltb_true in H. exact H.
  - apply andb_true_iff. rewrite !Rltb_true. exact H.
Qed.

(** ** C79: normalised and perpendicular vectors. *)
Lemma norm_sq : forall v, norm v * norm v = norm2 v.
Proof. intros. unfold norm. apply sqrt_sqrt, norm2_ge0. Qed.
Lemma norm_ge0 : forall v, 0 <= norm v.
Proof. intros. unfold norm. apply sqrt_pos. Qed.
Lemma norm2_div : forall v c, c <> 0 -> norm2 (map (fun x => x / c) v) = norm2 v / (c * c).
Proof.
  induction v as [|x v IH]; intros c Hc; simpl; [rewrite norm2_nil; field; auto|].
  rewrite !norm2_cons, IH by auto. field. auto.
Qed.
Lemma norm_unit : forall v, norm v <> 0 -> norm2 (map (fun x => x / norm v) v) = 1.
Proof. intros v H. rewrite norm2_div by auto. rewrite <- norm_sq. field. auto. Qed.
Lemma norm2_zero : forall v, norm2 v = 0 <-> forall x, In x v -> x = 0.
Proof.
  induction v as [|x v IH]; [split; [intros _ ? []|reflexivity]|].
  rewrite norm2_cons. pose proof (norm2_ge0 v). split.
  - intros H0. assert (Hx : x * x = 0) by nra. assert (norm2 v = 0) by nra.
    intros y [->|Hy]; [nra|]. apply IH; auto.
  - intros H0. rewrite (H0 x) by (simpl; auto). assert (norm2 v = 0) by (apply IH; intros; apply H0; simpl; auto). lra.
Qed.
Lemma norm_zero : forall v, norm v = 0 <-> norm2 v = 0.
Proof.
  intros. split; intros H; [rewrite <- norm_sq, H; ring|]. unfold norm. rewrite H. apply sqrt_0.
Qed.
(** [normalize_vectors]: the vectors above the tolerance become unit vectors of the
    same direction, the other ones are kept; with a nonnegative tolerance a second
    application changes nothing but vectors whose length is one already. *)
Theorem C79_normalize : forall eps v, 0 <= eps ->
  (eps < norm v -> norm (normalize_vector eps v) = 1 /\ vscale (norm v) (normalize_vector eps v) = v) /\
  (norm v <= eps -> normalize_vector eps v = v) /\
  normalize_vector eps (normalize_vector eps v) = normalize_vector eps v.
Proof.
  intros eps v He. unfold normalize_vector at 1 2 3 5 6.
  assert (U : eps < norm v -> norm (map (fun x => x / norm v) v) = 1).
  { intros H. unfold norm at 1. rewrite norm_unit by lra. apply sqrt_1. }
  destruct (Rltb eps (norm v)) eqn:E.
  - apply Rltb_true in E. split; [|split].
    + intros _. split; [auto|]. unfold vscale. rewrite map_map.
      transitivity (map (fun x : R => x) v); [|apply map_id].
      apply map_ext. intros. field. lra.
    + lra.
    + unfold normalize_vector. rewrite (U E).
      destruct (Rltb eps 1); [|reflexivity].
      transitivity (map (fun x : R => x) (map (fun x => x / norm v) v)); [|apply map_id].
      apply map_ext. intros. field.
  - apply Rltb_false in E. split; [lra|]. split; auto.
    unfold normalize_vector. assert (Rltb eps (norm v) = false) as -> by (apply Rltb_false; auto). reflexivity.
Qed.
Lemma rltb_case : forall a b, {a < b /\ Rltb a b = true} + {b <= a /\ Rltb a b = false}.
Proof.
  intros. destruct (Rltb a b) eqn:E; [left|right]; split; auto.
  - apply Rltb_true; auto.
  - apply Rltb_false; auto.
Qed.
Theorem C79_perpendiculars_2d : forall v, length v = 2%nat -> norm v <> 0 ->
  exists u w, get_perpendiculars2 v = Some (u, w) /\ length w = 2%nat /\ norm w = 1 /\ dot w v = 0.
Proof.
  intros v L Hv. destruct (len2 v L) as (a & b & ->).
  unfold get_perpendiculars2. cbn [map].
  eexists; eexists; split; [reflexivity|]. split; [reflexivity|]. split.
  - unfold norm at 1.
    match goal with |- sqrt ?e = 1 => assert (E : e = 1) end.
    { pose proof (norm_unit [a; b] Hv) as U. cbn [map] in U. rewrite !norm2_cons, norm2_nil in *. lra. }
    rewrite E. apply sqrt_1.
  - simpl. field. auto.
Qed.
Lemma norm2_3 : forall a b c, norm2 [a; b; c] = a * a + b * b + c * c.
Proof. intros. rewrite !norm2_cons, norm2_nil. ring. Qed.
Theorem C79_perpendiculars_3d : forall v, length v = 3%nat -> norm v <> 0 ->
  let '(_, v1, v2) := get_perpendiculars3 v in
  length v1 = 3%nat /\ length v2 = 3%nat /\
  norm v1 = 1 /\ norm v2 = 1 /\ dot v1 v = 0 /\ dot v2 v = 0 /\ dot v1 v2 = 0.
Proof.
  intros v L Hv. pose proof (norm_unit v Hv) as U.
  unfold get_perpendiculars3.
  assert (Huv : v = vscale (norm v) (map (fun x => x / norm v) v)).
  { unfold vscale. rewrite map_map. transitivity (map (fun x : R => x) v); [symmetry; apply map_id|].
    apply map_ext. intros. field. auto. }
  set (u := map (fun x => x / norm v) v) in *.
  assert (Lu : length u = 3%nat) by (unfold u; rewrite map_length; auto).
  destruct (len3 u Lu) as (a & b & c & Eu). rewrite Eu in *.
  rewrite norm2_3 in U.
  set (w := if Rltb (norm (cross [a; b; c] [0; 0; 1])) (1 / 10)
            then cross [a; b; c] [0; 1; 0] else cross [a; b; c] [0; 0; 1]).
  assert (Hw : exists x y z, w = [x; y; z] /\ a * x + b * y + c * z = 0 /\ x * x + y * y + z * z <> 0).
  { unfold w. destruct (rltb_case (norm (cross [a; b; c] [0; 0; 1])) (1 / 10)) as [[H ->]|[H ->]].
    - exists (b * 0 - c * 1), (c * 0 - a * 0), (a * 1 - b * 0). split; [reflexivity|].
      split; [ring|].
      assert (N2 : norm2 (cross [a; b; c] [0; 0; 1]) < 1 / 100).
      { rewrite <- norm_sq. pose proof (norm_ge0 (cross [a; b; c] [0; 0; 1])). nra. }
      simpl cross in N2. rewrite norm2_3 in N2. nra.
    - exists (b * 1 - c * 0), (c * 0 - a * 1), (a * 0 - b * 0). split; [reflexivity|].
      split; [ring|].
      assert (N2 : 1 / 100 <= norm2 (cross [a; b; c] [0; 0; 1])).
      { rewrite <- norm_sq. nra. }
      simpl cross in N2. rewrite norm2_3 in N2. nra. }
  destruct Hw as (x & y & z & -> & Hp & Hn).
  assert (Hnw : norm [x; y; z] <> 0) by (rewrite norm_zero, norm2_3; auto).
  pose proof (norm_unit _ Hnw) as U1. cbn [map] in *.
  set (n1 := norm [x; y; z]) in *.
  rewrite norm2_3 in U1.
  assert (Hp1 : a * (x / n1) + b * (y / n1) + c * (z / n1) = 0).
  { replace (a * (x / n1) + b * (y / n1) + c * (z / n1)) with ((a * x + b * y + c * z) / n1) by (field; auto).
    rewrite Hp. field. auto. }
  set (x1 := x / n1) in *. set (y1 := y / n1) in *. set (z1 := z / n1) in *.
  cbn [cross].
  assert (N2 : norm2 [b * z1 - c * y1; c * x1 - a * z1; a * y1 - b * x1] = 1).
  { rewrite norm2_3.
    transitivity ((a * a + b * b + c * c) * (x1 * x1 + y1 * y1 + z1 * z1)
                  - (a * x1 + b * y1 + c * z1) * (a * x1 + b * y1 + c * z1)); [ring|].
    rewrite U, U1, Hp1. ring. }
  assert (N : norm [b * z1 - c * y1; c * x1 - a * z1; a * y1 - b * x1] = 1)
    by (unfold norm; rewrite N2; apply sqrt_1).
  cbn [map]. rewrite N.
  assert (Dv : forall l, dot l v = norm v * dot l [a; b; c]).
  { intros l. rewrite Huv at 1. unfold vscale. simpl. destruct l as [|? [|? [|? [|? l]]]]; simpl; ring. }
  rewrite !Dv. split; [reflexivity|]. split; [reflexivity|].
  split; [unfold norm; rewrite norm2_3, U1; apply sqrt_1|].
  split.
  { match goal with |- norm ?l = 1 => assert (Q : norm2 l = 1) end.
    { etransitivity; [|exact N2]. rewrite !norm2_3. field. }
    unfold norm. rewrite Q. apply sqrt_1. }
  split; [simpl; replace (x1 * a + (y1 * b + (z1 * c + 0))) with (a * x1 + b * y1 + c * z1) by ring; rewrite Hp1; ring|].
  split; [simpl; field|]. simpl. field.
Qed.
(** The argument itself is changed: it is normalised in place. *)
Theorem C79_argument_preserved_refuted : exists v w, length v = 2%nat /\
  get_perpendiculars2 v = Some w /\ fst w <> v.
Proof.
  exists [2; 0]. eexists. split; [reflexivity|]. split; [reflexivity|].
  cbn [fst map]. unfold norm. rewrite !norm2_cons, norm2_nil.
  replace (2 * 2 + (0 * 0 + 0)) with (2 * 2) by ring. rewrite sqrt_square by lra.
  intros H. injection H. intros _ H1. lra.
Qed.

(** ** C80: face areas. *)
(** Specification: the signed area of a triangle in the plane. *)
Definition signed_area (p q r : R * R) : R :=
  ((fst q - fst p) * (snd r - snd p) - (fst r - fst p) * (snd q - snd p)) / 2.
Definition vec_of (p : R * R) : vec := [fst p; snd p].
(** A planar face in space: the image of a face in the plane under an isometric
    parametrisation with orthonormal [e1], [e2]. *)
Definition place (o e1 e2 : vec) (p : R * R) : vec :=
  vadd o (vadd (vscale (fst p) e1) (vscale (snd p) e2)).
Definition orthonormal (e1 e2 : vec) : Prop :=
  length e1 = 3%nat /\ length e2 = 3%nat /\ dot e1 e1 = 1 /\ dot e2 e2 = 1 /\ dot e1 e2 = 0.
Lemma tri_area_2d : forall p q r, tri_area (vec_of p) (vec_of q) (vec_of r) = Rabs (signed_area p q r).
Proof.
  intros [px py] [qx qy] [rx ry]. unfold tri_area, vec_of, signed_area. simpl.
  unfold norm. rewrite norm2_3.
  match goal with |- _ * sqrt ?e = _ =>
    replace e with (Rsqr ((qx - px) * (ry - py) - (rx - px) * (qy - py))) by (unfold Rsqr; ring) end.
  rewrite sqrt_Rsqr_abs. unfold Rdiv. rewrite Rabs_mult, (Rabs_right (/ 2)) by lra. lra.
Qed.
Lemma tri_area_3d : forall o e1 e2 p q r, length o = 3%nat -> orthonormal e1 e2 ->
  tri_area (place o e1 e2 p) (place o e1 e2 q) (place o e1 e2 r) = Rabs (signed_area p q r).
Proof.
  intros o e1 e2 [px py] [qx qy] [rx ry] Lo (L1 & L2 & H1 & H2 & H12).
  destruct (len3 o Lo) as (o1 & o2 & o3 & ->).
  destruct (len3 e1 L1) as (a & b & c & ->). destruct (len3 e2 L2) as (d & e & f & ->).
  unfold tri_area, place, signed_area. cbn [fst snd vscale map vadd pad3 vsub cross] in *. simpl in H1, H2, H12.
  unfold norm. rewrite norm2_3.
  match goal with |- _ * sqrt ?t = _ =>
    replace t with (Rsqr ((qx - px) * (ry - py) - (rx - px) * (qy - py)) *
      ((a * a + (b * b + (c * c + 0))) * (d * d + (e * e + (f * f + 0)))
       - (a * d + (b * e + (c * f + 0))) * (a * d + (b * e + (c * f + 0))))) by (unfold Rsqr; ring) end.
  rewrite H1, H2, H12.
  replace (_ * (1 * 1 - 0 * 0)) with (Rsqr ((qx - px) * (ry - py) - (rx - px) * (qy - py))) by ring.
  rewrite sqrt_Rsqr_abs. unfold Rdiv. rewrite Rabs_mult, (Rabs_right (/ 2)) by lra. lra.
Qed.
Theorem C80_triangle : forall p q r,
  face_area [vec_of p; vec_of q; vec_of r] = Some (Rabs (signed_area p q r)) /\
  forall o e1 e2, length o = 3%nat -> orthonormal e1 e2 ->
  face_area [place o e1 e2 p; place o e1 e2 q; place o e1 e2 r] = Some (Rabs (signed_area p q r)).
Proof.
  intros. split; [|intros]; unfold face_area; f_equal; [apply tri_area_2d|apply tri_area_3d; auto].
Qed.
(** The shoelace formula of a quadrilateral. *)
Definition shoelace4 (p q r s : R * R) : R :=
  ((fst p * snd q - fst q * snd p) + (fst q * snd r - fst r * snd q)
   + (fst r * snd s - fst s * snd r) + (fst s * snd p - fst p * snd s)) / 2.
(** Convex (in one of the two orientations): no vertex is on the wrong side. *)
Definition convex4 (p q r s : R * R) : Prop :=
  (0 <= signed_area p q r /\ 0 <= signed_area q r s /\ 0 <= signed_area r s p /\ 0 <= signed_area s p q) \/
  (signed_area p q r <= 0 /\ signed_area q r s <= 0 /\ signed_area r s p <= 0 /\ signed_area s p q <= 0).
Lemma quad_abs : forall p q r s, convex4 p q r s ->
  Rabs (signed_area p q r) + Rabs (signed_area p r s) = Rabs (shoelace4 p q r s).
Proof.
  intros p q r s H.
  assert (E : shoelace4 p q r s = signed_area p q r + signed_area p r s).
  { unfold shoelace4, signed_area. destruct p, q, r, s; simpl. field. }
  assert (E2 : signed_area p r s = signed_area r s p).
  { unfold signed_area. destruct p, r, s; simpl. field. }
  rewrite E, E2. destruct H as [(H1 & _ & H2 & _)|(H1 & _ & H2 & _)].
  - rewrite !Rabs_pos_eq by lra. reflexivity.
  - rewrite !Rabs_left1 by lra. ring.
Qed.
Theorem C80_quad : forall p q r s, convex4 p q r s ->
  face_area [vec_of p; vec_of q; vec_of r; vec_of s] = Some (Rabs (shoelace4 p q r s)) /\
  forall o e1 e2, length o = 3%nat -> orthonormal e1 e2 ->
  face_area [place o e1 e2 p; place o e1 e2 q; place o e1 e2 r; place o e1 e2 s]
    = Some (Rabs (shoelace4 p q r s)).
Proof.
  intros p q r s H. rewrite <- quad_abs by auto. split; [|intros]; unfold face_area; f_equal.
  - rewrite !tri_area_2d. reflexivity.
  - rewrite !tri_area_3d by auto. reflexivity.
Qed.
(** The area does not depend on the first vertex nor on the orientation. *)
Lemma convex4_rot : forall p q r s, convex4 p q r s -> convex4 q r s p.
Proof.
  unfold convex4. intros p q r s [H|H]; [left|right];
    repeat split; try (apply H); destruct H as (A & B & C & D); auto.
Qed.
Theorem C80_quad_any_start : forall p q r s, convex4 p q r s ->
  face_area [vec_of p; vec_of q; vec_of r; vec_of s] = face_area [vec_of q; vec_of r; vec_of s; vec_of p] /\
  face_area [vec_of p; vec_of q; vec_of r; vec_of s] = face_area [vec_of s; vec_of r; vec_of q; vec_of p].
Proof.
  intros p q r s H. rewrite (proj1 (C80_quad H)).
  rewrite (proj1 (C80_quad (convex4_rot H))).
  assert (H' : convex4 s r q p).
  { unfold convex4 in *.
    assert (E : forall a b c, signed_area c b a = - signed_area a b c)
      by (intros [] [] []; unfold signed_area; simpl; field).
    rewrite (E q r s), (E p q r), (E s p q), (E r s p).
    destruct H as [H|H]; [right|left]; lra. }
  rewrite (proj1 (C80_quad H')). split; f_equal.
  - f_equal. unfold shoelace4. destruct p, q, r, s; simpl. field.
  - rewrite <- Rabs_Ropp. f_equal. unfold shoelace4. destruct p, q, r, s; simpl. field.
Qed.
(** Without convexity the result is not the area. *)
Theorem C80_nonconvex_refuted : exists p q r s,
  face_area [vec_of p; vec_of q; vec_of r; vec_of s] <> Some (Rabs (shoelace4 p q r s)).
Proof.
  exists (0, 0), (1, 1), (4, 0), (1, 2). unfold face_area. rewrite !tri_area_2d.
  unfold signed_area, shoelace4. simpl. intros H. injection H. clear H.
  rewrite (Rabs_left ((_ - _) / 2)) by lra.
  rewrite (Rabs_right (((4 - 0) * (2 - 0) - (1 - 0) * (0 - 0)) / 2)) by lra.
  rewrite Rabs_right by lra. lra.
Qed.
Theorem C80_unsupported : forall face, length face <> 3%nat -> length face <> 4%nat ->
  face_area face = None.
Proof.
  intros [|? [|? [|? [|? [|? ?]]]]] H3 H4; simpl in *; try reflexivity; lia.
Qed.
Example C80_ex : convex4 (0, 0) (2, 0) (3, 1) (0, 2) /\
  orthonormal [1; 0; 0] [0; 3 / 5; 4 / 5].
Proof.
  split; [left; unfold signed_area; simpl; lra|].
  repeat split; simpl; lra.
Qed.

(** ** C81: the documented selections. *)
(** Specification: the table in the documentation of get_coors_in_ball. *)
Definition ball_doc (r : R) (r2 : option R) (inside : bool) (d : R) : Prop :=
  match inside, r2 with
  | true, None => d <= r
  | true, Some r2 => r2 <= d <= r
  | false, None => d >= r
  | false, Some r2 => d >= r \/ d <= r2
  end.
Theorem C81_ball : forall c r r2 inside x, (inside = true \/ r2 = None) ->
  in_ball c r r2 inside x = true <-> ball_doc r r2 inside (norm (vsub x c)).
Proof.
  intros c r r2 inside x H. unfold in_ball, ball_doc.
  destruct inside, r2; try (destruct H; discriminate); rewrite ?andb_true_iff, ?Rleb_true; lra.
Qed.
(** Outside of a shell: nothing at all is selected when r2 < r. *)
Theorem C81_shell_outside_refuted : forall c r r2 x, r2 < r ->
  in_ball c r (Some r2) false x = false.
Proof.
  intros. unfold in_ball. destruct (Rleb r _ && Rleb _ r2) eqn:E; auto.
  apply andb_true_iff in E. rewrite !Rleb_true in E. lra.
Qed.
Example C81_shell_ex : ball_doc 2 (Some 1) false (norm (vsub [3; 0] [0; 0])) /\
  in_ball [0; 0] 2 (Some 1) false [3; 0] = false.
Proof.
  split; [|apply C81_shell_outside_refuted; lra].
  left. simpl. unfold norm. rewrite !norm2_cons, norm2_nil.
  replace ((3 - 0) * (3 - 0) + ((0 - 0) * (0 - 0) + 0)) with (3 * 3) by ring. rewrite sqrt_square; lra.
Qed.
(** Tubes: cylindrical coordinates of [x] w.r.t. the centre and a unit axis:
    [x - centre] is [z] times the axis plus a vector of length [d] perpendicular to it. *)
Definition cylindrical (x centre axis : vec) (z d : R) : Prop :=
  exists w, length w = 3%nat /\ vsub x centre = vadd (vscale z axis) w /\ dot w axis = 0 /\ norm w = d.
Lemma cylindrical_values : forall x centre axis z d, length axis = 3%nat -> norm axis = 1 ->
  cylindrical x centre axis z d ->
  dot (vsub x centre) axis = z /\
  sqrt (rsum (map (fun c => c * c) (cross axis (vsub x centre)))) = d.
Proof.
  intros x centre axis z d La Na (w & Lw & E & O & Nw). rewrite E.
  destruct (len3 axis La) as (a & b & c & ->). destruct (len3 w Lw) as (u & v & t & ->).
  assert (N2 : a * a + b * b + c * c = 1).
  { rewrite <- norm2_3, <- norm_sq, Na. ring. }
  cbn [vscale map vadd cross dot rsum fold_right] in *. simpl in O.
  split.
  - transitivity (z * (a * a + b * b + c * c) + (u * a + (v * b + (t * c + 0)))); [ring|]. rewrite N2, O. ring.
  - rewrite <- Nw. unfold norm. f_equal. rewrite norm2_3.
    transitivity ((a * a + b * b + c * c) * (u * u + v * v + t * t)
       - (u * a + (v * b + (t * c + 0))) * (u * a + (v * b + (t * c + 0)))); [unfold rsum; simpl; ring|].
    rewrite N2, O. ring.
Qed.
Theorem C81_tube : forall centre axis r_in r_out len x z d, length axis = 3%nat -> norm axis = 1 ->
  cylindrical x centre axis z d ->
  in_tube centre axis r_in r_out len true x = true <->
  (- (len / 2) <= z <= len / 2 /\ r_in <= d <= r_out).
Proof.
  intros centre axis r_in r_out len x z d La Na Hc.
  destruct (cylindrical_values La Na Hc) as [E1 E2].
  unfold in_tube. rewrite E1, E2, !andb_true_iff, !Rleb_true. lra.
Qed.
Theorem C81_tube_outside_refuted : forall centre axis r_in r_out len x, r_in < r_out ->
  in_tube centre axis r_in r_out len false x = false.
Proof.
  intros. unfold in_tube.
  match goal with |- ?e = false => destruct e eqn:E; auto end.
  rewrite !andb_true_iff, !Rleb_true in E. lra.
Qed.
(** An axis that is not a unit vector scales both the length and the radii. *)
Theorem C81_tube_axis_not_normalized : exists x, 
  cylindrical x [0; 0; 0] [0; 0; 1] 0 3 /\ in_tube [0; 0; 0] [0; 0; 1] 2 4 1 true x = true /\
  in_tube [0; 0; 0] [0; 0; 2] 2 4 1 true x = false.
Proof.
  assert (N : norm [3; 0; 0] = 3).
  { unfold norm. rewrite norm2_3. replace (3 * 3 + 0 * 0 + 0 * 0) with (3 * 3) by ring. apply sqrt_square; lra. }
  assert (C : cylindrical [3; 0; 0] [0; 0; 0] [0; 0; 1] 0 3).
  { exists [3; 0; 0]. split; [reflexivity|]. split; [|split; auto].
    - simpl. repeat (apply f_equal2); try reflexivity; ring.
    - simpl. ring. }
  exists [3; 0; 0]. split; [auto|]. split.
  - apply (@C81_tube _ _ 2 4 1 _ 0 3); auto; [|lra].
    unfold norm. rewrite norm2_3. replace (0 * 0 + 0 * 0 + 1 * 1) with 1 by ring. apply sqrt_1.
  - unfold in_tube. match goal with |- ?e = false => destruct e eqn:E; auto end.
    rewrite !andb_true_iff, !Rleb_true in E. destruct E as [_ E].
    unfold rsum in E. cbn [vsub cross map fold_right] in E.
    match type of E with sqrt ?t <= _ => replace t with (6 * 6) in E by ring end.
    rewrite sqrt_square in E; lra.
Qed.

(** Rotation matrices of the plane: angles in degrees. *)
Theorem C80_rotation2d : forall a b p, length p = 2%nat ->
  norm2 (mvec (rotation_matrix2d a) p) = norm2 p /\
  mvec (rotation_matrix2d a) (mvec (rotation_matrix2d b) p) = mvec (rotation_matrix2d (a + b)) p /\
  mvec (rotation_matrix2d 0) p = p /\ mvec (rotation_matrix2d 90) p = [- nth 1 p 0; nth 0 p 0] /\
  mvec (rotation_matrix2d 360) p = p.
Proof.
  intros a b p L. destruct (len2 p L) as (x & y & ->).
  unfold rotation_matrix2d, mvec. cbn [map dot nth].
  set (A := a * (PI / 180)). set (B := b * (PI / 180)).
  replace ((a + b) * (PI / 180)) with (A + B) by (unfold A, B; ring).
  replace (0 * (PI / 180)) with 0 by ring.
  replace (90 * (PI / 180)) with (PI / 2) by field.
  replace (360 * (PI / 180)) with (2 * PI) by field.
  rewrite cos_plus, sin_plus, cos_0, sin_0, cos_PI2, sin_PI2, cos_2PI, sin_2PI.
  split.
  - rewrite !norm2_cons, norm2_nil. pose proof (sin2_cos2 A) as T. unfold Rsqr in T.
    transitivity ((sin A * sin A + cos A * cos A) * (x * x + y * y)); [ring|]. rewrite T. ring.
  - repeat split; repeat (match goal with |- _ :: _ = _ => apply f_equal2 end); try reflexivity; ring.
Qed.

Print Assumptions C78_inverse.
Print Assumptions C80_quad.
Print Assumptions C81_tube.
