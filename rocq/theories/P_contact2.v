(** C209: the coordinates of points in a contact plane. *)
From Coq Require Import Reals Lra Nsatz.
From Verif Require Import Base M_probe M_contact P_contact.
Open Scope R_scope.

(** contact_bodies.py l.17-48 for a unit normal that is not (anti)parallel to the third axis
    (and [eps] = 0): the 2D coordinates [(mtx p)[:2]] used for the bounds and the points.
    Simplified: the branches for (anti)parallel normals are left out. *)
Definition plane_coords (normal p : vec3) : R * R :=
  let '(x, y, z) := plane_normal normal in
  let axis := (0 * z - 1 * y, 1 * x - 0 * z, 0 * y - 0 * x) in
  let m := rotation_matrix axis (acos (0 * x + 0 * y + 1 * z)) in
  let '(p1, p2, p3) := p in
  let row i := nth 0 (nth i m []) 0 * p1 + nth 1 (nth i m []) 0 * p2 + nth 2 (nth i m []) 0 * p3 in
  (row 0%nat, row 1%nat).

(** C209: the 2D coordinates in which the mask of a contact plane is computed are those of the
    projection along the normal: the products by two orthonormal vectors perpendicular to
    it, so that shifting a point along the normal does not change the mask. *)
Theorem C209_plane_coords : forall a b c, 0 < a * a + b * b -> exists e1 e2,
  unit e1 /\ unit e2 /\ vdot e1 e2 = 0 /\ vdot e1 (a, b, c) = 0 /\ vdot e2 (a, b, c) = 0 /\
  (forall p, plane_coords (a, b, c) p = (vdot e1 p, vdot e2 p)) /\
  forall p s, plane_coords (a, b, c) (vadd p (vscale s (a, b, c))) = plane_coords (a, b, c) p.
Proof.
  intros a b c N.
  assert (X : exists e1 e2, unit e1 /\ unit e2 /\ vdot e1 e2 = 0 /\ vdot e1 (a, b, c) = 0 /\ vdot e2 (a, b, c) = 0 /\
    (forall p, plane_coords (a, b, c) p = (vdot e1 p, vdot e2 p))).
  { set (k := vnorm (a, b, c)). assert (K : k * k = a * a + b * b + c * c) by (unfold k; rewrite vnorm_sq; reflexivity).
    assert (Pk : 0 < k). { apply vnorm_pos. intros E. injection E as -> -> ->. lra. }
    unfold plane_coords. change (plane_normal (a, b, c)) with (a / k, b / k, c / k).
    assert (Ea : a = k * (a / k)) by (field; lra). assert (Eb : b = k * (b / k)) by (field; lra). assert (Ec : c = k * (c / k)) by (field; lra).
    set (x := a / k) in *. set (y := b / k) in *. set (z := c / k) in *. clearbody x y z k. subst a b c.
    assert (U : x * x + y * y + z * z = 1). { apply (Rmult_eq_reg_l (k * k)); [|nra]. lra. }
    assert (Nn : 0 < x * x + y * y). { apply (Rmult_lt_reg_l (k * k)); [nra|]. rewrite Rmult_0_r. replace (k * k * (x * x + y * y)) with (k * x * (k * x) + k * y * (k * y)) by ring. exact N. }
    unfold rotation_matrix. set (s := pnorm _) in *.
    assert (S : s * s = x * x + y * y).
    { unfold s, pnorm. rewrite sqrt_sqrt; [simpl; ring|]. simpl. pose proof (Rle_0_sqr x). pose proof (Rle_0_sqr y). unfold Rsqr in *. nra. }
    assert (P : 0 < s). { destruct (Rle_lt_dec s 0) as [L|L]; auto. assert (0 <= s) by apply sqrt_pos. assert (s = 0) by lra. rewrite H0 in S. lra. }
    assert (Cb : -1 <= z <= 1) by (split; nra).
    rewrite (@cos_acos (0 * x + 0 * y + 1 * z)), (@sin_acos (0 * x + 0 * y + 1 * z)) by lra.
    replace (0 * x + 0 * y + 1 * z) with z by ring.
    assert (E : sqrt (1 - Rsqr z) = s). { replace (1 - Rsqr z) with (Rsqr s) by (unfold Rsqr; lra). apply sqrt_Rsqr. lra. }
    rewrite E. replace (0 * z - 1 * y) with (- y) by ring. replace (1 * x - 0 * z) with x by ring.
    replace (0 * y - 0 * x) with 0 by ring. replace (0 / s) with 0 by (field; lra).
    set (d0 := - y / s). set (d1 := x / s).
    assert (D0 : y = - (s * d0)) by (unfold d0; field; lra). assert (D1 : x = s * d1) by (unfold d1; field; lra).
    clearbody d0 d1 s. subst x y. assert (Q : d0 * d0 + d1 * d1 = 1).
    { apply (Rmult_eq_reg_l (s * s)); [|nra]. lra. }
    assert (W : s * s + z * z = 1) by lra. clear U S E Cb K N Nn.
    exists (d0 * d0 + z * (1 - d0 * d0), d0 * d1 - z * (d0 * d1), - (s * d1)), (d0 * d1 - z * (d0 * d1), d1 * d1 + z * (1 - d1 * d1), s * d0).
    unfold unit. cbn [vdot]. split; [nsatz|]. split; [nsatz|]. split; [nsatz|]. split; [nsatz|]. split; [nsatz|].
    intros [[p1 p2] p3]. cbn [nth vdot]. f_equal; ring. }
  destruct X as (e1 & e2 & X1 & X2 & X3 & X4 & X5 & X6). exists e1, e2. repeat (split; [assumption|]).
  intros p s. rewrite !X6.
  assert (L : forall e, vdot e (a, b, c) = 0 -> vdot e (vadd p (vscale s (a, b, c))) = vdot e p).
  { intros [[u v] w] H. destruct p as [[p1 p2] p3]. cbn [vdot vadd vscale] in *. nsatz. }
  now rewrite !L.
Qed.
Print Assumptions C209_plane_coords.
(** The normal (1, 2, 3) meets the hypothesis. *)
Example C209_plane_coords_example : 0 < 1 * 1 + 2 * 2.
Proof. lra. Qed.
