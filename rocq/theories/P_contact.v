(** C208: local coordinates of membrane faces; C209: contact plane and sphere. *)
From Coq Require Import Reals Lra.
From Coquelicot Require Import Coquelicot.
From Verif Require Import Base M_contact.
Open Scope R_scope.

(** ** Specification *)
Definition vadd (a b : vec3) : vec3 := let '(a1, a2, a3) := a in let '(b1, b2, b3) := b in (a1 + b1, a2 + b2, a3 + b3).
Definition vscale (k : R) (a : vec3) : vec3 := let '(a1, a2, a3) := a in (k * a1, k * a2, k * a3).
Definition zero3 : vec3 := (0, 0, 0).
Definition unit (a : vec3) : Prop := vdot a a = 1.
Definition distance (a b : vec3) : R := vnorm (vsub a b).

Lemma vdot_pos : forall a, 0 <= vdot a a.
Proof. intros [[x y] z]. simpl. pose proof (Rle_0_sqr x). pose proof (Rle_0_sqr y). pose proof (Rle_0_sqr z). unfold Rsqr in *. lra. Qed.
Lemma vdot_zero : forall a, vdot a a = 0 -> a = zero3.
Proof.
  intros [[x y] z] H. simpl in H. pose proof (Rle_0_sqr x). pose proof (Rle_0_sqr y). pose proof (Rle_0_sqr z). unfold Rsqr in *.
  assert (x = 0) by (apply Rsqr_0_uniq; unfold Rsqr; lra). assert (y = 0) by (apply Rsqr_0_uniq; unfold Rsqr; lra).
  assert (z = 0) by (apply Rsqr_0_uniq; unfold Rsqr; lra). subst. reflexivity.
Qed.
Lemma vnorm_sq : forall a, vnorm a * vnorm a = vdot a a.
Proof. intros a. unfold vnorm. apply sqrt_sqrt, vdot_pos. Qed.
Lemma vnorm_pos : forall a, a <> zero3 -> 0 < vnorm a.
Proof. intros a N. unfold vnorm. apply sqrt_lt_R0. pose proof (vdot_pos a). destruct (Req_dec (vdot a a) 0) as [E|E]; [|lra]. destruct (N (vdot_zero a E)). Qed.
Lemma vnorm_nonneg : forall a, 0 <= vnorm a.
Proof. intros. apply sqrt_pos. Qed.
Lemma vdot_div : forall a b k, k <> 0 -> vdot a (vdiv b k) = vdot a b / k.
Proof. intros [[a1 a2] a3] [[b1 b2] b3] k K. simpl. field. exact K. Qed.
Lemma vdot_div2 : forall a b k, k <> 0 -> vdot (vdiv b k) a = vdot b a / k.
Proof. intros [[a1 a2] a3] [[b1 b2] b3] k K. simpl. field. exact K. Qed.
Lemma unit_div : forall a, a <> zero3 -> unit (vdiv a (vnorm a)).
Proof.
  intros a N. pose proof (vnorm_pos a N) as P. unfold unit. rewrite vdot_div, vdot_div2 by lra. rewrite <- vnorm_sq. field. lra.
Qed.
Lemma cross_nz : forall a b, vcross a b <> zero3 -> a <> zero3.
Proof. intros [[a1 a2] a3] [[b1 b2] b3] N E. apply N. injection E as -> -> ->. unfold vcross, zero3. f_equal; [f_equal|]; ring. Qed.

(** C208: the local basis of a membrane face whose corner is not degenerate consists of
    orthonormal vectors; the first edge lies on the first axis, the last node in the upper
    half of the plane of the first two axes, and the third axis is perpendicular to both
    edges.  The work of a local force in a local displacement is that of the global ones. *)
Theorem C208_face_basis : forall p0 p1 pl, vcross (vsub p1 p0) (vsub pl p0) <> zero3 ->
  let '(t1, t2, n) := face_basis p0 p1 pl in
  unit t1 /\ unit t2 /\ unit n /\ vdot t1 t2 = 0 /\ vdot t1 n = 0 /\ vdot t2 n = 0 /\
  to_local (t1, t2, n) (vsub p1 p0) = (distance p1 p0, 0, 0) /\
  (exists x y, to_local (t1, t2, n) (vsub pl p0) = (x, y, 0) /\ 0 < y) /\
  (forall u f, vdot u (to_global (t1, t2, n) f) = vdot (to_local (t1, t2, n) u) f) /\
  (forall u, to_global (t1, t2, n) (to_local (t1, t2, n) u) = u).
Proof.
  intros p0 p1 pl N. unfold face_basis. set (a := vsub p1 p0) in *. set (b := vsub pl p0) in *.
  set (c := vcross a b) in *. set (d := vcross c a).
  pose proof (cross_nz a b N) as Na.
  assert (Ca : vdot c a = 0). { unfold c. clearbody a b. destruct a as [[? ?] ?], b as [[? ?] ?]. simpl. ring. }
  assert (Cb : vdot b c = 0). { unfold c. clearbody a b. destruct a as [[? ?] ?], b as [[? ?] ?]. simpl. ring. }
  assert (Da : vdot a d = 0). { unfold d. clearbody c a. destruct a as [[? ?] ?], c as [[? ?] ?]. simpl. ring. }
  assert (Dc : vdot d c = 0). { unfold d. clearbody c a. destruct a as [[? ?] ?], c as [[? ?] ?]. simpl. ring. }
  assert (Dd : vdot d d = vdot c c * vdot a a - vdot c a * vdot c a). { unfold d. clearbody c a. destruct a as [[? ?] ?], c as [[? ?] ?]. simpl. ring. }
  assert (Bd : vdot b d = vdot c c). { unfold d, c. clearbody a b. destruct a as [[? ?] ?], b as [[? ?] ?]. simpl. ring. }
  pose proof (vnorm_pos a Na) as Pa. pose proof (vnorm_pos c N) as Pc.
  assert (Nd : d <> zero3).
  { intros E. rewrite E, Ca in Dd. rewrite <- (vnorm_sq a), <- (vnorm_sq c) in Dd. simpl in Dd.
    assert (0 < vnorm c * vnorm c * (vnorm a * vnorm a)) by (repeat apply Rmult_lt_0_compat; auto). lra. }
  pose proof (vnorm_pos d Nd) as Pd.
  assert (Sym : forall x y, vdot x y = vdot y x) by (intros [[? ?] ?] [[? ?] ?]; simpl; ring).
  split; [now apply unit_div|]. split; [now apply unit_div|]. split; [now apply unit_div|].
  split; [rewrite vdot_div, vdot_div2 by lra; rewrite Da; field; lra|].
  split; [rewrite vdot_div, vdot_div2 by lra; rewrite Sym, Ca; field; lra|].
  split; [rewrite vdot_div, vdot_div2 by lra; rewrite Dc; field; lra|].
  split. { unfold to_local, distance. fold a. rewrite !vdot_div by lra. rewrite Da, (Sym a c), Ca, <- vnorm_sq. f_equal; [f_equal|]; field; lra. }
  split. { exists (vdot b (vdiv a (vnorm a))), (vdot c c / vnorm d). split.
    - unfold to_local. rewrite (vdot_div b d), (vdot_div b c) by lra. rewrite Bd, Cb. f_equal. field; lra.
    - apply Rdiv_lt_0_compat; auto. rewrite <- vnorm_sq. nra. }
  split.
  - generalize (vdiv a (vnorm a)), (vdiv d (vnorm d)), (vdiv c (vnorm c)). intros [[? ?] ?] [[? ?] ?] [[? ?] ?] [[? ?] ?] [[? ?] ?]. simpl. ring.
  - intros u.
    assert (K : forall x, to_global (vdiv a (vnorm a), vdiv d (vnorm d), vdiv c (vnorm c)) (to_local (vdiv a (vnorm a), vdiv d (vnorm d), vdiv c (vnorm c)) x) =
      vadd (vadd (vscale (vdot x a / vdot a a) a) (vscale (vdot x d / vdot d d) d)) (vscale (vdot x c / vdot c c) c)).
    { intros x. rewrite <- (vnorm_sq a), <- (vnorm_sq c), <- (vnorm_sq d). unfold to_local. rewrite !vdot_div by lra.
      set (na := vnorm a) in *. set (nc := vnorm c) in *. set (nd := vnorm d) in *. generalize (vdot x a) (vdot x c) (vdot x d). intros ka kc kd.
      clearbody a c d na nc nd. destruct a as [[? ?] ?], c as [[? ?] ?], d as [[? ?] ?]. simpl. f_equal; [f_equal|]; field; lra. }
    rewrite K. rewrite Dd, Ca. assert (Qa : 0 < vdot a a) by (rewrite <- vnorm_sq; nra). assert (Qc : 0 < vdot c c) by (rewrite <- vnorm_sq; nra).
    unfold d in *. clear K Bd Cb Dd Dc Da Nd Pd. clearbody c. clear N b Pa Pc Na. clearbody a.
    destruct a as [[a1 a2] a3], c as [[c1 c2] c3], u as [[u1 u2] u3]. unfold vcross. cbn [vdot vscale vadd] in *.
    assert (E : forall x y, y <> 0 -> x * y = 0 -> x = 0) by (intros x y Y H; apply (Rmult_eq_reg_r y); [lra|exact Y]).
    set (A := a1 * a1 + a2 * a2 + a3 * a3) in *. set (C := c1 * c1 + c2 * c2 + c3 * c3) in *.
    assert (T : forall k x y z w, k = x -> A <> 0 -> C <> 0 -> y * C + z + w * A - x * A * C = 0 -> y / A + z / (C * A - 0 * 0) + w / C = k).
    { intros k x y z w -> HA HC H. apply (Rmult_eq_reg_r (A * C)); [|nra]. replace ((y / A + z / (C * A - 0 * 0) + w / C) * (A * C)) with (y * C + z + w * A) by (field; repeat split; auto; nra). lra. }
    f_equal; [f_equal|].
    + replace (_ / A * a1 + _ + _) with ((u1 * a1 + u2 * a2 + u3 * a3) * a1 / A +
        (u1 * (c2 * a3 - c3 * a2) + u2 * (c3 * a1 - c1 * a3) + u3 * (c1 * a2 - c2 * a1)) * (c2 * a3 - c3 * a2) / (C * A - 0 * 0) + (u1 * c1 + u2 * c2 + u3 * c3) * c1 / C) by (unfold Rdiv; ring).
      apply (T _ u1); [reflexivity|lra|lra|]. unfold A, C. 
      transitivity ((c1 * a1 + c2 * a2 + c3 * a3) * (
         u1 * (c1 * a1 - c2 * a2 - c3 * a3) + u2 * (c1 * a2 + c2 * a1) + u3 * (c1 * a3 + c3 * a1)) * 1); [ring|rewrite Ca; ring].
    + replace (_ / A * a2 + _ + _) with ((u1 * a1 + u2 * a2 + u3 * a3) * a2 / A +
        (u1 * (c2 * a3 - c3 * a2) + u2 * (c3 * a1 - c1 * a3) + u3 * (c1 * a2 - c2 * a1)) * (c3 * a1 - c1 * a3) / (C * A - 0 * 0) + (u1 * c1 + u2 * c2 + u3 * c3) * c2 / C) by (unfold Rdiv; ring).
      apply (T _ u2); [reflexivity|lra|lra|]. unfold A, C.
      transitivity ((c1 * a1 + c2 * a2 + c3 * a3) * (
         u2 * (c2 * a2 - c1 * a1 - c3 * a3) + u1 * (c1 * a2 + c2 * a1) + u3 * (c2 * a3 + c3 * a2)) * 1); [ring|rewrite Ca; ring].
    + replace (_ / A * a3 + _ + _) with ((u1 * a1 + u2 * a2 + u3 * a3) * a3 / A +
        (u1 * (c2 * a3 - c3 * a2) + u2 * (c3 * a1 - c1 * a3) + u3 * (c1 * a2 - c2 * a1)) * (c1 * a2 - c2 * a1) / (C * A - 0 * 0) + (u1 * c1 + u2 * c2 + u3 * c3) * c3 / C) by (unfold Rdiv; ring).
      apply (T _ u3); [reflexivity|lra|lra|]. unfold A, C.
      transitivity ((c1 * a1 + c2 * a2 + c3 * a3) * (
         u3 * (c3 * a3 - c1 * a1 - c2 * a2) + u1 * (c1 * a3 + c3 * a1) + u2 * (c2 * a3 + c3 * a2)) * 1); [ring|rewrite Ca; ring].
Qed.
Example C208_example : vcross (vsub (1, 0, 0) (0, 0, 0)) (vsub (0, 1, 1) (0, 0, 0)) <> zero3.
Proof. unfold vcross, vsub, zero3. intros H. injection H. intros. lra. Qed.

(** ** C209: contact bodies *)
Lemma vdot_sub : forall a b c, vdot (vsub a b) c = vdot a c - vdot b c.
Proof. intros [[? ?] ?] [[? ?] ?] [[? ?] ?]. simpl. ring. Qed.

(** C209: the distance of a point from a plane is signed: going back along the unit normal by
    it gives a point of the plane through the anchor, no point of the plane is nearer. *)
Theorem C209_plane : forall anchor normal p, normal <> zero3 ->
  let n := plane_normal normal in let d := plane_distance anchor normal p in
  unit n /\ vdot (vsub (vsub p (vscale d n)) anchor) n = 0 /\
  (forall q, vdot (vsub q anchor) n = 0 -> Rabs d <= distance p q) /\
  (forall s, plane_distance anchor normal (vadd anchor (vscale s n)) = s).
Proof.
  intros anchor normal p N n d. assert (U : unit n) by (now apply unit_div). unfold unit in U.
  assert (D : d = vdot p n - vdot anchor n) by reflexivity. clearbody d.
  split; [exact U|]. split; [|split].
  - rewrite !vdot_sub. replace (vdot (vscale d n) n) with (d * vdot n n) by (clearbody n; destruct n as [[? ?] ?]; simpl; ring). rewrite U, D. ring.
  - intros q Q. rewrite vdot_sub in Q. unfold distance. apply Rsqr_incr_0_var; [|apply vnorm_nonneg].
    rewrite <- Rsqr_abs. unfold Rsqr. rewrite vnorm_sq. assert (E : d = vdot (vsub p q) n) by (rewrite vdot_sub; lra). rewrite E.
    generalize (vsub p q). intros [[x y] z]. clear - U. clearbody n. destruct n as [[a b] c]. simpl in *.
    assert (L : (x * x + y * y + z * z) * (a * a + b * b + c * c) - (x * a + y * b + z * c) * (x * a + y * b + z * c) =
      Rsqr (x * b - y * a) + Rsqr (x * c - z * a) + Rsqr (y * c - z * b)) by (unfold Rsqr; ring).
    pose proof (Rle_0_sqr (x * b - y * a)). pose proof (Rle_0_sqr (x * c - z * a)). pose proof (Rle_0_sqr (y * c - z * b)). rewrite U in L. lra.
  - intros s. unfold plane_distance. fold n. replace (vdot (vadd anchor (vscale s n)) n) with (vdot anchor n + s * vdot n n).
    + rewrite U. ring.
    + clearbody n. destruct n as [[? ?] ?], anchor as [[? ?] ?]. simpl. ring.
Qed.

Lemma nth_map_any : forall A B (f : A -> B) l i d d', (i < List.length l)%nat -> nth i (map f l) d = f (nth i l d').
Proof. intros A B f l i d d' H. rewrite nth_indep with (d' := f d') by (rewrite map_length; auto). apply map_nth. Qed.
(** C209: for points not nearer than 1e-8 to the centre the penetration distances are the
    radius minus the distance from the centre and the normals are unit vectors from the
    points to the centre. *)
Theorem C209_sphere : forall centre radius points,
  (forall p, In p points -> 1 / 100000000 < distance centre p) ->
  exists d normals, sphere_distance centre radius points = Ok (d, normals) /\
  List.length d = List.length points /\ List.length normals = List.length points /\
  forall i, (i < List.length points)%nat ->
    let p := nth i points zero3 in let n := nth i normals zero3 in
    nth i d 0 = radius - distance centre p /\ unit n /\ vadd p (vscale (distance centre p) n) = centre.
Proof.
  intros centre radius points H. unfold sphere_distance.
  set (nn := fun p => vdiv (vsub centre p) (vnorm (vsub centre p))).
  assert (F : forall p, In p points -> sphere_far centre p = true).
  { intros p I. unfold sphere_far. destruct (Rlt_dec _ _) as [|N]; auto. destruct N. apply H, I. }
  assert (S : map snd (filter fst (combine (map (sphere_far centre) points) (map (fun p => vsub centre p) points))) = map (fun p => vsub centre p) points).
  { clear H. induction points as [|p ps IH]; [reflexivity|]. cbn [map combine filter fst]. rewrite F by (left; auto). cbn [map snd].
    rewrite IH; [reflexivity|]. intros q I. apply F. right; auto. }
  rewrite S. unfold where_rows. rewrite !map_length, Nat.eqb_refl. cbn [bind].
  assert (W : map (fun q : bool * (vec3 * vec3) => if fst q then fst (snd q) else snd (snd q))
     (combine (map (sphere_far centre) points) (combine (map (fun v => vdiv v (vnorm v)) (map (fun p => vsub centre p) points)) (map (fun p => vsub centre p) points))) = map nn points).
  { clear H S. induction points as [|p ps IH]; [reflexivity|]. cbn [map combine fst snd]. rewrite F by (left; auto). rewrite IH; [reflexivity|].
    intros q I. apply F. right; auto. }
  rewrite W. do 2 eexists. split; [reflexivity|]. rewrite !map_length. split; auto. split; auto.
  intros i I. assert (P : In (nth i points zero3) points) by now apply nth_In.
  rewrite (map_map (fun p => vsub centre p) vnorm), map_map.
  rewrite (nth_map_any _ _ (fun p => radius - vnorm (vsub centre p)) points i 0 zero3) by auto.
  rewrite (nth_map_any _ _ nn points i zero3 zero3) by auto. set (p := nth i points zero3) in *.
  specialize (H p P). unfold distance in *. split; [reflexivity|]. unfold nn.
  assert (Z : vsub centre p <> zero3). { intros E. rewrite E in H. unfold vnorm, zero3 in H. simpl in H. replace (0 * 0 + 0 * 0 + 0 * 0) with 0 in H by ring. rewrite sqrt_0 in H. lra. }
  split; [now apply unit_div|]. set (k := vnorm (vsub centre p)) in *. clearbody p k. destruct centre as [[? ?] ?], p as [[? ?] ?]. simpl. f_equal; [f_equal|]; field; lra.
Qed.
Example C209_sphere_example : 1 / 100000000 < distance (0, 0, 0) (2, 0, 0).
Proof. unfold distance, vnorm. simpl. replace ((0 - 2) * (0 - 2) + (0 - 0) * (0 - 0) + (0 - 0) * (0 - 0)) with (Rsqr 2) by (unfold Rsqr; ring). rewrite sqrt_Rsqr; lra. Qed.

(** C209: if one of three points is the centre, the computation of the normals fails. *)
Theorem C209_centre_refuted : forall radius,
  sphere_distance (0, 0, 0) radius [(0, 0, 0); (1, 0, 0); (2, 0, 0)] = Err ValueError.
Proof.
  intros radius. unfold sphere_distance.
  assert (F0 : sphere_far (0, 0, 0) (0, 0, 0) = false).
  { unfold sphere_far. destruct (Rlt_dec _ _) as [L|]; auto. unfold vnorm in L. simpl in L. replace ((0 - 0) * (0 - 0) + (0 - 0) * (0 - 0) + (0 - 0) * (0 - 0)) with 0 in L by ring. rewrite sqrt_0 in L. lra. }
  assert (F : forall x, 1 <= x -> sphere_far (0, 0, 0) (x, 0, 0) = true).
  { intros x X. unfold sphere_far. destruct (Rlt_dec _ _) as [|L]; auto. destruct L. unfold vnorm. simpl.
    replace ((0 - x) * (0 - x) + (0 - 0) * (0 - 0) + (0 - 0) * (0 - 0)) with (Rsqr x) by (unfold Rsqr; ring). rewrite sqrt_Rsqr; lra. }
  cbn [map]. rewrite F0, !F by lra. reflexivity.
Qed.
(** With two points, one being the centre, the centre gets the normal of the other one
    reduced to [vecs]: its normal is that vector itself, not zero. *)
Theorem C209_centre_normal_refuted : forall radius, exists d,
  sphere_distance (0, 0, 0) radius [(0, 0, 0); (2, 0, 0)] = Ok (d, [vsub (0, 0, 0) (2, 0, 0); vdiv (vsub (0, 0, 0) (2, 0, 0)) 2]).
Proof.
  intros radius. unfold sphere_distance.
  assert (V : vnorm (vsub (0, 0, 0) (2, 0, 0)) = 2).
  { unfold vnorm. simpl. replace ((0 - 2) * (0 - 2) + (0 - 0) * (0 - 0) + (0 - 0) * (0 - 0)) with (Rsqr 2) by (unfold Rsqr; ring). rewrite sqrt_Rsqr; lra. }
  assert (F0 : sphere_far (0, 0, 0) (0, 0, 0) = false).
  { unfold sphere_far. destruct (Rlt_dec _ _) as [L|]; auto. unfold vnorm in L. simpl in L. replace ((0 - 0) * (0 - 0) + (0 - 0) * (0 - 0) + (0 - 0) * (0 - 0)) with 0 in L by ring. rewrite sqrt_0 in L. lra. }
  assert (F : sphere_far (0, 0, 0) (2, 0, 0) = true).
  { unfold sphere_far. rewrite V. destruct (Rlt_dec _ _) as [|L]; auto. lra. }
  cbn [map]. rewrite F0, F. cbn [combine filter fst map snd]. rewrite V. unfold where_rows. cbn [List.length Nat.eqb hd map bind]. eexists. reflexivity.
Qed.

(** C209: the points marked by the mask are those within the enlarged radius. *)
Theorem C209_mask : forall centre radius eps p, 0 <= radius -> 0 <= eps ->
  sphere_mask centre radius eps p = true <-> distance centre p <= (1 + eps) * radius.
Proof.
  intros centre radius eps p R E. unfold sphere_mask, distance.
  replace (vdot (vsub p centre) (vsub p centre)) with (Rsqr (vnorm (vsub centre p))).
  2: { unfold Rsqr. rewrite vnorm_sq. destruct p as [[? ?] ?], centre as [[? ?] ?]. simpl. ring. }
  replace ((1 + eps) * (1 + eps) * (radius * radius)) with (Rsqr ((1 + eps) * radius)) by (unfold Rsqr; ring).
  assert (Q : 0 <= (1 + eps) * radius) by (apply Rmult_le_pos; lra).
  destruct (Rle_dec _ _) as [L|L]; split; intros H; auto.
  - apply Rsqr_incr_0_var; auto.
  - discriminate.
  - destruct L. apply Rsqr_incr_1; auto. apply vnorm_nonneg.
Qed.

(** C209: the derivatives: of the penetration distance and of the unit normal at a point
    other than the centre, in the direction [w]. *)
Definition mat_vec (m : vec3 * vec3 * vec3) (w : vec3) : vec3 := let '(a, b, c) := m in (vdot a w, vdot b w, vdot c w).
Definition component (k : nat) (a : vec3) : R := let '(x, y, z) := a in match k with O => x | S O => y | _ => z end.
Theorem C209_derivatives : forall centre radius p w, p <> centre ->
  derivable_pt_lim (fun t => radius - distance centre (vadd p (vscale t w))) 0 (vdot (sphere_dd centre p) w) /\
  forall k, (k < 3)%nat -> derivable_pt_lim (fun t => component k (sphere_dd centre (vadd p (vscale t w)))) 0 (component k (mat_vec (sphere_dn centre p) w)).
Proof.
  intros [[c1 c2] c3] radius [[p1 p2] p3] [[w1 w2] w3] N.
  assert (Q : 0 < (c1 - p1) * (c1 - p1) + (c2 - p2) * (c2 - p2) + (c3 - p3) * (c3 - p3)).
  { destruct (Req_dec (vdot (vsub (c1, c2, c3) (p1, p2, p3)) (vsub (c1, c2, c3) (p1, p2, p3))) 0) as [E|E].
    - apply vdot_zero in E. destruct N. injection E. intros. f_equal; [f_equal|]; lra.
    - pose proof (vdot_pos (vsub (c1, c2, c3) (p1, p2, p3))). simpl in *. lra. }
  assert (P : 0 < sqrt ((c1 - p1) * (c1 - p1) + (c2 - p2) * (c2 - p2) + (c3 - p3) * (c3 - p3))) by now apply sqrt_lt_R0.
  assert (SS := sqrt_sqrt _ (Rlt_le _ _ Q)).
  unfold distance, sphere_dn, sphere_dd, mat_vec, vnorm. cbn [vdot vsub vadd vscale vdiv].
  set (q := ((c1 - p1) * (c1 - p1) + (c2 - p2) * (c2 - p2) + (c3 - p3) * (c3 - p3))) in *. assert (Qe : ((c1 - p1) * (c1 - p1) + (c2 - p2) * (c2 - p2) + (c3 - p3) * (c3 - p3)) = q) by reflexivity. clearbody q. set (s := sqrt q) in *.
  assert (Se : forall x, x = q -> sqrt x = s) by (intros x ->; reflexivity). clearbody s.
  split.
  - apply is_derive_Reals. auto_derive.
    + repeat split. match goal with |- 0 < ?x => replace x with q by (rewrite <- Qe; ring) end. exact Q.
    + repeat match goal with |- context [sqrt ?x] => rewrite (Se x) by (rewrite <- Qe; ring) end. field. lra.
  - intros k K.
    assert (H : forall c p w', is_derive (fun t => (c - (p + t * w')) / sqrt ((c1 - (p1 + t * w1)) * (c1 - (p1 + t * w1)) + (c2 - (p2 + t * w2)) * (c2 - (p2 + t * w2)) + (c3 - (p3 + t * w3)) * (c3 - (p3 + t * w3)))) 0
       (- w' / s + (c - p) * ((c1 - p1) * w1 + (c2 - p2) * w2 + (c3 - p3) * w3) / (s * (s * s)))).
    { intros c p w'. auto_derive.
      - repeat match goal with |- context [sqrt ?x] => rewrite (Se x) by (rewrite <- Qe; ring) end.
        repeat split; auto; try (intros ?; lra);
        match goal with |- 0 < ?x => replace x with q by (rewrite <- Qe; ring); exact Q end.
      - repeat match goal with |- context [sqrt ?x] => rewrite (Se x) by (rewrite <- Qe; ring) end. field. lra. }
    destruct k as [|[|[|k]]]; try lia; cbn [component]; apply is_derive_Reals.
    + match goal with |- is_derive _ _ ?y => replace y with (- w1 / s + (c1 - p1) * ((c1 - p1) * w1 + (c2 - p2) * w2 + (c3 - p3) * w3) / (s * (s * s))) end; [apply (H c1 p1 w1)|field; lra].
    + match goal with |- is_derive _ _ ?y => replace y with (- w2 / s + (c2 - p2) * ((c1 - p1) * w1 + (c2 - p2) * w2 + (c3 - p3) * w3) / (s * (s * s))) end; [apply (H c2 p2 w2)|field; lra].
    + match goal with |- is_derive _ _ ?y => replace y with (- w3 / s + (c3 - p3) * ((c1 - p1) * w1 + (c2 - p2) * w2 + (c3 - p3) * w3) / (s * (s * s))) end; [apply (H c3 p3 w3)|field; lra].
Qed.

Print Assumptions C208_face_basis.
Print Assumptions C209_plane.
Print Assumptions C209_sphere.
Print Assumptions C209_centre_refuted.
Print Assumptions C209_centre_normal_refuted.
Print Assumptions C209_mask.
Print Assumptions C209_derivatives.
