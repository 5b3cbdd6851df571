(** C77: points in polygons (flag_points_in_polygon2d). *)
From Coq Require Import Reals List Bool Lra Lia.
From Verif Require Import M_geom P_geom.
Import ListNotations.
Set Implicit Arguments.
Local Open Scope R_scope.

(** ** Specification. *)
(** Twice the signed area of the triangle [a b c]: positive if counterclockwise. *)
Definition orient (a b c : pt) : R :=
  (fst b - fst a) * (snd c - snd a) - (snd b - snd a) * (fst c - fst a).
(** Strict interior of a triangle: positive barycentric coordinates. *)
Definition strictly_inside (p a b c : pt) : Prop :=
  exists wa wb wc, 0 < wa /\ 0 < wb /\ 0 < wc /\ wa + wb + wc = 1 /\
    fst p = wa * fst a + wb * fst b + wc * fst c /\
    snd p = wa * snd a + wb * snd b + wc * snd c.
(** [p] is not on the lines through the sides. *)
Definition off_lines (p a b c : pt) : Prop :=
  orient a b p <> 0 /\ orient b c p <> 0 /\ orient c a p <> 0.
(** [is] tells which triangles of the fan (a; consecutive vertices) contain p. *)
Fixpoint fan_membership (p a : pt) (l : list pt) (is : list bool) : Prop :=
  match l, is with
  | u :: (v :: _) as t, i :: is' =>
      (i = true <-> strictly_inside p a u v) /\ fan_membership p a t is'
  | [_], [] => True
  | _, _ => False
  end.
Fixpoint fan_off_lines (p a : pt) (l : list pt) : Prop :=
  match l with
  | u :: (v :: _) as t => off_lines p a u v /\ fan_off_lines p a t
  | _ => True
  end.
(** Strictly convex polygon, counterclockwise. *)
Definition convex_ccw (poly : list pt) : Prop :=
  forall i j k, (i < j < k)%nat -> (k < length poly)%nat ->
    0 < orient (nth i poly (0, 0)) (nth j poly (0, 0)) (nth k poly (0, 0)).
(** On the left of all sides. *)
Definition left_of_sides (poly : list pt) (p : pt) : Prop :=
  forall i, (i < length poly)%nat ->
    0 < orient (nth i poly (0, 0)) (nth (S i mod length poly) poly (0, 0)) p.

(** ** Crossing parity. *)
Definition cr (p a b : pt) : bool := edge_toggle p a b false.
Lemma edge_toggle_xor : forall p a b f, edge_toggle p a b f = xorb f (cr p a b).
Proof.
  intros [px py] [ax ay] [bx by_] f. unfold cr, edge_toggle.
  destruct (xorb _ _); [destruct (Rltb px _)|]; destruct f; reflexivity.
Qed.
Fixpoint par (p prev : pt) (l : list pt) : bool :=
  match l with [] => false | v :: t => xorb (cr p v prev) (par p v t) end.
Lemma loop_par : forall p l prev f, polygon_loop p prev l f = xorb f (par p prev l).
Proof.
  intros p l; induction l as [|v l IH]; intros prev f; simpl; [destruct f; auto|].
  rewrite IH, edge_toggle_xor. rewrite xorb_assoc. auto.
Qed.
(** The crossing test in terms of orientations. *)
Lemma cr_spec : forall p a b, cr p a b =
  (Rltb (snd p) (snd a) && Rleb (snd b) (snd p) && Rltb (orient a b p) 0)
  || (Rleb (snd a) (snd p) && Rltb (snd p) (snd b) && Rltb 0 (orient a b p)).
Proof.
  intros [px py] [ax ay] [bx by_]. unfold cr, edge_toggle, orient. simpl fst; simpl snd.
  destruct (Rltb py ay) eqn:E1; destruct (Rltb py by_) eqn:E2; simpl xorb; cbv iota.
  - apply Rltb_true in E1, E2.
    replace (Rleb by_ py) with false by (symmetry; unfold Rleb; destruct (Rle_dec by_ py); auto; lra).
    replace (Rleb ay py) with false by (symmetry; unfold Rleb; destruct (Rle_dec ay py); auto; lra).
    reflexivity.
  - apply Rltb_true in E1. apply Rltb_false in E2.
    replace (Rleb by_ py) with true by (symmetry; apply Rleb_true; lra).
    replace (Rleb ay py) with false by (symmetry; unfold Rleb; destruct (Rle_dec ay py); auto; lra).
    simpl. rewrite orb_false_r.
    set (q := (bx - ax) * (py - ay) / (by_ - ay)).
    assert (Q : q * (by_ - ay) = (bx - ax) * (py - ay)) by (unfold q; field; lra).
    unfold Rltb. destruct (Rlt_dec px (q + ax)), (Rlt_dec ((bx - ax) * (py - ay) - (by_ - ay) * (px - ax)) 0); auto; exfalso; nra.
  - apply Rltb_false in E1. apply Rltb_true in E2.
    replace (Rleb by_ py) with false by (symmetry; unfold Rleb; destruct (Rle_dec by_ py); auto; lra).
    replace (Rleb ay py) with true by (symmetry; apply Rleb_true; lra).
    simpl.
    set (q := (bx - ax) * (py - ay) / (by_ - ay)).
    assert (Q : q * (by_ - ay) = (bx - ax) * (py - ay)) by (unfold q; field; lra).
    unfold Rltb. destruct (Rlt_dec px (q + ax)), (Rlt_dec 0 ((bx - ax) * (py - ay) - (by_ - ay) * (px - ax))); auto; exfalso; nra.
  - apply Rltb_false in E1, E2.
    rewrite !andb_false_r. reflexivity.
Qed.
Lemma orient_swap : forall a b c, orient b a c = - orient a b c.
Proof. intros [? ?] [? ?] [? ?]; unfold orient; simpl; ring. Qed.
Lemma orient_cyc : forall a b c, orient b c a = orient a b c.
Proof. intros [? ?] [? ?] [? ?]; unfold orient; simpl; ring. Qed.
Lemma cr_sym : forall p a b, cr p a b = cr p b a.
Proof.
  intros p a b. rewrite !cr_spec, (orient_swap a b p).
  assert (H1 : Rltb (- orient a b p) 0 = Rltb 0 (orient a b p)).
  { unfold Rltb. destruct (Rlt_dec (- orient a b p) 0), (Rlt_dec 0 (orient a b p)); auto; lra. }
  assert (H2 : Rltb 0 (- orient a b p) = Rltb (orient a b p) 0).
  { unfold Rltb. destruct (Rlt_dec 0 (- orient a b p)), (Rlt_dec (orient a b p) 0); auto; lra. }
  rewrite H1, H2, orb_comm.
  f_equal; f_equal; apply andb_comm.
Qed.
Lemma cr_refl : forall p a, cr p a a = false.
Proof.
  intros p a. rewrite cr_spec.
  assert (E : orient a a p = 0) by (destruct a, p; unfold orient; simpl; ring).
  rewrite E. replace (Rltb 0 0) with false by (symmetry; apply Rltb_false; lra).
  rewrite !andb_false_r. reflexivity.
Qed.

(** Barycentric identities. *)
Lemma orient_sum : forall p a b c, orient a b p + orient b c p + orient c a p = orient a b c.
Proof. intros [? ?] [? ?] [? ?] [? ?]; unfold orient; simpl; ring. Qed.
Lemma orient_y : forall p a b c,
  orient b c p * (snd a - snd p) + orient c a p * (snd b - snd p) + orient a b p * (snd c - snd p) = 0.
Proof. intros [? ?] [? ?] [? ?] [? ?]; unfold orient; simpl; ring. Qed.
Lemma orient_x : forall p a b c,
  orient b c p * (fst a - fst p) + orient c a p * (fst b - fst p) + orient a b p * (fst c - fst p) = 0.
Proof. intros [? ?] [? ?] [? ?] [? ?]; unfold orient; simpl; ring. Qed.

Lemma inside_orient : forall p a b c, off_lines p a b c ->
  (strictly_inside p a b c <->
   (0 < orient a b p /\ 0 < orient b c p /\ 0 < orient c a p) \/
   (orient a b p < 0 /\ orient b c p < 0 /\ orient c a p < 0)).
Proof.
  intros p a b c (N1 & N2 & N3).
  pose proof (orient_sum p a b c) as S. pose proof (orient_x p a b c) as X.
  pose proof (orient_y p a b c) as Y.
  split.
  - intros (wa & wb & wc & Ha & Hb & Hc & Hs & Hx & Hy).
    assert (Ec : orient a b p = wc * orient a b c).
    { destruct p, a, b, c; unfold orient in *; simpl in *; subst.
      replace wa with (1 - wb - wc) by lra. ring. }
    assert (Ea : orient b c p = wa * orient a b c).
    { destruct p, a, b, c; unfold orient in *; simpl in *; subst.
      replace wa with (1 - wb - wc) by lra. ring. }
    assert (Eb : orient c a p = wb * orient a b c).
    { destruct p, a, b, c; unfold orient in *; simpl in *; subst.
      replace wa with (1 - wb - wc) by lra. ring. }
    destruct (Rtotal_order (orient a b c) 0) as [D|[D|D]].
    + right. rewrite Ea, Eb, Ec. repeat split; nra.
    + exfalso. apply N1. rewrite Ec, D. ring.
    + left. rewrite Ea, Eb, Ec. repeat split; nra.
  - intros H. set (D := orient a b c) in *.
    set (oa := orient b c p) in *. set (ob := orient c a p) in *. set (oc := orient a b p) in *.
    assert (HD : D <> 0) by lra.
    exists (oa / D), (ob / D), (oc / D).
    assert (P : 0 < oa / D /\ 0 < ob / D /\ 0 < oc / D).
    { destruct H as [(H1 & H2 & H3)|(H1 & H2 & H3)].
      - assert (0 < D) by lra. repeat split; apply Rdiv_lt_0_compat; auto.
      - assert (D < 0) by lra.
        assert (forall x, x < 0 -> 0 < x / D).
        { intros x Hx. replace (x / D) with ((- x) / (- D)) by (field; lra).
          apply Rdiv_lt_0_compat; lra. }
        repeat split; auto. }
    destruct P as (P1 & P2 & P3). repeat split; auto.
    + rewrite <- S. field. rewrite S. exact HD.
    + apply (Rmult_eq_reg_l D); auto.
      replace (D * (oa / D * fst a + ob / D * fst b + oc / D * fst c))
        with (oa * fst a + ob * fst b + oc * fst c) by (field; auto). nra.
    + apply (Rmult_eq_reg_l D); auto.
      replace (D * (oa / D * snd a + ob / D * snd b + oc / D * snd c))
        with (oa * snd a + ob * snd b + oc * snd c) by (field; auto). nra.
Qed.

(** ** Triangles. *)
Ltac dec_all := repeat match goal with
  | |- context [Rltb ?x ?y] => unfold Rltb; destruct (Rlt_dec x y)
  | |- context [Rleb ?x ?y] => unfold Rleb; destruct (Rle_dec x y)
  | |- context [Rlt_dec ?x ?y] => destruct (Rlt_dec x y)
  | |- context [Rle_dec ?x ?y] => destruct (Rle_dec x y)
  end.
Lemma triangle_parity : forall p a b c, off_lines p a b c ->
  (xorb (cr p a c) (xorb (cr p b a) (cr p c b)) = true <->
   (0 < orient a b p /\ 0 < orient b c p /\ 0 < orient c a p) \/
   (orient a b p < 0 /\ orient b c p < 0 /\ orient c a p < 0)).
Proof.
  intros p a b c (N1 & N2 & N3).
  rewrite (cr_sym p a c), (cr_sym p b a), (cr_sym p c b).
  rewrite !cr_spec.
  pose proof (orient_y p a b c) as Y.
  pose proof (orient_sum p a b c) as S.
  set (oc := orient a b p) in *. set (oa := orient b c p) in *. set (ob := orient c a p) in *.
  set (ya := snd a) in *. set (yb := snd b) in *. set (yc := snd c) in *. set (y := snd p) in *.
  assert (Z1 : yb = y -> yc = y -> oa = 0).
  { intros Hb Hc. unfold oa, orient. fold yb yc y. rewrite Hb, Hc. ring. }
  clearbody oa ob oc ya yb yc y. clear S.
  assert (NBp : ya <= y -> yb <= y -> yc <= y -> 0 < oa -> 0 < ob -> 0 < oc -> False).
  { intros Ha Hb Hc Oa Ob Oc.
    assert (oa * (ya - y) <= 0) by nra. assert (ob * (yb - y) <= 0) by nra.
    assert (oc * (yc - y) <= 0) by nra.
    assert (Eb : ob * (yb - y) = 0) by lra. assert (Ec : oc * (yc - y) = 0) by lra.
    apply Rmult_integral in Eb, Ec. assert (oa = 0) by (apply Z1; lra). lra. }
  assert (NBn : ya <= y -> yb <= y -> yc <= y -> oa < 0 -> ob < 0 -> oc < 0 -> False).
  { intros Ha Hb Hc Oa Ob Oc.
    assert (0 <= oa * (ya - y)) by nra. assert (0 <= ob * (yb - y)) by nra.
    assert (0 <= oc * (yc - y)) by nra.
    assert (Eb : ob * (yb - y) = 0) by lra. assert (Ec : oc * (yc - y) = 0) by lra.
    apply Rmult_integral in Eb, Ec. assert (oa = 0) by (apply Z1; lra). lra. }
  clear Z1.
  assert (Hlt : forall x z : R, {x < z} + {z <= x}).
  { intros x z. destruct (Rlt_dec x z); [left; auto|right; lra]. }
  assert (T : forall x z, x < z -> Rltb x z = true) by (intros; apply Rltb_true; auto).
  assert (F : forall x z, z <= x -> Rltb x z = false) by (intros; apply Rltb_false; auto).
  assert (T' : forall x z, x <= z -> Rleb x z = true) by (intros; apply Rleb_true; auto).
  assert (F' : forall x z, z < x -> Rleb x z = false)
    by (intros x z Hxz; unfold Rleb; destruct (Rle_dec x z); auto; lra).
  destruct (Hlt y ya) as [Ha|Ha], (Hlt y yb) as [Hb|Hb], (Hlt y yc) as [Hc|Hc];
    rewrite ?(T y ya Ha), ?(F y ya Ha), ?(T' ya y Ha), ?(F' ya y Ha),
            ?(T y yb Hb), ?(F y yb Hb), ?(T' yb y Hb), ?(F' yb y Hb),
            ?(T y yc Hc), ?(F y yc Hc), ?(T' yc y Hc), ?(F' yc y Hc);
    cbn [andb orb xorb];
    rewrite ?orb_false_r;
    (destruct (Hlt oa 0) as [Oa|Oa]; [|assert (Oa' : 0 < oa) by lra]);
    (destruct (Hlt ob 0) as [Ob|Ob]; [|assert (Ob' : 0 < ob) by lra]);
    (destruct (Hlt oc 0) as [Oc|Oc]; [|assert (Oc' : 0 < oc) by lra]);
    rewrite ?(T oa 0), ?(F oa 0), ?(T 0 oa), ?(F 0 oa) by lra;
    rewrite ?(T ob 0), ?(F ob 0), ?(T 0 ob), ?(F 0 ob) by lra;
    rewrite ?(T oc 0), ?(F oc 0), ?(T 0 oc), ?(F 0 oc) by lra;
    cbn [andb orb xorb];
    (split; intros Hx;
      [ first [discriminate Hx | left; repeat split; lra | right; repeat split; lra | exfalso; clear NBp NBn; nra]
      | first [reflexivity | exfalso; lra | exfalso; apply NBp; lra | exfalso; apply NBn; lra | exfalso; clear NBp NBn; nra] ]).
Qed.

Theorem C77_triangle : forall p a b c, off_lines p a b c ->
  (in_polygon [a; b; c] p = true <-> strictly_inside p a b c).
Proof.
  intros p a b c H. rewrite inside_orient by auto. rewrite <- triangle_parity by auto.
  unfold in_polygon. rewrite loop_par, xorb_false_l. cbn [par last]. rewrite xorb_false_r. tauto.
Qed.

(** ** Any polygon: the fan of triangles from the first vertex. *)
Definition tri (p a u v : pt) : bool := xorb (cr p a v) (xorb (cr p u a) (cr p v u)).
Fixpoint fan (p a : pt) (l : list pt) : bool :=
  match l with
  | u :: ((v :: _) as t) => xorb (tri p a u v) (fan p a t)
  | _ => false
  end.
Lemma fan_cons : forall p a u v l, fan p a (u :: v :: l) = xorb (tri p a u v) (fan p a (v :: l)).
Proof. reflexivity. Qed.
Lemma par_fan : forall p a l u, xorb (cr p a (last (u :: l) (0, 0))) (xorb (cr p u a) (par p u l))
  = fan p a (u :: l).
Proof.
  intros p a l; induction l as [|v l IH]; intros u.
  - simpl. rewrite xorb_false_r, (cr_sym p u a). apply xorb_nilpotent.
  - change (last (u :: v :: l) (0, 0)) with (last (v :: l) (0, 0)).
    cbn [par]. rewrite fan_cons, <- IH. unfold tri. rewrite (cr_sym p v a).
    destruct (cr p a (last (v :: l) (0, 0))), (cr p u a), (cr p v u), (cr p a v), (par p v l); reflexivity.
Qed.
Lemma in_polygon_fan : forall p a u l, in_polygon (a :: u :: l) p = fan p a (u :: l).
Proof.
  intros p a u l. unfold in_polygon. rewrite loop_par, xorb_false_l.
  change (last (a :: u :: l) (0, 0)) with (last (u :: l) (0, 0)).
  cbn [par]. apply par_fan.
Qed.

(** The even-odd rule: the flag is the parity of the number of the fan
    triangles that contain the point. *)
Theorem C77_even_odd : forall p a u l is, fan_off_lines p a (u :: l) ->
  fan_membership p a (u :: l) is ->
  in_polygon (a :: u :: l) p = fold_right xorb false is.
Proof.
  intros p a u l is. rewrite in_polygon_fan. revert u is.
  induction l as [|v l IH]; intros u is Ho Hm.
  - destruct is; [reflexivity|destruct Hm].
  - destruct is as [|i is]; [destruct Hm|]. destruct Ho as [Ho Ho']. destruct Hm as [Hm Hm'].
    cbn [fold_right]. rewrite fan_cons, (IH v is Ho' Hm'). f_equal.
    apply eq_iff_eq_true. rewrite Hm. rewrite inside_orient by auto.
    unfold tri. rewrite triangle_parity by auto. tauto.
Qed.

(** ** Convex polygons. *)
Lemma orient_plucker : forall a x u w q,
  orient a x u * orient a w q - orient a x w * orient a u q + orient a x q * orient a u w = 0.
Proof. intros [? ?] [? ?] [? ?] [? ?] [? ?]; unfold orient; simpl; ring. Qed.
Lemma plucker_neg : forall x1 oq x2 x5 x4 x3, x1 * oq - x2 * x5 + x4 * x3 = 0 ->
  0 < x1 -> 0 < x2 -> 0 < x3 -> 0 < x4 -> x5 < 0 -> oq < 0.
Proof.
  intros x1 oq x2 x5 x4 x3 H H1 H2 H3 H4 H5.
  assert (0 < x2 * - x5) by (apply Rmult_lt_0_compat; lra).
  assert (0 < x4 * x3) by (apply Rmult_lt_0_compat; lra).
  assert (x1 * oq < 0) by lra.
  destruct (Rlt_dec oq 0); auto. exfalso. nra.
Qed.
Lemma orient_affine : forall e f p a b c wa wb wc, wa + wb + wc = 1 ->
  fst p = wa * fst a + wb * fst b + wc * fst c ->
  snd p = wa * snd a + wb * snd b + wc * snd c ->
  orient e f p = wa * orient e f a + wb * orient e f b + wc * orient e f c.
Proof.
  intros [? ?] [? ?] [? ?] [? ?] [? ?] [? ?] wa wb wc H; unfold orient; simpl; intros -> ->.
  replace wa with (1 - wb - wc) by lra. ring.
Qed.

(** Sign sequence: from left of (a, first) to right of (a, last) there is
    exactly one change. *)
Lemma fan_left : forall (p a : pt) (l : list pt) (u : pt),
  (forall i, (S i < length (u :: l))%nat -> 0 < orient a (nth i (u :: l) (0, 0)) (nth (S i) (u :: l) (0, 0))) ->
  (forall i, (S i < length (u :: l))%nat -> 0 < orient (nth i (u :: l) (0, 0)) (nth (S i) (u :: l) (0, 0)) p) ->
  (forall i, (i < length (u :: l))%nat -> orient a (nth i (u :: l) (0, 0)) p <> 0) ->
  (* once negative, negative *)
  (forall i, (S i < length (u :: l))%nat -> orient a (nth i (u :: l) (0, 0)) p < 0 ->
     orient a (nth (S i) (u :: l) (0, 0)) p < 0) ->
  orient a (last (u :: l) (0, 0)) p < 0 ->
  fan p a (u :: l) = Rltb 0 (orient a u p).
Proof.
  intros p a l; induction l as [|v l IH]; intros u Hc Hs Hn Hm Hl.
  - simpl in *. symmetry. apply Rltb_false. lra.
  - change (last (u :: v :: l) (0, 0)) with (last (v :: l) (0, 0)) in Hl.
    assert (C0 := Hc 0%nat ltac:(simpl; lia)). assert (S0 := Hs 0%nat ltac:(simpl; lia)).
    assert (N0 := Hn 0%nat ltac:(simpl; lia)). assert (N1 := Hn 1%nat ltac:(simpl; lia)).
    assert (M0 := Hm 0%nat ltac:(simpl; lia)).
    cbn [nth] in C0, S0, N0, N1, M0.
    rewrite fan_cons, IH; auto.
    2: intros i Hi; apply (Hc (S i)); simpl in *; lia.
    2: intros i Hi; apply (Hs (S i)); simpl in *; lia.
    2: intros i Hi; apply (Hn (S i)); simpl in *; lia.
    2: intros i Hi; apply (Hm (S i)); simpl in *; lia.
    assert (HT : tri p a u v = true <-> 0 < orient a u p /\ orient a v p < 0).
    { unfold tri. rewrite triangle_parity.
      - rewrite (orient_swap a v p). split.
        + intros [(H1 & H2 & H3)|(H1 & H2 & H3)]; [split; lra|lra].
        + intros [H1 H2]. left. repeat split; lra.
      - repeat split; auto; [lra|]. rewrite (orient_swap a v p). lra. }
    destruct (Rtotal_order (orient a u p) 0) as [U|[U|U]]; [|contradiction|].
    + replace (Rltb 0 (orient a u p)) with false by (symmetry; apply Rltb_false; lra).
      specialize (M0 U).
      replace (Rltb 0 (orient a v p)) with false by (symmetry; apply Rltb_false; lra).
      destruct (tri p a u v); auto. exfalso. assert (HH := proj1 HT eq_refl). lra.
    + replace (Rltb 0 (orient a u p)) with true by (symmetry; apply Rltb_true; lra).
      destruct (Rtotal_order (orient a v p) 0) as [V|[V|V]]; [|contradiction|].
      * replace (Rltb 0 (orient a v p)) with false by (symmetry; apply Rltb_false; lra).
        rewrite (proj2 HT) by lra. reflexivity.
      * replace (Rltb 0 (orient a v p)) with true by (symmetry; apply Rltb_true; lra).
        destruct (tri p a u v); auto. exfalso. assert (HH := proj1 HT eq_refl). lra.
Qed.

Lemma fan_true_ex : forall p a l, fan p a l = true ->
  exists i, (S i < length l)%nat /\ tri p a (nth i l (0, 0)) (nth (S i) l (0, 0)) = true.
Proof.
  intros p a l; induction l as [|u l IH]; intros H; [discriminate|].
  destruct l as [|v l]; [discriminate|]. rewrite fan_cons in H.
  destruct (tri p a u v) eqn:E.
  - exists 0%nat. split; [simpl; lia|auto].
  - rewrite xorb_false_l in H. destruct (IH H) as [i [Hi Ht]]. exists (S i).
    split; [simpl in *; lia|auto].
Qed.
Lemma nth_last : forall (l : list pt) d, l <> [] -> last l d = nth (length l - 1) l d.
Proof.
  induction l as [|x l IH]; intros d H; [congruence|]. destruct l as [|y l]; [reflexivity|].
  change (last (x :: y :: l) d) with (last (y :: l) d). rewrite IH by discriminate. simpl. f_equal.
  rewrite Nat.sub_0_r. auto.
Qed.

(** For a strictly convex polygon the flag is the interior. *)
Theorem C77_convex : forall poly p, (3 <= length poly)%nat -> convex_ccw poly ->
  (forall i, (0 < i < length poly)%nat -> orient (nth 0 poly (0, 0)) (nth i poly (0, 0)) p <> 0) ->
  (forall i, (i < length poly)%nat ->
     orient (nth i poly (0, 0)) (nth (S i mod length poly) poly (0, 0)) p <> 0) ->
  (in_polygon poly p = true <-> left_of_sides poly p).
Proof.
  intros poly p Hlen Hcv Hn Hs.
  destruct poly as [|a [|u l]]; simpl in Hlen; try lia.
  set (n := length (a :: u :: l)) in *.
  rewrite in_polygon_fan.
  assert (NT : forall i, (i < length (u :: l))%nat -> nth i (u :: l) (0, 0) = nth (S i) (a :: u :: l) (0, 0)) by reflexivity.
  assert (Ln : length (u :: l) = (n - 1)%nat) by (unfold n; simpl; lia).
  assert (Hn3 : (3 <= n)%nat) by (unfold n; simpl; lia).
  assert (Ccw : forall i, (S i < length (u :: l))%nat ->
     0 < orient a (nth i (u :: l) (0, 0)) (nth (S i) (u :: l) (0, 0))).
  { intros i Hi. rewrite !NT by lia. apply (Hcv 0%nat (S i) (S (S i))); fold n; lia. }
  split.
  - (* a fan triangle contains the point *)
    intros H. apply fan_true_ex in H. destruct H as [i [Hi Ht]].
    rewrite !NT in Ht by lia.
    assert (Hedge := Hs (S i) ltac:(fold n; lia)). fold n in Hedge.
    rewrite Nat.mod_small in Hedge by lia.
    assert (Off : off_lines p a (nth (S i) (a :: u :: l) (0, 0)) (nth (S (S i)) (a :: u :: l) (0, 0))).
    { repeat split.
      - apply (Hn (S i)). fold n. lia.
      - exact Hedge.
      - rewrite orient_swap. intros F. apply (Hn (S (S i))); [fold n; lia|]. simpl nth at 1. lra. }
    unfold tri in Ht. rewrite triangle_parity in Ht by auto.
    apply inside_orient in Ht; auto.
    destruct Ht as (wa & wb & wc & Wa & Wb & Wc & Ws & Wx & Wy).
    intros k Hk. fold n in Hk. fold n.
    specialize (Hs k Hk). fold n in Hs.
    assert (G : forall j, (j < n)%nat ->
      0 <= orient (nth k (a :: u :: l) (0, 0)) (nth (S k mod n) (a :: u :: l) (0, 0)) (nth j (a :: u :: l) (0, 0))).
    { intros j Hj.
      assert (Same : forall x y, orient x y x = 0) by (intros [? ?] [? ?]; unfold orient; simpl; ring).
      assert (Same2 : forall x y, orient x y y = 0) by (intros [? ?] [? ?]; unfold orient; simpl; ring).
      destruct (Nat.eq_dec (S k) n) as [Ek|Ek].
      - rewrite Ek, Nat.mod_same by lia.
        destruct (Nat.eq_dec j 0) as [->|Hj0]; [rewrite Same2; lra|].
        destruct (Nat.eq_dec j k) as [->|Hjk]; [rewrite Same; lra|].
        rewrite <- orient_cyc. left. apply (Hcv 0%nat j k); fold n; lia.
      - rewrite Nat.mod_small by lia.
        destruct (Nat.eq_dec j k) as [->|Hjk]; [rewrite Same; lra|].
        destruct (Nat.eq_dec j (S k)) as [->|Hjk2]; [rewrite Same2; lra|].
        destruct (Nat.lt_ge_cases j k).
        + rewrite orient_cyc. left. apply (Hcv j k (S k)); fold n; lia.
        + left. apply (Hcv k (S k) j); fold n; lia. }
    assert (E := @orient_affine (nth k (a :: u :: l) (0, 0)) (nth (S k mod n) (a :: u :: l) (0, 0)) p
                   a _ _ wa wb wc Ws Wx Wy).
    assert (G0 := G 0%nat ltac:(lia)). assert (G1 := G (S i) ltac:(lia)).
    assert (G2 := G (S (S i)) ltac:(lia)). simpl nth in G0 at 3.
    set (o := orient _ _ p) in *.
    assert (0 <= o); [|lra]. rewrite E. 
    assert (P0 := Rmult_le_pos _ _ (Rlt_le _ _ Wa) G0).
    assert (P1 := Rmult_le_pos _ _ (Rlt_le _ _ Wb) G1).
    assert (P2 := Rmult_le_pos _ _ (Rlt_le _ _ Wc) G2). lra.
  - intros Hleft.
    assert (L0 := Hleft 0%nat ltac:(fold n; lia)). fold n in L0. rewrite Nat.mod_small in L0 by lia.
    assert (L1 := Hleft (n - 1)%nat ltac:(fold n; lia)). fold n in L1.
    replace (S (n - 1)) with n in L1 by lia. rewrite Nat.mod_same in L1 by lia.
    simpl nth in L0. change (nth 0 (a :: u :: l) (0, 0)) with a in L1.
    rewrite fan_left.
    + apply Rltb_true. exact L0.
    + exact Ccw.
    + intros i Hi.
      assert (Hl := Hleft (S i) ltac:(fold n; lia)). fold n in Hl.
      rewrite Nat.mod_small in Hl by lia. exact Hl.
    + intros i Hi. apply (Hn (S i)). fold n. lia.
    + intros i Hi Hneg. change (orient a (nth (S i) (a :: u :: l) (0, 0)) p < 0) in Hneg.
      change (orient a (nth (S (S i)) (a :: u :: l) (0, 0)) p < 0).
      destruct i as [|i].
      * simpl nth in Hneg. lra.
      * assert (P := orient_plucker a u (nth (S (S i)) (a :: u :: l) (0, 0)) (nth (S (S (S i))) (a :: u :: l) (0, 0)) p).
        assert (A1 : 0 < orient a u (nth (S (S i)) (a :: u :: l) (0, 0)))
          by (apply (Hcv 0%nat 1%nat (S (S i))); fold n; lia).
        assert (A2 : 0 < orient a u (nth (S (S (S i))) (a :: u :: l) (0, 0)))
          by (apply (Hcv 0%nat 1%nat (S (S (S i)))); fold n; lia).
        assert (A3 : 0 < orient a (nth (S (S i)) (a :: u :: l) (0, 0)) (nth (S (S (S i))) (a :: u :: l) (0, 0)))
          by (apply (Hcv 0%nat (S (S i)) (S (S (S i)))); fold n; lia).
        exact (@plucker_neg _ _ _ _ _ _ P A1 A2 A3 L0 Hneg).
    + rewrite nth_last by discriminate. rewrite NT by (simpl; lia).
      replace (S (length (u :: l) - 1)) with (n - 1)%nat by lia.
      pose proof (orient_swap a (nth (n - 1) (a :: u :: l) (0, 0)) p) as Q. lra.
Qed.

(** Witness: a square and two points. *)
Definition square : list pt := [(0, 0); (2, 0); (2, 2); (0, 2)].
Example C77_ex : convex_ccw square /\ left_of_sides square (1, 1 / 2).
Proof.
  split.
  - intros i j k Hijk Hk. simpl in Hk.
    destruct i as [|[|[|[|i]]]], j as [|[|[|[|j]]]], k as [|[|[|[|k]]]]; try lia;
      unfold orient; simpl; lra.
  - intros i Hi. simpl in Hi.
    destruct i as [|[|[|[|i]]]]; try lia; unfold orient; simpl; lra.
Qed.
Example C77_ex_generic :
  (forall i, (0 < i < 4)%nat -> orient (nth 0 square (0, 0)) (nth i square (0, 0)) (1, 1 / 2) <> 0).
Proof.
  intros i Hi. destruct i as [|[|[|[|i]]]]; try lia; unfold orient; simpl; lra.
Qed.
Print Assumptions C77_triangle.
Print Assumptions C77_even_odd.
Print Assumptions C77_convex.
