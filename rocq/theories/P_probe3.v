(** C203: circle probes. *)
From Coq Require Import Reals Lra Nsatz.
From Verif Require Import Base M_probe P_probe P_probe2.
Set Implicit Arguments.
Open Scope R_scope.

(** ** Specification *)
Definition dot (p q : point) : R := fold_right Rplus 0 (map (fun k => nth k p 0 * nth k q 0) (seq 0 (List.length p))).
(** The angle between the normal and the z axis is 0, pi, or its sine is at least 1/10. *)
Definition good_normal (n : R * R * R) : Prop :=
  let '(a, b, c) := n in (a = 0 /\ b = 0 /\ c <> 0) \/ (0 < a * a + b * b + c * c /\ (a * a + b * b + c * c) / 100 <= a * a + b * b).

Lemma unit_normal_ok : forall n, good_normal n ->
  let '(x, y, z) := n in let '(a, b, c) := unit_normal n in
  a * a + b * b + c * c = 1 /\ ((a = 0 /\ b = 0) \/ 1 / 100 <= a * a + b * b) /\
  exists k, 0 < k /\ x = k * a /\ y = k * b /\ z = k * c.
Proof.
  intros [[x y] z] G. unfold unit_normal, good_normal in *. set (k := pnorm [x; y; z]).
  assert (S : 0 < x * x + y * y + z * z).
  { destruct G as [(-> & -> & N)|[H _]]; auto. assert (0 < Rsqr z) by (apply Rsqr_pos_lt; auto). unfold Rsqr in *. lra. }
  assert (K : k * k = x * x + y * y + z * z).
  { unfold k, pnorm. rewrite sqrt_sqrt; [simpl; ring|]. simpl. lra. }
  assert (P : 0 < k). { unfold k, pnorm. apply sqrt_lt_R0. simpl. lra. }
  assert (E : x / k * (x / k) + y / k * (y / k) + z / k * (z / k) = 1).
  { replace (x / k * (x / k) + y / k * (y / k) + z / k * (z / k)) with ((x * x + y * y + z * z) / (k * k)) by (field; lra).
    rewrite <- K. field. lra. }
  split; [exact E|]. split.
  - destruct G as [(-> & -> & N)|[H1 H2]]; [left; split; unfold Rdiv; ring|right].
    apply (Rmult_le_reg_r (k * k)); [nra|]. replace ((x / k * (x / k) + y / k * (y / k)) * (k * k)) with (x * x + y * y) by (field; lra).
    rewrite K. lra.
  - exists k. split; auto. repeat split; field; lra.
Qed.

(** The rotated point. *)
Definition rot (n : R * R * R) (x y : R) : point :=
  let '(a, b, c) := unit_normal n in
  let axis := (0 * c - 1 * b, 1 * a - 0 * c, 0 * b - 0 * a) in
  let angle := acos (0 * a + 0 * b + 1 * c) in
  if Rlt_dec (pnorm [fst (fst axis); snd (fst axis); snd axis]) (1 / 10)
  then [x; y; 0]
  else row_times (x, y, 0) (rotation_matrix axis angle).
Lemma circle_rot : forall centre n r t, circle_point3 centre n r t = padd (rot n (r * cos t) (r * sin t)) centre.
Proof. intros centre n r t. unfold circle_point3, rot. destruct (unit_normal n) as [[a b] c]. reflexivity. Qed.

Lemma list3 : forall a b c a' b' c' : R, a = a' -> b = b' -> c = c' -> [a; b; c] = [a'; b'; c'].
Proof. intros. subst. reflexivity. Qed.
(** The rotation is a linear isometry onto the plane perpendicular to the normal. *)
Lemma rot_ok : forall n, good_normal n -> exists e1 e2 : R * R * R,
  let '(a, b, c) := n in let '(u1, u2, u3) := e1 in let '(v1, v2, v3) := e2 in
  u1 * u1 + u2 * u2 + u3 * u3 = 1 /\ v1 * v1 + v2 * v2 + v3 * v3 = 1 /\ u1 * v1 + u2 * v2 + u3 * v3 = 0 /\
  a * u1 + b * u2 + c * u3 = 0 /\ a * v1 + b * v2 + c * v3 = 0 /\
  forall x y, rot n x y = [x * u1 + y * v1; x * u2 + y * v2; x * u3 + y * v3].
Proof.
  intros [[n1 n2] n3] G. pose proof (unit_normal_ok _ G) as U. unfold rot.
  destruct (unit_normal (n1, n2, n3)) as [[a b] c]. destruct U as (U1 & U2 & k & K & -> & -> & ->). cbn [fst snd].
  replace (0 * a + 0 * b + 1 * c) with c by ring.
  destruct (Rlt_dec (pnorm [0 * c - 1 * b; 1 * a - 0 * c; 0 * b - 0 * a]) (1 / 10)) as [H|H].
  - assert (Z : a = 0 /\ b = 0).
    { destruct U2 as [Z|Z]; [exact Z|]. exfalso. apply (Rlt_not_le _ _ H). unfold pnorm. simpl.
      replace (1 / 10) with (sqrt (1 / 100)). 2: { replace (1 / 100) with (Rsqr (1 / 10)) by (unfold Rsqr; lra). rewrite sqrt_Rsqr; lra. }
      apply sqrt_le_1_alt. lra. }
    destruct Z as [-> ->]. exists (1, 0, 0), (0, 1, 0). repeat split; try ring. intros x y. apply list3; ring.
  - unfold rotation_matrix. set (s := pnorm _) in *.
    assert (S : s * s = a * a + b * b).
    { unfold s, pnorm. rewrite sqrt_sqrt; [simpl; ring|]. apply sumsq_pos. }
    assert (P : 0 < s) by lra.
    assert (Cb : -1 <= c <= 1). { pose proof (Rle_0_sqr a). pose proof (Rle_0_sqr b). unfold Rsqr in *. split; nra. }
    rewrite (@cos_acos c Cb), (@sin_acos c Cb).
    assert (E : sqrt (1 - Rsqr c) = s).
    { replace (1 - Rsqr c) with (Rsqr s) by (unfold Rsqr; lra). apply sqrt_Rsqr. lra. }
    rewrite E. replace (0 * c - 1 * b) with (- b) by ring. replace (1 * a - 0 * c) with a by ring.
    replace (0 * b - 0 * a) with 0 by ring. replace (0 / s) with 0 by (field; lra).
    set (d0 := - b / s). set (d1 := a / s).
    assert (D0 : b = - (s * d0)) by (unfold d0; field; lra). assert (D1 : a = s * d1) by (unfold d1; field; lra).
    clearbody d0 d1 s. subst a b. assert (Q : d0 * d0 + d1 * d1 = 1).
    { apply (Rmult_eq_reg_l (s * s)); [|nra]. lra. }
    assert (W : s * s + c * c = 1) by lra. clear U1 U2 S E H G Cb.
    exists (d0 * d0 + c * (1 - d0 * d0), d0 * d1 - c * (d0 * d1), - (s * d1)), (d0 * d1 - c * (d0 * d1), d1 * d1 + c * (1 - d1 * d1), s * d0).
    split; [nsatz|]. split; [nsatz|]. split; [nsatz|]. split; [nsatz|]. split; [nsatz|].
    intros x y. unfold row_times. simpl. apply list3; ring.
Qed.

Definition cpoint (c : R * R * R) : point := let '(x, y, z) := c in [x; y; z].
Lemma circle_point_ok : forall c n r, good_normal n ->
  (forall t, List.length (circle_point3 (cpoint c) n r t) = 3%nat /\
     dist (cpoint c) (circle_point3 (cpoint c) n r t) = Rabs r /\
     dot (cpoint n) (psub (circle_point3 (cpoint c) n r t) (cpoint c)) = 0) /\
  (forall t t', dist (circle_point3 (cpoint c) n r t) (circle_point3 (cpoint c) n r t') = sqrt (2 * r * r * (1 - cos (t - t')))) /\
  circle_point3 (cpoint c) n r (2 * PI) = circle_point3 (cpoint c) n r 0.
Proof.
  intros [[c1 c2] c3] n r G. destruct (rot_ok _ G) as ([[u1 u2] u3] & [[v1 v2] v3] & H). destruct n as [[a b] c].
  destruct H as (H1 & H2 & H3 & H4 & H5 & H6). cbn [cpoint].
  assert (F : forall t, circle_point3 [c1; c2; c3] (a, b, c) r t =
    [r * cos t * u1 + r * sin t * v1 + c1; r * cos t * u2 + r * sin t * v2 + c2; r * cos t * u3 + r * sin t * v3 + c3]).
  { intros t. rewrite circle_rot, H6. reflexivity. }
  split; [|split].
  - intros t. rewrite F. split; [reflexivity|]. pose proof (sin2_cos2 t) as T. unfold Rsqr in T. split.
    + unfold dist. cbn [List.length seq map fold_right nth]. rewrite <- sqrt_Rsqr_abs. f_equal. unfold Rsqr.
      set (C := cos t) in *. set (S := sin t) in *. clearbody C S. clear F H6. nsatz.
    + unfold dot, psub. cbn [List.length seq map fold_right nth combine fst snd]. clear T F H6. nsatz.
  - intros t t'. rewrite !F. unfold dist. cbn [List.length seq map fold_right nth]. f_equal. rewrite cos_minus.
    pose proof (sin2_cos2 t) as T. pose proof (sin2_cos2 t') as T'. unfold Rsqr in T, T'.
    set (C := cos t) in *. set (S := sin t) in *. set (C' := cos t') in *. set (S' := sin t') in *. clearbody C S C' S'. clear F H6. nsatz.
  - rewrite !F. rewrite cos_2PI, sin_2PI, cos_0, sin_0. reflexivity.
Qed.

Lemma removelast_map : forall A B (f : A -> B) l, removelast (map f l) = map f (removelast l).
Proof. intros A B f. induction l as [|a [|b l] IH]; auto. change (f a :: removelast (map f (b :: l)) = f a :: map f (removelast (b :: l))). now rewrite IH. Qed.
Lemma circle_pars_eq : forall n, circle_pars n = map (fun i => 0 + INR i * ((2 * PI - 0) / INR (n + 1 - 1))) (seq 0 n).
Proof.
  intros n. unfold circle_pars, linspace. rewrite removelast_map. f_equal. rewrite Nat.add_1_r, seq_S. apply removelast_last.
Qed.

(** C203: the points of a circle probe in 3D lie at the distance [r] from the centre in
    the plane perpendicular to the normal if this is parallel to the z axis or at
    least about six degrees off it (fixed and adaptive number of points); a positive
    number of points [n] gives [max n 2] points, evenly spaced along the circle. *)
Theorem C203_circle : forall ed hint fuel c n r k pars points, good_normal n -> 0 <= r ->
  circle_probe ed hint fuel (circle_point3 (cpoint c) n r) k = Ok (pars, points) ->
  List.length points = List.length pars /\
  forall p, In p points -> List.length p = 3%nat /\ dist (cpoint c) p = r /\ dot (cpoint n) (psub p (cpoint c)) = 0.
Proof.
  intros ed hint fuel c n r k pars points G Hr H. unfold circle_probe in H. destruct (set_n_point k) as [m q].
  assert (E : exists l, pars = l /\ points = map (circle_point3 (cpoint c) n r) l).
  { destruct q; cbn [bind] in H; [injection H as <- <-; eauto|].
    destruct (probe_loop _ _ _ _ _ _) as [l|]; [|discriminate]. cbn [bind] in H. injection H as <- <-. eauto. }
  destruct E as (l & -> & ->). split; [apply map_length|]. intros p I. apply in_map_iff in I. destruct I as (t & <- & _).
  destruct (circle_point_ok c n r G) as (A & _). destruct (A t) as (A1 & A2 & A3). rewrite A2. rewrite Rabs_right by lra. auto.
Qed.
Theorem C203_circle_fixed : forall ed hint fuel c n r k, good_normal n -> (0 < k)%Z ->
  let m := Z.to_nat (Z.max k 2) in
  exists pars points, circle_probe ed hint fuel (circle_point3 (cpoint c) n r) (Some k) = Ok (pars, points) /\
  List.length pars = m /\ List.length points = m /\
  (forall i, (i < m)%nat -> nth i pars 0 = 2 * PI * INR i / INR m) /\
  forall i j, (i < m)%nat -> (j < m)%nat ->
    dist (nth i points []) (nth j points []) = sqrt (2 * r * r * (1 - cos (2 * PI * (INR i - INR j) / INR m))).
Proof.
  intros ed hint fuel c n r k G K m. unfold circle_probe, set_n_point. rewrite (proj2 (Z.leb_gt k 0)) by lia. fold m. cbn [bind].
  assert (M : 0 < INR m) by (apply lt_0_INR; unfold m; lia).
  assert (X : forall i, (i < m)%nat -> nth i (circle_pars m) 0 = 2 * PI * INR i / INR m).
  { intros i I. rewrite circle_pars_eq, nth_map_seq by auto. replace (m + 1 - 1)%nat with m by lia. field. lra. }
  assert (Y : List.length (circle_pars m) = m) by (rewrite circle_pars_eq, map_length; apply seq_length).
  do 2 eexists. split; [reflexivity|]. rewrite map_length. split; auto. split; auto. split; auto.
  intros i j I J. destruct (circle_point_ok c n r G) as (_ & B & _).
  assert (W : forall i, (i < m)%nat -> nth i (map (circle_point3 (cpoint c) n r) (circle_pars m)) [] = circle_point3 (cpoint c) n r (2 * PI * INR i / INR m)).
  { intros l Hl. rewrite <- X by auto. rewrite nth_indep with (d' := circle_point3 (cpoint c) n r 0) by (rewrite map_length, Y; auto). apply map_nth. }
  rewrite !W by auto. rewrite B. do 4 f_equal. field. lra.
Qed.
Example C203_normals : good_normal (1, 0, 0) /\ good_normal (0, 0, -1) /\ good_normal (1, -2, 3).
Proof. unfold good_normal. repeat split; [right|left|right]; repeat split; lra. Qed.

(** C203: an adaptive circle probe without a size hint starts at the angle 0; its angles
    increase and are below 2 pi; no two neighbours on the circle are farther apart than
    the mean diameter of their elements.  The refinement ends. *)
Theorem C203_circle_adaptive : forall ed fuel c n r k pars points, good_normal n ->
  (match k with Some k => k | None => (-10)%Z end <= 0)%Z ->
  circle_probe ed None fuel (circle_point3 (cpoint c) n r) k = Ok (pars, points) ->
  points <> [] /\ List.length points = List.length pars /\ hd 0 pars = 0 /\
  (forall i, (i < List.length pars)%nat -> nth i pars 0 < 2 * PI) /\
  (forall i, (S i < List.length pars)%nat -> nth i pars 0 < nth (S i) pars 0) /\
  (forall i, (i < List.length pars)%nat ->
     let p := nth i points [] in let q := nth ((i + 1) mod List.length pars) points [] in
     dist p q <= allowed ed None p q).
Proof.
  intros ed fuel c n r k pars points G N H. unfold circle_probe in H. rewrite (adaptive_init k N) in H.
  set (m := Z.to_nat (Z.max (- match k with Some k => k | None => (-10)%Z end) 2)) in *. assert (M : (2 <= m)%nat) by (unfold m; lia).
  destruct (circle_point_ok c n r G) as (A & _ & Z). set (at_par := circle_point3 (cpoint c) n r) in *.
  destruct (probe_loop ed None fuel at_par (Some (2 * PI)) (circle_pars m)) as [out|] eqn:E; [|discriminate].
  cbn [bind] in H. injection H as <- <-.
  pose proof PI_RGT_0 as Pi.
  assert (Y : List.length (circle_pars m) = m) by (rewrite circle_pars_eq, map_length; apply seq_length).
  assert (NE : circle_pars m <> []) by (intros X; rewrite X in Y; simpl in Y; lia).
  assert (CL : circle_pars m ++ [2 * PI] = linspace 0 (2 * PI) (m + 1)).
  { unfold circle_pars. rewrite <- (@linspace_last (2 * PI) (m + 1)) at 2 by lia. symmetry. apply app_removelast_last.
    intros X. apply (f_equal (@List.length R)) in X. rewrite linspace_len in X. simpl in X. lia. }
  assert (C0 : closes None at_par (Some (2 * PI)) (circle_pars m)).
  { intros x Hx. injection Hx as <-. split; auto. rewrite Z. f_equal. rewrite circle_pars_eq. destruct m; [lia|]. simpl. ring. }
  assert (A0 : increasing (closed (Some (2 * PI)) (circle_pars m))).
  { unfold closed. rewrite CL. apply adj_imp with (P := fun x y => x < y /\ y - x <= 2 * PI); [tauto|]. apply linspace_adj; [lra|lia]. }
  destruct (@loop_result ed None at_par (Some (2 * PI)) fuel _ out NE C0 A0 E) as (R1 & R2 & R3 & R4 & R5 & R6).
  unfold closed in *. rewrite CL, linspace_hd in R2 by lia.
  assert (Hd : hd 0 out = 0) by (destruct out; [congruence|exact R2]).
  assert (Gn : forall i, (i < List.length out)%nat -> nth i (map at_par out) [] = at_par (nth i out 0)).
  { intros i I. rewrite nth_indep with (d' := at_par 0) by (rewrite map_length; auto). apply map_nth. }
  assert (Ln : List.length (out ++ [2 * PI]) = S (List.length out)) by (rewrite app_length; simpl; lia).
  assert (Inc : forall i, (S i < List.length out)%nat -> nth i out 0 < nth (S i) out 0).
  { intros i I. pose proof (@adj_nth _ _ i R5) as B. rewrite Ln in B. specialize (B ltac:(lia)). rewrite !app_nth1 in B by lia. exact B. }
  split; [intros X; apply map_eq_nil in X; congruence|]. split; [apply map_length|]. split; [exact Hd|]. split; [|split; [exact Inc|]].
  - intros i I. assert (Q : forall d i, (i + d + 1 = List.length out)%nat -> nth i out 0 < 2 * PI).
    { induction d as [|d IH]; intros i' I'.
      - pose proof (@adj_nth _ _ i' R5) as B. rewrite Ln in B. specialize (B ltac:(lia)). rewrite app_nth1 in B by lia.
        rewrite app_nth2 in B by lia. replace (S i' - List.length out)%nat with 0%nat in B by lia. exact B.
      - apply Rlt_trans with (nth (S i') out 0); [apply Inc; lia|apply IH; lia]. }
    apply (Q (List.length out - 1 - i)%nat). lia.
  - intros i I. set (p := nth i (map at_par out) []). set (q := nth ((i + 1) mod List.length out) (map at_par out) []). pose proof (@adj_nth _ _ i R6) as B. rewrite Ln in B. specialize (B ltac:(lia)). simpl in B. rewrite app_nth1 in B by lia.
    assert (Q : at_par (nth (S i) (out ++ [2 * PI]) 0) = q).
    { unfold q. destruct (Nat.eq_dec (S i) (List.length out)) as [e|e].
      - replace (i + 1)%nat with (List.length out) by lia. rewrite Nat.mod_same by lia. rewrite Gn by lia.
        rewrite app_nth2 by lia. replace (S i - List.length out)%nat with 0%nat by lia. cbn [nth]. rewrite Z. f_equal.
        rewrite <- Hd. destruct out; reflexivity.
      - rewrite Nat.mod_small by lia. rewrite Gn by lia. rewrite app_nth1 by lia. do 2 f_equal. lia. }
    unfold fl, too_far in B. rewrite Q in B. apply Rltb_false in B. unfold p. rewrite Gn by lia.
    rewrite <- sumsq_dist. 2: { unfold q. rewrite Gn by (apply Nat.mod_upper_bound; lia). now rewrite (proj1 (A _)), (proj1 (A _)). }
    unfold allowed. lra.
Qed.

Lemma chord : forall r u, 0 <= r -> sqrt (2 * r * r * (1 - cos u)) <= r * Rabs u.
Proof.
  intros r u Hr. replace (r * Rabs u) with (sqrt (Rsqr (r * u))).
  2: { rewrite sqrt_Rsqr_abs, Rabs_mult, (Rabs_right r); lra. }
  apply sqrt_le_1_alt. replace (cos u) with (1 - 2 * sin (u / 2) * sin (u / 2)) by (rewrite <- cos_2a_sin; f_equal; lra).
  assert (S : Rsqr (sin (u / 2)) <= Rsqr (u / 2)).
  { apply Rsqr_le_abs_1. destruct (Rtotal_order (u / 2) 0) as [L|[L|L]].
    - pose proof (sin_gt_x _ L). rewrite (Rabs_left (u / 2)) by lra. apply Rabs_le. split; [lra|].
      destruct (Rle_lt_dec (- PI) (u / 2)) as [T|T].
      + assert (0 <= sin (- (u / 2))) by (apply sin_ge_0; lra). rewrite sin_neg in *. lra.
      + pose proof (SIN_bound (u / 2)). pose proof PI2_1. lra.
    - rewrite L, sin_0. lra.
    - pose proof (sin_lt_x _ L). rewrite (Rabs_right (u / 2)) by lra. apply Rabs_le. split; [|lra].
      destruct (Rle_lt_dec (u / 2) PI) as [T|T].
      + assert (0 <= sin (u / 2)) by (apply sin_ge_0; lra). lra.
      + pose proof (SIN_bound (u / 2)). pose proof PI2_1. lra. }
  unfold Rsqr in *. replace (2 * r * r * (1 - (1 - 2 * sin (u / 2) * sin (u / 2)))) with (4 * (r * r) * (sin (u / 2) * sin (u / 2))) by ring.
  replace (r * u * (r * u)) with (4 * (r * r) * (u / 2 * (u / 2))) by field. apply Rmult_le_compat_l; [|exact S].
  pose proof (Rle_0_sqr r). unfold Rsqr in *. lra.
Qed.
Theorem C203_circle_ends : forall ed c n r k h, good_normal n -> 0 < r -> 0 < h -> (forall p, h <= ed p) ->
  exists fuel x, circle_probe ed None fuel (circle_point3 (cpoint c) n r) k = Ok x.
Proof.
  intros ed c n r k h G Hr Hh Hed. pose proof PI_RGT_0 as Pi. assert (H1 : 0 < h / r) by (apply Rdiv_lt_0_compat; lra).
  assert (H2 : 0 < 2 * PI) by lra.
  destruct (halves H2 H1) as [j K]. exists (S j). unfold circle_probe. pose proof (set_n_point_min k) as M.
  destruct (set_n_point k) as [m [q|]]; simpl in M; [eexists; reflexivity|].
  destruct (circle_point_ok c n r G) as (A & B & Z). set (at_par := circle_point3 (cpoint c) n r) in *.
  assert (Y : List.length (circle_pars m) = m) by (rewrite circle_pars_eq, map_length; apply seq_length).
  destruct (@loop_ends ed None at_par (Some (2 * PI)) (h / r) j (S j) (circle_pars m) (2 * PI)) as [out E].
  - intros a b ab ba. unfold fl, too_far. apply Rltb_false.
    rewrite sumsq_dist by (rewrite (proj1 (A a)), (proj1 (A b)); reflexivity). rewrite B.
    apply Rle_trans with (r * Rabs (a - b)); [apply chord; lra|]. rewrite Rabs_left by lra.
    pose proof (Hed (at_par a)). pose proof (Hed (at_par b)).
    assert (r * (b - a) <= r * (h / r)) by (apply Rmult_le_compat_l; lra). replace (r * (h / r)) with h in * by (field; lra). lra.
  - intros X; rewrite X in Y; simpl in Y; lia.
  - intros x Hx. injection Hx as <-. split; auto. rewrite Z. f_equal. rewrite circle_pars_eq. destruct m; [lia|]. simpl. ring.
  - unfold closed.
    assert (CL : circle_pars m ++ [2 * PI] = linspace 0 (2 * PI) (m + 1)).
    { unfold circle_pars. rewrite <- (@linspace_last (2 * PI) (m + 1)) at 2 by lia. symmetry. apply app_removelast_last.
      intros X. apply (f_equal (@List.length R)) in X. rewrite linspace_len in X. simpl in X. lia. }
    rewrite CL. apply adj_imp with (P := fun x y => x < y /\ y - x <= 2 * PI); [tauto|]. apply linspace_adj; [lra|lia].
  - exact K.
  - lia.
  - rewrite E. eexists; reflexivity.
Qed.

(** C203: a size hint makes every adaptive circle probe fail with [NameError]. *)
Theorem C203_size_hint_refuted : forall ed h fuel at_par k, (match k with Some k => k | None => (-10)%Z end <= 0)%Z ->
  circle_probe ed (Some h) (S fuel) at_par k = Err NameError.
Proof. intros ed h fuel at_par k N. unfold circle_probe. rewrite (adaptive_init k N). reflexivity. Qed.

(** C203: a normal less than about six degrees off the z axis is ignored: the circle
    with the normal (80, 0, 1599) has a point that is not in the perpendicular plane. *)
Theorem C203_near_axis_refuted : exists p, line_length [0; 0; 0] p = 1 /\
  circle_point3 [0; 0; 0] (80, 0, 1599) 1 0 = p /\ dot [80; 0; 1599] p = 80.
Proof.
  exists [1; 0; 0]. split; [|split].
  - unfold line_length, pnorm. simpl. replace ((1 - 0) * (1 - 0) + ((0 - 0) * (0 - 0) + ((0 - 0) * (0 - 0) + 0))) with 1 by ring. apply sqrt_1.
  - rewrite circle_rot. unfold rot, unit_normal.
    replace (pnorm [80; 0; 1599]) with 1601.
    2: { unfold pnorm. simpl. replace (80 * 80 + (0 * 0 + (1599 * 1599 + 0))) with (Rsqr 1601) by (unfold Rsqr; ring). rewrite sqrt_Rsqr; lra. }
    cbn [fst snd].
    replace (pnorm [0 * (1599 / 1601) - 1 * (0 / 1601); 1 * (80 / 1601) - 0 * (1599 / 1601); 0 * (0 / 1601) - 0 * (80 / 1601)]) with (80 / 1601).
    2: { unfold pnorm. simpl. match goal with |- _ = sqrt ?x => replace x with (Rsqr (80 / 1601)) by (unfold Rsqr; field) end. rewrite sqrt_Rsqr; lra. }
    destruct (Rlt_dec (80 / 1601) (1 / 10)) as [_|N]; [|lra]. unfold padd. simpl. rewrite cos_0, sin_0. apply list3; ring.
  - unfold dot. simpl. ring.
Qed.

Print Assumptions C203_circle.
Print Assumptions C203_circle_fixed.
Print Assumptions C203_circle_adaptive.
Print Assumptions C203_circle_ends.
Print Assumptions C203_size_hint_refuted.
Print Assumptions C203_near_axis_refuted.
