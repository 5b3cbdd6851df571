(** C204: ray probes, point probes and circle probes in the plane. *)
From Coq Require Import Reals Lra Nsatz.
From Verif Require Import Base M_probe P_probe P_probe2.
Set Implicit Arguments.
Open Scope R_scope.

(** ** Specification *)
(** [q] is reached from [p] by going the distance [t] in the direction of [v]. *)
Definition reached (p v : point) (t : R) (q : point) : Prop :=
  List.length q = List.length p /\
  forall k, (k < List.length p)%nat -> nth k q 0 = nth k p 0 + t * (nth k v 0 / sqrt (fold_right Rplus 0 (map (fun x => x * x) v))).

Lemma sumsq_fold : forall v, sumsq v = fold_right Rplus 0 (map (fun x => x * x) v).
Proof. induction v as [|x v IH]; simpl; [auto|]. now rewrite IH. Qed.
Lemma ray_reached : forall p v t s, List.length p = List.length v ->
  reached p v (t * s) (padd p (pscale t (pscale s (ray_dir v)))).
Proof.
  intros p v t s L. assert (E : List.length (pscale t (pscale s (ray_dir v))) = List.length v) by (unfold pscale, ray_dir; rewrite !map_length; auto).
  split; [apply padd_len; lia|]. intros k K. rewrite nth_padd by lia. rewrite !nth_pscale.
  change (ray_dir v) with (pscale (/ pnorm v) v). rewrite nth_pscale. unfold pnorm. rewrite sumsq_fold. unfold Rdiv. ring.
Qed.
Lemma reached_dist : forall p v t q, List.length p = List.length v -> 0 < sumsq v -> reached p v t q -> dist p q = Rabs t.
Proof.
  intros p v t q L P [E H]. rewrite <- sumsq_dist by lia. assert (X : psub q p = pscale (t * / pnorm v) v).
  { apply nth_ext with (d := 0) (d' := 0). { rewrite psub_len by lia. unfold pscale. rewrite map_length. lia. }
    intros k K. rewrite psub_len in K by lia. rewrite nth_psub by lia. rewrite H by lia. rewrite nth_pscale. unfold pnorm. rewrite sumsq_fold. unfold Rdiv. ring. }
  assert (Q : 0 < pnorm v) by (unfold pnorm; now apply sqrt_lt_R0).
  rewrite X, pnorm_scale, Rabs_mult. rewrite (Rabs_right (/ pnorm v)) by (apply Rle_ge, Rlt_le, Rinv_0_lt_compat; auto). field. lra.
Qed.

(** C204: the points of a ray probe are reached from [p0] by going the distances given by the
    distribution function in the direction of [dirvec]; with both directions the
    mirrored points, in the opposite order and with the opposite parameters, come
    first. *)
Theorem C204_ray : forall p0 v f n both, List.length p0 = List.length v -> 0 < sumsq v ->
  let '(pars, points) := ray_probe p0 v f n both in
  List.length pars = (if both then 2 * n else n)%nat /\ List.length points = List.length pars /\
  (forall j, (j < List.length pars)%nat -> reached p0 v (nth j pars 0) (nth j points []) /\ dist p0 (nth j points []) = Rabs (nth j pars 0)) /\
  forall i, (i < n)%nat ->
    if both then nth (n + i) pars 0 = f (INR i) /\ nth (n - 1 - i) pars 0 = - f (INR i) else nth i pars 0 = f (INR i).
Proof.
  intros p0 v f n both L P. unfold ray_probe, gen_points.
  set (pars := map (fun i => f (INR i)) (seq 0 n)). assert (Lp : List.length pars = n) by (unfold pars; rewrite map_length, seq_length; auto).
  set (pt := fun s t => padd p0 (pscale t (pscale s (ray_dir v)))).
  assert (N : forall s j, (j < n)%nat -> nth j (map (pt s) pars) [] = pt s (nth j pars 0)).
  { intros s j J. rewrite nth_indep with (d' := pt s 0) by (rewrite map_length; lia). apply map_nth. }
  assert (F : forall i, (i < n)%nat -> nth i pars 0 = f (INR i)).
  { intros i I. unfold pars. now rewrite nth_map_seq. }
  assert (R1 : forall j, (j < n)%nat -> reached p0 v (nth j pars 0) (nth j (map (pt 1) pars) [])).
  { intros j J. rewrite N by auto. rewrite <- (Rmult_1_r (nth j pars 0)) at 1. now apply ray_reached. }
  assert (R2 : forall t q, reached p0 v t q -> reached p0 v t q /\ dist p0 q = Rabs t).
  { intros t q H. split; [exact H|]. now apply reached_dist with (v := v). }
  destruct both.
  - rewrite !app_length, !map_length, !rev_length, map_length, Lp. split; [lia|]. split; [auto|].
    assert (RV : forall i, (i < n)%nat -> nth i (map Ropp (rev pars)) 0 = - nth (n - S i) pars 0).
    { intros i I. rewrite nth_indep with (d' := Ropp 0) by (rewrite map_length, rev_length; lia). rewrite map_nth, rev_nth by lia.
      rewrite Lp. reflexivity. }
    split.
    + intros j J. apply R2. destruct (Nat.lt_ge_cases j n) as [I|I].
      * rewrite !app_nth1 by (rewrite ?map_length, ?rev_length, ?map_length; lia). rewrite RV by auto.
        rewrite rev_nth by (rewrite map_length; lia). rewrite map_length, Lp. fold (pt (-1)).
        change (fun t : R => padd p0 (pscale t (pscale (-1) (ray_dir v)))) with (pt (-1)). rewrite N by lia.
        replace (- nth (n - S j) pars 0) with (nth (n - S j) pars 0 * -1) by ring. now apply ray_reached.
      * rewrite !app_nth2 by (rewrite ?map_length, ?rev_length, ?map_length; lia).
        rewrite ?map_length, ?rev_length, ?map_length, Lp. apply R1. lia.
    + intros i I. split.
      * rewrite app_nth2 by (rewrite map_length, rev_length; lia). rewrite map_length, rev_length, Lp.
        replace (n + i - n)%nat with i by lia. now apply F.
      * rewrite app_nth1 by (rewrite map_length, rev_length; lia). rewrite RV by lia. rewrite <- F by auto. do 2 f_equal. lia.
  - rewrite map_length. rewrite Lp. split; [reflexivity|]. split; [reflexivity|]. split.
    + intros j J. apply R2. now apply R1.
    + exact F.
Qed.
Example C204_ray_example : 0 < sumsq [3; 4] /\ fst (ray_probe [0; 0] [3; 4] (fun t => t + 1) 2 true) = [-2; -1; 1; 2].
Proof. split; [simpl; lra|]. unfold ray_probe, gen_points. simpl. apply f_equal2; [ring|]. apply f_equal2; [ring|]. apply f_equal2; [ring|]. apply f_equal2; [ring|auto]. Qed.

(** C204: with both directions and a distribution function that is 0 at 0 the point
    [p0] is probed twice, with the parameters 0 and -0. *)
Theorem C204_ray_twice_refuted : forall p0 v f n, List.length p0 = List.length v -> f 0 = 0 -> (0 < n)%nat ->
  let '(pars, points) := ray_probe p0 v f n true in
  nth (n - 1) points [] = p0 /\ nth n points [] = p0 /\ nth (n - 1) pars 0 = 0 /\ nth n pars 0 = 0.
Proof.
  intros p0 v f n L F N. unfold ray_probe, gen_points. destruct n as [|n]; [lia|]. cbn [seq map rev].
  set (r := map (fun i => f (INR i)) (seq 1 n)). change (INR 0) with 0. rewrite F.
  assert (Z : forall s, padd p0 (pscale 0 (pscale s (ray_dir v))) = p0).
  { intros s. assert (E : List.length (pscale 0 (pscale s (ray_dir v))) = List.length v) by (unfold pscale, ray_dir; rewrite !map_length; auto).
    apply nth_ext with (d := 0) (d' := 0); [apply padd_len; lia|]. intros k K. rewrite nth_padd by lia. rewrite nth_pscale. ring. }
  rewrite !Z. replace (S n - 1)%nat with n by lia.
  assert (Lr : List.length r = n) by (unfold r; rewrite map_length, seq_length; auto).
  rewrite map_app. rewrite <- !app_assoc. cbn [map app].
  repeat split.
  - rewrite app_nth2 by (rewrite rev_length, map_length; lia). rewrite rev_length, map_length, Lr, Nat.sub_diag. reflexivity.
  - rewrite app_nth2 by (rewrite rev_length, map_length; lia). rewrite rev_length, map_length, Lr. replace (S n - n)%nat with 1%nat by lia. reflexivity.
  - rewrite app_nth2 by (rewrite map_length, rev_length; lia). rewrite map_length, rev_length, Lr, Nat.sub_diag. simpl. ring.
  - rewrite app_nth2 by (rewrite map_length, rev_length; lia). rewrite map_length, rev_length, Lr. replace (S n - n)%nat with 1%nat by lia. reflexivity.
Qed.

(** C204: a probe at two or more given points has these points, numbered from 0. *)
Theorem C204_points : forall points, (2 <= List.length points)%nat ->
  let '(pars, q) := points_probe points in
  q = points /\ List.length pars = List.length points /\ forall i, (i < List.length points)%nat -> nth i pars 0 = INR i.
Proof.
  intros points N. unfold points_probe, set_n_point. rewrite (proj2 (Z.leb_gt (Z.of_nat (List.length points)) 0)) by lia. cbn [fst].
  rewrite Z.max_l by lia. rewrite Nat2Z.id. split; auto. split; [rewrite map_length, seq_length; auto|].
  intros i I. now apply nth_map_seq.
Qed.
Example C204_points_example : (2 <= List.length [[0; 0]; [1; 1]])%nat.
Proof. simpl. lia. Qed.
(** C204: a single point has two parameters, so that they do not match the points. *)
Theorem C204_single_point_refuted : forall p,
  points_probe [p] = ([0; 1], [p]).
Proof. reflexivity. Qed.
(** C204: a ray probe with one point in one direction reports two points. *)
Theorem C204_report_refuted : forall p0 v f, ray_n_point 1 false = 2%nat /\ List.length (snd (ray_probe p0 v f 1 false)) = 1%nat.
Proof. intros. split; reflexivity. Qed.
Theorem C204_report : forall p0 v f (n : nat) (both : bool), (2 <= (if both then 2 * n else n))%nat ->
  ray_n_point n both = List.length (snd (ray_probe p0 v f n both)).
Proof.
  intros p0 v f n both H. unfold ray_n_point, set_n_point. rewrite (proj2 (Z.leb_gt _ 0)) by lia. cbn [fst].
  rewrite Z.max_l by lia. rewrite Nat2Z.id. unfold ray_probe, gen_points. destruct both; cbn [snd].
  - rewrite app_length, rev_length, !map_length, !seq_length. lia.
  - rewrite !map_length, seq_length. auto.
Qed.

(** C204: in the plane the points of a circle probe lie on the circle, evenly spaced:
    the distance of the points at two angles is that of a chord. *)
Theorem C204_circle_plane : forall x y r, 0 <= r ->
  (forall t, dist [x; y] (circle_point2 [x; y] r t) = r) /\
  forall t t', dist (circle_point2 [x; y] r t) (circle_point2 [x; y] r t') = sqrt (2 * r * r * (1 - cos (t - t'))).
Proof.
  intros x y r Hr. split; intros t; [|intros t'].
  - rewrite <- (Rabs_right r) at 2 by lra. rewrite <- sqrt_Rsqr_abs. unfold dist, circle_point2, padd. cbn [combine map fst snd List.length seq fold_right nth].
    f_equal. unfold Rsqr. pose proof (sin2_cos2 t) as T. unfold Rsqr in T. nsatz.
  - unfold dist, circle_point2, padd. cbn [combine map fst snd List.length seq fold_right nth]. f_equal. rewrite cos_minus.
    pose proof (sin2_cos2 t) as T. pose proof (sin2_cos2 t') as T'. unfold Rsqr in T, T'. nsatz.
Qed.

Print Assumptions C204_ray.
Print Assumptions C204_ray_twice_refuted.
Print Assumptions C204_points.
Print Assumptions C204_single_point_refuted.
Print Assumptions C204_report_refuted.
Print Assumptions C204_report.
Print Assumptions C204_circle_plane.
