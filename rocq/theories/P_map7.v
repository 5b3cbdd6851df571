(** C136: cells of a lower dimension than the space are rotated to the plane (axis). *)
From Coq Require Import Reals Lra Psatz.
From Verif Require Import Base M_fmf L_fmf M_nls M_map S_map L_map P_map P_map2 P_map3.
Open Scope nat_scope.

Definition dist2 (dim : nat) (x y : nat -> R) : R := sm dim (fun k => ((x k - y k) * (x k - y k))%R).
(** The vector normal to the cell with [n] nodes. *)
Definition cell_normal (n : nat) (x : nat -> nat -> R) : nat -> R := cross (dif (x 1) (x 0)) (dif (x (n - 1)) (x 0)).
Definition planar (n : nat) (x : nat -> nat -> R) : Prop := forall j, j < n -> dot 3 (cell_normal n x) (dif (x j) (x 0)) = 0%R.

(** Rotations *)
Definition rot (m : nat -> nat -> R) (bv : nat -> R) (b : R) : Prop :=
  (forall d, dist2 3 (fun i => sm 3 (fun k => (m i k * d k)%R)) (fun _ => 0%R) = dist2 3 d (fun _ => 0%R)) /\
  (forall d, sm 3 (fun k => (m 2%nat k * d k)%R) = (dot 3 bv d / b)%R) /\
  (forall d e, det2 (fun i => sm 3 (fun k => (m i k * d k)%R)) (fun i => sm 3 (fun k => (m i k * e k)%R)) = (dot 3 bv (cross d e) / b)%R).

Lemma rot3_ok : forall tol bv, (0 <= tol)%R ->
  (let ab := sqrt (bv 0%nat ^ 2 + bv 1%nat ^ 2) in tol < ab \/ ab = 0 /\ 0 < bv 2%nat)%R ->
  rot (rot3 tol bv) bv (norm 3 bv) /\ (0 < norm 3 bv)%R.
Proof.
  intros tol bv Ht Hc.
  assert (NB : norm 3 bv = sqrt (bv 0%nat ^ 2 + bv 1%nat ^ 2 + bv 2%nat ^ 2)) by (unfold norm, dot; rewrite sm3; f_equal; ring).
  set (b := norm 3 bv) in *. cbv zeta in Hc. set (ab := sqrt (bv 0%nat ^ 2 + bv 1%nat ^ 2)) in *.
  assert (AB : (ab * ab = bv 0%nat ^ 2 + bv 1%nat ^ 2)%R) by (apply sqrt_sqrt; nra).
  assert (BB : (b * b = ab * ab + bv 2%nat ^ 2)%R) by (rewrite NB, AB; apply sqrt_sqrt; nra).
  assert (Pb0 : (0 <= b)%R) by (rewrite NB; apply sqrt_pos). assert (Pab : (0 <= ab)%R) by apply sqrt_pos.
  destruct Hc as [Hc|[Hc Hz]].
  - assert (Pb : (0 < b)%R) by nra.
    set (u := (bv 1%nat / ab)%R). set (v := (- bv 0%nat / ab)%R). set (c := (bv 2%nat / b)%R). set (s := (ab / b)%R).
    assert (UV : (v * v = 1 - u * u)%R) by (unfold u, v; assert (bv 0%nat * bv 0%nat = ab * ab - bv 1%nat * bv 1%nat)%R by lra; field_simplify_eq; [nra|lra]).
    assert (CS : (s * s = 1 - c * c)%R) by (unfold c, s; field_simplify_eq; [nra|lra]).
    assert (X0 : bv 0%nat = (- v * s * b)%R) by (unfold v, s; field; lra).
    assert (X1 : bv 1%nat = (u * s * b)%R) by (unfold u, s; field; lra).
    assert (X2 : bv 2%nat = (c * b)%R) by (unfold c; field; lra).
    assert (M : rot3 tol bv = fun i j => ((if i =? j then c else 0) + match i, j with
      | 0, 0 => u ^ 2 * (1 - c) | 0, 1 => u * v * (1 - c) | 0, _ => v * s
      | 1, 0 => u * v * (1 - c) | 1, 1 => v ^ 2 * (1 - c) | 1, _ => - u * s
      | _, 0 => - v * s | _, 1 => u * s | _, _ => 0 end)%R).
    { unfold rot3. rewrite <- NB. fold ab. rewrite Rabs_right by lra. rewrite (proj2 (Rltb_true _ _)) by auto. reflexivity. }
    rewrite M. clearbody u v c s. split; [split; [|split]|auto].
    + intros d. unfold dist2. rewrite !sm3. cbn [Nat.eqb]. ring [UV CS].
    + intros d. unfold dot. rewrite !sm3. cbn [Nat.eqb]. rewrite X0, X1, X2. field. lra.
    + intros d e. unfold det2, dot. rewrite !sm3. cbn [Nat.eqb cross]. rewrite X0, X1, X2.
      replace ((- v * s * b * (d 1%nat * e 2%nat - d 2%nat * e 1%nat) + u * s * b * (d 2%nat * e 0%nat - d 0%nat * e 2%nat) + c * b * (d 0%nat * e 1%nat - d 1%nat * e 0%nat)) / b)%R
        with (- v * s * (d 1%nat * e 2%nat - d 2%nat * e 1%nat) + u * s * (d 2%nat * e 0%nat - d 0%nat * e 2%nat) + c * (d 0%nat * e 1%nat - d 1%nat * e 0%nat))%R by (field; lra).
      ring [UV CS].
  - assert (B2 : b = bv 2%nat) by nra. assert (Z0 : bv 0%nat = 0%R) by nra. assert (Z1 : bv 1%nat = 0%R) by nra.
    assert (M : rot3 tol bv = fun i j => if i =? j then 1%R else 0%R).
    { unfold rot3. rewrite <- NB. fold ab. rewrite Rabs_right by lra. rewrite (proj2 (Rltb_false _ _)) by lra. rewrite B2. replace (bv 2%nat / bv 2%nat)%R with 1%R by (field; lra). reflexivity. }
    rewrite M. split; [split; [|split]|lra].
    + intros d. unfold dist2. rewrite !sm3. cbn [Nat.eqb]. ring.
    + intros d. unfold dot. rewrite !sm3. cbn [Nat.eqb]. rewrite Z0, Z1, B2. field. lra.
    + intros d e. unfold det2, dot. rewrite !sm3. cbn [Nat.eqb cross]. rewrite Z0, Z1, B2. field. lra.
Qed.
Lemma lower_dif : forall tol n x j l i, (lower_dim tol 3 n x j i - lower_dim tol 3 n x l i)%R =
  sm 3 (fun k => (rot3 tol (cell_normal n x) i k * dif (x j) (x l) k)%R).
Proof. intros. unfold lower_dim, cell_normal. rewrite !sm3. unfold dif. ring. Qed.

(** Cells with the normal tilted by more than the tolerance or exactly along +z: the coordinates in the
    plane keep distances, the cell lies in a plane z = const and is oriented counter-clockwise. *)
Theorem C136_plane_partial : forall tol n x, (0 <= tol)%R -> planar n x ->
  let bv := cell_normal n x in
  (let ab := sqrt (bv 0%nat ^ 2 + bv 1%nat ^ 2) in tol < ab \/ ab = 0 /\ 0 < bv 2%nat)%R ->
  let y := lower_dim tol 3 n x in
  (forall j, j < n -> y j 2 = y 0 2) /\
  (forall j l, j < n -> l < n -> dist2 2 (y j) (y l) = dist2 3 (x j) (x l)) /\
  (forall j l, j < n -> l < n -> (det2 (dif (y j) (y 0%nat)) (dif (y l) (y 0%nat)) * norm 3 bv = dot 3 bv (cross (dif (x j) (x 0%nat)) (dif (x l) (x 0%nat))))%R) /\
  (0 < det2 (dif (y 1%nat) (y 0%nat)) (dif (y (n - 1)%nat) (y 0%nat)))%R.
Proof.
  intros tol n x Ht Hp bv Hc y. destruct (rot3_ok tol bv Ht Hc) as ((R1 & R2 & R3) & Pb).
  assert (D : forall j l i, (y j i - y l i)%R = sm 3 (fun k => (rot3 tol bv i k * dif (x j) (x l) k)%R)) by (intros; apply lower_dif).
  assert (Z : forall j, j < n -> (y j 2%nat - y 0%nat 2%nat)%R = 0%R).
  { intros j Hj. rewrite D, R2. unfold bv. rewrite Hp by auto. unfold Rdiv. ring. }
  assert (DT : forall j l, (det2 (dif (y j) (y 0%nat)) (dif (y l) (y 0%nat)) * norm 3 bv = dot 3 bv (cross (dif (x j) (x 0%nat)) (dif (x l) (x 0%nat))))%R).
  { intros j l. unfold det2 at 1. unfold dif at 1 2 3 4. rewrite !D. fold (det2 (fun i => sm 3 (fun k => (rot3 tol bv i k * dif (x j) (x 0%nat) k)%R)) (fun i => sm 3 (fun k => (rot3 tol bv i k * dif (x l) (x 0%nat) k)%R))).
    rewrite R3. field. lra. }
  split; [|split; [|split]].
  - intros j Hj. pose proof (Z j Hj). lra.
  - intros j l Hj Hl. transitivity (dist2 3 (y j) (y l)).
    + unfold dist2. rewrite sm2, sm3. assert (E : (y j 2%nat - y l 2%nat)%R = 0%R) by (pose proof (Z j Hj); pose proof (Z l Hl); lra). rewrite E. ring.
    + pose proof (R1 (dif (x j) (x l))) as E. unfold dist2 in *. rewrite !sm3 in *. rewrite !D. unfold dif in *. rewrite !sm3. rewrite !Rminus_0_r in E. exact E.
  - intros j l _ _. apply DT.
  - pose proof (DT 1 (n - 1)) as E. fold (cell_normal n x) in E. fold bv in E. rewrite <- norm_sq in E. nra.
Qed.
(** So the volume of a triangle in space is its area. *)
Corollary C136_triangle_area_partial : forall tol x, (0 <= tol)%R ->
  let bv := cell_normal 3 x in
  (let ab := sqrt (bv 0%nat ^ 2 + bv 1%nat ^ 2) in tol < ab \/ ab = 0 /\ 0 < bv 2%nat)%R ->
  simplex_volume 2 (lower_dim tol 3 3 x) = (norm 3 bv / 2)%R.
Proof.
  intros tol x Ht bv Hc.
  assert (Hp : planar 3 x). { intros j Hj. unfold dot, cell_normal, cross, dif. rewrite sm3. destruct j as [|[|[|]]]; try lia; cbn; ring. }
  destruct (C136_plane_partial tol 3 x Ht Hp Hc) as (_ & _ & D & _). specialize (D 1 2 ltac:(lia) ltac:(lia)).
  change (cross (dif (x 1) (x 0)) (dif (x 2) (x 0))) with bv in D. fold bv in D. rewrite <- norm_sq in D.
  destruct (rot3_ok tol bv Ht Hc) as (_ & Pb).
  unfold simplex_volume. change (edge ?y 0) with (dif (y 1) (y 0)). change (edge ?y 1) with (dif (y 2) (y 0)).
  unfold Rdiv. f_equal. apply (Rmult_eq_reg_r (norm 3 bv)); [exact D|lra].
Qed.
(** A triangle in a plane z = const with the normal -z is not oriented: its mapping is an error. *)
Theorem C136_downward_refuted : forall tol, (0 <= tol)%R -> exists x, norm 3 (cell_normal 3 x) = 1%R /\
  simplex_volume 2 (lower_dim tol 3 3 x) = (- (1 / 2))%R /\
  forall w ebf_g, volume_mapping 2 1 1 3 (lower_dim tol 3 3 x) (fun _ j => j) (fun _ => ggrad Tri (fun _ => 0%R)) w ebf_g = Err ValueError.
Proof.
  intros tol Ht. exists (fun j k => match j, k with 1, 1 => 1 | 2, 0 => 1 | _, _ => 0 end)%R.
  set (x := fun j k => match j, k with 1, 1 => 1 | 2, 0 => 1 | _, _ => 0 end%R).
  assert (B : forall k, k < 3 -> cell_normal 3 x k = match k with 2 => -1 | _ => 0 end%R).
  { intros k Hk. unfold cell_normal, cross, dif. enum k Hk; cbn; lra. }
  assert (M : forall i k, rot3 tol (cell_normal 3 x) i k = if i =? k then (-1)%R else 0%R).
  { intros i k. unfold rot3. rewrite !B by lia. replace (0 ^ 2 + 0 ^ 2 + (-1) ^ 2)%R with 1%R by ring. replace (0 ^ 2 + 0 ^ 2)%R with 0%R by ring.
    rewrite sqrt_0, sqrt_1, Rabs_R0. rewrite (proj2 (Rltb_false _ _)) by auto. destruct (i =? k); lra. }
  assert (Y : forall j i, i < 3 -> lower_dim tol 3 3 x j i = (- x j i)%R).
  { intros j i Hi. unfold lower_dim. fold (cell_normal 3 x). rewrite sm3, !M. enum i Hi; cbn [Nat.eqb]; ring. }
  split; [|split].
  - unfold norm, dot. rewrite sm3, !B by lia. replace (0 * 0 + 0 * 0 + -1 * -1)%R with 1%R by ring. apply sqrt_1.
  - unfold simplex_volume, det2, edge. rewrite !Y by lia. unfold x. lra.
  - intros w ebf_g. unfold volume_mapping. replace (any_cq 1 1 _) with true; auto. symmetry. unfold any_cq. cbn [seq existsb]. rewrite !orb_false_r.
    apply Rleb_true. unfold detm, mtxRM. rewrite !sm3. rewrite !Y by lia. unfold x, ggrad. cbn. lra.
Qed.
(** Small tilted triangles collapse to a point: edges of length sqrt tol (1e-8). *)
Theorem C136_small_cells_refuted : forall tol, (0 < tol)%R -> exists x, (0 < norm 3 (cell_normal 3 x))%R /\
  dist2 3 (x 0%nat) (x 1%nat) = tol /\ dist2 3 (x 0%nat) (x 2%nat) = tol /\
  forall j i, j < 3 -> lower_dim tol 3 3 x j i = 0%R.
Proof.
  intros tol Ht. set (s := sqrt tol). assert (SS : (s * s = tol)%R) by (apply sqrt_sqrt; lra).
  exists (fun j k => match j, k with 1, 0 => s | 2, 2 => s | _, _ => 0 end)%R.
  set (x := fun j k => match j, k with 1, 0 => s | 2, 2 => s | _, _ => 0 end%R).
  assert (B : forall k, k < 3 -> cell_normal 3 x k = match k with 1 => - tol | _ => 0 end%R).
  { intros k Hk. unfold cell_normal, cross, dif. enum k Hk; cbn; lra. }
  split; [|split; [|split]].
  - unfold norm, dot. rewrite sm3, !B by lia. apply sqrt_lt_R0. nra.
  - unfold dist2. rewrite sm3. cbn. nra.
  - unfold dist2. rewrite sm3. cbn. nra.
  - assert (M : forall i k, rot3 tol (cell_normal 3 x) i k = 0%R).
    { intros i k. unfold rot3. rewrite !B by lia. replace (0 ^ 2 + (- tol) ^ 2)%R with (tol * tol)%R by ring. rewrite sqrt_square by lra. rewrite Rabs_right by lra.
      rewrite (proj2 (Rltb_false _ _)) by lra. replace (0 / sqrt (tol * tol + 0 ^ 2))%R with 0%R by (unfold Rdiv; ring). destruct (i =? k); auto. }
    intros j i Hj. unfold lower_dim. fold (cell_normal 3 x). rewrite sm3, !M. ring.
Qed.

(** 2D to 1D *)
Theorem C136_line_partial : forall tol n x, (0 <= tol)%R -> (tol < norm 2 (dif (x (n - 1)%nat) (x 0%nat)))%R ->
  let y := lower_dim tol 2 n x in
  (forall j l, dist2 2 (y j) (y l) = dist2 2 (x j) (x l)) /\
  (forall j t, (forall k, k < 2 -> (x j k - x 0%nat k)%R = (t * (x (n - 1)%nat k - x 0%nat k))%R) ->
     (y j 0%nat - y 0%nat 0%nat)%R = (t * norm 2 (dif (x (n - 1)%nat) (x 0%nat)))%R /\ y j 1 = y 0 1).
Proof.
  intros tol n x Ht Hb y. set (d := dif (x (n - 1)) (x 0)) in *. set (b := norm 2 d) in *.
  assert (NB : b = sqrt (d 0%nat ^ 2 + d 1%nat ^ 2)) by (unfold b, norm, dot; rewrite sm2; f_equal; ring).
  assert (BB : (b * b = d 0%nat ^ 2 + d 1%nat ^ 2)%R) by (rewrite NB; apply sqrt_sqrt; nra).
  assert (M : rot2 tol d = fun i j => match i, j with 0, 0 => d 0%nat / b | 0, _ => d 1%nat / b | _, 0 => - (d 1%nat / b) | _, _ => d 0%nat / b end%R).
  { unfold rot2. rewrite <- NB. rewrite Rabs_right by lra. rewrite (proj2 (Rltb_true _ _)) by auto. reflexivity. }
  assert (Y0 : forall j, y j 0 = (d 0%nat / b * x j 0%nat + d 1%nat / b * x j 1%nat)%R) by (intros; unfold y, lower_dim; fold d; rewrite M, sm2; ring).
  assert (Y1 : forall j, y j 1 = (- (d 1%nat / b) * x j 0%nat + d 0%nat / b * x j 1%nat)%R) by (intros; unfold y, lower_dim; fold d; rewrite M, sm2; ring).
  split.
  - intros j l. unfold dist2. rewrite !sm2, !Y0, !Y1. set (p := (x j 0%nat - x l 0%nat)%R). set (q := (x j 1%nat - x l 1%nat)%R).
    transitivity ((d 0%nat ^ 2 + d 1%nat ^ 2) / (b * b) * (p * p + q * q))%R; [unfold p, q; field; lra|]. rewrite <- BB. field. lra.
  - intros j t Hx. pose proof (Hx 0 ltac:(lia)) as H0. pose proof (Hx 1 ltac:(lia)) as H1. fold (dif (x (n - 1)) (x 0) 0) in H0. fold (dif (x (n - 1)) (x 0) 1) in H1. fold d in H0, H1. split.
    + rewrite !Y0. transitivity ((d 0%nat * (x j 0%nat - x 0%nat 0%nat) + d 1%nat * (x j 1%nat - x 0%nat 1%nat)) / b)%R; [field; lra|]. rewrite H0, H1.
      transitivity (t * (d 0%nat ^ 2 + d 1%nat ^ 2) / b)%R; [field; lra|]. rewrite <- BB. field. lra.
    + rewrite !Y1. apply Rminus_diag_uniq. transitivity ((- d 1%nat * (x j 0%nat - x 0%nat 0%nat) + d 0%nat * (x j 1%nat - x 0%nat 1%nat)) / b)%R; [field; lra|]. rewrite H0, H1. field. lra.
Qed.
