(** C138: centroids, volumes and facet normals of mesh entities (mesh.c). *)
From Coq Require Import Reals Lra Lia Permutation.
From Verif Require Import Base M_fmf L_fmf M_map S_map S_quad M_refine.
Open Scope R_scope.

(** ** Specification *)
(** The Jacobian determinant of the geometry mapping of a cell with nodes [X] in the point [xi] *)
Definition jac (g : geom) (X : nat -> nat -> R) (xi : list R) : R :=
  detm (gdim g) (mtxRM (gnv g) (ggrad g (fun k => nth k xi 0)) X).
(** Nodes of an entity *)
Definition nodes (x : nat -> nat -> R) (vs : list nat) : nat -> nat -> R := fun j => x (nth j vs 0%nat).
(** The squared norm, the cross product *)
Definition norm2 (a : nat -> R) : R := a 0%nat * a 0%nat + a 1%nat * a 1%nat + a 2%nat * a 2%nat.

(** The volume of a wedge as the sum of the volumes of three tetrahedra *)
Definition wedge_volume (X : nat -> nat -> R) : R :=
  let T := fun a b c d => simplex_volume 3 (nodes X [a; b; c; d]) in
  T 0%nat 1%nat 2%nat 3%nat + T 1%nat 2%nat 3%nat 4%nat + T 2%nat 3%nat 4%nat 5%nat.

(** ** Simpson *)
Definition simpson (f : R -> R) : R := (f 0 + 4 * f (1 / 2) + f 1) / 6.
Definition quadratic (f : R -> R) : Prop :=
  forall z, f z = f 0 * (1 - 3 * z + 2 * z * z) + f (1 / 2) * (4 * z - 4 * z * z) + f 1 * (2 * z * z - z).
Lemma RInt_quadratic : forall f, quadratic f -> is_RInt f 0 1 (simpson f).
Proof.
  intros f Q. set (a := f 0). set (b := f (1/2)). set (c := f 1).
  set (P := fun z => a * (z - 3 / 2 * z * z + 2 / 3 * z * z * z) + b * (2 * z * z - 4 / 3 * z * z * z) + c * (2 / 3 * z * z * z - 1 / 2 * z * z)).
  set (p := fun z => a * (1 - 3 * z + 2 * z * z) + b * (4 * z - 4 * z * z) + c * (2 * z * z - z)).
  assert (I : is_RInt p 0 1 (P 1 - P 0)).
  { apply is_RInt_derive; [lra| |].
    - intros z. unfold P, p.
      assert (Hz : forall k n, derivable_pt_lim (fun z => k * z ^ S n) z (k * (INR (S n) * z ^ n))).
      { intros k n. apply (derivable_pt_lim_scal (fun z => z ^ S n)). apply derivable_pt_lim_pow. }
      replace (a * (1 - 3 * z + 2 * z * z) + b * (4 * z - 4 * z * z) + c * (2 * z * z - z))
        with (a * (INR 1 * z ^ 0) + ((- 3 / 2 * a + 2 * b - 1 / 2 * c) * (INR 2 * z ^ 1) + (2 / 3 * a - 4 / 3 * b + 2 / 3 * c) * (INR 3 * z ^ 2))) by (cbn; field).
      apply (derivable_pt_lim_ext (fun z => a * z ^ 1 + ((- 3 / 2 * a + 2 * b - 1 / 2 * c) * z ^ 2 + (2 / 3 * a - 4 / 3 * b + 2 / 3 * c) * z ^ 3))).
      + intros y. field.
      + apply (derivable_pt_lim_plus (fun z => a * z ^ 1)); [apply Hz|].
        apply (derivable_pt_lim_plus (fun z => (- 3 / 2 * a + 2 * b - 1 / 2 * c) * z ^ 2)); apply Hz.
    - unfold p. reg. }
  replace (simpson f) with (P 1 - P 0) by (unfold simpson, P; fold a b c; field).
  refine (@is_RInt_extR _ _ _ _ _ _ I). intros z. unfold p. symmetry. apply Q.
Qed.
Lemma cube_int_quadratic : forall P : R -> R -> R -> R,
  (forall y z, quadratic (fun x => P x y z)) -> (forall x z, quadratic (fun y => P x y z)) -> (forall x y, quadratic (fun z => P x y z)) ->
  cube_int 3 (fun l => P (nth 0 l 0) (nth 1 l 0) (nth 2 l 0)) (simpson (fun x => simpson (fun y => simpson (fun z => P x y z)))).
Proof.
  intros P H1 H2 H3. cbn -[is_RInt]. exists (fun x => simpson (fun y => simpson (fun z => P x y z))). split.
  - intros x _. exists (fun y => simpson (fun z => P x y z)). split.
    + intros y _. exists (fun z => P x y z). split; auto. apply RInt_quadratic. apply H3.
    + apply RInt_quadratic. intros y. unfold simpson. rewrite (H2 x 0 y), (H2 x (1/2) y), (H2 x 1 y). field.
  - apply RInt_quadratic. intros x. unfold simpson.
    rewrite (H1 0 0 x), (H1 0 (1/2) x), (H1 0 1 x), (H1 (1/2) 0 x), (H1 (1/2) (1/2) x), (H1 (1/2) 1 x), (H1 1 0 x), (H1 1 (1/2) x), (H1 1 1 x). field.
Qed.

(** ** Hexahedra *)
Lemma hex_J : forall X xi i k, (i < 3)%nat -> mtxRM (gnv Hex) (ggrad Hex (fun k => nth k xi 0)) X i k =
  let x := nth 0 xi 0 in let y := nth 1 xi 0 in let z := nth 2 xi 0 in
  match i with
  | 0%nat => (1 - y) * (1 - z) * (X 1%nat k - X 0%nat k) + y * (1 - z) * (X 2%nat k - X 3%nat k) + (1 - y) * z * (X 5%nat k - X 4%nat k) + y * z * (X 6%nat k - X 7%nat k)
  | 1%nat => (1 - x) * (1 - z) * (X 3%nat k - X 0%nat k) + x * (1 - z) * (X 2%nat k - X 1%nat k) + (1 - x) * z * (X 7%nat k - X 4%nat k) + x * z * (X 6%nat k - X 5%nat k)
  | _ => (1 - x) * (1 - y) * (X 4%nat k - X 0%nat k) + x * (1 - y) * (X 5%nat k - X 1%nat k) + x * y * (X 6%nat k - X 2%nat k) + (1 - x) * y * (X 7%nat k - X 3%nat k)
  end.
Proof.
  intros X xi i k Hi. unfold mtxRM, ggrad, pf. cbn -[nth]. cbn [nth Nat.eqb].
  destruct i as [|[|[|i]]]; [| | |lia]; cbn [Nat.eqb]; cbv zeta; ring.
Qed.
Definition hexJ (X : nat -> nat -> R) (x y z : R) : R :=
  let c := fun k => (1 - y) * (1 - z) * (X 1%nat k - X 0%nat k) + y * (1 - z) * (X 2%nat k - X 3%nat k) + (1 - y) * z * (X 5%nat k - X 4%nat k) + y * z * (X 6%nat k - X 7%nat k) in
  let d := fun k => (1 - x) * (1 - z) * (X 3%nat k - X 0%nat k) + x * (1 - z) * (X 2%nat k - X 1%nat k) + (1 - x) * z * (X 7%nat k - X 4%nat k) + x * z * (X 6%nat k - X 5%nat k) in
  let e := fun k => (1 - x) * (1 - y) * (X 4%nat k - X 0%nat k) + x * (1 - y) * (X 5%nat k - X 1%nat k) + x * y * (X 6%nat k - X 2%nat k) + (1 - x) * y * (X 7%nat k - X 3%nat k) in
  c 0%nat * (d 1%nat * e 2%nat - d 2%nat * e 1%nat) - c 1%nat * (d 0%nat * e 2%nat - d 2%nat * e 0%nat) + c 2%nat * (d 0%nat * e 1%nat - d 1%nat * e 0%nat).
Lemma jac_hex : forall X xi, jac Hex X xi = hexJ X (nth 0 xi 0) (nth 1 xi 0) (nth 2 xi 0).
Proof. intros. unfold jac. cbn [gdim detm]. rewrite !hex_J by lia. cbv zeta. unfold hexJ. ring. Qed.
(** A quadratic function: f(z) = (p0 + p1 z) (q0 + q1 z) summed *)
Lemma quad_prod : forall p q : R -> R, (forall z, p z = p 0 + (p 1 - p 0) * z) -> (forall z, q z = q 0 + (q 1 - q 0) * z) -> quadratic (fun z => p z * q z).
Proof. intros p q P Q z. cbv beta. rewrite (P z), (Q z), (P (1/2)), (Q (1/2)). field. Qed.
Lemma quad_scal : forall c f, quadratic f -> quadratic (fun z => c * f z).
Proof. intros c f F z. cbv beta. rewrite (F z). field. Qed.
Lemma quad_plus : forall f g, quadratic f -> quadratic g -> quadratic (fun z => f z + g z).
Proof. intros f g F G z. cbv beta. rewrite (F z), (G z). field. Qed.
Lemma quad_ext : forall f g, (forall z, f z = g z) -> quadratic f -> quadratic g.
Proof. intros f g E F z. rewrite <- !E. apply F. Qed.
Lemma quad_det : forall a b c : R, forall p q : nat -> R -> R,
  (forall k z, p k z = p k 0 + (p k 1 - p k 0) * z) -> (forall k z, q k z = q k 0 + (q k 1 - q k 0) * z) ->
  quadratic (fun z => a * (p 1%nat z * q 2%nat z - p 2%nat z * q 1%nat z) - b * (p 0%nat z * q 2%nat z - p 2%nat z * q 0%nat z) + c * (p 0%nat z * q 1%nat z - p 1%nat z * q 0%nat z)).
Proof.
  intros a b c p q P Q.
  apply (@quad_ext (fun z => a * (p 1%nat z * q 2%nat z) + ((-a) * (p 2%nat z * q 1%nat z) + ((-b) * (p 0%nat z * q 2%nat z) + (b * (p 2%nat z * q 0%nat z) + (c * (p 0%nat z * q 1%nat z) + (-c) * (p 1%nat z * q 0%nat z))))))); [intros; ring|].
  repeat apply quad_plus; apply quad_scal; apply quad_prod; auto.
Qed.
Theorem hexJ_quadratic : forall X, (forall y z, quadratic (fun x => hexJ X x y z)) /\ (forall x z, quadratic (fun y => hexJ X x y z)) /\ (forall x y, quadratic (fun z => hexJ X x y z)).
Proof.
  intros X. split; [|split].
  - intros y z. unfold hexJ. cbv zeta.
    apply (@quad_det _ _ _ (fun k x => (1 - x) * (1 - z) * (X 3%nat k - X 0%nat k) + x * (1 - z) * (X 2%nat k - X 1%nat k) + (1 - x) * z * (X 7%nat k - X 4%nat k) + x * z * (X 6%nat k - X 5%nat k))
      (fun k x => (1 - x) * (1 - y) * (X 4%nat k - X 0%nat k) + x * (1 - y) * (X 5%nat k - X 1%nat k) + x * y * (X 6%nat k - X 2%nat k) + (1 - x) * y * (X 7%nat k - X 3%nat k))); intros; ring.
  - intros x z. unfold hexJ. cbv zeta.
    eapply quad_ext; [|apply (@quad_det ((1 - x) * (1 - z) * (X 3%nat 0%nat - X 0%nat 0%nat) + x * (1 - z) * (X 2%nat 0%nat - X 1%nat 0%nat) + (1 - x) * z * (X 7%nat 0%nat - X 4%nat 0%nat) + x * z * (X 6%nat 0%nat - X 5%nat 0%nat))
      ((1 - x) * (1 - z) * (X 3%nat 1%nat - X 0%nat 1%nat) + x * (1 - z) * (X 2%nat 1%nat - X 1%nat 1%nat) + (1 - x) * z * (X 7%nat 1%nat - X 4%nat 1%nat) + x * z * (X 6%nat 1%nat - X 5%nat 1%nat))
      ((1 - x) * (1 - z) * (X 3%nat 2%nat - X 0%nat 2%nat) + x * (1 - z) * (X 2%nat 2%nat - X 1%nat 2%nat) + (1 - x) * z * (X 7%nat 2%nat - X 4%nat 2%nat) + x * z * (X 6%nat 2%nat - X 5%nat 2%nat))

      (fun k y => (1 - x) * (1 - y) * (X 4%nat k - X 0%nat k) + x * (1 - y) * (X 5%nat k - X 1%nat k) + x * y * (X 6%nat k - X 2%nat k) + (1 - x) * y * (X 7%nat k - X 3%nat k))
      (fun k y => (1 - y) * (1 - z) * (X 1%nat k - X 0%nat k) + y * (1 - z) * (X 2%nat k - X 3%nat k) + (1 - y) * z * (X 5%nat k - X 4%nat k) + y * z * (X 6%nat k - X 7%nat k))); intros; ring].
    intros y. cbv beta.
    generalize ((1 - x) * (1 - z) * (X 3%nat 0%nat - X 0%nat 0%nat) + x * (1 - z) * (X 2%nat 0%nat - X 1%nat 0%nat) + (1 - x) * z * (X 7%nat 0%nat - X 4%nat 0%nat) + x * z * (X 6%nat 0%nat - X 5%nat 0%nat)).
    generalize ((1 - x) * (1 - z) * (X 3%nat 1%nat - X 0%nat 1%nat) + x * (1 - z) * (X 2%nat 1%nat - X 1%nat 1%nat) + (1 - x) * z * (X 7%nat 1%nat - X 4%nat 1%nat) + x * z * (X 6%nat 1%nat - X 5%nat 1%nat)).
    generalize ((1 - x) * (1 - z) * (X 3%nat 2%nat - X 0%nat 2%nat) + x * (1 - z) * (X 2%nat 2%nat - X 1%nat 2%nat) + (1 - x) * z * (X 7%nat 2%nat - X 4%nat 2%nat) + x * z * (X 6%nat 2%nat - X 5%nat 2%nat)).
    intros d2 d1 d0.
    generalize (fun k => (1 - x) * (1 - y) * (X 4%nat k - X 0%nat k) + x * (1 - y) * (X 5%nat k - X 1%nat k) + x * y * (X 6%nat k - X 2%nat k) + (1 - x) * y * (X 7%nat k - X 3%nat k)). 
    intros; ring.
  - intros x y. unfold hexJ. cbv zeta.
    eapply quad_ext; [|apply (@quad_det ((1 - x) * (1 - y) * (X 4%nat 0%nat - X 0%nat 0%nat) + x * (1 - y) * (X 5%nat 0%nat - X 1%nat 0%nat) + x * y * (X 6%nat 0%nat - X 2%nat 0%nat) + (1 - x) * y * (X 7%nat 0%nat - X 3%nat 0%nat))
      ((1 - x) * (1 - y) * (X 4%nat 1%nat - X 0%nat 1%nat) + x * (1 - y) * (X 5%nat 1%nat - X 1%nat 1%nat) + x * y * (X 6%nat 1%nat - X 2%nat 1%nat) + (1 - x) * y * (X 7%nat 1%nat - X 3%nat 1%nat))
      ((1 - x) * (1 - y) * (X 4%nat 2%nat - X 0%nat 2%nat) + x * (1 - y) * (X 5%nat 2%nat - X 1%nat 2%nat) + x * y * (X 6%nat 2%nat - X 2%nat 2%nat) + (1 - x) * y * (X 7%nat 2%nat - X 3%nat 2%nat))

      (fun k z => (1 - y) * (1 - z) * (X 1%nat k - X 0%nat k) + y * (1 - z) * (X 2%nat k - X 3%nat k) + (1 - y) * z * (X 5%nat k - X 4%nat k) + y * z * (X 6%nat k - X 7%nat k))
      (fun k z => (1 - x) * (1 - z) * (X 3%nat k - X 0%nat k) + x * (1 - z) * (X 2%nat k - X 1%nat k) + (1 - x) * z * (X 7%nat k - X 4%nat k) + x * z * (X 6%nat k - X 5%nat k))); intros; ring].
    intros z. cbv beta. ring.
Qed.
Lemma hex_sum : forall X, simpson (fun x => simpson (fun y => simpson (fun z => hexJ X x y z))) = volume 3 3 X (seq 0 8).
Proof.
  intros X. unfold volume, aux_hex, VS, det9. cbn [length seq Nat.eqb nth Nat.modulo Nat.div Nat.divmod fst snd Nat.sub].
  unfold simpson, hexJ.
  generalize (X 0%nat 0%nat) (X 0%nat 1%nat) (X 0%nat 2%nat) (X 1%nat 0%nat) (X 1%nat 1%nat) (X 1%nat 2%nat) (X 2%nat 0%nat) (X 2%nat 1%nat) (X 2%nat 2%nat).
  generalize (X 3%nat 0%nat) (X 3%nat 1%nat) (X 3%nat 2%nat) (X 4%nat 0%nat) (X 4%nat 1%nat) (X 4%nat 2%nat) (X 5%nat 0%nat) (X 5%nat 1%nat) (X 5%nat 2%nat).
  generalize (X 6%nat 0%nat) (X 6%nat 1%nat) (X 6%nat 2%nat) (X 7%nat 0%nat) (X 7%nat 1%nat) (X 7%nat 2%nat).
  intros. cbv zeta beta. field.
Qed.

(** ** Centroids *)
Lemma fold_left_sum : forall (x : nat -> nat -> R) k l a, fold_left (fun s v => s + x v k) l a = a + fold_right Rplus 0 (map (fun v => x v k) l).
Proof. induction l as [|v l IH]; intros a; cbn; [ring|]. rewrite IH. ring. Qed.
Lemma centroid_sum : forall x vs k, centroid x vs k = fold_right Rplus 0 (map (fun v => x v k) vs) / INR (length vs).
Proof. intros. unfold centroid. rewrite fold_left_sum. f_equal. ring. Qed.
(** The centroid does not depend on the order of the vertices of the entity. *)
Lemma centroid_perm : forall x vs ws k, Permutation vs ws -> centroid x vs k = centroid x ws k.
Proof.
  intros x vs ws k P. rewrite !centroid_sum, (Permutation_length P). f_equal.
  apply (Permutation_map (fun v => x v k)) in P. induction P; cbn; auto; [congruence|ring|congruence].
Qed.
(** Reference centre of the geometry *)
Definition centre (g : geom) : nat -> R := fun _ => match g with Tri => 1 / 3 | Tet => 1 / 4 | _ => 1 / 2 end.
Theorem C138_centroid : forall g x vs k, length vs = gnv g ->
  centroid x vs k = phys (gnv g) (fun j xi => gbase g xi j) (nodes x vs) (centre g) k.
Proof.
  intros g x vs k L. rewrite centroid_sum. unfold phys, nodes, gbase, pf, centre.
  destruct g; cbn in L; repeat (destruct vs as [|? vs]; try discriminate L); cbn -[INR]; rewrite !S_INR; cbn; field.
Qed.
(** Any entity: the centroid minimizes nothing less than it balances the vertices. *)
Theorem C138_centroid_balance : forall x vs k, vs <> [] -> fold_right Rplus 0 (map (fun v => x v k - centroid x vs k) vs) = 0.
Proof.
  intros x vs k N. assert (E : forall l c, fold_right Rplus 0 (map (fun v => x v k - c) l) = fold_right Rplus 0 (map (fun v => x v k) l) - INR (length l) * c).
  { induction l as [|v l IH]; intros c; [cbn; ring|]. cbn [map fold_right length]. rewrite IH, S_INR. ring. }
  rewrite E, centroid_sum. field. apply not_0_INR. destruct vs; [congruence|discriminate].
Qed.

(** ** Volumes *)
Theorem C138_volume_segment : forall nc x a b, volume nc 1 x [a; b] = sqrt (sm nc (fun k => Rsqr (x b k - x a k))).
Proof. intros. unfold volume, VS. cbn. reflexivity. Qed.
Theorem C138_volume_triangle_2d : forall dim x ind, dim <> 1%nat -> length ind = 3%nat ->
  volume 2 dim x ind = Rabs (simplex_volume 2 (nodes x ind)).
Proof.
  intros dim x ind D L. unfold volume. rewrite L. destruct (Nat.eqb_spec dim 1); [congruence|]. cbn [Nat.eqb].
  unfold tri_area, simplex_volume, det2, edge, nodes, VS, cross. cbn [Nat.eqb Nat.ltb Nat.leb].
  unfold Rdiv. rewrite Rabs_mult, (Rabs_right (/ 2)) by lra. rewrite Rmult_comm. f_equal.
Qed.
(** In space: the area of the triangle with edges a, b: 4 area^2 = |a|^2 |b|^2 - (a . b)^2 *)
Theorem C138_volume_triangle_3d : forall dim x ind, dim <> 1%nat -> length ind = 3%nat ->
  let a := edge (nodes x ind) 0 in let b := edge (nodes x ind) 1 in
  0 <= volume 3 dim x ind /\ 4 * Rsqr (volume 3 dim x ind) = dot 3 a a * dot 3 b b - Rsqr (dot 3 a b).
Proof.
  intros dim x ind D L a b. unfold volume. rewrite L. destruct (Nat.eqb_spec dim 1); [congruence|]. cbn [Nat.eqb].
  unfold tri_area. cbn [Nat.eqb]. set (u := cross _ _). split; [apply Rmult_le_pos; [lra|apply sqrt_pos]|].
  rewrite Rsqr_mult, Rsqr_sqrt.
  - unfold u, a, b, edge, nodes, VS, cross, dot, Rsqr. cbn. field.
  - pose proof (Rle_0_sqr (u 0%nat)). pose proof (Rle_0_sqr (u 1%nat)). pose proof (Rle_0_sqr (u 2%nat)). unfold Rsqr in *. lra.
Qed.
Theorem C138_volume_tetrahedron : forall x ind, length ind = 4%nat -> volume 3 3 x ind = simplex_volume 3 (nodes x ind).
Proof.
  intros x ind L. unfold volume. rewrite L. cbn -[nth]. unfold VS, simplex_volume, det3, edge, nodes, cross. cbn. field.
Qed.
(** The volume of a hexahedron is the integral of the Jacobian of its trilinear mapping. *)
Theorem C138_volume_hexahedron : forall x ind, length ind = 8%nat -> cube_int 3 (jac Hex (nodes x ind)) (volume 3 3 x ind).
Proof.
  intros x ind L. destruct (hexJ_quadratic (nodes x ind)) as (H1 & H2 & H3).
  pose proof (cube_int_quadratic (hexJ (nodes x ind)) H1 H2 H3) as I. rewrite hex_sum in I.
  replace (volume 3 3 x ind) with (volume 3 3 (nodes x ind) (seq 0 8)).
  - refine (@cube_int_ext _ _ _ _ _ I). intros l _. symmetry. apply jac_hex.
  - unfold volume. rewrite L. cbn [length seq Nat.eqb]. unfold aux_hex, VS, nodes, det9. cbn -[nth]. cbn [nth]. reflexivity.
Qed.
Lemma jac_quad : forall X xi, jac Quad X xi =
  let d := fun a b k => X a k - X b k in
  (1 - nth 0 xi 0 - nth 1 xi 0) * det2 (d 1%nat 0%nat) (d 3%nat 0%nat) + nth 0 xi 0 * det2 (d 1%nat 0%nat) (d 2%nat 1%nat)
  + nth 1 xi 0 * det2 (d 2%nat 3%nat) (d 3%nat 0%nat).
Proof. intros X xi. unfold jac, mtxRM, ggrad, pf, det2. cbn -[nth]. cbn [nth Nat.eqb]. ring. Qed.
Theorem C138_volume_quadrilateral_partial : forall x ind, length ind = 4%nat ->
  0 <= det2 (fun k => nodes x ind 1%nat k - nodes x ind 0%nat k) (fun k => nodes x ind 2%nat k - nodes x ind 1%nat k) ->
  0 <= det2 (fun k => nodes x ind 3%nat k - nodes x ind 2%nat k) (fun k => nodes x ind 0%nat k - nodes x ind 3%nat k) ->
  volume 2 2 x ind = quad_area (nodes x ind) /\ cube_int 2 (jac Quad (nodes x ind)) (volume 2 2 x ind).
Proof.
  intros x ind L A B.
  assert (E : volume 2 2 x ind = quad_area (nodes x ind)).
  { unfold volume. rewrite L. cbn [Nat.eqb]. unfold tri_area, VS, cross. cbn [Nat.eqb Nat.ltb Nat.leb nth].
    unfold quad_area, det2, nodes in *. rewrite !Rabs_right; [field| |];
    match goal with |- ?a >= 0 => apply Rle_ge end; [eapply Rle_trans; [exact B|right; ring]|eapply Rle_trans; [exact A|right; ring]]. }
  split; auto. rewrite E. set (X := nodes x ind).
  cbn -[is_RInt]. exists (fun a => simpson (fun b => jac Quad X [a; b])). split.
  - intros a _. exists (fun b => jac Quad X [a; b]). split; auto. apply RInt_quadratic. intros z. rewrite !jac_quad. cbn. field.
  - replace (quad_area X) with (simpson (fun a => simpson (fun b => jac Quad X [a; b]))).
    + apply RInt_quadratic. intros z. unfold simpson. rewrite !jac_quad. cbn. field.
    + unfold simpson. rewrite !jac_quad. unfold quad_area, det2. cbn. field.
Qed.
(** A quadrilateral with a reentrant vertex 1 (positive area 6): the result is 10. *)
Definition pts (l : list (list R)) : nat -> nat -> R := fun i k => nth k (nth i l []) 0.
Theorem C138_volume_quadrilateral_refuted : exists x ind, length ind = 4%nat /\ quad_area (nodes x ind) = 6 /\ volume 2 2 x ind = 10.
Proof.
  exists (pts [[0; 0]; [2; 1]; [4; 0]; [2; 4]]), [0; 1; 2; 3]%nat. split; [reflexivity|].
  unfold quad_area, det2, nodes, volume, tri_area, VS, pts, cross. cbn. split; [lra|]. 
  replace ((2 - 0) * (0 - 0) - (1 - 0) * (4 - 0)) with (-4) by ring. replace ((2 - 4) * (0 - 0) - (4 - 0) * (0 - 4)) with 16 by ring.
  rewrite (Rabs_left (-4)), (Rabs_right 16) by lra. lra.
Qed.
(** Quadrilateral faces that are planar and convex: all four triangles have the same direction [n]. *)
Theorem C138_volume_face : forall x ind n a b c d, length ind = 4%nat -> norm2 n = 1 -> 0 <= a -> 0 <= b -> 0 <= c -> 0 <= d ->
  let X := nodes x ind in let cr := fun i j k m => cross (fun l => X j l - X i l) (fun l => X k l - X i l) m in
  (forall k, (k < 3)%nat -> cr 0%nat 1%nat 2%nat k = a * n k) -> (forall k, (k < 3)%nat -> cr 0%nat 2%nat 3%nat k = b * n k) ->
  (forall k, (k < 3)%nat -> cr 1%nat 2%nat 3%nat k = c * n k) -> (forall k, (k < 3)%nat -> cr 0%nat 1%nat 3%nat k = d * n k) ->
  volume 3 2 x ind = (a + b) / 2.
Proof.
  intros x ind n a b c d L N A B C D X cr HA HB HC HD.
  assert (T : forall i j k s (m : nat -> R), 0 <= s -> (forall l, (l < 3)%nat -> cr i j k l = s * m l) -> norm2 m = 1 -> tri_area 3 x [nth i ind 0%nat; nth j ind 0%nat; nth k ind 0%nat] = s / 2).
  { intros i j k s m S H M. unfold tri_area. cbn [Nat.eqb]. set (u := cross _ _).
    assert (U : forall l, (l < 3)%nat -> u l = s * m l).
    { intros l Hl. rewrite <- H by auto. unfold u, cr, cross, X, nodes, VS. cbn [nth Nat.ltb Nat.leb]. reflexivity. }
    rewrite !U by lia. replace (s * m 0%nat * (s * m 0%nat) + s * m 1%nat * (s * m 1%nat) + s * m 2%nat * (s * m 2%nat)) with (Rsqr s * norm2 m) by (unfold norm2, Rsqr; ring).
    rewrite M, Rmult_1_r, sqrt_Rsqr by auto. field. }
  assert (E : a + b = c + d).
  { assert (F : forall k, (k < 3)%nat -> (a + b - c - d) * n k = 0).
    { intros k Hk. replace ((a + b - c - d) * n k) with (a * n k + b * n k - c * n k - d * n k) by ring.
      rewrite <- HA, <- HB, <- HC, <- HD by auto. unfold cr, cross. destruct k as [|[|[|k]]]; [ring|ring|ring|lia]. }
    assert (G : (a + b - c - d) * norm2 n = 0) by (unfold norm2; rewrite !Rmult_plus_distr_l, <- !Rmult_assoc, !F by lia; ring).
    rewrite N in G. lra. }
  assert (R1 : forall k, (k < 3)%nat -> cr 2%nat 3%nat 0%nat k = b * n k).
  { intros k Hk. rewrite <- HB by auto. unfold cr, cross. destruct k as [|[|[|k]]]; [ring|ring|ring|lia]. }
  assert (R2 : forall k, (k < 3)%nat -> cr 3%nat 0%nat 1%nat k = d * n k).
  { intros k Hk. rewrite <- HD by auto. unfold cr, cross. destruct k as [|[|[|k]]]; [ring|ring|ring|lia]. }
  unfold volume. rewrite L. cbn [Nat.eqb].
  rewrite (T 0 1 2 a n)%nat, (T 1 2 3 c n)%nat, (T 2 3 0 b n)%nat, (T 3 0 1 d n)%nat by auto. lra.
Qed.
(** Wedges: exact for prisms; wrong for a wedge with planar sides that is not a prism: 1/2 instead of 7/24, the sum of the
    volumes of the three tetrahedra that form it. *)
Theorem C138_volume_wedge_partial : forall x ind, length ind = 6%nat ->
  (forall k, nodes x ind 4%nat k - nodes x ind 1%nat k = nodes x ind 3%nat k - nodes x ind 0%nat k) ->
  (forall k, nodes x ind 5%nat k - nodes x ind 2%nat k = nodes x ind 3%nat k - nodes x ind 0%nat k) ->
  volume 3 3 x ind = wedge_volume (nodes x ind).
Proof.
  intros x ind L H4 H5. unfold volume. rewrite L. cbn -[nth nodes wedge_volume]. set (X := nodes x ind) in *.
  unfold wedge_volume, simplex_volume, det3, edge, VS, cross, nodes. cbn -[X].
  change (x (nth 0 ind 0%nat)) with (X 0%nat). change (x (nth 1 ind 0%nat)) with (X 1%nat). change (x (nth 2 ind 0%nat)) with (X 2%nat). change (x (nth 3 ind 0%nat)) with (X 3%nat).
  assert (E4 : forall k, X 4%nat k = X 1%nat k + X 3%nat k - X 0%nat k) by (intros k; specialize (H4 k); lra).
  assert (E5 : forall k, X 5%nat k = X 2%nat k + X 3%nat k - X 0%nat k) by (intros k; specialize (H5 k); lra).
  rewrite !E4, !E5. field.
Qed.
Theorem C138_volume_wedge_refuted : exists x ind, length ind = 6%nat /\ wedge_volume (nodes x ind) = 7 / 24 /\ volume 3 3 x ind = 1 / 2.
Proof.
  exists (pts [[0; 0; 0]; [1; 0; 0]; [0; 1; 0]; [0; 0; 1]; [1/2; 0; 1]; [0; 1/2; 1]]), [0; 1; 2; 3; 4; 5]%nat. split; [reflexivity|].
  unfold wedge_volume, simplex_volume, det3, edge, nodes, volume, VS, pts, cross. cbn. split; field.
Qed.

(** ** Normals *)
Lemma sqrt_nz : forall s, 0 < s -> sqrt s <> 0.
Proof. intros s S E. apply sqrt_eq_0 in E; lra. Qed.
Lemma normalize_ok : forall eps nc v, 0 <= eps -> eps < sqrt (sm nc (fun k => v k * v k)) ->
  exists s, 0 < s /\ (forall k, normalize eps nc v k = s * v k) /\ sm nc (fun k => Rsqr (normalize eps nc v k)) = 1.
Proof.
  intros eps nc v E H. set (N := sqrt (sm nc (fun k => v k * v k))) in *.
  assert (P : 0 < N) by lra. exists (/ N). split; [apply Rinv_0_lt_compat; auto|].
  assert (K : forall k, normalize eps nc v k = / N * v k).
  { intros k. unfold normalize. fold N. destruct (Rlt_dec eps N) as [_|]; [|contradiction]. field. lra. }
  split; auto. rewrite (@sm_ext nc _ (fun k => (/ N * / N) * (v k * v k))).
  - rewrite sm_scal. assert (Q : sm nc (fun k => v k * v k) = N * N).
    { symmetry. apply sqrt_sqrt. destruct (Rle_lt_dec 0 (sm nc (fun k => v k * v k))) as [|C]; auto.
      exfalso. unfold N in P. rewrite sqrt_neg_0 in P; lra. }
    rewrite Q. field. lra.
  - intros k _. rewrite K. unfold Rsqr. ring.
Qed.
(** The direction before normalization *)
Definition ndir (nc : nat) (which : option nat) (x : nat -> nat -> R) (cv ik : list nat) : nat -> R :=
  let V := fun ic id => VS x cv (nth ic ik 0%nat) id in
  let d := fun a b id => V a id - V b id in
  match length ik with
  | 2%nat => fun k => match k with 0%nat => d 1%nat 0%nat 1%nat | 1%nat => - d 1%nat 0%nat 0%nat | _ => 0 end
  | 3%nat => cross (d 1%nat 0%nat) (d 2%nat 0%nat)
  | _ => match which with
         | Some 0%nat => cross (d 1%nat 0%nat) (d 3%nat 0%nat)
         | Some 1%nat => cross (d 3%nat 2%nat) (d 1%nat 2%nat)
         | _ => fun k => cross (d 1%nat 0%nat) (d 3%nat 0%nat) k + cross (d 3%nat 2%nat) (d 1%nat 2%nat) k
         end
  end.
Lemma facet_normal_eq : forall eps nc which x cv ik, facet_normal eps nc which x cv ik = normalize eps nc (ndir nc which x cv ik).
Proof. intros. unfold facet_normal, ndir. destruct (length ik) as [|[|[|[|]]]]; auto. Qed.
(** The size of the facet: the length of an edge, twice the area of a triangle *)
Definition fsize (nc : nat) (v : nat -> R) : R := sqrt (sm nc (fun k => v k * v k)).
(** What an outward unit normal [n] of facet [f] of a cell with nodes [X] is: unit, orthogonal to the facet, all the
    vertices not on the facet are strictly behind. *)
Definition outward_normal (g : geom) (X : nat -> nat -> R) (f : nat) (n : nat -> R) : Prop :=
  let fv := nth f (gfacets g) [] in
  sm (gdim g) (fun k => Rsqr (n k)) = 1 /\
  (forall a b, In a fv -> In b fv -> dot (gdim g) n (fun k => X b k - X a k) = 0) /\
  (forall a v, In a fv -> (v < gnv g)%nat -> ~ In v fv -> dot (gdim g) n (fun k => X v k - X a k) < 0).
Lemma dot_scal : forall dim (n v w : nat -> R) s, (forall k, n k = s * v k) -> dot dim n w = s * dot dim v w.
Proof. intros dim n v w s H. unfold dot. rewrite <- sm_scal. apply sm_ext. intros k _. rewrite H. ring. Qed.
Lemma outward_of : forall g X f (v n : nat -> R) s, 0 < s -> (forall k, n k = s * v k) -> sm (gdim g) (fun k => Rsqr (n k)) = 1 ->
  (forall a b, In a (nth f (gfacets g) []) -> In b (nth f (gfacets g) []) -> dot (gdim g) v (fun k => X b k - X a k) = 0) ->
  (forall a w, In a (nth f (gfacets g) []) -> (w < gnv g)%nat -> ~ In w (nth f (gfacets g) []) -> dot (gdim g) v (fun k => X w k - X a k) < 0) ->
  outward_normal g X f n.
Proof.
  intros g X f v n s S E U H1 H2. split; [auto|]. split.
  - intros a b A B. rewrite (dot_scal _ _ _ _ _ E), H1 by auto. ring.
  - intros a w A W N. rewrite (dot_scal _ _ _ _ _ E). specialize (H2 a w A W N). apply Rmult_lt_compat_l with (r := s) in H2; lra.
Qed.
Ltac cases_in := repeat match goal with
  | H : In _ _ |- _ => cbn [In] in H; decompose [or] H; clear H; subst; try contradiction end.
Lemma lt4 : forall v n, (v < n)%nat -> (n <= 4)%nat -> (v = 0 \/ v = 1 \/ v = 2 \/ v = 3)%nat.
Proof. intros. lia. Qed.
(** Positive simplices, convex quadrilaterals (all four corners positive) *)
Definition positive (g : geom) (X : nat -> nat -> R) : Prop :=
  match g with
  | Quad => forall i j k, In (i, j, k) [(0, 1, 3); (1, 2, 0); (2, 3, 1); (3, 0, 2)]%nat -> 0 < det2 (fun c => X j c - X i c) (fun c => X k c - X i c)
  | _ => 0 < simplex_volume (gdim g) X
  end.
Theorem C138_normals : forall g eps which x cv f, In g [Tri; Quad; Tet] -> 0 <= eps -> length cv = gnv g -> positive g (nodes x cv) ->
  (f < length (gfacets g))%nat -> eps < fsize (gdim g) (ndir (gdim g) which x cv (nth f (gfacets g) [])) ->
  outward_normal g (nodes x cv) f (facet_normal eps (gdim g) which x cv (nth f (gfacets g) [])).
Proof.
  intros g eps which x cv f G E L P F S. rewrite facet_normal_eq.
  destruct (@normalize_ok eps (gdim g) _ E S) as (s & Sp & K & U).
  apply (@outward_of _ _ _ (ndir (gdim g) which x cv (nth f (gfacets g) [])) _ s); auto; clear K U Sp s S E; set (X := nodes x cv) in *; assert (VV : forall i, x (nth i cv 0%nat) = X i) by reflexivity; clearbody X.
  - intros a b A B.
    destruct G as [<- | [<- | [<- | []]]]; cbn in F; destruct (lt4 f _ F ltac:(cbn; lia)) as [-> | [-> | [-> | ->]]]; try lia; cbn [gfacets nth] in A, B; cases_in;
    unfold ndir, VS, dot, cross; cbn; rewrite !VV; ring.
  - intros a w A W N.
    destruct G as [<- | [<- | [<- | []]]]; cbn in F; destruct (lt4 f _ F ltac:(cbn; lia)) as [-> | [-> | [-> | ->]]]; try lia; cbn [gfacets nth gnv gverts length] in A, W, N; cases_in;
    destruct (lt4 w _ W ltac:(lia)) as [-> | [-> | [-> | ->]]]; try lia; try (exfalso; apply N; cbn; tauto); clear N;
    unfold ndir, VS, dot, cross; cbn; rewrite !VV; cbn in P; unfold det2, det3, edge in P;
    try lra;
    try (pose proof (P _ _ _ (or_introl eq_refl)); pose proof (P _ _ _ (or_intror (or_introl eq_refl))); pose proof (P _ _ _ (or_intror (or_intror (or_introl eq_refl))));
         pose proof (P _ _ _ (or_intror (or_intror (or_intror (or_introl eq_refl))))); clear P; lra).
Qed.
(** Hexahedra with positive corners: a face is planar with the cell behind it, i.e. has an outward normal [m], then the
    result is this normal. *)
Definition corner (v : nat) : list R := map INR (nth v (gverts Hex) []).
Lemma cross_along : forall m u v k, norm2 m = 1 -> dot 3 m u = 0 -> dot 3 m v = 0 -> (k < 3)%nat -> cross u v k = dot 3 m (cross u v) * m k.
Proof.
  intros m u v k N U V K.
  assert (E : cross u v k * norm2 m - dot 3 m (cross u v) * m k = cross (fun i => u i * dot 3 m v - v i * dot 3 m u) m k).
  { unfold dot, norm2, cross. destruct k as [|[|[|k]]]; [| | |lia]; cbn; ring. }
  rewrite N, U, V in E. replace (cross (fun i => u i * 0 - v i * 0) m k) with 0 in E by (unfold cross; destruct k as [|[|[|k]]]; ring). lra.
Qed.
Lemma normalize_along : forall eps v m p, 0 <= eps -> norm2 m = 1 -> 0 < p -> (forall k, (k < 3)%nat -> v k = p * m k) -> eps < fsize 3 v ->
  forall k, (k < 3)%nat -> normalize eps 3 v k = m k.
Proof.
  intros eps v m p E N P H S k K. unfold normalize.
  assert (F : sqrt (sm 3 (fun k => v k * v k)) = p).
  { cbn. rewrite !H by lia. replace (0 + p * m 0%nat * (p * m 0%nat) + p * m 1%nat * (p * m 1%nat) + p * m 2%nat * (p * m 2%nat)) with (Rsqr p * norm2 m) by (unfold Rsqr, norm2; ring).
    rewrite N, Rmult_1_r. apply sqrt_Rsqr. lra. }
  unfold fsize in S. rewrite F in *. destruct (Rlt_dec eps p); [|contradiction]. rewrite H by auto. field. lra.
Qed.
(** The other end of the edge going inside from the corner 0 or 2 of a face *)
Definition inner (f : nat) (b : bool) : nat := nth (2 * f + if b then 0 else 1)%nat [4; 6; 1; 6; 3; 6; 0; 2; 0; 7; 0; 5]%nat 0%nat.
Definition turn (b : bool) (i : nat) : nat := if b then i else (match i with 0 => 2 | 1 => 3 | 2 => 0 | _ => 1 end)%nat.
Lemma hex_corner : forall X f (b : bool), (f < 6)%nat -> let fv := nth f (gfacets Hex) [] in
  let a := fun i => nth (turn b i) fv 0%nat in let e := inner f b in
  (e < 8)%nat /\ ~ In e fv /\
  dot 3 (cross (fun k => X (a 1%nat) k - X (a 0%nat) k) (fun k => X (a 3%nat) k - X (a 0%nat) k)) (fun k => X e k - X (a 0%nat) k) = - jac Hex X (corner (a 0%nat)).
Proof.
  intros X f b F.
  assert (C : (f = 0 \/ f = 1 \/ f = 2 \/ f = 3 \/ f = 4 \/ f = 5)%nat) by lia.
  destruct C as [-> | [-> | [-> | [-> | [-> | ->]]]]]; destruct b; cbn [gfacets nth inner turn Nat.mul Nat.add]; (split; [cbn; lia|]);
  (split; [cbn; lia|]); rewrite jac_hex; unfold hexJ, corner, dot, cross; cbn; ring.
Qed.
Theorem C138_normals_hex : forall eps which x cv f m, 0 <= eps -> length cv = 8%nat ->
  (forall v, (v < 8)%nat -> 0 < jac Hex (nodes x cv) (corner v)) -> (f < 6)%nat ->
  outward_normal Hex (nodes x cv) f m -> eps < fsize 3 (ndir 3 which x cv (nth f (gfacets Hex) [])) ->
  forall k, (k < 3)%nat -> facet_normal eps 3 which x cv (nth f (gfacets Hex) []) k = m k.
Proof.
  intros eps which x cv f m E L P F (N & O & B) S. rewrite facet_normal_eq. set (X := nodes x cv) in *.
  assert (N' : norm2 m = 1) by (rewrite <- N; unfold norm2, Rsqr; cbn; ring). cbn [gdim] in N, O, B.
  set (fv := nth f (gfacets Hex) []) in *.
  assert (L4 : length fv = 4%nat).
  { unfold fv. assert (C : (f = 0 \/ f = 1 \/ f = 2 \/ f = 3 \/ f = 4 \/ f = 5)%nat) by lia. destruct C as [-> | [-> | [-> | [-> | [-> | ->]]]]]; reflexivity. }
  assert (LV : forall i, (i < 4)%nat -> In (nth i fv 0%nat) fv) by (intros; apply nth_In; lia).
  assert (V8 : forall v, In v fv -> (v < 8)%nat).
  { intros v V. unfold fv in V. assert (C : (f = 0 \/ f = 1 \/ f = 2 \/ f = 3 \/ f = 4 \/ f = 5)%nat) by lia. destruct C as [-> | [-> | [-> | [-> | [-> | ->]]]]]; cbn in V; lia. }
  assert (K : forall b : bool, exists p, 0 < p /\ forall k, (k < 3)%nat ->
     cross (fun k => X (nth (turn b 1) fv 0%nat) k - X (nth (turn b 0) fv 0%nat) k) (fun k => X (nth (turn b 3) fv 0%nat) k - X (nth (turn b 0) fv 0%nat) k) k = p * m k).
  { intros b. set (a := fun i => nth (turn b i) fv 0%nat).
    assert (A : forall i, (i < 4)%nat -> In (a i) fv) by (intros i Hi; apply LV; destruct b; cbn; [lia|destruct i as [|[|[|i]]]; lia]).
    set (u := fun k => X (a 1%nat) k - X (a 0%nat) k). set (v := fun k => X (a 3%nat) k - X (a 0%nat) k).
    assert (U : dot 3 m u = 0) by (apply O; apply A; lia). assert (V : dot 3 m v = 0) by (apply O; apply A; lia).
    exists (dot 3 m (cross u v)). split; [|intros k Hk; apply cross_along; auto].
    destruct (@hex_corner X f b F) as (He & Hn & Hd). fold fv in Hn, Hd. cbv zeta in Hd.
    change (fun k => X (nth (turn b 1) fv 0%nat) k - X (nth (turn b 0) fv 0%nat) k) with u in Hd.
    change (fun k => X (nth (turn b 3) fv 0%nat) k - X (nth (turn b 0) fv 0%nat) k) with v in Hd.
    set (w := fun k => X (inner f b) k - X (nth (turn b 0) fv 0%nat) k) in Hd.
    assert (W : dot 3 m w < 0) by (apply (B (a 0%nat) (inner f b)); auto; apply A; lia).
    assert (J : dot 3 (cross u v) w < 0). { rewrite Hd. assert (Q := P (a 0%nat) (V8 _ (A 0%nat ltac:(lia)))). unfold a in Q. lra. }
    assert (Z : dot 3 (cross u v) w = dot 3 m (cross u v) * dot 3 m w).
    { assert (C0 := @cross_along m u v 0%nat N' U V ltac:(lia)). assert (C1 := @cross_along m u v 1%nat N' U V ltac:(lia)). assert (C2 := @cross_along m u v 2%nat N' U V ltac:(lia)).
      unfold dot at 1. cbn -[cross dot]. rewrite C0, C1, C2. set (dd := dot 3 m (cross u v)). unfold dot. cbn. ring. }
    rewrite Z in J. destruct (Rlt_le_dec 0 (dot 3 m (cross u v))) as [|Q]; auto. exfalso.
    assert (0 <= (- dot 3 m (cross u v)) * (- dot 3 m w)) by (apply Rmult_le_pos; lra). lra. }
  destruct (K true) as (p & Pp & Kp). destruct (K false) as (q & Pq & Kq). cbn [turn] in Kp, Kq.
  assert (D : exists s, 0 < s /\ forall k, (k < 3)%nat -> ndir 3 which x cv fv k = s * m k).
  { unfold ndir. rewrite L4. destruct which as [[|[|w]]|].
    - exists p. split; auto.
    - exists q. split; auto.
    - exists (p + q). split; [lra|]. intros k Hk. rewrite Rmult_plus_distr_r, <- Kp, <- Kq by auto. reflexivity.
    - exists (p + q). split; [lra|]. intros k Hk. rewrite Rmult_plus_distr_r, <- Kp, <- Kq by auto. reflexivity. }
  destruct D as (s & Ps & Ks). apply (@normalize_along eps _ m s); auto.
Qed.
(** Small facets get the zero normal. *)
Theorem C138_normals_small_refuted : forall eps, 0 < eps -> exists x cv, length cv = 3%nat /\ positive Tri (nodes x cv) /\
  forall k, facet_normal eps 2 None x cv (nth 0 (gfacets Tri) []) k = 0.
Proof.
  intros eps E. exists (pts [[0; 0]; [eps; 0]; [0; eps]]), [0; 1; 2]%nat. split; [reflexivity|]. split.
  - cbn. unfold det2, edge, nodes, pts. cbn. assert (0 < eps * eps) by (apply Rmult_lt_0_compat; auto). lra.
  - intros k. rewrite facet_normal_eq. unfold normalize. destruct Rlt_dec as [H|]; auto. exfalso. revert H.
    cbn. unfold ndir, VS, pts. cbn. replace (0 + (0 - 0) * (0 - 0) + - (eps - 0) * - (eps - 0)) with (Rsqr eps) by (unfold Rsqr; ring).
    rewrite sqrt_Rsqr by lra. lra.
Qed.
(** A unit cube meets the hypotheses. *)
Example C138_hex_ex : let x := pts [[0;0;0];[1;0;0];[1;1;0];[0;1;0];[0;0;1];[1;0;1];[1;1;1];[0;1;1]] in let cv := seq 0 8 in
  (forall v, (v < 8)%nat -> 0 < jac Hex (nodes x cv) (corner v)) /\ outward_normal Hex (nodes x cv) 0 (fun k => match k with 2%nat => -1 | _ => 0 end) /\
  volume 3 3 x cv = 1.
Proof.
  cbv zeta. split; [|split].
  - intros v V. rewrite jac_hex. unfold hexJ, nodes, pts, corner.
    assert (C : (v = 0 \/ v = 1 \/ v = 2 \/ v = 3 \/ v = 4 \/ v = 5 \/ v = 6 \/ v = 7)%nat) by lia.
    destruct C as [-> | [-> | [-> | [-> | [-> | [-> | [-> | ->]]]]]]]; cbn; lra.
  - split; [cbn; unfold Rsqr; ring|]. split.
    + intros a b A B. cbn [gfacets nth] in A, B. cases_in; unfold dot, nodes, pts; cbn; ring.
    + intros a v A V N. cbn [gnv gverts length] in V. cbn [gfacets nth] in A, N.
      assert (C : (v = 0 \/ v = 1 \/ v = 2 \/ v = 3 \/ v = 4 \/ v = 5 \/ v = 6 \/ v = 7)%nat) by lia.
      destruct C as [-> | [-> | [-> | [-> | [-> | [-> | [-> | ->]]]]]]]; try (exfalso; apply N; cbn; tauto); clear N; cases_in; unfold dot, nodes, pts; cbn; lra.
  - unfold volume, aux_hex, VS, det9, pts. cbn. field.
Qed.
Print Assumptions C138_volume_hexahedron.
Print Assumptions C138_normals_hex.
