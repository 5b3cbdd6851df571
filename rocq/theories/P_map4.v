(** C133: normals of cells point outwards. C134: Jacobians of facet parametrizations. *)
From Coq Require Import Reals Lra Psatz.
From Verif Require Import Base M_fmf L_fmf M_nls M_map S_map L_map P_map P_map2 P_map3.
Open Scope nat_scope.

(** ** Derivatives of the geometry basis *)
Lemma gbase_shift : forall g xi i j t, i < gdim g -> j < gnv g ->
  gbase g (shift xi i t) j = (gbase g xi j + t * ggrad g xi i j)%R.
Proof.
  intros g xi i j t Hi Hj. destruct g; enum i Hi; enum j Hj; unfold gbase, ggrad, pf, shift; cbn; ring.
Qed.
Lemma lim_affine : forall a b, derivable_pt_lim (fun t => (a + t * b)%R) 0 b.
Proof.
  intros a b eps He. exists (mkposreal 1 Rlt_0_1). intros h Nh _. rewrite Rplus_0_l.
  replace ((a + h * b - (a + 0 * b)) / h - b)%R with 0%R by (field; auto). rewrite Rabs_R0. auto.
Qed.
Theorem C134_geometry_gradient : forall g xi i j, i < gdim g -> j < gnv g -> pderiv (fun x => gbase g x j) i xi (ggrad g xi i j).
Proof.
  intros g xi i j Hi Hj. unfold pderiv. intros eps He. destruct (lim_affine (gbase g xi j) (ggrad g xi i j) eps He) as (d & H).
  exists d. intros h Nh Lh. specialize (H h Nh Lh). cbn beta in *. rewrite !gbase_shift by auto. exact H.
Qed.
Lemma ggrad_sum : forall g xi i, i < gdim g -> sm (gnv g) (ggrad g xi i) = 0%R.
Proof. intros g xi i Hi. destruct g; enum i Hi; unfold ggrad, pf; cbn; ring. Qed.

Section Facet.
Variables (g : geom) (n_fa n_qp : nat) (coors : nat -> nat -> R) (conn : nat -> nat -> nat) (fis : nat -> nat * nat)
  (qp : nat -> nat -> R) (w : nat -> R) (eps : R).
(** Vertices of facet [c]. *)
Definition fx (c j k : nat) : R := coors (facet_conn g conn fis c j) k.
Definition ftang c q i : nat -> R := tang (gnv (gsurf g)) coors (facet_conn g conn fis) (fun q => facet_bf_g g (qp q)) c q i.
Definition parallelogram (x : nat -> nat -> R) : Prop := forall k, k < 3 -> (x 0%nat k + x 2%nat k = x 1%nat k + x 3%nat k)%R.
(** The tangent vectors are derivatives of the physical facet point; faces of hexahedra have
    to be parallelograms. *)
Theorem C134_jacobian_partial : forall c q i k, g <> Seg -> (g = Hex -> parallelogram (fx c)) -> i < gdim g - 1 -> k < 3 ->
  pderiv (fun xi => phys (gnv (gsurf g)) (fun j xi => gbase (gsurf g) xi j) (fx c) xi k) i (qp q) (ftang c q i k).
Proof.
  intros c q i k Hg Hp Hi Hk.
  assert (L : pderiv (fun xi => phys (gnv (gsurf g)) (fun j xi => gbase (gsurf g) xi j) (fx c) xi k) i (qp q)
                (sm (gnv (gsurf g)) (fun j => (ggrad (gsurf g) (qp q) i j * fx c j k)%R))).
  { unfold pderiv, phys. apply (lim_sum _ (fun j t => (gbase (gsurf g) (shift (qp q) i t) j * fx c j k)%R)).
    intros j Hj. apply lim_scal_r. apply C134_geometry_gradient; auto. destruct g; try contradiction; cbn in *; lia. }
  replace (ftang c q i k) with (sm (gnv (gsurf g)) (fun j => (ggrad (gsurf g) (qp q) i j * fx c j k)%R)); auto.
  unfold ftang, tang, jac. fold (fx c).
  assert (C : g = Hex \/ g <> Hex) by (destruct g; auto; right; discriminate). destruct C as [C|C].
  - specialize (Hp C k Hk).
    rewrite (@sm_ext (gnv (gsurf g)) (fun j => (facet_bf_g g (qp q) i j * coors (facet_conn g conn fis c j) k)%R)
       (fun j => (ggrad Quad (swap (qp q)) i j * fx c j k)%R)).
    + rewrite C in *. cbn [gsurf gdim] in *. enum i Hi; unfold swap, ggrad, pf; cbn;
      replace (fx c 3%nat k) with (fx c 0%nat k + fx c 2%nat k - fx c 1%nat k)%R by lra; ring.
    + intros j Hj. unfold fx. rewrite C in Hj, Hi |- *. rewrite hex_gradients by (cbn in *; lia). reflexivity.
  - apply sm_ext. intros j Hj. rewrite C134_facet_gradients_partial by auto. reflexivity.
Qed.
End Facet.

(** ** The normal points out of the cell *)
Lemma simplex_tang : forall g coors conn fis qp c q i k, g = Tri \/ g = Tet -> i < gdim g - 1 ->
  ftang g coors conn fis qp c q i k = (fx g coors conn fis c (S i) k - fx g coors conn fis c 0 k)%R.
Proof.
  intros g coors conn fis qp c q i k Hg Hi. unfold ftang, tang, jac, fx.
  destruct Hg; subst g; enum i Hi; expand; ring.
Qed.

(** (opposite vertex - facet) . raw normal = - dim! volume *)
Lemma raw_outward : forall g coors conn fis qp c q cell f v, g = Tri \/ g = Tet -> fis c = (cell, f) -> f < length (gfacets g) ->
  v < gnv g -> ~ In v (nth f (gfacets g) []) ->
  dot (gdim g) (rawn (gdim g) (ftang g coors conn fis qp c q)) (fun k => (coors (conn cell v) k - coors (conn cell (fvert g f 0)) k)%R) =
  (- simplex_volume (gdim g) (fun j => coors (conn cell j)) * INR (match gdim g with 2 => 2 | _ => 6 end))%R.
Proof.
  intros g coors conn fis qp c q cell f v Hg Hf Lf Hv Nv.
  destruct Hg; subst g; enum f Lf; enum v Hv; try (exfalso; apply Nv; cbn; tauto); clear Nv;
  unfold dot, ftang, tang, jac, facet_conn, simplex_volume, edge, det2, det3, rawn, cross; rewrite Hf; cbn [fst snd]; expand; field.
Qed.
Theorem C133_outward : forall g n_fa n_qp coors conn fis qp w eps c q cell f v, g = Tri \/ g = Tet -> (0 < eps)%R ->
  fis c = (cell, f) -> f < length (gfacets g) -> v < gnv g -> ~ In v (nth f (gfacets g) []) ->
  (0 < simplex_volume (gdim g) (fun j => coors (conn cell j)))%R ->
  (dot (gdim g) (m_normal (facet_mapping g n_fa n_qp coors conn fis qp w eps) c q)
     (fun k => (coors (conn cell v) k - coors (conn cell (fvert g f 0)) k)%R) < 0)%R.
Proof.
  intros g n_fa n_qp coors conn fis qp w eps c q cell f v Hg He Hf Lf Hv Nv Vol.
  pose proof (raw_outward g coors conn fis qp c q cell f v Hg Hf Lf Hv Nv) as E.
  assert (D : gdim g = 2 \/ gdim g = 3) by (destruct Hg; subst g; auto).
  set (dn := norm (gdim g) (rawn (gdim g) (ftang g coors conn fis qp c q))) in *.
  set (s := (if Rltb (Rabs dn) eps then 1 else dn)%R).
  assert (Ps : (0 < s)%R). { unfold s. destruct (Rltb (Rabs dn) eps) eqn:B; [lra|]. apply Rltb_false in B.
    pose proof (norm_nonneg (gdim g) (rawn (gdim g) (ftang g coors conn fis qp c q))) as P. fold dn in P.
    rewrite Rabs_right in B by lra. lra. }
  assert (F : (0 < INR (match gdim g with 2 => 2 | _ => 6 end))%R) by (destruct Hg; subst g; cbn; lra).
  unfold dot. rewrite (@sm_ext (gdim g) _ (fun k => (rawn (gdim g) (ftang g coors conn fis qp c q) k * (coors (conn cell v) k - coors (conn cell (fvert g f 0%nat)) k) * / s)%R)).
  - rewrite sm_scalr. unfold dot in E. rewrite E. apply Ropp_lt_cancel. rewrite Ropp_0.
    replace (- (- simplex_volume (gdim g) (fun j => coors (conn cell j)) * INR (match gdim g with 2 => 2 | _ => 6 end) * / s))%R
      with (simplex_volume (gdim g) (fun j => coors (conn cell j)) * INR (match gdim g with 2 => 2 | _ => 6 end) * / s)%R by ring.
    apply Rmult_lt_0_compat; [apply Rmult_lt_0_compat; auto|apply Rinv_0_lt_compat; auto].
  - intros k Hk. unfold facet_mapping. rewrite surf_normal by auto. cbv zeta.
    fold (ftang g coors conn fis qp c q). change (tang (gnv (gsurf g)) coors (facet_conn g conn fis) (fun q => facet_bf_g g (qp q)) c q) with (ftang g coors conn fis qp c q).
    fold dn. fold s. field. lra.
Qed.

(** Convex quadrilaterals. *)
Theorem C133_outward_quad : forall n_fa n_qp coors conn fis qp w eps c q cell f v, (0 < eps)%R ->
  fis c = (cell, f) -> f < 4 -> v < 4 -> ~ In v (nth f (gfacets Quad) []) ->
  (forall j, j < 4 -> (0 < detm 2 (mtxRM 4 (ggrad Quad (gcoor Quad j)) (fun j => coors (conn cell j))))%R) ->
  (dot 2 (m_normal (facet_mapping Quad n_fa n_qp coors conn fis qp w eps) c q)
     (fun k => (coors (conn cell v) k - coors (conn cell (fvert Quad f 0)) k)%R) < 0)%R.
Proof.
  intros n_fa n_qp coors conn fis qp w eps c q cell f v He Hf Lf Hv Nv Cor.
  assert (E : (dot 2 (rawn 2 (ftang Quad coors conn fis qp c q)) (fun k => (coors (conn cell v) k - coors (conn cell (fvert Quad f 0)) k)%R) < 0)%R).
  { pose proof (Cor 0 ltac:(lia)) as C0. pose proof (Cor 1 ltac:(lia)) as C1. pose proof (Cor 2 ltac:(lia)) as C2. pose proof (Cor 3 ltac:(lia)) as C3.
    clear Cor. unfold detm, mtxRM, ggrad, gcoor, pf in C0, C1, C2, C3. cbn in C0, C1, C2, C3. ring_simplify in C0. ring_simplify in C1. ring_simplify in C2. ring_simplify in C3.
    enum f Lf; enum v Hv; try (exfalso; apply Nv; cbn; tauto); clear Nv;
    unfold dot, ftang, tang, jac, facet_conn, rawn; rewrite Hf; cbn [fst snd]; expand; nra. }
  set (dn := norm 2 (rawn 2 (ftang Quad coors conn fis qp c q))) in *.
  set (s := (if Rltb (Rabs dn) eps then 1 else dn)%R).
  assert (Ps : (0 < s)%R). { unfold s. destruct (Rltb (Rabs dn) eps) eqn:B; [lra|]. apply Rltb_false in B.
    pose proof (norm_nonneg 2 (rawn 2 (ftang Quad coors conn fis qp c q))) as P. fold dn in P. rewrite Rabs_right in B by lra. lra. }
  unfold dot. rewrite (@sm_ext 2 _ (fun k => (rawn 2 (ftang Quad coors conn fis qp c q) k * (coors (conn cell v) k - coors (conn cell (fvert Quad f 0%nat)) k) * / s)%R)).
  - rewrite sm_scalr. unfold dot in E. apply Ropp_lt_cancel. rewrite Ropp_0, Ropp_mult_distr_l.
    apply Rmult_lt_0_compat; [lra|apply Rinv_0_lt_compat; auto].
  - intros k Hk. unfold facet_mapping. rewrite surf_normal by auto. cbv zeta.
    change (tang (gnv (gsurf Quad)) coors (facet_conn Quad conn fis) (fun q => facet_bf_g Quad (qp q)) c q) with (ftang Quad coors conn fis qp c q).
    cbn [gdim]. fold dn. fold s. field. lra.
Qed.
