(** C131: the gradients of a mapping are gradients in physical coordinates.
    C132: volumes of cells, averages, physical quadrature points. *)
From Coq Require Import Reals Lra.
From Verif Require Import Base M_fmf L_fmf M_nls M_map S_map L_map P_map.
Open Scope nat_scope.

Lemma shift0 : forall xi i k, shift xi i 0 k = xi k.
Proof. intros. unfold shift. destruct (k =? i); [apply Rplus_0_r|reflexivity]. Qed.

(** If the function U of the physical coordinates is, on the cell, the finite element
    function with nodal values u, then the gradient of the mapping is that of U. *)
Theorem C131_gradient : forall dim n_el n_qp ng ne coors conn bf_g w ebf_g m
    (N : nat -> (nat -> R) -> R) (psi : nat -> (nat -> R) -> R) (xi : nat -> nat -> R) (U : (nat -> R) -> R) (u G : nat -> R) c q,
  volume_mapping dim n_el n_qp ng coors conn bf_g w ebf_g = Ok m -> c < n_el -> q < n_qp ->
  (forall i j, i < dim -> j < ng -> pderiv (N j) i (xi q) (bf_g q i j)) ->
  (forall i e, i < dim -> e < ne -> pderiv (psi e) i (xi q) (ebf_g c q i e)) ->
  (forall j x y, (forall k, x k = y k) -> N j x = N j y) ->
  (exists d, (0 < d)%R /\ forall i t, i < dim -> (Rabs t < d)%R ->
     U (phys ng N (fun j => coors (conn c j)) (shift (xi q) i t)) = sm ne (fun e => (u e * psi e (shift (xi q) i t))%R)) ->
  has_grad dim U (phys ng N (fun j => coors (conn c j)) (xi q)) G ->
  forall k, k < dim -> sm ne (fun e => (m_bfg m c q k e * u e)%R) = G k.
Proof.
  intros dim n_el n_qp ng ne coors conn bf_g w ebf_g m N psi xi U u G c q H Hc Hq HN Hp Hext (d & Hd & HU) HG k Hk.
  destruct (mapping_ok _ _ _ _ _ _ _ _ _ _ H) as (D & P & _ & E2 & _).
  set (J := jac ng coors conn bf_g c q) in *. assert (NZ : (detm dim J <> 0)%R) by (specialize (P c q Hc Hq); unfold J; lra).
  rewrite (@sm_ext ne _ (fun e => sm dim (fun j => (invm dim J (detm dim J) k j * (ebf_g c q j e * u e))%R))).
  2: { intros e _. rewrite E2, <- sm_scalr. apply sm_ext. intros; unfold J; ring. }
  rewrite sm_swap. rewrite (@sm_ext dim _ (fun j => (invm dim J (detm dim J) k j * sm ne (fun e => (ebf_g c q j e * u e))%R)%R)).
  2: { intros j _. apply sm_scal. }
  apply invm_solve; auto. intros i Hi.
  set (cv := fun t => phys ng N (fun j => coors (conn c j)) (shift (xi q) i t)).
  assert (L1 : derivable_pt_lim (fun t => U (cv t)) 0 (sm dim (fun k => (G k * J i k)%R))).
  { apply chain with (c := cv) (v := J i).
    - intros l Hl. unfold cv, phys, J, jac.
      apply (lim_sum ng (fun j t => (N j (shift (xi q) i t) * coors (conn c j) l)%R) (fun j => (bf_g q i j * coors (conn c j) l)%R)).
      intros j Hj. apply lim_scal_r. apply HN; auto.
    - intros eps He. destruct (HG eps He) as (dl & Hdl & HH). exists dl. split; auto.
      assert (Ec : forall l, cv 0%R l = phys ng N (fun j => coors (conn c j)) (xi q) l).
      { intros l. unfold cv, phys. apply sm_ext. intros j _. f_equal. apply Hext. apply shift0. }
      intros x Hx. assert (Hx' : forall k, k < dim -> (Rabs (x k - phys ng N (fun j => coors (conn c j)) (xi q) k) < dl)%R)
        by (intros l Hl; rewrite <- Ec; auto).
      specialize (HH x Hx').
      assert (EU : U (cv 0%R) = U (phys ng N (fun j => coors (conn c j)) (xi q))).
      { assert (Z : forall l, l < dim -> (Rabs (cv 0%R l - phys ng N (fun j => coors (conn c j)) (xi q) l) = 0)%R)
          by (intros; rewrite Ec; replace (phys ng N (fun j => coors (conn c j)) (xi q) l - phys ng N (fun j => coors (conn c j)) (xi q) l)%R with 0%R by ring; apply Rabs_R0).
        destruct (HG 1%R Rlt_0_1) as (d3 & Hd3 & H3). specialize (H3 (cv 0%R)).
        assert (F : forall l, l < dim -> (Rabs (cv 0%R l - phys ng N (fun j => coors (conn c j)) (xi q) l) < d3)%R) by (intros; rewrite Z; auto).
        specialize (H3 F). rewrite (@sm_0 dim (fun k => (G k * (cv 0%R k - phys ng N (fun j => coors (conn c j)) (xi q) k))%R)) in H3
          by (intros; rewrite Ec; ring).
        rewrite (@sm_0 dim (fun k => Rabs (cv 0%R k - phys ng N (fun j => coors (conn c j)) (xi q) k))) in H3 by (intros; apply Z; auto).
        assert (Y : (Rabs (U (cv 0%R) - U (phys ng N (fun j => coors (conn c j)) (xi q)) - 0) <= 0)%R) by lra.
        pose proof (Rabs_pos (U (cv 0%R) - U (phys ng N (fun j => coors (conn c j)) (xi q)) - 0)) as Y2.
        assert (Y3 : Rabs (U (cv 0%R) - U (phys ng N (fun j => coors (conn c j)) (xi q)) - 0) = 0%R) by lra.
        destruct (Req_dec (U (cv 0%R) - U (phys ng N (fun j => coors (conn c j)) (xi q)) - 0) 0) as [Z3|Z3]; [lra|].
        apply Rabs_no_R0 in Z3. contradiction. }
      rewrite EU. rewrite (@sm_ext dim (fun k => (G k * (x k - cv 0%R k))%R) (fun k => (G k * (x k - phys ng N (fun j => coors (conn c j)) (xi q) k))%R)) by (intros; rewrite Ec; auto).
      rewrite (@sm_ext dim (fun k => Rabs (x k - cv 0%R k)) (fun k => Rabs (x k - phys ng N (fun j => coors (conn c j)) (xi q) k))) by (intros; rewrite Ec; auto).
      exact HH. }
  assert (L2 : derivable_pt_lim (fun t => U (cv t)) 0 (sm ne (fun e => (ebf_g c q i e * u e)%R))).
  { assert (L3 : derivable_pt_lim (fun t => sm ne (fun e => (psi e (shift (xi q) i t) * u e)%R)) 0 (sm ne (fun e => (ebf_g c q i e * u e)%R))).
    { apply (lim_sum ne (fun e t => (psi e (shift (xi q) i t) * u e)%R) (fun e => (ebf_g c q i e * u e)%R)).
      intros e He. apply lim_scal_r. apply Hp; auto. }
    intros eps He. destruct (L3 eps He) as (dl & Hl). assert (Dm : (0 < Rmin d dl)%R) by (apply Rmin_pos; [auto|apply cond_pos]).
    exists (mkposreal _ Dm). intros h Nh Lh. cbn in Lh.
    assert (Lh1 : (Rabs h < d)%R) by (eapply Rlt_le_trans; [apply Lh|apply Rmin_l]).
    assert (Lh2 : (Rabs h < dl)%R) by (eapply Rlt_le_trans; [apply Lh|apply Rmin_r]).
    specialize (Hl h Nh Lh2). rewrite Rplus_0_l in *. unfold cv. rewrite (HU i h Hi Lh1), (HU i 0%R Hi) by (rewrite Rabs_R0; auto).
    rewrite (@sm_ext ne (fun e => (u e * psi e (shift (xi q) i h))%R) (fun e => (psi e (shift (xi q) i h) * u e)%R)) by (intros; ring).
    rewrite (@sm_ext ne (fun e => (u e * psi e (shift (xi q) i 0))%R) (fun e => (psi e (shift (xi q) i 0) * u e)%R)) by (intros; ring).
    exact Hl. }
  rewrite <- (uniqueness_limite _ _ _ _ L1 L2). apply sm_ext. intros; ring.
Qed.

(** ** Volumes *)
Lemma gbase_ext : forall g x y j, (forall k, x k = y k) -> gbase g x j = gbase g y j.
Proof.
  intros g x y j H. unfold gbase. destruct (simplexb g).
  - destruct j; auto. f_equal. apply sm_ext. auto.
  - assert (Q : forall n f h, (forall k, f k = h k) -> prodf n f = prodf n h) by (induction n; cbn; intros f h E; auto; rewrite (IHn f h E), E; auto).
    apply Q. intros k. rewrite H. auto.
Qed.
Definition sgeom (dim : nat) : geom := match dim with 1 => Seg | 2 => Tri | _ => Tet end.
Lemma simplex_det : forall dim ng coors conn xi c q, 1 <= dim <= 3 -> ng = S dim ->
  detm dim (jac ng coors conn (fun q => ggrad (sgeom dim) (xi q)) c q) =
  (simplex_volume dim (fun j => coors (conn c j)) * INR (match dim with 1 => 1 | 2 => 2 | _ => 6 end))%R.
Proof.
  intros dim ng coors conn xi c q D ->. destruct (dim_cases _ D) as [-> | [-> | ->]]; unfold detm, jac, simplex_volume, edge, det2, det3, ggrad; cbn; field.
Qed.
(** Simplices (segments, triangles, tetrahedra): the volume is exact for any quadrature of a
    reference simplex with the right sum of weights, and the mapping exists exactly if
    all the cells are positively oriented. *)
Theorem C132_simplex_volume : forall dim n_el n_qp coors conn xi w ebf_g, 1 <= dim <= 3 ->
  sm n_qp w = (1 / INR (match dim with 1 => 1 | 2 => 2 | _ => 6 end))%R -> 0 < n_qp ->
  ((exists m, volume_mapping dim n_el n_qp (S dim) coors conn (fun q => ggrad (sgeom dim) (xi q)) w ebf_g = Ok m) <->
   forall c, c < n_el -> (0 < simplex_volume dim (fun j => coors (conn c j)))%R) /\
  forall m c, volume_mapping dim n_el n_qp (S dim) coors conn (fun q => ggrad (sgeom dim) (xi q)) w ebf_g = Ok m -> c < n_el ->
    m_volume m c = simplex_volume dim (fun j => coors (conn c j)).
Proof.
  intros dim n_el n_qp coors conn xi w ebf_g D W Q.
  assert (F : (0 < INR (match dim with 1 => 1 | 2 => 2 | _ => 6 end))%R) by (destruct (dim_cases _ D) as [-> | [-> | ->]]; cbn; lra).
  split.
  - rewrite (proj2 (C131_warp_violation dim n_el n_qp (S dim) coors conn (fun q => ggrad (sgeom dim) (xi q)) w ebf_g D)). split.
    + intros H c Hc. specialize (H c 0 Hc Q). rewrite simplex_det in H by auto.
      apply Rmult_lt_reg_r with (INR (match dim with 1 => 1 | 2 => 2 | _ => 6 end)); auto. rewrite Rmult_0_l. auto.
    + intros H c q Hc Hq. rewrite simplex_det by auto. apply Rmult_lt_0_compat; auto.
  - intros m c H Hc. destruct (mapping_ok _ _ _ _ _ _ _ _ _ _ H) as (_ & _ & E1 & _ & E3).
    rewrite E3. rewrite (@sm_ext n_qp _ (fun q => (simplex_volume dim (fun j => coors (conn c j)) * INR (match dim with 1 => 1 | 2 => 2 | _ => 6 end) * w q)%R)).
    + rewrite sm_scal, W. field. lra.
    + intros q _. rewrite E1, simplex_det by auto. auto.
Qed.

(** Quadrilaterals: exact for quadratures exact for 1, x, y. *)
Theorem C132_quad_area : forall n_el n_qp coors conn xi w ebf_g m c,
  sm n_qp w = 1%R -> (forall k, k < 2 -> sm n_qp (fun q => (w q * xi q k)%R) = (1 / 2)%R) ->
  volume_mapping 2 n_el n_qp 4 coors conn (fun q => ggrad Quad (xi q)) w ebf_g = Ok m -> c < n_el ->
  m_volume m c = quad_area (fun j => coors (conn c j)).
Proof.
  intros n_el n_qp coors conn xi w ebf_g m c W X H Hc.
  destruct (mapping_ok _ _ _ _ _ _ _ _ _ _ H) as (_ & _ & E1 & _ & E3). rewrite E3.
  pose proof (X 0 Nat.lt_0_2) as X0. pose proof (X 1 Nat.lt_1_2) as X1. clear X.
  set (x := fun j => coors (conn c j)).
  set (a := det2 (fun k => (x 1%nat k - x 0%nat k)%R) (fun k => (x 3%nat k - x 0%nat k)%R)).
  set (b := det2 (fun k => (x 1%nat k - x 0%nat k)%R) (fun k => (x 0%nat k - x 1%nat k + x 2%nat k - x 3%nat k)%R)).
  set (d := det2 (fun k => (x 0%nat k - x 1%nat k + x 2%nat k - x 3%nat k)%R) (fun k => (x 3%nat k - x 0%nat k)%R)).
  rewrite (@sm_ext n_qp _ (fun q => (a * w q + (b * (w q * xi q 0%nat) + d * (w q * xi q 1%nat)))%R)).
  - rewrite sm_plus, sm_scal, W, sm_plus, !sm_scal, X0, X1. unfold a, b, d, quad_area, det2. field.
  - intros q _. rewrite E1. unfold detm, jac, a, b, d, x, det2, ggrad, pf. cbn. ring.
Qed.

(** The average of a constant is the constant; the integral is additive. *)
Theorem C132_average : forall n_qp m (f : nat -> nat -> R) k c, m_volume m c = sm n_qp (m_det m c) -> (m_volume m c <> 0)%R ->
  (forall q, q < n_qp -> f c q = k) -> integrate n_qp m f true c = k /\ integrate n_qp m f false c = (k * m_volume m c)%R.
Proof.
  intros n_qp m f k c E N H. unfold integrate.
  assert (X : sm n_qp (fun q => (f c q * m_det m c q)%R) = (k * m_volume m c)%R).
  { rewrite E, <- sm_scal. apply sm_ext. intros q Hq. rewrite H; auto. }
  rewrite X. split; auto. field. auto.
Qed.
(** Physical quadrature points of cells with base functions that sum to one: affine
    functions are evaluated exactly. *)
Theorem C132_physical_qps : forall dim ng bf coors conn c q (a : nat -> R) b, sm ng (bf q) = 1%R ->
  (dot dim a (physical_qps ng bf coors conn c q) + b)%R = sm ng (fun j => (bf q j * (dot dim a (coors (conn c j)) + b))%R).
Proof.
  intros dim ng bf coors conn c q a b H. unfold physical_qps, dot.
  rewrite (@sm_ext ng (fun j => (bf q j * (sm dim (fun k => a k * coors (conn c j) k) + b))%R)
     (fun j => (sm dim (fun k => a k * (bf q j * coors (conn c j) k)) + bf q j * b)%R)).
  - rewrite sm_plus, sm_scalr, H, sm_swap. rewrite Rmult_1_l. f_equal. apply sm_ext. intros k _. rewrite <- sm_scal. auto.
  - intros j _. rewrite Rmult_plus_distr_l, <- sm_scal. f_equal. apply sm_ext. intros; ring.
Qed.
