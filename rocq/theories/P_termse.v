(** Concrete cells: the hypotheses of the theorems on terms are met, and two places where
    the code does not integrate the documented form. *)
From Coq Require Import Reals Lra Lia Arith List.
Import ListNotations.
From Verif Require Import Base M_fmf M_terms L_fmf S_terms L_terms L_terms2 P_terms P_terms2 P_terms3 P_terms4 P_terms5 P_termsc P_termsd.
Open Scope nat_scope.

(** A matrix per quadrature point from a literal. *)
Definition lit (l r c : nat) (x : list R) : FMF := mkF l r c (fun k => nth k x 0%R).
(** The linear triangle (0,0), (1,0), (0,1) with the one-point rule. *)
Definition tri : Geo := mkG (lit 1 1 3 [1 / 3; 1 / 3; 1 / 3]%R) (lit 1 2 3 [-1; 1; 0; -1; 0; 1]%R) (lit 1 1 1 [1 / 2]%R) (lit 1 2 1 []).
(** Piecewise constant "field" on the same cell, and one with a single node and unit gradients. *)
Definition one : Geo := mkG (lit 1 1 1 [1]%R) (lit 1 2 1 [1; 1]%R) (lit 1 1 1 [1 / 2]%R) (lit 1 2 1 []).
Definition isoD : FMF := lit 1 3 3 [3; 1; 0; 1; 3; 0; 0; 0; 1]%R.

Example tri_shape : shape 1 2 3 tri. Proof. repeat split. Qed.
Example one_shape : shape 1 2 1 one. Proof. repeat split. Qed.
Example isoD_shape : mshape 1 (symn 2) (symn 2) isoD. Proof. repeat split. Qed.
Example tri_pu : forall q, q < 1 -> sm 3 (fun e => PHI (bf tri) q e) = 1%R.
Proof. intros q Q. assert (q = 0) by lia. subst. unfold PHI, at_, ptr_level. cbn. lra. Qed.
Example tri_const : forall q d, q < 1 -> d < 2 -> sm 3 (fun e => DPHI (bfGM tri) q d e) = 0%R.
Proof. intros q d Q D. assert (q = 0) by lia. subst. unfold DPHI, at_, ptr_level. destruct d as [|[|d]]; [| |lia]; cbn; lra. Qed.
Definition tri_x (i e : nat) : R := match i, e with 0, 1 => 1 | 1, 2 => 1 | _, _ => 0 end%R.
Example tri_lin : forall q d i, q < 1 -> d < 2 -> i < 2 -> sm 3 (fun e => DPHI (bfGM tri) q d e * tri_x i e)%R = delta i d.
Proof.
  intros q d i Q D I. assert (q = 0) by lia. subst. unfold DPHI, at_, ptr_level, delta.
  destruct d as [|[|d]]; [| |lia]; (destruct i as [|[|i]]; [| |lia]); cbn; lra.
Qed.
Example isoD_sym : forall q i j, q < 1 -> i < 3 -> j < 3 -> at_ isoD q i j = at_ isoD q j i.
Proof.
  intros q i j Q I J. assert (q = 0) by lia. subst. unfold at_, ptr_level.
  destruct i as [|[|[|i]]]; try lia; destruct j as [|[|[|j]]]; try lia; reflexivity.
Qed.
Example isoD_pos : forall q (x : nat -> R), q < 1 -> (0 <= sm (symn 2) (fun k => sm (symn 2) (fun m => at_ isoD q k m * x k * x m)))%R.
Proof.
  intros q x Q. assert (q = 0) by lia. subst. unfold at_, ptr_level. cbn.
  pose proof (Rle_0_sqr (x 0 + x 1)). pose proof (Rle_0_sqr (x 0)). pose proof (Rle_0_sqr (x 1)). pose proof (Rle_0_sqr (x 2)). unfold Rsqr in *. nra.
Qed.
(** A matrix entry in numbers: int grad phi_0 . grad phi_0 = 1/2 * 2. *)
Example tri_laplace : forall junk g, at_ (dw_laplace (emp 1 3 3 junk) g (lit 1 1 1 [1]%R) tri true) 0 0 0 = 1%R.
Proof.
  intros. rewrite (@C123_laplace_matrix 1 2 3); try (repeat split; fail); try lia; [|right; left; auto].
  unfold laplace_form. rewrite sm1, sm2. unfold G1. rewrite !fgrad_unit by lia. unfold DPHI, scal, at_, ptr_level. cbn. lra.
Qed.

(** ... but the evaluation differs for a nonsymmetric C: v = e1, grad p = (1, 1), C = [[1, 0], [1, 0]] *)
Theorem C129_v_dot_grad_eval_refuted : exists vvg svg coef stv stp conn,
  shape 1 2 1 vvg /\ shape 1 2 1 svg /\ cshape 1 2 coef /\
  forall j1 j2 j3 j4,
  d_dot coef (ev_grad 1 j1 stp svg conn) (ev_val 2 j2 stv (bf vvg) conn) vvg
  <> vecdot 2 1 (sub 2 stv conn) (fun i => at_ (dw_v_dot_grad_s_vw (emp 1 (2 * 1) 1 j3) coef (ev_grad 1 j4 stp svg conn) vvg svg false) 0 i 0).
Proof.
  exists one, one, (lit 1 2 2 [1; 0; 1; 0]%R), (fun k => match k with 0 => 1 | _ => 0 end%R), (fun _ => 1%R), (fun _ => 0).
  assert (Hc : cshape 1 2 (lit 1 2 2 [1; 0; 1; 0]%R)) by (right; split; [repeat split|lia]).
  split; [apply one_shape|split; [apply one_shape|split; [exact Hc|]]]. intros j1 j2 j3 j4.
  rewrite (@v_dot_grad_eval_as_coded 1 2 1 1) by (auto using one_shape).
  unfold vecdot. rewrite !sm2, !sm1.
  rewrite (@C129_v_dot_grad_vw_residual 1 2 1 1 one one _ _ _ _ _ 0 0) by (auto using one_shape).
  rewrite (@C129_v_dot_grad_vw_residual 1 2 1 1 one one _ _ _ _ _ 1 0) by (auto using one_shape).
  unfold dot_form. rewrite !sm1, !sm2. unfold coefm, VV, G1. cbn [lit nCol Nat.eqb].
  rewrite !fval_unit by lia. unfold fval, fgrad. rewrite !sm1. unfold PHI, DPHI, scal, at_, ptr_level, sub. cbn. lra.
Qed.

(** The matrix of div_grad is misplaced when the test and the state fields have different numbers of nodes. *)
Theorem C126_divgrad_rectangular_refuted : exists vgv vgs nu stu conn,
  shape 1 2 1 vgv /\ shape 1 2 3 vgs /\ mshape 1 1 1 nu /\
  forall j1 j2 j3 g, matvec 2 3 (fun i j => at_ (dw_div_grad (emp 1 (2 * 1) (2 * 3) j1) g nu vgv vgs true) 0 i j) (sub 2 stu conn) 1
  <> at_ (dw_div_grad (emp 1 (2 * 1) 1 j2) (flat_DD (np_transpose (ev_grad 2 j3 stu vgs conn))) nu vgv vgs false) 0 1 0.
Proof.
  exists one, tri, (lit 1 1 1 [1]%R), (fun k => match k with 3 => 1 | _ => 0 end%R), (fun e => e).
  split; [apply one_shape|split; [apply tri_shape|split; [repeat split|]]]. intros j1 j2 j3 g.
  rewrite (@C126_divgrad_residual 1 2 1 3 one tri _ _ _ _ _ 1 0) by (auto using one_shape, tri_shape; try (right; left; auto); repeat split).
  assert (X : matvec 2 3 (fun i j => at_ (dw_div_grad (emp 1 (2 * 1) (2 * 3) j1) g (lit 1 1 1 [1]%R) one tri true) 0 i j)
     (sub 2 (fun k => match k with 3 => 1 | _ => 0 end%R) (fun e => e)) 1 = 0%R).
  { unfold matvec, sub. rewrite sm2, !sm3. cbn [Nat.mul Nat.add].
    replace (at_ (dw_div_grad (emp 1 2 6 j1) g (lit 1 1 1 [1]%R) one tri true) 0 1 4) with 0%R. lra.
    unfold dw_div_grad. cbv zeta. rewrite sumLevelsMulF_at; try reflexivity; try (cbn; lia). autorewrite with shp. cbn [bfGM one lit nLev]. rewrite sm1.
    rewrite mul_at by (autorewrite with shp; cbn; lia). unfold at_, divgrad_build_gtg, ptr_level. cbn. lra. }
  rewrite X. unfold divgrad_form. rewrite sm1, !sm2. unfold GG. rewrite !fgrad_unit by lia. unfold fgrad. rewrite !sm3.
  unfold DPHI, scal, at_, ptr_level, sub. cbn. lra.
Qed.

(** ** Evaluated fields *)
Theorem C130_evaluated_fields : forall nq dim ne vg n st conn j1 j2 q, shape nq dim ne vg -> q < nq ->
  (forall c, c < n -> at_ (ev_val n j1 st (bf vg) conn) q c 0 = fval (PHI (bf vg)) ne (sub n st conn) q c) /\
  (forall c d, c < n -> d < dim -> at_ (ev_grad n j2 st vg conn) q d c = fgrad (DPHI (bfGM vg)) ne (sub n st conn) q c d).
Proof.
  intros nq dim ne vg n st conn j1 j2 q Hs Q. shp. split; intros.
  - rewrite ev_val_at; sz. 
  - rewrite ev_grad_at; sz.
Qed.
Theorem C130_evaluated_vector : forall nq dim ne vg st conn j1 j2 q, shape nq dim ne vg -> dim_ok dim -> 0 < ne -> q < nq ->
  at_ (ev_div j1 st vg conn) q 0 0 = fdiv (DPHI (bfGM vg)) ne dim (sub dim st conn) q /\
  (forall i, i < dim -> at_ (ev_strain j2 st vg conn) q i 0 = fstrain (DPHI (bfGM vg)) ne (sub dim st conn) q i i) /\
  (forall i j, i < dim -> j < dim -> i <> j -> at_ (ev_strain j2 st vg conn) q (voigt dim i j) 0 = (2 * fstrain (DPHI (bfGM vg)) ne (sub dim st conn) q i j)%R).
Proof.
  intros nq dim ne vg st conn j1 j2 q Hs K Nz Q.
  assert (P : forall i j, i < dim -> j < dim -> at_ (ev_strain j2 st vg conn) q (voigt dim i j) 0 = ((if i =? j then 1 else 2) * fstrain (DPHI (bfGM vg)) ne (sub dim st conn) q i j)%R).
  { intros i j I J. pose proof (@ev_strain_at j2 st vg conn q i j) as X. shp. rrin X. auto. }
  split; [|split].
  - shp. rewrite ev_div_at; sz.
  - intros i I. pose proof (P i i I I) as X. unfold voigt in X. rewrite Nat.eqb_refl in X. rewrite X. lra.
  - intros i j I J N. rewrite P by auto. destruct (Nat.eqb_spec i j); [lia|auto].
Qed.

Print Assumptions C123_laplace_consistent.
Print Assumptions C123_diffusion_consistent.
Print Assumptions C124_elastic_consistent.
Print Assumptions C124_elastic_energy.
Print Assumptions C124_elastic_rigid.
Print Assumptions C124_elastic_equilibrium.
Print Assumptions C125_dot_vector_consistent.
Print Assumptions C125_total_mass.
Print Assumptions C126_divgrad_consistent_partial.
Print Assumptions C126_divgrad_rectangular_refuted.
Print Assumptions C127_biot_consistent.
Print Assumptions C128_convect_derivative.
Print Assumptions C129_v_dot_grad_consistent_partial.
Print Assumptions C129_v_dot_grad_eval_refuted.
Print Assumptions C130_evaluated_vector.
