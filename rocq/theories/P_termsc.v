(** Consistency of the three uses of a term - residual, tangent matrix, evaluation - and
    properties of the matrices that follow from what they integrate. *)
From Coq Require Import Reals Lra Lia Arith.
From Verif Require Import Base M_fmf M_terms L_fmf S_terms L_terms L_terms2 P_terms P_terms2 P_terms3 P_terms4 P_terms5.
Open Scope nat_scope.

(** [A x] and [x . r] with the DOF-by-DOF ordering of cell vectors. *)
Definition matvec (n m : nat) (A : nat -> nat -> R) (u : nat -> nat -> R) (r : nat) : R :=
  sm n (fun c => sm m (fun e => A r (c * m + e) *! u c e)).
Definition vecdot (n m : nat) (v : nat -> nat -> R) (r : nat -> R) : R :=
  sm n (fun c => sm m (fun e => r (c * m + e) *! v c e)).

Lemma by_matvec : forall n m F A r u, lin n m F -> (forall c e, c < n -> e < m -> A r (c * m + e) = F (unit_ c e)) -> matvec n m A u r = F u.
Proof. intros n m F A r u L H. rewrite (@lin_expand n m F u L). unfold matvec. apply sm_ext; intros c C. apply sm_ext; intros e E. rewrite H; auto. Qed.
Lemma by_vecdot : forall n m F r v, lin n m F -> (forall c e, c < n -> e < m -> r (c * m + e) = F (unit_ c e)) -> vecdot n m v r = F v.
Proof. intros n m F r v L H. rewrite (@lin_expand n m F v L). unfold vecdot. apply sm_ext; intros c C. apply sm_ext; intros e E. rewrite H; auto. Qed.

Ltac c0 c := assert (c = 0) by lia; subst c; cbn [Nat.mul Nat.add].

(** ** Laplace *)
Theorem C123_laplace_consistent : forall nq dim ne vg coef stu stv conn g j1 j2 j3 j4 j5 j6, shape nq dim ne vg -> dim_ok dim -> mshape nq 1 1 coef ->
  let A := fun i j => at_ (dw_laplace (emp 1 ne ne j1) g coef vg true) 0 i j in
  let r := fun i => at_ (dw_laplace (emp 1 ne 1 j2) (ev_grad 1 j3 stu vg conn) coef vg false) 0 i 0 in
  let E := at_ (d_laplace (emp 1 1 1 j4) (ev_grad 1 j5 stv vg conn) (ev_grad 1 j6 stu vg conn) coef vg) 0 0 0 in
  (forall e, e < ne -> matvec 1 ne A (sub 1 stu conn) e = r e) /\ vecdot 1 ne (sub 1 stv conn) r = E.
Proof.
  intros nq dim ne vg coef stu stv conn g j1 j2 j3 j4 j5 j6 Hs K Hm A r E. split; [intros e He|]; unfold A, r, E.
  - rewrite (@C123_laplace_residual nq dim ne) by auto.
    apply by_matvec with (F := fun u => laplace_form nq (scal (det vg)) dim (scal coef) (G1 vg ne (unit_ 0 e)) (G1 vg ne u)).
    + unfold laplace_form, G1. slin.
    + intros c e' C He'. c0 c. apply C123_laplace_matrix; auto.
  - rewrite (@C123_laplace_eval nq dim ne) by auto.
    apply by_vecdot with (F := fun v => laplace_form nq (scal (det vg)) dim (scal coef) (G1 vg ne v) (G1 vg ne (sub 1 stu conn))).
    + unfold laplace_form, G1. slin.
    + intros c e' C He'. c0 c. apply C123_laplace_residual; auto.
Qed.
Theorem C123_diffusion_consistent : forall nq dim ne vg K stu stv conn g j1 j2 j3 j4 j5 j6, shape nq dim ne vg -> mshape nq dim dim K ->
  let A := fun i j => at_ (dw_diffusion (emp 1 ne ne j1) g K vg true) 0 i j in
  let r := fun i => at_ (dw_diffusion (emp 1 ne 1 j2) (ev_grad 1 j3 stu vg conn) K vg false) 0 i 0 in
  let E := at_ (d_diffusion (emp 1 1 1 j4) (ev_grad 1 j5 stv vg conn) (ev_grad 1 j6 stu vg conn) K vg) 0 0 0 in
  (forall e, e < ne -> matvec 1 ne A (sub 1 stu conn) e = r e) /\ vecdot 1 ne (sub 1 stv conn) r = E.
Proof.
  intros nq dim ne vg K stu stv conn g j1 j2 j3 j4 j5 j6 Hs Hm A r E. split; [intros e He|]; unfold A, r, E.
  - rewrite (@C123_diffusion_residual nq dim ne) by auto.
    apply by_matvec with (F := fun u => diffusion_form nq (scal (det vg)) dim (fun q i j => at_ K q i j) (G1 vg ne (unit_ 0 e)) (G1 vg ne u)).
    + unfold diffusion_form, G1. slin.
    + intros c e' C He'. c0 c. apply C123_diffusion_matrix; auto.
  - rewrite (@C123_diffusion_eval nq dim ne) by auto.
    apply by_vecdot with (F := fun v => diffusion_form nq (scal (det vg)) dim (fun q i j => at_ K q i j) (G1 vg ne v) (G1 vg ne (sub 1 stu conn))).
    + unfold diffusion_form, G1. slin.
    + intros c e' C He'. c0 c. apply C123_diffusion_residual; auto.
Qed.

(** ** Elasticity *)
Theorem C124_elastic_consistent : forall nq dim ne vg a D stu stv conn s j1 j2 j3 j4 j5 j6, shape nq dim ne vg -> dim_ok dim -> mshape nq (symn dim) (symn dim) D ->
  let A := fun i j => at_ (dw_lin_elastic (emp 1 (dim * ne) (dim * ne) j1) a s D vg true) 0 i j in
  let r := fun i => at_ (dw_lin_elastic (emp 1 (dim * ne) 1 j2) a (ev_strain j3 stu vg conn) D vg false) 0 i 0 in
  let E := at_ (d_lin_elastic (emp 1 1 1 j4) a (ev_strain j5 stv vg conn) (ev_strain j6 stu vg conn) D vg) 0 0 0 in
  (forall c e, c < dim -> e < ne -> matvec dim ne A (sub dim stu conn) (c * ne + e) = r (c * ne + e)) /\ vecdot dim ne (sub dim stv conn) r = E.
Proof.
  intros nq dim ne vg a D stu stv conn s j1 j2 j3 j4 j5 j6 Hs K Hm A r E. split; [intros c e Hc He|]; unfold A, r, E.
  - rewrite (@C124_elastic_residual nq dim ne) by auto.
    apply by_matvec with (F := fun u => (a * elastic_form nq (scal (det vg)) dim (tens dim D) (EE vg ne (unit_ c e)) (EE vg ne u))%R).
    + unfold elastic_form, EE. slin.
    + intros c' e' C He'. apply C124_elastic_matrix; auto.
  - rewrite (@C124_elastic_eval nq dim ne) by auto.
    apply by_vecdot with (F := fun v => (a * elastic_form nq (scal (det vg)) dim (tens dim D) (EE vg ne v) (EE vg ne (sub dim stu conn)))%R).
    + unfold elastic_form, EE. slin.
    + intros c' e' C He'. apply C124_elastic_residual; auto.
Qed.
(** A symmetric material gives a symmetric matrix, a positive one a positive energy. *)
Theorem C124_elastic_symmetric : forall nq dim ne vg a D s j1 c e c' e', shape nq dim ne vg -> dim_ok dim -> mshape nq (symn dim) (symn dim) D ->
  (forall q i j, q < nq -> i < symn dim -> j < symn dim -> at_ D q i j = at_ D q j i) -> c < dim -> e < ne -> c' < dim -> e' < ne ->
  let A := fun i j => at_ (dw_lin_elastic (emp 1 (dim * ne) (dim * ne) j1) a s D vg true) 0 i j in
  A (c * ne + e) (c' * ne + e') = A (c' * ne + e') (c * ne + e).
Proof.
  intros nq dim ne vg a D s j1 c e c' e' Hs K Hm Sy C E C' E' A. unfold A. rewrite !(@C124_elastic_matrix nq dim ne) by auto. f_equal.
  unfold elastic_form. apply sm_ext; intros q Q. f_equal.
  set (X := EE vg ne (unit_ c e) q). set (Y := EE vg ne (unit_ c' e') q).
  transitivity (sm dim (fun i => sm dim (fun k => sm dim (fun j => sm dim (fun l => tens dim D q i j k l * X i j * Y k l)%R)))).
  { apply sm_ext; intros i I. apply sm_swap. }
  rewrite sm_swap. apply sm_ext; intros k Kk.
  transitivity (sm dim (fun i => sm dim (fun l => sm dim (fun j => tens dim D q i j k l * X i j * Y k l)%R))).
  { apply sm_ext; intros i I. apply sm_swap. }
  rewrite sm_swap. apply sm_ext; intros l L. apply sm_ext; intros i I. apply sm_ext; intros j J. unfold tens. rewrite (Sy q (voigt dim i j)) by (auto; apply voigt_lt; auto). lra.
Qed.
Theorem C124_elastic_energy : forall nq dim ne vg a D st conn j1 j2 j3, shape nq dim ne vg -> dim_ok dim -> mshape nq (symn dim) (symn dim) D ->
  (0 <= a)%R -> (forall q, q < nq -> (0 <= scal (det vg) q)%R) ->
  (forall q (x : nat -> R), q < nq -> (0 <= sm (symn dim) (fun k => sm (symn dim) (fun m => at_ D q k m * x k * x m)))%R) ->
  (0 <= at_ (d_lin_elastic (emp 1 1 1 j1) a (ev_strain j2 st vg conn) (ev_strain j3 st vg conn) D vg) 0 0 0)%R.
Proof.
  intros nq dim ne vg a D st conn j1 j2 j3 Hs K Hm Pa Pw PD. rewrite (@C124_elastic_eval nq dim ne) by auto.
  apply Rmult_le_pos; auto. unfold elastic_form.
  assert (Sp : forall n (f : nat -> R), (forall k, k < n -> (0 <= f k)%R) -> (0 <= sm n f)%R).
  { induction n; intros f H; cbn. lra. apply Rplus_le_le_0_compat; auto. }
  apply Sp; intros q Q. apply Rmult_le_pos; auto.
  set (X := EE vg ne (sub dim st conn) q).
  assert (SX : forall i j, X i j = X j i) by (intros; unfold X, EE, fstrain; lra).
  set (x := fun k => match dim, k with
     | 3, 3 => (2%R *! X 0 1) | 3, 4 => (2%R *! X 0 2) | 3, 5 => (2%R *! X 1 2)
     | 2, 2 => (2%R *! X 0 1) | _, _ => X k k end).
  assert (Hx : forall i j, i < dim -> j < dim -> x (voigt dim i j) = ((if i =? j then 1 else 2) * X i j)%R).
  { intros i j I J. unfold x. destruct K as [-> | [-> | ->]];
    (destruct i as [|[|[|i]]]; try lia); (destruct j as [|[|[|j]]]; try lia); cbn; try (rewrite (SX 1 0)); try (rewrite (SX 2 0)); try (rewrite (SX 2 1)); lra. }
  replace (sm dim (fun i => sm dim (fun j => sm dim (fun k => sm dim (fun l => tens dim D q i j k l * X i j * X k l)))))%R
    with (sm (symn dim) (fun k => sm (symn dim) (fun m => at_ D q k m * x k * x m)))%R; [apply PD; auto|].
  transitivity (sm (symn dim) (fun k => sm (symn dim) (fun m => at_ D q k m * x m) * x k))%R.
  { apply sm_ext; intros. rewrite <- sm_scalr. apply sm_ext; intros; lra. }
  rewrite (@voigt_sum dim (fun k => sm (symn dim) (fun m => at_ D q k m * x m)%R) x X) by auto.
  apply sm_ext; intros i I. apply sm_ext; intros j J.
  rewrite (@voigt_sum dim (fun m => at_ D q (voigt dim i j) m) x X) by auto.
  rewrite <- sm_scalr. apply sm_ext; intros k Hk. rewrite <- sm_scalr. apply sm_ext; intros l L. unfold tens. lra.
Qed.
(** Rigid motions (given base functions that reproduce constants and coordinates) cause no residual;
    any state causes forces that sum up to zero. *)
Theorem C124_elastic_rigid : forall nq dim ne vg a D st conn (x : nat -> nat -> R) (t : nat -> R) (W : nat -> nat -> R) j1 j2 c e,
  shape nq dim ne vg -> dim_ok dim -> mshape nq (symn dim) (symn dim) D ->
  (forall q d, q < nq -> d < dim -> sm ne (fun e => DPHI (bfGM vg) q d e) = 0%R) ->
  (forall q d i, q < nq -> d < dim -> i < dim -> sm ne (fun e => DPHI (bfGM vg) q d e * x i e)%R = delta i d) ->
  (forall i j, W i j = (- W j i)%R) ->
  (forall c e, c < dim -> e < ne -> sub dim st conn c e = (t c + sm dim (fun k => W c k * x k e))%R) ->
  c < dim -> e < ne ->
  at_ (dw_lin_elastic (emp 1 (dim * ne) 1 j1) a (ev_strain j2 st vg conn) D vg false) 0 (c * ne + e) 0 = 0%R.
Proof.
  intros nq dim ne vg a D st conn x t W j1 j2 c e Hs K Hm P0 P1 Sk Hu C E. rewrite (@C124_elastic_residual nq dim ne) by auto.
  assert (G : forall q i d, q < nq -> i < dim -> d < dim -> GG vg ne (sub dim st conn) q i d = W i d).
  { intros q i d Q I Dd. unfold GG, fgrad.
    transitivity (sm ne (fun e => DPHI (bfGM vg) q d e * (t i + sm dim (fun k => W i k * x k e)))%R).
    { apply sm_ext; intros. rewrite Hu; auto. }
    transitivity (sm ne (fun e => DPHI (bfGM vg) q d e * t i + sm dim (fun k => W i k * (DPHI (bfGM vg) q d e * x k e)))%R).
    { apply sm_ext; intros. rewrite Rmult_plus_distr_l. f_equal. rewrite <- sm_scal. apply sm_ext; intros; lra. }
    rewrite sm_plus, sm_scalr, P0 by auto. rewrite sm_swap.
    transitivity (0 * t i + sm dim (fun k => delta d k * W i k))%R.
    { f_equal. apply sm_ext; intros. rewrite sm_scal, P1 by auto. unfold delta. rewrite (Nat.eqb_sym k d). lra. }
    rewrite sm_delta by auto. lra. }
  unfold elastic_form. rewrite sm_0. lra. intros q Q. rewrite sm_0. lra. intros i I. apply sm_0; intros j J. apply sm_0; intros k Hk. apply sm_0; intros l L.
  unfold EE at 2, fstrain. unfold GG in G. rewrite !G by auto. rewrite (Sk k l). lra.
Qed.
Theorem C124_elastic_equilibrium : forall nq dim ne vg a D st conn j1 j2 c, shape nq dim ne vg -> dim_ok dim -> mshape nq (symn dim) (symn dim) D ->
  (forall q d, q < nq -> d < dim -> sm ne (fun e => DPHI (bfGM vg) q d e) = 0%R) -> c < dim ->
  sm ne (fun e => at_ (dw_lin_elastic (emp 1 (dim * ne) 1 j1) a (ev_strain j2 st vg conn) D vg false) 0 (c * ne + e) 0) = 0%R.
Proof.
  intros nq dim ne vg a D st conn j1 j2 c Hs K Hm P0 C.
  set (v := fun c' (e : nat) => delta c c').
  pose (F := fun v => (a * elastic_form nq (scal (det vg)) dim (tens dim D) (EE vg ne v) (EE vg ne (sub dim st conn)))%R).
  assert (L : lin dim ne F) by (unfold F, elastic_form, EE; slin).
  transitivity (F v).
  - rewrite (@lin_expand _ _ F v L). symmetry.
    transitivity (sm dim (fun c' => delta c c' * sm ne (fun e => F (unit_ c' e)))%R).
    { apply sm_ext; intros. rewrite <- sm_scal. apply sm_ext; intros. unfold v. lra. }
    rewrite sm_delta by auto. apply sm_ext; intros e E. unfold F. rewrite (@C124_elastic_residual nq dim ne) by auto. auto.
  - unfold F, elastic_form. rewrite sm_0. lra. intros q Q. rewrite sm_0. lra. intros i I. apply sm_0; intros j J. apply sm_0; intros k Hk. apply sm_0; intros l Hl.
    assert (Z : forall i j, i < dim -> j < dim -> fgrad (DPHI (bfGM vg)) ne v q i j = 0%R).
    { intros. unfold fgrad, v. rewrite sm_scalr, P0 by auto. lra. }
    unfold EE at 1, fstrain. rewrite !Z by auto. lra.
Qed.
