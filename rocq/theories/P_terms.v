(** The terms integrate the forms they are documented to integrate: every entry of
    a cell matrix, of a cell residual and every evaluated integral is the value of
    the bilinear form at base functions / at the state; so the matrix times the state
    is the residual, and the test function applied to the residual is the evaluation. *)
From Coq Require Import Reals Lra Lia Arith.
From Verif Require Import Base M_fmf M_terms L_fmf S_terms L_terms L_terms2.
Open Scope nat_scope.

Definition G1 (vg : Geo) (ne : nat) (u : nat -> nat -> R) (q d : nat) : R := fgrad (DPHI (bfGM vg)) ne u q 0 d.
Definition GG (vg : Geo) (ne : nat) (u : nat -> nat -> R) (q c d : nat) : R := fgrad (DPHI (bfGM vg)) ne u q c d.
Definition VV (vg : Geo) (ne : nat) (u : nat -> nat -> R) (q c : nat) : R := fval (PHI (bf vg)) ne u q c.
Definition EE (vg : Geo) (ne : nat) (u : nat -> nat -> R) (q i j : nat) : R := fstrain (DPHI (bfGM vg)) ne u q i j.

Ltac shp := repeat match goal with H : shape _ _ _ _ |- _ => destruct H as (? & ? & ? & ? & ? & ? & ? & ? & ?) | H : mshape _ _ _ _ |- _ => destruct H as (? & ? & ?) end.
Ltac rr := autorewrite with shp; repeat match goal with H : ?l = _ |- context [?l] => rewrite !H end.
Ltac rrin P := autorewrite with shp in P; repeat match goal with H : ?l = _ |- _ => match type of P with context [l] => rewrite !H in P end end.
Ltac sz := rr; auto; try lia.

(** ** Laplace and diffusion (scalar variables) *)
Theorem C123_laplace_matrix : forall nq dim ne vg coef grad junk e e', shape nq dim ne vg -> dim_ok dim -> mshape nq 1 1 coef -> e < ne -> e' < ne ->
  at_ (dw_laplace (emp 1 ne ne junk) grad coef vg true) 0 e e'
  = laplace_form nq (scal (det vg)) dim (scal coef) (G1 vg ne (unit_ 0 e)) (G1 vg ne (unit_ 0 e')).
Proof.
  intros. shp. unfold dw_laplace. cbv zeta. rewrite sumLevelsMulF_at; sz. unfold laplace_form. apply sm_ext; intros q Q.
  rewrite mulAF_at; sz. rewrite laplace_build_gtg_at; sz. rewrite !s11 by auto.
  rewrite (Rmult_comm (scal (det vg) q)). f_equal. rewrite Rmult_comm. f_equal. rr. apply sm_ext; intros d D.
  unfold G1. rewrite !fgrad_unit; auto.
Qed.
Theorem C123_laplace_residual : forall nq dim ne vg coef st conn junk junk' e, shape nq dim ne vg -> dim_ok dim -> mshape nq 1 1 coef -> e < ne ->
  at_ (dw_laplace (emp 1 ne 1 junk) (ev_grad 1 junk' st vg conn) coef vg false) 0 e 0
  = laplace_form nq (scal (det vg)) dim (scal coef) (G1 vg ne (unit_ 0 e)) (G1 vg ne (sub 1 st conn)).
Proof.
  intros. shp. unfold dw_laplace. cbv zeta. rewrite sumLevelsMulF_at; sz. unfold laplace_form. apply sm_ext; intros q Q.
  rewrite mulAF_at; sz. rewrite laplace_act_gt_m_at; sz. rewrite !s11 by auto.
  rewrite (Rmult_comm (scal (det vg) q)). f_equal. rewrite Rmult_comm. f_equal. rr. apply sm_ext; intros d D.
  unfold G1. rewrite !fgrad_unit; auto. rewrite ev_grad_at; sz.
Qed.

Theorem C123_laplace_eval : forall nq dim ne vg coef stv stu conn junk j1 j2, shape nq dim ne vg -> dim_ok dim -> mshape nq 1 1 coef ->
  at_ (d_laplace (emp 1 1 1 junk) (ev_grad 1 j1 stv vg conn) (ev_grad 1 j2 stu vg conn) coef vg) 0 0 0
  = laplace_form nq (scal (det vg)) dim (scal coef) (G1 vg ne (sub 1 stv conn)) (G1 vg ne (sub 1 stu conn)).
Proof.
  intros. shp. unfold d_laplace. cbv zeta. rewrite sumLevelsMulF_at; sz. unfold laplace_form. apply sm_ext; intros q Q.
  rewrite mulATB_nn_at; sz. rewrite !s11 by auto. rewrite Rmult_comm. f_equal. rewrite <- sm_scal.
  unfold ev_grad at 1, dq_grad. rr. apply sm_ext; intros d D.
  rewrite mulAF_at; sz. rewrite !ev_grad_at; sz. rewrite !s11 by auto. unfold G1. rr. lra.
Qed.
Theorem C123_diffusion_matrix : forall nq dim ne vg K grad junk e e', shape nq dim ne vg -> mshape nq dim dim K -> e < ne -> e' < ne ->
  at_ (dw_diffusion (emp 1 ne ne junk) grad K vg true) 0 e e'
  = diffusion_form nq (scal (det vg)) dim (fun q i j => at_ K q i j) (G1 vg ne (unit_ 0 e)) (G1 vg ne (unit_ 0 e')).
Proof.
  intros. shp. unfold dw_diffusion. cbv zeta. rewrite sumLevelsMulF_at; sz. unfold diffusion_form. apply sm_ext; intros q Q.
  rewrite mulAB_nn_at; sz. rewrite !s11 by auto. rewrite Rmult_comm. f_equal. rewrite sm_swap.
  apply sm_ext; intros d D. rewrite mulATB_nn_at; sz. rewrite <- sm_scalr. apply sm_ext; intros d' D'.
  unfold G1. rewrite !fgrad_unit; auto. unfold DPHI. cbn [Nat.eqb]. lra.
Qed.
Theorem C123_diffusion_residual : forall nq dim ne vg K st conn junk j1 e, shape nq dim ne vg -> mshape nq dim dim K -> e < ne ->
  at_ (dw_diffusion (emp 1 ne 1 junk) (ev_grad 1 j1 st vg conn) K vg false) 0 e 0
  = diffusion_form nq (scal (det vg)) dim (fun q i j => at_ K q i j) (G1 vg ne (unit_ 0 e)) (G1 vg ne (sub 1 st conn)).
Proof.
  intros. shp. unfold dw_diffusion. cbv zeta. rewrite sumLevelsMulF_at; sz. unfold diffusion_form. apply sm_ext; intros q Q.
  rewrite mulATB_nn_at; sz. rewrite !s11 by auto. rewrite Rmult_comm. f_equal.
  apply sm_ext; intros d D. rewrite mulAB_nn_at; sz. rewrite <- sm_scal. apply sm_ext; intros d' D'.
  unfold G1. rewrite !fgrad_unit; auto. rewrite ev_grad_at; sz. unfold DPHI. cbn [Nat.eqb]. lra.
Qed.
Theorem C123_diffusion_eval : forall nq dim ne vg K stv stu conn junk j1 j2, shape nq dim ne vg -> mshape nq dim dim K ->
  at_ (d_diffusion (emp 1 1 1 junk) (ev_grad 1 j1 stv vg conn) (ev_grad 1 j2 stu vg conn) K vg) 0 0 0
  = diffusion_form nq (scal (det vg)) dim (fun q i j => at_ K q i j) (G1 vg ne (sub 1 stv conn)) (G1 vg ne (sub 1 stu conn)).
Proof.
  intros. shp. unfold d_diffusion. cbv zeta. rewrite sumLevelsMulF_at; sz. unfold diffusion_form. apply sm_ext; intros q Q.
  rewrite mulATB_nn_at; sz. rewrite !s11 by auto. rewrite Rmult_comm. f_equal.
  unfold ev_grad at 1, dq_grad. rr. apply sm_ext; intros d D. rewrite mulAB_nn_at; sz. rewrite <- sm_scal. apply sm_ext; intros d' D'.
  rewrite !ev_grad_at; sz. unfold G1. rr. lra.
Qed.

(** ** Linear elasticity *)
Definition tens (dim : nat) (D : FMF) (q i j k l : nat) : R := at_ D q (voigt dim i j) (voigt dim k l).
Lemma voigt_sum : forall dim (X E : nat -> R) (e : nat -> nat -> R), dim_ok dim ->
  (forall i j, i < dim -> j < dim -> E (voigt dim i j) = ((if i =? j then 1 else 2) * e i j)%R) ->
  (forall i j, e i j = e j i) ->
  sm (symn dim) (fun k => X k * E k)%R = sm dim (fun i => sm dim (fun j => X (voigt dim i j) * e i j)%R).
Proof.
  intros dim X E e D HE Sy. destruct D as [-> | [-> | ->]].
  - pose proof (HE 0 0). cbn in *. rewrite H by lia. lra.
  - pose proof (HE 0 0). pose proof (HE 1 1). pose proof (HE 0 1). cbn in *. rewrite H, H0, H1 by lia. rewrite (Sy 1 0). lra.
  - pose proof (HE 0 0). pose proof (HE 1 1). pose proof (HE 2 2). pose proof (HE 0 1). pose proof (HE 0 2). pose proof (HE 1 2).
    cbn in *. rewrite H, H0, H1, H2, H3, H4 by lia. rewrite (Sy 1 0), (Sy 2 0), (Sy 2 1). lra.
Qed.
(** Contraction of a symmetric tensor with the strain of a base function. *)
Lemma strain_unit : forall dim dp ne q c e (X : nat -> R), dim_ok dim -> c < dim -> e < ne ->
  sm dim (fun i => sm dim (fun j => X (voigt dim i j) * fstrain dp ne (unit_ c e) q i j)%R) = sm dim (fun j => dp q j e * X (voigt dim c j))%R.
Proof.
  intros dim dp ne q c e X D Hc He.
  assert (A : forall i j, fstrain dp ne (unit_ c e) q i j = (((if i =? c then dp q j e else 0) + (if j =? c then dp q i e else 0)) / 2)%R).
  { intros. unfold fstrain. rewrite !fgrad_unit by auto. auto. }
  transitivity (sm dim (fun i => sm dim (fun j => X (voigt dim i j) * (((if i =? c then dp q j e else 0) + (if j =? c then dp q i e else 0)) / 2))%R)).
  { apply sm_ext; intros; apply sm_ext; intros. rewrite A. auto. }
  clear A. destruct D as [-> | [-> | ->]]; (destruct c as [|[|[|c]]]; [| | |lia]); try lia; cbn; field.
Qed.
Lemma sym_eq : forall dim, (dim + 1) * dim / 2 = symn dim. Proof. reflexivity. Qed.
Lemma voigt_lt : forall dim i j, dim_ok dim -> i < dim -> j < dim -> voigt dim i j < symn dim.
Proof.
  intros dim i j D Hi Hj. unfold voigt. destruct (Nat.eqb_spec i j); destruct D as [-> | [-> | ->]]; cbn; lia.
Qed.

Theorem C124_elastic_matrix : forall nq dim ne vg a D strain junk c e c' e', shape nq dim ne vg -> dim_ok dim -> mshape nq (symn dim) (symn dim) D ->
  c < dim -> e < ne -> c' < dim -> e' < ne ->
  at_ (dw_lin_elastic (emp 1 (dim * ne) (dim * ne) junk) a strain D vg true) 0 (c * ne + e) (c' * ne + e')
  = (a * elastic_form nq (scal (det vg)) dim (tens dim D) (EE vg ne (unit_ c e)) (EE vg ne (unit_ c' e')))%R.
Proof.
  intros nq dim ne vg a D strain junk c e c' e' ? K ? C E C' E'. shp. unfold dw_lin_elastic. cbv zeta.
  assert (c * ne + e < dim * ne) by (pose proof (@idx_lt _ _ _ _ C E); lia).
  assert (c' * ne + e' < dim * ne) by (pose proof (@idx_lt _ _ _ _ C' E'); lia).
  rewrite mulC_at; sz. rewrite Rmult_comm. f_equal.
  rewrite sumLevelsMulF_at; sz. unfold elastic_form. apply sm_ext; intros q Q. rewrite !s11 by auto. rewrite Rmult_comm. f_equal.
  match goal with |- at_ (actOpG_RM3 ?r ?m ?g) _ _ _ = _ => pose proof (@actOpG_RM3_at r m g q (c * ne + e) c' e') as P end.
  rrin P. rewrite P; auto; try lia; clear P.
  transitivity (sm dim (fun i => sm dim (fun j => sm dim (fun k => sm dim (fun l => tens dim D q i j k l * EE vg ne (unit_ c' e') q k l)%R) * EE vg ne (unit_ c e) q i j)%R)).
  2: { apply sm_ext; intros i I. apply sm_ext; intros j J. rewrite <- sm_scalr. apply sm_ext; intros k Hk. rewrite <- sm_scalr. apply sm_ext; intros l L. lra. }
  transitivity (sm dim (fun i => sm dim (fun j => sm dim (fun j' => at_ (bfGM vg) q j' e' * at_ D q (voigt dim i j) (voigt dim c' j')) * EE vg ne (unit_ c e) q i j)%R)).
  2: { apply sm_ext; intros i I. apply sm_ext; intros j J. f_equal. unfold tens, EE.
       rewrite (@strain_unit dim (DPHI (bfGM vg)) ne q c' e' (fun x => at_ D q (voigt dim i j) x)) by auto. reflexivity. }
  unfold EE. rewrite (@strain_unit dim (DPHI (bfGM vg)) ne q c e (fun x => sm dim (fun j' => at_ (bfGM vg) q j' e' * at_ D q x (voigt dim c' j'))%R)) by auto.
  transitivity (sm dim (fun j' => sm dim (fun j => DPHI (bfGM vg) q j e * (at_ (bfGM vg) q j' e' * at_ D q (voigt dim c j) (voigt dim c' j')))%R)).
  2: { rewrite sm_swap. apply sm_ext; intros j J. rewrite sm_scal. auto. }
  apply sm_ext; intros j' J'.
  match goal with |- context [actOpGT_M3 ?r ?g ?m] => pose proof (@actOpGT_M3_at r g m q c e (voigt dim c' j')) as P end.
  rrin P. rewrite P; auto; try lia; clear P.
  2: apply voigt_lt; auto.
  rewrite <- sm_scal. apply sm_ext; intros. unfold DPHI. lra.
Qed.

Lemma stress_at : forall nq dim ne vg D st conn q j1 k, shape nq dim ne vg -> dim_ok dim -> mshape nq (symn dim) (symn dim) D -> q < nq -> k < symn dim ->
  at_ (mulAB_nn (alloc nq (symn dim) 1) D (ev_strain j1 st vg conn)) q k 0
  = sm dim (fun i => sm dim (fun j => at_ D q k (voigt dim i j) * EE vg ne (sub dim st conn) q i j)%R).
Proof.
  intros nq dim ne vg D st conn q j1 k ? K ? Q Hk. shp. rewrite mulAB_nn_at; sz.
  apply (@voigt_sum dim (fun x => at_ D q k x) (fun x => at_ (ev_strain j1 st vg conn) q x 0)); auto.
  - intros. pose proof (@ev_strain_at j1 st vg conn q i j) as P. rrin P. rewrite P; auto.
  - intros. unfold EE, fstrain. lra.
Qed.
Theorem C124_elastic_residual : forall nq dim ne vg a D st conn junk j1 c e, shape nq dim ne vg -> dim_ok dim -> mshape nq (symn dim) (symn dim) D ->
  c < dim -> e < ne ->
  at_ (dw_lin_elastic (emp 1 (dim * ne) 1 junk) a (ev_strain j1 st vg conn) D vg false) 0 (c * ne + e) 0
  = (a * elastic_form nq (scal (det vg)) dim (tens dim D) (EE vg ne (unit_ c e)) (EE vg ne (sub dim st conn)))%R.
Proof.
  intros nq dim ne vg a D st conn junk j1 c e Hs0 K Hm0 C E. shp. assert (Hs : shape nq dim ne vg) by (repeat split; auto). assert (Hm : mshape nq (symn dim) (symn dim) D) by (repeat split; auto). unfold dw_lin_elastic. cbv zeta.
  assert (c * ne + e < dim * ne) by (pose proof (@idx_lt _ _ _ _ C E); lia).
  rewrite mulC_at; sz. rewrite Rmult_comm. f_equal.
  rewrite sumLevelsMulF_at; sz. unfold elastic_form. apply sm_ext; intros q Q. rewrite !s11 by auto. rewrite Rmult_comm. f_equal.
  rewrite sym_eq.
  match goal with |- at_ (actOpGT_VS3 ?r ?g ?m) _ _ _ = _ => pose proof (@actOpGT_VS3_at r g m q c e) as P end.
  rrin P. rewrite P; auto; try lia; clear P.
  transitivity (sm dim (fun i => sm dim (fun j => sm dim (fun k => sm dim (fun l => tens dim D q i j k l * EE vg ne (sub dim st conn) q k l)%R) * EE vg ne (unit_ c e) q i j)%R)).
  2: { apply sm_ext; intros i I. apply sm_ext; intros j J. rewrite <- sm_scalr. apply sm_ext; intros k Hk. rewrite <- sm_scalr. apply sm_ext; intros l L. lra. }
  unfold tens. unfold EE at 2.
  rewrite (@strain_unit dim (DPHI (bfGM vg)) ne q c e (fun x => sm dim (fun k => sm dim (fun l => at_ D q x (voigt dim k l) * EE vg ne (sub dim st conn) q k l)%R))) by auto.
  apply sm_ext; intros j J. unfold DPHI. f_equal. rewrite (@stress_at nq dim ne vg D st conn q j1) by (auto; apply voigt_lt; auto). auto.
Qed.
Theorem C124_elastic_eval : forall nq dim ne vg a D stv stu conn junk j1 j2, shape nq dim ne vg -> dim_ok dim -> mshape nq (symn dim) (symn dim) D ->
  at_ (d_lin_elastic (emp 1 1 1 junk) a (ev_strain j1 stv vg conn) (ev_strain j2 stu vg conn) D vg) 0 0 0
  = (a * elastic_form nq (scal (det vg)) dim (tens dim D) (EE vg ne (sub dim stv conn)) (EE vg ne (sub dim stu conn)))%R.
Proof.
  intros nq dim ne vg a D stv stu conn junk j1 j2 Hs K Hm. shp. unfold d_lin_elastic. cbv zeta.
  rewrite mulC_at; sz. rewrite Rmult_comm. f_equal.
  rewrite sumLevelsMulF_at; sz. unfold elastic_form. apply sm_ext; intros q Q. rewrite !s11 by auto. rewrite Rmult_comm. f_equal.
  rewrite mulAB_nn_at; sz.
  assert (Hst : forall stx j, forall i k, i < dim -> k < dim -> at_ (ev_strain j stx vg conn) q (voigt dim i k) 0 = ((if i =? k then 1 else 2) * EE vg ne (sub dim stx conn) q i k)%R).
  { intros. pose proof (@ev_strain_at j stx vg conn q i k) as P. rrin P. rewrite P; auto. }
  rewrite (@voigt_sum dim _ (fun x => at_ (ev_strain j2 stu vg conn) q x 0) (fun i j => EE vg ne (sub dim stu conn) q i j)) by (auto; intros; unfold EE, fstrain; lra).
  transitivity (sm dim (fun k => sm dim (fun l => sm dim (fun i => sm dim (fun j => tens dim D q i j k l * EE vg ne (sub dim stv conn) q i j)%R) * EE vg ne (sub dim stu conn) q k l)%R)).
  - apply sm_ext; intros k Kk. apply sm_ext; intros l L. f_equal.
    rewrite mulATB_nn_at; sz. 2: apply voigt_lt; auto.
    assert (NR : nRow (ev_strain j1 stv vg conn) = symn dim).
    { unfold ev_strain, dq_cauchy_strain. cbv zeta. autorewrite with shp. rr. auto. }
    rewrite NR.
    unfold tens. rewrite <- (@voigt_sum dim (fun x => at_ D q x (voigt dim k l)) (fun x => at_ (ev_strain j1 stv vg conn) q x 0) (fun i j => EE vg ne (sub dim stv conn) q i j)) by (auto; intros; unfold EE, fstrain; lra).
    apply sm_ext; intros; lra.
  - transitivity (sm dim (fun k => sm dim (fun l => sm dim (fun i => sm dim (fun j => tens dim D q i j k l * EE vg ne (sub dim stv conn) q i j * EE vg ne (sub dim stu conn) q k l)%R)))).
    { apply sm_ext; intros k Kk. apply sm_ext; intros l L. rewrite <- sm_scalr. apply sm_ext; intros. rewrite <- sm_scalr. auto. }
    transitivity (sm dim (fun k => sm dim (fun i => sm dim (fun l => sm dim (fun j => tens dim D q i j k l * EE vg ne (sub dim stv conn) q i j * EE vg ne (sub dim stu conn) q k l)%R)))).
    { apply sm_ext; intros. rewrite sm_swap. auto. }
    rewrite sm_swap. apply sm_ext; intros i I.
    transitivity (sm dim (fun k => sm dim (fun j => sm dim (fun l => tens dim D q i j k l * EE vg ne (sub dim stv conn) q i j * EE vg ne (sub dim stu conn) q k l)%R))).
    { apply sm_ext; intros. rewrite sm_swap. auto. }
    rewrite sm_swap. auto.
Qed.
