(** Displacement-pressure coupling of the total Lagrangian formulation. *)
From Coq Require Import Reals Lra Lia Arith List ZArith.
From Coquelicot Require Import Coquelicot.
From Verif Require Import Base M_fmf M_terms L_fmf S_terms L_terms L_terms2 M_hyper S_hyper L_hyper L_hyper2 L_hyper3 P_hyper P_hyper4.
Import ListNotations.
Open Scope R_scope.

Section Cell.
Variables (nq dim ne np : nat) (vg vgs : Geo).
Hypothesis (HS : shape nq dim ne vg) (HQ : shape nq dim np vgs) (HD : dim_ok dim).
Variables (conn : nat -> nat).
Notation G := (Gq vg).
Notation fam st q := (finite_strain false dim (Fq vg conn st q)).

Lemma volume_at : forall junk st a, (a < np)%nat ->
  at_ (tl_volume dim false junk st conn vgs vg) 0 a 0 = sm nq (fun q => at_ (bf vgs) q 0 a * detF (fam st q) * scal (det vg) q).
Proof.
  intros junk st a Ha. pose proof HS as HS'. destruct HS' as (? & ? & ? & L & Rw & Cl & ? & ? & ?).
  pose proof HQ as HQ'. destruct HQ' as (A1 & A2 & A3 & _).
  unfold tl_volume, dw_tl_volume. cbv zeta. cbn [Z.eqb].
  rewrite sumLevelsTMulF_at by (cbn; lia). cbn [mul_ stores nLev]. rewrite A1. apply sm_ext. intros q Hq.
  rewrite (@det_at nq dim ne vg HS). rewrite mul_at by lia. f_equal. f_equal.
  rewrite L, s11 by reflexivity. unfold scal. rewrite qp_buf_at by lia. reflexivity.
Qed.
(** The value of the matrix of the volume term: q J K : B. *)
Definition vol_entry (st : nat -> R) (a c e : nat) : R :=
  sm nq (fun q => at_ (bf vgs) q 0 a * (sm (dim2sym dim) (fun k => vecInvCS (fam st q) k * Bop dim (Fq vg conn st q) (G q) k c e) * detF (fam st q)) * scal (det vg) q).
Lemma fjcitb_at : forall st q a c e, (q < nq)%nat -> (a < np)%nat -> (c < dim)%nat -> (e < ne)%nat ->
  let F := def_grad st conn (bfGM vg) in
  let invC := qp_buf nq (dim2sym dim) 1 (fun q k => vecInvCS (finite_strain false dim (level F q)) k) in
  let detf := qp_buf nq 1 1 (fun q _ => detF (finite_strain false dim (level F q))) in
  let aux := buildOpB (alloc nq (dim2sym dim) (dim * ne)) F (bfGM vg) in
  let jcitb := mul_ (mulATB_nn (alloc nq 1 (dim * ne)) invC aux) (val detf) in
  at_ (mulATB_nn (alloc nq np (dim * ne)) (bf vgs) jcitb) q a (c * ne + e)
  = at_ (bf vgs) q 0 a * (sm (dim2sym dim) (fun k => vecInvCS (fam st q) k * Bop dim (Fq vg conn st q) (G q) k c e) * detF (fam st q)).
Proof.
  intros st q a c e Hq Ha Hc He F invC detf aux jcitb. pose proof HQ as HQ'. destruct HQ' as (A1 & A2 & A3 & _).
  pose proof (idx_lt dim ne c e Hc He) as HI. rewrite (Nat.mul_comm ne c) in HI.
  rewrite mulATB_nn_at by (cbn; lia). rewrite A2. cbn [sm]. rewrite Rplus_0_l. f_equal.
  unfold jcitb. rewrite mul_at by (cbn; lia). f_equal.
  - rewrite mulATB_nn_at by (cbn; lia). cbn [invC qp_buf nRow]. apply sm_ext. intros k Hk. f_equal.
    + unfold invC. rewrite qp_buf_at by lia. rewrite Nat.mul_1_l, Nat.add_0_r. reflexivity.
    + apply (@Bq_at nq dim ne vg HS HD); auto.
  - rewrite s11 by reflexivity. unfold scal, detf. rewrite qp_buf_at by lia. reflexivity.
Qed.
Lemma volume_matrix_at : forall junk st a c e, (a < np)%nat -> (c < dim)%nat -> (e < ne)%nat ->
  at_ (tl_volume dim true junk st conn vgs vg) 0 a (c * ne + e) = vol_entry st a c e.
Proof.
  intros junk st a c e Ha Hc He. pose proof HS as HS'. destruct HS' as (? & ? & ? & L & Rw & Cl & ? & ? & ?).
  pose proof HQ as HQ'. destruct HQ' as (A1 & A2 & A3 & _).
  pose proof (idx_lt dim ne c e Hc He) as HI. rewrite (Nat.mul_comm ne c) in HI.
  unfold tl_volume, dw_tl_volume. cbv zeta. cbn [Z.eqb orb Pos.eqb]. rewrite L, Rw, Cl, A3. cbn [nRow qp_buf].
  rewrite mulC_at by (cbn; lia). rewrite Rmult_1_r.
  rewrite sumLevelsMulF_at by (cbn; lia). cbn [mulATB_nn stores alloc nLev]. unfold vol_entry. apply sm_ext. intros q Hq.
  rewrite (@det_at nq dim ne vg HS). f_equal. apply fjcitb_at; auto.
Qed.
Lemma dp_matrix_at : forall junk st a c e, (a < np)%nat -> (c < dim)%nat -> (e < ne)%nat ->
  at_ (tl_bulk_pressure_dp dim junk st conn vgs vg) 0 (c * ne + e) a = - vol_entry st a c e.
Proof.
  intros junk st a c e Ha Hc He. pose proof HS as HS'. destruct HS' as (? & ? & ? & L & Rw & Cl & ? & ? & ?).
  pose proof HQ as HQ'. destruct HQ' as (A1 & A2 & A3 & _).
  pose proof (idx_lt dim ne c e Hc He) as HI. rewrite (Nat.mul_comm ne c) in HI.
  unfold tl_bulk_pressure_dp, dw_tl_volume. cbv zeta. cbn [Z.eqb orb Pos.eqb]. rewrite L, Rw, Cl, A3. cbn [nRow qp_buf].
  rewrite mulC_at by (cbn; lia).
  rewrite sumLevelsTMulF_at by (cbn; lia). cbn [mulATB_nn stores alloc nLev].
  replace (- vol_entry st a c e) with (vol_entry st a c e * -1) by ring. f_equal. unfold vol_entry. apply sm_ext. intros q Hq.
  rewrite (@det_at nq dim ne vg HS). f_equal. apply fjcitb_at; auto.
Qed.
End Cell.

(** The volume term: its matrix is the derivative of its residual. *)
Theorem C147_volume_tangent : forall nq dim ne np vg vgs conn u v t0 junk junk' a,
  shape nq dim ne vg -> shape nq dim np vgs -> dim_ok dim ->
  (forall e c, (e < ne)%nat -> (c < dim)%nat -> is_derive (fun t => u t (dim * conn e + c)%nat) t0 (v (dim * conn e + c)%nat)) ->
  (forall q, (q < nq)%nat -> let J := detF (finite_strain false dim (level (def_grad (u t0) conn (bfGM vg)) q)) in 0 < J /\ inv_eps < J * J) ->
  (a < np)%nat ->
  is_derive (fun t => at_ (tl_volume dim false junk (u t) conn vgs vg) 0 a 0) t0
    (sm dim (fun c => sm ne (fun e => at_ (tl_volume dim true junk' (u t0) conn vgs vg) 0 a (c * ne + e) * v (dim * conn e + c)%nat))).
Proof.
  intros nq dim ne np vg vgs conn u v t0 junk junk' a HS HQ HD Hu HJ Ha.
  eapply dext. { intros t. symmetry. apply (@volume_at nq dim ne np vg vgs HS HQ conn); auto. }
  rewrite (@sm_ext dim _ (fun c => sm ne (fun e => vol_entry nq dim vg vgs conn (u t0) a c e * v (dim * conn e + c)%nat))).
  2: { intros c Hc. apply sm_ext. intros e He. rewrite (@volume_matrix_at nq dim ne np vg vgs HS HQ HD conn); auto. }
  eapply dval.
  { apply (@dsm nq (fun q t => at_ (bf vgs) q 0 a * detF (finite_strain false dim (Fq vg conn (u t) q)) * scal (det vg) q)
      (fun q => at_ (bf vgs) q 0 a * (detF (fs dim (fun t => Fq vg conn (u t) q) t0) * KE dim (fs dim (fun t => Fq vg conn (u t) q) t0) (dE dim ne vg conn u v t0 q)) * scal (det vg) q)).
    intros q Hq. pose proof (@path_q nq dim ne vg HS HD conn u v t0 Hu HJ q Hq) as P. pose proof (@p_J _ _ _ _ P) as DJ.
    eapply dval. apply dmult; [|apply dconst]. apply dscal. exact DJ. cbv beta. ring. }
  unfold vol_entry.
  transitivity (sm nq (fun q => sm dim (fun c => sm ne (fun e => at_ (bf vgs) q 0 a *
     (sm (dim2sym dim) (fun k => vecInvCS (finite_strain false dim (Fq vg conn (u t0) q)) k * Bop dim (Fq vg conn (u t0) q) (Gq vg q) k c e) * detF (finite_strain false dim (Fq vg conn (u t0) q)))
     * scal (det vg) q * v (dim * conn e + c)%nat)))).
  - apply sm_ext. intros q Hq. unfold KE, dE, fs. set (f := finite_strain false dim (Fq vg conn (u t0) q)). set (B := Bop dim (Fq vg conn (u t0) q) (Gq vg q)).
    set (w := scal (det vg) q). set (ph := at_ (bf vgs) q 0 a).
    rewrite (@sm_ext (dim2sym dim) _ (fun k => sm dim (fun c => sm ne (fun e => vecInvCS f k * B k c e * v (dim * conn e + c)%nat)))).
    2: { intros k Hk. rewrite <- sm_scal. apply sm_ext; intros c Hc. rewrite <- sm_scal. apply sm_ext; intros; ring. }
    rewrite (sm_swap (dim2sym dim) dim).
    rewrite <- !sm_scal. rewrite <- sm_scalr. apply sm_ext. intros c Hc.
    rewrite (sm_swap (dim2sym dim) ne). rewrite <- !sm_scal, <- sm_scalr. apply sm_ext. intros e He.
    rewrite sm_scalr. ring.
  - rewrite (sm_swap nq dim). apply sm_ext; intros c Hc. rewrite (sm_swap nq ne). apply sm_ext; intros e He. rewrite <- sm_scalr. reflexivity.
Qed.
(** The bulk pressure term: its pressure matrix is the derivative of its residual with
    respect to the pressure ... *)
Theorem C147_pressure_tangent : forall nq dim ne np vg vgs conn pconn st Dt (p : R -> nat -> R) (p' : nat -> R) t0 cache junk junk' c e,
  shape nq dim ne vg -> shape nq dim np vgs -> dim_ok dim ->
  (forall a, (a < np)%nat -> is_derive (fun t => p t (pconn a)) t0 (p' (pconn a))) ->
  (c < dim)%nat -> (e < ne)%nat ->
  is_derive (fun t => at_ (fst (he_weak dim (fun q => stress_bulk_pressure false dim (p_in_qp (p t) pconn vgs q)) Dt cache false junk st conn vg)) 0 (c * ne + e) 0) t0
    (sm np (fun a => at_ (tl_bulk_pressure_dp dim junk' st conn vgs vg) 0 (c * ne + e) a * p' (pconn a))).
Proof.
  intros nq dim ne np vg vgs conn pconn st Dt p p' t0 cache junk junk' c e HS HQ HD Hp Hc He.
  eapply dext. { intros t. symmetry. apply (@tl_residual_at nq dim ne vg HS HD); auto. }
  rewrite (@sm_ext np _ (fun a => - vol_entry nq dim vg vgs conn st a c e * p' (pconn a))).
  2: { intros a Ha. rewrite (@dp_matrix_at nq dim ne np vg vgs HS HQ HD conn); auto. }
  pose proof HQ as HQ'. destruct HQ' as (A1 & A2 & A3 & _).
  assert (DP : forall q, (q < nq)%nat -> is_derive (fun t => p_in_qp (p t) pconn vgs q) t0 (sm np (fun a => at_ (bf vgs) q 0 a * p' (pconn a)))).
  { intros q Hq. apply (dext (fun t => sm np (fun a => at_ (bf vgs) q 0 a * p t (pconn a)))).
    - intros t. unfold p_in_qp. rewrite s11 by reflexivity. unfold scal.
      pose proof (@ev_val_at 1 (fun _ => 0) (p t) (bf vgs) pconn q 0 A2 ltac:(lia) ltac:(lia)) as P. unfold ev_val in P. rewrite P.
      unfold fval. rewrite A3. apply sm_ext. intros a Ha. unfold PHI, sub. rewrite ?Nat.mul_1_l, ?Nat.mul_1_r, ?Nat.add_0_r. ring.
    - apply (@dsm np (fun a t => at_ (bf vgs) q 0 a * p t (pconn a))). intros a Ha. apply dscal. auto. }
  set (KB := fun q => sm (dim2sym dim) (fun k => vecInvCS (finite_strain false dim (Fq vg conn st q)) k * Bop dim (Fq vg conn st q) (Gq vg q) k c e) * detF (finite_strain false dim (Fq vg conn st q))).
  apply (dext (fun t => sm nq (fun q => (- KB q * scal (det vg) q) * p_in_qp (p t) pconn vgs q))).
  { intros t. apply sm_ext. intros q Hq. unfold stress_bulk_pressure. cbv zeta iota.
    rewrite (@sm_ext (dim2sym dim) (fun k => Bop dim (Fq vg conn st q) (Gq vg q) k c e * _) (fun k => (- p_in_qp (p t) pconn vgs q * detF (finite_strain false dim (Fq vg conn st q))) *
      (vecInvCS (finite_strain false dim (Fq vg conn st q)) k * Bop dim (Fq vg conn st q) (Gq vg q) k c e))) by (intros; ring).
    rewrite sm_scal. unfold KB. ring. }
  eapply dval. { apply (@dsm nq (fun q t => (- KB q * scal (det vg) q) * p_in_qp (p t) pconn vgs q)). intros q Hq. apply dscal. apply DP; auto. }
  unfold vol_entry.
  rewrite (@sm_ext np _ (fun a => sm nq (fun q => - (at_ (bf vgs) q 0 a * KB q * scal (det vg) q) * p' (pconn a)))).
  2: { intros a Ha. match goal with |- - ?X * ?y = _ => replace (- X * y) with ((- y) * X) by ring end.
       rewrite <- sm_scal. apply sm_ext. intros. unfold KB. ring. }
  rewrite (sm_swap np nq). apply sm_ext. intros q Hq. rewrite <- sm_scal. apply sm_ext. intros; ring.
Qed.
(** ... and it is minus the transposed matrix of the volume term: the coupled tangent is symmetric
    up to the sign of the second equation. *)
Theorem C147_transpose : forall nq dim ne np vg vgs conn st junk junk' a c e,
  shape nq dim ne vg -> shape nq dim np vgs -> dim_ok dim -> (a < np)%nat -> (c < dim)%nat -> (e < ne)%nat ->
  at_ (tl_bulk_pressure_dp dim junk st conn vgs vg) 0 (c * ne + e) a = - at_ (tl_volume dim true junk' st conn vgs vg) 0 a (c * ne + e).
Proof.
  intros nq dim ne np vg vgs conn st junk junk' a c e HS HQ HD Ha Hc He.
  rewrite (@dp_matrix_at nq dim ne np vg vgs HS HQ HD conn) by auto.
  rewrite (@volume_matrix_at nq dim ne np vg vgs HS HQ HD conn) by auto. reflexivity.
Qed.

(** The hypotheses are met: the triangle of [C145_example], pressure and displacement of order 1. *)
Example C147_example : forall a, (a < 3)%nat -> forall junk junk',
  is_derive (fun t => at_ (tl_volume 2 false junk (u2 t) (fun e => e) vg2 vg2) 0 a 0) 1
    (sm 2 (fun c => sm 3 (fun e => at_ (tl_volume 2 true junk' (u2 1) (fun e => e) vg2 vg2) 0 a (c * 3 + e) * v2 (2 * e + c)%nat))).
Proof.
  intros a Ha junk junk'. assert (D2 : dim_ok 2) by (right; left; auto).
  apply (@C147_volume_tangent 1 2 3 3 vg2 vg2 (fun e => e) u2 v2 1 junk junk' a vg2_shape vg2_shape D2 vg2_path vg2_det); auto.
Qed.
Print Assumptions C147_volume_tangent.
Print Assumptions C147_pressure_tangent.
Print Assumptions C147_transpose.
