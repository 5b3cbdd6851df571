(** The terms integrate their forms, continued: viscous, Stokes, Biot and convective terms. *)
From Coq Require Import Reals Lra Lia Arith.
From Verif Require Import Base M_fmf M_terms L_fmf S_terms L_terms L_terms2 P_terms P_terms2.
Open Scope nat_scope.

Definition DV (vg : Geo) (ne dim : nat) (u : nat -> nat -> R) (q : nat) : R := fdiv (DPHI (bfGM vg)) ne dim u q.

Lemma gcl_at : forall nq dim ne vg q c e, shape nq dim ne vg -> c < dim -> e < ne ->
  at_ (pretend nq 1 (ne * dim) (bfGM vg)) q 0 (c * ne + e) = DPHI (bfGM vg) q c e.
Proof.
  intros nq dim ne vg q c e Hs C E. shp. unfold at_, DPHI, ptr_level, pretend, at_, ptr_level. cbn [nRow nCol val]. rr. f_equal. lia.
Qed.

(** ** div_grad *)
Lemma grad_unit_l : forall dim dp ne c e q (u : nat -> nat -> R), c < dim -> e < ne ->
  sm dim (fun c' => sm dim (fun d => fgrad dp ne (unit_ c e) q c' d * u c' d)%R) = sm dim (fun d => dp q d e * u c d)%R.
Proof.
  intros. rewrite <- (@sm_if dim c (fun i => sm dim (fun d => dp q d e * u i d))%R) by auto.
  apply sm_ext; intros i I. destruct (i =? c) eqn:X.
  - apply sm_ext; intros. rewrite fgrad_unit, X by auto. auto.
  - apply sm_0; intros. rewrite fgrad_unit, X by auto. lra.
Qed.
Theorem C126_divgrad_matrix_partial : forall nq dim ne vgv vgs nu grad junk c e c' e', shape nq dim ne vgv -> shape nq dim ne vgs -> dim_ok dim -> mshape nq 1 1 nu ->
  c < dim -> e < ne -> c' < dim -> e' < ne ->
  at_ (dw_div_grad (emp 1 (dim * ne) (dim * ne) junk) grad nu vgv vgs true) 0 (c * ne + e) (c' * ne + e')
  = divgrad_form nq (scal (det vgv)) dim (scal nu) (GG vgv ne (unit_ c e)) (GG vgs ne (unit_ c' e')).
Proof.
  intros nq dim ne vgv vgs nu grad junk c e c' e' Hs Hs' K Hm C E C' E'.
  assert (c * ne + e < dim * ne) by (pose proof (@idx_lt _ _ _ _ C E); lia).
  assert (c' * ne + e' < dim * ne) by (pose proof (@idx_lt _ _ _ _ C' E'); lia).
  shp. unfold dw_div_grad. cbv zeta. rewrite sumLevelsMulF_at; sz. unfold divgrad_form. apply sm_ext; intros q Q.
  rewrite mul_at; sz. rewrite !s11 by auto. rewrite Rmult_comm. f_equal. rewrite Rmult_comm. f_equal.
  match goal with |- context [divgrad_build_gtg ?a ?b ?c1] => pose proof (@divgrad_build_at a b c1 q c e c' e') as P end.
  rrin P. rewrite P; auto; try lia; clear P.
  unfold GG. rewrite grad_unit_l by auto. destruct (Nat.eqb_spec c c') as [<-|N].
  - apply sm_ext; intros. rewrite fgrad_unit, Nat.eqb_refl by auto. auto.
  - symmetry. apply sm_0; intros. rewrite fgrad_unit by auto. destruct (Nat.eqb_spec c c'); [lia|lra].
Qed.
Lemma flat_grad_at : forall nc j st vg conn q c d, q < nLev (bfGM vg) -> d < nRow (bfGM vg) -> c < nc ->
  at_ (flat_DD (np_transpose (ev_grad nc j st vg conn))) q (c * nRow (bfGM vg) + d) 0 = GG vg (nCol (bfGM vg)) (sub nc st conn) q c d.
Proof.
  intros. unfold flat_DD, np_transpose, at_ at 1, ptr_level, pretend. cbn [nLev nRow nCol val].
  assert (A : nRow (ev_grad nc j st vg conn) = nRow (bfGM vg)) by reflexivity.
  assert (B : nCol (ev_grad nc j st vg conn) = nc) by reflexivity. rewrite A, B.
  set (D := nRow (bfGM vg)) in *.
  assert (L : c * D + d < D * nc) by (pose proof (@idx_lt _ _ _ _ H1 H0); lia).
  assert (M : D * nc <> 0) by lia.
  replace (1 * (nc * D) * q + 1 * (c * D + d) + 0) with ((c * D + d) + q * (D * nc)) by lia.
  rewrite (Nat.div_add (c * D + d) q (D * nc)), (Nat.mod_add (c * D + d) q (D * nc)), (Nat.div_small (c * D + d) (D * nc)), (Nat.mod_small (c * D + d) (D * nc)) by auto. cbn [Nat.add].
  dm. rewrite ev_grad_at; auto.
Qed.
Theorem C126_divgrad_residual : forall nq dim nev nes vgv vgs nu st conn junk j1 c e, shape nq dim nev vgv -> shape nq dim nes vgs -> dim_ok dim -> mshape nq 1 1 nu ->
  c < dim -> e < nev ->
  at_ (dw_div_grad (emp 1 (dim * nev) 1 junk) (flat_DD (np_transpose (ev_grad dim j1 st vgs conn))) nu vgv vgs false) 0 (c * nev + e) 0
  = divgrad_form nq (scal (det vgv)) dim (scal nu) (GG vgv nev (unit_ c e)) (GG vgs nes (sub dim st conn)).
Proof.
  intros nq dim nev nes vgv vgs nu st conn junk j1 c e Hs Hs' K Hm C E.
  assert (c * nev + e < dim * nev) by (pose proof (@idx_lt _ _ _ _ C E); lia).
  shp. unfold dw_div_grad. cbv zeta. rewrite sumLevelsMulF_at; sz. unfold divgrad_form. apply sm_ext; intros q Q.
  rewrite mul_at; sz. rewrite !s11 by auto. rewrite Rmult_comm. f_equal. rewrite Rmult_comm. f_equal.
  match goal with |- context [divgrad_act_gt_m ?a ?b ?c1] => pose proof (@divgrad_act_at a b c1 q c e 0) as P end.
  rrin P. rewrite P; auto; try lia; clear P.
  unfold GG. rewrite grad_unit_l by auto. apply sm_ext; intros d D. unfold DPHI at 1. f_equal.
  pose proof (@flat_grad_at dim j1 st vgs conn q c d) as P. rrin P. rewrite P; auto.
Qed.
Theorem C126_divgrad_eval : forall nq dim nev nes vgv vgs nu stv stu connv connu j1 j2, shape nq dim nev vgv -> shape nq dim nes vgs -> mshape nq 1 1 nu ->
  d_div_grad (ev_grad dim j1 stv vgv connv) (ev_grad dim j2 stu vgs connu) nu vgv
  = divgrad_form nq (scal (det vgv)) dim (scal nu) (GG vgv nev (sub dim stv connv)) (GG vgs nes (sub dim stu connu)).
Proof.
  intros nq dim nev nes vgv vgs nu stv stu connv connu j1 j2 Hs Hs' Hm. shp. unfold d_div_grad, py_integrate.
  change (nLev (ev_grad dim j1 stv vgv connv)) with (nLev (bfGM vgv)).
  change (nRow (ev_grad dim j1 stv vgv connv)) with (nRow (bfGM vgv)).
  change (nCol (ev_grad dim j1 stv vgv connv)) with dim. rr.
  unfold divgrad_form. apply sm_ext; intros q Q. rewrite !s11 by auto. rewrite Rmult_comm. f_equal. f_equal.
  rewrite sm_blocks, sm_swap. apply sm_ext; intros c C. apply sm_ext; intros d D.
  pose proof (@ev_grad_at dim j1 stv vgv connv q d c) as P. pose proof (@ev_grad_at dim j2 stu vgs connu q d c) as P'.
  rrin P. rrin P'. unfold GG. rewrite <- P, <- P' by auto.
  unfold at_. change (nCol (ev_grad dim j1 stv vgv connv)) with dim. change (nCol (ev_grad dim j2 stu vgs connu)) with dim.
  replace (dim * d) with (d * dim) by lia. rewrite !Nat.add_assoc. auto.
Qed.

(** ** Stokes coupling *)
Theorem C127_stokes_div_matrix : forall nq dim nes nev svg vvg coef dv junk e c e', shape nq dim nes svg -> shape nq dim nev vvg -> mshape nq 1 1 coef ->
  e < nes -> c < dim -> e' < nev ->
  at_ (dw_div (emp 1 nes (dim * nev) junk) coef dv svg vvg true) 0 e (c * nev + e')
  = stokes_form nq (scal (det vvg)) (scal coef) (DV vvg nev dim (unit_ c e')) (fun q => VV svg nes (unit_ 0 e) q 0).
Proof.
  intros nq dim nes nev svg vvg coef dv junk e c e' Hs Hs' Hm E C E'.
  assert (c * nev + e' < dim * nev) by (pose proof (@idx_lt _ _ _ _ C E'); lia).
  pose proof (fun q => @gcl_at nq dim nev vvg q c e' Hs' C E') as P.
  shp. unfold dw_div. cbv zeta. rewrite sumLevelsMulF_at; sz. unfold stokes_form. apply sm_ext; intros q Q.
  rewrite mulAF_at; sz. rewrite mulATB_nn_at; sz. rr. rewrite sm1, P. rewrite !s11 by auto.
  unfold VV, DV. rewrite fdiv_unit, fval_unit by auto. cbn [Nat.eqb]. unfold PHI. lra.
Qed.
Theorem C127_stokes_div_residual : forall nq dim nes nev svg vvg coef st conn junk j1 e, shape nq dim nes svg -> shape nq dim nev vvg -> 0 < nev -> mshape nq 1 1 coef ->
  e < nes ->
  at_ (dw_div (emp 1 nes 1 junk) coef (ev_div j1 st vvg conn) svg vvg false) 0 e 0
  = stokes_form nq (scal (det vvg)) (scal coef) (DV vvg nev dim (sub dim st conn)) (fun q => VV svg nes (unit_ 0 e) q 0).
Proof.
  intros nq dim nes nev svg vvg coef st conn junk j1 e Hs Hs' Nz Hm E.
  shp. unfold dw_div. cbv zeta. rewrite sumLevelsMulF_at; sz. unfold stokes_form. apply sm_ext; intros q Q.
  rewrite mulAF_at; sz. rewrite mulATB_nn_at; sz. rr. rewrite sm1, ev_div_at; sz. rewrite !s11 by auto.
  unfold VV, DV. rewrite fval_unit by auto. cbn [Nat.eqb]. unfold PHI. rr. lra.
Qed.
Theorem C127_stokes_grad_matrix : forall nq dim nes nev svg vvg coef st junk c e e', shape nq dim nes svg -> shape nq dim nev vvg -> mshape nq 1 1 coef ->
  c < dim -> e < nev -> e' < nes ->
  at_ (dw_grad (emp 1 (dim * nev) nes junk) coef st svg vvg true) 0 (c * nev + e) e'
  = stokes_form nq (scal (det vvg)) (scal coef) (DV vvg nev dim (unit_ c e)) (fun q => VV svg nes (unit_ 0 e') q 0).
Proof.
  intros nq dim nes nev svg vvg coef st junk c e e' Hs Hs' Hm C E E'.
  assert (c * nev + e < dim * nev) by (pose proof (@idx_lt _ _ _ _ C E); lia).
  pose proof (fun q => @gcl_at nq dim nev vvg q c e Hs' C E) as P.
  shp. unfold dw_grad. cbv zeta. rewrite sumLevelsMulF_at; sz. unfold stokes_form. apply sm_ext; intros q Q.
  rewrite mulAF_at; sz. rewrite mulATB_nn_at; sz. rr. rewrite sm1, P. rewrite !s11 by auto.
  unfold VV, DV. rewrite fdiv_unit, fval_unit by auto. cbn [Nat.eqb]. unfold PHI. lra.
Qed.
Theorem C127_stokes_grad_residual : forall nq dim nes nev svg vvg coef st conn junk j1 c e, shape nq dim nes svg -> shape nq dim nev vvg -> mshape nq 1 1 coef ->
  c < dim -> e < nev ->
  at_ (dw_grad (emp 1 (dim * nev) 1 junk) coef (ev_val 1 j1 st (bf svg) conn) svg vvg false) 0 (c * nev + e) 0
  = stokes_form nq (scal (det vvg)) (scal coef) (DV vvg nev dim (unit_ c e)) (fun q => VV svg nes (sub 1 st conn) q 0).
Proof.
  intros nq dim nes nev svg vvg coef st conn junk j1 c e Hs Hs' Hm C E.
  assert (c * nev + e < dim * nev) by (pose proof (@idx_lt _ _ _ _ C E); lia).
  pose proof (fun q => @gcl_at nq dim nev vvg q c e Hs' C E) as P.
  shp. unfold dw_grad. cbv zeta. rewrite sumLevelsMulF_at; sz. unfold stokes_form. apply sm_ext; intros q Q.
  rewrite mulAF_at; sz. rewrite mulATB_nn_at; sz. rr. rewrite sm1, P, ev_val_at; sz. rewrite !s11 by auto.
  unfold VV, DV. rewrite fdiv_unit by auto. rr. lra.
Qed.
Theorem C127_stokes_eval : forall nq dim nes nev svg vvg coef stp stu connp connu j1 j2, shape nq dim nes svg -> shape nq dim nev vvg -> 0 < nev -> mshape nq 1 1 coef ->
  d_stokes coef (ev_val 1 j1 stp (bf svg) connp) (ev_div j2 stu vvg connu) vvg
  = stokes_form nq (scal (det vvg)) (scal coef) (DV vvg nev dim (sub dim stu connu)) (fun q => VV svg nes (sub 1 stp connp) q 0).
Proof.
  intros nq dim nes nev svg vvg coef stp stu connp connu j1 j2 Hs Hs' Nz Hm. shp. unfold d_stokes, py_integrate.
  change (nLev (ev_val 1 j1 stp (bf svg) connp)) with (nLev (bf svg)). rr.
  unfold stokes_form. apply sm_ext; intros q Q. rewrite !s11 by auto. rewrite ev_val_at, ev_div_at; sz. unfold VV, DV. rr. lra.
Qed.
