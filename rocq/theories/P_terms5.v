(** The terms integrate their forms, continued: convective, v . grad s and surface v . n s terms. *)
From Coq Require Import Reals Lra Lia Arith.
From Verif Require Import Base M_fmf M_terms L_fmf S_terms L_terms L_terms2 P_terms P_terms2 P_terms3 P_terms4.
Open Scope nat_scope.

Lemma conv_unit_v : forall dim ph ne c e q (u : nat -> R), c < dim -> e < ne ->
  sm dim (fun i => fval ph ne (unit_ c e) q i * u i)%R = (ph q e * u c)%R.
Proof.
  intros. rewrite <- (@sm_if dim c (fun i => ph q e * u i)%R) by auto. apply sm_ext; intros i I. rewrite fval_unit by auto. destruct (i =? c); lra.
Qed.
Lemma tgrad_at : forall nq dim ne vg st conn j q c d, shape nq dim ne vg -> q < nq -> c < dim -> d < dim ->
  at_ (np_transpose (ev_grad dim j st vg conn)) q c d = GG vg ne (sub dim st conn) q c d.
Proof.
  intros. pose proof (@transp_at (ev_grad dim j st vg conn) q c d) as P.
  change (nCol (ev_grad dim j st vg conn)) with dim in P. change (nRow (ev_grad dim j st vg conn)) with (nRow (bfGM vg)) in P.
  shp. rrin P. rewrite P by auto. rewrite ev_grad_at; sz.
Qed.
Lemma tgrad_shape : forall nq dim ne vg st conn j, shape nq dim ne vg ->
  nLev (np_transpose (ev_grad dim j st vg conn)) = nq /\ nRow (np_transpose (ev_grad dim j st vg conn)) = dim /\ nCol (np_transpose (ev_grad dim j st vg conn)) = dim.
Proof. intros. shp. unfold np_transpose, ev_grad, dq_grad. cbn [nLev nRow nCol]. sz. Qed.
Lemma val_shape : forall n j st b conn, nLev (ev_val n j st b conn) = nLev b /\ nRow (ev_val n j st b conn) = n /\ nCol (ev_val n j st b conn) = 1.
Proof. intros. unfold ev_val, dq_state_in_qp. sz. Qed.

(** ** Linear convection: int ((w . grad) u) . v *)
Theorem C128_lin_convect_matrix : forall nq dim ne vg new wvg grad stw connw junk j1 c e c' e', shape nq dim ne vg -> shape nq dim new wvg -> dim_ok dim ->
  c < dim -> e < ne -> c' < dim -> e' < ne ->
  at_ (dw_lin_convect (emp 1 (dim * ne) (dim * ne) junk) grad (ev_val dim j1 stw (bf wvg) connw) vg true) 0 (c * ne + e) (c' * ne + e')
  = convect_form nq (scal (det vg)) dim (VV wvg new (sub dim stw connw)) (VV vg ne (unit_ c e)) (GG vg ne (unit_ c' e')).
Proof.
  intros nq dim ne vg new wvg grad stw connw junk j1 c e c' e' Hs Hw K C E C' E'.
  assert (c * ne + e < dim * ne) by (pose proof (@idx_lt _ _ _ _ C E); lia).
  assert (c' * ne + e' < dim * ne) by (pose proof (@idx_lt _ _ _ _ C' E'); lia).
  destruct (val_shape dim j1 stw (bf wvg) connw) as (V1 & V2 & V3).
  shp. unfold dw_lin_convect. cbv zeta. rewrite sumLevelsMulF_at; sz. unfold convect_form. apply sm_ext; intros q Q.
  rewrite !s11 by auto. rewrite Rmult_comm. f_equal. unfold VV at 1. rewrite conv_unit_v by auto.
  match goal with |- context [bf_actt ?a ?b ?c1] => pose proof (@bf_actt_at a b c1 q c e (c' * ne + e')) as P end.
  rrin P. rewrite P; auto; try lia; clear P. unfold PHI. f_equal.
  match goal with |- context [convect_build_vtg ?a ?b ?c1] => pose proof (@vtg_at a b c1 q c c' e') as P end.
  rrin P. rewrite P; auto; try lia; clear P. unfold GG. destruct (Nat.eqb_spec c c') as [<-|N].
  - apply sm_ext; intros d D. rewrite fgrad_unit, Nat.eqb_refl by auto. rewrite ev_val_at; sz. unfold VV, DPHI. rr. lra.
  - rewrite at_alloc. symmetry. apply sm_0; intros. rewrite fgrad_unit by auto. destruct (Nat.eqb_spec c c'); [lia|lra].
Qed.
Theorem C128_lin_convect_residual : forall nq dim ne vg new wvg stu connu stw connw junk j1 j2 c e, shape nq dim ne vg -> shape nq dim new wvg ->
  c < dim -> e < ne ->
  at_ (dw_lin_convect (emp 1 (dim * ne) 1 junk) (np_transpose (ev_grad dim j2 stu vg connu)) (ev_val dim j1 stw (bf wvg) connw) vg false) 0 (c * ne + e) 0
  = convect_form nq (scal (det vg)) dim (VV wvg new (sub dim stw connw)) (VV vg ne (unit_ c e)) (GG vg ne (sub dim stu connu)).
Proof.
  intros nq dim ne vg new wvg stu connu stw connw junk j1 j2 c e Hs Hw C E.
  assert (c * ne + e < dim * ne) by (pose proof (@idx_lt _ _ _ _ C E); lia).
  destruct (val_shape dim j1 stw (bf wvg) connw) as (V1 & V2 & V3).
  destruct (@tgrad_shape nq dim ne vg stu connu j2 Hs) as (T1 & T2 & T3).
  pose proof (fun q c d => @tgrad_at nq dim ne vg stu connu j2 q c d Hs) as T.
  shp. unfold dw_lin_convect. cbv zeta. rewrite sumLevelsMulF_at; sz. unfold convect_form. apply sm_ext; intros q Q.
  rewrite !s11 by auto. rewrite Rmult_comm. f_equal. unfold VV at 1. rewrite conv_unit_v by auto.
  match goal with |- context [bf_actt ?a ?b ?c1] => pose proof (@bf_actt_at a b c1 q c e 0) as P end.
  rrin P. rewrite P; auto; try lia; clear P. unfold PHI. f_equal.
  rewrite mulAB_nn_at; sz. apply sm_ext; intros d D. rewrite T by auto. rewrite ev_val_at; sz. unfold VV. rr. lra.
Qed.

(** ** Nonlinear convection: int ((u . grad) u) . v *)
Theorem C128_convect_residual : forall nq dim ne vg st conn junk j1 j2 c e, shape nq dim ne vg -> c < dim -> e < ne ->
  at_ (dw_convect (emp 1 (dim * ne) 1 junk) (np_transpose (ev_grad dim j1 st vg conn)) (ev_val dim j2 st (bf vg) conn) vg false) 0 (c * ne + e) 0
  = convect_form nq (scal (det vg)) dim (VV vg ne (sub dim st conn)) (VV vg ne (unit_ c e)) (GG vg ne (sub dim st conn)).
Proof. intros. apply (@C128_lin_convect_residual nq dim ne vg ne vg); auto. Qed.
Theorem C128_convect_matrix : forall nq dim ne vg st conn junk j1 j2 c e c' e', shape nq dim ne vg -> dim_ok dim ->
  c < dim -> e < ne -> c' < dim -> e' < ne ->
  at_ (dw_convect (emp 1 (dim * ne) (dim * ne) junk) (np_transpose (ev_grad dim j1 st vg conn)) (ev_val dim j2 st (bf vg) conn) vg true) 0 (c * ne + e) (c' * ne + e')
  = (convect_form nq (scal (det vg)) dim (VV vg ne (unit_ c' e')) (VV vg ne (unit_ c e)) (GG vg ne (sub dim st conn))
     + convect_form nq (scal (det vg)) dim (VV vg ne (sub dim st conn)) (VV vg ne (unit_ c e)) (GG vg ne (unit_ c' e')))%R.
Proof.
  intros nq dim ne vg st conn junk j1 j2 c e c' e' Hs K C E C' E'.
  assert (c * ne + e < dim * ne) by (pose proof (@idx_lt _ _ _ _ C E); lia).
  assert (c' * ne + e' < dim * ne) by (pose proof (@idx_lt _ _ _ _ C' E'); lia).
  destruct (val_shape dim j2 st (bf vg) conn) as (V1 & V2 & V3).
  destruct (@tgrad_shape nq dim ne vg st conn j1 Hs) as (T1 & T2 & T3).
  pose proof (fun q c d => @tgrad_at nq dim ne vg st conn j1 q c d Hs) as T.
  shp. unfold dw_convect. cbv zeta. rewrite sumLevelsMulF_at; sz. unfold convect_form. rewrite <- sm_plus. apply sm_ext; intros q Q.
  rewrite !s11 by auto. rewrite <- Rmult_plus_distr_l. rewrite Rmult_comm. f_equal. unfold VV at 1 3. rewrite !conv_unit_v by auto.
  rewrite addAB_at; sz. f_equal.
  - match goal with |- context [bf_actt ?a ?b ?c1] => pose proof (@bf_actt_at a b c1 q c e (c' * ne + e')) as P end.
    rrin P. rewrite P; auto; try lia; clear P. unfold PHI. f_equal.
    match goal with |- context [bf_ract ?a ?b ?c1] => pose proof (@bf_ract_at a b c1 q c c' e') as P end.
    rrin P. rewrite P; auto; try lia; clear P. rewrite T by auto. unfold VV. rewrite conv_unit_v by auto. unfold PHI. lra.
  - match goal with |- context [bf_actt ?a ?b ?c1] => pose proof (@bf_actt_at a b c1 q c e (c' * ne + e')) as P end.
    rrin P. rewrite P; auto; try lia; clear P. unfold PHI. f_equal.
    match goal with |- context [convect_build_vtg ?a ?b ?c1] => pose proof (@vtg_at a b c1 q c c' e') as P end.
    rrin P. rewrite P; auto; try lia; clear P. unfold GG. destruct (Nat.eqb_spec c c') as [<-|N].
    + apply sm_ext; intros d D. rewrite fgrad_unit, Nat.eqb_refl by auto. rewrite ev_val_at; sz. unfold VV, DPHI. rr. lra.
    + rewrite at_alloc. symmetry. apply sm_0; intros. rewrite fgrad_unit by auto. destruct (Nat.eqb_spec c c'); [lia|lra].
Qed.

(** ** int v . (C grad p) *)
Lemma dot_unit_g : forall dim dp ne e q (C : nat -> R), e < ne ->
  sm dim (fun j => C j * fgrad dp ne (unit_ 0 e) q 0 j)%R = sm dim (fun j => C j * dp q j e)%R.
Proof. intros. apply sm_ext; intros. rewrite fgrad_unit by auto. auto. Qed.
Lemma grad_shape : forall n j st vg conn, nLev (ev_grad n j st vg conn) = nLev (bfGM vg) /\ nRow (ev_grad n j st vg conn) = nRow (bfGM vg) /\ nCol (ev_grad n j st vg conn) = n.
Proof. intros. unfold ev_grad, dq_grad. sz. Qed.
Lemma scal_delta : forall dim c s (f : nat -> R), c < dim -> sm dim (fun j => s * delta c j * f j)%R = (s * f c)%R.
Proof. intros. transitivity (sm dim (fun j => delta c j * (s * f j))%R). apply sm_ext; intros; lra. rewrite sm_delta by auto. auto. Qed.

Theorem C129_v_dot_grad_vw_matrix : forall nq dim nev nes vvg svg coef grad junk c e e', shape nq dim nev vvg -> shape nq dim nes svg -> cshape nq dim coef ->
  c < dim -> e < nev -> e' < nes ->
  at_ (dw_v_dot_grad_s_vw (emp 1 (dim * nev) nes junk) coef grad vvg svg true) 0 (c * nev + e) e'
  = dot_form nq (scal (det vvg)) dim (coefm coef) (VV vvg nev (unit_ c e)) (G1 svg nes (unit_ 0 e')).
Proof.
  intros nq dim nev nes vvg svg coef grad junk c e e' Hv Hs Hc C E E'.
  assert (c * nev + e < dim * nev) by (pose proof (@idx_lt _ _ _ _ C E); lia).
  shp. unfold dw_v_dot_grad_s_vw. cbv zeta. rewrite sumLevelsMulF_at; sz; [|destruct (_ =? _); sz].
  match goal with |- sm (nLev (if ?b then ?x else ?y)) _ = _ => assert (L : nLev (if b then x else y) = nq) by (destruct b; sz); rewrite L end.
  unfold dot_form. apply sm_ext; intros q Q. rewrite !s11 by auto. rewrite Rmult_comm. f_equal.
  unfold VV. rewrite dot_unit_l by auto. unfold G1. rewrite dot_unit_g by auto. unfold coefm. destruct Hc as [Hc | [Hc N]]; shp.
  - rr. cbn [Nat.eqb]. rewrite mul_at; sz. rewrite scal_delta by auto. rewrite s11 by auto.
    match goal with |- context [bf_actt ?a ?b ?c1] => pose proof (@bf_actt_at a b c1 q c e e') as P end.
    rrin P. rewrite P; auto; try lia; clear P. unfold PHI, DPHI. lra.
  - rr. destruct (Nat.eqb_spec dim 1); [lia|].
    match goal with |- context [bf_actt ?a ?b ?c1] => pose proof (@bf_actt_at a b c1 q c e e') as P end.
    rrin P. rewrite P; auto; try lia; clear P. unfold PHI, DPHI. f_equal. rewrite mulAB_nn_at; sz.
Qed.
Theorem C129_v_dot_grad_vw_residual : forall nq dim nev nes vvg svg coef st conn junk j1 c e, shape nq dim nev vvg -> shape nq dim nes svg -> cshape nq dim coef ->
  c < dim -> e < nev ->
  at_ (dw_v_dot_grad_s_vw (emp 1 (dim * nev) 1 junk) coef (ev_grad 1 j1 st svg conn) vvg svg false) 0 (c * nev + e) 0
  = dot_form nq (scal (det vvg)) dim (coefm coef) (VV vvg nev (unit_ c e)) (G1 svg nes (sub 1 st conn)).
Proof.
  intros nq dim nev nes vvg svg coef st conn junk j1 c e Hv Hs Hc C E.
  assert (c * nev + e < dim * nev) by (pose proof (@idx_lt _ _ _ _ C E); lia).
  destruct (grad_shape 1 j1 st svg conn) as (T1 & T2 & T3).
  shp. unfold dw_v_dot_grad_s_vw. cbv zeta. rewrite sumLevelsMulF_at; sz; [|destruct (_ =? _); sz].
  match goal with |- sm (nLev (if ?b then ?x else ?y)) _ = _ => assert (L : nLev (if b then x else y) = nq) by (destruct b; sz); rewrite L end.
  unfold dot_form. apply sm_ext; intros q Q. rewrite !s11 by auto. rewrite Rmult_comm. f_equal.
  unfold VV. rewrite dot_unit_l by auto. unfold G1. unfold coefm. destruct Hc as [Hc | [Hc N]]; shp.
  - rr. cbn [Nat.eqb]. rewrite mul_at; sz. rewrite scal_delta by auto. rewrite s11 by auto.
    match goal with |- context [bf_actt_c1 ?a ?b ?c1] => pose proof (@bf_actt_c1_at a b c1 q c e) as P end.
    rrin P. rewrite P; auto; try lia; clear P. rewrite ev_grad_at; sz. unfold PHI. lra.
  - rr. destruct (Nat.eqb_spec dim 1); [lia|].
    match goal with |- context [bf_actt ?a ?b ?c1] => pose proof (@bf_actt_at a b c1 q c e 0) as P end.
    rrin P. rewrite P; auto; try lia; clear P. unfold PHI. f_equal. rewrite mulAB_nn_at; sz. apply sm_ext; intros. rewrite ev_grad_at; sz.
Qed.
Theorem C129_v_dot_grad_sw_matrix : forall nq dim nev nes vvg svg coef vq junk e c e', shape nq dim nev vvg -> shape nq dim nes svg -> cshape nq dim coef ->
  e < nes -> c < dim -> e' < nev ->
  at_ (dw_v_dot_grad_s_sw (emp 1 nes (dim * nev) junk) coef vq vvg svg true) 0 e (c * nev + e')
  = dot_form nq (scal (det vvg)) dim (coefm coef) (VV vvg nev (unit_ c e')) (G1 svg nes (unit_ 0 e)).
Proof.
  intros nq dim nev nes vvg svg coef vq junk e c e' Hv Hs Hc E C E'.
  assert (c * nev + e' < dim * nev) by (pose proof (@idx_lt _ _ _ _ C E'); lia).
  shp. unfold dw_v_dot_grad_s_sw. cbv zeta. rewrite sumLevelsMulF_at; sz; [|destruct (_ =? _); sz].
  match goal with |- sm (nLev (if ?b then ?x else ?y)) _ = _ => assert (L : nLev (if b then x else y) = nq) by (destruct b; sz); rewrite L end.
  unfold dot_form. apply sm_ext; intros q Q. rewrite !s11 by auto. rewrite Rmult_comm. f_equal.
  unfold VV. rewrite dot_unit_l by auto. unfold G1. rewrite dot_unit_g by auto. unfold coefm. destruct Hc as [Hc | [Hc N]]; shp.
  - rr. cbn [Nat.eqb]. rewrite mul_at; sz. rewrite scal_delta by auto. rewrite s11 by auto.
    match goal with |- context [bf_ract ?a ?b ?c1] => pose proof (@bf_ract_at a b c1 q e c e') as P end.
    rrin P. rewrite P; auto; try lia; clear P. rewrite mulATC_at; sz. unfold PHI, DPHI. lra.
  - rr. destruct (Nat.eqb_spec dim 1); [lia|]. rewrite mulATB_nn_at; sz. rewrite <- sm_scal. apply sm_ext; intros d D.
    match goal with |- context [bf_ract ?a ?b ?c1] => pose proof (@bf_ract_at a b c1 q d c e') as P end.
    rrin P. rewrite P; auto; try lia; clear P. rewrite mulATC_at; sz. unfold PHI, DPHI. lra.
Qed.
Theorem C129_v_dot_grad_sw_residual : forall nq dim nev nes vvg svg coef st conn junk j1 e, shape nq dim nev vvg -> shape nq dim nes svg -> cshape nq dim coef ->
  e < nes ->
  at_ (dw_v_dot_grad_s_sw (emp 1 nes 1 junk) coef (ev_val dim j1 st (bf vvg) conn) vvg svg false) 0 e 0
  = dot_form nq (scal (det vvg)) dim (coefm coef) (VV vvg nev (sub dim st conn)) (G1 svg nes (unit_ 0 e)).
Proof.
  intros nq dim nev nes vvg svg coef st conn junk j1 e Hv Hs Hc E.
  destruct (val_shape dim j1 st (bf vvg) conn) as (V1 & V2 & V3).
  shp. unfold dw_v_dot_grad_s_sw. cbv zeta. rewrite sumLevelsMulF_at; sz; [|destruct (_ =? _); sz].
  match goal with |- sm (nLev (if ?b then ?x else ?y)) _ = _ => assert (L : nLev (if b then x else y) = nq) by (destruct b; sz); rewrite L end.
  unfold dot_form. apply sm_ext; intros q Q. rewrite !s11 by auto. rewrite Rmult_comm. f_equal.
  unfold G1. unfold coefm. destruct Hc as [Hc | [Hc N]]; shp.
  - rr. cbn [Nat.eqb]. rewrite mul_at; sz. rewrite s11 by auto. rewrite mulATB_nn_at; sz. rewrite <- sm_scalr. apply sm_ext; intros i I.
    transitivity (sm dim (fun j => (scal coef q * delta i j) * (VV vvg nev (sub dim st conn) q i * fgrad (DPHI (bfGM svg)) nes (unit_ 0 e) q 0 j))%R).
    2: apply sm_ext; intros; lra. rewrite scal_delta by auto. rewrite fgrad_unit by auto. rewrite ev_val_at; sz. cbn [Nat.eqb]. unfold VV, DPHI. rr. lra.
  - rr. destruct (Nat.eqb_spec dim 1); [lia|]. rewrite mulATB_nn_at; sz. rewrite sm_swap. apply sm_ext; intros j J.
    rewrite mulATB_nn_at; sz. rewrite <- sm_scal. apply sm_ext; intros i I. rewrite fgrad_unit by auto. rewrite ev_val_at; sz. cbn [Nat.eqb]. unfold VV, DPHI. rr. lra.
Qed.
(** The evaluation mode passes (C, grad p, v) to the dot product: int grad p . (C v). *)
Theorem v_dot_grad_eval_as_coded : forall nq dim nev nes vvg svg coef stv stp connv connp j1 j2, shape nq dim nev vvg -> shape nq dim nes svg -> cshape nq dim coef -> 0 < dim ->
  d_dot coef (ev_grad 1 j1 stp svg connp) (ev_val dim j2 stv (bf vvg) connv) vvg
  = dot_form nq (scal (det vvg)) dim (fun q i j => coefm coef q j i) (VV vvg nev (sub dim stv connv)) (G1 svg nes (sub 1 stp connp)).
Proof.
  intros nq dim nev nes vvg svg coef stv stp connv connp j1 j2 Hv Hs Hc Pd. unfold d_dot, py_integrate, dot_form.
  destruct (val_shape dim j2 stv (bf vvg) connv) as (V1 & V2 & V3).
  destruct (grad_shape 1 j1 stp svg connp) as (T1 & T2 & T3). shp.
  rewrite T1. rr. apply sm_ext; intros q Q. rewrite s11 by auto. rewrite Rmult_comm. f_equal. unfold coefm.
  destruct Hc as [Hc|[Hc N]]; shp.
  - rr. cbn [Nat.eqb].
    transitivity (scal coef q * sm dim (fun i => VV vvg nev (sub dim stv connv) q i * G1 svg nes (sub 1 stp connp) q i))%R.
    + destruct (Nat.ltb_spec 1 dim); rewrite s11 by auto.
      * unfold np_ATB. rewrite mulATB_nn_at; sz. f_equal. apply sm_ext; intros. rewrite ev_val_at, ev_grad_at; sz. unfold VV, G1. rr. lra.
      * assert (X : dim = 1) by lia. rewrite X in *. rewrite sm1. rewrite ev_val_at, ev_grad_at; sz. unfold VV, G1. rr. lra.
    + rewrite <- sm_scal. apply sm_ext; intros i I.
      transitivity (sm dim (fun j => (scal coef q * delta i j) * (VV vvg nev (sub dim stv connv) q i * G1 svg nes (sub 1 stp connp) q j))%R).
      rewrite scal_delta by auto. auto. apply sm_ext; intros. unfold delta. rewrite (Nat.eqb_sym i k). lra.
  - rr. destruct (Nat.eqb_spec dim 1); [lia|]. unfold np_ATB, np_AB. rewrite mulATB_nn_at; sz. rewrite sm_swap. apply sm_ext; intros j J.
    rewrite mulAB_nn_at; sz. rewrite <- sm_scal. apply sm_ext; intros i I. rewrite ev_val_at, ev_grad_at; sz. unfold VV, G1. rr. lra.
Qed.
