(** Consistency of residual, matrix and evaluation, continued. *)
From Coq Require Import Reals Lra Lia Arith.
From Verif Require Import Base M_fmf M_terms L_fmf S_terms L_terms L_terms2 P_terms P_terms2 P_terms3 P_terms4 P_terms5 P_termsc.
Open Scope nat_scope.

(** ** Dot products *)
Theorem C125_dot_scalar_consistent : forall nq dim ner nec rvg cvg coef stu stv connu connv vq j1 j2 j3 j4 j5, shape nq dim ner rvg -> shape nq dim nec cvg -> mshape nq 1 1 coef ->
  let A := fun i j => at_ (dw_volume_dot_scalar (emp 1 ner nec j1) coef vq rvg cvg true) 0 i j in
  let r := fun i => at_ (dw_volume_dot_scalar (emp 1 ner 1 j2) coef (ev_val 1 j3 stu (bf cvg) connu) rvg cvg false) 0 i 0 in
  let E := d_dot coef (ev_val 1 j4 stv (bf rvg) connv) (ev_val 1 j5 stu (bf cvg) connu) rvg in
  (forall e, e < ner -> matvec 1 nec A (sub 1 stu connu) e = r e) /\ vecdot 1 ner (sub 1 stv connv) r = E.
Proof.
  intros nq dim ner nec rvg cvg coef stu stv connu connv vq j1 j2 j3 j4 j5 Hr Hc Hm A r E. split; [intros e He|]; unfold A, r, E.
  - rewrite (@C125_dot_scalar_residual nq dim ner nec) by auto.
    apply by_matvec with (F := fun u => dot_form nq (scal (det rvg)) 1 (coefm coef) (VV rvg ner (unit_ 0 e)) (VV cvg nec u)).
    + unfold dot_form, VV. slin.
    + intros c e' C He'. c0 c. apply (@C125_dot_scalar_matrix nq dim); auto.
  - rewrite (@C125_dot_eval nq dim ner nec) by auto.
    apply by_vecdot with (F := fun v => dot_form nq (scal (det rvg)) 1 (coefm coef) (VV rvg ner v) (VV cvg nec (sub 1 stu connu))).
    + unfold dot_form, VV. slin.
    + intros c e' C He'. c0 c. apply (@C125_dot_scalar_residual nq dim); auto.
Qed.
Theorem C125_dot_vector_consistent : forall nq dim ner nec rvg cvg coef stu stv connu connv vq j1 j2 j3 j4 j5, shape nq dim ner rvg -> shape nq dim nec cvg -> cshape nq dim coef -> dim_ok dim ->
  let A := fun i j => at_ (dw_volume_dot_vector (emp 1 (dim * ner) (dim * nec) j1) coef vq rvg cvg dim true) 0 i j in
  let r := fun i => at_ (dw_volume_dot_vector (emp 1 (dim * ner) 1 j2) coef (ev_val dim j3 stu (bf cvg) connu) rvg cvg dim false) 0 i 0 in
  let E := d_dot coef (ev_val dim j4 stv (bf rvg) connv) (ev_val dim j5 stu (bf cvg) connu) rvg in
  (forall c e, c < dim -> e < ner -> matvec dim nec A (sub dim stu connu) (c * ner + e) = r (c * ner + e)) /\ vecdot dim ner (sub dim stv connv) r = E.
Proof.
  intros nq dim ner nec rvg cvg coef stu stv connu connv vq j1 j2 j3 j4 j5 Hr Hc Hm K A r E. split; [intros c e C He|]; unfold A, r, E.
  - rewrite (@C125_dot_vector_residual nq dim ner nec) by auto.
    apply by_matvec with (F := fun u => dot_form nq (scal (det rvg)) dim (coefm coef) (VV rvg ner (unit_ c e)) (VV cvg nec u)).
    + unfold dot_form, VV. slin.
    + intros c' e' C' He'. apply (@C125_dot_vector_matrix nq dim); auto.
  - rewrite (@C125_dot_eval nq dim ner nec); auto.
    2: { destruct Hm as [Hm | Hm]; [left|right; auto]. split; auto. destruct K; lia. }
    apply by_vecdot with (F := fun v => dot_form nq (scal (det rvg)) dim (coefm coef) (VV rvg ner v) (VV cvg nec (sub dim stu connu))).
    + unfold dot_form, VV. slin.
    + intros c' e' C' He'. apply (@C125_dot_vector_residual nq dim); auto.
Qed.
(** The entries of the mass matrix of a cell add up to the integral of the coefficient. *)
Theorem C125_total_mass : forall nq dim ne vg coef vq j1, shape nq dim ne vg -> mshape nq 1 1 coef ->
  (forall q, q < nq -> sm ne (fun e => PHI (bf vg) q e) = 1%R) ->
  sm ne (fun e => sm ne (fun e' => at_ (dw_volume_dot_scalar (emp 1 ne ne j1) coef vq vg vg true) 0 e e')) = sm nq (fun q => scal (det vg) q * scal coef q)%R.
Proof.
  intros nq dim ne vg coef vq j1 Hs Hm P1.
  transitivity (sm ne (fun e => sm ne (fun e' => sm nq (fun q => scal (det vg) q * scal coef q * PHI (bf vg) q e * PHI (bf vg) q e')%R))).
  { apply sm_ext; intros e E. apply sm_ext; intros e' E'. rewrite (@C125_dot_scalar_matrix nq dim ne ne) by auto. unfold dot_form. apply sm_ext; intros q Q.
    rewrite !sm1. unfold VV. rewrite !fval_unit by auto. unfold coefm. shp. rr. cbn. unfold delta. cbn. lra. }
  transitivity (sm nq (fun q => sm ne (fun e => sm ne (fun e' => scal (det vg) q * scal coef q * PHI (bf vg) q e * PHI (bf vg) q e')%R))).
  { rewrite sm_swap. transitivity (sm ne (fun e => sm nq (fun q => sm ne (fun e' => scal (det vg) q * scal coef q * PHI (bf vg) q e * PHI (bf vg) q e')%R))).
    { rewrite sm_swap. apply sm_ext; intros. rewrite sm_swap. auto. }
    apply sm_swap. }
  apply sm_ext; intros q Q. transitivity (sm ne (fun e => scal (det vg) q * scal coef q * PHI (bf vg) q e)%R).
  { apply sm_ext; intros. rewrite sm_scal, P1 by auto. lra. } rewrite sm_scal, P1 by auto. lra.
Qed.

(** ** div_grad *)
Theorem C126_divgrad_consistent_partial : forall nq dim ne vgv vgs nu stu stv connu connv g j1 j2 j3 j4 j5, shape nq dim ne vgv -> shape nq dim ne vgs -> dim_ok dim -> mshape nq 1 1 nu ->
  let A := fun i j => at_ (dw_div_grad (emp 1 (dim * ne) (dim * ne) j1) g nu vgv vgs true) 0 i j in
  let r := fun i => at_ (dw_div_grad (emp 1 (dim * ne) 1 j2) (flat_DD (np_transpose (ev_grad dim j3 stu vgs connu))) nu vgv vgs false) 0 i 0 in
  let E := d_div_grad (ev_grad dim j4 stv vgv connv) (ev_grad dim j5 stu vgs connu) nu vgv in
  (forall c e, c < dim -> e < ne -> matvec dim ne A (sub dim stu connu) (c * ne + e) = r (c * ne + e)) /\ vecdot dim ne (sub dim stv connv) r = E.
Proof.
  intros nq dim ne vgv vgs nu stu stv connu connv g j1 j2 j3 j4 j5 Hv Hs K Hm A r E. split; [intros c e C He|]; unfold A, r, E.
  - rewrite (@C126_divgrad_residual nq dim ne ne) by auto.
    apply by_matvec with (F := fun u => divgrad_form nq (scal (det vgv)) dim (scal nu) (GG vgv ne (unit_ c e)) (GG vgs ne u)).
    + unfold divgrad_form, GG. slin.
    + intros c' e' C' He'. apply C126_divgrad_matrix_partial; auto.
  - rewrite (@C126_divgrad_eval nq dim ne ne) by auto.
    apply by_vecdot with (F := fun v => divgrad_form nq (scal (det vgv)) dim (scal nu) (GG vgv ne v) (GG vgs ne (sub dim stu connu))).
    + unfold divgrad_form, GG. slin.
    + intros c' e' C' He'. apply C126_divgrad_residual; auto.
Qed.

(** ** Stokes and Biot couplings *)
Theorem C127_stokes_consistent : forall nq dim nes nev svg vvg coef stp stu connp connu x y j1 j2 j3 j4 j5 j6 j7 j8, shape nq dim nes svg -> shape nq dim nev vvg -> 0 < nev -> mshape nq 1 1 coef ->
  let B := fun i j => at_ (dw_div (emp 1 nes (dim * nev) j1) coef x svg vvg true) 0 i j in
  let rB := fun i => at_ (dw_div (emp 1 nes 1 j2) coef (ev_div j3 stu vvg connu) svg vvg false) 0 i 0 in
  let G := fun i j => at_ (dw_grad (emp 1 (dim * nev) nes j4) coef y svg vvg true) 0 i j in
  let rG := fun i => at_ (dw_grad (emp 1 (dim * nev) 1 j5) coef (ev_val 1 j6 stp (bf svg) connp) svg vvg false) 0 i 0 in
  let E := d_stokes coef (ev_val 1 j7 stp (bf svg) connp) (ev_div j8 stu vvg connu) vvg in
  (forall e, e < nes -> matvec dim nev B (sub dim stu connu) e = rB e) /\
  (forall c e, c < dim -> e < nev -> matvec 1 nes G (sub 1 stp connp) (c * nev + e) = rG (c * nev + e)) /\
  (forall e c e', e < nes -> c < dim -> e' < nev -> B e (c * nev + e') = G (c * nev + e') e) /\
  vecdot 1 nes (sub 1 stp connp) rB = E /\ vecdot dim nev (sub dim stu connu) rG = E.
Proof.
  intros nq dim nes nev svg vvg coef stp stu connp connu x y j1 j2 j3 j4 j5 j6 j7 j8 Hs Hv Nz Hm B rB G rG E. unfold B, rB, G, rG, E.
  split; [|split; [|split; [|split]]].
  - intros e He. rewrite (@C127_stokes_div_residual nq dim nes nev) by auto.
    apply by_matvec with (F := fun u => stokes_form nq (scal (det vvg)) (scal coef) (DV vvg nev dim u) (fun q => VV svg nes (unit_ 0 e) q 0)).
    unfold stokes_form, DV. slin. intros. apply C127_stokes_div_matrix; auto.
  - intros c e C He. rewrite (@C127_stokes_grad_residual nq dim nes nev) by auto.
    apply by_matvec with (F := fun p => stokes_form nq (scal (det vvg)) (scal coef) (DV vvg nev dim (unit_ c e)) (fun q => VV svg nes p q 0)).
    unfold stokes_form, VV. slin. intros c' e' C' E'. c0 c'. apply C127_stokes_grad_matrix; auto.
  - intros. rewrite (@C127_stokes_grad_matrix nq dim nes nev), (@C127_stokes_div_matrix nq dim nes nev) by auto. auto.
  - rewrite (@C127_stokes_eval nq dim nes nev) by auto.
    apply by_vecdot with (F := fun p => stokes_form nq (scal (det vvg)) (scal coef) (DV vvg nev dim (sub dim stu connu)) (fun q => VV svg nes p q 0)).
    unfold stokes_form, VV. slin. intros c' e' C' E'. c0 c'. apply C127_stokes_div_residual; auto.
  - rewrite (@C127_stokes_eval nq dim nes nev) by auto.
    apply by_vecdot with (F := fun u => stokes_form nq (scal (det vvg)) (scal coef) (DV vvg nev dim u) (fun q => VV svg nes (sub 1 stp connp) q 0)).
    unfold stokes_form, DV. slin. intros. apply C127_stokes_grad_residual; auto.
Qed.
Theorem C127_biot_consistent : forall nq dim nes nev svg vvg a m stp stu connp connu x y j1 j2 j3 j4 j5 j6 j7 j8 j9, shape nq dim nes svg -> shape nq dim nev vvg -> dim_ok dim -> bshape nq dim m ->
  let B := fun i j => at_ (dw_biot_div (emp 1 nes (dim * nev) j1) a x (biot_mat m) svg vvg true) 0 i j in
  let rB := fun i => at_ (dw_biot_div (emp 1 nes 1 j2) a (biot_strain m dim j3 stu vvg connu) (biot_mat m) svg vvg false) 0 i 0 in
  let G := fun i j => at_ (dw_biot_grad (emp 1 (dim * nev) nes j4) a y (biot_mat m) svg vvg true) 0 i j in
  let rG := fun i => at_ (dw_biot_grad (emp 1 (dim * nev) 1 j5) a (ev_val 1 j6 stp (bf svg) connp) (biot_mat m) svg vvg false) 0 i 0 in
  let E := at_ (d_biot_div (emp 1 1 1 j9) a (ev_val 1 j7 stp (bf svg) connp) (biot_strain m dim j8 stu vvg connu) (biot_mat m) vvg) 0 0 0 in
  (forall e, e < nes -> matvec dim nev B (sub dim stu connu) e = rB e) /\
  (forall c e, c < dim -> e < nev -> matvec 1 nes G (sub 1 stp connp) (c * nev + e) = rG (c * nev + e)) /\
  (forall e c e', e < nes -> c < dim -> e' < nev -> B e (c * nev + e') = G (c * nev + e') e) /\
  vecdot 1 nes (sub 1 stp connp) rB = E /\ vecdot dim nev (sub dim stu connu) rG = E.
Proof.
  intros nq dim nes nev svg vvg a m stp stu connp connu x y j1 j2 j3 j4 j5 j6 j7 j8 j9 Hs Hv K Hm B rB G rG E. unfold B, rB, G, rG, E.
  split; [|split; [|split; [|split]]].
  - intros e He. rewrite (@C127_biot_div_residual nq dim nes nev) by auto.
    apply by_matvec with (F := fun u => (a * biot_form nq (scal (det vvg)) dim (biot_al dim m) (GG vvg nev u) (fun q => VV svg nes (unit_ 0 e) q 0))%R).
    unfold biot_form, GG. slin. intros. apply C127_biot_div_matrix; auto.
  - intros c e C He. rewrite (@C127_biot_grad_residual nq dim nes nev) by auto.
    apply by_matvec with (F := fun p => (a * biot_form nq (scal (det vvg)) dim (biot_al dim m) (GG vvg nev (unit_ c e)) (fun q => VV svg nes p q 0))%R).
    unfold biot_form, VV. slin. intros c' e' C' E'. c0 c'. apply C127_biot_grad_matrix; auto.
  - intros. rewrite (@C127_biot_grad_matrix nq dim nes nev), (@C127_biot_div_matrix nq dim nes nev) by auto. auto.
  - rewrite (@C127_biot_eval nq dim nes nev) by auto.
    apply by_vecdot with (F := fun p => (a * biot_form nq (scal (det vvg)) dim (biot_al dim m) (GG vvg nev (sub dim stu connu)) (fun q => VV svg nes p q 0))%R).
    unfold biot_form, VV. slin. intros c' e' C' E'. c0 c'. apply C127_biot_div_residual; auto.
  - rewrite (@C127_biot_eval nq dim nes nev) by auto.
    apply by_vecdot with (F := fun u => (a * biot_form nq (scal (det vvg)) dim (biot_al dim m) (GG vvg nev u) (fun q => VV svg nes (sub 1 stp connp) q 0))%R).
    unfold biot_form, GG. slin. intros. apply C127_biot_grad_residual; auto.
Qed.

(** ** Convection *)
Theorem C128_lin_convect_consistent : forall nq dim ne vg new wvg stu connu stw connw g j1 j2 j3 j4 j5 c e, shape nq dim ne vg -> shape nq dim new wvg -> dim_ok dim -> c < dim -> e < ne ->
  matvec dim ne (fun i j => at_ (dw_lin_convect (emp 1 (dim * ne) (dim * ne) j1) g (ev_val dim j2 stw (bf wvg) connw) vg true) 0 i j) (sub dim stu connu) (c * ne + e)
  = at_ (dw_lin_convect (emp 1 (dim * ne) 1 j3) (np_transpose (ev_grad dim j4 stu vg connu)) (ev_val dim j5 stw (bf wvg) connw) vg false) 0 (c * ne + e) 0.
Proof.
  intros. rewrite (@C128_lin_convect_residual nq dim ne vg new wvg) by auto.
  apply by_matvec with (F := fun u => convect_form nq (scal (det vg)) dim (VV wvg new (sub dim stw connw)) (VV vg ne (unit_ c e)) (GG vg ne u)).
  unfold convect_form, GG. slin. intros. apply C128_lin_convect_matrix; auto.
Qed.
(** The matrix of the nonlinear term is its exact derivative: the remainder of the first
    order expansion is the (quadratic) term itself at the increment. *)
Theorem C128_convect_derivative : forall nq dim ne vg conn (st h : nat -> R) j1 j2 j3 j4 j5 c e, shape nq dim ne vg -> dim_ok dim -> c < dim -> e < ne ->
  let r := fun s => at_ (dw_convect (emp 1 (dim * ne) 1 j1) (np_transpose (ev_grad dim j2 s vg conn)) (ev_val dim j3 s (bf vg) conn) vg false) 0 (c * ne + e) 0 in
  let A := fun i j => at_ (dw_convect (emp 1 (dim * ne) (dim * ne) j4) (np_transpose (ev_grad dim j5 st vg conn)) (ev_val dim j3 st (bf vg) conn) vg true) 0 i j in
  r (fun k => st k + h k)%R = (r st + matvec dim ne A (sub dim h conn) (c * ne + e) + r h)%R.
Proof.
  intros nq dim ne vg conn st h j1 j2 j3 j4 j5 c e Hs K C E r A. unfold r, A.
  set (cf := fun b u => convect_form nq (scal (det vg)) dim (VV vg ne b) (VV vg ne (unit_ c e)) (GG vg ne u)).
  assert (Lb : forall u, lin dim ne (fun b => cf b u)). { intros. unfold cf, convect_form, VV. slin. }
  assert (Lu : forall b, lin dim ne (fun u => cf b u)). { intros. unfold cf, convect_form, GG. slin. }
  rewrite !(@C128_convect_residual nq dim ne) by auto.
  rewrite (@by_matvec dim ne (fun x => cf x (sub dim st conn) + cf (sub dim st conn) x)%R).
  - change (cf (sub dim (fun k => st k + h k)%R conn) (sub dim (fun k => st k + h k)%R conn) = (cf (sub dim st conn) (sub dim st conn) + (cf (sub dim h conn) (sub dim st conn) + cf (sub dim st conn) (sub dim h conn)) + cf (sub dim h conn) (sub dim h conn))%R).
    assert (S1 : forall F, lin dim ne F -> F (sub dim (fun k => st k + h k)%R conn) = (F (sub dim st conn) + F (sub dim h conn))%R).
    { intros F (X & Y & _). rewrite <- Y. apply X. intros. reflexivity. }
    rewrite (S1 _ (Lb _)). rewrite (S1 _ (Lu (sub dim st conn))), (S1 _ (Lu (sub dim h conn))). lra.
  - apply lin_plus; auto.
  - intros. rewrite (@C128_convect_matrix nq dim ne) by auto. auto.
Qed.

(** ** v . (C grad p) *)
Theorem C129_v_dot_grad_consistent_partial : forall nq dim nev nes vvg svg coef stv stp connv connp x y j1 j2 j3 j4 j5 j6, shape nq dim nev vvg -> shape nq dim nes svg -> cshape nq dim coef -> 0 < dim ->
  let A := fun i j => at_ (dw_v_dot_grad_s_vw (emp 1 (dim * nev) nes j1) coef x vvg svg true) 0 i j in
  let rA := fun i => at_ (dw_v_dot_grad_s_vw (emp 1 (dim * nev) 1 j2) coef (ev_grad 1 j3 stp svg connp) vvg svg false) 0 i 0 in
  let B := fun i j => at_ (dw_v_dot_grad_s_sw (emp 1 nes (dim * nev) j4) coef y vvg svg true) 0 i j in
  let rB := fun i => at_ (dw_v_dot_grad_s_sw (emp 1 nes 1 j5) coef (ev_val dim j6 stv (bf vvg) connv) vvg svg false) 0 i 0 in
  (forall c e, c < dim -> e < nev -> matvec 1 nes A (sub 1 stp connp) (c * nev + e) = rA (c * nev + e)) /\
  (forall e, e < nes -> matvec dim nev B (sub dim stv connv) e = rB e) /\
  (forall c e e', c < dim -> e < nev -> e' < nes -> A (c * nev + e) e' = B e' (c * nev + e)) /\
  vecdot dim nev (sub dim stv connv) rA = vecdot 1 nes (sub 1 stp connp) rB.
Proof.
  intros nq dim nev nes vvg svg coef stv stp connv connp x y j1 j2 j3 j4 j5 j6 Hv Hs Hc Pd A rA B rB. unfold A, rA, B, rB.
  split; [|split; [|split]].
  - intros c e C He. rewrite (@C129_v_dot_grad_vw_residual nq dim nev nes) by auto.
    apply by_matvec with (F := fun p => dot_form nq (scal (det vvg)) dim (coefm coef) (VV vvg nev (unit_ c e)) (G1 svg nes p)).
    unfold dot_form, G1. slin. intros c' e' C' E'. c0 c'. apply C129_v_dot_grad_vw_matrix; auto.
  - intros e He. rewrite (@C129_v_dot_grad_sw_residual nq dim nev nes) by auto.
    apply by_matvec with (F := fun v => dot_form nq (scal (det vvg)) dim (coefm coef) (VV vvg nev v) (G1 svg nes (unit_ 0 e))).
    unfold dot_form, VV. slin. intros. apply C129_v_dot_grad_sw_matrix; auto.
  - intros. rewrite (@C129_v_dot_grad_vw_matrix nq dim nev nes), (@C129_v_dot_grad_sw_matrix nq dim nev nes) by auto. auto.
  - transitivity (dot_form nq (scal (det vvg)) dim (coefm coef) (VV vvg nev (sub dim stv connv)) (G1 svg nes (sub 1 stp connp))).
    + apply by_vecdot with (F := fun v => dot_form nq (scal (det vvg)) dim (coefm coef) (VV vvg nev v) (G1 svg nes (sub 1 stp connp))).
      unfold dot_form, VV. slin. intros. apply C129_v_dot_grad_vw_residual; auto.
    + symmetry. apply by_vecdot with (F := fun p => dot_form nq (scal (det vvg)) dim (coefm coef) (VV vvg nev (sub dim stv connv)) (G1 svg nes p)).
      unfold dot_form, G1. slin. intros c' e' C' E'. c0 c'. apply C129_v_dot_grad_sw_residual; auto.
Qed.
(** The evaluation agrees with the weak modes when C is symmetric ... *)
Theorem C129_v_dot_grad_eval_partial : forall nq dim nev nes vvg svg coef stv stp connv connp j1 j2 j3 j4, shape nq dim nev vvg -> shape nq dim nes svg -> cshape nq dim coef -> 0 < dim ->
  (forall q i j, q < nq -> i < dim -> j < dim -> nCol coef <> 1 -> at_ coef q i j = at_ coef q j i) ->
  d_dot coef (ev_grad 1 j1 stp svg connp) (ev_val dim j2 stv (bf vvg) connv) vvg
  = vecdot dim nev (sub dim stv connv) (fun i => at_ (dw_v_dot_grad_s_vw (emp 1 (dim * nev) 1 j3) coef (ev_grad 1 j4 stp svg connp) vvg svg false) 0 i 0).
Proof.
  intros nq dim nev nes vvg svg coef stv stp connv connp j1 j2 j3 j4 Hv Hs Hc Pd Sy.
  rewrite (@v_dot_grad_eval_as_coded nq dim nev nes) by auto. symmetry.
  transitivity (dot_form nq (scal (det vvg)) dim (coefm coef) (VV vvg nev (sub dim stv connv)) (G1 svg nes (sub 1 stp connp))).
  - apply by_vecdot with (F := fun v => dot_form nq (scal (det vvg)) dim (coefm coef) (VV vvg nev v) (G1 svg nes (sub 1 stp connp))).
    unfold dot_form, VV. slin. intros. apply C129_v_dot_grad_vw_residual; auto.
  - unfold dot_form. apply sm_ext; intros. f_equal. apply sm_ext; intros i I. apply sm_ext; intros j J. f_equal. f_equal. unfold coefm. destruct (Nat.eqb_spec (nCol coef) 1); auto.
    unfold delta. rewrite (Nat.eqb_sym i j). auto.
Qed.
