(** Surface coupling int c (v . n) p of the dot product term. *)
From Coq Require Import Reals Lra Lia Arith.
From Verif Require Import Base M_fmf M_terms L_fmf S_terms L_terms L_terms2 P_terms P_terms2 P_terms3 P_terms4 P_terms5 P_termsc.
Open Scope nat_scope.

Definition sshape (nq dim ne : nat) (sg : Geo) : Prop :=
  nLev (bf sg) = nq /\ nRow (bf sg) = 1 /\ nCol (bf sg) = ne /\ nLev (normal sg) = nq /\ nRow (normal sg) = dim /\ nCol (normal sg) = 1 /\
  nLev (det sg) = nq /\ nRow (det sg) = 1 /\ nCol (det sg) = 1.
Definition NRM (sg : Geo) (q i : nat) : R := at_ (normal sg) q i 0.
Ltac shs := repeat match goal with H : sshape _ _ _ _ |- _ => destruct H as (? & ? & ? & ? & ? & ? & ? & ? & ?) end; shp.

Theorem C125_vns_matrix : forall nq dim nev nes rsg csg coef vq junk c e e', sshape nq dim nev rsg -> sshape nq dim nes csg -> mshape nq 1 1 coef -> c < dim -> e < nev -> e' < nes ->
  at_ (dw_surface_v_dot_n_s (emp 1 (dim * nev) nes junk) coef vq rsg csg true) 0 (c * nev + e) e'
  = vn_form nq (scal (det rsg)) dim (scal coef) (NRM rsg) (VV rsg nev (unit_ c e)) (fun q => VV csg nes (unit_ 0 e') q 0).
Proof.
  intros nq dim nev nes rsg csg coef vq junk c e e' Hr Hs Hm C E E'.
  assert (c * nev + e < dim * nev) by (pose proof (@idx_lt _ _ _ _ C E); lia).
  shs. unfold dw_surface_v_dot_n_s. cbv zeta. rewrite sumLevelsMulF_at; sz. unfold vn_form. apply sm_ext; intros q Q.
  rewrite mul_at; sz. rewrite !s11 by auto. rewrite mulAB_nn_at; sz. rewrite sm1.
  match goal with |- context [bf_actt ?a ?b ?c1] => pose proof (@bf_actt_at a b c1 q c e 0) as P end.
  rrin P. rewrite P; auto; try lia; clear P. unfold VV. rewrite conv_unit_v by auto. rewrite fval_unit by auto. cbn [Nat.eqb]. unfold NRM, PHI. lra.
Qed.
Theorem C125_vns_residual : forall nq dim nev nes rsg csg coef st conn junk j1 c e, sshape nq dim nev rsg -> sshape nq dim nes csg -> mshape nq 1 1 coef -> c < dim -> e < nev ->
  at_ (dw_surface_v_dot_n_s (emp 1 (dim * nev) 1 junk) coef (ev_val 1 j1 st (bf csg) conn) rsg csg false) 0 (c * nev + e) 0
  = vn_form nq (scal (det rsg)) dim (scal coef) (NRM rsg) (VV rsg nev (unit_ c e)) (fun q => VV csg nes (sub 1 st conn) q 0).
Proof.
  intros nq dim nev nes rsg csg coef st conn junk j1 c e Hr Hs Hm C E.
  assert (c * nev + e < dim * nev) by (pose proof (@idx_lt _ _ _ _ C E); lia).
  shs. unfold dw_surface_v_dot_n_s. cbv zeta. rewrite sumLevelsMulF_at; sz. unfold vn_form. apply sm_ext; intros q Q.
  rewrite mul_at; sz. rewrite !s11 by auto. rewrite mulAB_nn_at; sz. rewrite sm1.
  match goal with |- context [bf_actt ?a ?b ?c1] => pose proof (@bf_actt_at a b c1 q c e 0) as P end.
  rrin P. rewrite P; auto; try lia; clear P. rewrite ev_val_at; sz. unfold VV. rewrite conv_unit_v by auto. unfold NRM, PHI. rr. lra.
Qed.
Theorem C125_svn_matrix : forall nq dim nes nev rsg csg coef vq junk e c e', sshape nq dim nes rsg -> sshape nq dim nev csg -> mshape nq 1 1 coef -> e < nes -> c < dim -> e' < nev ->
  at_ (dw_surface_s_v_dot_n (emp 1 nes (dim * nev) junk) coef vq rsg csg true) 0 e (c * nev + e')
  = vn_form nq (scal (det rsg)) dim (scal coef) (NRM rsg) (VV csg nev (unit_ c e')) (fun q => VV rsg nes (unit_ 0 e) q 0).
Proof.
  intros nq dim nes nev rsg csg coef vq junk e c e' Hr Hs Hm E C E'.
  assert (c * nev + e' < dim * nev) by (pose proof (@idx_lt _ _ _ _ C E'); lia).
  shs. unfold dw_surface_s_v_dot_n. cbv zeta. rewrite sumLevelsMulF_at; sz. unfold vn_form. apply sm_ext; intros q Q.
  rewrite mul_at; sz. rewrite !s11 by auto. rewrite mulATBT_nn_at; sz. rewrite sm1.
  match goal with |- context [bf_actt ?a ?b ?c1] => pose proof (@bf_actt_at a b c1 q c e' 0) as P end.
  rrin P. rewrite P; auto; try lia; clear P. unfold VV. rewrite conv_unit_v by auto. rewrite fval_unit by auto. cbn [Nat.eqb]. unfold NRM, PHI. lra.
Qed.
Theorem C125_svn_residual : forall nq dim nes nev rsg csg coef st conn junk j1 e, sshape nq dim nes rsg -> sshape nq dim nev csg -> mshape nq 1 1 coef -> e < nes ->
  at_ (dw_surface_s_v_dot_n (emp 1 nes 1 junk) coef (ev_val dim j1 st (bf csg) conn) rsg csg false) 0 e 0
  = vn_form nq (scal (det rsg)) dim (scal coef) (NRM rsg) (VV csg nev (sub dim st conn)) (fun q => VV rsg nes (unit_ 0 e) q 0).
Proof.
  intros nq dim nes nev rsg csg coef st conn junk j1 e Hr Hs Hm E.
  shs. unfold dw_surface_s_v_dot_n. cbv zeta. rewrite sumLevelsMulF_at; sz. unfold vn_form. apply sm_ext; intros q Q.
  rewrite mul_at; sz. rewrite !s11 by auto. rewrite mulATB_nn_at; sz. rewrite sm1. rewrite mulATB_nn_at; sz.
  unfold VV. rewrite fval_unit by auto. cbn [Nat.eqb].
  assert (X : sm dim (fun k => at_ (normal rsg) q k 0 * at_ (ev_val dim j1 st (bf csg) conn) q k 0)%R
              = sm dim (fun i => fval (PHI (bf csg)) nev (sub dim st conn) q i * NRM rsg q i)%R).
  { apply sm_ext; intros. rewrite ev_val_at; sz. unfold NRM. rr. lra. }
  rewrite X. unfold PHI at 2. lra.
Qed.
(** Over the same surface the two couplings are transposes and the matrices reproduce the residuals. *)
Theorem C125_surface_consistent : forall nq dim nev nes vsg ssg coef stu stp connu connp x y j1 j2 j3 j4 j5 j6,
  sshape nq dim nev vsg -> sshape nq dim nes ssg -> mshape nq 1 1 coef -> det vsg = det ssg -> normal vsg = normal ssg ->
  let A := fun i j => at_ (dw_surface_v_dot_n_s (emp 1 (dim * nev) nes j1) coef x vsg ssg true) 0 i j in
  let rA := fun i => at_ (dw_surface_v_dot_n_s (emp 1 (dim * nev) 1 j2) coef (ev_val 1 j3 stp (bf ssg) connp) vsg ssg false) 0 i 0 in
  let B := fun i j => at_ (dw_surface_s_v_dot_n (emp 1 nes (dim * nev) j4) coef y ssg vsg true) 0 i j in
  let rB := fun i => at_ (dw_surface_s_v_dot_n (emp 1 nes 1 j5) coef (ev_val dim j6 stu (bf vsg) connu) ssg vsg false) 0 i 0 in
  (forall c e, c < dim -> e < nev -> matvec 1 nes A (sub 1 stp connp) (c * nev + e) = rA (c * nev + e)) /\
  (forall e, e < nes -> matvec dim nev B (sub dim stu connu) e = rB e) /\
  (forall c e e', c < dim -> e < nev -> e' < nes -> A (c * nev + e) e' = B e' (c * nev + e)) /\
  vecdot dim nev (sub dim stu connu) rA = vecdot 1 nes (sub 1 stp connp) rB.
Proof.
  intros nq dim nev nes vsg ssg coef stu stp connu connp x y j1 j2 j3 j4 j5 j6 Hv Hs Hm Ed En A rA B rB. unfold A, rA, B, rB.
  split; [|split; [|split]].
  - intros c e C He. rewrite (@C125_vns_residual nq dim nev nes) by auto.
    apply by_matvec with (F := fun p => vn_form nq (scal (det vsg)) dim (scal coef) (NRM vsg) (VV vsg nev (unit_ c e)) (fun q => VV ssg nes p q 0)).
    unfold vn_form, VV. slin. intros c' e' C' E'. c0 c'. apply C125_vns_matrix; auto.
  - intros e He. rewrite (@C125_svn_residual nq dim nes nev) by auto.
    apply by_matvec with (F := fun v => vn_form nq (scal (det ssg)) dim (scal coef) (NRM ssg) (VV vsg nev v) (fun q => VV ssg nes (unit_ 0 e) q 0)).
    unfold vn_form, VV. slin. intros. apply C125_svn_matrix; auto.
  - intros. rewrite (@C125_vns_matrix nq dim nev nes), (@C125_svn_matrix nq dim nes nev) by auto. unfold NRM. rewrite Ed, En. auto.
  - transitivity (vn_form nq (scal (det vsg)) dim (scal coef) (NRM vsg) (VV vsg nev (sub dim stu connu)) (fun q => VV ssg nes (sub 1 stp connp) q 0)).
    + apply by_vecdot with (F := fun v => vn_form nq (scal (det vsg)) dim (scal coef) (NRM vsg) (VV vsg nev v) (fun q => VV ssg nes (sub 1 stp connp) q 0)).
      unfold vn_form, VV. slin. intros. apply C125_vns_residual; auto.
    + symmetry. unfold NRM. rewrite Ed, En. fold (NRM ssg).
      apply by_vecdot with (F := fun p => vn_form nq (scal (det ssg)) dim (scal coef) (NRM ssg) (VV vsg nev (sub dim stu connu)) (fun q => VV ssg nes p q 0)).
      unfold vn_form, VV. slin. intros c' e' C' E'. c0 c'. apply C125_svn_residual; auto.
Qed.
Print Assumptions C125_surface_consistent.
