(** The terms integrate their forms, continued: dot products, viscous, Stokes, Biot
    and convective terms. *)
From Coq Require Import Reals Lra Lia Arith.
From Verif Require Import Base M_fmf M_terms L_fmf S_terms L_terms L_terms2 P_terms.
Open Scope nat_scope.

(** A scalar coefficient [c] stands for the matrix [c I]. *)
Definition coefm (m : FMF) (q i j : nat) : R :=
  if nCol m =? 1 then (scal m q * delta i j)%R else at_ m q i j.
Definition cshape (nq dim : nat) (m : FMF) : Prop := mshape nq 1 1 m \/ (mshape nq dim dim m /\ dim <> 1).

Lemma sm_delta : forall n i (f : nat -> R), i < n -> sm n (fun j => delta i j * f j)%R = f i.
Proof.
  intros. transitivity (sm n (fun j => if j =? i then f j else 0)%R). 2: apply sm_pick; auto.
  apply sm_ext; intros. unfold delta. rewrite Nat.eqb_sym. destruct (_ =? _); lra.
Qed.
Lemma sm_if : forall n i (f : nat -> R), i < n -> sm n (fun j => (if j =? i then f j else 0))%R = f i.
Proof. intros. apply sm_pick; auto. Qed.
(** v = base function e in component c, contracted with C. *)
Lemma dot_unit_l : forall dim ph ne c e q (C : nat -> nat -> R) (u : nat -> R), c < dim -> e < ne ->
  sm dim (fun i => sm dim (fun j => C i j * fval ph ne (unit_ c e) q i * u j)%R) = (ph q e * sm dim (fun j => C c j * u j))%R.
Proof.
  intros. rewrite <- (@sm_if dim c (fun i => ph q e * sm dim (fun j => C i j * u j))%R) by auto.
  apply sm_ext; intros i I. rewrite fval_unit by auto. destruct (i =? c).
  - rewrite <- sm_scal. apply sm_ext; intros; lra.
  - apply sm_0; intros; lra.
Qed.
Lemma dot_unit_r : forall dim ph ne c e q (C : nat -> R), c < dim -> e < ne ->
  sm dim (fun j => C j * fval ph ne (unit_ c e) q j)%R = (C c * ph q e)%R.
Proof.
  intros. rewrite <- (@sm_if dim c (fun j => C j * ph q e)%R) by auto.
  apply sm_ext; intros i I. rewrite fval_unit by auto. destruct (i =? c); lra.
Qed.

Theorem C125_dot_scalar_matrix : forall nq dim ner nec rvg cvg coef junk vq e e', shape nq dim ner rvg -> shape nq dim nec cvg -> mshape nq 1 1 coef -> e < ner -> e' < nec ->
  at_ (dw_volume_dot_scalar (emp 1 ner nec junk) coef vq rvg cvg true) 0 e e'
  = dot_form nq (scal (det rvg)) 1 (coefm coef) (VV rvg ner (unit_ 0 e)) (VV cvg nec (unit_ 0 e')).
Proof.
  intros nq dim ner nec rvg cvg coef junk vq e e' SR SC Hc E E'. shp. unfold dw_volume_dot_scalar. cbv zeta. rewrite sumLevelsMulF_at; sz.
  unfold dot_form. apply sm_ext; intros q Q. rewrite mulAF_at; sz. rewrite mulATB_nn_at; sz. rewrite !s11 by auto.
  unfold VV. rewrite dot_unit_l by auto. rewrite dot_unit_r by auto. unfold coefm. rr. cbn. unfold delta. cbn. unfold PHI. lra.
Qed.
Theorem C125_dot_scalar_residual : forall nq dim ner nec rvg cvg coef junk j1 st conn e, shape nq dim ner rvg -> shape nq dim nec cvg -> mshape nq 1 1 coef -> e < ner ->
  at_ (dw_volume_dot_scalar (emp 1 ner 1 junk) coef (ev_val 1 j1 st (bf cvg) conn) rvg cvg false) 0 e 0
  = dot_form nq (scal (det rvg)) 1 (coefm coef) (VV rvg ner (unit_ 0 e)) (VV cvg nec (sub 1 st conn)).
Proof.
  intros nq dim ner nec rvg cvg coef junk j1 st conn e SR SC Hc E. shp. unfold dw_volume_dot_scalar. cbv zeta. rewrite sumLevelsMulF_at; sz.
  unfold dot_form. apply sm_ext; intros q Q. rewrite mul_at; sz. rewrite !s11 by auto.
  match goal with |- context [bf_actt ?a ?b ?c] => pose proof (@bf_actt_at a b c q 0 e 0) as P end. 
  unfold ev_val in P at 1 2 3. unfold dq_state_in_qp in P. rrin P. cbn [Nat.mul Nat.add] in P. rewrite P; auto; clear P; try lia.
  change (bf_act _ _ _) with (ev_val 1 j1 st (bf cvg) conn). rewrite ev_val_at; sz.
  unfold VV. rewrite dot_unit_l by auto. unfold coefm. rr. cbn. unfold delta. cbn. unfold PHI. lra.
Qed.
Theorem C125_dot_vector_matrix : forall nq dim ner nec rvg cvg coef junk vq c e c' e', shape nq dim ner rvg -> shape nq dim nec cvg -> cshape nq dim coef -> dim_ok dim -> c < dim -> c' < dim -> e < ner -> e' < nec ->
  at_ (dw_volume_dot_vector (emp 1 (dim * ner) (dim * nec) junk) coef vq rvg cvg dim true) 0 (c * ner + e) (c' * nec + e')
  = dot_form nq (scal (det rvg)) dim (coefm coef) (VV rvg ner (unit_ c e)) (VV cvg nec (unit_ c' e')).
Proof.
  intros nq dim ner nec rvg cvg coef junk vq c e c' e' SR SC Hc K C C' E E'.
  assert (c * ner + e < dim * ner) by (pose proof (@idx_lt _ _ _ _ C E); lia).
  assert (c' * nec + e' < dim * nec) by (pose proof (@idx_lt _ _ _ _ C' E'); lia).
  shp. unfold dw_volume_dot_vector. cbv zeta. rewrite sumLevelsMulF_at; sz; [|destruct (_ =? _); sz].
  unfold dot_form.
  match goal with |- sm (nLev (if ?b then ?x else ?y)) _ = _ => assert (L : nLev (if b then x else y) = nq) by (destruct b; sz); rewrite L end.
  apply sm_ext; intros q Q. rewrite !s11 by auto.
  unfold VV. rewrite dot_unit_l by auto. rewrite dot_unit_r by auto. rewrite Rmult_comm. f_equal. unfold coefm.
  destruct Hc as [Hc | [Hc N]]; shp.
  - rr. cbn [Nat.eqb]. rewrite mul_at; sz.
    match goal with |- context [bf_buildFTF ?a ?b] => pose proof (@buildFTF_at a b dim q c e c' e' K) as P end. 
    rrin P. rewrite P; auto; try lia; clear P. rewrite !s11 by auto.
    unfold delta. destruct (c =? c'). rewrite mulATB_nn_at; sz. rr. cbn. unfold PHI. lra. lra.
  - rr. destruct (Nat.eqb_spec dim 1); [lia|].
    match goal with |- context [bf_actt ?a ?b ?c1] => pose proof (@bf_actt_at a b c1 q c e (c' * nec + e')) as P end.
    rrin P. rewrite P; auto; try lia; clear P.
    match goal with |- context [bf_ract ?a ?b ?c1] => pose proof (@bf_ract_at a b c1 q c c' e') as P end.
    rrin P. rewrite P; auto; try lia; clear P. 
Qed.
Theorem C125_dot_vector_residual : forall nq dim ner nec rvg cvg coef junk j1 st conn c e, shape nq dim ner rvg -> shape nq dim nec cvg -> cshape nq dim coef -> c < dim -> e < ner ->
  at_ (dw_volume_dot_vector (emp 1 (dim * ner) 1 junk) coef (ev_val dim j1 st (bf cvg) conn) rvg cvg dim false) 0 (c * ner + e) 0
  = dot_form nq (scal (det rvg)) dim (coefm coef) (VV rvg ner (unit_ c e)) (VV cvg nec (sub dim st conn)).
Proof.
  intros nq dim ner nec rvg cvg coef junk j1 st conn c e SR SC Hc C E.
  assert (c * ner + e < dim * ner) by (pose proof (@idx_lt _ _ _ _ C E); lia).
  shp. unfold dw_volume_dot_vector. cbv zeta. rewrite sumLevelsMulF_at; sz; [|destruct (_ =? _); sz].
  unfold dot_form.
  match goal with |- sm (nLev (if ?b then ?x else ?y)) _ = _ => assert (L : nLev (if b then x else y) = nq) by (destruct b; sz); rewrite L end.
  apply sm_ext; intros q Q. rewrite !s11 by auto.
  unfold VV. rewrite dot_unit_l by auto. rewrite Rmult_comm. f_equal. unfold coefm.
  destruct Hc as [Hc | [Hc N]]; shp.
  - rr. cbn [Nat.eqb]. rewrite mul_at; sz.
    match goal with |- context [bf_actt ?a ?b ?c1] => pose proof (@bf_actt_at a b c1 q c e 0) as P end.
    unfold ev_val in P at 1 2 3. unfold dq_state_in_qp in P. rrin P. rewrite P; auto; try lia; clear P.
    change (bf_act _ _ _) with (ev_val dim j1 st (bf cvg) conn). rewrite ev_val_at; sz. rewrite !s11 by auto.
    rewrite Rmult_assoc. f_equal.
    transitivity (sm dim (fun j => delta c j * (scal coef q * fval (PHI (bf cvg)) nec (sub dim st conn) q j)))%R. rewrite sm_delta by auto. lra. apply sm_ext; intros; lra.
  - rr. destruct (Nat.eqb_spec dim 1); [lia|].
    match goal with |- context [bf_actt ?a ?b ?c1] => pose proof (@bf_actt_at a b c1 q c e 0) as P end.
    rrin P. rewrite P; auto; try lia; clear P. unfold PHI at 1. f_equal. rewrite mulAB_nn_at; sz. apply sm_ext; intros. rewrite ev_val_at; sz.
Qed.
Theorem C125_dot_eval : forall nq dim ner nec rvg cvg coef j1 j2 n stv stu connv connu, shape nq dim ner rvg -> shape nq dim nec cvg -> (mshape nq 1 1 coef /\ 0 < n) \/ (mshape nq n n coef /\ n <> 1) ->
  d_dot coef (ev_val n j1 stv (bf rvg) connv) (ev_val n j2 stu (bf cvg) connu) rvg
  = dot_form nq (scal (det rvg)) n (coefm coef) (VV rvg ner (sub n stv connv)) (VV cvg nec (sub n stu connu)).
Proof.
  intros nq dim ner nec rvg cvg coef j1 j2 n stv stu connv connu SR SC Hc. unfold d_dot, py_integrate, dot_form. shp.
  assert (L : nLev (ev_val n j1 stv (bf rvg) connv) = nq) by (unfold ev_val, dq_state_in_qp; sz).
  assert (Rw : nRow (ev_val n j1 stv (bf rvg) connv) = n) by (unfold ev_val, dq_state_in_qp; sz).
  assert (CR : nCol (ev_val n j1 stv (bf rvg) connv) = 1) by (unfold ev_val, dq_state_in_qp; sz).
  assert (CC : nCol (ev_val n j2 stu (bf cvg) connu) = 1) by (unfold ev_val, dq_state_in_qp; sz).
  rewrite L. apply sm_ext; intros q Q. rewrite s11 by auto. rewrite Rmult_comm. f_equal. rewrite Rw. unfold coefm.
  destruct Hc as [[Hc N]|[Hc N]]; shp.
  - rr. cbn [Nat.eqb].
    assert (X : sm n (fun i => sm n (fun j => scal coef q * delta i j * VV rvg ner (sub n stv connv) q i * VV cvg nec (sub n stu connu) q j)%R)
       = (scal coef q * sm n (fun i => VV rvg ner (sub n stv connv) q i * VV cvg nec (sub n stu connu) q i))%R).
    { rewrite <- sm_scal. apply sm_ext; intros i I.
      transitivity (sm n (fun j => delta i j * (scal coef q * VV rvg ner (sub n stv connv) q i * VV cvg nec (sub n stu connu) q j)))%R.
      apply sm_ext; intros; lra. rewrite sm_delta by auto. lra. }
    rewrite X. destruct (Nat.ltb_spec 1 n); rewrite s11 by auto.
    + unfold np_ATB. rewrite mulATB_nn_at; sz. f_equal. apply sm_ext; intros. rewrite !ev_val_at; sz.
    + assert (n = 1) by lia. subst n. rewrite sm1. rewrite !ev_val_at; sz. unfold VV. rr. lra.
  - rr. destruct (Nat.eqb_spec n 1); [lia|]. unfold np_ATB, np_AB. rewrite mulATB_nn_at; sz. apply sm_ext; intros i I.
    rewrite mulAB_nn_at; sz. rewrite <- sm_scal. apply sm_ext; intros j J. rewrite !ev_val_at; sz. unfold VV. rr. lra.
Qed.
