(** C153 The Bezier control net represents the same geometry as the NURBS patch: the theorem. *)
From Coq Require Import Reals Lra Lia Arith List Bool.
From Coquelicot Require Import Coquelicot.
From Verif Require Import M_fmf L_fmf M_map L_map P_map S_iga M_iga L_iga S_iga2 M_iga2 P_iga P_iga2 P_iga3 L_hyper L_iga2 P_iga4 P_iga5 P_iga6 P_iga7 P_iga8 M_iga3 L_iga3 P_iga10.
Import ListNotations.
Open Scope R_scope.

(** The tensor product Bernstein polynomial number j of the given degrees, the numbers being row-major. *)
Definition tp_bernstein (degrees : list nat) (j : nat) (x : nat -> R) : R :=
  prodR (map (fun k => bernstein (nth k degrees 0%nat) (nth k (nth j (multi (map S degrees)) []) 0%nat) (x k)) (seq 0 (length degrees))).
(** The patch: the sum of the NURBS functions times the control points. *)
Definition patch_point (kps : list (knot_vector * nat)) (cps : nat -> nat -> R) (w : nat -> R) (x : nat -> R) (i : nat) : R :=
  let shape := map n_funs kps in sumR (map (fun J => nurbs kps w J x * cps (position shape J) i) (multi shape)).

Section Patch.
Variable kps : list (knot_vector * nat).
Notation dim := (length kps).
Hypothesis HG : good_patch kps.
Variables (cs : list (list mat)) (conn bconn : nat -> nat -> nat).
Hypothesis HP : create_patch (map fst kps) (map snd kps) = Some (cs, conn, bconn).
Notation n_els := (map n_spans kps).
Notation degrees := (map snd kps).
Notation shape := (map n_funs kps).
Notation nf := (n_efun degrees).
Notation ds := (map (fun p => p + 1)%nat degrees).
Notation ccs := (combine_bezier_extraction degrees cs).
Section El.
Variable ies : list nat.
Hypothesis HE : inside ies n_els.
Notation e := (position n_els ies).
Notation lI a := (loc kps ies (nth a (tuples ds) [])).
Lemma deg_nth : forall k, (k < dim)%nat -> nth k degrees 0%nat = dg kps k.
Proof. intros k Hk. apply (@nth_map0 _ _ snd kps k D0); auto. Qed.
Lemma tpb : forall j x, tp_bernstein degrees j x = prodR (map (fun k => bernstein (dg kps k) (nth k (nth j (tuples ds) []) 0%nat) (x k)) (seq 0 dim)).
Proof.
  intros j x. unfold tp_bernstein. rewrite map_length. apply prodR_ext. intros k Hk. rewrite deg_nth by auto. rewrite <- multi_tuples.
  do 2 f_equal. rewrite (map_ext S (fun p => p + 1)%nat) by (intros; lia). reflexivity.
Qed.
Lemma ccs_bern : forall qp a, (forall k, (k < dim)%nat -> 0 <= qp k < 1) -> (a < nf)%nat ->
  sm nf (fun j => ccs e a j * tp_bernstein degrees j qp) = tp_spline kps (lI a) (par_coor kps ies qp).
Proof.
  intros qp a HQ Ha. destruct (idx_ds kps a Ha) as (I1 & I2). set (il := nth a (tuples ds) []) in *.
  rewrite (@sm_ext nf _ (fun j => prodR (map (fun k => (fun k b => nth (nth k ies 0%nat) (nth k cs []) eye (nth k il 0%nat) b * bernstein (dg kps k) b (qp k)) k (nth k (nth j (tuples ds) []) 0%nat)) (seq 0 (length ds))))).
  2: { intros j Hj. destruct (idx_ds kps j Hj) as (J1 & J2). rewrite tpb. rewrite <- I2 at 1. rewrite <- J2 at 1. rewrite (@ccs_at kps HG cs conn bconn HP ies HE) by auto.
    rewrite ds_len. rewrite <- prodR_mult. reflexivity. }
  change nf with (prodn ds). rewrite (@sum_product ds (fun k b => nth (nth k ies 0%nat) (nth k cs []) eye (nth k il 0%nat) b * bernstein (dg kps k) b (qp k))). rewrite ds_len. unfold tp_spline. apply prodR_ext. intros k Hk.
  destruct (patch_data kps HG cs conn bconn HP) as (L1 & L2 & L3 & L4 & L5).
  pose proof (@f2_elim _ _ I1 k) as Q. rewrite ds_len, ds_nth in Q by auto. specialize (Q Hk).
  destruct (@xk_in kps (proj2 HG) ies HE qp HQ k Hk) as (X1 & X2). rewrite ds_nth by auto.
  pose proof (L5 k Hk (nth k ies 0%nat) (ies_lt kps ies HE k Hk) (nth k il 0%nat) (xk kps ies qp k) Q X1) as V. cbv zeta in V. fold (sp_of kps ies k) in V. rewrite X2 in V.
  rewrite V. unfold loc. rewrite nth_map_seq by auto. change (par_coor kps ies qp k) with (xk kps ies qp k). destruct (nth k kps D0) as ((t & n) & p). reflexivity.
Qed.
Lemma all_sum : forall qp (v : nat -> R), (forall k, (k < dim)%nat -> 0 <= qp k < 1) ->
  sm nf (fun a => tp_spline kps (lI a) (par_coor kps ies qp) * v (conn e a)) = sumR (map (fun J => tp_spline kps J (par_coor kps ies qp) * v (position shape J)) (multi shape)).
Proof.
  intros qp v HQ. destruct (patch_data kps HG cs conn bconn HP) as (L1 & L2 & L3 & L4 & L5).
  rewrite (@sumR_nth _ _ (multi shape) []). rewrite <- (multi_tuples shape). rewrite tuples_length.
  rewrite (@sm_inj nf (prodn shape) (fun a => position shape (lI a))).
  - apply sm_ext. intros a Ha. destruct (@conn_lt kps HG cs conn bconn HP ies HE a Ha) as (C1 & C2). rewrite nth_hrav by auto. rewrite C1. reflexivity.
  - intros a Ha. destruct (@conn_lt kps HG cs conn bconn HP ies HE a Ha) as (C1 & C2). apply hrav_lt; auto.
  - intros a b Ha Hb E. destruct (@conn_lt kps HG cs conn bconn HP ies HE a Ha) as (A1 & A2). destruct (@conn_lt kps HG cs conn bconn HP ies HE b Hb) as (B1 & B2).
    apply hrav_inj in E; auto. destruct (idx_ds kps a Ha) as (I1 & I2). destruct (idx_ds kps b Hb) as (J1 & J2).
    assert (QQ : nth a (tuples ds) [] = nth b (tuples ds) []) by (eapply loc_inj; eauto; apply HG). congruence.
  - intros g Hg H. destruct (tuples_nth shape g Hg) as (G1 & G2).
    assert (Z : tp_spline kps (nth g (tuples shape) []) (par_coor kps ies qp) = 0).
    { eapply others_zero; eauto; try apply HG. intros a Ha E. apply (H a Ha). rewrite <- E. exact G2. }
    rewrite Z. ring.
Qed.
Lemma bew_pos : forall w j, (forall g, (g < prodn shape)%nat -> 0 < w g) -> (j < nf)%nat -> 0 < sm nf (fun a => ccs e a j * w (conn e a)).
Proof.
  intros w j HW Hj. destruct (idx_ds kps j Hj) as (J1 & J2). destruct (patch_data kps HG cs conn bconn HP) as (L1 & L2 & L3 & L4 & L5).
  assert (IN : forall k, (k < dim)%nat -> In (nth (nth k ies 0%nat) (nth k cs []) eye) (nth k cs [])).
  { intros k Hk. apply nth_In. pose proof (ies_lt kps ies HE k Hk) as Q. rewrite <- (@nth_map0 _ _ n_spans kps k D0 0%nat) in Q by auto. rewrite <- L2 in Q.
    rewrite (@nth_map0 _ _ (@length mat) cs k []) in Q by lia. exact Q. }
  assert (NN : forall a, (a < nf)%nat -> 0 <= ccs e a j).
  { intros a Ha. destruct (idx_ds kps a Ha) as (I1 & I2). rewrite <- I2, <- J2. rewrite (@ccs_at kps HG cs conn bconn HP ies HE) by auto. apply prodR_nonneg. intros k Hk.
    eapply (@C150_nonneg (kn kps k) (nk kps k) (dg kps k)); eauto. apply HOk; auto. apply HG. }
  apply sm_pos_w; auto.
  - intros a Ha. apply HW. destruct (@conn_lt kps HG cs conn bconn HP ies HE a Ha) as (C1 & C2). rewrite C1. apply hrav_lt; auto.
  - rewrite (@sm_ext nf _ (fun a => prodR (map (fun k => (fun k i => nth (nth k ies 0%nat) (nth k cs []) eye i (nth k (nth j (tuples ds) []) 0%nat)) k (nth k (nth a (tuples ds) []) 0%nat)) (seq 0 (length ds))))).
    2: { intros a Ha. destruct (idx_ds kps a Ha) as (I1 & I2). rewrite <- I2 at 1. rewrite <- J2 at 1. rewrite (@ccs_at kps HG cs conn bconn HP ies HE) by auto. rewrite ds_len. reflexivity. }
    change nf with (prodn ds). rewrite (@sum_product ds (fun k i => nth (nth k ies 0%nat) (nth k cs []) eye i (nth k (nth j (tuples ds) []) 0%nat))). rewrite ds_len.
    rewrite prodR_1. lra. intros k Hk. rewrite ds_nth by auto. pose proof (@f2_elim _ _ J1 k) as Q. rewrite ds_len, ds_nth in Q by auto.
    apply (@C150_columns (kn kps k) (nk kps k) (dg kps k) (nth k cs [])); auto. apply HOk; auto. apply HG.
Qed.
End El.
Hypothesis HC : List.Forall (fun '((t, n), p) => continuous_knots t n p) kps.
Lemma net_at : forall cps w ies j, inside ies n_els -> (j < nf)%nat -> let e := position n_els ies in
  let '(bcps, bws) := compute_bezier_control (prodn n_els) nf cps w ccs conn bconn in
  bws (bconn e j) = sm nf (fun a => ccs e a j * w (conn e a)) /\
  forall i, bcps (bconn e j) i = 1 / sm nf (fun a => ccs e a j * w (conn e a)) * sm nf (fun a => ccs e a j * (w (conn e a) * cps (conn e a) i)).
Proof.
  intros cps w ies j HE Hj e. destruct (compute_bezier_control (prodn n_els) nf cps w ccs conn bconn) as (bcps & bws) eqn:EC.
  pose proof (@control_at (prodn n_els) nf cps w ccs conn bconn (bconn e j) (sm nf (fun a => ccs e a j * w (conn e a)))
    (fun i => 1 / sm nf (fun a => ccs e a j * w (conn e a)) * sm nf (fun a => ccs e a j * (w (conn e a) * cps (conn e a) i)))) as CA.
  cbv zeta in CA. rewrite EC in CA. cbn [fst snd] in CA. apply CA; clear CA.
  - intros ie j' Hie Hj' EB. destruct (tuples_nth n_els ie Hie) as (T1 & T2). destruct (idx_ds kps j Hj) as (J1 & J2). destruct (idx_ds kps j' Hj') as (J1' & J2').
    destruct (@bconn_at kps HG cs conn bconn HP ies HE _ J1) as (B1 & B2). destruct (@bconn_at kps HG cs conn bconn HP _ T1 _ J1') as (B1' & B2').
    rewrite T2, J2' in B1'. rewrite J2 in B1. fold e in B1. rewrite B1, B1' in EB. apply hrav_inj in EB; auto.
    assert (SH : forall v, sm nf (fun a => ccs ie a j' * v (conn ie a)) = sm nf (fun a => ccs e a j * v (conn e a))).
    { intros v. rewrite <- T2, <- J2, <- J2'. unfold e. apply (@op_shared kps HG cs conn bconn HP HC); auto. }
    split. apply SH. intros i. f_equal. f_equal. apply SH. apply (SH (fun g => w g * cps g i)).
  - exists e, j. repeat split; auto. apply hrav_lt; auto.
Qed.
End Patch.

(** C153: all Bezier weights are positive, and on every element the rational Bezier representation with
    the computed weights and control points is the NURBS patch. *)
Theorem C153_bezier : forall kps, good_patch kps -> List.Forall (fun '((t, n), p) => continuous_knots t n p) kps ->
  let dim := length kps in let degrees := map snd kps in let shape := map n_funs kps in let nf := n_efun degrees in let n_els := map n_spans kps in
  exists cs conn bconn, create_patch (map fst kps) degrees = Some (cs, conn, bconn) /\
  forall cps w, (forall g, (g < prodn shape)%nat -> 0 < w g) ->
  let '(bcps, bws) := compute_bezier_control (prodn n_els) nf cps w (combine_bezier_extraction degrees cs) conn bconn in
  forall ies, inside ies n_els -> let e := position n_els ies in
    (forall j, (j < nf)%nat -> 0 < bws (bconn e j)) /\
    forall qp i, (forall k, (k < dim)%nat -> 0 <= qp k < 1) ->
      sm nf (fun j => bws (bconn e j) * tp_bernstein degrees j qp * bcps (bconn e j) i) / sm nf (fun j => bws (bconn e j) * tp_bernstein degrees j qp)
        = patch_point kps cps w (par_coor kps ies qp) i.
Proof.
  intros kps HG HC dim degrees shape nf n_els. destruct (create_patch (map fst kps) degrees) as [((cs & conn) & bconn)|] eqn:E.
  2: { exfalso. destruct (patch_lists kps (proj2 HG)) as (cs & bcs & P1 & P2 & P3 & P4 & P5 & P6). unfold create_patch, degrees in E. rewrite P1, P4 in E. discriminate. }
  exists cs, conn, bconn. split; auto. intros cps w HW.
  assert (NA : forall ies j, inside ies n_els -> (j < nf)%nat -> _) by (intros ies j HE Hj; exact (@net_at kps HG cs conn bconn E HC cps w ies j HE Hj)).
  cbv zeta in NA. fold degrees n_els nf in NA.
  destruct (compute_bezier_control (prodn n_els) nf cps w (combine_bezier_extraction degrees cs) conn bconn) as (bcps & bws).
  intros ies HE e. set (ccs := combine_bezier_extraction degrees cs) in *.
  assert (NP : forall j, (j < nf)%nat -> 0 < sm nf (fun a => ccs e a j * w (conn e a))) by (intros j Hj; apply (@bew_pos kps HG cs conn bconn E ies HE w j HW Hj)).
  specialize (fun j => NA ies j HE). fold e in NA.
  split. { intros j Hj. rewrite (proj1 (NA j Hj)). apply NP; auto. }
  intros qp i HQ.
  assert (T : forall v : nat -> R, sm nf (fun j => sm nf (fun a => ccs e a j * v (conn e a)) * tp_bernstein degrees j qp) = sumR (map (fun J => tp_spline kps J (par_coor kps ies qp) * v (position shape J)) (multi shape))).
  { intros v. unfold shape. rewrite <- (@all_sum kps HG cs conn bconn E ies HE qp v HQ). fold degrees nf n_els e.
    rewrite (@sm_ext nf _ (fun j => sm nf (fun a => ccs e a j * v (conn e a) * tp_bernstein degrees j qp))) by (intros j Hj; rewrite sm_scalr; reflexivity).
    rewrite sm_swap. apply sm_ext. intros a Ha. pose proof (@ccs_bern kps HG cs conn bconn E ies HE qp a HQ Ha) as CB. fold degrees nf n_els e ccs in CB. rewrite <- CB. rewrite <- sm_scalr. apply sm_ext. intros; ring. }
  rewrite (@sm_ext nf (fun j => bws (bconn e j) * tp_bernstein degrees j qp) (fun j => sm nf (fun a => ccs e a j * w (conn e a)) * tp_bernstein degrees j qp)).
  2: { intros j Hj. rewrite (proj1 (NA j Hj)). reflexivity. }
  rewrite (@sm_ext nf (fun j => bws (bconn e j) * tp_bernstein degrees j qp * bcps (bconn e j) i) (fun j => sm nf (fun a => ccs e a j * (fun g => w g * cps g i) (conn e a)) * tp_bernstein degrees j qp)).
  2: { intros j Hj. destruct (NA j Hj) as (N1 & N2). rewrite N1, N2. pose proof (NP j Hj). field. lra. }
  rewrite (T (fun g => w g * cps g i)), (T w). unfold patch_point, nurbs. fold shape. cbv zeta.
  assert (G : forall d l, sumR (map (fun J => tp_spline kps J (par_coor kps ies qp) * (w (position shape J) * cps (position shape J) i)) l) / d
    = sumR (map (fun J => w (position shape J) * tp_spline kps J (par_coor kps ies qp) / d * cps (position shape J) i) l)).
  { intros d. induction l; cbn [map sumR fold_right]. unfold Rdiv; ring. unfold sumR in IHl. rewrite <- IHl. unfold Rdiv. ring. }
  cbv beta. rewrite G. f_equal. apply map_ext. intros J. f_equal. unfold Rdiv. f_equal. f_equal. f_equal. apply map_ext. intros; ring.
Qed.
