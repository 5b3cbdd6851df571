(** Theorems about the advection flux term of the DG method (C162-C165). *)
From Coq Require Import Reals ZArith Lra.
From Verif Require Import Base M_fmf L_fmf M_dgflux S_dgflux L_dgflux L_dgflux2.
Open Scope R_scope.

(** The residual is the integral of the Lax-Friedrichs flux of the outer values. *)
Lemma adv_residual_form : forall F al a e u i d, unit_normals F -> (i < ncell F)%nat ->
  adv_residual F al a e u i d = sm (nfac F) (fun f => over_side F i f (fun q =>
     lf_flux (normal_part F a i f) al (trace F u i f q) (out_v F e u i f q) * fb F d f q)).
Proof.
  intros F al a e u i d U Hi. unfold adv_residual. apply sm_ext. intros f Hf. rewrite sm_swap. unfold over_side.
  apply sm_ext. intros q _. cbv zeta. unfold whs, lf_flux, normal_part, adv_C. rewrite in_v_trace.
  set (pi := trace F u i f q). set (po := out_v F e u i f q). set (an := sm (dim F) (fun k => nrm F i f k * a i k)).
  set (W := vol F i f * w F q).
  rewrite (sm_ext _ _ (fun k => (nrm F i f k * a i k) * ((pi + po) / 2 * fb F d f q * W)
       + (nrm F i f k * nrm F i f k) * ((1 - al) / 2 * Rabs an * (pi - po) * fb F d f q * W))) by (intros; lra).
  rewrite sm_plus, !sm_scalr. fold an. rewrite (U i f Hi Hf). lra.
Qed.

(** C162: the residual of the advection flux term in cell [i] for the test
    function [d] is the integral over the sides of the cell of the
    Lax-Friedrichs flux between the trace from inside and the value seen across
    the side. *)
Theorem C162_residual_is_flux : forall F al a e u i d, unit_normals F -> NoDup (map fst e) -> (i < ncell F)%nat ->
  exists pout, (forall f q, seen F e u i f q (pout f q)) /\
  adv_residual F al a e u i d = sm (nfac F) (fun f => over_side F i f (fun q =>
     lf_flux (normal_part F a i f) al (trace F u i f q) (pout f q) * fb F d f q)).
Proof.
  intros. exists (fun f q => out_v F e u i f q). split; [intros; now apply out_v_seen|]. now apply adv_residual_form.
Qed.

(** C162: alpha = 0 is the upwind value, alpha = 1 the mean value; equal values
    on the two sides give the exact flux. *)
Theorem C162_upwind_central : forall an al pin pout,
  lf_flux an 0 pin pout = (if Rle_dec 0 an then an * pin else an * pout) /\
  lf_flux an 1 pin pout = an * ((pin + pout) / 2) /\
  lf_flux an al pin pin = an * pin.
Proof.
  intros. unfold lf_flux. repeat split; try lra.
  destruct (Rle_dec 0 an) as [H|H]; [rewrite Rabs_right by lra | rewrite Rabs_left by lra]; lra.
Qed.

(** C162: a state continuous across every side (as the points see it) produces
    the integrals of a.n p, whatever alpha is. *)
Theorem C162_consistent : forall F al a e u i d, unit_normals F -> NoDup (map fst e) -> (i < ncell F)%nat ->
  (forall f q, (f < nfac F)%nat -> (q < nq F)%nat -> seen F e u i f q (trace F u i f q)) ->
  mutual F ->
  adv_residual F al a e u i d = sm (nfac F) (fun f => over_side F i f (fun q =>
     normal_part F a i f * trace F u i f q * fb F d f q)).
Proof.
  intros F al a e u i d U ND Hi H M. rewrite adv_residual_form by auto. apply sm_ext. intros f Hf. apply over_side_ext.
  intros q Hq. pose proof (out_v_seen F e u i f q ND) as X.
  assert (E : out_v F e u i f q = trace F u i f q).
  { destruct (H f q Hf Hq) as (A & B), X as (A' & B'). destruct (ebc_dec e i f) as [[g G]|G].
    - now rewrite (A g G), (A' g G).
    - destruct (B G) as (B1 & B2), (B' G) as (B1' & B2').
      destruct (Z.ltb_spec (n0 F i f) 0) as [L|L]; [rewrite B1, B1'; auto|].
      destruct (M i f Hi Hf) as (i' & f' & _ & _ & FA & _); [unfold bnd; lia|].
      now rewrite (B2 i' f' FA), (B2' i' f' FA). }
  rewrite E. unfold lf_flux. lra.
Qed.

(** ** Matrix *)
Lemma mutual_range : forall F, mutual F -> in_range F.
Proof.
  intros F M i f Hi Hf. destruct (Z.ltb_spec (n0 F i f) 0) as [L|L]; [lia|].
  destruct (M i f Hi Hf) as (i' & f' & Hi' & _ & (A & _) & _); [unfold bnd; lia|]. lia.
Qed.

Lemma adv_residual_split : forall F al a e u i d,
  adv_residual F al a e u i d = sm (nfac F) (fun f => sm (nq F) (fun q =>
    (adv_inner_diff F al a i f * in_v F u i f q + adv_outer_diff F al a i f * out_v F e u i f q) * fb F d f q * whs F i f q)).
Proof.
  intros. unfold adv_residual. apply sm_ext. intros f _. rewrite sm_swap. apply sm_ext. intros q _. cbv zeta.
  unfold adv_inner_diff, adv_outer_diff.
  set (pi := in_v F u i f q). set (po := out_v F e u i f q). set (C := adv_C F a i f).
  set (W := whs F i f q). set (b := fb F d f q).
  rewrite (sm_ext _ _ (fun k => (nrm F i f k * (a i k + (1 - al) * nrm F i f k * C)) * (pi / 2 * b * W)
      + (nrm F i f k * (a i k - (1 - al) * nrm F i f k * C)) * (po / 2 * b * W))) by (intros; lra).
  rewrite sm_plus, !sm_scalr. lra.
Qed.

(** C163: the matrix of the advection flux term is its exact linear part: the
    residual is the matrix times the coefficients plus the residual of the
    boundary data alone. *)
Theorem C163_matrix_residual : forall F al a e u i d, mutual F -> boundary_data F e ->
  (i < ncell F)%nat -> (d < nnod F)%nat ->
  adv_residual F al a e u i d =
  coo_apply (adv_matrix F al a) u (i * nnod F + d) + adv_residual F al a e (fun _ => 0) i d.
Proof.
  intros F al a e u i d M B Hi Hd. unfold adv_matrix. rewrite coo_matrix by (auto using mutual_range).
  rewrite !adv_residual_split.
  assert (E1 : sm (nnod F) (fun b => adv_inner_vals F al a i d b * u (i * nnod F + b)%nat) =
     sm (nfac F) (fun f => sm (nq F) (fun q => adv_inner_diff F al a i f * in_v F u i f q * fb F d f q * whs F i f q))).
  { unfold adv_inner_vals.
    rewrite (sm_ext _ _ (fun b => sm (nfac F) (fun f => sm (nq F) (fun q =>
       (dofs F u i b * in_b F i b f q) * (adv_inner_diff F al a i f * fb F d f q * whs F i f q))))).
    2:{ intros b _. rewrite <- sm_scalr. apply sm_ext. intros f _. rewrite <- sm_scalr. apply sm_ext. intros q _. unfold dofs, in_b. lra. }
    rewrite sm_swap. apply sm_ext. intros f _. rewrite sm_swap. apply sm_ext. intros q _. rewrite sm_scalr. unfold in_v. lra. }
  rewrite E1, <- sm_plus, <- sm_plus. apply sm_ext. intros f Hf.
  set (X := if (n0 F i f <? 0)%Z then 0 else sm (nnod F) (fun b => adv_outer_vals F al a i f d b * u (Z.to_nat (n0 F i f) * nnod F + b)%nat)).
  assert (EX : X = sm (nq F) (fun q => adv_outer_diff F al a i f * (on_int F (fun i f =>
     sm (nnod F) (fun b => out_b F i b f q * u (Z.to_nat (n0 F i f) * nnod F + b)%nat)) i f) * fb F d f q * whs F i f q)).
  { unfold X, on_int. destruct (n0 F i f <? 0)%Z; [symmetry; apply sm_0; intros; lra|]. unfold adv_outer_vals.
    rewrite (sm_ext _ _ (fun b => sm (nq F) (fun q =>
       (out_b F i b f q * u (Z.to_nat (n0 F i f) * nnod F + b)%nat) * (adv_outer_diff F al a i f * fb F d f q * whs F i f q)))).
    2:{ intros b _. rewrite <- sm_scalr. apply sm_ext. intros q _. unfold in_b. lra. }
    rewrite sm_swap. apply sm_ext. intros q _. rewrite sm_scalr. lra. }
  rewrite EX, <- !sm_plus. apply sm_ext. intros q _. rewrite !out_v_affine by auto.
  assert (Z0 : in_v F (fun _ => 0) i f q = 0) by (apply sm_0; intros; unfold dofs; lra).
  assert (Z1 : on_int F (fun i f => sm (nnod F) (fun b => out_b F i b f q * 0)) i f = 0).
  { unfold on_int. destruct (n0 F i f <? 0)%Z; [auto|]. apply sm_0; intros; lra. }
  rewrite Z0, Z1. lra.
Qed.

(** Without boundary data the residual is the matrix times the coefficients. *)
Theorem C163_linear : forall F al a u i d, mutual F -> (i < ncell F)%nat -> (d < nnod F)%nat ->
  adv_residual F al a [] u i d = coo_apply (adv_matrix F al a) u (i * nnod F + d).
Proof.
  intros F al a u i d M Hi Hd. rewrite C163_matrix_residual; auto.
  2:{ split; [constructor|]. intros ? ? ? []. }
  assert (Z : adv_residual F al a [] (fun _ => 0) i d = 0); [|lra].
  rewrite adv_residual_split. apply sm_0. intros f _. apply sm_0. intros q _.
  assert (Z0 : in_v F (fun _ => 0) i f q = 0) by (apply sm_0; intros; unfold dofs; lra).
  rewrite out_v_affine by (split; [constructor|]; intros ? ? ? []).
  assert (Z1 : on_int F (fun i f => sm (nnod F) (fun b => out_b F i b f q * 0)) i f = 0).
  { unfold on_int. destruct (n0 F i f <? 0)%Z; [auto|]. apply sm_0; intros; lra. }
  rewrite Z0, Z1. unfold bval, set_ebc; cbn [fold_left]. lra.
Qed.

(** ** Conservation *)
Lemma normal_facing : forall F a i f i' f', matching F -> (i < ncell F)%nat -> (f < nfac F)%nat -> facing F i f i' f' ->
  (forall k, (k < dim F)%nat -> a i' k = a i k) -> normal_part F a i' f' = - normal_part F a i f.
Proof.
  intros F a i f i' f' (N & _) Hi Hf FA E. unfold normal_part.
  replace (- sm (dim F) (fun k => nrm F i f k * a i k)) with ((-1) * sm (dim F) (fun k => nrm F i f k * a i k)) by lra.
  rewrite <- sm_scal. apply sm_ext. intros k Hk. rewrite (N i f i' f' k), E by auto. lra.
Qed.
Lemma lf_anti : forall an al p q, lf_flux (- an) al q p = - lf_flux an al p q.
Proof. intros. unfold lf_flux. rewrite Rabs_Ropp. lra. Qed.

(** Value seen across an inner side, without prescribed values there. *)
Lemma out_v_int : forall F e u i f q i' f', boundary_data F e -> facing F i f i' f' ->
  out_v F e u i f q = trace F u i' f' (nq F - 1 - q)%nat.
Proof.
  intros F e u i f q i' f' (ND & B) FA. destruct (out_v_seen F e u i f q ND) as (_ & X). apply X; auto.
  intros g G. specialize (B _ _ _ G). unfold bnd in B. destruct FA. lia.
Qed.

Lemma adv_test : forall F al a e u v, unit_normals F -> mutual F -> boundary_data F e ->
  test_with F v (adv_residual F al a e u) =
  inner2 F (fun i f i' f' => over_side F i f (fun q =>
     lf_flux (normal_part F a i f) al (trace F u i f q) (trace F u i' f' (nq F - 1 - q)%nat) * trace F v i f q)) +
  over_sides F (on_bnd F (fun i f => over_side F i f (fun q =>
     lf_flux (normal_part F a i f) al (trace F u i f q) (out_v F e u i f q) * trace F v i f q))).
Proof.
  intros F al a e u v U M B.
  rewrite (test_sides F v (fun i f q => lf_flux (normal_part F a i f) al (trace F u i f q) (out_v F e u i f q))).
  2:{ intros. now apply adv_residual_form. }
  rewrite over_sides_split. f_equal. apply over_sides_ext. intros i f Hi Hf. unfold on_int.
  destruct (Z.ltb_spec (n0 F i f) 0) as [L|L]; [auto|].
  destruct (mutual_other F M (i, f)) as (_ & _ & FA & _); [apply in_active; auto|]. unfold other in FA; cbn [fst snd] in FA.
  apply over_side_ext. intros q _. now rewrite (out_v_int F e u i f q _ _ B FA).
Qed.

Lemma facing_rev : forall F q, (q < nq F)%nat -> (nq F - 1 - (nq F - 1 - q))%nat = q.
Proof. intros. lia. Qed.

(** C164: if the velocity is the same in facing cells, the fluxes through inner
    sides cancel: the residuals tested with the constant one add up to the
    fluxes through the sides without neighbour - to zero if there are none. *)
Theorem C164_conservation : forall F al a e u one, unit_normals F -> mutual F -> matching F -> boundary_data F e ->
  (forall i f i' f' k, (i < ncell F)%nat -> (f < nfac F)%nat -> facing F i f i' f' -> (k < dim F)%nat -> a i' k = a i k) ->
  (forall i f q, (i < ncell F)%nat -> (f < nfac F)%nat -> (q < nq F)%nat -> trace F one i f q = 1) ->
  exists pout, (forall i f q, seen F e u i f q (pout i f q)) /\
  test_with F one (adv_residual F al a e u) =
  over_sides F (on_bnd F (fun i f => over_side F i f (fun q =>
     lf_flux (normal_part F a i f) al (trace F u i f q) (pout i f q)))).
Proof.
  intros F al a e u one U M MA B EA ONE. exists (out_v F e u). split; [intros; apply out_v_seen, B|].
  rewrite adv_test by auto. rewrite inner2_anti; auto.
  - rewrite Rplus_0_l. apply over_sides_ext. intros i f Hi Hf. unfold on_bnd. destruct (n0 F i f <? 0)%Z; [|auto].
    apply over_side_ext. intros q Hq. rewrite ONE by auto. lra.
  - intros i f i' f' Hi Hf Hi' Hf' FA FA'.
    rewrite (over_facing F i f i' f') by auto.
    replace (- over_side F i f (fun q => lf_flux (normal_part F a i f) al (trace F u i f q) (trace F u i' f' (nq F - 1 - q)%nat) * trace F one i f q))
      with ((-1) * over_side F i f (fun q => lf_flux (normal_part F a i f) al (trace F u i f q) (trace F u i' f' (nq F - 1 - q)%nat) * trace F one i f q)) by lra.
    rewrite <- over_side_scal. apply over_side_ext. intros q Hq. rewrite facing_rev, !ONE by (auto; lia).
    rewrite (normal_facing F a i f i' f') by eauto. rewrite lf_anti. lra.
Qed.

Theorem C164_periodic : forall F al a u one, unit_normals F -> mutual F -> matching F ->
  (forall i f, (i < ncell F)%nat -> (f < nfac F)%nat -> ~ bnd F i f) ->
  (forall i f i' f' k, (i < ncell F)%nat -> (f < nfac F)%nat -> facing F i f i' f' -> (k < dim F)%nat -> a i' k = a i k) ->
  (forall i f q, (i < ncell F)%nat -> (f < nfac F)%nat -> (q < nq F)%nat -> trace F one i f q = 1) ->
  test_with F one (adv_residual F al a [] u) = 0.
Proof.
  intros F al a u one U M MA NB EA ONE.
  destruct (C164_conservation F al a [] u one) as (p & _ & E); auto.
  { split; [constructor|]. intros ? ? ? []. }
  rewrite E. apply sm_0. intros i Hi. apply sm_0. intros f Hf. unfold on_bnd.
  destruct (Z.ltb_spec (n0 F i f) 0) as [L|L]; [|auto]. exfalso. now apply (NB i f Hi Hf).
Qed.

(** ** Energy *)
(** C165: for a velocity equal in facing cells and no inflow data, testing the
    residual with the state itself gives half the flux of the square of the
    state out of every cell (which the volume term cancels) plus a dissipation
    from the jumps, non-negative for alpha <= 1. *)
Theorem C165_energy : forall F al a u, unit_normals F -> mutual F -> matching F ->
  (forall i f i' f' k, (i < ncell F)%nat -> (f < nfac F)%nat -> facing F i f i' f' -> (k < dim F)%nat -> a i' k = a i k) ->
  let jump2 i f i' f' := over_side F i f (fun q => Rabs (normal_part F a i f) * (trace F u i f q - trace F u i' f' (nq F - 1 - q)%nat) ^ 2) in
  test_with F u (adv_residual F al a [] u) =
  over_sides F (fun i f => over_side F i f (fun q => normal_part F a i f * (trace F u i f q) ^ 2 / 2)) +
  (1 - al) / 4 * over_sides F (on_int F (fun i f => jump2 i f (Z.to_nat (n0 F i f)) (Z.to_nat (n1 F i f)))) +
  (1 - al) / 2 * over_sides F (on_bnd F (fun i f => over_side F i f (fun q => Rabs (normal_part F a i f) * (trace F u i f q) ^ 2))).
Proof.
  intros F al a u U M MA EA jump2.
  assert (B : boundary_data F []) by (split; [constructor|]; intros ? ? ? []).
  rewrite adv_test by auto.
  rewrite (over_sides_split F (fun i f => over_side F i f (fun q => normal_part F a i f * (trace F u i f q) ^ 2 / 2))).
  assert (I : inner2 F (fun i f i' f' => over_side F i f (fun q =>
     lf_flux (normal_part F a i f) al (trace F u i f q) (trace F u i' f' (nq F - 1 - q)%nat) * trace F u i f q)) =
     over_sides F (on_int F (fun i f => over_side F i f (fun q => normal_part F a i f * (trace F u i f q) ^ 2 / 2))) +
     (1 - al) / 4 * over_sides F (on_int F (fun i f => jump2 i f (Z.to_nat (n0 F i f)) (Z.to_nat (n1 F i f))))).
  { change (over_sides F (on_int F (fun i f => jump2 i f (Z.to_nat (n0 F i f)) (Z.to_nat (n1 F i f))))) with (inner2 F jump2).
    change (over_sides F (on_int F (fun i f => over_side F i f (fun q => normal_part F a i f * (trace F u i f q) ^ 2 / 2))))
      with (inner2 F (fun i f _ _ => over_side F i f (fun q => normal_part F a i f * (trace F u i f q) ^ 2 / 2))).
    match goal with |- ?L = ?A + ?C * ?J => enough (L + (-1) * A + (- C) * J = 0) by lra end.
    rewrite <- !inner2_scal, <- !inner2_plus. apply inner2_anti; auto.
    intros i f i' f' Hi Hf Hi' Hf' FA FA'. unfold jump2.
    rewrite <- !over_side_scal, <- !over_side_plus.
    rewrite (over_facing F i f i' f') by auto.
    match goal with |- _ = - ?X => replace (- X) with ((-1) * X) by lra end.
    rewrite <- over_side_scal. apply over_side_ext. intros q Hq. rewrite facing_rev by auto.
    rewrite (normal_facing F a i f i' f') by eauto. rewrite Rabs_Ropp. unfold lf_flux. rewrite Rabs_Ropp.
    set (p := trace F u i f q). set (p' := trace F u i' f' (nq F - 1 - q)%nat). set (an := normal_part F a i f). field. }
  rewrite I.
  assert (J : over_sides F (on_bnd F (fun i f => over_side F i f (fun q =>
     lf_flux (normal_part F a i f) al (trace F u i f q) (out_v F [] u i f q) * trace F u i f q))) =
     over_sides F (on_bnd F (fun i f => over_side F i f (fun q => normal_part F a i f * (trace F u i f q) ^ 2 / 2))) +
     (1 - al) / 2 * over_sides F (on_bnd F (fun i f => over_side F i f (fun q => Rabs (normal_part F a i f) * (trace F u i f q) ^ 2)))).
  { rewrite <- over_sides_scal, <- over_sides_plus. apply over_sides_ext. intros i f Hi Hf. unfold on_bnd.
    destruct (Z.ltb_spec (n0 F i f) 0) as [L|L]; [|lra].
    rewrite <- over_side_scal, <- over_side_plus. apply over_side_ext. intros q Hq. rewrite out_v_bnd by auto. unfold lf_flux. field. }
  rewrite J. lra.
Qed.

Theorem C165_dissipative : forall F al a u, unit_normals F -> mutual F -> matching F -> weights_nonneg F -> al <= 1 ->
  (forall i f i' f' k, (i < ncell F)%nat -> (f < nfac F)%nat -> facing F i f i' f' -> (k < dim F)%nat -> a i' k = a i k) ->
  over_sides F (fun i f => over_side F i f (fun q => normal_part F a i f * (trace F u i f q) ^ 2 / 2)) <=
  test_with F u (adv_residual F al a [] u).
Proof.
  intros F al a u U M MA W A EA. rewrite (C165_energy F al a u) by auto. cbv zeta.
  assert (P : forall x y, 0 <= Rabs x * y ^ 2) by (intros; apply Rmult_le_pos; [apply Rabs_pos|apply pow2_ge_0]).
  match goal with |- _ <= _ + _ * ?X + _ * ?Y => assert (0 <= X); [|assert (0 <= Y)] end.
  - apply over_sides_nonneg. intros i f Hi Hf. unfold on_int. destruct (n0 F i f <? 0)%Z; [lra|]. apply over_side_nonneg; auto.
  - apply over_sides_nonneg. intros i f Hi Hf. unfold on_bnd. destruct (n0 F i f <? 0)%Z; [|lra]. apply over_side_nonneg; auto.
  - assert (0 <= (1 - al) / 4) by lra. assert (0 <= (1 - al) / 2) by lra. nra.
Qed.

Print Assumptions C163_matrix_residual.
Print Assumptions C165_energy.
