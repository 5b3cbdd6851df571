(** Theorems about the penalty term and the nonlinear flux term of the DG method
    (C167, C168). *)
From Coq Require Import Reals ZArith Lra.
From Verif Require Import Base M_fmf L_fmf M_dgflux S_dgflux L_dgflux L_dgflux2 P_dgflux P_dgflux2.
Open Scope R_scope.

Lemma pen_form : forall F D Cw o e u i d,
  pen_residual F D Cw o e u i d = sm (nfac F) (fun f => over_side F i f (fun q =>
     sigma F D Cw o i f * (in_v F u i f q - out_v F e u i f q) * fb F d f q)).
Proof. intros. unfold pen_residual, over_side, whs, in_b. apply sm_ext. intros. apply sm_ext. intros. lra. Qed.

(** C167: the matrix of the penalty term is its exact linear part. *)
Theorem C167_matrix_residual : forall F D Cw o e u i d, mutual F -> boundary_data F e ->
  (i < ncell F)%nat -> (d < nnod F)%nat ->
  pen_residual F D Cw o e u i d =
  coo_apply (pen_matrix F D Cw o) u (i * nnod F + d) + pen_residual F D Cw o e (fun _ => 0) i d.
Proof.
  intros F D Cw o e u i d M B Hi Hd. unfold pen_matrix. rewrite coo_matrix by (auto using mutual_range).
  unfold pen_residual.
  assert (E1 : sm (nnod F) (fun b => pen_inner F D Cw o i d b * u (i * nnod F + b)%nat) =
     sm (nfac F) (fun f => sm (nq F) (fun q => sigma F D Cw o i f * in_v F u i f q * in_b F i d f q * whs F i f q))).
  { unfold pen_inner.
    rewrite (sm_ext _ _ (fun b => sm (nfac F) (fun f => sm (nq F) (fun q =>
       (dofs F u i b * in_b F i b f q) * (sigma F D Cw o i f * in_b F i d f q * whs F i f q))))).
    2:{ intros b _. rewrite <- sm_scalr. apply sm_ext. intros f _. rewrite <- sm_scalr. apply sm_ext. intros q _. unfold dofs. lra. }
    rewrite sm_swap. apply sm_ext. intros f _. rewrite sm_swap. apply sm_ext. intros q _. rewrite sm_scalr. unfold in_v. lra. }
  rewrite E1, <- sm_plus, <- sm_plus. apply sm_ext. intros f Hf.
  set (X := if (n0 F i f <? 0)%Z then 0 else sm (nnod F) (fun b => pen_outer F D Cw o i f d b * u (Z.to_nat (n0 F i f) * nnod F + b)%nat)).
  assert (EX : X = sm (nq F) (fun q => sigma F D Cw o i f * - (on_int F (fun i f =>
     sm (nnod F) (fun b => out_b F i b f q * u (Z.to_nat (n0 F i f) * nnod F + b)%nat)) i f) * in_b F i d f q * whs F i f q)).
  { unfold X, on_int. destruct (n0 F i f <? 0)%Z; [symmetry; apply sm_0; intros; lra|]. unfold pen_outer.
    rewrite (sm_ext _ _ (fun b => sm (nq F) (fun q =>
       (out_b F i b f q * u (Z.to_nat (n0 F i f) * nnod F + b)%nat) * - (sigma F D Cw o i f * in_b F i d f q * whs F i f q)))).
    2:{ intros b _. rewrite <- sm_scalr. apply sm_ext. intros q _. lra. }
    rewrite sm_swap. apply sm_ext. intros q _. rewrite sm_scalr. lra. }
  rewrite EX, <- !sm_plus. apply sm_ext. intros q _. rewrite !out_v_affine by auto.
  rewrite in_v_0, (on_int_0 F (fun b i f => out_b F i b f q)). lra.
Qed.

(** The penalty parameter is the same on facing sides. *)
Definition same_sigma (F : field) (D : nat -> nat -> nat -> R) : Prop :=
  forall i f i' f' k, (i < ncell F)%nat -> (f < nfac F)%nat -> facing F i f i' f' -> (k < dim F)%nat -> D i' k k = D i k k.
Lemma sigma_facing : forall F D Cw o i f i' f', matching F -> same_sigma F D -> (i < ncell F)%nat -> (f < nfac F)%nat ->
  facing F i f i' f' -> sigma F D Cw o i' f' = sigma F D Cw o i f.
Proof.
  intros F D Cw o i f i' f' (_ & V & _) SS Hi Hf FA. unfold sigma, nu, facet_vols.
  assert (E1 : sm (dim F) (fun k => D i' k k) = sm (dim F) (fun k => D i k k)) by (apply sm_ext; intros; eapply SS; eauto).
  assert (E2 : sm (nq F) (fun q => whs F i' f' q) = sm (nq F) (fun q => whs F i f q)).
  { apply sm_ext; intros. unfold whs. now rewrite (V i f i' f'). }
  now rewrite E1, E2.
Qed.

(** C167: testing the penalty of [u] with [v] is the sum of the products of the
    jumps, each facet once (half per side), plus the boundary values: a
    symmetric form. *)
Theorem C167_form : forall F D Cw o u v, mutual F -> matching F -> same_sigma F D ->
  test_with F v (pen_residual F D Cw o [] u) =
  / 2 * over_sides F (on_int F (fun i f => let i' := Z.to_nat (n0 F i f) in let f' := Z.to_nat (n1 F i f) in
     sigma F D Cw o i f * over_side F i f (fun q =>
       (trace F u i f q - trace F u i' f' (nq F - 1 - q)%nat) * (trace F v i f q - trace F v i' f' (nq F - 1 - q)%nat)))) +
  over_sides F (on_bnd F (fun i f => sigma F D Cw o i f * over_side F i f (fun q => trace F u i f q * trace F v i f q))).
Proof.
  intros F D Cw o u v M MA SS.
  rewrite (test_sides F v (fun i f q => sigma F D Cw o i f * (in_v F u i f q - out_v F [] u i f q))).
  2:{ intros. apply pen_form. }
  rewrite over_sides_split. f_equal.
  - cbv zeta.
    change (over_sides F (on_int F (fun i f => sigma F D Cw o i f * over_side F i f (fun q =>
       (trace F u i f q - trace F u (Z.to_nat (n0 F i f)) (Z.to_nat (n1 F i f)) (nq F - 1 - q)%nat) * (trace F v i f q - trace F v (Z.to_nat (n0 F i f)) (Z.to_nat (n1 F i f)) (nq F - 1 - q)%nat)))))
     with (inner2 F (fun i f i' f' => sigma F D Cw o i f * over_side F i f (fun q =>
       (trace F u i f q - trace F u i' f' (nq F - 1 - q)%nat) * (trace F v i f q - trace F v i' f' (nq F - 1 - q)%nat)))).
    transitivity (inner2 F (fun i f i' f' => over_side F i f (fun q => sigma F D Cw o i f *
       (trace F u i f q - trace F u i' f' (nq F - 1 - q)%nat) * trace F v i f q))).
    { apply over_sides_ext. intros i f Hi Hf. unfold on_int. destruct (Z.ltb_spec (n0 F i f) 0) as [L|L]; [auto|].
      destruct (mutual_other F M (i, f)) as (_ & _ & FA & _); [apply in_active; auto|]. unfold other in FA; cbn [fst snd] in FA.
      apply over_side_ext. intros q _. rewrite (out_v_nil F u i f q _ _ FA). reflexivity. }
    rewrite <- inner2_scal.
    match goal with |- ?A = ?B => enough (A + (-1) * B = 0) by lra end.
    rewrite <- inner2_scal, <- inner2_plus. apply inner2_anti; auto.
    intros i f i' f' Hi Hf Hi' Hf' FA FA'.
    rewrite <- !over_side_scal, <- !over_side_plus.
    rewrite (over_facing F i f i' f') by auto.
    match goal with |- _ = - ?X => replace (- X) with ((-1) * X) by lra end.
    rewrite <- over_side_scal. apply over_side_ext. intros q Hq. rewrite facing_rev by auto.
    rewrite (sigma_facing F D Cw o i f i' f') by auto. field.
  - apply over_sides_ext. intros i f Hi Hf. unfold on_bnd. destruct (Z.ltb_spec (n0 F i f) 0) as [L|L]; [|auto].
    rewrite <- over_side_scal. apply over_side_ext. intros q _. rewrite out_v_bnd by auto. rewrite in_v_trace. lra.
Qed.

Theorem C167_symmetric : forall F D Cw o u v, mutual F -> matching F -> same_sigma F D ->
  test_with F v (pen_residual F D Cw o [] u) = test_with F u (pen_residual F D Cw o [] v).
Proof.
  intros. rewrite !C167_form by auto. f_equal; [f_equal|]; apply over_sides_ext; intros i f Hi Hf; unfold on_int, on_bnd;
  destruct (n0 F i f <? 0)%Z; auto; cbv zeta; f_equal; apply over_side_ext; intros; lra.
Qed.

Lemma over_side_pos0 : forall F i f g, (forall q, (q < nq F)%nat -> 0 < w F q) -> 0 < vol F i f ->
  (forall q, (q < nq F)%nat -> 0 <= g q) -> over_side F i f g = 0 -> forall q, (q < nq F)%nat -> g q = 0.
Proof.
  intros F i f g W V P H.
  assert (X : forall n (h : nat -> R), (forall k, (k < n)%nat -> 0 <= h k) -> sm n h = 0 -> forall k, (k < n)%nat -> h k = 0).
  { induction n as [|n IH]; intros h Q Z k Hk; [lia|]. cbn in Z.
    assert (0 <= sm n h). { clear - Q. assert (forall m, (m <= n)%nat -> 0 <= sm m h); [|auto]. induction m; intros; cbn; [lra|].
      assert (0 <= h m) by (apply Q; lia). specialize (IHm ltac:(lia)). lra. }
    assert (0 <= h n) by (apply Q; lia).
    destruct (Nat.eq_dec k n) as [->|]; [lra|]. apply IH; [intros; apply Q; lia|lra|lia]. }
  intros q Hq. assert (Z : g q * (vol F i f * w F q) = 0).
  { apply (X (nq F) (fun q => g q * (vol F i f * w F q))); auto. intros k Hk. apply Rmult_le_pos; auto.
    specialize (W k Hk). apply Rlt_le, Rmult_lt_0_compat; auto. }
  assert (0 < vol F i f * w F q) by (apply Rmult_lt_0_compat; auto).
  apply Rmult_integral in Z. destruct Z; [auto|lra].
Qed.

(** C167: for positive parameter and weights the form is non-negative and
    vanishes only if the traces agree at all points of inner sides and vanish on
    the others. *)
Theorem C167_controls_jumps : forall F D Cw o u, mutual F -> matching F -> same_sigma F D ->
  (forall q, (q < nq F)%nat -> 0 < w F q) ->
  (forall i f, (i < ncell F)%nat -> (f < nfac F)%nat -> 0 < vol F i f /\ 0 < sigma F D Cw o i f) ->
  0 <= test_with F u (pen_residual F D Cw o [] u) /\
  (test_with F u (pen_residual F D Cw o [] u) = 0 -> forall i f q, (i < ncell F)%nat -> (f < nfac F)%nat -> (q < nq F)%nat ->
     (bnd F i f -> trace F u i f q = 0) /\
     (forall i' f', facing F i f i' f' -> trace F u i f q = trace F u i' f' (nq F - 1 - q)%nat)).
Proof.
  intros F D Cw o u M MA SS W P. rewrite C167_form by auto.
  match goal with |- 0 <= _ * over_sides F (on_int F ?A) + over_sides F (on_bnd F ?B) /\ _ => set (GA := A); set (GB := B) end.
  assert (WN : weights_nonneg F) by (split; intros; apply Rlt_le; [apply P; auto|auto]).
  assert (PA : forall i f, (i < ncell F)%nat -> (f < nfac F)%nat -> 0 <= GA i f).
  { intros i f Hi Hf. unfold GA. cbv zeta. apply Rmult_le_pos; [apply Rlt_le, P; auto|]. apply over_side_nonneg; auto. intros; cbv beta; apply Rle_0_sqr. }
  assert (PB : forall i f, (i < ncell F)%nat -> (f < nfac F)%nat -> 0 <= GB i f).
  { intros i f Hi Hf. unfold GB. apply Rmult_le_pos; [apply Rlt_le, P; auto|]. apply over_side_nonneg; auto. intros; cbv beta; apply Rle_0_sqr. }
  assert (QA : forall i f, (i < ncell F)%nat -> (f < nfac F)%nat -> 0 <= on_int F GA i f) by (intros; unfold on_int; destruct (n0 F i f <? 0)%Z; auto; lra).
  assert (QB : forall i f, (i < ncell F)%nat -> (f < nfac F)%nat -> 0 <= on_bnd F GB i f) by (intros; unfold on_bnd; destruct (n0 F i f <? 0)%Z; auto; lra).
  pose proof (over_sides_nonneg F _ QA) as NA. pose proof (over_sides_nonneg F _ QB) as NB.
  split; [lra|]. intros Z i f q Hi Hf Hq.
  assert (ZA : over_sides F (on_int F GA) = 0) by lra. assert (ZB : over_sides F (on_bnd F GB) = 0) by lra.
  assert (X : forall n (h : nat -> R), (forall k, (k < n)%nat -> 0 <= h k) -> sm n h = 0 -> forall k, (k < n)%nat -> h k = 0).
  { induction n as [|n IH]; intros h Q Y k Hk; [lia|]. cbn in Y.
    assert (0 <= sm n h). { clear - Q. assert (forall m, (m <= n)%nat -> 0 <= sm m h); [|auto]. induction m; intros; cbn; [lra|].
      assert (0 <= h m) by (apply Q; lia). specialize (IHm ltac:(lia)). lra. }
    assert (0 <= h n) by (apply Q; lia).
    destruct (Nat.eq_dec k n) as [->|]; [lra|]. apply IH; [intros; apply Q; lia|lra|lia]. }
  assert (SN : forall G, (forall i f, (i < ncell F)%nat -> (f < nfac F)%nat -> 0 <= G i f) -> over_sides F G = 0 ->
     forall i f, (i < ncell F)%nat -> (f < nfac F)%nat -> G i f = 0).
  { intros G Q Y j g Hj Hg. unfold over_sides in Y.
    assert (sm (nfac F) (fun f => G j f) = 0).
    { apply (X (ncell F) (fun i => sm (nfac F) (fun f => G i f))); auto. intros k Hk. clear - Q Hk.
      assert (forall m, (m <= nfac F)%nat -> 0 <= sm m (fun f => G k f)); [|auto]. induction m; intros; cbn; [lra|].
      assert (0 <= G k m) by (apply Q; lia). specialize (IHm ltac:(lia)). lra. }
    apply (X (nfac F) (fun f => G j f)); auto. }
  pose proof (SN _ QA ZA i f Hi Hf) as YA. pose proof (SN _ QB ZB i f Hi Hf) as YB.
  destruct (P i f Hi Hf) as [PV PS]. split.
  - intro B. unfold on_bnd, bnd in *. apply Z.ltb_lt in B. rewrite B in YB. unfold GB in YB.
    apply Rmult_integral in YB. destruct YB as [YB|YB]; [lra|].
    assert (E : trace F u i f q * trace F u i f q = 0).
    { apply (over_side_pos0 F i f (fun q => trace F u i f q * trace F u i f q)); auto. intros; cbv beta; apply Rle_0_sqr. }
    apply Rmult_integral in E. tauto.
  - intros i' f' (A & B). unfold on_int in YA. rewrite A in YA. destruct (Z.ltb_spec (Z.of_nat i') 0); [lia|].
    unfold GA in YA. cbv zeta in YA. rewrite A, B, !Nat2Z.id in YA.
    apply Rmult_integral in YA. destruct YA as [YA|YA]; [lra|].
    assert (E : (trace F u i f q - trace F u i' f' (nq F - 1 - q)%nat) * (trace F u i f q - trace F u i' f' (nq F - 1 - q)%nat) = 0).
    { apply (over_side_pos0 F i f (fun q => (trace F u i f q - trace F u i' f' (nq F - 1 - q)%nat) * (trace F u i f q - trace F u i' f' (nq F - 1 - q)%nat))); auto. intros; cbv beta; apply Rle_0_sqr. }
    apply Rmult_integral in E. destruct E; lra.
Qed.

(** ** Nonlinear flux *)
Definition nflux (F : field) (fu : R -> nat -> R) (al C : R) (i f : nat) (pin pout : R) : R :=
  sm (dim F) (fun k => nrm F i f k * (fu pin k + fu pout k)) / 2 + (1 - al) * C * (pin - pout) / 2.

Lemma mx_le : forall n g k, (k < n)%nat -> g k <= mx n g.
Proof.
  induction n as [|n IH]; intros g k H; [lia|]. cbn. destruct (Nat.eq_dec k n) as [->|]; [apply Rmax_r|].
  eapply Rle_trans; [apply IH; lia|apply Rmax_l].
Qed.
Lemma mx_lub : forall n g c, 0 <= c -> (forall k, (k < n)%nat -> g k <= c) -> mx n g <= c.
Proof.
  induction n as [|n IH]; intros g c P H; cbn; [auto|]. apply Rmax_lub; [apply IH; auto|apply H; lia].
Qed.
Lemma mx_nonneg : forall n g, 0 <= mx n g.
Proof. induction n as [|n IH]; intros; cbn; [lra|]. eapply Rle_trans; [apply IH|apply Rmax_l]. Qed.

Lemma nl_form : forall F al fu df e u i d, unit_normals F -> (i < ncell F)%nat ->
  nl_residual F al fu df e u i d = sm (nfac F) (fun f => over_side F i f (fun q =>
     nflux F fu al (nl_C F df e u i f) i f (in_v F u i f q) (out_v F e u i f q) * fb F d f q)).
Proof.
  intros F al fu df e u i d U Hi. unfold nl_residual. apply sm_ext. intros f Hf. rewrite sm_swap. unfold over_side.
  apply sm_ext. intros q _. cbv zeta. unfold whs, nflux.
  set (pi := in_v F u i f q). set (po := out_v F e u i f q). set (C := nl_C F df e u i f). set (W := vol F i f * w F q).
  rewrite (sm_ext _ _ (fun k => (nrm F i f k * (fu pi k + fu po k)) * (/ 2 * fb F d f q * W)
       + (nrm F i f k * nrm F i f k) * ((1 - al) / 2 * C * (pi - po) * fb F d f q * W))) by (intros; lra).
  rewrite sm_plus, !sm_scalr. rewrite (U i f Hi Hf). lra.
Qed.

(** C168: the residual of the nonlinear flux term is the integral of a
    Lax-Friedrichs flux whose wave speed is at least |n.f'| at all traces from
    both sides of the facet, and no larger than the largest of them. *)
Theorem C168_residual_is_flux : forall F al fu df e u i d, unit_normals F -> NoDup (map fst e) -> (i < ncell F)%nat ->
  exists (pout : nat -> nat -> R) (C : nat -> R), (forall f q, seen F e u i f q (pout f q)) /\
  (forall f q, (q < nq F)%nat ->
     Rabs (sm (dim F) (fun k => nrm F i f k * df (trace F u i f q) k)) <= C f /\
     Rabs (sm (dim F) (fun k => nrm F i f k * df (pout f q) k)) <= C f) /\
  (forall f c, 0 <= c -> (forall q, (q < nq F)%nat ->
     Rabs (sm (dim F) (fun k => nrm F i f k * df (trace F u i f q) k)) <= c /\
     Rabs (sm (dim F) (fun k => nrm F i f k * df (pout f q) k)) <= c) -> C f <= c) /\
  nl_residual F al fu df e u i d = sm (nfac F) (fun f => over_side F i f (fun q =>
     nflux F fu al (C f) i f (trace F u i f q) (pout f q) * fb F d f q)).
Proof.
  intros F al fu df e u i d U ND Hi. exists (fun f q => out_v F e u i f q), (nl_C F df e u i).
  split; [intros; now apply out_v_seen|]. split; [|split].
  - intros f q Hq. unfold nl_C. rewrite <- in_v_trace.
    match goal with |- _ <= mx _ ?g /\ _ => pose proof (mx_le (nq F) g q Hq) as X end. cbv beta in X.
    split; eapply Rle_trans; [apply Rmax_l|apply X|apply Rmax_r|apply X].
  - intros f c P H. unfold nl_C. apply mx_lub; auto. intros q Hq. destruct (H q Hq). apply Rmax_lub; auto.
  - now apply nl_form.
Qed.

(** The flux is consistent. *)
Theorem C168_consistent : forall F fu al C i f p, nflux F fu al C i f p p = sm (dim F) (fun k => nrm F i f k * fu p k).
Proof.
  intros. unfold nflux. rewrite (sm_ext _ _ (fun k => 2 * (nrm F i f k * fu p k))) by (intros; lra). rewrite sm_scal. lra.
Qed.

(** The wave speed is the same seen from both sides. *)
Lemma nl_C_facing : forall F df e u i f i' f', matching F -> boundary_data F e -> (i < ncell F)%nat -> (f < nfac F)%nat ->
  facing F i f i' f' -> facing F i' f' i f -> nl_C F df e u i' f' <= nl_C F df e u i f.
Proof.
  intros F df e u i f i' f' MA B Hi Hf FA FA'. unfold nl_C at 1. apply mx_lub; [apply mx_nonneg|].
  intros q Hq. assert (Hq' : (nq F - 1 - q < nq F)%nat) by lia.
  assert (AB : forall p, Rabs (sm (dim F) (fun k => nrm F i' f' k * df p k)) = Rabs (sm (dim F) (fun k => nrm F i f k * df p k))).
  { intros p. rewrite <- (Rabs_Ropp (sm (dim F) (fun k => nrm F i f k * df p k))). f_equal.
    match goal with |- _ = - ?X => replace (- X) with ((-1) * X) by lra end. rewrite <- sm_scal. apply sm_ext. intros k Hk.
    destruct MA as (MN & _). rewrite (MN i f i' f' k) by auto. lra. }
  rewrite !AB. rewrite (out_v_int F e u i' f' q i f) by auto.
  match goal with |- _ <= nl_C F df e u i f => unfold nl_C end.
  match goal with |- _ <= mx _ ?g => pose proof (mx_le (nq F) g (nq F - 1 - q)%nat Hq') as X end. cbv beta in X.
  rewrite (out_v_int F e u i f (nq F - 1 - q)%nat i' f') in X by auto. rewrite facing_rev in X by auto.
  rewrite !in_v_trace in *. rewrite Rmax_comm. exact X.
Qed.
Lemma nflux_anti : forall F fu al C i f i' f' p q, matching F -> (i < ncell F)%nat -> (f < nfac F)%nat -> facing F i f i' f' ->
  nflux F fu al C i' f' q p = - nflux F fu al C i f p q.
Proof.
  intros F fu al C i f i' f' p q (MN & _) Hi Hf FA. unfold nflux.
  rewrite (sm_ext _ _ (fun k => (-1) * (nrm F i f k * (fu p k + fu q k)))).
  - rewrite sm_scal. lra.
  - intros k Hk. rewrite (MN i f i' f' k) by auto. lra.
Qed.

(** C168: conservation: the residuals tested with the constant one add up to the
    fluxes through the sides without neighbour. *)
Theorem C168_conservation : forall F al fu df e u one, unit_normals F -> mutual F -> matching F -> boundary_data F e ->
  (forall i f q, (i < ncell F)%nat -> (f < nfac F)%nat -> (q < nq F)%nat -> trace F one i f q = 1) ->
  exists pout C, (forall i f q, seen F e u i f q (pout i f q)) /\
  test_with F one (nl_residual F al fu df e u) =
  over_sides F (on_bnd F (fun i f => over_side F i f (fun q =>
     nflux F fu al (C i f) i f (trace F u i f q) (pout i f q)))).
Proof.
  intros F al fu df e u one U M MA B ONE. exists (out_v F e u), (nl_C F df e u). split; [intros; apply out_v_seen, B|].
  rewrite (test_sides F one (fun i f q => nflux F fu al (nl_C F df e u i f) i f (in_v F u i f q) (out_v F e u i f q))).
  2:{ intros. now apply nl_form. }
  rewrite over_sides_split.
  transitivity (inner2 F (fun i f i' f' => over_side F i f (fun q =>
      nflux F fu al (nl_C F df e u i f) i f (trace F u i f q) (trace F u i' f' (nq F - 1 - q)%nat))) +
     over_sides F (on_bnd F (fun i f => over_side F i f (fun q => nflux F fu al (nl_C F df e u i f) i f (trace F u i f q) (out_v F e u i f q))))).
  - f_equal; apply over_sides_ext; intros i f Hi Hf.
    + unfold on_int. destruct (Z.ltb_spec (n0 F i f) 0) as [L|L]; [auto|].
      destruct (mutual_other F M (i, f)) as (_ & _ & FA & _); [apply in_active; auto|]. unfold other in FA; cbn [fst snd] in FA.
      apply over_side_ext. intros q Hq. rewrite (out_v_int F e u i f q _ _ B FA), ONE, in_v_trace by auto. lra.
    + unfold on_bnd. destruct (n0 F i f <? 0)%Z; [|auto]. apply over_side_ext. intros q Hq. rewrite ONE, in_v_trace by auto. lra.
  - rewrite inner2_anti; [lra|auto|].
    intros i f i' f' Hi Hf Hi' Hf' FA FA'. rewrite (over_facing F i f i' f') by auto.
    match goal with |- _ = - ?X => replace (- X) with ((-1) * X) by lra end.
    rewrite <- over_side_scal. apply over_side_ext. intros q Hq. rewrite facing_rev by auto.
    assert (EC : nl_C F df e u i' f' = nl_C F df e u i f) by (apply Rle_antisym; apply nl_C_facing; auto).
    rewrite EC, (nflux_anti F fu al (nl_C F df e u i f) i f i' f') by auto. lra.
Qed.

(** C168: for a linear flux f(p) = a p the term is the advection term. *)
Theorem C168_linear : forall F al (a : nat -> R) e u i d, (0 < nq F)%nat ->
  nl_residual F al (fun p k => a k * p) (fun _ k => a k) e u i d = adv_residual F al (fun _ => a) e u i d.
Proof.
  intros F al a e u i d Hq. unfold nl_residual, adv_residual. apply sm_ext. intros f Hf. apply sm_ext. intros k _. apply sm_ext. intros q _.
  cbv zeta. assert (E : nl_C F (fun _ k => a k) e u i f = adv_C F (fun _ => a) i f).
  { unfold nl_C, adv_C. apply Rle_antisym.
    - apply mx_lub; [apply Rabs_pos|]. intros. apply Rmax_lub; lra.
    - match goal with |- _ <= mx _ ?g => pose proof (mx_le (nq F) g 0%nat Hq) as X end. cbv beta in X.
      eapply Rle_trans; [|apply X]. apply Rmax_l. }
  rewrite E. lra.
Qed.

(** C168: the wave speed bounds |n.f'| at all states between the two traces if
    n.f' is monotone between them (a convex or concave flux)... *)
Theorem C168_wave_speed : forall F df e u i f q p, (q < nq F)%nat ->
  let g p := sm (dim F) (fun k => nrm F i f k * df p k) in
  (forall x y, x <= y -> g x <= g y) ->
  Rmin (in_v F u i f q) (out_v F e u i f q) <= p <= Rmax (in_v F u i f q) (out_v F e u i f q) ->
  Rabs (g p) <= nl_C F df e u i f.
Proof.
  intros F df e u i f q p Hq g Mo (L & H). unfold nl_C.
  match goal with |- _ <= mx _ ?h => pose proof (mx_le (nq F) h q Hq) as X end. cbv beta in X.
  eapply Rle_trans; [|apply X]. change (Rabs (g p) <= Rmax (Rabs (g (in_v F u i f q))) (Rabs (g (out_v F e u i f q)))).
  apply Mo in L. apply Mo in H. revert L H. generalize (in_v F u i f q) (out_v F e u i f q). intros x y.
  unfold Rmin, Rmax. destruct (Rle_dec x y); intros; destruct (Rle_dec (Rabs (g x)) (Rabs (g y)));
    unfold Rabs in *; repeat destruct Rcase_abs; lra.
Qed.

Print Assumptions C167_matrix_residual.
Print Assumptions C167_controls_jumps.
Print Assumptions C168_residual_is_flux.
Print Assumptions C168_conservation.
Print Assumptions C168_linear.
