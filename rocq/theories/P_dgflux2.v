(** Theorems about the diffusion flux and penalty terms of the DG method
    (C166, C167). *)
From Coq Require Import Reals ZArith Lra.
From Verif Require Import Base M_fmf L_fmf M_dgflux S_dgflux L_dgflux L_dgflux2 P_dgflux.
Open Scope R_scope.

(** Normal derivative weighted with the row sums of [D]. *)
Definition dn (F : field) (D : nat -> nat -> nat -> R) (g : nat -> R) (i f : nat) : R :=
  sm (dim F) (fun k => Dsum F D i k * nrm F i f k * g k).

Lemma ds_form : forall F D e1 u i d,
  ds_residual F D e1 u i d = sm (nfac F) (fun f => over_side F i f (fun q =>
    (dn F D (fun k => in_vd F u k i f q) i f + dn F D (fun k => out_vd F e1 u k i f q) i f) / 2 * fb F d f q)).
Proof.
  intros. unfold ds_residual. apply sm_ext. intros f _. rewrite sm_swap. unfold over_side. apply sm_ext. intros q _. cbv zeta.
  unfold dn. rewrite <- sm_plus. unfold Rdiv. rewrite <- !sm_scalr. apply sm_ext. intros k _. unfold in_b, whs. lra.
Qed.
Lemma dv_form : forall F D e u i d,
  dv_residual F D e u i d = sm (nfac F) (fun f => over_side F i f (fun q =>
    dn F D (fun k => fbd F d f k q) i f / 2 * (in_v F u i f q - out_v F e u i f q))).
Proof.
  intros. unfold dv_residual. apply sm_ext. intros f _. rewrite sm_swap. unfold over_side. apply sm_ext. intros q _. cbv zeta.
  unfold dn, Rdiv. rewrite <- !sm_scalr. apply sm_ext. intros k _. unfold in_bd, whs. lra.
Qed.

Lemma dn_ext : forall F D g h i f, (forall k, (k < dim F)%nat -> g k = h k) -> dn F D g i f = dn F D h i f.
Proof. intros. unfold dn. apply sm_ext. intros. now rewrite H. Qed.
Lemma dn_plus : forall F D g h i f, dn F D (fun k => g k + h k) i f = dn F D g i f + dn F D h i f.
Proof. intros. unfold dn. rewrite <- sm_plus. apply sm_ext. intros. lra. Qed.
Lemma dn_0 : forall F D g i f, (forall k, (k < dim F)%nat -> g k = 0) -> dn F D g i f = 0.
Proof. intros. unfold dn. apply sm_0. intros. rewrite H by auto. lra. Qed.

(** Linear parts as matrices. *)
Lemma in_vd_0 : forall F k i f q, in_vd F (fun _ => 0) k i f q = 0.
Proof. intros. apply sm_0. intros. unfold dofs. lra. Qed.
Lemma in_v_0 : forall F i f q, in_v F (fun _ => 0) i f q = 0.
Proof. intros. apply sm_0. intros. unfold dofs. lra. Qed.
Lemma on_int_0 : forall F (g : nat -> nat -> nat -> R) i f, on_int F (fun i f => sm (nnod F) (fun b => g b i f * 0)) i f = 0.
Proof. intros. unfold on_int. destruct (n0 F i f <? 0)%Z; [auto|]. apply sm_0; intros; lra. Qed.

(** C166: both modes of the diffusion flux term have the matrix of their exact
    linear part. *)
Theorem C166_matrix_avg_state : forall F D e1 u i d, mutual F -> (forall k, boundary_data F (e1 k)) ->
  (i < ncell F)%nat -> (d < nnod F)%nat ->
  ds_residual F D e1 u i d =
  coo_apply (ds_matrix F D) u (i * nnod F + d) + ds_residual F D e1 (fun _ => 0) i d.
Proof.
  intros F D e1 u i d M B Hi Hd. unfold ds_matrix. rewrite coo_matrix by (auto using mutual_range).
  unfold ds_residual.
  assert (E1 : sm (nnod F) (fun b => ds_inner F D i d b * u (i * nnod F + b)%nat) =
     sm (nfac F) (fun f => sm (dim F) (fun k => sm (nq F) (fun q =>
        Dsum F D i k * in_vd F u k i f q / 2 * nrm F i f k * in_b F i d f q * whs F i f q)))).
  { unfold ds_inner.
    rewrite (sm_ext _ _ (fun b => sm (nfac F) (fun f => sm (dim F) (fun k => sm (nq F) (fun q =>
       (dofs F u i b * in_bd F i b f k q) * (Dsum F D i k / 2 * nrm F i f k * in_b F i d f q * whs F i f q)))))).
    2:{ intros b _. rewrite <- sm_scalr. apply sm_ext. intros f _. rewrite <- sm_scalr. apply sm_ext. intros k _.
        rewrite <- sm_scalr. apply sm_ext. intros q _. unfold dofs. lra. }
    rewrite sm_swap. apply sm_ext. intros f _. rewrite sm_swap. apply sm_ext. intros k _.
    rewrite sm_swap. apply sm_ext. intros q _. rewrite sm_scalr. unfold in_vd. lra. }
  rewrite E1, <- sm_plus, <- sm_plus. apply sm_ext. intros f Hf.
  set (X := if (n0 F i f <? 0)%Z then 0 else sm (nnod F) (fun b => ds_outer F D i f d b * u (Z.to_nat (n0 F i f) * nnod F + b)%nat)).
  assert (EX : X = sm (dim F) (fun k => sm (nq F) (fun q => Dsum F D i k * (on_int F (fun i f =>
     sm (nnod F) (fun b => out_bd F i b f k q * u (Z.to_nat (n0 F i f) * nnod F + b)%nat)) i f) / 2 * nrm F i f k * in_b F i d f q * whs F i f q))).
  { unfold X, on_int. destruct (n0 F i f <? 0)%Z; [symmetry; apply sm_0; intros; apply sm_0; intros; lra|]. unfold ds_outer.
    rewrite (sm_ext _ _ (fun b => sm (dim F) (fun k => sm (nq F) (fun q =>
       (out_bd F i b f k q * u (Z.to_nat (n0 F i f) * nnod F + b)%nat) * (Dsum F D i k / 2 * nrm F i f k * in_b F i d f q * whs F i f q))))).
    2:{ intros b _. rewrite <- sm_scalr. apply sm_ext. intros k _. rewrite <- sm_scalr. apply sm_ext. intros q _. lra. }
    rewrite sm_swap. apply sm_ext. intros k _. rewrite sm_swap. apply sm_ext. intros q _. rewrite sm_scalr. lra. }
  rewrite EX, <- !sm_plus. apply sm_ext. intros k _. rewrite <- !sm_plus. apply sm_ext. intros q _. cbv zeta.
  rewrite !out_vd_affine by auto. rewrite in_vd_0, (on_int_0 F (fun b i f => out_bd F i b f k q)). lra.
Qed.

Theorem C166_matrix_avg_virtual : forall F D e u i d, mutual F -> boundary_data F e ->
  (i < ncell F)%nat -> (d < nnod F)%nat ->
  dv_residual F D e u i d =
  coo_apply (dv_matrix F D) u (i * nnod F + d) + dv_residual F D e (fun _ => 0) i d.
Proof.
  intros F D e u i d M B Hi Hd. unfold dv_matrix. rewrite coo_matrix by (auto using mutual_range).
  unfold dv_residual.
  assert (E1 : sm (nnod F) (fun b => dv_inner F D i d b * u (i * nnod F + b)%nat) =
     sm (nfac F) (fun f => sm (dim F) (fun k => sm (nq F) (fun q =>
        Dsum F D i k * in_bd F i d f k q / 2 * nrm F i f k * in_v F u i f q * whs F i f q)))).
  { unfold dv_inner.
    rewrite (sm_ext _ _ (fun b => sm (nfac F) (fun f => sm (dim F) (fun k => sm (nq F) (fun q =>
       (dofs F u i b * in_b F i b f q) * (Dsum F D i k * in_bd F i d f k q / 2 * nrm F i f k * whs F i f q)))))).
    2:{ intros b _. rewrite <- sm_scalr. apply sm_ext. intros f _. rewrite <- sm_scalr. apply sm_ext. intros k _.
        rewrite <- sm_scalr. apply sm_ext. intros q _. unfold dofs. lra. }
    rewrite sm_swap. apply sm_ext. intros f _. rewrite sm_swap. apply sm_ext. intros k _.
    rewrite sm_swap. apply sm_ext. intros q _. rewrite sm_scalr. unfold in_v. lra. }
  rewrite E1, <- sm_plus, <- sm_plus. apply sm_ext. intros f Hf.
  set (X := if (n0 F i f <? 0)%Z then 0 else sm (nnod F) (fun b => dv_outer F D i f d b * u (Z.to_nat (n0 F i f) * nnod F + b)%nat)).
  assert (EX : X = sm (dim F) (fun k => sm (nq F) (fun q => Dsum F D i k * in_bd F i d f k q / 2 * nrm F i f k * - (on_int F (fun i f =>
     sm (nnod F) (fun b => out_b F i b f q * u (Z.to_nat (n0 F i f) * nnod F + b)%nat)) i f) * whs F i f q))).
  { unfold X, on_int. destruct (n0 F i f <? 0)%Z; [symmetry; apply sm_0; intros; apply sm_0; intros; lra|]. unfold dv_outer.
    rewrite (sm_ext _ _ (fun b => sm (dim F) (fun k => sm (nq F) (fun q =>
       (out_b F i b f q * u (Z.to_nat (n0 F i f) * nnod F + b)%nat) * (- (Dsum F D i k * in_bd F i d f k q / 2 * nrm F i f k * whs F i f q)))))).
    2:{ intros b _. rewrite <- sm_scalr. apply sm_ext. intros k _. rewrite <- sm_scalr. apply sm_ext. intros q _. lra. }
    rewrite sm_swap. apply sm_ext. intros k _. rewrite sm_swap. apply sm_ext. intros q _. rewrite sm_scalr. lra. }
  rewrite EX, <- !sm_plus. apply sm_ext. intros k _. rewrite <- !sm_plus. apply sm_ext. intros q _. cbv zeta.
  rewrite !out_v_affine by auto. rewrite in_v_0, (on_int_0 F (fun b i f => out_b F i b f q)). lra.
Qed.

(** Outer derivatives without prescribed values. *)
Lemma out_vd_bnd : forall F u k i f q, bnd F i f -> out_vd F (fun _ => []) u k i f q = 0.
Proof.
  intros F u k i f q B. rewrite out_vd_affine by (split; [constructor|]; intros ? ? ? []).
  unfold on_int, bval, set_ebc; cbn [fold_left]. unfold bnd in B. apply Z.ltb_lt in B. rewrite B. lra.
Qed.
Lemma out_vd_facing : forall F u k i f q i' f', facing F i f i' f' ->
  out_vd F (fun _ => []) u k i f q = dtrace F u k i' f' (nq F - 1 - q)%nat.
Proof.
  intros F u k i f q i' f' (A & B). rewrite out_vd_affine by (split; [constructor|]; intros ? ? ? []).
  unfold on_int, bval, set_ebc; cbn [fold_left]. rewrite A. destruct (Z.ltb_spec (Z.of_nat i') 0); [lia|].
  rewrite Rplus_0_l. apply sm_ext. intros b _. unfold out_bd. rewrite B, npidx_nat, Nat2Z.id. lra.
Qed.

(** Testing the "avg_virtual" residual. *)
Lemma dv_test : forall F D e u v,
  test_with F v (dv_residual F D e u) = over_sides F (fun i f => over_side F i f (fun q =>
     dn F D (fun k => dtrace F v k i f q) i f / 2 * (in_v F u i f q - out_v F e u i f q))).
Proof.
  intros. unfold test_with, over_sides. apply sm_ext. intros i Hi.
  rewrite (sm_ext _ _ (fun d => sm (nfac F) (fun f => sm (nq F) (fun q => sm (dim F) (fun k => v (i * nnod F + d)%nat * fbd F d f k q *
      (Dsum F D i k * nrm F i f k / 2 * (in_v F u i f q - out_v F e u i f q) * (vol F i f * w F q))))))).
  2:{ intros d Hd. rewrite dv_form. rewrite <- sm_scal. apply sm_ext. intros f _. unfold over_side, dn, Rdiv. rewrite <- sm_scal. apply sm_ext. intros q _.
      rewrite <- !sm_scalr, <- sm_scal. apply sm_ext. intros k _. lra. }
  rewrite sm_swap. apply sm_ext. intros f _. rewrite sm_swap. unfold over_side. apply sm_ext. intros q _.
  rewrite sm_swap. unfold dn, Rdiv. rewrite <- !sm_scalr. apply sm_ext. intros k _. rewrite sm_scalr. unfold dtrace. lra.
Qed.

(** C166: with a tensor equal in facing cells, the two modes are transposes of
    each other: term(state u, test v) of one is term(state v, test u) of the
    other, for all u and v. *)
Theorem C166_transposed : forall F D u v, mutual F -> matching F ->
  (forall i f i' f' k l, (i < ncell F)%nat -> (f < nfac F)%nat -> facing F i f i' f' -> (k < dim F)%nat -> (l < dim F)%nat -> D i' k l = D i k l) ->
  test_with F v (ds_residual F D (fun _ => []) u) = test_with F u (dv_residual F D [] v).
Proof.
  intros F D u v M MA ED. rewrite dv_test.
  rewrite (test_sides F v (fun i f q => (dn F D (fun k => in_vd F u k i f q) i f + dn F D (fun k => out_vd F (fun _ => []) u k i f q) i f) / 2)).
  2:{ intros. apply ds_form. }
  rewrite (over_sides_split F (fun i f => over_side F i f (fun q => _ * trace F v i f q))).
  rewrite (over_sides_split F (fun i f => over_side F i f (fun q => dn F D (fun k => dtrace F u k i f q) i f / 2 * _))).
  f_equal.
  - (* inner sides *)
    transitivity (inner2 F (fun i f i' f' => over_side F i f (fun q => (dn F D (fun k => dtrace F u k i f q) i f + dn F D (fun k => dtrace F u k i' f' (nq F - 1 - q)%nat) i f) / 2 * trace F v i f q))).
    { apply over_sides_ext. intros i f Hi Hf. unfold on_int. destruct (Z.ltb_spec (n0 F i f) 0) as [L|L]; [auto|].
      destruct (mutual_other F M (i, f)) as (_ & _ & FA & _); [apply in_active; auto|]. unfold other in FA; cbn [fst snd] in FA.
      apply over_side_ext. intros q _. do 2 f_equal. f_equal. apply dn_ext. intros k _. now apply out_vd_facing. }
    transitivity (inner2 F (fun i f i' f' => over_side F i f (fun q => dn F D (fun k => dtrace F u k i f q) i f / 2 * (trace F v i f q - trace F v i' f' (nq F - 1 - q)%nat)))).
    2:{ apply over_sides_ext. intros i f Hi Hf. unfold on_int. destruct (Z.ltb_spec (n0 F i f) 0) as [L|L]; [auto|].
      destruct (mutual_other F M (i, f)) as (_ & _ & FA & _); [apply in_active; auto|]. unfold other in FA; cbn [fst snd] in FA.
      apply over_side_ext. intros q _. rewrite (out_v_nil F v i f q _ _ FA). reflexivity. }
    match goal with |- ?A = ?B => enough (A + (-1) * B = 0) by lra end.
    rewrite <- inner2_scal, <- inner2_plus.
    set (T := fun i f i' f' => over_side F i f (fun q => dn F D (fun k => dtrace F u k i' f' (nq F - 1 - q)%nat) i f / 2 * trace F v i f q)).
    set (T' := fun i f i' f' => over_side F i f (fun q => dn F D (fun k => dtrace F u k i f q) i f / 2 * trace F v i' f' (nq F - 1 - q)%nat)).
    transitivity (inner2 F (fun i f i' f' => T i f i' f' + T' i f i' f')).
    { apply inner2_ext; auto. intros i f i' f' Hi Hf Hi' Hf' FA FA'. unfold T, T'.
      rewrite <- over_side_scal, <- !over_side_plus. apply over_side_ext. intros q _. lra. }
    rewrite inner2_plus, (inner2_swap F T) by auto.
    enough (inner2 F (fun i f i' f' => T i' f' i f + T' i f i' f') = 0) by (rewrite inner2_plus in H; lra).
    transitivity (inner2 F (fun _ _ _ _ => 0 * 0)); [|rewrite inner2_scal; lra].
    apply inner2_ext; auto. intros i f i' f' Hi Hf Hi' Hf' FA FA'. unfold T, T'.
    rewrite (over_facing F i f i' f') by auto. rewrite <- over_side_plus.
    transitivity (over_side F i f (fun _ => 0 * 0)); [|rewrite over_side_scal; lra].
    apply over_side_ext. intros q Hq. rewrite facing_rev by auto.
    assert (E : dn F D (fun k => dtrace F u k i f q) i' f' = - dn F D (fun k => dtrace F u k i f q) i f).
    { unfold dn. match goal with |- _ = - ?X => replace (- X) with ((-1) * X) by lra end. rewrite <- sm_scal. apply sm_ext. intros k Hk.
      destruct MA as (MN & _ & _). rewrite (MN i f i' f' k) by auto.
      assert (Dsum F D i' k = Dsum F D i k) by (apply sm_ext; intros; eauto). rewrite H. lra. }
    rewrite E. lra.
  - apply over_sides_ext. intros i f Hi Hf. unfold on_bnd. destruct (Z.ltb_spec (n0 F i f) 0) as [L|L]; [|auto].
    apply over_side_ext. intros q _. rewrite out_v_bnd by auto. rewrite (dn_0 F D (fun k => out_vd F _ u k i f q)); [unfold in_v, trace, in_vd, dtrace, in_b, in_bd, dofs; lra|].
    intros k _. now apply out_vd_bnd.
Qed.

(** C166: for a diagonal tensor the "avg_state" residual is the integral of the
    normal component of D times the mean of the two gradients. *)
Theorem C166_diagonal_flux : forall F D u i d, mutual F ->
  (forall i k l, (i < ncell F)%nat -> (k < dim F)%nat -> (l < dim F)%nat -> k <> l -> D i k l = 0) ->
  (forall f, (f < nfac F)%nat -> ~ bnd F i f) -> (i < ncell F)%nat ->
  ds_residual F D (fun _ => []) u i d = sm (nfac F) (fun f => over_side F i f (fun q =>
     sm (dim F) (fun k => nrm F i f k * sm (dim F) (fun l => D i k l *
       ((dtrace F u l i f q + dtrace F u l (Z.to_nat (n0 F i f)) (Z.to_nat (n1 F i f)) (nq F - 1 - q)%nat) / 2))) * fb F d f q)).
Proof.
  intros F D u i d M DG NB Hi. rewrite ds_form. apply sm_ext. intros f Hf.
  destruct (mutual_other F M (i, f)) as (_ & _ & FA & _).
  { apply in_active. repeat split; auto. specialize (NB f Hf). unfold bnd in NB. lia. }
  unfold other in FA; cbn [fst snd] in FA.
  apply over_side_ext. intros q _. f_equal.
  rewrite (dn_ext F D (fun k => out_vd F (fun _ => []) u k i f q) (fun k => dtrace F u k (Z.to_nat (n0 F i f)) (Z.to_nat (n1 F i f)) (nq F - 1 - q)%nat)).
  2:{ intros k _. now apply out_vd_facing. }
  rewrite <- dn_plus. unfold dn, Rdiv. rewrite <- sm_scalr. apply sm_ext. intros k Hk.
  assert (DD : Dsum F D i k = D i k k).
  { unfold Dsum. rewrite (sm_ext _ _ (fun l => if l =? k then D i k l else 0)); [apply (sm_pick (dim F) k (fun l => D i k l)); auto|].
    intros l Hl. destruct (Nat.eqb_spec l k); [auto|]. apply DG; auto. }
  rewrite DD.
  rewrite (sm_ext (dim F) (fun l => D i k l * _) (fun l => if l =? k then D i k l * ((dtrace F u l i f q + dtrace F u l (Z.to_nat (n0 F i f)) (Z.to_nat (n1 F i f)) (nq F - 1 - q)%nat) * / 2) else 0)).
  - rewrite (sm_pick (dim F) k (fun l => D i k l * ((dtrace F u l i f q + dtrace F u l (Z.to_nat (n0 F i f)) (Z.to_nat (n1 F i f)) (nq F - 1 - q)%nat) * / 2))) by auto.
    rewrite in_vd_trace. lra.
  - intros l Hl. destruct (Nat.eqb_spec l k); [auto|]. rewrite (DG i k l) by auto. lra.
Qed.

Print Assumptions C166_matrix_avg_state.
Print Assumptions C166_matrix_avg_virtual.
Print Assumptions C166_transposed.
Print Assumptions C166_diagonal_flux.
