(** Generalized Yeoh and Saint Venant-Kirchhoff materials. *)
From Coq Require Import Reals Lra Lia Arith List.
From Coquelicot Require Import Coquelicot.
From Verif Require Import Base M_fmf M_terms L_fmf S_terms L_terms M_hyper S_hyper L_hyper P_hyper.
Import ListNotations.
Open Scope R_scope.

Lemma npow_det : forall J, 0 < J -> npow (J ^ 2) (- 1 / 3) = detF23 J.
Proof.
  intros J H. assert (P : 0 < J ^ 2) by (apply pow_lt; auto). unfold npow. destruct (Rlt_dec 0 (J ^ 2)); [|contradiction].
  unfold Rpower, detF23. f_equal. replace (J ^ 2) with (J * J) by ring. rewrite ln_mult by auto. field.
Qed.
Lemma npow_det2 : forall J, 0 < J -> npow (J ^ 2) (- 2 / 3) = detF23 J * detF23 J.
Proof.
  intros J H. assert (P : 0 < J ^ 2) by (apply pow_lt; auto). unfold npow. destruct (Rlt_dec 0 (J ^ 2)); [|contradiction].
  unfold Rpower, detF23. rewrite <- exp_plus. f_equal. replace (J ^ 2) with (J * J) by ring. rewrite ln_mult by auto. field.
Qed.
Lemma derive_Rpower : forall (b : R -> R) (t0 b' y : R), 0 < b t0 -> is_derive b t0 b' ->
  is_derive (fun t => Rpower (b t) y) t0 (y * Rpower (b t0) (y - 1) * b').
Proof.
  intros b t0 b' y H Hb. unfold Rpower. eapply dval.
  - apply (dcomp (fun t => y * ln (b t)) exp). apply is_derive_exp. apply dscal. apply (dcomp b ln). apply is_derive_ln; auto. exact Hb.
  - cbv beta. replace ((y - 1) * ln (b t0)) with (y * ln (b t0) + - ln (b t0)) by ring. rewrite exp_plus, exp_Ropp, exp_ln by auto. ring.
Qed.
Lemma p_Jnear : forall dim F t0 E', path dim F t0 E' -> locally t0 (fun t => 0 < detF (fs dim F t)).
Proof.
  intros dim F t0 E' HP. pose proof (@p_det_ex _ _ _ _ HP) as HD. pose proof (ex_derive_continuous _ _ HD) as Cn.
  destruct HP as (_ & _ & Jp & _). apply (Cn (fun y => 0 < y)). apply open_gt. exact Jp.
Qed.

(** The distortion J^(-2/3) tr C - 3 that the generalized Yeoh material raises to powers. *)
Definition distortion (f : Fam) : R := Rpower (detF f) (- 2 / 3) * trC f - 3.

Definition yT (m K b : R) : R := m * K * Rpower b (m - 1).
Definition yT' (m K b : R) : R := m * K * ((m - 1) * Rpower b (m - 2)).
Theorem C146_genyeoh_partial : forall coef F t0 E', path 3 F t0 E' -> 0 < distortion (fs 3 F t0) ->
  forall ir, (ir < 6)%nat ->
  is_derive (fun t => stress_genyeoh coef (fs 3 F t) ir) t0 (sm 6 (fun ic => tan_mod_genyeoh coef (fs 3 F t0) ir ic * E' ic)).
Proof.
  intros coef F t0 E' HP Hb ir Hir.
  pose proof (@p_J _ _ _ _ HP) as HJ; pose proof (@p_23 _ _ _ _ HP) as H23;
  pose proof (@p_K _ _ _ _ HP ir Hir) as HK; pose proof (@p_tr _ _ _ _ HP) as HT. cbn [dim2sym] in HK, HT.
  set (tr := get_trace 6) in *.
  pose proof (@p_Jnear _ _ _ _ HP) as NJ.
  set (b := fun t => detF23 (detF (fs 3 F t)) * trC (fs 3 F t) - 3).
  assert (Hb0 : 0 < b t0) by exact Hb.
  assert (DB : is_derive b t0 (2 * detF23 (detF (fs 3 F t0)) * sm 6 (fun l => tr l * E' l) - 2 / 3 * detF23 (detF (fs 3 F t0)) * trC (fs 3 F t0) * KE 3 (fs 3 F t0) E')).
  { unfold b. eapply dval. der. cbv beta. field. }
  assert (NB : locally t0 (fun t => 0 < b t)).
  { assert (Cn : continuous b t0) by (apply (@ex_derive_continuous _ R_NormedModule); eexists; exact DB). apply (Cn (fun y => 0 < y)). apply open_gt. exact Hb0. }
  set (K1 := coef 0%nat). set (K2 := coef 1%nat). set (K3 := coef 2%nat). set (m := coef 3%nat). set (p := coef 4%nat). set (q := coef 5%nat).
  apply (is_derive_ext_loc (fun t => 2 * detF23 (detF (fs 3 F t)) * (yT m K1 (b t) + yT p K2 (b t) + yT q K3 (b t)) * (tr ir - trC (fs 3 F t) * / 3 * vecInvCS (fs 3 F t) ir))).
  { generalize (filter_and _ _ NJ NB). apply filter_imp. intros t (Jt & Bt).
    unfold stress_genyeoh. cbv zeta. unfold yeoh_bracket. rewrite npow_det by auto. fold (b t). fold tr m p q K1 K2 K3.
    unfold yeoh_pow. cbv zeta. destruct (Rle_dec (b t) 0); [lra|]. unfold npow. destruct (Rlt_dec 0 (b t)); [|lra].
    unfold yT. match goal with |- @eq _ ?a ?b => change (@eq R a b) end. field. }
  assert (DT : forall m K, is_derive (fun t => yT m K (b t)) t0 (yT' m K (b t0) *
     (2 * detF23 (detF (fs 3 F t0)) * sm 6 (fun l => tr l * E' l) - 2 / 3 * detF23 (detF (fs 3 F t0)) * trC (fs 3 F t0) * KE 3 (fs 3 F t0) E'))).
  { intros m' K'. unfold yT. eapply dval. apply dscal. apply derive_Rpower; [auto | exact DB]. unfold yT'.
    replace (m' - 1 - 1) with (m' - 2) by ring. ring. }
  pose proof (DT m K1) as D1. pose proof (DT p K2) as D2. pose proof (DT q K3) as D3. clear DT.
  eapply dval. der. cbv beta.
  destruct HP as (_ & _ & Jp & _).
  set (f := fs 3 F t0) in *. set (d := detF23 (detF f)) in *.
  assert (TM : forall ic, tan_mod_genyeoh coef f ir ic =
     let T := yT m K1 (b t0) + yT p K2 (b t0) + yT q K3 (b t0) in let T' := yT' m K1 (b t0) + yT' p K2 (b t0) + yT' q K3 (b t0) in
     4 / 3 * (3 * T' * (d * d) * tr ir * tr ic - (T' * trC f * (d * d) + T * d) * (tr ir * vecInvCS f ic + vecInvCS f ir * tr ic)
      + (T' * (trC f * trC f) * (d * d) + T * d * trC f) / 3 * vecInvCS f ir * vecInvCS f ic
      + / 2 * T * d * trC f * T4K 3 f ir ic)).
  { intros ic. unfold tan_mod_genyeoh. cbv zeta. unfold yeoh_bracket, yeoh_term. cbv zeta. rewrite npow_det, npow_det2 by auto.
    fold d. change (d * trC f - 3) with (b t0). fold m p q K1 K2 K3 tr. unfold yeoh_m1, yeoh_m2.
    destruct (Rlt_dec 0 (b t0)); [|contradiction]. unfold npow. destruct (Rlt_dec 0 (b t0)); [|contradiction].
    unfold yT, yT', T4K. field. }
  set (T := yT m K1 (b t0) + yT p K2 (b t0) + yT q K3 (b t0)) in *. 
  set (T' := yT' m K1 (b t0) + yT' p K2 (b t0) + yT' q K3 (b t0)) in *. cbv zeta in TM.
  rsum (fun ic => (4 * T' * (d * d) * tr ir - 4 / 3 * (T' * trC f * (d * d) + T * d) * vecInvCS f ir) * (tr ic * E' ic)
    + (- 4 / 3 * (T' * trC f * (d * d) + T * d) * tr ir + 4 / 9 * (T' * (trC f * trC f) * (d * d) + T * d * trC f) * vecInvCS f ir) * (vecInvCS f ic * E' ic)
    + (2 / 3 * T * d * trC f) * (T4K 3 f ir ic * E' ic)).
  2: { intros ic Hic. rewrite TM. field. }
  rewrite !sm_plus, !sm_scal. change (sm 6 (fun k => vecInvCS f k * E' k)) with (KE 3 f E').
  unfold T, T'. field.
Qed.

(** Saint Venant-Kirchhoff: with one material for many cells (the array is tiled, hence
    copied), the stress is D applied to the engineering Green strain, its derivative is D. *)
Theorem C146_svk_stress : forall dim nel m F t0 E', path dim F t0 E' -> (1 < nel)%nat ->
  let stress t := fst (svk_stress dim 1 nel m (fun _ => vecES (fs dim F t))) in
  snd (svk_stress dim 1 nel m (fun _ => vecES (fs dim F t0))) = m /\
  forall cell k, (cell < nel)%nat -> (k < dim2sym dim)%nat ->
  (forall t, stress t cell k = sm (dim2sym dim) (fun l => m 0%nat k l * (eng dim l * vecES (fs dim F t) l))) /\
  is_derive (fun t => stress t cell k) t0 (sm (dim2sym dim) (fun l => m 0%nat k l * E' l)).
Proof.
  intros dim nel m F t0 E' HP Hn stress.
  assert (T : tile_mat 1 nel m = (fun _ r c => m 0%nat r c, true)).
  { unfold tile_mat. rewrite (proj2 (Nat.ltb_lt _ _) Hn). reflexivity. }
  split. { unfold svk_stress. rewrite T. reflexivity. }
  intros cell k Hc Hk.
  assert (A : forall t, stress t cell k = sm (dim2sym dim) (fun l => m 0%nat k l * (eng dim l * vecES (fs dim F t) l))).
  { intros t. unfold stress, svk_stress. rewrite T. cbn [fst]. apply sm_ext. intros l Hl.
    unfold eng. destruct (Nat.leb_spec dim l); destruct (Nat.ltb_spec l dim); try lia; ring. }
  split; auto. eapply dext. { intros t. symmetry. apply A. }
  apply (@dsm _ (fun l t => m 0%nat k l * (eng dim l * vecES (fs dim F t) l))). intros l Hl.
  apply dscal. apply HP; auto.
Qed.

Definition Fsh (t : R) : nat -> R := fun k => match k with 0%nat => 1 | 1%nat => t | 4%nat => 1 | 8%nat => 1 | _ => 0 end.
Lemma Fsh_d : forall k t0, ex_derive (fun t => Fsh t k) t0.
Proof.
  intros k t0. destruct (Nat.eq_dec k 1) as [->|N].
  - exists 1. exact (@is_derive_id R_AbsRing t0).
  - exists 0. apply dext with (f := fun _ => Fsh 0 k); [|exact (dconst (Fsh 0 k) t0)].
    intros t. unfold Fsh. do 9 (try destruct k as [|k]); try reflexivity. exfalso; auto.
Qed.
Definition Esh (k : nat) : R := if (k =? 3)%nat then 1 else 0.
Lemma path_shear : path 3 Fsh 0 Esh.
Proof.
  assert (J : forall t, detF (fs 3 Fsh t) = 1) by (intros; cR; ring).
  assert (E1 : inv_eps < 1).
  { unfold inv_eps. rewrite <- Rinv_1. apply Rinv_lt_contravar. rewrite Rmult_1_l. apply pow_lt; lra. apply Rlt_pow_R1; [lra|lia]. }
  split; [right; right; auto|]. split; [|split; [rewrite J; lra|split; [rewrite J; lra|]]].
  - intros k Hk. apply Fsh_d.
  - intros k Hk. cbn [dim2sym] in Hk.
    pose proof (@is_derive_id R_AbsRing 0) as HI. 
    do 6 (try destruct k as [|k]); try (exfalso; lia).
    + eapply dext with (f := fun t => 0). intros; cR; field. eapply dval. apply dconst. reflexivity.
    + eapply dext with (f := fun t => t * t * / 2). intros; cR; field. eapply dval. der. unfold Esh. cbn. unfold one; cbn. ring.
    + eapply dext with (f := fun t => 0). intros; cR; field. eapply dval. apply dconst. reflexivity.
    + eapply dext with (f := fun t => t). intros; cR; field. eapply dval. exact HI. reflexivity.
    + eapply dext with (f := fun t => 0). intros; cR; field. eapply dval. apply dconst. reflexivity.
    + eapply dext with (f := fun t => 0). intros; cR; field. eapply dval. apply dconst. reflexivity.
Qed.
(** The tangent modulus of the code has the shear rows doubled: not the derivative of the stress. *)
Theorem C146_svk_tangent_refuted : exists nel m F t0 E' k, (1 < nel)%nat /\ path 3 F t0 E' /\ (k < 6)%nat /\
  ~ is_derive (fun t => fst (svk_stress 3 1 nel m (fun _ => vecES (fs 3 F t))) 0%nat k) t0
      (sm 6 (fun l => fst (svk_tan_mod 3 1 nel m) 0%nat k l * E' l)).
Proof.
  exists 2%nat, (fun _ i j => if (i =? j)%nat then 1 else 0), Fsh, 0, Esh, 3%nat.
  split; [lia|]. split; [apply path_shear|]. split; [lia|]. intros H.
  destruct (@C146_svk_stress 3 2 (fun _ i j => if (i =? j)%nat then 1 else 0) Fsh 0 Esh path_shear ltac:(lia)) as [_ Q].
  destruct (Q 0%nat 3%nat ltac:(lia) ltac:(cbn; lia)) as [_ Q2]. cbv beta in Q2.
  pose proof (is_derive_unique _ _ _ H) as U1. rewrite (is_derive_unique _ _ _ Q2) in U1.
  cbn in U1. unfold Esh in U1. cbn in U1. lra.
Qed.
(** The material array of the caller is changed when it is not tiled (one material per
    cell, or one cell): the same state evaluated twice gives two different stresses. *)
Theorem C146_svk_material_refuted : forall dim n_mat nel m e cell k, (0 < dim)%nat -> dim_ok dim ->
  n_mat <> 1%nat \/ nel = 1%nat ->
  let '(s1, m1) := svk_stress dim n_mat nel m e in
  let '(s2, m2) := svk_stress dim n_mat nel m1 e in
  s2 cell k - s1 cell k = 2 * sm (dim2sym dim) (fun l => if (dim <=? l)%nat then m cell k l * e cell l else 0).
Proof.
  intros dim n_mat nel m e cell k H0 HD HN.
  assert (T : forall m, tile_mat n_mat nel m = (m, false)).
  { intros m'. unfold tile_mat. destruct (Nat.eqb_spec n_mat 1); destruct (Nat.ltb_spec 1 nel); cbn; auto. exfalso. lia. }
  unfold svk_stress. rewrite !T. cbv beta iota. rewrite <- sm_scal.
  assert (SM : forall n f g, sm n f - sm n g = sm n (fun k => f k - g k)).
  { induction n; intros; cbn [sm]. ring. rewrite <- IHn. ring. }
  rewrite SM. apply sm_ext. intros l Hl. destruct (dim <=? l)%nat; ring.
Qed.
Example C146_svk_material_example :
  let m : mat_t := fun _ i j => if (i =? j)%nat then 1 else 0 in let e := fun (_ l : nat) => if (l =? 3)%nat then 1 else 0 in
  let '(s1, m1) := svk_stress 3 2 2 m e in let '(s2, m2) := svk_stress 3 2 2 m1 e in s1 0%nat 3%nat = 2 /\ s2 0%nat 3%nat = 4.
Proof. cbn. lra. Qed.

(** A state that meets the hypotheses of [C146_genyeoh_partial]: simple shear at t0 = 1. *)
Example C146_genyeoh_example : exists E', path 3 Fsh 1 E' /\ 0 < distortion (fs 3 Fsh 1).
Proof.
  exists (fun k => if (k =? 3)%nat then 1 else if (k =? 1)%nat then 1 else 0).
  assert (J : forall t, detF (fs 3 Fsh t) = 1) by (intros; cR; ring).
  assert (E1 : inv_eps < 1).
  { unfold inv_eps. rewrite <- Rinv_1. apply Rinv_lt_contravar. rewrite Rmult_1_l. apply pow_lt; lra. apply Rlt_pow_R1; [lra|lia]. }
  split.
  - split; [right; right; auto|]. split; [|split; [rewrite J; lra|split; [rewrite J; lra|]]].
    + intros k Hk. apply Fsh_d.
    + intros k Hk. cbn [dim2sym] in Hk.
      pose proof (@is_derive_id R_AbsRing 1) as HI. 
      do 6 (try destruct k as [|k]); try (exfalso; lia).
      * eapply dext with (f := fun t => 0). intros; cR; field. eapply dval. apply dconst. reflexivity.
      * eapply dext with (f := fun t => t * t * / 2). intros; cR; field. eapply dval. der. cbn. unfold one; cbn. field.
      * eapply dext with (f := fun t => 0). intros; cR; field. eapply dval. apply dconst. reflexivity.
      * eapply dext with (f := fun t => t). intros; cR; field. eapply dval. exact HI. reflexivity.
      * eapply dext with (f := fun t => 0). intros; cR; field. eapply dval. apply dconst. reflexivity.
      * eapply dext with (f := fun t => 0). intros; cR; field. eapply dval. apply dconst. reflexivity.
  - unfold distortion. rewrite J. unfold Rpower. rewrite ln_1, Rmult_0_r, exp_0.
    assert (trC (fs 3 Fsh 1) = 4) by (cR; ring). rewrite H. lra.
Qed.
Print Assumptions C146_genyeoh_partial.
Print Assumptions C146_svk_tangent_refuted.
