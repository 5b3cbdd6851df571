(** Hyperelastic terms: the updated formulation against the total one. *)
From Coq Require Import Reals Lra Lia Arith.
From Verif Require Import Base M_fmf M_terms L_fmf S_terms L_terms M_hyper S_hyper L_hyper P_hyper P_hyper2.
Open Scope R_scope.

Lemma push2_ext : forall dim F A B i j, (forall I J, (I < dim)%nat -> (J < dim)%nat -> A I J = B I J) -> push2 dim F A i j = push2 dim F B i j.
Proof. intros. unfold push2. apply sm_ext; intros I HI. apply sm_ext; intros J HJ. rewrite H; auto. Qed.
Lemma push2_lin : forall dim F a A b B i j, push2 dim F (fun I J => a * A I J + b * B I J) i j = a * push2 dim F A i j + b * push2 dim F B i j.
Proof.
  intros. unfold push2. rewrite <- !sm_scal, <- sm_plus. apply sm_ext; intros I HI.
  rewrite <- !sm_scal, <- sm_plus. apply sm_ext; intros J HJ. ring.
Qed.
Lemma push2_scal : forall dim F a A i j, push2 dim F (fun I J => a * A I J) i j = a * push2 dim F A i j.
Proof.
  intros. unfold push2. rewrite <- !sm_scal. apply sm_ext; intros I HI.
  rewrite <- !sm_scal. apply sm_ext; intros J HJ. ring.
Qed.
Lemma push4_ext : forall dim F A B i j k l, (forall I J K L, (I < dim)%nat -> (J < dim)%nat -> (K < dim)%nat -> (L < dim)%nat -> A I J K L = B I J K L) ->
  push4 dim F A i j k l = push4 dim F B i j k l.
Proof.
  intros. unfold push4. apply sm_ext; intros I HI. apply sm_ext; intros J HJ. apply sm_ext; intros K HK. apply sm_ext; intros L HL.
  rewrite H; auto.
Qed.
Lemma push4_lin : forall dim F a A b B i j k l, push4 dim F (fun I J K L => a * A I J K L + b * B I J K L) i j k l = a * push4 dim F A i j k l + b * push4 dim F B i j k l.
Proof.
  intros. unfold push4. rewrite <- !sm_scal, <- sm_plus. apply sm_ext; intros I HI.
  rewrite <- !sm_scal, <- sm_plus. apply sm_ext; intros J HJ. rewrite <- !sm_scal, <- sm_plus. apply sm_ext; intros K HK.
  rewrite <- !sm_scal, <- sm_plus. apply sm_ext; intros L HL. ring.
Qed.
Lemma push4_dyad : forall dim F A B i j k l, push4 dim F (fun I J K L => A I J * B K L) i j k l = push2 dim F A i j * push2 dim F B k l.
Proof.
  intros. unfold push4, push2. rewrite <- sm_scalr. apply sm_ext; intros I HI. rewrite <- sm_scalr. apply sm_ext; intros J HJ.
  rewrite <- sm_scal. apply sm_ext; intros K HK. rewrite <- sm_scal. apply sm_ext; intros L HL. ring.
Qed.
Lemma push4_ikjl : forall dim F A B i j k l, push4 dim F (fun I J K L => A I K * B J L) i j k l = push2 dim F A i k * push2 dim F B j l.
Proof.
  intros. unfold push4, push2. rewrite <- sm_scalr. apply sm_ext; intros I HI.
  rewrite sm_swap. rewrite <- sm_scalr. apply sm_ext; intros K HK.
  rewrite <- sm_scal. apply sm_ext; intros J HJ. rewrite <- sm_scal. apply sm_ext; intros L HL. ring.
Qed.
Lemma push4_iljk : forall dim F A B i j k l, push4 dim F (fun I J K L => A I L * B J K) i j k l = push2 dim F A i l * push2 dim F B j k.
Proof.
  intros. unfold push4, push2. rewrite <- sm_scalr. apply sm_ext; intros I HI.
  transitivity (sm dim (fun L => sm dim (fun J => sm dim (fun K => F (dim * i + I)%nat * F (dim * j + J)%nat * F (dim * k + K)%nat * F (dim * l + L)%nat * (A I L * B J K))))).
  { rewrite sm_swap. rewrite (@sm_ext dim _ (fun K => sm dim (fun L => sm dim (fun J => F (dim * i + I)%nat * F (dim * j + J)%nat * F (dim * k + K)%nat * F (dim * l + L)%nat * (A I L * B J K))))).
    2: { intros K HK. apply sm_swap. }
    rewrite sm_swap. apply sm_ext; intros L HL. apply sm_swap. }
  rewrite <- sm_scalr. apply sm_ext; intros L HL.
  rewrite <- sm_scal. apply sm_ext; intros J HJ. rewrite <- sm_scal. apply sm_ext; intros K HK. ring.
Qed.

Ltac idx i H := destruct i as [|[|[|i]]]; try (exfalso; lia).
(** K_ik K_jl + K_il K_jk of the code in full components. *)
Lemma t4_full : forall dim a i j k l, dim_ok dim -> (i < dim)%nat -> (j < dim)%nat -> (k < dim)%nat -> (l < dim)%nat ->
  mulT4_ikjl dim a a (t4s dim (dim * i + j)) (t4s dim (dim * k + l)) + mulT4_iljk dim a a (t4s dim (dim * i + j)) (t4s dim (dim * k + l))
  = tens2 dim a i k * tens2 dim a j l + tens2 dim a i l * tens2 dim a j k.
Proof.
  intros dim a i j k l [-> | [-> | ->]] Hi Hj Hk Hl; idx i Hi; idx j Hj; idx k Hk; idx l Hl; cR; ring.
Qed.

Definition tr_ (dim : nat) := get_trace (dim2sym dim).
Lemma tr_delta : forall dim i j, dim_ok dim -> (i < dim)%nat -> (j < dim)%nat -> tens2 dim (tr_ dim) i j = if (i =? j)%nat then 1 else 0.
Proof. intros dim i j [-> | [-> | ->]] Hi Hj; idx i Hi; idx j Hj; reflexivity. Qed.
Lemma push_delta : forall dim F i j, dim_ok dim -> (i < dim)%nat -> (j < dim)%nat ->
  push2 dim F (tens2 dim (tr_ dim)) i j = tens2 dim (vecCS (finite_strain true dim F)) i j.
Proof. intros dim F i j [-> | [-> | ->]] Hi Hj; idx i Hi; idx j Hj; cR; ring. Qed.
Lemma push_adj : forall dim F i j, dim_ok dim -> (i < dim)%nat -> (j < dim)%nat ->
  push2 dim F (tens2 dim (adjv dim (vecCS (finite_strain false dim F)))) i j
  = geme_det3x3 dim F * geme_det3x3 dim F * tens2 dim (tr_ dim) i j.
Proof. intros dim F i j [-> | [-> | ->]] Hi Hj; idx i Hi; idx j Hj; cR; ring. Qed.
Lemma push_C : forall dim F i j, dim_ok dim -> (i < dim)%nat -> (j < dim)%nat ->
  push2 dim F (tens2 dim (vecCS (finite_strain false dim F))) i j
  = sm dim (fun k => tens2 dim (vecCS (finite_strain true dim F)) i k * tens2 dim (vecCS (finite_strain true dim F)) k j).
Proof. intros dim F i j [-> | [-> | ->]] Hi Hj; idx i Hi; idx j Hj; cR; ring. Qed.
Lemma push_invC : forall dim F i j, dim_ok dim -> (i < dim)%nat -> (j < dim)%nat ->
  inv_eps < geme_det3x3 dim F * geme_det3x3 dim F ->
  push2 dim F (tens2 dim (vecInvCS (finite_strain false dim F))) i j = tens2 dim (tr_ dim) i j.
Proof.
  intros dim F i j D Hi Hj He. pose proof eps_pos.
  rewrite (@push2_ext dim F _ (fun I J => / (geme_det3x3 dim F * geme_det3x3 dim F) * tens2 dim (adjv dim (vecCS (finite_strain false dim F))) I J)).
  - rewrite push2_scal, push_adj by auto. field. nra.
  - intros I J HI HJ. unfold tens2. rewrite invC_adj by (auto; apply t4_lt; auto).
    rewrite dC_det by auto. cbn [detF finite_strain]. rewrite safe_inv_big by auto. ring.
Qed.
Lemma ul_tr : forall dim F, dim_ok dim -> trC (finite_strain true dim F) = trC (finite_strain false dim F).
Proof. intros dim F [-> | [-> | ->]]; cR; ring. Qed.
Lemma ul_in2 : forall dim F, dim_ok dim -> in2C (finite_strain true dim F) = in2C (finite_strain false dim F).
Proof. intros dim F [-> | [-> | ->]]; cR; ring. Qed.
Lemma AA_low : forall dim a i j, dim = 1%nat \/ dim = 2%nat -> (i < dim)%nat -> (j < dim)%nat ->
  tens2 dim (mulT2S_AA (dim2sym dim) a) i j = sm dim (fun k => tens2 dim a i k * tens2 dim a k j).
Proof. intros dim a i j [-> | ->] Hi Hj; idx i Hi; idx j Hj; cR; ring. Qed.

Section UL.
Variables (dim : nat) (F : nat -> R).
Hypothesis D : dim_ok dim.
Hypothesis He : inv_eps < geme_det3x3 dim F * geme_det3x3 dim F.
Let f := finite_strain false dim F.
Let g := finite_strain true dim F.

(** ** Kirchhoff stress: tau = F S F^T. *)
Theorem C144_bulk_stress : forall K i j, (i < dim)%nat -> (j < dim)%nat ->
  tens2 dim (stress_bulk true dim K g) i j = push2 dim F (tens2 dim (stress_bulk false dim K f)) i j.
Proof.
  intros K i j Hi Hj. rewrite (@push2_ext dim F _ (fun I J => K * detF f * (detF f - 1) * tens2 dim (vecInvCS f) I J)) by reflexivity.
  rewrite push2_scal. unfold f at 3. rewrite push_invC by auto. reflexivity.
Qed.
Theorem C144_bulk_pressure_stress : forall p i j, (i < dim)%nat -> (j < dim)%nat ->
  tens2 dim (stress_bulk_pressure true dim p g) i j = push2 dim F (tens2 dim (stress_bulk_pressure false dim p f)) i j.
Proof.
  intros p i j Hi Hj. rewrite (@push2_ext dim F _ (fun I J => - p * detF f * tens2 dim (vecInvCS f) I J)) by reflexivity.
  rewrite push2_scal. unfold f at 2. rewrite push_invC by auto. reflexivity.
Qed.
Theorem C144_neohook_stress : forall mu i j, (i < dim)%nat -> (j < dim)%nat ->
  tens2 dim (stress_neohook true dim mu g) i j = push2 dim F (tens2 dim (stress_neohook false dim mu f)) i j.
Proof.
  intros mu i j Hi Hj.
  rewrite (@push2_ext dim F _ (fun I J => mu * detF23 (detF f) * tens2 dim (tr_ dim) I J + (- (mu * detF23 (detF f) * (trC f / 3))) * tens2 dim (vecInvCS f) I J)).
  2: { intros. unfold tens2, stress_neohook, tr_. ring. }
  rewrite push2_lin, push_delta by auto. unfold f at 4. rewrite push_invC by auto.
  unfold tens2, stress_neohook, tr_. cbv zeta iota. unfold g at 1 2 3. rewrite ul_tr by auto. cbn [detF finite_strain]. unfold f. cbn [detF finite_strain]. ring.
Qed.
Theorem C144_mooney_rivlin_stress_12d : forall k i j, dim = 1%nat \/ dim = 2%nat -> (i < dim)%nat -> (j < dim)%nat ->
  tens2 dim (stress_mooney_rivlin true dim k g) i j = push2 dim F (tens2 dim (stress_mooney_rivlin false dim k f)) i j.
Proof.
  intros k i j D2 Hi Hj.
  rewrite (@push2_ext dim F _ (fun I J => 1 * ((k * detF23 (detF f) * detF23 (detF f) * trC f) * tens2 dim (tr_ dim) I J
      + (- (k * detF23 (detF f) * detF23 (detF f))) * tens2 dim (vecCS f) I J)
      + (- (k * detF23 (detF f) * detF23 (detF f) * (2 / 3 * in2C f))) * tens2 dim (vecInvCS f) I J)).
  2: { intros. unfold tens2, stress_mooney_rivlin, tr_. ring. }
  rewrite push2_lin, push2_lin, push_delta by auto. unfold f at 6. rewrite push_C by auto. unfold f at 9. rewrite push_invC by auto.
  rewrite <- (@AA_low dim _ i j D2) by auto.
  unfold tens2, stress_mooney_rivlin, tr_. cbv zeta iota. unfold g. rewrite ul_tr, ul_in2 by auto. cbn [detF finite_strain]. unfold f. cbn [detF finite_strain]. ring.
Qed.

(** ** Tangent moduli: the push-forward of the total Lagrangian ones. *)
Let A := tens2 dim (vecInvCS f).
Let T := tens2 dim (tr_ dim).
Lemma pA : forall i j, (i < dim)%nat -> (j < dim)%nat -> push2 dim F A i j = T i j.
Proof. intros. apply push_invC; auto. Qed.
Lemma pT : forall i j, (i < dim)%nat -> (j < dim)%nat -> push2 dim F T i j = tens2 dim (vecCS g) i j.
Proof. intros. apply push_delta; auto. Qed.
Lemma pC : forall i j, dim = 1%nat \/ dim = 2%nat -> (i < dim)%nat -> (j < dim)%nat ->
  push2 dim F (tens2 dim (vecCS f)) i j = tens2 dim (mulT2S_AA (dim2sym dim) (vecCS g)) i j.
Proof. intros. rewrite AA_low by auto. apply push_C; auto. Qed.
Lemma p4 : forall x y i j k l, (i < dim)%nat -> (j < dim)%nat -> (k < dim)%nat -> (l < dim)%nat ->
  push4 dim F (fun I J K L => x * (A I J * A K L) + y * (1 * (A I K * A J L) + 1 * (A I L * A J K))) i j k l
  = x * (T i j * T k l) + y * (T i k * T j l + T i l * T j k).
Proof.
  intros. rewrite push4_lin, push4_lin, push4_dyad, push4_ikjl, push4_iljk. rewrite !pA by auto. ring.
Qed.
Theorem C144_bulk_tangent : forall K i j k l, (i < dim)%nat -> (j < dim)%nat -> (k < dim)%nat -> (l < dim)%nat ->
  tens4 dim (tan_mod_bulk true dim K g) i j k l = push4 dim F (tens4 dim (tan_mod_bulk false dim K f)) i j k l.
Proof.
  intros K i j k l Hi Hj Hk Hl.
  rewrite (@push4_ext dim F _ (fun I J K' L => (K * detF f * (detF f - 1) + K * detF f * detF f) * (A I J * A K' L)
       + (- (K * detF f * (detF f - 1))) * (1 * (A I K' * A J L) + 1 * (A I L * A J K')))).
  2: { intros. unfold tens4, tan_mod_bulk. cbv zeta. rewrite t4_full by auto. unfold A, tens2. ring. }
  rewrite p4 by auto. unfold tens4, tan_mod_bulk. cbv zeta. rewrite t4_full by auto. unfold T, tens2, tr_, f, g. cbn [detF finite_strain]. ring.
Qed.
Theorem C144_bulk_pressure_tangent : forall p i j k l, (i < dim)%nat -> (j < dim)%nat -> (k < dim)%nat -> (l < dim)%nat ->
  tens4 dim (tan_mod_bulk_pressure true dim p g) i j k l = push4 dim F (tens4 dim (tan_mod_bulk_pressure false dim p f)) i j k l.
Proof.
  intros p i j k l Hi Hj Hk Hl.
  rewrite (@push4_ext dim F _ (fun I J K' L => (- (detF f * p)) * (A I J * A K' L)
       + (detF f * p) * (1 * (A I K' * A J L) + 1 * (A I L * A J K')))).
  2: { intros. unfold tens4, tan_mod_bulk_pressure. cbv zeta. rewrite t4_full by auto. unfold A, tens2. ring. }
  rewrite p4 by auto. unfold tens4, tan_mod_bulk_pressure. cbv zeta. rewrite t4_full by auto. unfold T, tens2, tr_, f, g. cbn [detF finite_strain]. ring.
Qed.
Theorem C144_neohook_tangent : forall mu i j k l, (i < dim)%nat -> (j < dim)%nat -> (k < dim)%nat -> (l < dim)%nat ->
  tens4 dim (tan_mod_neohook true dim mu g) i j k l = push4 dim F (tens4 dim (tan_mod_neohook false dim mu f)) i j k l.
Proof.
  intros mu i j k l Hi Hj Hk Hl. set (cc := mu * detF23 (detF f)).
  rewrite (@push4_ext dim F _ (fun I J K' L => 1 * ((2 / 9 * cc * trC f) * (A I J * A K' L)
       + (cc / 3 * trC f) * (1 * (A I K' * A J L) + 1 * (A I L * A J K'))) + (- 2 / 3 * cc) * (1 * (A I J * T K' L) + 1 * (T I J * A K' L)))).
  2: { intros. unfold tens4, tan_mod_neohook. cbv zeta iota. rewrite t4_full by auto. unfold A, T, tens2, cc, tr_. field. }
  rewrite push4_lin, p4, push4_lin, !push4_dyad by auto. rewrite !pA, !pT by auto.
  unfold tens4, tan_mod_neohook. cbv zeta iota. rewrite t4_full by auto. unfold T, tens2, tr_, cc, f, g. rewrite ul_tr by auto. cbn [detF finite_strain]. field.
Qed.
(** Mooney-Rivlin: twice the push-forward (1D and 2D). *)
Theorem C144_mooney_rivlin_doubled : forall kap i j k l, dim = 1%nat \/ dim = 2%nat ->
  (i < dim)%nat -> (j < dim)%nat -> (k < dim)%nat -> (l < dim)%nat ->
  tens4 dim (tan_mod_mooney_rivlin_ul dim kap g) i j k l = 2 * push4 dim F (tens4 dim (tan_mod_mooney_rivlin_tl dim kap f)) i j k l.
Proof.
  intros kap i j k l D2 Hi Hj Hk Hl. set (d := detF23 (detF f) * detF23 (detF f)). set (C := tens2 dim (vecCS f)).
  rewrite (@push4_ext dim F _ (fun I J K' L => 1 * (1 * ((8 / 9 * kap * d * in2C f) * (A I J * A K' L)
       + (2 / 3 * kap * d * in2C f) * (1 * (A I K' * A J L) + 1 * (A I L * A J K')))
       + (- 4 / 3 * kap * d * trC f) * (1 * (A I J * T K' L) + 1 * (T I J * A K' L)))
       + 1 * ((1 * ((2 * kap * d) * (T I J * T K' L) + (- kap * d) * (1 * (T I K' * T J L) + 1 * (T I L * T J K'))))
       + (4 / 3 * kap * d) * (1 * (C I J * A K' L) + 1 * (A I J * C K' L))))).
  2: { intros I J K L HI HJ HK HL.
       assert (Q : (if (t4s dim (dim * I + J) =? t4s dim (dim * K + L))%nat then (if (t4s dim (dim * I + J) <? dim)%nat then 2 * (- kap * d) else - kap * d) else 0)
                   = - kap * d * (T I K * T J L + T I L * T J K)).
       { unfold T. rewrite !tr_delta by auto. clear - D HI HJ HK HL. destruct D as [E | [E | E]]; revert HI HJ HK HL; rewrite E;
         intros; idx I HI; idx J HJ; idx K HK; idx L HL; cbn; ring. }
       unfold tens4, tan_mod_mooney_rivlin_tl. cbv zeta. rewrite t4_full by auto. fold d. rewrite Q. unfold A, T, C, tens2, tr_. field. }
  rewrite !push4_lin, !push4_dyad, !push4_ikjl, !push4_iljk.
  unfold C. rewrite !pC by auto. rewrite !pA, !pT by auto.
  unfold tens4, tan_mod_mooney_rivlin_ul. cbv zeta. rewrite !t4_full by auto. unfold T, tens2, tr_, d, f, g. rewrite ul_tr, ul_in2 by auto. cbn [detF finite_strain]. field.
Qed.
End UL.

(** ** The 3D Mooney-Rivlin stress of the updated formulation is wrong in shear. *)
Definition shear (ga : R) (k : nat) : R := match k with 0%nat | 4%nat | 8%nat => 1 | 1%nat => ga | _ => 0 end.
Theorem C144_mooney_rivlin_3d_refuted : forall k ga, k <> 0 -> ga <> 0 ->
  geme_det3x3 3 (shear ga) = 1 /\
  tens2 3 (stress_mooney_rivlin true 3 k (finite_strain true 3 (shear ga))) 0 0
  = push2 3 (shear ga) (tens2 3 (stress_mooney_rivlin false 3 k (finite_strain false 3 (shear ga)))) 0 0 + k * (ga * ga) /\
  k * (ga * ga) <> 0.
Proof.
  intros k ga Hk Hg.
  assert (HJ : geme_det3x3 3 (shear ga) = 1) by (cbn; ring).
  assert (He : inv_eps < geme_det3x3 3 (shear ga) * geme_det3x3 3 (shear ga)).
  { rewrite HJ. rewrite Rmult_1_l. unfold inv_eps. rewrite <- Rinv_1. apply Rinv_lt_contravar. rewrite Rmult_1_l. apply pow_lt; lra. apply Rlt_pow_R1; [lra|lia]. }
  assert (D : dim_ok 3) by (right; right; auto).
  split; [exact HJ|]. split; [|repeat apply Rmult_integral_contrapositive_currified; auto].
  set (F := shear ga) in *. set (f := finite_strain false 3 F).
  rewrite (@push2_ext 3 F _ (fun I J => 1 * ((k * detF23 (detF f) * detF23 (detF f) * trC f) * tens2 3 (tr_ 3) I J
      + (- (k * detF23 (detF f) * detF23 (detF f))) * tens2 3 (vecCS f) I J)
      + (- (k * detF23 (detF f) * detF23 (detF f) * (2 / 3 * in2C f))) * tens2 3 (vecInvCS f) I J)).
  2: { intros. unfold tens2, stress_mooney_rivlin, tr_. ring. }
  rewrite push2_lin, push2_lin, push_delta by (auto; lia). unfold f at 6. rewrite push_C by (auto; lia). unfold f at 8. rewrite push_invC by (auto; lia).
  unfold stress_mooney_rivlin, tens2 at 1. cbv zeta iota. rewrite ul_tr, ul_in2 by auto. fold f.
  assert (E : detF (finite_strain true 3 F) = detF f) by reflexivity. rewrite E.
  assert (E1 : detF f = 1) by exact HJ. rewrite E1.
  assert (Ed : detF23 1 = 1) by (unfold detF23; rewrite ln_1, Rmult_0_r, exp_0; auto). rewrite Ed.
  generalize (trC f) (in2C f). intros a b.
  cbv -[Rplus Rmult Ropp Rinv Rminus Rdiv IZR]. field.
Qed.
