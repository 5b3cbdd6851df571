(** Hyperelastic terms: tangent moduli and stresses. *)
From Coq Require Import Reals Lra Lia Arith.
From Coquelicot Require Import Coquelicot.
From Verif Require Import Base M_fmf M_terms L_fmf S_terms L_terms M_hyper S_hyper L_hyper.
Open Scope R_scope.

Theorem C142_green_strain : forall ul dim F ii, dim_ok dim -> (ii < dim2sym dim)%nat ->
  vecES (finite_strain ul dim F) ii = green dim F (t2i dim ii) (t2j dim ii).
Proof.
  intros ul dim F k [-> | [-> | ->]] H; cbn in H;
  do 6 (try (destruct k as [|k]; [cR; try lra|])); try (exfalso; lia).
Qed.

Ltac start := intros F t0 E' HP ir Hir;
  pose proof (@p_J _ _ _ _ HP) as HJ; pose proof (@p_23 _ _ _ _ HP) as H23;
  pose proof (@p_K _ _ _ _ HP ir Hir) as HK; pose proof (@p_C _ _ _ _ HP ir Hir) as HC;
  pose proof (@p_tr _ _ _ _ HP) as HT; pose proof (@p_in2 _ _ _ _ HP) as HI2;
  set (tr := get_trace (dim2sym _)) in *.
Ltac rsum h := match goal with |- _ = sm ?n ?g => rewrite (@sm_ext n g h) end.

Theorem C142_bulk : forall dim K, dim_ok dim -> consistent dim (stress_bulk false dim K) (tan_mod_bulk false dim K).
Proof.
  intros dim K D. start. unfold stress_bulk, tan_mod_bulk.
  eapply dval. der. cbv beta. set (f := fs dim F t0) in *.
  rsum (fun ic => ((K * detF f * (detF f - 1) + K * detF f * detF f) * vecInvCS f ir) * (vecInvCS f ic * E' ic)
     + (- (K * detF f * (detF f - 1))) * (T4K dim f ir ic * E' ic)); [ | intros; unfold T4K; ring].
  rewrite sm_plus, !sm_scal. fold (KE dim f E'). ring.
Qed.
Theorem C142_bulk_active : forall dim m, dim_ok dim -> consistent dim (stress_bulk_active dim m) (tan_mod_bulk_active dim m).
Proof.
  intros dim m D. start. unfold stress_bulk_active, tan_mod_bulk_active.
  eapply dval. der. cbv beta. set (f := fs dim F t0) in *.
  rsum (fun ic => (m * detF f * vecInvCS f ir) * (vecInvCS f ic * E' ic)
     + (- (m * detF f)) * (T4K dim f ir ic * E' ic)); [ | intros; unfold T4K; ring].
  rewrite sm_plus, !sm_scal. fold (KE dim f E'). ring.
Qed.
Theorem C142_bulk_pressure : forall dim p, dim_ok dim ->
  consistent dim (stress_bulk_pressure false dim p) (tan_mod_bulk_pressure false dim p).
Proof.
  intros dim p D. start. unfold stress_bulk_pressure, tan_mod_bulk_pressure.
  eapply dval. der. cbv beta. set (f := fs dim F t0) in *.
  rsum (fun ic => (- (detF f * p) * vecInvCS f ir) * (vecInvCS f ic * E' ic)
     + (detF f * p) * (T4K dim f ir ic * E' ic)); [ | intros; unfold T4K; ring].
  rewrite sm_plus, !sm_scal. fold (KE dim f E'). ring.
Qed.
Theorem C142_neohook : forall dim mu, dim_ok dim -> consistent dim (stress_neohook false dim mu) (tan_mod_neohook false dim mu).
Proof.
  intros dim mu D. start. unfold stress_neohook, tan_mod_neohook. cbv zeta. fold tr. unfold Rdiv at 1.
  eapply dval. der. cbv beta. set (f := fs dim F t0) in *. set (d := detF23 (detF f)) in *.
  rsum (fun ic => (2 / 9 * (mu * d) * trC f * vecInvCS f ir - 2 / 3 * (mu * d) * tr ir) * (vecInvCS f ic * E' ic)
     + (- 2 / 3 * (mu * d) * vecInvCS f ir) * (tr ic * E' ic)
     + (mu * d / 3 * trC f) * (T4K dim f ir ic * E' ic)); [ | intros; unfold T4K; field].
  rewrite !sm_plus, !sm_scal. fold (KE dim f E'). field.
Qed.
Theorem C142_mooney_rivlin : forall dim k, dim_ok dim ->
  consistent dim (stress_mooney_rivlin false dim k) (tan_mod_mooney_rivlin_tl dim k).
Proof.
  intros dim k D. start. unfold stress_mooney_rivlin, tan_mod_mooney_rivlin_tl. cbv zeta. fold tr.
  eapply dval. der. cbv beta. set (f := fs dim F t0) in *. set (d := detF23 (detF f)) in *.
  rsum (fun ic =>
       (8 / 9 * k * (d * d) * in2C f * vecInvCS f ir - 4 / 3 * k * (d * d) * trC f * tr ir + 4 / 3 * k * (d * d) * vecCS f ir) * (vecInvCS f ic * E' ic)
     + (2 * k * (d * d) * tr ir) * (tr ic * E' ic)
     + (- 4 / 3 * k * (d * d) * vecInvCS f ir) * ((trC f * tr ic - vecCS f ic) * E' ic)
     + (2 / 3 * k * (d * d) * in2C f) * (T4K dim f ir ic * E' ic)
     + (if (ic =? ir)%nat then - k * (d * d) * (2 / eng dim ir) * E' ir else 0)).
  2: { intros ic Hic. unfold T4K. rewrite (Nat.eqb_sym ir ic). destruct (Nat.eqb_spec ic ir) as [->|].
       - unfold eng. destruct (ir <? dim)%nat; field.
       - field. }
  rewrite !sm_plus, !sm_scal. rewrite sm_pick by auto. fold (KE dim f E'). field. apply eng_pos.
Qed.
