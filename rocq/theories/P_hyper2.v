(** Hyperelastic terms: stored energies, symmetry, objectivity, stress-free states. *)
From Coq Require Import Reals Lra Lia Arith.
From Coquelicot Require Import Coquelicot.
From Verif Require Import Base M_fmf M_terms L_fmf S_terms L_terms M_hyper S_hyper L_hyper P_hyper.
Open Scope R_scope.

Ltac start0 := intros F t0 E' HP;
  pose proof (@p_J _ _ _ _ HP) as HJ; pose proof (@p_23 _ _ _ _ HP) as H23;
  pose proof (@p_tr _ _ _ _ HP) as HT; pose proof (@p_in2 _ _ _ _ HP) as HI2;
  set (tr := get_trace (dim2sym _)) in *.

Theorem C143_bulk_energy : forall dim K, derives_from dim (stress_bulk false dim K) (W_bulk K).
Proof.
  intros dim K. start0. unfold W_bulk, stress_bulk.
  apply (dext (fun t => K / 2 * ((detF (fs dim F t) - 1) * (detF (fs dim F t) - 1)))). intros; cbn; ring.
  eapply dval. der. cbv beta. set (f := fs dim F t0) in *.
  rsum (fun ir => (K * detF f * (detF f - 1)) * (vecInvCS f ir * E' ir)); [|intros; ring].
  rewrite sm_scal. fold (KE dim f E'). field.
Qed.
Theorem C143_bulk_active_energy : forall dim m, derives_from dim (stress_bulk_active dim m) (W_bulk_active m).
Proof.
  intros dim m. start0. unfold W_bulk_active, stress_bulk_active.
  eapply dval. der. cbv beta. set (f := fs dim F t0) in *.
  rsum (fun ir => (m * detF f) * (vecInvCS f ir * E' ir)); [|intros; ring].
  rewrite sm_scal. fold (KE dim f E'). ring.
Qed.
Theorem C143_neohook_energy : forall dim mu, derives_from dim (stress_neohook false dim mu) (W_neohook mu).
Proof.
  intros dim mu. start0. unfold W_neohook, stress_neohook. cbv zeta. fold tr.
  apply (dext (fun t => mu / 2 * (detF23 (detF (fs dim F t)) * trC (fs dim F t) - 3))). reflexivity.
  eapply dval. der. cbv beta. set (f := fs dim F t0) in *. set (d := detF23 (detF f)) in *.
  rsum (fun ir => (mu * d) * (tr ir * E' ir) + (- mu * d * (trC f / 3)) * (vecInvCS f ir * E' ir)); [|intros; field].
  rewrite sm_plus, !sm_scal. fold (KE dim f E'). field.
Qed.
Theorem C143_mooney_rivlin_energy : forall dim k, derives_from dim (stress_mooney_rivlin false dim k) (W_mooney_rivlin k).
Proof.
  intros dim k. start0. unfold W_mooney_rivlin, stress_mooney_rivlin. cbv zeta. fold tr.
  apply (dext (fun t => k / 2 * (detF23 (detF (fs dim F t)) * detF23 (detF (fs dim F t)) * in2C (fs dim F t) - 3))).
  { intros t. unfold detF23, Rpower. rewrite <- exp_plus. do 4 f_equal. field. }
  eapply dval. der. cbv beta. set (f := fs dim F t0) in *. set (d := detF23 (detF f)) in *.
  rsum (fun ir => (k * d * d) * ((trC f * tr ir - vecCS f ir) * E' ir) + (- k * d * d * (2 / 3) * in2C f) * (vecInvCS f ir * E' ir)); [|intros; field].
  rewrite sm_plus, !sm_scal. fold (KE dim f E'). field.
Qed.

(** ** Major symmetry of the tangent moduli, both formulations. *)
Lemma t4_sym : forall dim a ir ic, dim_ok dim -> (ir < dim2sym dim)%nat -> (ic < dim2sym dim)%nat ->
  mulT4_ikjl dim a a ir ic + mulT4_iljk dim a a ir ic = mulT4_ikjl dim a a ic ir + mulT4_iljk dim a a ic ir.
Proof.
  intros dim a ir ic [-> | [-> | ->]] H H'; cbn in H, H';
  do 6 (try (destruct ir as [|ir]; [do 6 (try (destruct ic as [|ic]; [cR; ring|]))|])); exfalso; lia.
Qed.
Definition symmetric (dim : nat) (D : nat -> nat -> R) : Prop :=
  forall ir ic, (ir < dim2sym dim)%nat -> (ic < dim2sym dim)%nat -> D ir ic = D ic ir.
Theorem C143_symmetry : forall dim ul x f, dim_ok dim ->
  symmetric dim (tan_mod_bulk ul dim x f) /\ symmetric dim (tan_mod_bulk_active dim x f) /\
  symmetric dim (tan_mod_neohook ul dim x f) /\ symmetric dim (tan_mod_mooney_rivlin_tl dim x f) /\
  symmetric dim (tan_mod_mooney_rivlin_ul dim x f) /\ symmetric dim (tan_mod_bulk_pressure ul dim x f).
Proof.
  intros dim ul x f D. repeat split; intros ir ic H H'.
  - unfold tan_mod_bulk. rewrite (@t4_sym dim _ ir ic) by auto. ring.
  - unfold tan_mod_bulk_active. rewrite (@t4_sym dim _ ir ic) by auto. ring.
  - unfold tan_mod_neohook. destruct ul; rewrite (@t4_sym dim _ ir ic) by auto; ring.
  - unfold tan_mod_mooney_rivlin_tl. rewrite (@t4_sym dim _ ir ic), (Nat.eqb_sym ir ic) by auto.
    destruct (Nat.eqb_spec ic ir) as [->|]; ring.
  - unfold tan_mod_mooney_rivlin_ul. rewrite !(@t4_sym dim _ ir ic) by auto. ring.
  - unfold tan_mod_bulk_pressure. rewrite (@t4_sym dim _ ir ic) by auto. ring.
Qed.

(** ** Objectivity: a superposed rotation changes no stress and no modulus. *)
Lemma C_entry : forall dim F k, dim_ok dim -> (k < dim2sym dim)%nat ->
  vecCS (finite_strain false dim F) k = sm dim (fun a => F (dim * a + t2i dim k)%nat * F (dim * a + t2j dim k)%nat).
Proof.
  intros dim F k [-> | [-> | ->]] H; cbn in H;
  do 6 (try (destruct k as [|k]; [cR; try lra|])); try (exfalso; lia).
Qed.
Lemma t2_lt : forall dim k, dim_ok dim -> (t2i dim k < dim /\ t2j dim k < dim)%nat.
Proof. intros dim k [-> | [-> | ->]]; do 6 (destruct k as [|k]; [cbn; lia|]); destruct k; cbn; lia. Qed.
Lemma mmul_at : forall dim A B i j, (j < dim)%nat -> mmul dim A B (dim * i + j)%nat = sm dim (fun a => A (dim * i + a)%nat * B (dim * a + j)%nat).
Proof.
  intros dim A B i j H. unfold mmul.
  replace ((dim * i + j) / dim)%nat with i by (apply (Nat.div_unique _ dim i j H); auto).
  replace ((dim * i + j) mod dim)%nat with j by (apply (Nat.mod_unique _ dim i j H); auto). auto.
Qed.
Lemma C_rot : forall dim Q F i j, rotation dim Q -> (i < dim)%nat -> (j < dim)%nat ->
  sm dim (fun k => mmul dim Q F (dim * k + i)%nat * mmul dim Q F (dim * k + j)%nat)
  = sm dim (fun k => F (dim * k + i)%nat * F (dim * k + j)%nat).
Proof.
  intros dim Q F i j [HQ _] Hi Hj.
  rewrite (@sm_ext dim _ (fun k => sm dim (fun a => sm dim (fun b => F (dim * a + i)%nat * F (dim * b + j)%nat * (Q (dim * k + a)%nat * Q (dim * k + b)%nat))))).
  2: { intros k Hk. rewrite !mmul_at by auto. rewrite <- sm_scalr. apply sm_ext; intros a Ha. rewrite <- sm_scal. apply sm_ext; intros b Hb. ring. }
  rewrite sm_swap. apply sm_ext; intros a Ha. rewrite sm_swap.
  rewrite (@sm_ext dim _ (fun b => if (b =? a)%nat then F (dim * a + i)%nat * F (dim * b + j)%nat else 0)).
  2: { intros b Hb. rewrite sm_scal, HQ by auto. rewrite (Nat.eqb_sym a b). destruct (b =? a)%nat; ring. }
  rewrite sm_pick; auto.
Qed.
Lemma det_mmul : forall dim A B, dim_ok dim -> geme_det3x3 dim (mmul dim A B) = geme_det3x3 dim A * geme_det3x3 dim B.
Proof. intros dim A B [-> | [-> | ->]]; cR; ring. Qed.
Lemma adj_ext : forall dim c d k, dim_ok dim -> (forall k, (k < dim2sym dim)%nat -> c k = d k) -> adjv dim c k = adjv dim d k.
Proof.
  intros dim c d k [-> | [-> | ->]] H; cbn [dim2sym] in H; unfold adjv; auto;
  do 6 (try (destruct k as [|k]; [rewrite !H by lia; reflexivity|])); rewrite !H by lia; reflexivity.
Qed.
Lemma dC_ext : forall dim c d, dim_ok dim -> (forall k, (k < dim2sym dim)%nat -> c k = d k) -> dC dim c = dC dim d.
Proof. intros dim c d [-> | [-> | ->]] H; cbn [dim2sym] in H; unfold dC; rewrite !H by lia; reflexivity. Qed.

(** Same strain measures. *)
Definition same (dim : nat) (f g : Fam) : Prop :=
  detF f = detF g /\ trC f = trC g /\ in2C f = in2C g /\
  (forall k, (k < dim2sym dim)%nat -> vecCS f k = vecCS g k /\ vecInvCS f k = vecInvCS g k /\ vecES f k = vecES g k).
Lemma same_of_C : forall dim F G, dim_ok dim -> geme_det3x3 dim F = geme_det3x3 dim G ->
  (forall k, (k < dim2sym dim)%nat -> vecCS (finite_strain false dim F) k = vecCS (finite_strain false dim G) k) ->
  same dim (finite_strain false dim F) (finite_strain false dim G).
Proof.
  intros dim F G D HD HC. split; [exact HD|]. split; [|split].
  - rewrite !trC_c by auto. f_equal. apply sm_ext. intros k Hk. apply HC. pose proof (@dim_sym dim D). lia.
  - rewrite !in2C_c by auto. destruct D as [-> | [-> | ->]]; cbn [dim2sym] in HC; auto; rewrite !HC by lia; auto.
  - intros k Hk. split; [auto|]. split.
    + rewrite !invC_adj by auto. rewrite (@adj_ext dim _ _ k D HC), (@dC_ext dim _ _ D HC). auto.
    + pose proof (HC k Hk) as E. rewrite !vecC_E in E by auto. lra.
Qed.
Lemma t4_lt : forall dim a, dim_ok dim -> (t4s dim a < dim2sym dim)%nat.
Proof. intros dim a [-> | [-> | ->]]; cbn [dim2sym t4s]; do 10 (destruct a as [|a]; [cbn; lia|]); cbn; lia. Qed.
Theorem C143_objective : forall dim Q F, dim_ok dim -> rotation dim Q ->
  let f := finite_strain false dim F in let g := finite_strain false dim (mmul dim Q F) in
  (forall x k, (k < dim2sym dim)%nat ->
     stress_bulk false dim x g k = stress_bulk false dim x f k /\
     stress_bulk_active dim x g k = stress_bulk_active dim x f k /\
     stress_neohook false dim x g k = stress_neohook false dim x f k /\
     stress_mooney_rivlin false dim x g k = stress_mooney_rivlin false dim x f k /\
     stress_bulk_pressure false dim x g k = stress_bulk_pressure false dim x f k) /\
  (forall x k l, (k < dim2sym dim)%nat -> (l < dim2sym dim)%nat ->
     tan_mod_bulk false dim x g k l = tan_mod_bulk false dim x f k l /\
     tan_mod_bulk_active dim x g k l = tan_mod_bulk_active dim x f k l /\
     tan_mod_neohook false dim x g k l = tan_mod_neohook false dim x f k l /\
     tan_mod_mooney_rivlin_tl dim x g k l = tan_mod_mooney_rivlin_tl dim x f k l /\
     tan_mod_bulk_pressure false dim x g k l = tan_mod_bulk_pressure false dim x f k l).
Proof.
  intros dim Q F D HQ f g.
  assert (S : same dim g f).
  { apply same_of_C; auto.
    - rewrite det_mmul by auto. rewrite (proj2 HQ). ring.
    - intros k Hk. rewrite !C_entry by auto. destruct (@t2_lt dim k D). apply C_rot; auto. }
  clearbody f g. destruct S as (SJ & St & S2 & Sk).
  assert (T : forall k l, mulT4_ikjl dim (vecInvCS g) (vecInvCS g) k l = mulT4_ikjl dim (vecInvCS f) (vecInvCS f) k l
                       /\ mulT4_iljk dim (vecInvCS g) (vecInvCS g) k l = mulT4_iljk dim (vecInvCS f) (vecInvCS f) k l).
  { intros. unfold mulT4_ikjl, mulT4_iljk.
    split; f_equal; apply Sk; apply t4_lt; auto. }
  split.
  - intros x k Hk. destruct (Sk k Hk) as (E1 & E2 & E3).
    unfold stress_bulk, stress_bulk_active, stress_neohook, stress_mooney_rivlin, stress_bulk_pressure.
    rewrite SJ, St, S2, E1, E2. auto.
  - intros x k l Hk Hl. destruct (Sk k Hk) as (E1 & E2 & E3). destruct (Sk l Hl) as (G1 & G2 & G3). destruct (T k l) as [T1 T2].
    unfold tan_mod_bulk, tan_mod_bulk_active, tan_mod_neohook, tan_mod_mooney_rivlin_tl, tan_mod_bulk_pressure.
    cbv zeta. rewrite SJ, St, S2, E1, E2, G1, G2, T1, T2. auto.
Qed.

(** ** A rotated (in particular the undeformed) body is free of stress in 2D and 3D. *)
Lemma rot_fam : forall dim Q, dim_ok dim -> rotation dim Q -> let f := finite_strain false dim Q in
  detF f = 1 /\ trC f = (if (dim =? 1)%nat then 1 else 3) /\ in2C f = (if (dim =? 1)%nat then 0 else 3) /\
  forall k, (k < dim2sym dim)%nat -> vecCS f k = get_trace (dim2sym dim) k /\ vecInvCS f k = get_trace (dim2sym dim) k.
Proof.
  intros dim Q D [HQ HD] f. split; [exact HD|].
  assert (HC : forall k, (k < dim2sym dim)%nat -> vecCS f k = get_trace (dim2sym dim) k).
  { intros k Hk. unfold f. rewrite C_entry by auto. destruct (@t2_lt dim k D). rewrite HQ by auto.
    destruct D as [-> | [-> | ->]]; cbn in Hk; do 6 (try (destruct k as [|k]; [reflexivity|])); exfalso; lia. }
  assert (HdC : dC dim (vecCS f) = 1). { unfold f. rewrite dC_det by auto. fold f. replace (detF f) with 1 by (symmetry; exact HD). ring. }
  assert (E1 : inv_eps < 1).
  { unfold inv_eps. rewrite <- Rinv_1. apply Rinv_lt_contravar. rewrite Rmult_1_l. apply pow_lt; lra. apply Rlt_pow_R1; [lra|lia]. }
  split; [|split].
  - unfold f. rewrite trC_c by auto. fold f. destruct D as [-> | [-> | ->]]; cbn [dim2sym] in HC; cbn [sm Nat.eqb]; rewrite !HC by lia; cbn; lra.
  - unfold f. rewrite in2C_c by auto. fold f. destruct D as [-> | [-> | ->]]; cbn [dim2sym] in HC; cbn [Nat.eqb]; rewrite ?HC by lia; cbn; lra.
  - intros k Hk. split; [auto|]. unfold f. rewrite invC_adj by auto. fold f. rewrite HdC, safe_inv_big by auto.
    rewrite (@adj_ext dim _ _ k D HC). clear - D Hk.
    destruct D as [-> | [-> | ->]]; cbn in Hk; do 6 (try (destruct k as [|k]; [cbn; lra|])); exfalso; lia.
Qed.
Theorem C143_stress_free : forall dim Q x k, dim = 2%nat \/ dim = 3%nat -> rotation dim Q -> (k < dim2sym dim)%nat ->
  let f := finite_strain false dim Q in
  stress_bulk false dim x f k = 0 /\ stress_neohook false dim x f k = 0 /\ stress_mooney_rivlin false dim x f k = 0.
Proof.
  intros dim Q x k Hd HQ Hk f.
  assert (D : dim_ok dim) by (destruct Hd; unfold dim_ok; auto).
  destruct (@rot_fam dim Q D HQ) as (E1 & E2 & E3 & E4). fold f in E1, E2, E3, E4. destruct (E4 k Hk) as [E5 E6].
  unfold stress_bulk, stress_neohook, stress_mooney_rivlin. rewrite E1, E2, E3, E5, E6.
  destruct Hd as [-> | ->]; cbn [Nat.eqb]; repeat split; field.
Qed.
(** In 1D [trC] is not the plane-strain (or uniaxial) invariant and the undeformed bar
    carries the stress 2/3 mu. *)
Theorem C143_neohook_1d_refuted : forall mu, mu <> 0 ->
  rotation 1 (fun _ => 1) /\ stress_neohook false 1 mu (finite_strain false 1 (fun _ => 1)) 0 = 2 / 3 * mu /\ 2 / 3 * mu <> 0.
Proof.
  intros mu H.
  assert (HQ : rotation 1 (fun _ => 1)).
  { split; [|reflexivity]. intros i j Hi Hj. replace i with 0%nat by lia. replace j with 0%nat by lia. cbn. lra. }
  split; [exact HQ|].
  destruct (@rot_fam 1 _ (or_introl eq_refl) HQ) as (E1 & E2 & E3 & E4). destruct (E4 0%nat ltac:(cbn; lia)) as [E5 E6].
  unfold stress_neohook. rewrite E1, E2, E6. unfold detF23. rewrite ln_1, Rmult_0_r, exp_0. cbn. split; [field|lra].
Qed.
