(** Lemmas for the hyperelastic terms: how the kinematic quantities of a
    differentiable path of deformation gradients change. *)
From Coq Require Import Reals Lra Lia Arith List.
From Coquelicot Require Import Coquelicot.
From Verif Require Import Base M_fmf M_terms L_fmf S_terms L_terms M_hyper S_hyper.
Import ListNotations.
Open Scope R_scope.

Ltac cR := cbv -[Rplus Rmult Ropp Rinv Rminus Rdiv IZR safe_inv Rlt Rle Rabs exp ln is_derive inv_eps].
Ltac kcase k H := do 6 (destruct k as [|k]; [|try (exfalso; cbn in H; lia)]); [ .. | exfalso; cbn in H; lia] || idtac.

(** Everything as functions of the symmetric storage of C. *)
Definition dC (dim : nat) (c : nat -> R) : R :=
  match dim with
  | 1%nat => c 0%nat
  | 2%nat => c 0%nat * c 1%nat - c 2%nat * c 2%nat
  | _ => c 0%nat * (c 1%nat * c 2%nat - c 5%nat * c 5%nat)
         + c 3%nat * (c 5%nat * c 4%nat - c 3%nat * c 2%nat)
         + c 4%nat * (c 3%nat * c 5%nat - c 1%nat * c 4%nat)
  end.
Definition adjv (dim : nat) (c : nat -> R) (k : nat) : R :=
  match dim with
  | 1%nat => 1
  | 2%nat => match k with 0%nat => c 1%nat | 1%nat => c 0%nat | _ => - c 2%nat end
  | _ => match k with
     | 0%nat => c 1%nat * c 2%nat - c 5%nat * c 5%nat
     | 1%nat => c 0%nat * c 2%nat - c 4%nat * c 4%nat
     | 2%nat => c 0%nat * c 1%nat - c 3%nat * c 3%nat
     | 3%nat => - (c 3%nat * c 2%nat - c 4%nat * c 5%nat)
     | 4%nat => c 3%nat * c 5%nat - c 4%nat * c 1%nat
     | _ => - (c 0%nat * c 5%nat - c 4%nat * c 3%nat) end
  end.

Lemma vecC_E : forall dim F k, dim_ok dim -> (k < dim2sym dim)%nat ->
  vecCS (finite_strain false dim F) k = 2 * vecES (finite_strain false dim F) k + get_trace (dim2sym dim) k.
Proof.
  intros dim F k [-> | [-> | ->]] H; cbn in H;
  do 6 (try (destruct k as [|k]; [cR; try lra|])); try (exfalso; lia).
Qed.
Lemma dC_det : forall dim F, dim_ok dim ->
  dC dim (vecCS (finite_strain false dim F)) = detF (finite_strain false dim F) * detF (finite_strain false dim F).
Proof. intros dim F [-> | [-> | ->]]; cR; ring. Qed.
Lemma invC_adj : forall dim F k, dim_ok dim -> (k < dim2sym dim)%nat ->
  vecInvCS (finite_strain false dim F) k
  = adjv dim (vecCS (finite_strain false dim F)) k * safe_inv (dC dim (vecCS (finite_strain false dim F))).
Proof.
  intros dim F k [-> | [-> | ->]] H; cbn in H;
  do 6 (try (destruct k as [|k]; [cR; apply f_equal2; [ring | apply f_equal; ring]|])); try (exfalso; lia).
Qed.
Lemma trC_c : forall dim F, dim_ok dim -> let c := vecCS (finite_strain false dim F) in
  trC (finite_strain false dim F) = (if (dim =? 2)%nat then 1 else 0) + sm dim c.
Proof. intros dim F [-> | [-> | ->]]; cR; ring. Qed.
Lemma in2C_c : forall dim F, dim_ok dim -> let c := vecCS (finite_strain false dim F) in
  in2C (finite_strain false dim F) =
  match dim with 1%nat => 0 | 2%nat => c 0%nat * c 1%nat + c 0%nat + c 1%nat - c 2%nat * c 2%nat
  | _ => c 0%nat * c 1%nat + c 0%nat * c 2%nat + c 1%nat * c 2%nat - c 3%nat * c 3%nat - c 4%nat * c 4%nat - c 5%nat * c 5%nat end.
Proof. intros dim F [-> | [-> | ->]]; cR; ring. Qed.

(** Derivatives along a path. *)
Lemma dval : forall (f : R -> R) (t a b : R), is_derive f t a -> a = b -> is_derive f t b.
Proof. intros; subst; auto. Qed.
Lemma dplus : forall (f g : R -> R) (t a b : R), is_derive f t a -> is_derive g t b -> is_derive (fun t => f t + g t) t (a + b).
Proof. intros. apply (is_derive_plus f g t a b); auto. Qed.
Lemma dminus : forall (f g : R -> R) (t a b : R), is_derive f t a -> is_derive g t b -> is_derive (fun t => f t - g t) t (a - b).
Proof. intros. apply (is_derive_minus f g t a b); auto. Qed.
Lemma dmult : forall (f g : R -> R) (t a b : R), is_derive f t a -> is_derive g t b -> is_derive (fun t => f t * g t) t (a * g t + f t * b).
Proof. intros. apply (is_derive_mult f g t a b); auto. intros; apply Rmult_comm. Qed.
Lemma dopp : forall (f : R -> R) (t a : R), is_derive f t a -> is_derive (fun t => - f t) t (- a).
Proof. intros. apply (is_derive_opp f t a); auto. Qed.
Lemma dconst : forall (c t : R), is_derive (fun _ => c) t 0.
Proof. intros. apply @is_derive_const. Qed.
Lemma dscal : forall (f : R -> R) (t c a : R), is_derive f t a -> is_derive (fun t => c * f t) t (c * a).
Proof. intros. eapply dval. apply dmult; [apply dconst | eauto]. cbv beta; ring. Qed.
Lemma dcomp : forall (f g : R -> R) (t a b : R), is_derive g (f t) b -> is_derive f t a -> is_derive (fun t => g (f t)) t (b * a).
Proof. intros. eapply dval. apply (is_derive_comp g f t b a); auto. unfold scal; cbn. unfold mult; cbn. ring. Qed.
Lemma dext : forall (f g : R -> R) (t a : R), (forall t, f t = g t) -> is_derive f t a -> is_derive g t a.
Proof. intros. eapply is_derive_ext; eauto. Qed.
Lemma dsm : forall n (f : nat -> R -> R) (f' : nat -> R) (t : R), (forall k, (k < n)%nat -> is_derive (f k) t (f' k)) ->
  is_derive (fun t => sm n (fun k => f k t)) t (sm n f').
Proof.
  induction n; intros f f' t H; cbn [sm]. apply dconst.
  apply dplus; auto.
Qed.
Ltac der := cbv beta; match goal with
  | |- is_derive (fun t => Rplus (@?f t) (@?g t)) _ _ => apply (dplus f g); der
  | |- is_derive (fun t => Rminus (@?f t) (@?g t)) _ _ => apply (dminus f g); der
  | |- is_derive (fun t => Rmult (@?f t) (@?g t)) _ _ => apply (dmult f g); der
  | |- is_derive (fun t => Ropp (@?f t)) _ _ => apply (dopp f); der
  | |- is_derive (fun _ => ?x) _ _ => apply (dconst x)
  | H : is_derive ?f _ _ |- is_derive ?f _ _ => exact H
  end.

Section Path.
Variables (dim : nat) (D : dim_ok dim) (c : R -> nat -> R) (c' : nat -> R) (t0 : R).
Hypothesis Hc : forall k, (k < dim2sym dim)%nat -> is_derive (fun t => c t k) t0 (c' k).

Lemma dC_derive : is_derive (fun t => dC dim (c t)) t0 (sm (dim2sym dim) (fun l => eng dim l * adjv dim (c t0) l * c' l)).
Proof.
  destruct D as [-> | [-> | ->]]; cbn [dim2sym] in Hc;
  try pose proof (Hc 0%nat ltac:(lia)); try pose proof (Hc 1%nat ltac:(lia)); try pose proof (Hc 2%nat ltac:(lia));
  try pose proof (Hc 3%nat ltac:(lia)); try pose proof (Hc 4%nat ltac:(lia)); try pose proof (Hc 5%nat ltac:(lia)); clear Hc;
  cbn -[Rplus Rmult Ropp Rinv Rminus Rdiv IZR]; (eapply dval; [der | cbv beta; ring]).
Qed.
(** derivative of the adjugate, divided: d (adj_k / dC) = - sum (K_ik K_jl + K_il K_jk) e'_l *)
Lemma invC_derive : forall k, (k < dim2sym dim)%nat -> dC dim (c t0) <> 0 ->
  is_derive (fun t => adjv dim (c t) k * / dC dim (c t)) t0
   (- sm (dim2sym dim) (fun l =>
       (mulT4_ikjl dim (fun k => adjv dim (c t0) k * / dC dim (c t0)) (fun k => adjv dim (c t0) k * / dC dim (c t0)) k l
       + mulT4_iljk dim (fun k => adjv dim (c t0) k * / dC dim (c t0)) (fun k => adjv dim (c t0) k * / dC dim (c t0)) k l)
       * (eng dim l / 2 * c' l))).
Proof.
  intros k Hk Hd. pose proof dC_derive as HD.
  assert (HI : is_derive (fun t => / dC dim (c t)) t0 (- sm (dim2sym dim) (fun l => eng dim l * adjv dim (c t0) l * c' l) / dC dim (c t0) ^ 2)).
  { apply is_derive_inv; auto. }
  clear HD.
  assert (HA : exists a', is_derive (fun t => adjv dim (c t) k) t0 a' /\
     a' * dC dim (c t0) - adjv dim (c t0) k * sm (dim2sym dim) (fun l => eng dim l * adjv dim (c t0) l * c' l)
     = - sm (dim2sym dim) (fun l => (mulT4_ikjl dim (adjv dim (c t0)) (adjv dim (c t0)) k l + mulT4_iljk dim (adjv dim (c t0)) (adjv dim (c t0)) k l)
         * (eng dim l / 2 * c' l))).
  { clear HI Hd. destruct D as [-> | [-> | ->]]; cbn [dim2sym] in Hc, Hk;
    try pose proof (Hc 0%nat ltac:(lia)); try pose proof (Hc 1%nat ltac:(lia)); try pose proof (Hc 2%nat ltac:(lia));
    try pose proof (Hc 3%nat ltac:(lia)); try pose proof (Hc 4%nat ltac:(lia)); try pose proof (Hc 5%nat ltac:(lia)); clear Hc;
    (do 6 (try (destruct k as [|k]; [
      (eexists; split; [cbn [adjv]; der | cbv -[Rplus Rmult Ropp Rinv Rminus Rdiv IZR Rlt Rle]; field ]) |]))); exfalso; lia. }
  destruct HA as (a' & HA & P).
  eapply dval. apply dmult; [exact HA | exact HI]. cbv beta.
  match goal with |- _ = - ?x => replace x with (sm (dim2sym dim) (fun l => (mulT4_ikjl dim (adjv dim (c t0)) (adjv dim (c t0)) k l + mulT4_iljk dim (adjv dim (c t0)) (adjv dim (c t0)) k l)
         * (eng dim l / 2 * c' l) * (/ dC dim (c t0) * / dC dim (c t0)))) end.
  2: { apply sm_ext. intros l Hl. unfold mulT4_ikjl, mulT4_iljk. ring. }
  rewrite sm_scalr. rewrite Ropp_mult_distr_l. rewrite <- P. field. auto.
Qed.
End Path.

Lemma eng_pos : forall dim k, eng dim k <> 0.
Proof. intros. unfold eng. destruct (k <? dim)%nat; lra. Qed.

(** K : E' *)
Definition KE (dim : nat) (f : Fam) (E' : nat -> R) : R := sm (dim2sym dim) (fun l => vecInvCS f l * E' l).
Definition T4K (dim : nat) (f : Fam) (k l : nat) : R :=
  mulT4_ikjl dim (vecInvCS f) (vecInvCS f) k l + mulT4_iljk dim (vecInvCS f) (vecInvCS f) k l.

Lemma dim_sym : forall dim, dim_ok dim -> (dim <= dim2sym dim)%nat.
Proof. intros dim [-> | [-> | ->]]; cbn; lia. Qed.
Lemma sm_ge : forall n m f, (n <= m)%nat -> (forall k, (n <= k < m)%nat -> f k = 0) -> sm m f = sm n f.
Proof.
  intros n m f H. replace m with (n + (m - n))%nat by lia. intros Z. rewrite sm_split, (@sm_0 (m - n)). lra.
  intros. apply Z. lia.
Qed.

Section Facts.
Variables (dim : nat) (F : R -> nat -> R) (t0 : R) (E' : nat -> R).
Hypothesis HP : path dim F t0 E'.
Lemma D : dim_ok dim. Proof. exact (proj1 HP). Qed.
#[local] Hint Resolve D : core.

Lemma p_C : forall k, (k < dim2sym dim)%nat -> is_derive (fun t => vecCS (fs dim F t) k) t0 (2 / eng dim k * E' k).
Proof.
  intros k Hk. destruct (HP) as (D0 & _ & _ & _ & HE).
  apply (dext (fun t => 2 / eng dim k * (eng dim k * vecES (fs dim F t) k) + get_trace (dim2sym dim) k)).
  - intros t. unfold fs. rewrite vecC_E by auto. field. apply eng_pos.
  - eapply dval. apply dplus. apply dscal. apply HE; auto. apply dconst. ring.
Qed.
Lemma p_det_ex : ex_derive (fun t => detF (fs dim F t)) t0.
Proof.
  destruct (HP) as (D0 & HF & _).
  assert (G : forall k, (k < dim * dim)%nat -> exists l, is_derive (fun t => F t k) t0 l) by exact HF.
  clear HF HP. unfold fs, finite_strain. cbn [detF].
  destruct D0 as [-> | [-> | ->]];
  try destruct (G 0%nat ltac:(lia)); try destruct (G 1%nat ltac:(lia)); try destruct (G 2%nat ltac:(lia));
  try destruct (G 3%nat ltac:(lia)); try destruct (G 4%nat ltac:(lia)); try destruct (G 5%nat ltac:(lia));
  try destruct (G 6%nat ltac:(lia)); try destruct (G 7%nat ltac:(lia)); try destruct (G 8%nat ltac:(lia)); clear G;
  cbn [geme_det3x3]; eexists; der.
Qed.
(** J^2 > 1e-55 in a neighbourhood. *)
Lemma p_near : locally t0 (fun t => inv_eps < dC dim (vecCS (fs dim F t))).
Proof.
  pose proof p_det_ex as HD. pose proof (ex_derive_continuous _ _ HD) as Cn.
  destruct (HP) as (D0 & _ & _ & He & _).
  assert (Cn2 : continuous (fun t => detF (fs dim F t) * detF (fs dim F t)) t0).
  { apply (continuous_mult (fun t => detF (fs dim F t)) (fun t => detF (fs dim F t))); auto. }
  pose proof (Cn2 (fun y => inv_eps < y)) as L.
  assert (L0 : locally (detF (fs dim F t0) * detF (fs dim F t0)) (fun y => inv_eps < y)).
  { apply open_gt. exact He. }
  specialize (L L0). unfold filtermap in L. revert L. apply filter_imp. intros t H.
  unfold fs in *. rewrite dC_det by auto. exact H.
Qed.
Lemma eps_pos : 0 < inv_eps.
Proof. unfold inv_eps. apply Rinv_0_lt_compat. apply pow_lt. lra. Qed.
Lemma safe_inv_big : forall x, inv_eps < x -> safe_inv x = / x.
Proof.
  intros x H. pose proof eps_pos. unfold safe_inv. rewrite Rabs_pos_eq by lra.
  destruct (Rlt_dec x inv_eps); [lra|]. field. lra.
Qed.
Lemma p_near0 : inv_eps < dC dim (vecCS (fs dim F t0)).
Proof. apply (locally_singleton _ _ p_near). Qed.
Lemma p_K0 : forall k, (k < dim2sym dim)%nat ->
  vecInvCS (fs dim F t0) k = adjv dim (vecCS (fs dim F t0)) k * / dC dim (vecCS (fs dim F t0)).
Proof. intros. unfold fs at 1. rewrite invC_adj by auto. f_equal. apply safe_inv_big. apply p_near0. Qed.
Lemma p_J : is_derive (fun t => detF (fs dim F t)) t0 (detF (fs dim F t0) * KE dim (fs dim F t0) E').
Proof.
  assert (HX : exists J' : R, is_derive (fun t => detF (fs dim F t)) t0 J') by exact p_det_ex.
  destruct HX as [J' HJ]. eapply dval. exact HJ.
  pose proof (@dC_derive dim D (fun t => vecCS (fs dim F t)) _ t0 p_C) as H1. cbv beta in H1.
  pose proof (dmult _ _ _ _ _ HJ HJ) as H2. cbv beta in H2.
  assert (H3 : is_derive (fun t => dC dim (vecCS (fs dim F t))) t0 (J' * detF (fs dim F t0) + detF (fs dim F t0) * J')).
  { eapply dext; [|exact H2]. intros t. cbv beta. unfold fs. rewrite dC_det; auto. }
  pose proof (is_derive_unique _ _ _ H1) as U1. rewrite (is_derive_unique _ _ _ H3) in U1.
  destruct (HP) as (_ & _ & Jp & _).
  assert (N0 : dC dim (vecCS (fs dim F t0)) = detF (fs dim F t0) * detF (fs dim F t0)) by (unfold fs; apply dC_det; auto).
  unfold KE. rewrite (@sm_ext _ _ (fun l => / (2 * detF (fs dim F t0) * detF (fs dim F t0)) * (eng dim l * adjv dim (vecCS (fs dim F t0)) l * (2 / eng dim l * E' l)))).
  2: { intros l Hl. rewrite p_K0 by auto. rewrite N0. field. split; [apply eng_pos | lra]. }
  rewrite sm_scal, <- U1. field. lra.
Qed.
Lemma p_23 : is_derive (fun t => detF23 (detF (fs dim F t))) t0 (- 2 / 3 * detF23 (detF (fs dim F t0)) * KE dim (fs dim F t0) E').
Proof.
  pose proof p_J as HJ. destruct (HP) as (_ & _ & Jp & _). unfold detF23.
  eapply dval. apply (dcomp (fun t => - 2 / 3 * ln (detF (fs dim F t))) exp).
  - apply is_derive_exp.
  - apply dscal. apply (dcomp (fun t => detF (fs dim F t)) ln). apply is_derive_ln; auto. exact HJ.
  - field. lra.
Qed.
Lemma p_K : forall k, (k < dim2sym dim)%nat ->
  is_derive (fun t => vecInvCS (fs dim F t) k) t0 (- sm (dim2sym dim) (fun l => T4K dim (fs dim F t0) k l * E' l)).
Proof.
  intros k Hk.
  apply (is_derive_ext_loc (fun t => adjv dim (vecCS (fs dim F t)) k * / dC dim (vecCS (fs dim F t)))).
  { eapply filter_imp; [|apply p_near]. intros t Ht. cbv beta. unfold fs at 3. rewrite invC_adj by auto.
    f_equal. symmetry. apply safe_inv_big. exact Ht. }
  eapply dval. apply (@invC_derive dim D (fun t => vecCS (fs dim F t)) _ t0 p_C k Hk).
  { pose proof p_near0. pose proof eps_pos. cbv beta. lra. }
  f_equal. apply sm_ext. intros l Hl. cbv beta.
  assert (Q : forall a, (t4s dim a < dim2sym dim)%nat).
  { intros a. pose proof D as D0. destruct D0 as [-> | [-> | ->]]; cbn [dim2sym t4s];
    do 10 (destruct a as [|a]; [cbn; lia|]); cbn; lia. }
  unfold T4K, mulT4_ikjl, mulT4_iljk. rewrite !p_K0 by apply Q. field.
  split; [pose proof p_near0; pose proof eps_pos; lra | apply eng_pos].
Qed.
Lemma tr_l : forall l, (l < dim2sym dim)%nat -> get_trace (dim2sym dim) l = if (l <? dim)%nat then 1 else 0.
Proof.
  intros l H. pose proof D as D0. destruct D0 as [-> | [-> | ->]]; cbn in H;
  do 6 (try (destruct l as [|l]; [reflexivity|])); exfalso; lia.
Qed.
Lemma p_tr : is_derive (fun t => trC (fs dim F t)) t0 (2 * sm (dim2sym dim) (fun l => get_trace (dim2sym dim) l * E' l)).
Proof.
  pose proof p_C as HC.
  apply (dext (fun t => (if (dim =? 2)%nat then 1 else 0) + sm dim (fun k => vecCS (fs dim F t) k))).
  { intros t. unfold fs. rewrite trC_c; auto. }
  eapply dval. apply dplus. apply dconst.
  apply (@dsm dim (fun k t => vecCS (fs dim F t) k)). intros k Hk. apply HC. pose proof (@dim_sym dim D). lia.
  cbv beta. rewrite (@sm_ge dim (dim2sym dim)).
  - rewrite Rplus_0_l, <- sm_scal. apply sm_ext. intros l Hl. rewrite tr_l by (pose proof (@dim_sym dim D); lia).
    unfold eng. apply Nat.ltb_lt in Hl. rewrite Hl. field.
  - apply dim_sym. auto.
  - intros l Hl. rewrite tr_l by lia. destruct (Nat.ltb_spec l dim); [lia|ring].
Qed.
Lemma p_in2 : is_derive (fun t => in2C (fs dim F t)) t0
  (2 * sm (dim2sym dim) (fun l => (trC (fs dim F t0) * get_trace (dim2sym dim) l - vecCS (fs dim F t0) l) * E' l)).
Proof.
  pose proof p_C as HC. pose proof (@trC_c dim (F t0) D) as HT. cbv zeta in HT. unfold fs at 2. rewrite HT. fold (fs dim F t0). clear HT.
  eapply dext. { intros t. symmetry. unfold fs. apply in2C_c; auto. }
  pose proof D as D0. destruct D0 as [-> | [-> | ->]]; cbn [dim2sym] in HC;
  try pose proof (HC 0%nat ltac:(lia)); try pose proof (HC 1%nat ltac:(lia)); try pose proof (HC 2%nat ltac:(lia));
  try pose proof (HC 3%nat ltac:(lia)); try pose proof (HC 4%nat ltac:(lia)); try pose proof (HC 5%nat ltac:(lia)); clear HC;
  fold (fs 1 F) (fs 2 F) (fs 3 F).
  - eapply dval. der. cbn -[vecCS Rplus Rmult Rminus Rdiv Ropp IZR]. unfold fs. ring.
  - eapply dval. der. cbn -[vecCS Rplus Rmult Rminus Rdiv Ropp IZR]. unfold fs. field.
  - eapply dval. der. cbn -[vecCS Rplus Rmult Rminus Rdiv Ropp IZR]. unfold fs. field.
Qed.
End Facts.
