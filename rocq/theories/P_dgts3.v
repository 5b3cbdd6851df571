(** C154-C156: examples and refutations for the DG time steppers. *)
From Coq Require Import List Arith Lia Reals Lra FunctionalExtensionality.
From Coquelicot Require Import Coquelicot.
From Verif Require Import M_dgts S_dgts P_dgts P_dgts2.
Import ListNotations.
Open Scope R_scope.

Definition idv (x : vec) : vec := x.
Lemma id_exact : exact_solver idv idv.
Proof. repeat split; reflexivity. Qed.

(** A nontrivial exact solver: mass matrix diag(2, 2, ...). *)
Lemma diag_exact : exact_solver (fun x i => 2 * x i) (fun x i => / 2 * x i).
Proof.
  repeat split; intros; apply vec_ext; intro; try ring; field.
Qed.

(** Hypotheses of C154-C155 are met: two cells exchanging mass. *)
Definition ex_flux (t : R) (x : vec) : vec :=
  fun i => match i with O => x 0%nat - x 1%nat | S O => x 1%nat - x 0%nat | _ => 0 end.
Theorem C155_example :
  let m := fun x : vec => x 0%nat + x 1%nat in
  exists s x, dg_call 0 (1 / 4) 5 SaveAll (fun x i => 2 * x i) (fun _ _ _ => 0) ex_flux
      (rk3_step (1 / 4) (fun x i => 2 * x i) (fun x i => / 2 * x i) (fun _ _ _ => 0) ex_flux idv)
      (fun i => INR i) = Some (s, x) /\ m x = 1.
Proof.
  intro m.
  destruct (C155_rk3_conserves 0 (1 / 4) 5 SaveAll _ _ (fun _ _ _ => 0) ex_flux idv diag_exact ltac:(lia) m (fun i => INR i))
    as (s & x & E & Em & _).
  - split; intros; unfold m; ring.
  - reflexivity.
  - intros. unfold m. ring.
  - intros. unfold m, ex_flux. ring.
  - exists s, x. split; [exact E|]. rewrite Em. unfold m. cbn. ring.
Qed.

(** ** Bounds of exp *)
Lemma incr_nonneg (f g : R -> R) : f 0 = 0 -> (forall x, 0 <= x -> is_derive f x (g x)) -> (forall x, 0 <= x -> 0 <= g x) ->
  forall x, 0 <= x -> 0 <= f x.
Proof.
  intros H0 Hd Hg x Hx.
  destruct (Req_dec x 0) as [-> | Hne]; [lra|].
  destruct (MVT_gen f 0 x g) as (c & Hc & E).
  - intros y Hy. apply Hd. rewrite Rmin_left in Hy by lra. lra.
  - intros y Hy. apply continuity_pt_filterlim. apply (ex_derive_continuous f). exists (g y). apply Hd.
    rewrite Rmin_left in Hy by lra. lra.
  - rewrite Rmin_left in Hc by lra. rewrite H0, Rminus_0_r, Rminus_0_r in E. rewrite E.
    apply Rmult_le_pos; [apply Hg|]; lra.
Qed.

Lemma exp_b1 x : 0 <= x -> 0 <= 1 - exp (- x).
Proof.
  apply (incr_nonneg (fun x => 1 - exp (- x)) (fun x => exp (- x))).
  - rewrite Ropp_0, exp_0. ring.
  - intros. auto_derive; [trivial|]. ring.
  - intros. left. apply exp_pos.
Qed.
Lemma exp_b2 x : 0 <= x -> 0 <= exp (- x) - (1 - x).
Proof.
  apply (incr_nonneg (fun x => exp (- x) - (1 - x)) (fun x => 1 - exp (- x))).
  - rewrite Ropp_0, exp_0. ring.
  - intros. auto_derive; [trivial|]. ring.
  - apply exp_b1.
Qed.
Lemma exp_b3 x : 0 <= x -> 0 <= 1 - x + x ^ 2 / 2 - exp (- x).
Proof.
  apply (incr_nonneg (fun x => 1 - x + x ^ 2 / 2 - exp (- x)) (fun x => exp (- x) - (1 - x))).
  - rewrite Ropp_0, exp_0. field.
  - intros. auto_derive; [trivial|]. field.
  - apply exp_b2.
Qed.
Lemma exp_b4 x : 0 <= x -> 0 <= exp (- x) - (1 - x + x ^ 2 / 2 - x ^ 3 / 6).
Proof.
  apply (incr_nonneg (fun x => exp (- x) - (1 - x + x ^ 2 / 2 - x ^ 3 / 6)) (fun x => 1 - x + x ^ 2 / 2 - exp (- x))).
  - rewrite Ropp_0, exp_0. field.
  - intros. auto_derive; [trivial|]. field.
  - apply exp_b3.
Qed.
Lemma exp_b5 x : 0 <= x -> 0 <= 1 - x + x ^ 2 / 2 - x ^ 3 / 6 + x ^ 4 / 24 - exp (- x).
Proof.
  apply (incr_nonneg (fun x => 1 - x + x ^ 2 / 2 - x ^ 3 / 6 + x ^ 4 / 24 - exp (- x))
           (fun x => exp (- x) - (1 - x + x ^ 2 / 2 - x ^ 3 / 6))).
  - rewrite Ropp_0, exp_0. field.
  - intros. auto_derive; [trivial|]. field.
  - apply exp_b4.
Qed.

(** The result of the first step of size [h] for [dp/dt = - p], p(0) = 1, as a volume or as a facet term. *)
Definition one_step (vol : bool) (h : R) : option (pst * vec) :=
  let V := fun (_ : R) (x : vec) => if vol then x else fun _ => 0 in
  let F := fun (_ : R) (x : vec) => if vol then fun _ => 0 else x in
  dg_call 0 h 2 SaveAll idv V F (rk3_step h idv idv V F idv) (fun _ => 1).

(** The local error of a step is of fourth order for a facet term ... *)
Theorem C155_local_error_partial h : 0 <= h ->
  exists s x, one_step false h = Some (s, x) /\ Rabs (x 0%nat - exp (- h)) <= h ^ 4 / 24.
Proof.
  intro Hh. unfold one_step.
  destruct (C155_rk3_order_partial 0 h 2 SaveAll idv idv (fun _ _ => fun _ => 0) (fun _ x => x) idv id_exact ltac:(lia)
     (fun x => x) (fun _ => 1)) with (X := fix X k := match k with O => fun _ : nat => 1 | S k => fun i => X k i - h * X k i + h ^ 2 / 2 * X k i - h ^ 3 / 6 * X k i end) as (s & E).
  - split; reflexivity.
  - reflexivity.
  - reflexivity.
  - reflexivity.
  - reflexivity.
  - intros k i. reflexivity.
  - exists s. eexists. split; [exact E|]. cbn [Nat.sub].
    pose proof (exp_b4 h Hh). pose proof (exp_b5 h Hh).
    rewrite Rabs_left1 by lra. lra.
Qed.

(** ... but only of second order (the method is first order) for a volume term. *)
Theorem C155_order_refuted : ~ (exists C, forall h, 0 < h < 1 ->
  exists s x, one_step true h = Some (s, x) /\ Rabs (x 0%nat - exp (- h)) <= C * h ^ 3).
Proof.
  intros (C & H).
  assert (HX : forall h, exists s, one_step true h = Some (s, fun _ => 1 - h + h ^ 2 / 3)).
  { intro h. unfold one_step.
    set (X := fix X k := match k with O => fun _ : nat => 1 | S k => fun i : nat => (1 - h + h ^ 2 / 3) * X k i end).
    destruct (C155_rk3_run_partial 0 h 2 SaveAll idv idv (fun _ x => x) (fun _ _ => fun _ => 0) idv id_exact ltac:(lia)
      (fun _ => 1) X eq_refl) as (s & E & _).
    - intro k. apply vec_ext. intro i. unfold tvd3, tvd2, tvd1, rate, idv. cbn [X].
      fold X. field.
    - exists s. rewrite E. f_equal. f_equal. apply vec_ext. intro. cbn. ring. }
  set (h := Rmin (1 / 2) (/ (12 * (Rabs C + 1)))).
  assert (HC : 0 <= Rabs C) by apply Rabs_pos.
  assert (Hp : 0 < / (12 * (Rabs C + 1))) by (apply Rinv_0_lt_compat; lra).
  assert (Hh : 0 < h) by (unfold h; apply Rmin_glb_lt; lra).
  assert (Hh1 : h <= 1 / 2) by apply Rmin_l.
  assert (Hh2 : h <= / (12 * (Rabs C + 1))) by apply Rmin_r.
  destruct (H h ltac:(lra)) as (s & x & E & Hb).
  destruct (HX h) as (s' & E'). rewrite E in E'. inversion E'; subst x.
  change (Rabs (1 - h + h ^ 2 / 3 - exp (- h)) <= C * h ^ 3) in Hb.
  pose proof (exp_b4 h ltac:(lra)) as B.
  assert (A : h ^ 2 / 6 - h ^ 3 / 6 <= Rabs (1 - h + h ^ 2 / 3 - exp (- h))).
  { rewrite Rabs_minus_sym. eapply Rle_trans; [|apply Rle_abs]. lra. }
  assert (A2 : C * h ^ 3 <= Rabs C * h * h ^ 2).
  { pose proof (Rle_abs C). assert (0 <= h ^ 3) by (apply pow_le; lra). 
    replace (Rabs C * h * h ^ 2) with (Rabs C * h ^ 3) by ring. now apply Rmult_le_compat_r. }
  assert (A3 : (Rabs C + 1) * h <= / 12).
  { apply Rmult_le_compat_l with (r := Rabs C + 1) in Hh2; [|lra].
    eapply Rle_trans; [exact Hh2|]. right. field. lra. }
  assert (Hh3 : 0 < h ^ 2) by (apply pow_lt; lra).
  assert (A4 : h ^ 2 / 6 - h ^ 3 / 6 = (1 - h) / 6 * h ^ 2) by field.
  assert (A5 : (1 - h) / 6 * h ^ 2 <= Rabs C * h * h ^ 2) by lra.
  apply Rmult_le_reg_r in A5; [|exact Hh3]. nra.
Qed.

(** The step hook is called twice per step, first with an intermediate stage,
    both times half a step late; with an array of save times (a number of saved
    results), the saved result is the intermediate stage. *)
Definition saved_run : option (pst * vec) :=
  dg_call 0 1 2 (SaveTimes [0; 1]) idv (fun _ _ => fun _ => 0) (fun _ x => x)
    (rk3_step 1 idv idv (fun _ _ => fun _ => 0) (fun _ x => x) idv) (fun _ => 1).

Theorem C155_saved_result_refuted : exists s x y t,
  saved_run = Some (s, x) /\
  p_saved s = [(0%nat, 0, fun _ => 1); (1%nat, t, y)] /\ x 0%nat = 1 / 3 /\ y 0%nat = 3 / 4 /\ t <> 1 /\
  map (fun e => fst (fst e)) (p_hooks s) = [0; 1; 1]%nat.
Proof.
  assert (Hp : 0 < / 10 ^ 14 * 1) by (rewrite Rmult_1_r; apply Rinv_0_lt_compat, pow_lt; lra).
  unfold saved_run, dg_call.
  unfold poststep_fun at 1. unfold is_save. cbn -[Rle_dec pow Rplus Rmult Rinv Rdiv dg_loop].
  destruct (Rle_dec 0 _) as [_|N]; [|exfalso; lra].
  cbn -[Rle_dec pow Rplus Rmult Rinv Rdiv dg_loop].
  unfold dg_loop, prestep_fun, rk3_step, res_fun.
  cbn -[Rle_dec pow Rplus Rmult Rinv Rdiv poststep_fun].
  unfold poststep_fun at 1. unfold is_save. cbn -[Rle_dec pow Rplus Rmult Rinv Rdiv poststep_fun].
  unfold time_of. cbn [INR].
  destruct (Rle_dec 1 _) as [_|N]; [|exfalso; lra].
  cbn -[Rle_dec pow Rplus Rmult Rinv Rdiv poststep_fun].
  unfold poststep_fun at 1. unfold is_save. cbn -[Rle_dec pow Rplus Rmult Rinv Rdiv].
  eexists _, _, _, _. split; [reflexivity|].
  split; [reflexivity|].
  unfold idv, vscale, vsub, vadd, rate.
  split; [lra|]. split; [lra|]. split; [intro N; lra | reflexivity].
Qed.

(** RK4 does not even keep a steady state: no terms at all. *)
Theorem C156_rk4_refuted : exists s x,
  dg_call 0 1 2 SaveAll idv (fun _ _ => fun _ => 0) (fun _ _ => fun _ => 0)
    (rk4_step 1 idv idv (fun _ _ => fun _ => 0) (fun _ _ => fun _ => 0) idv) (fun _ => 1) = Some (s, x)
  /\ x 0%nat <> 1.
Proof.
  unfold dg_call, poststep_fun, is_save. cbn -[pow Rplus Rmult Rinv Rdiv dg_loop rk4_step].
  unfold dg_loop, rk4_step, rk4_stages, stage_updates, poststep_fun, is_save, prestep_fun, res_fun.
  cbn -[pow Rplus Rmult Rinv Rdiv].
  eexists _, _. split; [reflexivity|].
  unfold idv, vscale, vsub, vadd, vneg. intro N. lra.
Qed.

Print Assumptions C154_euler_run.
Print Assumptions C154_euler_conserves.
Print Assumptions C154_euler_stable.
Print Assumptions C155_rk3_run_partial.
Print Assumptions C155_rk3_conserves.
Print Assumptions C155_rk3_stable_partial.
Print Assumptions C155_rk3_order_partial.
Print Assumptions C155_local_error_partial.
Print Assumptions C155_order_refuted.
Print Assumptions C155_saved_result_refuted.
Print Assumptions C156_rk4_partial.
Print Assumptions C156_rk4_refuted.
