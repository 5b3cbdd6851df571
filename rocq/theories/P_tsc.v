(** C31, C32: time step controllers. *)
From Coq Require Import Reals Lra.
From Verif Require Import Base M_tsc.
Set Implicit Arguments.
Open Scope R_scope.

Lemma Rpower_pos : forall x y, 0 < Rpower x y.
Proof. intros. unfold Rpower. apply exp_pos. Qed.

Lemma ln_le_0 : forall e, 0 < e <= 1 -> ln e <= 0.
Proof. intros e [H1 H2]. destruct H2 as [H2| ->]; [|rewrite ln_1; lra]. left. rewrite <- ln_1. apply ln_increasing; auto. Qed.
Lemma ln_gt_0 : forall e, 1 < e -> 0 < ln e.
Proof. intros e H. rewrite <- ln_1. apply ln_increasing; lra. Qed.

Lemma Rpower_le_1 : forall e p, 0 < e <= 1 -> 0 < p -> Rpower e p <= 1.
Proof.
  intros e p He Hp. unfold Rpower. rewrite <- exp_0. pose proof (ln_le_0 He).
  destruct (Req_dec (p * ln e) 0) as [->|]; [lra|]. left. apply exp_increasing. nra.
Qed.
Lemma Rpower_gt_1 : forall e p, 1 < e -> 0 < p -> 1 < Rpower e p.
Proof.
  intros e p He Hp. unfold Rpower. rewrite <- exp_0 at 1. pose proof (ln_gt_0 He). apply exp_increasing. nra.
Qed.

(** The factor proposed from the error. *)
Lemma ratio_accept : forall fs e p, 0 < fs -> 0 <= e <= 1 -> 0 < p ->
  match ndiv fs (npow e (1 / p)) with None => e = 0 | Some x => fs <= x /\ 0 < e /\ x = fs / Rpower e (1 / p) end.
Proof.
  intros fs e p Hf He Hp. assert (H1 : 0 < 1 / p) by (apply Rdiv_lt_0_compat; lra). unfold npow.
  destruct (Req_EM_T e 0) as [->|H0].
  - destruct (Rlt_dec 0 (1 / p)); [|contradiction]. cbn. destruct (Req_EM_T 0 0); auto. congruence.
  - cbn. pose proof (Rpower_pos e (1 / p)). destruct (Req_EM_T (Rpower e (1 / p)) 0); [lra|].
    assert (Rpower e (1 / p) <= 1) by (apply Rpower_le_1; lra). split; [|split; [lra|auto]].
    apply Rmult_le_reg_r with (Rpower e (1 / p)); auto. unfold Rdiv. rewrite Rmult_assoc, Rinv_l by lra. nra.
Qed.
Lemma ratio_reject : forall fs e p, 0 < fs -> 1 < e -> 0 < p ->
  exists x, ndiv fs (npow e (1 / p)) = Some x /\ 0 < x < fs /\ x = fs / Rpower e (1 / p).
Proof.
  intros fs e p Hf He Hp. assert (H1 : 0 < 1 / p) by (apply Rdiv_lt_0_compat; lra). unfold npow.
  destruct (Req_EM_T e 0); [lra|]. cbn. pose proof (Rpower_gt_1 He H1).
  destruct (Req_EM_T (Rpower e (1 / p)) 0); [lra|]. eexists. split; [reflexivity|]. split; auto. split.
  - apply Rdiv_lt_0_compat; lra.
  - apply Rmult_lt_reg_r with (Rpower e (1 / p)); [lra|]. unfold Rdiv. rewrite Rmult_assoc, Rinv_l by lra. nra.
Qed.

(** tsc.ed_basic: acceptance iff the error is at most one; an accepted step is
    changed by a factor between min(fmax, fsafety) and fmax (by fmax if the
    error is zero); a rejected one by a factor between fmin and
    max(fmin, fsafety), so it is strictly reduced. *)
Theorem C31_basic : forall c dt e, 0 < dt -> 0 <= e -> 0 < error_order c -> 0 < fsafety c -> 0 < fmax c ->
  match basic c dt e with
  | (d, Accept) => e <= 1 /\ dt * Rmin (fmax c) (fsafety c) <= d <= dt * fmax c /\ (e = 0 -> d = dt * fmax c) /\
                   (0 < e -> d = dt * Rmin (fmax c) (fsafety c / Rpower e (1 / error_order c)))
  | (d, Reject) => 1 < e /\ dt * fmin c <= d /\ d <= dt * Rmax (fmin c) (fsafety c) /\
                   d = dt * Rmax (fmin c) (fsafety c / Rpower e (1 / error_order c)) /\
                   (fmin c < 1 -> fsafety c <= 1 -> 0 < d < dt)
  end.
Proof.
  intros c dt e Hdt He Hp Hs Hm. unfold basic. destruct (Rle_dec e 1) as [H|H].
  - pose proof (ratio_accept Hs (conj He H) Hp) as P. split; auto. destruct (ndiv _ _) as [x|]; cbn [rmin].
    + destruct P as (P1 & P2 & P3). split; [|split; [intros; lra|intros; rewrite P3; auto]]. split.
      * apply Rmult_le_compat_l; [lra|]. apply Rle_min_compat_l. auto.
      * apply Rmult_le_compat_l; [lra|]. apply Rmin_l.
    + split; [split; [apply Rmult_le_compat_l; [lra|apply Rmin_l]|lra]|]. split; auto. intros; lra.
  - assert (H1 : 1 < e) by lra. destruct (ratio_reject Hs H1 Hp) as (x & -> & P2 & P3). cbn [rmax].
    split; auto. split; [apply Rmult_le_compat_l; [lra|apply Rmax_l]|].
    split; [apply Rmult_le_compat_l; [lra|]; apply Rle_max_compat_l; lra|]. split; [rewrite P3; auto|].
    intros Hf1 Hf2. assert (0 < Rmax (fmin c) x < 1).
    { unfold Rmax. destruct (Rle_dec (fmin c) x); lra. }
    split; [apply Rmult_lt_0_compat; lra|]. rewrite <- (Rmult_1_r dt) at 2. apply Rmult_lt_compat_l; lra.
Qed.

(** tsc.ed_pid: the factor is always between fmin and fmax. *)
Theorem C31_pid_bounds : forall c st dt e, 0 < dt -> fmin c <= fmax c ->
  let '(d, _, _) := pid c st dt e in dt * fmin c <= d <= dt * fmax c.
Proof.
  intros c [e0 e00] dt e Hdt Hm. unfold pid.
  destruct (nmul _ _) as [x|]; cbn [rmax rmin].
  - split; apply Rmult_le_compat_l; try lra; [|apply Rmin_l].
    apply Rmin_glb; auto. apply Rmax_l.
  - split; apply Rmult_le_compat_l; lra.
Qed.

(** With the default coefficients (P = D = 0, I = 1) it is tsc.ed_basic, as
    documented, provided that fmin <= fsafety <= fmax. *)
Theorem C31_pid_default : forall c st dt e, pcoef c = 0 -> dcoef c = 0 -> icoef c = 1 ->
  0 <= e -> 0 < error_order c -> 0 < fsafety c -> fmin c <= fsafety c <= fmax c ->
  pid c st dt e = (fst (basic c dt e), snd (basic c dt e), (e, fst st)).
Proof.
  intros c [e0 e00] dt e Hp Hd Hi He Ho Hs Hf. unfold pid. rewrite Hp, Hd, Hi.
  assert (Inv : 0 < 1 / error_order c) by (apply Rdiv_lt_0_compat; lra).
  replace (- (0 + 1 + 0) / error_order c) with (- (1 / error_order c)) by (field; lra).
  replace ((0 + 2 * 0) / error_order c) with 0 by (field; lra).
  replace (- 0 / error_order c) with 0 by (field; lra).
  destruct (Req_EM_T (- (1 / error_order c)) 0); [lra|]. destruct (Req_EM_T 0 0) as [_|]; [|congruence].
  unfold basic. destruct (Rle_dec e 1) as [H|H].
  - pose proof (ratio_accept Hs (conj He H) Ho) as P. cbn [fst snd]. f_equal. f_equal. f_equal. unfold npow at 1.
    destruct (Req_EM_T e 0) as [->|H0].
    + destruct (Rlt_dec 0 (- (1 / error_order c))); [lra|]. destruct (Rlt_dec (- (1 / error_order c)) 0); [|lra].
      cbn [nmul rmax rmin]. destruct (ndiv _ _) as [x|]; [exfalso; lra|]. reflexivity.
    + cbn [nmul rmax rmin]. destruct (ndiv _ _) as [x|]; [|exfalso; lra]. destruct P as (P1 & P2 & P3). cbn [rmin].
      rewrite Rpower_Ropp, !Rmult_1_r. change (fsafety c * / Rpower e (1 / error_order c)) with (fsafety c / Rpower e (1 / error_order c)).
      rewrite <- P3. f_equal. apply Rmax_right. lra.
  - assert (H1 : 1 < e) by lra. destruct (ratio_reject Hs H1 Ho) as (x & -> & P2 & P3). cbn [fst snd rmax]. f_equal. f_equal. f_equal.
    unfold npow. destruct (Req_EM_T e 0); [lra|]. cbn [nmul rmax rmin].
    rewrite Rpower_Ropp, !Rmult_1_r. change (fsafety c * / Rpower e (1 / error_order c)) with (fsafety c / Rpower e (1 / error_order c)).
    rewrite <- P3. apply Rmin_right. apply Rmax_lub; lra.
Qed.

(** With other coefficients, a rejected step may be repeated with a larger
    step: P = 1, I = D = 0, previous error 10, current error 2: factor 5/2. *)
Theorem C31_pid_reject_refuted : exists c st dt e, 0 < fmin c < fsafety c /\ fsafety c < 1 /\ 1 < fmax c /\ 0 < dt /\
  exists d st', pid c st dt e = (d, Reject, st') /\ dt < d.
Proof.
  exists (mkConf (3/10) (5/2) (8/10) 1 1 0 0 1 0 1), (10, 1), 1, 2. cbn. split; [lra|]. split; [lra|]. split; [lra|]. split; [lra|].
  unfold pid. cbn [pcoef icoef dcoef error_order fmin fmax fsafety].
  replace (- (1 + 0 + 0) / 1) with (- (1)) by lra. replace ((1 + 2 * 0) / 1) with 1 by lra. replace (- 0 / 1) with 0 by lra.
  destruct (Req_EM_T (-(1)) 0); [lra|]. destruct (Req_EM_T 1 0); [lra|]. destruct (Req_EM_T 0 0); [|congruence].
  unfold npow. destruct (Req_EM_T 2 0); [lra|]. destruct (Req_EM_T 10 0); [lra|]. cbn [nmul rmax rmin].
  rewrite Rpower_Ropp, !Rpower_1 by lra. destruct (Rle_dec 2 1); [lra|].
  eexists _, _. split; [reflexivity|].
  assert (E : Rmax (3 / 10) (8 / 10 * / 2 * 10 * 1) = 4) by (unfold Rmax; destruct (Rle_dec (3/10) (8 / 10 * / 2 * 10 * 1)); lra).
  rewrite E. unfold Rmin. destruct (Rle_dec (5 / 2) 4); lra.
Qed.

(** C32. tsc.ed_linear: over any sequence of errors, a step size increase
    happens only in an accepted step after at least inc_wait accepted steps
    without a change, and it is by at least min_finc; the other accepted steps
    keep the step size; a rejected step is strictly reduced. *)
Theorem C32_linear : forall c dt es, 0 < dt -> (forall e, In e es -> 0 <= e) ->
  0 < error_order c -> 0 < fsafety c <= 1 -> 0 < fmax c -> fmin c < 1 -> 0 < fred c <= 1 -> 1 <= min_finc c ->
  let out := linear_run c 0 dt es in
  forall k d d' r, nth_error out k = Some (d, d', r) ->
  0 < d' /\ (r = Reject -> d' < d) /\ (r = Accept -> d' = d \/ min_finc c * d <= d') /\
  (d < d' -> r = Accept /\ min_finc c * d <= d' /\ (inc_wait c <= k)%nat /\
     forall j, (k - inc_wait c <= j < k)%nat -> nth_error out j = Some (d, d, Accept)).
Proof.
  intros c dt es Hdt Hes Ho Hs Hm Hf Hr Hi.
  assert (STEP : forall count d e, 0 < d -> 0 <= e ->
     match linear c count d e with
     | (d', Reject, n) => n = 0%nat /\ 0 < d' < d
     | (d', Accept, n) => (d' = d /\ ((count < inc_wait c)%nat /\ n = S count \/ (inc_wait c <= count)%nat /\ n = count)) \/
                          ((inc_wait c <= count)%nat /\ n = 0%nat /\ min_finc c * d <= d')
     end).
  { intros count d e Hd He. unfold linear. pose proof (@C31_basic c d e Hd He Ho (proj1 Hs) Hm) as B.
    destruct (basic c d e) as [nd [|]].
    - destruct (Nat.leb_spec (inc_wait c) count) as [L|L].
      + destruct (Rle_dec (min_finc c) (nd / d)) as [G|G].
        * right. split; auto. split; auto. apply Rmult_le_compat_r with (r := d) in G; [|lra]. unfold Rdiv in G. rewrite Rmult_assoc, Rinv_l in G by lra. lra.
        * left. auto.
      + left. auto.
    - split; auto. destruct B as (_ & _ & _ & _ & B). specialize (B Hf (proj2 Hs)). nra. }
  assert (G : forall es, (forall e, In e es -> 0 <= e) -> forall count d0, 0 < d0 ->
    forall k d d' r, nth_error (linear_run c count d0 es) k = Some (d, d', r) ->
    0 < d' /\ (r = Reject -> d' < d) /\ (r = Accept -> d' = d \/ min_finc c * d <= d') /\
    (d < d' -> r = Accept /\ min_finc c * d <= d' /\ (inc_wait c <= count + k)%nat /\
       forall j, (k - inc_wait c <= j < k)%nat -> nth_error (linear_run c count d0 es) j = Some (d, d, Accept))).
  { clear es Hes. induction es as [|e t IH]; intros Hes count d0 Hd0 k d d' r E; [destruct k; discriminate|].
    cbn [linear_run] in *. pose proof (STEP count d0 e Hd0 (Hes e (or_introl eq_refl))) as ST.
    destruct (linear c count d0 e) as [[nd rr] n]. destruct k as [|k].
    - cbn in E. inversion E; subst d d' r. clear E. destruct rr.
      + destruct ST as [[-> ST]|(S1 & S2 & S3)].
        * split; auto. split; [discriminate|]. split; auto. intros; lra.
        * assert (d0 <= nd) by nra. split; [lra|]. split; [discriminate|]. split; auto. intros _. split; auto. split; auto. split; [lia|]. intros; lia.
      + destruct ST as [S1 S2]. split; [lra|]. split; [intros; lra|]. split; [discriminate|]. intros; lra.
    - cbn [nth_error] in E.
      assert (Hnd : 0 < nd). { destruct rr; [destruct ST as [[-> _]|(_ & _ & ST)]; [auto|nra]|lra]. }
      destruct (IH (fun e He => Hes e (or_intror He)) n nd Hnd k d d' r E) as (I1 & I2 & I3 & I4).
      split; auto. split; auto. split; auto. intros Lt. destruct (I4 Lt) as (J1 & J2 & J3 & J4). split; auto. split; auto.
      assert (HN : (inc_wait c <= count + S k)%nat /\ ((S k - inc_wait c <= 0)%nat -> rr = Accept /\ nd = d0)).
      { destruct rr; [destruct ST as [[-> [[S1 S2]|[S1 S2]]]|(S1 & S2 & S3)]|destruct ST as [S1 S2]]; subst n; split; auto; try lia; intros; lia. }
      destruct HN as [HN1 HN2]. split; auto. intros j Hj. destruct j as [|j].
      + cbn [nth_error]. destruct HN2 as [-> ->]; [lia|].
        destruct k as [|k].
        * (* the first following call starts from the same size *)
          destruct t as [|e2 t2]; [discriminate|]. cbn [linear_run] in E. destruct (linear c n d0 e2) as [[x1 x2] x3]. cbn in E. inversion E; subst. reflexivity.
        * specialize (J4 0%nat ltac:(lia)). destruct t as [|e2 t2]; [discriminate|]. cbn [linear_run] in J4.
          destruct (linear c n d0 e2) as [[x1 x2] x3]. cbn in J4. inversion J4; subst. reflexivity.
      + cbn [nth_error]. apply J4. lia. }
  intros out k d d' r E. exact (G es Hes 0%nat dt Hdt k d d' r E).
Qed.

(** A concrete configuration: the defaults with inc_wait = 1. *)
Example C32_ex : forall e, e = 0 ->
  let c := mkConf (3/10) (5/2) (8/10) 2 0 1 0 1 1 (3/2) in
  linear_run c 0 1 [e; e] = [(1, 1, Accept); (1, 5/2, Accept)].
Proof.
  intros e -> c. unfold c. cbn [linear_run]. unfold linear at 1. unfold basic. cbn [fmax fmin fsafety error_order inc_wait min_finc].
  destruct (Rle_dec 0 1); [|lra]. cbn [Nat.leb]. unfold linear, basic. cbn [fmax fmin fsafety error_order inc_wait min_finc].
  destruct (Rle_dec 0 1); [|lra]. cbn [Nat.leb]. unfold npow. destruct (Req_EM_T 0 0); [|congruence].
  destruct (Rlt_dec 0 (1 / 2)); [|lra]. cbn [ndiv]. destruct (Req_EM_T 0 0); [|congruence]. cbn [rmin].
  match goal with |- context [Rle_dec ?a ?b] => replace b with (5/2) by lra end.
  destruct (Rle_dec (3 / 2) (5 / 2)) as [H|H]; [|lra]. replace (1 * (5 / 2)) with (5 / 2) by lra. reflexivity.
Qed.

Print Assumptions C31_basic.
Print Assumptions C31_pid_bounds.
Print Assumptions C31_pid_default.
Print Assumptions C31_pid_reject_refuted.
Print Assumptions C32_linear.
