(** C186, C187: the steepest descent optimizer. *)
From Coq Require Import Reals Lra Psatz.
From Verif Require Import Base M_nls P_nls P_ssn M_opt S_opt.
Set Implicit Arguments.
Open Scope R_scope.

Lemma Rnz_true : forall x, Rnz x = true <-> x <> 0.
Proof. intros. unfold Rnz. destruct Req_EM_T; split; intros; auto; try discriminate; contradiction. Qed.

Section Runs.
Variable c : oconf.
Variable fn : vec -> option R.
Variable grad : vec -> vec.
Variable nrm : vec -> R.
Notation bt := (backtrack c fn).
Notation loop := (oloop c fn grad nrm).

Lemma oconv_spec : forall it obj prev gn,
  match oconv_test c it obj prev gn with
  | Some ret => flag_means (o_of c) (o_ofg c) (o_rd c) ret it obj prev gn /\ (ret <= 3)%nat /\
      (ret = 1%nat -> (o_imax c <= Z.of_nat it)%Z /\ ~ Rabs obj < o_of c /\ (gn < o_ofg c -> gn = 0) /\ ~ ((0 < it)%nat /\ Rabs (prev - obj) < o_rd c * Rabs prev))
  | None => (Z.of_nat it < o_imax c)%Z /\ ~ Rabs obj < o_of c
  end.
Proof.
  intros. unfold oconv_test. destruct (Rltb (Rabs obj) (o_of c)) eqn:E0; [apply Rltb_true in E0; cbn; repeat split; auto; try lia; discriminate|]. apply Rltb_false in E0.
  destruct (Rnz gn && Rltb gn (o_ofg c)) eqn:E2.
  { apply andb_true_iff in E2. destruct E2 as [_ E2]. apply Rltb_true in E2. cbn. repeat split; auto; try lia; discriminate. }
  assert (E2' : gn < o_ofg c -> gn = 0).
  { intros H. apply andb_false_iff in E2. destruct E2 as [E2|E2]; [|apply Rltb_false in E2; lra]. destruct (Req_dec gn 0); auto. apply Rnz_true in H0. congruence. }
  destruct ((0 <? it)%nat && Rltb (Rabs (prev - obj)) (o_rd c * Rabs prev)) eqn:E3.
  { apply andb_true_iff in E3. destruct E3 as [A B]. apply Nat.ltb_lt in A. apply Rltb_true in B. cbn. repeat split; auto; try lia; discriminate. }
  assert (E3' : ~ ((0 < it)%nat /\ Rabs (prev - obj) < o_rd c * Rabs prev)).
  { intros [A B]. apply Nat.ltb_lt in A. apply Rltb_true in B. rewrite A, B in E3. discriminate. }
  destruct (Z.leb_spec (o_imax c) (Z.of_nat it)); [|split; [auto|lra]]. cbn. repeat split; auto; lia || lra || auto.
Qed.

(** [x] is the iterate [it] after the iterate with the objective [prev]. *)
Definition from_prev (it : nat) (x : vec) (prev : R) : Prop :=
  exists xp, fn xp = Some prev /\ match it with 0%nat => xp = x | S _ => exists alpha, x = vsub xp (vscale alpha (grad xp)) end.
Lemma oloop_spec : forall fuel lsfuel it x obj0 prev q, (it <> 0%nat -> from_prev it x prev) -> (it <= Z.to_nat (o_imax c))%nat ->
  loop fuel lsfuel it x obj0 prev = Ok q ->
  fn (p_x q) = Some (p_of q) /\ (if (it =? 0)%nat then fn x = Some (p_of0 q) else p_of0 q = obj0) /\ (it <= p_it q <= Z.to_nat (o_imax c))%nat /\ (p_ret q <= 3)%nat /\
  exists pr, from_prev (p_it q) (p_x q) pr /\ flag_means (o_of c) (o_ofg c) (o_rd c) (p_ret q) (p_it q) (p_of q) pr (nrm (grad (p_x q))) /\
    (p_ret q = 1%nat -> p_it q = Z.to_nat (o_imax c) /\ ~ Rabs (p_of q) < o_of c /\ (nrm (grad (p_x q)) < o_ofg c -> nrm (grad (p_x q)) = 0) /\
       ~ ((0 < p_it q)%nat /\ Rabs (pr - p_of q) < o_rd c * Rabs pr)).
Proof.
  induction fuel as [|fuel IH]; intros lsfuel it x obj0 prev q FP IM H; [discriminate|]. cbn [oloop] in H. destruct (fn x) as [obj|] eqn:FX; [|discriminate].
  assert (FP' : from_prev it x (if (it =? 0)%nat then obj else prev)).
  { destruct it; cbn [Nat.eqb]; [exists x; auto|apply FP; lia]. }
  assert (CS := oconv_spec it obj (if (it =? 0)%nat then obj else prev) (nrm (grad x))).
  destruct (oconv_test c it obj (if (it =? 0)%nat then obj else prev) (nrm (grad x))) as [ret|].
  - injection H as <-. cbn [p_x p_of p_of0 p_it p_ret]. destruct CS as (A & B & C). split; auto. split; [destruct (it =? 0)%nat; auto|]. split; [lia|]. split; auto.
    exists (if (it =? 0)%nat then obj else prev). split; auto. split; auto. intros R1. destruct (C R1) as (C1 & C2). split; auto. lia.
  - destruct CS as (CI & _). destruct (bt lsfuel x (grad x) obj (o_ls0 c)) as [alpha|]; [|discriminate]. cbn [bind] in H. apply IH in H; [|intros _; exists x; split; auto; exists alpha; auto|lia].
    destruct H as (A & B & C & D). cbn [Nat.eqb] in B. split; auto. split; [rewrite B; destruct (it =? 0)%nat; auto|]. split; [lia|auto].
Qed.
(** The flag tells the truth about the returned vector. *)
Theorem C186_flag : forall fuel lsfuel x0 q, fmin_sd c fn grad nrm fuel lsfuel x0 = Ok q ->
  fn (p_x q) = Some (p_of q) /\ fn x0 = Some (p_of0 q) /\ (p_it q <= Z.to_nat (o_imax c))%nat /\ (p_ret q <= 3)%nat /\
  exists pr, from_prev (p_it q) (p_x q) pr /\ flag_means (o_of c) (o_ofg c) (o_rd c) (p_ret q) (p_it q) (p_of q) pr (nrm (grad (p_x q))) /\
    (p_ret q = 1%nat -> p_it q = Z.to_nat (o_imax c) /\ ~ Rabs (p_of q) < o_of c /\ (nrm (grad (p_x q)) < o_ofg c -> nrm (grad (p_x q)) = 0) /\
       ~ ((0 < p_it q)%nat /\ Rabs (pr - p_of q) < o_rd c * Rabs pr)).
Proof.
  intros fuel lsfuel x0 q H. unfold fmin_sd in H. apply oloop_spec in H; [|congruence|lia]. destruct H as (A & B & C & D). cbn [Nat.eqb] in B. split; auto. split; auto. split; [lia|auto].
Qed.

(** ** Termination *)
Section Termination.
Hypothesis H0 : 0 < o_ls0 c.
Hypothesis RR : 0 < o_red c < 1.
Hypothesis RW : 0 < o_warp c < 1.
Hypothesis LM : 0 < o_min c.
Let qq := Rmax (o_red c) (o_warp c).
Lemma bt_terminates : forall fuel n x g obj, o_ls0 c * qq ^ n < o_min c -> forall alpha j, 0 < alpha <= o_ls0 c * qq ^ j -> (j <= n)%nat -> (n < j + fuel)%nat ->
  bt fuel x g obj alpha <> Err OutOfFuel.
Proof.
  assert (Q1 : 0 < qq < 1 /\ o_red c <= qq /\ o_warp c <= qq) by (unfold qq, Rmax; destruct Rle_dec; lra). destruct Q1 as (Q1 & QR & QW).
  induction fuel as [|fuel IH]; intros n x g obj HN alpha j LS JN NF; [lia|]. cbn [backtrack].
  assert (NEXT : forall t, 0 < t <= qq -> ~ alpha * t < o_min c -> bt fuel x g obj (alpha * t) <> Err OutOfFuel).
  { intros t T NL. assert (P : 0 < alpha * t <= o_ls0 c * qq ^ S j).
    { split; [apply Rmult_lt_0_compat; lra|]. cbn [pow]. replace (o_ls0 c * (qq * qq ^ j)) with (o_ls0 c * qq ^ j * qq) by ring. apply Rmult_le_compat; lra. }
    apply IH with (n := n) (j := S j); auto; [|lia]. destruct (Nat.eq_dec j n) as [->|]; [|lia]. exfalso. apply NL.
    assert (0 < qq ^ n) by (apply pow_lt; lra). cbn [pow] in P. nra. }
  destruct (fn _) as [aux|].
  - destruct (o_bt c); [|discriminate]. destruct Rltb; [discriminate|]. destruct (Rltb (alpha * o_red c) (o_min c)) eqn:E; [discriminate|]. apply Rltb_false in E. apply NEXT; lra.
  - destruct (Rltb (alpha * o_warp c) (o_min c)) eqn:E; [discriminate|]. apply Rltb_false in E. apply NEXT; lra.
Qed.
Theorem C186_terminates : exists lsfuel0, forall lsfuel fuel x0, (lsfuel0 <= lsfuel)%nat -> (Z.to_nat (o_imax c) < fuel)%nat ->
  fmin_sd c fn grad nrm fuel lsfuel x0 <> Err OutOfFuel.
Proof.
  assert (Q1 : 0 < qq < 1) by (unfold qq, Rmax; destruct Rle_dec; lra).
  assert (PM : 0 < o_min c / o_ls0 c) by (apply Rdiv_lt_0_compat; lra).
  destruct (pow_lt_1_zero qq) with (y := o_min c / o_ls0 c) as [n N]; auto; [rewrite Rabs_right; lra|].
  specialize (N n (le_n n)). rewrite Rabs_right in N by (apply Rle_ge, pow_le; lra).
  assert (N' : o_ls0 c * qq ^ n < o_min c). { apply (Rmult_lt_compat_l (o_ls0 c)) in N; auto. replace (o_ls0 c * (o_min c / o_ls0 c)) with (o_min c) in N by (field; lra). auto. }
  exists (S n). intros lsfuel fuel x0 LF FU. unfold fmin_sd.
  assert (G : forall fuel it x o0 p, (Z.to_nat (o_imax c) < it + fuel)%nat -> (it <= Z.to_nat (o_imax c))%nat -> loop fuel lsfuel it x o0 p <> Err OutOfFuel); [|apply G; lia].
  clear fuel FU x0. induction fuel as [|fuel IH]; intros it x o0 p IT I0; [lia|]. cbn [oloop]. destruct (fn x) as [obj|]; [|discriminate].
  assert (CS := oconv_spec it obj (if (it =? 0)%nat then obj else p) (nrm (grad x))). destruct oconv_test; [discriminate|]. destruct CS as (CI & _).
  assert (LS := @bt_terminates lsfuel n x (grad x) obj N' (o_ls0 c) 0%nat ltac:(cbn; lra) ltac:(lia) ltac:(lia)).
  destruct (bt lsfuel x (grad x) obj (o_ls0 c)) as [alpha|ex]; [|cbn [bind]; congruence]. cbn [bind]. apply IH; lia.
Qed.
End Termination.

(** ** Steps *)
(** The step is the first one (in the sequence of reductions) good enough, unless it is
    shorter than the minimum. *)
Theorem C187_step : forall fuel x g obj alpha0 alpha, bt fuel x g obj alpha0 = Ok alpha -> o_bt c = true ->
  (exists v, fn (vsub x (vscale alpha g)) = Some v /\ v < obj * o_on c) \/ alpha < o_min c.
Proof.
  induction fuel as [|fuel IH]; intros x g obj alpha0 alpha H B; [discriminate|]. cbn [backtrack] in H. destruct (fn (vsub x (vscale alpha0 g))) as [v|] eqn:FX.
  - rewrite B in H. destruct (Rltb v (obj * o_on c)) eqn:E; [injection H as <-; apply Rltb_true in E; left; exists v; auto|].
    destruct (Rltb (alpha0 * o_red c) (o_min c)) eqn:E1; [injection H as <-; apply Rltb_true in E1; auto|]. eapply IH; eauto.
  - destruct Rltb; [discriminate|]. eapply IH; eauto.
Qed.
End Runs.

(** For functions with a Lipschitz gradient the objective never grows, whatever the
    initial guess, if the shortest step is allowed to be as short as 2 red / L. *)
Section Smooth.
Variable c : oconf.
Variable f : vec -> R.
Variable grad : vec -> vec.
Variable nrm : vec -> R.
Variable L : R.
Hypothesis HL : 0 < L.
Hypothesis SM : smooth_descent f grad L.
Hypothesis BT : o_bt c = true.
Hypothesis ON : o_on c = 1.
Hypothesis RR : 0 < o_red c < 1.
Hypothesis H0 : 0 < o_ls0 c.
Hypothesis HM : o_min c <= 2 * o_red c / L.
Notation bt := (backtrack c (fun x => Some (f x))).
Lemma rejected : forall x t, 0 <= t -> 0 < sumsq (grad x) -> f x <= f (vsub x (vscale t (grad x))) -> t = 0 \/ 2 / L <= t.
Proof.
  intros x t T SP H. specialize (SM x T). set (s := sumsq (grad x)) in *. assert (E : 0 <= t * s * (L / 2 * t - 1)) by (clear -SM H; nra).
  destruct (Req_dec t 0); [auto|right]. assert (P : 0 < t * s) by (apply Rmult_lt_0_compat; lra). assert (E1 : 0 <= L / 2 * t - 1).
  { destruct (Rle_dec 0 (L / 2 * t - 1)); auto. exfalso. assert (t * s * (L / 2 * t - 1) < 0) by (rewrite <- (Rmult_0_r (t * s)); apply Rmult_lt_compat_l; lra). lra. }
  apply (Rmult_le_reg_r L); auto. unfold Rdiv. rewrite Rmult_assoc, Rinv_l by lra. lra.
Qed.
Theorem C187_smooth_step : forall fuel x alpha0 alpha, 0 < alpha0 -> 0 < sumsq (grad x) -> bt fuel x (grad x) (f x) alpha0 = Ok alpha ->
  f (vsub x (vscale alpha (grad x))) < f x /\ (alpha = alpha0 \/ 2 * o_red c / L <= alpha).
Proof.
  induction fuel as [|fuel IH]; intros x alpha0 alpha A0 SP H; [discriminate|]. cbn [backtrack] in H. rewrite BT, ON in H.
  destruct (Rltb (f (vsub x (vscale alpha0 (grad x)))) (f x * 1)) eqn:E; [injection H as <-; apply Rltb_true in E; split; [lra|auto]|].
  apply Rltb_false in E. destruct (@rejected x alpha0 ltac:(lra) SP ltac:(lra)) as [?|K]; [lra|].
  assert (K2 : 2 * o_red c / L <= alpha0 * o_red c) by (apply (Rmult_le_compat_r (o_red c)) in K; [|lra]; unfold Rdiv in *; lra).
  destruct (Rltb (alpha0 * o_red c) (o_min c)) eqn:E1; [apply Rltb_true in E1; lra|].
  destruct (IH x (alpha0 * o_red c) alpha ltac:(apply Rmult_lt_0_compat; lra) SP H) as (A & B). split; auto. right. destruct B as [->|B]; lra.
Qed.
Lemma bt_pos : forall fuel x g obj alpha0 alpha, 0 < alpha0 -> bt fuel x g obj alpha0 = Ok alpha -> 0 < alpha.
Proof.
  induction fuel as [|fuel IH]; intros x g obj alpha0 alpha A0 H; [discriminate|]. cbn [backtrack] in H. rewrite BT in H. assert (0 < alpha0 * o_red c) by (apply Rmult_lt_0_compat; lra).
  destruct Rltb; [injection H as <-; auto|]. destruct (Rltb (alpha0 * o_red c) (o_min c)); [injection H as <-; auto|]. eapply IH; eauto.
Qed.
Lemma step_le : forall fuel x alpha, bt fuel x (grad x) (f x) (o_ls0 c) = Ok alpha -> f (vsub x (vscale alpha (grad x))) <= f x.
Proof.
  intros fuel x alpha H. pose proof (sumsq_pos (grad x)). destruct (Rlt_dec 0 (sumsq (grad x))).
  - left. exact (proj1 (@C187_smooth_step fuel x (o_ls0 c) alpha H0 r H)).
  - assert (A := @bt_pos _ _ _ _ _ _ H0 H). specialize (SM x (Rlt_le _ _ A)). replace (sumsq (grad x)) with 0 in SM by lra. lra.
Qed.
Theorem C187_monotone : forall fuel lsfuel x0 q, fmin_sd c (fun x => Some (f x)) grad nrm fuel lsfuel x0 = Ok q -> p_of q <= p_of0 q /\ p_of q = f (p_x q) /\ p_of0 q = f x0.
Proof.
  intros fuel lsfuel x0 q. unfold fmin_sd.
  assert (G : forall fuel it x o0 p, oloop c (fun x => Some (f x)) grad nrm fuel lsfuel it x o0 p = Ok q -> p_of q <= f x /\ p_of q = f (p_x q) /\ p_of0 q = if (it =? 0)%nat then f x else o0).
  { clear fuel x0. induction fuel as [|fuel IH]; intros it x o0 p H; [discriminate|]. cbn [oloop] in H. destruct oconv_test.
    - injection H as <-. cbn [p_of p_x p_of0]. repeat split; lra.
    - destruct (bt lsfuel x (grad x) (f x) (o_ls0 c)) as [alpha|] eqn:EB; [|discriminate]. cbn [bind] in H. apply IH in H. destruct H as (A & B & C). apply step_le in EB. cbn [Nat.eqb] in C. repeat split; auto. lra. }
  intros H. apply G in H. destruct H as (A & B & C). cbn [Nat.eqb] in C. rewrite C. auto.
Qed.
End Smooth.

(** ** Witnesses *)
Definition sq_conf (imax : Z) (on mn : R) : oconf := OConf imax (1/100000) (1/10000) (1/100000000) true on 1 (1/2) (1/10) mn.
(** f = 3/2 x^2 meets the hypotheses with L = 3. *)
Example C187_ex : smooth_descent (fun x => 3 / 2 * sumsq x) (fun x => vscale 3 x) 3.
Proof.
  intros x t T. induction x as [|a x IH]; [cbn; lra|]. cbn [vscale map vsub combine sumsq fold_right fst snd] in *. unfold vscale, vsub, sumsq in IH. nra.
Qed.
Lemma not_lt : forall a b, b <= a -> Rltb a b = false.
Proof. intros. apply Rltb_false; auto. Qed.
Lemma is_lt : forall a b, a < b -> Rltb a b = true.
Proof. intros. apply Rltb_true; auto. Qed.
(** An exactly zero gradient is not recognized: the flag is 3 after another iteration. *)
Theorem C186_zero_gradient_refuted : exists q, fmin_sd (sq_conf 5 1 1) (fun _ => Some 1) (fun _ => [0]) (fun _ => 0) 2 1 [0] = Ok q /\
  0 < o_ofg (sq_conf 5 1 1) /\ p_ret q <> 2%nat /\ p_it q = 1%nat.
Proof.
  eexists. split.
  - unfold fmin_sd. cbn [oloop Nat.eqb]. unfold oconv_test. cbn [sq_conf o_of o_ofg o_rd o_imax o_ls0].
    rewrite Rabs_R1, not_lt by lra. replace (Rnz 0) with false by (unfold Rnz; destruct Req_EM_T; auto; lra). cbn [andb Nat.ltb Nat.leb Z.of_nat Z.leb Z.compare].
    cbn [backtrack sq_conf o_bt o_on o_red o_min]. rewrite (@not_lt 1 (1 * 1)) by lra. rewrite (@is_lt (1 * (1/2)) 1) by lra. cbn [bind].
    replace (1 - 1) with 0 by ring. rewrite Rabs_R0, (@is_lt 0 (1 / 100000 * 1)) by lra. reflexivity.
  - cbn. repeat split; try lra; discriminate.
Qed.
(** The documented status is never in the status dict. *)
Theorem C186_status_entry_refuted : forall c fn grad nrm fuel lsfuel x0 q, fmin_sd c fn grad nrm fuel lsfuel x0 = Ok q -> p_status q <> Code (p_ret q).
Proof.
  intros c fn grad nrm fuel lsfuel x0 q. unfold fmin_sd.
  assert (G : forall fuel it x o0 p, oloop c fn grad nrm fuel lsfuel it x o0 p = Ok q -> p_status q <> Code (p_ret q)); [|apply G].
  clear fuel x0. induction fuel as [|fuel IH]; intros it x o0 p H; [discriminate|]. cbn [oloop] in H.
  destruct (fn x); [|discriminate]. destruct oconv_test; [injection H as <-; discriminate|]. destruct backtrack; [|discriminate]. cbn [bind] in H. exact (IH _ _ _ _ H).
Qed.
(** A negative objective may grow by an accepted step: -1 + 3/2 x^2 from x = 1/1000 with
    the exact gradient and the default parameters. *)
Definition neg_f (x : vec) : R := -1 + 3 / 2 * nth 0 x 0 ^ 2.
Theorem C187_negative_objective_refuted : exists q,
  fmin_sd (sq_conf 1 (99999/100000) (1/100000)) (fun x => Some (neg_f x)) (fun x => [3 * nth 0 x 0]) (fun g => Rabs (nth 0 g 0)) 2 1 [1/1000] = Ok q /\
  p_of0 q < p_of q /\ (forall x, neg_f [0] <= neg_f x).
Proof.
  eexists. split.
  - unfold fmin_sd. cbn [oloop Nat.eqb]. unfold oconv_test at 1. cbn [sq_conf o_of o_ofg o_rd o_imax o_ls0 nth].
    rewrite not_lt by (unfold neg_f; cbn [nth]; rewrite Rabs_left; lra). rewrite (@not_lt (Rabs (3 * (1/1000)))) by (rewrite Rabs_right; lra).
    rewrite andb_false_r. cbn [andb Nat.ltb Nat.leb Z.of_nat Z.leb Z.compare].
    cbn [backtrack sq_conf o_bt o_on o_red o_min]. rewrite is_lt by (unfold neg_f; cbn [vsub vscale map combine fst snd nth]; lra). cbn [bind vsub vscale map combine fst snd oloop Nat.eqb nth].
    unfold oconv_test at 1. cbn [sq_conf o_of o_ofg o_rd o_imax o_ls0 nth]. rewrite not_lt by (unfold neg_f; cbn [nth]; rewrite Rabs_left; lra).
    rewrite (@not_lt (Rabs (3 * (1 / 1000 - 1 * (3 * (1 / 1000)))))) by (rewrite Rabs_left; lra). rewrite andb_false_r.
    rewrite is_lt by (unfold neg_f; cbn [nth]; rewrite (Rabs_left (-1 + 3 / 2 * (1 / 1000) ^ 2)) by lra; rewrite Rabs_left by lra; lra). reflexivity.
  - cbn [p_of0 p_of]. split; [unfold neg_f; cbn [nth]; lra|]. intros x. unfold neg_f. cbn [nth]. nra.
Qed.
(** After a failed line search the step is reduced once more, to a point where the
    objective was not evaluated: there it may not exist. *)
Theorem C187_untested_step_refuted : exists (fn : vec -> option R) (grad : vec -> vec), (exists v, fn [1] = Some v) /\
  (exists v, fn (vsub [1] (vscale (o_ls0 (sq_conf 5 1 (6/10))) (grad [1]))) = Some v) /\
  fmin_sd (sq_conf 5 1 (6/10)) fn grad (fun g => Rabs (nth 0 g 0)) 3 3 [1] = Err TypeError.
Proof.
  exists (fun x => if Rltb (nth 0 x 0) (1/4) then Some 2 else if Rltb (nth 0 x 0) (3/4) then None else Some 1), (fun _ => [1]). split; [|split].
  - exists 1. cbn [nth]. rewrite !not_lt by lra. reflexivity.
  - exists 2. cbn [vsub vscale map combine fst snd nth sq_conf o_ls0]. rewrite is_lt by lra. reflexivity.
  - unfold fmin_sd. cbn [oloop Nat.eqb nth]. rewrite (@not_lt 1 (1/4)), (@not_lt 1 (3/4)) by lra. unfold oconv_test. cbn [sq_conf o_of o_ofg o_rd o_imax o_ls0].
    rewrite Rabs_R1, !not_lt by lra. rewrite andb_false_r. cbn [andb Nat.ltb Nat.leb Z.of_nat Z.leb Z.compare]. cbn [backtrack sq_conf o_bt o_on o_red o_min vsub vscale map combine fst snd nth].
    rewrite (@is_lt (1 - 1 * 1)) by lra. rewrite (@not_lt 2) by lra. rewrite (@is_lt (1 * (1/2))) by lra. cbn [bind].
    rewrite not_lt by lra. rewrite is_lt by lra. reflexivity.
Qed.
Example C186_ex : exists q, fmin_sd (sq_conf 5 1 (1/100)) (fun x => Some (nth 0 x 0 ^ 2 / 2)) (fun x => [nth 0 x 0]) (fun g => Rabs (nth 0 g 0)) 2 1 [1] = Ok q /\ p_ret q = 0%nat /\ p_it q = 1%nat.
Proof.
  eexists. split.
  - unfold fmin_sd. cbn [oloop Nat.eqb nth]. unfold oconv_test. cbn [sq_conf o_of o_ofg o_rd o_imax o_ls0].
    rewrite not_lt by (rewrite Rabs_right; lra). rewrite Rabs_R1, (@not_lt 1) by lra. rewrite andb_false_r. cbn [andb Nat.ltb Nat.leb Z.of_nat Z.leb Z.compare].
    cbn [backtrack sq_conf o_bt o_on o_red o_min vsub vscale map combine fst snd nth]. rewrite is_lt by lra. cbn [bind nth].
    rewrite is_lt by (replace ((1 - 1 * 1) ^ 2 / 2) with 0 by field; rewrite Rabs_R0; lra). reflexivity.
  - auto.
Qed.
Print Assumptions C186_flag.
Print Assumptions C187_monotone.
