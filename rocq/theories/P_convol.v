(** C210: convolution kernels. *)
From Coq Require Import Reals Lra.
From Coquelicot Require Import Coquelicot.
From Verif Require Import Base M_contact.
Open Scope R_scope.

(** C210: the integral of the exponential approximation of a kernel is exact, between the
    first and the last time. *)
Theorem C210_exp_integral : forall c1 c2 c t0 ts, c1 <> 0 -> c2 <> 0 ->
  is_RInt (fun t => hd 0 c * (c1 * exp (- c2 * t))) t0 (last (t0 :: ts) 0) (int_dt true (c1, c2) c (t0 :: ts)).
Proof.
  intros c1 c2 c t0 ts H1 H2. set (t1 := last (t0 :: ts) 0).
  assert (E : int_dt true (c1, c2) c (t0 :: ts) = minus ((fun t => - (hd 0 c * c1 / c2) * exp (- c2 * t)) t1) ((fun t => - (hd 0 c * c1 / c2) * exp (- c2 * t)) t0)).
  { unfold int_dt. change (hd 0 (map (eval_exponential (c1, c2)) (t0 :: ts))) with (c1 * exp (- c2 * t0)).
    assert (L : last (map (eval_exponential (c1, c2)) (t0 :: ts)) 0 = c1 * exp (- c2 * t1)).
    { unfold t1. generalize t0. induction ts as [|t ts' IH]; intros s; [reflexivity|]. apply IH. }
    rewrite L. unfold minus, plus, opp. simpl. pose proof (exp_pos (- c2 * t0)) as P. field. repeat split; auto; lra. }
  rewrite E. apply (is_RInt_derive (fun t => - (hd 0 c * c1 / c2) * exp (- c2 * t))).
  - intros x _. auto_derive; auto. field. exact H2.
  - intros x _. apply (ex_derive_continuous (fun t => hd 0 c * (c1 * exp (- c2 * t)))). auto_derive. auto.
Qed.
(** C210: its derivative is exact at every time. *)
Theorem C210_exp_derivative : forall c1 c2 c ts i, (i < List.length ts)%nat ->
  nth i (get_exp (c1, c2) c ts) 0 = hd 0 c * (c1 * exp (- c2 * nth i ts 0)) /\
  is_derive (fun t => hd 0 c * (c1 * exp (- c2 * t))) (nth i ts 0) (nth i (diff_dt true (c1, c2) c ts) 0).
Proof.
  intros c1 c2 c ts i I.
  assert (M : forall f : R -> R, nth i (map f ts) 0 = f (nth i ts 0)).
  { intros f. rewrite nth_indep with (d' := f 0) by (rewrite map_length; auto). apply map_nth. }
  unfold get_exp, diff_dt. rewrite !M. split; [reflexivity|]. unfold eval_exponential. cbn [fst snd]. auto_derive; auto. ring.
Qed.

(** C210: without the exponential: the integral of a kernel constant between the times and
    the trapezoidal rule for a piecewise linear one are exact; the difference quotients are
    the slopes of linear kernels. *)
Lemma is_RInt_affine : forall a b s t, is_RInt (fun x => a * x + b) s t ((a * s + b + (a * t + b)) / 2 * (t - s)).
Proof.
  intros a b s t. replace ((a * s + b + (a * t + b)) / 2 * (t - s)) with (minus ((fun x => a * x * x / 2 + b * x) t) ((fun x => a * x * x / 2 + b * x) s)).
  2: { unfold minus, plus, opp. simpl. field. }
  apply (is_RInt_derive (fun x => a * x * x / 2 + b * x)).
  - intros x _. auto_derive; auto. field.
  - intros x _. apply (ex_derive_continuous (fun x => a * x + b)). auto_derive. auto.
Qed.
Fixpoint ascending (ts : list R) : Prop := match ts with t0 :: ((t1 :: _) as r) => t0 < t1 /\ ascending r | _ => True end.
(** [f] is constant between the times, with the values [c] at their left ends. *)
Fixpoint steps (f : R -> R) (c ts : list R) : Prop :=
  match c, ts with
  | c0 :: c', t0 :: ((t1 :: _) as ts') => (forall t, t0 < t < t1 -> f t = c0) /\ steps f c' ts'
  | _, _ => True
  end.
(** [f] is linear between the times and has the values [c] there. *)
Fixpoint segments (f : R -> R) (c ts : list R) : Prop :=
  match c, ts with
  | c0 :: ((c1 :: _) as c'), t0 :: ((t1 :: _) as ts') => (forall t, t0 < t < t1 -> f t = c0 + (c1 - c0) / (t1 - t0) * (t - t0)) /\ segments f c' ts'
  | _, _ => True
  end.
Theorem C210_forward : forall f ec ts c, ascending ts -> List.length c = List.length ts -> ts <> [] -> steps f c ts ->
  is_RInt f (hd 0 ts) (last ts 0) (int_dt false ec c ts).
Proof.
  intros f ec ts c A L N S. change (int_dt false ec c ts) with (forward_sum c ts). revert c L S. induction ts as [|t0 [|t1 ts] IH]; intros c L S; [congruence| |].
  - destruct c as [|c0 [|]]; try discriminate. simpl. apply (is_RInt_point f t0).
  - destruct c as [|c0 c]; [discriminate|]. destruct A as [A1 A2], S as [S1 S2].
    change (forward_sum (c0 :: c) (t0 :: t1 :: ts)) with (plus (c0 * (t1 - t0)) (forward_sum c (t1 :: ts))).
    apply (is_RInt_Chasles f t0 t1); [|apply (IH A2); auto; discriminate].
    apply (is_RInt_ext (fun t => 0 * t + c0)). { intros t T. rewrite Rmin_left, Rmax_right in T by lra. rewrite S1 by exact T. match goal with |- @eq _ ?x ?y => change (@eq R x y) end. ring. }
    replace (c0 * (t1 - t0)) with ((0 * t0 + c0 + (0 * t1 + c0)) / 2 * (t1 - t0)) by field. apply is_RInt_affine.
Qed.
Theorem C210_trapezoid : forall f ts c, ascending ts -> List.length c = List.length ts -> ts <> [] -> segments f c ts ->
  is_RInt f (hd 0 ts) (last ts 0) (trapezoid_sum c ts).
Proof.
  intros f ts c A L N S. revert c L S. induction ts as [|t0 [|t1 ts] IH]; intros c L S; [congruence| |].
  - destruct c as [|c0 [|]]; try discriminate. simpl. apply (is_RInt_point f t0).
  - destruct c as [|c0 [|c1 c]]; try discriminate. destruct A as [A1 A2], S as [S1 S2].
    change (trapezoid_sum (c0 :: c1 :: c) (t0 :: t1 :: ts)) with (plus (1 / 2 * (c1 + c0) * (t1 - t0)) (trapezoid_sum (c1 :: c) (t1 :: ts))).
    apply (is_RInt_Chasles f t0 t1); [|apply (IH A2); auto; discriminate].
    set (a := (c1 - c0) / (t1 - t0)). apply (is_RInt_ext (fun t => a * t + (c0 - a * t0))).
    { intros t T. rewrite Rmin_left, Rmax_right in T by lra. rewrite S1 by exact T. fold a. match goal with |- @eq _ ?x ?y => change (@eq R x y) end. ring. }
    replace (1 / 2 * (c1 + c0) * (t1 - t0)) with ((a * t0 + (c0 - a * t0) + (a * t1 + (c0 - a * t0))) / 2 * (t1 - t0)); [apply is_RInt_affine|].
    unfold a. field. lra.
Qed.
Example C210_forward_example : ascending [0; 1; 3] /\ steps (fun t => if Rlt_dec t 1 then 2 else 5) [2; 5; 7] [0; 1; 3] /\
  int_dt false (1, 1) [2; 5; 7] [0; 1; 3] = 12.
Proof.
  split; [simpl; repeat split; lra|]. split; [|unfold int_dt; simpl; ring].
  simpl. repeat split; intros t T; destruct (Rlt_dec t 1); lra.
Qed.
Theorem C210_slopes : forall a b ec ts i, ascending ts -> (S i < List.length ts)%nat ->
  nth i (diff_dt false ec (map (fun t => a * t + b) ts) ts) 0 = a.
Proof.
  intros a b ec ts i A I. unfold diff_dt. set (f := fun t => a * t + b).
  assert (L : List.length (diff_quot (map f ts) ts) = (List.length ts - 1)%nat).
  { clear. induction ts as [|t0 [|t1 ts] IH]; auto. change (diff_quot (map f (t0 :: t1 :: ts)) (t0 :: t1 :: ts)) with ((f t1 - f t0) / (t1 - t0) :: diff_quot (map f (t1 :: ts)) (t1 :: ts)).
    cbn [List.length] in *. lia. }
  rewrite app_nth1 by lia. clear L. revert i I. induction ts as [|t0 [|t1 ts] IH]; intros i I; simpl in I; try lia.
  destruct A as [A1 A2]. change (diff_quot (map f (t0 :: t1 :: ts)) (t0 :: t1 :: ts)) with ((f t1 - f t0) / (t1 - t0) :: diff_quot (map f (t1 :: ts)) (t1 :: ts)).
  destruct i as [|i]; [unfold f; simpl; field; lra|]. apply IH; auto. simpl. lia.
Qed.
(** The derivative at the last time is always 0. *)
Theorem C210_last_slope_refuted : forall a b ec t0 t1,
  t0 < t1 -> diff_dt false ec [a * t0 + b; a * t1 + b] [t0; t1] = [a; 0].
Proof. intros a b ec t0 t1 H. unfold diff_dt. simpl. f_equal. field. lra. Qed.

(** C210: the mean decay of a kernel with a synchronous decay [d] is [d], if the sum of the
    initial values weighted by their absolute values is not 0. *)
Theorem C210_decay : forall row d, d <> [] -> hd 0 d = 1 -> nth (List.length d / 2) d 0 <> 0 ->
  rsum (map (fun x => Rabs x * x) row) <> 0 ->
  mean_decay (map (fun k => map (fun x => k * x) row) d) = d.
Proof.
  intros row d N H1 Hm Hs. unfold mean_decay. rewrite map_length. set (m := nth (List.length d / 2) d 0) in *.
  assert (I : (List.length d / 2 < List.length d)%nat). { apply Nat.div_lt; [destruct d; [congruence|simpl; lia]|lia]. }
  assert (E : nth (List.length d / 2) (map (fun k => map (fun x => k * x) row) d) [] = map (fun x => m * x) row).
  { rewrite nth_indep with (d' := map (fun x => 0 * x) row) by (rewrite map_length; auto). apply (map_nth (fun k => map (fun x => k * x) row)). }
  rewrite E. rewrite (map_map (fun x => m * x) Rabs). set (w := map (fun x => Rabs (m * x)) row). set (s := rsum w).
  rewrite !map_map.
  assert (S : s <> 0).
  { intros Z. apply Hs. unfold s, w in Z. clear - Z Hm.
    assert (P : forall l, 0 <= rsum (map (fun x => Rabs (m * x)) l)).
    { induction l as [|x l IH]; simpl; [lra|]. pose proof (Rabs_pos (m * x)). lra. }
    induction row as [|x l IH]; [reflexivity|]. simpl in *. pose proof (P l). pose proof (Rabs_pos (m * x)) as Q.
    rewrite IH by lra. assert (X : Rabs (m * x) = 0) by lra. rewrite Rabs_mult in X. apply Rmult_integral in X.
    destruct X as [X|X]; [destruct Hm; now apply Rabs_eq_0|]. rewrite X. ring. }
  assert (F : forall k, rsum (map (fun q => fst q * snd q) (combine (map (fun x => x / s) w) (map (fun x => k * x) row))) = k * (Rabs m / s * rsum (map (fun x => Rabs x * x) row))).
  { intros k. unfold w. clearbody s. clear - S. induction row as [|x l IH]; [simpl; ring|]. cbn [map combine rsum fold_right fst snd] in *.
    unfold rsum in *. rewrite IH. rewrite Rabs_mult. field. exact S. }
  set (z := Rabs m / s * rsum (map (fun x => Rabs x * x) row)) in *.
  assert (Z : z <> 0).
  { unfold z. apply Rmult_integral_contrapositive_currified; auto. unfold Rdiv. apply Rmult_integral_contrapositive_currified; [now apply Rabs_no_R0|now apply Rinv_neq_0_compat]. }
  assert (Hd : hd 0 (map (fun k => rsum (map (fun q => fst q * snd q) (combine (map (fun x => x / s) w) (map (fun x => k * x) row)))) d) = z).
  { destruct d as [|k d]; [congruence|]. simpl in H1. subst k. cbn [map hd]. rewrite F. ring. }
  rewrite Hd. rewrite <- (map_id d) at 2. apply map_ext. intros k. rewrite F. field. exact Z.
Qed.
Example C210_decay_example : rsum (map (fun x => Rabs x * x) [1; 2]) <> 0 /\ hd 0 [1; 1 / 2; 1 / 4] = 1.
Proof. split; [|reflexivity]. unfold rsum. simpl. rewrite !Rabs_right by lra. lra. Qed.

Print Assumptions C210_exp_integral.
Print Assumptions C210_exp_derivative.
Print Assumptions C210_forward.
Print Assumptions C210_trapezoid.
Print Assumptions C210_slopes.
Print Assumptions C210_last_slope_refuted.
Print Assumptions C210_decay.
