(** C182, C184: the semi-smooth Newton solver: the residual, the runs. *)
From Coq Require Import Reals Lra Psatz.
From Verif Require Import Base M_nls P_nls M_ssn S_ssn.
Set Implicit Arguments.
Open Scope R_scope.

(** ** The residual functions *)
Lemma sq_nonneg2 : forall a b, 0 <= a ^ 2 + b ^ 2.
Proof. intros. nra. Qed.
Lemma fb_zero : forall a b, fischer_burmeister a b = 0 <-> 0 <= a /\ 0 <= b /\ a * b = 0.
Proof.
  intros a b. unfold fischer_burmeister. pose proof (sqrt_pos (a ^ 2 + b ^ 2)) as P. pose proof (sqrt_sqrt _ (sq_nonneg2 a b)) as Q.
  split.
  - intros H. assert (E : sqrt (a ^ 2 + b ^ 2) = a + b) by lra. rewrite E in *. assert (a * b = 0) by nra.
    destruct (Rmult_integral _ _ H0) as [->| ->]; repeat split; lra.
  - intros (A & B & C). replace (a ^ 2 + b ^ 2) with ((a + b) ^ 2) by nra. rewrite sqrt_pow2; lra.
Qed.
Lemma bf_zero : forall a b, brute_force a b = 0 <-> 0 <= a /\ 0 <= b /\ a * b = 0.
Proof.
  intros a b. unfold brute_force. destruct (Rltb a b) eqn:E; [apply Rltb_true in E|apply Rltb_false in E].
  - split; [intros ->; repeat split; lra|]. intros (A & B & C). destruct (Rmult_integral _ _ C); lra.
  - split; [intros ->; repeat split; lra|]. intros (A & B & C). destruct (Rmult_integral _ _ C); lra.
Qed.
Lemma ns_zero : forall s a b, nonsmooth s a b = 0 <-> 0 <= a /\ 0 <= b /\ a * b = 0.
Proof. destruct s; [apply fb_zero|apply bf_zero]. Qed.
Lemma fb_sym : forall a b, fischer_burmeister a b = fischer_burmeister b a.
Proof. intros. unfold fischer_burmeister. rewrite (Rplus_comm (a ^ 2)), (Rplus_comm a). reflexivity. Qed.
Lemma fb_neg : forall a b, a < 0 -> - a <= fischer_burmeister a b.
Proof.
  intros a b H. unfold fischer_burmeister. assert (Rabs b <= sqrt (a ^ 2 + b ^ 2)).
  { rewrite <- sqrt_Rsqr_abs. apply sqrt_le_1_alt. unfold Rsqr. nra. }
  pose proof (Rle_abs b). lra.
Qed.
Lemma sqrt2_bounds : 1 < sqrt 2 < 2.
Proof.
  split; [rewrite <- sqrt_1 at 1; apply sqrt_lt_1; lra|]. assert (Q := sqrt_sqrt 2 ltac:(lra)). pose proof (sqrt_pos 2). nra.
Qed.
Lemma fb_min : forall a b, 0 <= a <= b -> (2 - sqrt 2) * a <= - fischer_burmeister a b.
Proof.
  intros a b H. unfold fischer_burmeister. assert (S2 := sqrt2_bounds). assert (Q := sqrt_sqrt 2 ltac:(lra)).
  assert (sqrt (a ^ 2 + b ^ 2) <= b + (sqrt 2 - 1) * a); [|lra].
  set (t := sqrt 2) in *. assert (0 <= b + (t - 1) * a) by nra. rewrite <- (sqrt_pow2 (b + (t - 1) * a)) by auto. apply sqrt_le_1_alt.
  assert (D : 0 <= (t - 1) * (a * (b - a))) by (apply Rmult_le_pos; [lra|apply Rmult_le_pos; lra]).
  assert (E : (b + (t - 1) * a) ^ 2 - (a ^ 2 + b ^ 2) = 2 * ((t - 1) * (a * (b - a)))); [|lra].
  transitivity (2 * (t - 1) * a * b + (t * t - 2 * t) * a ^ 2); [ring|]. rewrite Q. ring.
Qed.
Lemma ns_small : forall s a b eps, Rabs (nonsmooth s a b) <= eps -> - eps <= a /\ - eps <= b /\ Rmin a b <= eps / (2 - sqrt 2).
Proof.
  intros s a b eps H. assert (S2 := sqrt2_bounds). assert (E0 : 0 <= eps) by (pose proof (Rabs_pos (nonsmooth s a b)); lra).
  assert (DIV : forall m, (2 - sqrt 2) * m <= eps -> m <= eps / (2 - sqrt 2)).
  { intros m Hm. apply (Rmult_le_reg_l (2 - sqrt 2)); [lra|]. unfold Rdiv. rewrite (Rmult_comm eps), <- Rmult_assoc, Rinv_r by lra. lra. }
  assert (H1 : nonsmooth s a b <= eps) by (pose proof (Rle_abs (nonsmooth s a b)); lra).
  assert (H2 : - nonsmooth s a b <= eps) by (pose proof (Rle_abs (- nonsmooth s a b)) as X; rewrite Rabs_Ropp in X; lra).
  clear H. destruct s; cbn [nonsmooth] in *.
  - repeat split.
    + destruct (Rlt_dec a 0); [pose proof (@fb_neg a b ltac:(lra)); lra|lra].
    + destruct (Rlt_dec b 0); [rewrite fb_sym in H1; pose proof (@fb_neg b a ltac:(lra)); lra|lra].
    + apply DIV. unfold Rmin. destruct (Rle_dec a b).
      * destruct (Rle_dec 0 a); [pose proof (@fb_min a b ltac:(lra)); lra|nra].
      * destruct (Rle_dec 0 b); [rewrite fb_sym in H2; pose proof (@fb_min b a ltac:(lra)); lra|nra].
  - unfold brute_force in *. destruct (Rltb a b) eqn:E; [apply Rltb_true in E|apply Rltb_false in E].
    + repeat split; try lra. apply DIV. unfold Rmin. destruct (Rle_dec a b); try lra. destruct (Rle_dec 0 a); nra.
    + repeat split; try lra. apply DIV. unfold Rmin. destruct (Rle_dec a b); try lra; [destruct (Rle_dec 0 a); nra|destruct (Rle_dec 0 b); nra].
Qed.

(** ** Norms *)
Lemma sumsq_pos : forall v, 0 <= sumsq v.
Proof. induction v; cbn [sumsq fold_right]; [lra|]. fold (sumsq v). nra. Qed.
Lemma sumsq_in : forall v x, In x v -> x * x <= sumsq v.
Proof.
  induction v as [|y v IH]; intros x H; [destruct H|]. cbn [sumsq fold_right]. fold (sumsq v). pose proof (sumsq_pos v).
  destruct H as [->|H]; [lra|]. specialize (IH x H). nra.
Qed.
Lemma norm_in : forall v x, In x v -> Rabs x <= norm v.
Proof. intros v x H. unfold norm. rewrite <- sqrt_Rsqr_abs. apply sqrt_le_1_alt. apply sumsq_in; auto. Qed.
Lemma norm_zero : forall v, norm v = 0 <-> forall x, In x v -> x = 0.
Proof.
  intros v. split.
  - intros H x I. assert (A := @norm_in v x I). rewrite H in A. pose proof (Rabs_pos x). destruct (Req_dec x 0); auto. pose proof (Rabs_pos_lt x ltac:(auto)). lra.
  - intros H. unfold norm. assert (E : sumsq v = 0); [|rewrite E; apply sqrt_0]. clear -H. induction v as [|y v IH]; [reflexivity|].
    cbn [sumsq fold_right]. fold (sumsq v). rewrite IH by (intros; apply H; right; auto). rewrite (H y) by (left; auto). lra.
Qed.
Lemma in_ns : forall s a b i, length a = length b -> (i < length a)%nat -> In (nonsmooth s (nth i a 0) (nth i b 0)) (vec_semismooth_r s a b).
Proof.
  intros s a b i L I. unfold vec_semismooth_r. apply in_map_iff. exists (nth i a 0, nth i b 0). split; auto.
  rewrite <- combine_nth by auto. apply nth_In. rewrite combine_length. lia.
Qed.
Lemma ns_in : forall s a b v, length a = length b -> In v (vec_semismooth_r s a b) -> exists i, (i < length a)%nat /\ v = nonsmooth s (nth i a 0) (nth i b 0).
Proof.
  intros s a b v L H. unfold vec_semismooth_r in H. apply in_map_iff in H. destruct H as (p & <- & I). destruct (In_nth _ _ (0, 0) I) as (i & Hi & E).
  rewrite combine_length in Hi. rewrite combine_nth in E by auto. subst p. exists i. split; auto. lia.
Qed.

(** ** C182 *)
(** The norm the solver drives to zero vanishes exactly at the solutions of the
    complementarity problem, in both modes. *)
Theorem C182_residual_zero : forall sm s a b, length a = length b ->
  norm (residual sm (s, a, b)) = 0 <-> solves s a b.
Proof.
  intros sm s a b L. rewrite norm_zero. unfold residual, solves. split.
  - intros H. assert (Z : forall i, (i < length a)%nat -> 0 <= nth i a 0 /\ 0 <= nth i b 0 /\ nth i a 0 * nth i b 0 = 0).
    { intros i I. apply (ns_zero sm). apply H. apply in_or_app. right. apply in_ns; auto. }
    split; [intros v I; apply H, in_or_app; auto|]. split; [|split].
    + intros v I. destruct (In_nth _ _ 0 I) as (i & Hi & <-). apply Z; auto.
    + intros v I. destruct (In_nth _ _ 0 I) as (i & Hi & <-). apply Z. lia.
    + intros i I. apply Z; auto.
  - intros (HS & HA & HB & HC) v I. apply in_app_or in I. destruct I as [I|I]; [auto|].
    destruct (@ns_in _ _ _ _ L I) as (i & Hi & ->). apply ns_zero. repeat split; [apply HA, nth_In; auto|apply HB, nth_In; lia|auto].
Qed.
(** A small norm means a small violation: of the equations, of the signs, and of the
    complementarity. *)
Theorem C182_residual_small : forall sm s a b eps, length a = length b ->
  norm (residual sm (s, a, b)) <= eps -> solves_up_to eps s a b.
Proof.
  intros sm s a b eps L H. unfold residual in H. split.
  - intros v I. assert (X := @norm_in _ v (in_or_app _ _ _ (or_introl I)) : Rabs v <= norm (s ++ vec_semismooth_r sm a b)). lra.
  - intros i I. apply (@ns_small sm). assert (X := @norm_in (s ++ vec_semismooth_r sm a b) _ (in_or_app _ _ _ (or_intror (@in_ns sm a b i L I)))). lra.
Qed.
Example C182_ex : solves [0] [0; 3; 0] [2; 0; 0] /\ ~ solves [0] [1] [1] /\ norm (residual true ([0], [0; 3; 0], [2; 0; 0])) = 0.
Proof.
  assert (A : solves [0] [0; 3; 0] [2; 0; 0]).
  { split; [|split; [|split]]; try (intros v H; cbn [In] in H; intuition lra). intros i I. cbn [length] in I. destruct i as [|[|[|i]]]; [| | |lia]; cbn [nth]; lra. }
  split; auto. split; [|apply C182_residual_zero; auto]. intros (_ & _ & _ & H). specialize (H 0%nat ltac:(cbn; lia)). cbn in H. lra.
Qed.

(** ** C184: the runs *)
Section Runs.
Variable M : Type.
Variable c : sconf.
Variable F : vec -> option (vec * vec * vec).
Variable jac : vec -> vec * vec * vec -> M.
Variable solve : M -> vec -> vec.
Variable mul : M -> vec -> vec.
Variable mulT : M -> vec -> vec.
Notation loop := (residual_loop c F).
Notation main := (main_loop c F jac solve mul mulT).
Notation res_norm r := (norm (residual (s_semismooth c) r)).

(** The residual is known at [x] and its norm is [e]. *)
Definition known (x : vec) (e : R) : Prop := exists r, F x = Some r /\ e = res_norm r.

Lemma loop_known : forall fuel it xl dx el mode ls x o, it <> 0%nat -> known xl el ->
  loop fuel it xl dx el mode ls x = Ok o -> known (i_x o) (i_err o).
Proof.
  induction fuel as [|fuel IH]; intros it xl dx el mode ls x o IT K H; [discriminate|]. cbn [residual_loop] in H.
  assert (E : (it =? 0)%nat = false) by (apply Nat.eqb_neq; auto). rewrite E in H. cbn [orb] in H.
  destruct (F x) as [r|] eqn:FX.
  - destruct Rltb; [injection H as <-; cbn; exists r; auto|]. destruct (Rltb ls (ls_min (nc c))); [|eapply IH; eauto].
    destruct mode; injection H as <-; cbn; auto. exists r; auto.
  - destruct (Rltb ls (ls_min (nc c))); [discriminate|eapply IH; eauto].
Qed.
Lemma loop_first : forall fuel xl dx el mode ls x o, loop fuel 0 xl dx el mode ls x = Ok o ->
  i_x o = x /\ known x (i_err o) /\ i_reuse o = false /\ i_mode o = mode /\ F x = Some (i_res o) /\ i_r o = residual (s_semismooth c) (i_res o).
Proof.
  destruct fuel as [|fuel]; intros xl dx el mode ls x o H; [discriminate|]. cbn [residual_loop Nat.eqb orb] in H.
  destruct (F x) as [r|] eqn:FX; [|discriminate]. injection H as <-. cbn. repeat split; auto. exists r; auto.
Qed.

Lemma main_spec : forall fuel lsfuel it x xl dx err0 el mode mtx q, it <> 0%nat ->
  known xl el -> (0 < macheps (nc c)) -> (0 <= eps_r (nc c)) -> 0 <= err0 -> (it <= Z.to_nat (i_max (nc c)))%nat ->
  main fuel lsfuel it x xl dx err0 el mode mtx = Ok q ->
  known (q_x q) (q_err q) /\ q_err0 q = err0 /\ (it <= q_it q <= Z.to_nat (i_max (nc c)))%nat /\
  ((q_cond q = 0%nat /\ converged (nc c) (q_it q) (q_err q) err0) \/
   (q_cond q = 1%nat /\ ~ converged (nc c) (q_it q) (q_err q) err0 /\ q_it q = Z.to_nat (i_max (nc c)))).
Proof.
  induction fuel as [|fuel IH]; intros lsfuel it x xl dx err0 el mode mtx q IT K HM HR E0 IM H; [discriminate|]. cbn [main_loop] in H.
  destruct (loop lsfuel it xl dx el mode 1 x) as [o|] eqn:EL; [|discriminate]. cbn [bind] in H.
  assert (E : (it =? 0)%nat = false) by (apply Nat.eqb_neq; auto). rewrite E in H.
  assert (K' := @loop_known _ _ _ _ _ _ _ _ _ IT K EL). assert (CS := @conv_test_spec (nc c) it (i_err o) err0 HM HR E0).
  destruct (conv_test (nc c) it (i_err o) err0) as [cond|].
  - injection H as <-. cbn. split; auto. split; auto. split; [lia|]. destruct cond as [|cond]; [left; auto|right]. destruct CS as (C1 & C2 & C3). rewrite C1. repeat split; auto. lia.
  - destruct CS as (C1 & C2). match type of H with bind ?mm _ = _ => destruct mm as [m|] end; [|discriminate]. cbn [bind] in H.
    destruct (step c solve mul mulT m o) as [dx' mode']. apply IH in H; auto; try lia. destruct H as (A & B & C & D). split; auto. split; auto. split; [lia|auto].
Qed.

Theorem C184_status : (0 < macheps (nc c)) -> (0 <= eps_r (nc c)) -> forall fuel lsfuel x0 q,
  semismooth_newton c F jac solve mul mulT fuel lsfuel x0 = Ok q ->
  (exists r r0, F (q_x q) = Some r /\ q_err q = res_norm r /\ F x0 = Some r0 /\ q_err0 q = res_norm r0) /\
  (q_it q <= Z.to_nat (i_max (nc c)))%nat /\
  ((q_cond q = 0%nat /\ converged (nc c) (q_it q) (q_err q) (q_err0 q)) \/
   (q_cond q = 1%nat /\ ~ converged (nc c) (q_it q) (q_err q) (q_err0 q) /\ q_it q = Z.to_nat (i_max (nc c)))).
Proof.
  intros HM HR fuel lsfuel x0 q H. unfold semismooth_newton in H. destruct fuel as [|fuel]; [discriminate|]. cbn [main_loop] in H.
  destruct (loop lsfuel 0 x0 [] (-1) Regular 1 x0) as [o|] eqn:EL; [|discriminate]. cbn [bind Nat.eqb] in H.
  destruct (loop_first _ _ _ _ _ _ _ EL) as (EX & K & RU & _ & _ & _). assert (P : 0 <= i_err o) by (destruct K as (r & _ & ->); apply norm_pos).
  assert (CS := @conv_test_spec (nc c) 0 (i_err o) (i_err o) HM HR P). destruct K as (r0 & F0 & N0).
  destruct (conv_test (nc c) 0 (i_err o) (i_err o)) as [cond|].
  - injection H as <-. cbn [q_x q_err q_err0 q_cond q_it]. rewrite EX. split; [exists r0, r0; auto|]. split; [lia|].
    destruct cond as [|cond]; [left; auto|right]. destruct CS as (C1 & C2 & C3). rewrite C1. repeat split; auto. lia.
  - destruct CS as (C1 & C2). rewrite RU in H. cbn [bind] in H. destruct (step c solve mul mulT (jac (i_x o) (i_res o)) o) as [dx' mode'].
    apply main_spec in H; auto; try lia; [|rewrite EX; exists r0; auto]. destruct H as ((r & FR & NR) & B & C & D).
    split; [exists r, r0; repeat split; auto; congruence|]. split; [lia|]. rewrite B. auto.
Qed.
(** So a reported convergence is an approximate solution of the problem. *)
Theorem C184_converged_solves : (0 < macheps (nc c)) -> (0 <= eps_r (nc c)) -> eps_or (nc c) = false -> forall fuel lsfuel x0 q,
  semismooth_newton c F jac solve mul mulT fuel lsfuel x0 = Ok q -> q_cond q = 0%nat ->
  (forall s a b, F (q_x q) = Some (s, a, b) -> length a = length b) ->
  exists s a b, F (q_x q) = Some (s, a, b) /\ solves_up_to (eps_a (nc c)) s a b.
Proof.
  intros HM HR OR fuel lsfuel x0 q H C0 L. destruct (@C184_status HM HR _ _ _ _ H) as (([[s a] b] & r0 & FR & NR & _) & _ & D).
  exists s, a, b. split; auto. apply (@C182_residual_small (s_semismooth c)); eauto. rewrite <- NR.
  destruct D as [(_ & CV)|(C1 & _)]; [|congruence]. unfold converged, small_abs in CV. destruct (q_it q); auto. rewrite OR in CV. apply CV.
Qed.

(** ** Termination *)
Hypothesis RR : 0 < red_regular c < 1.
Hypothesis RS : 0 < red_steepest c < 1.
Hypothesis RW : 0 < ls_red_warp (nc c) < 1.
Hypothesis LM : 0 < ls_min (nc c).
Let qq := Rmax (Rmax (red_regular c) (red_steepest c)) (ls_red_warp (nc c)).
Lemma qq_bounds : 0 < qq < 1 /\ red_regular c <= qq /\ red_steepest c <= qq /\ ls_red_warp (nc c) <= qq.
Proof. unfold qq, Rmax. repeat destruct Rle_dec; lra. Qed.
Lemma loop_terminates : forall fuel n it xl dx el mode x, qq ^ n < ls_min (nc c) -> forall ls j, 0 < ls <= qq ^ j -> (j <= n)%nat -> (n < j + fuel)%nat ->
  loop fuel it xl dx el mode ls x <> Err OutOfFuel.
Proof.
  destruct qq_bounds as (Q1 & QR & QS & QW).
  induction fuel as [|fuel IH]; intros n it xl dx el mode x HN ls j LS JN NF; [lia|]. cbn [residual_loop].
  assert (NEXT : forall t x', 0 < t <= qq -> ~ ls < ls_min (nc c) -> loop fuel it xl dx el mode (ls * t) x' <> Err OutOfFuel).
  { intros t x' T NL. assert (j <> n) by (intros ->; lra). apply IH with (n := n) (j := S j); auto; try lia. split; [apply Rmult_lt_0_compat; lra|].
    cbn [pow]. rewrite Rmult_comm. apply Rmult_le_compat; lra. }
  destruct (F x) as [r|].
  - destruct (it =? 0)%nat; [discriminate|]. destruct Rltb; [discriminate|]. destruct (Rltb ls (ls_min (nc c))) eqn:E; [destruct mode; discriminate|].
    apply Rltb_false in E. apply NEXT; [|lra]. destruct mode; cbn [red]; lra.
  - destruct (Rltb ls (ls_min (nc c))) eqn:E; [rewrite orb_true_r; discriminate|]. rewrite orb_false_r. destruct (it =? 0)%nat; [discriminate|].
    apply Rltb_false in E. apply NEXT; lra.
Qed.
Theorem C184_terminates : exists lsfuel0, forall lsfuel fuel x0, (lsfuel0 <= lsfuel)%nat -> (Z.to_nat (i_max (nc c)) < fuel)%nat ->
  semismooth_newton c F jac solve mul mulT fuel lsfuel x0 <> Err OutOfFuel.
Proof.
  destruct qq_bounds as (Q1 & _). destruct (pow_lt_1_zero qq) with (y := ls_min (nc c)) as [n N]; auto; [rewrite Rabs_right; lra|].
  specialize (N n (le_n n)). rewrite Rabs_right in N by (apply Rle_ge, pow_le; lra). exists (S n). intros lsfuel fuel x0 LF FU. unfold semismooth_newton.
  assert (CV : forall it e e0, conv_test (nc c) it e e0 = None -> (Z.of_nat it < i_max (nc c))%Z).
  { intros it e e0. unfold conv_test. destruct (if (0 <? it)%nat then _ else _); [discriminate|]. destruct (Z.leb_spec (i_max (nc c)) (Z.of_nat it)); [discriminate|auto]. }
  assert (G : forall fuel it x xl dx err0 el mode mtx, (Z.to_nat (i_max (nc c)) < it + fuel)%nat -> (it <= Z.to_nat (i_max (nc c)))%nat -> main fuel lsfuel it x xl dx err0 el mode mtx <> Err OutOfFuel); [|apply G; lia].
  clear fuel FU x0. induction fuel as [|fuel IH]; intros it x xl dx err0 el mode mtx IT I0; [lia|]. cbn [main_loop].
  assert (LS := @loop_terminates lsfuel n it xl dx el mode x N 1 0%nat ltac:(cbn; lra) ltac:(lia) ltac:(lia)).
  destruct (loop lsfuel it xl dx el mode 1 x) as [o|ex]; [|cbn [bind]; congruence]. cbn [bind].
  destruct conv_test as [cond|] eqn:CT; [discriminate|]. apply CV in CT.
  match goal with |- context [do m <- ?p; _] => destruct p as [m|ex] eqn:EM end.
  - cbn [bind]. destruct (step c solve mul mulT m o) as [dx' mode']. apply IH; lia.
  - cbn [bind]. destruct (i_reuse o); [|discriminate]. destruct mtx; [discriminate|]. congruence.
Qed.
End Runs.
