(** C183: the Jacobian of the semi-smooth Newton solver; C185: the restored state; one
    regular step. *)
From Coq Require Import Reals Lra Psatz.
From Coquelicot Require Import Coquelicot.
From Verif Require Import Base M_nls P_nls M_ssn S_ssn P_ssn.
Set Implicit Arguments.
Open Scope R_scope.

(** ** Finite sums *)
Lemma rdot_lin : forall n (p q : R) (u v d : nat -> R), rdot n (fun j => p * u j + q * v j) d = p * rdot n u d + q * rdot n v d.
Proof. intros n p q u v d. unfold rdot. induction (seq 0 n) as [|k l IH]; cbn [fold_right]; [lra|]. rewrite IH. lra. Qed.
Lemma rdot_self_ge : forall n u j, (j < n)%nat -> u j * u j <= rdot n u u.
Proof.
  intros n u j H. unfold rdot. assert (I : In j (seq 0 n)) by (apply in_seq; lia). revert I. generalize (seq 0 n). intros l.
  assert (P : forall l, 0 <= fold_right (fun k s => u k * u k + s) 0 l) by (induction l0; cbn [fold_right]; [lra|nra]).
  induction l as [|k l IH]; intros I; [destruct I|]. cbn [fold_right]. specialize (P l). destruct I as [->|I]; [lra|]. specialize (IH I). nra.
Qed.
Lemma rdot_pick : forall n u k, (k < n)%nat -> rdot n u (fun j => if (j =? k)%nat then 1 else 0) = u k.
Proof.
  intros n u k H. unfold rdot. assert (G : forall l, NoDup l -> fold_right (fun j s => u j * (if (j =? k)%nat then 1 else 0) + s) 0 l = if in_dec Nat.eq_dec k l then u k else 0).
  { induction l as [|y l IH]; intros ND; [reflexivity|]. inversion ND; subst. cbn [fold_right]. rewrite IH by auto. destruct (Nat.eqb_spec y k) as [->|NE].
    - destruct (in_dec Nat.eq_dec k l); [contradiction|]. destruct (in_dec Nat.eq_dec k (k :: l)) as [|N]; [lra|]. elim N; left; auto.
    - destruct (in_dec Nat.eq_dec k l), (in_dec Nat.eq_dec k (y :: l)) as [J|J]; try lra; [elim J; right; auto|]. destruct J; [congruence|contradiction]. }
  rewrite G by apply seq_NoDup. destruct (in_dec Nat.eq_dec k (seq 0 n)) as [|N]; auto. elim N. apply in_seq. lia.
Qed.
Lemma rdot_ext : forall n u v w, (forall j, (j < n)%nat -> v j = w j) -> rdot n u v = rdot n u w.
Proof.
  intros n u v w H. unfold rdot. assert (G : forall l, (forall j, In j l -> v j = w j) -> fold_right (fun j s => u j * v j + s) 0 l = fold_right (fun j s => u j * w j + s) 0 l).
  { induction l as [|k l IH]; intros E; cbn [fold_right]; auto. rewrite IH by (intros; apply E; right; auto). rewrite (E k) by (left; auto). reflexivity. }
  apply G. intros j I. apply in_seq in I. apply H. lia.
Qed.

(** ** C183 *)
Lemma not_active : forall me a b i, 0 < me -> is_active me a b i = false -> 0 < nth i a 0 ^ 2 + nth i b 0 ^ 2.
Proof.
  intros me a b i HM H. destruct (Rlt_dec 0 (nth i a 0 ^ 2 + nth i b 0 ^ 2)) as [|N]; auto. exfalso.
  assert (EA : nth i a 0 = 0) by nra. assert (EB : nth i b 0 = 0) by nra. unfold is_active in H. rewrite EA, EB, Rabs_R0 in H.
  assert (P : forall v, 0 < me * Rmax v 1) by (intros; apply Rmult_lt_0_compat; auto; unfold Rmax; destruct Rle_dec; lra).
  apply andb_false_iff in H. destruct H as [H|H]; apply Rltb_false in H; [specialize (P (vmaxabs a))|specialize (P (vmaxabs b))]; lra.
Qed.
(** A row of an index that is not active is the derivative of the Fischer-Burmeister
    residual, for any differentiable A and B and in any direction. *)
Theorem C183_inactive_rows : forall n n_s me (a b : vec) mtx_a mtx_b i (A B : R -> R) (d : nat -> R),
  0 < me -> is_active me a b i = false ->
  A 0 = nth i a 0 -> B 0 = nth i b 0 ->
  is_derive A 0 (rdot n (mtx_a i) d) -> is_derive B 0 (rdot n (mtx_b i) d) ->
  is_derive (fun t => nonsmooth true (A t) (B t)) 0 (rdot n (jac_row true n n_s me a b mtx_a mtx_b i) d).
Proof.
  intros n n_s me a b mtx_a mtx_b i A B d HM NA A0 B0 DA DB. assert (P := not_active _ _ _ HM NA).
  unfold jac_row. rewrite rdot_lin. unfold multipliers, mul_semismooth. rewrite NA. cbn [fst snd nonsmooth].
  set (da := rdot n (mtx_a i) d) in *. set (db := rdot n (mtx_b i) d) in *. clearbody da db. unfold fischer_burmeister.
  rewrite <- A0, <- B0 in *. assert (SP : 0 < sqrt (A 0 ^ 2 + B 0 ^ 2)) by (apply sqrt_lt_R0; auto).
  auto_derive.
  - repeat split; try (exists da; exact DA); try (exists db; exact DB). replace (A 0 * (A 0 * 1) + B 0 * (B 0 * 1)) with (A 0 ^ 2 + B 0 ^ 2) by ring. auto.
  - replace (Derive (fun x => A x) 0) with da by (symmetry; apply is_derive_unique; auto).
    replace (Derive (fun x => B x) 0) with db by (symmetry; apply is_derive_unique; auto).
    replace (A 0 * (A 0 * 1) + B 0 * (B 0 * 1)) with (A 0 ^ 2 + B 0 ^ 2) by ring. field. lra.
Qed.
(** With one active index its multipliers are in the disc of the generalized gradient of
    the Fischer-Burmeister function at (0, 0). *)
Theorem C183_single_active : forall n n_s me (a b : vec) mtx_a mtx_b i,
  active me a b = [i] -> (n_s + i < n)%nat ->
  0 < rdot n (mtx_a i) (mtx_a i) + rdot n (mtx_b i) (mtx_b i) ->
  let m := multipliers true n n_s me a b mtx_a mtx_b i in
  (fst m + 1) ^ 2 + (snd m + 1) ^ 2 <= 1.
Proof.
  intros n n_s me a b mtx_a mtx_b i HA HN HP m. unfold m, multipliers, mul_semismooth.
  assert (IA : is_active me a b i = true).
  { assert (I : In i (active me a b)) by (rewrite HA; left; auto). unfold active in I. apply filter_In in I. apply I. }
  rewrite IA, HA. cbn [fst snd].
  assert (EZ : forall u, rdot n u (vec_z n_s [i]) = u (n_s + i)%nat).
  { intros u. rewrite <- (@rdot_pick n u (n_s + i)) by auto. apply rdot_ext. intros j _. unfold vec_z. cbn [existsb]. rewrite orb_false_r. reflexivity. }
  rewrite !EZ. pose proof (@rdot_self_ge n (mtx_a i) (n_s + i) HN) as GA. pose proof (@rdot_self_ge n (mtx_b i) (n_s + i) HN) as GB.
  set (q := rdot n (mtx_a i) (mtx_a i) + rdot n (mtx_b i) (mtx_b i)) in *. assert (SP := sqrt_lt_R0 q HP). assert (SS := sqrt_sqrt q (Rlt_le _ _ HP)).
  set (u := mtx_a i (n_s + i)%nat) in *. set (v := mtx_b i (n_s + i)%nat) in *. set (s := sqrt q) in *.
  replace ((u / s - 1 + 1) ^ 2 + (v / s - 1 + 1) ^ 2) with ((u * u + v * v) / q) by (rewrite <- SS; field; lra).
  apply (Rmult_le_reg_r q); auto. unfold Rdiv. rewrite Rmult_assoc, Rinv_l by lra. unfold q in *. lra.
Qed.
(** With two active indices they may leave it: the vector [z] has a one for every active
    index and is used in all rows. *)
Theorem C183_two_active_refuted : exists n n_s me (a b : vec) mtx_a mtx_b i,
  0 < me /\ In i (active me a b) /\ (n_s + i < n)%nat /\ 0 < rdot n (mtx_a i) (mtx_a i) + rdot n (mtx_b i) (mtx_b i) /\
  let m := multipliers true n n_s me a b mtx_a mtx_b i in 1 < (fst m + 1) ^ 2 + (snd m + 1) ^ 2.
Proof.
  exists 2%nat, 0%nat, 1, [0; 0], [0; 0], (fun _ _ => 1), (fun _ _ => 0), 0%nat.
  assert (T : forall i, (i < 2)%nat -> is_active 1 [0; 0] [0; 0] i = true).
  { intros i I. unfold is_active. assert (E : nth i [0; 0] 0 = 0) by (destruct i as [|[|]]; auto; lia). rewrite E, Rabs_R0.
    assert (L : 0 < 1 * Rmax (vmaxabs [0; 0]) 1) by (unfold Rmax; destruct Rle_dec; lra). apply andb_true_iff. split; apply Rltb_true; auto. }
  assert (AC : active 1 [0; 0] [0; 0] = [0; 1]%nat) by (unfold active; cbn [length seq filter]; rewrite !T by lia; reflexivity).
  split; [lra|]. split; [rewrite AC; left; auto|]. split; [lia|]. split; [cbn [rdot seq fold_right]; lra|].
  unfold multipliers, mul_semismooth. rewrite T by lia. rewrite AC. cbn [fst snd].
  replace (rdot 2 (fun _ : nat => 1) (fun _ : nat => 1) + rdot 2 (fun _ : nat => 0) (fun _ : nat => 0)) with 2 by (cbn; lra).
  replace (rdot 2 (fun _ : nat => 1) (vec_z 0 [0%nat; 1%nat])) with 2 by (cbn; lra). replace (rdot 2 (fun _ : nat => 0) (vec_z 0 [0%nat; 1%nat])) with 0 by (cbn; lra).
  assert (SP := sqrt_lt_R0 2 ltac:(lra)). assert (SS := sqrt_sqrt 2 ltac:(lra)). set (s := sqrt 2) in *.
  replace ((2 / s - 1 + 1) ^ 2 + (0 / s - 1 + 1) ^ 2) with (4 / (s * s)) by (field; lra). rewrite SS. lra.
Qed.
(** In the brute force mode a row is that of the function which is not in the residual. *)
Theorem C183_brute_force_rows : forall n n_s me (a b : vec) mtx_a mtx_b i j,
  (nth i a 0 < nth i b 0 -> nonsmooth false (nth i a 0) (nth i b 0) = nth i a 0 /\ jac_row false n n_s me a b mtx_a mtx_b i j = mtx_b i j) /\
  (nth i b 0 < nth i a 0 -> nonsmooth false (nth i a 0) (nth i b 0) = nth i b 0 /\ jac_row false n n_s me a b mtx_a mtx_b i j = mtx_a i j).
Proof.
  intros. unfold jac_row, multipliers, mul_brute, nonsmooth, brute_force. split; intros H.
  - replace (Rltb (nth i a 0) (nth i b 0)) with true by (symmetry; apply Rltb_true; lra). replace (Rltb (nth i b 0) (nth i a 0)) with false by (symmetry; apply Rltb_false; lra). cbn [fst snd]. split; lra.
  - replace (Rltb (nth i a 0) (nth i b 0)) with false by (symmetry; apply Rltb_false; lra). replace (Rltb (nth i b 0) (nth i a 0)) with true by (symmetry; apply Rltb_true; lra). cbn [fst snd]. split; lra.
Qed.
Theorem C183_brute_force_refuted : exists n n_s me (a b : vec) mtx_a mtx_b i (A B : R -> R) (d : nat -> R),
  0 < me /\ A 0 = nth i a 0 /\ B 0 = nth i b 0 /\ nth i a 0 <> nth i b 0 /\
  is_derive A 0 (rdot n (mtx_a i) d) /\ is_derive B 0 (rdot n (mtx_b i) d) /\
  ~ is_derive (fun t => nonsmooth false (A t) (B t)) 0 (rdot n (jac_row false n n_s me a b mtx_a mtx_b i) d).
Proof.
  exists 1%nat, 0%nat, 1, [0], [1], (fun _ _ => 1), (fun _ _ => 0), 0%nat, (fun t => t), (fun _ => 1), (fun _ => 1).
  split; [lra|]. split; [reflexivity|]. split; [reflexivity|]. split; [cbn; lra|].
  assert (ONE : rdot 1 (fun _ : nat => 1) (fun _ : nat => 1) = 1) by (cbn; lra). assert (ZERO : rdot 1 (fun _ : nat => 0) (fun _ : nat => 1) = 0) by (cbn; lra).
  split; [rewrite ONE; apply (@is_derive_id R_AbsRing)|]. split; [rewrite ZERO; apply (@is_derive_const R_AbsRing R_NormedModule)|].
  intros H. assert (E : rdot 1 (jac_row false 1 0 1 [0] [1] (fun _ _ : nat => 1) (fun _ _ : nat => 0) 0) (fun _ => 1) = 0).
  { unfold rdot. cbn [seq fold_right]. destruct (@C183_brute_force_rows 1%nat 0%nat 1 [0] [1] (fun _ _ => 1) (fun _ _ => 0) 0%nat 0%nat) as [X _]. destruct (X ltac:(cbn; lra)) as [_ ->]. lra. }
  rewrite E in H. assert (H2 : is_derive (fun t => nonsmooth false t 1) 0 1).
  { apply (is_derive_ext_loc (fun t => t)); [|apply (@is_derive_id R_AbsRing)]. exists (mkposreal (1/2) ltac:(lra)). intros y Hy.
    change (Rabs (y - 0) < 1 / 2) in Hy. unfold nonsmooth, brute_force. apply Rabs_def2 in Hy. replace (Rltb y 1) with true by (symmetry; apply Rltb_true; lra). reflexivity. }
  assert (U1 := is_derive_unique _ _ _ H). assert (U2 := is_derive_unique _ _ _ H2). cbv beta in U1. rewrite U1 in U2. lra.
Qed.
Example C183_ex : exists n n_s me (a b : vec) mtx_a mtx_b i (A B : R -> R) (d : nat -> R), 0 < me /\ is_active me a b i = false /\
  A 0 = nth i a 0 /\ B 0 = nth i b 0 /\ is_derive A 0 (rdot n (mtx_a i) d) /\ is_derive B 0 (rdot n (mtx_b i) d) /\ jac_row true n n_s me a b mtx_a mtx_b i 0%nat <> 0.
Proof.
  exists 1%nat, 0%nat, 1, [3], [4], (fun _ _ => 1), (fun _ _ => 0), 0%nat, (fun t => 3 + t), (fun _ => 4), (fun _ => 1).
  assert (NA : is_active 1 [3] [4] 0 = false).
  { unfold is_active. cbn [nth vmaxabs fold_right]. apply andb_false_iff. left. apply Rltb_false. rewrite (Rabs_right 3) by lra. unfold Rmax. repeat destruct Rle_dec; lra. }
  assert (ONE : rdot 1 (fun _ : nat => 1) (fun _ : nat => 1) = 1) by (cbn; lra). assert (ZERO : rdot 1 (fun _ : nat => 0) (fun _ : nat => 1) = 0) by (cbn; lra).
  split; [lra|]. split; auto. split; [cbn; lra|]. split; [reflexivity|]. rewrite ONE, ZERO. split; [auto_derive; auto; lra|]. split; [apply (@is_derive_const R_AbsRing R_NormedModule)|].
  unfold jac_row, multipliers, mul_semismooth. rewrite NA. cbn [fst snd nth]. replace (3 ^ 2 + 4 ^ 2) with (5 ^ 2) by ring. rewrite sqrt_pow2 by lra. lra.
Qed.
Example C183_single_ex : active 1 [0] [0] = [0%nat].
Proof.
  unfold active. cbn [length seq filter]. replace (is_active 1 [0] [0] 0) with true; auto. symmetry. unfold is_active. cbn [nth]. rewrite Rabs_R0.
  assert (L : 0 < 1 * Rmax (vmaxabs [0]) 1) by (unfold Rmax; destruct Rle_dec; lra). apply andb_true_iff. split; apply Rltb_true; auto.
Qed.

(** ** C185: after a failed line search of a regular step *)
Section Restore.
Variable M : Type.
Variable c : sconf.
Variable F : vec -> option (vec * vec * vec).
Notation loop := (residual_loop c F).
(** The state and the error are those of the previous iterate; the residual vector,
    however, is that of the last rejected trial. *)
Theorem C185_restored_partial : forall fuel it xl dx el mode x o, it <> 0%nat ->
  x = vsub xl (vscale 1 dx) ->
  loop fuel it xl dx el mode 1 x = Ok o -> i_reuse o = true ->
  mode = Regular /\ i_mode o = Steepest /\ i_x o = xl /\ i_err o = el /\
  exists ls r, F (vsub xl (vscale ls dx)) = Some r /\ i_r o = residual (s_semismooth c) r /\ i_res o = r /\ ls < ls_min (nc c) /\
    el * ls_on (nc c) <= norm (i_r o).
Proof.
  intros fuel it xl dx el mode x o IT EX. assert (E : (it =? 0)%nat = false) by (apply Nat.eqb_neq; auto). revert EX. generalize 1. revert x.
  induction fuel as [|fuel IH]; intros x ls EX H RU; [discriminate|]. cbn [residual_loop] in H. rewrite E in H. cbn [orb] in H.
  destruct (F x) as [r|] eqn:FX.
  - destruct (Rltb (norm (residual (s_semismooth c) r)) (el * ls_on (nc c))) eqn:T; [injection H as <-; discriminate|]. apply Rltb_false in T.
    destruct (Rltb ls (ls_min (nc c))) eqn:L; [|exact (IH _ _ eq_refl H RU)]. apply Rltb_true in L.
    destruct mode; injection H as <-; [|discriminate]. cbn. repeat split; auto. exists ls, r. rewrite <- EX. auto.
  - destruct (Rltb ls (ls_min (nc c))); [discriminate|exact (IH _ _ eq_refl H RU)].
Qed.
(** Otherwise the residual is that of the returned state. *)
Theorem C185_not_restored : forall fuel it xl dx el mode ls x o,
  loop fuel it xl dx el mode ls x = Ok o -> i_reuse o = false ->
  F (i_x o) = Some (i_res o) /\ i_r o = residual (s_semismooth c) (i_res o) /\ i_err o = norm (i_r o).
Proof.
  induction fuel as [|fuel IH]; intros it xl dx el mode ls x o H RU; [discriminate|]. cbn [residual_loop] in H.
  destruct (F x) as [r|] eqn:FX.
  - destruct (it =? 0)%nat; [injection H as <-; cbn; auto|]. destruct Rltb; [injection H as <-; cbn; auto|].
    destruct (Rltb ls (ls_min (nc c))); [|eapply IH; eauto]. destruct mode; injection H as <-; cbn in *; [discriminate|auto].
  - destruct (_ || _)%bool; [discriminate|eapply IH; eauto].
Qed.
(** A regular step is taken along the solution of the linear system with the current
    residual, or if the system is not solved well, along the steepest descent direction. *)
Variable solve : M -> vec -> vec.
Variable mul : M -> vec -> vec.
Variable mulT : M -> vec -> vec.
Theorem C185_step : forall m o dx mode', step c solve mul mulT m o = (dx, mode') ->
  (mode' = Regular /\ i_mode o = Regular /\ dx = solve m (i_r o) /\ norm (vsub (mul m dx) (i_r o)) <= eps_a (nc c) * s_lin_red c) \/
  (mode' = Steepest /\ dx = mulT m (i_r o) /\
     (i_mode o = Steepest \/ eps_a (nc c) * s_lin_red c < norm (vsub (mul m (solve m (i_r o))) (i_r o)))).
Proof.
  intros m o dx mode' H. unfold step in H. destruct (i_mode o); [|injection H as <- <-; right; auto].
  destruct Rltb eqn:E; injection H as <- <-; [right|left]; repeat split; auto; [right; apply Rltb_true; auto|apply Rltb_false; auto].
Qed.
End Restore.

(** ** One regular step, C184 *)
(** If the linear system is solved exactly and the residual vanishes after the full step
    (so for linear equations), one iteration is enough. *)
Theorem C184_one_step : forall (M : Type) (c : sconf) F (jac : vec -> vec * vec * vec -> M) solve mul mulT fuel lsfuel x0 r0 r1,
  0 < macheps (nc c) -> 0 <= eps_r (nc c) -> 0 <= eps_a (nc c) -> 0 <= s_lin_red c -> 0 < ls_on (nc c) -> (1 <= i_max (nc c))%Z ->
  F x0 = Some r0 -> let v0 := residual (s_semismooth c) r0 in
  eps_a (nc c) < norm v0 ->
  let dx := solve (jac x0 r0) v0 in mul (jac x0 r0) dx = v0 ->
  F (vsub x0 dx) = Some r1 -> norm (residual (s_semismooth c) r1) = 0 ->
  semismooth_newton c F jac solve mul mulT (S (S fuel)) (S lsfuel) x0 = Ok (SResult (vsub x0 dx) (norm v0) 0 0 1).
Proof.
  intros M c F jac solve mul mulT fuel lsfuel x0 r0 r1 HM HR HA HL HO HI F0 v0 BIG dx MUL F1 Z.
  unfold semismooth_newton. cbn [main_loop residual_loop Nat.eqb]. rewrite F0. cbn [bind i_err]. fold v0.
  assert (P := norm_pos v0). assert (CS := @conv_test_spec (nc c) 0 (norm v0) (norm v0) HM HR P).
  destruct (conv_test (nc c) 0 (norm v0) (norm v0)) as [[|k]|]; [unfold converged, small_abs in CS; lra|lia|].
  cbn [i_reuse bind i_x i_res]. unfold step at 1. cbn [i_mode i_r]. fold dx. rewrite MUL.
  assert (N0 : norm (vsub v0 v0) = 0).
  { apply norm_zero. unfold vsub. intros y I. apply in_map_iff in I. destruct I as (p & <- & I). assert (forall (l : vec) p, In p (combine l l) -> fst p = snd p).
    { induction l; intros p' J; [destruct J|]. destruct J as [<-|J]; auto. } rewrite (H _ _ I). lra. }
  rewrite N0. replace (Rltb (eps_a (nc c) * s_lin_red c) 0) with false by (symmetry; apply Rltb_false; nra).
  cbn [main_loop residual_loop Nat.eqb]. rewrite F1, Z. replace (Rltb 0 (norm v0 * ls_on (nc c))) with true by (symmetry; apply Rltb_true; nra).
  cbn [bind i_err]. assert (CS1 := @conv_test_spec (nc c) 1 0 (norm v0) HM HR P).
  assert (CV : converged (nc c) 1 0 (norm v0)) by (unfold converged, small_abs, small_rel; assert (0 <= eps_r (nc c) * norm v0) by nra; destruct (eps_or (nc c)); [left|split; [|right]]; auto).
  destruct (conv_test (nc c) 1 0 (norm v0)) as [[|k]|]; [reflexivity| |]; [destruct CS1 as (_ & N & _); elim (N CV)|destruct CS1 as (N & _); elim (N CV)].
Qed.

(** ** The direction after a restored state, C185 *)
Definition ex_f (x : R) : R := 1 + x + 16 * x ^ 3.
Definition ex_F (x : vec) : option (vec * vec * vec) := Some ([ex_f (nth 0 x 0)], [], []).
Definition ex_jac (x : vec) (_ : vec * vec * vec) : R := 1 + 48 * nth 0 x 0 ^ 2.
Definition ex_solve (m : R) (r : vec) : vec := map (fun v => / m * v) r.
Definition ex_mul (m : R) (r : vec) : vec := map (fun v => m * v) r.
Definition ex_conf : sconf := SConf (mkConf 2 (1/10) (1/10) false (1/1000) None false 1 Residual 1 (1/2) (1/2) (3/5) false false) (1/2) (1/2) 1 true.
Lemma norm_single : forall v, norm [v] = Rabs v.
Proof. intros. unfold norm, sumsq. cbn [fold_right]. rewrite Rplus_0_r. apply sqrt_Rsqr_abs. Qed.
Lemma ex_residual : forall b v, residual b ([v], [], []) = [v].
Proof. reflexivity. Qed.
Ltac lt_t := symmetry; apply Rltb_true; lra.
Ltac lt_f := symmetry; apply Rltb_false; lra.
Lemma ex_loop0 : residual_loop ex_conf ex_F 4 0 [0] [] (-1) Regular 1 [0] = Ok (Inner [0] ([1], [], []) [1] 1 Regular false).
Proof.
  cbn [residual_loop Nat.eqb ex_F nth]. replace (ex_f 0) with 1 by (unfold ex_f; ring). rewrite ex_residual, norm_single, Rabs_R1. reflexivity.
Qed.
Lemma ex_loop1 : residual_loop ex_conf ex_F 4 1 [0] [1] 1 Regular 1 [-1] = Ok (Inner [0] ([-3/2], [], []) [-3/2] 1 Steepest true).
Proof.
  cbn [residual_loop Nat.eqb ex_F nth]. replace (ex_f (-1)) with (-16) by (unfold ex_f; ring). rewrite ex_residual, norm_single, (Rabs_left (-16)) by lra.
  cbn [ls_on ls_min nc ex_conf red red_regular vsub vscale map combine fst snd nth].
  replace (Rltb (- -16) (1 * 1)) with false by lt_f. replace (Rltb 1 (3 / 5)) with false by lt_f.
  replace (ex_f (0 - 1 * (1 / 2) * 1)) with (-3/2) by (unfold ex_f; field). rewrite ex_residual, norm_single, (Rabs_left (-3/2)) by lra.
  replace (Rltb (- (-3/2)) (1 * 1)) with false by lt_f. replace (Rltb (1 * (1 / 2)) (3 / 5)) with true by lt_t. reflexivity.
Qed.
Lemma ex_loop2 : residual_loop ex_conf ex_F 4 2 [0] [-3/2] 1 Steepest 1 [3/2] = Ok (Inner [3/4] ([17/2], [], []) [17/2] (17/2) Steepest false).
Proof.
  cbn [residual_loop Nat.eqb ex_F nth]. replace (ex_f (3/2)) with (113/2) by (unfold ex_f; field). rewrite ex_residual, norm_single, (Rabs_right (113/2)) by lra.
  cbn [ls_on ls_min nc ex_conf red red_steepest vsub vscale map combine fst snd nth].
  replace (Rltb (113/2) (1 * 1)) with false by lt_f. replace (Rltb 1 (3 / 5)) with false by lt_f.
  replace (0 - 1 * (1 / 2) * (-3/2)) with (3/4) by field. replace (ex_f (3/4)) with (17/2) by (unfold ex_f; field). rewrite ex_residual, norm_single, (Rabs_right (17/2)) by lra.
  replace (Rltb (17/2) (1 * 1)) with false by lt_f. replace (Rltb (1 * (1 / 2)) (3 / 5)) with true by lt_t. reflexivity.
Qed.
Lemma ex_conv : forall it e e0, 1/10 < e -> (Z.of_nat it < 2)%Z -> 0 < e0 -> conv_test (nc ex_conf) it e e0 = None.
Proof.
  intros it e e0 H I E. assert (CS := @conv_test_spec (nc ex_conf) it e e0 ltac:(cbn; lra) ltac:(cbn; lra) ltac:(lra)).
  destruct (conv_test (nc ex_conf) it e e0) as [[|k]|]; auto; [|destruct CS as (_ & _ & J); cbn in J; lia].
  unfold converged, small_abs in CS. cbn [ex_conf nc eps_a eps_or] in CS. destruct it; [lra|destruct CS; lra].
Qed.
Lemma main_iter : forall (M : Type) c F (jac : vec -> vec * vec * vec -> M) solve mul mulT fuel lsfuel it x xl dx err0 el mode mtx o m dx' mode',
  residual_loop c F lsfuel it xl dx el mode 1 x = Ok o -> conv_test (nc c) it (i_err o) (if (it =? 0)%nat then i_err o else err0) = None ->
  (if i_reuse o then match mtx with Some m => Ok m | None => Err NameError end else Ok (jac (i_x o) (i_res o))) = Ok m ->
  step c solve mul mulT m o = (dx', mode') ->
  main_loop c F jac solve mul mulT (S fuel) lsfuel it x xl dx err0 el mode mtx =
  main_loop c F jac solve mul mulT fuel lsfuel (S it) (vsub (i_x o) dx') (i_x o) dx' (if (it =? 0)%nat then i_err o else err0) (i_err o) mode' (Some m).
Proof. intros M c F jac solve mul mulT fuel lsfuel it x xl dx err0 el mode mtx o m dx' mode' H1 H2 H3 H4. cbn [main_loop]. rewrite H1. cbn [bind]. rewrite H2, H3. cbn [bind]. rewrite H4. reflexivity. Qed.
Lemma main_last : forall (M : Type) c F (jac : vec -> vec * vec * vec -> M) solve mul mulT fuel lsfuel it x xl dx err0 el mode mtx o cond,
  residual_loop c F lsfuel it xl dx el mode 1 x = Ok o -> conv_test (nc c) it (i_err o) (if (it =? 0)%nat then i_err o else err0) = Some cond ->
  main_loop c F jac solve mul mulT (S fuel) lsfuel it x xl dx err0 el mode mtx = Ok (SResult (i_x o) (if (it =? 0)%nat then i_err o else err0) (i_err o) cond it).
Proof. intros M c F jac solve mul mulT fuel lsfuel it x xl dx err0 el mode mtx o cond H1 H2. cbn [main_loop]. rewrite H1. cbn [bind]. rewrite H2. reflexivity. Qed.
(** The equation is 1 + x + 16 x^3 = 0, its derivative is exact, and the initial guess is 0.
    The Newton step is rejected and the state restored; the steepest descent step is then
    made in the direction in which the residual grows, for every step length. *)
Theorem C185_restored_direction_refuted : exists q,
  (forall x r, is_derive ex_f (nth 0 x 0) (ex_jac x r)) /\
  semismooth_newton ex_conf ex_F ex_jac ex_solve ex_mul ex_mul 4 4 [0] = Ok q /\
  q_it q = 2%nat /\ q_x q = [3/4] /\ q_err0 q = 1 /\ q_err q = 17/2 /\
  (forall t, 0 < t -> Rabs (ex_f 0) < Rabs (ex_f (0 + t * nth 0 (q_x q) 0))).
Proof.
  exists (SResult [3/4] 1 (17/2) 1 2). split; [intros x r; unfold ex_f, ex_jac; auto_derive; auto; ring|]. split.
  - unfold semismooth_newton.
    rewrite (@main_iter _ _ _ _ _ _ _ 3 4 0 [0] [0] [] (-1) (-1) Regular None _ 1 [1] Regular ex_loop0); cbn [Nat.eqb i_err i_x];
      [|apply ex_conv; [lra|lia|lra]|unfold ex_jac; cbn [i_reuse i_x nth]; f_equal; ring|].
    2:{ unfold step. cbn [i_mode i_r ex_solve ex_mul map]. rewrite Rinv_1, !Rmult_1_l.
        replace (norm (vsub [1] [1])) with 0 by (cbn [vsub map combine fst snd]; rewrite norm_single; replace (1 - 1) with 0 by ring; rewrite Rabs_R0; reflexivity).
        replace (Rltb (eps_a (nc ex_conf) * s_lin_red ex_conf) 0) with false by (cbn [ex_conf nc eps_a s_lin_red]; lt_f). reflexivity. }
    replace (vsub [0] [1]) with [-1] by (cbn [vsub map combine fst snd]; f_equal; ring).
    rewrite (@main_iter _ _ _ _ _ _ _ 2 4 1 [-1] [0] [1] 1 1 Regular (Some 1) _ 1 [-3/2] Steepest ex_loop1); cbn [Nat.eqb i_err i_x];
      [|apply ex_conv; [lra|lia|lra]|reflexivity|unfold step; cbn [i_mode i_r ex_mul map]; replace (1 * (-3/2)) with (-3/2) by ring; reflexivity].
    replace (vsub [0] [-3/2]) with [3/2] by (cbn [vsub map combine fst snd]; f_equal; field).
    apply (@main_last _ _ _ _ _ _ _ 1 4 2 [3/2] [0] [-3/2] 1 1 Steepest (Some 1) _ 1 ex_loop2). cbn [i_err].
    assert (CS := @conv_test_spec (nc ex_conf) 2 (17/2) 1 ltac:(cbn; lra) ltac:(cbn; lra) ltac:(lra)).
    destruct (conv_test (nc ex_conf) 2 (17/2) 1) as [[|k]|] eqn:CT.
    + unfold converged, small_abs in CS. cbn [ex_conf nc eps_a eps_or] in CS. destruct CS; lra.
    + destruct CS as (K & _). cbn [Nat.eqb]. rewrite CT, K. reflexivity.
    + destruct CS as (_ & J). cbn in J. lia.
  - cbn [q_it q_x q_err0 q_err nth]. repeat split; auto. intros t T. unfold ex_f. rewrite !Rabs_right; try nra; assert (0 < t ^ 3) by (apply pow_lt; auto); nra.
Qed.
(** A linear complementarity problem solved in one step. *)
Example C184_ex : semismooth_newton ex_conf (fun x => Some ([nth 0 x 0 - 3], [nth 0 x 0 - 1], [0])) (fun _ _ => tt) (fun _ r => [nth 0 r 0]) (fun _ x => [nth 0 x 0; 0]) (fun _ r => [nth 0 r 0]) 2 1 [4]
  = Ok (SResult [3] 1 0 0 1).
Proof.
  assert (FB : forall a, 0 <= a -> fischer_burmeister a 0 = 0) by (intros; apply fb_zero; repeat split; lra).
  assert (E0 : residual (s_semismooth ex_conf) ([4 - 3], [4 - 1], [0]) = [1; 0]) by (cbn [residual vec_semismooth_r map combine fst snd app nonsmooth s_semismooth ex_conf]; rewrite FB by lra; f_equal; ring).
  assert (N0 : norm [1; 0] = 1) by (unfold norm, sumsq; cbn [fold_right]; replace (1 * 1 + (0 * 0 + 0)) with 1 by ring; apply sqrt_1).
  rewrite (@C184_one_step unit ex_conf (fun x => Some ([nth 0 x 0 - 3], [nth 0 x 0 - 1], [0])) (fun _ _ => tt) (fun _ r => [nth 0 r 0]) (fun _ x => [nth 0 x 0; 0]) (fun _ r => [nth 0 r 0]) 0 0 [4] ([4 - 3], [4 - 1], [0]) ([0], [2], [0]));
    try rewrite E0; try (cbn [ex_conf nc macheps eps_r eps_a s_lin_red ls_on i_max]; lra || lia); auto.
  - rewrite N0. cbn [vsub map combine fst snd nth]. replace (4 - 1) with 3 by ring. reflexivity.
  - cbn [vsub map combine fst snd nth]. replace (4 - 1 - 3) with 0 by ring. replace (4 - 1 - 1) with 2 by ring. reflexivity.
  - apply (@C182_residual_zero _ [0] [2] [0]); auto. split; [|split; [|split]]; try (intros v H; cbn [In] in H; intuition lra). intros i I. cbn [length] in I. destruct i; [|lia]. cbn [nth]. ring.
Qed.
Example C184_terminates_ex : 0 < red_regular ex_conf < 1 /\ 0 < red_steepest ex_conf < 1 /\ 0 < ls_red_warp (nc ex_conf) < 1 /\ 0 < ls_min (nc ex_conf).
Proof. cbn. lra. Qed.

Print Assumptions C182_residual_small.
Print Assumptions C183_inactive_rows.
Print Assumptions C184_status.
