(** C154-C156: explicit DG time stepping. *)
From Coq Require Import List Arith Lia Reals Lra FunctionalExtensionality.
From Coquelicot Require Import Coquelicot.
From Verif Require Import M_dgts S_dgts.
Import ListNotations.
Open Scope R_scope.

Lemma solve_split mass solve : exact_solver mass solve ->
  forall x y, solve (vadd (mass x) y) = vadd x (solve y).
Proof.
  intros [[Ha Hc] [Hl Hr]] x y.
  transitivity (solve (mass (fun i => x i + solve y i))).
  - f_equal. rewrite Ha. unfold vadd. apply functional_extensionality. intro i.
    now rewrite Hr.
  - rewrite Hl. reflexivity.
Qed.

Section S1.
Variables (t0 dt : R) (n_step : nat) (sv : save_opt).
Variables (mass solve : vec -> vec) (Vol Flux : R -> vec -> vec) (hook : vec -> vec).
Hypothesis HS : exact_solver mass solve.
Let tk k := t0 + INR k * dt.

Let eu := euler_step dt mass solve Vol Flux hook.
Let r3 := rk3_step dt mass solve Vol Flux hook.
Let loop := dg_loop t0 dt n_step sv.
Let call := dg_call t0 dt n_step sv mass Vol Flux.

(** State of the problem at the beginning of a time step. *)
Definition at_step (k : nat) (x : vec) (s : pst) : Prop :=
  p_step s = k /\ p_time s = tk k /\ p_fresh s = false /\ p_hist s = x.

Lemma post_hooks s x : let s' := fst (poststep_fun dt sv s x) in
  snd (poststep_fun dt sv s x) = x /\
  p_hooks s' = p_hooks s ++ [(p_step s, p_time s, x)] /\ p_step s' = p_step s /\ p_time s' = p_time s /\
  p_fresh s' = false /\ p_hist s' = x /\ p_cur s' = x /\ p_clock s' = p_clock s /\
  (sv = SaveAll -> p_saved s' = p_saved s ++ [(p_step s, p_time s, x)]).
Proof.
  unfold poststep_fun. destruct (is_save _ _ _) as [b il] eqn:E. cbn.
  repeat (split; [reflexivity|]).
  intro Hs. rewrite Hs in E. cbn in E. inversion E. reflexivity.
Qed.

Lemma rate_step s x0 x : p_fresh s = false -> p_hist s = x0 ->
  solve (snd (res_fun mass Vol Flux s x)) = vadd x (rate solve Vol Flux (p_clock s) x0 x).
Proof.
  intros Hf Hh. unfold res_fun. cbn. rewrite Hf, Hh, (solve_split mass solve HS). reflexivity.
Qed.

Lemma euler_one s x k :
  at_step k x s -> exists s',
  eu (fst (prestep_fun s x)) x (Some prestep_fun) (Some (poststep_fun dt sv)) None
    = Some (s', hook (euler_of dt (fun y => rate solve Vol Flux (tk k) y y) x))
  /\ p_step s' = k /\ p_time s' = tk k /\ p_hooks s' = p_hooks s /\ p_saved s' = p_saved s.
Proof.
  intros (H1 & H2 & H3 & H4). unfold eu, euler_step.
  destruct (res_fun mass Vol Flux (fst (prestep_fun s x)) x) as [s' r] eqn:E.
  assert (Hr : solve r = vadd x (rate solve Vol Flux (tk k) x x)).
  { replace r with (snd (res_fun mass Vol Flux (fst (prestep_fun s x)) x)) by now rewrite E.
    rewrite (rate_step _ x) by assumption. cbn. now rewrite H2. }
  assert (Es : s' = fst (res_fun mass Vol Flux (fst (prestep_fun s x)) x)) by now rewrite E.
  exists s'. split.
  - f_equal. f_equal. f_equal. rewrite Hr. unfold euler_of, vsub, vscale, vadd.
    apply functional_extensionality. intro i. ring.
  - rewrite Es. cbn. auto.
Qed.

Lemma euler_loop X (HX : forall k, X (S k) = hook (euler_of dt (fun y => rate solve Vol Flux (tk (S k)) y y) (X k))) :
  forall m k s, (k < n_step)%nat -> m = (n_step - S k)%nat -> ((S k < n_step)%nat -> at_step (S k) (X k) s) ->
  exists s', loop eu m s (X k) = Some (s', X (n_step - 1)%nat)
   /\ p_hooks s' = p_hooks s ++ map (fun j => (j, tk j, X j)) (seq (S k) m)
   /\ (sv = SaveAll -> p_saved s' = p_saved s ++ map (fun j => (j, tk j, X j)) (seq (S k) m)).
Proof.
  induction m; intros k s Hk Hm Ha.
  - cbn. exists s. rewrite !app_nil_r. replace (n_step - 1)%nat with k by lia. auto.
  - assert (Hk' : (S k < n_step)%nat) by lia.
    specialize (Ha Hk'). destruct (euler_one s (X k) (S k) Ha) as (s1 & E1 & P1 & P2 & P3 & P4).
    destruct (post_hooks s1 (X (S k))) as (Q1 & Q2 & Q3 & Q4 & Q5 & Q6 & Q7 & Q8 & Q9).
    specialize (IHm (S k) (ts_advance t0 dt n_step (fst (poststep_fun dt sv s1 (X (S k)))))).
    destruct IHm as (s' & E2 & E3 & E4); [lia | lia | |].
    + intro Hlt. unfold ts_advance. rewrite Q3, P1.
      replace (S k <? n_step - 1)%nat with true by (symmetry; apply Nat.ltb_lt; lia).
      unfold at_step. cbn. repeat split; auto.
    + exists s'. split; [|split].
      * unfold loop. cbn [dg_loop]. cbn [prestep_fun]. 
        change (set_clock (p_time s) (set_cur (X k) s)) with (fst (prestep_fun s (X k))).
        fold eu. rewrite E1. rewrite <- HX.
        destruct (poststep_fun dt sv s1 (X (S k))) as [s2 x2] eqn:E5. cbn in Q1. subst x2. exact E2.
      * rewrite E3. transitivity ((p_hooks s ++ [(S k, tk (S k), X (S k))]) ++ map (fun j => (j, tk j, X j)) (seq (S (S k)) m)).
        -- f_equal. unfold ts_advance. destruct (_ <? _)%nat; cbn; rewrite Q2, P1, P2, P3; reflexivity.
        -- rewrite <- app_assoc. reflexivity.
      * intro Hs. rewrite (E4 Hs). transitivity ((p_saved s ++ [(S k, tk (S k), X (S k))]) ++ map (fun j => (j, tk j, X j)) (seq (S (S k)) m)).
        -- f_equal. unfold ts_advance. destruct (_ <? _)%nat; cbn; rewrite (Q9 Hs), P1, P2, P4; reflexivity.
        -- rewrite <- app_assoc. reflexivity.
Qed.

(** The state when the first time step starts. *)
Lemma call_loop step x0 : (2 <= n_step)%nat -> exists s1,
  call step x0 = loop step (n_step - 1) s1 x0 /\ at_step 1 x0 s1 /\
  p_hooks s1 = [(0%nat, t0, x0)] /\ (sv = SaveAll -> p_saved s1 = [(0%nat, t0, x0)]).
Proof.
  intro Hn. unfold call, dg_call. cbn [prestep_fun solve_step0 res_fun].
  set (s0 := set_cur _ _).
  destruct (post_hooks s0 x0) as (Q1 & Q2 & Q3 & Q4 & Q5 & Q6 & Q7 & Q8 & Q9).
  destruct (poststep_fun dt sv s0 x0) as [s2 x2] eqn:E5. cbn in Q1. subst x2. cbn [fst] in *.
  assert (Ea : ts_advance t0 dt n_step s2 = set_now 1 (tk 1) s2).
  { unfold ts_advance. assert (Q0 : p_step s2 = 0%nat) by (rewrite Q3; reflexivity). rewrite Q0.
    replace (0 <? n_step - 1)%nat with true by (symmetry; apply Nat.ltb_lt; lia). reflexivity. }
  rewrite Ea. cbn [p_step set_now].
  eexists. split; [reflexivity|]. split; [|split].
  - unfold at_step. cbn. auto.
  - cbn. rewrite Q2. reflexivity.
  - intro Hs. cbn. rewrite (Q9 Hs). reflexivity.
Qed.

(** C154: EulerStepSolver runs forward Euler, reports each time step once, at its time. *)
Theorem C154_euler_run :
  (2 <= n_step)%nat -> forall x0 X, X 0%nat = x0 ->
  (forall k, X (S k) = hook (euler_of dt (fun y => rate solve Vol Flux (t0 + INR (S k) * dt) y y) (X k))) ->
  exists s, call eu x0 = Some (s, X (n_step - 1)%nat)
   /\ p_hooks s = map (fun k => (k, t0 + INR k * dt, X k)) (seq 0 n_step)
   /\ (sv = SaveAll -> p_saved s = map (fun k => (k, t0 + INR k * dt, X k)) (seq 0 n_step)).
Proof.
  intros Hn x0 X H0 HX.
  destruct (call_loop eu x0 Hn) as (s1 & E & A & B & C).
  destruct (euler_loop X HX (n_step - 1) 0 s1) as (s' & E1 & E2 & E3); [lia | lia | | ].
  - intros _. rewrite H0. exact A.
  - exists s'. rewrite E. rewrite H0 in E1. split; [exact E1|].
    assert (Es : seq 0 n_step = 0%nat :: seq 1 (n_step - 1)).
    { destruct n_step as [|q]; [lia|]. cbn. now rewrite Nat.sub_0_r. }
    rewrite Es. cbn [map]. assert (Et : t0 + INR 0 * dt = t0) by (cbn; ring).
    rewrite Et, H0. split.
    + rewrite E2, B. reflexivity.
    + intro Hs. rewrite (E3 Hs), (C Hs). reflexivity.
Qed.

(** One TVDRK3 step as computed: the volume terms of stage 2 see the old state. *)
Definition rk3_y1 (t : R) (x : vec) : vec := tvd1 hook dt (fun y => rate solve Vol Flux t y y) x.
Definition rk3_y2 (t : R) (x : vec) : vec := tvd2 hook dt (fun y => rate solve Vol Flux t x y) x (rk3_y1 t x).
Definition rk3_y3 (t : R) (x : vec) : vec := tvd3 hook dt (fun y => rate solve Vol Flux t y y) x (rk3_y2 t x).

Lemma rk3_one s x k :
  at_step k x s -> exists s',
  r3 (fst (prestep_fun s x)) x (Some prestep_fun) (Some (poststep_fun dt sv)) None
    = Some (s', rk3_y3 (tk k) x)
  /\ p_step s' = k /\ p_time s' = tk k + 1 / 2 * dt
  /\ p_hooks s' = p_hooks s ++ [(k, tk k + 1 / 2 * dt, rk3_y2 (tk k) x)]
  /\ (sv = SaveAll -> p_saved s' = p_saved s ++ [(k, tk k + 1 / 2 * dt, rk3_y2 (tk k) x)]).
Proof.
  intros (H1 & H2 & H3 & H4). unfold r3, rk3_step.
  set (sa := fst (prestep_fun s x)).
  assert (Ka : p_clock sa = tk k) by (cbn; exact H2).
  destruct (res_fun mass Vol Flux sa x) as [sb r1] eqn:E1.
  assert (Hr1 : solve r1 = vadd x (rate solve Vol Flux (tk k) x x)).
  { replace r1 with (snd (res_fun mass Vol Flux sa x)) by now rewrite E1.
    rewrite (rate_step _ x) by assumption. now rewrite Ka. }
  rewrite Hr1.
  replace (hook (vsub x (vscale dt (vsub (vadd x (rate solve Vol Flux (tk k) x x)) x)))) with (rk3_y1 (tk k) x).
  2:{ unfold rk3_y1, tvd1. f_equal. unfold vsub, vscale, vadd. apply functional_extensionality. intro; ring. }
  set (y1 := rk3_y1 (tk k) x).
  destruct (res_fun mass Vol Flux sb y1) as [sc r2] eqn:E2.
  assert (Eb : sb = set_cur x sa) by (unfold res_fun in E1; inversion E1; reflexivity).
  assert (Hr2 : solve r2 = vadd y1 (rate solve Vol Flux (tk k) x y1)).
  { replace r2 with (snd (res_fun mass Vol Flux sb y1)) by now rewrite E2.
    rewrite (rate_step _ x) by (subst sb; assumption). subst sb. cbn [p_clock set_cur]. now rewrite Ka. }
  rewrite Hr2.
  replace (hook (vscale (/ 4) (vsub (vadd (vscale 3 x) y1) (vscale dt (vsub (vadd y1 (rate solve Vol Flux (tk k) x y1)) y1)))))
    with (rk3_y2 (tk k) x).
  2:{ unfold rk3_y2, tvd2. fold y1. f_equal. unfold vsub, vscale, vadd. apply functional_extensionality. intro; field. }
  set (y2 := rk3_y2 (tk k) x).
  assert (Ec : sc = set_cur y1 sb) by (unfold res_fun in E2; inversion E2; reflexivity).
  set (sd := set_substep_time (1 / 2 * dt) sc).
  destruct (post_hooks sd y2) as (Q1 & Q2 & Q3 & Q4 & Q5 & Q6 & Q7 & Q8 & Q9).
  destruct (poststep_fun dt sv sd y2) as [se xe] eqn:E5. cbn in Q1. subst xe. cbn [fst] in *.
  destruct (res_fun mass Vol Flux se y2) as [sf rr] eqn:E6.
  assert (Hr3 : solve rr = vadd y2 (rate solve Vol Flux (tk k) y2 y2)).
  { replace rr with (snd (res_fun mass Vol Flux se y2)) by now rewrite E6.
    rewrite (rate_step _ y2) by assumption. rewrite Q8. subst sd sc sb. cbn [p_clock set_cur set_substep_time set_now]. now rewrite Ka. }
  assert (Ef : sf = set_cur y2 se) by (unfold res_fun in E6; inversion E6; reflexivity).
  exists sf. split; [|split; [|split; [|split]]].
  - f_equal. f_equal. rewrite Hr3. unfold rk3_y3, tvd3. fold y2. f_equal. unfold vsub, vscale, vadd.
    apply functional_extensionality. intro; field.
  - rewrite Ef. cbn. rewrite Q3. subst sd sc sb. cbn. exact H1.
  - rewrite Ef. cbn. rewrite Q4. subst sd sc sb. cbn. rewrite H2. reflexivity.
  - rewrite Ef. cbn [p_hooks set_cur]. rewrite Q2. subst sd sc sb. cbn. rewrite H1, H2. reflexivity.
  - intro Hs. rewrite Ef. cbn [p_saved set_cur]. rewrite (Q9 Hs). subst sd sc sb. cbn. rewrite H1, H2. reflexivity.
Qed.

Let twice X k : list (nat * R * vec) :=
  [(S k, tk (S k) + 1 / 2 * dt, rk3_y2 (tk (S k)) (X k)); (S k, tk (S k) + 1 / 2 * dt, X (S k))].

Lemma rk3_loop X (HX : forall k, X (S k) = rk3_y3 (tk (S k)) (X k)) :
  forall m k s, (k < n_step)%nat -> m = (n_step - S k)%nat -> ((S k < n_step)%nat -> at_step (S k) (X k) s) ->
  exists s', loop r3 m s (X k) = Some (s', X (n_step - 1)%nat)
   /\ p_hooks s' = p_hooks s ++ flat_map (twice X) (seq k m)
   /\ (sv = SaveAll -> p_saved s' = p_saved s ++ flat_map (twice X) (seq k m)).
Proof.
  induction m; intros k s Hk Hm Ha.
  - cbn. exists s. rewrite !app_nil_r. replace (n_step - 1)%nat with k by lia. auto.
  - assert (Hk' : (S k < n_step)%nat) by lia.
    specialize (Ha Hk'). destruct (rk3_one s (X k) (S k) Ha) as (s1 & E1 & P1 & P2 & P3 & P4).
    destruct (post_hooks s1 (X (S k))) as (Q1 & Q2 & Q3 & Q4 & Q5 & Q6 & Q7 & Q8 & Q9).
    specialize (IHm (S k) (ts_advance t0 dt n_step (fst (poststep_fun dt sv s1 (X (S k)))))).
    destruct IHm as (s' & E2 & E3 & E4); [lia | lia | |].
    + intro Hlt. unfold ts_advance. rewrite Q3, P1.
      replace (S k <? n_step - 1)%nat with true by (symmetry; apply Nat.ltb_lt; lia).
      unfold at_step. cbn. repeat split; auto.
    + exists s'. split; [|split].
      * unfold loop. cbn [dg_loop]. cbn [prestep_fun]. 
        change (set_clock (p_time s) (set_cur (X k) s)) with (fst (prestep_fun s (X k))).
        fold r3. rewrite E1. rewrite <- HX.
        destruct (poststep_fun dt sv s1 (X (S k))) as [s2 x2] eqn:E5. cbn in Q1. subst x2. exact E2.
      * rewrite E3. cbn [seq flat_map]. rewrite app_assoc. f_equal.
        transitivity (p_hooks (fst (poststep_fun dt sv s1 (X (S k))))).
        -- unfold ts_advance. destruct (_ <? _)%nat; reflexivity.
        -- rewrite Q2, P1, P2, P3. rewrite <- app_assoc. reflexivity.
      * intro Hs. rewrite (E4 Hs). cbn [seq flat_map]. rewrite app_assoc. f_equal.
        transitivity (p_saved (fst (poststep_fun dt sv s1 (X (S k))))).
        -- unfold ts_advance. destruct (_ <? _)%nat; reflexivity.
        -- rewrite (Q9 Hs), P1, P2, (P4 Hs). rewrite <- app_assoc. reflexivity.
Qed.

(** C155: what a TVDRK3 run computes and reports, for any number of steps. *)
Theorem C155_rk3_run_partial :
  (2 <= n_step)%nat -> forall x0 X,
  let t := fun k => t0 + INR k * dt in
  let y1 := fun k => tvd1 hook dt (fun y => rate solve Vol Flux (t (S k)) y y) (X k) in
  let y2 := fun k => tvd2 hook dt (fun y => rate solve Vol Flux (t (S k)) (X k) y) (X k) (y1 k) in
  X 0%nat = x0 ->
  (forall k, X (S k) = tvd3 hook dt (fun y => rate solve Vol Flux (t (S k)) y y) (X k) (y2 k)) ->
  exists s, call r3 x0 = Some (s, X (n_step - 1)%nat)
   /\ p_hooks s = (0%nat, t0, x0) ::
        flat_map (fun k => [(S k, t (S k) + dt / 2, y2 k); (S k, t (S k) + dt / 2, X (S k))])
                 (seq 0 (n_step - 1)).
Proof.
  intros Hn x0 X t y1 y2 H0 HX.
  destruct (call_loop r3 x0 Hn) as (s1 & E & A & B & C).
  destruct (rk3_loop X HX (n_step - 1) 0 s1) as (s' & E1 & E2 & E3); [lia | lia | | ].
  - intros _. rewrite H0. exact A.
  - exists s'. rewrite E. rewrite H0 in E1. split; [exact E1|].
    rewrite E2, B. cbn [app]. f_equal. apply flat_map_ext. intro k. unfold twice.
    assert (Ht : tk (S k) + 1 / 2 * dt = t (S k) + dt / 2) by (unfold tk, t; field).
    rewrite Ht. reflexivity.
Qed.
End S1.
