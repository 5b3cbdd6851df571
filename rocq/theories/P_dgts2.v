(** C154-C156: conservation, stability and accuracy of the DG time steppers. *)
From Coq Require Import List Arith Lia Reals Lra FunctionalExtensionality.
From Coquelicot Require Import Coquelicot.
From Verif Require Import M_dgts S_dgts P_dgts.
Import ListNotations.
Open Scope R_scope.

Lemma vec_ext (x y : nat -> R) : (forall i, x i = y i) -> x = y.
Proof. intro H. apply functional_extensionality. exact H. Qed.

Lemma exact_lin mass solve : exact_solver mass solve -> linear_op solve.
Proof.
  intros [[Ha Hc] [Hl Hr]]. split.
  - intros x y. transitivity (solve (mass (fun i => solve x i + solve y i))).
    + f_equal. rewrite Ha. apply vec_ext. intro. now rewrite !Hr.
    + apply Hl.
  - intros c x. transitivity (solve (mass (fun i => c * solve x i))).
    + f_equal. rewrite Hc. apply vec_ext. intro. now rewrite !Hr.
    + apply Hl.
Qed.

(** Any solver with a recursively computed trajectory has a trajectory. *)
Fixpoint traj (f : nat -> vec -> vec) (x0 : vec) (k : nat) : vec :=
  match k with O => x0 | S k => f k (traj f x0 k) end.

Section S2.
Variables (t0 dt : R) (n_step : nat) (sv : save_opt).
Variables (mass solve : vec -> vec) (Vol Flux : R -> vec -> vec) (hook : vec -> vec).
Hypothesis HS : exact_solver mass solve.
Hypothesis Hn : (2 <= n_step)%nat.

Let run step := dg_call t0 dt n_step sv mass Vol Flux step.
Let eu := euler_step dt mass solve Vol Flux hook.
Let r3 := rk3_step dt mass solve Vol Flux hook.

(** A linear functional, such as the total mass. *)
Definition functional (m : vec -> R) : Prop :=
  (forall x y, m (fun i => x i + y i) = m x + m y) /\ (forall c x, m (fun i => c * x i) = c * m x).

Lemma functional_comb m a b c x y z : functional m ->
  m (fun i => a * x i + b * y i + c * z i) = a * m x + b * m y + c * m z.
Proof. intros [H1 H2]. rewrite (H1 (fun i => a * x i + b * y i)), (H1 (fun i => a * x i)), !H2. reflexivity. Qed.

Lemma rate_zero m t x y : functional m ->
  (forall t x, m (solve (Vol t x)) = 0) -> (forall t x, m (solve (Flux t x)) = 0) ->
  m (rate solve Vol Flux t x y) = 0.
Proof.
  intros [H1 H2] HV HF. unfold rate. destruct (exact_lin _ _ HS) as [Ha _]. rewrite Ha, H1, HV, HF. ring.
Qed.

Theorem C154_euler_conserves m x0 :
  functional m -> (forall x, m (hook x) = m x) ->
  (forall t x, m (solve (Vol t x)) = 0) -> (forall t x, m (solve (Flux t x)) = 0) ->
  exists s x, run eu x0 = Some (s, x) /\ m x = m x0 /\ (forall e, In e (p_hooks s) -> m (snd e) = m x0).
Proof.
  intros Hm Hh HV HF.
  set (f := fun k x => hook (euler_of dt (fun y => rate solve Vol Flux (t0 + INR (S k) * dt) y y) x)).
  destruct (C154_euler_run t0 dt n_step sv mass solve Vol Flux hook HS Hn x0 (traj f x0) eq_refl (fun k => eq_refl)) as (s & E & Eh & _).
  assert (Hk : forall k, m (traj f x0 k) = m x0).
  { induction k; [reflexivity|]. cbn [traj]. unfold f at 1. rewrite Hh. unfold euler_of.
    rewrite <- IHk.
    transitivity (m (fun i => 1 * traj f x0 k i + (- dt) * rate solve Vol Flux (t0 + INR (S k) * dt) (traj f x0 k) (traj f x0 k) i + 0 * x0 i)).
    - f_equal. apply vec_ext. intro. ring.
    - rewrite functional_comb by exact Hm. rewrite rate_zero by assumption. ring. }
  exists s, (traj f x0 (n_step - 1)). split; [exact E|]. split; [apply Hk|].
  rewrite Eh. intros e He. apply in_map_iff in He. destruct He as (k & <- & _). cbn. apply Hk.
Qed.

Theorem C155_rk3_conserves m x0 :
  functional m -> (forall x, m (hook x) = m x) ->
  (forall t x, m (solve (Vol t x)) = 0) -> (forall t x, m (solve (Flux t x)) = 0) ->
  exists s x, run r3 x0 = Some (s, x) /\ m x = m x0 /\ (forall e, In e (p_hooks s) -> m (snd e) = m x0).
Proof.
  intros Hm Hh HV HF.
  set (L := fun t => rate solve Vol Flux t).
  set (t := fun k => t0 + INR k * dt).
  set (y1 := fun k x => tvd1 hook dt (fun y => L (t (S k)) y y) x).
  set (y2 := fun k x => tvd2 hook dt (fun y => L (t (S k)) x y) x (y1 k x)).
  set (f := fun k x => tvd3 hook dt (fun y => L (t (S k)) y y) x (y2 k x)).
  destruct (C155_rk3_run_partial t0 dt n_step sv mass solve Vol Flux hook HS Hn x0 (traj f x0) eq_refl (fun k => eq_refl)) as (s & E & Eh).
  assert (H1 : forall k x, m (y1 k x) = m x).
  { intros k x. unfold y1, tvd1. rewrite Hh.
    transitivity (m (fun i => 1 * x i + (- dt) * L (t (S k)) x x i + 0 * x0 i)).
    - f_equal. apply vec_ext. intro. ring.
    - rewrite functional_comb by exact Hm. unfold L. rewrite rate_zero by assumption. ring. }
  assert (H2 : forall k x, m (y2 k x) = m x).
  { intros k x. unfold y2, tvd2. rewrite Hh.
    transitivity (m (fun i => 3 / 4 * x i + 1 / 4 * y1 k x i + (- (1 / 4 * dt)) * L (t (S k)) x (y1 k x) i)).
    - f_equal. apply vec_ext. intro. ring.
    - rewrite functional_comb by exact Hm. unfold L. rewrite rate_zero, H1 by assumption. field. }
  assert (H3 : forall k x, m (f k x) = m x).
  { intros k x. unfold f, tvd3. rewrite Hh.
    transitivity (m (fun i => 1 / 3 * x i + 2 / 3 * y2 k x i + (- (2 / 3 * dt)) * L (t (S k)) (y2 k x) (y2 k x) i)).
    - f_equal. apply vec_ext. intro. ring.
    - rewrite functional_comb by exact Hm. unfold L. rewrite rate_zero, H2 by assumption. field. }
  assert (Hk : forall k, m (traj f x0 k) = m x0).
  { induction k; [reflexivity|]. cbn [traj]. now rewrite H3. }
  exists s, (traj f x0 (n_step - 1)). split; [exact E|]. split; [apply Hk|].
  rewrite Eh. intros e [<- | He]; [reflexivity|]. apply in_flat_map in He. destruct He as (k & _ & [<- | [<- | []]]).
  - cbn [snd]. change (m (y2 k (traj f x0 k)) = m x0). now rewrite H2.
  - cbn [snd]. apply Hk.
Qed.

(** Convex functional, such as a norm or the total variation of the cell means. *)
Definition convex (P : vec -> R) : Prop :=
  forall a x y, 0 <= a <= 1 -> P (fun i => a * x i + (1 - a) * y i) <= a * P x + (1 - a) * P y.

(** Strong stability: what one limited Euler step does not increase, the run does not increase. *)
Theorem C154_euler_stable P x0 :
  (forall x, P (hook x) <= P x) ->
  (forall k x, P (euler_of dt (fun y => rate solve Vol Flux (t0 + INR (S k) * dt) y y) x) <= P x) ->
  exists s x, run eu x0 = Some (s, x) /\ P x <= P x0.
Proof.
  intros Hh HE.
  set (f := fun k x => hook (euler_of dt (fun y => rate solve Vol Flux (t0 + INR (S k) * dt) y y) x)).
  destruct (C154_euler_run t0 dt n_step sv mass solve Vol Flux hook HS Hn x0 (traj f x0) eq_refl (fun k => eq_refl)) as (s & E & Eh & _).
  exists s, (traj f x0 (n_step - 1)). split; [exact E|].
  clear E Eh. induction (n_step - 1)%nat; [cbn; lra|]. cbn [traj]. unfold f at 1.
  eapply Rle_trans; [apply Hh|]. eapply Rle_trans; [apply HE|]. exact IHn.
Qed.

Theorem C155_rk3_stable_partial P x0 :
  convex P -> (forall x, P (hook x) <= P x) -> (forall t x, Vol t x = fun _ => 0) ->
  (forall k x, P (euler_of dt (fun y => rate solve Vol Flux (t0 + INR (S k) * dt) y y) x) <= P x) ->
  exists s x, run r3 x0 = Some (s, x) /\ P x <= P x0.
Proof.
  intros HP Hh HV HE.
  set (L := fun t => rate solve Vol Flux t).
  set (t := fun k => t0 + INR k * dt).
  set (y1 := fun k x => tvd1 hook dt (fun y => L (t (S k)) y y) x).
  set (y2 := fun k x => tvd2 hook dt (fun y => L (t (S k)) x y) x (y1 k x)).
  set (f := fun k x => tvd3 hook dt (fun y => L (t (S k)) y y) x (y2 k x)).
  destruct (C155_rk3_run_partial t0 dt n_step sv mass solve Vol Flux hook HS Hn x0 (traj f x0) eq_refl (fun k => eq_refl)) as (s & E & Eh).
  assert (Hx : forall t x y z, L t x z = L t y z).
  { intros. unfold L, rate. now rewrite !HV. }
  assert (H1 : forall k x, P (y1 k x) <= P x).
  { intros k x. unfold y1, tvd1. eapply Rle_trans; [apply Hh|]. apply HE. }
  assert (H2 : forall k x, P (y2 k x) <= P x).
  { intros k x. unfold y2, tvd2. eapply Rle_trans; [apply Hh|].
    replace (fun i => 3 / 4 * x i + 1 / 4 * y1 k x i - 1 / 4 * dt * L (t (S k)) x (y1 k x) i)
      with (fun i => 3 / 4 * x i + (1 - 3 / 4) * euler_of dt (fun y => L (t (S k)) y y) (y1 k x) i).
    2:{ apply vec_ext. intro. unfold euler_of. rewrite (Hx (t (S k)) x (y1 k x)). field. }
    eapply Rle_trans; [apply HP; lra|].
    assert (G : P (euler_of dt (fun y => L (t (S k)) y y) (y1 k x)) <= P (y1 k x)) by apply HE.
    pose proof (H1 k x). lra. }
  assert (H3 : forall k x, P (f k x) <= P x).
  { intros k x. unfold f, tvd3. eapply Rle_trans; [apply Hh|].
    replace (fun i => 1 / 3 * x i + 2 / 3 * y2 k x i - 2 / 3 * dt * L (t (S k)) (y2 k x) (y2 k x) i)
      with (fun i => 1 / 3 * x i + (1 - 1 / 3) * euler_of dt (fun y => L (t (S k)) y y) (y2 k x) i).
    2:{ apply vec_ext. intro. unfold euler_of. field. }
    eapply Rle_trans; [apply HP; lra|].
    assert (G : P (euler_of dt (fun y => L (t (S k)) y y) (y2 k x)) <= P (y2 k x)) by apply HE.
    pose proof (H2 k x). lra. }
  exists s, (traj f x0 (n_step - 1)). split; [exact E|].
  clear E Eh. induction (n_step - 1)%nat; [cbn; lra|]. cbn [traj]. eapply Rle_trans; [apply H3|]. exact IHn.
Qed.

(** Third order accuracy for linear problems without volume terms (finite
    volumes): each step is the third Taylor polynomial of exp(-dt L). *)
Theorem C155_rk3_order_partial A x0 :
  linear_op A -> (forall x, hook x = x) -> (forall t x, Vol t x = fun _ => 0) -> (forall t x, Flux t x = A x) ->
  let L := fun x => solve (A x) in
  forall X, X 0%nat = x0 ->
  (forall k i, X (S k) i = X k i - dt * L (X k) i + dt ^ 2 / 2 * L (L (X k)) i - dt ^ 3 / 6 * L (L (L (X k))) i) ->
  exists s, run r3 x0 = Some (s, X (n_step - 1)%nat).
Proof.
  intros HA Hh HV HF L X H0 HX.
  assert (HL : linear_op L).
  { destruct (exact_lin _ _ HS) as [Sa Sc]. destruct HA as [Aa Ac]. unfold L. split; intros.
    - rewrite Aa, Sa. reflexivity.
    - rewrite Ac, Sc. reflexivity. }
  assert (Hr : forall t x y, rate solve Vol Flux t x y = L y).
  { intros. unfold rate, L. f_equal. apply vec_ext. intro. rewrite HV, HF. ring. }
  assert (HLm : forall a b c x y z i, L (fun i => a * x i + b * y i + c * z i) i = a * L x i + b * L y i + c * L z i).
  { intros. destruct HL as [La Lc]. rewrite (La (fun i => a * x i + b * y i)), (La (fun i => a * x i)), !Lc. reflexivity. }
  destruct (C155_rk3_run_partial t0 dt n_step sv mass solve Vol Flux hook HS Hn x0 X H0) as (s & E & _).
  2:{ exists s. exact E. }
  intro k. apply vec_ext. intro i. unfold tvd3, tvd2, tvd1. rewrite !Hh, !Hr.
  set (x := X k).
  assert (E1 : (fun i => x i - dt * L x i) = (fun i => 1 * x i + (- dt) * L x i + 0 * x i)) by (apply vec_ext; intro; ring).
  assert (E2 : (fun i => 3 / 4 * x i + 1 / 4 * (x i - dt * L x i) - 1 / 4 * dt * L (fun i => x i - dt * L x i) i)
    = (fun i => 1 * x i + (- (dt / 2)) * L x i + dt ^ 2 / 4 * L (L x) i)).
  { apply vec_ext. intro j. rewrite E1, HLm. field. }
  rewrite E2, HLm, HX. fold x. cbv beta. rewrite E1, HLm. field.
Qed.
End S2.

(** ** RK4: every stage uses [- dx - stage], i.e. the slope [-(2 x + L x)]. *)
Theorem C156_rk4_partial dt mass solve Flux s x0 a b c :
  exact_solver mass solve ->
  let L := fun x => solve (Flux (p_clock s) x) in
  exists s', rk4_step dt mass solve (fun _ _ => fun _ => 0) Flux (fun x => x) s x0 a b c
    = Some (s', classical_rk4 dt (fun x i => - (2 * x i + L x i)) x0).
Proof.
  intros HS L.
  assert (K : forall x, vsub (vneg (solve (vadd (mass x) (vadd (fun _ => 0) (Flux (p_clock s) x))))) x = (fun i => - (2 * x i + L x i))).
  { intros x. rewrite (solve_split _ _ HS).
    assert (E : vadd (fun _ => 0) (Flux (p_clock s) x) = Flux (p_clock s) x).
    { apply vec_ext. intro. unfold vadd. ring. }
    rewrite E. apply vec_ext. intro. unfold vsub, vneg, vadd, L. ring. }
  unfold rk4_step, stage_updates, rk4_stages, res_fun. cbv beta iota zeta.
  cbn [p_clock p_cur set_cur app nth].
  eexists. f_equal. f_equal.
  rewrite !K.
  set (k1 := fun i => - (2 * x0 i + L x0 i)).
  set (z2 := vadd x0 (vscale (1 / 2 * dt) k1)).
  set (k2 := fun i => - (2 * z2 i + L z2 i)).
  set (z3 := vadd x0 (vscale (1 / 2 * dt) k2)).
  set (k3 := fun i => - (2 * z3 i + L z3 i)).
  set (z4 := vadd x0 (vscale dt k3)).
  match goal with |- _ = classical_rk4 _ ?g _ => set (G := g) end.
  assert (E2 : (fun i => x0 i + dt / 2 * k1 i) = z2) by (apply vec_ext; intro; unfold z2, vadd, vscale; field).
  assert (E3 : (fun i => x0 i + dt / 2 * k2 i) = z3) by (apply vec_ext; intro; unfold z3, vadd, vscale; field).
  unfold classical_rk4. cbv zeta. change (G x0) with k1. rewrite E2. change (G z2) with k2. rewrite E3.
  change (G z3) with k3. change (fun i => x0 i + dt * k3 i) with z4. unfold G.
  apply vec_ext. intro. unfold vadd, vscale. field.
Qed.
