(** C60-C65: the elastodynamics schemes. *)
From mathcomp Require Import all_ssreflect all_algebra.
From Coq Require Import Ring Field.
From Verif Require Import FieldTac M_ed.
Set Implicit Arguments. Unset Strict Implicit. Unset Printing Implicit Defensive.
Import GRing.Theory Num.Theory.
Local Open Scope ring_scope.

Section Equiv.
Variables (F : fieldType) (n : nat).
Notation V := 'cV[F]_n.
Notation Mx := 'M[F]_n.
Add Field Ff : (F_field_theory F).
Implicit Types (R : V -> V -> V -> V) (Jac : V -> V -> V -> Mx * Mx * Mx)
  (nls : (V -> V) -> (V -> Mx) -> V -> V) (s : state F n).
Hypothesis two_neq0 : (2%:R : F) != 0.

Lemma h2 : (1 + 1 : F) <> 0.
Proof. by apply/eqP. Qed.
Ltac go := apply/matrixP => i j; rewrite !mxE; ffold F; field; repeat split; try exact: h2.

Lemma cd_v_newmark dt (s : state F n) a : cd_v dt s a = newmark_v (2%:R^-1) dt s a.
Proof. case: s => [[u v] a0] /=; go. Qed.
Lemma cd_u_newmark dt (s : state F n) a : cd_u dt s = newmark_u 0 dt s a.
Proof. case: s => [[u v] a0] /=; go. Qed.


(** The nonlinear solver is a function of the values of the residual and of the
    tangent matrix. *)
Definition extensional nls :=
  forall f g df dg x, f =1 g -> df =1 dg -> nls f df x = nls g dg x.
(** ... and finds a root of the residual [f] with the tangent matrix [df]. *)
Definition solves nls (f : V -> V) (df : V -> Mx) := forall x, f (nls f df x) = 0.
(** A solver that does so for affine residuals: one step of the Newton method
    with an exact linear solver (nls.py, Newton, for linear problems). *)
Definition newton1 (f : V -> V) (df : V -> Mx) (x : V) : V := x - invmx (df x) *m f x.
Definition affine_with (f : V -> V) (df : V -> Mx) := forall x d, f (x + d) = f x + df x *m d.
Lemma newton1_solves f df : affine_with f df -> (forall x, df x \in unitmx) -> solves newton1 f df.
Proof. by move=> H Hu x; rewrite /newton1 H mulmxN mulKVmx // subrr. Qed.
Lemma newton1_ext : extensional newton1.
Proof. by move=> f g df dg x H H'; rewrite /newton1 H H'. Qed.

(** ** C60: documented equivalences of the schemes *)
(** The central difference method is Newmark with gamma = 1/2, beta = 0. *)
Theorem C60_central_difference_is_newmark R Jac nls dt s : extensional nls ->
  cd_step R Jac nls dt s = newmark_step R Jac nls (2%:R^-1) 0 dt s.
Proof.
move=> nls_ext; rewrite /cd_step /newmark_step.
have -> : nls (cd_fun R dt s) (cd_grad Jac dt s) s.2
        = nls (newmark_fun R (2%:R^-1) 0 dt s) (newmark_grad Jac (2%:R^-1) 0 dt s) s.2.
  apply: nls_ext => x.
    by rewrite /cd_fun /newmark_fun -cd_v_newmark -cd_u_newmark.
  rewrite /cd_grad /newmark_grad -cd_v_newmark -cd_u_newmark.
  case: (Jac _ _ _) => [[M C] K]; go.
by rewrite -cd_v_newmark -cd_u_newmark.
Qed.

Lemma alpha_v1_newmark gamma dt s a : alpha_v1 gamma dt s a = newmark_v gamma dt s a.
Proof. case: s => [[u v] a0] /=; go. Qed.
Lemma alpha_u1_newmark beta dt s a : alpha_u1 beta dt s a = newmark_u beta dt s a.
Proof. case: s => [[u v] a0] /=; go. Qed.
Lemma alpha_vm0 gamma dt s a : alpha_vm 0 gamma dt s a = newmark_v gamma dt s a.
Proof. rewrite -alpha_v1_newmark; case: s => [[u v] a0] /=; go. Qed.
Lemma alpha_um0 beta dt s a : alpha_um 0 beta dt s a = newmark_u beta dt s a.
Proof. rewrite -alpha_u1_newmark; case: s => [[u v] a0] /=; go. Qed.
Lemma alpha_am0 s a : alpha_am 0 s a = a.
Proof. case: s => [[u v] a0] /=; go. Qed.

(** Generalized alpha with alpha_m = alpha_f = 0 is Newmark (also in the time at
    which the loads are evaluated). *)
Theorem C60_generalized_alpha_is_newmark Rt Jact nls gamma beta t dt s : extensional nls ->
  alpha_step_t Rt Jact nls 0 0 gamma beta t dt s = newmark_step_t Rt Jact nls gamma beta t dt s.
Proof.
move=> nls_ext; rewrite /alpha_step_t /newmark_step_t oppr0 mul0r addr0 /alpha_step /newmark_step.
set R := Rt t; set Jac := Jact t.
have -> : nls (alpha_fun R 0 0 gamma beta dt s) (alpha_grad Jac 0 0 gamma beta dt s) s.2
        = nls (newmark_fun R gamma beta dt s) (newmark_grad Jac gamma beta dt s) s.2.
  apply: nls_ext => x.
    by rewrite /alpha_fun /newmark_fun alpha_vm0 alpha_um0 alpha_am0.
  rewrite /alpha_grad /newmark_grad alpha_vm0 alpha_um0 alpha_am0.
  case: (Jac _ _ _) => [[M C] K]; go.
by rewrite alpha_v1_newmark alpha_u1_newmark.
Qed.

Lemma verlet_u_cd dt s : verlet_u dt s = cd_u dt s.
Proof. case: s => [[u v] a0] /=; go. Qed.
Lemma verlet_v_cd dt s a : verlet_v dt s a = cd_v dt s a.
Proof. case: s => [[u v] a0] /=; go. Qed.

(** Velocity-Verlet is the central difference method, provided the residual does
    not depend on the velocity (no damping). *)
Theorem C60_verlet_is_central_difference_partial R Jac nls dt s : extensional nls ->
  (forall u v v' a, R u v a = R u v' a) ->
  (forall u v v' a, (Jac u v a).1.1 = (Jac u v' a).1.1 /\ (Jac u v a).1.2 = 0) ->
  verlet_step R Jac nls dt s = cd_step R Jac nls dt s.
Proof.
move=> nls_ext HR HJ; rewrite /verlet_step /cd_step.
have -> : nls (verlet_fun R dt s) (verlet_grad Jac dt s) s.2 = nls (cd_fun R dt s) (cd_grad Jac dt s) s.2.
  apply: nls_ext => x.
    by rewrite /verlet_fun /cd_fun verlet_u_cd; exact: HR.
  rewrite /verlet_grad /cd_grad verlet_u_cd.
  have := HJ (cd_u dt s) (verlet_vm dt s) (cd_v dt s x) x.
  have := HJ (cd_u dt s) (cd_v dt s x) (cd_v dt s x) x.
  case: (Jac _ _ _) => [[M C] K]; case: (Jac _ _ _) => [[M' C'] K'] /= [_ ->] [-> _].
  by rewrite scaler0 addr0.
by rewrite verlet_u_cd verlet_v_cd.
Qed.

(** ** C61: the computed state satisfies the equations of motion *)
Definition in_motion (R : V -> V -> V -> V) s := let '(u, v, a) := s in R u v a = 0.

Theorem C61_central_difference Rt Jact nls t dt s :
  solves nls (cd_fun (Rt t) dt s) (cd_grad (Jact t) dt s) ->
  in_motion (Rt t) (cd_step_t Rt Jact nls t dt s).
Proof. by move=> H; rewrite /cd_step_t /cd_step /in_motion; exact: H. Qed.
Theorem C61_newmark Rt Jact nls gamma beta t dt s :
  solves nls (newmark_fun (Rt t) gamma beta dt s) (newmark_grad (Jact t) gamma beta dt s) ->
  in_motion (Rt t) (newmark_step_t Rt Jact nls gamma beta t dt s).
Proof. by move=> H; rewrite /newmark_step_t /newmark_step /in_motion; exact: H. Qed.

(** Generalized alpha: the weighted state between the steps satisfies the
    equations at the same weighted time. *)
Theorem C61_generalized_alpha Rt Jact nls am af gamma beta t0 dt s :
  (let tm := (1 - af) * (t0 + dt) + af * t0 in
   solves nls (alpha_fun (Rt tm) am af gamma beta dt s) (alpha_grad (Jact tm) am af gamma beta dt s)) ->
  let '(u0, v0, a0) := s in
  let t1 := t0 + dt in
  let '(u1, v1, a1) := alpha_step_t Rt Jact nls am af gamma beta t1 dt s in
  Rt ((1 - af) * t1 + af * t0) ((1 - af) *: u1 + af *: u0) ((1 - af) *: v1 + af *: v0)
     ((1 - am) *: a1 + am *: a0) = 0.
Proof.
case: s => [[u0 v0] a0] H; rewrite /alpha_step_t.
have E : (1 - af) * (t0 + dt) + af * t0 = t0 + dt + - af * dt by ffold F; ring.
rewrite E /= in H *; exact: H.
Qed.

(** Bathe: holds for loads that do not depend on time; for loads depending on
    time the equations hold at the time t_{n+1} + dt/2. *)
Theorem C61_bathe_partial Rt Jact nls t dt u0 v0 a0 :
  let u1 := bathe_step1 (Rt t) (Jact t) nls dt (u0, v0, a0) in
  let v1 := bathe_v1 dt (u0, v0, a0) u1 in
  let tm := t + 2%:R^-1 * dt in
  solves nls (bathe_fun2 (Rt tm) dt u0 u1 v0 v1) (bathe_grad2 (Jact tm) dt u0 u1 v0 v1) ->
  in_motion (Rt (t + 2%:R^-1 * dt)) (bathe_step_t Rt Jact nls t dt (u0, v0, a0)).
Proof. move=> u1 v1 tm H; rewrite /bathe_step_t /bathe_step2 /in_motion; exact: H.
Qed.
Theorem C61_verlet_partial Rt Jact nls t dt s :
  solves nls (verlet_fun (Rt t) dt s) (verlet_grad (Jact t) dt s) ->
  (forall u v v' a, Rt t u v a = Rt t u v' a) ->
  in_motion (Rt t) (verlet_step_t Rt Jact nls t dt s).
Proof.
case: s => [[u0 v0] a0] H HR; rewrite /verlet_step_t /verlet_step /in_motion.
rewrite (HR _ _ (verlet_vm dt (u0, v0, a0))).
exact: H.
Qed.
(** The initial acceleration: the initial state is in motion for residuals
    linear in the acceleration and an exact linear solver. *)
Theorem C61_initial Rt Jact (ls : Mx -> V -> V) t u0 v0 :
  (forall r, (Jact t u0 v0 0).1.1 *m ls (Jact t u0 v0 0).1.1 r = r) ->
  (forall a, Rt t u0 v0 a = Rt t u0 v0 0 + (Jact t u0 v0 0).1.1 *m a) ->
  in_motion (Rt t) (initial_state Rt Jact ls t u0 v0).
Proof.
rewrite /initial_state; case: (Jact _ _ _ _) => [[M C] K] /= Hls Hlin.
by rewrite Hlin Hls subrr.
Qed.

(** ** C64: the tangent matrices are the derivatives of the residuals.
    [Dir f l]: the curve f has the derivative l at 0, in any sense that depends
    on the values of f only. *)
Section Tangent.
Variable Dir : (F -> V) -> V -> Prop.
Hypothesis Dir_ext : forall f g l, f =1 g -> Dir f l -> Dir g l.
Variables (R : V -> V -> V -> V) (Jac : V -> V -> V -> Mx * Mx * Mx).
Hypothesis Jac_ok : forall u v a du dv da,
  let '(M, C, K) := Jac u v a in
  Dir (fun t => R (u + t *: du) (v + t *: dv) (a + t *: da)) (K *m du + C *m dv + M *m da).

Theorem C64_verlet dt s at_ d :
  Dir (fun t => verlet_fun R dt s (at_ + t *: d)) (verlet_grad Jac dt s at_ *m d).
Proof.
rewrite /verlet_fun /verlet_grad.
have := @Jac_ok (verlet_u dt s) (verlet_vm dt s) at_ 0 0 d.
case: (Jac _ _ _) => [[M C] K]; rewrite !mulmx0 !add0r; apply: Dir_ext => t.
by rewrite !scaler0 !addr0.
Qed.
Theorem C64_central_difference dt s at_ d :
  Dir (fun t => cd_fun R dt s (at_ + t *: d)) (cd_grad Jac dt s at_ *m d).
Proof.
rewrite /cd_fun /cd_grad.
have := @Jac_ok (cd_u dt s) (cd_v dt s at_) at_ 0 ((2%:R^-1 * dt) *: d) d.
case: (Jac _ _ _) => [[M C] K]; rewrite !mulmx0 !add0r mulmxDl -scalemxAl -scalemxAr addrC.
apply: Dir_ext => t; rewrite !scaler0 !addr0; congr R.
case: s => [[u v] a0] /=; go.
Qed.
Theorem C64_newmark gamma beta dt s at_ d :
  Dir (fun t => newmark_fun R gamma beta dt s (at_ + t *: d)) (newmark_grad Jac gamma beta dt s at_ *m d).
Proof.
rewrite /newmark_fun /newmark_grad.
have := @Jac_ok (newmark_u beta dt s at_) (newmark_v gamma dt s at_) at_ ((beta * dt ^+ 2) *: d) ((gamma * dt) *: d) d.
case: (Jac _ _ _) => [[M C] K]; rewrite !mulmxDl -!scalemxAl -!scalemxAr.
rewrite [X in Dir _ X](_ : _ = M *m d + (gamma * dt) *: (C *m d) + (beta * dt ^+ 2) *: (K *m d)); last by move: (M *m d) (C *m d) (K *m d) => x1 x2 x3; go; by [].
apply: Dir_ext => t; case: s => [[u v] a0] /=; congr R; go.
Qed.
Theorem C64_generalized_alpha am af gamma beta dt s at_ d :
  Dir (fun t => alpha_fun R am af gamma beta dt s (at_ + t *: d)) (alpha_grad Jac am af gamma beta dt s at_ *m d).
Proof.
rewrite /alpha_fun /alpha_grad.
have := @Jac_ok (alpha_um af beta dt s at_) (alpha_vm af gamma dt s at_) (alpha_am am s at_)
  (((1 - af) * beta * dt ^+ 2) *: d) (((1 - af) * gamma * dt) *: d) ((1 - am) *: d).
case: (Jac _ _ _) => [[M C] K]; rewrite !mulmxDl -!scalemxAl -!scalemxAr.
rewrite [X in Dir _ X](_ : _ = (1 - am) *: (M *m d) + ((1 - af) * gamma * dt) *: (C *m d) + ((1 - af) * beta * dt ^+ 2) *: (K *m d)); last by move: (M *m d) (C *m d) (K *m d) => x1 x2 x3; go; by [].
apply: Dir_ext => t; case: s => [[u v] a0] /=; congr R; go.
Qed.
Theorem C64_bathe1 dt s ut d : dt != 0 ->
  Dir (fun t => bathe_fun1 R dt s (ut + t *: d)) (bathe_grad1 Jac dt s ut *m d).
Proof.
move=> /eqP dt0; rewrite /bathe_fun1 /bathe_grad1.
have := @Jac_ok ut (bathe_v1 dt s ut) (bathe_a1 dt s (bathe_v1 dt s ut)) d ((4%:R / dt) *: d) ((4%:R / dt * (4%:R / dt)) *: d).
case: (Jac _ _ _) => [[M C] K]; rewrite !mulmxDl -!scalemxAl -!scalemxAr.
rewrite [X in Dir _ X](_ : _ = (4%:R / dt * (4%:R / dt)) *: (M *m d) + (4%:R / dt) *: (C *m d) + K *m d); last by move: (M *m d) (C *m d) (K *m d) => x1 x2 x3; go; by [].
apply: Dir_ext => t; case: s => [[u v] a0] /=; congr R; go; by [].
Qed.
Theorem C64_bathe2 dt u0 u1 v0 v1 ut d : dt != 0 ->
  Dir (fun t => bathe_fun2 R dt u0 u1 v0 v1 (ut + t *: d)) (bathe_grad2 Jac dt u0 u1 v0 v1 ut *m d).
Proof.
move=> /eqP dt0; rewrite /bathe_fun2 /bathe_grad2.
have := @Jac_ok ut (bathe_d2 dt u0 u1 ut) (bathe_d2 dt v0 v1 (bathe_d2 dt u0 u1 ut)) d ((3%:R * (1 / dt)) *: d)
  ((3%:R * (1 / dt) * (3%:R * (1 / dt))) *: d).
case: (Jac _ _ _) => [[M C] K]; rewrite !mulmxDl -!scalemxAl -!scalemxAr.
rewrite [X in Dir _ X](_ : _ = (3%:R * (1 / dt) * (3%:R * (1 / dt))) *: (M *m d) + (3%:R * (1 / dt)) *: (C *m d) + K *m d); last by move: (M *m d) (C *m d) (K *m d) => x1 x2 x3; go; by [].
apply: Dir_ext => t; rewrite /bathe_d2; congr R; go; by [].
Qed.
End Tangent.

(** ** C65: uniformly accelerated motion is reproduced exactly *)
Definition parabola (u0 v0 g : V) (t : F) : state F n :=
  (u0 + t *: v0 + (t ^+ 2 / 2%:R) *: g, v0 + t *: g, g).
Definition free_motion (M : Mx) (g u v a : V) : V := M *m a - M *m g.

Lemma free_root (M : Mx) (g a : V) : M \in unitmx -> M *m a - M *m g = 0 -> a = g.
Proof.
move=> HM /eqP; rewrite subr_eq0 => /eqP H.
by rewrite -[a](mulKmx HM) H (mulKmx HM).
Qed.

Section Free.
Variables (M : Mx) (g : V).
Hypothesis HM : M \in unitmx.
Variables (Jac : V -> V -> V -> Mx * Mx * Mx) (nls : (V -> V) -> (V -> Mx) -> V -> V).
Let R := free_motion M g.

Lemma C65_verlet u0 v0 t dt :
  (forall s, solves nls (verlet_fun R dt s) (verlet_grad Jac dt s)) ->
  verlet_step R Jac nls dt (parabola u0 v0 g t) = parabola u0 v0 g (t + dt).
Proof.
move=> Hnls; rewrite /verlet_step; set x := nls _ _ _; have : x = g by apply: (free_root HM); exact: Hnls.
move=> -> /=; congr (_, _, _); go.
Qed.
Lemma C65_cd u0 v0 t dt :
  (forall s, solves nls (cd_fun R dt s) (cd_grad Jac dt s)) ->
  cd_step R Jac nls dt (parabola u0 v0 g t) = parabola u0 v0 g (t + dt).
Proof.
move=> Hnls; rewrite /cd_step; set x := nls _ _ _; have : x = g by apply: (free_root HM); exact: Hnls.
move=> -> /=; congr (_, _, _); go.
Qed.
Lemma C65_newmark u0 v0 gamma beta t dt :
  (forall s, solves nls (newmark_fun R gamma beta dt s) (newmark_grad Jac gamma beta dt s)) ->
  newmark_step R Jac nls gamma beta dt (parabola u0 v0 g t) = parabola u0 v0 g (t + dt).
Proof.
move=> Hnls; rewrite /newmark_step; set x := nls _ _ _; have : x = g by apply: (free_root HM); exact: Hnls.
move=> -> /=; congr (_, _, _); go.
Qed.
Lemma C65_alpha u0 v0 am af gamma beta t dt : am != 1 ->
  (forall s, solves nls (alpha_fun R am af gamma beta dt s) (alpha_grad Jac am af gamma beta dt s)) ->
  alpha_step R Jac nls am af gamma beta dt (parabola u0 v0 g t) = parabola u0 v0 g (t + dt).
Proof.
move=> Ham Hnls; rewrite /alpha_step; set x := nls _ _ _.
have : x = g.
  have := Hnls (parabola u0 v0 g t) (parabola u0 v0 g t).2.
  rewrite -/x /alpha_fun => /(free_root HM) /= H.
  have H2 : (1 - am) *: x = (1 - am) *: g by apply/eqP; rewrite eq_sym scalerBl scale1r subr_eq; apply/eqP; rewrite -[LHS]H.
  apply: (scalerI _ H2); by rewrite subr_eq0 eq_sym.
move=> -> /=; congr (_, _, _); go.
Qed.
Hypothesis three_neq0 : (3%:R : F) != 0.
Lemma h3 : (1 + (1 + 1) : F) <> 0. Proof. by apply/eqP. Qed.
Lemma h4 : ((1 + 1) * (1 + 1) : F) <> 0.
Proof. by apply/eqP; rewrite mulf_neq0. Qed.
Ltac nz := repeat split; first [exact: h2|exact: h3|exact: h4|by []|idtac].
Lemma C65_bathe u0 v0 t dt : dt != 0 ->
  (forall s, solves nls (bathe_fun1 R dt s) (bathe_grad1 Jac dt s)) ->
  (forall u0 u1 v0 v1, solves nls (bathe_fun2 R dt u0 u1 v0 v1) (bathe_grad2 Jac dt u0 u1 v0 v1)) ->
  bathe_step R Jac nls dt (parabola u0 v0 g t) = parabola u0 v0 g (t + dt).
Proof.
move=> /eqP dt0 Hnls Hnls2; rewrite /bathe_step.
set s0 := parabola u0 v0 g t; set u1 := bathe_step1 _ _ _ _ _.
have E1 : u1 = (parabola u0 v0 g (t + dt / 2%:R)).1.1.
  have := Hnls s0 s0.1.1.
  rewrite -/(bathe_step1 R Jac nls dt s0) -/u1 /bathe_fun1 => /(free_root HM).
  move: u1 => u1 H.
  rewrite -[u1](_ : (dt / 4%:R) *: ((dt / 4%:R) *: (bathe_a1 dt s0 (bathe_v1 dt s0 u1)) + (dt / 4%:R) *: s0.2 + (1+1) *: s0.1.2) + s0.1.1 = _); last by rewrite /s0 /=; go; nz.
  rewrite [bathe_a1 _ _ _]H /s0 /=; go; nz.
move: u1 E1 => u1 ->.
pose w0 : V := u0 + t *: v0 + (t ^+ 2 / 2%:R) *: g; pose y0 : V := v0 + t *: g.
rewrite /bathe_step2 (_ : s0 = (w0, y0, g)) //.
set fn := bathe_fun2 _ _ _ _ _ _; set gr := bathe_grad2 _ _ _ _ _ _; set x := nls _ _ _.
have E2 : x = (parabola u0 v0 g (t + dt)).1.1.
  set p1 := (parabola _ _ _ _).1.1 in fn gr x *; have := Hnls2 w0 p1 y0 (bathe_v1 dt (w0, y0, g) p1) p1.
  rewrite -/fn -/gr -/x /fn /bathe_fun2 => /(free_root HM); clearbody x.
  set v1 := bathe_v1 _ _ _; rewrite -/p1 => H; pose uu := p1.
  have E : v1 = v0 + (t + dt / 2%:R) *: g by rewrite /v1 /p1 /w0 /y0 /=; go; nz.
  rewrite -[x](_ : (dt / 3%:R) *: ((dt / 3%:R) *: (bathe_d2 dt y0 v1 (bathe_d2 dt w0 uu x) - (1 / dt) *: y0 + (4%:R / dt) *: v1) - (1 / dt) *: w0 + (4%:R / dt) *: uu) = _); last by rewrite /bathe_d2; go; nz.
  rewrite [bathe_d2 _ _ v1 _]H E /uu /p1 /w0 /y0 /=; go; nz.
rewrite E2 /w0 /y0 /=; congr (_, _, _); go; nz.
Qed.

(** For any sequence of nonzero steps, all the schemes. *)
Lemma foldl_parabola (stp : F -> state F n -> state F n) u0 v0 (P : pred F) :
  (forall t dt, P dt -> stp dt (parabola u0 v0 g t) = parabola u0 v0 g (t + dt)) ->
  forall dts t, all P dts ->
  foldl (fun s dt => stp dt s) (parabola u0 v0 g t) dts = parabola u0 v0 g (t + \sum_(dt <- dts) dt).
Proof.
move=> H; elim=> [|dt dts IH] t /=; first by rewrite big_nil addr0.
by case/andP=> H0 H1; rewrite H // IH // big_cons addrA.
Qed.
End Free.

(** The nonlinear solver: any one that finds the roots of the residuals of the
    steps. *)
Theorem C65_uniform_acceleration M g Jac nls am af gamma beta u0 v0 dts :
  M \in unitmx -> (3%:R : F) != 0 -> am != 1 -> all (fun dt => dt != 0) dts ->
  let R := free_motion M g in
  let T := \sum_(dt <- dts) dt in
  let goal stp := foldl (fun s dt => stp dt s) (u0, v0, g) dts = (u0 + T *: v0 + (T ^+ 2 / 2%:R) *: g, v0 + T *: g, g) in
  [/\ ((forall dt s, dt \in dts -> solves nls (verlet_fun R dt s) (verlet_grad Jac dt s)) -> goal (verlet_step R Jac nls)),
     ((forall dt s, dt \in dts -> solves nls (cd_fun R dt s) (cd_grad Jac dt s)) -> goal (cd_step R Jac nls)),
     ((forall dt s, dt \in dts -> solves nls (newmark_fun R gamma beta dt s) (newmark_grad Jac gamma beta dt s)) ->
       goal (newmark_step R Jac nls gamma beta)),
     ((forall dt s, dt \in dts -> solves nls (alpha_fun R am af gamma beta dt s) (alpha_grad Jac am af gamma beta dt s)) ->
       goal (alpha_step R Jac nls am af gamma beta)) &
     ((forall dt s, dt \in dts -> solves nls (bathe_fun1 R dt s) (bathe_grad1 Jac dt s)) ->
      (forall dt u0 u1 v0 v1, dt \in dts -> solves nls (bathe_fun2 R dt u0 u1 v0 v1) (bathe_grad2 Jac dt u0 u1 v0 v1)) ->
       goal (bathe_step R Jac nls))].
Proof.
move=> HM H3 Ham Hd R T goal.
have E0 : (u0, v0, g) = parabola u0 v0 g 0 by rewrite /parabola; congr (_, _, _); go.
have Egoal stp : (forall t dt, dt \in dts -> stp dt (parabola u0 v0 g t) = parabola u0 v0 g (t + dt)) -> goal stp.
  move=> H; rewrite /goal E0 (@foldl_parabola g stp u0 v0 (mem dts)) ?add0r //; exact/allP.
split=> H => [||||H2]; apply: Egoal => t dt Hdt.
- by apply: C65_verlet => // s; exact: H.
- by apply: C65_cd => // s; exact: H.
- by apply: C65_newmark => // s; exact: H.
- by apply: C65_alpha => // s; exact: H.
- by apply: C65_bathe => //; [exact: (allP Hd)|move=> s; exact: H|move=> *; exact: H2].
Qed.

(** With the Newton method all the hypotheses hold. *)
Theorem C65_newton M g am af gamma beta u0 v0 dts :
  M \in unitmx -> (3%:R : F) != 0 -> am != 1 -> all (fun dt => dt != 0) dts ->
  let R := free_motion M g in
  let Jac := fun _ _ _ : V => (M, 0 : Mx, 0 : Mx) in
  let T := \sum_(dt <- dts) dt in
  let goal stp := foldl (fun s dt => stp dt s) (u0, v0, g) dts = (u0 + T *: v0 + (T ^+ 2 / 2%:R) *: g, v0 + T *: g, g) in
  [/\ goal (verlet_step R Jac newton1), goal (cd_step R Jac newton1), goal (newmark_step R Jac newton1 gamma beta),
     goal (alpha_step R Jac newton1 am af gamma beta) & goal (bathe_step R Jac newton1)].
Proof.
move=> HM H3 Ham Hd R Jac T goal.
have [P1 P2 P3 P4 P5] := @C65_uniform_acceleration M g Jac newton1 am af gamma beta u0 v0 dts HM H3 Ham Hd.
pose Dir (f : F -> V) l := f 1 = f 0 + l.
have Dir_ext f f' l : f =1 f' -> Dir f l -> Dir f' l by move=> E; rewrite /Dir !E.
have Jok u v a du dv da : let '(M, C, K) := Jac u v a in
  Dir (fun t => R (u + t *: du) (v + t *: dv) (a + t *: da)) (K *m du + C *m dv + M *m da).
  rewrite /Jac /Dir /R /free_motion !mul0mx !add0r !scale1r !scale0r !addr0 mulmxDr.
  by rewrite addrAC.
have Aff f df : (forall x d, Dir (fun t => f (x + t *: d)) (df x *m d)) -> affine_with f df.
  by move=> H x d; have := H x d; rewrite /Dir scale1r scale0r addr0.
have sc c : c != 0 -> c *: M \in unitmx by move=> c0; rewrite unitmxZ // unitfE.
have Hbathe (c : F) dt : c != 0 -> dt != 0 -> (c / dt * (c / dt)) *: M \in unitmx.
  by move=> c0 d0; apply: sc; rewrite !mulf_neq0 // invr_eq0.
have n4 : (4%:R : F) != 0 by rewrite (_ : 4%:R = 2%:R * 2%:R) ?mulf_neq0 // -natrM.
split; [apply: P1|apply: P2|apply: P3|apply: P4|apply: P5] => *; apply: newton1_solves.
- apply: Aff => x d; exact: C64_verlet.
- by move=> x; rewrite /verlet_grad.
- apply: Aff => x d; exact: C64_central_difference.
- by move=> x; rewrite /cd_grad /= scaler0 addr0.
- apply: Aff => x d; exact: C64_newmark.
- by move=> x; rewrite /newmark_grad /= !scaler0 !addr0.
- apply: Aff => x d; exact: C64_generalized_alpha.
- by move=> x; rewrite /alpha_grad /= !scaler0 !addr0; apply: sc; rewrite subr_eq0 eq_sym.
- apply: Aff => x d; apply: C64_bathe1 => //; exact: (allP Hd).
- by move=> x; rewrite /bathe_grad1 /= !scaler0 !addr0; apply: Hbathe => //; exact: (allP Hd).
- apply: Aff => x d; apply: C64_bathe2 => //; exact: (allP Hd).
- by move=> x; rewrite /bathe_grad2 /= !scaler0 !addr0 !mul1r; apply: Hbathe => //; exact: (allP Hd).
Qed.

(** ** C64 for the Newmark method with extra variables: the residuals of the
    extra equations depend on u, e only, those of the velocity and acceleration
    rows on v and a, as the matrices taken by get_matrices() assume. *)
Section ExtraTangent.
Variable m : nat.
Notation W := 'cV[F]_m.
Variable Dir : (F -> 'cV[F]_(n + m)) -> 'cV[F]_(n + m) -> Prop.
Hypothesis Dir_ext : forall f g l, f =1 g -> Dir f l -> Dir g l.
Variables (Re : V -> W -> V -> V -> (V * W * V * V)) (Jace : V -> W -> V -> V -> (Mx * Mx * 'M[F]_(n + m))).
(** the derivative of the sum of the residuals *)
Hypothesis Jace_ok : forall u e v a du de dv da,
  let '(M, C, K) := Jace u e v a in
  Dir (fun t => let '(ru, re, rv, ra) := Re (u + t *: du) (e + t *: de) (v + t *: dv) (a + t *: da) in
                col_mx (ru + rv + ra) re)
      (K *m col_mx du de + col_mx (C *m dv + M *m da) 0).
Theorem C64_newmark_extra gamma beta dt (s : statee F n m) (aet d : 'cV[F]_(n + m)) :
  Dir (fun t => nmke_fun Re gamma beta dt s (aet + t *: d)) (nmke_grad Jace gamma beta dt s aet *m d).
Proof.
rewrite /nmke_fun /nmke_grad.
set a := usubmx aet; set da := usubmx d; set e := dsubmx aet; set de := dsubmx d.
have := @Jace_ok (nmke_u beta dt s a) e (nmke_v gamma dt s a) a ((beta * dt ^+ 2) *: da) de ((gamma * dt) *: da) da.
case: (Jace _ _ _ _) => [[M C] K].
have -> : (row_mx ((beta * dt ^+ 2) *: lsubmx K) (rsubmx K) + block_mx (M + (gamma * dt) *: C) 0 0 0) *m d
  = K *m col_mx ((beta * dt ^+ 2) *: da) de + col_mx (C *m ((gamma * dt) *: da) + M *m da) 0.
  rewrite -[d]vsubmxK -/da -/de mulmxDl mul_row_col mul_block_col -{3}[K]hsubmxK mul_row_col.
  rewrite -scalemxAl -scalemxAr; congr (_ + _).
  by rewrite !mul0mx !addr0 mulmxDl -scalemxAl scalemxAr addrC.
apply: Dir_ext => t.
have -> : usubmx (aet + t *: d) = a + t *: da by rewrite /a /da linearD linearZ.
have -> : dsubmx (aet + t *: d) = e + t *: de by rewrite /e /de linearD linearZ.
case: s => [[[u0 e0] v0] a0] /=.
have -> : u0 + dt *: v0 + ((2%:R^-1 - beta) * dt ^+ 2) *: a0 + (beta * dt ^+ 2) *: (a + t *: da)
   = u0 + dt *: v0 + ((2%:R^-1 - beta) * dt ^+ 2) *: a0 + (beta * dt ^+ 2) *: a + t *: ((beta * dt ^+ 2) *: da) by go.
have -> : v0 + ((1 - gamma) * dt) *: a0 + (gamma * dt) *: (a + t *: da)
   = v0 + ((1 - gamma) * dt) *: a0 + (gamma * dt) *: a + t *: ((gamma * dt) *: da) by go.
by [].
Qed.
End ExtraTangent.

End Equiv.

(** ** C62: energy *)
Section Energy.
Variables (F : realFieldType) (n : nat).
Notation V := 'cV[F]_n.
Notation Mx := 'M[F]_n.
Add Field Ff2 : (F_field_theory F).
Definition quad (A : Mx) (x y : V) : F := (x^T *m A *m y) 0 0.
(** kinetic plus deformation energy *)
Definition energy (M K : Mx) (s : state F n) : F :=
  let '(u, v, a) := s in (quad M v v + quad K u u) / 2%:R.
(** linear damped elastodynamics with the load f(t) *)
Definition linear_motion (M C K : Mx) (f : F -> V) (t : F) (u v a : V) : V :=
  M *m a + C *m v + K *m u - f t.

Lemma quadDl A x y z : quad A (x + y) z = quad A x z + quad A y z.
Proof. by rewrite /quad linearD /= !mulmxDl mxE. Qed.
Lemma quadDr A x y z : quad A x (y + z) = quad A x y + quad A x z.
Proof. by rewrite /quad mulmxDr mxE. Qed.
Lemma quadZr A x c y : quad A x (c *: y) = c * quad A x y.
Proof. by rewrite /quad -scalemxAr mxE. Qed.
Lemma quadZl A x c y : quad A (c *: x) y = c * quad A x y.
Proof. by rewrite /quad linearZ /= -!scalemxAl mxE. Qed.
Lemma quadNr A x y : quad A x (- y) = - quad A x y.
Proof. by rewrite /quad mulmxN mxE. Qed.
Lemma quad_sym A x y : A^T = A -> quad A x y = quad A y x.
Proof.
move=> H; rewrite /quad.
have -> : x^T *m A *m y = (y^T *m A *m x)^T by rewrite !trmx_mul trmxK H mulmxA.
by rewrite mxE.
Qed.
Lemma quad_mx A (B : Mx) x y : quad A x (B *m y) = quad (A *m B) x y.
Proof. by rewrite /quad !mulmxA. Qed.
Definition dot (x y : V) : F := quad 1%:M x y.
Lemma quad_dot A x y : quad A x y = dot x (A *m y).
Proof. by rewrite /dot quad_mx mul1mx. Qed.

Lemma dot0 x : dot x 0 = 0.
Proof. by rewrite /dot /quad mulmx0 mxE. Qed.
Lemma two_ne0 : (2%:R : F) != 0. Proof. by rewrite pnatr_eq0. Qed.

Notation Jac0 := (V -> V -> V -> Mx * Mx * Mx).
Variables (M C K : Mx) (f : F -> V).
Hypotheses (symM : M^T = M) (symK : K^T = K).
Let Rt := linear_motion M C K f.

(** The trapezoidal rule as u, v increments. *)
Lemma newmark_trapezoid dt (u0 v0 a0 a1 : V) :
  let u1 := newmark_u (4%:R^-1) dt (u0, v0, a0) a1 in
  let v1 := newmark_v (2%:R^-1) dt (u0, v0, a0) a1 in
  u1 - u0 = (dt / 2%:R) *: (v0 + v1) /\ v1 - v0 = (dt / 2%:R) *: (a0 + a1).
Proof.
have h2 : (1 + 1 : F) <> 0 by apply/eqP; exact: two_ne0.
have h4 : ((1 + 1) * (1 + 1) : F) <> 0 by apply/eqP; rewrite mulf_neq0 //; exact: two_ne0.
rewrite /newmark_u /newmark_v; split; apply/matrixP => i j; rewrite !mxE; ffold F; field; repeat split; first [exact: h2|exact: h4].
Qed.

Lemma energy_balance (dt t0 t1 : F) (u0 v0 a0 u1 v1 a1 : V) :
  Rt t0 u0 v0 a0 = 0 -> Rt t1 u1 v1 a1 = 0 ->
  u1 - u0 = (dt / 2%:R) *: (v0 + v1) -> v1 - v0 = (dt / 2%:R) *: (a0 + a1) ->
  energy M K (u1, v1, a1) - energy M K (u0, v0, a0)
    = dt / 4%:R * (dot (v0 + v1) (f t0 + f t1) - quad C (v0 + v1) (v0 + v1)).
Proof.
rewrite /Rt /linear_motion => E0 E1 Hu Hv.
set w := v0 + v1 in Hu *.
have D : quad M w (v1 - v0) + quad K w (u1 - u0) * 0 + quad K (u0 + u1) (u1 - u0)
  = (quad M v1 v1 + quad K u1 u1) - (quad M v0 v0 + quad K u0 u0).
  rewrite /w !(quadDl, quadDr, quadNr) (quad_sym v0 v1 symM) (quad_sym u0 u1 symK); ffold F; ring.
have D2 : quad M w (v1 - v0) + quad K (u0 + u1) (u1 - u0)
  = dt / 2%:R * (dot w (f t0 + f t1) - quad C w w).
  rewrite Hu Hv !quadZr -mulrDr; congr (_ * _).
  rewrite (quad_sym _ _ symK) !quad_dot.
  have -> : f t0 + f t1 = M *m (a0 + a1) + C *m w + K *m (u0 + u1).
    move/eqP: E0; rewrite subr_eq0 => /eqP <-; move/eqP: E1; rewrite subr_eq0 => /eqP <-.
    rewrite /w !mulmxDr; move: (M *m a0) (M *m a1) (C *m v0) (C *m v1) (K *m u0) (K *m u1) => x1 x2 x3 x4 x5 x6.
    by apply/matrixP => i j; rewrite !mxE; ffold F; ring.
  rewrite /dot !quadDr; ffold F; ring.
have h2 : (1 + 1 : F) <> 0 by apply/eqP; exact: two_ne0.
have h4 : ((1 + 1) * (1 + 1) : F) <> 0 by apply/eqP; rewrite mulf_neq0 //; exact: two_ne0.
rewrite /energy -mulrBl -D mulr0 addr0 D2; ffold F; field; repeat split; first [exact: h2|exact: h4].
Qed.

(** With the default Newmark parameters (the trapezoidal rule), the energy
    changes by the work of the loads minus the dissipation of the damping. *)
Theorem C62_newmark_energy_balance (Jact : F -> Jac0) nls t0 dt u0 v0 a0 :
  solves nls (newmark_fun (Rt (t0 + dt)) (2%:R^-1) (4%:R^-1) dt (u0, v0, a0))
             (newmark_grad (Jact (t0 + dt)) (2%:R^-1) (4%:R^-1) dt (u0, v0, a0)) ->
  in_motion (Rt t0) (u0, v0, a0) ->
  let s1 := newmark_step_t Rt Jact nls (2%:R^-1) (4%:R^-1) (t0 + dt) dt (u0, v0, a0) in
  let w := v0 + s1.1.2 in
  energy M K s1 - energy M K (u0, v0, a0) = dt / 4%:R * (dot w (f t0 + f (t0 + dt)) - quad C w w).
Proof.
move=> H H0.
have := C61_newmark H.
rewrite /newmark_step_t /newmark_step /=.
set a1 := nls _ _ _ => H1.
have [Hu Hv] := newmark_trapezoid dt u0 v0 a0 a1.
exact: (energy_balance H0 H1 Hu Hv).
Qed.

(** The same for a run of steps of any sizes. *)
Fixpoint newmark_run (Jact : F -> Jac0) nls (t : F) (s : state F n) (dts : seq F) : F * state F n :=
  if dts is dt :: dts' then
    newmark_run Jact nls (t + dt) (newmark_step_t Rt Jact nls (2%:R^-1) (4%:R^-1) (t + dt) dt s) dts'
  else (t, s).
Theorem C62_newmark_energy_conserved (Jact : F -> Jac0) nls t0 s0 dts :
  (forall t dt s, dt \in dts -> solves nls (newmark_fun (Rt t) (2%:R^-1) (4%:R^-1) dt s)
                                      (newmark_grad (Jact t) (2%:R^-1) (4%:R^-1) dt s)) ->
  in_motion (Rt t0) s0 -> C = 0 -> (forall t, f t = 0) ->
  energy M K (newmark_run Jact nls t0 s0 dts).2 = energy M K s0.
Proof.
elim: dts t0 s0 => [|dt dts IH] t0 [[u0 v0] a0] //= H H0 HC Hf.
rewrite IH //; [|by move=> t d s Hd; apply: H; rewrite inE Hd orbT|by apply: C61_newmark; apply: H; rewrite mem_head].
apply/eqP; rewrite -subr_eq0.
have := C62_newmark_energy_balance (H _ dt _ (mem_head _ _)) H0 => /= ->.
by rewrite !Hf HC addr0 /dot /quad !(mulmx0, mul0mx) !mxE subr0 mulr0.
Qed.
Theorem C62_newmark_energy_nonincreasing (Jact : F -> Jac0) nls t0 s0 dts :
  (forall t dt s, dt \in dts -> solves nls (newmark_fun (Rt t) (2%:R^-1) (4%:R^-1) dt s)
                                      (newmark_grad (Jact t) (2%:R^-1) (4%:R^-1) dt s)) ->
  in_motion (Rt t0) s0 -> (forall w, 0 <= quad C w w) -> (forall t, f t = 0) ->
  all (fun dt => 0 <= dt) dts ->
  energy M K (newmark_run Jact nls t0 s0 dts).2 <= energy M K s0.
Proof.
elim: dts t0 s0 => [|dt dts IH] t0 [[u0 v0] a0] //= H H0 HC Hf /andP[Hdt Hdts].
apply: (Order.POrderTheory.le_trans (IH _ _ _ _ HC Hf Hdts)); [by move=> t d s Hd; apply: H; rewrite inE Hd orbT|by apply: C61_newmark; apply: H; rewrite mem_head|].
rewrite -subr_le0.
have := C62_newmark_energy_balance (H _ dt _ (mem_head _ _)) H0 => /= ->.
rewrite !Hf addr0 dot0 sub0r mulrN oppr_le0.
by rewrite mulr_ge0 // divr_ge0 // ler0n.
Qed.

(** The first sub-step of the Bathe method and the generalized alpha method with
    rho_inf = 1 (alpha_m = alpha_f = 1/2): *)
Theorem C62_bathe_first_substep (Jac : Jac0) nls t dt u0 v0 a0 :
  solves nls (bathe_fun1 (Rt t) dt (u0, v0, a0)) (bathe_grad1 Jac dt (u0, v0, a0)) -> (forall t, f t = 0) -> dt != 0 -> in_motion (Rt t) (u0, v0, a0) ->
  let u1 := bathe_step1 (Rt t) Jac nls dt (u0, v0, a0) in
  let v1 := bathe_v1 dt (u0, v0, a0) u1 in
  let a1 := bathe_a1 dt (u0, v0, a0) v1 in
  energy M K (u1, v1, a1) - energy M K (u0, v0, a0) = - (dt / 8%:R * quad C (v0 + v1) (v0 + v1)).
Proof.
move=> H Hf /eqP Hdt H0 u1 v1 a1.
have H1 : Rt t u1 v1 a1 = 0 by exact: H.
have h2 : (1 + 1 : F) <> 0 by apply/eqP; exact: two_ne0.
have h4 : ((1 + 1) * (1 + 1) : F) <> 0 by apply/eqP; rewrite mulf_neq0 //; exact: two_ne0.
have h8 : ((1 + 1) * ((1 + 1) * (1 + 1)) : F) <> 0 by apply/eqP; rewrite !mulf_neq0 //; exact: two_ne0.
have Hu : u1 - u0 = (dt / 2%:R / 2%:R) *: (v0 + v1).
  by rewrite /v1 /bathe_v1; apply/matrixP => i j; rewrite !mxE; ffold F; field; repeat split; first [exact: h2|exact: h4|by []].
have Hv : v1 - v0 = (dt / 2%:R / 2%:R) *: (a0 + a1).
  by rewrite /a1 /bathe_a1; clearbody v1; apply/matrixP => i j; rewrite !mxE; ffold F; field; repeat split; first [exact: h2|exact: h4|by []].
rewrite (energy_balance H0 H1 Hu Hv) !Hf addr0 dot0; move: (quad C _ _) => q.
ffold F; field; repeat split; first [exact: h2|exact: h4|exact: h8].
Qed.
End Energy.

(** ** Unconditional stability with symmetric positive definite M and positive
    semidefinite C, K, and the Newton method: no further hypotheses. *)
Section Spd.
Variables (F : realFieldType) (n : nat).
Notation V := 'cV[F]_n.
Notation Mx := 'M[F]_n.
Add Field Ff4 : (F_field_theory F).
Lemma posdef_unit (A : Mx) : (forall x : V, x != 0 -> 0 < quad A x x) -> A \in unitmx.
Proof.
move=> H; rewrite -unitmx_tr -row_free_unit -kermx_eq0; apply/eqP/row_matrixP => i; rewrite row0.
set x := row i _.
have Hx : x *m A^T = 0 by apply/sub_kermxP; exact: row_sub.
apply/eqP; rewrite -[_ == 0]negbK; apply/negP => nz.
have := H x^T; rewrite -(inj_eq trmx_inj) trmxK trmx0 => /(_ nz).
have E : A *m x^T = 0 by rewrite -[LHS]trmxK trmx_mul trmxK Hx trmx0.
by rewrite /quad -mulmxA E mulmx0 mxE Order.POrderTheory.ltxx.
Qed.

Theorem C62_newmark_stable (M C K : Mx) t0 s0 dts :
  M^T = M -> K^T = K -> (forall x : V, x != 0 -> 0 < quad M x x) ->
  (forall x, 0 <= quad C x x) -> (forall x, 0 <= quad K x x) ->
  let R := linear_motion M C K (fun _ => 0) in
  let Jac := fun _ _ _ _ => (M, C, K) in
  in_motion (R t0) s0 -> all (fun dt => 0 <= dt) dts ->
  let s1 := (newmark_run M C K (fun _ => 0) Jac (@newton1 F n) t0 s0 dts).2 in
  energy M K s1 <= energy M K s0 /\ (C = 0 -> energy M K s1 = energy M K s0).
Proof.
move=> sM sK HM HC HK R Jac H0 Hd s1.
have Hs t dt s : dt \in dts -> solves (@newton1 F n) (newmark_fun (R t) (2%:R^-1) (4%:R^-1) dt s)
   (newmark_grad (Jac t) (2%:R^-1) (4%:R^-1) dt s).
  move=> Hdt; apply: newton1_solves.
    pose Dir (f : F -> V) l := f 1 = f 0 + l.
    have Dir_ext f f' l : f =1 f' -> Dir f l -> Dir f' l by move=> E; rewrite /Dir !E.
    move=> x d; have := @C64_newmark F n (two_ne0 F) Dir Dir_ext (R t) (Jac t) _ (2%:R^-1) (4%:R^-1) dt s x d.
    rewrite /Dir scale1r scale0r addr0; apply.
    move=> u v a du dv da; rewrite /Jac /Dir /R /linear_motion !scale1r !scale0r !addr0 !mulmxDr !subr0.
    move: (M *m a) (M *m da) (C *m v) (C *m dv) (K *m u) (K *m du) => x1 x2 x3 x4 x5 x6.
    by apply/matrixP => i j; rewrite !mxE; ffold F; ring.
  move=> x; apply: posdef_unit => y Hy; rewrite /newmark_grad /=.
  have dt0 : 0 <= dt by exact: (allP Hd).
  have -> : quad (M + (2%:R^-1 * dt) *: C + (4%:R^-1 * dt ^+ 2) *: K) y y
     = quad M y y + (2%:R^-1 * dt) * quad C y y + (4%:R^-1 * dt ^+ 2) * quad K y y.
    have Dm (A B : Mx) : quad (A + B) y y = quad A y y + quad B y y.
      by rewrite /quad mulmxDr mulmxDl mxE.
    have Zm c (A : Mx) : quad (c *: A) y y = c * quad A y y.
      by rewrite /quad -scalemxAr -scalemxAl mxE.
    by rewrite !Dm !Zm.
  apply: ltr_paddr; first by rewrite mulr_ge0 // mulr_ge0 ?exprn_ge0 // invr_ge0 ler0n.
  by apply: ltr_paddr; [rewrite mulr_ge0 // mulr_ge0 // invr_ge0 ler0n|exact: HM].
by split=> [|C0]; [apply: C62_newmark_energy_nonincreasing|apply: C62_newmark_energy_conserved].
Qed.
End Spd.

(** ** C63: the default parameters of the generalized alpha method *)
Section Alpha.
Variables (F : realFieldType) (n : nat).
Add Field Ff3 : (F_field_theory F).
Theorem C63_alpha_defaults (rho : F) : 0 <= rho <= 1 ->
  let '(am, af, gamma, beta) := alpha_pars rho None None None None in
  [/\ am <= af, af <= 2%:R^-1, 4%:R^-1 + (af - am) / 2%:R <= beta, gamma = 2%:R^-1 - am + af & am != 1].
Proof.
case/andP=> r0 r1; rewrite /alpha_pars /=.
have p1 : 0 < rho + 1 by apply: ltr_paddl => //; exact: ltr01.
have n1 : rho + 1 <> 0 by apply/eqP; rewrite Order.POrderTheory.gt_eqF.
have h2 : (1 + 1 : F) <> 0 by apply/eqP; exact: two_ne0.
have h4 : ((1 + 1) * (1 + 1) : F) <> 0 by apply/eqP; rewrite mulf_neq0 //; exact: two_ne0.
set am := _ / _; set af := rho / _.
have D : af - am = (1 - rho) / (rho + 1).
  by rewrite /af /am; ffold F; field; repeat split; first [exact: h2|exact: h4|by []].
have d0 : 0 <= af - am by rewrite D divr_ge0 ?subr_ge0 // Order.POrderTheory.ltW.
split=> //.
- by rewrite -subr_ge0.
- rewrite -subr_ge0 (_ : _ - af = (1 - rho) / (rho + 1) / 2%:R).
    by rewrite divr_ge0 ?ler0n // -D.
  by rewrite /af; ffold F; field; repeat split; first [exact: h2|exact: h4|by []].
- rewrite -subr_ge0 (_ : _ - (4%:R^-1 + _) = ((af - am) / 2%:R) ^+ 2) ?sqr_ge0 //.
  by ffold F; field; repeat split; first [exact: h2|exact: h4|by []].
- apply/eqP => E.
  have : am <= 2%:R^-1.
    have := d0; rewrite subr_ge0 => H; apply: (Order.POrderTheory.le_trans H).
    rewrite -subr_ge0 (_ : _ - af = (1 - rho) / (rho + 1) / 2%:R).
      by rewrite divr_ge0 ?ler0n // -D.
    by rewrite /af; ffold F; field; repeat split; first [exact: h2|exact: h4|by []].
  by rewrite E Order.TotalTheory.leNgt invf_lt1 ?ltr0n // ltr1n.
Qed.

Lemma high_frequency_limit (rho am af gamma beta : F) (K : 'M[F]_n) Jac nls dt s0 :
  0 <= rho <= 1 -> dt != 0 -> K \in unitmx ->
  am = (2%:R * rho - 1) / (rho + 1) -> af = rho / (rho + 1) -> beta = 4%:R^-1 * (1 - am + af) ^+ 2 ->
  gamma = 2%:R^-1 - am + af ->
  let R := fun u v a : 'cV[F]_n => K *m u in
  (forall s, solves nls (alpha_fun R am af gamma beta dt s) (alpha_grad Jac am af gamma beta dt s)) ->
  let stp := alpha_step R Jac nls am af gamma beta dt in
  let s1 := stp s0 in let s2 := stp s1 in let s3 := stp s2 in
  let rec x0 x1 x2 x3 := x3 + (3%:R * rho) *: x2 + (3%:R * rho ^+ 2) *: x1 + rho ^+ 3 *: x0 = 0 in
  [/\ rec s0.1.1 s1.1.1 s2.1.1 s3.1.1, rec s0.1.2 s1.1.2 s2.1.2 s3.1.2 & rec s0.2 s1.2 s2.2 s3.2].
Proof.
case/andP=> r0 r1 /eqP Hdt HK Dam Daf Dbe Dga R Hs.
have p1 : 0 < rho + 1 by apply: ltr_paddl => //; exact: ltr01.
have n1 : rho + 1 <> 0 by apply/eqP; rewrite Order.POrderTheory.gt_eqF.
have h2 : (1 + 1 : F) <> 0 by apply/eqP; exact: two_ne0.
have h4 : ((1 + 1) * (1 + 1) : F) <> 0 by apply/eqP; rewrite mulf_neq0 //; exact: two_ne0.
have Eb : beta = (rho + 1) ^- 2.
  rewrite Dbe Dam Daf; ffold F; field; repeat split; first [exact: h2|exact: h4|by []].
have Eg : gamma = 2%:R^-1 + (1 - rho) / (rho + 1).
  rewrite Dga Dam Daf; ffold F; field; repeat split; first [exact: h2|exact: h4|by []].
have key s : alpha_step R Jac nls am af gamma beta dt s =
   let '(u0, v0, a0) := s in
   let a1 := ((rho + 1) ^+ 2 / dt ^+ 2) *: (- (rho + 1) *: u0 - dt *: v0 - (dt ^+ 2 * (2%:R^-1 - beta)) *: a0) in
   (- rho *: u0, v0 + dt *: ((1 - gamma) *: a0 + gamma *: a1), a1).
  rewrite /alpha_step; set x := nls _ _ _.
  have Hx := Hs s s.2; rewrite -/x /alpha_fun /R in Hx.
  have Hu : alpha_um af beta dt s x = 0 by rewrite -[LHS](mulKmx HK) Hx mulmx0.
  case: s x Hu {Hx} => [[u0 v0] a0] x Hu.
  have E1 : alpha_u1 beta dt (u0, v0, a0) x = - rho *: u0.
    have : (rho + 1) *: alpha_um af beta dt (u0, v0, a0) x = 0 by rewrite Hu scaler0.
    rewrite /alpha_um scalerDr !scalerA.
    rewrite (_ : (rho + 1) * (1 - af) = 1); last by rewrite Daf; ffold F; field; by [].
    rewrite (_ : (rho + 1) * af = rho); last by rewrite Daf; ffold F; field; by [].
    by rewrite scale1r scaleNr => /eqP; rewrite addr_eq0 => /eqP.
  have E2 : x = ((rho + 1) ^+ 2 / dt ^+ 2) *: (- (rho + 1) *: u0 - dt *: v0 - (dt ^+ 2 * (2%:R^-1 - beta)) *: a0).
    rewrite (_ : - (rho + 1) *: u0 = alpha_u1 beta dt (u0, v0, a0) x - u0); last by rewrite E1 opprD scalerDl scaleN1r.
    rewrite /alpha_u1 Eb.
    by apply/matrixP => i j; rewrite !mxE; ffold F; field; repeat split; first [exact: h2|exact: h4|by []].
  by rewrite E1 /alpha_v1 -E2.
move=> stp s1 s2 s3 rec; rewrite /rec /s3 /s2 /s1 /stp !key; case: s0 {stp s1 s2 s3 rec} => [[u0 v0] a0] /=; rewrite Eg Eb.
split; apply/matrixP => i j; rewrite !mxE; ffold F; field; repeat split; first [exact: h2|exact: h4|by []].
Qed.
(** rho_inf is the spectral radius in the high frequency limit: when the inertia
    and the damping vanish against the stiffness, all the components of the
    states of consecutive steps satisfy a recurrence whose only characteristic
    root is - rho_inf. *)
Theorem C63_high_frequency_limit (rho : F) (K : 'M[F]_n) Jac nls dt s0 :
  0 <= rho <= 1 -> dt != 0 -> K \in unitmx ->
  let '(am, af, gamma, beta) := alpha_pars rho None None None None in
  let R := fun u v a : 'cV[F]_n => K *m u in
  (forall s, solves nls (alpha_fun R am af gamma beta dt s) (alpha_grad Jac am af gamma beta dt s)) ->
  let stp := alpha_step R Jac nls am af gamma beta dt in
  let s1 := stp s0 in let s2 := stp s1 in let s3 := stp s2 in
  let rec x0 x1 x2 x3 := x3 + (3%:R * rho) *: x2 + (3%:R * rho ^+ 2) *: x1 + rho ^+ 3 *: x0 = 0 in
  [/\ rec s0.1.1 s1.1.1 s2.1.1 s3.1.1, rec s0.1.2 s1.1.2 s2.1.2 s3.1.2 & rec s0.2 s1.2 s2.2 s3.2].
Proof. by move=> H1 H2 H3 /= Hs; apply: (high_frequency_limit (am := _) _ H1 H2 H3 erefl erefl erefl erefl). Qed.
End Alpha.

(** ** Counterexamples: one DOF over the rationals *)
Section Counter.
Notation rq := rat_realFieldType.
Add Field Ffq : (F_field_theory rq).
Ltac rr := apply/matrixP => i j; rewrite !mxE; ffold rq; ring.
Let one : 'cV[rq]_1 := const_mx 1.
Lemma scale_one_eq0 (c : rq) : (c *: one == 0) = (c == 0).
Proof.
rewrite scaler_eq0 orbC; case: eqP => // /matrixP/(_ 0 0); by rewrite !mxE.
Qed.
(** a damped free body: a + v = 0 *)
Let Rd : rq -> 'cV[rq]_1 -> 'cV[rq]_1 -> 'cV[rq]_1 -> 'cV[rq]_1 := linear_motion 1%:M 1%:M 0 (fun _ => 0).
Let Jd : rq -> 'cV[rq]_1 -> 'cV[rq]_1 -> 'cV[rq]_1 -> 'M[rq]_1 * 'M[rq]_1 * 'M[rq]_1 :=
  fun _ _ _ _ => (1%:M, 1%:M, 0).

(** Velocity-Verlet with damping: the computed state violates the equations of
    motion, so that it also differs from that of the central difference method,
    contrary to the documentation. *)
Theorem C61_verlet_refuted : exists s0 : state rq 1,
  in_motion (Rd 0) s0 /\
  solves (@newton1 rq 1) (verlet_fun (Rd 1) 1 s0) (verlet_grad (Jd 1) 1 s0) /\
  ~ in_motion (Rd 1) (verlet_step_t Rd Jd (@newton1 rq 1) 1 1 s0).
Proof.
exists (0, one, - one); split; [|split].
- by rewrite /Rd /linear_motion /= !mul1mx mulmx0 !subr0 addr0 addNr.
- apply: newton1_solves => [x d|x]; last by rewrite /verlet_grad unitmx1.
  rewrite /verlet_fun /verlet_grad /= /Rd /linear_motion !mul1mx !mul0mx !subr0 !addr0; rr.
- rewrite /verlet_step_t /verlet_step /=.
  set vm := one + _; rewrite /newton1 invmx1 !mul1mx /Rd /linear_motion !mul1mx !mul0mx !subr0 !addr0.
  rewrite /verlet_fun /verlet_v [verlet_vm _ _]/= -/vm !mul1mx !mul0mx !subr0 !addr0.
  have -> : - one - (- one + vm) = - vm by rewrite opprD opprK addrA addNr add0r.
  have -> : vm = (2%:R^-1 : rq) *: one.
    by apply/matrixP => i j; rewrite !mxE.
  have -> : - ((2%:R^-1 : rq) *: one) + ((2%:R^-1 : rq) *: one + (2%:R^-1 * 1 : rq) *: - ((2%:R^-1 : rq) *: one)) = (- 4%:R^-1 : rq) *: one.
    by apply/matrixP => i j; rewrite !mxE.
  by move/eqP; rewrite scale_one_eq0.
Qed.
Theorem C60_verlet_refuted : exists s0 : state rq 1, in_motion (Rd 0) s0 /\
  verlet_step_t Rd Jd (@newton1 rq 1) 1 1 s0 <> cd_step_t Rd Jd (@newton1 rq 1) 1 1 s0.
Proof.
have [s0 [H0 [_ H]]] := C61_verlet_refuted; exists s0; split=> // E; apply: H; rewrite E.
apply: C61_central_difference; apply: newton1_solves => [x d|x].
- rewrite /cd_fun /cd_grad /= /Rd /linear_motion /cd_v; case: s0 H0 E => [[u v] a] _ _.
  rewrite !mul1mx !mul0mx !addr0 !subr0 mulmxDl -scalemxAl !mul1mx.
  rr.
- rewrite /cd_grad /= -[X in X + _]scale1r -scalerDl unitmxZ ?unitmx1 //.
Qed.

(** Bathe with a load depending on time, a = t: the acceleration computed for
    the time 1 (with dt = 1) is the load at the time 3/2. *)
Let Rb : rq -> 'cV[rq]_1 -> 'cV[rq]_1 -> 'cV[rq]_1 -> 'cV[rq]_1 :=
  linear_motion 1%:M 0 0 (fun t => t *: one).
Let Jb : rq -> 'cV[rq]_1 -> 'cV[rq]_1 -> 'cV[rq]_1 -> 'M[rq]_1 * 'M[rq]_1 * 'M[rq]_1 :=
  fun _ _ _ _ => (1%:M, 0, 0).
Theorem C61_bathe_refuted : exists s0 : state rq 1, in_motion (Rb 0) s0 /\
  ~ in_motion (Rb 1) (bathe_step_t Rb Jb (@newton1 rq 1) 1 1 s0).
Proof.
exists (0, 0, 0); split.
  by rewrite /Rb /linear_motion /= !mulmx0 scale0r !addr0 subr0.
have := @C61_bathe_partial rq 1 Rb Jb (@newton1 rq 1) 1 1 0 0 0.
case: (bathe_step_t _ _ _ _ _ _) => [[u v] a] H.
have /H {H} : solves (@newton1 rq 1)
  (bathe_fun2 (Rb (1 + 2%:R^-1 * 1)) 1 0 (bathe_step1 (Rb 1) (Jb 1) (newton1 (n:=1)) 1 (0, 0, 0)) 0
     (bathe_v1 1 (0, 0, 0) (bathe_step1 (Rb 1) (Jb 1) (newton1 (n:=1)) 1 (0, 0, 0))))
  (bathe_grad2 (Jb (1 + 2%:R^-1 * 1)) 1 0 (bathe_step1 (Rb 1) (Jb 1) (newton1 (n:=1)) 1 (0, 0, 0)) 0
     (bathe_v1 1 (0, 0, 0) (bathe_step1 (Rb 1) (Jb 1) (newton1 (n:=1)) 1 (0, 0, 0)))).
  apply: newton1_solves => [x d|x].
    pose Dir (f : rq -> 'cV[rq]_1) l := f 1 = f 0 + l.
    have Dir_ext f f' l : f =1 f' -> Dir f l -> Dir f' l by move=> E; rewrite /Dir !E.
    set R := Rb _; set J := Jb _.
    have Jok u' v' a' du dv da : let '(M, C, K) := J u' v' a' in
      Dir (fun t => R (u' + t *: du) (v' + t *: dv) (a' + t *: da)) (K *m du + C *m dv + M *m da).
      rewrite /J /R /Jb /Rb /Dir /linear_motion !mul0mx !addr0 !add0r !mul1mx !scale1r !scale0r !addr0.
      by rewrite addrAC.
    have := @C64_bathe2 rq 1 Dir Dir_ext R J Jok 1 0 (bathe_step1 (Rb 1) (Jb 1) (newton1 (n:=1)) 1 (0, 0, 0)) 0
     (bathe_v1 1 (0, 0, 0) (bathe_step1 (Rb 1) (Jb 1) (newton1 (n:=1)) 1 (0, 0, 0))) x d.
    by rewrite /Dir scale1r scale0r addr0; apply.
  by rewrite /bathe_grad2 /Jb !scaler0 !addr0 unitmxZ ?unitmx1.
rewrite /in_motion /Rb /linear_motion !mul0mx !addr0 mul1mx => /eqP.
rewrite subr_eq0 => /eqP -> /eqP; rewrite -scalerBl scale_one_eq0.
by [].
Qed.

(** The hypotheses of C62 are met: the identity matrices. *)
Lemma quad1_pos n (x : 'cV[rq]_n) : x != 0 -> 0 < quad 1%:M x x.
Proof.
move=> nz; rewrite /quad mulmx1 mxE.
have [i Hi] : exists i, x i 0 != 0.
  apply/existsP; apply: contraR nz; rewrite negb_exists => /forallP H.
  by apply/eqP/matrixP => i j; rewrite ord1 mxE; apply/eqP; have := H i; rewrite negbK.
rewrite (bigD1 i) //= mxE; apply: ltr_paddr.
  by apply: sumr_ge0 => k _; rewrite mxE -expr2 sqr_ge0.
by rewrite -expr2 exprn_even_gt0.
Qed.
Lemma quad1_ge0 n (x : 'cV[rq]_n) : 0 <= quad 1%:M x x.
Proof. by rewrite /quad mulmx1 mxE; apply: sumr_ge0 => k _; rewrite mxE -expr2 sqr_ge0. Qed.
Example C62_ex (n : nat) (u v : 'cV[rq]_n) dts : all (fun dt => 0 <= dt) dts ->
  energy 1%:M 1%:M (newmark_run 1%:M 1%:M 1%:M (fun _ => 0) (fun _ _ _ _ => (1%:M, 1%:M, 1%:M)) (@newton1 rq n) 0
     (u, v, - v - u) dts).2 <= energy 1%:M 1%:M (u, v, - v - u).
Proof.
move=> H; apply: (proj1 (C62_newmark_stable _ _ _ _ _ _ H)); rewrite ?trmx1 //.
- exact: quad1_pos.
- exact: quad1_ge0.
- exact: quad1_ge0.
- by rewrite /linear_motion /= !mul1mx subr0; rr.
Qed.
End Counter.

Print Assumptions C60_central_difference_is_newmark.
Print Assumptions C60_generalized_alpha_is_newmark.
Print Assumptions C60_verlet_refuted.
Print Assumptions C61_bathe_refuted.
Print Assumptions C62_newmark_stable.
Print Assumptions C63_alpha_defaults.
Print Assumptions C63_high_frequency_limit.
Print Assumptions C64_newmark_extra.
Print Assumptions C65_newton.
