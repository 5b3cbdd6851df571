(** Model: one step of the elastodynamics time stepping solvers
    (sfepy/solvers/ts_solvers.py l.761-1330).  DOF vectors are columns over any
    field with exact arithmetic.  [R u v a] is the sum of the three parts of the
    residual [nls.fun(r_[u, v, a])], as summed in all the solvers; [Jac u v a]
    are the matrices (M, C, K) of get_matrices().  [nls fun fun_grad x0] is the
    nonlinear solver: an arbitrary function of the residual, the tangent matrix
    and the initial guess.  The matrix cache is not modelled here (see M_tsloop), nor
    the essential boundary conditions, which the residuals hide. *)
From mathcomp Require Import all_ssreflect all_algebra.
Set Implicit Arguments. Unset Strict Implicit. Unset Printing Implicit Defensive.
Import GRing.Theory.
Local Open Scope ring_scope.

Section Schemes.
Variables (F : fieldType) (n : nat).
Notation V := 'cV[F]_n.
Notation Mx := 'M[F]_n.
Variable R : V -> V -> V -> V.
Variable Jac : V -> V -> V -> Mx * Mx * Mx.
Variable nls : (V -> V) -> (V -> Mx) -> V -> V.
Let half : F := 2%:R^-1.

(** The state: (u, v, a). *)
Definition state := (V * V * V)%type.

(** l.783-828, VelocityVerletTS *)
Definition verlet_vm (dt : F) (s : state) : V := let '(u0, v0, a0) := s in v0 + (half * dt) *: a0.
Definition verlet_u (dt : F) (s : state) : V := let '(u0, v0, a0) := s in u0 + dt *: verlet_vm dt s.
Definition verlet_v (dt : F) (s : state) (a : V) : V := verlet_vm dt s + (half * dt) *: a.
Definition verlet_fun dt s (at_ : V) : V := R (verlet_u dt s) (verlet_vm dt s) at_.
Definition verlet_grad dt s (at_ : V) : Mx :=
  let '(M, C, K) := Jac (verlet_u dt s) (verlet_vm dt s) at_ in M.
Definition verlet_step (dt : F) (s : state) : state :=
  let a := nls (verlet_fun dt s) (verlet_grad dt s) s.2 in
  (verlet_u dt s, verlet_v dt s a, a).

(** l.848-933, CentralDifferenceTS (without RMMSolver) *)
Definition cd_v (dt : F) (s : state) (a : V) : V := let '(u0, v0, a0) := s in v0 + (dt * half) *: (a0 + a).
Definition cd_u (dt : F) (s : state) : V := let '(u0, v0, a0) := s in u0 + dt *: v0 + (dt ^+ 2 * half) *: a0.
Definition cd_fun dt s (at_ : V) : V := R (cd_u dt s) (cd_v dt s at_) at_.
Definition cd_grad dt s (at_ : V) : Mx :=
  let '(M, C, K) := Jac (cd_u dt s) (cd_v dt s at_) at_ in M + (half * dt) *: C.
Definition cd_step (dt : F) (s : state) : state :=
  let a := nls (cd_fun dt s) (cd_grad dt s) s.2 in (cd_u dt s, cd_v dt s a, a).

(** l.967-1056, NewmarkTS without extra variables *)
Definition newmark_v (gamma dt : F) (s : state) (a : V) : V :=
  let '(u0, v0, a0) := s in v0 + ((1 - gamma) * dt) *: a0 + (gamma * dt) *: a.
Definition newmark_u (beta dt : F) (s : state) (a : V) : V :=
  let '(u0, v0, a0) := s in u0 + dt *: v0 + ((half - beta) * dt ^+ 2) *: a0 + (beta * dt ^+ 2) *: a.
Definition newmark_fun gamma beta dt s (at_ : V) : V := R (newmark_u beta dt s at_) (newmark_v gamma dt s at_) at_.
Definition newmark_grad gamma beta dt s (at_ : V) : Mx :=
  let '(M, C, K) := Jac (newmark_u beta dt s at_) (newmark_v gamma dt s at_) at_ in
  M + (gamma * dt) *: C + (beta * dt ^+ 2) *: K.
Definition newmark_step (gamma beta dt : F) (s : state) : state :=
  let a := nls (newmark_fun gamma beta dt s) (newmark_grad gamma beta dt s) s.2 in
  (newmark_u beta dt s a, newmark_v gamma dt s a, a).

(** l.1122-1215, GeneralizedAlphaTS *)
Definition alpha_u1 (beta dt : F) (s : state) (a : V) : V :=
  let '(u0, v0, a0) := s in u0 + dt *: v0 + dt ^+ 2 *: ((half - beta) *: a0 + beta *: a).
Definition alpha_v1 (gamma dt : F) (s : state) (a : V) : V :=
  let '(u0, v0, a0) := s in v0 + dt *: ((1 - gamma) *: a0 + gamma *: a).
Definition alpha_um (af beta dt : F) (s : state) (a : V) : V :=
  let '(u0, v0, a0) := s in (1 - af) *: alpha_u1 beta dt s a + af *: u0.
Definition alpha_vm (af gamma dt : F) (s : state) (a : V) : V :=
  let '(u0, v0, a0) := s in (1 - af) *: alpha_v1 gamma dt s a + af *: v0.
Definition alpha_am (am : F) (s : state) (a : V) : V :=
  let '(u0, v0, a0) := s in (1 - am) *: a + am *: a0.
Definition alpha_fun am af gamma beta dt s (at_ : V) : V :=
  R (alpha_um af beta dt s at_) (alpha_vm af gamma dt s at_) (alpha_am am s at_).
Definition alpha_grad am af gamma beta dt s (at_ : V) : Mx :=
  let '(M, C, K) := Jac (alpha_um af beta dt s at_) (alpha_vm af gamma dt s at_) (alpha_am am s at_) in
  (1 - am) *: M + ((1 - af) * gamma * dt) *: C + ((1 - af) * beta * dt ^+ 2) *: K.
Definition alpha_step (am af gamma beta dt : F) (s : state) : state :=
  let a := nls (alpha_fun am af gamma beta dt s) (alpha_grad am af gamma beta dt s) s.2 in
  (alpha_u1 beta dt s a, alpha_v1 gamma dt s a, a).

(** l.1240-1330, BatheTS; prestep_fun between the sub-steps does not change the
    vector. *)
Definition bathe_v1 (dt : F) (s : state) (u : V) : V := let '(u0, v0, a0) := s in (4%:R / dt) *: (u - u0) - v0.
Definition bathe_a1 (dt : F) (s : state) (v : V) : V := let '(u0, v0, a0) := s in (4%:R / dt) *: (v - v0) - a0.
Definition bathe_fun1 dt s (ut : V) : V := R ut (bathe_v1 dt s ut) (bathe_a1 dt s (bathe_v1 dt s ut)).
Definition bathe_grad1 dt s (ut : V) : Mx :=
  let '(M, C, K) := Jac ut (bathe_v1 dt s ut) (bathe_a1 dt s (bathe_v1 dt s ut)) in
  (4%:R / dt * (4%:R / dt)) *: M + (4%:R / dt) *: C + K.
(** The second sub-step: [x0], [x1] are the values in the previous step and
    after the first sub-step. *)
Definition bathe_d2 (dt : F) (x0 x1 x : V) : V :=
  let dt1 := 1 / dt in dt1 *: x0 - (4%:R * dt1) *: x1 + (3%:R * dt1) *: x.
Definition bathe_fun2 dt (u0 u1 v0 v1 : V) (ut : V) : V :=
  let vt := bathe_d2 dt u0 u1 ut in R ut vt (bathe_d2 dt v0 v1 vt).
Definition bathe_grad2 dt (u0 u1 v0 v1 : V) (ut : V) : Mx :=
  let vt := bathe_d2 dt u0 u1 ut in
  let '(M, C, K) := Jac ut vt (bathe_d2 dt v0 v1 vt) in
  (3%:R * (1 / dt) * (3%:R * (1 / dt))) *: M + (3%:R * (1 / dt)) *: C + K.
Definition bathe_step1 (dt : F) (s : state) : V := nls (bathe_fun1 dt s) (bathe_grad1 dt s) s.1.1.
Definition bathe_step2 (dt : F) (s : state) (u1 : V) : state :=
  let '(u0, v0, a0) := s in
  let v1 := bathe_v1 dt s u1 in
  let u2 := nls (bathe_fun2 dt u0 u1 v0 v1) (bathe_grad2 dt u0 u1 v0 v1) u1 in
  let v2 := bathe_d2 dt u0 u1 u2 in
  (u2, v2, bathe_d2 dt v0 v1 v2).
(** l.1308-1330 with residuals that do not depend on time *)
Definition bathe_step (dt : F) (s : state) : state := bathe_step2 dt s (bathe_step1 dt s).

End Schemes.

(** The steps with time-dependent residuals: [t] is ts.time = t_{n+1}, set
    before step() is called by ts.advance() or set_time_step().  Loads and
    materials are evaluated at ts.time. *)
Section Timed.
Variables (F : fieldType) (n : nat).
Notation V := 'cV[F]_n.
Variable Rt : F -> V -> V -> V -> V.
Variable Jact : F -> V -> V -> V -> 'M[F]_n * 'M[F]_n * 'M[F]_n.
Variable nls : (V -> V) -> (V -> 'M[F]_n) -> V -> V.

Definition verlet_step_t (t dt : F) s := verlet_step (Rt t) (Jact t) nls dt s.
Definition cd_step_t (t dt : F) s := cd_step (Rt t) (Jact t) nls dt s.
Definition newmark_step_t (gamma beta t dt : F) s := newmark_step (Rt t) (Jact t) nls gamma beta dt s.
(** l.1189-1194: ts.set_substep_time(- alpha_f * dt) before the solution *)
Definition alpha_step_t (am af gamma beta t dt : F) s :=
  let tm := t + - af * dt in alpha_step (Rt tm) (Jact tm) nls am af gamma beta dt s.
(** l.1312-1328: the first sub-step with ts.time unchanged, then
    ts.set_substep_time(0.5 * dt) *)
Definition bathe_step_t (t dt : F) s :=
  let u1 := bathe_step1 (Rt t) (Jact t) nls dt s in
  let tm := t + 2%:R^-1 * dt in bathe_step2 (Rt tm) (Jact tm) nls dt s u1.

(** l.634-645, get_a0: the initial acceleration by a linear solver [ls M r] *)
Definition initial_state (ls : 'M[F]_n -> V -> V) (t : F) (u0 v0 : V) : state F n :=
  let r := Rt t u0 v0 0 in
  let '(M, C, K) := Jact t u0 v0 0 in (u0, v0, ls M (- r)).
End Timed.

(** l.975-1041, NewmarkTS.create_nlst() with extra variables: [u] has n DOFs and
    the extra variables m DOFs; [Re] are the four parts of the residual in the
    rows of u, e, v, a (split as in aux[iu], aux[ie], aux[iv], aux[ia]);
    [Jace] = (M, C, K) of get_matrices() with K in the (u, e) block. *)
Section Extra.
Variables (F : fieldType) (n m : nat).
Notation V := 'cV[F]_n.
Notation W := 'cV[F]_m.
Variable Re : V -> W -> V -> V -> (V * W * V * V).
Variable Jace : V -> W -> V -> V -> ('M[F]_n * 'M[F]_n * 'M[F]_(n + m)).
Variable nls : ('cV[F]_(n + m) -> 'cV[F]_(n + m)) -> ('cV[F]_(n + m) -> 'M[F]_(n + m)) -> 'cV[F]_(n + m) -> 'cV[F]_(n + m).
Definition statee := (V * W * V * V)%type.
Definition nmke_u (beta dt : F) (s : statee) (a : V) : V :=
  let '(u0, e0, v0, a0) := s in newmark_u beta dt (u0, v0, a0) a.
Definition nmke_v (gamma dt : F) (s : statee) (a : V) : V :=
  let '(u0, e0, v0, a0) := s in newmark_v gamma dt (u0, v0, a0) a.
Definition nmke_fun (gamma beta dt : F) s (aet : 'cV[F]_(n + m)) : 'cV[F]_(n + m) :=
  let at_ := usubmx aet in
  let '(ru, re, rv, ra) := Re (nmke_u beta dt s at_) (dsubmx aet) (nmke_v gamma dt s at_) at_ in
  col_mx (ru + rv + ra) re.
Definition nmke_grad (gamma beta dt : F) s (aet : 'cV[F]_(n + m)) : 'M[F]_(n + m) :=
  let at_ := usubmx aet in
  let '(M, C, K) := Jace (nmke_u beta dt s at_) (dsubmx aet) (nmke_v gamma dt s at_) at_ in
  let Kt := row_mx ((beta * dt ^+ 2) *: lsubmx K) (rsubmx K) in
  Kt + block_mx (M + (gamma * dt) *: C) 0 0 0.
Definition nmke_step (gamma beta dt : F) (s : statee) : statee :=
  let '(u0, e0, v0, a0) := s in
  let x := nls (nmke_fun gamma beta dt s) (nmke_grad gamma beta dt s) (col_mx a0 e0) in
  (nmke_u beta dt s (usubmx x), dsubmx x, nmke_v gamma dt s (usubmx x), usubmx x).
End Extra.

(** l.1105-1116, GeneralizedAlphaTS.__init__(): (alpha_m, alpha_f, gamma, beta) *)
Section AlphaPars.
Variable F : fieldType.
Definition get_default (x : option F) (d : F) : F := if x is Some y then y else d.
Definition alpha_pars (rho_inf : F) (alpha_m alpha_f beta gamma : option F) : F * F * F * F :=
  let am := get_default alpha_m ((2%:R * rho_inf - 1) / (rho_inf + 1)) in
  let af := get_default alpha_f (rho_inf / (rho_inf + 1)) in
  let be := get_default beta (4%:R^-1 * (1 - am + af) ^+ 2) in
  let ga := get_default gamma (2%:R^-1 - am + af) in
  (am, af, ga, be).
End AlphaPars.
