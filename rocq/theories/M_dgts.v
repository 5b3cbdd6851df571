(** Model of the explicit time stepping solvers for discontinuous Galerkin
    problems, /repo/sfepy/solvers/ts_dg_solvers.py, driving a problem whose
    pre/post step functions are those of /repo/sfepy/discrete/problem.py
    l.1315-1395 and whose variable keeps the history of
    /repo/sfepy/discrete/variables.py l.1201-1247, l.1338-1348.

    Modelled: the DOF vector, the two generations of data of the state
    variable, the time stepper (step, time), the time at which boundary
    conditions and materials were updated last, the calls of the step hook and
    the saved results.  Not modelled: floating point rounding (numbers are
    reals), output, restart files, residual norms, linear solver tolerances. *)
From Coq Require Import List Arith Lia Reals Lra.
Import ListNotations.
Open Scope R_scope.

(** A DOF vector (numpy array); arithmetic is entrywise. *)
Definition vec := nat -> R.
Definition vadd (x y : vec) : vec := fun i => x i + y i.
Definition vsub (x y : vec) : vec := fun i => x i - y i.
Definition vscale (c : R) (x : vec) : vec := fun i => c * x i.
Definition vneg (x : vec) : vec := fun i => - x i.

(** The option save_times: 'all' or an array (problem.py l.33-73). *)
Inductive save_opt := SaveAll | SaveTimes (l : list R).

(** The state of the problem and of its time stepper. *)
Record pst := mkP {
  p_cur : vec;                      (* state variable: data[0] *)
  p_hist : vec;                     (* data[1], the previous time step *)
  p_fresh : bool;                   (* Variable.step == 0 *)
  p_clock : R;                      (* time of the last time_update()/update_materials() *)
  p_step : nat;                     (* ts.step *)
  p_time : R;                       (* ts.time *)
  p_ilast : nat;                    (* is_save.ilast *)
  p_hooks : list (nat * R * vec);   (* step_hook calls: ts.step, ts.time, the state *)
  p_saved : list (nat * R * vec)    (* save_state calls: ts.step (the file suffix), ts.time, the state *)
}.

Definition set_cur (x : vec) (s : pst) : pst :=
  mkP x (p_hist s) (p_fresh s) (p_clock s) (p_step s) (p_time s) (p_ilast s) (p_hooks s) (p_saved s).
Definition set_clock (t : R) (s : pst) : pst :=
  mkP (p_cur s) (p_hist s) (p_fresh s) t (p_step s) (p_time s) (p_ilast s) (p_hooks s) (p_saved s).
Definition set_now (k : nat) (t : R) (s : pst) : pst :=
  mkP (p_cur s) (p_hist s) (p_fresh s) (p_clock s) k t (p_ilast s) (p_hooks s) (p_saved s).

(** A python argument that is None or a step function. *)
Definition stepfun := pst -> vec -> pst * vec.
Definition pyarg := option stepfun.

Section Solver.
(** ts.t0, ts.dt, ts.n_step *)
Variables (t0 dt : R) (n_step : nat).
Variable save_times : save_opt.
(** The equation [M p + V(p[-1]) + F = 0]: [mass] is the (constant) tangent
    matrix; [Vol t x] are the terms evaluated through the generic term machinery
    (terms.py l.1137-1160, which honours the [-1]); [Flux t x] are the DG facet
    terms, whose values come from dg/fields.py l.717
    [dofs = self.unravel_sol(state.data[0])], i.e. from the current data
    whatever the time index of the argument.  [t] is the time of the last
    update of materials and boundary conditions. *)
Variables (mass solve : vec -> vec) (Vol Flux : R -> vec -> vec).
(** The composed limiter. *)
Variable hook : vec -> vec.

(** ts.py l.46: times of the linspace. *)
Definition time_of (k : nat) : R := t0 + INR k * dt.

(** problem.py l.54-68 *)
Definition is_save (s : pst) : bool * nat :=
  match save_times with
  | SaveAll => (true, p_ilast s)
  | SaveTimes l =>
      if Nat.ltb (p_ilast s) (length l)
      then if Rle_dec (nth (p_ilast s) l 0) (p_time s + / 10 ^ 14 * dt) then (true, S (p_ilast s)) else (false, p_ilast s)
      else (false, p_ilast s)
  end.

(** problem.py l.1355-1365: update BCs and materials for ts.time, set the state. *)
Definition prestep_fun : stepfun := fun s x => (set_clock (p_time s) (set_cur x s), x).

(** variables.py l.1212-1230 (history 1): data[1] := data[0], step := ts.step + 1 >= 1. *)
Definition advance_history (s : pst) : pst :=
  mkP (p_cur s) (p_cur s) false (p_clock s) (p_step s) (p_time s) (p_ilast s) (p_hooks s) (p_saved s).

(** problem.py l.1367-1394: set the state, call the step hook, save, advance the history. *)
Definition poststep_fun : stepfun := fun s x =>
  let s := set_cur x s in
  let s := mkP (p_cur s) (p_hist s) (p_fresh s) (p_clock s) (p_step s) (p_time s) (p_ilast s)
               (p_hooks s ++ [(p_step s, p_time s, x)]) (p_saved s) in
  let '(b, il) := is_save s in
  let s := mkP (p_cur s) (p_hist s) (p_fresh s) (p_clock s) (p_step s) (p_time s) il
               (p_hooks s) (if b then p_saved s ++ [(p_step s, p_time s, x)] else p_saved s) in
  (advance_history s, x).

(** nls.fun: evaluate.py l.81-106 with DG variables; [p[-1]] is data[1], or
    data[0] before the first advance (variables.py l.1339-1344). *)
Definition res_fun (s : pst) (x : vec) : pst * vec :=
  let s := set_cur x s in
  let prev := if p_fresh s then p_cur s else p_hist s in
  (s, vadd (mass x) (vadd (Vol (p_clock s) prev) (Flux (p_clock s) (p_cur s)))).

(** ts_dg_solvers.py l.68-74 *)
Definition solve_step0 (s : pst) (x : vec) : pst * vec :=
  let '(s, _) := res_fun s x in (s, x).

(** l.128-163 EulerStepSolver.solve_step *)
Definition euler_step (s : pst) (x0 : vec) (status prestep poststep : pyarg) : option (pst * vec) :=
  let '(s, r) := res_fun s x0 in
  let dx := solve r in
  let x := vsub x0 (vscale dt (vsub dx x0)) in
  Some (s, hook x).

(** ts.py l.65-67 *)
Definition set_substep_time (sub_dt : R) (s : pst) : pst := set_now (p_step s) (p_time s + sub_dt) s.

(** l.192-262 TVDRK3StepSolver.solve_step; calling None is a TypeError. *)
Definition rk3_step (s : pst) (x0 : vec) (status prestep poststep : pyarg) : option (pst * vec) :=
  let x := x0 in
  let '(s, r) := res_fun s x in
  let dx := solve r in
  let x1 := vsub x (vscale dt (vsub dx x)) in
  let x1 := hook x1 in
  let '(s, r) := res_fun s x1 in
  let dx := solve r in
  let x2 := vscale (/ 4) (vsub (vadd (vscale 3 x) x1) (vscale dt (vsub dx x1))) in
  let x2 := hook x2 in
  let s := set_substep_time (1 / 2 * dt) s in
  match prestep with
  | None => None
  | Some f =>
      let '(s, x2) := f s x2 in
      let '(s, r) := res_fun s x2 in
      let dx := solve r in
      let x3 := vscale (/ 3) (vsub (vadd x (vscale 2 x2)) (vscale (2 * dt) (vsub dx x2))) in
      Some (s, hook x3)
  end.

(** l.272-277 *)
Definition stage_updates : list (vec -> vec -> R -> vec) :=
  [ (fun u k_ dt => u);
    (fun u k1 dt => vadd u (vscale (1 / 2 * dt) k1));
    (fun u k2 dt => vadd u (vscale (1 / 2 * dt) k2));
    (fun u k3 dt => vadd u (vscale dt k3)) ].

(** l.298-315: the loop over stages; [k] is [vec_x], [ks] is [vec_xs]. *)
Fixpoint rk4_stages (us : list (vec -> vec -> R -> vec)) (s : pst) (x0 k : vec) (ks : list vec)
  : pst * list vec :=
  match us with
  | [] => (s, ks)
  | u :: us =>
      let sv := u x0 k dt in
      let '(s, r) := res_fun s sv in
      let dx := solve r in
      let k := vsub (vneg dx) sv in
      let k := hook k in
      rk4_stages us s x0 k (ks ++ [k])
  end.

(** l.279-322 RK4StepSolver.solve_step ([vec_x = None] is never used: the first update ignores it) *)
Definition rk4_step (s : pst) (x0 : vec) (status prestep poststep : pyarg) : option (pst * vec) :=
  let '(s, ks) := rk4_stages stage_updates s x0 x0 [] in
  let k := fun i => nth i ks x0 in
  let x := vadd x0 (vscale (1 / 6 * dt) (vadd (vadd (vadd (k 0%nat) (vscale 2 (k 1%nat))) (vscale 2 (k 2%nat))) (k 3%nat))) in
  Some (s, hook x).

(** ts.py l.74-78 *)
Definition ts_advance (s : pst) : pst :=
  if Nat.ltb (p_step s) (n_step - 1) then set_now (S (p_step s)) (time_of (S (p_step s))) s else s.

(** ts_dg_solvers.py l.105-119: the loop body; [solve_step] is called as
    [self.solve_step(ts, nls, vec, prestep_fun, poststep_fun, status)] while the
    parameters are [(ts, nls, vec_x0, status, prestep_fun, poststep_fun)];
    [status] is a plain dict or None, not a step function. *)
Fixpoint dg_loop (step_solver : pst -> vec -> pyarg -> pyarg -> pyarg -> option (pst * vec))
    (m : nat) (s : pst) (x : vec) : option (pst * vec) :=
  match m with
  | O => Some (s, x)
  | S m =>
      let '(s, x) := prestep_fun s x in
      match step_solver s x (Some prestep_fun) (Some poststep_fun) None with
      | None => None
      | Some (s, x) =>
          let '(s, x) := poststep_fun s x in
          dg_loop step_solver m (ts_advance s) x
      end
  end.

(** The problem before the call (Problem.get_initial_state, init_fun). *)
Definition init_pst (x : vec) : pst := mkP x x true t0 0 t0 0 [] [].

(** l.82-120 DGMultiStageTSS.__call__ starting at step 0; iter_from(step) of
    ts.py l.85-92 sets the time of the step and runs over times[step:]. *)
Definition dg_call (step_solver : pst -> vec -> pyarg -> pyarg -> pyarg -> option (pst * vec))
    (vec0 : vec) : option (pst * vec) :=
  let s := init_pst vec0 in
  let '(s, x) := prestep_fun s vec0 in
  let '(s, x) := solve_step0 s x in
  let '(s, x) := poststep_fun s x in
  let s := ts_advance s in
  dg_loop step_solver (n_step - p_step s) (set_now (p_step s) (time_of (p_step s)) s) x.

End Solver.
