(** Model: the time stepping loops of sfepy/solvers/ts_solvers.py
    (ts.simple, ts.adaptive and the elastodynamics base solver) and
    tsc.time_sequence of sfepy/solvers/ts_controllers.py.

    The problem-dependent functions (init_fun, prestep_fun, poststep_fun, the
    nonlinear solver) are arbitrary functions of the whole history of the
    previous calls and of their arguments; each call is recorded as an event. *)
From Coq Require Import QArith.
From Verif Require Import Base M_ts.
Set Implicit Arguments.
Open Scope nat_scope.

(** The kinds of calls: prestep_fun, the nonlinear solver, the initial residual
    (or initial acceleration) and poststep_fun. *)
Inductive kind := KPre | KSolve | KInit | KPost.

Section Loops.
(** DOF vectors. *)
Context {V : Type}.

(** A call: its kind, the step, the time and the time step size at the call, the
    time step size for which the matrix of the (linear) problem used in the call
    was assembled, the argument and the result. *)
Record event := Ev { e_kind : kind; e_step : nat; e_time : Q; e_dt : Q; e_mdt : Q; e_in : V; e_out : V }.
Definition trace := list event.

(** The functions given by the user, depending on the history, the step and the
    time; [nls] depends also on the matrix and returns the status (converged,
    number of iterations). *)
Variable init : V -> V.
Variable pre post : trace -> nat -> Q -> V -> V.
Variable nls : trace -> nat -> Q -> Q -> V -> V * (bool * nat).

(** ** ts.simple (l.142-219) *)

Definition do_pre (tr : trace) (st : nat) (t d : Q) (v : V) : trace * V :=
  let w := pre tr st t v in (tr ++ [Ev KPre st t d d v w], w).
Definition do_post (tr : trace) (st : nat) (t d : Q) (v : V) : trace * V :=
  let w := post tr st t v in (tr ++ [Ev KPost st t d d v w], w).
Definition do_solve (tr : trace) (st : nat) (t d m : Q) (v : V) : trace * V * (bool * nat) :=
  let '(w, c) := nls tr st t m v in (tr ++ [Ev KSolve st t d m v w], w, c).
(** The computation of the initial acceleration (get_a0(), l.641-653). *)
Definition do_init (tr : trace) (st : nat) (t d : Q) (v : V) : trace * V :=
  let '(w, c) := nls tr st t d v in (tr ++ [Ev KInit st t d d v w], w).

(** l.172-182, solve_step0() *)
Definition solve_step0 (quasistatic : bool) (tr : trace) (st : nat) (t d : Q) (v : V) : trace * V :=
  if quasistatic then fst (do_solve tr st t d d v)
  else (tr ++ [Ev KInit st t d d v v], v).

(** l.206-218: [n] iterations of the for loop over ts.iter_from(). *)
Fixpoint simple_loop (n : nat) (tr : trace) (s : ts) (v : V) : trace * ts * V :=
  match n with
  | 0 => (tr, s, v)
  | S n' =>
      let '(tr, v) := do_pre tr (step s) (time s) (dt s) v in
      let '(tr, v, _) := do_solve tr (step s) (time s) (dt s) (dt s) v in
      let '(tr, v) := do_post tr (step s) (time s) (dt s) v in
      simple_loop n' tr (advance s) v
  end.

(** l.187-219, __call__() *)
Definition simple_call (quasistatic : bool) (s : ts) (vec0 : V) : res (trace * ts * V) :=
  let vec0 := init vec0 in
  let '(tr, s, v) :=
    if step s =? 0 then
      let '(tr, v) := do_pre [] (step s) (time s) (dt s) vec0 in
      let '(tr, v) := solve_step0 quasistatic tr (step s) (time s) (dt s) v in
      let '(tr, v) := do_post tr (step s) (time s) (dt s) v in
      (tr, advance s, v)
    else ([], s, vec0) in
  match set_step s (Some (Z.of_nat (step s))) with
  | Err e => Err e
  | Ok s' => Ok (simple_loop (length (py_from (times s') (Z.of_nat (step s)))) tr s' v)
  end.

(** ** ts.adaptive (l.221-375) *)

(** The adaptivity data (l.342-351). *)
Record adt := mkAdt { red_factor : Q; red_max : Q; inc_factor : Q; inc_on_iter : nat; inc_wait : nat;
                      red : Q; wait : nat; dt0 : Q }.
Definition set_red (a : adt) (r : Q) : adt :=
  mkAdt (red_factor a) (red_max a) (inc_factor a) (inc_on_iter a) (inc_wait a) r (wait a) (dt0 a).
Definition set_wait (a : adt) (w : nat) : adt :=
  mkAdt (red_factor a) (red_max a) (inc_factor a) (inc_on_iter a) (inc_wait a) (red a) w (dt0 a).

Definition Qltb (x y : Q) : bool := negb (Qle_bool y x).

(** l.221-229, get_min_dt(); [fuel] bounds the loop. *)
Fixpoint min_red (fuel : nat) (rf rm r : Q) : option Q :=
  match fuel with
  | 0 => None
  | S f => if Qle_bool rm r then min_red f rf rm (r * rf)%Q else Some r
  end.
Definition get_min_dt (fuel : nat) (a : adt) : option Q :=
  match min_red fuel (red_factor a) (red_max a) (red a) with
  | Some r => Some (dt0 a * r)%Q
  | None => None
  end.

(** l.231-295, adapt_time_step(): (is_break, heap, ts, adt). *)
Definition adapt_time_step (h : theap) (s : vts) (a : adt) (converged : bool) (n_iter : nat)
  : bool * theap * vts * adt :=
  if converged then
    if n_iter <=? inc_on_iter a then
      let a := set_wait a (S (wait a)) in
      if inc_wait a <? wait a then
        let '(s, a) :=
          if Qltb (red a) 1 then
            let a := set_red a (red a * inc_factor a)%Q in
            (snd (set_time_step h s (dt0 a * red a)%Q false), a)
          else (s, a) in
        (true, h, s, set_wait a 0)
      else (true, h, s, a)
    else (true, h, s, set_wait a 0)
  else
    let a := set_red a (red a * red_factor a)%Q in
    if Qltb (red a) (red_max a) then (true, h, s, a)
    else let '(h, s) := set_time_step h s (dt0 a * red a)%Q true in
         (false, h, s, set_wait a 0).

(** l.362-378, solve_step(): the loop, [fuel] bounds its iterations. *)
Fixpoint solve_loop (fuel : nat) (tr : trace) (h : theap) (s : vts) (a : adt) (v : V)
  : res (trace * theap * vts * adt * V) :=
  match fuel with
  | 0 => Err OutOfFuel
  | S f =>
      let '(tr, vt, (c, n)) := do_solve tr (w_step s) (w_time s) (w_dt s) (w_dt s) v in
      let '(brk, h, s, a) := adapt_time_step h s a c n in
      if brk then Ok (tr, h, s, a, vt)
      else let '(tr, v) := do_pre tr (w_step s) (w_time s) (w_dt s) v in
           solve_loop f tr h s a v
  end.

(** l.206-218 with VariableTimeStepper.iter_from() (ts.py l.215-231): the body,
    then the test of the normalized time, then advance(). *)
Fixpoint adaptive_loop (fuel fuel1 : nat) (tr : trace) (h : theap) (s : vts) (a : adt) (v : V)
  : res (trace * theap * vts * adt * V) :=
  match fuel with
  | 0 => Err OutOfFuel
  | S f =>
      let '(tr, v) := do_pre tr (w_step s) (w_time s) (w_dt s) v in
      match solve_loop fuel1 tr h s a v with
      | Err e => Err e
      | Ok (tr, h, s, a, v) =>
          let '(tr, v) := do_post tr (w_step s) (w_time s) (w_dt s) v in
          if Qle_bool 1 (w_nt s) then Ok (tr, h, s, a, v)
          else let '(h, s) := vadvance h s in adaptive_loop f fuel1 tr h s a v
      end
  end.

(** l.187-219 for a new solver (step 0). [quasistatic]: solve also step 0; the
    status is not used there.  The call iter_from(ts.step) with ts.step > 0 does
    not change the stepper. *)
Definition adaptive_call (fuel fuel1 : nat) (quasistatic : bool) (h : theap) (s : vts) (a : adt) (vec0 : V)
  : res (trace * theap * vts * adt * V) :=
  let vec0 := init vec0 in
  let '(tr, h, s, v) :=
    if w_step s =? 0 then
      let '(tr, v) := do_pre [] (w_step s) (w_time s) (w_dt s) vec0 in
      let '(tr, v) := solve_step0 quasistatic tr (w_step s) (w_time s) (w_dt s) v in
      let '(tr, v) := do_post tr (w_step s) (w_time s) (w_dt s) v in
      let '(h, s) := vadvance h s in (tr, h, s, v)
    else ([], h, s, vec0) in
  adaptive_loop fuel fuel1 tr h s a v.

(** ** The elastodynamics solvers (l.548-760).  The step function is [nls]; the
    status is not used.  A controller has a state [C]; it gives the new step
    size and whether the step is accepted.  [m] is self.matrix: the step size
    for which the cached matrix was assembled, it is used if [is_linear]
    (_cache(), l.531-546). *)
Section ED.
Context {C : Type}.
Variable is_linear : bool.
Variable tsc : C -> vts -> V -> V -> Q * bool * C.

(** l.531-546: the matrix used, and the new cache. *)
Definition use_matrix (m : option Q) (d : Q) : Q * option Q :=
  if is_linear then match m with Some x => (x, m) | None => (d, Some d) end else (d, m).

(** l.718-742: the inner loop; returns also the vector [vec] (the result of the
    last prestep_fun). *)
Fixpoint ed_step (fuel : nat) (tr : trace) (h : theap) (s : vts) (c : C) (m : option Q) (v : V)
  : res (trace * theap * vts * C * option Q * Q * V * V) :=
  match fuel with
  | 0 => Err OutOfFuel
  | S f =>
      let '(tr, v) := do_pre tr (w_step s) (w_time s) (w_dt s) v in
      let '(x, m) := use_matrix m (w_dt s) in
      let '(tr, vt, _) := do_solve tr (w_step s) (w_time s) (w_dt s) x v in
      let '(new_dt, accept, c) := tsc c s v vt in
      let m := if Qeq_bool new_dt (w_dt s) then m else None in
      if accept then Ok (tr, h, s, c, m, new_dt, v, vt)
      else let '(h, s) := set_time_step h s new_dt true in ed_step f tr h s c m v
  end.

(** l.709-756: the outer loop. *)
Fixpoint ed_loop (fuel fuel1 : nat) (tr : trace) (h : theap) (s : vts) (c : C) (m : option Q) (v : V)
  : res (trace * theap * vts * C * V) :=
  match fuel with
  | 0 => Err OutOfFuel
  | S f =>
      match ed_step fuel1 tr h s c m v with
      | Err e => Err e
      | Ok (tr, h, s, c, m, new_dt, v, vt) =>
          let '(tr, vt) := do_post tr (w_step s) (w_time s) (w_dt s) vt in
          if Qle_bool 1 (w_nt s) then Ok (tr, h, s, c, v)
          else
            let '(h, s) := if Qeq_bool new_dt (w_dt s) then (h, s) else set_time_step h s new_dt false in
            let '(h, s) := vadvance h s in
            ed_loop f fuel1 tr h s c m vt
      end
  end.

(** l.655-692 (get_initial_vec()) and l.694-760 (__call__()) with a controller
    other than tsc.fixed, for a new solver (self.matrix is None); [get_initial_dt] is the method of
    the controller. *)
Definition ed_call (fuel fuel1 : nat) (get_initial_dt : C -> vts -> res (Q * C)) (h : theap) (s : vts) (c : C) (vec0 : V)
  : res (trace * theap * vts * C * V) :=
  let vec0 := init vec0 in
  let '(tr, v) := do_pre [] (w_step s) (w_time s) (w_dt s) vec0 in
  let '(tr, v) := do_init tr (w_step s) (w_time s) (w_dt s) v in
  let '(tr, v) := do_post tr (w_step s) (w_time s) (w_dt s) v in
  let '(h, s) := vadvance h s in
  match get_initial_dt c s with
  | Err e => Err e
  | Ok (d, c) =>
      let '(h, s) := set_time_step h s d true in
      ed_loop fuel fuel1 tr h s c None v
  end.

(** l.709-756 with tsc.fixed, which uses a TimeStepper. *)
Fixpoint ed_fixed_loop (fuel : nat) (tr : trace) (s : ts) (v : V) : res (trace * ts * V) :=
  match fuel with
  | 0 => Err OutOfFuel
  | S f =>
      let '(tr, v) := do_pre tr (step s) (time s) (dt s) v in
      let '(tr, vt, _) := do_solve tr (step s) (time s) (dt s) (dt s) v in
      let '(tr, vt) := do_post tr (step s) (time s) (dt s) vt in
      if Qle_bool 1 (nt s) then Ok (tr, s, v)
      else ed_fixed_loop f tr (advance s) vt
  end.
Definition ed_fixed_call (fuel : nat) (s : ts) (vec0 : V) : res (trace * ts * V) :=
  let vec0 := init vec0 in
  let '(tr, v) := do_pre [] (step s) (time s) (dt s) vec0 in
  let '(tr, v) := do_init tr (step s) (time s) (dt s) v in
  let '(tr, v) := do_post tr (step s) (time s) (dt s) v in
  ed_fixed_loop fuel tr (advance s) v.
End ED.

(** ** tsc.time_sequence (ts_controllers.py l.15-50); the state is the iterator
    over the given times; EOFError stands for StopIteration. *)
Definition seq_initial_dt (c : list Q) (s : vts) : res (Q * list Q) :=
  match c with
  | [] => Err EOFError
  | t :: c' => Ok ((t - w_t0 s)%Q, c')
  end.
Definition seq_tsc (c : list Q) (s : vts) (v v' : V) : Q * bool * list Q :=
  let '(t, c') := match c with [] => (w_t1 s, []) | t :: c' => (t, c') end in
  let d := (t - w_time s)%Q in
  ((if Qeq_bool d 0 then 1%Q else d), true, c').

End Loops.
Arguments event : clear implicits.
Arguments trace : clear implicits.
