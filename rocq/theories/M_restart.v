(** Model of restarts: Problem.save_restart(), load_restart() and the functions
    given to the time stepping solvers by Problem.get_tss_functions()
    (sfepy/discrete/problem.py), with the DOF history of the state variables
    (sfepy/discrete/variables.py).

    Arrays are values: the sharing of data[0] with Variables.vec is modelled by
    writing the current data of all variables together ([set_cur]); C15 treats
    the aliasing.  The evaluate caches are not modelled. *)
From Coq Require Import QArith.
From Verif Require Import Base M_ts M_tsloop M_vars.
Set Implicit Arguments.
Open Scope nat_scope.

Section Restart.
(** [V]: the DOF vector of one variable, [R]: the reduced DOF vector. *)
Context {V R : Type}.

Record hvar := mkHV { h_hist : option nat; h_data : list (option V); h_step : nat }.

(** variables.py l.1201-1206 *)
Definition h_init (v : hvar) : hvar :=
  match h_hist v with None => v | Some n => mkHV (h_hist v) (repeat None (n + 1)) 0 end.
(** variables.py l.1225-1227 *)
Fixpoint h_fill (prev : option V) (d : list (option V)) : res (list (option V)) :=
  match d with
  | [] => Ok []
  | x :: t =>
      match x, prev with
      | Some _, _ => do r <- h_fill x t; Ok (x :: r)
      | None, Some _ => do r <- h_fill prev t; Ok (prev :: r)
      | None, None => Err TypeError
      end
  end.
(** variables.py l.1212-1230: fill the missing history data, then shift. *)
Definition h_advance (ts_step : nat) (v : hvar) : res hvar :=
  match h_hist v with
  | None => Ok v
  | Some 0 => Ok (mkHV (h_hist v) (h_data v) (ts_step + 1))
  | Some _ =>
      match h_data v with
      | [] => Err IndexError
      | c :: past => do p <- h_fill c past; Ok (mkHV (h_hist v) (c :: removelast (c :: p)) (ts_step + 1))
      end
  end.
(** variables.py l.1264-1313: [self.data[step] = data] with step <= 0, a Python
    index (locking and sizes are not modelled). *)
Definition h_set (v : hvar) (x : V) (step : Z) : res hvar :=
  if ((0 <? step) || (Z.of_nat (length (h_data v)) <=? - step))%Z then Err ValueError
  else match py_index (length (h_data v)) step with
       | Some i => Ok (mkHV (h_hist v) (upd (h_data v) i (Some x)) (h_step v))
       | None => Err IndexError
       end.
(** variables.py l.1339-1351: [var(step=-ii)] *)
Definition h_call (v : hvar) (ii : nat) : res V :=
  let i := if (h_step v =? 0) && (ii =? 1) then 0 else ii in
  match nth_error (h_data v) i with
  | None => Err IndexError
  | Some None => Err ValueError
  | Some (Some x) => Ok x
  end.

Fixpoint mapr {A B} (f : A -> res B) (l : list A) : res (list B) :=
  match l with [] => Ok [] | x :: t => do y <- f x; do r <- mapr f t; Ok (y :: r) end.
Fixpoint mapr2 {A B C} (f : A -> B -> res C) (l : list A) (m : list B) : res (list C) :=
  match l, m with
  | [], _ => Ok []
  | x :: t, y :: u => do z <- f x y; do r <- mapr2 f t u; Ok (z :: r)
  | _ :: _, [] => Err KeyError
  end.

(** The current data of all the variables are set from the parts of a full vector
    (Variables.set_state(), l.836-850; init_state(), l.652-666). *)
Definition set_cur (vs : list hvar) (full : list V) : res (list hvar) := mapr2 (fun v x => h_set v x 0) vs full.
Definition cur (vs : list hvar) : res (list V) := mapr (fun v => h_call v 0) vs.

(** ** The restart file *)
(** The state of the time stepper (get_state()), the reduced state vector (if
    any) and the history of each state variable. *)
Record rfile := mkFile { f_step : nat; f_rvec : option R; f_hist : list (list V) }.
(** problem.py l.2099-2120 *)
Definition save_var (v : hvar) : res (list V) := mapr (h_call v) (seq 0 (length (h_data v))).
Definition save_restart (s : ts) (rvec : option R) (vs : list hvar) : res rfile :=
  do hs <- mapr save_var vs; Ok (mkFile (step s) rvec hs).

(** problem.py l.2178-2187: the loop over the history of one variable. *)
Fixpoint load_hist (ii : nat) (v : hvar) (l : list V) : res hvar :=
  match l with
  | [] => Ok v
  | x :: t => do v <- h_set v x (- Z.of_nat ii); load_hist (S ii) v t
  end.
(** problem.py l.2169-2193: set_state() of the stepper, the histories, then
    init_state(), which calls init_history(); the first items make [vec]. *)
Definition load_restart (s : ts) (rvec : option R) (vs : list hvar) (f : rfile) : res (ts * option R * list hvar) :=
  do s <- set_step s (Some (Z.of_nat (f_step f)));
  do vs <- mapr2 (load_hist 0) vs (f_hist f);
  do vec <- mapr (fun l => match l with x :: _ => Ok x | [] => Err KeyError end) (f_hist f);
  do vs <- set_cur (map h_init vs) vec;
  Ok (s, match f_rvec f with Some r => Some r | None => rvec end, vs).

(** ** The solution process *)
(** The problem: full vectors from reduced ones, the essential boundary
    conditions, both possibly depending on the step (l.1358-1363), and the
    reduction. *)
Variable make_full : nat -> R -> list V.
Variable apply_ebc : nat -> list V -> list V.
Variable reduce : list V -> R.
Variable has_lcbc : bool.
(** The nonlinear solver: a function of the step, the time, the variables with
    their histories and the initial guess. *)
Variable solve : nat -> Q -> list hvar -> R -> R.

Record pstate := mkP { p_ts : ts; p_vars : list hvar; p_rvec : option R; p_vec : R }.
Definition set_rvec (r : R) (old : option R) : option R := if has_lcbc then Some r else old.

(** One step of SimpleTimeSteppingSolver.__call__ (ts_solvers.py l.187-219) with
    prestep_fun() and poststep_fun() (problem.py l.1355-1396), active_only = True:
    the restart file of the step and the next state (before ts.advance()). *)
Definition one_step (p : pstate) : res (rfile * pstate) :=
  let k := step (p_ts p) in
  do vs <- set_cur (p_vars p) (make_full k (p_vec p));                      (* prestep_fun *)
  let r := solve k (time (p_ts p)) vs (p_vec p) in
  do vs <- set_cur vs (apply_ebc k (make_full k r));                        (* poststep_fun *)
  let rv := set_rvec r (p_rvec p) in
  do f <- save_restart (p_ts p) rv vs;
  do vs <- mapr (h_advance k) vs;
  Ok (f, mkP (p_ts p) vs rv r).
Definition ts_advance (p : pstate) : pstate := mkP (M_ts.advance (p_ts p)) (p_vars p) (p_rvec p) (p_vec p).
(** [n] steps, collecting the restart files. *)
Fixpoint steps (n : nat) (p : pstate) : res (list rfile * pstate) :=
  match n with
  | 0 => Ok ([], p)
  | S n' => do x <- one_step p;
            let '(f, p) := x in
            do y <- steps n' (ts_advance p);
            let '(fs, p) := y in Ok (f :: fs, p)
  end.

(** problem.py l.1340-1353, init_fun() with load_restart: the loaded state is
    advanced; variables.get_state(reduced) is l.776-797 of variables.py. *)
Definition get_state (rvec : option R) (vs : list hvar) : res R :=
  if has_lcbc then match rvec with Some r => Ok r | None => Err ValueError end
  else do full <- cur vs; Ok (reduce full).
Definition resume (s : ts) (rvec : option R) (vs : list hvar) (f : rfile) : res pstate :=
  do x <- load_restart s rvec vs f;
  let '(s, rv, vs) := x in
  do vs <- mapr (h_advance (step s)) vs;
  let s := M_ts.advance s in
  do r <- get_state rv vs;
  Ok (mkP s vs rv r).
(** The loop after init_fun() (ts_solvers.py l.206-218) executes the body once for
    each remaining time: [for time in self.times[step:]]. *)
Definition run_rest (p : pstate) : res (list rfile * pstate) := steps (length (times (p_ts p)) - step (p_ts p)) p.

(** ** ts.adaptive: the restart stores the step, the step size and the times of
    the stepper; the adaptivity data are those of a new solver
    (ts_solvers.py l.342-351). *)
Definition fresh_adt (a : adt) : adt :=
  mkAdt (red_factor a) (red_max a) (inc_factor a) (inc_on_iter a) (inc_wait a) 1 0 (M_tsloop.dt0 a).
Definition resume_adaptive (h : theap) (fresh : vts) (a : adt) (saved : nat * Q * nat) : res (vts * adt) :=
  do s <- vset_state h fresh saved; Ok (s, fresh_adt a).
End Restart.
Arguments hvar : clear implicits.
Arguments rfile : clear implicits.
Arguments pstate : clear implicits.

(** ** Files on the disk *)
(** A file is being written or complete. *)
Inductive fstat (C : Type) := Partial | Complete (c : C).
Arguments Partial {C}. Arguments Complete {C} c.
Section Disk.
Context {N C : Type}.
Variable eqb : N -> N -> bool.
(** The effects of save_restart() on the disk, in the order of execution
    (problem.py l.2099, l.2120, l.2130); a crash can come between any two. *)
Inductive fevent := Open (n : N) | Close (n : N) (c : C) | Remove (n : N).
Definition disk := N -> option (fstat C).
Definition put_file (d : disk) (n : N) (x : option (fstat C)) : disk := fun m => if eqb m n then x else d m.
Definition apply1 (d : disk) (e : fevent) : disk :=
  match e with
  | Open n => put_file d n (Some Partial)
  | Close n c => put_file d n (Some (Complete c))
  | Remove n => put_file d n None
  end.
Definition applyl (d : disk) (es : list fevent) : disk := fold_left apply1 es d.
(** One call; [names] is _restart_filenames (the last item first), [only_last] is
    [mode == -1] (l.2122-2133). *)
Definition save_events (only_last : bool) (names : list N) (n : N) (c : C) : list fevent * list N :=
  let es := [Open n; Close n c] in
  match only_last, names with
  | true, last :: rest => (es ++ (if eqb last n then [] else [Remove last]), n :: rest)
  | _, _ => (es, n :: names)
  end.
Fixpoint run_events (only_last : bool) (names : list N) (saves : list (N * C)) : list fevent :=
  match saves with
  | [] => []
  | (n, c) :: t => let '(es, names) := save_events only_last names n c in es ++ run_events only_last names t
  end.
End Disk.
Arguments fevent : clear implicits.
