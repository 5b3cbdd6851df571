(** Model: time steppers (sfepy/solvers/ts.py) and the time stepping loops
    (sfepy/solvers/ts_solvers.py).  Times are rational numbers with exact
    arithmetic (rounding is not modelled). *)
From Coq Require Import NArith QArith Qround.
From Verif Require Import Base.
Set Implicit Arguments.
Open Scope nat_scope.

(** ** Step number formatting (ts.py l.5-15) *)

(** Exact [int(log10(m) + 1)] for [m >= 1]: one plus the largest [k] with
    [10^k <= m] ([fuel] bounds the search). *)
Fixpoint log10_from (fuel : nat) (p m k : N) : N :=
  match fuel with
  | 0 => k
  | S f => if (10 * p <=? m)%N then log10_from f (10 * p) m (k + 1) else k
  end.
Definition int_log10p1 (m : N) : N := log10_from (N.to_nat (N.size m)) 1 m 0 + 1.

(** ts.py l.5-15, the first returned value; [n_step] is a Python int. *)
Definition get_print_info (n_step : Z) : nat :=
  if (1 <? n_step)%Z then N.to_nat (int_log10p1 (Z.to_N (n_step - 1))) else 1.

(** ['%0<n>d' % k]: the decimal digits, padded by zeros to the width [n]
    (longer numbers are not truncated). *)
Fixpoint digits_rev (fuel : nat) (k : N) : list N :=
  match fuel with
  | 0 => []
  | S f => (k mod 10)%N :: (if (k <? 10)%N then [] else digits_rev f (k / 10))
  end.
Definition digits (k : N) : list N := rev (digits_rev (S (N.to_nat (N.size k))) k).
Definition format_step (n_digit : nat) (k : N) : list N :=
  let d := digits k in repeat 0%N (n_digit - length d) ++ d.

(** ** TimeStepper (ts.py l.17-112) *)

Record ts := mkTs { t0 : Q; t1 : Q; n_step : Z; times : list Q; dt : Q;
                    step : nat; time : Q; nt : Q }.

(** ts.py l.35-37: [int(round(floor((t1 - t0) / dt + 0.5) + 1.0))] *)
Definition get_n_step (a b d : Q) : Z := (Qfloor ((b - a) / d + (1 # 2)) + 1)%Z.

(** [nm.linspace(a, b, n, endpoint=True, retstep=True)] for [n > 1]: the last
    item is set to [b]. *)
Definition linspace (a b : Q) (n : nat) : list Q * Q :=
  let st := ((b - a) / inject_Z (Z.of_nat (n - 1)))%Q in
  (map (fun k => (inject_Z (Z.of_nat k) * st + a)%Q) (seq 0 (n - 1)) ++ [b], st).

(** ts.py l.92-93 *)
Definition normalize (a b t : Q) : Q := ((t - a) / (b - a))%Q.

(** ts.py l.95-108; [step=None] is used with the default [nt=0.0]. *)
Definition set_step (s : ts) (st : option Z) : res ts :=
  let st := match st with None => 0%Z | Some z => z end in
  let st := if (st <? 0)%Z then (n_step s + st)%Z else st in
  if (n_step s <=? st)%Z || (st <? 0)%Z then Err ValueError
  else let k := Z.to_nat st in
       let t := nth k (times s) 0%Q in
       Ok (mkTs (t0 s) (t1 s) (n_step s) (times s) (dt s) k t (normalize (t0 s) (t1 s) t)).

(** ts.py l.39-57 *)
Definition make_ts (a b : Q) (d : option Q) (n : option Z) (st : option Z) : res ts :=
  let d := match d with Some x => x | None => (b - a)%Q end in
  let n := match n with Some x => x | None => get_n_step a b d end in
  let '(tm, d') := if (1 <? n)%Z then linspace a b (Z.to_nat n) else ([a], (b - a)%Q) in
  set_step (mkTs a b n tm d' 0 a 0) st.

(** ts.py l.77-81 *)
Definition advance (s : ts) : ts :=
  if (Z.of_nat (step s) <? n_step s - 1)%Z then
    let k := S (step s) in
    let t := nth k (times s) 0%Q in
    mkTs (t0 s) (t1 s) (n_step s) (times s) (dt s) k t (normalize (t0 s) (t1 s) t)
  else s.

(** [l[st:]] *)
Definition py_from {A} (l : list A) (st : Z) : list A :=
  if (0 <=? st)%Z then skipn (Z.to_nat st) l
  else skipn (Z.to_nat (Z.max 0 (Z.of_nat (length l) + st))) l.

(** ts.py l.88-94: the generator, with nothing else done between the
    iterations: the yielded pairs and the final state. *)
Fixpoint iter_loop (n : nat) (s : ts) : list (nat * Q) * ts :=
  match n with
  | 0 => ([], s)
  | S n' => let '(l, s') := iter_loop n' (advance s) in ((step s, time s) :: l, s')
  end.
Definition iter_from (s : ts) (st : Z) : res (list (nat * Q) * ts) :=
  match set_step s (Some st) with
  | Err e => Err e
  | Ok s' => Ok (iter_loop (length (py_from (times s') st)) s')
  end.

(** ts.py l.66-75: the sub-step time; [saved] is step_start_time. *)
Definition set_substep_time (s : ts) (sub_dt : Q) : ts * option Q :=
  (mkTs (t0 s) (t1 s) (n_step s) (times s) (dt s) (step s) (time s + sub_dt)%Q (nt s), Some (time s)).
Definition restore_step_time (s : ts) (saved : option Q) : ts * option Q :=
  match saved with
  | None => (s, None)
  | Some t => (mkTs (t0 s) (t1 s) (n_step s) (times s) (dt s) (step s) t (nt s), None)
  end.

(** ts.py l.105-112: [abs(self.t0 == other.t0)] is the absolute value of a
    bool. *)
Definition abs_bool (b : bool) : Q := if b then 1 else 0.
Definition ts_eq (a b : ts) : bool :=
  (negb (Qle_bool (1 # 1000000000000000) (abs_bool (Qeq_bool (t0 a) (t0 b))))) &&
  (negb (Qle_bool (1 # 1000000000000000) (abs_bool (Qeq_bool (t1 a) (t1 b))))) &&
  (n_step a =? n_step b)%Z.

(** ** VariableTimeStepper (ts.py l.114-236).  The list of times is an object
    in a heap: get_state() returns it by reference, advance() appends to it. *)

Record vts := mkVts { w_t0 : Q; w_t1 : Q; w_n0 : Z; w_nstep : nat; w_times : nat; w_dt : Q; w_dt0 : Q;
                      w_step : nat; w_time : Q; w_nt : Q }.
Definition theap := list (list Q).
Definition tderef (h : theap) (a : nat) : list Q := nth a h [].

(** ts.py l.178-193; [None] and 0 reset the stepper. *)
Definition vset_step (h : theap) (s : vts) (st : option Z) : res (theap * vts) :=
  let st := match st with None => 0%Z | Some z => z end in
  if (0 <? st)%Z && negb (st =? Z.of_nat (w_step s))%Z then Err ValueError
  else if (st =? 0)%Z then
    Ok (h ++ [[w_t0 s]],
        mkVts (w_t0 s) (w_t1 s) (w_n0 s) 1 (length h) (w_dt s) (w_dt0 s) 0 (w_t0 s) 0)
  else Ok (h, s).

(** ts.py l.128-148 *)
Definition make_vts (h : theap) (a b : Q) (d : option Q) (n : option Z) : res (theap * vts) :=
  let d := match d with Some x => x | None => (b - a)%Q end in
  let n := match n with Some x => x | None => get_n_step a b d end in
  let d' := (if (1 <? n)%Z then (b - a) / inject_Z (n - 1) else b - a)%Q in
  vset_step h (mkVts a b n 0 0 d' d' 0 a 0) None.

(** ts.py l.153-154 *)
Definition vget_state (s : vts) : nat * Q * nat := (w_step s, w_dt s, w_times s).
(** ts.py l.156-164; n_step is not set. *)
Definition vset_state (h : theap) (s : vts) (state : nat * Q * nat) : res vts :=
  let '(st, d, a) := state in
  if length (tderef h a) =? st + 1 then
    let t := last (tderef h a) 0%Q in
    Ok (mkVts (w_t0 s) (w_t1 s) (w_n0 s) (w_nstep s) a d (w_dt0 s) st t (normalize (w_t0 s) (w_t1 s) t))
  else Err AssertionError.

(** ts.py l.198-204; [times[step - 1]] with step = 0 is the last item. *)
Definition set_time_step (h : theap) (s : vts) (d : Q) (update_time : bool) : theap * vts :=
  if update_time then
    let l := tderef h (w_times s) in
    let prev := match w_step s with 0 => last l 0%Q | S k => nth k l 0%Q end in
    let t := (prev + d)%Q in
    (upd h (w_times s) (upd l (w_step s) t),
     mkVts (w_t0 s) (w_t1 s) (w_n0 s) (w_nstep s) (w_times s) d (w_dt0 s) (w_step s) t
           (normalize (w_t0 s) (w_t1 s) t))
  else (h, mkVts (w_t0 s) (w_t1 s) (w_n0 s) (w_nstep s) (w_times s) d (w_dt0 s) (w_step s) (w_time s) (w_nt s)).

(** ts.py l.206-213 *)
Definition vadvance (h : theap) (s : vts) : theap * vts :=
  let t := (w_time s + w_dt s)%Q in
  let k := S (w_step s) in
  (upd h (w_times s) (tderef h (w_times s) ++ [t]),
   mkVts (w_t0 s) (w_t1 s) (w_n0 s) (k + 1) (w_times s) (w_dt s) (w_dt0 s) k t
         (normalize (w_t0 s) (w_t1 s) t)).

(** ts.py l.220-231, iter_from_current(): [body] is what the user does with the
    stepper in an iteration. *)
Fixpoint viter (fuel : nat) (body : theap -> vts -> theap * vts) (h : theap) (s : vts)
  (out : list (nat * Q)) : res (list (nat * Q) * theap * vts) :=
  match fuel with
  | 0 => Err OutOfFuel
  | S f =>
      let out := out ++ [(w_step s, w_time s)] in
      let '(h, s) := body h s in
      if Qle_bool 1 (w_nt s) then Ok (out, h, s)
      else let '(h, s) := vadvance h s in viter f body h s out
  end.
