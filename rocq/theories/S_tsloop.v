(** Specification: what a time stepping solver does, in terms of the sequence of
    the calls of the user functions and of the nonlinear solver. *)
From Coq Require Import QArith.
From Verif Require Import Base M_ts M_tsloop.
Set Implicit Arguments.
Open Scope nat_scope.

Section S.
Context {V : Type}.

(** The recorded results are those of the given functions, called with the
    recorded arguments. *)
Definition call_ok (pre post : trace V -> nat -> Q -> V -> V) (nls : trace V -> nat -> Q -> Q -> V -> V * (bool * nat))
  (past : trace V) (e : event V) : Prop :=
  match e_kind e with
  | KPre => e_out e = pre past (e_step e) (e_time e) (e_in e)
  | KPost => e_out e = post past (e_step e) (e_time e) (e_in e)
  | KSolve => e_out e = fst (nls past (e_step e) (e_time e) (e_mdt e) (e_in e))
  | KInit => True
  end.
Definition calls_ok pre post nls (tr : trace V) : Prop :=
  forall i e, nth_error tr i = Some e -> call_ok pre post nls (firstn i tr) e.

(** One prestep_fun, one solver and one poststep_fun call in each of the steps
    [ks], each with the result of the previous call; the state goes from [v] to
    [v'].  The solver is not called in step 0 of a problem that is not
    quasistatic. *)
Fixpoint simple_run (quasistatic : bool) (tm : nat -> Q) (ks : list nat) (v : V) (tr : trace V) (v' : V) : Prop :=
  match ks with
  | [] => tr = [] /\ v' = v
  | k :: ks' => exists d a b c kd tr',
      tr = [Ev KPre k (tm k) d d v a; Ev kd k (tm k) d d a b; Ev KPost k (tm k) d d b c] ++ tr' /\
      (if (k =? 0) && negb quasistatic then kd = KInit /\ b = a else kd = KSolve) /\
      simple_run quasistatic tm ks' c tr' v'
  end.

(** The attempts to compute the step [k] starting at the time [tp] (of the step
    [k - 1]): in each attempt prestep_fun and the solver are called with the
    time [tp + d]; every next attempt has a smaller positive [d] and starts with
    the same state (processed by prestep_fun).  [b] is the result of the last
    attempt, [t] and [d] its time and step size. *)
Inductive attempts (k : nat) (tp : Q) : V -> trace V -> V -> Q -> Q -> Prop :=
| at_last : forall t d m v a b, (t == tp + d)%Q -> (0 < d)%Q -> 
    attempts k tp v [Ev KPre k t d d v a; Ev KSolve k t d m a b] b t d
| at_retry : forall t d m v a b tr b' t' d', (t == tp + d)%Q ->
    attempts k tp a tr b' t' d' -> 
    (match tr with e :: _ => e_dt e < d | [] => False end)%Q ->
    attempts k tp v ([Ev KPre k t d d v a; Ev KSolve k t d m a b] ++ tr) b' t' d'.

(** The steps [k], [k + 1], ... : the attempts, then poststep_fun once; the next
    step starts with its result.  The last step is the first one with the time at least
    [t1]; [v'] is the final state (the result of the last poststep_fun) and [w]
    the argument of the last call of the solver. *)
Inductive adaptive_run (t1 : Q) : nat -> Q -> V -> trace V -> V -> V -> Prop :=
| ar_last : forall k tp v tr b t d d' c w e tr0, attempts k tp v tr b t d -> (t1 <= t)%Q ->
    tr = tr0 ++ [e] -> e_in e = w ->
    adaptive_run t1 k tp v (tr ++ [Ev KPost k t d' d' b c]) c w
| ar_next : forall k tp v tr b t d d' c tr' v' w, attempts k tp v tr b t d -> (t < t1)%Q ->
    adaptive_run t1 (S k) t c tr' v' w ->
    adaptive_run t1 k tp v (tr ++ [Ev KPost k t d' d' b c] ++ tr') v' w.

(** The time levels: the times of the poststep_fun calls. *)
Definition posts (tr : trace V) : list (nat * Q) :=
  map (fun e => (e_step e, e_time e)) (filter (fun e => match e_kind e with KPost => true | _ => false end) tr).
End S.
