(** Model: time step controllers (sfepy/solvers/ts_controllers.py), exact real
    arithmetic.  The scaled errors are inputs. *)
From Coq Require Import Reals.
From Verif Require Import Base.
Set Implicit Arguments.
Open Scope R_scope.

(** [min(a, x)] and [max(a, x)] where [x] may be infinite ([None]). *)
Definition rmin (a : R) (x : option R) : R := match x with Some y => Rmin a y | None => a end.
Definition rmax (a : R) (x : option R) : option R := match x with Some y => Some (Rmax a y) | None => None end.

(** [e ** p] for e >= 0 and floats: [0 ** p] is 0, 1, inf for p > 0, = 0, < 0. *)
Definition npow (e p : R) : option R :=
  if Req_EM_T e 0 then (if Rlt_dec 0 p then Some 0 else if Rlt_dec p 0 then None else Some 1)
  else Some (Rpower e p).
(** [a / x] for a > 0: division by zero gives inf, by inf 0. *)
Definition ndiv (a : R) (x : option R) : option R :=
  match x with
  | None => Some 0
  | Some y => if Req_EM_T y 0 then None else Some (a / y)
  end.
Definition nmul (x y : option R) : option R :=
  match x, y with Some a, Some b => Some (a * b) | _, _ => None end.

Inductive result := Accept | Reject.

Record conf := mkConf { fmin : R; fmax : R; fsafety : R; error_order : R;
  pcoef : R; icoef : R; dcoef : R; fred : R; inc_wait : nat; min_finc : R }.

Section C.
Variable c : conf.

(** ts_controllers.py l.141-167, ElastodynamicsBasicTSC.__call__(); [e] is emax. *)
Definition basic (dt e : R) : R * result :=
  if Rle_dec e 1
  then (dt * rmin (fmax c) (ndiv (fsafety c) (npow e (1 / error_order c))), Accept)
  else (dt * match rmax (fmin c) (ndiv (fsafety c) (npow e (1 / error_order c))) with Some x => x | None => 0 end, Reject).

(** ts_controllers.py l.213-246, ElastodynamicsPIDTSC.__call__(); the state is
    (emax0, emax00).  With a zero error in the previous steps and a negative
    power the product [0 * inf] is nan in the code; such a case is not modelled
    ([nmul] gives inf). *)
Definition pid (st : R * R) (dt e : R) : R * result * (R * R) :=
  let '(e0, e00) := st in
  let b1 := - (pcoef c + icoef c + dcoef c) / error_order c in
  let b2 := (pcoef c + 2 * dcoef c) / error_order c in
  let b3 := - dcoef c / error_order c in
  let c1 := if Req_EM_T b1 0 then Some 1 else npow e b1 in
  let c2 := if Req_EM_T b2 0 then Some 1 else npow e0 b2 in
  let c3 := if Req_EM_T b3 0 then Some 1 else npow e00 b3 in
  let f := rmin (fmax c) (rmax (fmin c) (nmul (nmul (nmul (Some (fsafety c)) c1) c2) c3)) in
  (dt * f, if Rle_dec e 1 then Accept else Reject, (e, e0)).

(** ts_controllers.py l.291-318, ElastodynamicsLinearTSC.__call__(); the state
    is the count. *)
Definition linear (count : nat) (dt e : R) : R * result * nat :=
  match basic dt e with
  | (new_dt, Reject) => (new_dt * fred c, Reject, 0%nat)
  | (new_dt, Accept) =>
      if (inc_wait c <=? count)%nat then
        if Rle_dec (min_finc c) (new_dt / dt) then (new_dt, Accept, 0%nat) else (dt, Accept, count)
      else (dt, Accept, S count)
  end.

(** The sequence of calls: with errors [es], every call gets the previous new
    step size.  Outputs: (dt, new dt, result) of the calls. *)
Fixpoint linear_run (count : nat) (dt : R) (es : list R) : list (R * R * result) :=
  match es with
  | [] => []
  | e :: t => let '(d, r, count') := linear count dt e in (dt, d, r) :: linear_run count' d t
  end.
End C.
