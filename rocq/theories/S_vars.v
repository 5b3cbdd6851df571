(** Specification: what the data of a variable with a history are, in terms of
    the user's arrays and the moments of the time advances. *)
From Verif Require Import Base M_vars.
Set Implicit Arguments.
Open Scope nat_scope.

Section Spec.
Context {A B D : Type}.
Variable ev : Z -> Z -> list A -> B.
Variable bdiff : D -> list A -> list A -> list A.
(** The variable owns the part [s, e) of the arrays. *)
Variables (s e : nat).
Definition part (x : list A) : list A := firstn (e - s) (skipn s x).

(** The user's arrays, which of them is the current one, and the data that
    were current at the calls of advance(), the latest first. *)
Record abs := mkAbs { arrays : list (list A); cur : option nat; snaps : list (list A) }.
Definition cur_value (a : abs) : list A :=
  match cur a with Some i => part (nth i (arrays a) []) | None => [] end.

(** The data [k] advances ago; before the first ones, the oldest ones. *)
Definition ago (a : abs) (k : nat) : list A :=
  match k with 0 => cur_value a | S k' => nth k' (snaps a) (last (snaps a) []) end.

(** Executions: the user's arrays live at the addresses [0..m-1]; the data of the current step
    are set to one of them, the arrays are modified in place, the time is
    advanced, quantities are evaluated (in steps allowed by [ok_eval]), caches
    are invalidated. *)
Inductive run (n : nat) (v0 : @var B D) (m : nat) (ok_eval : Z -> nat -> Prop) :
  abs -> list (list A) -> @var B D -> Prop :=
| run_init : forall H, length H = m -> v_history v0 = Some n -> v_cache v0 = [] ->
    (forall x, In x H -> e <= length x) ->
    run n v0 m ok_eval (mkAbs H None []) H (init_history v0)
| run_set : forall a h v i v', run n v0 m ok_eval a h v -> i < m ->
    set_data i (Some (s, e)) 0 false h v = Ok v' ->
    run n v0 m ok_eval (mkAbs (arrays a) (Some i) (snaps a)) h v'
| run_write : forall a h v i x h' v', run n v0 m ok_eval a h v -> i < m -> length x = length (nth i (arrays a) []) ->
    write_state i x h v = (h', v') ->
    run n v0 m ok_eval (mkAbs (upd (arrays a) i x) (cur a) (snaps a)) h' v'
| run_advance : forall a h v t h' v', run n v0 m ok_eval a h v -> cur a <> None ->
    advance t h v = Ok (h', v') ->
    run n v0 m ok_eval (mkAbs (arrays a) (cur a) (cur_value a :: snaps a)) h' v'
| run_evaluate : forall a h v mode key st, run n v0 m ok_eval a h v -> ok_eval st (v_step v) ->
    run n v0 m ok_eval a h (snd (evaluate ev bdiff h v mode key st None))
| run_invalidate : forall a h v st, run n v0 m ok_eval a h v ->
    run n v0 m ok_eval a h (invalidate_evaluate_cache st v)
| run_clear : forall a h v, run n v0 m ok_eval a h v ->
    run n v0 m ok_eval a h (clear_evaluate_cache v).

End Spec.
