(** Model of sfepy/solvers/semismooth_newton.py.

    Numbers are exact reals.  [fun_smooth], [fun_a], [fun_b] are arbitrary
    functions that may raise ValueError, the gradients and the linear solver are
    arbitrary; logging and timing are left out. *)
From Coq Require Import Reals.
From Verif Require Import Base M_nls.
Set Implicit Arguments.
Open Scope nat_scope.

(** ** The residual, l.126-134 *)
Definition fischer_burmeister (a b : R) : R := (sqrt (a ^ 2 + b ^ 2) - (a + b))%R.
Definition brute_force (a b : R) : R := if Rltb a b then a else b.
Definition nonsmooth (semismooth : bool) (a b : R) : R :=
  if semismooth then fischer_burmeister a b else brute_force a b.
Definition vec_semismooth_r (semismooth : bool) (a b : vec) : vec :=
  map (fun p => nonsmooth semismooth (fst p) (snd p)) (combine a b).
(** l.143: [nm.r_[vec_smooth_r, vec_semismooth_r]] *)
Definition residual (semismooth : bool) (r : vec * vec * vec) : vec :=
  let '(s, a, b) := r in s ++ vec_semismooth_r semismooth a b.

(** ** The Jacobian, l.262-326 *)
Definition vmaxabs (v : vec) : R := fold_right (fun x m => Rmax (Rabs x) m) 0%R v.
(** l.275-279: the active indices [iz]. *)
Definition is_active (macheps : R) (a b : vec) (i : nat) : bool :=
  Rltb (Rabs (nth i a 0%R)) (macheps * Rmax (vmaxabs a) 1)
  && Rltb (Rabs (nth i b 0%R)) (macheps * Rmax (vmaxabs b) 1).
Definition active (macheps : R) (a b : vec) : list nat :=
  filter (is_active macheps a b) (seq 0 (length a)).

Definition rdot (n : nat) (u v : nat -> R) : R :=
  fold_right (fun j s => (u j * v j + s)%R) 0%R (seq 0 n).

(** l.284-314: the multipliers of the rows of [mtx_a] (with [self_row] = row of
    [mtx_a]) or of [mtx_b].  [n] unknowns, [n_s] smooth equations,
    [vec_z[n_s+iz] = 1]. *)
Definition vec_z (n_s : nat) (iz : list nat) (j : nat) : R :=
  if existsb (fun i => j =? n_s + i) iz then 1%R else 0%R.
Definition mul_semismooth (n n_s : nat) (macheps : R) (a b : vec)
    (mtx_a mtx_b : nat -> nat -> R) (i : nat) : R * R :=
  let iz := active macheps a b in
  if is_active macheps a b i then
    let s := sqrt (rdot n (mtx_a i) (mtx_a i) + rdot n (mtx_b i) (mtx_b i)) in
    ((rdot n (mtx_a i) (vec_z n_s iz) / s - 1)%R,
     (rdot n (mtx_b i) (vec_z n_s iz) / s - 1)%R)
  else
    let s := sqrt (nth i a 0%R ^ 2 + nth i b 0%R ^ 2) in
    ((nth i a 0%R / s - 1)%R, (nth i b 0%R / s - 1)%R).
(** l.316-322: the brute force multipliers. *)
Definition mul_brute (a b : vec) (i : nat) : R * R :=
  if Rltb (nth i b 0%R) (nth i a 0%R) then (1%R, 0%R) else (0%R, 1%R).
Definition multipliers (semismooth : bool) n n_s macheps a b mtx_a mtx_b i : R * R :=
  if semismooth then mul_semismooth n n_s macheps a b mtx_a mtx_b i else mul_brute a b i.
(** l.324-329: row [i] of the nonsmooth part of the Jacobian. *)
Definition jac_row (semismooth : bool) n n_s macheps a b (mtx_a mtx_b : nat -> nat -> R)
    (i j : nat) : R :=
  let m := multipliers semismooth n n_s macheps a b mtx_a mtx_b i in
  (fst m * mtx_a i j + snd m * mtx_b i j)%R.

(** ** The solver, l.68-260 *)
Inductive step_mode := Regular | Steepest.
Record sconf := SConf { nc : conf; red_regular : R; red_steepest : R;
                        s_lin_red : R; s_semismooth : bool }.

Section Solver.
Variable M : Type.
Variable c : sconf.
(** [fun_smooth], [fun_a], [fun_b]; None: one of them raised ValueError. *)
Variable F : vec -> option (vec * vec * vec).
(** [compute_jacobian]: from the state and the residuals it is given. *)
Variable jac : vec -> vec * vec * vec -> M.
Variable solve : M -> vec -> vec.         (* lin_solver(vec_r, mtx=mtx_jac) *)
Variable mul : M -> vec -> vec.           (* mtx_jac @ v *)
Variable mulT : M -> vec -> vec.          (* mtx_jac.T @ v *)

Definition red (m : step_mode) : R :=
  match m with Regular => red_regular c | Steepest => red_steepest c end.

(** What the residual loop leaves: the state, the residuals (for the Jacobian),
    [vec_r], its norm, the mode, and whether the matrix is to be reused. *)
Record inner := Inner { i_x : vec; i_res : vec * vec * vec; i_r : vec; i_err : R;
                        i_mode : step_mode; i_reuse : bool }.

(** l.108-203, the residual loop.  [x]: [vec_x]; [x_last], [dx0], [err_last]
    from the previous iteration; [r_last] is always the last computed
    residual, as it is set before the error is tested. *)
Fixpoint residual_loop (fuel : nat) (it : nat) (x_last dx0 : vec) (err_last : R)
    (mode : step_mode) (ls : R) (x : vec) : res inner :=
  match fuel with
  | 0 => Err OutOfFuel
  | S fuel =>
    match F x with
    | None =>
        if (it =? 0) || Rltb ls (ls_min (nc c)) then Err ValueError
        else let ls' := (ls * ls_red_warp (nc c))%R in
             residual_loop fuel it x_last dx0 err_last mode ls'
               (vsub x_last (vscale ls' dx0))
    | Some r =>
        let vr := residual (s_semismooth c) r in
        let err := norm vr in
        if it =? 0 then Ok (Inner x r vr err mode false)
        else if Rltb err (err_last * ls_on (nc c))
        then Ok (Inner x r vr err Regular false)
        else if Rltb ls (ls_min (nc c))
        then match mode with
             | Regular => Ok (Inner x_last r vr err_last Steepest true)
             | Steepest => Ok (Inner x r vr err Steepest false)
             end
        else let ls' := (ls * red mode)%R in
             residual_loop fuel it x_last dx0 err_last mode ls'
               (vsub x_last (vscale ls' dx0))
    end
  end.

Record sresult := SResult { q_x : vec; q_err0 : R; q_err : R; q_cond : nat; q_it : nat }.

(** l.222-249: the step. *)
Definition step (m : M) (o : inner) : vec * step_mode :=
  match i_mode o with
  | Steepest => (mulT m (i_r o), Steepest)
  | Regular =>
      let dx := solve m (i_r o) in
      if Rltb (eps_a (nc c) * s_lin_red c) (norm (vsub (mul m dx) (i_r o)))
      then (mulT m (i_r o), Steepest) else (dx, Regular)
  end.

(** l.101-249, the main loop. *)
Fixpoint main_loop (fuel lsfuel : nat) (it : nat) (x x_last dx : vec)
    (err0 err_last : R) (mode : step_mode) (mtx : option M) : res sresult :=
  match fuel with
  | 0 => Err OutOfFuel
  | S fuel =>
    do o <- residual_loop lsfuel it x_last dx err_last mode 1%R x;
    let err0 := if it =? 0 then i_err o else err0 in
    match conv_test (nc c) it (i_err o) err0 with
    | Some cond => Ok (SResult (i_x o) err0 (i_err o) cond it)
    | None =>
        do m <- (if i_reuse o then match mtx with Some m => Ok m | None => Err NameError end
                 else Ok (jac (i_x o) (i_res o)));
        let '(dx', mode') := step m o in
        main_loop fuel lsfuel (S it) (vsub (i_x o) dx') (i_x o) dx' err0 (i_err o)
                  mode' (Some m)
    end
  end.

Definition semismooth_newton (fuel lsfuel : nat) (x0 : vec) : res sresult :=
  main_loop fuel lsfuel 0 x0 x0 [] (-1)%R (-1)%R Regular None.
End Solver.
