(** Model of sfepy/solvers/nls.py: [conv_test], [apply_line_search_bt], [Newton].

    Numbers are exact reals.  The residual, the tangent matrix and the linear solver are
    arbitrary functions of their arguments; logging, timing and the iteration hook are left
    out, so are the scaling functions (their defaults are identities) and the tolerances
    passed to the linear solver. *)
From Coq Require Import Reals.
From Verif Require Import Base.
Set Implicit Arguments.
Open Scope nat_scope.

Notation vec := (list R).
Definition vsub (x y : vec) : vec := map (fun p => (fst p - snd p)%R) (combine x y).
Definition vscale (a : R) (x : vec) : vec := map (fun v => (a * v)%R) x.
Definition sumsq (x : vec) : R := fold_right (fun v s => (v * v + s)%R) 0%R x.
(** numpy.linalg.norm of a vector *)
Definition norm (x : vec) : R := sqrt (sumsq x).
Definition Rltb (a b : R) : bool := if Rlt_dec a b then true else false.
Definition Rleb (a b : R) : bool := if Rle_dec a b then true else false.

(** Evaluation of the residual: a finite vector, a vector with infs or nans, or the
    ValueError of a failed ("warp violation") assembling. *)
Inductive fval := FVal (r : vec) | FInf | FFail.
Inductive mode := Residual | ErrorEst | OtherMode.
(** nls.py l.393-474 *)
Record conf := mkConf {
  i_max : Z; eps_a : R; eps_r : R; eps_or : bool; macheps : R;
  lin_red : option R; scaled_error : bool; step_red : R;
  ls_mode : mode; ls_on : R; ls_red : R; ls_red_warp : R; ls_min : R;
  give_up_warp : bool; is_linear : bool }.

(** nls.py l.80-127, -1 is [None] *)
Definition conv_test (c : conf) (it : nat) (err err0 : R) : option nat :=
  let err_r := if Rltb (Rabs err0) (macheps c) then 0%R else (err / err0)%R in
  let conv_a := Rleb err (eps_a c) in
  let status := if 0 <? it then
                  let conv_r := Rleb err_r (eps_r c) in
                  if conv_a && conv_r then Some 0
                  else if eps_or c && (conv_a || conv_r) then Some 0 else None
                else if conv_a then Some 0 else None in
  match status with
  | Some s => Some s
  | None => if (i_max c <=? Z.of_nat it)%Z then Some 1 else None
  end.

Section Newton.
Variable M : Type.                                   (* matrices *)
Variable c : conf.
Variable f : vec -> fval.                            (* fun *)
Variable grad : option vec -> M.                     (* fun_grad, [None] is 'linear' *)
Variable solve : M -> vec -> vec -> vec * nat.       (* lin_solver mtx rhs x0: solution, number of iterations *)
Variable new_jac : nat -> nat -> vec -> option vec -> vec -> vec -> bool. (* is_new_jacobian_fun it it_jac r r_last x x_last *)

(** nls.py l.499-560 with resolve=True: [smtx_a] is not defined there
    (UnboundLocalError, a NameError). *)
Definition resolve (m : option M) (x : vec) (r : vec) : res vec :=
  match m with
  | None => Err TypeError (* the solver has no matrix yet; not reached: mtx_a is set for it > 0 *)
  | Some m =>
    let d := fst (solve m r x) in
    match lin_red c with
    | Some _ => if scaled_error c then Err NameError else Ok d
    | None => Ok d
    end
  end.

(** nls.py l.129-213; [last] are vec_r, err if already assigned. *)
Fixpoint line_search (fuel : nat) (x0 dx0 : vec) (it : nat) (err_last : R) (solve_again : vec -> res vec)
    (ls : R) (dx : vec) (last : option (vec * R)) : res (vec * vec * R * bool) :=
  match fuel with
  | 0 => Err OutOfFuel
  | S fuel =>
    let x := vsub x0 dx in
    match f x with
    | FInf => Err ValueError
    | FFail =>
      if (it =? 0) || Rltb ls (ls_min c) then Err ValueError
      else if give_up_warp c then
        match last with None => Err NameError | Some (r, e) => Ok (x, r, e, false) end
      else if Rltb ls (ls_min c) then
        match last with None => Err NameError | Some (r, e) => Ok (x, r, e, false) end
      else let ls := (ls * ls_red_warp c)%R in
           line_search fuel x0 dx0 it err_last solve_again ls (vscale ls dx0) last
    | FVal r =>
      let e := norm r in
      if it =? 0 then Ok (x, r, e, true)
      else
        let again := if Rltb ls (ls_min c) then Ok (x, r, e, true)
                     else let ls := (ls * ls_red c)%R in
                          line_search fuel x0 dx0 it err_last solve_again ls (vscale ls dx0) (Some (r, e)) in
        match ls_mode c with
        | Residual => if Rltb e (err_last * ls_on c) then Ok (x, r, e, true) else again
        | ErrorEst =>
          match solve_again r with
          | Err ex => Err ex
          | Ok d => if Rltb (norm d) (norm dx0 * ls_on c) then Ok (x, r, e, true) else again
          end
        | OtherMode => Err ValueError
        end
    end
  end.

(** What is seen of one iteration: the iterate, its residual, and whether it comes from a
    successful evaluation, the number of the iteration whose matrix is used next *)
Record entry := mkE { e_x : vec; e_r : vec; e_err : R; e_ok : bool; e_jac : nat }.
Record result := mkRes { r_x : vec; r_err0 : R; r_err : R; r_iter : nat; r_ls_iter : nat; r_cond : nat; r_hist : list entry }.

(** nls.py l.615-688: the state at the top of the loop.  vec_dx = 0.0 of the first
    iteration is a vector of zeros here, vec_r_last = 0.0 is [None]. *)
Record state := mkS { s_x : vec; s_r : option vec; s_dx : vec; s_errl : R; s_err0 : R; s_it : nat; s_itj : nat; s_mtx : option M; s_lsn : nat; s_hist : list entry }.
Fixpoint loop (fuel lsfuel : nat) (s : state) : res result :=
  match fuel with
  | 0 => Err OutOfFuel
  | S fuel =>
    do (x, r, e, ok) <- line_search lsfuel (s_x s) (s_dx s) (s_it s) (s_errl s) (resolve (s_mtx s) (s_x s)) 1 (s_dx s) None;
    let err0 := if s_it s =? 0 then e else s_err0 s in
    let finish cond := Ok (mkRes x err0 e (s_it s) (s_lsn s) cond (s_hist s ++ [mkE x r e ok (s_itj s)])) in
    match conv_test c (s_it s) e err0 with
    | Some cond => finish cond
    | None =>
      if negb ok && give_up_warp c then finish 2
      else
        let '(m, itj) :=
          if is_linear c then (grad None, s_itj s)
          else match s_mtx s with
               | None => (grad (Some x), s_it s)
               | Some m => if new_jac (s_it s) (s_itj s) r (s_r s) x (s_x s) then (grad (Some x), s_it s) else (m, s_itj s)
               end in
        let '(d, n) := solve m r x in
        loop fuel lsfuel (mkS x (Some r) (vscale (step_red c) d) e err0 (S (s_it s)) itj (Some m) (s_lsn s + n) (s_hist s ++ [mkE x r e ok itj]))
    end
  end.
(** nls.py l.563-712 *)
Definition newton (fuel lsfuel : nat) (x0 : vec) : res result :=
  loop fuel lsfuel (mkS x0 None (map (fun _ => 0%R) x0) (-1) (-1) 0 0 None 0 []).
End Newton.
