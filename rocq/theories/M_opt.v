(** Model of sfepy/solvers/optimize.py: [conv_test], [FMinSteepestDescent].

    Numbers are exact reals.  The objective function (None: the value could not be
    computed), its gradient and the norm are arbitrary.  Not modelled: the method 'full'
    (SciPy line searches), the gradient check, logging and timing. *)
From Coq Require Import Reals.
From Verif Require Import Base M_nls.
Set Implicit Arguments.
Open Scope nat_scope.

(** l.86-120; [o_bt]: [ls and ls_method == 'backtracking']. *)
Record oconf := OConf { o_imax : Z; o_rd : R; o_of : R; o_ofg : R; o_bt : bool; o_on : R;
                        o_ls0 : R; o_red : R; o_warp : R; o_min : R }.

(** l.13-37, -1 is [None] *)
Definition Rnz (x : R) : bool := if Req_EM_T x 0 then false else true.
Definition oconv_test (c : oconf) (it : nat) (obj obj0 gn : R) : option nat :=
  let status :=
    if Rltb (Rabs obj) (o_of c) then Some 0
    else if Rnz gn && Rltb gn (o_ofg c) then Some 2
    else if (0 <? it) && Rltb (Rabs (obj0 - obj)) (o_rd c * Rabs obj0) then Some 3
    else None in
  match status with
  | Some s => Some s
  | None => if (o_imax c <=? Z.of_nat it)%Z then Some 1 else None
  end.

(** What status['status'] is set to, l.319: the dict itself. *)
Inductive status_entry := Itself | Code (ret : nat).
Record oresult := OResult { p_x : vec; p_of0 : R; p_of : R; p_ret : nat; p_it : nat;
                            p_status : status_entry }.

Section Optimizer.
Variable c : oconf.
Variable fn : vec -> option R.
Variable grad : vec -> vec.
Variable nrm : vec -> R.

(** l.214-242: the step length. *)
Fixpoint backtrack (fuel : nat) (x g : vec) (obj alpha : R) : res R :=
  match fuel with
  | 0 => Err OutOfFuel
  | S fuel =>
    match fn (vsub x (vscale alpha g)) with
    | None =>
        let alpha' := (alpha * o_warp c)%R in
        if Rltb alpha' (o_min c) then Err RuntimeError
        else backtrack fuel x g obj alpha'
    | Some aux =>
        if o_bt c then
          if Rltb aux (obj * o_on c) then Ok alpha
          else let alpha' := (alpha * o_red c)%R in
               if Rltb alpha' (o_min c) then Ok alpha'
               else backtrack fuel x g obj alpha'
        else Ok alpha
    end
  end.

(** l.187-285, the main loop; a value None cannot be printed in [conv_test]. *)
Fixpoint oloop (fuel lsfuel : nat) (it : nat) (x : vec) (obj0 objit0 : R) : res oresult :=
  match fuel with
  | 0 => Err OutOfFuel
  | S fuel =>
    match fn x with
    | None => Err TypeError
    | Some obj =>
        let obj0 := if it =? 0 then obj else obj0 in
        let objit0 := if it =? 0 then obj else objit0 in
        let g := grad x in
        match oconv_test c it obj objit0 (nrm g) with
        | Some ret => Ok (OResult x obj0 obj ret it Itself)
        | None =>
            do alpha <- backtrack lsfuel x g obj (o_ls0 c);
            oloop fuel lsfuel (S it) (vsub x (vscale alpha g)) obj0 obj
        end
    end
  end.
Definition fmin_sd (fuel lsfuel : nat) (x0 : vec) : res oresult :=
  oloop fuel lsfuel 0 x0 0%R 0%R.
End Optimizer.
