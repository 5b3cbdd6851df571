(** Model: cg_eigs (sfepy/linalg/eigen.py) over the reals: the conjugate
    gradients with the Lanczos tridiagonal matrix. *)
From Coq Require Import Reals.
From Verif Require Import Base.
Open Scope R_scope.

(** Vectors of length [n]: functions, of which the items below [n] are used. *)
Definition vec := nat -> R.
(** [nm.dot(u, v)] *)
Fixpoint dot (n : nat) (u v : vec) : R :=
  match n with O => 0 | S k => dot k u v + u k * v k end.
(** [mtx @ v] *)
Definition mv (n : nat) (A : nat -> nat -> R) (v : vec) : vec := fun i => dot n (A i) v.
(** [nm.linalg.norm] *)
Definition norm (n : nat) (v : vec) : R := sqrt (dot n v v).

(** eigen.py l.68-75: the shift; [mtx_norm] is [infinity_norm(mtx)] (C212). *)
Definition shift_value (shift : option R) (mtx_norm : R) : R :=
  match shift with
  | None => 0
  | Some s => if Rlt_dec s 0 then Rabs s * mtx_norm else s
  end.
Definition shifted (A : nat -> nat -> R) (s : R) : nat -> nat -> R :=
  fun i j => A i j + s * (if Nat.eqb i j then 1 else 0).

(** The variables of the loop l.111-162; [d0], [d1]: the rows of [diags]
    (nm.empty: the initial values of the items other than [diags[0, 0]] are not
    used, here 0). *)
Record cg := Cg { cx : vec; cr : vec; cz : vec; cp : vec; cbeta : R; crho : R;
                  cd0 : vec; cd1 : vec; cnorms : list R }.
Inductive status := Go | Precision | Converged.

Section CG.
Variables (n : nat) (A : nat -> nat -> R) (precond : option (nat -> nat -> R)) (rhs : vec) (eps_r : R).

Definition apply_prec (r : vec) : vec := match precond with None => r | Some M => mv n M r end.

(** l.79-104 *)
Definition cg_init : cg :=
  let z0 := apply_prec rhs in
  Cg (fun _ => 0) rhs z0 (fun _ => 0) 0 (dot n z0 rhs) (fun _ => 0) (fun _ => 0) [norm n rhs].

(** [d[i] = x] *)
Definition set (d : vec) (i : nat) (x : R) : vec := fun k => if Nat.eqb k i then x else d k.

(** l.111-162, one iteration.  [alpha] is not finite when [dot(p, q)] is zero.
    The convergence test compares [norm_r / norm_r0]: when it is reached,
    [norm_r0] is not zero. *)
Definition cg_iter (ii : nat) (s : cg) : cg * status :=
  let p := fun i => cz s i + cbeta s * cp s i in
  let q := mv n A p in
  let pq := dot n p q in
  if Req_EM_T pq 0 then (s, Precision) else
  let alpha := crho s / pq in
  if Rlt_dec (Rabs alpha) (/ 10 ^ 16) then (s, Precision) else
  let x := fun i => cx s i + alpha * p i in
  let r := fun i => cr s i - alpha * q i in
  let z := apply_prec r in
  let rho1 := dot n z r in
  let beta := rho1 / crho s in
  let d0 := set (set (cd0 s) ii (cd0 s ii + 1 / alpha)) (S ii) (beta / alpha) in
  let d1 := set (cd1 s) ii (- sqrt beta / alpha) in
  (Cg x r z p beta rho1 d0 d1 (cnorms s ++ [norm n r]),
   if Rlt_dec (norm n r / norm n rhs) eps_r then Converged else Go).

(** The loop [for ii in range(i_max)]: the final variables and [ii]; [todo] is
    the number of the remaining iterations. *)
Fixpoint cg_loop (todo ii : nat) (s : cg) : cg * Z :=
  match todo with
  | O => (s, Z.of_nat ii - 1)%Z
  | S t =>
      match cg_iter ii s with
      | (s', Precision) => (s', Z.of_nat ii - 1)%Z
      | (s', Converged) => (s', Z.of_nat ii)
      | (s', Go) => cg_loop t (S ii) s'
      end
  end.
End CG.

(** l.25-179, cg_eigs: [x], [ii], [norm_rs] and, in place of the eigenvalues,
    the matrix [diags[:, :ii+1]] given to eigvals_banded and the shift
    subtracted from its eigenvalues.  With [i_max] 0, [ii] is not defined
    (UnboundLocalError is a NameError). *)
Record cg_out := CgOut { o_x : vec; o_it : Z; o_norms : list R; o_diag : list R; o_sub : list R; o_shift : R }.
Definition cg_eigs (n : nat) (A : nat -> nat -> R) (rhs : vec) (precond : option (nat -> nat -> R))
    (i_max : nat) (eps_r : R) (shift : option R) (mtx_norm : R) : res cg_out :=
  let sh := shift_value shift mtx_norm in
  let A' := shifted A sh in
  match i_max with
  | O => Err NameError
  | _ =>
    let (s, ii) := cg_loop n A' precond rhs eps_r i_max 0 (cg_init n precond rhs) in
    let m := Z.to_nat (ii + 1) in
    Ok (CgOut (cx s) ii (cnorms s) (map (cd0 s) (seq 0 m)) (map (cd1 s) (seq 0 m)) sh)
  end.
