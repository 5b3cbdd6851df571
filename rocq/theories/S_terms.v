(** What the terms are supposed to compute: integrals over a cell of expressions in
    the values and gradients of finite element functions, by quadrature.
    Nothing here refers to the storage of the code. *)
From Coq Require Import Reals Arith.
From Verif Require Import M_fmf.
Open Scope R_scope.

(** A cell: [nq] quadrature points, [ne] base functions, [w q] = quadrature weight
    times Jacobian, [phi q e] = value, [dphi q d e] = derivative in the direction
    [d] of base function [e]. A (vector) function has nodal values [u c e]. *)
Definition fval (phi : nat -> nat -> R) ne (u : nat -> nat -> R) (q c : nat) : R := sm ne (fun e => phi q e * u c e).
Definition fgrad (dphi : nat -> nat -> nat -> R) ne (u : nat -> nat -> R) (q c d : nat) : R := sm ne (fun e => dphi q d e * u c e).
Definition fdiv (dphi : nat -> nat -> nat -> R) ne dim u q : R := sm dim (fun c => fgrad dphi ne u q c c).
(** Cauchy strain e_ij(u) = (d_j u_i + d_i u_j) / 2. *)
Definition fstrain dphi ne u q i j : R := (fgrad dphi ne u q i j + fgrad dphi ne u q j i) / 2.

(** Base function [e] in component [c]. *)
Definition unit_ (c e : nat) : nat -> nat -> R := fun c' e' => if ((c' =? c)%nat && (e' =? e)%nat)%bool then 1 else 0.

(** int c grad q . grad p *)
Definition laplace_form nq w dim (coef : nat -> R) gq gp : R :=
  sm nq (fun q => w q * (coef q * sm dim (fun d => gq q d * gp q d))).
(** int K_ij d_i q d_j p *)
Definition diffusion_form nq w dim (K : nat -> nat -> nat -> R) (gq gp : nat -> nat -> R) : R :=
  sm nq (fun q => w q * sm dim (fun i => sm dim (fun j => K q i j * gq q i * gp q j))).
(** int D_ijkl e_ij(v) e_kl(u) *)
Definition elastic_form nq w dim (D : nat -> nat -> nat -> nat -> nat -> R) (ev eu : nat -> nat -> nat -> R) : R :=
  sm nq (fun q => w q * sm dim (fun i => sm dim (fun j => sm dim (fun k => sm dim (fun l =>
     D q i j k l * ev q i j * eu q k l))))).
(** int v . C . u  (C_ij = c delta_ij for a scalar coefficient) *)
Definition dot_form nq w dim (C : nat -> nat -> nat -> R) (v u : nat -> nat -> R) : R :=
  sm nq (fun q => w q * sm dim (fun i => sm dim (fun j => C q i j * v q i * u q j))).
(** int nu grad v : grad u *)
Definition divgrad_form nq w dim (nu : nat -> R) (gv gu : nat -> nat -> nat -> R) : R :=
  sm nq (fun q => w q * (nu q * sm dim (fun c => sm dim (fun d => gv q c d * gu q c d)))).
(** int ((b . grad) u) . v *)
Definition convect_form nq w dim (b v : nat -> nat -> R) (gu : nat -> nat -> nat -> R) : R :=
  sm nq (fun q => w q * sm dim (fun c => v q c * sm dim (fun d => b q d * gu q c d))).
(** int c p div v *)
Definition stokes_form nq w (coef dv p : nat -> R) : R := sm nq (fun q => w q * (coef q * p q * dv q)).
(** int p alpha_ij d_j v_i  (for a symmetric alpha: p alpha_ij e_ij(v)) *)
Definition biot_form nq w dim (al : nat -> nat -> nat -> R) (gv : nat -> nat -> nat -> R) (p : nat -> R) : R :=
  sm nq (fun q => w q * (p q * sm dim (fun i => sm dim (fun j => al q i j * gv q i j)))).

(** Symmetric storage: 3D [11, 22, 33, 12, 13, 23], 2D [11, 22, 12]. *)
Definition voigt (dim i j : nat) : nat :=
  (if i =? j then i else match dim with 3 => i + j + 2 | _ => 2 end)%nat.

Definition delta (i j : nat) : R := if (i =? j)%nat then 1 else 0.

(** How the arrays of a cell are read. *)
Definition PHI (b : FMF) (q e : nat) : R := at_ b q 0 e.
Definition DPHI (g : FMF) (q d e : nat) : R := at_ g q d e.
Definition scal (o : FMF) (q : nat) : R := at_ o q 0 0.
Definition sub (n_comp : nat) (st : nat -> R) (conn : nat -> nat) (c e : nat) : R := st (n_comp * conn e + c)%nat.
(** int c (v . n) p *)
Definition vn_form nq w dim (coef : nat -> R) (n : nat -> nat -> R) (v : nat -> nat -> R) (p : nat -> R) : R :=
  sm nq (fun q => w q * (coef q * p q * sm dim (fun i => v q i * n q i))).
