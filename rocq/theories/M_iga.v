(** Model of sfepy/discrete/iga/iga.py and sfepy/discrete/iga/extmods/nurbs.c.

    Floats are exact reals; an array is a function of its indices (the sizes are those of the
    code, entries outside are never looked at by the theorems). *)
From Coq Require Import Reals Arith List Bool.
From Verif Require Import M_fmf.
Import ListNotations.
Open Scope R_scope.

Definition arr := nat -> R.
Definition mat := nat -> nat -> R.
Definition upd (f : arr) (i : nat) (v : R) : arr := fun k => if (k =? i)%nat then v else f k.
Definition eye : mat := fun i j => if (i =? j)%nat then 1 else 0.

(** iga.py l.711-716 / nurbs.c l.280-286, l.294-299: one pass of the triangular scheme over [n] functions. *)
Definition bern_step (x : R) (s : arr * R) (ifun : nat) : arr * R :=
  let '(funs, prev) := s in
  let tmp := x * funs ifun in
  (upd funs ifun ((1 - x) * funs ifun + prev), tmp).
Definition bern_pass (x : R) (n : nat) (funs : arr) : arr := fst (fold_left (bern_step x) (seq 0 n) (funs, 0)).
(** iga.py l.684-727 eval_bernstein_basis: (funs, ders).  [funs[ifun - 1]] with ifun = 0 is the last entry. *)
Definition eval_bernstein_basis (x : R) (degree : nat) : arr * arr :=
  let n_fun := (degree + 1)%nat in
  let funs := upd (fun _ => 0) 0 1 in
  if (degree =? 0)%nat then (funs, fun _ => 0) else
  let funs := fold_left (fun f ip => bern_pass x (ip + 1) f) (seq 1 (n_fun - 2)) funs in
  let ders := fold_left (fun d ifun => upd d ifun (INR degree * (funs (if (ifun =? 0)%nat then n_fun - 1 else ifun - 1)%nat - funs ifun)))
                (seq 0 n_fun) (fun _ => 0) in
  (bern_pass x n_fun funs, ders).
(** nurbs.c l.262-302 eval_bernstein_basis. *)
Definition eval_bernstein_basis_c (x : R) (degree : nat) : arr * arr :=
  let n_fun := (degree + 1)%nat in
  let funs := upd (fun _ => 0) 0 1 in
  if (degree =? 0)%nat then (funs, fun _ => 0) else
  let funs := fold_left (fun f ip => bern_pass x (ip + 1) f) (seq 1 (n_fun - 2)) funs in
  let ders := upd (fun _ => 0) 0 (INR degree * (- funs 0%nat)) in
  let ders := fold_left (fun d ifun => upd d ifun (INR degree * (funs (ifun - 1)%nat - funs ifun))) (seq 1 (n_fun - 1)) ders in
  (bern_pass x n_fun funs, ders).

(** iga.py l.62-127 compute_bezier_extraction_1d. *)
Section Extraction.
Variables (knots : nat -> R) (n_knots degree : nat).
(** l.92-93: the last index of the knot value at [b]. *)
Fixpoint last_same (fuel b : nat) : nat :=
  match fuel with
  | O => b
  | S fuel => if ((b + 1) <? n_knots)%nat then (if Req_EM_T (knots b) (knots (b + 1)%nat) then last_same fuel (b + 1) else b) else b
  end.
(** l.102-105. *)
Definition bez_alphas (a b mult : nat) : arr :=
  fold_left (fun al ij => upd al (ij - mult - 1) ((knots b - knots a) / (knots (a + ij)%nat - knots a)))
    (rev (seq (mult + 1) (degree - mult))) (fun _ => 0).
(** l.112-115: cc[:, ik] = alpha * cc[:, ik] + (1.0 - alpha) * cc[:, ik - 1]. *)
Definition bez_column (alpha : R) (ik : nat) (cc : mat) : mat :=
  fun i j => if (j =? ik)%nat then alpha * cc i ik + (1 - alpha) * cc i (ik - 1)%nat else cc i j.
(** l.108-120: one knot insertion; [more] is (b + 1) < n_knots. *)
Definition bez_insert (alphas : arr) (mult : nat) (more : bool) (s : mat * mat) (ij : nat) : mat * mat :=
  let '(cc, cn) := s in
  let r := (degree - mult)%nat in
  let save := (r - ij - 1)%nat in
  let s := (mult + ij)%nat in
  let cc := fold_left (fun cc ik => bez_column (alphas (ik - s - 1)%nat) ik cc) (rev (seq (s + 1) (degree - s))) cc in
  (cc, if more then (fun i j => if (j =? save)%nat && (save <=? i)%nat && (i <? ij + save + 2)%nat
                                then cc (degree - ij - 1 + (i - save))%nat degree else cn i j)
       else cn).
(** l.85-125: the operators, [None] when the fuel is used up. *)
Fixpoint bez_loop (fuel : nat) (done : list mat) (cc : mat) (a b : nat) : option (list mat) :=
  match fuel with
  | O => None
  | S fuel =>
    if ((b + 1) <? n_knots)%nat then
      let b0 := b in
      let b := last_same n_knots b in
      let mult := (b - b0 + 1)%nat in
      let more := ((b + 1) <? n_knots)%nat in
      let '(cc, cn) := if (mult <? degree)%nat
        then fold_left (bez_insert (bez_alphas a b mult) mult more) (seq 0 (degree - mult)) (cc, eye)
        else (cc, eye) in
      if more then bez_loop fuel (done ++ [cc]) cn b (b + 1) else Some (done ++ [cc])
    else Some (done ++ [cc])
  end.
Definition compute_bezier_extraction_1d : option (list mat) := bez_loop (S n_knots) [] eye degree (degree + 1).

(** iga.py l.217-252 create_connectivity_1d: the list mul (without the leading 0) ... *)
Fixpoint last_same_c (fuel ii : nat) : nat :=
  match fuel with
  | O => ii
  | S fuel => if (ii <? n_knots - degree - 2)%nat then (if Req_EM_T (knots ii) (knots (ii + 1)%nat) then last_same_c fuel (ii + 1) else ii) else ii
  end.
Fixpoint conn_muls (fuel ii : nat) : option (list nat) :=
  match fuel with
  | O => None
  | S fuel =>
    if (ii <? n_knots - degree - 1)%nat then
      let i0 := ii in
      let ii := last_same_c n_knots ii in
      option_map (cons (ii - i0 + 1)%nat) (conn_muls fuel (ii + 1))
    else Some []
  end.
(** ... nm.cumsum, conn = arange(degree + 1) + cumsum(mul), bconn = arange(degree + 1) + degree * arange(n_el). *)
Fixpoint cumsum (acc : nat) (l : list nat) : list nat :=
  match l with [] => [] | m :: l => (acc + m)%nat :: cumsum (acc + m) l end.
Definition create_connectivity_1d (n_el : nat) : option (list (list nat) * list (list nat)) :=
  option_map (fun muls => (map (fun c => map (fun k => k + c)%nat (seq 0 (degree + 1))) (cumsum 0 (0%nat :: muls)),
                           map (fun e => map (fun k => k + degree * e)%nat (seq 0 (degree + 1))) (seq 0 n_el)))
    (conn_muls (S n_knots) (degree + 1)).
End Extraction.
