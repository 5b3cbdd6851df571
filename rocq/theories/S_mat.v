(** Specification of the material parameters. *)
From Verif Require Import Base M_mat.
Import ListNotations.
Set Implicit Arguments.

(** The value of a parameter in point [q] of cell [c]: an array with a single
    cell is a constant (all the terms treat it so). *)
Definition at_point {V} (a : list (list V)) (c q : nat) : option V :=
  nth_error (nth (if length a =? 1 then 0 else c) a []) q.

(** The terms of the equations that use material [name]. *)
Definition users (name : nat) (terms : list term) (t : term) : Prop :=
  In t terms /\ In name (t_mats t).

(** A material function that depends on the time and on the quadrature points
    but not on the term asking for the values. *)
Definition term_independent {V} (f : mfun V) : Prop :=
  forall ts r o t t', f_qp f ts r o t = f_qp f ts r o t'.

(** The history of a material. *)
Inductive mop := TU (ts : nat) (terms : list term) (mode : umode) | RS.
Definition mstep {V} n_qp (f : mfun V) (m : material V) (o : mop) : material V :=
  match o with
  | TU ts terms mode => fst (time_update n_qp f ts terms mode m)
  | RS => reset m
  end.
Definition mhist {V} n_qp (f : mfun V) (m : material V) (ops : list mop) : material V :=
  fold_left (mstep n_qp f) ops m.

(** The value given to a cell by a list of (region, value): that of the last
    region with the cell. *)
Inductive region_value {V} (cells : nat -> list nat) (zero : V) (c : nat)
  : list (nat * V) -> V -> Prop :=
  | rv_none vs : (forall r v, In (r, v) vs -> ~ In c (cells r)) ->
      region_value cells zero c vs zero
  | rv_last vs1 r v vs2 : In c (cells r) ->
      (forall r' v', In (r', v') vs2 -> ~ In c (cells r')) ->
      region_value cells zero c (vs1 ++ (r, v) :: vs2) v.
