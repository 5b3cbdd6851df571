(** [ring] and [field] for mathcomp fields: the operations of the goal are
    folded into fixed constants known to the tactics. *)
From mathcomp Require Import all_ssreflect all_algebra.
From Coq Require Import Ring Field.
Set Implicit Arguments. Unset Strict Implicit. Unset Printing Implicit Defensive.
Import GRing.Theory.
Local Open Scope ring_scope.

Section Ops.
Variable F : fieldType.
Definition f0 : GRing.Field.sort F := 0.
Definition f1 : GRing.Field.sort F := 1.
Definition fadd (x y : GRing.Field.sort F) : GRing.Field.sort F := x + y.
Definition fmul (x y : GRing.Field.sort F) : GRing.Field.sort F := x * y.
Definition fopp (x : GRing.Field.sort F) : GRing.Field.sort F := - x.
Definition fsub (x y : GRing.Field.sort F) : GRing.Field.sort F := x - y.
Definition finv (x : GRing.Field.sort F) : GRing.Field.sort F := x^-1.
Definition fdiv (x y : GRing.Field.sort F) : GRing.Field.sort F := x / y.
Lemma F_field_theory : @field_theory (GRing.Field.sort F) f0 f1 fadd fmul fsub fopp fdiv finv (@eq (GRing.Field.sort F)).
Proof.
constructor.
- constructor; [exact: add0r|exact: addrC|exact: addrA|exact: mul1r|exact: mulrC|exact: mulrA|exact: mulrDl| by [] |exact: subrr].
- by apply/eqP; rewrite oner_eq0.
- by [].
- move=> p /eqP np; exact: mulVf.
Qed.
Definition fent n m (A : 'M[GRing.Field.sort F]_(n, m)) i j : GRing.Field.sort F := A i j.
End Ops.

Ltac ffold F :=
  rewrite ?expr2 ?exprS ?expr0 ?mulrS ?mulr0n;
  repeat match goal with
  | |- context [@GRing.add ?Z ?x ?y] => change (@GRing.add Z x y) with (@fadd F x y)
  | |- context [@GRing.mul ?Z ?x ?y] => change (@GRing.mul Z x y) with (@fmul F x y)
  | |- context [@GRing.opp ?Z ?x] => change (@GRing.opp Z x) with (@fopp F x)
  | |- context [@GRing.inv ?Z ?x] => change (@GRing.inv Z x) with (@finv F x)
  | |- context [@GRing.zero ?Z] => change (@GRing.zero Z) with (f0 F)
  | |- context [@fun_of_matrix ?T ?n ?m ?A ?i ?j] =>
      change (@fun_of_matrix T n m A i j) with (@fent F n m A i j)
  | |- context [@GRing.one ?Z] => change (@GRing.one Z) with (f1 F)
  end;
  match goal with
  | |- @eq ?T ?a ?b => let H := fresh in enough (@eq (GRing.Field.sort F) a b) as H; [exact H|]
  | |- _ => idtac
  end.
