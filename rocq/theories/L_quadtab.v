(** The rational rules of the quadrature tables. *)
From Coq Require Import Reals Lra QArith Qreals.
From Verif Require Import Base M_nls M_lagnodes M_lagrange P_lagnodes L_lagrange P_lagrange L_gm M_quadtab M_quad S_quad L_quadint P_cubature L_quadchk L_quadchk2 L_quadchk3 L_quadchk4.
Set Implicit Arguments.
Open Scope R_scope.

(** The reference element of a geometry and the degrees a rule of the table is exact for: the keys are total
    degrees but for the wedge, where the key is three times the degree in the triangle and in z *)
Definition elem (g : geom) : kind :=
  match g with G01 => Cube 0 | G12 => Simplex 1 | G23 => Simplex 2 | G24 => Cube 2 | G34 => Simplex 3 | G36 => Wedge | G38 => Cube 3 end.
Definition exactness (g : geom) (o : nat) : list nat -> Prop := match g with G36 => wedge_degree (o / 3) | _ => total_degree o end.
Definition tol5 : R := 5 * / 10 ^ 15.
Lemma tol5_TOL : / IZR TOL = tol5.
Proof. unfold tol5, TOL. lra. Qed.
Ltac qrule k o rows b f s tp wf :=
  destruct (@check_rule_q_ok k o rows b f s tp wf) as (cw & I & G); [apply Rgt_not_eq; lra|unfold Q2R; cbn; lra|vm_compute; reflexivity|exists cw; rewrite <- tol5_TOL; split; [exact I|exact G]].
Definition ok_rule (g : geom) (o : nat) (r : rule) : Prop := exists cw, init_data r = Ok cw /\ good (elem g) (exactness g o) tol5 cw.
Lemma entries_forall : forall (P : nat -> rule -> Prop) t, Forall (fun e => P (fst e) (snd e)) t -> forall o r, In (o, r) t -> P o r.
Proof. intros P t F o r I. rewrite Forall_forall in F. apply (F _ I). Qed.
Ltac entries := match goal with |- forall o r, In (o, r) (table ?g) -> @?P o r => apply (entries_forall P) end; unfold table, table_1_2, table_2_3, table_2_4, table_3_4, table_3_6, table_3_8; repeat apply Forall_cons; try apply Forall_nil; cbn [fst snd].
Ltac by_q k o := match goal with |- context [mkRule (rat ?rows) ?b ?tp ?wf ?s] =>
  let bb := match b with None => constr:(false) | _ => constr:(true) end in
  first [qrule k o rows bb 1%Q s tp wf | qrule k o rows bb (1 # 2)%Q s tp wf] end.
Lemma table_1_2_ok : forall o r, In (o, r) (table G12) -> ok_rule G12 o r.
Proof.
  entries; match goal with |- ok_rule _ ?o _ => by_q (Simplex 1) o end.
Qed.
Lemma table_1_2_cube : forall o r, In (o, r) (table G12) -> exists cw, init_data r = Ok cw /\ good (Cube 1) (total_degree o) tol5 cw.
Proof.
  entries; match goal with |- context [total_degree ?o] => by_q (Cube 1) o end.
Qed.
Lemma table_2_3_ok : forall o r, In (o, r) (table G23) -> ok_rule G23 o r.
Proof.
  entries; match goal with |- ok_rule _ ?o _ => by_q (Simplex 2) o end.
Qed.
Lemma table_3_6_ok : forall o r, In (o, r) (table G36) -> ok_rule G36 o r.
Proof.
  entries; match goal with |- ok_rule _ ?o _ => let q := eval vm_compute in (o / 3)%nat in by_q Wedge q end.
Qed.
Lemma table_3_4_q : forall o r, In (o, r) [(1%nat, mkRule (rat q3_4_1) None (/ 6) 1 false); (3%nat, mkRule (rat q3_4_3) None (/ 6) 1 false); (4%nat, mkRule (rat q3_4_4) (Some (-1, 1)) (/ 6) 1 false); (6%nat, mkRule (rat q3_4_6) (Some (-1, 1)) (/ 6) 1 false)] -> ok_rule G34 o r.
Proof.
  apply (entries_forall (ok_rule G34)). repeat apply Forall_cons; try apply Forall_nil; cbn [fst snd]; match goal with |- ok_rule _ ?o _ => by_q (Simplex 3) o end.
Qed.
Lemma table_3_8_q : ok_rule G38 3 (mkRule (rat q3_8_3) (Some (-1, 1)) 1 1 false).
Proof. by_q (Cube 3) 3%nat. Qed.
