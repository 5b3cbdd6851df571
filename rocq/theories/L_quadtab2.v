(** The rules of the quadrature tables with square roots. *)
From Coq Require Import Reals Lra QArith Qreals.
From Verif Require Import Base M_nls M_lagnodes M_lagrange P_lagnodes L_lagrange P_lagrange L_gm M_quadtab M_quad S_quad L_quadint P_cubature L_quadchk L_quadchk2 L_quadchk3 L_quadchk4.
Set Implicit Arguments.
Open Scope R_scope.
Definition cq (q : Q) : q4 := mkQ4 q 0 0 0.
Definition sq (q : Q) : q4 := mkQ4 0 q 0 0.
Definition tq (q : Q) : q4 := mkQ4 0 0 q 0.
Lemma sqrt01 : forall x, 0 <= x <= 1 -> 0 <= sqrt x <= 1.
Proof. intros x H. split; [apply sqrt_pos|]. rewrite <- sqrt_1. apply sqrt_le_1_alt. lra. Qed.
Lemma sq_sqrt : forall x q, 0 <= x -> Q2R q = x -> sqrt x * sqrt x = Q2R q.
Proof. intros x q H E. rewrite sqrt_sqrt; auto. Qed.
Lemma inv_sqrt : forall x, 0 < x -> 1 / sqrt x = sqrt (/ x).
Proof. intros x H. rewrite sqrt_inv. lra. Qed.
Lemma r6 : 1 / sqrt 6 = / 2 * sqrt (2 / 3).
Proof.
  rewrite inv_sqrt by lra. symmetry. apply Rsqr_inj; [assert (H := sqrt_pos (2 / 3)); lra|apply sqrt_pos|]. unfold Rsqr.
  replace (/ 2 * sqrt (2 / 3) * (/ 2 * sqrt (2 / 3))) with (/ 4 * (sqrt (2 / 3) * sqrt (2 / 3))) by lra. rewrite !sqrt_sqrt by lra. lra.
Qed.
Lemma r5 : sqrt 5 = 5 * sqrt (/ 5).
Proof.
  apply Rsqr_inj; [apply sqrt_pos|assert (H := sqrt_pos (/ 5)); lra|]. unfold Rsqr.
  replace (5 * sqrt (/ 5) * (5 * sqrt (/ 5))) with (25 * (sqrt (/ 5) * sqrt (/ 5))) by lra. rewrite !sqrt_sqrt by lra. lra.
Qed.
Definition d2_4_2 : list (list q4) := [
  [sq 1; cq 0; cq (4 # 3)]; [sq (- 1 # 2); tq 1; cq (4 # 3)]; [sq (- 1 # 2); tq (- 1); cq (4 # 3)]].
Definition d2_4_3 : list (list q4) := [
  [sq (- 1); sq (- 1); cq 1]; [sq 1; sq (- 1); cq 1]; [sq 1; sq 1; cq 1]; [sq (- 1); sq 1; cq 1]].
Definition a245 : Q := 816326530612245 # 1000000000000000.
Definition b245 : Q := 881917103688197 # 1000000000000000.
Definition c245 : Q := 183673469387755 # 1000000000000000.
Definition d2_4_5 : list (list q4) := [
  [sq 1; cq 0; cq a245]; [sq (- 1); cq 0; cq a245]; [cq 0; sq 1; cq a245]; [cq 0; sq (- 1); cq a245];
  [cq b245; cq b245; cq c245]; [cq b245; cq (- b245); cq c245]; [cq (- b245); cq b245; cq c245]; [cq (- b245); cq (- b245); cq c245]].
Definition e342 : q4 := mkQ4 (1 # 4) (- 1 # 4) 0 0.
Definition f342 : q4 := mkQ4 (1 # 4) (3 # 4) 0 0.
Definition d3_4_2 : list (list q4) := [
  [e342; e342; e342; cq (1 # 24)]; [e342; e342; f342; cq (1 # 24)]; [e342; f342; e342; cq (1 # 24)]; [f342; e342; e342; cq (1 # 24)]].
Definition d3_8_2 : list (list q4) := [
  [cq 0; sq 1; tq (- 1); cq 2]; [cq 0; sq (- 1); tq (- 1); cq 2]; [sq 1; cq 0; tq 1; cq 2]; [sq (- 1); cq 0; tq 1; cq 2]].
Definition w1 := cq (320 # 361).
Definition w2 := cq (121 # 361).
Definition d3_8_5 : list (list q4) := [
  [sq (- 1); cq 0; cq 0; w1]; [sq 1; cq 0; cq 0; w1]; [cq 0; sq (- 1); cq 0; w1]; [cq 0; sq 1; cq 0; w1]; [cq 0; cq 0; sq (- 1); w1]; [cq 0; cq 0; sq 1; w1];
  [tq 1; tq 1; tq 1; w2]; [tq 1; tq 1; tq (- 1); w2]; [tq 1; tq (- 1); tq 1; w2]; [tq 1; tq (- 1); tq (- 1); w2];
  [tq (- 1); tq 1; tq 1; w2]; [tq (- 1); tq 1; tq (- 1); w2]; [tq (- 1); tq (- 1); tq 1; w2]; [tq (- 1); tq (- 1); tq (- 1); w2]].
Ltac q2r := unfold Q2R; cbn [Qnum Qden Qopp Z.opp]; lra.
Ltac rows := cbn [map]; unfold w1, w2, ev4, cq, sq, tq, e342, f342, a245, b245, c245; cbn [qa qb qc qd]; repeat match goal with |- _ :: _ = _ :: _ => apply f_equal2 | |- [] = [] => reflexivity end; q2r.
Lemma e2_4_2 : map (map (ev4 (sqrt (2 / 3)) (sqrt (/ 2)))) d2_4_2 = q2_4_2.
Proof. unfold q2_4_2, d2_4_2. replace (- 1 / sqrt 6) with (- (1 / sqrt 6)) by lra. replace (- 1 / sqrt 2) with (- (1 / sqrt 2)) by lra. rewrite r6, (@inv_sqrt 2) by lra. rows. Qed.
Lemma e2_4_3 : map (map (ev4 (sqrt (/ 3)) (sqrt 0))) d2_4_3 = q2_4_3.
Proof. unfold q2_4_3, d2_4_3. replace (- 1 / sqrt 3) with (- (1 / sqrt 3)) by lra. rewrite (@inv_sqrt 3) by lra. rows. Qed.
Lemma e2_4_5 : map (map (ev4 (sqrt (7 / 15)) (sqrt 0))) d2_4_5 = q2_4_5.
Proof. unfold q2_4_5, d2_4_5. rows. Qed.
Lemma e3_4_2 : map (map (ev4 (sqrt (/ 5)) (sqrt 0))) d3_4_2 = q3_4_2.
Proof. unfold q3_4_2, d3_4_2. rewrite r5. rows. Qed.
Lemma e3_8_2 : map (map (ev4 (sqrt (2 / 3)) (sqrt (/ 3)))) d3_8_2 = q3_8_2.
Proof. unfold q3_8_2, d3_8_2. replace (- 1 / sqrt 3) with (- (1 / sqrt 3)) by lra. rewrite (@inv_sqrt 3) by lra. rows. Qed.
Lemma e3_8_5 : map (map (ev4 (sqrt (19 / 30)) (sqrt (19 / 33)))) d3_8_5 = q3_8_5.
Proof. unfold q3_8_5, d3_8_5. rows. Qed.
Ltac root k o A B rows bd x y tpf E :=
  rewrite <- E; refine (@check_rule_4_ok A B (sqrt x) (sqrt y) _ _ _ _ k o rows bd tpf _ _);
  [apply sq_sqrt; [lra|q2r]|apply sq_sqrt; [lra|q2r]|apply sqrt01; lra|apply sqrt01; lra|apply Rgt_not_eq; lra|vm_compute; reflexivity].
Definition gd (k : kind) (o : nat) (r : rule) : Prop := exists cw, init_data r = Ok cw /\ good k (degree_ok k o) (/ IZR TOL) cw.
Lemma g2_4_2 : gd (Cube 2) 2 (mkRule q2_4_2 (Some (-1, 1)) 1 1 false).
Proof. root (Cube 2) 2%nat (2 # 3)%Q (1 # 2)%Q d2_4_2 true (2 / 3) (/ 2) 1 e2_4_2. Qed.
Lemma g2_4_3 : gd (Cube 2) 3 (mkRule q2_4_3 (Some (-1, 1)) 1 1 false).
Proof. root (Cube 2) 3%nat (1 # 3)%Q (0 # 1)%Q d2_4_3 true (/ 3) 0 1 e2_4_3. Qed.
Lemma g2_4_5 : gd (Cube 2) 5 (mkRule q2_4_5 (Some (-1, 1)) 1 1 false).
Proof. root (Cube 2) 5%nat (7 # 15)%Q (0 # 1)%Q d2_4_5 true (7 / 15) 0 1 e2_4_5. Qed.
Lemma g3_4_2 : gd (Simplex 3) 2 (mkRule q3_4_2 None (/ 6) 1 false).
Proof. root (Simplex 3) 2%nat (1 # 5)%Q (0 # 1)%Q d3_4_2 false (/ 5) 0 (/ 6) e3_4_2. Qed.
Lemma g3_8_2 : gd (Cube 3) 2 (mkRule q3_8_2 (Some (-1, 1)) 1 1 false).
Proof. root (Cube 3) 2%nat (2 # 3)%Q (1 # 3)%Q d3_8_2 true (2 / 3) (/ 3) 1 e3_8_2. Qed.
Lemma g3_8_5 : gd (Cube 3) 5 (mkRule q3_8_5 (Some (-1, 1)) 1 1 false).
Proof. root (Cube 3) 5%nat (19 # 30)%Q (19 # 33)%Q d3_8_5 true (19 / 30) (19 / 33) 1 e3_8_5. Qed.
