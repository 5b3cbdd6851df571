(** C112: the quadrature tables; C113: the rules returned for a geometry and an order. *)
From Coq Require Import Reals Lra QArith Qreals.
From Verif Require Import Base M_nls M_lagnodes M_lagrange P_lagnodes L_lagrange P_lagrange L_gm M_quadtab M_quad S_quad L_quadint P_cubature L_quadchk L_quadchk2 L_quadchk3 L_quadchk4 L_quadtab L_quadtab2.
Set Implicit Arguments.
Open Scope R_scope.

(** ** C112 *)
Lemma gd_ok : forall g o r, elem g <> Wedge -> gd (elem g) o r -> ok_rule g o r.
Proof.
  intros g o r W (cw & I & G). exists cw. split; auto. rewrite tol5_TOL in G. destruct g; cbn [elem exactness] in *; auto; congruence.
Qed.
Theorem C112_tables : forall g o r, g <> G01 -> In (o, r) (table g) ->
  exists coors weights, init_data r = Ok (coors, weights) /\ (forall x, In x coors -> kind_in (elem g) x) /\ integrates (elem g) (exactness g o) tol5 coors weights.
Proof.
  intros g o r G I. assert (H : ok_rule g o r).
  { destruct g; [congruence|apply table_1_2_ok; auto|apply table_2_3_ok; auto| | |apply table_3_6_ok; auto|].
    - destruct I as [I|[I|[I|[]]]]; inversion I; subst; apply gd_ok; try discriminate; [apply g2_4_2|apply g2_4_3|apply g2_4_5].
    - unfold table, table_3_4 in I. destruct I as [I|[I|[I|[I|[I|[]]]]]]; inversion I; subst; [apply table_3_4_q; left; auto|apply gd_ok; [discriminate|apply g3_4_2]|apply table_3_4_q; right; left; auto|apply table_3_4_q; do 2 right; left; auto|apply table_3_4_q; do 3 right; left; auto].
    - destruct I as [I|[I|[I|[]]]]; inversion I; subst; [apply gd_ok; [discriminate|apply g3_8_2]|apply table_3_8_q|apply gd_ok; [discriminate|apply g3_8_5]]. }
  destruct H as ([c w] & H1 & H2 & H3). exists c, w. auto.
Qed.

(** ** C113 *)
(** *** The order that is looked up *)
Lemma actual_in : forall g o, (o <= max_order g)%nat -> exists r, In (get_actual_order g o, r) (table g) /\ (o <= get_actual_order g o)%nat.
Proof.
  intros g o O. assert (E : forall k, In k (map fst (table g)) -> exists r, In (k, r) (table g)). { intros k I. apply in_map_iff in I. destruct I as ([k' r] & <- & I). exists r. auto. }
  unfold get_actual_order. destruct (existsb (Nat.eqb o) (map fst (table g))) eqn:X.
  - apply existsb_exists in X. destruct X as (k & I & K). apply Nat.eqb_eq in K. subst k. destruct (E _ I) as (r & R). exists r. auto.
  - destruct (find (fun k => (o <=? k)%nat) (map fst (table g))) as [k|] eqn:F.
    + apply find_some in F. destruct F as [I K]. apply Nat.leb_le in K. destruct (E _ I) as (r & R). exists r. auto.
    + exfalso. assert (M : In (max_order g) (map fst (table g))) by (destruct g; vm_compute; tauto). assert (FN := find_none _ _ F _ M). cbv beta in FN. apply Nat.leb_gt in FN. lia.
Qed.
Lemma actual_out : forall g o, (max_order g <= o)%nat -> get_actual_order g o = max_order g.
Proof.
  intros g o O. assert (U : forall k, In k (map fst (table g)) -> (k <= max_order g)%nat). { unfold max_order. generalize (map fst (table g)). induction l as [|x l IH]; intros k I; [destruct I|]. cbn [fold_right]. destruct I as [<-|I]; [lia|]. specialize (IH k I). lia. }
  unfold get_actual_order. destruct (existsb (Nat.eqb o) (map fst (table g))) eqn:X.
  - apply existsb_exists in X. destruct X as (k & I & K). apply Nat.eqb_eq in K. subst k. apply U in I. lia.
  - destruct (find (fun k => (o <=? k)%nat) (map fst (table g))) as [k|] eqn:F; auto. apply find_some in F. destruct F as [I K]. apply Nat.leb_le in K. apply U in I. lia.
Qed.
Lemma lookup_in : forall t o r, NoDup (map fst t) -> In (o, r) t -> lookup t o = Ok r.
Proof.
  induction t as [|[k s] t IH]; intros o r N I; [destruct I|]. cbn [lookup]. cbn [map fst] in N. inversion N as [|? ? NI N']; subst. destruct I as [I|I].
  - inversion I; subst. rewrite Nat.eqb_refl. auto.
  - destruct (o =? k)%nat eqn:E; [apply Nat.eqb_eq in E; subst k; exfalso; apply NI; apply in_map_iff; exists (o, r); auto|auto].
Qed.
Lemma table_nodup : forall g, NoDup (map fst (table g)).
Proof. intros g. destruct g; vm_compute; repeat constructor; cbn; intuition discriminate. Qed.
Lemma from_order_ok : forall g o, g <> G01 -> (o <= max_order g)%nat -> exists coors weights, from_order g (get_actual_order g o) = Ok (coors, weights) /\ (o <= get_actual_order g o)%nat /\ In (get_actual_order g o) (map fst (table g)) /\
  (forall x, In x coors -> kind_in (elem g) x) /\ integrates (elem g) (exactness g (get_actual_order g o)) tol5 coors weights.
Proof.
  intros g o G O. destruct (actual_in g O) as (r & I & L). destruct (@C112_tables g _ r G I) as (c & w & H1 & H2 & H3). exists c, w. unfold from_order. rewrite (lookup_in _ _ _ (table_nodup g) I). cbn [bind]. repeat split; auto; try apply H3. apply in_map_iff. exists (get_actual_order g o, r). auto.
Qed.
Lemma integrates_exact : forall k ok tol c w es, integrates k ok tol c w -> length es = kdim k -> ok es -> Rabs (quad c w (monomial es) - exactR k es) <= tol.
Proof.
  intros k ok tol c w es [L I] LE OK. destruct (I [(1, es)]) as (v & V & B). { intros a e [E|[]]. inversion E; subst. auto. }
  assert (V' : kind_int k (monomial es) v). { refine (@kind_int_ext _ _ _ _ _ V). intros x. unfold polyval. cbn. lra. }
  assert (v = exactR k es). { assert (X := @exact_int k es LE). destruct k; cbn [kind_int] in *; [eapply simplex_int_unique; eauto; lra|eapply cube_int_unique; eauto|eapply wedge_int_unique; eauto]. } subst v.
  replace (quad c w (monomial es)) with (quad c w (polyval [(1, es)])). 2:{ unfold quad. f_equal. apply map_ext. intros. unfold polyval. cbn. lra. }
  eapply Rle_trans; [apply B|]. unfold coef_sum. cbn. rewrite Rabs_R1. lra.
Qed.
(** *** Simplices: all orders *)
Lemma mono_poly : forall es k, poly (list_sum es) (fun x => lprod (map (fun je => nth (fst je) x 0 ^ snd je) (combine (seq k (length es)) es))).
Proof.
  induction es as [|e es IH]; intros k; [exact (poly_const 0 1)|]. change (list_sum (e :: es)) with (e + list_sum es)%nat. cbn [length seq combine map].
  induction e as [|e IHe].
  - refine (@poly_ext _ _ _ (IH (S k)) _). intros x. rewrite lprod_cons. cbn [fst snd pow]. lra.
  - cbn [plus]. refine (@poly_ext _ _ _ (poly_var k IHe) _). intros x. rewrite !lprod_cons. cbn [fst snd pow]. lra.
Qed.
Lemma mono_at : forall es x, length x = length es -> lprod (map (fun je => nth (fst je) x 0 ^ snd je) (combine (seq 0 (length es)) es)) = monomial es x.
Proof.
  intros es x L. unfold monomial. change (fold_right Rmult 1) with lprod. rewrite (combine_map_seq x es 0 0%nat L). rewrite (combine_map_seq (seq 0 (length es)) es 0%nat 0%nat) by (rewrite seq_length; auto). rewrite !map_map, seq_length, L. f_equal. apply map_ext_in. intros j J. apply in_seq in J. cbn [fst snd]. rewrite seq_nth by lia. auto.
Qed.
Theorem C113_simplex : forall g order full, is_simplex g = true ->
  exists qp, from_table g order full = Ok qp /\ (order <= qp_order qp)%nat /\
    (forall x, In x (qp_coors qp) -> kind_in (elem g) x) /\ integrates (elem g) (total_degree order) tol5 (qp_coors qp) (qp_weights qp).
Proof.
  intros g order full SI. destruct (Nat.ltb_spec (max_order g) order) as [H|H].
  - destruct (@C111_high_orders g order full SI H) as (qp & F & L & O & IN & EX). exists qp. assert (EG : elem g = Simplex (gdim g)) by (destruct g; auto; discriminate). rewrite EG. split; auto. split; [lia|]. split; [auto|].
    apply integrates_mono; auto. intros es LE OK. cbn [kdim] in LE. unfold total_degree in OK.
    assert (P := mono_poly es 0). assert (P' : poly order (fun x => lprod (map (fun je => nth (fst je) x 0 ^ snd je) (combine (seq 0 (length es)) es)))).
    { clear - P OK. set (f := fun x => _) in *. clearbody f. remember (list_sum es) as m eqn:M. clear M es. revert order OK. induction P; intros order OK; [apply poly_const| |apply poly_add; auto|apply poly_scale; auto|eapply poly_ext; eauto]. destruct order; [lia|]. apply poly_var. apply IHP. lia. }
    assert (X := EX _ P'). assert (Y := @exact_int (Simplex (gdim g)) es LE). cbn [kind_int] in Y.
    assert (Z : quad (qp_coors qp) (qp_weights qp) (fun x => lprod (map (fun je => nth (fst je) x 0 ^ snd je) (combine (seq 0 (length es)) es))) = exactR (Simplex (gdim g)) es).
    { eapply (@simplex_int_unique (gdim g) 1); [lra|exact X|]. refine (@simplex_int_ext _ _ _ _ _ _ Y). intros x LX. symmetry. apply mono_at. lia. }
    rewrite <- Z. replace (quad (qp_coors qp) (qp_weights qp) (monomial es)) with (quad (qp_coors qp) (qp_weights qp) (fun x => lprod (map (fun je => nth (fst je) x 0 ^ snd je) (combine (seq 0 (length es)) es)))).
    + rewrite Rminus_diag_eq by auto. rewrite Rabs_R0. unfold tol5. assert (0 < / 10 ^ 15) by (apply Rinv_0_lt_compat, pow_lt; lra). lra.
    + unfold quad. f_equal. apply map_ext_in. intros [x w] I. cbn [fst snd]. f_equal. apply mono_at. apply in_combine_l in I. apply IN in I. destruct I as [LX _]. lia.
  - assert (G : g <> G01) by (destruct g; discriminate). destruct (@from_order_ok g order G H) as (c & w & F & L & _ & IN & IT). exists (mkQP c w (get_actual_order g order)). cbn [qp_coors qp_weights qp_order].
    unfold from_table. rewrite SI. replace (max_order g <? order)%nat with false by (symmetry; apply Nat.ltb_ge; auto). rewrite F. cbn [bind fst snd]. split; auto. split; auto. split; auto.
    refine (@integrates_sub _ _ _ _ _ _ _ _ _ IT); [|lra]. intros es LE T. destruct g; try discriminate; cbn [exactness]; unfold total_degree in *; lia.
Qed.
(** *** Tensor products *)
Lemma combine_app2 : forall A B (l1 l2 : list A) (m1 m2 : list B), length l1 = length m1 -> combine (l1 ++ l2) (m1 ++ m2) = combine l1 m1 ++ combine l2 m2.
Proof. intros A B. induction l1 as [|x l1 IH]; intros l2 [|z m1] m2 L; try discriminate; auto. cbn. f_equal. auto. Qed.
Lemma quad_flat : forall (ca : list (list R)) wa cb wb ea eb, length ca = length wa -> length cb = length wb -> (forall x, In x ca -> length x = length ea) ->
  quad (flat_map (fun y => map (fun x => x ++ y) ca) cb) (flat_map (fun b => map (fun a => b * a) wa) wb) (monomial (ea ++ eb)) = quad ca wa (monomial ea) * quad cb wb (monomial eb).
Proof.
  intros ca wa cb wb ea eb LA LB LE. unfold quad. change (fold_right Rplus 0) with lsum. revert wb LB. induction cb as [|y cb IH]; intros [|b wb] LB; try discriminate; [cbn; ring|]. cbn [flat_map combine map]. rewrite lsum_cons. cbn [fst snd].
  rewrite combine_app2 by (rewrite !map_length; auto). rewrite map_app, lsum_app. rewrite IH by (cbn in LB; lia). rewrite Rmult_plus_distr_l. f_equal.
  clear - LA LE. revert wa LA LE. induction ca as [|x ca IH]; intros [|a wa] LA LE; try discriminate; [cbn; ring|]. cbn [map combine]. rewrite !lsum_cons. cbn [fst snd]. rewrite (IH wa) by (try (cbn in LA; lia); intros; apply LE; right; auto). rewrite Rmult_plus_distr_r. f_equal.
  unfold monomial. change (fold_right Rmult 1) with lprod. rewrite combine_app2 by (apply LE; left; auto). rewrite map_app, lprod_app. ring.
Qed.
Lemma flat_length : forall (ca : list (list R)) wa cb wb, length ca = length wa -> length cb = length wb -> length (flat_map (fun y => map (fun x => x ++ y) ca) cb) = length (flat_map (fun b => map (fun a => b * a) wa) wb).
Proof.
  intros ca wa cb wb LA. revert wb. induction cb as [|y cb IH]; intros [|b wb] LB; try discriminate; auto. cbn [flat_map]. rewrite !app_length, !map_length, (IH wb) by (cbn in LB; lia). lia.
Qed.
Lemma flat_seq : forall A B (f : A -> list B) l d, flat_map (fun i => f (nth i l d)) (seq 0 (length l)) = flat_map f l.
Proof. intros. rewrite !flat_map_concat_map. f_equal. rewrite <- (map_map (fun i => nth i l d) f). f_equal. apply map_nth_seq. Qed.
Definition prod2 (c1 : list (list R)) := flat_map (fun y => map (fun x => x ++ y) c1) c1.
Definition prod3 (c1 : list (list R)) := flat_map (fun z => map (fun x => x ++ z) (prod2 c1)) c1.
Definition wprod2 (w1 : list R) := flat_map (fun a => map (fun b => a * b) w1) w1.
Definition wprod3 (w1 : list R) := flat_map (fun a => map (fun b => a * b) (wprod2 w1)) w1.
Lemma map_flat_map : forall A B C (f : B -> C) (g : A -> list B) l, map f (flat_map g l) = flat_map (fun a => map f (g a)) l.
Proof. intros. induction l; cbn [flat_map map]; auto. rewrite map_app, IHl. auto. Qed.
Lemma grid2 : forall c1 : list (list R), flat_map (fun iy => map (fun ix => nth ix c1 [] ++ nth iy c1 []) (seq 0 (length c1))) (seq 0 (length c1)) = prod2 c1.
Proof.
  intros. unfold prod2. rewrite <- (flat_seq (fun y => map (fun x => x ++ y) c1) c1 []). apply flat_map_ext. intros iy. rewrite <- (map_map (fun ix => nth ix c1 []) (fun x => x ++ nth iy c1 [])). rewrite map_nth_seq. auto.
Qed.
Lemma grid3 : forall c1 : list (list R), flat_map (fun iz => flat_map (fun iy => map (fun ix => nth ix c1 [] ++ nth iy c1 [] ++ nth iz c1 []) (seq 0 (length c1))) (seq 0 (length c1))) (seq 0 (length c1)) = prod3 c1.
Proof.
  intros. unfold prod3. rewrite <- (flat_seq (fun z => map (fun x => x ++ z) (prod2 c1)) c1 []). apply flat_map_ext. intros iz. unfold prod2. rewrite map_flat_map. rewrite <- (flat_seq (fun y => map (fun x => x ++ nth iz c1 []) (map (fun x => x ++ y) c1)) c1 []). apply flat_map_ext. intros iy.
  rewrite map_map. rewrite <- (map_map (fun ix => nth ix c1 []) (fun x => x ++ nth iy c1 [] ++ nth iz c1 [])). rewrite map_nth_seq. apply map_ext. intros. rewrite app_assoc. auto.
Qed.
(** The product rules, from the 1D rule *)
Lemma from_tensor : forall g order, is_simplex g = false -> (1 < gdim g)%nat -> (max_order g < gdim g * order)%nat -> forall c1 w1, from_order G12 (get_actual_order G12 order) = Ok (c1, w1) ->
  from_table g order false = Ok (mkQP (if (gdim g =? 3)%nat then prod3 c1 else prod2 c1) (if (gdim g =? 3)%nat then wprod3 w1 else wprod2 w1) (gdim g * get_actual_order G12 order)).
Proof.
  intros g order SI D MO c1 w1 F. unfold from_table. rewrite SI. replace (gdim g * order <=? max_order g)%nat with false by (symmetry; apply Nat.leb_gt; auto). rewrite F. cbn [bind]. rewrite grid2, grid3. fold (wprod2 w1) (wprod3 w1).
  assert (W1 : forall l : list R, map (fun w => w * 1) l = l) by (intros l; rewrite <- (map_id l) at 2; apply map_ext; intros; lra).
  destruct (gdim g =? 3)%nat; unfold init_coors, finish; cbn [bind fst snd]; rewrite W1; auto.
Qed.
Lemma prod2_in : forall c1 n x, In x (prod2 c1) -> (forall y, In y c1 -> unit_cube n y) -> unit_cube (n + n) x.
Proof.
  intros c1 n x I H. unfold prod2 in I. apply in_flat_map in I. destruct I as (y & Y & I). apply in_map_iff in I. destruct I as (z & <- & Z). destruct (H _ Y) as [LY BY], (H _ Z) as [LZ BZ]. split; [rewrite app_length; lia|]. intros k K.
  destruct (Nat.lt_ge_cases k n); [rewrite app_nth1 by lia; auto|rewrite app_nth2 by lia; apply BY; lia].
Qed.
Lemma prod3_in : forall c1 x, In x (prod3 c1) -> (forall y, In y c1 -> unit_cube 1 y) -> unit_cube 3 x.
Proof.
  intros c1 x I H. unfold prod3 in I. apply in_flat_map in I. destruct I as (y & Y & I). apply in_map_iff in I. destruct I as (z & <- & Z). destruct (H _ Y) as [LY BY], (prod2_in c1 z Z H) as [LZ BZ]. cbn [plus] in *. split; [rewrite app_length; lia|]. intros k K.
  destruct (Nat.lt_ge_cases k 2); [rewrite app_nth1 by lia; auto|rewrite app_nth2 by lia; apply BY; lia].
Qed.
Definition tol20 : R := 2 * / 10 ^ 14.
Lemma exact_cube1 : forall e, exactR (Cube 1) [e] = / INR (S e).
Proof. intros. unfold exactR. cbn [exact fst snd zprod map fold_right]. rewrite Z.mul_1_r, <- INR_IZR_INZ. unfold Rdiv. lra. Qed.
Lemma inv_S01 : forall e, 0 < / INR (S e) <= 1.
Proof. intros e. assert (1 <= INR (S e)) by (rewrite S_INR; assert (H := pos_INR e); lra). split; [apply Rinv_0_lt_compat; lra|]. rewrite <- Rinv_1. apply Rinv_le_contravar; lra. Qed.
Lemma err2 : forall a b x y e, 0 < x <= 1 -> 0 < y <= 1 -> 0 <= e <= 1 / 10 -> Rabs (a - x) <= e -> Rabs (b - y) <= 2 * e + e * e -> Rabs (a * b - x * y) <= 4 * e.
Proof.
  intros a b x y e X Y E A B. replace (a * b - x * y) with ((a - x) * (b - y) + x * (b - y) + y * (a - x)) by ring.
  eapply Rle_trans; [apply Rabs_triang|]. eapply Rle_trans; [apply Rplus_le_compat_r, Rabs_triang|]. rewrite !Rabs_mult, (Rabs_pos_eq x), (Rabs_pos_eq y) by lra. set (u := Rabs (a - x)) in *. set (v := Rabs (b - y)) in *. assert (0 <= u) by apply Rabs_pos. assert (0 <= v) by apply Rabs_pos.
  assert (u * v <= e * (2 * e + e * e)) by (apply Rmult_le_compat; auto). assert (x * v <= v) by nra. assert (y * u <= u) by nra. nra.
Qed.
Lemma err1 : forall a b x y e, 0 < x <= 1 -> 0 < y <= 1 -> 0 <= e -> Rabs (a - x) <= e -> Rabs (b - y) <= e -> Rabs (a * b - x * y) <= 2 * e + e * e.
Proof.
  intros a b x y e X Y E A B. replace (a * b - x * y) with ((a - x) * (b - y) + x * (b - y) + y * (a - x)) by ring.
  eapply Rle_trans; [apply Rabs_triang|]. eapply Rle_trans; [apply Rplus_le_compat_r, Rabs_triang|]. rewrite !Rabs_mult, (Rabs_pos_eq x), (Rabs_pos_eq y) by lra. set (u := Rabs (a - x)) in *. set (v := Rabs (b - y)) in *. assert (0 <= u) by apply Rabs_pos. assert (0 <= v) by apply Rabs_pos.
  assert (u * v <= e * e) by (apply Rmult_le_compat; auto). assert (x * v <= v) by nra. assert (y * u <= u) by nra. nra.
Qed.
Lemma tol_small : 0 <= tol5 <= 1 / 10 /\ tol20 = 4 * tol5.
Proof. unfold tol5, tol20. lra. Qed.
(** The 1D rule of order o *)
Lemma line_rule : forall o, exists c1 w1, from_order G12 (get_actual_order G12 o) = Ok (c1, w1) /\ good (Cube 1) (total_degree (Nat.min o (max_order G12))) tol5 (c1, w1).
Proof.
  intros o. assert (M : exists r, In (get_actual_order G12 o, r) (table G12) /\ (Nat.min o (max_order G12) <= get_actual_order G12 o)%nat).
  { destruct (Nat.le_ge_cases o (max_order G12)) as [H|H]; [destruct (actual_in G12 H) as (r & I & L); exists r; split; auto; lia|]. rewrite (actual_out G12 H). destruct (actual_in G12 (Nat.le_refl (max_order G12))) as (r & I & L). rewrite actual_out in I by auto. exists r. split; auto. lia. }
  destruct M as (r & I & L). destruct (@table_1_2_cube _ _ I) as ([c w] & R & IN & IT). exists c, w. unfold from_order. rewrite (lookup_in _ _ _ (table_nodup G12) I). cbn [bind]. split; auto. split; auto. cbn [fst snd] in *.
  refine (@integrates_sub _ _ _ _ _ _ _ _ _ IT); [|lra]. intros es _. unfold total_degree. lia.
Qed.
Lemma tensor2 : forall o c1 w1, good (Cube 1) (total_degree o) tol5 (c1, w1) -> good (Cube 2) (each_degree o) tol20 (prod2 c1, wprod2 w1).
Proof.
  intros o c1 w1 [IN IT]. cbn [fst snd] in *. assert (LL := proj1 IT). split; cbn [fst snd].
  - intros x I. apply (prod2_in c1 x I IN).
  - apply integrates_mono; [apply flat_length; auto|]. intros es LE OK. cbn [kdim] in LE. destruct es as [|p [|q [|? ?]]]; try discriminate. unfold each_degree in OK. inversion OK as [|? ? P OK']; subst. inversion OK' as [|? ? Q _]; subst.
    assert (E := quad_flat c1 w1 c1 w1 [p] [q] LL LL ltac:(intros x X; apply IN in X; apply X)). cbn [app] in E. unfold prod2, wprod2. rewrite E.
    assert (A := integrates_exact [p] IT eq_refl ltac:(unfold total_degree; cbn; lia)). assert (B := integrates_exact [q] IT eq_refl ltac:(unfold total_degree; cbn; lia)). rewrite exact_cube1 in A, B.
    replace (exactR (Cube 2) [p; q]) with (/ INR (S p) * / INR (S q)). 2:{ unfold exactR. cbn [exact fst snd zprod map fold_right]. rewrite Z.mul_1_r, mult_IZR, <- !INR_IZR_INZ. unfold Rdiv. rewrite Rinv_mult. lra. }
    destruct tol_small as [T ->]. eapply err2; try apply inv_S01; auto. eapply Rle_trans; [apply B|]. nra.
Qed.
Lemma tensor3 : forall o c1 w1, good (Cube 1) (total_degree o) tol5 (c1, w1) -> good (Cube 3) (each_degree o) tol20 (prod3 c1, wprod3 w1).
Proof.
  intros o c1 w1 [IN IT]. cbn [fst snd] in *. assert (LL := proj1 IT). assert (L2 := flat_length c1 w1 c1 w1 LL LL). split; cbn [fst snd].
  - intros x I. apply (prod3_in c1 x I IN).
  - apply integrates_mono; [apply flat_length; auto|]. intros es LE OK. cbn [kdim] in LE. destruct es as [|p [|q [|r [|? ?]]]]; try discriminate. unfold each_degree in OK. inversion OK as [|? ? P OK']; subst. inversion OK' as [|? ? Q OK'']; subst. inversion OK'' as [|? ? RR _]; subst.
    assert (E := quad_flat (prod2 c1) (wprod2 w1) c1 w1 [p; q] [r] L2 LL ltac:(intros x X; destruct (prod2_in c1 x X IN) as [-> _]; auto)). cbn [app] in E. unfold prod3, wprod3. rewrite E. clear E.
    assert (E := quad_flat c1 w1 c1 w1 [p] [q] LL LL ltac:(intros x X; apply IN in X; apply X)). cbn [app] in E. unfold prod2, wprod2. rewrite E. clear E.
    assert (A := integrates_exact [p] IT eq_refl ltac:(unfold total_degree; cbn; lia)). assert (B := integrates_exact [q] IT eq_refl ltac:(unfold total_degree; cbn; lia)). assert (C := integrates_exact [r] IT eq_refl ltac:(unfold total_degree; cbn; lia)). rewrite exact_cube1 in A, B, C.
    replace (exactR (Cube 3) [p; q; r]) with (/ INR (S r) * (/ INR (S p) * / INR (S q))). 2:{ unfold exactR. cbn [exact fst snd zprod map fold_right]. rewrite Z.mul_1_r, !mult_IZR, <- !INR_IZR_INZ. unfold Rdiv. rewrite !Rinv_mult. lra. }
    destruct tol_small as [T ->]. rewrite Rmult_comm. assert (XP := inv_S01 p). assert (XQ := inv_S01 q). eapply err2; try apply inv_S01; auto; [split; [apply Rmult_lt_0_compat; lra|nra]|]. apply err1; auto; lra.
Qed.
Theorem C113_tensor : forall g order, g = G24 \/ g = G38 -> (order <= 47)%nat ->
  exists qp, from_table g order false = Ok qp /\ (gdim g * order <= qp_order qp)%nat /\
    (forall x, In x (qp_coors qp) -> kind_in (elem g) x) /\ integrates (elem g) (each_degree order) tol20 (qp_coors qp) (qp_weights qp).
Proof.
  intros g order G O. destruct tol_small as [T5 T20]. assert (SI : is_simplex g = false) by (destruct G; subst; auto). assert (DI : (1 < gdim g)%nat) by (destruct G; subst; cbn; lia). destruct (Nat.ltb_spec (max_order g) (gdim g * order)) as [H|H].
  - destruct (line_rule order) as (c1 & w1 & F & GD). rewrite (@from_tensor g order SI DI H c1 w1 F). eexists. split; [reflexivity|]. cbn [qp_coors qp_weights qp_order]. replace (Nat.min order (max_order G12)) with order in GD by (change (max_order G12) with 47%nat; lia).
    split. { destruct (actual_in G12 O) as (? & _ & L). apply Nat.mul_le_mono_l. auto. }
    destruct G; subst g; cbn [gdim Nat.eqb elem].
    + apply (tensor2 GD).
    + apply (tensor3 GD).
  - assert (G0 : g <> G01) by (destruct G; subst; discriminate). destruct (@from_order_ok g (gdim g * order) G0 H) as (c & w & F & L & _ & IN & IT). exists (mkQP c w (get_actual_order g (gdim g * order))). cbn [qp_coors qp_weights qp_order].
    unfold from_table. rewrite SI. replace (gdim g * order <=? max_order g)%nat with true by (symmetry; apply Nat.leb_le; auto). rewrite F. cbn [bind fst snd]. split; auto. split; auto. split; auto.
    refine (@integrates_sub _ _ _ _ _ _ _ _ _ IT); [|lra]. intros es LE E. assert (S : (list_sum es <= length es * order)%nat). { clear - E. unfold each_degree in E. induction E; [cbn; lia|]. change (list_sum (x :: l)) with (x + list_sum l)%nat. cbn [length]. lia. }
    destruct G; subst g; cbn [elem kdim gdim exactness] in *; unfold total_degree; rewrite LE in S; lia.
Qed.
(** Above order 47 the order 47 rule is returned, whatever the order *)
Theorem C113_tensor_cap : forall g order, g = G24 \/ g = G38 -> (47 <= order)%nat -> from_table g order false = from_table g 47 false.
Proof.
  intros g order G O. assert (SI : is_simplex g = false) by (destruct G; subst; auto). assert (DI : (1 < gdim g)%nat) by (destruct G; subst; cbn; lia).
  destruct (line_rule 47) as (c1 & w1 & F & _). assert (A : get_actual_order G12 order = get_actual_order G12 47) by (rewrite !actual_out by (change (max_order G12) with 47%nat; lia); auto).
  assert (H : forall o, (47 <= o)%nat -> (max_order g < gdim g * o)%nat) by (intros o X; destruct G; subst; cbn [gdim]; unfold max_order; cbn [table]; cbn; lia).
  rewrite (@from_tensor g order SI DI (H _ O) c1 w1) by (rewrite A; auto). rewrite (@from_tensor g 47 SI DI (H _ (Nat.le_refl _)) c1 w1 F). rewrite A. auto.
Qed.
(** With full_order the order is the total degree; above the table the call crashes *)
Theorem C113_full_order : forall g order, g = G24 \/ g = G38 -> (order <= max_order g)%nat ->
  exists qp, from_table g order true = Ok qp /\ (order <= qp_order qp)%nat /\ (forall x, In x (qp_coors qp) -> kind_in (elem g) x) /\ integrates (elem g) (total_degree order) tol5 (qp_coors qp) (qp_weights qp).
Proof.
  intros g order G H. assert (SI : is_simplex g = false) by (destruct G; subst; auto). assert (G0 : g <> G01) by (destruct G; subst; discriminate).
  destruct (@from_order_ok g order G0 H) as (c & w & F & L & _ & IN & IT). exists (mkQP c w (get_actual_order g order)). cbn [qp_coors qp_weights qp_order].
  unfold from_table. rewrite SI. replace (order <=? max_order g)%nat with true by (symmetry; apply Nat.leb_le; auto). rewrite F. cbn [bind fst snd]. split; auto. split; auto. split; auto.
  refine (@integrates_sub _ _ _ _ _ _ _ _ _ IT); [|lra]. intros es LE E. destruct G; subst g; cbn [exactness]; unfold total_degree in *; lia.
Qed.
Theorem C113_full_order_refuted : forall g order, is_simplex g = false -> (max_order g < order)%nat -> from_table g order true = Err NameError.
Proof. intros g order SI H. unfold from_table. rewrite SI. replace (order <=? max_order g)%nat with false by (symmetry; apply Nat.leb_gt; auto). auto. Qed.
(** *** Wedge *)
Theorem C113_wedge_partial : forall order, (order <= 3)%nat ->
  exists qp, from_table G36 order false = Ok qp /\ (forall x, In x (qp_coors qp) -> kind_in Wedge x) /\ integrates Wedge (wedge_degree order) tol5 (qp_coors qp) (qp_weights qp).
Proof.
  intros order O. assert (H : (3 * order <= max_order G36)%nat) by (change (max_order G36) with 9%nat; lia).
  destruct (@from_order_ok G36 (3 * order) ltac:(discriminate) H) as (c & w & F & L & _ & IN & IT). exists (mkQP c w (get_actual_order G36 (3 * order))). cbn [qp_coors qp_weights].
  unfold from_table. cbn [is_simplex gdim]. replace (3 * order <=? max_order G36)%nat with true by (symmetry; apply Nat.leb_le; auto). rewrite F. cbn [bind fst snd]. split; auto. split; auto.
  refine (@integrates_sub _ _ _ _ _ _ _ _ _ IT); [|lra]. intros es LE [E1 E2]. cbn [exactness]. set (a := get_actual_order G36 (3 * order)) in *. clearbody a. assert (D := Nat.div_le_mono (3 * order) a 3 ltac:(lia) L). rewrite Nat.mul_comm, Nat.div_mul in D by lia. split; lia.
Qed.
(** From order 4 on the rule of the cube is returned: the weights sum to 1, the volume of the wedge is 1 / 2 *)
Theorem C113_wedge_refuted : forall order, (4 <= order)%nat ->
  exists qp, from_table G36 order false = Ok qp /\ Rabs (quad (qp_coors qp) (qp_weights qp) (fun _ => 1) - 1) <= tol20 /\ kind_int Wedge (fun _ => 1) (/ 2).
Proof.
  intros order O. destruct (line_rule order) as (c1 & w1 & F & GD). assert (H : (max_order G36 < gdim G36 * order)%nat) by (change (max_order G36) with 9%nat; change (gdim G36) with 3%nat; lia).
  rewrite (@from_tensor G36 order eq_refl ltac:(cbn; lia) H c1 w1 F). eexists. split; [reflexivity|]. cbn [qp_coors qp_weights gdim Nat.eqb]. split.
  - destruct (tensor3 GD) as [IN IT]. cbn [fst snd] in *. assert (E := integrates_exact [0; 0; 0]%nat IT eq_refl ltac:(unfold each_degree; repeat constructor; lia)).
    replace (exactR (Cube 3) [0; 0; 0]%nat) with 1 in E by (unfold exactR; cbn; lra).
    replace (quad (prod3 c1) (wprod3 w1) (fun _ => 1)) with (quad (prod3 c1) (wprod3 w1) (monomial [0; 0; 0]%nat)); auto.
    unfold quad. f_equal. apply map_ext_in. intros [x w] I. cbn [fst snd]. apply in_combine_l in I. apply IN in I. destruct I as [LX _]. destruct x as [|? [|? [|? [|? ?]]]]; try discriminate. unfold monomial. cbn. lra.
  - assert (M := @exact_int Wedge [0; 0; 0]%nat eq_refl). replace (exactR Wedge [0; 0; 0]%nat) with (/ 2) in M by (unfold exactR; cbn; lra). destruct M as (g & G & I). exists g. split; auto. intros z Z. specialize (G z Z). refine (@simplex_int_ext _ _ _ _ _ _ G).
    intros x LX. destruct x as [|? [|? [|? ?]]]; try discriminate. unfold monomial. cbn. lra.
Qed.
(** With full_order the keys of the wedge table (three times the degree) are taken as degrees: the one point rule for degree 2 *)
Theorem C113_wedge_full_refuted : exists qp, from_table G36 2 true = Ok qp /\ quad (qp_coors qp) (qp_weights qp) (monomial [2; 0; 0]%nat) = / 18 /\ kind_int Wedge (monomial [2; 0; 0]%nat) (/ 12).
Proof.
  eexists. split; [|split].
  - unfold from_table. cbn [is_simplex gdim]. unfold from_order. cbn [table table_3_6 get_actual_order lookup]. cbn -[rat Q2R Rzerob]. reflexivity.
  - unfold rat. cbn [qp_coors qp_weights q3_6_3 map removelast last]. unfold quad, monomial, Q2R. cbn. lra.
  - assert (M := @exact_int Wedge [2; 0; 0]%nat eq_refl). replace (exactR Wedge [2; 0; 0]%nat) with (/ 12) in M by (unfold exactR; cbn; lra). auto.
Qed.
(** The point: one node of weight 1 *)
Theorem C113_point : forall order, exists qp, from_table G01 order false = Ok qp /\ qp_coors qp = [[0]] /\ qp_weights qp = [1].
Proof.
  intros order. eexists. split; [unfold from_table; cbn [is_simplex gdim]; reflexivity|]. unfold rat. cbn. unfold Q2R. cbn. split; repeat f_equal; lra.
Qed.
Example C113_example : (20 <= 47)%nat /\ (max_order G38 < gdim G38 * 20)%nat /\ In (2%nat, mkRule q2_4_2 (Some (-1, 1)) 1 1 false) (table G24) /\ kind_in (Cube 2) [/ 2; 1] /\ ~ kind_in Wedge [1; 1; 0] /\ total_degree 3 [1; 2]%nat /\ each_degree 2 [2; 2; 2]%nat.
Proof.
  split; [lia|]. split; [vm_compute; lia|]. split; [left; reflexivity|]. split; [split; auto; intros [|[|k]] K; cbn; lra||(cbn in K; lia)|]. split; [intros [_ H]; cbn in H; lra|]. split; [unfold total_degree; cbn; lia|]. unfold each_degree. repeat constructor.
Qed.
Print Assumptions C112_tables.
Print Assumptions C113_simplex.
Print Assumptions C113_tensor.
Print Assumptions C113_wedge_refuted.
