(** Integrals of the monomials over the reference elements. *)
From Coq Require Import Reals Lra.
From Verif Require Import Base M_nls M_lagnodes M_lagrange P_lagnodes L_lagrange L_gm S_quad.
Set Implicit Arguments.
Open Scope R_scope.

Lemma fact_INR_pos : forall n, 0 < INR (fact n).
Proof. intros. apply lt_0_INR, lt_O_fact. Qed.
Lemma pow_lim : forall n x, derivable_pt_lim (fun y => y ^ n) x (INR n * x ^ pred n).
Proof. intros. apply derivable_pt_lim_pow. Qed.
Lemma sub_pow_lim : forall n a x, derivable_pt_lim (fun y => (a - y) ^ n) x (- INR n * (a - x) ^ pred n).
Proof.
  intros n a x. replace (- INR n * (a - x) ^ pred n) with ((INR n * (a - x) ^ pred n) * (0 - 1)) by ring.
  apply (derivable_pt_lim_comp (fun y => a - y) (fun y => y ^ n)); [|apply pow_lim]. apply (derivable_pt_lim_minus (fct_cte a) id); [apply derivable_pt_lim_const|apply derivable_pt_lim_id].
Qed.
Lemma lim_val : forall f x l m, l = m -> derivable_pt_lim f x l -> derivable_pt_lim f x m.
Proof. intros. subst. auto. Qed.
Lemma is_RInt_val : forall (f : R -> R) (a b v w : R), v = w -> is_RInt f a b v -> is_RInt f a b w.
Proof. intros. subst. auto. Qed.
Lemma beta_int : forall p q a, 0 <= a -> is_RInt (fun x => x ^ p * (a - x) ^ q) 0 a (a ^ (p + q + 1) * (INR (fact p) * INR (fact q) / INR (fact (p + q + 1)))).
Proof.
  induction p as [|p IH]; intros q a PA.
  - apply (@is_RInt_extR (fun x => (a - x) ^ q)); [intros; cbn [pow]; lra|].
    set (F := fun x => - / INR (S q) * (a - x) ^ S q).
    assert (NZ : INR (S q) <> 0) by (apply not_0_INR; lia).
    apply (@is_RInt_val _ _ _ (F a - F 0)).
    + unfold F. replace (a - a) with 0 by lra. replace (a - 0) with a by lra. replace (0 + q + 1)%nat with (S q) by lia. rewrite (fact_simpl q), mult_INR. change (fact 0) with 1%nat. change (INR 1) with 1. assert (H := fact_INR_pos q). rewrite pow_i by lia. field. split; [lra|auto].
    + apply (@is_RInt_derive F (fun x => (a - x) ^ q)); auto.
      * intros x. unfold F. refine (@lim_val _ _ _ _ _ (derivable_pt_lim_scal _ (- / INR (S q)) x _ (sub_pow_lim (S q) a x))). cbn [pred]. field. auto.
      * intros x. reg.
  - assert (NZ : INR (S q) <> 0) by (apply not_0_INR; lia). assert (B := IH (S q) a PA).
    set (F := fun x => x ^ S p * (a - x) ^ S q).
    assert (D : is_RInt (fun x => INR (S p) * (x ^ p * (a - x) ^ S q) - INR (S q) * (x ^ S p * (a - x) ^ q)) 0 a 0).
    { apply (@is_RInt_val _ _ _ (F a - F 0)).
      - unfold F. replace (a - a) with 0 by lra. rewrite (pow_i (S p)), (pow_i (S q)) by lia. lra.
      - apply (@is_RInt_derive F); auto.
        + intros x. unfold F. refine (@lim_val _ _ _ _ _ (derivable_pt_lim_mult _ _ x _ _ (pow_lim (S p) x) (sub_pow_lim (S q) a x))). cbn [pred]. ring.
        + intros x. reg. }
    apply (@is_RInt_extR (fun x => (/ INR (S q) * INR (S p)) * (x ^ p * (a - x) ^ S q) + (- / INR (S q)) * (INR (S p) * (x ^ p * (a - x) ^ S q) - INR (S q) * (x ^ S p * (a - x) ^ q)))).
    { intros x. field. auto. }
    apply (@is_RInt_val _ _ _ ((/ INR (S q) * INR (S p)) * (a ^ (p + S q + 1) * (INR (fact p) * INR (fact (S q)) / INR (fact (p + S q + 1)))) + (- / INR (S q)) * 0)).
    + replace (S p + q + 1)%nat with (p + S q + 1)%nat by lia. rewrite (fact_simpl p), (fact_simpl q), !mult_INR. assert (H := fact_INR_pos (p + S q + 1)). field. split; auto. lra.
    + apply is_RInt_lin; auto.
Qed.
Lemma simplex_int_val : forall n a f v w, v = w -> simplex_int n a f v -> simplex_int n a f w.
Proof. intros. subst. auto. Qed.
Lemma simplex_int_scal : forall n a c f v, simplex_int n a f v -> simplex_int n a (fun x => c * f x) (c * v).
Proof. intros. apply (@simplex_int_ext n a (fun x => c * f x + 0 * f x)); [intros; lra|]. apply (@simplex_int_val n a _ (c * v + 0 * v)); [lra|]. apply simplex_int_lin; auto. Qed.
(** Barycentric monomials *)
Lemma bary_int : forall ps p0 a, 0 <= a -> simplex_int (length ps) a (fun x => (a - lsum x) ^ p0 * mono x ps)
  (a ^ (p0 + list_sum ps + length ps) * (INR (fact p0) * lfact ps / INR (fact (p0 + list_sum ps + length ps)))).
Proof.
  induction ps as [|p ps IH]; intros p0 a PA.
  - cbn [length simplex_int list_sum fold_right]. unfold lfact, mono. cbn [lsum map combine lprod fold_right]. rewrite !Nat.add_0_r. rewrite Rminus_0_r. assert (H := fact_INR_pos p0). field. lra.
  - cbn [length simplex_int]. set (q := (p0 + list_sum ps + length ps)%nat). set (K := INR (fact p0) * lfact ps / INR (fact q)).
    exists (fun x => x ^ p * ((a - x) ^ q * K)). split.
    + intros x X. apply (@simplex_int_ext _ _ (fun y => x ^ p * (((a - x) - lsum y) ^ p0 * mono y ps))).
      * intros y _. rewrite lsum_cons. unfold mono. cbn [combine map]. rewrite lprod_cons. cbn [fst snd]. replace (a - (x + lsum y)) with (a - x - lsum y) by lra. ring.
      * apply simplex_int_scal. apply IH. lra.
    + apply (@is_RInt_extR (fun x => K * (x ^ p * (a - x) ^ q))); [intros x; ring|]. refine (@is_RInt_val _ _ _ _ _ _ (@is_RInt_scal K _ _ _ _ (beta_int p q PA))).
      change (list_sum (p :: ps)) with (p + list_sum ps)%nat. replace (p0 + (p + list_sum ps) + S (length ps))%nat with (p + q + 1)%nat by (unfold q; lia).
      unfold K, lfact. cbn [map]. rewrite lprod_cons. assert (H := fact_INR_pos q). assert (H1 := fact_INR_pos (p + q + 1)). field. lra.
Qed.
(** Monomials over simplices *)
Lemma mono_int : forall ps, simplex_int (length ps) 1 (fun x => mono x ps) (lfact ps / INR (fact (list_sum ps + length ps))).
Proof.
  intros ps. apply (@simplex_int_ext _ _ (fun x => (1 - lsum x) ^ 0 * mono x ps)); [intros; cbn [pow]; lra|].
  refine (@simplex_int_val _ _ _ _ _ _ (bary_int ps 0 Rle_0_1)). rewrite pow1. change (fact 0) with 1%nat. change (INR 1) with 1. rewrite Nat.add_0_l. unfold Rdiv. ring.
Qed.
(** Monomials over cubes *)
Lemma pow_int : forall p, is_RInt (fun x => x ^ p) 0 1 (/ INR (S p)).
Proof.
  intros p. apply (@is_RInt_extR (fun x => x ^ p * (1 - x) ^ 0)); [intros; cbn [pow]; lra|]. refine (@is_RInt_val _ _ _ _ _ _ (beta_int p 0 Rle_0_1)).
  rewrite pow1, Nat.add_0_r. replace (p + 1)%nat with (S p) by lia. rewrite fact_simpl, mult_INR. change (fact 0) with 1%nat. change (INR 1) with 1. assert (H := fact_INR_pos p). assert (NZ : INR (S p) <> 0) by (apply not_0_INR; lia). field. split; auto. lra.
Qed.
Lemma cube_int_val : forall n f v w, v = w -> cube_int n f v -> cube_int n f w.
Proof. intros. subst. auto. Qed.
Lemma cube_int_scal : forall n c f v, cube_int n f v -> cube_int n (fun x => c * f x) (c * v).
Proof. intros. apply (@cube_int_ext n (fun x => c * f x + 0 * f x)); [intros; lra|]. apply (@cube_int_val n _ (c * v + 0 * v)); [lra|]. apply cube_int_lin; auto. Qed.
Lemma mono_cube : forall ps, cube_int (length ps) (fun x => mono x ps) (lprod (map (fun p => / INR (S p)) ps)).
Proof.
  induction ps as [|p ps IH]; [reflexivity|]. cbn [length cube_int map]. rewrite lprod_cons. exists (fun x => x ^ p * lprod (map (fun p => / INR (S p)) ps)). split.
  - intros x X. apply (@cube_int_ext _ (fun y => x ^ p * mono y ps)); [intros; reflexivity|]. apply cube_int_scal. auto.
  - apply (@is_RInt_extR (fun x => lprod (map (fun p => / INR (S p)) ps) * x ^ p)); [intros x; ring|]. refine (@is_RInt_val _ _ _ _ _ _ (@is_RInt_scal _ _ _ _ _ (pow_int p))). ring.
Qed.
Lemma mono_wedge : forall p q r, wedge_int (fun x => mono x [p; q; r]) (INR (fact p) * INR (fact q) / INR (fact (p + q + 2)) / INR (S r)).
Proof.
  intros p q r. exists (fun z => INR (fact p) * INR (fact q) / INR (fact (p + q + 2)) * z ^ r). split.
  - intros z Z. 
    refine (@simplex_int_val 2 1 _ (z ^ r * (INR (fact p) * INR (fact q) / INR (fact (p + q + 2)))) _ _ _); [ring|].
    assert (M := mono_int [p; q]). cbn [length] in M. unfold lfact in M. cbn [map lprod fold_right list_sum length] in M. replace (p + (q + 0) + 2)%nat with (p + q + 2)%nat in M by lia. rewrite Rmult_1_r in M.
    apply (@simplex_int_scal 2 1 (z ^ r)) in M. destruct M as (g & G & I). exists g. split; auto. intros x X. specialize (G x X). destruct G as (h & H & J). exists h. split; auto. intros y Y. specialize (H y Y). cbn in H |- *. rewrite <- H. unfold mono. cbn. ring.
  - refine (@is_RInt_val _ _ _ _ _ _ (@is_RInt_scal _ _ _ _ _ (pow_int r))). unfold Rdiv. ring.
Qed.
