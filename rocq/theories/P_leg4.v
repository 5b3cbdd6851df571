(** The projection to the Legendre bases; examples. *)
From Coq Require Import List Arith ZArith Lia Reals Lra Permutation.
From Coquelicot Require Import Coquelicot.
From Verif Require Import Base M_fmf L_fmf S_iga L_iga S_quad L_quadint L_map M_dglim P_dglim2 M_leg S_leg L_leg P_leg P_leg2 L_dgflux P_leg3.
Import ListNotations.
Open Scope R_scope.

(** What the projection to the functions fs with a rule has to satisfy:
    functions of the span are reproduced; the error is orthogonal to the basis;
    no other combination has a smaller weighted squared error. *)
Definition is_projection (fs : list (list R -> R)) (coors : list (list R)) (weights : list R) : Prop :=
  let nq := length coors in let w := fun q => nth q weights 0 in
  let bas := fun q m => nth m fs (fun _ => 0) (nth q coors []) in
  let approx := fun c q => sm (length fs) (fun m => c m * bas q m) in
  forall fv,
  (forall c, (forall q, (q < nq)%nat -> fv q = approx c q) -> forall m, (m < length fs)%nat -> project nq w bas fv m = c m) /\
  (forall j, (j < length fs)%nat -> sm nq (fun q => w q * (fv q - approx (project nq w bas fv) q) * bas q j) = 0) /\
  (List.Forall (fun a => 0 <= a) weights -> forall c,
     sm nq (fun q => w q * (fv q - approx (project nq w bas fv) q) ^ 2) <= sm nq (fun q => w q * (fv q - approx c q) ^ 2)).

Lemma prod_inv_pos idx : 0 < fold_right Rmult 1 (map (fun i => / INR (2 * i + 1)) idx).
Proof. induction idx; cbn [map fold_right]. lra. apply Rmult_lt_0_compat; auto. apply Rinv_0_lt_compat, lt_0_INR. lia. Qed.
Theorem C174_tensor_projection dim idxs coors weights :
  NoDup idxs -> List.Forall (fun idx => length idx = dim) idxs ->
  exact_products (cube_int dim) (map tp_value idxs) coors weights -> is_projection (map tp_value idxs) coors weights.
Proof.
  intros ND LN EX fv. rewrite List.Forall_forall in LN.
  apply (proj_all (cube_int dim) (map tp_value idxs) (fun i => fold_right Rmult 1 (map (fun i => / INR (2 * i + 1)) (nth i idxs [])))); auto.
  - intros i j I J. rewrite map_length in *.
    rewrite !(nth_indep (map tp_value idxs) (fun _ => 0) (tp_value [])) by (rewrite map_length; auto). rewrite !map_nth.
    pose proof (LN _ (nth_In idxs [] I)) as LI. pose proof (LN _ (nth_In idxs [] J)) as LJ.
    pose proof (C171_tensor_orthogonal (nth i idxs []) (nth j idxs []) ltac:(congruence)) as O. rewrite LI in O.
    destruct (list_eq_dec Nat.eq_dec (nth i idxs []) (nth j idxs [])) as [E|E], (Nat.eqb_spec i j) as [F|F]; auto; try congruence.
    exfalso. apply F. apply (proj1 (NoDup_nth idxs []) ND); auto.
  - intros i I. pose proof (prod_inv_pos (nth i idxs [])). lra.
Qed.
(** The integral over the triangle, as iterated integrals (y outside). *)
Definition tri_int (f : list R -> R) (v : R) : Prop := simplex_int 2 1 (fun p => f [nth 1 p 0; nth 0 p 0]) v.
Definition sx_fun (p : nat * nat) (x : list R) : R := sx_value (fst p) (snd p) (nth 0 x 0) (nth 1 x 0).
Theorem C174_simplex_projection order coors weights :
  exact_products tri_int (map sx_fun (iter2 order false)) coors weights -> is_projection (map sx_fun (iter2 order false)) coors weights.
Proof.
  intros EX fv. destruct (C158_basis_indices order) as (_ & ND & _). specialize (ND false). set (ps := iter2 order false) in *.
  set (nr := fun i => let p := nth i ps (0, 0)%nat in 4 ^ fst p / (INR (2 * fst p + 1) * INR (2 * fst p + 2 * snd p + 2))).
  apply (proj_all tri_int (map sx_fun ps) nr); auto.
  - intros i j I J. rewrite map_length in *.
    rewrite !(nth_indep (map sx_fun ps) (fun _ => 0) (sx_fun (0, 0)%nat)) by (rewrite map_length; auto). rewrite !map_nth.
    pose proof (C171_simplex_orthogonal (fst (nth i ps (0, 0)%nat)) (snd (nth i ps (0, 0)%nat)) (fst (nth j ps (0, 0)%nat)) (snd (nth j ps (0, 0)%nat))) as O.
    unfold tri_int, sx_fun. cbn [nth]. unfold nr.
    destruct (Nat.eqb_spec i j) as [->|F]. rewrite !Nat.eqb_refl in O. exact O.
    destruct (Nat.eqb_spec (fst (nth i ps (0, 0)%nat)) (fst (nth j ps (0, 0)%nat))) as [A|A]; [|exact O].
    destruct (Nat.eqb_spec (snd (nth i ps (0, 0)%nat)) (snd (nth j ps (0, 0)%nat))) as [B|B]; [|exact O].
    exfalso. apply F. apply (proj1 (NoDup_nth ps (0, 0)%nat) ND); auto. apply injective_projections; auto.
  - intros i I. unfold nr. cbv zeta. set (p := nth i ps (0, 0)%nat). assert (0 < 4 ^ fst p) by (apply pow_lt; lra).
    pose proof (lt_0_INR (2 * fst p + 1) ltac:(lia)). pose proof (lt_0_INR (2 * fst p + 2 * snd p + 2) ltac:(lia)).
    assert (0 < 4 ^ fst p / (INR (2 * fst p + 1) * INR (2 * fst p + 2 * snd p + 2))). { apply Rdiv_lt_0_compat; auto. apply Rmult_lt_0_compat; auto. } lra.
Qed.
(** Setting the DOFs to a number gives the constant function. *)
Lemma jac_0 al x : eval_jacobi 0 al x = 1.
Proof. unfold eval_jacobi. cbn [sm Nat.add pow]. rewrite !comb_0. ring. Qed.
Lemma scalar_sum n c (f : nat -> R) : (0 < n)%nat -> f 0%nat = 1 -> sm n (fun m => scalar_dofs c m * f m) = c.
Proof.
  intros N E. destruct n; [lia|]. rewrite sm_first, (sm_0 n). unfold scalar_dofs. cbn. rewrite E. ring. intros. unfold scalar_dofs. cbn. ring.
Qed.
Theorem C174_constant order c :
  (forall x, sm (S order) (fun m => scalar_dofs c m * tp_value (nth m (idx_list order 1 false) []) [x]) = c) /\
  (forall x y ext, sm (get_n_el_nod order 2 ext) (fun m => scalar_dofs c m * tp_value (nth m (idx_list order 2 ext) []) [x; y]) = c) /\
  (forall x y, sm (get_n_el_nod order 2 false) (fun m => scalar_dofs c m * sx_fun (nth m (iter2 order false) (0, 0)%nat) [x; y]) = c).
Proof.
  assert (H : forall ext, nth 0 (iter2 order ext) (0, 0)%nat = (0, 0)%nat).
  { intros ext. unfold iter2. rewrite Nat.add_1_r. reflexivity. }
  assert (P : forall ext, (0 < get_n_el_nod order 2 ext)%nat).
  { intros ext. destruct (C158_basis_indices order) as (_ & _ & L & _). rewrite <- L. unfold iter2. rewrite Nat.add_1_r. cbn. lia. }
  split; [|split].
  - intros x. apply scalar_sum; [lia|]. cbn [idx_list]. unfold iter1. rewrite Nat.add_1_r. unfold tp_value, tp_combine, legendreP. cbn [seq map nth combine prodl fold_right fst snd]. rewrite jac_0. ring.
  - intros x y ext. apply scalar_sum; [auto|]. cbn [idx_list].
    assert (E : nth 0 (map (fun p : nat * nat => [fst p; snd p]) (iter2 order ext)) [] = [0%nat; 0%nat]).
    { specialize (H ext). unfold iter2. rewrite Nat.add_1_r. reflexivity. }
    rewrite E. unfold tp_value, tp_combine, legendreP. cbn [map combine prodl fold_right fst snd]. rewrite !jac_0. ring.
  - intros x y. apply (scalar_sum _ c (fun m => sx_fun (nth m (iter2 order false) (0, 0)%nat) [x; y])); [auto|]. rewrite H. unfold sx_fun, sx_value, sx_combine. cbn [fst snd nth]. rewrite !jac_0. cbn [pow]. ring.
Qed.

(** ** Examples *)
(** Simpson's rule is exact for the products of the linear basis. *)
Lemma tp0 x : tp_value [0%nat] [x] = 1.
Proof. destruct (C169_legendre 0) as (E & _). rewrite E. unfold get_nth_fun. cbn. ring. Qed.
Lemma tp1 x : tp_value [1%nat] [x] = 2 * x - 1.
Proof. destruct (C169_legendre 1) as (E & _). rewrite E. unfold get_nth_fun. cbn. ring. Qed.
Example C174_ex : exact_products (cube_int 1) (map tp_value (idx_list 1 1 false)) [[0]; [1 / 2]; [1]] [1 / 6; 4 / 6; 1 / 6].
Proof.
  split; [reflexivity|]. intros f g F G v V. cbn in F, G.
  assert (Q : forall h, quad [[0]; [1 / 2]; [1]] [1 / 6; 4 / 6; 1 / 6] h = 1 / 6 * h [0] + (4 / 6 * h [1 / 2] + (1 / 6 * h [1] + 0))) by reflexivity.
  rewrite Q. 
  destruct F as [<-|[<-|[]]], G as [<-|[<-|[]]];
  match type of V with cube_int _ (fun p => tp_value ?a p * tp_value ?b p) _ => pose proof (C171_tensor_orthogonal a b eq_refl) as O end;
  cbn [length] in O; rewrite (cube_int_unique _ _ _ _ V O); clear V O; rewrite ?tp0, ?tp1;
  cbn [map fold_right Nat.mul Nat.add INR]; field.
Qed.
Example C174_ex_use : project 3 (fun q => nth q [1 / 6; 4 / 6; 1 / 6] 0) (fun q m => nth m (map tp_value (idx_list 1 1 false)) (fun _ => 0) (nth q [[0]; [1 / 2]; [1]] []))
  (fun q => 3 + 5 * nth 0 (nth q [[0]; [1 / 2]; [1]] []) 0) 1 = 5 / 2.
Proof.
  assert (ND : NoDup (idx_list 1 1 false)) by (cbn; repeat constructor; cbn; intuition congruence).
  assert (LN : List.Forall (fun idx : list nat => length idx = 1%nat) (idx_list 1 1 false)) by (cbn; repeat constructor).
  destruct (C174_tensor_projection 1 _ _ _ ND LN C174_ex (fun q => 3 + 5 * nth 0 (nth q [[0]; [1 / 2]; [1]] []) 0)) as (P & _).
  specialize (P (fun m => match m with O => 3 + 5 / 2 | _ => 5 / 2 end)). apply P; [|cbn; lia].
  intros q Hq. cbn [length] in Hq. destruct q as [|[|[|q]]]; [| | |lia]; cbn [nth map idx_list iter1 seq Nat.add length sm]; rewrite tp0, tp1; field.
Qed.
(** a quadratic and a cubic member of the basis; the vertex of the triangle *)
Example C169_ex : get_nth_fun 6 1 = 1 /\ get_nth_fun 2 (1 / 2) = - 1 / 2.
Proof.
  split. destruct (C169_legendre 6) as (_ & (_ & E & _) & _). exact E. unfold get_nth_fun. cbn. field.
Qed.
Example C172_ex : sx_value 1 0 0 1 = 0 /\ sx_grad 1 0 0 1 0 = 4 /\ sx_grad 1 0 0 1 1 = 2.
Proof.
  split; [|split].
  - rewrite sx_q by lra. unfold qpoly, hom, pl. cbn [sm Nat.sub pow]. rewrite !jc_IZR. cbv [binom Nat.add Nat.mul Z.of_nat Pos.of_succ_nat Pos.succ Z.mul Pos.mul Pos.add]. field.
  - rewrite sx_gx by lra. unfold hom_x, pl. cbn [sm Nat.sub pow pred INR]. rewrite !jc_IZR. cbv [binom Nat.add Nat.mul Z.of_nat Pos.of_succ_nat Pos.succ Z.mul Pos.mul Pos.add]. field.
  - rewrite sx_gy by lra. unfold hom_y, hom, pl. replace (jacobi_deriv 0 (2 * 1 + 1) (to_ref 1)) with 0 by (unfold jacobi_deriv; cbn [sm INR]; ring).
    cbn [sm Nat.sub pow pred INR]. rewrite !jc_IZR. cbv [binom Nat.add Nat.mul Z.of_nat Pos.of_succ_nat Pos.succ Z.mul Pos.mul Pos.add]. field.
Qed.
Print Assumptions C169_legendre.
Print Assumptions C170_derivatives.
Print Assumptions C170_tensor_gradient.
Print Assumptions C171_tensor_orthogonal.
Print Assumptions C171_simplex_orthogonal.
Print Assumptions C172_simplex_gradient.
Print Assumptions C172_interior.
Print Assumptions C173_tensor_scheme.
Print Assumptions C173_simplex_scheme.
Print Assumptions C174_tensor_projection.
Print Assumptions C174_simplex_projection.
Print Assumptions C174_constant.
