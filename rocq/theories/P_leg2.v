(** The triangle basis. *)
From Coq Require Import List Arith ZArith Lia Reals Lra.
From Coquelicot Require Import Coquelicot.
From Verif Require Import Base M_fmf L_fmf S_iga L_iga S_quad L_quadint L_hyper L_map M_dglim M_leg S_leg L_leg P_leg.
Import ListNotations.
Open Scope R_scope.

(** The collapsed factor as a polynomial: sum_m c (r + s)^m (1 - s)^(i - m) *)
Definition hom (i : nat) (x y : R) : R := sm (S i) (fun m => jc i 0 m * (2 * x + 2 * y - 2) ^ m * (2 - 2 * y) ^ (i - m)).
Definition qpoly (i j : nat) (x y : R) : R := hom i x y * pl j (2 * i + 1) (1 - y).
Lemma in_vertex x y : 0 <= x -> x + y <= 1 -> 1 - to_ref y = 0 -> x = 0 /\ y = 1.
Proof. unfold to_ref. intros. lra. Qed.
Lemma sx_hom i x y : 0 <= x -> x + y <= 1 -> eval_jacobi i 0 (coll_a (to_ref x) (to_ref y)) * (1 - to_ref y) ^ i = hom i x y.
Proof.
  intros X Y. unfold coll_a. destruct (Req_EM_T _ _) as [Z|Z].
  - destruct (in_vertex x y X Y Z) as [-> ->]. unfold to_ref, hom. replace (1 - (2 * 1 - 1)) with 0 by ring. replace (2 * 0 + 2 * 1 - 2) with 0 by ring. replace (2 - 2 * 1) with 0 by ring.
    destruct i as [|i].
    + unfold eval_jacobi, jc. cbn [sm pow Nat.add Nat.sub]. rewrite !comb_0. ring.
    + rewrite pow_i by lia. rewrite Rmult_0_r. symmetry. apply sm_0. intros m Hm. destruct m. rewrite (pow_i (S i - 0)) by lia. ring. rewrite (pow_i (S m)) by lia. ring.
  - unfold eval_jacobi, hom. rewrite <- sm_scalr. apply sm_ext. intros m Hm. fold (jc i 0 m).
    replace ((2 * (1 + to_ref x) / (1 - to_ref y) - 1 - 1) / 2) with ((2 * x + 2 * y - 2) / (2 - 2 * y)) by (unfold to_ref in *; field; lra).
    replace (1 - to_ref y) with (2 - 2 * y) in * by (unfold to_ref; ring).
    replace i with (m + (i - m))%nat at 2 by lia. rewrite (pow_add (2 - 2 * y)). unfold Rdiv. rewrite Rpow_mult_distr, pow_inv. fold (jc i 0 m).
    assert ((2 - 2 * y) ^ m <> 0) by (apply pow_nonzero; auto). unfold jc. field. auto.
Qed.
Lemma sx_q i j x y : 0 <= x -> x + y <= 1 -> sx_value i j x y = qpoly i j x y.
Proof.
  intros X Y. unfold sx_value, sx_combine, qpoly. rewrite <- sx_hom, jac_pl by auto. ring.
Qed.

(** ** Orthogonality on the triangle *)
Lemma hom_pl i x y : hom i x y = sm (S i) (fun m => 2 ^ i * ((-1) ^ m * jc i 0 m) * ((1 - y - x) ^ m * (1 - y) ^ (i - m))).
Proof.
  unfold hom. apply sm_ext. intros m Hm. replace (2 * x + 2 * y - 2) with (2 * (-1 * (1 - y - x))) by ring. replace (2 - 2 * y) with (2 * (1 - y)) by ring.
  rewrite !Rpow_mult_distr. replace (2 ^ i) with (2 ^ (m + (i - m))) by (f_equal; lia). rewrite pow_add. ring.
Qed.
Lemma inner_int i k a : 0 <= a -> S_quad.is_RInt (fun x => hom i x (1 - a) * hom k x (1 - a)) 0 a (2 ^ (i + k) * a ^ (i + k + 1) * (if Nat.eqb i k then / INR (2 * i + 1) else 0)).
Proof.
  intros A. pose proof (jac_orth i k 0) as O. rewrite Nat.add_0_r in O. rewrite <- O. clear O.
  apply (@S_quad.is_RInt_extR (fun x => sm (S i) (fun m => sm (S k) (fun m' => (2 ^ (i + k) * ((-1) ^ m * jc i 0 m * ((-1) ^ m' * jc k 0 m')) * a ^ ((i - m) + (k - m'))) * (a - x) ^ (m + m'))))).
  { intros x. rewrite !hom_pl. replace (1 - (1 - a) - x) with (a - x) by ring. replace (1 - (1 - a)) with a by ring.
    rewrite <- sm_scalr. apply sm_ext. intros m _. rewrite <- sm_scal. apply sm_ext. intros m' _. rewrite !pow_add. ring. }
  refine (@is_RInt_val _ _ _ _ _ _ (@int_sm (S i) _ (fun m => sm (S k) (fun m' => 2 ^ (i + k) * a ^ (i + k + 1) * ((-1) ^ m * jc i 0 m * ((-1) ^ m' * jc k 0 m') / INR (0 + m + m' + 1)))) 0 a A _)).
  - rewrite <- sm_scal. apply sm_ext. intros m _. rewrite <- sm_scal. reflexivity.
  - intros m Hm. apply int_sm; [auto|]. intros m' Hm'. refine (@is_RInt_val _ _ _ _ _ _ (@S_quad.is_RInt_scal _ _ _ _ _ (int_pow a (m + m') A))).
    replace (i + k + 1)%nat with ((i - m) + (k - m') + (m + m' + 1))%nat by lia. rewrite (pow_add a (i - m + (k - m'))). cbn [Nat.add]. unfold Rdiv. ring.
Qed.
(** Iterated integral over the triangle, the coordinate y outside. *)
Theorem C171_simplex_orthogonal i j k l :
  simplex_int 2 1 (fun p => sx_value i j (nth 1 p 0) (nth 0 p 0) * sx_value k l (nth 1 p 0) (nth 0 p 0))
    (if (Nat.eqb i k && Nat.eqb j l)%bool then 4 ^ i / (INR (2 * i + 1) * INR (2 * i + 2 * j + 2)) else 0).
Proof.
  cbn [simplex_int nth]. exists (fun y => (pl j (2 * i + 1) (1 - y) * pl l (2 * k + 1) (1 - y)) * (2 ^ (i + k) * (1 - y) ^ (i + k + 1) * (if Nat.eqb i k then / INR (2 * i + 1) else 0))).
  split.
  - intros y Hy. exists (fun x => sx_value i j x y * sx_value k l x y). split.
    { intros x Hx. cbn. reflexivity. }
    pose proof (inner_int i k (1 - y) ltac:(lra)) as I. apply (@S_quad.is_RInt_scal (pl j (2 * i + 1) (1 - y) * pl l (2 * k + 1) (1 - y))) in I.
    destruct I as (pr & E).
    assert (EX : forall x, Rmin 0 (1 - y) <= x <= Rmax 0 (1 - y) -> pl j (2 * i + 1) (1 - y) * pl l (2 * k + 1) (1 - y) * (hom i x (1 - (1 - y)) * hom k x (1 - (1 - y))) = sx_value i j x y * sx_value k l x y).
    { intros x Hx. rewrite Rmin_left, Rmax_right in Hx by lra. rewrite !sx_q by lra. unfold qpoly. replace (1 - (1 - y)) with y by ring. ring. }
    exists (Riemann_integrable_ext _ _ _ _ EX pr). rewrite <- E. apply RiemannInt_P18; [lra|]. intros x Hx. symmetry. apply EX. rewrite Rmin_left, Rmax_right; lra.
  - destruct (Nat.eqb_spec i k) as [<-|N]; cbn [andb].
    + pose proof (pl_orth j l (2 * i + 1)) as O.
      apply (@S_quad.is_RInt_extR (fun y => (4 ^ i * / INR (2 * i + 1)) * ((1 - y) ^ (2 * i + 1) * (pl j (2 * i + 1) (1 - y) * pl l (2 * i + 1) (1 - y))))).
      { intros y. replace (i + i)%nat with (2 * i)%nat by lia. rewrite (pow_mult 2 2 i). replace (2 ^ 2) with 4 by ring. ring. }
      refine (@is_RInt_val _ _ _ _ _ _ (@S_quad.is_RInt_scal _ _ _ _ _ O)). destruct (Nat.eqb j l); [|ring].
      replace (2 * j + (2 * i + 1) + 1)%nat with (2 * i + 2 * j + 2)%nat by lia. pose proof (lt_0_INR (2 * i + 2 * j + 2) ltac:(lia)). pose proof (lt_0_INR (2 * i + 1) ltac:(lia)). field. lra.
    + apply (@S_quad.is_RInt_extR (fct_cte 0)); [intros; unfold fct_cte; ring|]. exists (RiemannInt_P14 0 1 0). rewrite RiemannInt_P15. ring.
Qed.

(** ** Polynomials of total degree i + j *)
Lemma p2_mono n p : polynomial2 n p -> polynomial2 (S n) p.
Proof. induction 1. constructor. apply p2_x; auto. apply p2_y; auto. apply p2_plus; auto. eapply p2_ext; eauto. Qed.
Lemma p2_le n m p : (n <= m)%nat -> polynomial2 n p -> polynomial2 m p.
Proof. induction 1; auto. intros. apply p2_mono. auto. Qed.
Lemma p2_scal n c p : polynomial2 n p -> polynomial2 n (fun x y => c * p x y).
Proof.
  induction 1.
  - apply p2_const.
  - refine (p2_ext _ _ _ (p2_x _ _ IHpolynomial2) _). intros; cbv beta; ring.
  - refine (p2_ext _ _ _ (p2_y _ _ IHpolynomial2) _). intros; cbv beta; ring.
  - refine (p2_ext _ _ _ (p2_plus _ _ _ IHpolynomial2_1 IHpolynomial2_2) _). intros; cbv beta; ring.
  - refine (p2_ext _ _ _ IHpolynomial2 _). intros; cbv beta. rewrite H0. ring.
Qed.
Lemma p2_mult n m p q : polynomial2 n p -> polynomial2 m q -> polynomial2 (n + m) (fun x y => p x y * q x y).
Proof.
  intros P Q. induction P.
  - apply p2_scal. apply (p2_le m); [lia|auto].
  - refine (p2_ext _ _ _ (p2_x _ _ IHP) _). intros; cbv beta; ring.
  - refine (p2_ext _ _ _ (p2_y _ _ IHP) _). intros; cbv beta; ring.
  - refine (p2_ext _ _ _ (p2_plus _ _ _ IHP1 IHP2) _). intros; cbv beta; ring.
  - refine (p2_ext _ _ _ IHP _). intros; cbv beta. rewrite H. ring.
Qed.
Lemma p2_pow p m : polynomial2 1 p -> polynomial2 m (fun x y => p x y ^ m).
Proof. intros P. induction m. cbn. apply p2_const. exact (p2_mult 1 m _ _ P IHm). Qed.
Lemma p2_sm N n f : (forall k, (k < N)%nat -> polynomial2 n (f k)) -> polynomial2 n (fun x y => sm N (fun k => f k x y)).
Proof. induction N; intros H; cbn [sm]. apply p2_const. apply (p2_plus n (fun x y => sm N (fun k => f k x y)) (f N)); auto. Qed.
Lemma p2_lin a b c : polynomial2 1 (fun x y => a * x + b * y + c).
Proof.
  assert (X : polynomial2 1 (fun x y => x * a)) by (apply (p2_x 0 (fun _ _ => a)); constructor).
  assert (Y : polynomial2 1 (fun x y => y * b)) by (apply (p2_y 0 (fun _ _ => b)); constructor).
  refine (p2_ext _ _ _ (p2_plus _ _ _ (p2_plus _ _ _ X Y) (p2_const 1 c)) _). intros; cbv beta; ring.
Qed.
Lemma hom_p2 i : polynomial2 i (hom i).
Proof.
  unfold hom. apply (p2_sm (S i) i (fun m x y => jc i 0 m * (2 * x + 2 * y - 2) ^ m * (2 - 2 * y) ^ (i - m))). intros m Hm.
  apply (p2_le (m + (i - m))); [lia|]. apply (p2_mult m (i - m) (fun x y => jc i 0 m * (2 * x + 2 * y - 2) ^ m) (fun x y => (2 - 2 * y) ^ (i - m))).
  - apply (p2_scal m (jc i 0 m) (fun x y => (2 * x + 2 * y - 2) ^ m)). apply (p2_pow (fun x y => 2 * x + 2 * y - 2)). refine (p2_ext _ _ _ (p2_lin 2 2 (-2)) _). intros; cbv beta; ring.
  - apply (p2_pow (fun x y => 2 - 2 * y)). refine (p2_ext _ _ _ (p2_lin 0 (-2) 2) _). intros; cbv beta; ring.
Qed.
Lemma q_p2 i j : polynomial2 (i + j) (qpoly i j).
Proof.
  apply (p2_mult i j (hom i) (fun x y => pl j (2 * i + 1) (1 - y))). apply hom_p2. unfold pl.
  apply (p2_sm (S j) j (fun m x y => (-1) ^ m * jc j (2 * i + 1) m * (1 - y) ^ m)). intros m Hm. apply (p2_le m); [lia|].
  apply (p2_scal m ((-1) ^ m * jc j (2 * i + 1) m) (fun x y => (1 - y) ^ m)). apply (p2_pow (fun x y => 1 - y)). refine (p2_ext _ _ _ (p2_lin 0 (-1) 1) _). intros; cbv beta; ring.
Qed.

(** ** The gradient *)
Definition hom_x (i : nat) (x y : R) : R := sm (S i) (fun m => jc i 0 m * (2 * INR m * (2 * x + 2 * y - 2) ^ pred m) * (2 - 2 * y) ^ (i - m)).
Definition hom_y (i : nat) (x y : R) : R := sm (S i) (fun m => jc i 0 m * (2 * INR m * (2 * x + 2 * y - 2) ^ pred m) * (2 - 2 * y) ^ (i - m)
   + jc i 0 m * (2 * x + 2 * y - 2) ^ m * (- 2 * INR (i - m) * (2 - 2 * y) ^ pred (i - m))).
Lemma linpow (a c : R) m (x v : R) : a * x + c = v -> is_derive (fun z => (a * z + c) ^ m) x (a * INR m * v ^ pred m).
Proof.
  intros <-. eapply dval. apply (is_derive_pow (fun z => a * z + c) m x a). auto_derive; [exact I|ring]. ring.
Qed.
Lemma hom_dx i x y : is_derive (fun x => hom i x y) x (hom_x i x y).
Proof.
  unfold hom, hom_x. apply (dsm (S i) (fun m x => jc i 0 m * (2 * x + 2 * y - 2) ^ m * (2 - 2 * y) ^ (i - m))). intros m _.
  refine (dval _ _ _ _ (dmult (fun x => jc i 0 m * (2 * x + 2 * y - 2) ^ m) (fun _ => (2 - 2 * y) ^ (i - m)) x _ 0 (dscal _ x (jc i 0 m) _ (dext (fun x => (2 * x + (2 * y - 2)) ^ m) _ x _ _ (linpow 2 (2 * y - 2) m x (2 * x + 2 * y - 2) _))) (dconst _ x)) _).
  intros; f_equal; ring. ring. ring.
Qed.
Lemma hom_dy i x y : is_derive (fun y => hom i x y) y (hom_y i x y).
Proof.
  unfold hom, hom_y. apply (dsm (S i) (fun m y => jc i 0 m * (2 * x + 2 * y - 2) ^ m * (2 - 2 * y) ^ (i - m))). intros m _.
  refine (dval _ _ _ _ (dmult (fun y => jc i 0 m * (2 * x + 2 * y - 2) ^ m) (fun y => (2 - 2 * y) ^ (i - m)) y _ _
    (dscal _ y (jc i 0 m) _ (dext (fun y => (2 * y + (2 * x - 2)) ^ m) _ y _ _ (linpow 2 (2 * x - 2) m y (2 * x + 2 * y - 2) _)))
    (dext (fun y => (-2 * y + 2) ^ (i - m)) _ y _ _ (linpow (-2) 2 (i - m) y (2 - 2 * y) _))) _); try (intros; f_equal; ring); ring.
Qed.
Lemma pl_dy j al y : is_derive (fun y => pl j al (1 - y)) y (2 * jacobi_deriv j al (to_ref y)).
Proof. apply (dext (fun y => eval_jacobi j al (to_ref y))). intros; apply jac_pl. apply jac_ref_der. Qed.

(** the collapsed forms of the derivatives *)
Lemma sx_hom_x i x y : 0 <= x -> x + y <= 1 ->
  2 * (2 ^ i * (jacobi_deriv i 0 (coll_a (to_ref x) (to_ref y)) * (if Nat.ltb 0 i then (1 / 2 * (1 - to_ref y)) ^ (i - 1) else 1))) = hom_x i x y.
Proof.
  intros X Y. destruct i as [|i].
  { unfold jacobi_deriv, hom_x. cbn [sm INR Nat.ltb Nat.leb]. ring. }
  cbn [Nat.ltb Nat.leb]. replace (S i - 1)%nat with i by lia. rewrite <- (tech_pow_Rmult 2 i).
  replace (2 * (2 * 2 ^ i * (jacobi_deriv (S i) 0 (coll_a (to_ref x) (to_ref y)) * (1 / 2 * (1 - to_ref y)) ^ i)))
    with (4 * (jacobi_deriv (S i) 0 (coll_a (to_ref x) (to_ref y)) * (1 - to_ref y) ^ i)).
  2:{ rewrite Rpow_mult_distr. transitivity (4 * (2 ^ i * (1 / 2) ^ i) * (jacobi_deriv (S i) 0 (coll_a (to_ref x) (to_ref y)) * (1 - to_ref y) ^ i)); [|ring].
      rewrite <- Rpow_mult_distr. replace (2 * (1 / 2)) with 1 by field. rewrite pow1. ring. }
  unfold coll_a. destruct (Req_EM_T _ _) as [Z|Z].
  - destruct (in_vertex x y X Y Z) as [-> ->]. unfold to_ref, hom_x. replace (1 - (2 * 1 - 1)) with 0 by ring. replace (2 * 0 + 2 * 1 - 2) with 0 by ring. replace (2 - 2 * 1) with 0 by ring.
    unfold jacobi_deriv. rewrite <- sm_scalr, <- sm_scal.
    destruct i as [|i].
    + cbn [sm pow pred Nat.sub]. unfold jc. cbn [INR]. field.
    + rewrite (sm_0 (S (S (S i)))). 2:{ intros. rewrite (pow_i (S i)) by lia. ring. } symmetry. apply sm_0. intros m Hm.
      destruct m as [|[|m]]. cbn [INR]. ring. rewrite (pow_i (S (S i) - 1)) by lia. ring. cbn [pred]. rewrite (pow_i (S m)) by lia. ring.
  - unfold jacobi_deriv, hom_x. rewrite <- sm_scalr, <- sm_scal. apply sm_ext. intros m Hm. fold (jc (S i) 0 m).
    replace ((2 * (1 + to_ref x) / (1 - to_ref y) - 1 - 1) / 2) with ((2 * x + 2 * y - 2) / (2 - 2 * y)) by (unfold to_ref in *; field; lra).
    replace (1 - to_ref y) with (2 - 2 * y) in * by (unfold to_ref; ring).
    destruct m as [|m]. cbn [INR]. ring. cbn [pred].
    replace i with (m + (i - m))%nat at 2 by lia. rewrite (pow_add (2 - 2 * y)). unfold Rdiv. rewrite Rpow_mult_distr, pow_inv.
    assert ((2 - 2 * y) ^ m <> 0) by (apply pow_nonzero; auto). replace (S i - S m)%nat with (i - m)%nat by lia. field. auto.
Qed.
(** Euler's identity for the homogeneous polynomial in (r + s, 1 - s) *)
Lemma hom_euler i x y : (2 - 2 * y) * (hom_y i x y) = 2 * x * hom_x i x y - 2 * INR i * hom i x y.
Proof.
  unfold hom_y, hom_x, hom. rewrite <- !sm_scal, <- sm_minus. apply sm_ext. intros m Hm.
  assert (A : INR (i - m) * (2 - 2 * y) ^ pred (i - m) * (2 - 2 * y) = INR (i - m) * (2 - 2 * y) ^ (i - m)).
  { destruct (i - m)%nat. cbn. ring. cbn [pred pow]. ring. }
  assert (B : INR m * (2 * x + 2 * y - 2) ^ pred m * (2 * x + 2 * y - 2) = INR m * (2 * x + 2 * y - 2) ^ m).
  { destruct m. cbn. ring. cbn [pred pow]. ring. }
  rewrite minus_INR in A by lia. rewrite minus_INR by lia.
  set (P := (2 * x + 2 * y - 2) ^ pred m) in *. set (Q := (2 - 2 * y) ^ pred (i - m)) in *.
  set (P1 := (2 * x + 2 * y - 2) ^ m) in *. set (Q1 := (2 - 2 * y) ^ (i - m)) in *.
  assert (E : (2 - 2 * y) * (jc i 0 m * (2 * INR m * P) * Q1 + jc i 0 m * P1 * (-2 * (INR i - INR m) * Q))
    = jc i 0 m * (2 * INR m * P) * Q1 * (2 - 2 * y) - 2 * jc i 0 m * P1 * ((INR i - INR m) * Q * (2 - 2 * y))) by ring.
  rewrite E, A. replace (2 - 2 * y) with (2 * x - (2 * x + 2 * y - 2)) by ring.
  replace (jc i 0 m * (2 * INR m * P) * Q1 * (2 * x - (2 * x + 2 * y - 2))) with (2 * x * (jc i 0 m * (2 * INR m * P) * Q1) - 2 * jc i 0 m * Q1 * (INR m * P * (2 * x + 2 * y - 2))) by ring.
  rewrite B. ring.
Qed.
Lemma jac_m1_1 : eval_jacobi 1 0 (-1) = -1.
Proof. unfold eval_jacobi. cbn [sm]. rewrite !comb_IZR. cbv [binom Nat.add Z.of_nat Pos.of_succ_nat Pos.succ]. field. Qed.
Lemma sx_hom_y i x y : 0 <= x -> x + y <= 1 ->
  let a := coll_a (to_ref x) (to_ref y) in
  2 * (2 ^ i * (if Nat.ltb 0 i then (jacobi_deriv i 0 a * (1 / 2 * (1 + a)) - 1 / 2 * INR i * eval_jacobi i 0 a) * (1 / 2 * (1 - to_ref y)) ^ (i - 1) else 0)) = hom_y i x y.
Proof.
  intros X Y a. destruct i as [|i].
  { unfold hom_y. cbn [sm INR Nat.ltb Nat.leb Nat.sub pred pow]. ring. }
  pose proof (sx_hom_x (S i) x y X Y) as HX. pose proof (sx_hom (S i) x y X Y) as H0. fold a in HX, H0. pose proof (hom_euler (S i) x y) as EU.
  cbn [Nat.ltb Nat.leb] in *. replace (S i - 1)%nat with i in * by lia.
  assert (PW : 2 ^ S i * (1 / 2 * (1 - to_ref y)) ^ i = 2 * (1 - to_ref y) ^ i).
  { rewrite Rpow_mult_distr. transitivity (2 * (2 ^ i * (1 / 2) ^ i) * (1 - to_ref y) ^ i); [cbn [pow]; ring|]. rewrite <- Rpow_mult_distr. replace (2 * (1 / 2)) with 1 by field. rewrite pow1. ring. }
  unfold a, coll_a in *. destruct (Req_EM_T _ _) as [Z|Z].
  - destruct (in_vertex x y X Y Z) as [-> ->]. clear a HX H0 EU. rewrite Z in *.
    transitivity (2 * ((jacobi_deriv (S i) 0 (-1) * (1 / 2 * (1 + -1)) - 1 / 2 * INR (S i) * eval_jacobi (S i) 0 (-1)) * (2 ^ S i * (1 / 2 * 0) ^ i))); [ring|]. rewrite PW.
    unfold hom_y. replace (2 * 0 + 2 * 1 - 2) with 0 by ring. replace (2 - 2 * 1) with 0 by ring. destruct i as [|i].
    + rewrite jac_m1_1. cbn [sm pow pred Nat.sub]. unfold jc. rewrite !comb_IZR. cbv [binom Nat.add Z.of_nat Pos.of_succ_nat Pos.succ]. cbn [INR]. field.
    + rewrite (pow_i (S i)) by lia. rewrite !Rmult_0_r. symmetry. apply sm_0. intros m Hm. destruct m as [|[|m]].
      * cbn [INR pred Nat.sub]. rewrite (pow_i (S i)) by lia. ring.
      * replace (S (S i) - 1)%nat with (S i) by lia. rewrite !(pow_i (S i)) by lia. rewrite (pow_i 1) by lia. ring.
      * cbn [pred]. rewrite !(pow_i (S m)), !(pow_i (S (S m))) by lia. ring.
  - assert (W : 2 - 2 * y <> 0) by (unfold to_ref in Z; intros Q; apply Z; lra).
    apply (Rmult_eq_reg_l (2 - 2 * y)); [|auto]. rewrite EU, <- HX, <- H0.
    replace (1 - to_ref y) with (2 - 2 * y) in * by (unfold to_ref; ring).
    set (JD := jacobi_deriv (S i) 0 _) in *. set (J := eval_jacobi (S i) 0 _) in *.
    transitivity (2 * ((2 - 2 * y) * (JD * (1 / 2 * (1 + (2 * (1 + to_ref x) / (2 - 2 * y) - 1))) - 1 / 2 * INR (S i) * J)) * (2 ^ S i * (1 / 2 * (2 - 2 * y)) ^ i)); [ring|].
    transitivity (2 * x * (2 * (JD * (2 ^ S i * (1 / 2 * (2 - 2 * y)) ^ i))) - 2 * INR (S i) * (J * (2 - 2 * y) ^ S i)); [|ring].
    rewrite PW. change ((2 - 2 * y) ^ S i) with ((2 - 2 * y) * (2 - 2 * y) ^ i). unfold to_ref. field. auto.
Qed.
Lemma sx_gx i j x y : 0 <= x -> x + y <= 1 -> sx_grad i j x y 0 = hom_x i x y * pl j (2 * i + 1) (1 - y).
Proof.
  intros X Y. rewrite <- sx_hom_x, <- jac_pl by auto. unfold sx_grad, sx_combine_diff. cbn [Nat.eqb]. cbv zeta. destruct (Nat.ltb 0 i); ring.
Qed.
Lemma sx_gy i j x y : 0 <= x -> x + y <= 1 -> sx_grad i j x y 1 = hom_y i x y * pl j (2 * i + 1) (1 - y) + hom i x y * (2 * jacobi_deriv j (2 * i + 1) (to_ref y)).
Proof.
  intros X Y. rewrite <- sx_hom_y, <- sx_hom, <- jac_pl by auto. unfold sx_grad, sx_combine_diff. cbn [Nat.eqb]. cbv zeta.
  assert (PW : 2 ^ i * (1 / 2 * (1 - to_ref y)) ^ i = (1 - to_ref y) ^ i).
  { rewrite <- Rpow_mult_distr. f_equal. field. }
  rewrite <- PW. destruct (Nat.ltb_spec 0 i) as [H|H]; [ring|]. replace i with 0%nat by lia. replace (jacobi_deriv 0 0 _) with 0. ring.
  unfold jacobi_deriv. cbn [sm INR]. ring.
Qed.

(** ** C172 The functions of the triangle basis are polynomials of total degree
    i + j, and the gradients are their gradients, in the whole closed triangle,
    including the vertex in which the collapsed coordinates degenerate. *)
Theorem C172_simplex_gradient i j : exists q, polynomial2 (i + j) q /\
  forall x y, 0 <= x -> 0 <= y -> x + y <= 1 ->
    sx_value i j x y = q x y /\
    is_derive (fun z => q z y) x (sx_grad i j x y 0) /\ is_derive (fun z => q x z) y (sx_grad i j x y 1).
Proof.
  exists (qpoly i j). split; [apply q_p2|]. intros x y X Y L. split; [apply sx_q; auto|]. split.
  - rewrite sx_gx by auto. unfold qpoly.
    refine (dval _ _ _ _ (dmult (fun z => hom i z y) (fun _ => pl j (2 * i + 1) (1 - y)) x _ _ (hom_dx i x y) (dconst _ x)) _). cbv beta. ring.
  - rewrite sx_gy by auto. unfold qpoly. exact (dmult (fun z => hom i x z) (fun z => pl j (2 * i + 1) (1 - z)) y _ _ (hom_dy i x y) (pl_dy j (2 * i + 1) y)).
Qed.
(** in the interior the values themselves have these derivatives *)
Theorem C172_interior i j x y : 0 < x -> 0 < y -> x + y < 1 ->
  is_derive (fun z => sx_value i j z y) x (sx_grad i j x y 0) /\ is_derive (fun z => sx_value i j x z) y (sx_grad i j x y 1).
Proof.
  intros X Y L. split.
  - apply (is_derive_ext_loc (fun z => qpoly i j z y)).
    + assert (D : 0 < Rmin x (1 - x - y)) by (apply Rmin_glb_lt; lra). exists (mkposreal _ D). intros z B. symmetry. pose proof (Rmin_l x (1 - x - y)). pose proof (Rmin_r x (1 - x - y)).
      assert (H1 : Rabs (z - x) < Rmin x (1 - x - y)) by exact B. apply Rabs_def2 in H1. apply sx_q; lra.
    + rewrite sx_gx by lra. unfold qpoly.
      refine (dval _ _ _ _ (dmult (fun z => hom i z y) (fun _ => pl j (2 * i + 1) (1 - y)) x _ _ (hom_dx i x y) (dconst _ x)) _). cbv beta. ring.
  - apply (is_derive_ext_loc (fun z => qpoly i j x z)).
    + assert (D : 0 < Rmin y (1 - x - y)) by (apply Rmin_glb_lt; lra). exists (mkposreal _ D). intros z B. symmetry. pose proof (Rmin_l y (1 - x - y)). pose proof (Rmin_r y (1 - x - y)).
      apply sx_q; [lra|]. assert (Rabs (z - y) < Rmin y (1 - x - y)) by exact B. apply Rabs_def2 in H1. lra.
    + rewrite sx_gy by lra. unfold qpoly. exact (dmult (fun z => hom i x z) (fun z => pl j (2 * i + 1) (1 - z)) y _ _ (hom_dy i x y) (pl_dy j (2 * i + 1) y)).
Qed.
