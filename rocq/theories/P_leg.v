(** The one-dimensional Legendre basis and the tensor product basis. *)
From Coq Require Import List Arith ZArith Lia Reals Lra.
From Coquelicot Require Import Coquelicot.
From Verif Require Import Base M_fmf L_fmf S_iga L_iga S_quad L_quadint L_hyper M_dglim M_leg S_leg L_leg.
Import ListNotations.
Open Scope R_scope.

(** ** Two forms of the same polynomial *)
Definition gen (n : nat) (x : R) : R := (-1) ^ n * sm (S n) (fun k => comb n k * comb (n + k) k * (- x) ^ k).
Lemma jac_y n al y : eval_jacobi n al (to_ref y) = sm (S n) (fun m => (-1) ^ m * jc n al m * (1 - y) ^ m).
Proof.
  unfold eval_jacobi. apply sm_ext. intros m _. unfold jc, to_ref. replace ((2 * y - 1 - 1) / 2) with ((-1) * (1 - y)) by lra.
  rewrite Rpow_mult_distr. ring.
Qed.
Lemma alt_comb N : forall a b, (N <= b)%nat -> alt N (fun j => comb (a + j) b) = (-1) ^ N * comb a (b - N).
Proof.
  induction N; intros a b H.
  - unfold alt. cbn [sm pow]. rewrite comb_0, Nat.add_0_r, Nat.sub_0_r. ring.
  - destruct b as [|b]; [lia|]. rewrite alt_S.
    assert (E := IHN a b ltac:(lia)).
    assert (D : alt N (fun m => comb (a + S m) (S b)) = alt N (fun m => comb (a + m) b) + alt N (fun m => comb (a + m) (S b))).
    { unfold alt. rewrite <- sm_plus. apply sm_ext. intros k _. rewrite Nat.add_succ_r, comb_rec. ring. }
    rewrite D, E. cbn [pow]. replace (S b - S N)%nat with (b - N)%nat by lia. ring.
Qed.
Lemma comb_absorb n k j : (k + j <= n)%nat -> comb n (k + j) * comb (k + j) k = comb n k * comb (n - k) j.
Proof.
  intros H. pose proof (comb_fact (n - (k + j)) (k + j)) as A. pose proof (comb_fact j k) as B.
  pose proof (comb_fact (n - k) k) as C. pose proof (comb_fact (n - k - j) j) as D.
  replace (n - (k + j) + (k + j))%nat with n in A by lia. replace (j + k)%nat with (k + j)%nat in B by lia.
  replace (n - k + k)%nat with n in C by lia. replace (n - k - j + j)%nat with (n - k)%nat in D by lia.
  replace (n - (k + j))%nat with (n - k - j)%nat in A by lia.
  pose proof (fact_pos n). pose proof (fact_pos k). pose proof (fact_pos j). pose proof (fact_pos (n - k - j)). pose proof (fact_pos (k + j)). pose proof (fact_pos (n - k)).
  assert (X : comb n (k + j) = factorial n / (factorial (k + j) * factorial (n - k - j))) by (rewrite <- A; field; lra).
  assert (Y : comb (k + j) k = factorial (k + j) / (factorial k * factorial j)) by (rewrite <- B; field; lra).
  assert (Z : comb n k = factorial n / (factorial k * factorial (n - k))) by (rewrite <- C; field; lra).
  assert (W : comb (n - k) j = factorial (n - k) / (factorial j * factorial (n - k - j))) by (rewrite <- D; field; lra).
  rewrite X, Y, Z, W. field. repeat split; lra.
Qed.
Lemma pow_expand m y : (y - 1) ^ m = sm (S m) (fun k => comb m k * (-1) ^ (m - k) * y ^ k).
Proof.
  pose proof (bern_sum m (1 / 2) (-2) (2 * y)) as B. replace ((1 - 1 / 2) * -2 + 1 / 2 * (2 * y)) with (y - 1) in B by field.
  rewrite <- B. apply sm_ext. intros k Hk. unfold bernstein. replace (1 - 1 / 2) with (1 / 2) by field.
  change (INR (binom m k)) with (comb m k).
  replace (-2) with (-1 * 2) by ring. rewrite !Rpow_mult_distr.
  assert (Q : forall j, 2 ^ j * (1 / 2) ^ j = 1) by (intros; rewrite <- Rpow_mult_distr; replace (2 * (1 / 2)) with 1 by field; apply pow1).
  replace (2 ^ k * y ^ k * ((-1) ^ (m - k) * 2 ^ (m - k)) * (comb m k * (1 / 2) ^ k * (1 / 2) ^ (m - k)))
    with (comb m k * (-1) ^ (m - k) * y ^ k * ((2 ^ k * (1 / 2) ^ k) * (2 ^ (m - k) * (1 / 2) ^ (m - k)))) by ring.
  rewrite !Q. ring.
Qed.
Lemma sm_extend n N f : (n <= N)%nat -> (forall k, (n <= k < N)%nat -> f k = 0) -> sm N f = sm n f.
Proof. intros H E. replace N with (n + (N - n))%nat by lia. rewrite sm_split, (sm_0 (N - n)). lra. intros. apply E. lia. Qed.
Lemma pow_m1_even k : (-1) ^ (2 * k) = 1.
Proof. rewrite pow_mult. replace ((-1) ^ 2) with 1 by ring. apply pow1. Qed.
Lemma m1_add a b : (-1) ^ (a + 2 * b) = (-1) ^ a. Proof. rewrite pow_add, pow_m1_even. ring. Qed.
Lemma jac_gen n y : eval_jacobi n 0 (to_ref y) = gen n y.
Proof.
  unfold eval_jacobi, gen.
  transitivity (sm (S n) (fun m => sm (S n) (fun k => comb n m * comb (n + m) n * (comb m k * (-1) ^ (m - k) * y ^ k)))).
  { apply sm_ext. intros m Hm. rewrite sm_scal. rewrite Nat.add_0_r. f_equal. unfold to_ref. replace ((2 * y - 1 - 1) / 2) with (y - 1) by lra.
    rewrite pow_expand. symmetry. apply sm_extend; [lia|]. intros k Hk. rewrite comb_lt by lia. ring. }
  rewrite sm_swap, <- sm_scal. apply sm_ext. intros k Hk.
  transitivity (sm (n - k + 1) (fun j => (-1) ^ j * comb (n - k) j * comb (n + k + j) n) * (comb n k * y ^ k)).
  { rewrite <- sm_scalr. replace (S n) with (k + (n - k + 1))%nat at 1 by lia. rewrite sm_split, (sm_0 k).
    2:{ intros m Hm. rewrite (comb_lt m k) by lia. ring. }
    rewrite Rplus_0_l. apply sm_ext. intros j Hj. pose proof (comb_absorb n k j ltac:(lia)) as A. replace (k + j - k)%nat with j by lia. replace (n + (k + j))%nat with (n + k + j)%nat by lia.
    replace (comb n (k + j) * comb (n + k + j) n * (comb (k + j) k * (-1) ^ j * y ^ k)) with ((comb n (k + j) * comb (k + j) k) * comb (n + k + j) n * ((-1) ^ j * y ^ k)) by ring.
    rewrite A. ring. }
  pose proof (alt_comb (n - k) (n + k) n ltac:(lia)) as A. unfold alt in A. replace (S (n - k)) with (n - k + 1)%nat in A by lia. rewrite A.
  replace (n - (n - k))%nat with k by lia. replace (- y) with ((-1) * y) by ring. rewrite Rpow_mult_distr.
  replace ((-1) ^ n) with ((-1) ^ (n - k) * (-1) ^ k). 2:{ rewrite <- pow_add. f_equal. lia. }
  replace ((-1) ^ (n - k) * (-1) ^ k * (comb n k * comb (n + k) k * ((-1) ^ k * y ^ k))) with ((-1) ^ (n - k) * comb (n + k) k * (comb n k * y ^ k) * ((-1) ^ k * (-1) ^ k)) by ring.
  rewrite <- (pow_add (-1) k k). replace (k + k)%nat with (2 * k)%nat by lia. rewrite pow_m1_even. ring.
Qed.
Lemma sgn_mod n : (if Nat.eqb (n mod 2) 0 then 1 else -1) = (-1) ^ n.
Proof.
  pose proof (Nat.div_mod_eq n 2) as E. pose proof (Nat.mod_upper_bound n 2 ltac:(lia)). rewrite E at 2. rewrite Nat.add_comm, m1_add.
  destruct (n mod 2)%nat as [|[|?]]; cbn; lra || lia.
Qed.
Lemma comb_IZR n k : comb n k = IZR (Z.of_nat (binom n k)). Proof. apply INR_IZR_INZ. Qed.
Lemma nth_gen n x : get_nth_fun n x = gen n x.
Proof.
  unfold get_nth_fun. destruct (Nat.ltb_spec n 6).
  - unfold gen. do 6 (destruct n as [|n]; [cbn [sm]; rewrite !comb_IZR; cbn [legendre_funs]; cbv [binom Nat.add Z.of_nat Pos.of_succ_nat Pos.succ]; ring|]). lia.
  - rewrite sgn_mod. unfold gen. replace (n + 1)%nat with (S n) by lia. ring.
Qed.

(** ** Integrals *)
Lemma int_sm N : forall (f : nat -> R -> R) v a b, a <= b -> (forall k, (k < N)%nat -> S_quad.is_RInt (f k) a b (v k)) -> S_quad.is_RInt (fun x => sm N (fun k => f k x)) a b (sm N v).
Proof.
  induction N; intros f v a b L H; cbn [sm].
  - apply (@S_quad.is_RInt_extR (fct_cte 0)); [reflexivity|]. exists (RiemannInt_P14 a b 0). rewrite RiemannInt_P15. ring.
  - apply (@S_quad.is_RInt_extR (fun x => 1 * sm N (fun k => f k x) + 1 * f N x)); [intros; ring|].
    replace (sm N v + v N) with (1 * sm N v + 1 * v N) by ring. apply S_quad.is_RInt_lin; auto.
Qed.
Lemma int_pow a q : 0 <= a -> S_quad.is_RInt (fun x => (a - x) ^ q) 0 a (a ^ (q + 1) / INR (q + 1)).
Proof.
  intros A. apply (@S_quad.is_RInt_extR (fun x => x ^ 0 * (a - x) ^ q)); [intros; cbn [pow]; ring|].
  refine (@is_RInt_val _ _ _ _ _ _ (@beta_int 0 q a A)). cbn [Nat.add]. replace (q + 1)%nat with (S q) by lia. rewrite fact_simpl, mult_INR.
  change (fact 0) with 1%nat. change (INR 1) with 1. pose proof (fact_INR_pos q). pose proof (lt_0_INR (S q) ltac:(lia)). field. lra.
Qed.
(** products of the polynomials in (a - x), weighted by a power *)
Definition pl (n al : nat) (t : R) : R := sm (S n) (fun m => (-1) ^ m * jc n al m * t ^ m).
Lemma pl_orth n k al : S_quad.is_RInt (fun y => (1 - y) ^ al * (pl n al (1 - y) * pl k al (1 - y))) 0 1 (if Nat.eqb n k then / INR (2 * n + al + 1) else 0).
Proof.
  rewrite <- jac_orth.
  apply (@S_quad.is_RInt_extR (fun y => sm (S n) (fun m => sm (S k) (fun m' => ((-1) ^ m * jc n al m * ((-1) ^ m' * jc k al m')) * (1 - y) ^ (al + m + m'))))).
  { intros y. unfold pl. rewrite <- sm_scalr, <- sm_scal. apply sm_ext. intros m _. rewrite <- sm_scal, <- sm_scal. apply sm_ext. intros m' _. rewrite !pow_add. ring. }
  apply int_sm; [lra|]. intros m _. apply int_sm; [lra|]. intros m' _.
  refine (@is_RInt_val _ _ _ _ _ _ (@S_quad.is_RInt_scal _ _ _ _ _ (int_pow 1 (al + m + m') Rle_0_1))). rewrite pow1. unfold Rdiv. ring.
Qed.
Lemma pl_moment n k : (k < n)%nat -> S_quad.is_RInt (fun y => pl n 0 (1 - y) * (1 - y) ^ k) 0 1 0.
Proof.
  intros K. refine (@is_RInt_val _ _ _ _ _ (jac_moment n 0 k K) _).
  apply (@S_quad.is_RInt_extR (fun y => sm (S n) (fun m => ((-1) ^ m * jc n 0 m) * (1 - y) ^ (m + k)))).
  { intros y. unfold pl. rewrite <- sm_scalr. apply sm_ext. intros m _. rewrite !pow_add. ring. }
  apply int_sm; [lra|]. intros m _. cbn [Nat.add].
  refine (@is_RInt_val _ _ _ _ _ _ (@S_quad.is_RInt_scal _ _ _ _ _ (int_pow 1 (m + k) Rle_0_1))). rewrite pow1. unfold Rdiv. ring.
Qed.

(** ** C169 *)
Theorem C169_legendre n :
  (forall y, tp_value [n] [y] = get_nth_fun n y) /\ shifted_legendre n (get_nth_fun n) /\
  S_quad.is_RInt (fun x => get_nth_fun n x ^ 2) 0 1 (/ INR (2 * n + 1)).
Proof.
  assert (PL : forall y, get_nth_fun n y = pl n 0 (1 - y)) by (intros; rewrite nth_gen, <- jac_gen, jac_y; reflexivity).
  split; [|split; [split; [|split]|]].
  - intros y. unfold tp_value, tp_combine, legendreP. cbn [map combine prodl fold_right fst snd]. rewrite nth_gen, <- jac_gen. ring.
  - exists (fun k => (-1) ^ n * (-1) ^ k * comb n k * comb (n + k) k). intros x. rewrite nth_gen. unfold gen. rewrite <- sm_scal. apply sm_ext. intros k _.
    replace (- x) with (-1 * x) by ring. rewrite Rpow_mult_distr. ring.
  - rewrite PL. unfold pl. rewrite sm_first, (sm_0 n). cbn [pow]. unfold jc. rewrite comb_0. replace (n + 0 + 0)%nat with n by lia. rewrite comb_nn. ring.
    intros k _. replace (1 - 1) with 0 by ring. rewrite pow_i by lia. ring.
  - intros k K. apply (@S_quad.is_RInt_extR (fun x => sm (S k) (fun j => (-1) ^ j * comb k j * (pl n 0 (1 - x) * (1 - x) ^ j)))).
    { intros x. rewrite PL. pose proof (bern_sum k (1 - x) 1 (-1)) as B. rewrite (@sm_ext _ _ (fun j => pl n 0 (1 - x) * ((-1) ^ j * comb k j * (1 - x) ^ j))) by (intros; ring).
      rewrite sm_scal. f_equal. assert (B2 := pow_expand k (1 - x)). 
      replace (1 - x - 1) with ((-1) * x) in B2 by ring. rewrite Rpow_mult_distr in B2.
      apply (Rmult_eq_reg_l ((-1) ^ k)). 2:{ apply pow_nonzero. lra. } rewrite B2, <- sm_scal. apply sm_ext. intros j Hj.
      replace ((-1) ^ k) with ((-1) ^ (k - j + j)) by (f_equal; lia). rewrite pow_add.
      replace ((-1) ^ (k - j) * (-1) ^ j * ((-1) ^ j * comb k j * (1 - x) ^ j)) with ((-1) ^ (k - j) * comb k j * (1 - x) ^ j * ((-1) ^ j * (-1) ^ j)) by ring.
      rewrite <- (pow_add (-1) j j). replace (j + j)%nat with (2 * j)%nat by lia. rewrite pow_m1_even. ring. }
    refine (@is_RInt_val _ _ _ _ _ _ (@int_sm (S k) (fun j x => (-1) ^ j * comb k j * (pl n 0 (1 - x) * (1 - x) ^ j)) (fun _ => 0) 0 1 Rle_0_1 _)).
    + apply sm_0. auto.
    + intros j Hj. refine (@is_RInt_val _ _ _ _ _ _ (@S_quad.is_RInt_scal _ _ _ _ _ (pl_moment n j _))). ring. lia.
  - pose proof (pl_orth n n 0) as O. rewrite Nat.eqb_refl, Nat.add_0_r in O. refine (@S_quad.is_RInt_extR _ _ _ _ _ _ O). intros y. cbn [pow]. rewrite PL. ring.
Qed.

(** ** C170: derivatives *)
Lemma pow_der (m : nat) (c x : R) : is_derive (fun y => (c * y) ^ m) x (INR m * (c * x) ^ pred m * c).
Proof. eapply dval. apply (is_derive_pow (fun y => c * y) m x c). eapply dval. apply dscal. apply @is_derive_id. unfold one; cbn. ring. ring. Qed.
Definition zs (n d : nat) : R := if Z.eqb ((Z.of_nat n - Z.of_nat d) mod 2) 0 then 1 else -1.
Lemma zs_S n d : zs n (S d) = - zs n d.
Proof.
  unfold zs. replace (Z.of_nat n - Z.of_nat (S d))%Z with (Z.of_nat n - Z.of_nat d - 1)%Z by lia.
  set (z := (Z.of_nat n - Z.of_nat d)%Z). destruct (Z.eqb_spec ((z - 1) mod 2) 0) as [A|A], (Z.eqb_spec (z mod 2) 0) as [B|B]; try lra; exfalso; Z.div_mod_to_equations; lia.
Qed.
Lemma zs_0 n : zs n 0 = (-1) ^ n.
Proof.
  rewrite <- sgn_mod. unfold zs. rewrite Z.sub_0_r. change 2%Z with (Z.of_nat 2). rewrite <- mod_Zmod by lia.
  destruct (Nat.eqb_spec (n mod 2) 0) as [E|E]. rewrite E. reflexivity. destruct (Z.eqb_spec (Z.of_nat (n mod 2)) 0); [lia|reflexivity].
Qed.
Lemma der_step n d x : is_derive (get_nth_fun_der n d) x (get_nth_fun_der n (S d) x).
Proof.
  unfold get_nth_fun_der. fold (zs n d). fold (zs n (S d)). rewrite zs_S.
  destruct (Nat.le_gt_cases (n + 1) d) as [H|H].
  { replace (n + 1 - d)%nat with 0%nat by lia. replace (n + 1 - S d)%nat with 0%nat by lia. cbn [sm]. eapply dval. apply dconst. ring. }
  set (F := fun (j : nat) (y : R) => comb n (d + j) * comb (n + (d + j)) (d + j) * factorial (d + j) / factorial (d + j - d) * (- y) ^ (d + j - d)).
  set (F' := fun j => comb n (d + j) * comb (n + (d + j)) (d + j) * factorial (d + j) / factorial (d + j - d) * (INR (d + j - d) * (-1 * x) ^ pred (d + j - d) * (-1))).
  assert (A : is_derive (fun y => sm (n + 1 - d) (fun j => F j y)) x (sm (n + 1 - d) F')).
  { apply dsm. intros j Hj. unfold F, F'. apply dscal. apply (dext (fun y => (-1 * y) ^ (d + j - d))). intros; f_equal; ring. apply pow_der. }
  refine (dval _ _ _ _ (dmult (fun y => sm (n + 1 - d) (fun j => F j y)) (fun _ => zs n d) x _ _ A (dconst (zs n d) x)) _).
  unfold F, F'.
  cbv beta. rewrite Rmult_0_r, Rplus_0_r. replace (n + 1 - d)%nat with (S (n + 1 - S d)) by lia. rewrite sm_first.
  replace (d + 0 - d)%nat with 0%nat by lia. cbn [INR]. rewrite <- !sm_scalr.
  replace (comb n (d + 0) * comb (n + (d + 0)) (d + 0) * factorial (d + 0) / factorial 0 * (0 * (-1 * x) ^ pred 0 * -1) ) with 0 by (unfold Rdiv; ring).
  rewrite Rplus_0_l, <- sm_scalr. apply sm_ext. intros j Hj.
  replace (d + S j - d)%nat with (S j) by lia. replace (S d + j - S d)%nat with j by lia. replace (d + S j)%nat with (S d + j)%nat by lia. cbn [pred].
  replace (-1 * x) with (- x) by ring. rewrite (fact_S j). pose proof (fact_pos j). pose proof (lt_0_INR (S j) ltac:(lia)). field. lra.
Qed.
Theorem C170_derivatives n d x : is_derive_n (get_nth_fun n) d x (get_nth_fun_der n d x).
Proof.
  assert (Z : forall y, get_nth_fun_der n 0 y = get_nth_fun n y).
  { intros y. rewrite nth_gen. unfold get_nth_fun_der, gen. fold (zs n 0). rewrite zs_0. replace (n + 1 - 0)%nat with (S n) by lia. rewrite Rmult_comm. f_equal.
    apply sm_ext. intros k _. cbn [Nat.add]. rewrite Nat.sub_0_r. pose proof (fact_pos k). field. lra. }
  assert (G : forall d y, Derive_n (get_nth_fun n) d y = get_nth_fun_der n d y).
  { induction d0; intros y; cbn [Derive_n]. symmetry. apply Z. rewrite (Derive_ext _ _ _ IHd0). apply is_derive_unique, der_step. }
  destruct d; cbn [is_derive_n]. symmetry. apply Z.
  apply (dext (get_nth_fun_der n d)). intros; symmetry; apply G. apply der_step.
Qed.

(** The gradients of the tensor product basis *)
Lemma jac_der n al x : is_derive (eval_jacobi n al) x (jacobi_deriv n al x).
Proof.
  unfold eval_jacobi, jacobi_deriv.
  apply (dsm (S n) (fun m x => comb n m * comb (n + al + m) n * ((x - 1) / 2) ^ m)). intros m _.
  apply dscal. eapply dval. apply (is_derive_pow (fun x => (x - 1) / 2) m x (1 / 2)). auto_derive; [exact I|field]. ring.
Qed.
Lemma jac_ref_der n al y : is_derive (fun y => eval_jacobi n al (to_ref y)) y (2 * jacobi_deriv n al (to_ref y)).
Proof. eapply dval. apply (dcomp to_ref (eval_jacobi n al) y 2). apply jac_der. unfold to_ref. auto_derive; [exact I|ring]. ring. Qed.
Definition tpd (d0 d : nat) (coors : list R) (idx : list nat) : R :=
  prodl (map (fun p => if Nat.eqb (fst p) d then gradlegendreP (fst (snd p)) (snd (snd p)) else legendreP (fst (snd p)) (snd (snd p)))
             (combine (seq d0 (length idx)) (combine coors idx))).
Lemma tpd_high idx : forall d0 d c, (d < d0)%nat -> length c = length idx -> tpd d0 d c idx = tp_combine c idx.
Proof.
  induction idx as [|i idx IH]; intros d0 d c H L; destruct c as [|x c]; try discriminate; [reflexivity|].
  unfold tpd, tp_combine in *. cbn [length seq combine map prodl fold_right fst snd]. destruct (Nat.eqb_spec d0 d); [lia|]. f_equal.
  apply IH; [lia|]. cbn in L. lia.
Qed.
Theorem C170_tensor_gradient idx p d : length p = length idx -> (d < length idx)%nat ->
  is_derive (fun z => tp_value idx (setn p d z)) (nth d p 0) (tp_grad idx p d).
Proof.
  intros L D. unfold tp_value, tp_grad. change (tp_combine_diff (map to_ref p) d idx) with (tpd 0 d (map to_ref p) idx).
  enough (G : forall d0, is_derive (fun z => tp_combine (map to_ref (setn p d z)) idx) (nth d p 0) (2 * tpd d0 (d0 + d) (map to_ref p) idx)) by exact (G 0%nat).
  revert p d L D. induction idx as [|i idx IH]; intros p d L D d0; destruct p as [|x p]; try discriminate; [cbn in D; lia|].
  destruct d as [|d].
  - cbn [setn nth map]. unfold tpd. cbn [length seq combine map prodl fold_right fst snd]. rewrite Nat.add_0_r, Nat.eqb_refl.
    fold (prodl (map (fun p => if Nat.eqb (fst p) d0 then gradlegendreP (fst (snd p)) (snd (snd p)) else legendreP (fst (snd p)) (snd (snd p))) (combine (seq (S d0) (length idx)) (combine (map to_ref p) idx)))).
    change (prodl (map (fun p => if Nat.eqb (fst p) d0 then gradlegendreP (fst (snd p)) (snd (snd p)) else legendreP (fst (snd p)) (snd (snd p))) (combine (seq (S d0) (length idx)) (combine (map to_ref p) idx)))) with (tpd (S d0) d0 (map to_ref p) idx).
    rewrite tpd_high by (rewrite ?map_length; cbn in L; lia).
    eapply dval. apply (dmult (fun z => legendreP (to_ref z) i) (fun _ => tp_combine (map to_ref p) idx)). apply jac_ref_der. apply dconst. cbv beta. unfold gradlegendreP. ring.
  - cbn [setn nth map]. cbn in L, D. specialize (IH p d ltac:(lia) ltac:(lia) (S d0)).
    unfold tpd. cbn [length seq combine map prodl fold_right fst snd]. destruct (Nat.eqb_spec d0 (d0 + S d)); [lia|].
    eapply dval. apply (dscal (fun z => tp_combine (map to_ref (setn p d z)) idx) (nth d p 0) (legendreP (to_ref x) i)). exact IH.
    replace (S d0 + d)%nat with (d0 + S d)%nat by lia. unfold tpd, prodl. ring.
Qed.

(** ** C171: orthogonality on the cube *)
Lemma jac_pl n al y : eval_jacobi n al (to_ref y) = pl n al (1 - y).
Proof. apply jac_y. Qed.
Theorem C171_tensor_orthogonal idx idx' : length idx = length idx' ->
  cube_int (length idx) (fun p => tp_value idx p * tp_value idx' p)
    (if list_eq_dec Nat.eq_dec idx idx' then fold_right Rmult 1 (map (fun i => / INR (2 * i + 1)) idx) else 0).
Proof.
  revert idx'. induction idx as [|i idx IH]; intros [|i' idx'] L; try discriminate; cbn [length cube_int].
  - destruct (list_eq_dec _ _ _); [|congruence]. unfold tp_value, tp_combine. cbn. ring.
  - injection L as L. specialize (IH idx' L). set (v := if list_eq_dec Nat.eq_dec idx idx' then _ else _) in IH.
    exists (fun x => (legendreP (to_ref x) i * legendreP (to_ref x) i') * v). split.
    + intros x _. apply (@cube_int_ext _ (fun y => (legendreP (to_ref x) i * legendreP (to_ref x) i') * (tp_value idx y * tp_value idx' y))).
      { intros y _. unfold tp_value, tp_combine. cbn [map combine prodl fold_right fst snd]. unfold prodl. ring. }
      apply cube_int_scal. exact IH.
    + pose proof (pl_orth i i' 0) as O. apply (@S_quad.is_RInt_extR (fun x => v * ((1 - x) ^ 0 * (pl i 0 (1 - x) * pl i' 0 (1 - x))))).
      { intros x. unfold legendreP. rewrite !jac_pl. cbn [pow]. ring. }
      refine (@is_RInt_val _ _ _ _ _ _ (@S_quad.is_RInt_scal _ _ _ _ _ O)). unfold v. rewrite Nat.add_0_r.
      destruct (Nat.eqb_spec i i') as [<-|N].
      * destruct (list_eq_dec Nat.eq_dec idx idx') as [<-|N], (list_eq_dec Nat.eq_dec (i :: idx) (i :: _)) as [E|E]; try congruence; [cbn [map fold_right]; ring|ring].
      * destruct (list_eq_dec Nat.eq_dec (i :: idx) (i' :: idx')) as [E|E]; [congruence|ring].
Qed.
