(** Lemmas for the Legendre and Jacobi polynomials: binomial sums. *)
From Coq Require Import List Arith ZArith Lia Reals Lra.
From Verif Require Import M_fmf L_fmf S_iga L_iga M_dglim M_leg.
Import ListNotations.
Open Scope R_scope.

(** ** Binomial coefficients *)
Lemma comb_rec n k : comb (S n) (S k) = comb n k + comb n (S k).
Proof. unfold comb. cbn [binom]. rewrite <- plus_INR. f_equal; lia. Qed.
Lemma comb_0 n : comb n 0 = 1. Proof. unfold comb. rewrite binom_0. reflexivity. Qed.
Lemma comb_nn n : comb n n = 1. Proof. unfold comb. rewrite binom_nn. reflexivity. Qed.
Lemma comb_lt n k : (n < k)%nat -> comb n k = 0. Proof. intros. unfold comb. rewrite binom_lt by lia. reflexivity. Qed.
Lemma fact_pos n : 0 < factorial n. Proof. apply lt_0_INR, lt_O_fact. Qed.
Lemma fact_S n : factorial (S n) = INR (S n) * factorial n.
Proof. unfold factorial. rewrite fact_simpl, mult_INR. reflexivity. Qed.
Lemma comb_fact : forall n k, comb (n + k) k * (factorial k * factorial n) = factorial (n + k).
Proof.
  intros n k. remember (n + k)%nat as s eqn:E. revert n k E. induction s; intros n k E.
  - assert (n = 0 /\ k = 0)%nat as [-> ->] by lia. rewrite comb_0. unfold factorial. cbn. lra.
  - destruct k as [|k].
    + rewrite comb_0. replace n with (S s) by lia. unfold factorial at 1. cbn [fact INR]. lra.
    + destruct n as [|n].
      * replace (S k) with (S s) by lia. rewrite comb_nn. unfold factorial at 2. cbn [fact INR]. lra.
      * rewrite comb_rec. pose proof (IHs (S n) k ltac:(lia)) as A. pose proof (IHs n (S k) ltac:(lia)) as B.
        rewrite (fact_S s), Rmult_plus_distr_r.
        replace (comb s k * (factorial (S k) * factorial (S n))) with (INR (S k) * (comb s k * (factorial k * factorial (S n)))) by (rewrite (fact_S k); ring).
        replace (comb s (S k) * (factorial (S k) * factorial (S n))) with (INR (S n) * (comb s (S k) * (factorial (S k) * factorial n))) by (rewrite (fact_S n); ring).
        rewrite A, B. replace (S s) with (S k + S n)%nat by lia. rewrite plus_INR. ring.
Qed.
Lemma comb_sym n k : comb (n + k) k = comb (n + k) n.
Proof.
  pose proof (comb_fact n k) as A. pose proof (comb_fact k n) as B. rewrite (Nat.add_comm k n) in B.
  pose proof (fact_pos n). pose proof (fact_pos k). assert (0 < factorial k * factorial n) by nra.
  apply (Rmult_eq_reg_r (factorial k * factorial n)); [|lra]. rewrite A, <- B. ring.
Qed.

(** ** Alternating sums *)
Definition alt (n : nat) (f : nat -> R) : R := sm (S n) (fun m => (-1) ^ m * comb n m * f m).
Lemma alt_S n f : alt (S n) f = alt n f - alt n (fun m => f (S m)).
Proof.
  unfold alt. rewrite (sm_first (S n)). rewrite comb_0.
  rewrite (@sm_ext (S n) (fun k => (-1) ^ S k * comb (S n) (S k) * f (S k)) (fun k => (-1) ^ S k * comb n (S k) * f (S k) + (-1) * ((-1) ^ k * comb n k * f (S k)))).
  2:{ intros k Hk. rewrite comb_rec. cbn [pow]. ring. }
  rewrite sm_plus, sm_scal.
  rewrite (sm_first n (fun m => (-1) ^ m * comb n m * f m)), comb_0. cbn [sm]. rewrite (comb_lt n (S n)) by lia. cbn [pow]. ring.
Qed.
Lemma alt_ext n f g : (forall m, (m <= n)%nat -> f m = g m) -> alt n f = alt n g.
Proof. intros H. apply sm_ext. intros k Hk. rewrite H by lia. reflexivity. Qed.
Lemma alt_lin n a b f g : alt n (fun m => a * f m + b * g m) = a * alt n f + b * alt n g.
Proof. unfold alt. rewrite <- !sm_scal, <- sm_plus. apply sm_ext. intros. ring. Qed.

(** Polynomials of degree < n in m *)
Fixpoint pdeg (n : nat) (f : nat -> R) : Prop :=
  match n with O => forall m, f m = 0 | S n => pdeg n (fun m => f m - f (S m)) end.
Lemma pdeg_ext n : forall f g, (forall m, f m = g m) -> pdeg n f -> pdeg n g.
Proof. induction n; cbn; intros f g E H. intros. rewrite <- E. auto. refine (IHn _ _ _ H). intros. cbv beta. rewrite !E. reflexivity. Qed.
Lemma pdeg_lin n : forall a b f g, pdeg n f -> pdeg n g -> pdeg n (fun m => a * f m + b * g m).
Proof.
  induction n; cbn; intros a b f g F G. intros. rewrite F, G. ring.
  refine (pdeg_ext n _ _ _ (IHn a b _ _ F G)). intros. cbv beta. ring.
Qed.
Lemma pdeg_shift n : forall f, pdeg n f -> pdeg n (fun m => f (S m)).
Proof. induction n; cbn; intros f F. auto. exact (IHn _ F). Qed.
Lemma pdeg_mono n : forall f, pdeg n f -> pdeg (S n) f.
Proof. induction n; intros f F. cbn in *. intros. rewrite !F. ring. exact (IHn _ F). Qed.
Lemma pdeg_mul n : forall c f, pdeg n f -> pdeg (S n) (fun m => (INR m + c) * f m).
Proof.
  induction n; intros c f F. cbn in *. intros. rewrite !F. ring.
  assert (A := IHn c _ F). assert (B := pdeg_shift _ _ F).
  change (pdeg (S n) (fun m => (INR m + c) * f m - (INR (S m) + c) * f (S m))).
  refine (pdeg_ext _ _ _ _ (pdeg_lin _ 1 (-1) _ _ A B)). intros. cbv beta. rewrite S_INR. ring.
Qed.
Lemma alt_pdeg n : forall f, pdeg n f -> alt n f = 0.
Proof.
  induction n; intros f F. unfold alt. cbn [sm]. cbn in F. rewrite F. ring.
  rewrite alt_S. cbn in F. apply IHn in F. rewrite (alt_ext n _ (fun m => 1 * f m + (-1) * f (S m))) in F by (intros; ring).
  rewrite (alt_lin n 1 (-1)) in F. lra.
Qed.

(** Products of linear factors *)
Definition rp (l : list R) (m : nat) : R := fold_right (fun c p => (INR m + c) * p) 1 l.
Lemma rp_pdeg l : pdeg (S (length l)) (rp l).
Proof.
  induction l as [|c l IH]. cbn. intros. ring.
  exact (pdeg_mul _ c _ IH).
Qed.
Lemma rp_app l1 l2 m : rp (l1 ++ l2) m = rp l1 m * rp l2 m.
Proof. unfold rp. induction l1; cbn. ring. rewrite IHl1. ring. Qed.
(** division by a linear factor *)
Definition rem (l : list R) (c : R) : R := fold_right (fun d p => (d - c) * p) 1 l.
Lemma rp_div l c : exists r, pdeg (length l) r /\ forall m, rp l m = (INR m + c) * r m + rem l c.
Proof.
  induction l as [|d l (r & P & E)].
  - exists (fun _ => 0). split. cbn. auto. intros. cbn. ring.
  - exists (fun m => (INR m + d) * r m + rem l c). split.
    + refine (pdeg_ext _ _ _ _ (pdeg_lin _ 1 1 _ (fun m => rem l c) (pdeg_mul _ d _ P) _)). intros; cbv beta; ring.
      clear. assert (G : forall n k, pdeg (S n) (fun _ => k)).
      { induction n; intros k; cbn [pdeg]. intros; ring. refine (pdeg_ext _ _ _ _ (IHn 0)). intros; cbv beta; ring. }
      apply G.
    + intros m. cbn [rp rem fold_right]. fold (rp l m). fold (rem l c). rewrite E. ring.
Qed.
(** sums of reciprocals *)
Fixpoint rising (c : R) (n : nat) : R := match n with O => 1 | S n => rising c n * (c + INR n) end.
Lemma rising_first n : forall c, rising c (S n) = c * rising (c + 1) n.
Proof.
  induction n; intros c. cbn. ring. change (rising c (S n) * (c + INR (S n)) = c * (rising (c + 1) n * (c + 1 + INR n))).
  rewrite IHn, S_INR. ring.
Qed.
Lemma rising_pos n : forall c, 0 < c -> 0 < rising c n.
Proof. induction n; intros c C; cbn. lra. pose proof (pos_INR n). apply Rmult_lt_0_compat; auto. lra. Qed.
Lemma alt_recip n : forall c, 0 < c -> alt n (fun m => / (INR m + c)) = factorial n / rising c (S n).
Proof.
  induction n; intros c C.
  - unfold alt. cbn [sm]. rewrite comb_0. unfold factorial. cbn. field. lra.
  - rewrite alt_S. rewrite (alt_ext n (fun m => / (INR (S m) + c)) (fun m => / (INR m + (c + 1)))).
    2:{ intros. rewrite S_INR. f_equal. ring. }
    rewrite !IHn by lra. rewrite (rising_first (S n)).
    pose proof (rising_pos n (c + 1) ltac:(lra)). pose proof (rising_pos (S n) c C) as Q. rewrite (rising_first n) in *.
    change (rising (c + 1) (S n)) with (rising (c + 1) n * (c + 1 + INR n)).
    rewrite (fact_S n), S_INR. pose proof (pos_INR n). field. repeat split; lra.
Qed.

(** ** The inner products of the powers *)
(** the coefficients of the polynomial in 1 - y *)
Definition jc (n al m : nat) : R := comb n m * comb (n + al + m) n.
Definition shifts (al n : nat) : list R := map (fun i => INR (al + i)) (seq 1 n).
Lemma comb_rp n : forall al m, comb (n + al + m) n * factorial n = rp (shifts al n) m.
Proof.
  induction n; intros al m. rewrite comb_0. unfold shifts, factorial. cbn. ring.
  unfold shifts in *. rewrite seq_S, map_app, rp_app. rewrite <- IHn. cbn [map rp fold_right].
  pose proof (comb_fact (al + m) (S n)) as A. pose proof (comb_fact (al + m) n) as B.
  replace (S n + al + m)%nat with (al + m + S n)%nat by lia. replace (n + al + m)%nat with (al + m + n)%nat by lia.
  pose proof (fact_pos (al + m)) as F. apply (Rmult_eq_reg_r (factorial (al + m))); [|lra].
  rewrite Rmult_assoc, A. replace (comb (al + m + n) n * factorial n * ((INR m + INR (al + (1 + n))) * 1) * factorial (al + m))
    with (comb (al + m + n) n * (factorial n * factorial (al + m)) * (INR m + INR (al + (1 + n)))) by ring.
  rewrite B. replace (al + m + S n)%nat with (S (al + m + n)) by lia. rewrite fact_S.
  rewrite <- plus_INR. replace (m + (al + (1 + n)))%nat with (S (al + m + n)) by lia. ring.
Qed.
Lemma jac_moment n al k : (k < n)%nat -> sm (S n) (fun m => (-1) ^ m * jc n al m / INR (al + m + k + 1)) = 0.
Proof.
  intros K. pose proof (fact_pos n) as F.
  set (l1 := map (fun i => INR (al + i)) (seq 1 k)). set (l2 := map (fun i => INR (al + i)) (seq (2 + k) (n - k - 1))).
  assert (E : shifts al n = l1 ++ INR (al + (1 + k)) :: l2).
  { unfold shifts. replace n with (k + (1 + (n - k - 1)))%nat at 1 by lia. rewrite seq_app, map_app. f_equal. }
  assert (L : length (l1 ++ l2) = (n - 1)%nat) by (unfold l1, l2; rewrite app_length, !map_length, !seq_length; lia).
  transitivity (alt n (fun m => / factorial n * rp (l1 ++ l2) m + 0 * rp (l1 ++ l2) m)).
  - apply sm_ext. intros m Hm. unfold jc. replace (comb (n + al + m) n) with (rp (shifts al n) m / factorial n) by (rewrite <- comb_rp; field; lra).
    rewrite E, !rp_app. change (rp (INR (al + (1 + k)) :: l2) m) with ((INR m + INR (al + (1 + k))) * rp l2 m). replace (al + m + k + 1)%nat with (m + (al + (1 + k)))%nat by lia. rewrite (plus_INR m (al + (1 + k))).
    assert (0 < INR m + INR (al + (1 + k))) by (pose proof (pos_INR m); pose proof (lt_0_INR (al + (1 + k)) ltac:(lia)); lra).
    field. lra.
  - rewrite alt_lin. pose proof (alt_pdeg n (rp (l1 ++ l2))) as A. rewrite A. ring.
    pose proof (rp_pdeg (l1 ++ l2)) as P. rewrite L in P. replace (S (n - 1)) with n in P by lia. exact P.
Qed.
Lemma rem_shifts al n : rem (shifts al n) (INR (al + n + 1)) = (-1) ^ n * factorial n.
Proof.
  unfold shifts. enough (G : forall k, (k <= n)%nat -> rem (map (fun i => INR (al + i)) (seq (n + 1 - k) k)) (INR (al + n + 1)) = (-1) ^ k * factorial k).
  { specialize (G n (le_n n)). replace (n + 1 - n)%nat with 1%nat in G by lia. exact G. }
  induction k; intros K. unfold factorial. cbn. ring.
  cbn [seq map rem fold_right]. fold (rem (map (fun i => INR (al + i)) (seq (S (n + 1 - S k)) k)) (INR (al + n + 1))).
  replace (S (n + 1 - S k)) with (n + 1 - k)%nat by lia. rewrite IHk by lia. rewrite fact_S. cbn [pow].
  replace (al + n + 1)%nat with (al + (n + 1 - S k) + S k)%nat by lia. rewrite (plus_INR (al + (n + 1 - S k)) (S k)). ring.
Qed.
Lemma jac_moment_n n al : sm (S n) (fun m => (-1) ^ m * jc n al m / INR (al + m + n + 1)) * ((-1) ^ n * jc n al n) = / INR (2 * n + al + 1).
Proof.
  pose proof (fact_pos n) as F. pose proof (lt_0_INR (al + n + 1) ltac:(lia)) as PC.
  destruct (rp_div (shifts al n) (INR (al + n + 1))) as (r & P & E).
  assert (L : length (shifts al n) = n) by (unfold shifts; rewrite map_length, seq_length; auto). rewrite L in P.
  rewrite rem_shifts in E.
  assert (S1 : sm (S n) (fun m => (-1) ^ m * jc n al m / INR (al + m + n + 1)) = (-1) ^ n * (factorial n / rising (INR (al + n + 1)) (S n))).
  { rewrite <- alt_recip by auto.
    transitivity (alt n (fun m => / factorial n * r m + (-1) ^ n * / (INR m + INR (al + n + 1)))).
    - apply sm_ext. intros m Hm. unfold jc. replace (comb (n + al + m) n) with (rp (shifts al n) m / factorial n) by (rewrite <- comb_rp; field; lra).
      rewrite E. replace (al + m + n + 1)%nat with (m + (al + n + 1))%nat by lia. rewrite (plus_INR m).
      pose proof (pos_INR m). field. split; lra.
    - rewrite alt_lin, (alt_pdeg n r P). ring. }
  rewrite S1. unfold jc. rewrite comb_nn.
  assert (Q : comb (n + al + n) n * factorial n = rising (INR (al + n + 1)) n).
  { rewrite comb_rp. unfold shifts. clear. enough (G : forall k, rp (map (fun i => INR (al + i)) (seq 1 k)) n = rising (INR (al + n + 1)) k) by apply G. induction k. reflexivity.
    rewrite seq_S, map_app, rp_app, IHk. cbn [map rp fold_right rising]. rewrite <- !plus_INR.
    replace (n + (al + (1 + k)))%nat with (al + n + 1 + k)%nat by lia. ring. }
  assert (O : (-1) ^ n * (-1) ^ n = 1) by (rewrite <- Rpow_mult_distr; replace (-1 * -1) with 1 by ring; apply pow1).
  cbn [rising]. pose proof (rising_pos n _ PC). rewrite <- plus_INR. replace (al + n + 1 + n)%nat with (2 * n + al + 1)%nat by lia.
  pose proof (lt_0_INR (2 * n + al + 1) ltac:(lia)).
  replace ((-1) ^ n * (factorial n / (rising (INR (al + n + 1)) n * INR (2 * n + al + 1))) * ((-1) ^ n * (1 * comb (n + al + n) n)))
    with ((((-1) ^ n * (-1) ^ n) * (comb (n + al + n) n * factorial n)) / (rising (INR (al + n + 1)) n * INR (2 * n + al + 1))) by (field; lra).
  rewrite O, Q. field. lra.
Qed.
(** Orthogonality and norms, as an identity of sums. *)
Lemma jac_orth n k al : sm (S n) (fun m => sm (S k) (fun m' => (-1) ^ m * jc n al m * ((-1) ^ m' * jc k al m') / INR (al + m + m' + 1)))
  = if Nat.eqb n k then / INR (2 * n + al + 1) else 0.
Proof.
  assert (G : forall n k, (k < n)%nat -> sm (S n) (fun m => sm (S k) (fun m' => (-1) ^ m * jc n al m * ((-1) ^ m' * jc k al m') / INR (al + m + m' + 1))) = 0).
  { intros n0 k0 H. rewrite sm_swap. apply sm_0. intros m' Hm'.
    rewrite (@sm_ext (S n0) _ (fun m => (-1) ^ m * jc n0 al m / INR (al + m + m' + 1) * ((-1) ^ m' * jc k0 al m'))) by (intros; unfold Rdiv; ring).
    rewrite sm_scalr, jac_moment by lia. ring. }
  destruct (Nat.eqb_spec n k) as [<-|N].
  - rewrite sm_swap. cbn [sm]. change (sm n ?f + ?g n) with (sm n f + g n).
    rewrite (sm_0 n).
    2:{ intros m' Hm'. change (sm (S n) (fun i => (-1) ^ i * jc n al i * ((-1) ^ m' * jc n al m') / INR (al + i + m' + 1)) = 0).
        rewrite (@sm_ext (S n) _ (fun m => (-1) ^ m * jc n al m / INR (al + m + m' + 1) * ((-1) ^ m' * jc n al m'))) by (intros; unfold Rdiv; ring).
        rewrite sm_scalr, jac_moment by lia. ring. }
    rewrite Rplus_0_l. rewrite <- jac_moment_n. rewrite <- sm_scalr.
    change (sm (S n) (fun i => (-1) ^ i * jc n al i * ((-1) ^ n * jc n al n) / INR (al + i + n + 1)) = sm (S n) (fun m => (-1) ^ m * jc n al m / INR (al + m + n + 1) * ((-1) ^ n * jc n al n))).
    apply sm_ext. intros. unfold Rdiv. ring.
  - destruct (Nat.lt_ge_cases k n) as [H|H]. apply G; auto.
    rewrite sm_swap. rewrite <- (G k n) by lia. apply sm_ext. intros m _. apply sm_ext. intros m' _.
    replace (al + m' + m + 1)%nat with (al + m + m' + 1)%nat by lia. unfold Rdiv. ring.
Qed.
