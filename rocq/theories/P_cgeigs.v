(** Theorem C213: conjugate gradients with Lanczos tridiagonal matrix
    (cg_eigs), exact real arithmetic. *)
From Coq Require Import Reals Lra.
From Verif Require Import Base M_cgeigs.
Open Scope R_scope.

(** ** Dot products *)
Lemma dot_ext : forall n u v u' v', (forall i, (i < n)%nat -> u i = u' i) -> (forall i, (i < n)%nat -> v i = v' i) ->
  dot n u v = dot n u' v'.
Proof. induction n; simpl; intros; auto. rewrite (IHn u v u' v'), H, H0; auto. Qed.
Lemma dot_sym : forall n u v, dot n u v = dot n v u.
Proof. induction n; simpl; intros; auto. rewrite IHn. ring. Qed.
Lemma dot_lin_l : forall n a b c u w, (forall i, u i = a i + c * b i) -> dot n u w = dot n a w + c * dot n b w.
Proof. induction n; simpl; intros; [ring|]. rewrite (IHn a b c u w), H; auto. ring. Qed.
Lemma dot_lin_r : forall n a b c u w, (forall i, u i = a i + c * b i) -> dot n w u = dot n w a + c * dot n w b.
Proof. intros. rewrite dot_sym, (dot_lin_l n a b c u w); auto. rewrite (dot_sym n a), (dot_sym n b); auto. Qed.
Lemma dot_zero_r : forall n u v, (forall i, v i = 0) -> dot n u v = 0.
Proof. induction n; simpl; intros; auto. rewrite IHn, H; auto. ring. Qed.
Lemma dot_pos : forall n u, 0 <= dot n u u.
Proof. induction n; simpl; intros; [lra|]. specialize (IHn u). nra. Qed.
Lemma dot_swap : forall n m (B : nat -> nat -> R) u v,
  dot n u (fun i => dot m (B i) v) = dot m (fun j => dot n u (fun i => B i j)) v.
Proof.
  induction m; simpl; intros.
  - apply dot_zero_r. auto.
  - rewrite (dot_lin_r n (fun i => dot m (B i) v) (fun i => B i m) (v m)) by (intros; ring).
    rewrite IHm. ring.
Qed.

Definition symmetric (n : nat) (A : nat -> nat -> R) : Prop :=
  forall i j, (i < n)%nat -> (j < n)%nat -> A i j = A j i.

Lemma mv_sym : forall n A u v, symmetric n A -> dot n u (mv n A v) = dot n (mv n A u) v.
Proof.
  intros n A u v S. unfold mv. rewrite dot_swap. apply dot_ext; auto.
  intros i Hi. rewrite dot_sym. apply dot_ext; auto.
Qed.
Lemma mv_lin : forall n A a b c u, (forall i, u i = a i + c * b i) ->
  forall i, mv n A u i = mv n A a i + c * mv n A b i.
Proof. intros. apply dot_lin_r; auto. Qed.

(** ** The recurrences *)
Section Seq.
Variables (n : nat) (A : nat -> nat -> R).
Hypothesis SA : symmetric n A.
Variables (r z p : nat -> vec) (al be rho : nat -> R) (K : nat).
Hypothesis Hr : forall j, (j < K)%nat -> forall i, r (S j) i = r j i - al j * mv n A (p j) i.
Hypothesis Hp0 : forall i, p 0%nat i = z 0%nat i.
Hypothesis Hp : forall j, (j < K)%nat -> forall i, p (S j) i = z (S j) i + be (S j) * p j i.
Hypothesis Hrho : forall j, (j <= K)%nat -> rho j = dot n (z j) (r j).
Hypothesis Hal : forall j, (j < K)%nat -> al j * dot n (p j) (mv n A (p j)) = rho j.
Hypothesis Hnz : forall j, (j < K)%nat -> al j <> 0.
Hypothesis Hbe : forall j, (j < K)%nat -> be (S j) * rho j = rho (S j).
Hypothesis Hz : forall i j, (i <= K)%nat -> (j <= K)%nat -> dot n (z i) (r j) = dot n (z j) (r i).

Let a (u v : vec) : R := dot n u (mv n A v).
Lemma a_sym : forall u v, a u v = a v u.
Proof. intros. unfold a. rewrite mv_sym by auto. apply dot_sym. Qed.

(** z_i in terms of the directions *)
Lemma a_z : forall i w, (i < K)%nat -> a (z (S i)) w = a (p (S i)) w - be (S i) * a (p i) w.
Proof.
  intros. unfold a. rewrite (dot_lin_l n (z (S i)) (p i) (be (S i)) (p (S i))) by (intros; apply Hp; auto). ring.
Qed.
Lemma a_z0 : forall w, a (z 0%nat) w = a (p 0%nat) w.
Proof. intros. apply dot_ext; auto. Qed.
Lemma r_step : forall j w, (j < K)%nat -> dot n w (r (S j)) = dot n w (r j) - al j * a w (p j).
Proof.
  intros. rewrite (dot_lin_r n (r j) (mv n A (p j)) (- al j)); [unfold a; ring|]. intros. rewrite Hr; auto. ring.
Qed.

Lemma conj : forall k, (k <= K)%nat -> forall i, (i < k)%nat -> dot n (z i) (r k) = 0 /\ a (p k) (p i) = 0.
Proof.
  induction k as [|k IH]; intros Hk i Hi; [lia|].
  assert (IH' := IH ltac:(lia)). clear IH.
  assert (Z : forall i, (i <= k)%nat -> dot n (z i) (r (S k)) = 0).
  { clear i Hi. intros i Hi. rewrite r_step by lia.
    destruct (Nat.eq_dec i k) as [->|N].
    - rewrite <- Hrho, <- (Hal k) by lia. fold (a (p k) (p k)). 
      assert (E : a (z k) (p k) = a (p k) (p k)); [|rewrite E; ring].
      destruct k as [|k]; [apply a_z0|]. rewrite a_z by lia.
      destruct (IH' k ltac:(lia)) as [_ E]. rewrite (a_sym (p k)), E. ring.
    - destruct (IH' i ltac:(lia)) as [E1 E2]. rewrite E1.
      assert (E : a (z i) (p k) = 0); [|rewrite E; ring].
      destruct i as [|i].
      + rewrite a_z0, a_sym; auto.
      + rewrite a_z by lia. destruct (IH' i ltac:(lia)) as [_ E3].
        rewrite (a_sym (p (S i))), (a_sym (p i)), E2, E3. ring. }
  split; [apply Z; lia|].
  unfold a. rewrite (dot_lin_l n (z (S k)) (p k) (be (S k)) (p (S k))) by (intros; apply Hp; lia).
  fold (a (z (S k)) (p i)) (a (p k) (p i)).
  assert (S0 := r_step i (z (S k)) ltac:(lia)).
  rewrite (Hz (S k) (S i)), (Hz (S k) i), (Z i) in S0 by lia.
  apply (Rmult_eq_reg_l (al i)); [|apply Hnz; lia]. rewrite Rmult_0_r.
  destruct (Nat.eq_dec i k) as [->|N].
  - rewrite <- Hrho in S0 by lia.
    replace (al k * (a (z (S k)) (p k) + be (S k) * a (p k) (p k)))
      with (al k * a (z (S k)) (p k) + be (S k) * (al k * a (p k) (p k))) by ring.
    unfold a at 2. rewrite Hal, Hbe by lia. lra.
  - rewrite (Z (S i)) in S0 by lia. destruct (IH' i ltac:(lia)) as [_ E]. rewrite E. lra.
Qed.

(** The matrix in the basis of the residuals, without preconditioner. *)
Hypothesis Hzr : forall j, (j <= K)%nat -> forall i, z j i = r j i.

Lemma orth : forall i j, (i <= K)%nat -> (j <= K)%nat -> i <> j -> dot n (r i) (r j) = 0.
Proof.
  assert (W : forall i j, (j <= K)%nat -> (i < j)%nat -> dot n (r i) (r j) = 0).
  { intros i j Hj Hi. destruct (conj j Hj i Hi) as [E _]. rewrite <- E. apply dot_ext; auto.
    intros. symmetry. apply Hzr. lia. }
  intros i j Hi Hj N. destruct (Nat.lt_total i j) as [L|[L|L]]; [auto|congruence|]. rewrite dot_sym; auto.
Qed.

Lemma rho_r : forall j, (j <= K)%nat -> rho j = dot n (r j) (r j).
Proof. intros. rewrite Hrho by auto. apply dot_ext; auto. Qed.

Lemma a_rz : forall j w, (j <= K)%nat -> a (r j) w = a (z j) w.
Proof. intros. apply dot_ext; auto. intros. rewrite Hzr; auto. Qed.
Lemma a_rr : forall i j, (i <= K)%nat -> (j <= K)%nat -> a (r i) (r j) = a (z i) (z j).
Proof. intros. rewrite a_rz, a_sym, a_rz, a_sym; auto. Qed.

Lemma a_pp : forall i j, (i <= K)%nat -> (j <= K)%nat -> i <> j -> a (p i) (p j) = 0.
Proof.
  intros i j Hi Hj N. destruct (Nat.lt_total i j) as [L|[L|L]]; [|congruence|].
  - rewrite a_sym. apply (conj j Hj i L).
  - apply (conj i Hi j L).
Qed.

Lemma lan_diag : forall j, (j < K)%nat -> al j * a (r j) (r j) =
  rho j * (1 + al j * match j with O => 0 | S i => be j / al i end).
Proof.
  intros [|j] Hj.
  - rewrite a_rr, a_z0, a_sym, a_z0, <- (Hal 0%nat) by lia. unfold a. ring.
  - rewrite a_rr by lia. rewrite a_z, (a_sym _ (z (S j))), (a_sym _ (z (S j))), !a_z by lia.
    rewrite (a_pp j (S j)), (a_pp (S j) j) by lia.
    assert (E1 := Hal (S j) Hj). assert (E2 := Hal j ltac:(lia)). assert (E3 := Hbe j ltac:(lia)).
    assert (N := Hnz j ltac:(lia)). fold (a (p j) (p j)) in E2. fold (a (p (S j)) (p (S j))) in E1.
    replace (a (p j) (p j)) with (rho j / al j) by (rewrite <- E2; field; auto).
    rewrite <- E3. transitivity (al (S j) * a (p (S j)) (p (S j)) + al (S j) * be (S j) * (be (S j) * rho j / al j)).
    + field; auto.
    + rewrite E1, E3. field; auto.
Qed.

Lemma lan_off : forall j, (S j < K)%nat -> al j * a (r j) (r (S j)) = - rho (S j).
Proof.
  intros j Hj. rewrite a_rr by lia.
  assert (E : a (z j) (z (S j)) = - be (S j) * a (p j) (p j)).
  { rewrite a_sym, a_z, (a_sym _ (z j)), (a_sym _ (z j)) by lia. destruct j as [|j].
    - rewrite !a_z0, (a_pp 0 1) by lia. ring.
    - rewrite !a_z by lia. rewrite (a_pp (S j) (S (S j))), (a_pp j (S (S j))), (a_pp j (S j)) by lia. ring. }
  rewrite E, <- Hbe, <- (Hal j) by lia. unfold a. ring.
Qed.

Lemma lan_far : forall i j, (S i < j)%nat -> (j < K)%nat -> a (r i) (r j) = 0.
Proof.
  intros i j Hi Hj. rewrite a_rr by lia. destruct j as [|j]; [lia|].
  rewrite a_sym, a_z, (a_sym _ (z i)), (a_sym _ (z i)) by lia. destruct i as [|i].
  - rewrite !a_z0, (a_pp 0 (S j)), (a_pp 0 j) by lia. ring.
  - rewrite !a_z by lia. rewrite (a_pp (S i) (S j)), (a_pp i (S j)), (a_pp (S i) j), (a_pp i j) by lia. ring.
Qed.
End Seq.
