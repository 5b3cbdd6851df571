(** Derivatives of sums and the chain rule for the reference mappings. *)
From Coq Require Import Reals Lra.
From Verif Require Import Base M_fmf L_fmf M_map S_map.
Open Scope nat_scope.

Lemma sm_le : forall n f g, (forall k, k < n -> (f k <= g k)%R) -> (sm n f <= sm n g)%R.
Proof. induction n; intros f g H; cbn; [lra|]. apply Rplus_le_compat; [apply IHn; intros; apply H; lia|apply H; lia]. Qed.
Lemma sm_abs : forall n f, (Rabs (sm n f) <= sm n (fun k => Rabs (f k)))%R.
Proof.
  induction n; intros f; cbn; [rewrite Rabs_R0; lra|]. eapply Rle_trans; [apply Rabs_triang|]. apply Rplus_le_compat_r, IHn.
Qed.
Lemma sm_nonneg : forall n f, (forall k, k < n -> (0 <= f k)%R) -> (0 <= sm n f)%R.
Proof. induction n; intros f H; cbn; [lra|]. specialize (IHn f (fun k L => H k (Nat.lt_lt_succ_r _ _ L))). specialize (H n (Nat.lt_succ_diag_r n)). lra. Qed.
Lemma sm_term : forall n f k, (forall k, k < n -> (0 <= f k)%R) -> k < n -> (f k <= sm n f)%R.
Proof.
  induction n; intros f k H L; [lia|]. cbn. destruct (Nat.eq_dec k n) as [->|N].
  - assert (0 <= sm n f)%R by (apply sm_nonneg; intros; apply H; lia). lra.
  - assert (f k <= sm n f)%R by (apply IHn; [intros; apply H; lia|lia]). specialize (H n (Nat.lt_succ_diag_r n)). lra.
Qed.
Lemma sm_opp : forall n f, sm n (fun k => (- f k)%R) = (- sm n f)%R.
Proof. induction n; intros f; cbn; [lra|]. rewrite IHn. lra. Qed.
Lemma sm_minus : forall n f g, sm n (fun k => (f k - g k)%R) = (sm n f - sm n g)%R.
Proof. induction n; intros f g; cbn; [lra|]. rewrite IHn. lra. Qed.

Lemma uniform_delta : forall n (P : nat -> R -> Prop), (forall k d d', P k d -> (0 < d' <= d)%R -> P k d') ->
  (forall k, k < n -> exists d, (0 < d)%R /\ P k d) -> exists d, (0 < d)%R /\ forall k, k < n -> P k d.
Proof.
  induction n; intros P M H.
  - exists 1%R. split; [lra|]. intros; lia.
  - destruct (IHn P M) as (d1 & D1 & H1); [intros; apply H; lia|]. destruct (H n) as (d2 & D2 & H2); [lia|].
    exists (Rmin d1 d2). split; [apply Rmin_pos; auto|]. intros k Hk. destruct (Nat.eq_dec k n) as [->|N].
    + apply M with d2; auto. split; [apply Rmin_pos; auto|apply Rmin_r].
    + apply M with d1; [apply H1; lia|]. split; [apply Rmin_pos; auto|apply Rmin_l].
Qed.

Lemma lim_sum : forall n (f : nat -> R -> R) (l : nat -> R) x, (forall j, j < n -> derivable_pt_lim (f j) x (l j)) ->
  derivable_pt_lim (fun t => sm n (fun j => f j t)) x (sm n l).
Proof.
  induction n; intros f l x H; cbn.
  - apply derivable_pt_lim_const.
  - apply (derivable_pt_lim_plus (fun t => sm n (fun j => f j t)) (f n)); [apply IHn; intros; apply H; lia|apply H; lia].
Qed.
Lemma lim_scal_r : forall f l x a, derivable_pt_lim f x l -> derivable_pt_lim (fun t => (f t * a)%R) x (l * a)%R.
Proof.
  intros. replace (l * a)%R with (l * a + f x * 0)%R by ring.
  apply (derivable_pt_lim_mult f (fun _ => a)); auto. apply derivable_pt_lim_const.
Qed.

Lemma chain : forall dim (c : R -> nat -> R) (v : nat -> R) U G,
  (forall k, k < dim -> derivable_pt_lim (fun t => c t k) 0 (v k)) -> has_grad dim U (c 0%R) G ->
  derivable_pt_lim (fun t => U (c t)) 0 (sm dim (fun k => (G k * v k)%R)).
Proof.
  intros dim c v U G Hc HU eps He.
  set (M := (sm dim (fun k => Rabs (v k) + 1) + 1)%R). set (K := (sm dim (fun k => Rabs (G k)) + 1)%R).
  assert (HM : (1 <= M)%R). { unfold M. assert (0 <= sm dim (fun k => Rabs (v k) + 1))%R; [|lra].
    apply sm_nonneg. intros. pose proof (Rabs_pos (v k)). lra. }
  assert (HK : (1 <= K)%R). { unfold K. assert (0 <= sm dim (fun k => Rabs (G k)))%R; [|lra].
    apply sm_nonneg. intros. apply Rabs_pos. }
  assert (E1 : (0 < eps / (2 * M))%R) by (apply Rdiv_lt_0_compat; lra).
  destruct (HU _ E1) as (d1 & D1 & H1).
  set (e2 := Rmin 1 (eps / (2 * K))). assert (E2 : (0 < e2)%R) by (apply Rmin_pos; [lra|apply Rdiv_lt_0_compat; lra]).
  destruct (uniform_delta dim (fun k d => forall h, (h <> 0 -> Rabs h < d -> Rabs ((c h k - c 0 k) / h - v k) < e2)%R)) as (d2 & D2 & H2).
  - intros k d d' H L h Nh Lh. apply H; auto. lra.
  - intros k Hk. destruct (Hc k Hk _ E2) as ((d & Dp) & H). exists d. split; auto. intros h Nh Lh.
    specialize (H h Nh Lh). rewrite Rplus_0_l in H. exact H.
  - assert (D3 : (0 < Rmin d2 (d1 / M))%R) by (apply Rmin_pos; [auto|apply Rdiv_lt_0_compat; lra]).
    exists (mkposreal _ D3). intros h Nh Lh. cbn in Lh. rewrite Rplus_0_l.
    assert (L2 : (Rabs h < d2)%R) by (eapply Rlt_le_trans; [apply Lh|apply Rmin_l]).
    assert (L1 : (Rabs h < d1 / M)%R) by (eapply Rlt_le_trans; [apply Lh|apply Rmin_r]).
    assert (Ah : (0 < Rabs h)%R) by (apply Rabs_pos_lt; auto).
    assert (B : forall k, k < dim -> (Rabs (c h k - c 0%R k) <= (Rabs (v k) + 1) * Rabs h)%R).
    { intros k Hk. specialize (H2 k Hk h Nh L2). assert (e2 <= 1)%R by apply Rmin_l.
      replace (c h k - c 0%R k)%R with (((c h k - c 0%R k) / h - v k + v k) * h)%R by (field; auto).
      rewrite Rabs_mult. apply Rmult_le_compat_r; [apply Rabs_pos|]. eapply Rle_trans; [apply Rabs_triang|]. lra. }
    assert (Sb : (sm dim (fun k => Rabs (c h k - c 0%R k)) <= (M - 1) * Rabs h)%R).
    { eapply Rle_trans; [apply sm_le; exact B|]. rewrite sm_scalr. unfold M. lra. }
    assert (N1 : forall k, k < dim -> (Rabs (c h k - c 0%R k) < d1)%R).
    { intros k Hk. eapply Rle_lt_trans; [apply (sm_term dim (fun k => Rabs (c h k - c 0%R k)) k); [intros; apply Rabs_pos|auto]|].
      eapply Rle_lt_trans; [apply Sb|]. apply Rle_lt_trans with (M * Rabs h)%R; [apply Rmult_le_compat_r; lra|].
      apply Rlt_le_trans with (M * (d1 / M))%R; [apply Rmult_lt_compat_l; lra|]. right. field. lra. }
    specialize (H1 (c h) N1).
    replace ((U (c h) - U (c 0%R)) / h - sm dim (fun k => G k * v k))%R with
      ((U (c h) - U (c 0%R) - sm dim (fun k => G k * (c h k - c 0%R k))) / h + sm dim (fun k => G k * ((c h k - c 0%R k) / h - v k)))%R.
    2: { rewrite (@sm_ext dim (fun k => (G k * ((c h k - c 0 k) / h - v k))%R) (fun k => (G k * (c h k - c 0 k) * / h - G k * v k)%R)).
         - rewrite sm_minus, sm_scalr. field. auto.
         - intros; field; auto. }
    eapply Rle_lt_trans; [apply Rabs_triang|].
    assert (X1 : (Rabs ((U (c h) - U (c 0%R) - sm dim (fun k => G k * (c h k - c 0%R k))) / h) <= eps / (2 * M) * (M - 1))%R).
    { unfold Rdiv at 1. rewrite Rabs_mult, Rabs_inv. apply Rle_trans with (eps / (2 * M) * ((M - 1) * Rabs h) * / Rabs h)%R.
      - apply Rmult_le_compat_r; [left; apply Rinv_0_lt_compat; auto|]. eapply Rle_trans; [apply H1|]. apply Rmult_le_compat_l; lra.
      - right. field. split; lra. }
    assert (X2 : (Rabs (sm dim (fun k => G k * ((c h k - c 0%R k) / h - v k))) <= (K - 1) * e2)%R).
    { eapply Rle_trans; [apply sm_abs|]. replace (K - 1)%R with (sm dim (fun k => Rabs (G k))) by (unfold K; ring).
      rewrite <- sm_scalr. apply sm_le. intros k Hk. rewrite Rabs_mult. apply Rmult_le_compat_l; [apply Rabs_pos|].
      left. apply H2; auto. }
    assert (Y1 : (eps / (2 * M) * (M - 1) < eps / 2)%R).
    { replace (eps / (2 * M) * (M - 1))%R with (eps / 2 - eps / (2 * M))%R by (field; lra). lra. }
    assert (Y2 : ((K - 1) * e2 <= eps / 2)%R).
    { apply Rle_trans with ((K - 1) * (eps / (2 * K)))%R; [apply Rmult_le_compat_l; [lra|apply Rmin_r]|].
      replace ((K - 1) * (eps / (2 * K)))%R with (eps / 2 - eps / (2 * K))%R by (field; lra).
      assert (0 < eps / (2 * K))%R by (apply Rdiv_lt_0_compat; lra). lra. }
    lra.
Qed.
