(** Marsden's identity, linear independence of its dual polynomials. *)
From Coq Require Import Reals Lra Lia Arith List.
From Coquelicot Require Import Coquelicot.
From Verif Require Import M_fmf L_fmf S_iga.
Import ListNotations.
Open Scope R_scope.

Lemma sm_first : forall n f, sm (S n) f = f 0%nat + sm n (fun k => f (S k)).
Proof.
  intros n f. replace (S n) with (1 + n)%nat by lia. rewrite sm_split. cbn [sm]. rewrite Rplus_0_l. f_equal.
Qed.

(** ** Bernstein polynomials *)
Lemma binom_lt : forall n k, (n < k)%nat -> binom n k = 0%nat.
Proof. induction n; intros [|k] H; try lia; cbn [binom]; auto. rewrite !IHn by lia. reflexivity. Qed.
Lemma binom_0 : forall n, binom n 0 = 1%nat. Proof. destruct n; reflexivity. Qed.
Lemma binom_nn : forall n, binom n n = 1%nat.
Proof. induction n; auto. cbn [binom]. rewrite IHn, binom_lt by lia. reflexivity. Qed.
(** The recurrence of the triangular scheme. *)
Lemma bern_rec : forall p j x, bernstein (S p) (S j) x = (1 - x) * bernstein p (S j) x + x * bernstein p j x.
Proof.
  intros p j x. unfold bernstein. cbn [binom]. rewrite plus_INR.
  destruct (Nat.lt_ge_cases p (S j)) as [H|H].
  - rewrite (@binom_lt p (S j)) by lia. cbn [INR]. replace (S p - S j)%nat with (p - j)%nat by lia. cbn [pow]. ring.
  - replace (p - j)%nat with (S (p - S j)) by lia. replace (S p - S j)%nat with (S (p - S j)) by lia. cbn [pow]. ring.
Qed.
Lemma bern_rec0 : forall p x, bernstein (S p) 0 x = (1 - x) * bernstein p 0 x.
Proof. intros p x. unfold bernstein. rewrite !binom_0, !Nat.sub_0_r. cbn [pow]. ring. Qed.
Lemma bern_out : forall p j x, (p < j)%nat -> bernstein p j x = 0.
Proof. intros. unfold bernstein. rewrite binom_lt by auto. cbn [INR]. ring. Qed.
Lemma bern_0 : forall x, bernstein 0 0 x = 1.
Proof. intros. unfold bernstein. cbn. ring. Qed.
(** The binomial theorem. *)
Lemma bern_sum : forall p x u v, sm (S p) (fun j => v ^ j * u ^ (p - j) * bernstein p j x) = ((1 - x) * u + x * v) ^ p.
Proof.
  induction p; intros x u v.
  - cbn [sm pow Nat.sub]. rewrite bern_0. ring.
  - rewrite sm_first. rewrite (@sm_ext (S p) _ (fun k => (1 - x) * (v ^ S k * u ^ (S p - S k) * bernstein p (S k) x) + x * v * (v ^ k * u ^ (p - k) * bernstein p k x))).
    2: { intros k Hk. rewrite bern_rec. cbn [Nat.sub pow]. ring. }
    rewrite sm_plus, !sm_scal, IHp.
    assert (E : sm (S p) (fun k => v ^ S k * u ^ (S p - S k) * bernstein p (S k) x) = u * (((1 - x) * u + x * v) ^ p - u ^ p * bernstein p 0 x)).
    { rewrite <- IHp. rewrite (sm_first p (fun j => v ^ j * u ^ (p - j) * _)). rewrite Nat.sub_0_r. cbn [sm].
      rewrite (@bern_out p (S p)) by lia.
      rewrite (@sm_ext p (fun k => v ^ S k * u ^ (S p - S k) * bernstein p (S k) x) (fun k => u * (v ^ S k * u ^ (p - S k) * bernstein p (S k) x))).
      2: { intros k Hk. replace (S p - S k)%nat with (S (p - S k)) by lia. cbn [pow]. ring. }
      rewrite sm_scal. cbn [pow]. ring. }
    rewrite E. rewrite bern_rec0. cbn [pow Nat.sub]. ring.
Qed.

(** ** The dual polynomials *)
Fixpoint psi (t : nat -> R) (i p : nat) (y : R) : R :=
  match p with O => 1 | S q => psi t i q y * (y - t (i + S q)%nat) end.
Lemma psi_head : forall t p i y, psi t i (S p) y = (y - t (i + 1)%nat) * psi t (S i) p y.
Proof.
  intros t p. induction p; intros i y. cbn [psi]. ring.
  change (psi t i (S (S p)) y) with (psi t i (S p) y * (y - t (i + S (S p))%nat)). rewrite IHp. cbn [psi].
  replace (S i + S p)%nat with (i + S (S p))%nat by lia. ring.
Qed.
(** z^p psi(1/z) is continuous, with the value 1 in 0. *)
Fixpoint psz (t : nat -> R) (i p : nat) (z : R) : R :=
  match p with O => 1 | S q => psz t i q z * (1 - z * t (i + S q)%nat) end.
Lemma psz_0 : forall t i p, psz t i p 0 = 1.
Proof. intros t i p. induction p; cbn [psz]; auto. rewrite IHp. ring. Qed.
Lemma psz_psi : forall t i p z, z <> 0 -> psz t i p z = z ^ p * psi t i p (/ z).
Proof. intros t i p z H. induction p; cbn [psz psi pow]. ring. rewrite IHp. field. auto. Qed.
Lemma psz_cont : forall t i p z, continuous (psz t i p) z.
Proof.
  intros t i p z. apply (@ex_derive_continuous _ R_NormedModule). induction p; cbn [psz].
  - apply ex_derive_const.
  - apply @ex_derive_mult. apply IHp. auto_derive. auto.
Qed.
Lemma sm_cont : forall n (f : nat -> R -> R) z, (forall k, (k < n)%nat -> continuous (f k) z) -> continuous (fun z => sm n (fun k => f k z)) z.
Proof.
  intros n f z H. induction n; cbn [sm]. apply continuous_const.
  apply (@continuous_plus _ R_AbsRing R_NormedModule (fun z => sm n (fun k => f k z)) (f n)). apply IHn. intros; apply H; lia. apply H; lia.
Qed.
(** The leading coefficient of a vanishing combination is zero. *)
Lemma lead : forall t m p n (c : nat -> R), (forall y, sm n (fun i => c i * psi t (m + i) p y) = 0) -> sm n c = 0.
Proof.
  intros t m p n c H. set (g := fun z => sm n (fun i => c i * psz t (m + i) p z)).
  assert (G : forall z, z <> 0 -> g z = 0).
  { intros z Hz. unfold g. rewrite (@sm_ext n _ (fun i => z ^ p * (c i * psi t (m + i) p (/ z)))).
    rewrite sm_scal, H. ring. intros. rewrite psz_psi by auto. ring. }
  assert (C : continuous g 0).
  { apply (@sm_cont n (fun i z => c i * psz t (m + i) p z)). intros k _. apply (@continuous_mult R_UniformSpace R_AbsRing (fun _ => c k)). apply continuous_const. apply psz_cont. }
  assert (G0 : g 0 = 0).
  { destruct (Req_dec (g 0) 0) as [|N]; auto. exfalso.
    assert (P : 0 < Rabs (g 0)) by (apply Rabs_pos_lt; auto).
    destruct (C (ball (g 0) (mkposreal _ P))) as (d & D). apply locally_ball.
    specialize (D (d / 2)). destruct d as (d & Hd). cbn in D.
    assert (B : Rabs (d / 2 - 0) < d) by (rewrite Rminus_0_r, Rabs_right; lra).
    specialize (D B). unfold ball in D. cbn in D. unfold AbsRing_ball, abs, minus, plus, opp in D. cbn in D.
    rewrite (G (d / 2)) in D by lra. rewrite Rplus_0_l, Rabs_Ropp in D. lra. }
  unfold g in G0. rewrite (@sm_ext n _ c) in G0; auto. intros. rewrite psz_0. ring.
Qed.
(** Summation by parts. *)
Lemma by_parts : forall p (c f : nat -> R), sm (S p) (fun i => c i * f i) = sm p (fun i => sm (S i) c * (f i - f (S i))) + sm (S p) c * f p.
Proof.
  induction p; intros c f. cbn [sm]. ring.
  change (sm (S (S p)) (fun i => c i * f i)) with (sm (S p) (fun i => c i * f i) + c (S p) * f (S p)).
  rewrite IHp. change (sm (S p) (fun i => sm (S i) c * (f i - f (S i)))) with (sm p (fun i => sm (S i) c * (f i - f (S i))) + sm (S p) c * (f p - f (S p))).
  change (sm (S (S p)) c) with (sm (S p) c + c (S p)). ring.
Qed.
Lemma psi_indep : forall (t : nat -> R) p m (c : nat -> R),
  (forall i j, (m + 1 <= i)%nat -> (i <= m + p)%nat -> (m + p < j)%nat -> (j <= m + 2 * p)%nat -> t i < t j) ->
  (forall y, sm (S p) (fun i => c i * psi t (m + i) p y) = 0) -> forall i, (i <= p)%nat -> c i = 0.
Proof.
  intros t. induction p; intros m c M H i Hi.
  - specialize (H 0). cbn [sm psi] in H. replace i with 0%nat by lia. lra.
  - pose proof (@lead t m (S p) (S (S p)) c H) as L.
    assert (Q : forall i, (i <= p)%nat -> sm (S i) c * (t (m + i + S p + 1)%nat - t (m + i + 1)%nat) = 0).
    { apply (IHp (S m) (fun i => sm (S i) c * (t (m + i + S p + 1)%nat - t (m + i + 1)%nat))).
      - intros a b A1 A2 B1 B2. apply M; lia.
      - intros y. rewrite <- (H y). rewrite (by_parts (S p) c), L, Rmult_0_l, Rplus_0_r. apply sm_ext. intros k Hk.
        rewrite psi_head. replace (m + S k)%nat with (S (m + k)) by lia. cbn [psi].
        replace (S m + k)%nat with (S (m + k)) by lia. replace (S (m + k) + S p)%nat with (m + k + S p + 1)%nat by lia. ring. }
    assert (Z : forall i, (i <= p)%nat -> sm (S i) c = 0).
    { intros k Hk. specialize (Q k Hk). apply Rmult_integral in Q. destruct Q as [Q|Q]; auto. exfalso.
      assert (t (m + k + 1)%nat < t (m + k + S p + 1)%nat) by (apply M; lia). lra. }
    destruct i as [|i].
    + specialize (Z 0%nat ltac:(lia)). cbn [sm] in Z. lra.
    + pose proof (Z i ltac:(lia)) as Z1. destruct (Nat.eq_dec i p) as [->|N].
      * cbn [sm] in L, Z1. lra.
      * pose proof (Z (S i) ltac:(lia)) as Z2. cbn [sm] in Z1, Z2. lra.
Qed.

(** ** B-splines *)
Section Knots.
Variables (t : nat -> R) (n : nat).
Hypothesis mono : forall i, (i + 1 < n)%nat -> t i <= t (i + 1)%nat.
Lemma mono_le : forall j i, (i <= j)%nat -> (j < n)%nat -> t i <= t j.
Proof.
  induction j; intros i H1 H2. replace i with 0%nat by lia. lra.
  destruct (Nat.eq_dec i (S j)) as [->|N]. lra. eapply Rle_trans. apply IHj; lia. replace (S j) with (j + 1)%nat by lia. apply mono. lia.
Qed.
Lemma bspline_supp : forall p i x, (i + p + 1 < n)%nat -> x < t i \/ t (i + p + 1)%nat <= x -> bspline t p i x = 0.
Proof.
  induction p; intros i x Hi H; cbn [bspline].
  - replace (i + 0 + 1)%nat with (S i) in H by lia. destruct (Rle_dec (t i) x); auto. destruct (Rlt_dec x (t (S i))); auto. lra.
  - pose proof (mono_le (i + S p + 1) (i + S p) ltac:(lia) ltac:(lia)). pose proof (mono_le (S i) i ltac:(lia) ltac:(lia)).
    rewrite IHp, (IHp (S i)). ring. lia. replace (S i + p + 1)%nat with (i + S p + 1)%nat by lia. lra. lia. replace (i + p + 1)%nat with (i + S p)%nat by lia. lra.
Qed.
Theorem marsden : forall p s x y, (p <= s)%nat -> (s + p + 1 < n)%nat -> t s <= x < t (s + 1)%nat ->
  sm (S p) (fun i => bspline t p (s - p + i) x * psi t (s - p + i) p y) = (y - x) ^ p.
Proof.
  induction p; intros s x y Hs Hn Hx.
  - cbn [sm bspline psi pow]. replace (s - 0 + 0)%nat with s by lia. replace (S s) with (s + 1)%nat by lia.
    destruct (Rle_dec (t s) x); [|lra]. destruct (Rlt_dec x (t (s + 1)%nat)); [|lra]. ring.
  - set (m := (s - S p)%nat). cbn [bspline].
    set (b := fun k => bspline t p k x).
    set (A := fun k => ratio (x - t k) (t (k + S p)%nat - t k)).
    set (D := fun k => ratio (t (k + S p + 1)%nat - x) (t (k + S p + 1)%nat - t (k + 1)%nat)).
    rewrite (@sm_ext (S (S p)) _ (fun i => A (m + i)%nat * b (m + i)%nat * psi t (m + i) (S p) y + D (m + i)%nat * b (S (m + i)) * psi t (m + i) (S p) y)).
    2: { intros i Hi. unfold A, D, b. ring. }
    rewrite sm_plus. rewrite sm_first.
    change (sm (S (S p)) (fun i => D (m + i)%nat * b (S (m + i)) * psi t (m + i) (S p) y)) with
      (sm (S p) (fun i => D (m + i)%nat * b (S (m + i)) * psi t (m + i) (S p) y) + D (m + S p)%nat * b (S (m + S p)) * psi t (m + S p) (S p) y).
    assert (b0 : b (m + 0)%nat = 0). { unfold b. apply bspline_supp. lia. right. replace (m + 0 + p + 1)%nat with s by lia. lra. }
    assert (b1 : b (S (m + S p)) = 0). { unfold b. apply bspline_supp. lia. left. replace (S (m + S p)) with (s + 1)%nat by lia. lra. }
    rewrite b0, b1.
    transitivity (sm (S p) (fun i => (bspline t p (s - p + i) x * psi t (s - p + i) p y) * (y - x))).
    2: { rewrite sm_scalr, IHp by (auto; lia). cbn [pow]. ring. }
    transitivity (sm (S p) (fun k => A (m + S k)%nat * b (m + S k)%nat * psi t (m + S k) (S p) y + D (m + k)%nat * b (S (m + k)) * psi t (m + k) (S p) y)).
    { rewrite sm_plus. ring. }
    apply sm_ext. intros k Hk. rewrite (psi_head t p (m + k)). cbn [psi].
    replace (m + S k)%nat with (S (m + k)) by lia. replace (s - p + k)%nat with (S (m + k)) by lia. unfold b, A, D, ratio.
    replace (m + k + S p + 1)%nat with (S (m + k) + S p)%nat by lia. replace (m + k + 1)%nat with (S (m + k)) by lia.
    assert (T : t (S (m + k)) < t (S (m + k) + S p)%nat).
    { pose proof (mono_le s (S (m + k)) ltac:(lia) ltac:(lia)). pose proof (mono_le (S (m + k) + S p) (s + 1) ltac:(lia) ltac:(lia)). lra. }
    destruct (Req_EM_T _ 0); [lra|]. field. lra.
Qed.
(** A representation of the dual polynomials of the Bernstein basis gives the B-splines. *)
Theorem dual_rep : forall p s (C : nat -> nat -> R), (p <= s)%nat -> (s + p + 1 < n)%nat -> t s < t (s + 1)%nat ->
  (forall j y, (j <= p)%nat -> sm (S p) (fun i => C i j * psi t (s - p + i) p y) = (y - t s) ^ (p - j) * (y - t (s + 1)%nat) ^ j) ->
  forall x i, t s <= x < t (s + 1)%nat -> (i <= p)%nat ->
  bspline t p (s - p + i) x = sm (S p) (fun j => C i j * bernstein p j ((x - t s) / (t (s + 1)%nat - t s))).
Proof.
  intros p s C Hs Hn HT HC x i Hx Hi. set (z := (x - t s) / (t (s + 1)%nat - t s)).
  enough (E : bspline t p (s - p + i) x - sm (S p) (fun j => C i j * bernstein p j z) = 0) by lra.
  apply (@psi_indep t p (s - p) (fun i => bspline t p (s - p + i) x - sm (S p) (fun j => C i j * bernstein p j z))); auto.
  - intros a b A1 A2 B1 B2. pose proof (mono_le s a ltac:(lia) ltac:(lia)). pose proof (mono_le b (s + 1) ltac:(lia) ltac:(lia)). lra.
  - intros y. rewrite (@sm_ext (S p) _ (fun k => bspline t p (s - p + k) x * psi t (s - p + k) p y + (-1) * sm (S p) (fun j => C k j * psi t (s - p + k) p y * bernstein p j z))).
    2: { intros k Hk. rewrite (@sm_ext (S p) (fun j => C k j * psi t (s - p + k) p y * bernstein p j z) (fun j => psi t (s - p + k) p y * (C k j * bernstein p j z))) by (intros; ring). rewrite sm_scal. ring. }
    rewrite sm_plus, marsden, sm_scal by auto. rewrite (sm_swap (S p) (S p)).
    rewrite (@sm_ext (S p) _ (fun j => (y - t (s + 1)%nat) ^ j * (y - t s) ^ (p - j) * bernstein p j z)).
    2: { intros j Hj. rewrite sm_scalr, HC by lia. ring. }
    rewrite bern_sum. replace ((1 - z) * (y - t s) + z * (y - t (s + 1)%nat)) with (y - x). ring.
    unfold z. field. lra.
Qed.
End Knots.
