(** Combinatorial identity behind the Grundmann-Moeller cubature. *)
From Coq Require Import Reals Lra.
From Verif Require Import Base M_nls M_lagnodes M_lagrange P_lagnodes L_lagrange.
Set Implicit Arguments.
Open Scope R_scope.

Notation rng n := (seq 0 (S n)).
(** ** Backward differences and convolution of sequences *)
Definition nab (a : nat -> R) (k : nat) : R := match k with O => a O | S j => a (S j) - a j end.
Fixpoint nabn (m : nat) (a : nat -> R) : nat -> R := match m with O => a | S m => nab (nabn m a) end.
Definition conv (a b : nat -> R) (k : nat) : R := lsum (map (fun i => a i * b (k - i)%nat) (rng k)).
Lemma nab_ext : forall a b, (forall k, a k = b k) -> forall k, nab a k = nab b k.
Proof. intros a b H [|k]; cbn; rewrite ?H; auto. Qed.
Lemma nabn_ext : forall m a b, (forall k, a k = b k) -> forall k, nabn m a k = nabn m b k.
Proof. induction m; intros a b H k; cbn; auto. apply nab_ext. auto. Qed.
Lemma nabn_nab : forall m a k, nabn m (nab a) k = nabn (S m) a k.
Proof. induction m; intros a k; auto. cbn [nabn]. apply nab_ext. intros j. rewrite IHm. auto. Qed.
Lemma nabn_plus : forall m n a k, nabn (m + n) a k = nabn m (nabn n a) k.
Proof. induction m; intros; auto. cbn [plus nabn]. apply nab_ext. intros. auto. Qed.
Lemma lsum_rev : forall (f : nat -> R) n, lsum (map f (rng n)) = lsum (map (fun i => f (n - i)%nat) (rng n)).
Proof.
  intros f n. revert f. induction n as [|n IH]; intros f; [reflexivity|].
  rewrite lsum_0S. rewrite (IH (fun i => f (S i))). rewrite (lsum_S (fun i => f (S n - i)%nat)). rewrite Nat.sub_diag. rewrite Rplus_comm. f_equal. apply lsum_ext. intros i I. apply in_seq in I. f_equal. lia.
Qed.
Lemma conv_comm : forall a b k, conv a b k = conv b a k.
Proof. intros. unfold conv. rewrite lsum_rev. apply lsum_ext. intros i I. apply in_seq in I. rewrite Rmult_comm. replace (k - (k - i))%nat with i by lia. auto. Qed.
Lemma conv_ext : forall a b c d k, (forall i, a i = b i) -> (forall i, c i = d i) -> conv a c k = conv b d k.
Proof. intros. unfold conv. apply lsum_ext. intros. rewrite H, H0. auto. Qed.
Lemma conv_nab_l : forall a b k, nab (conv a b) k = conv (nab a) b k.
Proof.
  intros a b [|k]; [reflexivity|]. cbn [nab]. unfold conv. rewrite (lsum_0S (fun i => nab a i * b (S k - i)%nat)). rewrite (lsum_0S (fun i => a i * b (S k - i)%nat)).
  rewrite (lsum_ext (fun i => nab a (S i) * b (S k - S i)%nat) (fun i => a (S i) * b (k - i)%nat + (-1) * (a i * b (k - i)%nat))) by (intros; cbn; lra).
  rewrite lsum_plus, lsum_scal. cbn [nab]. rewrite (lsum_ext (fun i => a (S i) * b (S k - S i)%nat) (fun i => a (S i) * b (k - i)%nat)) by (intros; auto). lra.
Qed.
Lemma conv_nabn : forall m n a b k, nabn (m + n) (conv a b) k = conv (nabn m a) (nabn n b) k.
Proof.
  assert (L : forall m a b k, nabn m (conv a b) k = conv (nabn m a) b k).
  { induction m; intros; auto. cbn [nabn]. rewrite <- conv_nab_l. apply nab_ext. auto. }
  intros. rewrite nabn_plus. rewrite (@nabn_ext m (nabn n (conv a b)) (conv a (nabn n b))); [apply L|].
  intros j. rewrite (@nabn_ext n (conv a b) (conv b a)) by (intros; apply conv_comm). rewrite L. apply conv_comm.
Qed.
(** Differences and partial sums *)
Lemma nab_sum : forall a s, lsum (map (nab a) (rng s)) = a s.
Proof. induction s; [cbn; lra|]. rewrite lsum_S, IHs. cbn. lra. Qed.
(** ** Sequences with a palindromic support *)
Definition pal (p : nat) (a : nat -> R) (v : R) : Prop := (forall k, (p < k)%nat -> a k = 0) /\ (forall k, (k <= p)%nat -> a (p - k)%nat = a k) /\ lsum (map a (rng p)) = v.
Definition ind (b : bool) : R := if b then 1 else 0.
Lemma ind_sum : forall n m f, (m <= n)%nat -> lsum (map (fun i => ind (i =? m)%nat * f i) (rng n)) = f m.
Proof.
  induction n as [|n IH]; intros m f L; [replace m with O by lia; cbn; lra|]. rewrite lsum_S. destruct (Nat.eq_dec m (S n)) as [->|N].
  - rewrite lsum_zero; [rewrite Nat.eqb_refl; cbn [ind]; lra|]. intros i I. apply in_seq in I. replace (i =? S n)%nat with false by (symmetry; apply Nat.eqb_neq; lia). cbn. lra.
  - rewrite IH by lia. replace (S n =? m)%nat with false by (symmetry; apply Nat.eqb_neq; lia). cbn [ind]. lra.
Qed.
Lemma lsum_extend : forall (f : nat -> R) p n, (p <= n)%nat -> (forall i, (p < i)%nat -> f i = 0) -> lsum (map f (rng n)) = lsum (map f (rng p)).
Proof. intros f p n L Z. induction n as [|n IH]; [replace p with O by lia; auto|]. destruct (Nat.eq_dec p (S n)) as [->|N]; auto. rewrite lsum_S, IH by lia. rewrite Z by lia. lra. Qed.
(** The convolution over the rectangle of the supports *)
Lemma conv_rect : forall p q a b k, (forall k, (p < k)%nat -> a k = 0) -> (forall k, (q < k)%nat -> b k = 0) ->
  conv a b k = lsum (map (fun i => lsum (map (fun j => ind (i + j =? k)%nat * (a i * b j)) (rng q))) (rng p)).
Proof.
  intros p q a b k A B. set (M := (p + k)%nat). set (N := (q + k)%nat).
  assert (E1 : lsum (map (fun i => lsum (map (fun j => ind (i + j =? k)%nat * (a i * b j)) (rng q))) (rng p)) = lsum (map (fun i => lsum (map (fun j => ind (i + j =? k)%nat * (a i * b j)) (rng N))) (rng M))).
  { rewrite (@lsum_extend (fun i => lsum (map (fun j => ind (i + j =? k)%nat * (a i * b j)) (rng N))) p M); [|lia|].
    - apply lsum_ext. intros i _. symmetry. apply lsum_extend; [lia|]. intros j J. rewrite B by auto. lra.
    - intros i I. apply lsum_zero. intros. rewrite A by auto. lra. }
  rewrite E1. unfold conv.
  rewrite (@lsum_extend (fun i => lsum (map (fun j => ind (i + j =? k)%nat * (a i * b j)) (rng N))) k M); [|lia|].
  - apply lsum_ext. intros i I. apply in_seq in I.
    rewrite (lsum_ext (fun j => ind (i + j =? k)%nat * (a i * b j)) (fun j => ind (j =? k - i)%nat * (a i * b j))).
    + symmetry. apply (@ind_sum N (k - i) (fun j => a i * b j)). lia.
    + intros j _. f_equal. f_equal. destruct (Nat.eqb_spec (i + j) k), (Nat.eqb_spec j (k - i)); auto; lia.
  - intros i I. apply lsum_zero. intros j _. replace (i + j =? k)%nat with false by (symmetry; apply Nat.eqb_neq; lia). cbn. lra.
Qed.
Lemma conv_pal : forall p q a b v w, pal p a v -> pal q b w -> pal (p + q) (conv a b) (v * w).
Proof.
  intros p q a b v w (A0 & AP & AS) (B0 & BP & BS). split; [|split].
  - intros k K. unfold conv. apply lsum_zero. intros i _. destruct (le_lt_dec i p); [|rewrite A0 by auto; lra]. rewrite (B0 (k - i)%nat) by lia. lra.
  - intros k K. rewrite !(@conv_rect p q) by auto. rewrite lsum_rev. apply lsum_ext. intros i I. apply in_seq in I. rewrite lsum_rev. apply lsum_ext. intros j J. apply in_seq in J.
    rewrite AP, BP by lia. f_equal. f_equal. destruct (Nat.eqb_spec (p - i + (q - j)) (p + q - k)), (Nat.eqb_spec (i + j) k); auto; lia.
  - rewrite (lsum_ext (conv a b) (fun k => lsum (map (fun i => lsum (map (fun j => ind (i + j =? k)%nat * (a i * b j)) (rng q))) (rng p)))) by (intros; apply conv_rect; auto).
    rewrite lsum_swap. rewrite (lsum_ext _ (fun i => w * a i)); [rewrite lsum_scal, AS; lra|]. intros i I. apply in_seq in I. rewrite lsum_swap.
    rewrite (lsum_ext _ (fun j => a i * b j)); [rewrite lsum_scal, BS; lra|]. intros j J. apply in_seq in J.
    rewrite (lsum_ext (fun k => ind (i + j =? k)%nat * (a i * b j)) (fun k => ind (k =? i + j)%nat * (a i * b j))) by (intros; rewrite Nat.eqb_sym; auto).
    apply (@ind_sum (p + q) (i + j) (fun _ => a i * b j)). lia.
Qed.
Lemma seq_add : forall m z n, seq (n + z) m = map (fun i => (n + i)%nat) (seq z m).
Proof. induction m; intros z n; cbn [seq map]; auto. f_equal. rewrite <- IHm. f_equal. lia. Qed.
Lemma seq_add0 : forall n m, seq n m = map (fun i => (n + i)%nat) (seq 0 m).
Proof. intros. rewrite <- seq_add. f_equal. lia. Qed.
Lemma pal_half : forall s a v, pal (2 * s + 1) a v -> lsum (map a (rng s)) = v / 2.
Proof.
  intros s a v (_ & P & S). replace (rng (2 * s + 1)) with (seq 0 (Datatypes.S s) ++ seq (0 + Datatypes.S s) (Datatypes.S s)) in S by (rewrite <- seq_app; f_equal; lia).
  rewrite map_app, lsum_app in S. assert (E : lsum (map a (seq (0 + Datatypes.S s) (Datatypes.S s))) = lsum (map a (rng s))).
  { change (0 + Datatypes.S s)%nat with (Datatypes.S s). rewrite seq_add0.
    rewrite map_map. rewrite (lsum_rev (fun i => a (Datatypes.S s + i)%nat)). apply lsum_ext. intros i I. apply in_seq in I. rewrite <- P by lia. f_equal. lia. }
  lra.
Qed.
(** ** The powers of the odd numbers *)
Definition odd_pow (p k : nat) : R := INR (2 * k + 1) ^ p.
Lemma nabn_odd : forall q a k, nabn q (fun k => INR (2 * k + 1) * a k) k = INR (2 * k + 1) * nabn q a k + match q, k with S q, S k => 2 * INR (S q) * nabn q a k | _, _ => 0 end.
Proof.
  induction q as [|q IH]; intros a k; [cbn; lra|]. cbn [nabn]. rewrite (@nab_ext _ _ (IH a)). destruct k as [|k]; [cbn [nab]; destruct q; cbn; lra|]. cbn [nab].
  assert (E : INR (2 * S k + 1) = INR (2 * k + 1) + 2) by (rewrite !plus_INR, !mult_INR, (S_INR k); cbn [INR]; lra). rewrite E.
  destruct q as [|q]; [cbn [nabn]; cbn [INR]; lra|]. cbn [nabn]. rewrite !(S_INR (S q)).
  destruct k as [|k]; cbn [nab]; lra.
Qed.
Lemma odd_pow_S : forall p k, odd_pow (S p) k = INR (2 * k + 1) * odd_pow p k.
Proof. reflexivity. Qed.
(** The recurrence of the differences *)
Definition eul (p : nat) : nat -> R := nabn (S p) (odd_pow p).
Lemma eul_S : forall p k, eul (S p) k = INR (2 * k + 1) * eul p k + match k with O => 0 | S j => (2 * INR p + 1 - 2 * INR j) * eul p j end.
Proof.
  intros p k. unfold eul. rewrite (@nabn_ext (S (S p)) (odd_pow (S p)) (fun k => INR (2 * k + 1) * odd_pow p k) (odd_pow_S p)). rewrite nabn_odd.
  destruct k as [|k]; [cbn [nabn nab]; lra|]. change (nabn (S (S p)) (odd_pow p) (S k)) with (nabn (S p) (odd_pow p) (S k) - nabn (S p) (odd_pow p) k).
  set (x := nabn (S p) (odd_pow p) (S k)). set (y := nabn (S p) (odd_pow p) k). rewrite (plus_INR (2 * S k)), mult_INR, !S_INR. cbn [INR]. lra.
Qed.
Lemma eul_0 : forall k, eul 0 k = match k with O => 1 | _ => 0 end.
Proof. intros [|k]; unfold eul, odd_pow; cbn; lra. Qed.
Lemma eul_pal : forall p, pal p (eul p) (2 ^ p * INR (fact p)).
Proof.
  induction p as [|p (Z & P & SU)].
  - split; [|split]; [intros k K; rewrite eul_0; destruct k; [lia|auto]|intros k K; replace k with O by lia; auto|]. cbn [seq map]. rewrite eul_0. cbn. lra.
  - split; [|split].
    + intros k K. rewrite eul_S. destruct k; [lia|]. rewrite Z by lia. destruct (Nat.eq_dec k p) as [->|]; [lia|]. rewrite Z by lia. lra.
    + intros k K. rewrite !eul_S. destruct k as [|k].
      * rewrite Nat.sub_0_r. cbn [Nat.mul plus]. rewrite Z by lia. assert (Q := P O ltac:(lia)). rewrite Nat.sub_0_r in Q. rewrite Q. cbn [INR]. lra.
      * destruct (S p - S k)%nat as [|j] eqn:E.
        -- assert (k = p) by lia. subst k. rewrite (Z (S p)) by lia. assert (Q := P O ltac:(lia)). rewrite Nat.sub_0_r in Q. rewrite Q. cbn [Nat.mul plus]. cbn [INR]. lra.
        -- assert (j = p - S k)%nat by lia. assert (k < p)%nat by lia. replace (S j) with (p - k)%nat by lia. rewrite (P k) by lia. subst j. rewrite (P (S k)) by lia.
           rewrite !plus_INR, !mult_INR, !minus_INR, !S_INR by lia. cbn [INR]. lra.
    + rewrite (lsum_ext (eul (S p)) (fun k => INR (2 * k + 1) * eul p k + match k with O => 0 | S j => (2 * INR p + 1 - 2 * INR j) * eul p j end)) by (intros; apply eul_S).
      rewrite lsum_plus. rewrite (lsum_0S (fun k => match k with O => 0 | S j => (2 * INR p + 1 - 2 * INR j) * eul p j end)). rewrite lsum_S, (Z (S p)) by lia.
      assert (T : lsum (map (fun k => INR (2 * k + 1) * eul p k) (rng p)) + lsum (map (fun i => (2 * INR p + 1 - 2 * INR i) * eul p i) (rng p)) = (2 * INR p + 2) * (2 ^ p * INR (fact p))).
      { rewrite <- lsum_plus, <- SU, <- lsum_scal. apply lsum_ext. intros k _. rewrite plus_INR, mult_INR. cbn [INR]. lra. }
      rewrite Rmult_0_r, Rplus_0_r, Rplus_0_l. rewrite T. rewrite fact_simpl, mult_INR, S_INR. cbn [pow]. lra.
Qed.
(** ** Sums over the compositions *)
Definition mono (b : list R) (al : list nat) : R := lprod (map (fun p => fst p ^ snd p) (combine b al)).
Definition odds (b : list nat) : list R := map (fun b => INR (2 * b + 1)) b.
Definition fsum (al : list nat) (k : nat) : R := lsum (map (fun b => mono (odds b) al) (comps (length al) k)).
Lemma fsum_cons : forall a al k, fsum (a :: al) k = conv (odd_pow a) (fsum al) k.
Proof.
  intros. unfold fsum, conv. cbn [length comps]. rewrite lsum_flat. apply lsum_ext. intros i _. rewrite map_map. rewrite <- lsum_scal. apply lsum_ext. intros b _. reflexivity.
Qed.
Definition lfact (al : list nat) : R := lprod (map (fun a => INR (fact a)) al).
Lemma fsum_pal : forall al, pal (list_sum al) (nabn (list_sum al + length al) (fsum al)) (2 ^ list_sum al * lfact al).
Proof.
  induction al as [|a al IH].
  - unfold lfact. cbn [list_sum fold_right length nabn plus map lprod pow]. split; [|split].
    + intros k K. unfold fsum. cbn. destruct k; [lia|]. cbn. auto.
    + intros k K. replace k with O by lia. auto.
    + unfold fsum. cbn. unfold mono. cbn. lra.
  - destruct (conv_pal (eul_pal a) IH) as (Z & P & S).
    assert (E : forall k, nabn (list_sum (a :: al) + length (a :: al)) (fsum (a :: al)) k = conv (eul a) (nabn (list_sum al + length al) (fsum al)) k).
    { intros k. unfold eul. rewrite <- conv_nabn. replace (list_sum (a :: al) + length (a :: al))%nat with (Datatypes.S a + (list_sum al + length al))%nat by (change (list_sum (a :: al)) with (a + list_sum al)%nat; change (length (a :: al)) with (Datatypes.S (length al)); lia). apply nabn_ext. apply fsum_cons. }
    change (list_sum (a :: al)) with (a + list_sum al)%nat in *. split; [|split].
    + intros k K. rewrite E. apply Z. auto.
    + intros k K. rewrite !E. apply P. auto.
    + rewrite (lsum_ext _ (conv (eul a) (nabn (list_sum al + length al) (fsum al)))) by (intros; apply E). rewrite S. unfold lfact. cbn [map]. rewrite lprod_cons, pow_add. lra.
Qed.
(** Repeated differences as alternating sums *)
Fixpoint bin (m i : nat) : R := match m, i with _, O => 1 | O, S _ => 0 | S m, S i => bin m (S i) + bin m i end.
Lemma bin_0 : forall m, bin m 0 = 1. Proof. destruct m; auto. Qed.
Lemma bin_gt : forall m i, (m < i)%nat -> bin m i = 0.
Proof. induction m as [|m IH]; intros [|i] L; cbn [bin]; try lia; auto. rewrite !IH by lia. lra. Qed.
Lemma bin_fact : forall m i, (i <= m)%nat -> bin m i * (INR (fact i) * INR (fact (m - i))) = INR (fact m).
Proof.
  induction m as [|m IH]; intros i L; [replace i with O by lia; cbn; lra|]. destruct i as [|i]; [rewrite bin_0, Nat.sub_0_r; cbn [fact INR]; lra|]. cbn [bin Nat.sub].
  destruct (Nat.eq_dec i m) as [->|N].
  - rewrite Nat.sub_diag. replace (bin m (S m)) with 0. 2:{ rewrite bin_gt by lia. auto. }
    assert (Q := IH m (le_n m)). rewrite Nat.sub_diag in Q. rewrite !fact_simpl, !mult_INR. rewrite <- Q at 2. cbn [fact INR]. cbn [fact INR] in Q. nra.
  - assert (Q1 := IH i ltac:(lia)). assert (Q2 := IH (S i) ltac:(lia)). replace (m - i)%nat with (S (m - S i)) in * by lia.
    rewrite (fact_simpl m), mult_INR. rewrite (fact_simpl (m - S i)), (fact_simpl i), !mult_INR in *.
    replace (INR (S m)) with (INR (S i) + INR (S (m - S i))) by (rewrite <- plus_INR; f_equal; lia).
    set (x := INR (fact i)) in *. set (y := INR (fact (m - S i))) in *. set (u := INR (S i)) in *. set (v := INR (S (m - S i))) in *. set (f := INR (fact m)) in *.
    replace (bin m (S i) + bin m i) with (bin m (S i) + bin m i) by auto.
    transitivity (v * (bin m (S i) * (u * x * y)) + u * (bin m i * (x * (v * y)))); [ring|]. rewrite Q1, Q2. ring.
Qed.
Lemma nabn_sum : forall m a s, nabn m a s = lsum (map (fun i => (-1) ^ i * bin m i * a (s - i)%nat) (rng s)).
Proof.
  induction m as [|m IH]; intros a s.
  - rewrite lsum_0S. cbn [nabn pow]. rewrite bin_0, Nat.sub_0_r. rewrite lsum_zero; [lra|]. intros. cbn [bin]. lra.
  - cbn [nabn]. rewrite (@nab_ext _ _ (IH a)). destruct s as [|s]; [cbn; rewrite !bin_0; lra|]. cbn [nab].
    rewrite (lsum_0S (fun i => (-1) ^ i * bin m i * a (S s - i)%nat)). rewrite (lsum_0S (fun i => (-1) ^ i * bin (S m) i * a (S s - i)%nat)). rewrite !bin_0.
    rewrite (lsum_ext (fun i => (-1) ^ S i * bin (S m) (S i) * a (S s - S i)%nat) (fun i => (-1) ^ S i * bin m (S i) * a (S s - S i)%nat + (-1) * ((-1) ^ i * bin m i * a (s - i)%nat))).
    + rewrite lsum_plus, lsum_scal. lra.
    + intros i _. cbn [bin pow Nat.sub]. lra.
Qed.
(** The identity *)
Theorem gm_identity : forall s al, list_sum al = (2 * s + 1)%nat -> al <> [] ->
  lsum (map (fun i => (-1) ^ i * bin (2 * s + 1 + (length al - 1)) i * fsum al (s - i)%nat) (rng s)) = 2 ^ (2 * s) * lfact al.
Proof.
  intros s al E NE. rewrite <- nabn_sum. set (m := (2 * s + 1 + (length al - 1))%nat).
  assert (P := fsum_pal al). replace (list_sum al + length al)%nat with (S m) in P by (unfold m; destruct al; [congruence|cbn [length] in *; lia]). rewrite E in P.
  rewrite <- (nab_sum (nabn m (fsum al))). change (nab (nabn m (fsum al))) with (nabn (S m) (fsum al)). rewrite (pal_half s P). rewrite pow_add. lra.
Qed.
