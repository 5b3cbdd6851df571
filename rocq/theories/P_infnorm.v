(** Theorem C212: the infinity norm of a CSR matrix (exact real arithmetic). *)
From Coq Require Import Reals Lra.
From Verif Require Import Base BaseSum S_assemble M_sparse2.
Open Scope nat_scope.

Lemma Rsr : semi_ring_theory 0%R 1%R Rplus Rmult eq.
Proof. constructor; intros; ring. Qed.

Definition rsum (l : list R) : R := lsum 0%R Rplus l.
(** Dense entry (i, j) of the CSR matrix (duplicates are summed). *)
Definition entry (prows cols : list nat) (data : list R) (i j : nat) : R := csr_entry 0%R Rplus prows cols data i j.
(** The items stored in row [i]. *)
Definition row_items (prows : list nat) (i : nat) : list nat := seq (nth i prows 0) (nth (S i) prows 0 - nth i prows 0).

Lemma rsum_abs : forall A (f : A -> R) l, (Rabs (rsum (map f l)) <= rsum (map (fun x => Rabs (f x)) l))%R.
Proof.
  unfold rsum. induction l; simpl; [rewrite Rabs_R0; lra|].
  eapply Rle_trans; [apply Rabs_triang|]. lra.
Qed.
Lemma rsum_le : forall A (f g : A -> R) l, (forall x, In x l -> (f x <= g x)%R) -> (rsum (map f l) <= rsum (map g l))%R.
Proof.
  unfold rsum. induction l; simpl; intros H; [lra|]. assert (f a <= g a)%R by auto.
  specialize (IHl ltac:(auto)). lra.
Qed.
Lemma fold_sum : forall (f : nat -> R) l s, fold_left (fun s x => (s + f x * 1)%R) l s = (s + rsum (map f l))%R.
Proof. unfold rsum. induction l; simpl; intros s; [ring|]. rewrite IHl. simpl. ring. Qed.
Lemma abs_row_sum_eq : forall prows data i,
  abs_row_sum prows data i = rsum (map (fun ik => Rabs (nth ik data 0%R)) (row_items prows i)).
Proof. intros. unfold abs_row_sum. rewrite (fold_sum (fun ik => Rabs (nth ik data 0%R))). unfold row_items. ring. Qed.

Lemma fold_max : forall l x, let m := fold_left Rmax l x in
  (x <= m)%R /\ (forall y, In y l -> (y <= m)%R) /\ (m = x \/ In m l).
Proof.
  induction l as [|a l IH]; simpl; intros x.
  - split; [lra|]. split; [tauto|auto].
  - destruct (IH (Rmax x a)) as (H1 & H2 & H3). assert (M1 := Rmax_l x a). assert (M2 := Rmax_r x a).
    split; [lra|]. split.
    + intros y [<-|Hy]; [lra|auto].
    + destruct H3 as [H3|H3]; [|auto]. rewrite H3. unfold Rmax. destruct (Rle_dec x a); auto.
Qed.

(** The maximum of the absolute row sums of the stored items; a value for
    every matrix with at least one row. *)
Theorem C212_max : forall n prows data, 
  (infinity_norm n prows data = None <-> n = 0) /\
  forall m, infinity_norm n prows data = Some m ->
    (forall i, i < n -> (rsum (map (fun ik => Rabs (nth ik data 0%R)) (row_items prows i)) <= m)%R) /\
    exists i, i < n /\ rsum (map (fun ik => Rabs (nth ik data 0%R)) (row_items prows i)) = m.
Proof.
  intros n prows data. unfold infinity_norm. split.
  - destruct n; simpl; split; auto; discriminate.
  - intros m. destruct n; [discriminate|]. simpl seq. cbn [map]. intros [= <-].
    destruct (fold_max (map (abs_row_sum prows data) (seq 1 n)) (abs_row_sum prows data 0)) as (H1 & H2 & H3).
    split.
    + intros i Hi. rewrite <- abs_row_sum_eq. destruct i; auto. apply H2. apply in_map. apply in_seq. lia.
    + destruct H3 as [H3|H3].
      * exists 0. split; [lia|]. rewrite <- abs_row_sum_eq; auto.
      * apply in_map_iff in H3. destruct H3 as [i [H3 Hi]]. apply in_seq in Hi. exists i. split; [lia|].
        rewrite <- abs_row_sum_eq; auto.
Qed.

(** Absolute row sums of the dense matrix. *)
Lemma dense_le : forall n_col prows cols data i,
  (rsum (map (fun j => Rabs (entry prows cols data i j)) (seq 0 n_col)) <=
   rsum (map (fun ik => Rabs (nth ik data 0%R)) (row_items prows i)))%R.
Proof.
  intros. unfold entry, csr_entry. fold (row_items prows i).
  eapply Rle_trans.
  { apply rsum_le. intros j _. apply rsum_abs with (f := fun ik => ind 0%R (Nat.eqb (nth ik cols 0) j) (nth ik data 0%R)). }
  unfold rsum. rewrite (lsum_swap _ _ _ _ _ Rsr). apply rsum_le. intros ik _.
  destruct (le_lt_dec n_col (nth ik cols 0)) as [L|L].
  - rewrite (lsum_zero _ _ _ _ _ Rsr); [apply Rabs_pos|]. intros j Hj. apply in_seq in Hj.
    destruct (Nat.eqb_spec (nth ik cols 0) j); [lia|]. simpl. apply Rabs_R0.
  - rewrite (lsum_single _ _ _ _ _ Rsr) with (x := nth ik cols 0).
    + rewrite Nat.eqb_refl. simpl. lra.
    + apply seq_NoDup.
    + apply in_seq; lia.
    + intros j _ N. destruct (Nat.eqb_spec (nth ik cols 0) j); [congruence|]. simpl. apply Rabs_R0.
Qed.

Lemma dense_eq : forall n_col prows cols data i,
  (forall ik, In ik (row_items prows i) -> nth ik cols 0 < n_col) ->
  (forall a b, In a (row_items prows i) -> In b (row_items prows i) -> nth a cols 0 = nth b cols 0 -> a = b) ->
  rsum (map (fun j => Rabs (entry prows cols data i j)) (seq 0 n_col)) =
  rsum (map (fun ik => Rabs (nth ik data 0%R)) (row_items prows i)).
Proof.
  intros n_col prows cols data i Hc Hu.
  transitivity (rsum (map (fun j => rsum (map (fun ik => ind 0%R (Nat.eqb (nth ik cols 0) j) (Rabs (nth ik data 0%R)))
                                              (row_items prows i))) (seq 0 n_col))).
  - unfold rsum at 1 3. apply lsum_ext. intros j _. unfold entry, csr_entry. fold (row_items prows i).
    destruct (existsb (fun ik => nth ik cols 0 =? j) (row_items prows i)) eqn:E.
    + apply existsb_exists in E. destruct E as [ik [E1 E2]]. apply Nat.eqb_eq in E2. unfold rsum.
      rewrite !(lsum_single _ _ _ _ _ Rsr) with (x := ik); auto.
      * rewrite E2, Nat.eqb_refl. reflexivity.
      * apply seq_NoDup.
      * intros y Hy N. destruct (Nat.eqb_spec (nth y cols 0) j); auto. exfalso. apply N. apply Hu; auto; congruence.
      * apply seq_NoDup.
      * intros y Hy N. destruct (Nat.eqb_spec (nth y cols 0) j); auto. exfalso. apply N. apply Hu; auto; congruence.
    + assert (Z : forall ik, In ik (row_items prows i) -> Nat.eqb (nth ik cols 0) j = false).
      { intros ik Hik. destruct (Nat.eqb (nth ik cols 0) j) eqn:Q; auto.
        rewrite <- E. symmetry. apply existsb_exists. eauto. }
      unfold rsum. rewrite !(lsum_zero _ _ _ _ _ Rsr); [apply Rabs_R0| |]; intros y Hy; rewrite Z; auto.
  - unfold rsum. rewrite (lsum_swap _ _ _ _ _ Rsr). apply lsum_ext. intros ik Hik.
    rewrite (lsum_single _ _ _ _ _ Rsr) with (x := nth ik cols 0).
    + rewrite Nat.eqb_refl. auto.
    + apply seq_NoDup.
    + apply in_seq. specialize (Hc _ Hik). lia.
    + intros j _ N. destruct (Nat.eqb_spec (nth ik cols 0) j); [congruence|]. auto.
Qed.

(** For a canonical CSR matrix (no duplicate items) it is the maximum of the
    absolute row sums of the dense matrix. *)
Theorem C212_dense : forall n n_col prows cols data m, wf_csr n prows cols -> sorted_csr n prows cols ->
  (forall c, In c cols -> c < n_col) ->
  infinity_norm n prows data = Some m ->
  (forall i, i < n -> (rsum (map (fun j => Rabs (entry prows cols data i j)) (seq 0 n_col)) <= m)%R) /\
  exists i, i < n /\ rsum (map (fun j => Rabs (entry prows cols data i j)) (seq 0 n_col)) = m.
Proof.
  intros n n_col prows cols data m (W1 & W2 & W3) Srt Hc H.
  destruct (C212_max n prows data) as [_ C]. destruct (C m H) as [C1 C2].
  assert (E : forall i, i < n -> rsum (map (fun j => Rabs (entry prows cols data i j)) (seq 0 n_col)) =
     rsum (map (fun ik => Rabs (nth ik data 0%R)) (row_items prows i))).
  { intros i Hi. assert (nth i prows 0 <= nth (S i) prows 0) by (apply W2; lia).
    assert (nth (S i) prows 0 <= nth n prows 0) by (apply W2; lia).
    apply dense_eq.
    - intros ik Hik. apply in_seq in Hik. apply Hc, nth_In. lia.
    - intros a b Ha Hb Q. apply in_seq in Ha, Hb. destruct (Nat.lt_total a b) as [L|[L|L]]; auto; exfalso.
      + assert (X := Srt i a b Hi ltac:(lia) L ltac:(lia)). lia.
      + assert (X := Srt i b a Hi ltac:(lia) L ltac:(lia)). lia. }
  split.
  - intros i Hi. rewrite E; auto.
  - destruct C2 as [i [Hi C2]]. exists i. rewrite E; auto.
Qed.

Lemma max_entry : forall n (x : nat -> R), 0 < n -> exists p, p < n /\ forall j, j < n -> (Rabs (x j) <= Rabs (x p))%R.
Proof.
  induction n as [|n IH]; intros x Hn; [lia|]. destruct n as [|n].
  - exists 0. split; auto. intros j Hj. replace j with 0 by lia. lra.
  - destruct (IH x ltac:(lia)) as [p [Hp H]]. destruct (Rle_lt_dec (Rabs (x (S n))) (Rabs (x p))).
    + exists p. split; [lia|]. intros j Hj. destruct (Nat.eq_dec j (S n)) as [->|]; auto. apply H; lia.
    + exists (S n). split; [lia|]. intros j Hj. destruct (Nat.eq_dec j (S n)) as [->|]; [lra|].
      specialize (H j ltac:(lia)). lra.
Qed.

(** The documented bound: no eigenvalue of a square matrix is larger in
    absolute value; duplicate and unsorted items are allowed. *)
Theorem C212_spectral : forall n prows cols data m (lam : R) (x : nat -> R),
  infinity_norm n prows data = Some m ->
  (exists k, k < n /\ x k <> 0%R) ->
  (forall i, i < n -> rsum (map (fun j => (entry prows cols data i j * x j)%R) (seq 0 n)) = (lam * x i)%R) ->
  (Rabs lam <= m)%R.
Proof.
  intros n prows cols data m lam x H [k [Hk Hx]] He.
  destruct (C212_max n prows data) as [_ C]. destruct (C m H) as [C1 _]. clear C.
  destruct (max_entry n x ltac:(lia)) as [p [Hp Hm]].
  assert (P : (0 < Rabs (x p))%R).
  { specialize (Hm k Hk). assert (0 < Rabs (x k))%R by (apply Rabs_pos_lt; auto). lra. }
  apply (Rmult_le_reg_r (Rabs (x p))); auto. rewrite <- Rabs_mult, <- (He p Hp).
  eapply Rle_trans; [apply rsum_abs|].
  eapply Rle_trans with (rsum (map (fun j => (Rabs (entry prows cols data p j) * Rabs (x p))%R) (seq 0 n))).
  - apply rsum_le. intros j Hj. apply in_seq in Hj. rewrite Rabs_mult.
    apply Rmult_le_compat_l; [apply Rabs_pos|]. apply Hm; lia.
  - unfold rsum. rewrite <- (lsum_mulr _ _ _ _ _ Rsr) with (f := fun j => Rabs (entry prows cols data p j)).
    apply Rmult_le_compat_r; [lra|]. eapply Rle_trans; [apply dense_le|]. apply C1; auto.
Qed.

Example C212_ex : infinity_norm 2 [0; 2; 3] [1; -3; 2]%R = Some 4%R /\
  (forall i, i < 2 -> rsum (map (fun j => (entry [0; 2; 3]%nat [0; 1; 1]%nat [1; -3; 2]%R i j * nth j [-3; 1]%R 0)%R) (seq 0 2))
     = (2 * nth i [-3; 1]%R 0)%R).
Proof.
  split.
  - unfold infinity_norm, abs_row_sum. simpl. f_equal. rewrite (Rabs_left (-3)), !Rabs_right by lra.
    unfold Rmax. destruct Rle_dec; lra.
  - intros [|[|]] Hi; [| |lia]; unfold rsum, entry, csr_entry; simpl; ring.
Qed.
