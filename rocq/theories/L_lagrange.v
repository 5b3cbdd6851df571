(** Lemmas for the Lagrange basis: sums, products and binomial coefficients of reals. *)
From Coq Require Import Reals Lra.
From Verif Require Import Base M_nls M_lagnodes M_lagrange P_lagnodes.
Set Implicit Arguments.
Open Scope R_scope.

Definition lsum (l : list R) : R := fold_right Rplus 0 l.
Definition lprod (l : list R) : R := fold_right Rmult 1 l.
Lemma lsum_app : forall a b, lsum (a ++ b) = lsum a + lsum b.
Proof. unfold lsum. induction a as [|x a IH]; intros b; cbn [app fold_right]; [lra|]. rewrite IH. lra. Qed.
Lemma lprod_app : forall a b, lprod (a ++ b) = lprod a * lprod b.
Proof. unfold lprod. induction a as [|x a IH]; intros b; cbn [app fold_right]; [lra|]. rewrite IH. lra. Qed.
Lemma lsum_cons : forall a l, lsum (a :: l) = a + lsum l. Proof. reflexivity. Qed.
Lemma lprod_cons : forall a l, lprod (a :: l) = a * lprod l. Proof. reflexivity. Qed.
Lemma lsum_ext : forall A (f g : A -> R) l, (forall x, In x l -> f x = g x) -> lsum (map f l) = lsum (map g l).
Proof. intros A f g l H. f_equal. apply map_ext_in. auto. Qed.
Lemma lsum_plus : forall A (f g : A -> R) l, lsum (map (fun x => f x + g x) l) = lsum (map f l) + lsum (map g l).
Proof. intros A f g l. induction l; cbn [map]; [cbn; lra|]. rewrite !lsum_cons, IHl. lra. Qed.
Lemma lsum_scal : forall A c (f : A -> R) l, lsum (map (fun x => c * f x) l) = c * lsum (map f l).
Proof. intros A c f l. induction l; cbn [map]; [cbn; lra|]. rewrite !lsum_cons, IHl. lra. Qed.
Lemma lsum_zero : forall A (f : A -> R) l, (forall x, In x l -> f x = 0) -> lsum (map f l) = 0.
Proof. intros A f l H. induction l; cbn [map]; [reflexivity|]. rewrite lsum_cons, H by (left; auto). rewrite IHl by (intros; apply H; right; auto). lra. Qed.
Lemma lsum_swap : forall A B (f : A -> B -> R) l m, lsum (map (fun x => lsum (map (f x) m)) l) = lsum (map (fun y => lsum (map (fun x => f x y) l)) m).
Proof.
  intros A B f l m. induction l as [|a l IH]; cbn [map].
  - symmetry. apply lsum_zero. auto.
  - rewrite lsum_cons, IH, <- lsum_plus. apply lsum_ext. intros. rewrite lsum_cons. auto.
Qed.
Lemma lsum_flat : forall A B (f : A -> list B) (g : B -> R) l, lsum (map g (flat_map f l)) = lsum (map (fun x => lsum (map g (f x))) l).
Proof. intros A B f g l. induction l; cbn [flat_map map]; auto. rewrite map_app, lsum_app, IHl. auto. Qed.
Lemma lsum_perm : forall a b, Permutation.Permutation a b -> lsum a = lsum b.
Proof. intros a b P. induction P; rewrite ?lsum_cons; try lra; reflexivity. Qed.
Lemma lsum_S : forall (f : nat -> R) n, lsum (map f (seq 0 (S n))) = lsum (map f (seq 0 n)) + f n.
Proof. intros. rewrite seq_S, map_app, lsum_app. cbn. lra. Qed.
Lemma lsum_0S : forall (f : nat -> R) n, lsum (map f (seq 0 (S n))) = f 0%nat + lsum (map (fun i => f (S i)) (seq 0 n)).
Proof. intros. cbn [seq map]. rewrite lsum_cons, <- seq_shift, map_map. auto. Qed.
Lemma lprod_S : forall (f : nat -> R) n, lprod (map f (seq 0 (S n))) = lprod (map f (seq 0 n)) * f n.
Proof. intros. rewrite seq_S, map_app, lprod_app. cbn. lra. Qed.
Lemma lprod_0S : forall (f : nat -> R) n, lprod (map f (seq 0 (S n))) = f 0%nat * lprod (map (fun i => f (S i)) (seq 0 n)).
Proof. intros. cbn [seq map]. rewrite lprod_cons, <- seq_shift, map_map. auto. Qed.
(** From the loops *)
Lemma fold_plus : forall A (f : A -> R) l v, fold_left (fun v i => v + f i) l v = v + lsum (map f l).
Proof. intros A f l. induction l; intros v; cbn [fold_left map]; [cbn; lra|]. rewrite IHl, lsum_cons. lra. Qed.
Lemma fold_mult : forall A (f : A -> R) l v, fold_left (fun v i => v * f i) l v = v * lprod (map f l).
Proof. intros A f l. induction l; intros v; cbn [fold_left map]; [cbn; lra|]. rewrite IHl, lprod_cons. lra. Qed.
Lemma sumf_eq : forall f n, sumf f n = lsum (map f (seq 0 n)).
Proof. intros. unfold sumf. rewrite fold_plus. lra. Qed.

(** ** Binomial coefficients *)
Definition fct (x : R) (i : nat) : R := (x - INR i) / (INR i + 1).
Fixpoint cb (x : R) (a : nat) : R := match a with O => 1 | S a => cb x a * fct x a end.
Lemma INR1 : forall n, INR n + 1 <> 0.
Proof. intros. assert (H := pos_INR n). lra. Qed.
Lemma cb_prod : forall x a, cb x a = lprod (map (fct x) (seq 0 a)).
Proof. induction a; [reflexivity|]. rewrite lprod_S. cbn [cb]. rewrite IHa. auto. Qed.
Lemma factors_eq : forall o b n p, factors o b n p = p * cb (INR o * b) n.
Proof. intros. unfold factors. rewrite cb_prod. rewrite (fold_mult (fct (INR o * b))). auto. Qed.
Lemma cb_step : forall x a, (INR a + 1) * cb x (S a) = (x - INR a) * cb x a.
Proof. intros. cbn [cb]. unfold fct. field. apply INR1. Qed.
(** Vandermonde *)
Lemma vandermonde : forall x y n, lsum (map (fun i => cb x i * cb y (n - i)) (seq 0 (S n))) = cb (x + y) n.
Proof.
  intros x y n. induction n as [|n IH]; [cbn; lra|].
  apply (Rmult_eq_reg_l (INR n + 1)); [|apply INR1]. rewrite cb_step, <- IH. clear IH.
  rewrite <- !lsum_scal.
  transitivity (lsum (map (fun i => INR i * cb x i * cb y (S n - i)) (seq 0 (S (S n)))) + lsum (map (fun i => INR (S n - i) * cb x i * cb y (S n - i)) (seq 0 (S (S n))))).
  { rewrite <- lsum_plus. apply lsum_ext. intros i I. apply in_seq in I. rewrite minus_INR by lia. rewrite S_INR. lra. }
  rewrite (lsum_0S (fun i => INR i * cb x i * cb y (S n - i))), (lsum_S (fun i => INR (S n - i) * cb x i * cb y (S n - i))). rewrite Nat.sub_diag. change (INR 0) with 0.
  transitivity (lsum (map (fun i => INR (S i) * cb x (S i) * cb y (S n - S i)) (seq 0 (S n))) + lsum (map (fun i => INR (S n - i) * cb x i * cb y (S n - i)) (seq 0 (S n)))); [lra|].
  rewrite <- lsum_plus. apply lsum_ext. intros i I. apply in_seq in I. rewrite !S_INR. replace (S n - S i)%nat with (n - i)%nat by lia. replace (S n - i)%nat with (S (n - i)) by lia.
  rewrite cb_step. assert (E : INR (S (n - i)) * cb x i * cb y (S (n - i)) = cb x i * ((y - INR (n - i)) * cb y (n - i))) by (rewrite <- cb_step, S_INR; lra). rewrite E. rewrite minus_INR by lia. lra.
Qed.
Lemma cb_nat_lt : forall n m, (n < m)%nat -> cb (INR n) m = 0.
Proof.
  intros n m. induction m as [|m IH]; intros L; [lia|]. cbn [cb]. destruct (Nat.eq_dec n m) as [->|N].
  - unfold fct. unfold Rdiv. rewrite Rminus_diag_eq by auto. lra.
  - rewrite IH by lia. lra.
Qed.
(** C(n, n - k) for naturals is not needed; the trinomial revision: *)
Lemma cb_split : forall x m i, cb x (m + i) = cb x m * lprod (map (fun j => (x - INR m - INR j) / (INR m + INR j + 1)) (seq 0 i)).
Proof.
  intros x m i. induction i as [|i IH]; [rewrite Nat.add_0_r; cbn; lra|]. rewrite Nat.add_succ_r. cbn [cb]. rewrite IH, lprod_S. unfold fct. rewrite plus_INR. rewrite Rmult_assoc. do 2 f_equal. f_equal; lra.
Qed.
Lemma cb_diag : forall n, cb (INR n) n = 1.
Proof.
  intros n. induction n as [|n IH]; [reflexivity|].
  assert (V : forall k, cb (INR (S k)) (S k) = cb (INR k) (S k) + cb (INR k) k).
  { intros k. rewrite S_INR, <- (vandermonde (INR k) 1 (S k)). rewrite lsum_S, lsum_S. rewrite Nat.sub_diag. replace (S k - k)%nat with 1%nat by lia. cbn [cb]. unfold fct. cbn [INR].
    rewrite lsum_zero; [cbn [cb]; lra|]. intros i I. apply in_seq in I. replace (S k - i)%nat with (S (S (k - i - 1))) by lia.
    assert (Z : forall j, cb 1 (S (S j)) = 0). { intros j. change 1 with (INR 1). apply cb_nat_lt. lia. } rewrite Z. lra. }
  rewrite V, IH, cb_nat_lt by lia. lra.
Qed.
(** C(x, m + i) C(m + i, m) = C(x, m) C(x - m, i) *)
Lemma cb_rev : forall x m i, cb x (m + i) * cb (INR (m + i)) m = cb x m * cb (x - INR m) i.
Proof.
  intros x m i. induction i as [|i IH]; [rewrite Nat.add_0_r, cb_diag; cbn; lra|].
  apply (Rmult_eq_reg_l (INR i + 1)); [|apply INR1].
  transitivity (cb x m * ((INR i + 1) * cb (x - INR m) (S i))); [|lra]. rewrite cb_step.
  transitivity ((x - INR m - INR i) * (cb x (m + i) * cb (INR (m + i)) m)); [|rewrite IH; lra].
  replace (m + S i)%nat with (S (m + i)) by lia. 
  assert (P : (INR i + 1) * cb (INR (S (m + i))) m = (INR (m + i) + 1) * cb (INR (m + i)) m).
  { clear IH. rewrite S_INR, plus_INR. generalize (INR i). intros r. induction m as [|m IHm]; [cbn; lra|].
    apply (Rmult_eq_reg_l (INR m + 1)); [|apply INR1].
    transitivity ((r + 1) * ((INR m + 1) * cb (INR (S m) + r + 1) (S m))); [lra|]. rewrite cb_step.
    transitivity ((INR (S m) + r + 1) * ((INR m + 1) * cb (INR (S m) + r) (S m))); [|lra]. rewrite cb_step.
    rewrite S_INR.
    assert (Q : forall y k, (y - INR k + 1) * cb (y + 1) k = (y + 1) * cb y k).
    { intros y k. induction k as [|k IHk]; [cbn; lra|]. apply (Rmult_eq_reg_l (INR k + 1)); [|apply INR1]. rewrite S_INR.
      transitivity ((y - (INR k + 1) + 1) * ((INR k + 1) * cb (y + 1) (S k))); [lra|]. rewrite cb_step. transitivity ((y + 1) * ((INR k + 1) * cb y (S k))); [|lra]. rewrite cb_step.
      transitivity ((y - INR k) * ((y - INR k + 1) * cb (y + 1) k)); [lra|]. rewrite IHk. lra. }
    specialize (Q (INR m + 1 + r) m). transitivity ((INR m + 1 + r - INR m) * ((INR m + 1 + r - INR m + 1) * cb (INR m + 1 + r + 1) m) ); [lra|]. rewrite Q. lra. }
  transitivity ((INR i + 1) * cb (INR (S (m + i))) m * cb x (S (m + i))); [lra|]. rewrite P.
  transitivity (((INR (m + i) + 1) * cb x (S (m + i))) * cb (INR (m + i)) m); [lra|]. rewrite cb_step. rewrite plus_INR. lra.
Qed.
(** ** Products over coordinates *)
Fixpoint pcb (ys : list R) (a : list nat) : R := match ys, a with y :: ys, n :: a => cb y n * pcb ys a | _, _ => 1 end.
Lemma multi_sum : forall ys n, lsum (map (pcb ys) (comps (length ys) n)) = cb (lsum ys) n.
Proof.
  induction ys as [|y ys IH]; intros n.
  - cbn [length comps]. destruct n; cbn; [lra|]. cbn. replace (lsum []) with (INR 0) by reflexivity. rewrite <- (cb_nat_lt (n := 0) (m := S n)) at 1 by lia. reflexivity.
  - cbn [length comps]. rewrite lsum_flat. rewrite lsum_cons, <- vandermonde. apply lsum_ext. intros i I. rewrite map_map. cbn [pcb]. rewrite lsum_scal, IH. auto.
Qed.
(** Reproduction of the products of binomials *)
Fixpoint shifted (ys : list R) (m : list nat) : list R := match ys, m with y :: ys, n :: m => (y - INR n) :: shifted ys m | _, _ => [] end.
Lemma seq_split_sum : forall (f : nat -> R) a b, lsum (map f (seq 0 (a + b))) = lsum (map f (seq 0 a)) + lsum (map (fun i => f (a + i)%nat) (seq 0 b)).
Proof.
  intros f a b. rewrite seq_app, map_app, lsum_app. f_equal. cbn [plus]. f_equal. revert a. induction b as [|b IH]; intros a; auto. rewrite !seq_S, !map_app, IH. auto.
Qed.
Lemma multi_rep : forall ys m n, length m = length ys ->
  lsum (map (fun a => pcb (map INR a) m * pcb ys a) (comps (length ys) n)) =
  if (list_sum m <=? n)%nat then pcb ys m * cb (lsum (shifted ys m)) (n - list_sum m) else 0.
Proof.
  induction ys as [|y ys IH]; intros m n L.
  - destruct m; [|discriminate]. cbn [length comps list_sum fold_right]. cbn [Nat.leb]. rewrite Nat.sub_0_r. destruct n; [cbn; lra|]. cbn [Nat.eqb map]. cbn [pcb shifted]. change (lsum []) with (INR 0). rewrite cb_nat_lt by lia. change (INR 0) with 0. lra.
  - destruct m as [|m0 m]; [discriminate|]. cbn in L. injection L as L. cbn [length comps]. rewrite lsum_flat. change (list_sum (m0 :: m)) with (m0 + list_sum m)%nat.
    assert (E : forall i, lsum (map (fun a => pcb (map INR a) (m0 :: m) * pcb (y :: ys) a) (map (cons i) (comps (length ys) (n - i)))) =
                cb (INR i) m0 * cb y i * (if (list_sum m <=? n - i)%nat then pcb ys m * cb (lsum (shifted ys m)) (n - i - list_sum m) else 0)).
    { intros i. rewrite map_map. cbn [map pcb]. rewrite <- (IH m (n - i)%nat L), <- lsum_scal. apply lsum_ext. intros. lra. }
    rewrite (lsum_ext _ _ _ (fun i _ => E i)).
    destruct (Nat.leb_spec (m0 + list_sum m) n) as [Le|Gt].
    + set (s := list_sum m) in *. replace (S n) with (m0 + (S (n - m0 - s) + s))%nat by lia. rewrite seq_split_sum.
      rewrite lsum_zero by (intros i I; apply in_seq in I; rewrite cb_nat_lt by lia; lra). rewrite seq_split_sum.
      rewrite (lsum_zero _ (seq 0 s)) by (intros i I; apply in_seq in I; replace (s <=? n - (m0 + (S (n - m0 - s) + i)))%nat with false by (symmetry; apply Nat.leb_gt; lia); lra).
      cbn [pcb shifted]. rewrite lsum_cons, <- vandermonde. replace (n - (m0 + s))%nat with (n - m0 - s)%nat by lia.
      rewrite <- lsum_scal. rewrite Rplus_0_l, Rplus_0_r. apply lsum_ext. intros i I. apply in_seq in I.
      replace (s <=? n - (m0 + i))%nat with true by (symmetry; apply Nat.leb_le; lia). replace (n - (m0 + i) - s)%nat with (n - m0 - s - i)%nat by lia.
      transitivity ((cb y (m0 + i) * cb (INR (m0 + i)) m0) * (pcb ys m * cb (lsum (shifted ys m)) (n - m0 - s - i))); [lra|]. rewrite cb_rev. lra.
    + apply lsum_zero. intros i I. apply in_seq in I. destruct (Nat.lt_ge_cases i m0) as [Lt|Ge]; [rewrite cb_nat_lt by lia; lra|]. replace (list_sum m <=? n - i)%nat with false by (symmetry; apply Nat.leb_gt; lia). lra.
Qed.
Lemma shifted_sum : forall ys m, length m = length ys -> lsum (shifted ys m) = lsum ys - INR (list_sum m).
Proof.
  induction ys as [|y ys IH]; intros [|m0 m] L; try discriminate; [cbn; lra|]. cbn [shifted]. rewrite !lsum_cons. change (list_sum (m0 :: m)) with (m0 + list_sum m)%nat. rewrite plus_INR, IH by (cbn in L; lia). lra.
Qed.
Lemma rep_at_order : forall ys m n, length m = length ys -> (list_sum m <= n)%nat -> lsum ys = INR n ->
  lsum (map (fun a => pcb (map INR a) m * pcb ys a) (comps (length ys) n)) = pcb ys m.
Proof.
  intros ys m n L Le S. rewrite multi_rep by auto. replace (list_sum m <=? n)%nat with true by (symmetry; apply Nat.leb_le; auto). rewrite shifted_sum, S by auto. rewrite <- minus_INR by auto. rewrite cb_diag. lra.
Qed.
(** Nodality *)
Lemma pcb_diag : forall a, pcb (map INR a) a = 1.
Proof. induction a; cbn [map pcb]; auto. rewrite IHa, cb_diag. lra. Qed.
Lemma pcb_other : forall a b, length a = length b -> list_sum a = list_sum b -> a <> b -> pcb (map INR b) a = 0.
Proof.
  intros a b L S N.
  assert (G : forall a b, length a = length b -> (list_sum b <= list_sum a)%nat -> a <> b -> pcb (map INR b) a = 0).
  { clear. induction a as [|x a IH]; intros [|y b] L S N; try discriminate; [tauto|]. cbn [map pcb]. change (list_sum (?p :: ?q)) with (p + list_sum q)%nat in S. cbn in L.
    destruct (Nat.lt_trichotomy y x) as [Lt|[->|Gt]].
    - rewrite cb_nat_lt by auto. lra.
    - rewrite IH; [lra|lia|lia|congruence].
    - assert (Z : pcb (map INR b) a = 0); [|rewrite Z; lra]. apply IH; [lia|lia|]. intros ->. lia. }
  apply G; auto. lia.
Qed.
