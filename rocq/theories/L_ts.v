(** Lemmas: step number formatting. *)
From Coq Require Import NArith QArith Qround.
From Verif Require Import Base M_ts.
Set Implicit Arguments.
Open Scope nat_scope.

Lemma log10_from_ok : forall fuel p m k, (p = 10 ^ k)%N -> (p <= m)%N -> (m < p * 10 ^ N.of_nat fuel)%N ->
  let r := log10_from fuel p m k in (10 ^ r <= m < 10 ^ (r + 1))%N.
Proof.
  induction fuel as [|f IH]; intros p m k Hp Hm Hf; cbn [log10_from].
  - change (10 ^ N.of_nat 0)%N with 1%N in Hf. lia.
  - destruct (N.leb_spec (10 * p) m) as [H|H].
    + apply IH; auto.
      * rewrite Hp. rewrite N.add_1_r, N.pow_succ_r'. reflexivity.
      * rewrite Nat2N.inj_succ, N.pow_succ_r' in Hf. lia.
    + cbn zeta. rewrite N.add_1_r, N.pow_succ_r'. rewrite <- Hp. lia.
Qed.

Lemma pow2_le_pow10 : forall n, (2 ^ n <= 10 ^ n)%N.
Proof. intros. apply N.pow_le_mono_l. lia. Qed.

Lemma size_gt : forall m, (m < 10 ^ N.of_nat (N.to_nat (N.size m)))%N.
Proof. intros. rewrite N2Nat.id. pose proof (N.size_gt m). pose proof (pow2_le_pow10 (N.size m)). lia. Qed.

Lemma int_log10p1_ok : forall m, (1 <= m)%N ->
  exists k, int_log10p1 m = (k + 1)%N /\ (10 ^ k <= m < 10 ^ (k + 1))%N.
Proof.
  intros m Hm. unfold int_log10p1. eexists. split; [reflexivity|].
  apply log10_from_ok; auto. pose proof (size_gt m). lia.
Qed.

(** The value of a list of digits, the least significant one first / last. *)
Fixpoint val_rev (l : list N) : N := match l with [] => 0 | d :: t => (d + 10 * val_rev t)%N end.
Definition val (l : list N) : N := fold_left (fun a d => (10 * a + d)%N) l 0%N.

Lemma digits_rev_val : forall fuel k, (k < 10 ^ N.of_nat fuel)%N -> val_rev (digits_rev fuel k) = k.
Proof.
  induction fuel as [|f IH]; intros k H; cbn [digits_rev val_rev].
  - change (10 ^ N.of_nat 0)%N with 1%N in H. lia.
  - rewrite Nat2N.inj_succ, N.pow_succ_r' in H. pose proof (N.div_mod' k 10) as E.
    destruct (N.ltb_spec k 10) as [L|L].
    + cbn [val_rev]. rewrite N.mod_small by auto. lia.
    + rewrite IH; [lia|]. apply N.div_lt_upper_bound; lia.
Qed.

Lemma digits_rev_lt : forall fuel k d, In d (digits_rev fuel k) -> (d < 10)%N.
Proof.
  induction fuel as [|f IH]; intros k d H; cbn [digits_rev] in H; [contradiction|].
  destruct H as [<-|H]; [apply N.mod_lt; lia|]. destruct (k <? 10)%N; [contradiction|]. eauto.
Qed.

Lemma digits_rev_len : forall fuel k j, (k < 10 ^ N.of_nat (S j))%N -> length (digits_rev fuel k) <= S j.
Proof.
  induction fuel as [|f IH]; intros k j H; cbn [digits_rev]; [simpl; lia|].
  destruct (N.ltb_spec k 10) as [L|L]; [simpl; lia|]. cbn [length].
  destruct j as [|j]; [change (10 ^ N.of_nat 1)%N with 10%N in H; lia|].
  apply le_n_S. apply IH. rewrite Nat2N.inj_succ, N.pow_succ_r' in H. apply N.div_lt_upper_bound; lia.
Qed.

Lemma val_rev_eq : forall l a, fold_left (fun a d => (10 * a + d)%N) (rev l) a = (a * 10 ^ N.of_nat (length l) + val_rev l)%N.
Proof.
  induction l as [|d t IH]; intros a; cbn [rev val_rev length].
  - cbn. lia.
  - rewrite fold_left_app. cbn [fold_left]. rewrite IH. rewrite Nat2N.inj_succ, N.pow_succ_r'. lia.
Qed.

Lemma val_digits : forall k, val (digits k) = k.
Proof.
  intros. unfold val, digits. rewrite val_rev_eq. rewrite digits_rev_val; [lia|].
  rewrite Nat2N.inj_succ, N.pow_succ_r'. pose proof (size_gt k). lia.
Qed.

Lemma val_zeros : forall j l, val (repeat 0%N j ++ l) = val l.
Proof. intros j l. unfold val. rewrite fold_left_app. f_equal. induction j; simpl; auto. Qed.

Lemma digits_len : forall k j, (k < 10 ^ N.of_nat (S j))%N -> length (digits k) <= S j.
Proof. intros. unfold digits. rewrite rev_length. apply digits_rev_len; auto. Qed.

Lemma digits_lt : forall k d, In d (digits k) -> (d < 10)%N.
Proof. intros k d H. unfold digits in H. rewrite <- in_rev in H. eapply digits_rev_lt; eauto. Qed.

(** Equal lengths: the lexicographic order is the order of the values. *)
Lemma val_bound : forall l a, (forall d, In d l -> (d < 10)%N) ->
  (a * 10 ^ N.of_nat (length l) <= fold_left (fun a d => (10 * a + d)%N) l a < (a + 1) * 10 ^ N.of_nat (length l))%N.
Proof.
  induction l as [|d t IH]; intros a H; cbn [fold_left length].
  - change (10 ^ N.of_nat 0)%N with 1%N. lia.
  - rewrite Nat2N.inj_succ, N.pow_succ_r'. assert (d < 10)%N by (apply H; simpl; auto).
    destruct (IH (10 * a + d)%N) as [L U]; [intros; apply H; simpl; auto|].
    remember (10 ^ N.of_nat (length t))%N as P. split; nia.
Qed.
