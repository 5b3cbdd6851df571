(** Lemmas: sorting networks, orientation keys, mesh_build. *)
From Verif Require Import Base M_mesh L_mesh.
Open Scope nat_scope.

(** ** Sorting networks *)
Ltac len_cases p H :=
  repeat (destruct p as [|? p]; simpl in H; try lia).

Lemma cswap_perm : forall i j p, i <> j -> i < length p -> j < length p -> Permutation (cswap i j p) p.
Proof.
  intros i j p Hij Hi Hj. unfold cswap. destruct (nth j p 0 <? nth i p 0); auto.
  apply (Permutation_nth _ _ 0). rewrite !length_upd. split; auto.
  exists (fun k => if k =? i then j else if k =? j then i else k).
  split; [unfold FinFun.bFun|split; [unfold FinFun.bInjective|]].
  - intros m Hm. destruct (Nat.eqb_spec m i); auto. destruct (Nat.eqb_spec m j); auto.
  - intros a b Ha Hb. destruct (Nat.eqb_spec a i), (Nat.eqb_spec a j), (Nat.eqb_spec b i), (Nat.eqb_spec b j); intros; subst; auto; congruence.
  - intros k Hk. rewrite !nth_upd, !length_upd.
    destruct (Nat.ltb_spec i (length p)); try lia. destruct (Nat.ltb_spec j (length p)); try lia.
    destruct (Nat.eqb_spec k i) as [E1|E1]; [subst k|destruct (Nat.eqb_spec k j) as [E2|E2]; [subst k|]].
    + rewrite Nat.eqb_refl. auto.
    + destruct (Nat.eqb_spec i j); [congruence|]. rewrite Nat.eqb_refl. auto.
    + destruct (Nat.eqb_spec k j); [congruence|]. destruct (Nat.eqb_spec k i); [congruence|]. auto.
Qed.

Lemma cswap01 : forall a b t, cswap 0 1 (a :: b :: t) = if b <? a then b :: a :: t else a :: b :: t.
Proof. reflexivity. Qed.
Lemma cswap12 : forall x a b t, cswap 1 2 (x :: a :: b :: t) = if b <? a then x :: b :: a :: t else x :: a :: b :: t.
Proof. reflexivity. Qed.
Lemma cswap23 : forall x y a b t, cswap 2 3 (x :: y :: a :: b :: t) =
  if b <? a then x :: y :: b :: a :: t else x :: y :: a :: b :: t.
Proof. reflexivity. Qed.

Ltac cmp := match goal with
  | |- context [if ?a <? ?b then _ else _] => destruct (Nat.ltb_spec a b)
  end.
Ltac net := repeat (first [rewrite cswap01 | rewrite cswap12 | rewrite cswap23]; cmp; try (exfalso; lia)).
Ltac srt := repeat first [apply Sorted_cons | apply Sorted_nil | apply HdRel_cons | apply HdRel_nil]; lia.

Lemma sort234_sorted : forall p, 2 <= length p <= 4 -> Sorted le (sort234 p).
Proof.
  intros p H. destruct p as [|a [|b [|c [|d [|e p]]]]]; simpl in H; try lia; clear H;
    unfold sort234; cbn [length]; unfold SORT2, SORT3, SORT4; net; srt.
Qed.

Lemma length_cswap : forall i j p, length (cswap i j p) = length p.
Proof. intros. unfold cswap. destruct (_ <? _); rewrite ?length_upd; auto. Qed.

Lemma sort234_perm : forall p, Permutation (sort234 p) p.
Proof.
  intros p. unfold sort234. remember (length p) as n eqn:E.
  destruct n as [|[|[|[|[|n]]]]]; auto; unfold SORT2, SORT3, SORT4;
    repeat (eapply Permutation_trans; [apply cswap_perm; rewrite ?length_cswap; lia|]); auto.
Qed.

Lemma sorted_perm_eq : forall a b : list nat, Sorted le a -> Sorted le b -> Permutation a b -> a = b.
Proof.
  intros a b Ha Hb. apply Sorted_StronglySorted in Ha; [|intros x y z; lia]. apply Sorted_StronglySorted in Hb; [|intros x y z; lia].
  revert b Hb. induction Ha as [|x a Sa IH Fa]; intros b Hb P.
  - apply Permutation_nil in P. auto.
  - destruct b as [|y b]; [apply Permutation_sym, Permutation_nil in P; discriminate|].
    inversion Hb as [|? ? Sb Fb]; subst.
    assert (x = y).
    { assert (In x (y :: b)) by (apply (Permutation_in _ P); left; auto).
      assert (In y (x :: a)) by (apply (Permutation_in _ (Permutation_sym P)); left; auto).
      rewrite Forall_forall in Fa, Fb. destruct H as [->|H]; auto. destruct H0 as [->|H0]; auto.
      apply Fa in H0. apply Fb in H. lia. }
    subst y. f_equal. apply IH; auto. apply Permutation_cons_inv in P. auto.
Qed.

Lemma sort234_eq_iff : forall a b, 2 <= length a <= 4 -> 2 <= length b <= 4 ->
  (sort234 a = sort234 b <-> Permutation a b).
Proof.
  intros a b Ha Hb. split; intros H.
  - eapply Permutation_trans; [apply Permutation_sym, sort234_perm|]. rewrite H. apply sort234_perm.
  - apply sorted_perm_eq; try apply sort234_sorted; auto.
    eapply Permutation_trans; [apply sort234_perm|]. eapply Permutation_trans; [apply H|]. apply Permutation_sym, sort234_perm.
Qed.

Lemma length_sort234 : forall p, length (sort234 p) = length p.
Proof. intros. apply Permutation_length, sort234_perm. Qed.

(** ** Keys *)
Definition same_order (p q : list nat) : Prop :=
  forall i j, i < length p -> j < length p -> (nth i p 0 < nth j p 0 <-> nth i q 0 < nth j q 0).

Lemma ltk_bit : forall p i j w, exists b, ltk p i j w = b * w /\ (b = 0 \/ b = 1) /\ (b = 1 <-> nth i p 0 < nth j p 0).
Proof.
  intros. unfold ltk. destruct (Nat.ltb_spec (nth i p 0) (nth j p 0)).
  - exists 1. lia.
  - exists 0. lia.
Qed.

Lemma order_from_upper : forall p q, length p = length q -> NoDup p -> NoDup q ->
  (forall i j, i < j -> j < length p -> (nth i p 0 < nth j p 0 <-> nth i q 0 < nth j q 0)) -> same_order p q.
Proof.
  intros p q L Np Nq H i j Hi Hj. destruct (lt_eq_lt_dec i j) as [[Hl|<-]|Hg].
  - apply H; auto.
  - lia.
  - specialize (H j i Hg Hi).
    assert (nth i p 0 <> nth j p 0) by (intros E; apply (NoDup_nth p 0) in E; auto; lia).
    assert (nth i q 0 <> nth j q 0) by (intros E; apply (NoDup_nth q 0) in E; auto; lia).
    lia.
Qed.

Ltac bit p i j w b := let E := fresh "E" in let B := fresh "B" in let I := fresh "I" in
  destruct (ltk_bit p i j w) as (b & E & B & I); rewrite E; clear E.

Lemma key2_spec : forall p q, length p = 2 -> length q = 2 -> NoDup p -> NoDup q ->
  (key2 p = key2 q <-> same_order p q).
Proof.
  intros p q Lp Lq Np Nq. unfold key2. split.
  - bit p 0 1 1 a. bit q 0 1 1 a'. intros H. apply order_from_upper; auto; try lia.
    intros i j Hij Hj. rewrite Lp in Hj. assert (i = 0 /\ j = 1) as [-> ->] by lia. lia.
  - intros H. unfold ltk. pose proof (H 0 1) as H1. destruct (Nat.ltb_spec (nth 0 p 0) (nth 1 p 0)), (Nat.ltb_spec (nth 0 q 0) (nth 1 q 0)); auto; exfalso; rewrite Lp in H1; lia.
Qed.

Lemma ltk_same : forall p q i j w, same_order p q -> i < length p -> j < length p -> ltk p i j w = ltk q i j w.
Proof.
  intros p q i j w H Hi Hj. unfold ltk. specialize (H i j Hi Hj).
  destruct (Nat.ltb_spec (nth i p 0) (nth j p 0)), (Nat.ltb_spec (nth i q 0) (nth j q 0)); auto; lia.
Qed.

Lemma bit_inj : forall a a' r r', (a = 0 \/ a = 1) -> (a' = 0 \/ a' = 1) -> a + 2 * r = a' + 2 * r' -> a = a' /\ r = r'.
Proof. intros. lia. Qed.

Lemma key3_spec : forall p q, length p = 3 -> length q = 3 -> NoDup p -> NoDup q ->
  (key3 p = key3 q <-> same_order p q).
Proof.
  intros p q Lp Lq Np Nq. unfold key3. split.
  - bit p 0 1 1 a. bit p 0 2 2 b. bit p 1 2 4 c. bit q 0 1 1 a'. bit q 0 2 2 b'. bit q 1 2 4 c'. intros H.
    assert (H' : a + 2 * (b + 2 * c) = a' + 2 * (b' + 2 * c')) by (clear -H; lia).
    clear H. rename H' into H.
    apply bit_inj in H; auto. destruct H as [-> H]. apply bit_inj in H; auto. destruct H as [-> ->].
    apply order_from_upper; auto; [congruence|]. intros i j Hij Hj. rewrite Lp in Hj.
    assert ((i = 0 /\ j = 1) \/ (i = 0 /\ j = 2) \/ (i = 1 /\ j = 2)) as [[-> ->]|[[-> ->]|[-> ->]]]
      by (clear -Hij Hj; lia); clear -I I0 I1 I2 I3 I4; tauto.
  - intros H. rewrite !(ltk_same p q) by (auto; lia). auto.
Qed.

Lemma key4_spec : forall p q, length p = 4 -> length q = 4 -> NoDup p -> NoDup q ->
  (key4 p = key4 q <-> same_order p q).
Proof.
  intros p q Lp Lq Np Nq. unfold key4. split.
  - bit p 0 1 1 a. bit p 0 2 2 b. bit p 1 2 4 c. bit p 0 3 8 d. bit p 1 3 16 e. bit p 2 3 32 f.
    bit q 0 1 1 a'. bit q 0 2 2 b'. bit q 1 2 4 c'. bit q 0 3 8 d'. bit q 1 3 16 e'. bit q 2 3 32 f'. intros H.
    assert (H' : a + 2 * (b + 2 * (c + 2 * (d + 2 * (e + 2 * f)))) = a' + 2 * (b' + 2 * (c' + 2 * (d' + 2 * (e' + 2 * f'))))).
    { clear -H. lia. }
    clear H. rename H' into H.
    apply bit_inj in H; auto. destruct H as [-> H]. apply bit_inj in H; auto. destruct H as [-> H].
    apply bit_inj in H; auto. destruct H as [-> H]. apply bit_inj in H; auto. destruct H as [-> H].
    apply bit_inj in H; auto. destruct H as [-> ->].
    apply order_from_upper; auto; [congruence|]. intros i j Hij Hj. rewrite Lp in Hj.
    assert ((i = 0 /\ j = 1) \/ (i = 0 /\ j = 2) \/ (i = 1 /\ j = 2) \/ (i = 0 /\ j = 3) \/ (i = 1 /\ j = 3) \/ (i = 2 /\ j = 3))
      as [[-> ->]|[[-> ->]|[[-> ->]|[[-> ->]|[[-> ->]|[-> ->]]]]]] by (clear -Hij Hj; lia); clear -I I0 I1 I2 I3 I4 I5 I6 I7 I8 I9 I10; tauto.
  - intros H. rewrite !(ltk_same p q) by (auto; lia). auto.
Qed.
