(** C177: the symmetry test of the MUMPS interface. *)
From Coq Require Import QArith Qabs.
From Verif Require Import Base M_ls S_ls.
Import ListNotations.
Local Open Scope nat_scope.
Set Implicit Arguments.

(** *** Sorting by distinct keys *)
Definition klt (a b : nat * nat) : Prop :=
  fst a < fst b \/ fst a = fst b /\ snd a < snd b.
Lemma klt_trans a b c : klt a b -> klt b c -> klt a c.
Proof. unfold klt. lia. Qed.
Lemma klt_irr a : ~ klt a a.
Proof. unfold klt. lia. Qed.
Lemma lexle_true a b : lexle a b = true -> a = b \/ klt a b.
Proof.
  destruct a as [a1 a2], b as [b1 b2]. unfold lexle, klt. simpl. intros H.
  apply orb_prop in H. destruct H as [H|H].
  - apply Nat.ltb_lt in H. auto.
  - apply andb_prop in H. destruct H as [H1 H2]. apply Nat.eqb_eq in H1.
    apply Nat.leb_le in H2. subst. destruct (Nat.eq_dec a2 b2); [subst; auto|].
    right. right. lia.
Qed.
Lemma lexle_false a b : lexle a b = false -> klt b a.
Proof.
  destruct a as [a1 a2], b as [b1 b2]. unfold lexle, klt. simpl. intros H.
  apply orb_false_elim in H. destruct H as [H1 H2]. apply Nat.ltb_ge in H1.
  apply andb_false_iff in H2. destruct H2 as [H2|H2].
  - apply Nat.eqb_neq in H2. lia.
  - apply Nat.leb_gt in H2. lia.
Qed.

Lemma ins_in key x : forall l y, In y (ins key x l) <-> y = x \/ In y l.
Proof.
  induction l; simpl; intros y; [firstorder congruence|].
  destruct (lexle (key x) (key a)); simpl; [firstorder congruence|]. rewrite IHl. firstorder congruence.
Qed.

Lemma lexsorted_in key : forall l y, In y (lexsorted key l) <-> In y l.
Proof.
  induction l; simpl; intros y; [easy|]. rewrite ins_in, IHl. firstorder congruence.
Qed.

Lemma lexsorted_length key : forall l, length (lexsorted key l) = length l.
Proof.
  induction l; simpl; [easy|]. rewrite <- IHl. generalize (lexsorted key l).
  induction l0; simpl; [easy|]. destruct (lexle (key a) (key a0)); simpl; congruence.
Qed.

Definition ksorted key (l : list entry) := StronglySorted klt (map key l).

Lemma ins_sorted key x : forall l, ksorted key l -> ~ In (key x) (map key l) ->
  ksorted key (ins key x l).
Proof.
  unfold ksorted. induction l as [|a l IH]; intros S1 NI; simpl; [repeat constructor|].
  simpl in S1. inversion S1; subst.
  destruct (lexle (key x) (key a)) eqn:E; simpl.
  - apply lexle_true in E. destruct E as [E|E].
    { exfalso. apply NI. simpl. auto. }
    constructor; [exact S1|]. constructor; [exact E|].
    rewrite Forall_forall in *. intros k Hk. eapply klt_trans; eauto.
  - apply lexle_false in E. constructor.
    + apply IH; auto. intros H. apply NI. simpl. auto.
    + rewrite Forall_forall in *. intros k Hk. apply in_map_iff in Hk.
      destruct Hk as (y & <- & Hy). apply ins_in in Hy. destruct Hy as [->|Hy]; auto.
      apply H2. now apply in_map.
Qed.

Lemma lexsorted_sorted key : forall l, NoDup (map key l) -> ksorted key (lexsorted key l).
Proof.
  induction l; simpl; intros N; [constructor|]. inversion N; subst.
  apply ins_sorted; auto. intros H. apply H1. apply in_map_iff in H.
  destruct H as (y & E & Hy). rewrite <- E. apply in_map. now apply lexsorted_in in Hy.
Qed.

Lemma sorted_unique : forall l1 l2 : list (nat * nat),
  StronglySorted klt l1 -> StronglySorted klt l2 ->
  (forall k, In k l1 <-> In k l2) -> l1 = l2.
Proof.
  induction l1 as [|a l1 IH]; intros l2 S1 S2 H.
  - destruct l2; [easy|]. exfalso. apply (H p). simpl. auto.
  - destruct l2 as [|b l2]; [exfalso; apply (H a); simpl; auto|].
    inversion S1; subst. inversion S2; subst. rewrite Forall_forall in *.
    assert (a = b).
    { destruct (proj1 (H a) (or_introl eq_refl)) as [->|Ha]; [easy|].
      destruct (proj2 (H b) (or_introl eq_refl)) as [->|Hb]; [easy|].
      exfalso. apply (@klt_irr a). eapply klt_trans; [apply H3|apply H5]; auto. }
    subst b. f_equal. apply IH; auto. intros k. split; intros Hk.
    + destruct (proj1 (H k) (or_intror Hk)) as [<-|]; [|easy].
      exfalso. exact (klt_irr (H3 _ Hk)).
    + destruct (proj2 (H k) (or_intror Hk)) as [<-|]; [|easy].
      exfalso. exact (klt_irr (H5 _ Hk)).
Qed.

(** *** The pairing *)
Definition upper (m : list entry) :=
  filter (fun e : entry => fst (fst e) <? snd (fst e))
    (filter (fun e : entry => negb (fst (fst e) =? snd (fst e))) m).
Definition lower (m : list entry) :=
  filter (fun e : entry => snd (fst e) <? fst (fst e))
    (filter (fun e : entry => negb (fst (fst e) =? snd (fst e))) m).
Definition ukey (e : entry) := (snd (fst e), fst (fst e)).
Definition lkey (e : entry) := fst e.

Lemma upper_in m i j v : In ((i, j), v) (upper m) <-> In ((i, j), v) m /\ i < j.
Proof.
  unfold upper. rewrite !filter_In. simpl. rewrite Nat.ltb_lt, negb_true_iff, Nat.eqb_neq.
  intuition lia.
Qed.
Lemma lower_in m i j v : In ((i, j), v) (lower m) <-> In ((i, j), v) m /\ j < i.
Proof.
  unfold lower. rewrite !filter_In. simpl. rewrite Nat.ltb_lt, negb_true_iff, Nat.eqb_neq.
  intuition lia.
Qed.

Lemma nodup_filter_map {A B} (f : A -> B) p : forall l, NoDup (map f l) ->
  NoDup (map f (filter p l)).
Proof.
  induction l; simpl; intros N; [easy|]. inversion N; subst.
  destruct (p a); simpl; auto. constructor; auto. intros H. apply H1.
  apply in_map_iff in H. destruct H as (y & <- & Hy). apply filter_In in Hy.
  apply in_map. easy.
Qed.

Lemma nodup_swap : forall l : list entry, NoDup (map fst l) -> NoDup (map ukey l).
Proof.
  induction l as [|[[a b] v] l IH]; simpl; intros N; [easy|]. inversion N; subst.
  constructor; auto. intros H. apply H1. apply in_map_iff in H.
  destruct H as ([[c d] w] & E & Hy). unfold ukey in E. simpl in E. injection E as -> ->.
  apply in_map_iff. exists ((a, b), w). auto.
Qed.

Lemma keys_equal m : canonical m -> sym_pattern m ->
  map ukey (lexsorted ukey (upper m)) = map lkey (lexsorted lkey (lower m)).
Proof.
  intros C P. apply sorted_unique.
  - apply lexsorted_sorted. apply nodup_swap. unfold upper. now repeat apply nodup_filter_map.
  - apply lexsorted_sorted. unfold lower. now repeat apply nodup_filter_map.
  - intros [a b]. rewrite !in_map_iff. split.
    + intros ([[i j] v] & E & H). unfold ukey in E. simpl in E. injection E as -> ->.
      apply (proj1 (lexsorted_in _ _ _)) in H. apply upper_in in H. destruct H as [H L].
      assert (H' : In (b, a) (map fst m)) by (apply in_map_iff; exists ((b, a), v); auto).
      apply P in H'. apply in_map_iff in H'. destruct H' as ([[i' j'] w] & E & H').
      simpl in E. injection E as -> ->. exists ((a, b), w). split; [easy|].
      apply lexsorted_in, lower_in. split; [easy|lia].
    + intros ([[i j] v] & E & H). unfold lkey in E. simpl in E. injection E as -> ->.
      apply (proj1 (lexsorted_in _ _ _)) in H. apply lower_in in H. destruct H as [H L].
      assert (H' : In (a, b) (map fst m)) by (apply in_map_iff; exists ((a, b), v); auto).
      apply P in H'. apply in_map_iff in H'. destruct H' as ([[i' j'] w] & E & H').
      simpl in E. injection E as -> ->. exists ((b, a), w). split; [easy|].
      apply lexsorted_in, upper_in. split; [easy|lia].
Qed.

Lemma combine_keys : forall (us ls : list entry), map ukey us = map lkey ls ->
  (forall e1 e2, In (e1, e2) (combine us ls) -> ukey e1 = lkey e2) /\
  (forall e1, In e1 us -> exists e2, In (e1, e2) (combine us ls)).
Proof.
  induction us; destruct ls; simpl; intros H; try easy. injection H as H1 H2.
  destruct (IHus _ H2) as [A B]. split.
  - intros e1 e2 [E|E]; [injection E as -> ->; easy|auto].
  - intros e1 [->|E]; [exists e; auto|]. destruct (B _ E) as [e2 H]. exists e2. auto.
Qed.

Lemma lengths m : canonical m -> sym_pattern m -> length (lower m) = length (upper m).
Proof.
  intros C P. pose proof (f_equal (@length _) (keys_equal C P)) as E.
  rewrite !map_length, !lexsorted_length in E. easy.
Qed.

Lemma canonical_val m i j v w : canonical m ->
  In ((i, j), v) m -> In ((i, j), w) m -> v = w.
Proof.
  unfold canonical. induction m as [|[k x] m IH]; simpl; intros N H1 H2; [easy|].
  inversion N; subst. destruct H1 as [H1|H1], H2 as [H2|H2].
  - congruence.
  - injection H1 as -> ->. exfalso. apply H3. apply in_map_iff. exists ((i, j), w). auto.
  - injection H2 as -> ->. exfalso. apply H3. apply in_map_iff. exists ((i, j), v). auto.
  - auto.
Qed.

Lemma qmax_in : forall l mx, qmax l = Ok mx -> In mx l.
Proof.
  intros [|x t] mx H; [easy|]. simpl in H. injection H as <-. revert x.
  induction t; simpl; intros x; [auto|].
  destruct (IHt (if Qle_bool x a then a else x)) as [E|E].
  - rewrite <- E at 2. destruct (Qle_bool x a); auto.
  - auto.
Qed.

Lemma unfold_test tol m : coo_is_symmetric tol m =
  if negb (length (lower m) =? length (upper m)) then Ok false
  else do mx <- qmax (map snd (upper m));
    if existsb (fun p => rel_ge tol mx (Qabs (snd (fst p) - snd (snd p))))
               (combine (lexsorted ukey (upper m)) (lexsorted lkey (lower m)))
    then Ok false else Ok true.
Proof. reflexivity. Qed.

Lemma qabs_zero v w : v == w -> Qabs (v - w) == 0.
Proof. intros H. rewrite H. setoid_replace (w - w)%Q with 0%Q by ring. reflexivity. Qed.

(** A symmetric matrix with at least one off-diagonal entry is recognized. *)
Theorem C177_symmetric_recognized_partial : forall tol m, (0 < tol)%Q ->
  canonical m -> sym_pattern m -> has_off_diag m ->
  (forall i j v w, In ((i, j), v) m -> In ((j, i), w) m -> v == w) ->
  coo_is_symmetric tol m = Ok true.
Proof.
  intros tol m Ht C P (i & j & v & Hin & Hne) HV. rewrite unfold_test, (lengths C P).
  rewrite Nat.eqb_refl. simpl negb. cbv iota.
  assert (HU : exists e, In e (upper m)).
  { destruct (Nat.lt_trichotomy i j) as [H|[H|H]]; [|easy|].
    - exists ((i, j), v). now apply upper_in.
    - assert (H' : In (i, j) (map fst m)) by (apply in_map_iff; exists ((i, j), v); auto).
      apply P in H'. apply in_map_iff in H'. destruct H' as ([[i' j'] w] & E & H').
      simpl in E. injection E as -> ->. exists ((j, i), w). now apply upper_in. }
  destruct (qmax (map snd (upper m))) as [mx|e] eqn:Q.
  2:{ destruct HU as [e0 H]. destruct (upper m); easy. }
  simpl bind.
  match goal with |- (if ?b then _ else _) = _ => destruct b eqn:E end; [|easy].
  exfalso. apply existsb_exists in E. destruct E as ([[k1 v1] [k2 v2]] & H & E). cbn [fst snd] in E.
  destruct (combine_keys _ _ (keys_equal C P)) as [A _]. pose proof (A _ _ H) as K.
  destruct k1 as [a b], k2 as [c d]. unfold ukey, lkey in K. simpl in K. injection K as <- <-.
  pose proof (in_combine_l _ _ _ _ H) as H1. pose proof (in_combine_r _ _ _ _ H) as H2.
  apply (proj1 (lexsorted_in _ _ _)) in H1, H2.
  apply upper_in in H1. apply lower_in in H2.
  pose proof (HV _ _ _ _ (proj1 H1) (proj1 H2)) as EV. apply qabs_zero in EV.
  unfold rel_ge in E. destruct (Qeq_bool mx 0) eqn:Z.
  - apply negb_true_iff in E. assert (Qle_bool (Qabs (v1 - v2)) 0 = true).
    { apply Qle_bool_iff. rewrite EV. apply Qle_refl. } exact (eq_true_false_abs _ H0 E).
  - apply Qle_bool_iff in E. unfold Qdiv in E. rewrite EV, Qmult_0_l in E.
    apply (Qlt_not_le _ _ Ht E).
Qed.

(** For a matrix with a symmetric pattern the answer "symmetric" means that
    each two opposite entries are equal up to [tol] times the largest of the
    entries above the diagonal. *)
Theorem C177_symmetric_answer_sound_partial : forall tol m,
  canonical m -> sym_pattern m -> coo_is_symmetric tol m = Ok true ->
  exists i0 j0 mx, In ((i0, j0), mx) m /\ i0 < j0 /\
  forall i j v w, i <> j -> In ((i, j), v) m -> In ((j, i), w) m ->
    v == w \/ (Qabs (v - w) < tol * Qabs mx)%Q.
Proof.
  intros tol m C P H. rewrite unfold_test, (lengths C P), Nat.eqb_refl in H.
  simpl negb in H. cbv iota in H.
  destruct (qmax (map snd (upper m))) as [mx|] eqn:Q; [|easy]. simpl bind in H.
  apply qmax_in in Q. apply in_map_iff in Q. destruct Q as ([[i0 j0] x] & E & Q).
  simpl in E. subst x. apply upper_in in Q. exists i0, j0, mx.
  split; [easy|]. split; [easy|].
  match type of H with (if ?b then _ else _) = _ => destruct b eqn:E; [easy|] end.
  destruct (combine_keys _ _ (keys_equal C P)) as [A B].
  assert (HH : forall i j v w, i < j -> In ((i, j), v) m -> In ((j, i), w) m ->
    v == w \/ (Qabs (v - w) < tol * Qabs mx)%Q).
  { intros i j v w L Hv Hw.
    destruct (B ((i, j), v)) as ([[c d] w'] & HC).
    { apply lexsorted_in, upper_in. auto. }
    pose proof (A _ _ HC) as K. unfold ukey, lkey in K. simpl in K. injection K as <- <-.
    pose proof (in_combine_r _ _ _ _ HC) as H2. apply (proj1 (lexsorted_in _ _ _)) in H2.
    apply lower_in in H2. assert (EW : w = w') by exact (@canonical_val m j i w w' C Hw (proj1 H2)). subst w'. rename w into w'.
    assert (R : rel_ge tol mx (Qabs (v - w')) = false).
    { destruct (rel_ge tol mx (Qabs (v - w'))) eqn:R; [|easy].
      assert (existsb (fun p => rel_ge tol mx (Qabs (snd (fst p) - snd (snd p))))
        (combine (lexsorted ukey (upper m)) (lexsorted lkey (lower m))) = true).
      { apply existsb_exists. eexists. split; [exact HC|]. exact R. }
      exfalso. exact (eq_true_false_abs _ H0 E). }
    unfold rel_ge in R. destruct (Qeq_bool mx 0) eqn:Z.
    - left. apply negb_false_iff, Qle_bool_iff in R.
      apply Qabs_Qle_condition in R. destruct R as [R1 R2].
      apply Qle_antisym.
      + apply (Qplus_le_l _ _ (- w')). setoid_replace (w' + - w')%Q with 0%Q by ring. exact R2.
      + apply (Qplus_le_l _ _ (- w')). setoid_replace (w' + - w')%Q with 0%Q by ring. exact R1.
    - right. destruct (Qlt_le_dec (Qabs (v - w')) (tol * Qabs mx)) as [G|G]; [easy|].
      exfalso. assert (Pm : (0 < Qabs mx)%Q).
      { destruct (Qlt_le_dec 0 (Qabs mx)) as [G'|G']; [easy|]. exfalso.
        assert (Z' : mx == 0). { apply Qabs_Qle_condition in G'. apply Qle_antisym; easy. }
        apply Qeq_bool_iff in Z'. congruence. }
      assert (Qle_bool tol (Qabs (v - w') / Qabs mx) = true).
      { apply Qle_bool_iff. apply Qle_shift_div_l; easy. }
      congruence. }
  intros i j v w Hne Hv Hw. destruct (Nat.lt_trichotomy i j) as [L|[L|L]]; [|easy|].
  - eauto.
  - destruct (HH _ _ _ _ L Hw Hv) as [G|G]; [left; now symmetry|right].
    rewrite Qabs_Qminus. exact G.
Qed.

Lemma filter_off (p : entry -> bool) :
  (forall e, p e = true -> fst (fst e) <> snd (fst e)) -> forall m,
  filter p (filter (fun e : entry => negb (fst (fst e) =? snd (fst e))) m) = filter p m.
Proof.
  intros Hp. induction m as [|e t IH]; [easy|]. simpl.
  destruct (fst (fst e) =? snd (fst e)) eqn:X; simpl.
  - apply Nat.eqb_eq in X. destruct (p e) eqn:PX; [now apply Hp in PX|]. exact IH.
  - destruct (p e); [f_equal|]; exact IH.
Qed.

(** Different numbers of entries above and below the diagonal: unsymmetric. *)
Theorem C177_counts_differ : forall tol m,
  length (filter (fun e : entry => fst (fst e) <? snd (fst e)) m)
  <> length (filter (fun e : entry => snd (fst e) <? fst (fst e)) m) ->
  coo_is_symmetric tol m = Ok false.
Proof.
  intros tol m H. rewrite unfold_test.
  unfold upper, lower. rewrite !filter_off.
  - destruct (Nat.eqb_spec (length (filter (fun e : entry => snd (fst e) <? fst (fst e)) m))
      (length (filter (fun e : entry => fst (fst e) <? snd (fst e)) m))); [congruence|easy].
  - intros e E. apply Nat.ltb_lt in E. lia.
  - intros e E. apply Nat.ltb_lt in E. lia.
Qed.

(** Every diagonal matrix raises ValueError: the maximum of no numbers. *)
Theorem C177_diagonal_refuted : forall tol m,
  (forall i j v, In ((i, j), v) m -> i = j) ->
  coo_is_symmetric tol m = Err ValueError.
Proof.
  intros tol m H.
  assert (E : filter (fun e : entry => negb (fst (fst e) =? snd (fst e))) m = []).
  { induction m as [|[[i j] v] t IH]; [easy|]. simpl.
    rewrite (H i j v) by (simpl; auto). rewrite Nat.eqb_refl. simpl. apply IH.
    intros. apply (H i0 j0 v0). simpl. auto. }
  rewrite unfold_test. unfold upper, lower. rewrite E. reflexivity.
Qed.

(** The positions are not compared: [[1,5,0],[0,1,0],[0,5,1]] is "symmetric". *)
Theorem C177_pattern_refuted : exists m, canonical m /\ has_off_diag m /\
  In ((0, 1), 5%Q) m /\ (forall v, ~ In ((1, 0), v) m) /\
  coo_is_symmetric (1 # 1000000000) m = Ok true.
Proof.
  exists [((0,0),1%Q); ((0,1),5%Q); ((1,1),1%Q); ((2,1),5%Q); ((2,2),1%Q)].
  split; [|split; [|split; [|split]]].
  - unfold canonical. simpl. repeat constructor; simpl; intuition congruence.
  - exists 0, 1, 5%Q. simpl. split; [auto|lia].
  - simpl. auto.
  - intros v. simpl. intuition congruence.
  - vm_compute. reflexivity.
Qed.

(** Witnesses. *)
Definition sym_ex : list entry :=
  [((0,0),2%Q); ((0,1),(-1)%Q); ((0,2),3%Q); ((1,0),(-1)%Q); ((2,0),3%Q); ((2,2),1%Q)].
Example sym_ex_hyp : canonical sym_ex /\ sym_pattern sym_ex /\ has_off_diag sym_ex.
Proof.
  split; [|split].
  - unfold canonical. simpl. repeat constructor; simpl; intuition congruence.
  - intros i j H. simpl in *. intuition congruence.
  - exists 0, 1, (-1)%Q. simpl. split; [auto|lia].
Qed.
Example sym_ex_val : forall i j v w,
  In ((i, j), v) sym_ex -> In ((j, i), w) sym_ex -> v == w.
Proof.
  intros i j v w H1 H2. simpl in H1, H2.
  repeat match goal with H : _ \/ _ |- _ => destruct H as [H|H] end; try easy;
    injection H1 as; injection H2 as; subst; try reflexivity; try discriminate.
Qed.
Example sym_ex_run : coo_is_symmetric (1 # 1000000000) sym_ex = Ok true.
Proof. vm_compute. reflexivity. Qed.

Print Assumptions C177_symmetric_recognized_partial.
Print Assumptions C177_symmetric_answer_sound_partial.
Print Assumptions C177_counts_differ.
Print Assumptions C177_diagonal_refuted.
Print Assumptions C177_pattern_refuted.
