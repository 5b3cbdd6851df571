(** Lemmas for P_merge.v: ranks of the kept indices, distances. *)
From Coq Require Import QArith Qabs Lqa.
From Verif Require Import Base M_parallel M_periodic P_periodic M_merge.
Set Implicit Arguments.
Open Scope nat_scope.

(** ** Ranks *)
Definition rank (p : nat -> bool) (j : nat) : nat := length (filter p (seq 0 j)).
Lemma seq_split : forall n j, j < n -> seq 0 n = seq 0 j ++ j :: seq (S j) (n - j - 1).
Proof. intros n j H. replace n with (j + S (n - j - 1)) at 1 by lia. rewrite seq_app. cbn. auto. Qed.
Lemma rank_nth : forall p n j d, j < n -> p j = true -> nth (rank p j) (filter p (seq 0 n)) d = j.
Proof.
  intros p n j d H P. rewrite (seq_split H), filter_app. cbn [filter]. rewrite P. unfold rank. apply nth_middle.
Qed.
Lemma rank_lt : forall p n j, j < n -> p j = true -> rank p j < length (filter p (seq 0 n)).
Proof.
  intros p n j H P. rewrite (seq_split H), filter_app. cbn [filter]. rewrite P. unfold rank. rewrite app_length. cbn. lia.
Qed.
Lemma rank_S : forall p j, rank p (S j) = rank p j + if p j then 1 else 0.
Proof.
  intros p j. unfold rank. rewrite seq_S, filter_app, app_length. cbn. destruct (p j); auto.
Qed.
Lemma cumsum_nth : forall l s j d, j < length l -> nth j (cumsum_from s l) d = s + list_sum (firstn (S j) l).
Proof.
  induction l as [|x t IH]; intros s j d H; cbn in H; [lia|]. cbn [cumsum_from]. destruct j as [|j].
  - cbn. lia.
  - cbn [nth]. rewrite IH by lia. cbn. lia.
Qed.
Lemma length_cumsum : forall l s, length (cumsum_from s l) = length l.
Proof. induction l; intros; cbn; auto. Qed.
Lemma sum_indicator : forall A (p : A -> bool) l, list_sum (map (fun j => if p j : bool then 1 else 0) l) = length (filter p l).
Proof. induction l as [|x t IH]; cbn; auto. destruct (p x); cbn; auto. Qed.
Lemma firstn_map_seq : forall A (f : nat -> A) n j, j <= n -> firstn j (map f (seq 0 n)) = map f (seq 0 j).
Proof.
  intros A f n j H. rewrite firstn_map. f_equal. replace n with (j + (n - j)) by lia. rewrite seq_app, firstn_app, seq_length.
  rewrite Nat.sub_diag. cbn. rewrite app_nil_r. apply firstn_all2. rewrite seq_length. auto.
Qed.
Lemma mask_map : forall n js, put1 (repeat 1 n) js 0 = map (fun j => if memb j js then 0 else 1) (seq 0 n).
Proof.
  intros n js. apply list_ext with (d := 0).
  - rewrite length_put1, repeat_length, map_length, seq_length. auto.
  - intros i. rewrite length_put1, repeat_length. intros H. rewrite nth_put1 by (rewrite repeat_length; auto).
    rewrite (nth_map_in (fun j => if memb j js then 0 else 1) _ 0) by (rewrite seq_length; auto).
    rewrite nth_seq0 by auto. destruct (in_dec Nat.eq_dec i js) as [I|I].
    + rewrite (proj2 (memb_In i js) I). auto.
    + rewrite (proj2 (memb_false i js) I). apply nth_repeat_lt. auto.
Qed.
Lemma cumsum_rank : forall n js j d, j < n -> 
  nth j (cumsum_from 0 (put1 (repeat 1 n) js 0)) d = rank (fun j => negb (memb j js)) (S j).
Proof.
  intros n js j d H. rewrite mask_map, cumsum_nth by (rewrite map_length, seq_length; auto).
  rewrite firstn_map_seq by lia. unfold rank. rewrite <- sum_indicator. rewrite Nat.add_0_l. f_equal.
  apply map_ext. intros a. destruct (memb a js); auto.
Qed.
Lemma unique_seq : forall n k, unique (seq k n) = seq k n.
Proof. intros. apply sinc_ext; [apply unique_sinc|apply sinc_seq|]. intros; apply unique_In. Qed.
Lemma setdiff_seq : forall n js, setdiff1d (seq 0 n) js = filter (fun j => negb (memb j js)) (seq 0 n).
Proof. intros. unfold setdiff1d. rewrite unique_seq. auto. Qed.

Lemma lastval_combine : forall A is (xs : list A) j v, lastval is xs j = Some v -> In (j, v) (combine is xs).
Proof.
  induction is as [|i is IH]; intros [|x xs] j v H; cbn in H; try discriminate.
  destruct (lastval is xs j) eqn:E.
  - injection H as <-. right. apply IH. auto.
  - destruct (Nat.eqb_spec i j); [|discriminate]. injection H as <-. subst. left; auto.
Qed.

(** ** Distances *)
Definition close (eps : Q) (a b : point) : Prop := (dist2 a b <= eps * eps)%Q.
Lemma dist2_cons : forall x y a b, (dist2 (x :: a) (y :: b) == (x - y) * (x - y) + dist2 a b)%Q.
Proof. intros. unfold dist2, vdot, vsub. cbn. lra. Qed.
Lemma sq_nonneg : forall a, (0 <= a * a)%Q.
Proof. intros a. destruct (Qlt_le_dec a 0); nra. Qed.
Lemma dist2_nonneg : forall a b, (0 <= dist2 a b)%Q.
Proof.
  induction a as [|x a IH]; intros [|y b]; try (cbn; lra).
  rewrite dist2_cons. specialize (IH b). pose proof (sq_nonneg (x - y)). lra.
Qed.
Lemma dist2_self : forall a, (dist2 a a == 0)%Q.
Proof. induction a as [|x a IH]; [reflexivity|]. rewrite dist2_cons, IH. ring. Qed.
Lemma dist2_sym : forall a b, (dist2 a b == dist2 b a)%Q.
Proof.
  induction a as [|x a IH]; intros [|y b]; try reflexivity. rewrite !dist2_cons, IH. ring.
Qed.
Lemma close_refl : forall e a, close e a a.
Proof. intros. unfold close. rewrite dist2_self. apply sq_nonneg. Qed.
Lemma close_sym : forall e a b, close e a b -> close e b a.
Proof. intros e a b H. unfold close in *. rewrite dist2_sym. auto. Qed.

(** ** find_map *)
Section Find.
Variable q : Q -> list point -> list (nat * nat).
Hypothesis Hq : pairs_spec q.
Variable eps : Q.
Definition no_doubles (x : list point) : Prop :=
  forall i j, i < j < length x -> ~ close eps (nth i x []) (nth j x []).
Definition matching (x1 x2 : list point) (cm : list nat * list nat) : Prop :=
  length (fst cm) = length (snd cm) /\
  forall i j, In (i, j) (combine (fst cm) (snd cm)) <->
    i < length x1 /\ j < length x2 /\ close eps (nth i x1 []) (nth j x2 []).
Lemma find_map_full : forall x1 x2, (no_doubles x1 /\ no_doubles x2 ->
    exists cm, find_map q eps false x1 x2 = Ok cm /\ matching x1 x2 cm) /\
  (~ (no_doubles x1 /\ no_doubles x2) -> find_map q eps false x1 x2 = Err ValueError).
Proof.
  intros x1 x2. unfold find_map. cbv zeta. destruct (Hq eps (x1 ++ x2)) as [Nd Hp]. set (cm := q eps (x1 ++ x2)) in *.
  set (d1 := filter (fun p : nat * nat => snd p <? length x1) cm).
  set (d2 := filter (fun p : nat * nat => length x1 <=? fst p) cm). split.
  - intros [N1 N2].
    assert (D : forall a b, In (a, b) cm -> a < length x1 <= b /\ b < length x1 + length x2 /\ close eps (nth a x1 []) (nth (b - length x1) x2 [])).
    { intros a b I. apply Hp in I. destruct I as [[L1 L2] C]. rewrite app_length in L2.
      destruct (le_lt_dec (length x1) a) as [A|A].
      { exfalso. rewrite !app_nth2 in C by lia. apply (N2 (a - length x1) (b - length x1)); [lia|]. exact C. }
      destruct (le_lt_dec (length x1) b) as [B|B]; [|exfalso; rewrite !app_nth1 in C by lia; apply (N1 a b); [lia|exact C]].
      rewrite app_nth1, app_nth2 in C by lia. repeat split; auto. }
    assert (Z1 : d1 = []).
    { destruct d1 as [|[a b] l] eqn:E; auto. assert (I : In (a, b) d1) by (rewrite E; left; auto). apply filter_In in I.
      destruct I as [I L]. apply D in I. apply Nat.ltb_lt in L. cbn in L. lia. }
    assert (Z2 : d2 = []).
    { destruct d2 as [|[a b] l] eqn:E; auto. assert (I : In (a, b) d2) by (rewrite E; left; auto). apply filter_In in I.
      destruct I as [I L]. apply D in I. apply Nat.leb_le in L. cbn in L. lia. }
    rewrite Z1, Z2. cbn. eexists. split; [reflexivity|]. split; cbn [fst snd]; [rewrite !map_length; auto|].
    intros i j. assert (Ec : combine (map fst cm) (map (fun p => snd p - length x1) cm) = map (fun p => (fst p, snd p - length x1)) cm).
    { clear. induction cm; simpl; congruence. }
    rewrite Ec, in_map_iff. split.
    + intros ([a b] & E & I). cbn in E. injection E as <- <-. apply D in I. repeat split; try lia. apply I.
    + intros (L1 & L2 & C). exists (i, j + length x1). cbn. split; [f_equal; lia|]. apply Hp. rewrite app_length. split; [lia|].
      rewrite app_nth1, app_nth2 by lia. replace (j + length x1 - length x1) with j by lia. exact C.
  - intros N. destruct (Nat.eqb_spec (length d1 + length d2) 0) as [E|E]; [|auto]. exfalso. apply N. split.
    + intros i j L C. assert (I : In (i, j) d1).
      { apply filter_In. split; [|apply Nat.ltb_lt; cbn; lia]. apply Hp. rewrite app_length. split; [lia|]. rewrite !app_nth1 by lia. exact C. }
      destruct d1; [destruct I|cbn in E; lia].
    + intros i j L C. assert (I : In (i + length x1, j + length x1) d2).
      { apply filter_In. split; [|apply Nat.leb_le; cbn; lia]. apply Hp. rewrite app_length. split; [lia|]. rewrite !app_nth2 by lia.
        replace (i + length x1 - length x1) with i by lia. replace (j + length x1 - length x1) with j by lia. exact C. }
      destruct d2; [destruct I|cbn in E; lia].
Qed.
End Find.
