(** Specification: directed graphs given as association lists
    (name, list of names it depends on). *)
From Verif Require Import Base.
From Coq Require Import Relations.
Open Scope nat_scope.

Definition depends (g : list (nat * list nat)) (x y : nat) : Prop :=
  exists ds, In (x, ds) g /\ In y ds.
(** All names referred to are defined. *)
Definition closed (g : list (nat * list nat)) : Prop :=
  forall x y, depends g x y -> In y (map fst g).
Definition cyclic (g : list (nat * list nat)) : Prop := exists x, clos_trans nat (depends g) x x.
(** Everything in the list comes after all it depends on. *)
Definition deps_first (g : list (nat * list nat)) (out : list nat) : Prop :=
  forall l1 x l2, out = l1 ++ x :: l2 -> forall y, depends g x y -> In y l1.

(** A nonempty finite set where everything has a successor contains a cycle. *)
Lemma walk : forall (R : nat -> nat -> Prop) (U : list nat), (forall x, In x U -> exists y, In y U /\ R x y) ->
  forall n x, In x U -> exists w, length w = n /\ incl (x :: w) U /\
    forall i, i < n -> R (nth i (x :: w) 0) (nth (S i) (x :: w) 0).
Proof.
  intros R U H. induction n as [|n IH]; intros x Hx.
  - exists []. split; auto. split; [intros y [<-|[]]; auto|]. intros; lia.
  - destruct (H x Hx) as (y & Hy & Rxy). destruct (IH y Hy) as (w & Lw & Iw & Rw).
    exists (y :: w). split; [simpl; lia|]. split; [intros z [<-|Hz]; auto|].
    intros [|i] Hi; [exact Rxy|]. apply (Rw i). lia.
Qed.

Lemma path_tc : forall (R : nat -> nat -> Prop) w n, (forall i, i < n -> R (nth i w 0) (nth (S i) w 0)) ->
  forall i k, i + S k <= n -> clos_trans nat R (nth i w 0) (nth (i + S k) w 0).
Proof.
  intros R w n H i k. induction k; intros Hk.
  - apply t_step. rewrite Nat.add_1_r. apply H. lia.
  - apply t_trans with (nth (i + S k) w 0); [apply IHk; lia|]. apply t_step.
    replace (i + S (S k)) with (S (i + S k)) by lia. apply H. lia.
Qed.

Lemma cycle_exists : forall (R : nat -> nat -> Prop) (U : list nat), U <> [] ->
  (forall x, In x U -> exists y, In y U /\ R x y) -> exists x, In x U /\ clos_trans nat R x x.
Proof.
  intros R U HU H. destruct U as [|x0 U']; [congruence|]. set (U := x0 :: U') in *.
  destruct (walk R U H (length U) x0 (or_introl eq_refl)) as (w & Lw & Iw & Rw).
  assert (ND : ~ NoDup (x0 :: w)).
  { intros ND. pose proof (NoDup_incl_length ND Iw) as Hl. simpl in Hl. rewrite Lw in Hl. simpl in Hl. lia. }
  assert (EX : exists i j, i < j < S (length U) /\ nth i (x0 :: w) 0 = nth j (x0 :: w) 0).
  { destruct (existsb (fun i => existsb (fun j => (i <? j) && (nth i (x0 :: w) 0 =? nth j (x0 :: w) 0)) (seq 0 (S (length U))))
               (seq 0 (S (length U)))) eqn:E.
    - apply existsb_exists in E. destruct E as (i & Hi & E). apply existsb_exists in E. destruct E as (j & Hj & E).
      apply andb_true_iff in E. destruct E as [E1 E2]. apply Nat.ltb_lt in E1. apply Nat.eqb_eq in E2.
      apply in_seq in Hi. apply in_seq in Hj. exists i, j. split; [lia|auto].
    - exfalso. apply ND. apply (NoDup_nth _ 0). 
      assert (F : forall i j, i < j < S (length U) -> nth i (x0 :: w) 0 <> nth j (x0 :: w) 0).
      { intros i j Hij Heq. apply not_true_iff_false in E. apply E. apply existsb_exists. exists i.
        split; [apply in_seq; lia|]. apply existsb_exists. exists j. split; [apply in_seq; lia|].
        apply andb_true_iff. split; [apply Nat.ltb_lt; lia|apply Nat.eqb_eq; auto]. }
      intros i j Hi Hj Heq. cbn [length] in Hi, Hj. rewrite Lw in Hi, Hj.
      destruct (Nat.lt_trichotomy i j) as [L|[L|L]]; auto; exfalso; [apply (F i j)|apply (F j i)]; auto. }
  destruct EX as (i & j & Hij & Heq). exists (nth i (x0 :: w) 0). split.
  - apply Iw. apply nth_In. simpl. rewrite Lw. lia.
  - rewrite Heq at 2. replace j with (i + S (j - i - 1)) by lia. apply path_tc with (n := length U); auto. lia.
Qed.
