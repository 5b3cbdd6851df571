(** Lists seen as NumPy arrays: fancy indexing, fancy assignment, [nonzero],
    and the generic lemmas used everywhere.  No sfepy code is modelled here;
    these are the NumPy primitives the modelled code calls. *)
From Coq Require Export List Arith ZArith Lia Bool Sorted Permutation.
Export ListNotations.
Set Implicit Arguments.
Set Asymmetric Patterns.

(** Exceptions as values. *)
Inductive err := ValueError | IndexError | KeyError | TypeError | NameError
               | RuntimeError | AssertionError | EOFError | OutOfFuel.
Inductive res (A : Type) := Ok (a : A) | Err (e : err).
Arguments Ok {A} a. Arguments Err {A} e.
Definition bind {A B} (x : res A) (f : A -> res B) : res B :=
  match x with Ok a => f a | Err e => Err e end.
Notation "'do' x <- e1 ; e2" := (bind e1 (fun x => e2))
  (at level 200, x pattern, e1 at level 100, e2 at level 200).

(** [a[i] = x]; out-of-range indices (IndexError in NumPy) leave [a] as is,
    theorems using [upd] state that the indices are in range. *)
Fixpoint upd {A} (l : list A) (i : nat) (x : A) : list A :=
  match l, i with
  | [], _ => []
  | _ :: t, 0 => x :: t
  | h :: t, S i' => h :: upd t i' x
  end.

(** [a[is] = xs] : NumPy fancy assignment, later positions win. *)
Fixpoint put {A} (l : list A) (is : list nat) (xs : list A) : list A :=
  match is, xs with
  | i :: is', x :: xs' => put (upd l i x) is' xs'
  | _, _ => l
  end.

(** [a[is] = x] with a scalar [x]. *)
Definition put1 {A} (l : list A) (is : list nat) (x : A) : list A :=
  fold_left (fun l i => upd l i x) is l.

(** [a[is]] : fancy indexing ([d] stands for IndexError). *)
Definition take {A} (d : A) (l : list A) (is : list nat) : list A :=
  map (fun i => nth i l d) is.

(** [nm.nonzero(p(a))[0]] : increasing indices of the items satisfying [p]. *)
Fixpoint nonzero_from {A} (p : A -> bool) (l : list A) (k : nat) : list nat :=
  match l with
  | [] => []
  | x :: t => if p x then k :: nonzero_from p t (S k) else nonzero_from p t (S k)
  end.
Definition nonzero {A} (p : A -> bool) (l : list A) : list nat :=
  nonzero_from p l 0.

(** [nm.unique(a)] : the sorted distinct items. *)
Fixpoint insertu (x : nat) (l : list nat) : list nat :=
  match l with
  | [] => [x]
  | y :: t => if x <? y then x :: l else if x =? y then l else y :: insertu x t
  end.
Definition unique (l : list nat) : list nat := fold_right insertu [] l.

Definition memb (x : nat) (l : list nat) : bool := existsb (Nat.eqb x) l.

Definition union1d (a b : list nat) : list nat := unique (a ++ b).
Definition intersect1d (a b : list nat) : list nat :=
  filter (fun x => memb x b) (unique a).
Definition setdiff1d (a b : list nat) : list nat :=
  filter (fun x => negb (memb x b)) (unique a).

(** Strictly increasing lists. *)
Definition sinc (l : list nat) : Prop := StronglySorted lt l.

(** ** Lemmas *)

Lemma length_upd : forall A (l : list A) i x, length (upd l i x) = length l.
Proof. induction l as [|h t IH]; intros [|i] x; simpl; auto. Qed.

Lemma nth_upd : forall A (l : list A) i x j d,
  nth j (upd l i x) d = if (j =? i) && (i <? length l) then x else nth j l d.
Proof.
  induction l as [|h t IH]; intros [|i] x [|j] d; simpl; auto.
  - rewrite andb_false_r; reflexivity.
  - rewrite IH. reflexivity.
Qed.

Lemma nth_upd_eq : forall A (l : list A) i x d, i < length l -> nth i (upd l i x) d = x.
Proof.
  intros. rewrite nth_upd, Nat.eqb_refl.
  destruct (Nat.ltb_spec i (length l)); simpl; auto; lia.
Qed.

Lemma nth_upd_neq : forall A (l : list A) i x j d, j <> i -> nth j (upd l i x) d = nth j l d.
Proof. intros. rewrite nth_upd. destruct (Nat.eqb_spec j i); simpl; auto; lia. Qed.

Lemma length_put : forall A is (xs l : list A), length (put l is xs) = length l.
Proof.
  induction is as [|i is IH]; intros [|x xs] l; simpl; auto. rewrite IH, length_upd; auto.
Qed.

Lemma put_notin : forall A is (xs l : list A) j d,
  ~ In j is -> nth j (put l is xs) d = nth j l d.
Proof.
  induction is as [|i is IH]; intros [|x xs] l j d H; simpl; auto.
  rewrite IH; [|intros Hi; apply H; right; exact Hi].
  apply nth_upd_neq. intros ->; apply H; left; auto.
Qed.

(** Assignment to distinct in-range positions. *)
Lemma put_nth : forall A is (xs l : list A) k d,
  NoDup is -> (forall i, In i is -> i < length l) -> length xs = length is ->
  k < length is -> nth (nth k is 0) (put l is xs) d = nth k xs d.
Proof.
  induction is as [|i is IH]; intros [|x xs] l k d Hn Hb Hl Hk; simpl in *; try lia.
  inversion Hn as [|? ? Hni Hn']; subst.
  destruct k as [|k].
  - rewrite put_notin by auto. apply nth_upd_eq. apply Hb; auto.
  - apply IH; auto; try lia. intros; rewrite length_upd; apply Hb; auto.
Qed.

(** [put] when the assigned values are a function of the position: duplicates
    do not matter. *)
Lemma put_fun : forall A (f : nat -> A) is l j d,
  (forall i, In i is -> i < length l) ->
  nth j (put l is (map f is)) d = if in_dec Nat.eq_dec j is then f j else nth j l d.
Proof.
  induction is as [|i is IH]; intros l j d Hb; simpl; auto.
  rewrite IH by (intros; rewrite length_upd; apply Hb; simpl; auto).
  destruct (in_dec Nat.eq_dec j is) as [Hj|Hj]; destruct (Nat.eq_dec i j) as [->|Hij]; auto.
  - apply nth_upd_eq. apply Hb; simpl; auto.
  - apply nth_upd_neq; auto.
Qed.

(** Last value assigned to [j] by [a[is] = xs]. *)
Fixpoint lastval {A} (is : list nat) (xs : list A) (j : nat) : option A :=
  match is, xs with
  | i :: is', x :: xs' =>
      match lastval is' xs' j with
      | Some v => Some v
      | None => if i =? j then Some x else None
      end
  | _, _ => None
  end.

Lemma put_lastval : forall A is (xs l : list A) j d,
  (forall i, In i is -> i < length l) ->
  nth j (put l is xs) d = match lastval is xs j with Some v => v | None => nth j l d end.
Proof.
  induction is as [|i is IH]; intros [|x xs] l j d Hb; simpl; auto.
  rewrite IH by (intros; rewrite length_upd; apply Hb; simpl; auto).
  destruct (lastval is xs j); auto.
  rewrite nth_upd. rewrite (Nat.eqb_sym j i).
  destruct (Nat.eqb_spec i j) as [->|]; simpl; auto.
  destruct (Nat.ltb_spec j (length l)); auto.
  assert (j < length l) by (apply Hb; simpl; auto). lia.
Qed.

Lemma lastval_some_in : forall A is (xs : list A) j v, lastval is xs j = Some v -> In j is.
Proof.
  induction is as [|i is IH]; intros [|x xs] j v H; simpl in *; try discriminate.
  destruct (lastval is xs j) eqn:E.
  - right; eapply IH; eauto.
  - destruct (Nat.eqb_spec i j); [left; auto|discriminate].
Qed.

Lemma lastval_in : forall A is (xs : list A) j,
  length xs = length is -> In j is -> exists v, lastval is xs j = Some v.
Proof.
  induction is as [|i is IH]; intros [|x xs] j Hl Hj; simpl in *; try tauto; try lia.
  destruct (lastval is xs j) eqn:E; eauto.
  destruct Hj as [->|Hj]; [rewrite Nat.eqb_refl; eauto|].
  destruct (IH xs j) as [v Hv]; auto. congruence.
Qed.

Lemma length_put1 : forall A is (l : list A) x, length (put1 l is x) = length l.
Proof.
  unfold put1; induction is as [|i is IH]; intros l x; simpl; auto. rewrite IH, length_upd; auto.
Qed.

Lemma nth_put1 : forall A is (l : list A) x j d,
  j < length l ->
  nth j (put1 l is x) d = if in_dec Nat.eq_dec j is then x else nth j l d.
Proof.
  unfold put1; induction is as [|i is IH]; intros l x j d Hj; simpl; auto.
  rewrite IH by (rewrite length_upd; auto).
  destruct (in_dec Nat.eq_dec j is); destruct (Nat.eq_dec i j) as [->|Hij]; auto.
  - apply nth_upd_eq; auto.
  - apply nth_upd_neq; auto.
Qed.

Lemma nonzero_from_spec : forall A (p : A -> bool) d l k i,
  In i (nonzero_from p l k) <-> k <= i < k + length l /\ p (nth (i - k) l d) = true.
Proof.
  intros A p d. induction l as [|x t IH]; intros k i; simpl.
  - split; [tauto|lia].
  - assert (HS : forall i, S k <= i -> i - k = S (i - S k)) by lia.
    destruct (p x) eqn:E; simpl; rewrite ?IH; clear IH; split.
    + intros [<-|[H1 H2]].
      * rewrite Nat.sub_diag. split; auto; lia.
      * split; [lia|]. rewrite HS by lia. exact H2.
    + intros [H1 H2]. destruct (Nat.eq_dec k i); [left; auto|right].
      split; [lia|]. rewrite HS in H2 by lia. exact H2.
    + intros [H1 H2]. split; [lia|]. rewrite HS by lia. exact H2.
    + intros [H1 H2]. destruct (Nat.eq_dec k i) as [->|].
      * rewrite Nat.sub_diag in H2. congruence.
      * split; [lia|]. rewrite HS in H2 by lia. exact H2.
Qed.

Lemma nonzero_spec : forall A (p : A -> bool) d l i,
  In i (nonzero p l) <-> i < length l /\ p (nth i l d) = true.
Proof.
  intros. unfold nonzero. rewrite (nonzero_from_spec _ d). rewrite Nat.sub_0_r.
  split; intros [H1 H2]; split; auto; lia.
Qed.

Lemma nonzero_from_ge : forall A (p : A -> bool) l k i, In i (nonzero_from p l k) -> k <= i.
Proof.
  induction l as [|x t IH]; intros k i H; simpl in *; [tauto|].
  destruct (p x); [destruct H as [<-|H]; [lia|]|]; apply IH in H; lia.
Qed.

Lemma nonzero_from_sinc : forall A (p : A -> bool) l k, sinc (nonzero_from p l k).
Proof.
  induction l as [|x t IH]; intros k; simpl; [constructor|].
  destruct (p x); [|apply IH]. constructor; [apply IH|].
  apply Forall_forall. intros i Hi. apply nonzero_from_ge in Hi. lia.
Qed.

Lemma nonzero_sinc : forall A (p : A -> bool) l, sinc (nonzero p l).
Proof. intros; apply nonzero_from_sinc. Qed.

Lemma sinc_NoDup : forall l, sinc l -> NoDup l.
Proof.
  induction 1 as [|x l Hs IH Hf]; constructor; auto.
  intros Hi. rewrite Forall_forall in Hf. apply Hf in Hi. lia.
Qed.

(** Two strictly increasing lists with the same members are equal. *)
Lemma sinc_ext : forall a b, sinc a -> sinc b -> (forall x, In x a <-> In x b) -> a = b.
Proof.
  induction a as [|x a IH]; intros b Ha Hb H.
  - destruct b as [|y b]; auto. destruct (proj2 (H y)); simpl; auto.
  - destruct b as [|y b]; [destruct (proj1 (H x)); simpl; auto|].
    inversion Ha as [|? ? Ha' Hax]; subst. inversion Hb as [|? ? Hb' Hbx]; subst.
    rewrite Forall_forall in *.
    assert (x = y).
    { destruct (proj1 (H x)) as [E|E]; simpl; auto.
      destruct (proj2 (H y)) as [F|F]; simpl; auto.
      apply Hax in F. apply Hbx in E. lia. }
    subst y. f_equal. apply IH; auto. intros z. split; intros Hz.
    + destruct (proj1 (H z)) as [E|E]; simpl; auto. subst. apply Hax in Hz; lia.
    + destruct (proj2 (H z)) as [E|E]; simpl; auto. subst. apply Hbx in Hz; lia.
Qed.

Lemma sinc_filter : forall p l, sinc l -> sinc (filter p l).
Proof.
  induction 1 as [|x l Hs IH Hf]; simpl; [constructor|].
  destruct (p x); auto. constructor; auto.
  rewrite Forall_forall in *. intros y Hy. apply filter_In in Hy. apply Hf; tauto.
Qed.

Lemma sinc_seq : forall n k, sinc (seq k n).
Proof.
  induction n as [|n IH]; intros k; simpl; constructor; auto; [apply IH|].
  apply Forall_forall. intros x Hx. apply in_seq in Hx. lia.
Qed.

Lemma insertu_In : forall x y l, In y (insertu x l) <-> y = x \/ In y l.
Proof.
  induction l as [|z t IH]; simpl.
  - intuition.
  - destruct (Nat.ltb_spec x z); [simpl; intuition|].
    destruct (Nat.eqb_spec x z); [subst; simpl; intuition|].
    simpl. rewrite IH. intuition.
Qed.

Lemma insertu_sinc : forall x l, sinc l -> sinc (insertu x l).
Proof.
  induction 1 as [|y t Hs IH Hf]; simpl; [repeat constructor|].
  rewrite Forall_forall in Hf.
  destruct (Nat.ltb_spec x y).
  - constructor; [constructor; auto; apply Forall_forall; auto|].
    apply Forall_forall. simpl. intros z [<-|Hz]; auto. apply Hf in Hz; lia.
  - destruct (Nat.eqb_spec x y); [constructor; auto; apply Forall_forall; auto|].
    constructor; auto. apply Forall_forall. intros z Hz. apply insertu_In in Hz.
    destruct Hz as [->|Hz]; auto; lia.
Qed.

Lemma unique_In : forall x l, In x (unique l) <-> In x l.
Proof.
  induction l as [|y t IH]; simpl; [tauto|]. rewrite insertu_In, IH. intuition.
Qed.

Lemma unique_sinc : forall l, sinc (unique l).
Proof. induction l as [|y t IH]; simpl; [constructor|apply insertu_sinc; auto]. Qed.

Lemma memb_In : forall x l, memb x l = true <-> In x l.
Proof.
  unfold memb; intros. rewrite existsb_exists. split.
  - intros [y [H E]]. apply Nat.eqb_eq in E. congruence.
  - intros H. exists x. rewrite Nat.eqb_refl. auto.
Qed.

Lemma memb_false : forall x l, memb x l = false <-> ~ In x l.
Proof.
  intros. rewrite <- memb_In. destruct (memb x l); split; intros; try congruence; tauto.
Qed.

Lemma union1d_In : forall x a b, In x (union1d a b) <-> In x a \/ In x b.
Proof. intros. unfold union1d. rewrite unique_In, in_app_iff. tauto. Qed.

Lemma intersect1d_In : forall x a b, In x (intersect1d a b) <-> In x a /\ In x b.
Proof. intros. unfold intersect1d. rewrite filter_In, unique_In, memb_In. tauto. Qed.

Lemma setdiff1d_In : forall x a b, In x (setdiff1d a b) <-> In x a /\ ~ In x b.
Proof.
  intros. unfold setdiff1d. rewrite filter_In, unique_In, negb_true_iff, memb_false. tauto.
Qed.

Lemma union1d_sinc : forall a b, sinc (union1d a b).
Proof. intros; apply unique_sinc. Qed.
Lemma intersect1d_sinc : forall a b, sinc (intersect1d a b).
Proof. intros; apply sinc_filter, unique_sinc. Qed.
Lemma setdiff1d_sinc : forall a b, sinc (setdiff1d a b).
Proof. intros; apply sinc_filter, unique_sinc. Qed.

Lemma length_take : forall A (d : A) l is, length (take d l is) = length is.
Proof. intros; apply map_length. Qed.

Lemma nth_take : forall A (d : A) l is k d', k < length is ->
  nth k (take d l is) d' = nth (nth k is 0) l d.
Proof.
  intros. unfold take.
  rewrite nth_indep with (d' := (fun i => nth i l d) 0) by (rewrite map_length; auto).
  rewrite (map_nth (fun i => nth i l d)). auto.
Qed.

Lemma nth_seq0 : forall n k, k < n -> nth k (seq 0 n) 0 = k.
Proof. intros. rewrite seq_nth; lia. Qed.

Lemma nth_repeat_lt : forall A (x d : A) n k, k < n -> nth k (repeat x n) d = x.
Proof.
  induction n as [|n IH]; intros k H; [lia|]. destruct k; simpl; auto. apply IH; lia.
Qed.

Lemma list_ext : forall A (a b : list A) d,
  length a = length b -> (forall i, i < length a -> nth i a d = nth i b d) -> a = b.
Proof.
  induction a as [|x a IH]; intros [|y b] d Hl H; simpl in *; try lia; auto.
  f_equal. apply (H 0); lia. apply IH with (d := d); [lia|].
  intros i Hi. apply (H (S i)); lia.
Qed.

Lemma nth_map_in : forall A B (f : A -> B) l k da db, k < length l ->
  nth k (map f l) db = f (nth k l da).
Proof.
  intros. rewrite nth_indep with (d' := f da) by (rewrite map_length; auto). apply map_nth.
Qed.

Lemma in_nth_ex : forall A (l : list A) x d, In x l -> exists k, k < length l /\ nth k l d = x.
Proof. intros. apply In_nth; auto. Qed.

Lemma NoDup_app_inv : forall A (a b : list A), NoDup (a ++ b) ->
  NoDup a /\ NoDup b /\ (forall x, In x a -> ~ In x b).
Proof.
  induction a as [|x a IH]; intros b H; simpl in *.
  - repeat split; auto; constructor.
  - inversion H as [|? ? Hn H']; subst. destruct (IH _ H') as (A1 & A2 & A3).
    rewrite in_app_iff in Hn. repeat split; auto.
    + constructor; tauto.
    + intros y [->|Hy]; [tauto|auto].
Qed.
Lemma NoDup_app_remove_r : forall A (a b : list A), NoDup (a ++ b) -> NoDup a.
Proof. intros A a b H; apply NoDup_app_inv in H; tauto. Qed.
Lemma NoDup_app_remove_l : forall A (a b : list A), NoDup (a ++ b) -> NoDup b.
Proof. intros A a b H; apply NoDup_app_inv in H; tauto. Qed.
