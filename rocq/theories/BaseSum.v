(** Finite sums over a commutative semiring, dense matrices as functions. *)
From Coq Require Export Ring_theory.
From Verif Require Import Base.
Open Scope nat_scope.

Section Sums.
Variable V : Type.
Variables (v0 v1 : V) (add mul : V -> V -> V).

(** Sum of a list; [bigsum n f] = f 0 + ... + f (n-1). *)
Definition lsum (l : list V) : V := fold_right add v0 l.
Definition bigsum (n : nat) (f : nat -> V) : V := lsum (map f (seq 0 n)).
Definition ind (b : bool) (x : V) : V := if b then x else v0.

Hypothesis SR : semi_ring_theory v0 v1 add mul eq.

Lemma add0l : forall x, add v0 x = x. Proof. apply (SRadd_0_l SR). Qed.
Lemma addC : forall x y, add x y = add y x. Proof. apply (SRadd_comm SR). Qed.
Lemma addA : forall x y z, add x (add y z) = add (add x y) z. Proof. apply (SRadd_assoc SR). Qed.
Lemma add0r : forall x, add x v0 = x. Proof. intros; rewrite addC; apply add0l. Qed.
Lemma mul0l : forall x, mul v0 x = v0. Proof. apply (SRmul_0_l SR). Qed.
Lemma mul1l : forall x, mul v1 x = x. Proof. apply (SRmul_1_l SR). Qed.
Lemma mulC : forall x y, mul x y = mul y x. Proof. apply (SRmul_comm SR). Qed.
Lemma mul0r : forall x, mul x v0 = v0. Proof. intros; rewrite mulC; apply mul0l. Qed.
Lemma mul1r : forall x, mul x v1 = x. Proof. intros; rewrite mulC; apply mul1l. Qed.
Lemma mulA : forall x y z, mul x (mul y z) = mul (mul x y) z. Proof. apply (SRmul_assoc SR). Qed.
Lemma distl : forall x y z, mul (add x y) z = add (mul x z) (mul y z). Proof. apply (SRdistr_l SR). Qed.
Lemma distr : forall x y z, mul z (add x y) = add (mul z x) (mul z y).
Proof. intros. rewrite mulC, distl. f_equal; apply mulC. Qed.
Lemma addAC : forall x y z w, add (add x y) (add z w) = add (add x z) (add y w).
Proof. intros. rewrite <- !addA. f_equal. rewrite !addA. f_equal. apply addC. Qed.

Lemma lsum_app : forall a b, lsum (a ++ b) = add (lsum a) (lsum b).
Proof. induction a; intros; simpl; [rewrite add0l; auto|rewrite IHa, addA; auto]. Qed.

Lemma lsum_perm : forall a b, Permutation a b -> lsum a = lsum b.
Proof.
  induction 1; simpl; auto; try congruence.
  rewrite !addA. f_equal. apply addC.
Qed.

Lemma lsum_zero : forall A (f : A -> V) l, (forall x, In x l -> f x = v0) -> lsum (map f l) = v0.
Proof.
  induction l; simpl; intros H; auto. rewrite IHl, (H a) by auto. apply add0l.
Qed.

Lemma lsum_add : forall A (f g : A -> V) l,
  lsum (map (fun x => add (f x) (g x)) l) = add (lsum (map f l)) (lsum (map g l)).
Proof.
  induction l; simpl; [rewrite add0l; auto|]. rewrite IHl. apply addAC.
Qed.

Lemma lsum_mull : forall A (f : A -> V) c l, mul c (lsum (map f l)) = lsum (map (fun x => mul c (f x)) l).
Proof. induction l; simpl; [apply mul0r|]. rewrite distr, IHl; auto. Qed.
Lemma lsum_mulr : forall A (f : A -> V) c l, mul (lsum (map f l)) c = lsum (map (fun x => mul (f x) c) l).
Proof. induction l; simpl; [apply mul0l|]. rewrite distl, IHl; auto. Qed.

Lemma lsum_swap : forall A B (f : A -> B -> V) la lb,
  lsum (map (fun a => lsum (map (f a) lb)) la) = lsum (map (fun b => lsum (map (fun a => f a b) la)) lb).
Proof.
  induction la; simpl; intros lb.
  - symmetry. apply lsum_zero. auto.
  - rewrite IHla. symmetry. apply lsum_add.
Qed.

Lemma lsum_ext : forall A (f g : A -> V) l, (forall x, In x l -> f x = g x) -> lsum (map f l) = lsum (map g l).
Proof. intros. f_equal. apply map_ext_in; auto. Qed.

Lemma lsum_filter : forall A (f : A -> V) p l,
  lsum (map f (filter p l)) = lsum (map (fun x => ind (p x) (f x)) l).
Proof.
  induction l; simpl; auto. destruct (p a); simpl; rewrite IHl; auto. rewrite add0l; auto.
Qed.

Lemma lsum_concat : forall A B (f : A -> V) (g : B -> list A) l,
  lsum (map f (concat (map g l))) = lsum (map (fun b => lsum (map f (g b))) l).
Proof.
  induction l; simpl; auto. rewrite map_app, lsum_app, IHl; auto.
Qed.

(** Sum with a single nonzero term in a duplicate-free list. *)
Lemma lsum_single : forall A (f : A -> V) l x, NoDup l -> In x l ->
  (forall y, In y l -> y <> x -> f y = v0) -> lsum (map f l) = f x.
Proof.
  induction l; intros x ND Hin Hz; [destruct Hin|]. simpl in *. destruct Hin as [->|H].
  - rewrite lsum_zero; [apply add0r|]. intros y Hy. apply Hz; auto.
    intros ->. inversion ND; auto.
  - inversion ND; subst. rewrite (Hz a), add0l; auto.
    intros ->; auto.
Qed.

Lemma bigsum_ext : forall n f g, (forall i, i < n -> f i = g i) -> bigsum n f = bigsum n g.
Proof. intros. apply lsum_ext. intros x Hx. apply in_seq in Hx. apply H; lia. Qed.
Lemma bigsum_single : forall n f i, i < n -> (forall j, j < n -> j <> i -> f j = v0) -> bigsum n f = f i.
Proof.
  intros. apply lsum_single; [apply seq_NoDup|apply in_seq; lia|].
  intros y Hy. apply in_seq in Hy. apply H0; lia.
Qed.
Lemma bigsum_zero : forall n f, (forall j, j < n -> f j = v0) -> bigsum n f = v0.
Proof. intros. apply lsum_zero. intros y Hy. apply in_seq in Hy. apply H; lia. Qed.
Lemma bigsum_swap : forall n m f, bigsum n (fun i => bigsum m (f i)) = bigsum m (fun j => bigsum n (fun i => f i j)).
Proof. intros. apply lsum_swap. Qed.
Lemma bigsum_mull : forall n f c, mul c (bigsum n f) = bigsum n (fun i => mul c (f i)).
Proof. intros. apply lsum_mull. Qed.
Lemma bigsum_mulr : forall n f c, mul (bigsum n f) c = bigsum n (fun i => mul (f i) c).
Proof. intros. apply lsum_mulr. Qed.
Lemma bigsum_add : forall n f g, bigsum n (fun i => add (f i) (g i)) = add (bigsum n f) (bigsum n g).
Proof. intros. apply lsum_add. Qed.

(** Sum of indicators of a function value, grouped by value. *)
Lemma bigsum_ind_eq : forall n i x, i < n -> bigsum n (fun j => ind (Nat.eqb i j) x) = x.
Proof.
  intros. rewrite (bigsum_single n _ i); auto.
  - unfold ind. rewrite Nat.eqb_refl; auto.
  - intros j Hj Hn. unfold ind. destruct (Nat.eqb_spec i j); congruence.
Qed.

Lemma mul_ind_l : forall b x y, mul (ind b x) y = ind b (mul x y).
Proof. intros [] x y; simpl; auto using mul0l. Qed.
Lemma mul_ind_r : forall b x y, mul y (ind b x) = ind b (mul y x).
Proof. intros [] x y; simpl; auto using mul0r. Qed.

End Sums.
Arguments lsum {V} v0 add l.
Arguments bigsum {V} v0 add n f.
Arguments ind {V} v0 b x.
