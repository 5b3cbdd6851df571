(** Specification for the quadratures: iterated integrals over the reference elements. *)
From Coq Require Import Reals Lra.
From Coq Require Import FunctionalExtensionality.
From Verif Require Import Base M_nls M_lagrange.
Set Implicit Arguments.
Open Scope R_scope.

(** The Riemann integral of f from a to b is v (the standard library's integral) *)
Definition is_RInt (f : R -> R) (a b v : R) : Prop := exists pr : Riemann_integrable f a b, RiemannInt pr = v.
(** The integral of f over the simplex { x | 0 <= x_k, x_1 + ... + x_n <= a } is v *)
Fixpoint simplex_int (n : nat) (a : R) (f : list R -> R) (v : R) : Prop :=
  match n with
  | O => f [] = v
  | S n => exists g, (forall x, 0 <= x <= a -> simplex_int n (a - x) (fun y => f (x :: y)) (g x)) /\ is_RInt g 0 a v
  end.
(** The integral of f over the cube [0, 1]^n is v *)
Fixpoint cube_int (n : nat) (f : list R -> R) (v : R) : Prop :=
  match n with
  | O => f [] = v
  | S n => exists g, (forall x, 0 <= x <= 1 -> cube_int n (fun y => f (x :: y)) (g x)) /\ is_RInt g 0 1 v
  end.
(** The integral of f over the wedge (triangle x [0, 1]) is v *)
Definition wedge_int (f : list R -> R) (v : R) : Prop :=
  exists g, (forall z, 0 <= z <= 1 -> simplex_int 2 1 (fun y => f (y ++ [z])) (g z)) /\ is_RInt g 0 1 v.

(** The integrals are unique *)
Lemma is_RInt_eq : forall f g a b v w, a <= b -> (forall x, a < x < b -> f x = g x) -> is_RInt f a b v -> is_RInt g a b w -> v = w.
Proof. intros f g a b v w L E (p & <-) (q & <-). apply RiemannInt_P18; auto. Qed.
Lemma is_RInt_extR : forall (f g : R -> R) a b v, (forall x, f x = g x) -> is_RInt f a b v -> is_RInt g a b v.
Proof. intros f g a b v H I. replace g with f; auto. apply functional_extensionality. auto. Qed.
Lemma is_RInt_lin : forall c d f g a b v w, is_RInt f a b v -> is_RInt g a b w -> is_RInt (fun x => c * f x + d * g x) a b (c * v + d * w).
Proof.
  intros c d f g a b v w (p & <-) (q & <-). assert (z := RiemannInt_P14 a b 0).
  assert (p1 := RiemannInt_P10 c z p). assert (p2 := RiemannInt_P10 d p1 q).
  apply (@is_RInt_extR (fun x => fct_cte 0 x + c * f x + d * g x)); [intros; unfold fct_cte; ring|].
  exists p2. rewrite (RiemannInt_P13 p1 q p2), (RiemannInt_P13 z p p1), (RiemannInt_P15 z). ring.
Qed.
Lemma is_RInt_scal : forall c f a b v, is_RInt f a b v -> is_RInt (fun x => c * f x) a b (c * v).
Proof.
  intros c f a b v I. assert (L := @is_RInt_lin c 0 _ _ _ _ _ _ I I). replace (c * v) with (c * v + 0 * v) by ring. refine (@is_RInt_extR _ _ _ _ _ _ L). intros. cbv beta. ring.
Qed.
Lemma is_RInt_derive : forall F f a b, a <= b -> (forall x, derivable_pt_lim F x (f x)) -> continuity f -> is_RInt f a b (F b - F a).
Proof.
  intros F f a b L D C. set (pr := (fun x => exist _ (f x) (D x)) : derivable F).
  assert (CC : continuity (derive F pr)) by exact C.
  assert (RI : Riemann_integrable f a b) by (apply continuity_implies_RiemannInt; auto). exists RI.
  exact (@FTC_Riemann (@mkC1 F pr CC) a b RI).
Qed.
Lemma simplex_int_unique : forall n a f v w, 0 <= a -> simplex_int n a f v -> simplex_int n a f w -> v = w.
Proof.
  induction n as [|n IH]; intros a f v w A V W; [cbn in *; congruence|]. destruct V as (g & G & I), W as (h & H & J).
  refine (@is_RInt_eq _ _ _ _ _ _ _ _ I J); [auto|]. intros x X.
  apply (IH (a - x) (fun y => f (x :: y))); [lra|apply G; lra|apply H; lra].
Qed.
Lemma cube_int_unique : forall n f v w, cube_int n f v -> cube_int n f w -> v = w.
Proof.
  induction n as [|n IH]; intros f v w V W; [cbn in *; congruence|]. destruct V as (g & G & I), W as (h & H & J).
  refine (@is_RInt_eq _ _ _ _ _ _ _ _ I J); [lra|]. intros x X.
  apply (IH (fun y => f (x :: y))); [apply G; lra|apply H; lra].
Qed.
Lemma wedge_int_unique : forall f v w, wedge_int f v -> wedge_int f w -> v = w.
Proof.
  intros f v w (g & G & I) (h & H & J). refine (@is_RInt_eq _ _ _ _ _ _ _ _ I J); [lra|]. intros x X.
  apply (@simplex_int_unique 2 1 (fun y => f (y ++ [x]))); [lra|apply G; lra|apply H; lra].
Qed.
(** Linearity *)
Lemma simplex_int_ext : forall n a f g v, (forall x, length x = n -> f x = g x) -> simplex_int n a f v -> simplex_int n a g v.
Proof. induction n as [|n IH]; intros a f g v E V; [cbn in *; rewrite <- E; auto|]. destruct V as (h & H & I). exists h. split; auto. intros x X. apply (IH _ (fun y => f (x :: y))); auto. intros y Y. apply E. cbn. auto. Qed.
Lemma simplex_int_lin : forall n a c d f g v w, simplex_int n a f v -> simplex_int n a g w -> simplex_int n a (fun x => c * f x + d * g x) (c * v + d * w).
Proof.
  induction n as [|n IH]; intros a c d f g v w V W; [cbn in *; congruence|]. destruct V as (h & H & I), W as (k & K & J). exists (fun x => c * h x + d * k x). split; [intros; apply IH; auto|].
  apply is_RInt_lin; auto.
Qed.
Lemma cube_int_ext : forall n f g v, (forall x, length x = n -> f x = g x) -> cube_int n f v -> cube_int n g v.
Proof. induction n as [|n IH]; intros f g v E V; [cbn in *; rewrite <- E; auto|]. destruct V as (h & H & I). exists h. split; auto. intros x X. apply (IH (fun y => f (x :: y))); auto. intros y Y. apply E. cbn. auto. Qed.
Lemma cube_int_lin : forall n c d f g v w, cube_int n f v -> cube_int n g w -> cube_int n (fun x => c * f x + d * g x) (c * v + d * w).
Proof.
  induction n as [|n IH]; intros c d f g v w V W; [cbn in *; congruence|]. destruct V as (h & H & I), W as (k & K & J). exists (fun x => c * h x + d * k x). split; [intros; apply IH; auto|].
  apply is_RInt_lin; auto.
Qed.
Lemma wedge_int_lin : forall c d f g v w, wedge_int f v -> wedge_int g w -> wedge_int (fun x => c * f x + d * g x) (c * v + d * w).
Proof.
  intros c d f g v w (h & H & I) (k & K & J). exists (fun x => c * h x + d * k x). split; [intros; apply (@simplex_int_lin 2 1 c d (fun y => f (y ++ [z])) (fun y => g (y ++ [z]))); auto|].
  apply is_RInt_lin; auto.
Qed.
(** The value of the rule for f *)
Definition quad (coors : list (list R)) (weights : list R) (f : list R -> R) : R := fold_right Rplus 0 (map (fun cw => snd cw * f (fst cw)) (combine coors weights)).
(** The closed reference simplex *)
Definition unit_simplex (n : nat) (x : list R) : Prop := length x = n /\ (forall k, (k < n)%nat -> 0 <= nth k x 0) /\ fold_right Rplus 0 x <= 1.
Definition unit_cube (n : nat) (x : list R) : Prop := length x = n /\ forall k, (k < n)%nat -> 0 <= nth k x 0 <= 1.
(** The reference elements *)
Inductive kind := Simplex (n : nat) | Cube (n : nat) | Wedge.
Definition kdim (k : kind) : nat := match k with Simplex n | Cube n => n | Wedge => 3%nat end.
(** The integral of f over the element is v *)
Definition kind_int (k : kind) (f : list R -> R) (v : R) : Prop :=
  match k with Simplex n => simplex_int n 1 f v | Cube n => cube_int n f v | Wedge => wedge_int f v end.
(** The point is in the closed element *)
Definition kind_in (k : kind) (x : list R) : Prop :=
  match k with Simplex n => unit_simplex n x | Cube n => unit_cube n x | Wedge => unit_cube 3 x /\ nth 0 x 0 + nth 1 x 0 <= 1 end.
(** Polynomials as lists of coefficients and exponents *)
Definition monomial (es : list nat) (x : list R) : R := fold_right Rmult 1 (map (fun p => fst p ^ snd p) (combine x es)).
Definition polyval (p : list (R * list nat)) (x : list R) : R := fold_right Rplus 0 (map (fun ce => fst ce * monomial (snd ce) x) p).
Definition coef_sum (p : list (R * list nat)) : R := fold_right Rplus 0 (map (fun ce => Rabs (fst ce)) p).
(** A rule integrates all combinations of the monomials selected by ok up to a relative error tol *)
Definition integrates (k : kind) (ok : list nat -> Prop) (tol : R) (coors : list (list R)) (weights : list R) : Prop :=
  length coors = length weights /\ forall p, (forall c es, In (c, es) p -> length es = kdim k /\ ok es) ->
    exists v, kind_int k (polyval p) v /\ Rabs (quad coors weights (polyval p) - v) <= tol * coef_sum p.
(** total degree at most o; degree at most o in each coordinate; in the triangle and in z *)
Definition total_degree (o : nat) (es : list nat) : Prop := (list_sum es <= o)%nat.
Definition each_degree (o : nat) (es : list nat) : Prop := Forall (fun e => e <= o)%nat es.
Definition wedge_degree (o : nat) (es : list nat) : Prop := (nth 0 es 0 + nth 1 es 0 <= o)%nat /\ (nth 2 es 0 <= o)%nat.
