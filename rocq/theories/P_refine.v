(** C139: geometry of uniform refinement. *)
From Coq Require Import Reals Lra Lia Permutation.
From Verif Require Import Base M_mesh M_lagnodes M_fmf L_fmf M_map S_map M_refine P_mgeo L_refine.
Open Scope R_scope.

(** ** Specification *)
(** Closed and open reference cells *)
Definition inref (g : geom) (x : nat -> R) : Prop :=
  if simplexb g then (forall i, (i < gdim g)%nat -> 0 <= x i) /\ sm (gdim g) x <= 1 else forall i, (i < gdim g)%nat -> 0 <= x i <= 1.
Definition inopen (g : geom) (x : nat -> R) : Prop :=
  if simplexb g then (forall i, (i < gdim g)%nat -> 0 < x i) /\ sm (gdim g) x < 1 else forall i, (i < gdim g)%nat -> 0 < x i < 1.
(** [n] affine maps that subdivide the reference cell to [n] parts of the same volume with the same orientation *)
Definition subdivision (g : geom) (n : nat) (A : nat -> (nat -> R) -> nat -> R) : Prop :=
  (forall s, (s < n)%nat -> exists B b, (forall x i, (i < gdim g)%nat -> A s x i = sm (gdim g) (fun j => B i j * x j) + b i) /\ detm (gdim g) B = / INR n) /\
  (forall s x, (s < n)%nat -> inref g x -> inref g (A s x)) /\
  (forall x, inref g x -> exists s y, (s < n)%nat /\ inref g y /\ forall i, (i < gdim g)%nat -> A s y i = x i) /\
  (forall s s' x y, (s < n)%nat -> (s' < n)%nat -> inopen g x -> inopen g y -> (forall i, (i < gdim g)%nat -> A s x i = A s' y i) -> s = s').

(** ** The maps *)
Definition child (g : geom) (s : nat) : list rnode := firstn (gnv g) (skipn (s * gnv g) (rtab g)).
Definition sub (g : geom) (s : nat) (x : nat -> R) (k : nat) : R := gphys g (fun j => rpos g (nth j (child g s) RB)) x k.
(** The inverse maps *)
Definition inv (g : geom) (s : nat) (x : nat -> R) (j : nat) : R :=
  match g with
  | Tri => match s with
    | 0%nat => match j with 0%nat => 0 + 2 * x 0%nat | _ => 0 + 2 * x 1%nat end
    | 1%nat => match j with 0%nat => (-1) + 2 * x 0%nat + 2 * x 1%nat | _ => 1 + (-2) * x 0%nat end
    | 2%nat => match j with 0%nat => 0 + 2 * x 1%nat | _ => 2 + (-2) * x 0%nat + (-2) * x 1%nat end
    | _ => match j with 0%nat => 2 + (-2) * x 0%nat + (-2) * x 1%nat | _ => 0 + 2 * x 0%nat end
    end
  | Quad => match s with
    | 0%nat => match j with 0%nat => 0 + 2 * x 0%nat | _ => 0 + 2 * x 1%nat end
    | 1%nat => match j with 0%nat => 0 + 2 * x 1%nat | _ => 2 + (-2) * x 0%nat end
    | 2%nat => match j with 0%nat => 2 + (-2) * x 0%nat | _ => 2 + (-2) * x 1%nat end
    | _ => match j with 0%nat => 2 + (-2) * x 1%nat | _ => 0 + 2 * x 0%nat end
    end
  | Tet => match s with
    | 0%nat => match j with 0%nat => 0 + 2 * x 0%nat | 1%nat => 0 + 2 * x 1%nat | _ => 0 + 2 * x 2%nat end
    | 1%nat => match j with 0%nat => (-1) + 2 * x 0%nat | 1%nat => 0 + 2 * x 1%nat | _ => 0 + 2 * x 2%nat end
    | 2%nat => match j with 0%nat => 0 + 2 * x 0%nat | 1%nat => (-1) + 2 * x 1%nat | _ => 0 + 2 * x 2%nat end
    | 3%nat => match j with 0%nat => 0 + 2 * x 0%nat | 1%nat => 0 + 2 * x 1%nat | _ => (-1) + 2 * x 2%nat end
    | 4%nat => match j with 0%nat => 0 + 2 * x 1%nat | 1%nat => 1 + (-2) * x 0%nat + (-2) * x 1%nat | _ => (-1) + 2 * x 0%nat + 2 * x 1%nat + 2 * x 2%nat end
    | 5%nat => match j with 0%nat => 1 + (-2) * x 0%nat | 1%nat => 0 + 2 * x 2%nat | _ => (-1) + 2 * x 0%nat + 2 * x 1%nat end
    | 6%nat => match j with 0%nat => 1 + (-2) * x 0%nat + (-2) * x 1%nat | 1%nat => 0 + 2 * x 0%nat | _ => (-1) + 2 * x 1%nat + 2 * x 2%nat end
    | _ => match j with 0%nat => (-1) + 2 * x 0%nat + 2 * x 1%nat | 1%nat => (-1) + 2 * x 1%nat + 2 * x 2%nat | _ => 1 + (-2) * x 1%nat end
    end
  | Hex => match s with
    | 0%nat => match j with 0%nat => 0 + 2 * x 0%nat | 1%nat => 0 + 2 * x 1%nat | _ => 0 + 2 * x 2%nat end
    | 1%nat => match j with 0%nat => 0 + 2 * x 1%nat | 1%nat => 2 + (-2) * x 0%nat | _ => 0 + 2 * x 2%nat end
    | 2%nat => match j with 0%nat => 2 + (-2) * x 0%nat | 1%nat => 2 + (-2) * x 1%nat | _ => 0 + 2 * x 2%nat end
    | 3%nat => match j with 0%nat => 2 + (-2) * x 1%nat | 1%nat => 0 + 2 * x 0%nat | _ => 0 + 2 * x 2%nat end
    | 4%nat => match j with 0%nat => 0 + 2 * x 1%nat | 1%nat => 0 + 2 * x 0%nat | _ => 2 + (-2) * x 2%nat end
    | 5%nat => match j with 0%nat => 2 + (-2) * x 0%nat | 1%nat => 0 + 2 * x 1%nat | _ => 2 + (-2) * x 2%nat end
    | 6%nat => match j with 0%nat => 2 + (-2) * x 1%nat | 1%nat => 2 + (-2) * x 0%nat | _ => 2 + (-2) * x 2%nat end
    | _ => match j with 0%nat => 0 + 2 * x 0%nat | 1%nat => 2 + (-2) * x 1%nat | _ => 2 + (-2) * x 2%nat end
    end
  | Seg => x j
  end.
Lemma lt8' : forall s n, (s < n)%nat -> (n <= 8)%nat -> (s = 0 \/ s = 1 \/ s = 2 \/ s = 3 \/ s = 4 \/ s = 5 \/ s = 6 \/ s = 7)%nat.
Proof. intros. lia. Qed.
Ltac en s H := let C := fresh in pose proof (lt8' s _ H ltac:(cbn; lia)) as C; cbn in H; destruct C as [-> | [-> | [-> | [-> | [-> | [-> | [-> | ->]]]]]]]; try (exfalso; lia).
Ltac comp := cbv -[Rplus Rmult Ropp Rinv Rminus Rdiv IZR INR]; unfold INR.
(** Closed form of the maps *)
Definition lin (g : geom) (s : nat) (x : nat -> R) (k : nat) : R :=
  sm (gdim g) (fun j => (sub g s (fun i => if i =? j then 1 else 0) k - sub g s (fun _ => 0) k) * x j) + sub g s (fun _ => 0) k.
Lemma sub_inv : forall g s x k, isgeom g -> (s < 2 ^ gdim g)%nat -> (k < gdim g)%nat -> sub g s (inv g s x) k = x k.
Proof.
  intros g s x k G S K. destruct G as [<- | [<- | [<- | [<- | []]]]]; en s S; en k K; comp; field.
Qed.
Lemma inv_sub : forall g s x k, isgeom g -> (s < 2 ^ gdim g)%nat -> (k < gdim g)%nat -> inv g s (sub g s x) k = x k.
Proof.
  intros g s x k G S K. destruct G as [<- | [<- | [<- | [<- | []]]]]; en s S; en k K; cbn [inv]; comp; field.
Qed.
Lemma sub_lin : forall g s x k, isgeom g -> (s < 2 ^ gdim g)%nat -> (k < gdim g)%nat -> sub g s x k = lin g s x k.
Proof.
  intros g s x k G S K. unfold lin. destruct G as [<- | [<- | [<- | [<- | []]]]]; en s S; en k K; comp; field.
Qed.
Lemma sub_det : forall g s, isgeom g -> (s < 2 ^ gdim g)%nat ->
  detm (gdim g) (fun k j => sub g s (fun i => if i =? j then 1 else 0) k - sub g s (fun _ => 0) k) = / INR (2 ^ gdim g).
Proof.
  intros g s G S. unfold detm. destruct G as [<- | [<- | [<- | [<- | []]]]]; en s S; comp; field.
Qed.
(** The child mapping is the parent mapping after the map *)
Lemma sub_comp : forall g X s x k, isgeom g -> (s < 2 ^ gdim g)%nat ->
  gphys g (fun j => gphys g X (rpos g (nth j (child g s) RB))) x k = gphys g X (sub g s x) k.
Proof.
  intros g X s x k G S. destruct G as [<- | [<- | [<- | [<- | []]]]]; en s S; comp; field.
Qed.
