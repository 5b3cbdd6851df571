(** C44: ordering of equation blocks by dependencies (resolve_deps.py). *)
From Verif Require Import Base M_resolve L_resolve.
Set Implicit Arguments.

(** Specification, independent of the model: [deps] as a relation. *)
Section Spec.
Variable names : list nat.              (* the names to be resolved *)
Variable dep : nat -> nat -> Prop.      (* [dep x y]: [x] needs [y] *)

(** [s] can be solved when the names of [known] are known. *)
Definition self_contained (known s : list nat) : Prop :=
  forall x y, In x s -> dep x y -> In y known \/ In y s.

(** Each block is a nonempty set of names needing only itself and the blocks
    before it. *)
Definition solving_order (order : list (list nat)) : Prop :=
  forall pre b post, order = pre ++ b :: post ->
    b <> [] /\ NoDup b /\ incl b names /\ self_contained (concat pre) b.

(** Each name occurs in exactly one block. *)
Definition each_once (order : list (list nat)) : Prop :=
  Permutation (concat order) names.

(** Smaller blocks first: when a block is chosen, no smaller nonempty set of the
    remaining names could be solved instead. *)
Definition smallest_first (order : list (list nat)) : Prop :=
  forall pre b post s, order = pre ++ b :: post ->
    s <> [] -> NoDup s -> incl s names -> (forall x, In x s -> ~ In x (concat pre)) ->
    self_contained (concat pre) s -> length b <= length s.

(** As many unknowns as equations: any set of equations contains at least as
    many different unknowns (structural nonsingularity, Hall's condition). *)
Definition structurally_nonsingular : Prop :=
  forall s, NoDup s -> incl s names ->
    exists r, NoDup r /\ length s <= length r /\
              forall y, In y r -> exists x, In x s /\ dep x y.
End Spec.

(** A Python dictionary: distinct keys. *)
Definition is_dict (d : deps_t) : Prop := NoDup (map fst d).
Definition needs_of (d : deps_t) (x y : nat) : Prop := exists v, In (x, v) d /\ In y v.
(** The values are sets of existing names. *)
Definition sets_of_names (d : deps_t) : Prop :=
  forall x v, In (x, v) d -> NoDup v /\ incl v (map fst d).

Lemma needs_lookup : forall d x y, is_dict d -> (needs_of d x y <-> In y (lookup d x)).
Proof.
  intros d x y N. split.
  - intros [v [H Hy]]. rewrite (@entry_lookup d x v N H); auto.
  - intros H. exists (lookup d x). split; auto. apply lookup_entry.
    eapply lookup_in; eauto.
Qed.

(** For every dictionary: the blocks are in a solving order and sorted. *)
Theorem C44_solving_order : forall d, is_dict d ->
  solving_order (map fst d) (needs_of d) (resolve d) /\
  forall b, In b (resolve d) -> StronglySorted le b.
Proof.
  intros d N. pose proof (@resolve_fuel_ordered (length d) d N) as H. split.
  - intros pre b post E. destruct (H pre b post E) as (H1 & H2 & H3 & H4 & H5).
    repeat split; auto.
    intros x y Hx Hy. apply needs_lookup in Hy; auto. eauto.
  - intros b Hb. apply in_split in Hb. destruct Hb as [pre [post E]].
    apply (H pre b post E).
Qed.

(** For structurally nonsingular systems: all names, once, smallest blocks
    first. *)
Theorem C44_complete : forall d, is_dict d -> sets_of_names d ->
  structurally_nonsingular (map fst d) (needs_of d) ->
  each_once (map fst d) (resolve d) /\ smallest_first (map fst d) (needs_of d) (resolve d).
Proof.
  intros d N Hv Hn.
  assert (Hl : forall x, In x (keys d) -> NoDup (lookup d x) /\ incl (lookup d x) (keys d)).
  { intros x Hx. apply lookup_entry in Hx. apply Hv in Hx. auto. }
  destruct (@resolve_fuel_complete (length d) d) as [HP HM]; auto.
  - intros x Hx. apply Hl; auto.
  - intros x y Hy. pose proof (@lookup_in _ _ _ Hy) as Hx. apply (proj2 (Hl x Hx)); auto.
  - intros s Ns Is. destruct (Hn s Ns Is) as [r [Nr [Lr Hr]]].
    exists r. repeat split; auto. intros y Hy. destruct (Hr y Hy) as [x [Hx Hd]].
    exists x. split; auto. apply needs_lookup; auto.
  - split; auto.
    intros pre b post s E Hne Ns Is Hsp Hc. apply (HM pre b post s E); auto.
    intros x y Hx Hy. apply Hc with x; auto. apply needs_lookup; auto.
Qed.

(** In particular when every name needs itself. *)
Theorem C44_self_reference : forall d, is_dict d -> sets_of_names d ->
  (forall x, In x (map fst d) -> needs_of d x x) ->
  solving_order (map fst d) (needs_of d) (resolve d) /\
  each_once (map fst d) (resolve d) /\ smallest_first (map fst d) (needs_of d) (resolve d).
Proof.
  intros d N Hv Hs. split; [apply C44_solving_order; auto|]. apply C44_complete; auto.
  intros s Ns Is. exists s. repeat split; auto. intros y Hy. exists y. auto.
Qed.

(** The recursion bound of the model is not part of the behaviour. *)
Theorem C44_resolve_terminates : forall d fuel, is_dict d -> length d <= fuel ->
  resolve_fuel fuel d = resolve d.
Proof. intros; apply resolve_fuel_enough; auto. Qed.

(** Non-vacuity: a heat -> Stokes-like (u, p coupled; p does not occur in its own
    equation) -> transport chain: 0 = transport, 1 = u, 2 = p, 3 = heat. *)
Definition ex_deps : deps_t := [(0, [0; 1]); (1, [1; 2; 3]); (2, [1]); (3, [3])].
Example ex_resolve : resolve ex_deps = [[3]; [1; 2]; [0]].
Proof. reflexivity. Qed.
Example ex_hyps : is_dict ex_deps /\ sets_of_names ex_deps /\
  structurally_nonsingular (map fst ex_deps) (needs_of ex_deps).
Proof.
  split; [|split].
  - unfold is_dict; simpl. repeat constructor; simpl; intuition discriminate.
  - intros x v H. simpl in H.
    repeat (destruct H as [H|H]; [inversion H; subst; split;
      [repeat constructor; simpl; intuition discriminate|intros z Hz; simpl in *; intuition]|]).
    destruct H.
  - intros s Ns Is.
    set (f := fun x => match x with 1 => 2 | 2 => 1 | _ => x end).
    exists (map f s). split; [|split].
    + apply FinFun.Injective_map_NoDup; auto.
      assert (inv : forall x, f (f x) = x) by (intros [|[|[|x]]]; reflexivity).
      intros a b E. rewrite <- (inv a), <- (inv b). congruence.
    + rewrite map_length; auto.
    + intros y Hy. apply in_map_iff in Hy. destruct Hy as [x [<- Hx]]. exists x.
      split; auto. specialize (Is x Hx). simpl in Is.
      unfold needs_of.
      destruct Is as [<-|[<-|[<-|[<-|[]]]]]; simpl;
        eexists; split; try (left; reflexivity);
        try (right; left; reflexivity); try (right; right; left; reflexivity);
        try (right; right; right; left; reflexivity); simpl; auto.
Qed.
Example ex_self : resolve [(0, [0; 1]); (1, [1; 2]); (2, [0; 2]); (3, [3; 0])]
                  = [[0; 1; 2]; [3]].
Proof. reflexivity. Qed.

(** Without structural nonsingularity a name may be returned twice, or not at
    all, although the values are sets of existing names. *)
Theorem C44_each_once_refuted : exists d, is_dict d /\ sets_of_names d /\
  ~ NoDup (concat (resolve d)).
Proof.
  exists [(0, [0]); (1, [0; 1]); (2, [])]. split; [|split].
  - unfold is_dict; simpl. repeat constructor; simpl; intuition discriminate.
  - intros x v H. simpl in H.
    repeat (destruct H as [H|H]; [inversion H; subst; split;
      [repeat constructor; simpl; intuition discriminate|intros z Hz; simpl in *; intuition]|]).
    destruct H.
  - intros N. assert (E : resolve [(0, [0]); (1, [0; 1]); (2, [])] = [[0]; [1]; [0; 1]]) by reflexivity.
    rewrite E in N. simpl in N. inversion N; subst. apply H1. simpl; auto.
Qed.
(** A prerequisite that is not among the names is not reported: nothing is
    returned. *)
Theorem C44_missing_name_silent : resolve [(0, [0; 1])] = [].
Proof. reflexivity. Qed.

Print Assumptions C44_solving_order.
Print Assumptions C44_complete.
Print Assumptions C44_self_reference.
