(** C20: region definitions are evaluated in dependency order. *)
From Verif Require Import Base S_graph M_graph L_graph.
From Coq Require Import Relations.
Open Scope nat_scope.

(** Termination is the absence of [OutOfFuel]. *)
Theorem C20_sort : forall g, NoDup (map fst g) ->
  match sort_by_dependency (graph_of g) with
  | Ok out => Permutation out (map fst g) /\ deps_first g out
  | Err e => e = ValueError
  end /\
  ((exists out, sort_by_dependency (graph_of g) = Ok out) <-> closed g /\ ~ cyclic g).
Proof.
  intros g ND. pose proof (sort_ok g ND) as H. destruct (sort_by_dependency (graph_of g)) as [out|e].
  - split; auto. destruct H as [P D]. split.
    + intros _. assert (ND' : NoDup out) by (eapply Permutation_NoDup; [apply Permutation_sym|]; eauto).
      assert (D' : forall x y, depends g x y -> In x out).
      { intros x y (ds & Hx & _). eapply Permutation_in; [apply Permutation_sym; eauto|]. apply in_map_iff. exists (x, ds). auto. }
      split.
      * intros x y Hxy. pose proof (D' _ _ Hxy) as Hx. apply in_split in Hx. destruct Hx as (l1 & l2 & E).
        eapply Permutation_in; eauto. rewrite E. apply in_or_app. left. eapply D; eauto.
      * eapply deps_first_acyclic; eauto.
    + intros _. eauto.
  - destruct H as [-> H]. split; auto. split; [intros (o & E); discriminate|].
    intros [C A]. exfalso. destruct H as [(x & d & H1 & H2)|H]; [|auto]. apply H2. eapply C; eauto.
Qed.

(** The graph of region definitions: the names referred to in the selector and
    the parent; a name defined twice is an error. *)
Definition defs_graph (defs : list (nat * list nat * option nat)) : list (nat * list nat) :=
  map (fun d => let '(n, ps, p) := d in (n, ps ++ match p with Some q => [q] | None => [] end)) defs.

Theorem C20_definitions : forall defs,
  get_dependency_graph defs [] =
  if ListDec.NoDup_dec Nat.eq_dec (map fst (defs_graph defs)) then Ok (graph_of (defs_graph defs)) else Err ValueError.
Proof.
  intros defs.
  assert (K : forall defs g, NoDup (map fst g) -> get_dependency_graph defs g =
     if ListDec.NoDup_dec Nat.eq_dec (map fst g ++ map fst (defs_graph defs)) then Ok (g ++ graph_of (defs_graph defs)) else Err ValueError).
  { clear. induction defs as [|[[n ps] p] t IH]; intros g Hg; simpl.
    - rewrite !app_nil_r. destruct (ListDec.NoDup_dec _ _); [auto|contradiction].
    - destruct (glook g n) eqn:E.
      + destruct (ListDec.NoDup_dec _ _) as [N|N]; auto. exfalso.
        apply NoDup_remove_2 in N. apply N. apply in_or_app. left. eapply glook_In; eauto.
      + rewrite IH. 2:{ rewrite map_app. simpl. eapply Permutation_NoDup; [apply Permutation_cons_append|].
          constructor; auto. apply glook_None. auto. }
        rewrite map_app. simpl. rewrite <- !app_assoc. simpl.
        destruct (ListDec.NoDup_dec _ _); auto. }
  rewrite K by constructor. simpl. auto.
Qed.

(** 3 refers to 1 and 2, 2 to 1, 5 to 3 and 1 (twice); a cycle; a missing name. *)
Example C20_ex : sort_by_dependency (graph_of [(3, [1; 2]); (2, [1]); (5, [3; 1; 1]); (1, [])]) = Ok [1; 2; 3; 5] /\
  sort_by_dependency (graph_of [(3, [1; 2]); (2, [1]); (1, [3]); (4, [])]) = Err ValueError /\
  sort_by_dependency (graph_of [(3, [1; 7]); (1, [])]) = Err ValueError.
Proof. vm_compute. auto. Qed.

Print Assumptions C20_sort.
Print Assumptions C20_definitions.
