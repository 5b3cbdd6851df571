(** Lemmas about the model of resolve_deps.py. *)
From Verif Require Import Base M_resolve.
Set Implicit Arguments.

Lemma insert_perm : forall x l, Permutation (insert x l) (x :: l).
Proof.
  intros x l; induction l as [|y t IH]; simpl; auto.
  destruct (x <=? y); auto.
  rewrite IH. apply perm_swap.
Qed.
Lemma sorted_perm : forall l, Permutation (sorted l) l.
Proof.
  induction l as [|x t IH]; simpl; auto.
  rewrite insert_perm, IH; auto.
Qed.
Lemma insert_sorted : forall x l, StronglySorted le l -> StronglySorted le (insert x l).
Proof.
  intros x l H; induction H as [|y t Ht IH Hy]; simpl.
  - repeat constructor.
  - destruct (x <=? y) eqn:E.
    + apply Nat.leb_le in E. constructor.
      * constructor; auto.
      * constructor; auto. rewrite Forall_forall in *. intros z Hz.
        specialize (Hy z Hz). lia.
    + apply Nat.leb_gt in E. constructor; auto.
      rewrite Forall_forall in *. intros z Hz.
      apply (Permutation_in _ (insert_perm x t)) in Hz.
      destruct Hz as [<-|Hz]; auto; lia.
Qed.
Lemma sorted_sorted : forall l, StronglySorted le (sorted l).
Proof. induction l; simpl; [constructor|]. apply insert_sorted; auto. Qed.

Lemma NoDup_app2 : forall (a b : list nat), NoDup a -> NoDup b ->
  (forall x, In x a -> ~ In x b) -> NoDup (a ++ b).
Proof.
  induction a as [|x a IH]; simpl; auto. intros b Na Nb H. inversion Na; subst.
  constructor; [|apply IH; auto]. rewrite in_app_iff. intros [F|F]; auto. eapply H; eauto.
Qed.

(** [combinations l n] are the subsequences of length [n]. *)
Inductive subseq : list nat -> list nat -> Prop :=
| sub_nil : forall l, subseq [] l
| sub_take : forall x s l, subseq s l -> subseq (x :: s) (x :: l)
| sub_skip : forall x s l, subseq s l -> subseq s (x :: l).

Lemma combinations_spec : forall l n c,
  In c (combinations l n) <-> subseq c l /\ length c = n.
Proof.
  induction l as [|x t IH]; intros n c.
  - destruct n; simpl.
    + split; [intros [<-|[]]; split; auto; constructor|].
      intros [H E]. destruct c; [auto|discriminate].
    + split; [tauto|]. intros [H E]. inversion H; subst; discriminate.
  - destruct n; cbn [combinations].
    + simpl. split; [intros [<-|[]]; split; auto; constructor|].
      intros [H E]. destruct c; [auto|discriminate].
    + rewrite in_app_iff, in_map_iff. split.
      * intros [[c' [<- H]]|H].
        -- apply IH in H. destruct H. split; [constructor; auto|simpl; lia].
        -- apply IH in H. destruct H. split; [constructor; auto|auto].
      * intros [H E]. inversion H; subst; try discriminate.
        -- left. exists s. split; auto. apply IH. simpl in E. split; auto.
        -- right. apply IH; auto.
Qed.
Lemma subseq_incl : forall s l, subseq s l -> incl s l.
Proof. intros s l H; induction H; intros y Hy; simpl in *; intuition. Qed.
Lemma subseq_NoDup : forall s l, subseq s l -> NoDup l -> NoDup s.
Proof.
  intros s l H; induction H; intros N.
  - constructor.
  - inversion N; subst. constructor; auto. intros Hi. apply subseq_incl in H. auto.
  - inversion N; auto.
Qed.
Lemma subseq_filter : forall p l, subseq (filter p l) l.
Proof.
  induction l as [|x t IH]; simpl; [constructor|].
  destruct (p x); constructor; auto.
Qed.
Lemma subseq_refl : forall l, subseq l l.
Proof. induction l; constructor; auto. Qed.

Lemma set_eqb_spec : forall a b, set_eqb a b = true <-> (forall x, In x a <-> In x b).
Proof.
  intros a b. unfold set_eqb. rewrite andb_true_iff, !forallb_forall. split.
  - intros [H1 H2] x. split; intros Hx; apply memb_In; auto.
  - intros H; split; intros x Hx; apply memb_In; apply H; auto.
Qed.

Definition needs (d : deps_t) (s : list nat) (y : nat) : Prop :=
  exists x, In x s /\ In y (lookup d x).

Lemma solvable_spec : forall d s, solvable d s = true <->
  s <> [] /\ (forall y, needs d s y <-> In y s).
Proof.
  intros d s. destruct s as [|a t].
  - simpl. split; [discriminate|]. intros [H _]; congruence.
  - unfold solvable. rewrite set_eqb_spec. split.
    + intros H; split; [discriminate|]. intros y. rewrite <- H. unfold needs.
      rewrite in_flat_map. reflexivity.
    + intros [_ H] y. rewrite <- H. unfold needs. rewrite in_flat_map. reflexivity.
Qed.

Lemma lookup_in : forall d k y, In y (lookup d k) -> In k (keys d).
Proof.
  induction d as [|[k' v] t IH]; simpl; [tauto|]. intros k y H.
  destruct (k' =? k) eqn:E; [apply Nat.eqb_eq in E; auto|]. right; eauto.
Qed.
Lemma lookup_entry : forall d k, In k (keys d) -> In (k, lookup d k) d.
Proof.
  induction d as [|[k' v] t IH]; simpl; [tauto|]. intros k H.
  destruct (k' =? k) eqn:E; [apply Nat.eqb_eq in E; subst; auto|].
  apply Nat.eqb_neq in E. right. apply IH. intuition.
Qed.
Lemma entry_lookup : forall d k v, NoDup (keys d) -> In (k, v) d -> lookup d k = v.
Proof.
  induction d as [|[k' v'] t IH]; simpl; [tauto|]. intros k v N H.
  inversion N; subst. destruct H as [H|H].
  - inversion H; subst. rewrite Nat.eqb_refl; auto.
  - destruct (k' =? k) eqn:E.
    + apply Nat.eqb_eq in E; subst. exfalso. apply H2.
      apply in_map_iff. exists (k, v); auto.
    + auto.
Qed.

(** [remove_known]. *)
Lemma keys_remove1 : forall d k, keys (remove_known1 d k) = filter (fun i => negb (i =? k)) (keys d).
Proof.
  intros d k. unfold keys, remove_known1. induction d as [|[k' v] t IH]; simpl; auto.
  destruct (negb (k' =? k)); simpl; congruence.
Qed.
Lemma lookup_remove1 : forall d k x, x <> k ->
  lookup (remove_known1 d k) x = filter (fun i => negb (i =? k)) (lookup d x).
Proof.
  intros d k x Hx. unfold remove_known1. induction d as [|[k' v] t IH]; simpl; auto.
  destruct (k' =? k) eqn:E; simpl.
  - rewrite IH. apply Nat.eqb_eq in E. subst.
    destruct (k =? x) eqn:E2; auto. apply Nat.eqb_eq in E2. congruence.
  - destruct (k' =? x) eqn:E2; auto.
Qed.
Lemma keys_remove : forall b d x, In x (keys (remove_known d b)) <-> In x (keys d) /\ ~ In x b.
Proof.
  unfold remove_known. induction b as [|k t IH]; intros d x; simpl; [tauto|].
  rewrite IH, keys_remove1, filter_In, negb_true_iff, Nat.eqb_neq. intuition.
Qed.
Lemma NoDup_keys_remove : forall b d, NoDup (keys d) -> NoDup (keys (remove_known d b)).
Proof.
  unfold remove_known. induction b as [|k t IH]; intros d N; simpl; auto.
  apply IH. rewrite keys_remove1. apply NoDup_filter; auto.
Qed.
Lemma lookup_remove : forall b d x y, ~ In x b ->
  (In y (lookup (remove_known d b) x) <-> In y (lookup d x) /\ ~ In y b).
Proof.
  unfold remove_known. induction b as [|k t IH]; intros d x y H; simpl; [tauto|].
  simpl in H. rewrite IH by tauto.
  rewrite lookup_remove1 by (intros ->; tauto).
  rewrite filter_In, negb_true_iff, Nat.eqb_neq. intuition.
Qed.
Lemma NoDup_lookup_remove : forall b d x, ~ In x b ->
  NoDup (lookup d x) -> NoDup (lookup (remove_known d b) x).
Proof.
  unfold remove_known. induction b as [|k t IH]; intros d x H N; simpl; auto.
  simpl in H. apply IH; [tauto|].
  rewrite lookup_remove1 by (intros ->; tauto). apply NoDup_filter; auto.
Qed.
Lemma length_keys : forall d, length (keys d) = length d.
Proof. intros; unfold keys; apply map_length. Qed.

Lemma keys_remove_perm : forall d b, NoDup (keys d) -> NoDup b -> incl b (keys d) ->
  Permutation (b ++ keys (remove_known d b)) (keys d).
Proof.
  intros d b N Nb I. apply NoDup_Permutation; auto.
  - apply NoDup_app2; auto.
    + apply NoDup_keys_remove; auto.
    + intros x Hx Hx'. apply keys_remove in Hx'. tauto.
  - intros x. rewrite in_app_iff, keys_remove.
    destruct (in_dec Nat.eq_dec x b) as [H|H]; [|tauto].
    specialize (I x H). tauto.
Qed.
Lemma length_remove : forall d b, NoDup (keys d) -> NoDup b -> incl b (keys d) ->
  length b + length (remove_known d b) = length d.
Proof.
  intros d b N Nb I. pose proof (Permutation_length (@keys_remove_perm d b N Nb I)) as H.
  rewrite app_length, !length_keys in H. auto.
Qed.

(** Blocks found by [try_block]. *)
Lemma try_block_spec : forall d n b, NoDup (keys d) -> In b (try_block d n) ->
  NoDup b /\ incl b (keys d) /\ length b = n /\ b <> [] /\
  (forall y, needs d b y <-> In y b) /\ StronglySorted le b.
Proof.
  intros d n b N H. unfold try_block in H. apply in_map_iff in H.
  destruct H as [c [<- H]]. apply filter_In in H. destruct H as [H Hs].
  apply combinations_spec in H. destruct H as [Hc <-].
  apply solvable_spec in Hs. destruct Hs as [Hne Hs].
  pose proof (sorted_perm c) as P.
  assert (Hi : forall x, In x (sorted c) <-> In x c).
  { intros x; split; apply Permutation_in; [|symmetry]; auto. }
  repeat split.
  - eapply Permutation_NoDup; [symmetry; apply P|]. eapply subseq_NoDup; eauto.
  - intros x Hx. apply Hi in Hx. eapply subseq_incl; eauto.
  - apply Permutation_length; auto.
  - intros E. rewrite E in P. apply Permutation_nil in P. auto.
  - intros [x [Hx Hy]]. apply Hi. apply Hs. exists x. split; auto. apply Hi; auto.
  - intros Hy. apply Hi in Hy. apply Hs in Hy. destruct Hy as [x [Hx Hy]].
    exists x. split; auto. apply Hi; auto.
  - apply sorted_sorted.
Qed.
Lemma try_block_complete : forall d s, NoDup (keys d) -> NoDup s -> incl s (keys d) ->
  s <> [] -> (forall y, needs d s y <-> In y s) -> try_block d (length s) <> [].
Proof.
  intros d s N Ns I Hne Hs.
  set (c := filter (fun x => memb x s) (keys d)).
  assert (Hi : forall x, In x c <-> In x s).
  { intros x. unfold c. rewrite filter_In, memb_In. split; [tauto|]. split; auto. }
  assert (P : Permutation c s).
  { apply NoDup_Permutation; auto. unfold c. apply NoDup_filter; auto. }
  assert (Hin : In (sorted c) (try_block d (length s))).
  { unfold try_block. apply in_map. apply filter_In. split.
    - apply combinations_spec. split; [apply subseq_filter|apply Permutation_length; auto].
    - apply solvable_spec. split.
      + intros E. rewrite E in P. apply Permutation_nil in P. auto.
      + intros y. rewrite Hi, <- Hs. unfold needs. split; intros [x [Hx Hy]]; exists x;
          split; auto; apply Hi; auto. }
  intros E. rewrite E in Hin. destruct Hin.
Qed.

Lemma fold_min_le : forall l a x, (x = a \/ In x l) -> fold_left Nat.min l a <= x.
Proof.
  induction l as [|y t IH]; intros a x H; simpl.
  - destruct H as [->|[]]; lia.
  - destruct H as [->|[->|H]].
    + etransitivity; [apply IH; left; reflexivity|lia].
    + etransitivity; [apply IH; left; reflexivity|lia].
    + apply IH; auto.
Qed.
Lemma min_list_le : forall l x, In x l -> min_list l <= x.
Proof.
  intros [|a t] x H; simpl in *; [tauto|]. apply fold_min_le. intuition.
Qed.

(** The unconditional part: each block depends on itself and earlier ones. *)
Definition ordered (d : deps_t) (order : list (list nat)) : Prop :=
  forall pre b post, order = pre ++ b :: post ->
    NoDup b /\ b <> [] /\ incl b (keys d) /\ StronglySorted le b /\
    forall x y, In x b -> In y (lookup d x) -> In y (concat pre) \/ In y b.

Lemma ordered_nil : forall d, ordered d [].
Proof. intros d pre b post E. destruct pre; discriminate. Qed.

Lemma ordered_ext : forall d order b rest, ordered d order ->
  NoDup b -> b <> [] -> incl b (keys d) -> StronglySorted le b ->
  (forall y, needs d b y <-> In y b) ->
  ordered (remove_known d b) rest -> ordered d (order ++ [b] ++ rest).
Proof.
  intros d order b rest Ho Nb Hne Hi Hso Hs Hr pre c post E.
  symmetry in E. apply app_eq_app in E. destruct E as [l [[E1 E2]|[E1 E2]]].
  - (* pre = order ++ l *)
    subst pre. destruct l as [|a l].
    + simpl in E2. inversion E2; subst. repeat split; auto.
      intros x y Hx Hy. right. apply Hs. exists x; auto.
    + simpl in E2. inversion E2 as [[Ea Er]]. subst a.
      destruct (Hr l c post Er) as (N1 & N2 & N3 & N4 & N5).
      repeat split; auto.
      * intros x Hx. specialize (N3 x Hx). apply keys_remove in N3. tauto.
      * intros x y Hx Hy.
        destruct (in_dec Nat.eq_dec y b) as [Hyb|Hyb].
        -- left. rewrite concat_app, in_app_iff. right. simpl. apply in_app_iff; auto.
        -- assert (Hxb : ~ In x b).
           { specialize (N3 x Hx). apply keys_remove in N3. tauto. }
           destruct (N5 x y Hx) as [H|H].
           ++ apply lookup_remove; auto.
           ++ left. rewrite concat_app, in_app_iff. right. simpl. apply in_app_iff; auto.
           ++ auto.
  - destruct l as [|a l].
    + simpl in E2. rewrite app_nil_r in E1. subst order. inversion E2; subst.
      repeat split; auto.
      intros x y Hx Hy. right. apply Hs. exists x; auto.
    + simpl in E2. inversion E2; subst. eapply Ho; eauto.
Qed.

Lemma resolve_loop_ordered : forall rec d ibs order, NoDup (keys d) ->
  (forall d', NoDup (keys d') -> ordered d' (rec d')) ->
  ordered d order -> ordered d (resolve_loop rec d ibs order).
Proof.
  intros rec d ibs; induction ibs as [|ib t IH]; intros order N Hrec Ho; simpl; auto.
  assert (Ho' : ordered d match try_block d ib with
        | [] => order
        | b :: _ => order ++ b :: rec (remove_known d b)
        end).
  { destruct (try_block d ib) as [|b bs] eqn:E; auto.
    assert (Hb : In b (try_block d ib)) by (rewrite E; simpl; auto).
    apply try_block_spec in Hb; auto. destruct Hb as (H1 & H2 & H3 & H4 & H5 & H6).
    apply (@ordered_ext d order b); auto. apply Hrec. apply NoDup_keys_remove; auto. }
  destruct (length _ =? length d); auto.
Qed.
Lemma resolve_fuel_ordered : forall fuel d, NoDup (keys d) -> ordered d (resolve_fuel fuel d).
Proof.
  induction fuel as [|fuel IH]; intros d N.
  - simpl. apply ordered_nil.
  - destruct d as [|e d].
    + apply ordered_nil.
    + simpl resolve_fuel. apply resolve_loop_ordered; auto. apply ordered_nil.
Qed.

(** The model's recursion bound is never reached. *)
Lemma resolve_loop_ext : forall r1 r2 d ibs order, NoDup (keys d) ->
  (forall d', NoDup (keys d') -> length d' < length d -> r1 d' = r2 d') ->
  resolve_loop r1 d ibs order = resolve_loop r2 d ibs order.
Proof.
  intros r1 r2 d ibs; induction ibs as [|ib t IH]; intros order N H; simpl; auto.
  destruct (try_block d ib) as [|b bs] eqn:E.
  - destruct (length _ =? length d); auto.
  - assert (Hb : In b (try_block d ib)) by (rewrite E; simpl; auto).
    apply try_block_spec in Hb; auto. destruct Hb as (H1 & H2 & H3 & H4 & H5 & H6).
    pose proof (@length_remove d b N H1 H2) as L.
    assert (0 < length b) by (destruct b; [congruence|simpl; lia]).
    rewrite (H (remove_known d b)); [|apply NoDup_keys_remove; auto|lia].
    destruct (length _ =? length d); auto.
Qed.
Lemma resolve_fuel_enough : forall f1 f2 d, NoDup (keys d) ->
  length d <= f1 -> length d <= f2 -> resolve_fuel f1 d = resolve_fuel f2 d.
Proof.
  induction f1 as [|f1 IH]; intros f2 d N H1 H2.
  - destruct d; [|simpl in H1; lia]. destruct f2; auto.
  - destruct f2 as [|f2]; [destruct d; [auto|simpl in H2; lia]|].
    destruct d as [|e d]; auto.
    cbn [resolve_fuel].
    apply resolve_loop_ext; auto.
    intros d' N' L. apply IH; auto; lia.
Qed.

(** The conditional part. *)
Definition nodup_vals (d : deps_t) : Prop := forall x, In x (keys d) -> NoDup (lookup d x).
Definition closed (d : deps_t) : Prop := forall x y, In y (lookup d x) -> In y (keys d).
Definition enough (d : deps_t) : Prop :=
  forall s, NoDup s -> incl s (keys d) ->
    exists r, NoDup r /\ length s <= length r /\ forall y, In y r -> needs d s y.
Definition minimal (d : deps_t) (order : list (list nat)) : Prop :=
  forall pre b post s, order = pre ++ b :: post ->
    s <> [] -> NoDup s -> incl s (keys d) ->
    (forall x, In x s -> ~ In x (concat pre)) ->
    (forall x y, In x s -> In y (lookup d x) -> In y (concat pre) \/ In y s) ->
    length b <= length s.

Lemma closed_remove : forall d b, closed d -> closed (remove_known d b).
Proof.
  intros d b H x y Hy. pose proof (@lookup_in _ _ _ Hy) as Hx. apply keys_remove in Hx.
  apply lookup_remove in Hy; [|tauto]. apply keys_remove. split; [eapply H; apply Hy|tauto].
Qed.
Lemma nodup_vals_remove : forall d b, nodup_vals d -> nodup_vals (remove_known d b).
Proof.
  intros d b H x Hx. apply keys_remove in Hx. apply NoDup_lookup_remove; [tauto|].
  apply H; tauto.
Qed.
Lemma enough_remove : forall d b, NoDup b -> incl b (keys d) ->
  (forall y, needs d b y <-> In y b) -> enough d -> enough (remove_known d b).
Proof.
  intros d b Nb Ib Hb He s Ns Is.
  assert (Hsb : forall x, In x s -> ~ In x b).
  { intros x Hx. specialize (Is x Hx). apply keys_remove in Is. tauto. }
  destruct (He (b ++ s)) as [r [Nr [Lr Hr]]].
  - apply NoDup_app2; auto. intros x Hx Hx'. eapply Hsb; eauto.
  - apply incl_app; auto. intros x Hx. specialize (Is x Hx). apply keys_remove in Is. tauto.
  - set (r' := filter (fun y => negb (memb y b)) r).
    exists r'. split; [apply NoDup_filter; auto|]. split.
    + assert (L : length r <= length (b ++ r')).
      { apply NoDup_incl_length; auto. intros y Hy. apply in_app_iff.
        destruct (in_dec Nat.eq_dec y b) as [H|H]; auto.
        right. apply filter_In. split; auto. apply negb_true_iff, memb_false; auto. }
      rewrite app_length in *. lia.
    + intros y Hy. apply filter_In in Hy. destruct Hy as [Hy Hyb].
      apply negb_true_iff, memb_false in Hyb.
      destruct (Hr y Hy) as [x [Hx Hl]]. apply in_app_iff in Hx. destruct Hx as [Hx|Hx].
      * exfalso. apply Hyb. apply Hb. exists x; auto.
      * exists x. split; auto. apply lookup_remove; auto.
Qed.

(** A closed set of a structurally nonsingular system is solvable. *)
Lemma enough_closed_solvable : forall d s, enough d -> NoDup s -> incl s (keys d) ->
  (forall y, needs d s y -> In y s) -> forall y, needs d s y <-> In y s.
Proof.
  intros d s He Ns Is Hc y. split; auto. intros Hy.
  destruct (He s Ns Is) as [r [Nr [Lr Hr]]].
  assert (incl s r).
  { apply NoDup_length_incl; auto. intros z Hz. auto. }
  auto.
Qed.

Lemma solvable_min : forall d s, nodup_vals d -> NoDup s -> incl s (keys d) -> s <> [] ->
  (forall y, needs d s y -> In y s) -> min_list (get_nums d) <= length s.
Proof.
  intros d s Hv Ns Is Hne Hs. destruct s as [|x t]; [congruence|].
  assert (Hx : In x (keys d)) by (apply Is; simpl; auto).
  transitivity (length (lookup d x)).
  - apply min_list_le. unfold get_nums. apply in_map_iff.
    exists (x, lookup d x). split; auto. apply lookup_entry; auto.
  - apply NoDup_incl_length; auto. intros y Hy. apply Hs. exists x. simpl; auto.
Qed.

Definition complete (d : deps_t) (order : list (list nat)) : Prop :=
  Permutation (concat order) (keys d) /\ minimal d order.

Lemma resolve_loop_complete : forall rec d n ib, NoDup (keys d) -> nodup_vals d ->
  closed d -> enough d -> d <> [] ->
  (forall d', NoDup (keys d') -> nodup_vals d' -> closed d' -> enough d' ->
     length d' < length d -> complete d' (rec d')) ->
  (forall s, s <> [] -> NoDup s -> incl s (keys d) ->
     (forall y, needs d s y -> In y s) -> ib <= length s) ->
  ib + n = length d + 1 ->
  complete d (resolve_loop rec d (seq ib n) []).
Proof.
  intros rec d n; induction n as [|n IH]; intros ib N Hv Hc He Hne Hrec Hmin Hn.
  - exfalso.
    assert (ib <= length (keys d)); [|rewrite length_keys in *; lia].
    apply Hmin; auto using incl_refl.
    + intros E. apply Hne. destruct d; [auto|discriminate].
    + intros y [x [_ Hy]]. eapply Hc; eauto.
  - simpl. destruct (try_block d ib) as [|b bs] eqn:E.
    + simpl concat. simpl length at 1.
      destruct (0 =? length d) eqn:E0.
      { apply Nat.eqb_eq in E0. destruct d; [congruence|discriminate]. }
      apply IH; auto; [|lia].
      intros s Hs Ns Is Hcl. specialize (Hmin s Hs Ns Is Hcl).
      assert (ib <> length s); [|lia]. intros ->.
      revert E. apply try_block_complete; auto.
      apply enough_closed_solvable; auto.
    + assert (Hb : In b (try_block d ib)) by (rewrite E; simpl; auto).
      apply try_block_spec in Hb; auto. destruct Hb as (H1 & H2 & H3 & H4 & H5 & H6).
      pose proof (@length_remove d b N H1 H2) as L.
      assert (0 < length b) by (destruct b; [congruence|simpl; lia]).
      destruct (Hrec (remove_known d b)) as [HP HM].
      { apply NoDup_keys_remove; auto. }
      { apply nodup_vals_remove; auto. }
      { apply closed_remove; auto. }
      { apply enough_remove; auto. }
      { lia. }
      assert (P : Permutation (concat ([] ++ b :: rec (remove_known d b))) (keys d)).
      { simpl. rewrite HP. apply keys_remove_perm; auto. }
      pose proof (Permutation_length P) as LP. rewrite length_keys in LP.
      simpl in LP |- *. rewrite LP, Nat.eqb_refl.
      split; auto.
      intros pre c post s Eo Hsne Ns Is Hsp Hsc.
      destruct pre as [|p pre].
      * simpl in Eo. inversion Eo; subst c. rewrite H3. apply Hmin; auto.
        intros y [x [Hx Hy]]. destruct (Hsc x y Hx Hy) as [F|F]; [destruct F|auto].
      * simpl in Eo. inversion Eo as [[Ep Er]]. subst p.
        assert (Hsb : forall x, In x s -> ~ In x b).
        { intros x Hx Hxb. apply (Hsp x Hx). simpl. apply in_app_iff; auto. }
        apply (HM pre c post s Er); auto.
        -- intros x Hx. apply keys_remove. auto.
        -- intros x Hx Hxp. apply (Hsp x Hx). simpl. apply in_app_iff; auto.
        -- intros x y Hx Hy. apply lookup_remove in Hy; auto. destruct Hy as [Hy Hyb].
           destruct (Hsc x y Hx Hy) as [F|F]; auto.
           simpl in F. apply in_app_iff in F. tauto.
Qed.

Lemma min_list_bound : forall d, d <> [] -> NoDup (keys d) -> nodup_vals d -> closed d ->
  min_list (get_nums d) <= length d.
Proof.
  intros d Hne N Hv Hc. rewrite <- length_keys. apply solvable_min; auto using incl_refl.
  - destruct d; [congruence|discriminate].
  - intros y [x [_ Hy]]. eapply Hc; eauto.
Qed.

Lemma resolve_fuel_complete : forall fuel d, NoDup (keys d) -> nodup_vals d ->
  closed d -> enough d -> length d <= fuel -> complete d (resolve_fuel fuel d).
Proof.
  induction fuel as [|fuel IH]; intros d N Hv Hc He L.
  - destruct d; [|simpl in L; lia]. split; simpl; auto.
    intros pre b post s E. destruct pre; discriminate.
  - destruct d as [|e d].
    { split; simpl; auto. intros pre b post s E. destruct pre; discriminate. }
    cbn [resolve_fuel].
    pose proof (@min_list_bound (e :: d) ltac:(discriminate) N Hv Hc).
    apply resolve_loop_complete; auto; try discriminate.
    + intros d' N' Hv' Hc' He' L'. apply IH; auto. simpl in *; lia.
    + intros s Hs Ns Is Hcl. apply solvable_min; auto.
    + lia.
Qed.
