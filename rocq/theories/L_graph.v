(** Proofs about sort_by_dependency. *)
From Verif Require Import Base S_graph M_graph.
From Coq Require Import Relations.
Open Scope nat_scope.
Set Implicit Arguments.

Lemma glook_gset : forall g x v y, glook (gset g x v) y =
  if y =? x then match glook g x with Some _ => Some v | None => None end else glook g y.
Proof.
  induction g as [|[z w] t IH]; intros x v y; simpl.
  - destruct (y =? x); auto.
  - destruct (Nat.eqb_spec x z); simpl.
    + subst. destruct (Nat.eqb_spec y z); auto.
    + destruct (Nat.eqb_spec y z).
      * subst. destruct (Nat.eqb_spec z x); [congruence|auto].
      * apply IH.
Qed.
Lemma fst_gset : forall g x v, map fst (gset g x v) = map fst g.
Proof. induction g as [|[z w] t IH]; intros; simpl; auto. destruct (x =? z); simpl; auto. rewrite IH; auto. Qed.
Lemma glook_None : forall g x, glook g x = None <-> ~ In x (map fst g).
Proof.
  induction g as [|[z w] t IH]; intros x; simpl; [tauto|].
  destruct (Nat.eqb_spec x z).
  - split; [discriminate|]. intros H; exfalso; apply H; auto.
  - rewrite IH. split; intros H; [intros [E|E]; auto|]. intros E; apply H; auto.
Qed.
Lemma glook_Some : forall g x, In x (map fst g) -> exists v, glook g x = Some v.
Proof. intros g x H. destruct (glook g x) eqn:E; eauto. apply glook_None in E. contradiction. Qed.
Lemma glook_In : forall g x v, glook g x = Some v -> In x (map fst g).
Proof. intros g x v H. destruct (in_dec Nat.eq_dec x (map fst g)); auto. apply glook_None in n. congruence. Qed.

Definition cost (v : bool * list nat) : nat := (if fst v then 0 else 1) + length (snd v).
Definition mu (g : graph) : nat := fold_right (fun p a => cost (snd p) + a) 0 g.
Lemma mu_gset : forall g x v w, glook g x = Some v -> mu (gset g x w) + cost v = mu g + cost w.
Proof.
  induction g as [|[z u] t IH]; intros x v w H; simpl in *; [discriminate|].
  destruct (Nat.eqb_spec x z).
  - inversion H; subst. simpl. lia.
  - simpl. specialize (IH x v w H). lia.
Qed.

Lemma remove_first_In : forall x l y, In y (remove_first x l) -> In y l.
Proof. induction l as [|z t IH]; simpl; intros y H; auto. destruct (x =? z); simpl in *; auto. destruct H; auto. Qed.
Lemma remove_first_keep : forall x l y, In y l -> In y (remove_first x l) \/ y = x.
Proof.
  induction l as [|z t IH]; simpl; intros y H; [tauto|].
  destruct (Nat.eqb_spec x z).
  - subst. destruct H; subst; auto.
  - simpl. destruct H; subst; auto. destruct (IH y H); auto.
Qed.
Lemma remove_first_len : forall x l, In x l -> S (length (remove_first x l)) = length l.
Proof.
  induction l as [|z t IH]; simpl; intros H; [tauto|]. destruct (Nat.eqb_spec x z); auto.
  simpl. f_equal. apply IH. destruct H; congruence.
Qed.
Lemma remove_first_count : forall x l y, In x l ->
  count_occ Nat.eq_dec (remove_first x l) y + (if Nat.eq_dec x y then 1 else 0) = count_occ Nat.eq_dec l y.
Proof.
  induction l as [|z t IH]; intros y H; simpl in *; [tauto|].
  destruct (Nat.eqb_spec x z).
  - subst. destruct (Nat.eq_dec z y); lia.
  - destruct H as [H|H]; [congruence|]. specialize (IH y H). simpl. destruct (Nat.eq_dec z y); lia.
Qed.

Section Sort.
Variable g0 : list (nat * list nat).
Hypothesis ND : NoDup (map fst g0).
Notation names := (map fst g0).

Record inv (g : graph) (out : list nat) : Prop := {
  i_names : map fst g = names;
  i_node : forall x f ds, glook g x = Some (f, ds) ->
     (f = true <-> In x out) /\ exists ds0, In (x, ds0) g0 /\ incl ds ds0 /\ forall d, In d ds0 -> In d ds \/ In d out;
  i_nodup : NoDup out;
  i_incl : incl out names;
  i_first : deps_first g0 out }.

Lemma g0_fun : forall x d1 d2, In (x, d1) g0 -> In (x, d2) g0 -> d1 = d2.
Proof.
  intros x d1 d2 H1 H2. revert ND H1 H2. generalize g0 as l. induction l as [|[y d] t IH]; intros Hn H1 H2; [destruct H1|].
  inversion Hn as [|? ? N1 N2]; subst. destruct H1 as [H1|H1], H2 as [H2|H2].
  - congruence.
  - inversion H1; subst. exfalso. apply N1. apply in_map_iff. exists (x, d2). auto.
  - inversion H2; subst. exfalso. apply N1. apply in_map_iff. exists (x, d1). auto.
  - apply IH; auto.
Qed.

Lemma deps_loop_ok : forall ds g out node deps n, inv g out -> glook g node = Some (false, deps) ->
  (forall d, count_occ Nat.eq_dec ds d <= count_occ Nat.eq_dec deps d) ->
  match deps_loop g node ds n with
  | Ok (g', n') => inv g' out /\ n <= n' /\ mu g' + (n' - n) = mu g /\
      (n' = n -> g' = g /\ forall d, In d ds -> In d names /\ ~ In d out)
  | Err e => e = ValueError /\ exists d, depends g0 node d /\ ~ In d names
  end.
Proof.
  induction ds as [|d t IH]; intros g out node deps n I Hn Hc; simpl.
  - split; auto. split; auto. split; [lia|]. intros _. split; auto. intros d [].
  - assert (Hd : In d deps).
    { specialize (Hc d). simpl in Hc. destruct (Nat.eq_dec d d); [|congruence].
      apply (count_occ_In Nat.eq_dec). lia. }
    destruct (i_node I _ Hn) as (F & ds0 & H0 & Hi & Hk).
    destruct (glook g d) as [[[|] dd]|] eqn:Ed.
    + rewrite Hn. set (g1 := gset g node (false, remove_first d deps)).
      assert (Od : In d out) by (apply (i_node I _ Ed); auto).
      assert (I1 : inv g1 out).
      { destruct I as [A B C D E]. constructor; auto.
        - unfold g1. rewrite fst_gset. auto.
        - intros x f ds'. unfold g1. rewrite glook_gset. destruct (Nat.eqb_spec x node).
          + subst. rewrite Hn. intros H; inversion H; subst. split; auto. exists ds0. split; auto. split.
            * intros y Hy. apply Hi. eapply remove_first_In; eauto.
            * intros y Hy. destruct (Hk y Hy) as [Hy'|]; auto.
              destruct (remove_first_keep d deps y Hy'); subst; auto.
          + apply B. }
      specialize (IH g1 out node (remove_first d deps) (S n) I1).
      assert (G1 : glook g1 node = Some (false, remove_first d deps)).
      { unfold g1. rewrite glook_gset, Nat.eqb_refl, Hn. auto. }
      specialize (IH G1).
      assert (Hc1 : forall y, count_occ Nat.eq_dec t y <= count_occ Nat.eq_dec (remove_first d deps) y).
      { intros y. pose proof (remove_first_count d deps y Hd). specialize (Hc y). simpl in Hc.
        destruct (Nat.eq_dec d y); lia. }
      specialize (IH Hc1). pose proof (mu_gset g node (false, remove_first d deps) Hn) as M. fold g1 in M.
      unfold cost in M. simpl in M. pose proof (remove_first_len d deps Hd) as RL.
      destruct (deps_loop g1 node t (S n)) as [[g' n']|e]; auto.
      destruct IH as (J1 & J2 & J3 & J4). split; auto. split; [lia|]. split; [lia|]. intros; lia.
    + assert (Nd : ~ In d out) by (intros H; apply (i_node I _ Ed) in H; discriminate).
      specialize (IH g out node deps n I Hn).
      assert (Hc1 : forall y, count_occ Nat.eq_dec t y <= count_occ Nat.eq_dec deps y).
      { intros y. specialize (Hc y). simpl in Hc. destruct (Nat.eq_dec d y); lia. }
      specialize (IH Hc1). destruct (deps_loop g node t n) as [[g' n']|e]; auto.
      destruct IH as (J1 & J2 & J3 & J4). split; auto. split; auto. split; auto. intros E. destruct (J4 E) as [J5 J6].
      split; auto. intros y [<-|Hy]; auto. split; auto. rewrite <- (i_names I). eapply glook_In; eauto.
    + split; auto. exists d. split; [exists ds0; split; auto|]. rewrite <- (i_names I). apply glook_None. auto.
Qed.

Lemma deps_first_snoc : forall out x, deps_first g0 out -> (forall y, depends g0 x y -> In y out) -> deps_first g0 (out ++ [x]).
Proof.
  intros out x H Hx l1 z l2 E y Hy.
  destruct (exists_last (l := z :: l2)) as (l & a & Ea); [discriminate|].
  rewrite Ea, app_assoc in E. apply app_inj_tail in E. destruct E as [E1 E2]. subst a.
  destruct l as [|b l].
  - simpl in Ea. inversion Ea; subst. rewrite app_nil_r in *. apply Hx. auto.
  - simpl in Ea. inversion Ea; subst. apply (H l1 b l eq_refl). auto.
Qed.

Lemma sort_pass_ok : forall nodes g out n, inv g out ->
  match sort_pass nodes g out n with
  | Ok (g', out', n') => inv g' out' /\ n <= n' /\ length out <= length out' /\
      mu g' + (n' - n) + (length out' - length out) = mu g /\
      (n' = n -> length out' = length out -> g' = g /\ out' = out /\
         forall x, In x nodes -> In x names -> In x out \/
            exists d, depends g0 x d /\ In d names /\ ~ In d out)
  | Err e => e = ValueError /\ exists x d, depends g0 x d /\ ~ In d names
  end.
Proof.
  induction nodes as [|x t IH]; intros g out n I; simpl.
  - split; auto. split; auto. split; auto. split; [lia|]. intros _ _. split; auto. split; auto. intros x [].
  - destruct (glook g x) as [[[|] ds]|] eqn:Ex.
    + assert (Ox : In x out) by (apply (i_node I _ Ex); auto).
      specialize (IH g out n I). destruct (sort_pass t g out n) as [[[g' out'] n']|e]; auto.
      destruct IH as (J1 & J2 & J3 & J4 & J5). split; auto. split; auto. split; auto. split; auto.
      intros E1 E2. destruct (J5 E1 E2) as (K1 & K2 & K3). split; auto. split; auto. intros y [<-|Hy] Hn; auto.
    + destruct ds as [|d ds].
      * set (g1 := gset g x (true, [])). set (out1 := out ++ [x]).
        destruct (i_node I _ Ex) as (F & ds0 & H0 & Hi & Hk).
        assert (Nx : ~ In x out) by (intros H; apply F in H; discriminate).
        assert (I1 : inv g1 out1).
        { destruct I as [A B C D E]. constructor.
          - unfold g1. rewrite fst_gset. auto.
          - intros y f ds'. unfold g1. rewrite glook_gset. destruct (Nat.eqb_spec y x).
            + subst. rewrite Ex. intros H; inversion H; subst. split.
              * split; auto. intros _. apply in_or_app. right. simpl. auto.
              * exists ds0. split; auto. split; [intros z []|]. intros z Hz. right.
                destruct (Hk z Hz) as [[]|]. apply in_or_app. auto.
            + intros H. destruct (B _ _ _ H) as (B1 & d1 & B2 & B3 & B4). split.
              * rewrite B1. unfold out1. rewrite in_app_iff. simpl. intuition congruence.
              * exists d1. split; auto. split; auto. intros z Hz. destruct (B4 z Hz); auto. right. apply in_or_app. auto.
          - unfold out1. eapply Permutation_NoDup; [apply Permutation_cons_append|]. constructor; auto.
          - intros y Hy. apply in_app_or in Hy. destruct Hy as [Hy|[<-|[]]]; auto.
            apply in_map_iff. exists (x, ds0). auto.
          - apply deps_first_snoc; auto. intros y (ds1 & G1 & G2). rewrite (g0_fun _ _ _ G1 H0) in G2.
            destruct (Hk y G2) as [[]|]; auto. }
        specialize (IH g1 out1 n I1). pose proof (mu_gset g x (true, []) Ex) as M. fold g1 in M. unfold cost in M. simpl in M.
        assert (L1 : length out1 = S (length out)) by (unfold out1; rewrite app_length; simpl; lia).
        destruct (sort_pass t g1 out1 n) as [[[g' out'] n']|e]; auto.
        destruct IH as (J1 & J2 & J3 & J4 & J5). split; auto. split; auto. split; [lia|]. split; [lia|]. intros; lia.
      * destruct (i_node I _ Ex) as (F & ds0 & H0 & Hi & Hk).
        pose proof (deps_loop_ok (d :: ds) x n I Ex (fun _ => le_n _)) as DL.
        destruct (deps_loop g x (d :: ds) n) as [[g1 n1]|e].
        2:{ destruct DL as (E1 & dd & E2 & E3). split; auto. eauto. }
        destruct DL as (D1 & D2 & D3 & D4). specialize (IH g1 out n1 D1).
        destruct (sort_pass t g1 out n1) as [[[g' out'] n']|e]; auto.
        destruct IH as (J1 & J2 & J3 & J4 & J5). split; auto. split; [lia|]. split; auto. split; [lia|].
        intros E1 E2. assert (n1 = n) by lia. destruct (D4 H) as [Eg Hd]. subst g1. destruct (J5 ltac:(lia) E2) as (K1 & K2 & K3).
        split; auto. split; auto. intros y [<-|Hy] Hn; auto. right. exists d. destruct (Hd d (or_introl eq_refl)).
        split; auto. exists ds0. split; auto. apply Hi. simpl. auto.
    + specialize (IH g out n I). destruct (sort_pass t g out n) as [[[g' out'] n']|e]; auto.
      destruct IH as (J1 & J2 & J3 & J4 & J5). split; auto. split; auto. split; auto. split; auto.
      intros E1 E2. destruct (J5 E1 E2) as (K1 & K2 & K3). split; auto. split; auto. intros y [<-|Hy] Hn; auto.
      exfalso. apply glook_None in Ex. apply Ex. rewrite (i_names I). auto.
Qed.

Lemma sort_loop_ok : forall fuel g out i0, inv g out ->
  match i0 with None => mu g + 3 <= fuel | Some i => i = length out /\ mu g + 2 <= fuel end ->
  match sort_loop fuel g out i0 with
  | Ok r => Permutation r names /\ deps_first g0 r
  | Err e => e = ValueError /\ ((exists x d, depends g0 x d /\ ~ In d names) \/ cyclic g0)
  end.
Proof.
  induction fuel as [|fuel IH]; intros g out i0 I Hf; simpl.
  - destruct i0; lia.
  - assert (Lg : length g = length names) by (rewrite <- (i_names I), map_length; auto).
    destruct (Nat.ltb_spec (length out) (length g)).
    + pose proof (sort_pass_ok (map fst g) 0 I) as SP.
      destruct (sort_pass (map fst g) g out 0) as [[[g' out'] n']|e].
      2:{ destruct SP as (-> & x & d & H1 & H2). split; auto. left. eauto. }
      destruct SP as (J1 & J2 & J3 & J4 & J5).
      destruct ((match i0 with None => false | Some i => length out' <=? i end) && (n' =? 0)) eqn:EB.
      * apply andb_true_iff in EB. destruct EB as [E1 E2]. destruct i0 as [i|]; [|discriminate].
        apply Nat.leb_le in E1. apply Nat.eqb_eq in E2. destruct Hf as [-> Hf].
        destruct (J5 ltac:(auto) ltac:(lia)) as (K1 & K2 & K3). split; auto. right.
        rewrite (i_names I) in K3.
        set (U := filter (fun x => if in_dec Nat.eq_dec x out then false else true) names).
        assert (HU : forall x, In x U <-> In x names /\ ~ In x out).
        { intros x. unfold U. rewrite filter_In. destruct (in_dec Nat.eq_dec x out); intuition discriminate. }
        destruct (@cycle_exists (depends g0) U) as (x & _ & Hx).
        -- intros EU. assert (incl names out).
           { intros x Hx. destruct (in_dec Nat.eq_dec x out); auto. exfalso.
             assert (In x U) by (apply HU; auto). rewrite EU in H0. destruct H0. }
           pose proof (NoDup_incl_length ND H0). lia.
        -- intros x Hx. apply HU in Hx. destruct Hx as [X1 X2]. destruct (K3 x X1 X1) as [|(d & D1 & D2 & D3)]; [contradiction|].
           exists d. split; auto. apply HU. auto.
        -- exists x. auto.
      * apply IH; auto. split; auto. destruct i0 as [i|].
        -- destruct Hf as [-> Hf]. apply andb_false_iff in EB. destruct EB as [E|E].
           ++ apply Nat.leb_gt in E. lia.
           ++ apply Nat.eqb_neq in E. lia.
        -- lia.
    + split; [|apply (i_first I)]. apply NoDup_Permutation_bis; [apply (i_nodup I)| |apply (i_incl I)]. lia.
Qed.

Lemma glook_graph_of : forall l x f ds, glook (graph_of l) x = Some (f, ds) -> f = false /\ In (x, ds) l.
Proof.
  induction l as [|[y d] t IH]; simpl; intros x f ds H; [discriminate|].
  destruct (Nat.eqb_spec x y).
  - inversion H; subst. auto.
  - destruct (IH _ _ _ H). auto.
Qed.

Lemma sort_ok : match sort_by_dependency (graph_of g0) with
  | Ok r => Permutation r names /\ deps_first g0 r
  | Err e => e = ValueError /\ ((exists x d, depends g0 x d /\ ~ In d names) \/ cyclic g0)
  end.
Proof.
  apply sort_loop_ok.
  - constructor.
    + unfold graph_of. rewrite map_map. simpl. auto.
    + intros x f ds H. apply glook_graph_of in H. destruct H as [-> H]. split; [split; [discriminate|intros []]|].
      exists ds. split; auto. split; [apply incl_refl|auto].
    + constructor.
    + intros x [].
    + intros [|] x l2 E; discriminate.
  - assert (mu (graph_of g0) + 3 = sort_fuel (graph_of g0)); [|lia].
    unfold sort_fuel. f_equal. unfold graph_of. generalize g0 as l. induction l as [|[x ds] t IH]; auto.
    simpl. rewrite IH. unfold cost. simpl. rewrite app_length. lia.
Qed.
End Sort.

(** The order of a cyclic graph cannot exist. *)
Lemma deps_first_acyclic : forall g out, NoDup out -> (forall x y, depends g x y -> In x out) -> deps_first g out -> ~ cyclic g.
Proof.
  intros g out Hn Hin Hf (x & Hx).
  assert (K : forall a b, clos_trans nat (depends g) a b -> forall l1 l2, out = l1 ++ a :: l2 -> In b l1).
  { intros a b H. apply clos_trans_t1n in H. induction H as [a b H|a b c H1 H2 IH]; intros l1 l2 E.
    - eapply Hf; eauto.
    - pose proof (Hf _ _ _ E _ H1) as Hb. apply in_split in Hb. destruct Hb as (m1 & m2 & ->).
      rewrite <- app_assoc in E. simpl in E. apply in_or_app. left. eapply IH. exact E. }
  assert (Hxo : In x out).
  { apply clos_trans_t1n in Hx. inversion Hx; subst; eapply Hin; eauto. }
  apply in_split in Hxo. destruct Hxo as (l1 & l2 & E). pose proof (K _ _ Hx _ _ E) as H.
  rewrite E in Hn. apply NoDup_remove_2 in Hn. apply Hn. apply in_or_app. auto.
Qed.
