From Coq Require Import String.
From Verif Require Import Base M_dofs S_dofs.
Open Scope nat_scope.
Set Implicit Arguments.

Lemma dget_dset_eq : forall V (d : list (string * V)) k v, dget (dset d k v) k = Some v.
Proof.
  induction d as [|[k' v'] t IH]; intros k v; simpl.
  - rewrite String.eqb_refl; auto.
  - destruct (String.eqb k k') eqn:E; simpl; rewrite E; auto.
Qed.

Lemma dget_dset_neq : forall V (d : list (string * V)) k k' v, k' <> k ->
  dget (dset d k v) k' = dget d k'.
Proof.
  induction d as [|[a b] t IH]; intros k k' v H; simpl.
  - apply String.eqb_neq in H. rewrite H; auto.
  - destruct (String.eqb k a) eqn:E; simpl.
    + apply String.eqb_eq in E; subst a.
      apply String.eqb_neq in H. rewrite H; auto.
    + destruct (String.eqb k' a); auto.
Qed.

Lemma sin_In : forall x l, sin x l = true <-> In x l.
Proof.
  unfold sin; intros. rewrite existsb_exists. split.
  - intros [y [H E]]. apply String.eqb_eq in E. congruence.
  - intros H; exists x. rewrite String.eqb_refl; auto.
Qed.

Lemma sin_false : forall x l, sin x l = false <-> ~ In x l.
Proof. intros. rewrite <- sin_In. destruct (sin x l); split; intros; try congruence; tauto. Qed.

Lemma di_run_app : forall ops1 ops2 di,
  di_run di (ops1 ++ ops2) = (do d <- di_run di ops1; di_run d ops2).
Proof.
  induction ops1 as [|[[nm n] sh] t IH]; intros ops2 di; simpl; auto.
  destruct (di_append di nm n sh); simpl; auto.
Qed.

Lemma slices_from_app : forall a b s,
  slices_from s (a ++ b) = slices_from s a ++ slices_from (s + sum a) b.
Proof.
  induction a as [|x a IH]; intros b s; simpl.
  - rewrite Nat.add_0_r; auto.
  - rewrite IH. rewrite Nat.add_assoc. auto.
Qed.

Lemma sum_app : forall a b, sum (a ++ b) = sum a + sum b.
Proof. induction a; intros; simpl; auto. rewrite IHa; lia. Qed.

(** Everything we know about the result of a run. *)
Record di_inv (ops : list op) (di : dofinfo) : Prop := {
  inv_names : di_names di = map op_name ops;
  inv_nodup : NoDup (map op_name ops);
  inv_nvar : di_n_var di = length ops;
  inv_total : di_total di = sum (map op_size (owners ops));
  inv_own : map (fun o => dget (di_indx di) (op_name o)) (owners ops)
            = map Some (slices_from 0 (map op_size (owners ops)));
  inv_size : forall o, In o (owners ops) -> dget (di_ndof di) (op_name o) = Some (op_size o);
  inv_shared : forall nm n sh, In (nm, n, Some sh) ops ->
     exists s e, dget (di_indx di) nm = Some (s, e) /\ dget (di_indx di) sh = Some (s, e) /\
       dget (di_ndof di) nm = Some (e - s) /\ dget (di_ndof di) sh = Some (e - s) /\
       dget (di_shared di) nm = Some sh;
  inv_all : forall o, In o ops -> exists s e, dget (di_indx di) (op_name o) = Some (s, e) /\
       s <= e /\ e <= di_total di /\ dget (di_ndof di) (op_name o) = Some (e - s);
  inv_dom : forall k, dget (di_indx di) k <> None -> In k (map op_name ops) }.

Lemma di_inv_empty : di_inv [] di_empty.
Proof.
  constructor; simpl; auto; try constructor; try (intros; tauto); intros; congruence.
Qed.

Lemma di_inv_step : forall ops di o di',
  di_inv ops di -> di_append di (op_name o) (op_size o) (snd o) = Ok di' -> di_inv (ops ++ [o]) di'.
Proof.
  intros ops di [[nm n] sh] di' Hi. cbn [op_name op_size fst snd].
  unfold di_append.
  destruct (sin nm (di_names di)) eqn:Es; [discriminate|].
  apply sin_false in Es. rewrite (inv_names Hi) in Es.
  assert (Hnd : NoDup (map op_name (ops ++ [(nm, n, sh)]))).
  { rewrite map_app. simpl. apply NoDup_rev in Es || idtac.
    apply (Permutation_NoDup (l := nm :: map op_name ops)).
    - apply Permutation_cons_append.
    - constructor; auto. apply (inv_nodup Hi). }
  assert (Hne : forall o, In o ops -> op_name o <> nm).
  { intros o Ho E. apply Es. rewrite <- E. apply in_map; auto. }
  assert (Hown : forall o, In o (owners ops) -> In o ops).
  { intros o Ho. apply filter_In in Ho. tauto. }
  unfold update_after_append. destruct sh as [sh|]; cbn [di_indx di_ndof di_total di_names di_shared di_n_var].
  - (* shared *)
    destruct (dget (di_indx di) sh) as [ix|] eqn:E1; [|discriminate].
    destruct (dget (dset (di_ndof di) nm n) sh) as [m|] eqn:E2; [|discriminate].
    intros [= <-].
    assert (Hsh : In sh (map op_name ops)).
    { apply (inv_dom Hi). congruence. }
    assert (Hshn : sh <> nm) by (intros ->; auto).
    rewrite dget_dset_neq in E2 by auto.
    apply in_map_iff in Hsh. destruct Hsh as [osh [Hon Hoin]].
    destruct (inv_all Hi osh Hoin) as (s & e & A1 & A2 & A3 & A4). rewrite Hon in *.
    assert (ix = (s, e)) by congruence. assert (m = e - s) by congruence. subst ix m.
    assert (Eo : owners (ops ++ [(nm, n, Some sh)]) = owners ops).
    { unfold owners. rewrite filter_app. simpl. apply app_nil_r. }
    constructor; cbn [di_names di_n_var di_total di_indx di_ndof di_shared]; rewrite ?Eo; auto.
    + rewrite (inv_names Hi), map_app. auto.
    + rewrite (inv_nvar Hi), app_length. simpl. lia.
    + apply (inv_total Hi).
    + rewrite <- (inv_own Hi). apply map_ext_in. intros o Ho. apply dget_dset_neq. auto.
    + intros o Ho. rewrite !dget_dset_neq by auto. apply (inv_size Hi); auto.
    + intros nm' n' sh' Hin. apply in_app_or in Hin. destruct Hin as [Hin|[E|[]]].
      * destruct (inv_shared Hi _ _ _ Hin) as (s' & e' & B1 & B2 & B3 & B4 & B5).
        assert (nm' <> nm) by (apply (Hne _ Hin)).
        assert (sh' <> nm).
        { intros ->. apply Es. apply (inv_dom Hi). congruence. }
        exists s', e'. rewrite !dget_dset_neq by auto. tauto.
      * injection E as <- <- <-.
        exists s, e. rewrite !dget_dset_eq. rewrite !dget_dset_neq by auto. auto.
    + intros o Ho. apply in_app_or in Ho. destruct Ho as [Ho|[E|[]]].
      * rewrite !dget_dset_neq by auto. apply (inv_all Hi); auto.
      * subst o. cbn [op_name fst snd]. rewrite !dget_dset_eq. exists s, e. auto.
    + intros k Hk. destruct (string_dec k nm) as [->|Hkn].
      * rewrite map_app. apply in_or_app; right; left; auto.
      * rewrite dget_dset_neq in Hk by auto. rewrite map_app. apply in_or_app; left.
        apply (inv_dom Hi); auto.
  - (* own DOFs *)
    rewrite dget_dset_eq. intros [= <-].
    assert (Eo : owners (ops ++ [(nm, n, None)]) = owners ops ++ [(nm, n, None)]).
    { unfold owners. rewrite filter_app. auto. }
    constructor; cbn [di_names di_n_var di_total di_indx di_ndof di_shared]; rewrite ?Eo; auto.
    + rewrite (inv_names Hi), map_app. auto.
    + rewrite (inv_nvar Hi), app_length. simpl. lia.
    + rewrite (inv_total Hi), map_app, sum_app. simpl. cbn [op_size fst snd]. lia.
    + rewrite !map_app, slices_from_app, map_app. f_equal.
      * rewrite <- (inv_own Hi). apply map_ext_in. intros o Ho. apply dget_dset_neq. auto.
      * cbn [map slices_from op_name op_size fst snd]. rewrite dget_dset_eq, (inv_total Hi). auto.
    + intros o Ho. apply in_app_or in Ho. destruct Ho as [Ho|[E|[]]].
      * rewrite !dget_dset_neq by auto. apply (inv_size Hi); auto.
      * subst o. cbn [op_name op_size fst snd]. apply dget_dset_eq.
    + intros nm' n' sh' Hin. apply in_app_or in Hin. destruct Hin as [Hin|[E|[]]]; [|discriminate].
      destruct (inv_shared Hi _ _ _ Hin) as (s' & e' & B1 & B2 & B3 & B4 & B5).
      assert (nm' <> nm) by (apply (Hne _ Hin)).
      assert (sh' <> nm).
      { intros ->. apply Es. apply (inv_dom Hi). congruence. }
      exists s', e'. rewrite !dget_dset_neq by auto. tauto.
    + intros o Ho. apply in_app_or in Ho. destruct Ho as [Ho|[E|[]]].
      * rewrite !dget_dset_neq by auto.
        destruct (inv_all Hi o Ho) as (s & e & A1 & A2 & A3 & A4).
        exists s, e. repeat split; auto. lia.
      * subst o. cbn [op_name fst snd]. rewrite !dget_dset_eq.
        exists (di_total di), (di_total di + n). repeat split; auto; try lia. f_equal; lia.
    + intros k Hk. destruct (string_dec k nm) as [->|Hkn].
      * rewrite map_app. apply in_or_app; right; left; auto.
      * rewrite dget_dset_neq in Hk by auto. rewrite map_app. apply in_or_app; left.
        apply (inv_dom Hi); auto.
Qed.

Lemma di_run_inv : forall ops di, di_run di_empty ops = Ok di -> di_inv ops di.
Proof.
  induction ops as [|o ops IH] using rev_ind; intros di H.
  - injection H as <-. apply di_inv_empty.
  - rewrite di_run_app in H. destruct (di_run di_empty ops) as [d|] eqn:E; [|discriminate].
    cbn [bind] in H. destruct o as [[nm n] sh]. cbn [di_run] in H.
    destruct (di_append d nm n sh) as [d'|] eqn:E2; [|discriminate].
    cbn in H. injection H as <-. eapply di_inv_step; eauto.
Qed.

Lemma slices_from_cover : forall sizes s x,
  s <= x < s + sum sizes <->
  exists k, k < length sizes /\ fst (nth k (slices_from s sizes) (0, 0)) <= x
            < snd (nth k (slices_from s sizes) (0, 0)).
Proof.
  induction sizes as [|n t IH]; intros s x; simpl.
  - split; [lia|]. intros (k & Hk & _); lia.
  - split.
    + intros H. destruct (Nat.lt_ge_cases x (s + n)).
      * exists 0. simpl. lia.
      * destruct (proj1 (IH (s + n) x)) as (k & Hk & H1); [lia|].
        exists (S k). split; [lia|]. exact H1.
    + intros (k & Hk & H1). destruct k as [|k]; simpl in H1; [lia|].
      assert (s + n <= x < s + n + sum t).
      { apply IH. exists k. split; [lia|exact H1]. }
      lia.
Qed.

Lemma length_slices : forall sizes s, length (slices_from s sizes) = length sizes.
Proof. induction sizes; intros; simpl; auto. Qed.

Lemma slices_from_disjoint : forall sizes s i j,
  i < j -> j < length sizes ->
  snd (nth i (slices_from s sizes) (0, 0)) <= fst (nth j (slices_from s sizes) (0, 0)).
Proof.
  induction sizes as [|n t IH]; intros s i j Hij Hj; simpl in *; [lia|].
  destruct j as [|j]; [lia|]. destruct i as [|i].
  - simpl. clear IH. revert s n j Hij Hj.
    induction t as [|m t IH]; intros s n j Hij Hj; simpl in *; [lia|].
    destruct j as [|j]; simpl; [lia|].
    etransitivity; [|apply IH; lia]. lia.
  - apply IH; lia.
Qed.

Lemma di_append_dup : forall ops di nm n sh,
  di_run di_empty ops = Ok di -> In nm (map op_name ops) -> di_append di nm n sh = Err ValueError.
Proof.
  intros ops di nm n sh H Hin. apply di_run_inv in H. unfold di_append.
  rewrite (inv_names H). apply sin_In in Hin. rewrite Hin. auto.
Qed.

Lemma di_append_ok : forall ops di nm n sh,
  di_run di_empty ops = Ok di -> ~ In nm (map op_name ops) ->
  (forall s, sh = Some s -> In s (map op_name ops)) -> exists di', di_append di nm n sh = Ok di'.
Proof.
  intros ops di nm n sh H Hni Hsh. apply di_run_inv in H. unfold di_append.
  rewrite (inv_names H). rewrite (proj2 (sin_false _ _) Hni). unfold update_after_append.
  destruct sh as [sh|]; cbn [di_indx di_ndof].
  - assert (Hs := Hsh sh eq_refl). apply in_map_iff in Hs. destruct Hs as (o & Ho & Hoin).
    destruct (inv_all H o Hoin) as (s & e & A1 & _ & _ & A4). subst sh. rewrite A1.
    rewrite dget_dset_neq, A4; eauto.
    intros E. apply Hni. rewrite <- E. apply in_map; auto.
  - rewrite dget_dset_eq. eauto.
Qed.

Lemma owner_slice : forall ops di k, di_run di_empty ops = Ok di -> k < length (owners ops) ->
  dget (di_indx di) (op_name (nth k (owners ops) (EmptyString, 0, None)))
  = Some (nth k (slices_from 0 (map op_size (owners ops))) (0, 0)).
Proof.
  intros ops di k H Hk. apply di_run_inv in H. pose proof (inv_own H) as E.
  assert (Hm : nth k (map (fun o => dget (di_indx di) (op_name o)) (owners ops)) None
               = nth k (map Some (slices_from 0 (map op_size (owners ops)))) None) by congruence.
  rewrite nth_map_in with (da := (EmptyString, 0, None)) in Hm by auto.
  rewrite nth_map_in with (da := (0, 0)) in Hm by (rewrite length_slices, map_length; auto).
  exact Hm.
Qed.

Lemma di_partition : forall ops di, di_run di_empty ops = Ok di -> forall x,
  (x < di_total di <->
   exists o s e, In o (owners ops) /\ dget (di_indx di) (op_name o) = Some (s, e) /\ s <= x < e) /\
  (forall o1 o2 s1 e1 s2 e2, In o1 (owners ops) -> In o2 (owners ops) ->
     dget (di_indx di) (op_name o1) = Some (s1, e1) -> dget (di_indx di) (op_name o2) = Some (s2, e2) ->
     s1 <= x < e1 -> s2 <= x < e2 -> o1 = o2).
Proof.
  intros ops di H x. pose proof (di_run_inv _ H) as Hi. split.
  - rewrite (inv_total Hi).
    assert (Hc := slices_from_cover (map op_size (owners ops)) 0 x).
    split.
    + intros Hx. destruct (proj1 Hc) as (k & Hk & Hr); [lia|]. rewrite map_length in Hk.
      exists (nth k (owners ops) (EmptyString, 0, None)).
      exists (fst (nth k (slices_from 0 (map op_size (owners ops))) (0, 0))).
      exists (snd (nth k (slices_from 0 (map op_size (owners ops))) (0, 0))).
      split; [apply nth_In; auto|]. split; auto. rewrite (owner_slice _ H Hk).
      rewrite <- surjective_pairing. auto.
    + intros (o & s & e & Ho & Hd & Hr).
      destruct (In_nth _ _ (EmptyString, 0, None) Ho) as (k & Hk & Hn).
      pose proof (owner_slice _ H Hk) as E. rewrite Hn, Hd in E. injection E as E.
      apply Hc. exists k. rewrite map_length, <- E. simpl. auto.
  - intros o1 o2 s1 e1 s2 e2 H1 H2 D1 D2 R1 R2.
    destruct (In_nth _ _ (EmptyString, 0, None) H1) as (k1 & Hk1 & Hn1).
    destruct (In_nth _ _ (EmptyString, 0, None) H2) as (k2 & Hk2 & Hn2).
    pose proof (owner_slice _ H Hk1) as E1. pose proof (owner_slice _ H Hk2) as E2.
    rewrite Hn1, D1 in E1. rewrite Hn2, D2 in E2. injection E1 as E1. injection E2 as E2.
    destruct (Nat.lt_trichotomy k1 k2) as [L|[->|L]]; [|congruence|]; exfalso.
    + pose proof (@slices_from_disjoint (map op_size (owners ops)) 0 k1 k2 L) as D.
      rewrite map_length in D. specialize (D Hk2). rewrite <- E1, <- E2 in D. simpl in D. lia.
    + pose proof (@slices_from_disjoint (map op_size (owners ops)) 0 k2 k1 L) as D.
      rewrite map_length in D. specialize (D Hk1). rewrite <- E1, <- E2 in D. simpl in D. lia.
Qed.
