(** Consequences of [em_ok] for the vector operations. *)
From Coq Require Import String Relations.
From Verif Require Import Base M_dofs S_dofs S_eqmap L_expand L_chains L_epbc L_eqloop L_eqfin.
Open Scope nat_scope.

Section Props.
Variable V : Type.
Variable vzero : V.

(** ** From the run of map_equations to [em_ok] *)
Lemma map_equations_ok : forall junk ord n names unused bcs em,
  (forall l, Permutation (ord l) l) ->
  map_equations vzero junk ord n names unused bcs = Ok em ->
  wf_bcs names bcs -> balanced names bcs \/ n_epbc bcs <= 2 ->
  (forall bc, In bc bcs -> bc_ok V junk names n bc) /\
  em_ok V vzero n unused (concat (map (bc_pairs V junk names) bcs))
        (flags_of V junk names n bcs) (vals_of V vzero junk names n bcs) em.
Proof.
  intros junk ord n names unused bcs em Hord H Hwf Hreg. unfold map_equations in H.
  destruct (map_loop junk names (mk_ms (repeat false n) (repeat vzero n) (repeat 0%Z n) []) bcs) as [st|] eqn:E;
    [|discriminate]. cbn [bind] in H.
  apply map_loop_spec in E. cbn [m_flag m_val m_ms m_ch] in E. rewrite repeat_length in E.
  destruct E as (E1 & E2 & E3 & E4). split; auto.
  assert (Ef : m_flag st = flags_of V junk names n bcs) by auto.
  assert (Ev : m_val st = vals_of V vzero junk names n bcs) by auto.
  rewrite <- Ef, <- Ev. apply (finish_ok V vzero ord) with (n := n); auto.
  - rewrite Ef. unfold flags_of. rewrite flags_length, repeat_length; auto.
  - rewrite Ev. unfold vals_of. rewrite vals_length, repeat_length; auto.
  - intros gs Hgs.
    assert (HokP : okP n [] [] (map (bc_pairs V junk names) bcs)).
    { destruct Hreg as [Hb|Hb].
      - apply (balanced_okP V junk names n bcs []); auto.
        + intros x. split; [intros []|]. intros (b & y & [] & _).
        + intros x. split; [intros []|]. intros (b & y & [] & _).
      - apply (two_okP V junk names n 2 bcs); auto. tauto. }
    destruct (reg_run_inv _ (jinv_init n) HokP (eq_sym E4)) as (reg & occ & J).
    destruct (group_chains_ok ord Hord (m_ch st)) as (gs' & Hg' & HG).
    assert (gs' = gs) by congruence. subst gs'.
    eapply resolve_good; eauto.
Qed.

(** ** Vector operations *)
Section Ops.
Variables (n : nat) (A : list (nat * nat)) (fl : list bool) (val : list V) (em : eqmap V).
Hypothesis O : em_ok V vzero n [] A fl val em.

Lemma o_cover : forall x, x < n -> In x (em_eqi em) \/ In x (em_ebc em) \/ In x (em_master em).
Proof.
  intros x Hx. destruct (in_dec Nat.eq_dec x (em_ebc em)); auto.
  destruct (in_dec Nat.eq_dec x (em_master em)); auto.
  left. apply (o_eqi _ _ _ _ _ _ _ _ O). auto.
Qed.

Lemma o_master_pair : forall x, In x (em_master em) ->
  exists s, In (x, s) (combine (em_master em) (em_slave em)).
Proof.
  intros x Hx. destruct (In_nth _ _ 0 Hx) as (k & Hk & <-).
  exists (nth k (em_slave em) 0). apply (in_combine_nth _ _ _ _ 0 0).
  - symmetry; apply (o_s_l _ _ _ _ _ _ _ _ O).
  - eauto.
Qed.

Lemma o_pair_fun : forall m s s', In (m, s) (combine (em_master em) (em_slave em)) ->
  In (m, s') (combine (em_master em) (em_slave em)) -> s = s'.
Proof.
  intros m s s' H1 H2. assert (L := o_s_l _ _ _ _ _ _ _ _ O).
  apply (in_combine_nth _ _ _ _ 0 0 (eq_sym L)) in H1.
  apply (in_combine_nth _ _ _ _ 0 0 (eq_sym L)) in H2.
  destruct H1 as (k & Hk & E1 & ->). destruct H2 as (j & Hj & E2 & ->).
  f_equal. apply (proj1 (NoDup_nth (em_master em) 0)); auto; try congruence.
  apply sinc_NoDup. apply (o_m_s _ _ _ _ _ _ _ _ O).
Qed.

(** The last step of get_full and apply_ebc: [vec[master] = vec[slave]]. *)
Definition close_ms (v : list V) : list V := put v (em_master em) (take vzero v (em_slave em)).

Lemma close_ms_spec : forall v, length v = n ->
  length (close_ms v) = n /\
  (forall x, ~ In x (em_master em) -> nth x (close_ms v) vzero = nth x v vzero) /\
  (forall m s, In (m, s) (combine (em_master em) (em_slave em)) ->
     nth m (close_ms v) vzero = nth s v vzero /\ nth s (close_ms v) vzero = nth s v vzero).
Proof.
  intros v Hv. unfold close_ms. split; [rewrite length_put; auto|].
  assert (Hn : forall x, ~ In x (em_master em) ->
     nth x (put v (em_master em) (take vzero v (em_slave em))) vzero = nth x v vzero).
  { intros x Hx. apply put_notin; auto. }
  split; auto. intros m s Hms.
  destruct (o_ms _ _ _ _ _ _ _ _ O m s Hms) as (H1 & H2 & H3 & H4). split; auto.
  assert (L := o_s_l _ _ _ _ _ _ _ _ O).
  apply (in_combine_nth _ _ _ _ 0 0 (eq_sym L)) in Hms. destruct Hms as (k & Hk & -> & ->).
  rewrite put_nth; auto.
  - rewrite nth_take; auto. lia.
  - apply sinc_NoDup. apply (o_m_s _ _ _ _ _ _ _ _ O).
  - intros i Hi. destruct (o_master_pair i Hi) as (s & Hs).
    destruct (o_ms _ _ _ _ _ _ _ _ O i s Hs). lia.
  - rewrite length_take; auto.
Qed.

Lemma close_ms_tied : forall v x y, length v = n -> linked A x y ->
  nth x (close_ms v) vzero = nth y (close_ms v) vzero.
Proof.
  intros v x y Hv Lk. destruct (close_ms_spec v Hv) as (C1 & C2 & C3).
  destruct (Nat.eq_dec x y) as [->|N]; auto.
  destruct (o_tied _ _ _ _ _ _ _ _ O x y Lk N) as (r & [Hx|[-> Hx]] & Hy).
  - destruct (C3 _ _ Hx) as [E1 E2]. destruct Hy as [Hy|[-> Hy]].
    + destruct (C3 _ _ Hy). congruence.
    + congruence.
  - destruct Hy as [Hy|[-> Hy]]; auto. destruct (C3 _ _ Hy). congruence.
Qed.

Lemma put_ebc : forall v x, length v = n ->
  nth x (put v (em_ebc em) (em_val em)) vzero = nth x v vzero /\ ~ In x (em_ebc em) \/
  exists y, linked A x y /\ nth y fl false = true /\ In x (em_ebc em) /\
            nth x (put v (em_ebc em) (em_val em)) vzero = nth y val vzero.
Proof.
  intros v x Hv.
  destruct (in_dec Nat.eq_dec x (em_ebc em)) as [Hi|Hi].
  - right. destruct (In_nth _ _ 0 Hi) as (k & Hk & <-).
    destruct (o_val _ _ _ _ _ _ _ _ O k Hk) as (y & Y1 & Y2 & Y3).
    exists y. split; auto. split; auto. split; auto.
    rewrite put_nth; auto.
    + apply sinc_NoDup. apply (o_ebc_s _ _ _ _ _ _ _ _ O).
    + intros i Hii. rewrite Hv. apply (o_ebc_n _ _ _ _ _ _ _ _ O); auto.
    + apply (o_val_l _ _ _ _ _ _ _ _ O).
  - left. split; auto. apply put_notin; auto.
Qed.

Lemma eqi_bound : forall i, In i (em_eqi em) -> i < n.
Proof. intros i Hi. apply (o_eqi _ _ _ _ _ _ _ _ O) in Hi. tauto. Qed.

Lemma put_eqi : forall v r k, length v = n -> length r = em_neq em -> k < em_neq em ->
  nth (nth k (em_eqi em) 0) (put v (em_eqi em) r) vzero = nth k r vzero.
Proof.
  intros v r k Hv Hr Hk. apply put_nth; auto.
  - apply sinc_NoDup. apply (o_eqi_s _ _ _ _ _ _ _ _ O).
  - rewrite Hv. apply eqi_bound.
Qed.

Lemma get_full_reduced : forall junkv force r, length junkv = n -> length r = em_neq em ->
  get_reduced vzero em (get_full vzero junkv em force r) = r.
Proof.
  intros junkv force r Hj Hr. unfold get_reduced, get_full.
  set (v1 := match force with None => _ | Some f => _ end).
  assert (H1 : length v1 = n).
  { unfold v1. destruct force; rewrite ?length_put1, ?length_put; auto. }
  fold (close_ms (put v1 (em_eqi em) r)).
  apply list_ext with (d := vzero).
  - rewrite length_take; auto.
  - rewrite length_take. intros i Hi. rewrite nth_take by auto.
    destruct (close_ms_spec (put v1 (em_eqi em) r)) as (C1 & C2 & C3); [rewrite length_put; auto|].
    rewrite C2.
    + apply put_eqi; auto.
    + assert (In (nth i (em_eqi em) 0) (em_eqi em)) by (apply nth_In; auto).
      apply (o_eqi _ _ _ _ _ _ _ _ O) in H. tauto.
Qed.

Lemma get_full_tied : forall junkv force r x y, length junkv = n ->
  linked A x y -> nth x (get_full vzero junkv em force r) vzero = nth y (get_full vzero junkv em force r) vzero.
Proof.
  intros junkv force r x y Hj Lk. unfold get_full.
  set (v1 := match force with None => _ | Some f => _ end).
  apply (close_ms_tied (put v1 (em_eqi em) r)); auto.
  rewrite length_put. unfold v1. destruct force; rewrite ?length_put1, ?length_put; auto.
Qed.

Lemma get_full_length : forall junkv force r, length junkv = n -> length (get_full vzero junkv em force r) = n.
Proof.
  intros. unfold get_full. rewrite !length_put. destruct force; rewrite ?length_put1, ?length_put; auto.
Qed.

(** The value in any constrained DOF comes from a flagged DOF of its class. *)
Lemma get_full_ebc : forall junkv r x, length junkv = n -> x < n ->
  (exists y, linked A x y /\ nth y fl false = true) ->
  exists y, linked A x y /\ nth y fl false = true /\
            nth x (get_full vzero junkv em None r) vzero = nth y val vzero.
Proof.
  intros junkv r x Hj Hx (z & Lz & Fz).
  assert (Hroot : forall u, u < n -> ~ In u (em_master em) -> linked A u z ->
     exists y, linked A u y /\ nth y fl false = true /\
       nth u (get_full vzero junkv em None r) vzero = nth y val vzero).
  { intros u Hu Hum Luz. assert (Hue : In u (em_ebc em)).
    { apply (o_flag_root _ _ _ _ _ _ _ _ O) with (y := z); auto. }
    destruct (put_ebc junkv u Hj) as [[_ Hn]|(y & Y1 & Y2 & Y3 & Y4)]; [tauto|].
    exists y. split; auto. split; auto. unfold get_full.
    fold (close_ms (put (put junkv (em_ebc em) (em_val em)) (em_eqi em) r)).
    destruct (close_ms_spec (put (put junkv (em_ebc em) (em_val em)) (em_eqi em) r)) as (C1 & C2 & C3);
      [rewrite !length_put; auto|].
    rewrite C2 by auto. rewrite put_notin; auto.
    intros Hi. apply (o_eqi _ _ _ _ _ _ _ _ O) in Hi. tauto. }
  destruct (in_dec Nat.eq_dec x (em_master em)) as [Hi|Hi]; [|apply Hroot; auto].
  destruct (o_master_pair x Hi) as (s & Hs).
  destruct (o_ms _ _ _ _ _ _ _ _ O x s Hs) as (H1 & H2 & H3 & H4).
  destruct (Hroot s H2 H3) as (y & Y1 & Y2 & Y3).
  { eapply rst_trans; [apply rst_sym; exact H4|exact Lz]. }
  exists y. split; [eapply rst_trans; eauto|]. split; auto.
  rewrite (get_full_tied junkv None r x s); auto.
Qed.

Lemma reduced_full : forall junkv v, length junkv = n -> length v = n ->
  (forall x, nth x fl false = true -> nth x v vzero = nth x val vzero) ->
  (forall x y, linked A x y -> nth x v vzero = nth y v vzero) ->
  get_full vzero junkv em None (get_reduced vzero em v) = v.
Proof.
  intros junkv v Hj Hv Hval Htied.
  apply list_ext with (d := vzero).
  - rewrite get_full_length; auto.
  - rewrite get_full_length by auto. intros x Hx.
    assert (Hroot : forall u, u < n -> ~ In u (em_master em) ->
        nth u (get_full vzero junkv em None (get_reduced vzero em v)) vzero = nth u v vzero).
    { intros u Hu Hum.
      destruct (in_dec Nat.eq_dec u (em_ebc em)) as [He|He].
      - destruct (o_flag_inv _ _ _ _ _ _ _ _ O u He) as (z & Lz & Fz).
        destruct (get_full_ebc junkv (get_reduced vzero em v) u Hj Hu) as (y & Y1 & Y2 & Y3); eauto.
        rewrite Y3. rewrite <- Hval by auto. symmetry; apply Htied; auto.
      - assert (Hi : In u (em_eqi em)) by (apply (o_eqi _ _ _ _ _ _ _ _ O); auto).
        destruct (In_nth _ _ 0 Hi) as (k & Hk & Ek).
        assert (E := get_full_reduced junkv None (get_reduced vzero em v) Hj).
        rewrite <- Ek.
        transitivity (nth k (get_reduced vzero em (get_full vzero junkv em None (get_reduced vzero em v))) vzero).
        + unfold get_reduced at 2. rewrite nth_take by auto. auto.
        + rewrite E by (unfold get_reduced; rewrite length_take; auto).
          unfold get_reduced. rewrite nth_take by auto. auto. }
    destruct (in_dec Nat.eq_dec x (em_master em)) as [Hi|Hi]; auto.
    destruct (o_master_pair x Hi) as (s & Hs).
    destruct (o_ms _ _ _ _ _ _ _ _ O x s Hs) as (H1 & H2 & H3 & H4).
    rewrite (get_full_tied junkv None _ x s) by auto. rewrite Hroot by auto. symmetry; apply Htied; auto.
Qed.

(** apply_ebc *)
Lemma apply_ebc_frame : forall vec x, length vec = n ->
  ~ In x (em_ebc em) -> ~ In x (em_master em) -> nth x (apply_ebc vzero em vec) vzero = nth x vec vzero.
Proof.
  intros vec x Hv H1 H2. unfold apply_ebc. rewrite put_notin by auto. apply put_notin; auto.
Qed.

Lemma apply_ebc_length : forall vec, length (apply_ebc vzero em vec) = length vec.
Proof. intros. unfold apply_ebc. rewrite !length_put; auto. Qed.

Lemma apply_ebc_idem : forall vec, length vec = n ->
  apply_ebc vzero em (apply_ebc vzero em vec) = apply_ebc vzero em vec.
Proof.
  intros vec Hv.
  set (w := put vec (em_ebc em) (em_val em)).
  assert (Lw : length w = n) by (unfold w; rewrite length_put; auto).
  assert (Ea : forall v, apply_ebc vzero em v = close_ms (put v (em_ebc em) (em_val em))) by auto.
  destruct (close_ms_spec w Lw) as (C1 & C2 & C3).
  rewrite !Ea. fold w.
  set (w2 := put (close_ms w) (em_ebc em) (em_val em)).
  assert (Lw2 : length w2 = n) by (unfold w2; rewrite length_put; auto).
  destruct (close_ms_spec w2 Lw2) as (D1 & D2 & D3).
  assert (Hroot : forall x, ~ In x (em_master em) -> nth x w2 vzero = nth x w vzero).
  { intros x Hx. unfold w2.
    destruct (in_dec Nat.eq_dec x (em_ebc em)) as [Hi|Hi].
    - destruct (In_nth _ _ 0 Hi) as (k & Hk & <-). unfold w.
      assert (HP : forall v, length v = n -> nth (nth k (em_ebc em) 0) (put v (em_ebc em) (em_val em)) vzero = nth k (em_val em) vzero).
      { intros v Lv. apply put_nth; auto.
        - apply sinc_NoDup; apply (o_ebc_s _ _ _ _ _ _ _ _ O).
        - rewrite Lv. apply (o_ebc_n _ _ _ _ _ _ _ _ O).
        - apply (o_val_l _ _ _ _ _ _ _ _ O). }
      rewrite !HP; auto.
    - rewrite put_notin by auto. apply C2; auto. }
  apply list_ext with (d := vzero); [congruence|].
  rewrite D1. intros x Hx. destruct (in_dec Nat.eq_dec x (em_master em)) as [Hi|Hi].
  - destruct (o_master_pair x Hi) as (s & Hs).
    destruct (C3 _ _ Hs) as [E1 E2]. destruct (D3 _ _ Hs) as [E3 E4].
    destruct (o_ms _ _ _ _ _ _ _ _ O x s Hs) as (H1 & H2 & H3 & H4).
    rewrite E1, E3. apply Hroot; auto.
  - rewrite D2, C2 by auto. apply Hroot; auto.
Qed.

Lemma apply_ebc_tied : forall vec x y, length vec = n -> linked A x y ->
  nth x (apply_ebc vzero em vec) vzero = nth y (apply_ebc vzero em vec) vzero.
Proof. intros vec x y Hv Lk. apply close_ms_tied; auto. rewrite length_put; auto. Qed.

Lemma apply_ebc_ebc : forall vec x, length vec = n -> x < n ->
  (exists y, linked A x y /\ nth y fl false = true) ->
  exists y, linked A x y /\ nth y fl false = true /\
            nth x (apply_ebc vzero em vec) vzero = nth y val vzero.
Proof.
  intros vec x Hv Hx (z & Lz & Fz).
  assert (Hroot : forall u, u < n -> ~ In u (em_master em) -> linked A u z ->
     exists y, linked A u y /\ nth y fl false = true /\
       nth u (apply_ebc vzero em vec) vzero = nth y val vzero).
  { intros u Hu Hum Luz. assert (Hue : In u (em_ebc em)).
    { apply (o_flag_root _ _ _ _ _ _ _ _ O) with (y := z); auto. }
    destruct (put_ebc vec u Hv) as [[_ Hn]|(y & Y1 & Y2 & Y3 & Y4)]; [tauto|].
    exists y. split; auto. split; auto. unfold apply_ebc. rewrite put_notin; auto. }
  destruct (in_dec Nat.eq_dec x (em_master em)) as [Hi|Hi]; [|apply Hroot; auto].
  destruct (o_master_pair x Hi) as (s & Hs).
  destruct (o_ms _ _ _ _ _ _ _ _ O x s Hs) as (H1 & H2 & H3 & H4).
  destruct (Hroot s H2 H3) as (y & Y1 & Y2 & Y3).
  { eapply rst_trans; [apply rst_sym; exact H4|exact Lz]. }
  exists y. split; [eapply rst_trans; eauto|]. split; auto.
  rewrite (apply_ebc_tied vec x s); auto.
Qed.

Lemma has_ebc_spec : forall close vec, (forall a, close a a = true) ->
  (forall k, k < length (em_ebc em) -> nth (nth k (em_ebc em) 0) vec vzero = nth k (em_val em) vzero) ->
  (forall m s, In (m, s) (combine (em_master em) (em_slave em)) -> nth m vec vzero = nth s vec vzero) ->
  has_ebc vzero close em vec = true.
Proof.
  intros close vec Hc H1 H2. unfold has_ebc.
  assert (Ha : forall a b, length a = length b -> (forall k, k < length a -> nth k a vzero = nth k b vzero) ->
     forallb (fun p => close (fst p) (snd p)) (combine a b) = true).
  { intros a b Hl H. assert (a = b) by (apply list_ext with (d := vzero); auto). subst b.
    apply forallb_forall. intros [u w] Hin. apply (in_combine_nth _ _ _ _ vzero vzero) in Hin; auto.
    destruct Hin as (k & _ & -> & ->). simpl. auto. }
  rewrite !Ha; auto; rewrite ?length_take.
  - symmetry. apply (o_s_l _ _ _ _ _ _ _ _ O).
  - intros k Hk. rewrite !nth_take; auto; [|rewrite (o_s_l _ _ _ _ _ _ _ _ O); auto].
    apply H2. apply (in_combine_nth _ _ _ _ 0 0); [symmetry; apply (o_s_l _ _ _ _ _ _ _ _ O)|]. eauto.
  - symmetry. apply (o_val_l _ _ _ _ _ _ _ _ O).
  - intros k Hk. rewrite nth_take by auto. auto.
Qed.

End Ops.
End Props.
