(** The equation mapping in terms of the user's conditions. *)
From Coq Require Import String Relations.
From Verif Require Import Base M_dofs S_dofs S_eqmap L_expand L_chains L_epbc L_eqloop L_eqfin L_eqprops.
Open Scope nat_scope.

Section Main.
Variable V : Type.
Variable vzero : V.
Variables (junk : nat) (ord : list nat -> list nat) (n : nat) (names : list string).
Variables (unused : list nat) (bcs : list (bcond V)) (em : eqmap V).
Hypothesis Hord : forall l, Permutation (ord l) l.
Hypothesis Hmap : map_equations vzero junk ord n names unused bcs = Ok em.
Hypothesis Hwf : wf_bcs names bcs.
Hypothesis Hreg : balanced names bcs \/ n_epbc bcs <= 2.

Notation A := (concat (map (bc_pairs V junk names) bcs)).
Notation fl := (flags_of V junk names n bcs).
Notation val := (vals_of V vzero junk names n bcs).

Lemma m_ok : em_ok V vzero n unused A fl val em.
Proof. eapply map_equations_ok; eauto. Qed.
Lemma m_bc : forall bc, In bc bcs -> bc_ok V junk names n bc.
Proof. eapply map_equations_ok; eauto. Qed.

Lemma m_flag : forall x, nth x fl false = true <-> x < n /\ exists bc, In bc bcs /\ fixes names bc x.
Proof.
  intros x. destruct (Nat.lt_ge_cases x n) as [Hx|Hx].
  - unfold flags_of. rewrite (flags_spec V junk names n); auto using m_bc, repeat_length.
    rewrite nth_repeat_lt by auto. split; [intros [H|H]; [discriminate|auto]|tauto].
  - rewrite nth_overflow; [|unfold flags_of; rewrite flags_length, repeat_length; auto].
    split; [discriminate|lia].
Qed.

Lemma m_fixes_n : forall bc x, In bc bcs -> fixes names bc x -> x < n.
Proof.
  intros bc x Hb Hf. eapply (bc_eq_bound V junk names n bc); [apply m_bc; auto|].
  apply (bc_eq_fixes V junk names n); auto using m_bc.
Qed.

Lemma m_flag' : forall x, nth x fl false = true <-> exists bc, In bc bcs /\ fixes names bc x.
Proof.
  intros x. rewrite m_flag. split; [tauto|]. intros (bc & H1 & H2). split; eauto using m_fixes_n.
Qed.

Lemma m_last : forall x, last_value names vzero bcs x (nth x val vzero).
Proof.
  intros x. unfold vals_of, last_value.
  destruct (vals_spec V vzero junk names n bcs (repeat vzero n)) with (x := x) as [H|[H1 H2]];
    auto using m_bc, repeat_length.
  right. split; auto. rewrite H1. destruct (Nat.lt_ge_cases x n).
  - apply nth_repeat_lt; auto.
  - apply nth_overflow. rewrite repeat_length; auto.
Qed.

Lemma m_tied : forall x y, tied names bcs x y <-> linked A x y.
Proof. intros. apply (tied_linked V junk names n); auto using m_bc. Qed.

Lemma m_tied_n : forall x y, linked A x y -> x < n -> y < n.
Proof.
  intros x y H Hx. destruct (Nat.eq_dec x y) as [<-|N]; auto.
  destruct (o_tied _ _ _ _ _ _ _ _ m_ok x y H N) as (r & _ & [Hr|[-> Hr]]).
  - apply (o_ms _ _ _ _ _ _ _ _ m_ok) in Hr. tauto.
  - destruct (o_tied _ _ _ _ _ _ _ _ m_ok x r H N) as (r' & [H1|[-> H1]] & [H2|[-> H2]]).
    + apply in_combine_l in H2. tauto.
    + apply (o_ms _ _ _ _ _ _ _ _ m_ok) in H1. tauto.
    + apply in_combine_l in H2; tauto.
    + auto.
Qed.

(** *** C03 in general: one equation per unconstrained class of tied DOFs *)
Lemma m_class : forall x, x < n ->
  ((exists y bc, tied names bcs x y /\ In bc bcs /\ fixes names bc y) ->
     ~ In x (em_eqi em) /\ (unused = [] -> (nth x (em_eq em) 0 < 0)%Z)) /\
  (~ (exists y bc, tied names bcs x y /\ In bc bcs /\ fixes names bc y) -> unused = [] ->
     exists k, k < length (em_eqi em) /\ tied names bcs x (nth k (em_eqi em) 0) /\
               nth x (em_eq em) 0%Z = Z.of_nat k /\
               forall j, j < length (em_eqi em) -> tied names bcs x (nth j (em_eqi em) 0) -> j = k).
Proof.
  intros x Hx. pose proof m_ok as O. split.
  - intros (y & bc & T & Hb & Hf).
    assert (Fy : nth y fl false = true) by (apply m_flag'; eauto).
    assert (Hni : forall u, ~ In u (em_master em) -> u < n -> linked A u y -> ~ In u (em_eqi em) /\ (nth u (em_eq em) 0 < 0)%Z).
    { intros u Hu1 Hu2 Hu3.
      assert (He : In u (em_ebc em)) by (apply (o_flag_root _ _ _ _ _ _ _ _ O) with (y := y); auto).
      assert (~ In u (em_eqi em)) by (intros Hi; apply (o_eqi _ _ _ _ _ _ _ _ O) in Hi; tauto).
      split; auto. apply (o_eq_neg _ _ _ _ _ _ _ _ O); auto. }
    apply m_tied in T.
    destruct (in_dec Nat.eq_dec x (em_master em)) as [Hi|Hi].
    + split; [intros Hq; apply (o_eqi _ _ _ _ _ _ _ _ O) in Hq; tauto|]. intros _.
      destruct (In_nth _ _ 0 Hi) as (k & Hk & Ek).
      assert (Hms : In (x, nth k (em_slave em) 0) (combine (em_master em) (em_slave em))).
      { apply (in_combine_nth _ _ _ _ 0 0); [symmetry; apply (o_s_l _ _ _ _ _ _ _ _ O)|]. exists k. auto. }
      rewrite (o_eq_m _ _ _ _ _ _ _ _ O _ _ Hms).
      destruct (o_ms _ _ _ _ _ _ _ _ O _ _ Hms) as (H1 & H2 & H3 & H4).
      apply Hni; auto. eapply rst_trans; [apply rst_sym; exact H4|exact T].
    + destruct (Hni x) as [H1 H2]; auto.
  - intros Hno Hun. rewrite Hun in O.
    assert (Hroot : forall u, ~ In u (em_master em) -> u < n -> linked A x u -> In u (em_eqi em)).
    { intros u H1 H2 H3. apply (o_eqi _ _ _ _ _ _ _ _ O). split; auto. split; auto.
      intros He. destruct (o_flag_inv _ _ _ _ _ _ _ _ O u He) as (y & Ly & Fy).
      apply m_flag' in Fy. destruct Fy as (bc & B1 & B2). apply Hno. exists y, bc. split; auto.
      apply m_tied. eapply rst_trans; eauto. }
    assert (Huniq : forall i j, i < length (em_eqi em) -> j < length (em_eqi em) ->
       linked A (nth i (em_eqi em) 0) (nth j (em_eqi em) 0) -> i = j).
    { intros i j Hi Hj Lij.
      apply (proj1 (NoDup_nth (em_eqi em) 0)); auto; [apply sinc_NoDup, (o_eqi_s _ _ _ _ _ _ _ _ O)|].
      destruct (Nat.eq_dec (nth i (em_eqi em) 0) (nth j (em_eqi em) 0)) as [|N]; auto.
      assert (Nm : forall k, k < length (em_eqi em) -> ~ In (nth k (em_eqi em) 0) (em_master em)).
      { intros k Hk. assert (Hin : In (nth k (em_eqi em) 0) (em_eqi em)) by (apply nth_In; auto).
        apply (o_eqi _ _ _ _ _ _ _ _ O) in Hin. tauto. }
      destruct (o_tied _ _ _ _ _ _ _ _ O _ _ Lij N) as (r & H1 & H2).
      destruct H1 as [H1|[H1 _]]; [apply in_combine_l in H1; exfalso; apply (Nm i Hi); exact H1|].
      destruct H2 as [H2|[H2 _]]; [apply in_combine_l in H2; exfalso; apply (Nm j Hj); exact H2|]. congruence. }
    assert (HH : exists k, k < length (em_eqi em) /\ linked A x (nth k (em_eqi em) 0) /\ nth x (em_eq em) 0%Z = Z.of_nat k).
    { destruct (in_dec Nat.eq_dec x (em_master em)) as [Hi|Hi].
      - destruct (In_nth _ _ 0 Hi) as (k & Hk & Ek).
        assert (Hms : In (x, nth k (em_slave em) 0) (combine (em_master em) (em_slave em))).
        { apply (in_combine_nth _ _ _ _ 0 0); [symmetry; apply (o_s_l _ _ _ _ _ _ _ _ O)|]. exists k. auto. }
        destruct (o_ms _ _ _ _ _ _ _ _ O _ _ Hms) as (H1 & H2 & H3 & H4).
        assert (Hs : In (nth k (em_slave em) 0) (em_eqi em)) by (apply Hroot; auto).
        destruct (In_nth _ _ 0 Hs) as (q & Hq & Eq). exists q. split; auto. rewrite Eq. split; auto.
        rewrite (o_eq_m _ _ _ _ _ _ _ _ O _ _ Hms). rewrite <- Eq. apply (o_eq _ _ _ _ _ _ _ _ O); auto.
      - assert (Hs : In x (em_eqi em)) by (apply Hroot; auto; apply rst_refl).
        destruct (In_nth _ _ 0 Hs) as (q & Hq & Eq). exists q. split; auto. rewrite Eq. split; [apply rst_refl|].
        rewrite <- Eq. apply (o_eq _ _ _ _ _ _ _ _ O); auto. }
    destruct HH as (k & H1 & H2 & H3). exists k. split; auto. split; [apply m_tied; auto|]. split; auto.
    intros j Hj Tj. apply m_tied in Tj. apply Huniq; auto.
    eapply rst_trans; [apply rst_sym; exact Tj|exact H2].
Qed.

Lemma m_eqi_sinc : sinc (em_eqi em).
Proof. apply (o_eqi_s _ _ _ _ _ _ _ _ m_ok). Qed.

(** *** Values *)
Hypothesis Hun : unused = [].
Lemma m_ok0 : em_ok V vzero n [] A fl val em.
Proof. rewrite <- Hun. apply m_ok. Qed.

Definition admissible (v : list V) : Prop :=
  (forall x w, (exists bc, In bc bcs /\ fixes names bc x) -> last_value names vzero bcs x w -> nth x v vzero = w) /\
  (forall x y, tied names bcs x y -> nth x v vzero = nth y v vzero).

Lemma m_compat : compatible names vzero bcs -> forall x y, linked A x y ->
  nth x fl false = true -> nth y fl false = true -> nth x val vzero = nth y val vzero.
Proof.
  intros C x y L Fx Fy. apply m_flag' in Fx. apply m_flag' in Fy.
  apply (C x y); auto using m_last. apply m_tied; auto.
Qed.

Lemma m_full : forall junkv r, length junkv = n -> length r = em_neq em ->
  let v := get_full vzero junkv em None r in
  length v = n /\ get_reduced vzero em v = r /\
  (forall x y, tied names bcs x y -> nth x v vzero = nth y v vzero) /\
  (forall x, (exists bc, In bc bcs /\ fixes names bc x) ->
     exists y, tied names bcs x y /\ (exists bc, In bc bcs /\ fixes names bc y) /\
               last_value names vzero bcs y (nth x v vzero)) /\
  (compatible names vzero bcs -> forall x, (exists bc, In bc bcs /\ fixes names bc x) ->
     last_value names vzero bcs x (nth x v vzero)).
Proof.
  intros junkv r Hj Hr v. pose proof m_ok0 as O.
  assert (HE : forall x, (exists bc, In bc bcs /\ fixes names bc x) ->
     exists y, linked A x y /\ nth y fl false = true /\ nth x v vzero = nth y val vzero).
  { intros x Hx. assert (Fx : nth x fl false = true) by (apply m_flag'; auto).
    apply m_flag in Fx. destruct Fx as [Hxn _].
    eapply get_full_ebc; eauto. exists x. split; [apply rst_refl|apply m_flag'; auto]. }
  split; [eapply get_full_length; eauto|].
  split; [eapply get_full_reduced; eauto|].
  split; [intros; eapply get_full_tied; eauto; apply m_tied; auto|].
  split.
  - intros x Hx. destruct (HE x Hx) as (y & Y1 & Y2 & Y3). exists y.
    split; [apply m_tied; auto|]. split; [apply m_flag'; auto|]. rewrite Y3. apply m_last.
  - intros C x Hx. destruct (HE x Hx) as (y & Y1 & Y2 & Y3). rewrite Y3.
    rewrite <- (m_compat C x y); auto; [apply m_last|apply m_flag'; auto].
Qed.

Lemma m_reduced_full : forall junkv v, length junkv = n -> length v = n -> admissible v ->
  get_full vzero junkv em None (get_reduced vzero em v) = v.
Proof.
  intros junkv v Hj Hv [H1 H2]. eapply reduced_full; eauto using m_ok0.
  - intros x Fx. apply H1; [apply m_flag'; auto|apply m_last].
  - intros x y L. apply H2, m_tied; auto.
Qed.

Lemma m_apply : forall vec, length vec = n ->
  let v := apply_ebc vzero em vec in
  length v = n /\ apply_ebc vzero em v = v /\
  (forall x, In x (em_eqi em) -> nth x v vzero = nth x vec vzero) /\
  (forall x y, tied names bcs x y -> nth x v vzero = nth y v vzero) /\
  (compatible names vzero bcs -> forall x, (exists bc, In bc bcs /\ fixes names bc x) ->
     last_value names vzero bcs x (nth x v vzero)) /\
  (compatible names vzero bcs -> forall close, (forall a, close a a = true) -> has_ebc vzero close em v = true).
Proof.
  intros vec Hv v. pose proof m_ok0 as O.
  assert (HE : forall x, x < n -> (exists y, linked A x y /\ nth y fl false = true) ->
     exists y, linked A x y /\ nth y fl false = true /\ nth x v vzero = nth y val vzero).
  { intros x Hx. eapply apply_ebc_ebc; eauto. }
  split; [unfold v; rewrite apply_ebc_length; auto|].
  split; [eapply apply_ebc_idem; eauto|].
  split.
  { intros x Hx. apply (o_eqi _ _ _ _ _ _ _ _ O) in Hx. eapply apply_ebc_frame; eauto; tauto. }
  split; [intros; eapply apply_ebc_tied; eauto; apply m_tied; auto|].
  split.
  - intros C x Hx. assert (Fx : nth x fl false = true) by (apply m_flag'; auto).
    assert (Fn := Fx). apply m_flag in Fn. destruct (HE x) as (y & Y1 & Y2 & Y3); [tauto| |].
    + exists x. split; [apply rst_refl|auto].
    + rewrite Y3. rewrite <- (m_compat C x y); auto. apply m_last.
  - intros C close Hc. eapply has_ebc_spec; eauto.
    + intros k Hk. set (x := nth k (em_ebc em) 0).
      assert (Hx : In x (em_ebc em)) by (apply nth_In; auto).
      destruct (o_val _ _ _ _ _ _ _ _ O k Hk) as (y & Y1 & Y2 & Y3). fold x in Y1.
      destruct (HE x) as (z & Z1 & Z2 & Z3); [apply (o_ebc_n _ _ _ _ _ _ _ _ O); auto|eauto|].
      rewrite Y3, Z3. apply m_compat; auto. eapply rst_trans; [apply rst_sym; exact Z1|exact Y1].
    + intros m s Hms. eapply apply_ebc_tied; eauto. apply (o_ms _ _ _ _ _ _ _ _ O) in Hms. tauto.
Qed.


End Main.
