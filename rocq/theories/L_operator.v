(** get_operator: R[i, j] = 1 iff eq[i] = j, and its use. *)
From Coq Require Import String Relations.
From Verif Require Import Base BaseSum M_dofs S_dofs S_matrix L_chains L_epbc L_eqloop L_eqfin L_eqprops.
Open Scope nat_scope.

Section Op.
Variable V : Type.
Variables (v0 v1 : V) (add mul : V -> V -> V).
Hypothesis SR : semi_ring_theory v0 v1 add mul eq.

Variables (n : nat) (unused : list nat) (A : list (nat * nat)) (fl : list bool) (val : list V) (em : eqmap V).
Hypothesis O : em_ok V v0 n unused A fl val em.

Notation lsum := (lsum v0 add).
Notation ind := (ind v0).

Lemma eqi_n : forall x, In x (em_eqi em) -> x < n.
Proof. intros x H. apply (o_eqi _ _ _ _ _ _ _ _ O) in H. tauto. Qed.

Lemma eqi_not_m : forall x, In x (em_eqi em) -> ~ In x (em_master em).
Proof. intros x H. apply (o_eqi _ _ _ _ _ _ _ _ O) in H. tauto. Qed.

Lemma eq_eqi : forall x j, x < n -> ~ In x (em_master em) ->
  nth x (em_eq em) 0%Z = Z.of_nat j <-> j < em_neq em /\ nth j (em_eqi em) 0 = x.
Proof.
  intros x j Hx Hm. split.
  - intros E. destruct (in_dec Nat.eq_dec x (em_eqi em)) as [Hi|Hi].
    + destruct (In_nth _ _ 0 Hi) as (k & Hk & Ek). unfold em_neq.
      assert (E2 := o_eq _ _ _ _ _ _ _ _ O k Hk). rewrite Ek, E in E2.
      assert (j = k) by lia. subst j. auto.
    + assert (Hn := o_eq_neg _ _ _ _ _ _ _ _ O x Hx Hi Hm). lia.
  - intros [Hj <-]. apply (o_eq _ _ _ _ _ _ _ _ O); auto.
Qed.

Lemma in_op : forall i j, In (i, j) (get_operator em) <-> i < n /\ nth i (em_eq em) 0%Z = Z.of_nat j.
Proof.
  intros i j. unfold get_operator. rewrite in_app_iff. split.
  - intros [H|H].
    + apply (in_combine_nth _ _ _ _ 0 0) in H; [|rewrite seq_length; auto].
      destruct H as (k & Hk & -> & ->). rewrite nth_seq0 by auto.
      split; [apply eqi_n, nth_In; auto|]. apply (o_eq _ _ _ _ _ _ _ _ O); auto.
    + apply in_map_iff in H. destruct H as ((m, s) & E & H). apply filter_In in H. simpl in *.
      destruct H as [H1 H2]. injection E as <- <-. apply Z.leb_le in H2.
      split; [apply (o_ms _ _ _ _ _ _ _ _ O) in H1; tauto|].
      rewrite (o_eq_m _ _ _ _ _ _ _ _ O _ _ H1). lia.
  - intros [Hi E]. destruct (in_dec Nat.eq_dec i (em_master em)) as [Hm|Hm].
    + right. destruct (In_nth _ _ 0 Hm) as (k & Hk & Ek).
      assert (Hms : In (i, nth k (em_slave em) 0) (combine (em_master em) (em_slave em))).
      { apply (in_combine_nth _ _ _ _ 0 0); [symmetry; apply (o_s_l _ _ _ _ _ _ _ _ O)|]. exists k. auto. }
      apply in_map_iff. exists (i, nth k (em_slave em) 0). simpl.
      rewrite <- (o_eq_m _ _ _ _ _ _ _ _ O _ _ Hms), E. split; [f_equal; lia|].
      apply filter_In. split; auto. simpl.
      rewrite <- (o_eq_m _ _ _ _ _ _ _ _ O _ _ Hms), E. apply Z.leb_le. lia.
    + left. apply eq_eqi in E; auto. destruct E as [Hj E].
      apply (in_combine_nth _ _ _ _ 0 0); [rewrite seq_length; auto|].
      exists j. rewrite nth_seq0 by auto. auto.
Qed.

Lemma op_nodup : NoDup (get_operator em).
Proof.
  apply NoDup_map_inv with (f := fst). unfold get_operator. rewrite map_app.
  rewrite unzip_fst by (rewrite seq_length; auto). rewrite map_map. simpl.
  apply NoDup_app_intro.
  - apply sinc_NoDup, (o_eqi_s _ _ _ _ _ _ _ _ O).
  - assert (Hs := sinc_NoDup (o_m_s _ _ _ _ _ _ _ _ O)).
    assert (L := o_s_l _ _ _ _ _ _ _ _ O). revert Hs L.
    generalize (em_master em), (em_slave em). induction l as [|a l IH]; intros [|b sl] Hs L; simpl in *; try constructor; try lia.
    inversion Hs; subst. destruct (0 <=? nth b (em_eq em) 0)%Z; simpl; auto. constructor; auto.
    intros Hin. apply in_map_iff in Hin. destruct Hin as ((p, q) & E & Hin). apply filter_In in Hin.
    simpl in E. subst p. destruct Hin as [Hin _]. apply in_combine_l in Hin. auto.
  - intros x H1 H2. apply in_map_iff in H2. destruct H2 as ((p, q) & E & Hin). apply filter_In in Hin.
    simpl in E. subst p. destruct Hin as [Hin _]. apply in_combine_l in Hin.
    apply eqi_not_m in H1. auto.
Qed.

(** The dense entries of R. *)
Lemma op_entry : forall i j, i < n ->
  coo_ones v0 v1 add (get_operator em) i j = ind (Z.eqb (nth i (em_eq em) 0%Z) (Z.of_nat j)) v1.
Proof.
  intros i j Hi. unfold coo_ones.
  destruct (Z.eqb_spec (nth i (em_eq em) 0%Z) (Z.of_nat j)) as [E|E].
  - rewrite (lsum_single _ _ _ _ _ SR) with (x := (i, j)).
    + simpl. rewrite !Nat.eqb_refl. auto.
    + apply op_nodup.
    + apply in_op; auto.
    + intros [a b] _ N. simpl. destruct (Nat.eqb_spec a i), (Nat.eqb_spec b j); simpl; auto. congruence.
  - apply (lsum_zero _ _ _ _ _ SR). intros [a b] Hab. simpl.
    apply in_op in Hab. destruct (Nat.eqb_spec a i), (Nat.eqb_spec b j); simpl; auto. subst. tauto.
Qed.

Lemma eq_lt : forall x j, x < n -> nth x (em_eq em) 0%Z = Z.of_nat j -> j < em_neq em.
Proof.
  intros x j Hx E. destruct (in_dec Nat.eq_dec x (em_master em)) as [Hm|Hm].
  - destruct (In_nth _ _ 0 Hm) as (k & Hk & Ek).
    assert (Hms : In (x, nth k (em_slave em) 0) (combine (em_master em) (em_slave em))).
    { apply (in_combine_nth _ _ _ _ 0 0); [symmetry; apply (o_s_l _ _ _ _ _ _ _ _ O)|]. exists k. auto. }
    rewrite (o_eq_m _ _ _ _ _ _ _ _ O _ _ Hms) in E.
    destruct (o_ms _ _ _ _ _ _ _ _ O _ _ Hms) as (H1 & H2 & H3 & H4).
    apply eq_eqi in E; tauto.
  - apply eq_eqi in E; tauto.
Qed.

(** R r, evaluated *)
Lemma op_mul : forall r i, i < n ->
  bigsum v0 add (em_neq em) (fun j => mul (coo_ones v0 v1 add (get_operator em) i j) (nth j r v0)) =
  if (0 <=? nth i (em_eq em) 0)%Z then nth (Z.to_nat (nth i (em_eq em) 0%Z)) r v0 else v0.
Proof.
  intros r i Hi. destruct (Z.leb_spec 0 (nth i (em_eq em) 0%Z)) as [H|H].
  - set (k := Z.to_nat (nth i (em_eq em) 0%Z)).
    assert (Ek : nth i (em_eq em) 0%Z = Z.of_nat k) by (unfold k; lia).
    assert (Hk := eq_lt i k Hi Ek).
    rewrite (bigsum_single _ _ _ _ _ SR) with (i := k); auto.
    + rewrite op_entry, Ek, Z.eqb_refl by auto. simpl. apply (mul1l _ _ _ _ _ SR).
    + intros j Hj N. rewrite op_entry by auto. rewrite Ek.
      destruct (Z.eqb_spec (Z.of_nat k) (Z.of_nat j)); [lia|]. apply (mul0l _ _ _ _ _ SR).
  - apply (bigsum_zero _ _ _ _ _ SR). intros j Hj. rewrite op_entry by auto.
    destruct (Z.eqb_spec (nth i (em_eq em) 0%Z) (Z.of_nat j)); [lia|]. apply (mul0l _ _ _ _ _ SR).
Qed.

(** assemble1d *)
Lemma assemble1d_spec : forall indx ins out j, j < length out -> length ins = length indx ->
  nth j (assemble1d v0 add out indx ins) v0 =
  add (nth j out v0) (lsum (map (fun p => ind (Nat.eqb (fst p) j) (snd p)) (combine indx ins))).
Proof.
  induction indx as [|i indx IH]; intros [|x ins] out j Hj Hl; simpl in *; try discriminate.
  - rewrite (add0r _ _ _ _ _ SR); auto.
  - rewrite IH; [|rewrite length_upd; auto|lia]. rewrite nth_upd.
    destruct (Nat.eqb_spec i j) as [->|N].
    + rewrite Nat.eqb_refl. destruct (Nat.ltb_spec j (length out)); [|lia]. simpl. rewrite <- (addA _ _ _ _ _ SR). auto.
    + destruct (Nat.eqb_spec j i); [congruence|]. simpl. rewrite (add0l _ _ _ _ _ SR). auto.
Qed.
Lemma assemble1d_length : forall indx ins out, length (assemble1d v0 add out indx ins) = length out.
Proof.
  induction indx as [|i indx IH]; intros [|x ins] out; simpl; auto. rewrite IH, length_upd; auto.
Qed.

(** R^T v = get_reduced(v, follow_epbc=True) *)
Lemma follow_spec : forall v, length v = n ->
  get_reduced_follow v0 add em v = mat_vec v0 add mul (em_neq em) n (transp (coo_ones v0 v1 add (get_operator em))) v.
Proof.
  intros v Hv. unfold get_reduced_follow, mat_vec, transp.
  set (mk := filter (fun p => (0 <=? nth (snd p) (em_eq em) 0)%Z) (combine (em_master em) (em_slave em))).
  apply list_ext with (d := v0).
  - rewrite assemble1d_length, length_take, map_length, seq_length; auto.
  - rewrite assemble1d_length, length_take. intros j Hj.
    rewrite assemble1d_spec; [|rewrite length_take; auto|unfold take; rewrite !map_length; auto].
    rewrite nth_map_in with (da := 0) by (rewrite seq_length; auto). rewrite nth_seq0 by auto.
    rewrite nth_take by auto.
    (* the right side as a sum over the coordinates *)
    transitivity (lsum (map (fun p => ind (Nat.eqb (snd p) j) (nth (fst p) v v0)) (get_operator em))).
    + unfold get_operator. rewrite map_app, (lsum_app _ _ _ _ _ SR). fold mk. f_equal.
      * rewrite (lsum_single _ _ _ _ _ SR) with (x := (nth j (em_eqi em) 0, j)).
        -- simpl. rewrite Nat.eqb_refl; auto.
        -- apply NoDup_map_inv with (f := fst). rewrite unzip_fst by (rewrite seq_length; auto).
           apply sinc_NoDup, (o_eqi_s _ _ _ _ _ _ _ _ O).
        -- apply (in_combine_nth _ _ _ _ 0 0); [rewrite seq_length; auto|].
           exists j. rewrite nth_seq0 by auto. auto.
        -- intros [a b] Hab N. simpl. destruct (Nat.eqb_spec b j) as [->|]; auto.
           apply (in_combine_nth _ _ _ _ 0 0) in Hab; [|rewrite seq_length; auto].
           destruct Hab as (k & Hk & -> & E). rewrite nth_seq0 in E by auto. subst. tauto.
      * unfold take. rewrite map_map. generalize mk. induction mk0 as [|p l IH]; simpl; auto.
        rewrite IH. auto.
    + transitivity (lsum (map (fun p => bigsum v0 add n (fun i => ind (Nat.eqb (fst p) i && Nat.eqb (snd p) j) (nth i v v0))) (get_operator em))).
      * apply lsum_ext. intros [a b] Hab. apply in_op in Hab. simpl. destruct Hab as [Ha _].
        rewrite (bigsum_single _ _ _ _ _ SR) with (i := a); auto.
        -- rewrite Nat.eqb_refl; auto.
        -- intros i _ N. destruct (Nat.eqb_spec a i); [congruence|]; auto.
      * unfold bigsum. rewrite (lsum_swap _ _ _ _ _ SR). apply lsum_ext. intros i _.
        unfold coo_ones. rewrite (lsum_mulr _ _ _ _ _ SR). apply lsum_ext. intros p _.
        rewrite (mul_ind_l _ _ _ _ _ SR), (mul1l _ _ _ _ _ SR); auto.
Qed.

(** R r = get_full(r, force_value=0) *)
Lemma full_spec : unused = [] -> forall junkv r, length junkv = n -> length r = em_neq em ->
  get_full v0 junkv em (Some v0) r = mat_vec v0 add mul n (em_neq em) (coo_ones v0 v1 add (get_operator em)) r.
Proof.
  intros Hun junkv r Hj Hr. pose proof O as O'. rewrite Hun in O'.
  assert (HL' : length (get_full v0 junkv em (Some v0) r) = n) by (eapply get_full_length; eauto).
  unfold mat_vec. apply list_ext with (d := v0).
  - rewrite map_length, seq_length; auto.
  - rewrite HL'. intros i Hi.
    rewrite nth_map_in with (da := 0) by (rewrite seq_length; auto). rewrite nth_seq0 by auto.
    rewrite op_mul by auto.
    assert (Hroot : forall x, x < n -> ~ In x (em_master em) ->
       nth x (get_full v0 junkv em (Some v0) r) v0 =
       if (0 <=? nth x (em_eq em) 0)%Z then nth (Z.to_nat (nth x (em_eq em) 0%Z)) r v0 else v0).
    { intros x Hx Hm. destruct (in_dec Nat.eq_dec x (em_eqi em)) as [Hq|Hq].
      - destruct (In_nth _ _ 0 Hq) as (k & Hk & Ek).
        assert (E2 := o_eq _ _ _ _ _ _ _ _ O k Hk). rewrite Ek in E2. rewrite E2.
        destruct (Z.leb_spec 0 (Z.of_nat k)); [|lia]. rewrite Nat2Z.id.
        assert (E := get_full_reduced V v0 n A fl val em O' junkv (Some v0) r Hj Hr).
        rewrite <- E at 2. unfold get_reduced. rewrite nth_take by auto. congruence.
      - assert (Hneg := o_eq_neg _ _ _ _ _ _ _ _ O x Hx Hq Hm).
        destruct (Z.leb_spec 0 (nth x (em_eq em) 0%Z)); [lia|].
        unfold get_full. rewrite put_notin by auto. rewrite put_notin by auto.
        rewrite nth_put1 by lia. destruct (in_dec Nat.eq_dec x (em_ebc em)) as [He|He]; auto.
        exfalso. apply Hq. apply (o_eqi _ _ _ _ _ _ _ _ O'). auto. }
    destruct (in_dec Nat.eq_dec i (em_master em)) as [Hm|Hm]; [|auto].
    destruct (In_nth _ _ 0 Hm) as (k & Hk & Ek).
    assert (Hms : In (i, nth k (em_slave em) 0) (combine (em_master em) (em_slave em))).
    { apply (in_combine_nth _ _ _ _ 0 0); [symmetry; apply (o_s_l _ _ _ _ _ _ _ _ O)|]. exists k. auto. }
    destruct (o_ms _ _ _ _ _ _ _ _ O _ _ Hms) as (H1 & H2 & H3 & H4).
    rewrite (get_full_tied V v0 n A fl val em O' junkv (Some v0) r i _ Hj H4).
    rewrite (o_eq_m _ _ _ _ _ _ _ _ O _ _ Hms). apply Hroot; auto.
Qed.

(** <R r, v> = <r, R^T v> for any matrix R *)
Lemma adjoint : forall nr nc (m : nat -> nat -> V) r v,
  dot v0 add mul nr (mat_vec v0 add mul nr nc m r) v = dot v0 add mul nc r (mat_vec v0 add mul nc nr (transp m) v).
Proof.
  intros. unfold dot, mat_vec, transp.
  transitivity (bigsum v0 add nr (fun i => bigsum v0 add nc (fun j => mul (mul (m i j) (nth j r v0)) (nth i v v0)))).
  - apply bigsum_ext. intros i Hi. rewrite nth_map_in with (da := 0) by (rewrite seq_length; auto).
    rewrite nth_seq0 by auto. apply (bigsum_mulr _ _ _ _ _ SR).
  - rewrite (bigsum_swap _ _ _ _ _ SR). apply bigsum_ext. intros j Hj.
    rewrite nth_map_in with (da := 0) by (rewrite seq_length; auto). rewrite nth_seq0 by auto.
    rewrite (bigsum_mull _ _ _ _ _ SR). apply bigsum_ext. intros i Hi.
    rewrite (mulC _ _ _ _ _ SR (m i j)), <- !(mulA _ _ _ _ _ SR). auto.
Qed.
End Op.
