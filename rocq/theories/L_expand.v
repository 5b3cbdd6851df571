From Coq Require Import String.
From Verif Require Import Base M_dofs S_dofs.
Open Scope nat_scope.
Set Implicit Arguments.

Lemma index_of_spec : forall x l p, index_of x l = Ok p <->
  p < length l /\ nth p l EmptyString = x /\ forall q, q < p -> nth q l EmptyString <> x.
Proof.
  induction l as [|y t IH]; intros p; simpl.
  - split; [discriminate|lia].
  - destruct (String.eqb x y) eqn:E.
    + apply String.eqb_eq in E; subst y. split.
      * intros [= <-]. repeat split; try lia.
      * intros (H1 & H2 & H3). destruct p as [|p]; auto. exfalso. apply (H3 0); auto; lia.
    + apply String.eqb_neq in E. destruct (index_of x t) as [i|e] eqn:Ei; simpl.
      * split.
        -- intros [= <-]. destruct (proj1 (IH i) eq_refl) as (H1 & H2 & H3).
           repeat split; auto; try lia. intros [|q] Hq; [simpl; congruence|].
           apply H3; lia.
        -- intros (H1 & H2 & H3). destruct p as [|p]; [simpl in H2; congruence|].
           f_equal. f_equal. assert (Ok i = Ok p); [|congruence].
           apply IH. repeat split; auto; try lia. intros q Hq. apply (H3 (S q)); lia.
      * split; [discriminate|]. intros (H1 & H2 & H3).
        destruct p as [|p]; [simpl in H2; congruence|].
        assert (@Err nat e = Ok p); [|discriminate].
        apply IH. repeat split; auto; try lia. intros q Hq. apply (H3 (S q)); lia.
Qed.

Lemma index_of_In : forall x l, In x l <-> exists p, index_of x l = Ok p.
Proof.
  induction l as [|y t IH]; simpl.
  - split; [tauto|]. intros (p & H); discriminate.
  - destruct (String.eqb x y) eqn:E.
    + apply String.eqb_eq in E. split; eauto.
    + apply String.eqb_neq in E. rewrite IH. split.
      * intros [H|(p & H)]; [congruence|]. rewrite H. simpl. eauto.
      * intros (p & H). right. destruct (index_of x t); [eauto|discriminate].
Qed.

Lemma index_of_err : forall x l e, index_of x l = Err e -> e = ValueError.
Proof.
  induction l as [|y t IH]; intros e; simpl; [congruence|].
  destruct (String.eqb x y); [discriminate|].
  destruct (index_of x t) eqn:E; simpl; [discriminate|]. intros [= <-]; auto.
Qed.

Lemma pos_inj : forall nc i k i' k', i < nc -> i' < nc -> i + k * nc = i' + k' * nc -> i = i' /\ k = k'.
Proof.
  intros nc i k i' k' Hi Hi' H.
  assert (k = k') by nia. subst; split; auto; lia.
Qed.

Lemma NoDup_pos : forall ii nc n, ii < nc -> NoDup (map (fun k => ii + k * nc) (seq 0 n)).
Proof.
  intros. apply FinFun.Injective_map_NoDup; [|apply seq_NoDup].
  intros a b E. nia.
Qed.

Lemma expand_loop_spec : forall nods dpn nc all dofs ii eq eq',
  expand_loop nods dpn nc all ii dofs eq = Ok eq' ->
  ii + length dofs <= nc -> length eq = length nods * nc ->
  length eq' = length eq /\
  forall k i, k < length nods -> i < nc ->
    (ii <= i < ii + length dofs ->
       exists p, index_of (nth (i - ii) dofs EmptyString) all = Ok p /\
                 nth (i + k * nc) eq' 0 = dpn * nth k nods 0 + p) /\
    (~ ii <= i < ii + length dofs -> nth (i + k * nc) eq' 0 = nth (i + k * nc) eq 0).
Proof.
  intros nods dpn nc all. induction dofs as [|d t IH]; intros ii eq eq' H Hnc Hl.
  - injection H as <-. split; auto. intros k i Hk Hi; simpl. split; [lia|auto].
  - cbn [expand_loop] in H. destruct (index_of d all) as [idof|] eqn:Ei; [|discriminate].
    cbn [bind] in H. simpl in Hnc. apply IH in H; try lia; [|rewrite length_put; auto].
    destruct H as [HL H]. rewrite length_put in HL. split; auto.
    intros k i Hk Hi. destruct (H k i Hk Hi) as [HA HB]. simpl. split.
    + intros Hr. destruct (Nat.eq_dec i ii) as [->|Hne].
      * rewrite Nat.sub_diag. exists idof. split; auto.
        rewrite HB by lia.
        set (pos := map (fun k => ii + k * nc) (seq 0 (length nods))).
        assert (Hp : nth k pos 0 = ii + k * nc).
        { unfold pos. rewrite nth_map_in with (da := 0) by (rewrite seq_length; auto).
          rewrite nth_seq0; auto. }
        rewrite <- Hp. rewrite put_nth.
        -- rewrite nth_map_in with (da := 0) by auto. auto.
        -- apply NoDup_pos. lia.
        -- intros x Hx. apply in_map_iff in Hx. destruct Hx as (q & <- & Hq).
           apply in_seq in Hq. rewrite Hl. nia.
        -- unfold pos. rewrite !map_length, seq_length. auto.
        -- unfold pos. rewrite !map_length, seq_length. auto.
      * destruct HA as (p & Hp1 & Hp2); [lia|]. exists p. split; auto.
        replace (i - ii) with (S (i - S ii)) by lia. auto.
    + intros Hr. rewrite HB by lia. apply put_notin.
      intros Hin. apply in_map_iff in Hin. destruct Hin as (q & Hq & _).
      apply pos_inj in Hq; lia.
Qed.

Lemma expand_loop_total : forall nods dpn nc all dofs ii eq,
  (exists eq', expand_loop nods dpn nc all ii dofs eq = Ok eq') <-> (forall d, In d dofs -> In d all).
Proof.
  intros nods dpn nc all. induction dofs as [|d t IH]; intros ii eq.
  - simpl. split; [tauto|eauto].
  - cbn [expand_loop]. split.
    + intros (eq' & H). destruct (index_of d all) as [p|] eqn:E; [|discriminate].
      cbn [bind] in H. intros d' [<-|Hd].
      * apply index_of_In; eauto.
      * revert d' Hd. apply (IH (S ii) (put eq (map (fun k => ii + k * nc) (seq 0 (length nods)))
                             (map (fun n => dpn * n + p) nods))); eauto.
    + intros H. destruct (proj1 (index_of_In d all)) as (p & Hp); [apply H; simpl; auto|].
      rewrite Hp. cbn [bind]. apply IH. intros; apply H; simpl; auto.
Qed.

Lemma expand_spec : forall junk nods dofs all eq,
  expand_nodes_to_equations junk nods dofs all = Ok eq ->
  length eq = length nods * length dofs /\
  forall k i, k < length nods -> i < length dofs ->
    exists p, index_of (nth i dofs EmptyString) all = Ok p /\
      nth (k * length dofs + i) eq 0 = length all * nth k nods 0 + p.
Proof.
  unfold expand_nodes_to_equations. intros junk nods dofs all eq H.
  apply expand_loop_spec in H; [|simpl; lia|apply repeat_length].
  rewrite repeat_length in H. destruct H as [HL H]. split; auto.
  intros k i Hk Hi. destruct (H k i Hk Hi) as [HA _].
  destruct HA as (p & H1 & H2); [lia|]. rewrite Nat.sub_0_r in H1.
  exists p. split; auto. rewrite Nat.add_comm. auto.
Qed.

Lemma expand_ok_iff : forall junk nods dofs all,
  (exists eq, expand_nodes_to_equations junk nods dofs all = Ok eq) <-> (forall d, In d dofs -> In d all).
Proof. intros. apply expand_loop_total. Qed.

Lemma idx_decomp : forall n nc x, x < n * nc -> exists k i, k < n /\ i < nc /\ x = k * nc + i.
Proof.
  intros n nc x H. exists (x / nc), (x mod nc).
  assert (nc <> 0) by lia.
  pose proof (Nat.div_mod x nc H0). pose proof (Nat.mod_upper_bound x nc H0).
  repeat split; auto; [|lia]. apply Nat.div_lt_upper_bound; auto. lia.
Qed.

(** Membership in the expansion. *)
Lemma expand_In : forall junk nods dofs all eq,
  expand_nodes_to_equations junk nods dofs all = Ok eq -> forall x,
  In x eq <-> exists n d p, In n nods /\ In d dofs /\ index_of d all = Ok p /\ x = length all * n + p.
Proof.
  intros junk nods dofs all eq H x. apply expand_spec in H. destruct H as [HL H]. split.
  - intros Hx. destruct (In_nth _ _ 0 Hx) as (q & Hq & Hn). rewrite HL in Hq.
    destruct (idx_decomp _ _ Hq) as (k & i & Hk & Hi & ->).
    destruct (H k i Hk Hi) as (p & Hp & Hv).
    exists (nth k nods 0), (nth i dofs EmptyString), p.
    repeat split; auto using nth_In. congruence.
  - intros (n & d & p & Hn & Hd & Hp & ->).
    destruct (In_nth _ _ 0 Hn) as (k & Hk & <-).
    destruct (In_nth _ _ EmptyString Hd) as (i & Hi & <-).
    destruct (H k i Hk Hi) as (p' & Hp' & Hv). assert (p' = p) by congruence. subst p'.
    rewrite <- Hv. apply nth_In. rewrite HL. nia.
Qed.

Lemma NoDup_nth_inj : forall A (l : list A) d,
  (forall i j, i < length l -> j < length l -> nth i l d = nth j l d -> i = j) -> NoDup l.
Proof. intros. apply (NoDup_nth l d). auto. Qed.

Lemma expand_NoDup : forall junk nods dofs all eq,
  expand_nodes_to_equations junk nods dofs all = Ok eq ->
  NoDup nods -> NoDup dofs -> NoDup eq.
Proof.
  intros junk nods dofs all eq H Hn Hd. apply expand_spec in H. destruct H as [HL H].
  apply NoDup_nth_inj with (d := 0). rewrite HL. intros a b Ha Hb E.
  destruct (idx_decomp _ _ Ha) as (k & i & Hk & Hi & ->).
  destruct (idx_decomp _ _ Hb) as (k' & i' & Hk' & Hi' & ->).
  destruct (H k i Hk Hi) as (p & Hp & Hv). destruct (H k' i' Hk' Hi') as (p' & Hp' & Hv').
  pose proof (proj1 (index_of_spec _ _ _) Hp) as (Q1 & Q2 & _).
  pose proof (proj1 (index_of_spec _ _ _) Hp') as (Q1' & Q2' & _).
  rewrite Hv, Hv' in E.
  assert (nth k nods 0 = nth k' nods 0) by nia.
  assert (p = p') by nia. subst p'.
  assert (k = k') by (apply (proj1 (NoDup_nth nods 0) Hn); auto). subst k'.
  assert (nth i dofs EmptyString = nth i' dofs EmptyString) by congruence.
  assert (i = i') by (apply (proj1 (NoDup_nth dofs EmptyString) Hd); auto).
  subst i'. auto.
Qed.

Lemma expand_bound : forall junk nods dofs all eq n_nod,
  expand_nodes_to_equations junk nods dofs all = Ok eq ->
  (forall n, In n nods -> n < n_nod) -> forall x, In x eq -> x < n_nod * length all.
Proof.
  intros junk nods dofs all eq n_nod H Hb x Hx. apply (expand_In _ _ _ _ H) in Hx.
  destruct Hx as (n & d & p & Hn & Hd & Hp & ->).
  pose proof (proj1 (index_of_spec _ _ _) Hp) as (Q1 & _ & _).
  apply Hb in Hn. nia.
Qed.

Lemma index_of_NoDup : forall all i, NoDup all -> i < length all ->
  index_of (nth i all EmptyString) all = Ok i.
Proof.
  intros all i Hn Hi. apply index_of_spec. repeat split; auto.
  intros q Hq E. apply (proj1 (NoDup_nth all EmptyString) Hn) in E; lia.
Qed.

Lemma length_concat_const : forall A (ll : list (list A)) n,
  (forall l, In l ll -> length l = n) -> length (concat ll) = length ll * n.
Proof.
  induction ll as [|l ll IH]; intros n H; simpl; auto.
  rewrite app_length, (IH n), (H l); simpl; auto. intros; apply H; simpl; auto.
Qed.

Lemma nth_concat_const : forall A (ll : list (list A)) n k i d,
  (forall l, In l ll -> length l = n) -> k < length ll -> i < n ->
  nth (k * n + i) (concat ll) d = nth i (nth k ll []) d.
Proof.
  induction ll as [|l ll IH]; intros n k i d H Hk Hi; simpl in *; [lia|].
  assert (Hl : length l = n) by (apply H; auto).
  destruct k as [|k]; simpl.
  - rewrite app_nth1; auto. lia.
  - rewrite app_nth2 by lia. rewrite Hl. replace (n + k * n + i - n) with (k * n + i) by lia.
    apply IH; auto. lia.
Qed.

(** Both expansions agree for the full list of names. *)
Lemma expand_agree : forall junk nods all, NoDup all ->
  expand_nodes_to_equations junk nods all all = Ok (concat (expand_nodes_to_dofs nods (length all))).
Proof.
  intros junk nods all Hn.
  destruct (proj2 (expand_ok_iff junk nods all all)) as (eq & H); [auto|].
  rewrite H. f_equal. apply expand_spec in H. destruct H as [HL H].
  assert (Hrow : forall l, In l (expand_nodes_to_dofs nods (length all)) -> length l = length all).
  { intros l Hl. apply in_map_iff in Hl. destruct Hl as (n & <- & _).
    rewrite map_length, seq_length. auto. }
  apply list_ext with (d := 0).
  - rewrite HL, (length_concat_const _ Hrow). unfold expand_nodes_to_dofs. rewrite map_length. auto.
  - rewrite HL. intros x Hx. destruct (idx_decomp _ _ Hx) as (k & i & Hk & Hi & ->).
    destruct (H k i Hk Hi) as (p & Hp & Hv). rewrite index_of_NoDup in Hp by auto.
    injection Hp as <-. rewrite Hv.
    rewrite nth_concat_const; auto.
    + unfold expand_nodes_to_dofs. rewrite nth_map_in with (da := 0) by auto.
      rewrite nth_map_in with (da := 0) by (rewrite seq_length; auto). rewrite nth_seq0; auto.
    + unfold expand_nodes_to_dofs. rewrite map_length. auto.
Qed.
