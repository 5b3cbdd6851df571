(** C82: the composite numbering of the DOFs of several fields over tasks. *)
From Verif Require Import Base M_parallel L_parallel P_parallel P_parallel2.
Set Implicit Arguments.

(** Specification: the number of DOFs of field [i] owned by task [t], the first
    number of the DOFs of field [i] of task [t]: all fields of previous tasks
    and the previous fields of the task come first. *)
Section Comp.
Variable fields : list (list (nat * dmap) * list nat).
Definition fmaps (i : nat) : list (nat * dmap) := fst (nth i fields ([], [])).
Definition fids (i : nat) : list nat := snd (nth i fields ([], [])).
Definition n_owned (i t : nat) : nat := d_n (snd (nth t (fmaps i) (0, dm0))).
Definition task_total (t : nat) : nat := list_sum (map (fun i => n_owned i t) (seq 0 (length fields))).
Definition first_id (i t : nat) : nat :=
  list_sum (map task_total (seq 0 t)) + list_sum (map (fun i => n_owned i t) (seq 0 i)).
End Comp.

(** ** Permutations. *)
Lemma perm_swap_concat : forall A B C (f : A -> B -> list C) la lb,
  Permutation (concat (map (fun a => concat (map (f a) lb)) la)) (concat (map (fun b => concat (map (fun a => f a b) la)) lb)).
Proof.
  intros A B C f. induction la as [|a la IH]; intros lb.
  - simpl. induction lb; simpl; auto.
  - simpl. rewrite IH. clear. induction lb as [|b lb IH]; simpl; auto.
    rewrite <- IH. rewrite <- !app_assoc. apply Permutation_app_head.
    rewrite !app_assoc. apply Permutation_app_tail. apply Permutation_app_comm.
Qed.
Lemma perm_concat_ext : forall A B (f g : A -> list B) l, (forall a, In a l -> Permutation (f a) (g a)) ->
  Permutation (concat (map f l)) (concat (map g l)).
Proof. induction l as [|a l IH]; intros H; simpl; auto. apply Permutation_app; [apply H|apply IH; intros; apply H]; simpl; auto. Qed.
Lemma list_sum_snoc : forall f k, list_sum (map f (seq 0 (S k))) = list_sum (map f (seq 0 k)) + f k.
Proof. intros. rewrite seq_S, map_app, list_sum_app. simpl. lia. Qed.
Lemma blocks_seq : forall (n : nat -> nat) s k,
  concat (map (fun i => seq (s + list_sum (map n (seq 0 i))) (n i)) (seq 0 k)) = seq s (list_sum (map n (seq 0 k))).
Proof.
  induction k as [|k IH]; [reflexivity|]. rewrite list_sum_snoc, seq_S at 1. rewrite map_app, concat_app, IH. simpl.
  rewrite app_nil_r, <- seq_app. reflexivity.
Qed.

(** ** [shift_ids] *)
Lemma shift_ids_nth : forall iown idm offset off, NoDup iown -> (forall i, In i iown -> i < length idm) ->
  length (shift_ids idm iown offset off) = length idm /\
  forall j, nth j (shift_ids idm iown offset off) 0 =
    if in_dec Nat.eq_dec j iown then Z.to_nat (Z.of_nat (nth j idm 0) + (Z.of_nat offset - Z.of_nat off)) else nth j idm 0.
Proof.
  unfold shift_ids. induction iown as [|i l IH]; intros idm offset off Hnd Hb; [split; auto|].
  inversion Hnd as [|? ? Hni Hnd']; subst. cbn [fold_left].
  destruct (IH (upd idm i (Z.to_nat (Z.of_nat (nth i idm 0) + (Z.of_nat offset - Z.of_nat off)))) offset off Hnd') as [L H].
  { intros x Hx. rewrite length_upd. apply Hb; simpl; auto. }
  rewrite length_upd in L. split; auto. intros j. rewrite H.
  destruct (Nat.eq_dec j i) as [->|Hne].
  - destruct (in_dec Nat.eq_dec i l); [tauto|]. destruct (in_dec Nat.eq_dec i (i :: l)) as [|n0]; [|exfalso; apply n0; simpl; auto].
    rewrite nth_upd_eq by (apply Hb; simpl; auto). auto.
  - rewrite nth_upd_neq by auto. destruct (in_dec Nat.eq_dec j l), (in_dec Nat.eq_dec j (i :: l)) as [h|h]; auto.
    + exfalso; apply h; simpl; auto.
    + destruct h; [congruence|tauto].
Qed.

Section C82.
Variable n_tasks : nat.
Variable fields : list (list (nat * dmap) * list nat).
Variable size_of : nat -> nat.        (* the number of DOFs of each field *)
Hypothesis Hdist : forall i, i < length fields -> distribution n_tasks (size_of i) (fmaps fields i) (fids fields i).
Notation nf := (length fields).

Lemma fmaps_nth : forall i t, i < nf -> t < n_tasks -> exists dm, nth_error (fmaps fields i) t = Some (t, dm) /\
  aget (fmaps fields i) t = Some dm /\ n_owned fields i t = d_n dm.
Proof.
  intros i t Hi Ht. destruct (Hdist Hi) as (D1 & _).
  assert (L : length (fmaps fields i) = n_tasks) by (rewrite <- (map_length fst), D1, seq_length; auto).
  destruct (nth_error (fmaps fields i) t) as [[t' dm]|] eqn:E; [|apply nth_error_None in E; lia].
  assert (t' = t).
  { assert (E' := map_nth_error fst _ _ E). rewrite D1 in E'. apply (nth_error_nth _ _ 0) in E'. rewrite nth_seq0 in E'; auto. }
  subst t'. exists dm. split; auto. split.
  - apply in_aget; [rewrite D1; apply seq_NoDup|]. eapply nth_error_In; eauto.
  - unfold n_owned. rewrite (nth_error_nth _ _ _ E). reflexivity.
Qed.
(** The state after [k] tasks, for one field. *)
Definition field_after (k i : nat) (g : gfd) : Prop :=
  let '(maps, idm, coffs) := g in
  maps = fmaps fields i /\ length idm = size_of i /\ coffs = map (first_id fields i) (seq 0 k) /\
  forall t dm d, nth_error maps t = Some (t, dm) -> In d (owned_dofs dm) ->
    nth d idm 0 = if t <? k then nth d (fids fields i) 0 - d_off dm + first_id fields i t else nth d (fids fields i) 0.
Definition after (k : nat) (gs : list gfd) : Prop :=
  length gs = nf /\ forall i, i < nf -> field_after k i (nth i gs ([], [], [])).

Lemma owned_bound : forall i t dm d, i < nf -> nth_error (fmaps fields i) t = Some (t, dm) -> In d (owned_dofs dm) -> d < size_of i.
Proof.
  intros i t dm d Hi H Hd. destruct (Hdist Hi) as (D1 & D2 & _).
  assert (I : In d (seq 0 (size_of i))); [|apply in_seq in I; lia]. apply (Permutation_in _ D2).
  apply in_concat_skip. exists (t, dm). split; auto. eapply nth_error_In; eauto.
Qed.
Lemma owned_NoDup : forall i t dm, i < nf -> nth_error (fmaps fields i) t = Some (t, dm) -> NoDup (owned_dofs dm).
Proof.
  intros i t dm Hi H. destruct (Hdist Hi) as (D1 & D2 & _).
  assert (Nd : NoDup (concat (map (fun kv => owned_dofs (snd kv)) (fmaps fields i)))).
  { eapply Permutation_NoDup; [symmetry; exact D2|apply seq_NoDup]. }
  apply nth_error_split in H. destruct H as (l1 & l2 & E & _). rewrite E, map_app, concat_app in Nd.
  apply NoDup_app_remove_l in Nd. simpl in Nd. apply NoDup_app_remove_r in Nd. auto.
Qed.
(** Two tasks do not own the same DOF. *)
Lemma owned_disj : forall i t t' dm dm' d, i < nf -> nth_error (fmaps fields i) t = Some (t, dm) ->
  nth_error (fmaps fields i) t' = Some (t', dm') -> In d (owned_dofs dm) -> In d (owned_dofs dm') -> t = t'.
Proof.
  intros i t t' dm dm' d Hi H H' Hd Hd'. destruct (Hdist Hi) as (D1 & D2 & D3 & D4).
  destruct (D4 _ _ H) as (_ & N1 & O1 & R1). destruct (D4 _ _ H') as (_ & N2 & O2 & R2).
  assert (Hlt := @owned_bound i t dm d Hi H Hd). apply (R1 d Hlt) in Hd. apply (R2 d Hlt) in Hd'.
  assert (G : forall a b da db, nth_error (fmaps fields i) a = Some (a, da) -> a < b ->
     d_off da = list_sum (map (fun kv => d_n (snd kv)) (firstn a (fmaps fields i))) ->
     d_off db = list_sum (map (fun kv => d_n (snd kv)) (firstn b (fmaps fields i))) ->
     d_off da + d_n da <= d_off db).
  { intros a b da db Ha Hab Oa Ob. rewrite Oa, Ob. apply nth_error_split in Ha. destruct Ha as (l1 & l2 & E & L).
    rewrite E. replace b with (length l1 + S (b - a - 1)) by lia. rewrite firstn_app_2.
    rewrite <- L. rewrite firstn_app, Nat.sub_diag, firstn_all. simpl firstn. rewrite app_nil_r, map_app, list_sum_app.
    simpl. lia. }
  destruct (lt_eq_lt_dec t t') as [[L|E]|L]; auto.
  - specialize (G t t' dm dm' H L O1 O2). lia.
  - specialize (G t' t dm' dm H' L O2 O1). lia.
Qed.

Lemma renumber_fields_ok : forall t, t < n_tasks -> forall gs s,
  s + length gs = nf -> (forall i, s <= i -> i < nf -> field_after t i (nth (i - s) gs ([], [], []))) ->
  exists gs', renumber_fields t gs (first_id fields s t) = Ok (gs', list_sum (map (task_total fields) (seq 0 (S t)))) /\
    length gs' = length gs /\ forall i, s <= i -> i < nf -> field_after (S t) i (nth (i - s) gs' ([], [], [])).
Proof.
  intros t Ht. induction gs as [|[[maps idm] coffs] gs IH]; intros s Hs Hg.
  - exists []. simpl in Hs. split; [|split; auto; intros; lia]. cbn [renumber_fields]. f_equal. f_equal.
    rewrite list_sum_snoc. unfold first_id, task_total. rewrite Nat.add_0_r in Hs. rewrite Hs. reflexivity.
  - simpl in Hs. assert (Hsn : s < nf) by lia.
    destruct (fmaps_nth Hsn Ht) as (dm & E1 & E2 & E3).
    assert (H0 := Hg s ltac:(lia) Hsn). rewrite Nat.sub_diag in H0. cbn [nth] in H0.
    destruct H0 as (-> & Lm & Ec & Hv). cbn [renumber_fields]. rewrite E2.
    destruct (Hdist Hsn) as (D1 & D2 & D3 & D4). destruct (D4 _ _ E1) as (Q1 & Q2 & Q3 & Q4).
    unfold has_inner. destruct (d_inner dm) eqn:Ed; [|congruence]. cbn [negb].
    assert (Eo : first_id fields s t + d_n dm = first_id fields (S s) t).
    { unfold first_id. rewrite list_sum_snoc, E3. lia. }
    rewrite Eo.
    destruct (IH (S s)) as (gs' & R1 & R2 & R3); [lia| |].
    { intros i Hi1 Hi2. specialize (Hg i ltac:(lia) Hi2). replace (i - s) with (S (i - S s)) in Hg by lia. exact Hg. }
    rewrite R1. cbn [bind]. eexists. split; [reflexivity|]. split; [simpl; lia|].
    intros i Hi1 Hi2. destruct (Nat.eq_dec i s) as [->|Hne].
    + rewrite Nat.sub_diag. cbn [nth]. unfold dm_owned. rewrite dm_owned_eq.
      destruct (@shift_ids_nth (owned_dofs dm) idm (first_id fields s t) (d_off dm)) as [L H].
      { eapply owned_NoDup; eauto. }
      { intros d Hd. rewrite Lm. eapply owned_bound; eauto. }
      split; auto. split; [lia|]. split; [rewrite Ec, seq_S, map_app; reflexivity|].
      intros t' dm' d Hn Hd. rewrite H. destruct (in_dec Nat.eq_dec d (owned_dofs dm)) as [Hin|Hin].
      * assert (t = t') by (eapply owned_disj; eauto). subst t'. assert (dm' = dm) by congruence. subst dm'.
        destruct (Nat.ltb_spec t (S t)); [|lia]. rewrite (Hv _ _ _ Hn Hd). rewrite Nat.ltb_irrefl.
        assert (Hr : d_off dm <= nth d (fids fields s) 0) by (apply Q4 in Hd; [lia|eapply owned_bound; eauto]). lia.
      * rewrite (Hv _ _ _ Hn Hd). destruct (Nat.ltb_spec t' t), (Nat.ltb_spec t' (S t)); try lia.
        assert (t' = t) by lia. subst t'. rewrite E1 in Hn. inversion Hn; subst. tauto.
    + replace (i - s) with (S (i - S s)) by lia. cbn [nth]. apply R3; lia.
Qed.
Lemma renumber_tasks_ok : forall k t gs, t + k = n_tasks -> after t gs ->
  exists gs', renumber_tasks (seq t k) gs (list_sum (map (task_total fields) (seq 0 t))) = Ok gs' /\ after n_tasks gs'.
Proof.
  induction k as [|k IH]; intros t gs Hk [A1 A2].
  - rewrite Nat.add_0_r in Hk. subst t. exists gs. split; auto. split; auto.
  - cbn [seq renumber_tasks].
    destruct (@renumber_fields_ok t ltac:(lia) gs 0) as (gs' & R1 & R2 & R3); [simpl; auto| |].
    { intros i _ Hi. rewrite Nat.sub_0_r. auto. }
    unfold first_id in R1. simpl (list_sum (map _ (seq 0 0))) in R1. rewrite Nat.add_0_r in R1. rewrite R1.
    cbn [bind fst snd]. apply IH; [lia|]. split; [etransitivity; [exact R2|exact A1]|]. intros i Hi. specialize (R3 i ltac:(lia) Hi).
    rewrite Nat.sub_0_r in R3. auto.
Qed.
Lemma get_coffs_ok : forall maps, (forall t, t < n_tasks -> exists dm, aget maps t = Some dm) ->
  get_coffs n_tasks maps = Ok (map (fun t => d_off (get_or maps t dm0)) (seq 0 n_tasks)).
Proof.
  intros maps H. unfold get_coffs.
  assert (G : forall l, (forall t, In t l -> t < n_tasks) ->
    fold_right (fun ir r => do l <- r; match aget maps ir with Some dm => Ok (d_off dm :: l) | None => Err KeyError end) (Ok []) l
    = Ok (map (fun t => d_off (get_or maps t dm0)) l)).
  { induction l as [|t l IH]; intros Hl; auto. cbn [fold_right map]. rewrite IH by (intros; apply Hl; simpl; auto).
    cbn [bind]. destruct (H t (Hl t (or_introl eq_refl))) as [dm E]. unfold get_or. rewrite E. reflexivity. }
  apply G. intros t Ht. apply in_seq in Ht. lia.
Qed.
Lemma sum_firstn_owned : forall i t, i < nf -> t <= n_tasks ->
  list_sum (map (fun kv => d_n (snd kv)) (firstn t (fmaps fields i))) = list_sum (map (n_owned fields i) (seq 0 t)).
Proof.
  intros i t Hi. induction t as [|t IH]; intros Ht; [reflexivity|].
  rewrite list_sum_snoc, <- IH by lia. destruct (fmaps_nth Hi (t:=t) ltac:(lia)) as (dm & E & _ & En). rewrite En.
  clear - E. revert E. generalize (fmaps fields i) at 1 2 3. 
  assert (G : forall (l : list (nat * dmap)) t x, nth_error l t = Some x -> firstn (S t) l = firstn t l ++ [x]).
  { induction l as [|y l IHl]; intros [|k] x E; simpl in *; try discriminate; [congruence|]. rewrite (IHl k x E). reflexivity. }
  intros l E. rewrite (G _ _ _ E), map_app, list_sum_app. simpl. lia.
Qed.
Lemma composite_ok : 0 < nf -> exists gs, composite n_tasks fields = Ok gs /\ after n_tasks gs.
Proof.
  intros Hnf.
  assert (G : exists gs, renumber_tasks (seq 0 n_tasks) (map (fun f => (fst f, snd f, [])) fields) 0 = Ok gs /\ after n_tasks gs).
  { apply (@renumber_tasks_ok n_tasks 0); auto. split; [rewrite map_length; auto|]. intros i Hi.
    rewrite nth_map_in with (da := ([], [])) by auto. split; auto.
    destruct (Hdist Hi) as (_ & _ & D3 & _). apply Permutation_length in D3. rewrite seq_length in D3. split; auto. }
  unfold composite. destruct fields as [|[maps idm] [|f2 l]] eqn:Ef; [simpl in Hnf; lia| |exact G].
  clear G. rewrite <- Ef in *. assert (E0 : fmaps fields 0 = maps) by (rewrite Ef; reflexivity).
  assert (E1 : fids fields 0 = idm) by (rewrite Ef; reflexivity).
  assert (En : nf = 1) by (rewrite Ef; reflexivity).
  destruct (Hdist Hnf) as (D1 & D2 & D3 & D4). rewrite E0, E1 in *.
  rewrite get_coffs_ok.
  2:{ intros t Ht. destruct (fmaps_nth Hnf Ht) as (dm & _ & E & _). rewrite E0 in E. eauto. }
  cbn [bind]. eexists. split; [reflexivity|].
  assert (Hfo : forall t dm, nth_error maps t = Some (t, dm) -> t < n_tasks -> d_off dm = first_id fields 0 t).
  { intros t dm H Ht. destruct (D4 _ _ H) as (_ & _ & Q3 & _). rewrite Q3.
    rewrite <- E0. rewrite sum_firstn_owned by lia. unfold first_id. simpl (list_sum (map _ (seq 0 0))).
    rewrite Nat.add_0_r. f_equal. apply map_ext_in. intros u Hu. unfold task_total. rewrite En. simpl. lia. }
  split; [simpl; lia|]. intros i Hi. rewrite En in Hi. assert (i = 0) by lia. subst i. cbn [nth].
  split; auto. split; [rewrite (Permutation_length D3), seq_length; auto|]. split.
  - apply map_ext_in. intros t Ht. apply in_seq in Ht. destruct (fmaps_nth Hnf (t:=t) ltac:(lia)) as (dm & Hn & E & _).
    rewrite E0 in *. unfold get_or. rewrite E. apply Hfo; auto; lia.
  - intros t dm d H Hd.
    assert (Ht : t < n_tasks). { rewrite <- (seq_length n_tasks 0), <- D1, map_length. apply nth_error_Some. congruence. }
    destruct (Nat.ltb_spec t n_tasks); [|lia]. destruct (D4 _ _ H) as (_ & _ & _ & Q4).
    assert (Hlt : d < size_of 0). { rewrite <- E0 in H. apply (@owned_bound 0 t dm d Hnf H Hd). }
    apply (Q4 d Hlt) in Hd. rewrite <- (Hfo t dm H Ht), E1. lia.
Qed.

Theorem C82_composite : 0 < nf ->
  exists gs, composite n_tasks fields = Ok gs /\ length gs = nf /\
    (* the numbers of all DOFs of all fields: each of 0, 1, ... once *)
    Permutation (concat (map (fun g => snd (fst g)) gs)) (seq 0 (list_sum (map size_of (seq 0 nf)))) /\
    forall i, i < nf ->
      exists idm coffs, nth_error gs i = Some (fmaps fields i, idm, coffs) /\ length idm = size_of i /\
      forall t, t < n_tasks -> exists dm, nth_error (fmaps fields i) t = Some (t, dm) /\
        (* [coffsets]: fields follow each other in each task, tasks follow each other *)
        nth t coffs 0 = first_id fields i t /\
        (* the owned DOFs are numbered in the announced range, in the original order *)
        (forall d, d < size_of i -> (In d (owned_dofs dm) <-> nth t coffs 0 <= nth d idm 0 < nth t coffs 0 + d_n dm)) /\
        (forall d, In d (owned_dofs dm) -> nth d idm 0 + d_off dm = nth d (fids fields i) 0 + nth t coffs 0).
Proof.
  intros Hnf. destruct (composite_ok Hnf) as (gs & E & L & A). exists gs. split; auto. split; auto.
  (* values on the owned DOFs *)
  assert (Val : forall i, i < nf -> forall idm, snd (fst (nth i gs ([], [], []))) = idm ->
     forall t dm d, t < n_tasks -> nth_error (fmaps fields i) t = Some (t, dm) -> In d (owned_dofs dm) ->
     d_off dm <= nth d (fids fields i) 0 < d_off dm + d_n dm /\
     nth d idm 0 = nth d (fids fields i) 0 - d_off dm + first_id fields i t).
  { intros i Hi idm Ei t dm d Ht H Hd. specialize (A i Hi). destruct (nth i gs ([], [], [])) as [[maps idm'] coffs].
    simpl in Ei. subst idm'. destruct A as (-> & A2 & A3 & A4). rewrite (A4 _ _ _ H Hd).
    destruct (Nat.ltb_spec t n_tasks); [|lia]. split; auto.
    destruct (Hdist Hi) as (_ & _ & _ & D4). destruct (D4 _ _ H) as (_ & _ & _ & Q4). apply Q4; auto.
    eapply owned_bound; eauto. }
  (* the numbers of a task *)
  assert (Blk : forall i, i < nf -> Permutation (snd (fst (nth i gs ([], [], []))))
            (concat (map (fun t => seq (first_id fields i t) (n_owned fields i t)) (seq 0 n_tasks)))).
  { intros i Hi. assert (V := Val i Hi _ eq_refl). assert (A' := A i Hi).
    destruct (nth i gs ([], [], [])) as [[maps idm] coffs]. destruct A' as (-> & A2 & A3 & A4). simpl in V |- *.
    destruct (Hdist Hi) as (D1 & D2 & D3 & D4).
    assert (Em : idm = map (fun d => nth d idm 0) (seq 0 (size_of i))).
    { apply list_ext with (d := 0); [rewrite map_length, seq_length; auto|]. intros k Hk.
      rewrite nth_map_in with (da := 0) by (rewrite seq_length; lia). rewrite nth_seq0 by lia. reflexivity. }
    rewrite Em at 1. rewrite <- D2. rewrite concat_map, map_map.
    assert (Emaps : fmaps fields i = map (fun t => (t, snd (nth t (fmaps fields i) (0, dm0)))) (seq 0 n_tasks)).
    { apply list_ext with (d := (0, dm0)).
      - rewrite map_length, seq_length. rewrite <- (map_length fst), D1, seq_length. auto.
      - intros t Ht. rewrite <- (map_length fst), D1, seq_length in Ht.
        rewrite nth_map_in with (da := 0) by (rewrite seq_length; lia). rewrite nth_seq0 by lia.
        destruct (fmaps_nth Hi Ht) as (dm & Hn & _). rewrite (nth_error_nth _ _ _ Hn). reflexivity. }
    rewrite Emaps at 1. rewrite map_map. apply perm_concat_ext. intros t Ht. apply in_seq in Ht. simpl.
    destruct (fmaps_nth Hi (t:=t) ltac:(lia)) as (dm & Hn & _ & En). rewrite (nth_error_nth _ _ _ Hn). simpl.
    destruct (D4 _ _ Hn) as (_ & Q2 & _ & Q4).
    apply NoDup_Permutation_bis.
    - assert (NdI : NoDup (fids fields i)) by (eapply Permutation_NoDup; [symmetry; exact D3|apply seq_NoDup]).
      assert (Li : length (fids fields i) = size_of i) by (rewrite (Permutation_length D3), seq_length; auto).
      assert (Nd := owned_NoDup Hi Hn).
      assert (Inj : forall x y, In x (owned_dofs dm) -> In y (owned_dofs dm) -> nth x idm 0 = nth y idm 0 -> x = y).
      { intros x y Hx Hy Exy. destruct (V t dm x ltac:(lia) Hn Hx) as [Rx Vx]. destruct (V t dm y ltac:(lia) Hn Hy) as [Ry Vy].
        apply (proj1 (NoDup_nth (fids fields i) 0) NdI); [rewrite Li; eapply owned_bound; eauto..|lia]. }
      clear - Nd Inj. induction (owned_dofs dm) as [|x l IH]; simpl; constructor.
      + inversion Nd; subst. intros F. apply in_map_iff in F. destruct F as [y [E Hy]].
        assert (y = x) by (apply Inj; simpl; auto). subst. tauto.
      + inversion Nd; subst. apply IH; auto. intros; apply Inj; simpl; auto.
    - rewrite seq_length, map_length. lia.
    - intros x Hx. apply in_map_iff in Hx. destruct Hx as [d [<- Hd]].
      destruct (V t dm d ltac:(lia) Hn Hd) as [Rd Vd]. apply in_seq. lia. }
  split.
  { assert (Eg : gs = map (fun i => nth i gs ([], [], [])) (seq 0 nf)).
    { apply list_ext with (d := ([], [], [])); [rewrite map_length, seq_length; auto|]. intros k Hk.
      rewrite nth_map_in with (da := 0) by (rewrite seq_length; lia). rewrite nth_seq0 by lia. reflexivity. }
    rewrite Eg, map_map.
    rewrite (perm_concat_ext (fun i => snd (fst (nth i gs ([], [], []))))
              (fun i => concat (map (fun t => seq (first_id fields i t) (n_owned fields i t)) (seq 0 n_tasks)))).
    2:{ intros i Hi. apply Blk. apply in_seq in Hi. lia. }
    rewrite (perm_swap_concat (fun i t => seq (first_id fields i t) (n_owned fields i t))).
    assert (Et : list_sum (map size_of (seq 0 nf)) = list_sum (map (task_total fields) (seq 0 n_tasks))).
    { assert (Es : forall i, In i (seq 0 nf) -> size_of i = list_sum (map (n_owned fields i) (seq 0 n_tasks))).
      { intros i Hi. apply in_seq in Hi. assert (Hi' : i < nf) by lia. assert (P := Permutation_length (Blk i Hi')).
        specialize (A i Hi'). destruct (nth i gs ([], [], [])) as [[maps idm] coffs]. destruct A as (_ & A2 & _).
        simpl in P. rewrite A2 in P. rewrite P. clear. induction (seq 0 n_tasks); simpl; auto.
        rewrite app_length, seq_length. lia. }
      rewrite (map_ext_in _ _ _ Es). unfold task_total. clear.
      generalize (seq 0 n_tasks). induction (seq 0 nf) as [|i l IH]; intros ts; simpl.
      - induction ts; simpl; auto.
      - rewrite IH. clear. induction ts; simpl; auto. lia. }
    rewrite Et. match goal with |- Permutation ?a ?b => assert (Eab : a = b); [|rewrite Eab; apply Permutation_refl] end.
    rewrite <- (blocks_seq (task_total fields) 0 n_tasks). f_equal. apply map_ext. intros t.
    rewrite Nat.add_0_l. unfold task_total at 2. rewrite <- (blocks_seq (fun i => n_owned fields i t)). reflexivity. }
  intros i Hi. assert (V := Val i Hi _ eq_refl). assert (A' := A i Hi).
  destruct (nth i gs ([], [], [])) as [[maps idm] coffs] eqn:Eg. destruct A' as (-> & A2 & A3 & A4). simpl in V.
  exists idm, coffs. split; [rewrite (nth_error_nth' gs ([], [], [])) by (eapply Nat.lt_le_trans; [exact Hi|rewrite <- L; apply le_n]); f_equal; exact Eg|]. split; auto.
  intros t Ht. destruct (fmaps_nth Hi Ht) as (dm & Hn & _ & En). exists dm. split; auto.
  assert (Ec : nth t coffs 0 = first_id fields i t).
  { rewrite A3, nth_map_in with (da := 0) by (rewrite seq_length; auto). rewrite nth_seq0 by auto. reflexivity. }
  rewrite Ec. split; auto. split.
  - intros d Hd. split; [intros Ho; destruct (V t dm d Ht Hn Ho); lia|]. intros Hr.
    (* the owner of d *)
    destruct (Hdist Hi) as (D1 & D2 & D3 & D4).
    assert (Ho : In d (concat (map (fun kv => owned_dofs (snd kv)) (fmaps fields i)))).
    { apply (Permutation_in _ (Permutation_sym D2)), in_seq. lia. }
    apply in_concat_skip in Ho. destruct Ho as [[t' dm'] [H1 H2]]. simpl in H2.
    apply In_nth_error in H1. destruct H1 as [k Hk].
    assert (t' = k /\ k < n_tasks) as [-> Hkt].
    { assert (Hkl : k < n_tasks) by (rewrite <- (seq_length n_tasks 0), <- D1, map_length; apply nth_error_Some; congruence).
      split; auto. assert (E' := map_nth_error fst _ _ Hk). rewrite D1 in E'.
      apply (nth_error_nth _ _ 0) in E'. rewrite nth_seq0 in E'; auto. }
    destruct (V k dm' d Hkt Hk H2) as [R1 R2].
    destruct (fmaps_nth Hi Hkt) as (dm2 & Hn2 & _ & En2). assert (dm2 = dm') by congruence. subst dm2.
    assert (Mono : forall a b, a < b -> first_id fields i a + n_owned fields i a <= first_id fields i b).
    { intros a b Hab. unfold first_id.
      assert (M1 : list_sum (map (fun i => n_owned fields i a) (seq 0 i)) + n_owned fields i a <= task_total fields a).
      { unfold task_total. replace nf with (S i + (nf - S i)) by lia. rewrite seq_app, map_app, list_sum_app, list_sum_snoc. lia. }
      replace b with (S a + (b - S a)) by lia. rewrite seq_app, map_app, list_sum_app, list_sum_snoc. lia. }
    destruct (lt_eq_lt_dec t k) as [[Hl|Hl]|Hl]; [specialize (Mono t k Hl); lia| |specialize (Mono k t Hl); lia].
    subst k. assert (dm' = dm) by congruence. subst. auto.
  - intros d Hd. destruct (V t dm d Ht Hn Hd). lia.
Qed.
End C82.

(** An example: two fields (one and two components of the strip) on two tasks. *)
Definition ex_maps1 : list (nat * dmap) :=
  [(0, mkdm (Some [0; 1; 4; 5]) [[2; 6]] [] 6 0); (1, mkdm (Some [3; 7]) [] [] 2 6)].
Definition ex_maps2 : list (nat * dmap) :=
  [(0, mkdm (Some [0; 1; 2; 3; 8; 9; 10; 11]) [[4; 5; 12; 13]] [] 12 0);
   (1, mkdm (Some [6; 7; 14; 15]) [] [] 4 12)].
Example C82_ex : 
  create_task_dof_maps strip 1 false [0; 0; 1] (get_inter_facets strip [0; 0; 1]) =
    Ok (ex_maps1, [0; 1; 4; 6; 2; 3; 5; 7], [[0; 1]; [2]], [[]; []]) /\
  create_task_dof_maps strip 2 false [0; 0; 1] (get_inter_facets strip [0; 0; 1]) =
    Ok (ex_maps2, [0; 1; 2; 3; 8; 9; 12; 13; 4; 5; 6; 7; 10; 11; 14; 15], [[0; 1]; [2]], [[]; []]) /\
  composite 2 [(ex_maps1, [0; 1; 4; 6; 2; 3; 5; 7]); (ex_maps2, [0; 1; 2; 3; 8; 9; 12; 13; 4; 5; 6; 7; 10; 11; 14; 15])] =
    Ok [(ex_maps1, [0; 1; 4; 18; 2; 3; 5; 19], [0; 18]);
        (ex_maps2, [6; 7; 8; 9; 14; 15; 20; 21; 10; 11; 12; 13; 16; 17; 22; 23], [6; 20])].
Proof. split; [|split]; vm_compute; reflexivity. Qed.
Example C82_ex_hyps : forall i, i < 2 ->
  let fields := [(ex_maps1, [0; 1; 4; 6; 2; 3; 5; 7]); (ex_maps2, [0; 1; 2; 3; 8; 9; 12; 13; 4; 5; 6; 7; 10; 11; 14; 15])] in
  distribution 2 (if i =? 0 then 8 else 16) (fmaps fields i) (fids fields i).
Proof.
  destruct C46_ex_mesh as (H1 & H2 & H3 & H4). destruct C82_ex as (E1 & E2 & _).
  intros [|[|i]] Hi; [| |lia]; cbn zeta.
  - exact (@C46_distribution strip 1 [0; 0; 1] 2 false _ _ _ _ ltac:(lia) H1 H4 H2 H3 E1).
  - exact (@C46_distribution strip 2 [0; 0; 1] 2 false _ _ _ _ ltac:(lia) H1 H4 H2 H3 E2).
Qed.
Print Assumptions C82_composite.
