(** Lemmas for the parallel task data. *)
From Verif Require Import Base M_parallel.
Set Implicit Arguments.

(** ** Dictionaries. *)
Lemma aget_aset : forall A (d : list (nat * A)) k v j,
  aget (aset d k v) j = if j =? k then Some v else aget d j.
Proof.
  induction d as [|[k' v'] d IH]; intros k v j; simpl; auto.
  destruct (Nat.eqb_spec k k') as [->|Hk]; simpl.
  - destruct (Nat.eqb_spec j k'); auto.
  - rewrite IH. destruct (Nat.eqb_spec j k') as [->|]; auto.
    destruct (Nat.eqb_spec k' k); auto; congruence.
Qed.
Lemma aget_in : forall A (d : list (nat * A)) k v, aget d k = Some v -> In (k, v) d.
Proof.
  induction d as [|[k' v'] d IH]; intros k v H; simpl in *; [discriminate|].
  destruct (Nat.eqb_spec k k') as [->|]; [inversion H; auto|right; auto].
Qed.
Lemma aget_key : forall A (d : list (nat * A)) k, (exists v, aget d k = Some v) <-> In k (map fst d).
Proof.
  induction d as [|[k' v'] d IH]; intros k; simpl.
  - split; [intros [? ?]; discriminate|intros []].
  - destruct (Nat.eqb_spec k k') as [->|Hk]; [split; eauto|].
    rewrite IH. split; auto. intros [->|]; [congruence|auto].
Qed.
Lemma aget_none : forall A (d : list (nat * A)) k, aget d k = None <-> ~ In k (map fst d).
Proof.
  intros. rewrite <- aget_key. split.
  - intros H [v E]; congruence.
  - intros H. destruct (aget d k) eqn:E; auto. exfalso; eauto.
Qed.
Lemma in_aget : forall A (d : list (nat * A)) k v, NoDup (map fst d) -> In (k, v) d -> aget d k = Some v.
Proof.
  induction d as [|[k' v'] d IH]; intros k v N H; simpl in *; [destruct H|].
  inversion N; subst. destruct H as [H|H].
  - inversion H; subst. rewrite Nat.eqb_refl; auto.
  - destruct (Nat.eqb_spec k k') as [->|]; auto.
    exfalso. apply H2. apply in_map_iff. exists (k', v); auto.
Qed.
Lemma aset_keys : forall A (d : list (nat * A)) k v j,
  In j (map fst (aset d k v)) <-> j = k \/ In j (map fst d).
Proof.
  intros. rewrite <- !aget_key. split.
  - intros [w H]. rewrite aget_aset in H. destruct (Nat.eqb_spec j k); auto; right; eauto.
  - intros H. rewrite aget_aset. destruct (Nat.eqb_spec j k); eauto. destruct H; eauto; congruence.
Qed.
Lemma aset_NoDup : forall A (d : list (nat * A)) k v, NoDup (map fst d) -> NoDup (map fst (aset d k v)).
Proof.
  induction d as [|[k' v'] d IH]; intros k v N; simpl.
  - constructor; auto.
  - inversion N; subst. destruct (Nat.eqb_spec k k') as [->|Hk]; simpl; constructor; auto.
    rewrite aset_keys. intros [->|]; auto.
Qed.
Lemma setdefault_get : forall A (d : list (nat * A)) k v j,
  get_or (setdefault d k v) j v = get_or d j v.
Proof.
  intros. unfold setdefault, get_or. destruct (aget d k) eqn:E; auto.
  rewrite aget_aset. destruct (Nat.eqb_spec j k) as [->|]; auto. rewrite E; auto.
Qed.
Lemma setdefault_keys : forall A (d : list (nat * A)) k v j,
  In j (map fst (setdefault d k v)) <-> j = k \/ In j (map fst d).
Proof.
  intros. unfold setdefault. destruct (aget d k) eqn:E.
  - split; auto. intros [->|]; auto. apply aget_key; eauto.
  - apply aset_keys.
Qed.
Lemma setdefault_NoDup : forall A (d : list (nat * A)) k v,
  NoDup (map fst d) -> NoDup (map fst (setdefault d k v)).
Proof. intros. unfold setdefault. destruct (aget d k); auto. apply aset_NoDup; auto. Qed.
Lemma ordered_items_keys : forall A (d : list (nat * A)) v, map fst (ordered_items d v) = unique (map fst d).
Proof. intros. unfold ordered_items. rewrite map_map. simpl. apply map_id. Qed.
Lemma ordered_items_in : forall A (d : list (nat * A)) v k x, In (k, x) (ordered_items d v) <->
  In k (map fst d) /\ x = get_or d k v.
Proof.
  intros. unfold ordered_items. rewrite in_map_iff. split.
  - intros [j [E H]]. inversion E; subst. apply (proj1 (unique_In _ _)) in H. auto.
  - intros [H ->]. exists k. split; auto. apply unique_In; auto.
Qed.
Lemma NoDup_map_perm : forall A B (f : A -> B) l l', NoDup (map f l) ->
  (forall x, In x l <-> In x l') -> NoDup (map f l') -> Permutation l l'.
Proof.
  intros. apply NoDup_Permutation; auto; eapply NoDup_map_inv; eauto.
Qed.
Lemma ordered_items_perm : forall A (d : list (nat * A)) v, NoDup (map fst d) -> Permutation (ordered_items d v) d.
Proof.
  intros. apply NoDup_map_perm with (f := fst); auto.
  - rewrite ordered_items_keys. apply sinc_NoDup, unique_sinc.
  - intros [k x]. rewrite ordered_items_in. unfold get_or. split.
    + intros [H1 ->]. apply (proj2 (aget_key _ _)) in H1. destruct H1 as [w E]. rewrite E. apply aget_in; auto.
    + intros Hi. split; [apply in_map_iff; exists (k, x); auto|]. rewrite (in_aget _ _ _ H Hi); auto.
Qed.

(** ** Interfaces. *)
Definition get2 (d : list (nat * list (nat * list nat))) (a b : nat) : list nat :=
  get_or (get_or d a []) b [].
Lemma get2_push : forall d a b f a' b',
  get2 (push d a b f) a' b' = if (a' =? a) && (b' =? b) then get2 d a b ++ [f] else get2 d a' b'.
Proof.
  intros. unfold get2, push, get_or at 2. rewrite aget_aset.
  destruct (Nat.eqb_spec a' a) as [->|]; simpl; auto.
  unfold get_or at 1. rewrite aget_aset.
  destruct (Nat.eqb_spec b' b) as [->|]; auto.
Qed.
(** Well-formed nested dictionaries: distinct keys, [b] is a key of [a] iff the list
    is nonempty; [a] is a key iff it has neighbours; symmetric. *)
Definition nested_ok (d : list (nat * list (nat * list nat))) : Prop :=
  NoDup (map fst d) /\
  (forall a nt, aget d a = Some nt -> NoDup (map fst nt) /\
     forall b, In b (map fst nt) <-> get2 d a b <> []) /\
  (forall a, In a (map fst d) <-> exists b, get2 d a b <> []).
Lemma push_ok : forall d a b f, nested_ok d -> nested_ok (push d a b f).
Proof.
  intros d a b f (N & H1 & H2). split; [|split].
  - apply aset_NoDup; auto.
  - intros a' nt E. unfold push in E. rewrite aget_aset in E.
    destruct (Nat.eqb_spec a' a) as [->|Hne].
    + inversion E; subst; clear E. 
      assert (HN : NoDup (map fst (get_or d a [])) /\
                   forall b, In b (map fst (get_or d a [])) <-> get2 d a b <> []).
      { unfold get_or. destruct (aget d a) as [nt|] eqn:Ea; [apply H1; auto|].
        split; [constructor|]. intros b'. unfold get2, get_or. rewrite Ea. simpl.
        split; [intros []|congruence]. }
      destruct HN as [N1 HN]. split; [apply aset_NoDup; auto|].
      intros b'. rewrite aset_keys, HN, get2_push, Nat.eqb_refl. simpl.
      destruct (Nat.eqb_spec b' b) as [->|Hb].
      * split; auto. intros _ F. destruct (get2 d a b); discriminate.
      * split; auto. intros [->|]; auto; congruence.
    + destruct (H1 _ _ E) as [N1 HN]. split; auto. intros b'. rewrite HN, get2_push.
      destruct (Nat.eqb_spec a' a); [congruence|]. simpl. reflexivity.
  - intros a'. unfold push at 1. rewrite aset_keys, H2. split.
    + intros [->|[b' Hb]].
      * exists b. rewrite get2_push, !Nat.eqb_refl. simpl. destruct (get2 d a b); discriminate.
      * exists b'. rewrite get2_push. destruct ((a' =? a) && (b' =? b)); auto. destruct (get2 d a b); discriminate.
    + intros [b' Hb]. rewrite get2_push in Hb.
      destruct (Nat.eqb_spec a' a); auto. right. exists b'. simpl in Hb. auto.
Qed.
Definition betw (ct : list nat) (m : fmesh) (a b f : nat) : bool :=
  let '(x, y) := facet_tasks ct (nth f (f_cfc m) []) in
  ((x =? a) && (y =? b)) || ((x =? b) && (y =? a)).
Lemma inter_fold : forall m ct l d, nested_ok d ->
  (forall f, In f l -> let '(a, b) := facet_tasks ct (nth f (f_cfc m) []) in a <> b) ->
  let d' := fold_left (fun d f => let '(a, b) := facet_tasks ct (nth f (f_cfc m) []) in
               push (push d a b f) b a f) l d in
  nested_ok d' /\ forall a b, get2 d' a b = get2 d a b ++ filter (betw ct m a b) l.
Proof.
  induction l as [|f l IH]; intros d Hd Hl; cbv zeta; cbn [fold_left filter].
  - split; auto. intros. rewrite app_nil_r; auto.
  - assert (Hf := Hl f (or_introl eq_refl)).
    destruct (facet_tasks ct (nth f (f_cfc m) [])) as [x y] eqn:E.
    destruct (IH (push (push d x y f) y x f)) as [K1 K2].
    + apply push_ok, push_ok; auto.
    + intros g Hg; apply (Hl g); simpl; auto.
    + split; [exact K1|]. intros a b. rewrite K2. rewrite !get2_push.
      unfold betw at 2. rewrite E.
      destruct (Nat.eqb_spec a x), (Nat.eqb_spec b y), (Nat.eqb_spec a y), (Nat.eqb_spec b x),
               (Nat.eqb_spec x a), (Nat.eqb_spec y b), (Nat.eqb_spec x b), (Nat.eqb_spec y a);
        try congruence; simpl; rewrite <- ?app_assoc; simpl; try congruence.
      all: repeat match goal with |- context [?u =? ?v] => destruct (Nat.eqb_spec u v); subst; simpl end;
        try congruence; rewrite <- ?app_assoc; auto.
Qed.
Lemma get_inter_facets_spec : forall m ct,
  nested_ok (get_inter_facets m ct) /\
  forall a b, get2 (get_inter_facets m ct) a b = filter (betw ct m a b) (inter_list m ct).
Proof.
  intros. unfold get_inter_facets. apply inter_fold.
  - split; [constructor|]. split.
    + intros a nt H. discriminate.
    + intros a. simpl. split; [intros []|]. intros [b H]. apply H. reflexivity.
  - intros f Hf. unfold inter_list in Hf. apply filter_In in Hf. destruct Hf as [_ Hf].
    destruct (facet_tasks ct (nth f (f_cfc m) [])) as [a b].
    apply andb_true_iff in Hf. destruct Hf as [_ Hf].
    destruct (Nat.eqb_spec a b); auto. discriminate.
Qed.

(** ** Expanded DOFs. *)
Lemma expand_In : forall n l d, 0 < n -> In d (expand_dofs n l) <-> In (d / n) l.
Proof.
  intros n l d Hn. unfold expand_dofs. rewrite in_concat. split.
  - intros [r [Hr Hd]]. apply in_map_iff in Hr. destruct Hr as [x [<- Hx]].
    apply in_map_iff in Hd. destruct Hd as [i [<- Hi]]. apply in_seq in Hi.
    rewrite Nat.mul_comm, Nat.div_add_l, Nat.div_small, Nat.add_0_r by lia. auto.
  - intros H. eexists. split; [apply in_map; exact H|].
    apply in_map_iff. exists (d mod n). split; [symmetry; apply Nat.div_mod; lia|].
    apply in_seq. pose proof (Nat.mod_upper_bound d n). lia.
Qed.
Lemma NoDup_concat_disj : forall A (ls : list (list A)),
  (forall l, In l ls -> NoDup l) ->
  (forall i j x, i < j < length ls -> In x (nth i ls []) -> ~ In x (nth j ls [])) ->
  NoDup (concat ls).
Proof.
  induction ls as [|l ls IH]; intros H1 H2; simpl; [constructor|].
  assert (N : NoDup (concat ls)).
  { apply IH; [intros; apply H1; simpl; auto|].
    intros i j x Hij Hx. apply (H2 (S i) (S j) x); simpl; auto; lia. }
  assert (D : forall x, In x l -> ~ In x (concat ls)).
  { intros x Hx Hc. apply in_concat in Hc. destruct Hc as [r [Hr Hxr]].
    apply (In_nth _ _ []) in Hr. destruct Hr as [j [Hj <-]].
    apply (H2 0 (S j) x); simpl; auto; lia. }
  clear IH H2. assert (Nl : NoDup l) by (apply H1; simpl; auto). clear H1.
  induction l as [|x l IH]; simpl; auto. inversion Nl; subst. constructor.
  - rewrite in_app_iff. intros [?|?]; auto. apply (D x); simpl; auto.
  - apply IH; auto. intros; apply D; simpl; auto.
Qed.
Lemma expand_NoDup : forall n l, 0 < n -> NoDup l -> NoDup (expand_dofs n l).
Proof.
  intros n l Hn Nl. apply NoDup_concat_disj.
  - intros r Hr. apply in_map_iff in Hr. destruct Hr as [d [<- _]].
    apply FinFun.Injective_map_NoDup; [|apply seq_NoDup]. intros a b; lia.
  - rewrite map_length. intros i j x Hij Hi Hj.
    rewrite nth_map_in with (da := 0) in Hi by lia. rewrite nth_map_in with (da := 0) in Hj by lia.
    apply in_map_iff in Hi. apply in_map_iff in Hj.
    destruct Hi as [u [E1 Hu]], Hj as [v [E2 Hv]]. apply in_seq in Hu. apply in_seq in Hv.
    assert (E : nth i l 0 = nth j l 0) by nia.
    apply NoDup_nth in E; auto; lia.
Qed.
Lemma expand_seq : forall n k, 0 < n -> expand_dofs n (seq 0 k) = seq 0 (k * n).
Proof.
  intros n k Hn. induction k as [|k IH]; [reflexivity|].
  rewrite seq_S, Nat.add_0_l. unfold expand_dofs in *. rewrite map_app, concat_app, IH. simpl.
  rewrite app_nil_r. replace (n + k * n) with (k * n + n) by lia. rewrite seq_app. f_equal.
  simpl. rewrite <- (map_id (seq (k * n) n)).
  apply list_ext with (d := 0).
  - rewrite !map_length, !seq_length; auto.
  - intros i Hi. rewrite map_length, seq_length in Hi.
    rewrite nth_map_in with (da := 0) by (rewrite seq_length; auto).
    rewrite nth_map_in with (da := 0) by (rewrite seq_length; auto).
    rewrite !seq_nth by auto. lia.
Qed.
Lemma expand_perm : forall n a b, Permutation a b -> Permutation (expand_dofs n a) (expand_dofs n b).
Proof.
  intros n a b H. unfold expand_dofs. induction H; simpl; auto.
  - apply Permutation_app_head; auto.
  - rewrite !app_assoc. apply Permutation_app_tail, Permutation_app_comm.
  - etransitivity; eauto.
Qed.

(** ** Ownership. *)
Definition owned (dm : dmap) : list nat :=
  (match d_inner dm with Some l => l | None => [] end) ++ concat (d_inter dm).
Definition all_owned (maps : list (nat * dmap)) : list nat := concat (map (fun kv => owned (snd kv)) maps).
Lemma all_owned_aset : forall maps t dm x, NoDup (map fst maps) ->
  Permutation (owned dm) (x ++ owned (get_or maps t dm0)) ->
  Permutation (all_owned (aset maps t dm)) (x ++ all_owned maps).
Proof.
  induction maps as [|[k v] maps IH]; intros t dm x N H.
  - unfold all_owned. simpl. unfold get_or in H; simpl in H. rewrite !app_nil_r in *. exact H.
  - inversion N; subst. unfold all_owned in *. simpl. unfold get_or in H. simpl in H.
    destruct (Nat.eqb_spec t k) as [->|]; simpl.
    + rewrite app_assoc. apply Permutation_app_tail; auto.
    + rewrite (IH t dm x H3 H).
      apply Permutation_app_swap_app.
Qed.
Lemma all_owned_setdefault : forall maps t, NoDup (map fst maps) ->
  Permutation (all_owned (setdefault maps t dm0)) (all_owned maps).
Proof.
  intros. unfold setdefault. destruct (aget maps t) eqn:E; auto.
  apply all_owned_aset with (x := []); auto. unfold get_or. rewrite E. auto.
Qed.
Lemma all_owned_In : forall maps d, In d (all_owned maps) <-> exists t dm, In (t, dm) maps /\ In d (owned dm).
Proof.
  intros. unfold all_owned. rewrite in_concat. split.
  - intros [r [Hr Hd]]. apply in_map_iff in Hr. destruct Hr as [[t dm] [<- H]]. eauto.
  - intros (t & dm & H & Hd). exists (owned dm). split; auto. apply in_map_iff. exists (t, dm); auto.
Qed.

(** ** The loops. *)
Section Loops.
Variable m : fmesh.
Variable nc : nat.
Variable is_overlap : bool.
Variable ct : list nat.
Variable inter : list (nat * list (nat * list nat)).
Hypothesis Hnc : 0 < nc.
Let N := f_ndof m * nc.
Definition tdofs (t : nat) : list nat := expand_dofs nc (concat (map (f_econn m) (cells_of ct t))).
Definition efdofs (f : nat) : list nat := expand_dofs nc (f_fdofs m f).
(** [d] is on an interface facet of the task [t]. *)
Definition on_inter (t d : nat) : Prop := exists x f, In f (get2 inter t x) /\ In d (efdofs f).
Hypothesis Hinter : nested_ok inter.
Hypothesis Hsym : forall a b, get2 inter a b = get2 inter b a.
(** the rows of the facets contain their DOFs, for the cell in each task *)
Hypothesis Hrow : forall a b f d, In f (get2 inter a b) ->
  (In d (f_frow m (cell_in m ct a f) f) <-> In d (f_fdofs m f)).
Hypothesis Hfd : forall a b f d, In f (get2 inter a b) -> In d (efdofs f) -> In d (tdofs a).
Hypothesis Hb : forall t d, In d (tdofs t) -> d < N.
(** DOFs and vertices: cells with a DOF of a facet have a vertex of it *)
Hypothesis Hv : forall f c d, In d (f_fdofs m f) -> c < f_ncell m -> In d (f_econn m c) ->
  exists v, In v (f_fverts m f) /\ In v (f_cverts m c).
(** shared DOFs are on interfaces *)
Hypothesis Hsh : forall t t' d, t <> t' -> In d (tdofs t) -> In d (tdofs t') -> on_inter t d.

(** All cells containing the DOF are in [cs]. *)
Definition covered (d : nat) (cs : list nat) : Prop :=
  forall c, c < f_ncell m -> In (d / nc) (f_econn m c) -> In c cs.

Definition inv (done : list nat) (st : list nat * list (nat * dmap)) : Prop :=
  let '(idm, maps) := st in
  NoDup (map fst maps) /\ length idm = N /\ NoDup (all_owned maps) /\
  (forall d, d < N -> (nth d idm 1 = 0 <-> ~ In d (all_owned maps))) /\
  (forall t dm, In (t, dm) maps ->
     In t (map fst inter) /\ d_n dm = length (owned dm) /\
     (forall d, In d (owned dm) -> In d (tdofs t)) /\
     (forall d, In d (concat (d_inter dm)) -> on_inter t d /\
                (is_overlap = true -> covered d (concat (d_ovl dm)))) /\
     (In t done <-> d_inner dm <> None) /\
     (forall l, d_inner dm = Some l -> sinc l /\ forall d, In d l -> ~ on_inter t d)) /\
  (forall t d, In t done -> In d (tdofs t) -> In d (all_owned maps)) /\
  (forall t, In t done -> In t (map fst maps)).

Lemma inv_bound : forall done st d, inv done st -> In d (all_owned (snd st)) -> d < N.
Proof.
  intros done [idm maps] d (_ & _ & _ & _ & H & _) Hd. simpl in Hd.
  apply all_owned_In in Hd. destruct Hd as (t & dm & Hi & Hd).
  apply (Hb t). apply (H _ _ Hi); auto.
Qed.

Lemma inv_setdefault : forall done idm maps t, inv done (idm, maps) -> In t (map fst inter) -> 
  (In t (map fst maps) \/ ~ In t done) ->
  inv done (idm, setdefault maps t dm0).
Proof.
  intros done idm maps t (I1 & I2 & I3 & I4 & I5 & I6 & I7) Ht Hd.
  assert (P := @all_owned_setdefault maps t I1).
  split; [apply setdefault_NoDup; auto|]. split; auto.
  split; [eapply Permutation_NoDup; [symmetry; exact P|auto]|].
  split. { intros d Hd'. rewrite (I4 d Hd'). split; intros H F; apply H; [rewrite <- P|rewrite P]; auto. }
  split.
  { intros t' dm Hin. unfold setdefault in Hin. destruct (aget maps t) eqn:E; [apply I5; auto|].
    apply in_aget in Hin; [|apply aset_NoDup; auto]. rewrite aget_aset in Hin.
    destruct (Nat.eqb_spec t' t) as [->|].
    - inversion Hin; subst. split; auto. simpl. split; auto. split; [intros d []|].
      split; [intros d []|]. split; [|intros; discriminate].
      split; [|congruence]. intros Hdo. destruct Hd as [Hd|Hd]; [|contradiction].
      apply aget_none in E. contradiction.
    - apply I5. apply aget_in; auto. }
  split.
  { intros t' d H1 H2. rewrite P. eapply I6; eauto. }
  intros t' H. apply setdefault_keys; auto.
Qed.

Lemma NoDup_app_l : forall A (a b : list A), NoDup a -> NoDup b ->
  (forall x, In x a -> ~ In x b) -> NoDup (a ++ b).
Proof.
  induction a as [|y a IH]; intros b Na Nb D; simpl; auto. inversion Na; subst. constructor.
  - rewrite in_app_iff. intros [?|?]; auto. apply (D y); simpl; auto.
  - apply IH; auto. intros; apply D; simpl; auto.
Qed.
(** Giving unowned DOFs [new] to a task. *)
Lemma inv_claim : forall done done' idm maps t dm dm' new, inv done (idm, maps) ->
  aget maps t = Some dm -> NoDup new ->
  (forall d, In d new -> In d (tdofs t) /\ ~ In d (all_owned maps)) ->
  Permutation (owned dm') (new ++ owned dm) -> d_n dm' = d_n dm + length new ->
  (forall d, In d (concat (d_inter dm')) -> on_inter t d /\
                (is_overlap = true -> covered d (concat (d_ovl dm')))) ->
  (forall t', In t' done' <-> In t' done \/ (t' = t /\ d_inner dm' <> None)) ->
  (d_inner dm <> None -> d_inner dm' <> None) ->
  (forall l, d_inner dm' = Some l -> sinc l /\ forall d, In d l -> ~ on_inter t d) ->
  (In t done' -> forall d, In d (tdofs t) -> In d new \/ In d (all_owned maps)) ->
  inv done' (put1 idm new 1, aset maps t dm').
Proof.
  intros done done' idm maps t dm dm' new HI Et Nn Hnew Po Hn Hint Hdone Hmono Hinner Hall.
  destruct HI as (I1 & I2 & I3 & I4 & I5 & I6 & I7).
  assert (Hin := aget_in _ _ Et). destruct (I5 _ _ Hin) as (J1 & J2 & J3 & J4 & J5 & J6).
  assert (Pm : Permutation (all_owned (aset maps t dm')) (new ++ all_owned maps)).
  { apply all_owned_aset; auto. unfold get_or. rewrite Et. auto. }
  split; [apply aset_NoDup; auto|]. split; [rewrite length_put1; auto|].
  split. { eapply Permutation_NoDup; [symmetry; exact Pm|]. apply NoDup_app_l; auto. intros; apply Hnew; auto. }
  split.
  { intros d Hd. rewrite nth_put1 by (rewrite I2; auto).
    rewrite Pm, in_app_iff. destruct (in_dec Nat.eq_dec d new).
    - split; [discriminate|]. intros F. exfalso. apply F; auto.
    - rewrite I4 by auto. tauto. }
  split.
  { intros t' e He. apply in_aget in He; [|apply aset_NoDup; auto]. rewrite aget_aset in He.
    destruct (Nat.eqb_spec t' t) as [->|Hne].
    - inversion He; subst e; clear He. split; auto.
      split; [rewrite (Permutation_length Po), app_length, Hn, J2; lia|].
      split. { intros d Hd. rewrite Po, in_app_iff in Hd. destruct Hd; [apply Hnew; auto|auto]. }
      split; auto. split; auto. rewrite Hdone. split; [|auto].
      intros [H|H]; [|tauto]. apply Hmono. apply J5; auto.
    - apply aget_in in He. destruct (I5 _ _ He) as (K1 & K2 & K3 & K4 & K5 & K6).
      repeat (split; auto). intros H. apply Hdone in H. apply K5. destruct H as [|[? _]]; auto. congruence.
      intros H. apply Hdone. left. apply K5; auto. }
  split.
  { intros t' d Ht' Hd. rewrite Pm, in_app_iff. destruct (Nat.eq_dec t' t) as [->|Hne].
    - apply Hall; auto.
    - right. apply Hdone in Ht'. destruct Ht' as [Ht'|[? _]]; [|congruence]. eapply I6; eauto. }
  intros t' Ht'. apply aset_keys. apply Hdone in Ht'. destruct Ht' as [H|[-> _]]; auto.
Qed.

Lemma in_concat_skip : forall A B (f : A -> list B) l x, In x (concat (map f l)) <-> exists a, In a l /\ In x (f a).
Proof.
  intros. rewrite in_concat. split.
  - intros [r [Hr Hx]]. apply in_map_iff in Hr. destruct Hr as [a [<- Ha]]. eauto.
  - intros [a [Ha Hx]]. exists (f a). split; auto. apply in_map; auto.
Qed.
Lemma cells_around_covered : forall facets f d, In f facets -> In d (efdofs f) ->
  covered d (cells_around m facets).
Proof.
  intros facets f d Hf Hd c Hc Hcd. apply expand_In in Hd; auto.
  destruct (@Hv f c _ Hd Hc Hcd) as [v [H1 H2]].
  unfold cells_around. apply in_concat_skip. exists v. split.
  - apply in_concat_skip. eauto.
  - apply filter_In. split; [apply in_seq; lia|apply memb_In; auto].
Qed.
Lemma inv_half : forall done idm maps t rows facets x, inv done (idm, maps) ->
  In t (map fst maps) ->
  (forall f, In f facets -> In f (get2 inter t x)) ->
  (forall d, In d (concat rows) -> exists f, In f facets /\ In d (f_fdofs m f)) ->
  let st' := half_step m nc is_overlap t rows facets (idm, maps) in
  inv done st' /\ (forall t', In t' (map fst maps) -> In t' (map fst (snd st'))) /\
  (forall d, In d (all_owned maps) -> In d (all_owned (snd st'))) /\
  (forall d, In d (expand_dofs nc (concat rows)) -> In d (all_owned (snd st'))).
Proof.
  intros done idm maps t rows facets x HI Ht Hf Hr. 
  assert (HI' := HI). destruct HI' as (I1 & I2 & I3 & I4 & I5 & I6 & I7).
  unfold half_step. set (dr := expand_dofs nc (unique (concat rows))).
  assert (Hdr : forall d, In d dr <-> In d (expand_dofs nc (concat rows))).
  { intros d. unfold dr. rewrite !expand_In by auto. apply unique_In. }
  assert (Hdr2 : forall d, In d dr -> exists f, In f facets /\ In d (efdofs f)).
  { intros d H. apply Hdr in H. apply expand_In in H; auto. destruct (Hr _ H) as [f [H1 H2]].
    exists f. split; auto. apply expand_In; auto. }
  assert (HdN : forall d, In d dr -> In d (tdofs t)).
  { intros d H. destruct (Hdr2 d H) as [f [H1 H2]]. eapply Hfd; eauto. }
  assert (Ndr : NoDup dr) by (apply expand_NoDup; auto; apply sinc_NoDup, unique_sinc).
  set (new := filter (fun d => nth d idm 1 =? 0) dr).
  assert (Hnew : forall d, In d new <-> In d dr /\ ~ In d (all_owned maps)).
  { intros d. unfold new. rewrite filter_In. split; intros [H1 H2]; split; auto.
    - apply Nat.eqb_eq in H2. apply I4; eauto.
    - apply Nat.eqb_eq. apply I4; eauto. }
  destruct (Nat.eqb_spec (length new) 0) as [E|E].
  { simpl. split; auto. split; auto. split; auto. intros d Hd. apply Hdr in Hd.
    destruct (in_dec Nat.eq_dec d (all_owned maps)) as [|Hn]; auto.
    assert (In d new) by (apply Hnew; auto). destruct new; [contradiction|discriminate]. }
  assert (Et : exists dm, aget maps t = Some dm) by (apply aget_key; auto).
  destruct Et as [dm Edm]. assert (Hin := aget_in _ _ Edm).
  unfold get_or. rewrite Edm.
  set (dm' := mkdm _ _ _ _ _).
  assert (Po : Permutation (owned dm') (new ++ owned dm)).
  { unfold dm', owned. simpl. rewrite concat_app. simpl. rewrite app_nil_r, app_assoc. apply Permutation_app_comm. }
  assert (Pm : Permutation (all_owned (aset maps t dm')) (new ++ all_owned maps)).
  { apply all_owned_aset; auto. unfold get_or. rewrite Edm. auto. }
  simpl. destruct (I5 _ _ Hin) as (J1 & J2 & J3 & J4 & J5 & J6).
  split; [|split; [|split]].
  - apply inv_claim with (done := done) (dm := dm); auto.
    + apply NoDup_filter; auto.
    + intros d Hd. apply Hnew in Hd. split; [apply HdN|]; tauto.
    + intros d Hd. unfold dm' in *; simpl in *. rewrite concat_app, in_app_iff in Hd. simpl in Hd.
      rewrite app_nil_r in Hd. destruct Hd as [Hd|Hd].
      * destruct (J4 d Hd) as [K1 K2]. split; auto. intros Ho. rewrite Ho.
        intros c Hc Hcd. rewrite concat_app, in_app_iff. left. apply (K2 Ho c); auto.
      * apply Hnew in Hd. destruct Hd as [Hd _]. destruct (Hdr2 d Hd) as [f [F1 F2]].
        split; [exists x, f; auto|]. intros Ho. rewrite Ho.
        intros c Hc Hcd. rewrite concat_app, in_app_iff. right. simpl. rewrite app_nil_r.
        apply (@cells_around_covered _ _ _ F1 F2); auto.
    + intros t'. split; auto. intros [H|[-> H]]; auto. apply J5. exact H.
    + intros Hd d Hdd. right. eapply I6; eauto.
  - intros t' H. apply aset_keys; auto.
  - intros d Hd. rewrite Pm. apply in_app_iff; auto.
  - intros d Hd. apply Hdr in Hd. rewrite Pm. apply in_app_iff.
    destruct (in_dec Nat.eq_dec d (all_owned maps)); auto. left. apply Hnew; auto.
Qed.

Lemma in_map_firstn : forall A B (f : A -> B) n l, firstn n (map f l) = map f (firstn n l).
Proof. intros. apply firstn_map. Qed.
Lemma in_map_skipn : forall A B (f : A -> B) n l, skipn n (map f l) = map f (skipn n l).
Proof. intros. apply skipn_map. Qed.
Lemma in_firstn : forall A (l : list A) n x, In x (firstn n l) -> In x l.
Proof. intros. rewrite <- (firstn_skipn n l). apply in_app_iff; auto. Qed.
Lemma in_skipn : forall A (l : list A) n x, In x (skipn n l) -> In x l.
Proof. intros. rewrite <- (firstn_skipn n l). apply in_app_iff; auto. Qed.

Lemma inv_pair : forall done st ir ic, inv done st ->
  In ir (map fst (snd st)) -> get2 inter ir ic <> [] ->
  (forall t, In t done -> In t (map fst (snd st))) ->
  let st' := pair_step m nc is_overlap ct ir st (ic, get2 inter ir ic) in
  inv done st' /\ (forall t', In t' (map fst (snd st)) -> In t' (map fst (snd st'))) /\
  (forall d, In d (all_owned (snd st)) -> In d (all_owned (snd st'))) /\
  (forall f d, In f (get2 inter ir ic) -> In d (efdofs f) -> In d (all_owned (snd st'))) /\
  In ic (map fst (snd st')).
Proof.
  intros done [idm maps] ir ic HI Hir Hne Hdone. unfold pair_step.
  set (facets := get2 inter ir ic) in *.
  set (rows := map (fun f => f_frow m (cell_in m ct ir f) f) facets).
  set (n2 := Nat.max (length rows / 2) 1).
  simpl in Hir, Hdone.
  assert (Hic : In ic (map fst inter)).
  { apply (proj2 (proj2 Hinter)). exists ir. rewrite Hsym. auto. }
  assert (HI1 : inv done (idm, setdefault maps ic dm0)).
  { apply inv_setdefault; auto. destruct (in_dec Nat.eq_dec ic (map fst maps)); auto. }
  assert (Hrows : forall f d, In f facets -> In d (f_frow m (cell_in m ct ir f) f) -> In d (f_fdofs m f)).
  { intros f d Hf Hd. apply (Hrow ir ic); auto. }
  destruct (@inv_half done idm (setdefault maps ic dm0) ir (firstn n2 rows) (firstn n2 facets) ic)
    as (A1 & A2 & A3 & A4); auto.
  { apply setdefault_keys; auto. }
  { intros f Hf. apply in_firstn in Hf. auto. }
  { intros d Hd. unfold rows in Hd. rewrite in_map_firstn in Hd. apply in_concat_skip in Hd.
    destruct Hd as [f [H1 H2]]. exists f. split; auto. apply Hrows; auto. eapply in_firstn; eauto. }
  destruct (half_step m nc is_overlap ir (firstn n2 rows) (firstn n2 facets) (idm, setdefault maps ic dm0))
    as [idm1 maps1] eqn:E1. simpl in A2, A3, A4.
  destruct (@inv_half done idm1 maps1 ic (skipn n2 rows) (skipn n2 facets) ir)
    as (B1 & B2 & B3 & B4); auto.
  { apply A2. apply setdefault_keys; auto. }
  { intros f Hf. apply in_skipn in Hf. rewrite Hsym. auto. }
  { intros d Hd. unfold rows in Hd. rewrite in_map_skipn in Hd. apply in_concat_skip in Hd.
    destruct Hd as [f [H1 H2]]. exists f. split; auto. apply Hrows; auto. eapply in_skipn; eauto. }
  simpl. split; auto. split; [intros t' H; apply B2, A2, setdefault_keys; auto|].
  split. { intros d Hd. apply B3, A3.
    destruct HI as (I1 & _). rewrite (@all_owned_setdefault maps ic I1). auto. }
  split; [|apply B2, A2, setdefault_keys; auto].
  intros f d Hf Hd. apply expand_In in Hd; auto. apply (@Hrow ir ic _ _ Hf) in Hd.
  assert (Hd' : In (d / nc) (concat rows)) by (apply in_concat_skip; eauto).
  rewrite <- (firstn_skipn n2 rows) in Hd'. rewrite concat_app, in_app_iff in Hd'.
  destruct Hd' as [Hd'|Hd'].
  - apply B3, A4, expand_In; auto.
  - apply B4, expand_In; auto.
Qed.

Lemma inv_pairs : forall done ir items st, inv done st ->
  In ir (map fst (snd st)) ->
  (forall ic fs, In (ic, fs) items -> fs = get2 inter ir ic /\ fs <> []) ->
  let st' := fold_left (pair_step m nc is_overlap ct ir) items st in
  inv done st' /\ (forall t', In t' (map fst (snd st)) -> In t' (map fst (snd st'))) /\
  (forall d, In d (all_owned (snd st)) -> In d (all_owned (snd st'))) /\
  (forall ic fs f d, In (ic, fs) items -> In f fs -> In d (efdofs f) -> In d (all_owned (snd st'))) /\
  (forall ic fs, In (ic, fs) items -> In ic (map fst (snd st'))).
Proof.
  intros done ir. induction items as [|[ic fs] items IH]; intros st HI Hir Hit; simpl.
  - repeat split; auto; intros; contradiction.
  - destruct (Hit ic fs (or_introl eq_refl)) as [-> Hne].
    destruct (@inv_pair done st ir ic HI Hir Hne) as (A1 & A2 & A3 & A4 & A5).
    { destruct st as [idm maps]. apply HI. }
    destruct (IH (pair_step m nc is_overlap ct ir st (ic, get2 inter ir ic)) A1 (A2 _ Hir))
      as (B1 & B2 & B3 & B4 & B5).
    { intros; apply Hit; simpl; auto. }
    split; auto. split; auto. split; auto. split.
    + intros ic' fs' f d [H|H] Hf Hd; [|eauto]. inversion H; subst. apply B3. eauto.
    + intros ic' fs' [H|H]; [|eauto]. inversion H; subst. auto.
Qed.

Lemma task_ok : forall done st ir nt, inv done st -> aget inter ir = Some nt -> ~ In ir done ->
  exists st', task_step m nc is_overlap ct st (ir, nt) = Ok st' /\ inv (ir :: done) st' /\
    (forall t', In t' (map fst (snd st)) -> In t' (map fst (snd st'))) /\
    (forall x, get2 inter ir x <> [] -> In x (map fst (snd st'))).
Proof.
  intros done [idm maps] ir nt HI Ent Hnd. unfold task_step.
  assert (Hir : In ir (map fst inter)) by (apply aget_key; eauto).
  assert (HI0 : inv done (idm, setdefault maps ir dm0)) by (apply inv_setdefault; auto).
  assert (Hnt := proj1 (proj2 Hinter) ir nt Ent). destruct Hnt as [Nnt Hnt].
  assert (Hitems : forall ic fs, In (ic, fs) (ordered_items nt []) <-> fs = get2 inter ir ic /\ fs <> []).
  { intros ic fs. rewrite ordered_items_in, Hnt.
    assert (E : get2 inter ir ic = get_or nt ic []) by (unfold get2, get_or at 2; rewrite Ent; auto).
    rewrite <- E. split; [intros [H1 ->]|intros [-> H1]]; auto. }
  destruct (@inv_pairs done ir (ordered_items nt []) (idm, setdefault maps ir dm0) HI0) as (A1 & A2 & A3 & A4 & A5).
  { simpl. apply setdefault_keys; auto. }
  { intros ic fs H. apply Hitems; auto. }
  destruct (fold_left (pair_step m nc is_overlap ct ir) (ordered_items nt []) (idm, setdefault maps ir dm0))
    as [idm1 maps1] eqn:Ef. simpl in A2, A3, A4, A5.
  set (idofs := concat (map (fun nf => expand_dofs nc (concat (map (f_fdofs m) (snd nf)))) (ordered_items nt []))).
  assert (Hid : forall d, In d idofs <-> on_inter ir d).
  { intros d. unfold idofs. rewrite in_concat_skip. split.
    - intros [[ic fs] [H1 H2]]. simpl in H2. apply expand_In in H2; auto. apply in_concat_skip in H2.
      destruct H2 as [f [H3 H4]]. apply Hitems in H1. destruct H1 as [-> _].
      exists ic, f. split; auto. apply expand_In; auto.
    - intros [x [f [H1 H2]]]. exists (x, get2 inter ir x). split.
      + apply Hitems. split; auto. intros F. rewrite F in H1. destruct H1.
      + simpl. apply expand_In; auto. apply in_concat_skip. exists f. split; auto. apply expand_In in H2; auto. }
  fold (tdofs ir). set (inner := setdiff1d (tdofs ir) idofs).
  assert (Hinner : forall d, In d inner <-> In d (tdofs ir) /\ ~ on_inter ir d).
  { intros d. unfold inner. rewrite setdiff1d_In, Hid. reflexivity. }
  assert (A1' := A1). destruct A1' as (I1 & I2 & I3 & I4 & I5 & I6 & I7).
  assert (Hun : forall d, In d inner -> ~ In d (all_owned maps1)).
  { intros d Hd Ho. apply Hinner in Hd. destruct Hd as [Hd Hni].
    apply all_owned_In in Ho. destruct Ho as (t & dm & Hin & Hdm).
    destruct (I5 _ _ Hin) as (J1 & J2 & J3 & J4 & J5 & J6).
    destruct (Nat.eq_dec t ir) as [->|Hne].
    - unfold owned in Hdm. destruct (d_inner dm) eqn:Ei.
      + apply Hnd. apply J5. discriminate.
      + simpl in Hdm. apply Hni. apply J4; auto.
    - apply Hni. apply (Hsh (t := ir) (t' := t)); auto. }
  assert (Hass : forallb (fun d => nth d idm1 1 =? 0) inner = true).
  { apply forallb_forall. intros d Hd. apply Nat.eqb_eq. apply I4; auto.
    apply Hinner in Hd. eapply Hb; apply Hd. }
  rewrite Hass. simpl.
  assert (Et : exists dm, aget maps1 ir = Some dm) by (apply aget_key; apply A2, setdefault_keys; auto).
  destruct Et as [dm Edm]. unfold get_or. rewrite Edm.
  eexists. split; [reflexivity|].
  assert (Hin := aget_in _ _ Edm). destruct (I5 _ _ Hin) as (J1 & J2 & J3 & J4 & J5 & J6).
  assert (Ei : d_inner dm = None).
  { destruct (d_inner dm) eqn:Ei; auto. exfalso. apply Hnd. apply J5. discriminate. }
  split.
  - apply inv_claim with (done := done) (dm := dm); auto; simpl.
    + apply sinc_NoDup. apply setdiff1d_sinc.
    + intros d Hd. split; [apply Hinner; auto|auto].
    + unfold owned. simpl. rewrite Ei. reflexivity.
    + intros t'. split; [intros [->|]; auto; right; split; auto; discriminate|intros [|[-> _]]; auto].
    + intros l E. inversion E; subst l. split; [apply setdiff1d_sinc|]. intros d Hd. apply Hinner; auto.
    + intros _ d Hd. destruct (in_dec Nat.eq_dec d inner) as [|Hn]; auto. right.
      destruct (in_dec Nat.eq_dec d idofs) as [Hi|Hi].
      * apply in_concat_skip in Hi. destruct Hi as [[ic fs] [H1 H2]]. simpl in H2.
        apply expand_In in H2; auto. apply in_concat_skip in H2. destruct H2 as [f [H3 H4]].
        apply (A4 ic fs f); auto. apply expand_In; auto.
      * exfalso. apply Hn. apply Hinner. split; auto. rewrite <- Hid. auto.
  - simpl. split.
    + intros t' H. apply aset_keys. right. apply A2. apply setdefault_keys; auto.
    + intros x Hx. apply aset_keys. right. apply (A5 x (get2 inter ir x)). apply Hitems; auto.
Qed.

Lemma tasks_ok : forall items done st, inv done st ->
  (forall t nt, In (t, nt) items -> aget inter t = Some nt) -> NoDup (map fst items) ->
  (forall t, In t (map fst items) -> ~ In t done) ->
  exists st', tasks_loop m nc is_overlap ct items st = Ok st' /\
    inv (rev (map fst items) ++ done) st' /\
    (forall t', In t' (map fst (snd st)) -> In t' (map fst (snd st'))).
Proof.
  induction items as [|[t nt] items IH]; intros done st HI Hit Nd Hnd; cbn [tasks_loop map fst rev].
  - simpl. eauto.
  - inversion Nd; subst.
    destruct (@task_ok done st t nt HI) as (st1 & E1 & HI1 & K1 & K2).
    + apply Hit; simpl; auto.
    + apply Hnd; simpl; auto.
    + rewrite E1. simpl. destruct (IH (t :: done) st1 HI1) as (st' & E & HI' & K'); auto.
      * intros; apply Hit; simpl; auto.
      * intros t' H' [->|F]; [apply H1; auto|]. apply (Hnd t'); simpl; auto.
      * exists st'. rewrite <- app_assoc. simpl. auto.
Qed.
End Loops.

(** ** Numbering. *)
Lemma put_app : forall A (a b : list nat) (xs ys l : list A), length xs = length a ->
  put l (a ++ b) (xs ++ ys) = put (put l a xs) b ys.
Proof.
  induction a as [|i a IH]; intros b [|x xs] ys l H; simpl in *; try discriminate; auto.
Qed.
Lemma number_inter_spec : forall auxs idm start,
  number_inter idm start auxs =
  (put idm (concat auxs) (seq start (length (concat auxs))), start + length (concat auxs)).
Proof.
  induction auxs as [|a auxs IH]; intros idm start; simpl.
  - f_equal; lia.
  - rewrite IH, app_length. f_equal; [|lia]. rewrite seq_app, put_app; auto. apply seq_length.
Qed.
Fixpoint offsets (items : list (nat * dmap)) (off : nat) : list (nat * dmap) :=
  match items with
  | [] => []
  | (t, dm) :: r => (t, mkdm (d_inner dm) (d_inter dm) (d_ovl dm) (d_n dm) off) :: offsets r (off + d_n dm)
  end.
Lemma number_loop_spec : forall items idm off,
  (forall t dm, In (t, dm) items -> d_inner dm <> None /\ d_n dm = length (owned dm)) ->
  number_loop items idm off =
  Ok (offsets items off, put idm (all_owned items) (seq off (length (all_owned items))),
      map (fun kv => unique (concat (d_ovl (snd kv)))) items).
Proof.
  induction items as [|[t dm] items IH]; intros idm off H; [reflexivity|].
  destruct (H t dm (or_introl eq_refl)) as [H1 H2]. cbn [number_loop].
  destruct (d_inner dm) as [inner|] eqn:E; [|congruence].
  rewrite number_inter_spec.
  assert (Eo : owned dm = inner ++ concat (d_inter dm)) by (unfold owned; rewrite E; auto).
  assert (En : d_n dm = length inner + length (concat (d_inter dm))) by (rewrite H2, Eo, app_length; auto).
  replace (off + length inner + length (concat (d_inter dm)) - off =? d_n dm) with true
    by (symmetry; apply Nat.eqb_eq; lia).
  cbn [negb]. rewrite IH by (intros t' dm' H'; apply (H t' dm'); simpl; auto). cbn [bind offsets]. rewrite E.
  assert (Ep : put (put idm inner (seq off (length inner))) (concat (d_inter dm))
            (seq (off + length inner) (length (concat (d_inter dm)))) = put idm (owned dm) (seq off (length (owned dm)))).
  { rewrite Eo, app_length, seq_app, put_app; auto. apply seq_length. }
  unfold all_owned. cbn [map concat snd]. rewrite app_length, seq_app, put_app by (rewrite seq_length; auto).
  rewrite <- Ep, <- H2. reflexivity.
Qed.
Lemma offsets_owned : forall items off, all_owned (offsets items off) = all_owned items.
Proof.
  induction items as [|[t dm] items IH]; intros off; [reflexivity|].
  unfold all_owned in *. simpl. rewrite IH. reflexivity.
Qed.
Lemma offsets_keys : forall items off, map fst (offsets items off) = map fst items.
Proof. induction items as [|[t dm] items IH]; intros off; simpl; f_equal; auto. Qed.
Lemma offsets_nth : forall items off k t dm, nth_error (offsets items off) k = Some (t, dm) ->
  exists dm', nth_error items k = Some (t, dm') /\ d_inner dm = d_inner dm' /\ d_inter dm = d_inter dm' /\
    d_ovl dm = d_ovl dm' /\ d_n dm = d_n dm' /\
    d_off dm = off + list_sum (map (fun kv => d_n (snd kv)) (firstn k items)).
Proof.
  induction items as [|[t' dm'] items IH]; intros off [|k] t dm H; simpl in H; try discriminate.
  - inversion H; subst. exists dm'. simpl. repeat split; auto; lia.
  - apply IH in H. destruct H as (e & H1 & H2 & H3 & H4 & H5 & H6). exists e. simpl.
    change (fold_right Nat.add 0) with list_sum. repeat split; auto; lia.
Qed.
