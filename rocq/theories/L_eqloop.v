(** What the loop over conditions of map_equations computes. *)
From Coq Require Import String Relations.
From Verif Require Import Base M_dofs S_dofs S_eqmap L_expand L_chains L_epbc.
Open Scope nat_scope.

Lemma index_at_pos : forall d names p, index_of d names = Ok p <-> at_pos names d p.
Proof. intros. apply index_of_spec. Qed.

Section Loop.
Variable V : Type.
Variable vzero : V.
Variable junk : nat.
Variable names : list string.

Definition exp_ (nods : list nat) (dofs : list string) : list nat :=
  match expand_nodes_to_equations junk nods dofs names with Ok eq => eq | Err _ => [] end.

Definition bc_eq (bc : bcond V) : list nat :=
  match bc with Ebc true rnods dofs _ => exp_ (unique rnods) dofs | _ => [] end.

Definition bc_vals (bc : bcond V) : list V :=
  match bc with
  | Ebc true rnods dofs (Some vs) =>
      match broadcast (length (exp_ (unique rnods) dofs)) vs with Ok v => v | Err _ => [] end
  | _ => []
  end.

Definition bc_pairs (bc : bcond V) : list (nat * nat) :=
  match bc with
  | Epbc true mnods snods i1 i2 d0 d1 =>
      if length mnods =? 0 then [] else
      combine (exp_ (take 0 (unique mnods) i1) d0) (exp_ (take 0 (unique snods) i2) d1)
  | _ => []
  end.

(** The condition was processed without an exception. *)
Definition bc_ok (n : nat) (bc : bcond V) : Prop :=
  match bc with
  | Ebc true rnods dofs vals =>
      rnods = [] \/
      (exists eq, expand_nodes_to_equations junk (unique rnods) dofs names = Ok eq /\
        (forall x, In x eq -> x < n) /\
        match vals with None => True | Some vs => length vs = length eq \/ length vs = 1 end)
  | Epbc true mnods snods i1 i2 d0 d1 =>
      mnods = [] \/
      (exists meq sq,
        expand_nodes_to_equations junk (take 0 (unique mnods) i1) d0 names = Ok meq /\
        expand_nodes_to_equations junk (take 0 (unique snods) i2) d1 names = Ok sq /\
        length meq = length sq /\ (forall x, In x (meq ++ sq) -> x < n) /\
        (forall i, In i i1 -> i < length (unique mnods)) /\
        (forall i, In i i2 -> i < length (unique snods)))
  | _ => True
  end.

Lemma inrange_spec : forall n l, inrange n l = true <-> forall x, In x l -> x < n.
Proof.
  intros. unfold inrange. rewrite forallb_forall. split; intros H x Hx; specialize (H x Hx).
  - apply Nat.ltb_lt; auto. - apply Nat.ltb_lt; auto.
Qed.

Lemma expand_nil : forall dofs eq, expand_nodes_to_equations junk [] dofs names = Ok eq -> eq = [].
Proof.
  intros dofs eq H. apply expand_spec in H. destruct H as [H _]. simpl in H.
  destruct eq; auto; discriminate.
Qed.

Lemma exp_nil : forall dofs, exp_ [] dofs = [].
Proof.
  intros. unfold exp_. destruct (expand_nodes_to_equations junk [] dofs names) eqn:E; auto.
  eapply expand_nil; eauto.
Qed.

Lemma unzip_fst : forall A B (a : list A) (b : list B), length a = length b -> map fst (combine a b) = a.
Proof.
  induction a as [|x a IH]; intros [|y b] H; simpl in *; try lia; auto. f_equal; auto.
Qed.
Lemma unzip_snd : forall A B (a : list A) (b : list B), length a = length b -> map snd (combine a b) = b.
Proof.
  induction a as [|x a IH]; intros [|y b] H; simpl in *; try lia; auto. f_equal; auto.
Qed.

Lemma map_step_spec : forall st bc st', map_step junk names st bc = Ok st' ->
  bc_ok (length (m_flag st)) bc /\
  m_flag st' = put1 (m_flag st) (bc_eq bc) true /\
  m_val st' = put (m_val st) (bc_eq bc) (bc_vals bc) /\
  (m_ms st', m_ch st') = epbc_register (m_ms st) (m_ch st) (map fst (bc_pairs bc)) (map snd (bc_pairs bc)).
Proof.
  intros st bc st' H.
  assert (Hid : forall (X : list V) l, put X l [] = X) by (intros X [|]; auto).
  destruct bc as [act rnods dofs vals|act mnods snods i1 i2 d0 d1]; cbn [map_step] in H;
    destruct act; cbn [negb] in H; cbn [bc_ok bc_eq bc_vals bc_pairs map].
  - destruct (Nat.eqb_spec (length rnods) 0) as [E0|E0].
    + injection H as <-. destruct rnods; [|discriminate]. split; [left; auto|].
      simpl. rewrite exp_nil. cbn.
      auto.
    + destruct (expand_nodes_to_equations junk (unique rnods) dofs names) as [eq|] eqn:Ee; [|discriminate].
      cbn [bind] in H. destruct (inrange (length (m_flag st)) eq) eqn:Er; [|discriminate].
      cbn [negb] in H. rewrite inrange_spec in Er.
      unfold exp_. rewrite Ee. destruct vals as [vs|].
      * destruct (broadcast (length eq) vs) as [vs'|] eqn:Eb; [|discriminate].
        injection H as <-. cbn. split; [|auto]. right. exists eq. repeat split; auto.
        unfold broadcast in Eb. destruct (Nat.eqb_spec (length vs) (length eq)); auto.
        destruct vs as [|v [|]]; try discriminate. auto.
      * injection H as <-. cbn. rewrite Hid. split; auto. right. exists eq; auto.
  - injection H as <-. cbn. auto.
  - destruct (Nat.eqb_spec (length mnods) 0) as [E0|E0].
    + injection H as <-. destruct mnods; [|discriminate]. split; [left; auto|]. cbn. auto.
    + destruct (Nat.eqb_spec (length snods) 0) as [E1|E1]; [discriminate|].
      destruct (Nat.eqb_spec (length (unique mnods)) (length (unique snods))) as [E2|E2]; [|discriminate].
      cbn [negb] in H. unfold takeE in H.
      destruct (inrange (length (unique mnods)) i1) eqn:R1; [|discriminate]. cbn [bind] in H.
      destruct (inrange (length (unique snods)) i2) eqn:R2; [|discriminate]. cbn [bind] in H.
      destruct (expand_nodes_to_equations junk (take 0 (unique mnods) i1) d0 names) as [meq|] eqn:Em; [|discriminate].
      cbn [bind] in H.
      destruct (expand_nodes_to_equations junk (take 0 (unique snods) i2) d1 names) as [sq|] eqn:Es; [|discriminate].
      cbn [bind] in H.
      destruct (inrange (length (m_flag st)) meq && inrange (length (m_flag st)) sq) eqn:Er; [|discriminate].
      cbn [negb] in H. apply andb_true_iff in Er. rewrite !inrange_spec in Er.
      destruct (Nat.eqb_spec (length meq) (length sq)) as [El|El]; [|discriminate].
      cbn [negb] in H. rewrite inrange_spec in R1, R2.
      unfold exp_. rewrite Em, Es. rewrite unzip_fst, unzip_snd by auto.
      destruct (epbc_register (m_ms st) (m_ch st) meq sq) as [ms' ch'] eqn:Ep.
      injection H as <-. cbn. split; [|auto]. right. exists meq, sq.
      split; [auto|]. split; [auto|]. split; [auto|]. split; [|auto].
      intros x Hx. apply in_app_or in Hx. destruct Er as [Er1 Er2]. destruct Hx; auto.
  - injection H as <-. cbn. auto.
Qed.

Definition flags_of (n : nat) (bcs : list (bcond V)) : list bool :=
  fold_left (fun fl bc => put1 fl (bc_eq bc) true) bcs (repeat false n).
Definition vals_of (n : nat) (bcs : list (bcond V)) : list V :=
  fold_left (fun v bc => put v (bc_eq bc) (bc_vals bc)) bcs (repeat vzero n).

Lemma map_loop_spec : forall bcs st st', map_loop junk names st bcs = Ok st' ->
  (forall bc, In bc bcs -> bc_ok (length (m_flag st)) bc) /\
  m_flag st' = fold_left (fun fl bc => put1 fl (bc_eq bc) true) bcs (m_flag st) /\
  m_val st' = fold_left (fun v bc => put v (bc_eq bc) (bc_vals bc)) bcs (m_val st) /\
  (m_ms st', m_ch st') = reg_run (m_ms st, m_ch st) (map bc_pairs bcs).
Proof.
  induction bcs as [|bc bcs IH]; intros st st' H; cbn [map_loop] in H.
  - injection H as <-. split; [intros bc []|auto].
  - destruct (map_step junk names st bc) as [st1|] eqn:E; [|discriminate]. cbn [bind] in H.
    apply map_step_spec in E. destruct E as (E1 & E2 & E3 & E4).
    apply IH in H. destruct H as (H1 & H2 & H3 & H4).
    rewrite E2, length_put1 in H1. split; [|split; [|split]].
    + intros b [<-|Hb]; auto.
    + cbn [fold_left]. rewrite H2, E2. auto.
    + cbn [fold_left]. rewrite H3, E3. auto.
    + cbn [map]. unfold reg_run in *. cbn [fold_left fst snd]. rewrite <- E4. auto.
Qed.

(** ** Relation to the specification *)

Lemma bc_eq_fixes : forall n bc x, bc_ok n bc -> (In x (bc_eq bc) <-> fixes names bc x).
Proof.
  intros n bc x Hok. destruct bc as [[] rnods dofs vals|[] mnods snods i1 i2 d0 d1]; simpl; try tauto.
  destruct Hok as [->|(eq & He & Hb & Hv)].
  - simpl. rewrite exp_nil. simpl. split; [tauto|]. intros (m & d & p & [] & _).
  - unfold exp_. rewrite He. rewrite (expand_In _ _ _ _ He). split.
    + intros (m & d & p & H1 & H2 & H3 & H4). exists m, d, p. rewrite unique_In in H1.
      repeat split; auto; apply (index_at_pos d names p); auto.
    + intros (m & d & p & H1 & H2 & H3 & H4). exists m, d, p. rewrite unique_In.
      apply index_at_pos in H3. auto.
Qed.

Lemma bc_eq_bound : forall n bc x, bc_ok n bc -> In x (bc_eq bc) -> x < n.
Proof.
  intros n bc x Hok. destruct bc as [[] rnods dofs vals|[] mnods snods i1 i2 d0 d1]; simpl; try tauto.
  destruct Hok as [->|(eq & He & Hb & Hv)].
  - simpl. rewrite exp_nil. simpl; tauto.
  - unfold exp_. rewrite He. auto.
Qed.

Lemma bc_pairs_ends : forall n bc x, bc_ok n bc -> In x (ends (bc_pairs bc)) -> x < n.
Proof.
  intros n bc x Hok. destruct bc as [[] rnods dofs vals|[] mnods snods i1 i2 d0 d1]; simpl; try tauto.
  destruct Hok as [->|(meq & sq & Hm & Hs & Hl & Hb & _)]; simpl; [tauto|].
  destruct (length mnods =? 0); simpl; [tauto|].
  unfold exp_. rewrite Hm, Hs. unfold ends. rewrite unzip_fst, unzip_snd by auto. auto.
Qed.

Lemma unique_nil : forall l, unique l = [] -> l = [].
Proof.
  intros [|x l] H; auto. assert (In x (unique (x :: l))) by (apply unique_In; simpl; auto).
  rewrite H in H0. destruct H0.
Qed.

Lemma in_bc_pairs : forall n bc m s, bc_ok n bc -> wf_bc names bc ->
  (In (m, s) (bc_pairs bc) <-> ties names bc m s).
Proof.
  intros n bc m s Hok Hwf.
  destruct bc as [[] rnods dofs vals|[] mnods snods i1 i2 d0 d1]; simpl; try tauto.
  destruct Hwf as (W1 & W2 & W3 & W4 & W5 & W6 & W7).
  destruct Hok as [->|(meq & sq & Hm & Hs & Hl & Hb & B1 & B2)].
  - simpl. split; [tauto|]. intros (k & i & p & q & _ & _ & _ & _ & _ & _ & H & _). lia.
  - destruct (Nat.eqb_spec (length mnods) 0) as [E|E].
    { destruct mnods; [|discriminate]. simpl. split; [tauto|].
      intros (k & i & p & q & _ & _ & _ & _ & _ & _ & H & _). simpl in H; lia. }
    unfold exp_. rewrite Hm, Hs. rewrite (in_combine_nth meq sq m s 0 0) by auto.
    apply expand_spec in Hm. destruct Hm as [Lm Hm].
    apply expand_spec in Hs. destruct Hs as [Ls Hs].
    rewrite length_take in *. split.
    + intros (t & Ht & -> & ->). rewrite Lm in Ht.
      destruct (idx_decomp _ _ Ht) as (k & i & Hk & Hi & ->).
      destruct (Hm k i Hk Hi) as (p & Hp & Ev). rewrite W5 in Hk. rewrite W6 in Hi.
      destruct (Hs k i Hk Hi) as (q & Hq & Eu).
      rewrite nth_take in Ev, Eu by lia.
      exists k, i, p, q. apply index_at_pos in Hp. apply index_at_pos in Hq.
      split; [lia|]. split; [lia|]. split; [lia|]. split; [lia|].
      split; [auto|]. split; [auto|]. split; [apply B1, nth_In; lia|].
      rewrite <- W6 in Eu. auto.
    + intros (k & i & p & q & H1 & H2 & H3 & H4 & H5 & H6 & H7 & H8 & H9).
      destruct (Hm k i H1 H3) as (p' & Hp & Ev). destruct (Hs k i H2 H4) as (q' & Hq & Eu).
      apply index_at_pos in H5. apply index_at_pos in H6.
      assert (p' = p) by congruence. assert (q' = q) by congruence. subst p' q'.
      rewrite nth_take in Ev, Eu by lia.
      exists (k * length d0 + i). rewrite Lm. split; [nia|]. rewrite <- W6 in Eu. split; congruence.
Qed.

Lemma bc_pairs_nodup : forall n bc, bc_ok n bc -> wf_bc names bc -> NoDup (ends (bc_pairs bc)).
Proof.
  intros n bc Hok Hwf.
  pose proof (fun m s => in_bc_pairs n bc m s Hok Hwf) as Hin.
  destruct bc as [[] rnods dofs vals|[] mnods snods i1 i2 d0 d1]; try (simpl; constructor).
  assert (Hd : forall m s m', In (m, s) (bc_pairs (Epbc true mnods snods i1 i2 d0 d1)) ->
                 ~ In (m', m) (bc_pairs (Epbc true mnods snods i1 i2 d0 d1))).
  { intros m s m' H1 H2. apply Hin in H1. apply Hin in H2. destruct Hwf as (_ & _ & _ & _ & _ & _ & W7).
    exact (W7 _ _ _ H1 H2). }
  destruct Hwf as (W1 & W2 & W3 & W4 & W5 & W6 & _). clear Hin.
  cbn [bc_pairs] in *.
  destruct Hok as [->|(meq & sq & Hm & Hs & Hl & Hb & B1 & B2)]; [simpl; constructor|].
  destruct (Nat.eqb_spec (length mnods) 0) as [E|E]; [simpl; constructor|].
  unfold exp_ in *. rewrite Hm, Hs in *.
  assert (Nm : NoDup meq).
  { eapply expand_NoDup; [exact Hm| |assumption]. apply take_nodup; auto.
    apply sinc_NoDup, unique_sinc. }
  assert (Ns : NoDup sq).
  { eapply expand_NoDup; [exact Hs| |assumption]. apply take_nodup; auto.
    apply sinc_NoDup, unique_sinc. }
  unfold ends. rewrite unzip_fst, unzip_snd by auto.
  apply NoDup_app_intro; auto. intros x H1 H2.
  destruct (In_nth _ _ 0 H1) as (k & Hk & Ek). destruct (In_nth _ _ 0 H2) as (j & Hj & Ej).
  apply (Hd x (nth k sq 0) (nth j meq 0)).
  - apply (in_combine_nth meq sq _ _ 0 0 Hl). exists k. auto.
  - apply (in_combine_nth meq sq _ _ 0 0 Hl). exists j. rewrite Hl. auto.
Qed.

Lemma tied_linked : forall n bcs x y, (forall bc, In bc bcs -> bc_ok n bc) -> wf_bcs names bcs ->
  (tied names bcs x y <-> linked (concat (map bc_pairs bcs)) x y).
Proof.
  intros n bcs x y Hok Hwf. unfold tied, linked.
  assert (H : forall m s, (exists bc, In bc bcs /\ ties names bc m s) <-> In (m, s) (concat (map bc_pairs bcs))).
  { intros m s. rewrite in_concat. split.
    - intros (bc & Hb & Ht). exists (bc_pairs bc). split; [apply in_map; auto|].
      apply (in_bc_pairs n); auto.
    - intros (l & Hl & Hm). apply in_map_iff in Hl. destruct Hl as (bc & <- & Hb).
      exists bc. split; auto. apply (in_bc_pairs n); auto. }
  split; intros L; induction L.
  - apply rst_step. apply H; auto.
  - apply rst_refl.
  - apply rst_sym; auto.
  - eapply rst_trans; eauto.
  - apply rst_step. apply H; auto.
  - apply rst_refl.
  - apply rst_sym; auto.
  - eapply rst_trans; eauto.
Qed.

Lemma occurs_ends : forall n bcs x, (forall bc, In bc bcs -> bc_ok n bc) -> wf_bcs names bcs ->
  (occurs names bcs x <-> In x (ends (concat (map bc_pairs bcs)))).
Proof.
  intros n bcs x Hok Hwf. rewrite <- touched_ends. unfold touched, occurs. split.
  - intros (bc & y & Hb & [H|H]); exists y; [left|right]; apply in_concat;
      exists (bc_pairs bc); (split; [apply in_map; auto|]); apply (in_bc_pairs n); auto.
  - intros (y & [H|H]); apply in_concat in H; destruct H as (l & Hl & Hm);
      apply in_map_iff in Hl; destruct Hl as (bc & <- & Hb); exists bc, y; (split; [auto|]);
      [left|right]; apply (in_bc_pairs n); auto.
Qed.

Lemma ends_app : forall p q x, In x (ends (p ++ q)) <-> In x (ends p) \/ In x (ends q).
Proof. intros. rewrite <- !touched_ends. apply touched_app. Qed.

(** Balanced conditions satisfy the bookkeeping condition. *)
Lemma balanced_okP : forall n bcs done reg occ,
  (forall bc, In bc (done ++ bcs) -> bc_ok n bc) -> wf_bcs names (done ++ bcs) ->
  balanced names (done ++ bcs) ->
  (forall x, In x reg <-> occurs names done x) -> (forall x, In x occ <-> occurs names done x) ->
  okP n reg occ (map bc_pairs bcs).
Proof.
  intros n. induction bcs as [|bc bcs IH]; intros done reg occ Hok Hwf Hbal Hr Ho; simpl; auto.
  assert (Hokb : bc_ok n bc) by (apply Hok; apply in_or_app; right; simpl; auto).
  assert (Hwfb : wf_bc names bc) by (apply Hwf; apply in_or_app; right; simpl; auto).
  assert (Hokd : forall b, In b done -> bc_ok n b) by (intros; apply Hok; apply in_or_app; auto).
  assert (Hwfd : wf_bcs names done) by (intros b Hb; apply Hwf; apply in_or_app; auto).
  split; [apply (bc_pairs_nodup n); auto|].
  split; [intros x Hx; eapply bc_pairs_ends; eauto|].
  split; [intros x _ Hx; apply Hr; apply Ho; auto|].
  assert (Heq : done ++ bc :: bcs = (done ++ [bc]) ++ bcs) by (rewrite <- app_assoc; auto).
  assert (Hocc1 : forall x, occurs names (done ++ [bc]) x <-> occurs names done x \/ In x (ends (bc_pairs bc))).
  { intros x. assert (Hok1 : forall b, In b (done ++ [bc]) -> bc_ok n b).
    { intros b Hb. apply in_app_or in Hb. destruct Hb as [|[<-|[]]]; auto. }
    assert (Hwf1 : wf_bcs names (done ++ [bc])).
    { intros b Hb. apply in_app_or in Hb. destruct Hb as [|[<-|[]]]; auto. }
    rewrite (occurs_ends n (done ++ [bc])) by auto. rewrite (occurs_ends n done) by auto.
    rewrite map_app, concat_app, ends_app. simpl. rewrite app_nil_r. tauto. }
  apply (IH (done ++ [bc])).
  - rewrite <- Heq. auto.
  - rewrite <- Heq. auto.
  - rewrite <- Heq. auto.
  - intros x. rewrite Hocc1. unfold reg_step. rewrite in_app_iff, Hr. split.
    + intros [|H]; auto. right. rewrite <- touched_ends in *. destruct H as (y & Hy).
      rewrite !filter_In in Hy. exists y. tauto.
    + intros [|H]; auto. destruct (in_dec Nat.eq_dec x reg) as [Hx|Hx]; [left; apply Hr; auto|].
      right. rewrite <- touched_ends in *. destruct H as (y & Hy). exists y.
      rewrite !filter_In. simpl. rewrite !andb_true_iff, !negb_true_iff, !memb_false.
      assert (Hb : forall m s, In (m, s) (bc_pairs bc) -> (In m reg <-> In s reg)).
      { intros m s Hms. rewrite !Hr. apply (Hbal done bc bcs); auto. apply (in_bc_pairs n); auto. }
      destruct Hy as [Hy|Hy]; specialize (Hb _ _ Hy); tauto.
  - intros x. rewrite Hocc1, in_app_iff, Ho. tauto.
Qed.

Lemma nil_okP : forall n bcs reg occ, filter (fun b => negb (is_ebc b)) bcs = [] ->
  okP n reg occ (map bc_pairs bcs).
Proof.
  intros n. induction bcs as [|bc bcs IH]; intros reg occ H; simpl in *; auto.
  destruct bc as [[] rnods dofs vals|]; simpl in *; try discriminate;
    (split; [constructor|]); (split; [intros x []|]); (split; [intros x []|]); apply IH; auto.
Qed.

(** At most two periodic conditions: always fine. *)
Lemma two_okP : forall n k bcs reg occ,
  (forall bc, In bc bcs -> bc_ok n bc) -> wf_bcs names bcs ->
  n_epbc bcs <= k -> k <= 2 ->
  (forall x, In x occ <-> In x reg) -> (k = 2 -> reg = []) ->
  okP n reg occ (map bc_pairs bcs).
Proof.
  intros n k bcs. revert k. induction bcs as [|bc bcs IH]; intros k reg occ Hok Hwf Hn Hk He Hr; simpl; auto.
  assert (Hokb : bc_ok n bc) by (apply Hok; simpl; auto).
  assert (Hwfb : wf_bc names bc) by (apply Hwf; simpl; auto).
  split; [apply (bc_pairs_nodup n); auto|].
  split; [intros x Hx; eapply bc_pairs_ends; eauto|].
  split; [intros x _ Hx; apply He; auto|].
  destruct bc as [act rnods dofs vals|act mnods snods i1 i2 d0 d1].
  - assert (Ep : bc_pairs (Ebc act rnods dofs vals) = []) by (destruct act; auto). rewrite Ep.
    unfold reg_step. simpl. rewrite !app_nil_r. apply (IH k); auto.
    + intros; apply Hok; simpl; auto.
    + intros b Hb; apply Hwf; simpl; auto.
  - unfold n_epbc in Hn. simpl in Hn.
    destruct (Nat.eq_dec k 2) as [->|Hk2].
    + rewrite (Hr eq_refl) in *. apply (IH 1).
      * intros; apply Hok; simpl; auto.
      * intros b Hb; apply Hwf; simpl; auto.
      * unfold n_epbc. lia.
      * lia.
      * intros x. unfold reg_step. rewrite !in_app_iff, He.
        generalize (bc_pairs (Epbc act mnods snods i1 i2 d0 d1)). intros ps.
        replace (filter _ ps) with ps; [tauto|].
        induction ps as [|a l IHl]; simpl; auto. f_equal. exact IHl.
      * discriminate.
    + apply nil_okP. destruct (filter (fun b => negb (is_ebc b)) bcs); auto. simpl in Hn. lia.
Qed.

End Loop.
