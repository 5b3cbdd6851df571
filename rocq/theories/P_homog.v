(** C34-C36: homogenization requirements, sequential and parallel workers. *)
From Verif Require Import Base M_homog L_homog L_chunks.
From Coq Require Import Relations Permutation Lia.
Set Implicit Arguments.
Open Scope nat_scope.

(** [x] requires [y] (directly), as defined by the user. *)
Definition requires1 (ri ci : info) (x y : name) : Prop := exists l, requires ri ci x = Some l /\ In y l.
Definition reach (ri ci : info) := clos_refl_trans _ (requires1 ri ci).
(** In [l] every item comes after all it requires. *)
Definition deps_first (ri ci : info) (l : list name) : Prop :=
  forall l1 n l2, l = l1 ++ n :: l2 -> exists r, requires ri ci n = Some r /\ incl r l1.

Lemma requires1_needs : forall ri ci, requires1 ri ci = needs (requires ri ci).
Proof. reflexivity. Qed.

(** C34 *)
Theorem C34_sorted : forall fuel ri ci names, disjoint ri ci -> kinds_ok ri ci -> 2 * (length ri + length ci) < fuel ->
  match get_sorted_dependencies fuel ri ci names with
  | Ok l => NoDup l /\ deps_first ri ci l /\ (forall n, In n l <-> exists k, In k names /\ reach ri ci (true, k) n)
  | Err ValueError => exists k y, In k names /\ reach ri ci (true, k) y /\ (requires ri ci y = None \/ clos_trans _ (requires1 ri ci) y y)
  | Err KeyError => exists k, In k names /\ look k ci = None
  | Err _ => False
  end.
Proof.
  intros fuel ri ci names D K Hf. destruct (get_sorted_dependencies fuel ri ci names) as [l|e] eqn:E.
  - apply sorted_ok in E; auto. destruct E as (G & _ & H). split; [eapply good_NoDup; eauto|]. split; auto.
    intros l1 n l2 El. destruct (@good_split _ _ G _ _ _ El) as (r & Er & Hr & _). eauto.
  - apply sorted_err in E; auto. destruct E as [(-> & H)|(-> & H)]; auto.
Qed.
(** ... and it does not fail exactly when everything is defined and acyclic. *)
Theorem C34_accepts : forall fuel ri ci names, disjoint ri ci -> kinds_ok ri ci -> 2 * (length ri + length ci) < fuel ->
  ((exists l, get_sorted_dependencies fuel ri ci names = Ok l) <->
   (forall k, In k names -> look k ci <> None) /\
   (forall k y, In k names -> reach ri ci (true, k) y -> requires ri ci y <> None /\ ~ clos_trans _ (requires1 ri ci) y y)).
Proof.
  intros fuel ri ci names D K Hf. split.
  - intros (l & E). apply sorted_ok in E; auto. destruct E as (G & Hc & H). split; auto. intros k y Hk C.
    assert (Hy : In y l) by (apply H; eauto). split; [|eapply good_acyclic; eauto].
    destruct (good_in y G Hy) as (r & Er & _). congruence.
  - intros (H1 & H2). destruct (get_sorted_dependencies fuel ri ci names) as [l|e] eqn:E; eauto. exfalso.
    apply sorted_err in E; auto. destruct E as [(_ & k & Hk & H)|(_ & k & y & Hk & C & H)]; [eapply H1; eauto|].
    destruct (H2 k y Hk C). tauto.
Qed.

(** C34, without the hypotheses: (1) a corrector with the name of a coefficient
    hides its requirements, the worker then needs an item not computed yet; (2) a
    coefficient required without the prefix 'c.' is accepted, the worker does not
    find it. *)
Definition k1 : key := (1, None).  Definition k2 : key := (2, None).  Definition k3 : key := (3, None).
Theorem C34_same_name_refuted : exists (ri ci : info) names l,
  get_sorted_dependencies 20 ri ci names = Ok l /\ ~ deps_first ri ci l /\ kinds_ok ri ci /\
  (forall V (app : name -> list V -> V), seq_loop (requires ri ci) app l [] = Err KeyError) /\
  exists l', get_sorted_dependencies 20 [] ci names = Ok l' /\ deps_first [] ci l'.
Proof.
  exists [(k1, [])], [(k3, [(true, k1)]); (k1, [(true, k2)]); (k2, [])], [k3; k1; k2], [(true, k1); (true, k3); (true, k2)].
  split; [reflexivity|]. split.
  { intros H. destruct (H [] (true, k1) [(true, k3); (true, k2)] eq_refl) as (r & Er & Hr). cbn in Er. inversion Er; subst r.
    destruct (Hr (true, k2)); cbn; auto. }
  split.
  { intros n (k & l & Hk & Hn) _. cbn in Hk. repeat (destruct Hk as [Hk|Hk]; [inversion Hk; subst; cbn in Hn; repeat (destruct Hn as [<-|Hn]; [cbn; discriminate|]); destruct Hn|]). destruct Hk. }
  split; [reflexivity|].
  exists [(true, k2); (true, k1); (true, k3)]. split; [reflexivity|].
  intros l1 n l2 E. destruct l1 as [|a [|b [|c [|d l1]]]]; cbn in E; inversion E; subst; cbn; eexists; (split; [reflexivity|]); intros z Hz; cbn in *; intuition.
Qed.
Theorem C34_missing_prefix_refuted : exists (ri ci : info) names l,
  get_sorted_dependencies 20 ri ci names = Ok l /\ disjoint ri ci /\
  (forall V (app : name -> list V -> V), seq_loop (requires ri ci) app l [] = Err KeyError).
Proof.
  exists [], [(k1, [(false, k2)]); (k2, [])], [k1; k2], [(false, k2); (true, k1); (true, k2)].
  split; [reflexivity|]. split; [intros k; auto|]. reflexivity.
Qed.
(** A typical definition: volume 2, correctors 4, 5 (5 requires 4), coefficient 1. *)
Definition ex_ri : info := [((4, None), []); ((5, None), [(false, (4, None)); (true, k2)])].
Definition ex_ci : info := [(k1, [(false, (5, None)); (false, (4, None)); (true, k2)]); (k2, [])].
Lemma ex_disjoint : disjoint ex_ri ex_ci.
Proof. intros k. cbn. repeat (destruct (key_dec k _); subst; auto). Qed.
Lemma ex_kinds : kinds_ok ex_ri ex_ci.
Proof.
  intros n (k & l & Hk & Hn) _. cbn in Hk.
  repeat (destruct Hk as [Hk|Hk]; [inversion Hk; subst; cbn in Hn; repeat (destruct Hn as [<-|Hn]; [cbn; discriminate|]); destruct Hn|]). destruct Hk.
Qed.
Example C34_ex : get_sorted_dependencies 10 ex_ri ex_ci [k1; k2] = Ok [(false, (4, None)); (true, k2); (false, (5, None)); (true, k1)].
Proof. reflexivity. Qed.
Example C34_ex_cycle : get_sorted_dependencies 10 [((4, None), [(false, (5, None))]); ((5, None), [(false, (4, None))])] [(k1, [(false, (4, None))])] [k1] = Err ValueError.
Proof. reflexivity. Qed.

(** C35: [extra] is whatever of the wave the workers see in the shared dictionary;
    [done] are the executed tasks in the order of their completion. *)
Theorem C35_multi_worker : forall (V : Type) (app : name -> list V -> V) (extra : nat -> name -> deps V) fuel ri ci names l,
  disjoint ri ci -> kinds_ok ri ci -> get_sorted_dependencies fuel ri ci names = Ok l ->
  exists d done d0,
    multi_call (requires ri ci) app extra (length l) l = Ok (d, done) /\
    Permutation done l /\ deps_first ri ci done /\
    seq_loop (requires ri ci) app l [] = Ok d0 /\
    (forall n, dlook n d0 <> None <-> In n l) /\
    (forall n, dlook n d = dlook n d0).
Proof.
  intros V app extra fuel ri ci names l D K E. apply sorted_ok in E; auto. destruct E as (G & _ & _).
  destruct (@multi_ok V (requires ri ci) app extra l G (length l)) as (d & done & E1 & W & Hi); auto.
  destruct (@seq_ok V (requires ri ci) app l G) as (d0 & E2 & C & H0).
  exists d, done, d0. split; auto. split; [|split; [|split; [|split]]]; auto.
  - apply NoDup_Permutation; [eapply good_NoDup; apply W|eapply good_NoDup; eauto|]. intros x. split; [apply W|apply Hi].
  - intros l1 n l2 El. destruct (@good_split _ _ (w_good W) _ _ _ El) as (r & Er & Hr & _). eauto.
  - intros n. destruct (in_dec name_dec n l) as [Hn|Hn].
    + eapply consistent_unique; eauto; [apply W| |]; intros m Hm; [apply W; auto|apply H0; auto].
    + assert (A1 : dlook n d = None). { destruct (dlook n d) eqn:Ed; auto. exfalso. apply Hn. apply (w_incl W). apply W. congruence. }
      assert (A2 : dlook n d0 = None). { destruct (dlook n d0) eqn:Ed; auto. exfalso. apply Hn. apply H0. congruence. }
      congruence.
Qed.
Example C35_ex : exists d, multi_call (requires ex_ri ex_ci) (fun n vs => fst (snd n) + list_sum vs) (fun _ _ => []) 4
    [(false, (4, None)); (true, k2); (false, (5, None)); (true, k1)] = Ok (d, [(false, (4, None)); (true, k2); (false, (5, None)); (true, k1)]) /\ dlook (true, k1) d = Some 18.
Proof. eexists. split; reflexivity. Qed.

(** C36: the table of chunks. *)
Theorem C36_chunk_table : forall n chunk_size store, 0 < chunk_size ->
  exists tab st, chunk_micro_tab n chunk_size store = Ok (tab, st) /\
  (** consecutive, covering each index once, in order *)
  concat (map (fun p => seq (fst p) (snd p - fst p)) tab) = seq 0 n /\
  (** not empty, with at most chunk_size items, all but the last one full *)
  (forall p, In p tab -> fst p < snd p /\ snd p - fst p <= chunk_size /\ (snd p = n \/ snd p - fst p = chunk_size)) /\
  (** the store lists: local indices of the stored items of the chunk *)
  (store <> [] -> Forall2 (fun p q => snd q = fst p /\ forall j, j < snd p - fst p -> (In j (fst q) <-> In (fst p + j) store)) tab st).
Proof.
  intros n cs store Hcs. unfold chunk_micro_tab. destruct (Nat.eqb_spec cs 0); [lia|].
  destruct (range_len_ok n Hcs) as (R1 & R2).
  pose proof (@chunk_loop_ok (range_len n cs) 0 n cs store ltac:(lia) ltac:(lia) R2) as H.
  destruct (chunk_loop (range_len n cs) 0 n cs store) as [tab st]. destruct H as (_ & H2 & H3 & H4).
  exists tab, st. split; auto. rewrite Nat.sub_0_r in H2. split; auto. split.
  - intros p Hp. rewrite Forall_forall in H3. specialize (H3 p Hp). unfold chunk_ok in H3. lia.
  - intros Hs. destruct store as [|s0 ss]; [congruence|]. clear Hs. clear -H3 H4.
    induction H4 as [|p q tab st (E1 & E2) F IH]; constructor; [|inversion H3; auto].
    split; auto. intros j Hj. inversion H3; subst. unfold chunk_ok in H1.
    assert (I1 : In (fst p + j) (map (fun k => fst p + k) (fst q)) <-> In j (fst q)).
    { split; [|apply in_map]. intros H. apply in_map_iff in H. destruct H as (k & Ek & H). replace j with k by lia. auto. }
    rewrite <- I1, E2, filter_In, andb_true_iff, Nat.leb_le, Nat.ltb_lt. intuition lia.
Qed.

Lemma good_ext : forall I1 I2 l, good I1 l -> (forall n, In n l -> I1 n = I2 n) -> good I2 l.
Proof.
  induction 1 as [|l x r G IH Nx E Hr]; intros H; [constructor|]. assert (G' : good I2 l) by (apply IH; intros; apply H; apply in_or_app; auto).
  apply good_snoc with r; auto. rewrite <- H; auto. apply in_or_app. cbn; auto.
Qed.
Lemma dlooks_tag : forall V ri ci (d0 d : deps (list V)) p i r vs, dlooks r d0 = Ok vs ->
  (forall n v, In n r -> dlook n d0 = Some v -> dlook (tag_name i n) d = Some (slice p v)) -> untagged ri ci ->
  dlooks (map (tag_name i) r) d = Ok (map (slice p) vs).
Proof.
  induction r as [|n r IH]; intros vs E H U; cbn in *; [inversion E; auto|].
  destruct (dlook n d0) as [v|] eqn:Ev; [|discriminate]. destruct (dlooks r d0) as [vs'|]; [|discriminate]. inversion E; subst.
  rewrite (H n v) by auto. rewrite (IH vs'); auto.
Qed.

(** C36: the merged results of the chunks are the results of the sequential
    worker, in the same order. *)
Theorem C36_chunked_run : forall (V : Type) (dflt : V) (mapp : name -> nat -> list V -> V) extra fuel ri ci n chunk_size store tab st names names_ch l0,
  disjoint ri ci -> kinds_ok ri ci -> untagged ri ci -> 0 < n -> 0 < chunk_size ->
  chunk_micro_tab n chunk_size store = Ok (tab, st) ->
  let ri_ch := process_reqs_coefs ri (length tab) in
  let ci_ch := process_reqs_coefs ci (length tab) in
  2 * (length ri_ch + length ci_ch) < fuel ->
  (forall k, In k names <-> In k (map fst ci)) -> (forall k, In k names_ch <-> In k (map fst ci_ch)) ->
  get_sorted_dependencies fuel ri ci names = Ok l0 ->
  exists d0 l d done,
    seq_loop (requires ri ci) (micro_app dflt mapp n tab) l0 [] = Ok d0 /\
    get_sorted_dependencies fuel ri_ch ci_ch names_ch = Ok l /\
    multi_call (chunk_requires ri ci) (micro_app dflt mapp n tab) extra (length l) l = Ok (d, done) /\
    (forall m, In m l0 <-> exists c, dlook c d <> None /\ rm_chtag c = m) /\
    forall m, In m l0 -> exists v, dlook m d0 = Some v /\ length v = n /\ dechunk d (length tab) m = Ok v.
Proof.
  intros V dflt mapp extra fuel ri ci N cs store tab st names names_ch l0 D K U HN Hcs Etab ri_ch ci_ch Hf Hnames Hnch E0.
  assert (T : length tab > 0 /\ indices tab = seq 0 N /\ Forall (chunk_ok N cs) tab).
  { unfold chunk_micro_tab in Etab. destruct (Nat.eqb_spec cs 0); [lia|]. destruct (range_len_ok N Hcs) as (R1 & R2).
    pose proof (@chunk_loop_ok (range_len N cs) 0 N cs store ltac:(lia) ltac:(lia) R2) as H. inversion Etab as [E]. rewrite E in H.
    destruct H as (H1 & H2 & H3 & _). rewrite Nat.sub_0_r in H2. split; [|auto]. rewrite H1. destruct (range_len N cs); lia. }
  destruct T as (T0 & T1 & T2). set (nch := length tab) in *.
  apply sorted_ok in E0; auto. destruct E0 as (G0 & Hc0 & H0).
  assert (Un : forall m, In m l0 -> snd (snd m) = None).
  { intros m Hm. apply H0 in Hm. destruct Hm as (k & Hk & C). apply Hnames in Hk. apply in_map_iff in Hk. destruct Hk as ((k' & lk) & E & Hk). cbn in E; subst k'.
    apply clos_rt_rtn1 in C. destruct C as [|y z Hyz _]; [cbn; eapply U; apply in_or_app; eauto|].
    destruct Hyz as (r & Er & Hr). eapply requires_untagged; eauto. }
  pose proof (@disjoint_chunk ri ci nch U D) as Dch. pose proof (@kinds_chunk ri ci nch U K) as Kch.
  fold ri_ch ci_ch in Dch, Kch.
  assert (Hk_ch : forall k, In k names_ch -> exists k0 i, In k0 names /\ snd k0 = None /\ i < nch /\ (true, k) = tag_name i (true, k0)).
  { intros k Hk. apply Hnch in Hk. apply in_map_iff in Hk. destruct Hk as ((k' & lk) & E & Hk). cbn in E; subst k'. apply in_process in Hk.
    destruct Hk as (k0 & lk0 & i & H1 & H2 & -> & _). assert (U0 : snd k0 = None) by (eapply U; apply in_or_app; eauto).
    exists k0, i. split; [apply Hnames; apply in_map_iff; exists (k0, lk0); auto|]. auto. }
  assert (Hk_ch2 : forall k i, In k names -> i < nch -> In (fst k, Some i) names_ch).
  { intros k i Hk Hi. apply Hnch. apply Hnames in Hk. apply in_map_iff in Hk. destruct Hk as ((k' & lk) & E & Hk). cbn in E; subst k'.
    apply in_map_iff. exists ((fst k, Some i), map (tag_name i) lk). split; auto. unfold ci_ch, process_reqs_coefs. apply in_flat_map. exists (k, lk). split; auto.
    apply in_map_iff. exists i. split; auto. apply in_seq. lia. }
  destruct (get_sorted_dependencies fuel ri_ch ci_ch names_ch) as [l|e] eqn:El.
  2:{ exfalso. apply sorted_err in El; auto. destruct El as [(_ & k & Hk & H)|(_ & k & y & Hk & C & H)].
      - apply Hnch in Hk. clear -Hk H. induction ci_ch as [|[k' a] t IH]; [destruct Hk|]. cbn in *. destruct (key_dec k k'); [discriminate|]. destruct Hk; [congruence|auto].
      - destruct (Hk_ch _ Hk) as (k0 & i & Hk0 & Uk & Hi & Ek). rewrite Ek in C. apply rt_untag in C; auto. destruct C as (m & Um & -> & C).
        assert (Hm : In m l0) by (apply H0; eauto). destruct H as [H|H].
        + unfold ri_ch, ci_ch in H. rewrite requires_tag in H; auto. destruct (good_in m G0 Hm) as (r & Er & _). rewrite Er in H. discriminate.
        + apply tc_untag in H; auto. destruct H as (m' & Um' & Em & C2). apply tag_inj in Em; auto. destruct Em as [<- _].
          eapply good_acyclic; eauto. }
  apply sorted_ok in El; auto. destruct El as (G & _ & H).
  assert (Hl : forall y, In y l <-> exists i m, i < nch /\ In m l0 /\ y = tag_name i m).
  { intros y. rewrite H. split.
    - intros (k & Hk & C). destruct (Hk_ch _ Hk) as (k0 & i & Hk0 & Uk & Hi & Ek). rewrite Ek in C. apply rt_untag in C; auto. destruct C as (m & Um & -> & C).
      exists i, m. split; auto. split; auto. apply H0. eauto.
    - intros (i & m & Hi & Hm & ->). apply H0 in Hm. destruct Hm as (k & Hk & C). exists (fst k, Some i). split; auto.
      change (true, (fst k, Some i)) with (tag_name i (true, k)). apply rt_tag; auto. cbn.
      apply Hnames in Hk. apply in_map_iff in Hk. destruct Hk as ((k' & lk) & E & Hk). cbn in E; subst k'. eapply U. apply in_or_app. eauto. }
  assert (G' : good (chunk_requires ri ci) l).
  { apply good_ext with (requires ri_ch ci_ch); auto. intros y Hy. destruct (good_in y G Hy) as (r & Er & _). symmetry. eapply requires_chunk_eq; auto. fold ri_ch ci_ch. congruence. }
  destruct (@seq_ok _ (requires ri ci) (micro_app dflt mapp N tab) l0 G0) as (d0 & Es & C0 & Hd0).
  destruct (@multi_ok _ (chunk_requires ri ci) (micro_app dflt mapp N tab) extra l G' (length l)) as (d & done & Em & W & Hi); auto.
  exists d0, l, d, done. split; auto. split; auto. split; auto. split.
  { intros m. split.
    - intros Hm. exists (tag_name 0 m). split; [apply W; apply Hi; apply Hl; exists 0, m; auto|]. rewrite tag_rm. apply rm_untagged. auto.
    - intros (c & Hc & <-). apply W in Hc. apply (w_incl W) in Hc. apply Hl in Hc. destruct Hc as (i & m & Hi' & Hm & ->). rewrite tag_rm, rm_untagged; auto. }
  (* the values *)
  assert (Vals : forall m v, In m l0 -> dlook m d0 = Some v -> (exists f, v = map f (seq 0 N)) /\
            forall i, i < nch -> dlook (tag_name i m) d = Some (slice (nth i tab (0, 0)) v)).
  {
    assert (P : forall l1, good (requires ri ci) l1 -> incl l1 l0 -> (forall m, In m l1 -> snd (snd m) = None) ->
       forall m v, In m l1 -> dlook m d0 = Some v -> (exists f, v = map f (seq 0 N)) /\
            forall i, i < nch -> dlook (tag_name i m) d = Some (slice (nth i tab (0, 0)) v)).
    { induction 1 as [|l1 x r G1 IH Nx Ex Hr]; intros Sub Un1 m v Hm Ev; [destruct Hm|].
      apply in_app_or in Hm. destruct Hm as [Hm|[<-|[]]].
      { apply IH; auto; intros z Hz; [apply Sub|apply Un1]; apply in_or_app; auto. }
      assert (Ux : snd (snd x) = None) by (apply Un1; apply in_or_app; cbn; auto).
      destruct (C0 x v Ev) as (r' & vs & Er' & Evs & ->). rewrite Ex in Er'. inversion Er'; subst r'.
      assert (RA : micro_range N tab x = (0, N)) by (unfold micro_range; rewrite Ux; auto).
      assert (EM : micro_app dflt mapp N tab x vs = map (fun im => mapp x im (map (fun lst => nth im lst dflt) vs)) (seq 0 N)).
      { unfold micro_app. rewrite RA, Nat.sub_0_r. apply map_ext. intros im. rewrite rm_untagged by auto. auto. }
      split; [rewrite EM; eauto|]. intros i Hi'.
      assert (Hx : In (tag_name i x) l) by (apply Hl; exists i, x; split; auto; split; auto; apply Sub; apply in_or_app; cbn; auto).
      destruct (dlook (tag_name i x) d) as [w|] eqn:Ew; [|exfalso; apply Hi in Hx; apply (w_dom W) in Hx; congruence].
      destruct (w_cons W _ Ew) as (r' & ws & Er2 & Ews & ->). rewrite chunk_requires_tag, Ex in Er2 by auto. cbn in Er2. inversion Er2; subst r'.
      set (p := nth i tab (0, 0)) in *.
      rewrite (@dlooks_tag V ri ci d0 d p i r vs) in Ews; auto.
      2:{ intros z vz Hz Ez. apply IH; auto; intros q Hq; [apply Sub|apply Un1]; apply in_or_app; auto. }
      inversion Ews; subst ws. f_equal. rewrite EM.
      assert (Hp : chunk_ok N cs p) by (rewrite Forall_forall in T2; apply T2; apply nth_In; auto). unfold chunk_ok in Hp.
      rewrite slice_map_seq by lia. unfold micro_app, micro_range. cbn [tag_name snd]. fold p.
      destruct p as [a b] eqn:Ep. cbn [fst snd] in *. apply map_ext_in. intros im Him. apply in_seq in Him.
      change (fst x, (fst (snd x), Some i)) with (tag_name i x). rewrite tag_rm, rm_untagged by auto. f_equal. rewrite map_map. apply map_ext. intros lst.
      rewrite nth_slice by (cbn; lia). reflexivity. }
    intros m v Hm Ev. apply (P l0); auto. intros q Hq; auto. }
  intros m Hm. destruct (dlook m d0) as [v|] eqn:Ev; [|exfalso; apply Hd0 in Hm; congruence]. exists v. split; auto.
  destruct (Vals m v Hm Ev) as ((f & Ef) & Hv). split; [rewrite Ef, map_length, seq_length; auto|].
  unfold dechunk.
  assert (EL : dlooks (map (fun i => tag_name i m) (seq 0 nch)) d = Ok (map (fun p => slice p v) tab)).
  { assert (EL : forall tb a, (forall j, j < length tb -> dlook (tag_name (a + j) m) d = Some (slice (nth j tb (0,0)) v)) ->
        dlooks (map (fun i => tag_name i m) (seq a (length tb))) d = Ok (map (fun p => slice p v) tb)).
    { induction tb as [|p tb IH]; intros a Hj; auto. cbn [length seq map dlooks]. rewrite <- (Nat.add_0_r a) at 1. rewrite (Hj 0) by (cbn; lia).
      rewrite IH; auto. intros j Hj2. specialize (Hj (S j)). rewrite Nat.add_succ_r in Hj. apply Hj. cbn; lia. }
    apply (EL tab 0). intros j Hj. apply Hv. auto. }
  rewrite EL. f_equal.
  assert (EC : concat (map (fun p => slice p v) tab) = map f (indices tab)).
  { unfold indices. rewrite concat_map, map_map. f_equal. apply map_ext_in. intros p Hp. rewrite Forall_forall in T2. specialize (T2 p Hp). unfold chunk_ok in T2.
    rewrite Ef. unfold slice. rewrite skipn_map, firstn_map, skipn_seq, firstn_seq by lia. auto. }
  rewrite EC, T1. auto.
Qed.
Lemma ex_untagged : untagged ex_ri ex_ci.
Proof.
  intros k l H. cbn in H. repeat (destruct H as [H|H]; [inversion H; subst; split; [reflexivity|]; intros n Hn; cbn in Hn; repeat (destruct Hn as [<-|Hn]; [reflexivity|]); destruct Hn|]). destruct H.
Qed.
Example C36_ex : chunk_micro_tab 5 2 [1; 4] = Ok ([(0, 2); (2, 4); (4, 5)], [([1], 0); ([], 2); ([0], 4)]).
Proof. reflexivity. Qed.

Example C36_ex_run : exists d0 l d done,
  seq_loop (requires ex_ri ex_ci) (micro_app 0 (fun n im vs => fst (snd n) + 10 * im + list_sum vs) 5 [(0, 2); (2, 4); (4, 5)])
     [(false, (4, None)); (true, k2); (false, (5, None)); (true, k1)] [] = Ok d0 /\
  get_sorted_dependencies 50 (process_reqs_coefs ex_ri 3) (process_reqs_coefs ex_ci 3) (map fst (process_reqs_coefs ex_ci 3)) = Ok l /\
  multi_call (chunk_requires ex_ri ex_ci) (micro_app 0 (fun n im vs => fst (snd n) + 10 * im + list_sum vs) 5 [(0, 2); (2, 4); (4, 5)]) (fun _ _ => []) (length l) l = Ok (d, done) /\
  dechunk d 3 (true, k1) = Ok [18; 78; 138; 198; 258] /\ dlook (true, k1) d0 = Some [18; 78; 138; 198; 258].
Proof. do 4 eexists. repeat split; vm_compute; reflexivity. Qed.

(** C36: with chunks the option compute_only cannot be used. *)
Theorem C36_compute_only_refuted : forall fuel ri ci nch (k : key) t, snd k = None ->
  get_sorted_dependencies fuel (process_reqs_coefs ri nch) (process_reqs_coefs ci nch) (k :: t) = Err KeyError.
Proof.
  intros fuel ri ci nch k t Hk. unfold get_sorted_dependencies. cbn [sorted_loop].
  destruct (look k (process_reqs_coefs ci nch)) eqn:E; auto. exfalso.
  destruct (@look_chunk_none nch ci k) as (i & Ei & _); congruence.
Qed.
(** C36: the chunked definitions store the right microstructures, as the
    sequential worker does, but the multi-process worker does not use them: it
    stores nothing. *)
Theorem C36_store_refuted : forall n chunk_size store tab st, 0 < chunk_size -> store <> [] ->
  chunk_micro_tab n chunk_size store = Ok (tab, st) ->
  seq_saved store n = filter (fun k => existsb (Nat.eqb k) store) (seq 0 n) /\
  chunk_saved st tab = seq_saved store n /\
  multi_saved st tab = [].
Proof.
  intros n cs store tab st Hcs Hs E. destruct (C36_chunk_table n store Hcs) as (tab' & st' & E' & H1 & H2 & H3).
  rewrite E in E'. inversion E'; subst tab' st'. specialize (H3 Hs).
  assert (E1 : seq_saved store n = filter (fun k => existsb (Nat.eqb k) store) (seq 0 n)).
  { unfold seq_saved, saved. rewrite <- (map_id (filter _ _)) at 2. apply map_ext. auto. }
  split; auto. split.
  - rewrite E1, <- H1. unfold chunk_saved. clear -H3. induction H3 as [|p q tab st (Eq & Hq) F IH]; auto.
    cbn [combine map concat]. rewrite filter_app, IH. f_equal. cbn [fst snd]. destruct q as [idx first]. cbn [fst snd] in *. subst first. unfold saved.
    assert (G : forall m a, m <= snd p - fst p -> a + m = snd p - fst p ->
       map (fun im => fst p + im) (filter (fun im => existsb (Nat.eqb im) idx) (seq a m)) = filter (fun k => existsb (Nat.eqb k) store) (seq (fst p + a) m)).
    { induction m as [|m IHm]; intros a L1 L2; auto. cbn [seq filter].
      assert (EX : existsb (Nat.eqb a) idx = existsb (Nat.eqb (fst p + a)) store).
      { apply eq_true_iff_eq. rewrite !existsb_exists. specialize (Hq a ltac:(lia)). split.
        - intros (x & Hx & Ex). apply Nat.eqb_eq in Ex. subst x. apply Hq in Hx. exists (fst p + a). split; auto. apply Nat.eqb_refl.
        - intros (x & Hx & Ex). apply Nat.eqb_eq in Ex. subst x. apply Hq in Hx. exists a. split; auto. apply Nat.eqb_refl. }
      rewrite <- EX. rewrite <- Nat.add_succ_r. destruct (existsb (Nat.eqb a) idx); cbn [map]; rewrite IHm; auto; lia. }
    rewrite G by lia. rewrite Nat.add_0_r. auto.
  - unfold multi_saved. clear. induction tab; auto.
Qed.

Print Assumptions C34_sorted. Print Assumptions C34_accepts. Print Assumptions C34_same_name_refuted. Print Assumptions C34_missing_prefix_refuted.
Print Assumptions C35_multi_worker. Print Assumptions C36_chunk_table. Print Assumptions C36_chunked_run. Print Assumptions C36_compute_only_refuted. Print Assumptions C36_store_refuted.
