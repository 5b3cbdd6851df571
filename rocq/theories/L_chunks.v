From Verif Require Import Base M_homog L_homog.
From Coq Require Import Relations Lia.
Set Implicit Arguments.
Open Scope nat_scope.

(** ** The table of chunks *)
Definition chunk_ok (N cs : nat) (p : nat * nat) : Prop := fst p < snd p /\ snd p - fst p <= cs /\ snd p <= N /\ (snd p = N \/ snd p = fst p + cs).
Definition indices (tab : list (nat * nat)) : list nat := concat (map (fun p => seq (fst p) (snd p - fst p)) tab).

Lemma chunk_loop_ok : forall m ii N cs store, ii <= N -> N <= ii + m * cs -> (m = 0 \/ ii + (m - 1) * cs < N) ->
  let (tab, st) := chunk_loop m ii N cs store in
  length tab = m /\ indices tab = seq ii (N - ii) /\ Forall (chunk_ok N cs) tab /\
  match store with
  | [] => st = []
  | _ => Forall2 (fun p q => snd q = fst p /\ map (fun k => fst p + k) (fst q) = filter (fun k => (fst p <=? k) && (k <? fst p + cs)) store) tab st
  end.
Proof.
  induction m as [|m IH]; intros ii N cs store H1 H2 H3; cbn [chunk_loop].
  - replace (N - ii) with 0 by lia. destruct store; repeat split; auto.
  - destruct H3 as [|H3]; [lia|]. destruct (Nat.le_gt_cases (cs + ii) N) as [L|L].
    + specialize (IH (cs + ii) N cs store L). destruct (chunk_loop m (cs + ii) N cs store) as [tab st].
      destruct IH as (E1 & E2 & E3 & E4); [cbn in H2; lia| |].
      { destruct m; [auto|right]. cbn [Nat.sub] in *. rewrite Nat.sub_0_r in *. cbn in H3. lia. }
      rewrite Nat.min_r by auto.
      assert (Hcs : 0 < cs). { destruct cs; [|lia]. cbn in *. lia. }
      split; [cbn; auto|]. split; [|split].
      * unfold indices in *. cbn [map concat fst snd]. rewrite E2, (Nat.add_comm cs ii). replace (N - ii) with (ii + cs - ii + (N - (ii + cs))) by lia.
        rewrite seq_app. f_equal. f_equal. lia.
      * constructor; auto. unfold chunk_ok. cbn. lia.
      * destruct store as [|s0 ss]; [cbn; auto|]. cbn [length]. change (0 <? S (length ss)) with true. cbv iota.
        constructor; auto. cbn [fst snd]. split; auto.
        rewrite map_map, (Nat.add_comm cs ii). rewrite <- (map_id (filter _ (s0 :: ss))) at 2. apply map_ext_in.
        intros k Hk. apply filter_In in Hk. destruct Hk as [_ Hk]. apply andb_true_iff in Hk. destruct Hk as [Hk _]. apply Nat.leb_le in Hk. lia.
    + assert (M : m = 0). { destruct m; auto. cbn [Nat.sub] in H3. cbn in H3. lia. } subst m. cbn [chunk_loop].
      rewrite Nat.min_l by lia. split; auto. split; [|split].
      * unfold indices. cbn. rewrite app_nil_r. auto.
      * constructor; auto. unfold chunk_ok. cbn. lia.
      * destruct store as [|s0 ss]; [cbn; auto|]. cbn [length]. change (0 <? S (length ss)) with true. cbv iota.
        constructor; auto. cbn [fst snd]. split; auto.
        rewrite map_map, (Nat.add_comm cs ii). rewrite <- (map_id (filter _ (s0 :: ss))) at 2. apply map_ext_in.
        intros k Hk. apply filter_In in Hk. destruct Hk as [_ Hk]. apply andb_true_iff in Hk. destruct Hk as [Hk _]. apply Nat.leb_le in Hk. lia.
Qed.
Lemma range_len_ok : forall n s, 0 < s -> n <= range_len n s * s /\ (range_len n s = 0 \/ (range_len n s - 1) * s < n).
Proof.
  intros n s H. unfold range_len. pose proof (Nat.div_mod (n + s - 1) s ltac:(lia)) as D. pose proof (Nat.mod_upper_bound (n + s - 1) s ltac:(lia)) as U.
  set (q := (n + s - 1) / s) in *. set (r := (n + s - 1) mod s) in *. split; [nia|]. destruct q; [auto|right]. cbn [Nat.sub]. rewrite Nat.sub_0_r. nia.
Qed.

(** ** The requirements as seen by the sorting and by the workers *)
Definition mentioned (ri ci : info) (n : name) : Prop := exists k l, In (k, l) (ri ++ ci) /\ In n l.
Definition disjoint (ri ci : info) : Prop := forall k, look k ri = None \/ look k ci = None.
Definition kinds_ok (ri ci : info) : Prop := forall n, mentioned ri ci n -> reqcoef_info ri ci (snd n) <> None -> requires ri ci n <> None.

Lemma look_In : forall A k (d : list (key * A)) v, look k d = Some v -> In (k, v) d.
Proof. induction d as [|[k' a] t IH]; intros v E; cbn in *; [discriminate|]. destruct (key_dec k k'); [left; congruence|auto]. Qed.
Section Kinds.
Variables ri ci : info.
Hypothesis D : disjoint ri ci.
Hypothesis K : kinds_ok ri ci.
Let J (n : name) := reqcoef_info ri ci (snd n).
Notation RQ := (requires ri ci).
Definition named (n : name) : Prop := mentioned ri ci n \/ (fst n = true /\ look (snd n) ci <> None).
Lemma J_requires : forall n, named n -> J n = RQ n.
Proof.
  intros n H. assert (S1 : forall l, RQ n = Some l -> J n = Some l).
  { intros l E. unfold requires in E. unfold J, reqcoef_info. destruct (fst n); [destruct (D (snd n)) as [->|D']; congruence|rewrite E; auto]. }
  destruct (RQ n) as [l|] eqn:E; auto. destruct H as [H|[H1 H2]].
  - destruct (J n) eqn:EJ; auto. exfalso. apply (K H); auto. unfold J in EJ. congruence.
  - unfold requires in E. rewrite H1 in E. congruence.
Qed.
Lemma requires_mentioned : forall x l y, RQ x = Some l -> In y l -> mentioned ri ci y.
Proof. intros x l y E H. unfold requires in E. exists (snd x), l. split; auto. rewrite in_app_iff. destruct (fst x); apply look_In in E; auto. Qed.
Lemma named_step : forall x y, named x -> (needs J x y <-> needs RQ x y) /\ (needs RQ x y -> named y).
Proof.
  intros x y H. unfold needs. rewrite (J_requires H). split; [tauto|]. intros (l & E & Hl). left. eapply requires_mentioned; eauto.
Qed.
Lemma named_rt : forall x y, named x -> (clos_refl_trans _ (needs J) x y <-> clos_refl_trans _ (needs RQ) x y) /\ (clos_refl_trans _ (needs RQ) x y -> named y).
Proof.
  intros x y H. split; [split|]; intros C; apply clos_rt_rt1n in C.
  - induction C; [apply rt_refl|]. apply (named_step _ H) in H0. apply rt_trans with y; [apply rt_step; auto|]. apply IHC. eapply named_step; eauto.
  - induction C; [apply rt_refl|]. apply rt_trans with y; [apply rt_step; apply named_step; auto|]. apply IHC. eapply named_step; eauto.
  - induction C; auto. apply IHC. eapply named_step; eauto.
Qed.
Lemma named_tc : forall x y, named x -> (clos_trans _ (needs J) x y <-> clos_trans _ (needs RQ) x y).
Proof.
  intros x y H. split; intros C; apply clos_trans_t1n in C.
  - induction C; [apply t_step; apply named_step; auto|]. apply (named_step _ H) in H0. apply t_trans with y; [apply t_step; auto|]. apply IHC. eapply named_step; eauto.
  - induction C; [apply t_step; apply named_step; auto|]. apply t_trans with y; [apply t_step; apply named_step; auto|]. apply IHC. eapply named_step; eauto.
Qed.
Lemma good_named : forall l, good J l -> (forall n, In n l -> named n) -> good RQ l.
Proof.
  induction 1 as [|l x r G IH Nx E Hr]; intros H; [constructor|].
  assert (G' : good RQ l) by (apply IH; intros; apply H; apply in_or_app; auto).
  apply good_snoc with r; auto. rewrite <- J_requires; auto. apply H. apply in_or_app. cbn; auto.
Qed.

Lemma sorted_ok : forall fuel names l, get_sorted_dependencies fuel ri ci names = Ok l ->
  good RQ l /\ (forall k, In k names -> look k ci <> None) /\
  forall y, In y l <-> exists k, In k names /\ clos_refl_trans _ (needs RQ) (true, k) y.
Proof.
  intros fuel names l E. destruct (@sorted_sound ri ci D _ _ _ _ E) as (G & Hc & H); [constructor|].
  fold J in G, H.
  assert (H' : forall y, In y l <-> exists k, In k names /\ clos_refl_trans _ (needs RQ) (true, k) y).
  { intros y. rewrite H. cbn. split; [intros [[]|(k & Hk & C)]|intros (k & Hk & C); right]; exists k; split; auto;
    (apply (@named_rt (true, k) y); [right; auto|auto]). }
  split; auto. apply good_named; auto. intros n Hn. apply H' in Hn. destruct Hn as (k & Hk & C).
  eapply named_rt; [|eauto]. right. auto.
Qed.
Lemma sorted_err : forall fuel names e, get_sorted_dependencies fuel ri ci names = Err e -> 2 * (length ri + length ci) < fuel ->
  (e = KeyError /\ exists k, In k names /\ look k ci = None) \/
  (e = ValueError /\ exists k y, In k names /\ clos_refl_trans _ (needs RQ) (true, k) y /\ (RQ y = None \/ clos_trans _ (needs RQ) y y)).
Proof.
  intros fuel names e E Hf. destruct (@sorted_complete ri ci D _ _ _ _ E Hf) as [|(He & k & y & Hk & Hc & C & H)]; auto.
  right. split; auto. exists k, y. assert (N1 : named (true, k)) by (right; auto).
  assert (C' : clos_refl_trans _ (needs RQ) (true, k) y) by (apply (named_rt _ N1); auto). assert (N2 : named y) by (apply (named_rt _ N1); auto).
  split; auto. split; auto. fold J in H. rewrite <- J_requires by auto. destruct H; auto. right. apply named_tc; auto.
Qed.
End Kinds.

(** ** The chunked definitions *)
Definition untagged (ri ci : info) : Prop :=
  forall k l, In (k, l) (ri ++ ci) -> snd k = None /\ forall n : name, In n l -> snd (snd n) = None.

Lemma look_app : forall A k (d e : list (key * A)), look k (d ++ e) = match look k d with Some v => Some v | None => look k e end.
Proof. induction d as [|[k' a] t IH]; intros e; cbn; auto. destruct (key_dec k k'); auto. Qed.
Lemma look_process : forall d nch k i, (forall k l, In (k, l) d -> snd k = None) -> i < nch ->
  look (k, Some i) (process_reqs_coefs d nch) = option_map (map (tag_name i)) (look (k, None) d).
Proof.
  intros d nch k i. induction d as [|[k' l] t IH]; intros U Hi; auto. cbn [process_reqs_coefs flat_map fst snd].
  fold (process_reqs_coefs t nch). rewrite look_app, IH by (auto; intros; eapply U; cbn; eauto).
  assert (U1 : snd k' = None) by (eapply U; cbn; eauto). destruct k' as [k' o]. cbn in U1. subst o. cbn [look fst].
  assert (R : forall a m, look (k, Some i) (map (fun j => ((k', Some j), map (tag_name j) l)) (seq a m)) =
              if Nat.eq_dec k k' then (if (a <=? i) && (i <? a + m) then Some (map (tag_name i) l) else None) else None).
  { intros a m. revert a. induction m as [|m IHm]; intros a; cbn [seq map look].
    - destruct (Nat.eq_dec k k'); auto. destruct (Nat.leb_spec a i), (Nat.ltb_spec i (a + 0)); cbn [andb]; auto; lia.
    - rewrite IHm. destruct (key_dec (k, Some i) (k', Some a)) as [E|E].
      + inversion E; subst. destruct (Nat.eq_dec k' k'); [|congruence]. replace ((a <=? a) && (a <? a + S m)) with true; auto.
        symmetry. apply andb_true_iff. split; [apply Nat.leb_le|apply Nat.ltb_lt]; lia.
      + destruct (Nat.eq_dec k k') as [->|]; auto. assert (a <> i) by (intros ->; apply E; auto).
        replace ((S a <=? i) && (i <? S a + m)) with ((a <=? i) && (i <? a + S m)); auto.
        apply eq_true_iff_eq. rewrite !andb_true_iff, !Nat.leb_le, !Nat.ltb_lt. lia. }
  rewrite R. destruct (Nat.eq_dec k k') as [->|D].
  - destruct (key_dec (k', None) (k', None)); [|congruence].
    replace ((0 <=? i) && (i <? 0 + nch)) with true; auto. symmetry. apply andb_true_iff. split; [apply Nat.leb_le|apply Nat.ltb_lt]; lia.
  - destruct (key_dec (k, None) (k', None)); [congruence|]. auto.
Qed.
Lemma in_process : forall d nch k l, In (k, l) (process_reqs_coefs d nch) -> exists k0 l0 i, In (k0, l0) d /\ i < nch /\ k = (fst k0, Some i) /\ l = map (tag_name i) l0.
Proof.
  intros d nch k l H. apply in_flat_map in H. destruct H as ([k0 l0] & Hd & H). apply in_map_iff in H. destruct H as (i & E & Hi).
  apply in_seq in Hi. cbn in E. inversion E; subst. exists k0, l0, i. repeat split; auto. lia.
Qed.
Lemma tag_rm : forall i n, rm_chtag (tag_name i n) = rm_chtag n.
Proof. intros i [b [k o]]. reflexivity. Qed.
Lemma rm_untagged : forall n : name, snd (snd n) = None -> rm_chtag n = n.
Proof. intros [b [k o]] E. cbn in E. subst. reflexivity. Qed.

Section Chunked.
Variables ri ci : info.
Variable nch : nat.
Hypothesis U : untagged ri ci.
Let ric := process_reqs_coefs ri nch.
Let cic := process_reqs_coefs ci nch.
Let Uri : forall k l, In (k, l) ri -> snd k = None. Proof. intros. eapply U. apply in_or_app. eauto. Qed.
Let Uci : forall k l, In (k, l) ci -> snd k = None. Proof. intros. eapply U. apply in_or_app. eauto. Qed.

Lemma requires_tag : forall i n, i < nch -> snd (snd n) = None -> requires ric cic (tag_name i n) = option_map (map (tag_name i)) (requires ri ci n).
Proof.
  intros i [b [k o]] Hi E. cbn in E. subst. unfold requires. cbn. destruct b; apply look_process; auto.
Qed.
Lemma chunk_requires_tag : forall i n, snd (snd n) = None -> chunk_requires ri ci (tag_name i n) = option_map (map (tag_name i)) (requires ri ci n).
Proof. intros i [b [k o]] E. cbn in E. subst. unfold chunk_requires, chunk_req_info, requires. cbn. destruct b; destruct (look (k, None) _); auto. Qed.
Lemma requires_chunk : forall n, requires ric cic n <> None -> exists i m, i < nch /\ snd (snd m) = None /\ n = tag_name i m.
Proof.
  intros [b [k o]] H. unfold requires in H. cbn in H.
  assert (E : exists k0 l0 i, In (k0, l0) (ri ++ ci) /\ i < nch /\ (k, o) = (fst k0, Some i)).
  { destruct b; apply look_in in H; apply in_map_iff in H; destruct H as ((k1 & l1) & E & H); cbn in E; subst k1; apply in_process in H;
      destruct H as (k0 & l0 & i & H1 & H2 & H3 & H4); exists k0, l0, i; rewrite in_app_iff; auto. }
  destruct E as (k0 & l0 & i & Hk & Hi & E). inversion E; subst. exists i, (b, (fst k0, None)). auto.
Qed.
Lemma requires_chunk_eq : forall n, requires ric cic n <> None -> chunk_requires ri ci n = requires ric cic n.
Proof. intros n H. destruct (requires_chunk _ H) as (i & m & Hi & Hm & ->). rewrite chunk_requires_tag, requires_tag; auto. Qed.

Lemma requires_untagged : forall n l m, requires ri ci n = Some l -> In m l -> snd (snd m) = None.
Proof. intros n l m E H. unfold requires in E. eapply U; [|eauto]. rewrite in_app_iff. destruct (fst n); apply look_In in E; eauto. Qed.
Lemma tag_inj : forall i j n m, snd (snd n) = None -> snd (snd m) = None -> tag_name i n = tag_name j m -> n = m /\ i = j.
Proof. intros i j [b [k o]] [b' [k' o']] E1 E2 E. cbn in *. subst. inversion E; subst. auto. Qed.
Notation RQ := (requires ri ci).
Notation RC := (requires ric cic).
Lemma needs_tag : forall i n m, i < nch -> snd (snd n) = None -> needs RQ n m -> needs RC (tag_name i n) (tag_name i m).
Proof. intros i n m Hi Hn (l & E & Hl). exists (map (tag_name i) l). split; [rewrite requires_tag, E; auto|]. apply in_map. auto. Qed.
Lemma needs_untag : forall i n y, i < nch -> snd (snd n) = None -> needs RC (tag_name i n) y -> exists m, snd (snd m) = None /\ y = tag_name i m /\ needs RQ n m.
Proof.
  intros i n y Hi Hn (l & E & Hl). rewrite requires_tag in E by auto. destruct (RQ n) as [l0|] eqn:E0; [|discriminate].
  cbn in E. inversion E; subst. apply in_map_iff in Hl. destruct Hl as (m & <- & Hm). exists m. split; [eapply requires_untagged; eauto|]. split; auto. exists l0. auto.
Qed.
Lemma rt_tag : forall i n m, i < nch -> snd (snd n) = None -> clos_refl_trans _ (needs RQ) n m -> clos_refl_trans _ (needs RC) (tag_name i n) (tag_name i m).
Proof.
  intros i n m Hi Hn C. apply clos_rt_rt1n in C. induction C; [apply rt_refl|]. apply rt_trans with (tag_name i y); [apply rt_step; apply needs_tag; auto|].
  apply IHC. destruct H as (l & E & Hl). eapply requires_untagged; eauto.
Qed.
Lemma rt_untag : forall i n y, i < nch -> snd (snd n) = None -> clos_refl_trans _ (needs RC) (tag_name i n) y -> exists m, snd (snd m) = None /\ y = tag_name i m /\ clos_refl_trans _ (needs RQ) n m.
Proof.
  intros i n y Hi Hn C. apply clos_rt_rt1n in C. remember (tag_name i n) as x eqn:Ex. revert n Hn Ex. induction C as [x|x y z H C IH]; intros n Hn ->.
  - exists n. split; auto. split; auto. apply rt_refl.
  - destruct (@needs_untag i n y Hi Hn H) as (m & Hm & -> & Hnm). destruct (IH m Hm eq_refl) as (m' & H1 & H2 & H3). exists m'. split; auto. split; auto.
    apply rt_trans with m; auto. apply rt_step. auto.
Qed.
Lemma tc_untag : forall i n y, i < nch -> snd (snd n) = None -> clos_trans _ (needs RC) (tag_name i n) y -> exists m, snd (snd m) = None /\ y = tag_name i m /\ clos_trans _ (needs RQ) n m.
Proof.
  intros i n y Hi Hn C. apply clos_trans_t1n in C. remember (tag_name i n) as x eqn:Ex. revert n Hn Ex. induction C as [x y H|x y z H C IH]; intros n Hn ->.
  - destruct (@needs_untag i n y Hi Hn H) as (m & Hm & -> & Hnm). exists m. split; auto. split; auto. apply t_step. auto.
  - destruct (@needs_untag i n y Hi Hn H) as (m & Hm & -> & Hnm). destruct (IH m Hm eq_refl) as (m' & H1 & H2 & H3). exists m'. split; auto. split; auto.
    apply t_trans with m; auto. apply t_step. auto.
Qed.
Lemma look_chunk_none : forall d k, look k (process_reqs_coefs d nch) <> None -> exists i, snd k = Some i /\ i < nch.
Proof.
  intros d k H. apply look_in in H. apply in_map_iff in H. destruct H as ((k1 & l1) & E & H). cbn in E; subst k1. apply in_process in H.
  destruct H as (k0 & l0 & i & H1 & H2 & -> & H4). exists i. auto.
Qed.
Lemma disjoint_chunk : disjoint ri ci -> disjoint ric cic.
Proof.
  intros D [k o]. destruct o as [i|].
  - destruct (Nat.lt_ge_cases i nch) as [L|L].
    + unfold ric, cic. rewrite !look_process by auto. destruct (D (k, None)) as [->| ->]; auto.
    + left. destruct (look (k, Some i) ric) eqn:E; auto. destruct (@look_chunk_none ri (k, Some i)) as (j & Ej & Hj); [fold ric; congruence|]. cbn in Ej. inversion Ej. lia.
  - left. destruct (look (k, None) ric) eqn:E; auto. destruct (@look_chunk_none ri (k, None)) as (j & Ej & Hj); [fold ric; congruence|]. cbn in Ej. discriminate.
Qed.
Lemma kinds_chunk : kinds_ok ri ci -> kinds_ok ric cic.
Proof.
  intros K n (k & l & Hk & Hn) H.
  assert (E : exists i m, i < nch /\ mentioned ri ci m /\ n = tag_name i m).
  { apply in_app_or in Hk. destruct Hk as [Hk|Hk]; apply in_process in Hk; destruct Hk as (k0 & l0 & i & H1 & H2 & -> & ->);
    apply in_map_iff in Hn; destruct Hn as (m & <- & Hm); exists i, m; split; auto; split; auto; exists k0, l0; rewrite in_app_iff; auto. }
  destruct E as (i & m & Hi & Hm & ->).
  assert (Um : snd (snd m) = None) by (destruct Hm as (k0 & l0 & H1 & H2); eapply U; eauto).
  rewrite requires_tag by auto. specialize (K m Hm). destruct (RQ m); [discriminate|]. exfalso. apply K; auto.
  unfold reqcoef_info in *. destruct m as [b [k0 o]]. cbn in Um. subst o. cbn in H |- *. unfold ric, cic in H. rewrite !look_process in H by auto.
  destruct (look (k0, None) ri); [discriminate|]. destruct (look (k0, None) ci); [discriminate|]. auto.
Qed.
End Chunked.

(** ** Values *)
Definition slice {A} (p : nat * nat) (v : list A) : list A := firstn (snd p - fst p) (skipn (fst p) v).
Lemma nth_skipn : forall A (d : A) a v im, nth im (skipn a v) d = nth (a + im) v d.
Proof. induction a as [|a IH]; intros [|x v] im; cbn; auto; destruct im; auto. Qed.
Lemma nth_firstn : forall A (d : A) k v im, im < k -> nth im (firstn k v) d = nth im v d.
Proof. induction k as [|k IH]; intros [|x v] im H; cbn; auto; try lia. destruct im; auto. apply IH. lia. Qed.
Lemma nth_slice : forall A (d : A) p v im, im < snd p - fst p -> nth im (slice p v) d = nth (fst p + im) v d.
Proof. intros. unfold slice. rewrite nth_firstn, nth_skipn; auto. Qed.
Lemma skipn_seq : forall a m i, skipn a (seq i m) = seq (i + a) (m - a).
Proof. induction a as [|a IH]; intros m i; cbn; [rewrite Nat.add_0_r, Nat.sub_0_r; auto|]. destruct m; cbn; auto. rewrite IH. f_equal. lia. Qed.
Lemma firstn_seq : forall a m i, a <= m -> firstn a (seq i m) = seq i a.
Proof. induction a as [|a IH]; intros m i H; cbn; auto. destruct m; [lia|]. cbn. rewrite IH by lia. auto. Qed.
Lemma slice_map_seq : forall A (f : nat -> A) N p, fst p <= snd p -> snd p <= N -> slice p (map f (seq 0 N)) = map (fun im => f (fst p + im)) (seq 0 (snd p - fst p)).
Proof.
  intros A f N p H1 H2. unfold slice. rewrite skipn_map, firstn_map, skipn_seq, firstn_seq by lia.
  cbn [Nat.add]. remember (snd p - fst p) as k. clear. revert p. 
  assert (G : forall a, seq a k = map (fun im => a + im) (seq 0 k)).
  { intros a. induction k; auto. rewrite !seq_S, map_app, IHk. auto. }
  intros p. rewrite G, map_map. auto.
Qed.
