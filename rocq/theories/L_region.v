(** Lemmas about regions. *)
From Verif Require Import Base M_mesh L_mesh M_region.
Open Scope nat_scope.
Set Implicit Arguments.

Lemma irow_of_rows : forall rows i, irow (of_rows rows) i = nth i rows [].
Proof.
  intros rows i. destruct (Nat.lt_ge_cases i (length rows)).
  - apply full_irow; auto. apply of_rows_full.
  - rewrite nth_overflow by auto. unfold irow, crow, of_rows. simpl.
    rewrite (nth_overflow (cumsum 0 _) 0) by (rewrite length_cumsum, map_length; lia).
    simpl. auto.
Qed.

Lemma num_of_rows : forall rows, c_num (of_rows rows) = length rows.
Proof. intros. unfold c_num, of_rows. simpl. rewrite length_cumsum, map_length. lia. Qed.

Lemma filter_all : forall A (p : A -> bool) l, length (filter p l) = length l <-> forall x, In x l -> p x = true.
Proof.
  induction l as [|h t IH]; simpl; [tauto|].
  destruct (p h) eqn:E; simpl.
  - rewrite Nat.succ_inj_wd, IH. split; intros H; [intros x [<-|Hx]|]; auto.
  - split.
    + intros H. assert (length (filter p t) <= length t) by (clear; induction t; simpl; auto; destruct (p a); simpl; lia). lia.
    + intros H. rewrite H in E by auto. discriminate.
Qed.

Lemma complete_In : forall rows n ents i, (forall row, In row rows -> forall x, In x row -> x < n) ->
  (In i (get_complete (of_rows rows) n ents) <-> ents <> [] /\ i < length rows /\ incl (nth i rows []) ents).
Proof.
  intros rows n ents i Hb. unfold get_complete. destruct ents as [|e0 es].
  - simpl. split; [tauto|]. intros [H _]. congruence.
  - set (ents := e0 :: es). rewrite filter_In, in_seq, num_of_rows, irow_of_rows, Nat.eqb_eq, filter_all.
    split.
    + intros [[_ H1] H2]. split; [discriminate|]. split; auto. intros x Hx. specialize (H2 x Hx).
      rewrite nth_put1 in H2 by (rewrite repeat_length; eapply Hb; [apply nth_In|]; eauto).
      destruct (in_dec Nat.eq_dec x ents); auto; exfalso.
      rewrite nth_repeat in H2. discriminate.
    + intros (_ & H1 & H2). split; [lia|]. intros x Hx.
      rewrite nth_put1 by (rewrite repeat_length; eapply Hb; [apply nth_In|]; eauto).
      destruct (in_dec Nat.eq_dec x ents) as [|N]; [|exfalso; apply N; auto]. auto.
Qed.
Lemma complete_sinc : forall rows n ents, sinc (get_complete (of_rows rows) n ents).
Proof.
  intros. unfold get_complete. destruct ents; [constructor|]. apply sinc_filter. apply sinc_seq.
Qed.

Lemma incident_In : forall rows ents x, In x (get_incident (of_rows rows) ents) <-> exists e, In e ents /\ In x (nth e rows []).
Proof.
  intros. unfold get_incident. rewrite in_concat. split.
  - intros (l & Hl & Hx). apply in_map_iff in Hl. destruct Hl as (e & <- & He). rewrite irow_of_rows in Hx. eauto.
  - intros (e & He & Hx). exists (irow (of_rows rows) e). rewrite irow_of_rows. split; auto.
    apply in_map_iff. exists e. rewrite irow_of_rows. auto.
Qed.

(** ** Determination of the entities *)
Definition wf (r : region) : Prop :=
  length (r_ents r) = S (r_tdim r) /\ 1 <= r_tdim r /\
  (forall d, d <= r_tdim r -> can (r_tdim r) (r_kind r) d = false -> ents_of r d = Some []).
Definition valid_kind (tdim : nat) (k : rkind) : Prop :=
  1 <= tdim <= 3 /\ kind_tdim tdim k <= tdim /\ can tdim k (kind_tdim tdim k) = true.

Lemma can_above : forall tdim k d, valid_kind tdim k -> kind_tdim tdim k < d <= tdim -> can tdim k d = false.
Proof.
  intros tdim [b o] d ((H1 & H2) & H3 & H4) Hd.
  assert (tdim = 1 \/ tdim = 2 \/ tdim = 3) as [E|[E|E]] by lia; subst tdim;
  destruct b, o; unfold kind_tdim in *; simpl in *; try lia;
  (assert (d = 1 \/ d = 2 \/ d = 3) as [-> |[-> | ->]] by lia); auto; try lia.
Qed.

Lemma ents_set : forall r d v e, d <= r_tdim r -> wf r -> ents_of (set_ents r d v) e = if e =? d then Some v else ents_of r e.
Proof.
  intros r d v e Hd (L & _). unfold ents_of, set_ents. simpl. rewrite nth_upd.
  destruct (e =? d); simpl; auto. destruct (Nat.ltb_spec d (length (r_ents r))); auto. lia.
Qed.

Lemma wf_set : forall r d v, wf r -> d <= r_tdim r -> can (r_tdim r) (r_kind r) d = true -> wf (set_ents r d v).
Proof.
  intros r d v W Hd Hc. pose proof W as (L & T & C). split; [simpl; rewrite length_upd; auto|].
  split; auto. simpl. intros e He He'. rewrite ents_set by auto. destruct (Nat.eqb_spec e d); subst; [congruence|]. auto.
Qed.

Lemma wf_flag : forall r b, wf r -> wf (set_is_empty r b).
Proof. intros r b (L & T & C). split; auto. Qed.

Lemma ents_set_kind : forall r k d, d <= r_tdim r ->
  ents_of (set_kind r k) d = if can (r_tdim r) k d then ents_of r d else Some [].
Proof.
  intros r k d Hd.
  change (ents_of (set_kind r k) d) with
    (nth d (map (fun d => if can (r_tdim r) k d then ents_of r d else Some []) (seq 0 (S (r_tdim r)))) None).
  rewrite nth_map_in with (da := 0) by (rewrite seq_length; lia). rewrite seq_nth by lia. auto.
Qed.

Lemma wf_set_kind : forall r k, length (r_ents r) = S (r_tdim r) -> 1 <= r_tdim r -> wf (set_kind r k).
Proof.
  intros r k L T. split; [unfold set_kind; cbn [r_ents r_tdim]; rewrite map_length, seq_length; auto|]. split; auto.
  intros d Hd Hc. change (r_tdim (set_kind r k)) with (r_tdim r) in *. change (r_kind (set_kind r k)) with k in Hc.
  rewrite ents_set_kind by auto. rewrite Hc. auto.
Qed.

Lemma wf_new : forall tdim k, 1 <= tdim -> wf (new_region tdim k).
Proof. intros. apply wf_set_kind; auto. simpl. rewrite repeat_length. auto. Qed.

(** Same dimension, kind; determined entities are kept. *)
Record ext (r r' : region) : Prop := {
  e_wf : wf r'; e_tdim : r_tdim r' = r_tdim r; e_kind : r_kind r' = r_kind r;
  e_keep : forall e v, e <= r_tdim r -> ents_of r e = Some v -> ents_of r' e = Some v }.

Lemma ext_refl : forall r, wf r -> ext r r.
Proof. intros. constructor; auto. Qed.
Lemma ext_trans : forall a b c, ext a b -> ext b c -> ext a c.
Proof.
  intros a b c [A1 A2 A3 A4] [B1 B2 B3 B4]. constructor; auto; try congruence.
  intros e v He H. apply B4; [congruence|]. auto.
Qed.

Lemma ext_set : forall r d v, wf r -> d <= r_tdim r -> can (r_tdim r) (r_kind r) d = true -> ents_of r d = None ->
  ext r (set_ents r d v).
Proof.
  intros r d v W Hd Hc N. constructor; auto; [apply wf_set; auto|].
  intros e w He H. rewrite ents_set by auto. destruct (Nat.eqb_spec e d); auto. subst. congruence.
Qed.

Lemma access_ext : forall M fuel r d r', wf r -> d <= r_tdim r -> access M fuel r d = Ok r' ->
  ext r r' /\ (exists v, ents_of r' d = Some v).
Proof.
  induction fuel as [|fuel IH]; intros r d r' W Hd H; [discriminate|]. cbn [access] in H.
  destruct (ents_of r d) as [v|] eqn:Ed.
  - inversion H; subst. split; [apply ext_refl; auto|eauto].
  - assert (Hc : can (r_tdim r) (r_kind r) d = true).
    { destruct (can (r_tdim r) (r_kind r) d) eqn:E; auto. apply (proj2 (proj2 W)) in E; auto. congruence. }
    destruct ((d =? r_tdim r) || negb (d =? 0) && kind_is r d) eqn:EB.
    + rewrite Hc in H. simpl in H. destruct (access M fuel r 0) as [r1|e] eqn:E1; [|discriminate].
      simpl in H. inversion H; subst; clear H. apply IH in E1; auto; [|lia]. destruct E1 as [X _].
      destruct X as [X1 X2 X3 X4].
      assert (Hd' : d <= r_tdim r1) by congruence. split.
      * constructor; auto.
        -- apply wf_set; auto. congruence.
        -- intros e w He Hw. rewrite ents_set by auto. destruct (Nat.eqb_spec e d); auto. subst. congruence.
      * rewrite ents_set by auto. rewrite Nat.eqb_refl. eauto.
    + destruct (Nat.eqb_spec d (r_tdim r)) as [E|N]; [discriminate|]. 
      destruct (access M fuel r (S d)) as [r1|e] eqn:E1; [|discriminate]. simpl in H.
      apply IH in E1; auto; [|lia]. destruct E1 as [X [vS HS]]. destruct X as [X1 X2 X3 X4].
      assert (Hd' : d <= r_tdim r1) by congruence.
      unfold setup_from_highest in H. rewrite X2, X3, Hc in H. simpl in H.
      assert (K : forall v, ext r (set_ents r1 d v) /\ exists w, ents_of (set_ents r1 d v) d = Some w).
      { intros v. split.
        - constructor; auto; [apply wf_set; auto; congruence|]. intros e w He Hw. rewrite ents_set by auto.
          destruct (Nat.eqb_spec e d); auto. subst. congruence.
        - rewrite ents_set by auto. rewrite Nat.eqb_refl. eauto. }
      destruct (highest r1) as [idim|].
      * destruct (idim <=? d); inversion H; subst; apply K.
      * destruct (r_is_empty r1); [|discriminate]. simpl in H. inversion H; subst; clear H.
        destruct (ents_of r1 d) as [v|] eqn:E2.
        -- split; [|exists v; exact E2]. constructor; auto.
        -- destruct (K []) as [[K1 K2 K3 K4] [w K5]]. split; [|exists w; exact K5].
           constructor; auto.
Qed.

Lemma find_rev_none : forall p n, find p (rev (seq 0 n)) = None <-> forall d, d < n -> p d = false.
Proof.
  intros. split.
  - intros H d Hd. apply find_none with (x := d) in H; auto. apply -> in_rev. apply in_seq. lia.
  - intros H. destruct (find p (rev (seq 0 n))) as [x|] eqn:E; auto. apply find_some in E. destruct E as [E1 E2].
    apply in_rev in E1. apply in_seq in E1. rewrite H in E2 by lia. discriminate.
Qed.
Lemma find_rev_some : forall p n x, find p (rev (seq 0 n)) = Some x <-> x < n /\ p x = true /\ forall d, x < d < n -> p d = false.
Proof.
  induction n as [|n IH]; intros x.
  - simpl. split; [discriminate|lia].
  - rewrite seq_S, rev_app_distr. simpl. destruct (p n) eqn:E.
    + split.
      * intros H; inversion H; subst. repeat split; auto. intros; lia.
      * intros (H1 & H2 & H3). destruct (Nat.eq_dec x n); [subst; auto|]. rewrite H3 in E by lia. discriminate.
    + rewrite IH. split.
      * intros (H1 & H2 & H3). repeat split; auto. intros d Hd. destruct (Nat.eq_dec d n); [subst; auto|]. apply H3. lia.
      * intros (H1 & H2 & H3). assert (x <> n) by congruence. repeat split; auto; [lia|]. intros d Hd. apply H3. lia.
Qed.

Section Fin.
Variable M : mesh_rows.
Variable tdim : nat.
Variable kd : rkind.
Hypothesis VK : valid_kind tdim kd.
Let k := kind_tdim tdim kd.

(** Entities of dimension [d] of the entities [K] of the kind dimension. *)
Definition derived (K : list nat) (d : nat) : list nat := unique (cm_incident M d K k).

(** [P d]: dimension [d] is already regenerated. *)
Record fin (P : nat -> Prop) (r : region) (K : list nat) : Prop := {
  f_wf : wf r; f_tdim : r_tdim r = tdim; f_kind : r_kind r = kd;
  f_k : ents_of r k = Some K;
  f_low : forall d v, d < k -> P d -> can tdim kd d = true -> ents_of r d = Some v -> v = derived K d;
  f_empty : K = [] -> r_is_empty r = true }.

Lemma f_high : forall P r K d, fin P r K -> k < d <= tdim -> ents_of r d = Some [].
Proof.
  intros P r K d F Hd. pose proof (f_wf F) as (L & T & C). rewrite (f_tdim F), (f_kind F) in *.
  apply C; [lia|]. apply can_above; auto.
Qed.

Lemma highest_full : forall P r K, fin P r K -> K <> [] -> highest r = Some k.
Proof.
  intros P r K F HK. unfold highest. rewrite (f_tdim F). apply find_rev_some.
  destruct VK as (V1 & V2 & V3). fold k in V2, V3. split; [lia|]. rewrite (f_k F). split; [destruct K; auto; congruence|].
  intros d Hd. rewrite (f_high F) by lia. auto.
Qed.

Lemma derived_nil : forall d, derived [] d = [].
Proof. reflexivity. Qed.

Definition all (d : nat) : Prop := True.

Lemma step_fin : forall r K d, fin all r K -> d < k -> can tdim kd d = true -> ents_of r d = None ->
  exists r', setup_from_highest M r d true false = Ok r' /\ fin all r' K /\ ents_of r' d = Some (derived K d).
Proof.
  intros r K d F Hd Hc N. unfold setup_from_highest. rewrite (f_tdim F), (f_kind F), Hc. simpl.
  pose proof (f_wf F) as W. destruct VK as (V1 & V2 & V3). fold k in V2, V3.
  assert (Hd' : d <= r_tdim r) by (rewrite (f_tdim F); lia).
  assert (Z : fin all (set_ents r d (derived K d)) K /\ ents_of (set_ents r d (derived K d)) d = Some (derived K d)).
  { split.
    - constructor; auto.
      + apply wf_set; auto. rewrite (f_tdim F), (f_kind F). auto.
      + apply (f_tdim F).
      + apply (f_kind F).
      + rewrite ents_set by auto. destruct (Nat.eqb_spec k d); [lia|]. apply (f_k F).
      + intros e v He _ Hce. rewrite ents_set by auto. destruct (Nat.eqb_spec e d); [congruence|]. apply (f_low F); auto. exact I.
      + apply (f_empty F).
    - rewrite ents_set by auto. rewrite Nat.eqb_refl. auto. }
  destruct K as [|x K'].
  - assert (Hn : highest r = None).
    { unfold highest. apply find_rev_none. intros e He. rewrite (f_tdim F) in He.
      destruct (Nat.lt_trichotomy e k) as [L|[L|L]].
      - destruct (can tdim kd e) eqn:Ce.
        + destruct (ents_of r e) as [v|] eqn:Ee; auto. rewrite (f_low F L I Ce Ee). auto.
        + destruct W as (_ & _ & C). rewrite (f_tdim F), (f_kind F) in C. rewrite C by (auto; lia). auto.
      - subst. rewrite (f_k F). auto.
      - rewrite (f_high F) by lia. auto. }
    rewrite Hn, (f_empty F eq_refl), N. simpl. eexists. split; [reflexivity|].
    destruct Z as [[Z1 Z2 Z3 Z4 Z5 Z6] Z7]. rewrite derived_nil in *. split; [constructor; auto|exact Z7].
  - rewrite (highest_full F) by discriminate. destruct (Nat.leb_spec k d); [lia|]. rewrite (f_k F). simpl.
    eexists. split; [reflexivity|]. exact Z.
Qed.

Lemma access_fin : forall fuel r K d, fin all r K -> d <= k -> k - d < fuel ->
  exists r', access M fuel r d = Ok r' /\ fin all r' K /\
    ents_of r' d = Some (if d =? k then K else if can tdim kd d then derived K d else []).
Proof.
  induction fuel as [|fuel IH]; intros r K d F Hd Hf; [lia|]. cbn [access].
  destruct VK as (V1 & V2 & V3). fold k in V2, V3.
  destruct (Nat.eqb_spec d k) as [E|Ne].
  - subst d. rewrite (f_k F). exists r. split; auto. split; auto. apply (f_k F).
  - assert (Hlt : d < k) by lia. destruct (can tdim kd d) eqn:Hc.
    + destruct (ents_of r d) as [v|] eqn:Ed.
      * exists r. split; auto. split; auto. rewrite Ed. f_equal. apply (f_low F); auto. exact I.
      * rewrite (f_tdim F). destruct (Nat.eqb_spec d tdim); [lia|]. simpl.
        assert (KI : kind_is r d = false).
        { unfold kind_is. rewrite (f_kind F). unfold k, kind_tdim in Hlt. destruct (k_base kd); auto;
          destruct d as [|[|[|d]]]; auto; lia. }
        rewrite KI, andb_false_r.
        destruct (IH r K (S d) F ltac:(lia) ltac:(lia)) as (r1 & E1 & F1 & _). rewrite E1. simpl.
        destruct (ents_of r1 d) as [v|] eqn:Ed1.
        -- (* cannot happen, but harmless *)
           assert (v = derived K d) by (apply (f_low F1); auto; exact I). subst v.
           assert (Hd1 : d <= r_tdim r1) by (rewrite (f_tdim F1); lia).
           unfold setup_from_highest. rewrite (f_tdim F1), (f_kind F1), Hc. simpl.
           destruct K as [|x K'].
           ++ assert (Hn : highest r1 = None).
              { unfold highest. apply find_rev_none. intros e He. rewrite (f_tdim F1) in He.
                destruct (Nat.lt_trichotomy e k) as [L|[L|L]].
                - destruct (can tdim kd e) eqn:Ce.
                  + destruct (ents_of r1 e) as [v|] eqn:Ee; auto. rewrite (f_low F1 L I Ce Ee). auto.
                  + destruct (f_wf F1) as (_ & _ & C). rewrite (f_tdim F1), (f_kind F1) in C. rewrite C by (auto; lia). auto.
                - subst. rewrite (f_k F1). auto.
                - rewrite (f_high F1) by lia. auto. }
              rewrite Hn, (f_empty F1 eq_refl), Ed1. simpl. eexists. split; [reflexivity|]. split.
              ** destruct F1. constructor; auto.
              ** exact Ed1.
           ++ rewrite (highest_full F1) by discriminate. destruct (Nat.leb_spec k d); [lia|]. rewrite (f_k F1). simpl.
              eexists. split; [reflexivity|]. destruct F1 as [A1 A2 A3 A4 A5 A6]. split.
              ** constructor; auto; [apply wf_set; auto; congruence|rewrite ents_set by auto; destruct (Nat.eqb_spec k d); [lia|auto]|].
                 intros e w He _ Hce. rewrite ents_set by auto. destruct (Nat.eqb_spec e d); [subst; intros Q; inversion Q; auto|].
                 apply A5; auto. exact I.
              ** rewrite ents_set by auto. rewrite Nat.eqb_refl. auto.
        -- destruct (step_fin F1 Hlt Hc Ed1) as (r2 & E2 & F2 & G2). exists r2. auto.
    + pose proof (f_wf F) as (L & T & C). rewrite (f_tdim F), (f_kind F) in C.
      rewrite C by (auto; lia). exists r. split; auto. split; auto. apply C; auto; lia.
Qed.

(** finalize *)
Lemma blank_spec : forall ds r, wf r -> r_tdim r = tdim -> r_kind r = kd -> (forall d, In d ds -> d <= tdim) ->
  let r' := fold_left (fun r d => set_ents r d []) ds r in
  wf r' /\ r_tdim r' = tdim /\ r_kind r' = kd /\ r_is_empty r' = r_is_empty r /\
  forall d, ents_of r' d = if in_dec Nat.eq_dec d ds then Some [] else ents_of r d.
Proof.
  induction ds as [|d ds IH]; intros r W T K Hb; simpl.
  - auto.
  - assert (Hd : d <= r_tdim r) by (rewrite T; apply Hb; simpl; auto).
    assert (W1 : wf (set_ents r d [])).
    { pose proof W as (L & T' & C). split; [simpl; rewrite length_upd; auto|]. split; auto. simpl.
      intros e He Hce. rewrite ents_set by auto. destruct (Nat.eqb_spec e d); auto. }
    destruct (IH (set_ents r d []) W1 T K) as (A & B & C & D & E); [intros; apply Hb; simpl; auto|].
    split; auto. split; auto. split; auto. split; auto. intros e. rewrite E, ents_set by auto.
    destruct (Nat.eqb_spec e d).
    + subst. destruct (in_dec Nat.eq_dec d ds); destruct (Nat.eq_dec d d); auto; congruence.
    + destruct (Nat.eq_dec d e); [congruence|]. destruct (in_dec Nat.eq_dec e ds); auto.
Qed.

Lemma final_step : forall ae r K d, fin (fun e => d < e) r K -> d < k -> (ae = false -> K <> []) ->
  let step := if can (r_tdim r) (r_kind r) d && match ents_of r d with Some _ => true | None => false end
    then setup_from_highest M r d false ae else Ok r in
  exists r', step = Ok r' /\ fin (fun e => d <= e) r' K.
Proof.
  intros ae r K d F Hd Hae step. unfold step; clear step. rewrite (f_tdim F), (f_kind F).
  pose proof (f_wf F) as W. destruct VK as (V1 & V2 & V3). fold k in V2, V3.
  assert (Hd' : d <= r_tdim r) by (rewrite (f_tdim F); lia).
  assert (F0 : ents_of r d = None \/ can tdim kd d = false -> fin (fun e => d <= e) r K).
  { intros Z. destruct F as [A1 A2 A3 A4 A5 A6]. constructor; auto. intros e v He Hde Hce Hv.
    destruct (Nat.eq_dec e d); [subst; destruct Z; congruence|]. apply A5; auto. lia. }
  destruct (can tdim kd d) eqn:Hc; [|simpl; eexists; split; eauto].
  destruct (ents_of r d) as [v|] eqn:Ed; [|simpl; eexists; split; eauto]. simpl.
  unfold setup_from_highest. rewrite (f_tdim F), (f_kind F), Hc. simpl.
  destruct K as [|x K'].
  - destruct ae; [|exfalso; apply Hae; auto]. simpl.
    destruct (highest r) as [j|] eqn:Hj.
    + unfold highest in Hj. rewrite (f_tdim F) in Hj. apply find_rev_some in Hj. destruct Hj as (J1 & J2 & J3).
      assert (Hjk : j < k).
      { destruct (Nat.lt_trichotomy j k) as [L|[L|L]]; auto.
        - subst j. rewrite (f_k F) in J2. discriminate.
        - rewrite (f_high F) in J2 by lia. discriminate. }
      destruct (Nat.leb_spec j d).
      * fold k. destruct (@blank_spec (rev (seq 0 k)) r W (f_tdim F) (f_kind F)) as (A & B & C & D & E).
        { intros e He. apply in_rev in He. apply in_seq in He. lia. }
        eexists. split; [reflexivity|]. constructor; auto.
        -- unfold set_is_empty, ents_of in *. simpl in *. rewrite E.
           destruct (in_dec Nat.eq_dec k (rev (seq 0 k))) as [I|I]; [apply in_rev in I; apply in_seq in I; lia|]. apply (f_k F).
        -- intros e w He _ Hce. unfold set_is_empty, ents_of in *. simpl in *. rewrite E.
           destruct (in_dec Nat.eq_dec e (rev (seq 0 k))) as [I|I]; [intros Q; inversion Q; auto|].
           exfalso. apply I. apply -> in_rev. apply in_seq. lia.
      * exfalso. destruct (can tdim kd j) eqn:Cj.
        -- destruct (ents_of r j) as [w|] eqn:Ej; [|discriminate]. pose proof (f_low F Hjk H Cj Ej) as Z. subst w. discriminate.
        -- pose proof W as (_ & _ & C). rewrite (f_tdim F), (f_kind F) in C. rewrite C in J2 by (auto; lia). discriminate.
    + rewrite Ed. eexists. split; [reflexivity|].
      unfold highest in Hj. rewrite (f_tdim F) in Hj. rewrite find_rev_none in Hj.
      destruct F as [A1 A2 A3 A4 A5 A6]. constructor; auto.
      intros e w He _ Hce Hw. change (ents_of r e = Some w) in Hw. specialize (Hj e ltac:(lia)). rewrite Hw in Hj.
      destruct w; [auto|discriminate].
  - rewrite (highest_full F) by discriminate. destruct (Nat.leb_spec k d); [lia|]. rewrite (f_k F). simpl.
    eexists. split; [reflexivity|]. destruct F as [A1 A2 A3 A4 A5 A6]. constructor; auto.
    + apply wf_set; auto. congruence.
    + rewrite ents_set by auto. destruct (Nat.eqb_spec k d); [lia|auto].
    + intros e w He Hde Hce. rewrite ents_set by auto. destruct (Nat.eqb_spec e d).
      * subst. intros Q; inversion Q; auto.
      * apply A5; auto. lia.
Qed.

Lemma final_loop : forall ae n r K, n <= k -> fin (fun e => n <= e) r K -> (ae = false -> K <> []) ->
  exists r', finalize_dims M ae (rev (seq 0 n)) r = Ok r' /\ fin all r' K.
Proof.
  induction n as [|n IH]; intros r K Hn F Hae.
  - exists r. split; auto. destruct F as [A1 A2 A3 A4 A5 A6]. constructor; auto. intros d v Hd _. apply A5; auto. lia.
  - unfold finalize_dims. rewrite seq_S, rev_app_distr. cbn [rev app fold_left]. 
    destruct (@final_step ae r K n F ltac:(lia) Hae) as (r1 & E1 & F1).
    cbn [bind plus]. rewrite E1. destruct (IH r1 K ltac:(lia) F1 Hae) as (r2 & E2 & F2). exists r2. split; auto.
Qed.

Lemma finalize_fin : forall ae r r', wf r -> r_tdim r = tdim -> r_kind r = kd -> finalize M r ae = Ok r' ->
  exists K r1, access M rec_limit r k = Ok r1 /\ ents_of r1 k = Some K /\ fin all r' K /\ (ae = false -> K <> []).
Proof.
  intros ae r r' W T Kd H. unfold finalize in H. rewrite T, Kd in H. fold k in H.
  destruct VK as (V1 & V2 & V3). fold k in V2, V3.
  destruct (access M rec_limit r k) as [r1|e] eqn:E1; [|discriminate].
  destruct (access_ext M rec_limit (r := r) (d := k)) with (r' := r1) as [X (K & HK)]; auto; [lia|].
  destruct X as [X1 X2 X3 X4]. simpl in H. rewrite HK in H. simpl get_or in H.
  exists K, r1. split; auto. split; auto.
  destruct ae.
  - simpl in H. set (r2 := set_is_empty r1 (length K =? 0)) in *.
    assert (F : fin (fun e => k <= e) r2 K).
    { constructor; auto; try (simpl; congruence); [intros; lia|]. intros ->. auto. }
    destruct (@final_loop true k r2 K (le_n k) F ltac:(discriminate)) as (r3 & E3 & F3). rewrite E3 in H. inversion H; subst.
    split; auto. discriminate.
  - destruct (length K =? 0) eqn:EK; [discriminate|]. simpl in H.
    assert (HKn : K <> []) by (intros ->; discriminate).
    assert (F : fin (fun e => k <= e) r1 K).
    { constructor; auto; try congruence; intros; lia. }
    destruct (@final_loop false k r1 K (le_n k) F ltac:(auto)) as (r3 & E3 & F3). rewrite E3 in H. inversion H; subst. auto.
Qed.
End Fin.
