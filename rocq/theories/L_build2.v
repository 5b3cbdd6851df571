(** mesh_build: the invariant of the construction of edges/faces. *)
From Verif Require Import Base M_mesh L_mesh L_build.
Open Scope nat_scope.

Lemma nth_firstn : forall A (l : list A) c k d, nth k (firstn c l) d = if k <? c then nth k l d else d.
Proof.
  induction l as [|x l IH]; intros [|c] [|k] d; simpl; auto.
  - destruct (S k <? S c); auto.
  - rewrite IH. reflexivity.
Qed.

Lemma concat_nth_pos : forall (ls : list (list nat)) c j, c < length ls -> j < length (nth c ls []) ->
  nth (length (concat (firstn c ls)) + j) (concat ls) 0 = nth j (nth c ls []) 0 /\
  length (concat (firstn c ls)) + j < length (concat ls).
Proof.
  intros ls c j Hc Hj. rewrite (split_nth _ ls c []) at 2 5 by auto. rewrite concat_app. simpl.
  rewrite app_nth2 by lia. rewrite !app_length.
  replace (length (concat (firstn c ls)) + j - length (concat (firstn c ls))) with j by lia.
  rewrite app_nth1 by auto. split; auto. lia.
Qed.

Lemma concat_nth_posG : forall A (ls : list (list A)) c j d, c < length ls -> j < length (nth c ls []) ->
  nth (length (concat (firstn c ls)) + j) (concat ls) d = nth j (nth c ls []) d.
Proof.
  intros A ls c j d Hc Hj. rewrite (split_nth _ ls c []) at 2 by auto. rewrite concat_app. simpl.
  rewrite app_nth2 by lia.
  replace (length (concat (firstn c ls)) + j - length (concat (firstn c ls))) with j by lia.
  rewrite app_nth1 by auto. auto.
Qed.

Lemma pos_concat : forall A (ls : list (list A)) p, p < length (concat ls) ->
  exists c j, c < length ls /\ j < length (nth c ls []) /\ p = length (concat (firstn c ls)) + j.
Proof.
  induction ls as [|l ls IH]; intros p H; simpl in *; [lia|]. rewrite app_length in H.
  destruct (Nat.lt_ge_cases p (length l)).
  - exists 0, p. simpl. split; [lia|]. auto.
  - destruct (IH (p - length l)) as (c & j & H1 & H2 & H3); [lia|].
    exists (S c), j. simpl. rewrite app_length. split; [lia|]. split; auto. lia.
Qed.

Section Build.
Variable cells : list (list nat).
Variable refs : nat -> list (list nat).
Variable cDD : conn.
Variable nb : list (list nat).
Let n_cell := length cells.
Let cD0 := of_rows cells.
Hypothesis Hrefs : forall c, c < n_cell -> forall e, In e (refs c) ->
  2 <= length e <= 4 /\ forall i, In i e -> i < length (nth c cells []).
Hypothesis Hnb : full cDD nb.
Hypothesis Hnbl : length nb = n_cell.
Hypothesis Hnbs : forall i j, i < n_cell -> j < n_cell ->
  (In j (nth i nb []) <-> i <> j /\ exists v, In v (nth i cells []) /\ In v (nth j cells [])).
Hypothesis Hnbb : forall i j, i < n_cell -> In j (nth i nb []) -> j < n_cell.

Definition G (c : nat) : list (list nat) := local_conn (nth c cells []) (refs c).
Hypothesis Hdeg : forall c, c < n_cell -> forall i j, i < length (G c) -> j < length (G c) -> i <> j ->
  ~ Permutation (nth i (G c) []) (nth j (G c) []).

(** No entity is a part of a larger entity of the same dimension. *)
Hypothesis Hconf : forall c c' g g', c < n_cell -> c' < n_cell -> In g (G c) -> In g' (G c') ->
  length g < length g' -> ~ incl g g'.

Definition is_loc (g : list nat) : Prop := exists c, c < n_cell /\ In g (G c).

Definition caps : list nat := map (fun ic => length (refs ic)) (seq 0 n_cell).
Definition Gflat (m : nat) : list (list nat) := concat (map G (seq 0 m)).
Definition Kflat (m : nat) : list (option nat) := concat (map (fun c => keys_from None (G c)) (seq 0 m)).

Lemma len_G : forall c, length (G c) = length (refs c).
Proof. intros. unfold G, local_conn. apply map_length. Qed.

Lemma G_len : forall c g, c < n_cell -> In g (G c) -> 2 <= length g <= 4 /\ forall v, In v g -> In v (nth c cells []).
Proof.
  intros c g Hc Hg. unfold G, local_conn in Hg. apply in_map_iff in Hg. destruct Hg as (e & <- & He).
  destruct (Hrefs c Hc e He) as [L B]. rewrite map_length. split; auto.
  intros v Hv. apply in_map_iff in Hv. destruct Hv as (i & <- & Hi). apply nth_In. auto.
Qed.

Record inv (done : list (list nat)) (cur : list nat) (ents : list (list nat)) (st : bstate) : Prop := {
  i_len : length done < n_cell;
  i_done : forall c, c < length done -> length (nth c done []) = length (G c);
  i_cur : length cur <= length (G (length done));
  i_rep : rep (b_cDd st) (done ++ cur :: repeat [] (n_cell - S (length done))) caps;
  i_off : b_off st = cumsum 0 (map (@length nat) ents);
  i_ind : b_ind st = concat ents;
  i_elen : forall g, In g ents -> is_loc g;
  i_id : forall p, p < length (concat (done ++ [cur])) -> nth p (concat (done ++ [cur])) 0 < length ents /\
           Permutation (nth (nth p (concat (done ++ [cur])) 0) ents []) (nth p (Gflat (S (length done))) []);
  i_first : forall p, p < length (concat (done ++ [cur])) ->
           (forall e, e < nth p (concat (done ++ [cur])) 0 -> In e (firstn p (concat (done ++ [cur])))) /\
           (~ In (nth p (concat (done ++ [cur])) 0) (firstn p (concat (done ++ [cur]))) ->
            nth (nth p (concat (done ++ [cur])) 0) ents [] = nth p (Gflat (S (length done))) []);
  i_all : forall e, e < length ents -> In e (concat (done ++ [cur]));
  i_uniq : forall a b, a < length ents -> b < length ents -> a <> b -> ~ Permutation (nth a ents []) (nth b ents []);
  i_olen : length (b_ori st) = nsum caps;
  i_ori : forall p, p < length (concat (done ++ [cur])) -> nth p (b_ori st) None = nth p (Kflat (S (length done))) None }.

Lemma length_caps : length caps = n_cell.
Proof. unfold caps. rewrite map_length, seq_length. auto. Qed.

Lemma nth_caps : forall c, c < n_cell -> nth c caps 0 = length (G c).
Proof.
  intros c Hc. unfold caps. rewrite nth_map_in with (da := 0) by (rewrite seq_length; auto).
  rewrite seq_nth by auto. simpl. rewrite len_G. auto.
Qed.

Lemma firstn_caps : forall m, m <= n_cell -> nsum (firstn m caps) = length (Gflat m).
Proof.
  intros m. unfold Gflat. rewrite length_concat_nsum, map_map. induction m as [|m IH]; intros Hm; [reflexivity|].
  rewrite firstn_S_nth by (rewrite length_caps; lia). rewrite IH by lia.
  replace (S m) with (m + 1) by lia. rewrite nth_caps by lia.
  rewrite seq_app, map_app, nsum_app. simpl. lia.
Qed.

(** Reading the vertices of an entity. *)
Lemma forallb_eq_lists : forall a b : list nat, length a = length b ->
  (forallb (fun p => fst p =? snd p) (combine a b) = true <-> a = b).
Proof.
  clear. induction a as [|x a IH]; intros [|y b] H; simpl in *; try lia; [tauto|].
  rewrite andb_true_iff, Nat.eqb_eq, IH by lia. split; [intros [-> ->]; auto|intros [= -> ->]; auto].
Qed.

Lemma is_loc_len : forall g, is_loc g -> 2 <= length g <= 4.
Proof. intros g (c & Hc & Hg). apply (G_len c g Hc Hg). Qed.

Lemma skipn_concat_split : forall (ls : list (list nat)) e, e < length ls ->
  skipn (nsum (firstn e (map (@length nat) ls))) (concat ls) = nth e ls [] ++ concat (skipn (S e) ls).
Proof.
  clear. induction ls as [|l ls IH]; intros [|e] H; simpl in *; try lia; auto.
  rewrite skipn_app, skipn_all2 by lia. rewrite app_nil_l.
  replace (length l + nsum (firstn e (map (@length nat) ls)) - length l) with (nsum (firstn e (map (@length nat) ls))) by lia.
  apply IH. lia.
Qed.

Lemma same_entity_spec : forall done cur ents st g e, inv done cur ents st -> e < length ents ->
  is_loc g -> (same_entity st (sort234 g) e = true <-> Permutation (nth e ents []) g).
Proof.
  intros done cur ents st g e I He Lg. unfold same_entity. rewrite (i_off _ _ _ _ I), (i_ind _ _ _ _ I).
  rewrite nth_cumsum by (rewrite map_length; lia). rewrite Nat.add_0_l.
  set (h := nth e ents []).
  assert (Hh : is_loc h) by (apply (i_elen _ _ _ _ I), nth_In; auto).
  pose proof (is_loc_len _ Hh) as Lh. pose proof (is_loc_len _ Lg) as Lg'.
  rewrite length_sort234.
  assert (Len : nsum (firstn e (map (@length nat) ents)) <= length (concat ents)).
  { rewrite length_concat_nsum. rewrite <- (firstn_skipn e (map (@length nat) ents)) at 2. rewrite nsum_app. lia. }
  assert (R : skipn (nsum (firstn e (map (@length nat) ents))) (concat ents ++ repeat 0 (length g)) =
              h ++ (concat (skipn (S e) ents) ++ repeat 0 (length g))).
  { rewrite skipn_app, skipn_concat_split by auto. fold h.
    replace (nsum (firstn e (map (@length nat) ents)) - length (concat ents)) with 0 by lia.
    simpl. rewrite <- app_assoc. auto. }
  rewrite R. set (rest := concat (skipn (S e) ents) ++ repeat 0 (length g)).
  set (w := firstn (length g) (h ++ rest)).
  assert (Lw : length w = length g).
  { unfold w, rest. rewrite firstn_length, !app_length, repeat_length. lia. }
  rewrite forallb_eq_lists by (rewrite !length_sort234; auto).
  rewrite sort234_eq_iff by lia.
  destruct (Nat.lt_trichotomy (length h) (length g)) as [Hlt|[Heq|Hgt]].
  - (* a shorter stored entity *)
    assert (Hw : incl h w).
    { unfold w. rewrite firstn_app. intros x Hx. apply in_app_iff. left. rewrite firstn_all2 by lia. auto. }
    split; intros P; exfalso.
    + destruct Hh as (c & Hc & Hh). destruct Lg as (c' & Hc' & Lg). apply (Hconf c c' h g Hc Hc' Hh Lg Hlt).
      intros x Hx. apply (Permutation_in _ P). auto.
    + apply Permutation_length in P. lia.
  - assert (w = h) as ->; [|tauto].
    unfold w. rewrite <- Heq. rewrite firstn_app, Nat.sub_diag, firstn_all. simpl. apply app_nil_r.
  - (* a longer one *)
    assert (Hw : incl w h).
    { unfold w. rewrite firstn_app. replace (length g - length h) with 0 by lia. simpl. rewrite app_nil_r.
      intros x Hx. rewrite <- (firstn_skipn (length g) h). apply in_app_iff. auto. }
    split; intros P; exfalso.
    + destruct Hh as (c & Hc & Hh). destruct Lg as (c' & Hc' & Lg). apply (Hconf c' c g h Hc' Hc Lg Hh Hgt).
      intros x Hx. apply Hw. apply (Permutation_in _ (Permutation_sym P)). auto.
    + apply Permutation_length in P. lia.
Qed.

Lemma nth_app_done : forall (done : list (list nat)) cur rest c,
  nth c (done ++ cur :: rest) [] =
  if c <? length done then nth c done [] else if c =? length done then cur else nth (c - S (length done)) rest [].
Proof.
  intros. destruct (Nat.ltb_spec c (length done)); [rewrite app_nth1; auto|].
  rewrite app_nth2 by lia. destruct (Nat.eqb_spec c (length done)) as [->|].
  - rewrite Nat.sub_diag. auto.
  - destruct (c - length done) as [|m] eqn:Em; [lia|]. simpl. f_equal. lia.
Qed.

(** The ids of a complete previous cell, as read by the iterator. *)
Lemma irow_done : forall done cur ents st c, inv done cur ents st -> c < length done ->
  irow (b_cDd st) c = nth c done [].
Proof.
  intros done cur ents st c I Hc. pose proof (i_len _ _ _ _ I) as Hl.
  unfold irow. rewrite (rep_crow _ _ _ _ (i_rep _ _ _ _ I)) by (rewrite length_caps; lia).
  rewrite nth_app_done. destruct (Nat.ltb_spec c (length done)); [|lia].
  rewrite nth_caps by lia. unfold slot. rewrite (i_done _ _ _ _ I) by auto. rewrite Nat.sub_diag. simpl.
  rewrite app_nil_r, map_map. apply map_id.
Qed.

Lemma firstn_concat_done : forall (done : list (list nat)) (cur : list nat) c, c <= length done -> 
  (forall c, c < length done -> length (nth c done []) = length (G c)) ->
  length (concat (firstn c (done ++ [cur]))) = length (concat (firstn c (map G (seq 0 (S (length done)))))).
Proof.
  intros done cur c Hc Hd. rewrite !length_concat_nsum, <- !firstn_map. f_equal.
  apply list_ext with (d := 0).
  - rewrite !firstn_length, !map_length, seq_length, app_length. simpl. lia.
  - intros k Hk. rewrite firstn_length in Hk.
    rewrite !nth_firstn. destruct (Nat.ltb_spec k c); auto.
    rewrite !nth_map_len. rewrite app_nth1 by lia.
    rewrite nth_map_in with (da := 0) by (rewrite seq_length; lia). rewrite seq_nth by lia. simpl. apply Hd. lia.
Qed.

(** Every id assigned so far comes from a local entity of a visited cell. *)
Lemma id_origin : forall done cur ents st e, inv done cur ents st -> e < length ents ->
  (exists c j, c < length done /\ j < length (G c) /\ In e (nth c done []) /\ Permutation (nth e ents []) (nth j (G c) [])) \/
  (exists j, j < length cur /\ Permutation (nth e ents []) (nth j (G (length done)) [])).
Proof.
  intros done cur ents st e I He. pose proof (i_all _ _ _ _ I e He) as Hin.
  apply In_nth with (d := 0) in Hin. destruct Hin as (p & Hp & Ep).
  destruct (i_id _ _ _ _ I p Hp) as [_ P]. rewrite Ep in P.
  destruct (pos_concat _ _ p Hp) as (c & j & Hc & Hj & ->). rewrite app_length in Hc. simpl in Hc.
  destruct (concat_nth_pos (done ++ [cur]) c j ltac:(rewrite app_length; simpl; lia) Hj) as [E _]. rewrite Ep in E.
  assert (HG : nth (length (concat (firstn c (done ++ [cur]))) + j) (Gflat (S (length done))) [] = nth j (G c) []).
  { rewrite (firstn_concat_done done cur c) by (try lia; apply (i_done _ _ _ _ I)). unfold Gflat.
    rewrite concat_nth_posG.
    - rewrite nth_map_in with (da := 0) by (rewrite seq_length; lia). rewrite seq_nth by lia. auto.
    - rewrite map_length, seq_length. lia.
    - rewrite nth_map_in with (da := 0) by (rewrite seq_length; lia). rewrite seq_nth by lia. simpl.
      destruct (Nat.lt_ge_cases c (length done)).
      + rewrite app_nth1 in Hj by auto. rewrite (i_done _ _ _ _ I) in Hj by auto. auto.
      + assert (c = length done) as -> by lia. rewrite app_nth2, Nat.sub_diag in Hj by lia. simpl in Hj.
        pose proof (i_cur _ _ _ _ I). lia. }
  rewrite HG in P. destruct (Nat.lt_ge_cases c (length done)).
  - left. exists c, j. rewrite app_nth1 in Hj, E by auto. rewrite (i_done _ _ _ _ I) in Hj by auto.
    repeat split; auto. rewrite E. apply nth_In. rewrite (i_done _ _ _ _ I) by auto. auto.
  - right. assert (c = length done) as -> by lia. exists j.
    rewrite app_nth2, Nat.sub_diag in Hj by lia. simpl in Hj. auto.
Qed.

Lemma find_entity_spec : forall done cur ents st g, inv done cur ents st ->
  length cur < length (G (length done)) -> g = nth (length cur) (G (length done)) [] ->
  match find_entity cDD st (length done) (sort234 g) with
  | Some e => e < length ents /\ Permutation (nth e ents []) g
  | None => forall e, e < length ents -> ~ Permutation (nth e ents []) g
  end.
Proof.
  intros done cur ents st g I Hk Eg. pose proof (i_len _ _ _ _ I) as Hl.
  assert (Hg : In g (G (length done))) by (subst g; apply nth_In; auto).
  destruct (G_len _ _ Hl Hg) as [Lg Vg].
  assert (Lcg : is_loc g) by (exists (length done); split; assumption).
  assert (Hrow : forall jc e, In jc (irow cDD (length done)) -> jc < length done -> In e (irow (b_cDd st) jc) -> e < length ents).
  { intros jc e _ Hjc He. rewrite (irow_done _ _ _ _ _ I) in He by auto.
    apply In_nth with (d := 0) in He. destruct He as (j & Hj & E).
    assert (Hc' : jc < length (done ++ [cur])) by (rewrite app_length; lia).
    assert (Hj' : j < length (nth jc (done ++ [cur]) [])) by (rewrite app_nth1; auto).
    destruct (concat_nth_pos _ jc j Hc' Hj') as [E2 B]. rewrite app_nth1 in E2 by auto. rewrite E in E2.
    destruct (i_id _ _ _ _ I _ B) as [H _]. rewrite E2 in H. auto. }
  unfold find_entity. destruct (find _ _) as [e|] eqn:F.
  - apply find_some in F. destruct F as [Hin Hs]. apply in_concat in Hin. destruct Hin as (l & Hl' & He).
    apply in_map_iff in Hl'. destruct Hl' as (jc & <- & Hjc). destruct (Nat.leb_spec (length done) jc); [destruct He|].
    assert (He' : e < length ents) by (eapply Hrow; eauto).
    apply (same_entity_spec _ _ _ _ _ _ I He' Lcg) in Hs. auto.
  - intros e He P.
    destruct (id_origin _ _ _ _ _ I He) as [(c & j & Hc & Hj & Hin & P2)|(j & Hj & P2)].
    + assert (Hf : same_entity st (sort234 g) e = true).
      { apply (same_entity_spec _ _ _ _ _ _ I He Lcg). auto. }
      assert (HN : In c (nth (length done) nb [])).
      { apply Hnbs; try lia. split; [lia|].
        destruct g as [|v g']; [simpl in Lg; lia|]. exists v. split; [apply Vg; left; auto|].
        assert (Hin2 : In (nth j (G c) []) (G c)) by (apply nth_In; auto).
        assert (Hcn : c < n_cell) by lia.
        destruct (G_len c _ Hcn Hin2) as [_ Vj]. apply Vj.
        apply (Permutation_in _ P2). apply (Permutation_in _ (Permutation_sym P)). left; auto. }
      eapply find_none in F; [rewrite Hf in F; discriminate|].
      apply in_concat. exists (irow (b_cDd st) c). split.
      * apply in_map_iff. exists c. split; [destruct (Nat.leb_spec (length done) c); [lia|auto]|].
        rewrite (full_irow _ _ _ Hnb) by lia. auto.
      * rewrite (irow_done _ _ _ _ _ I) by auto. auto.
    + pose proof (i_cur _ _ _ _ I). apply (Hdeg (length done) Hl j (length cur)); try lia.
      rewrite <- Eg. eapply Permutation_trans; [apply Permutation_sym, P2|apply P].
Qed.

Lemma concat_snoc_cur : forall (done : list (list nat)) cur e,
  concat (done ++ [cur ++ [e]]) = concat (done ++ [cur]) ++ [e].
Proof. intros. rewrite !concat_app. simpl. rewrite !app_nil_r, app_assoc. auto. Qed.

Lemma upd_done : forall (done : list (list nat)) cur rest x, 
  upd (done ++ cur :: rest) (length done) x = done ++ x :: rest.
Proof. intros. apply upd_app_mid. Qed.

Lemma last_used_spec : forall pre row m post, 0 < length row ->
  last_used (pre ++ map Some row ++ repeat None m ++ post) (length pre) (length row + m) = length pre + (length row - 1).
Proof.
  intros pre row m post Hr. induction m as [|m IH].
  - simpl. rewrite Nat.add_0_r. destruct (length row) as [|k] eqn:L; [lia|]. simpl.
    rewrite app_nth2 by lia. rewrite app_nth1 by (rewrite map_length; lia).
    replace (length pre + k - length pre) with k by lia.
    rewrite nth_map_in with (da := 0) by lia. f_equal. lia.
  - replace (length row + S m) with (S (length row + m)) by lia. cbn [last_used].
    rewrite app_nth2 by lia. replace (length pre + (length row + m) - length pre) with (length row + m) by lia.
    rewrite app_nth2 by (rewrite map_length; lia). rewrite map_length.
    replace (length row + m - length row) with m by lia.
    rewrite app_nth1 by (rewrite repeat_length; lia). rewrite nth_repeat.
    replace (repeat None (S m) ++ post) with (repeat (@None nat) m ++ (None :: post)).
    2: { replace (S m) with (m + 1) by lia. rewrite repeat_app, <- app_assoc. auto. }
    replace (pre ++ map Some row ++ repeat None m ++ None :: post)
      with (pre ++ map Some row ++ repeat None m ++ None :: post) by auto.
    revert IH. clear. intros IH.
    assert (Gn : forall num k inds inds', (forall i, i < k + num -> nth i inds None = nth i inds' None) ->
               last_used inds k num = last_used inds' k num).
    { clear. induction num as [|n IHn]; intros k inds inds' H; simpl; auto.
      rewrite (H (k + n)) by lia. destruct (nth (k + n) inds' None); auto. apply IHn. intros; apply H; lia. }
    rewrite <- IH. apply Gn. intros i Hi.
    destruct (Nat.lt_ge_cases i (length pre)); [rewrite !app_nth1 by auto; auto|].
    rewrite !(app_nth2 pre) by lia. set (i' := i - length pre).
    destruct (Nat.lt_ge_cases i' (length row)); [rewrite !app_nth1 by (rewrite map_length; auto); auto|].
    rewrite !(app_nth2 (map Some row)) by (rewrite map_length; auto). rewrite map_length.
    rewrite !app_nth1 by (rewrite repeat_length; unfold i' in *; lia). auto.
Qed.

(** The position of the orientation is the flat position of the entity. *)
Lemma ori_pos : forall c done cur, length done < n_cell ->
  (forall k, k < length done -> length (nth k done []) = length (G k)) ->
  0 < length cur <= length (G (length done)) ->
  rep c (done ++ cur :: repeat [] (n_cell - S (length done))) caps ->
  last_used (c_ind c) (nth (length done) (c_off c) 0)
            (nth (S (length done)) (c_off c) 0 - nth (length done) (c_off c) 0)
  = length (concat (done ++ [cur])) - 1.
Proof.
  intros c done cur Hl Hd Hc R. pose proof length_caps as Lc.
  destruct (rep_off _ _ _ (length done) R) as [E1 E2]; [lia|]. rewrite E2, E1.
  destruct R as (H1 & H2 & H3 & H4). rewrite H4, (slots_split _ _ (length done)) by (auto; lia).
  rewrite concat_app. simpl. rewrite nth_app_done, Nat.ltb_irrefl, Nat.eqb_refl. unfold slot.
  rewrite <- app_assoc.
  set (pre := concat (slots (firstn (length done) (done ++ cur :: repeat [] (n_cell - S (length done)))) (firstn (length done) caps))).
  assert (Lp : length pre = nsum (firstn (length done) caps)).
  { apply length_concat_slots_firstn; auto. lia. }
  rewrite <- Lp. rewrite nth_caps by auto.
  replace (length (G (length done))) with (length cur + (length (G (length done)) - length cur)) at 2 by lia.
  rewrite last_used_spec by lia. rewrite Lp, firstn_caps by lia.
  rewrite concat_app, app_length. simpl. rewrite app_nil_r.
  replace (length (concat done)) with (length (Gflat (length done))); [lia|].
  unfold Gflat. rewrite !length_concat_nsum. f_equal. apply list_ext with (d := 0).
  - rewrite !map_length, seq_length. auto.
  - intros k Hk. rewrite !map_length, seq_length in Hk. rewrite !nth_map_len.
    rewrite nth_map_in with (da := 0) by (rewrite seq_length; lia). rewrite seq_nth by lia. simpl.
    rewrite Hd by lia. auto.
Qed.

Lemma keys_len : forall gs prev, length (keys_from prev gs) = length gs.
Proof. induction gs; simpl; intros; auto. Qed.

Lemma firstn_app_le : forall A (l l' : list A) n, n <= length l -> firstn n (l ++ l') = firstn n l.
Proof. intros. rewrite firstn_app. replace (n - length l) with 0 by lia. simpl. apply app_nil_r. Qed.

Lemma flat_pos_cur : forall (done : list (list nat)) (cur : list nat), length done < n_cell ->
  (forall k, k < length done -> length (nth k done []) = length (G k)) ->
  length cur < length (G (length done)) ->
  nth (length (concat (done ++ [cur]))) (Gflat (S (length done))) [] = nth (length cur) (G (length done)) [] /\
  nth (length (concat (done ++ [cur]))) (Kflat (S (length done))) None =
    nth (length cur) (keys_from None (G (length done))) None /\
  length (concat (done ++ [cur])) < nsum caps.
Proof.
  intros done cur Hl Hd Hk.
  assert (L : length (concat (done ++ [cur])) = length (concat (firstn (length done) (map G (seq 0 (S (length done)))))) + length cur).
  { rewrite concat_app, app_length. cbn [concat]. rewrite app_nil_r. f_equal.
    rewrite <- (firstn_concat_done done cur (length done)) by (auto).
    rewrite firstn_app, Nat.sub_diag, firstn_all. simpl. rewrite app_nil_r. auto. }
  assert (N : nth (length done) (map G (seq 0 (S (length done)))) [] = G (length done)).
  { rewrite nth_map_in with (da := 0) by (rewrite seq_length; lia). rewrite seq_nth by lia. auto. }
  split; [|split].
  - rewrite L. unfold Gflat. rewrite concat_nth_posG; rewrite ?N; auto. rewrite map_length, seq_length. lia.
  - assert (N2 : nth (length done) (map (fun c => keys_from None (G c)) (seq 0 (S (length done)))) [] = keys_from None (G (length done))).
    { rewrite nth_map_in with (da := 0) by (rewrite seq_length; lia). rewrite seq_nth by lia. auto. }
    rewrite L. unfold Kflat.
    replace (length (concat (firstn (length done) (map G (seq 0 (S (length done)))))))
      with (length (concat (firstn (length done) (map (fun c => keys_from None (G c)) (seq 0 (S (length done))))))).
    + rewrite concat_nth_posG; rewrite ?N2; auto. { rewrite map_length, seq_length. lia. } rewrite keys_len. auto.
    + rewrite !length_concat_nsum, <- !firstn_map, !map_map. f_equal. f_equal. apply map_ext. intros. apply keys_len.
  - rewrite concat_app, app_length. simpl. rewrite app_nil_r.
    replace (length (concat done)) with (nsum (firstn (length done) caps)).
    + assert (nsum (firstn (S (length done)) caps) <= nsum caps).
      { rewrite <- (firstn_skipn (S (length done)) caps) at 2. rewrite nsum_app. lia. }
      rewrite firstn_S_nth in H by (rewrite length_caps; lia). rewrite nth_caps in H by lia. lia.
    + rewrite firstn_caps by lia. unfold Gflat. rewrite !length_concat_nsum. f_equal. apply list_ext with (d := 0).
      * rewrite !map_length, seq_length. auto.
      * intros k Hk'. rewrite !map_length, seq_length in Hk'. rewrite !nth_map_len.
        rewrite nth_map_in with (da := 0) by (rewrite seq_length; lia). rewrite seq_nth by lia. simpl.
        rewrite Hd by lia. auto.
Qed.

Lemma build_entity_spec : forall done cur ents st g key, inv done cur ents st ->
  length cur < length (G (length done)) -> g = nth (length cur) (G (length done)) [] ->
  key = nth (length cur) (keys_from None (G (length done))) None ->
  exists st' ents' e, build_entity cDD (length done) st (g, key) = Some st' /\ inv done (cur ++ [e]) ents' st'.
Proof.
  intros done cur ents st g key I Hk Eg Ek. pose proof (i_len _ _ _ _ I) as Hl.
  assert (Hg : In g (G (length done))) by (subst g; apply nth_In; auto).
  destruct (G_len _ _ Hl Hg) as [Lg _].
  pose proof (flat_pos_cur done cur Hl (i_done _ _ _ _ I) Hk) as (FG & FK & FB).
  pose proof (find_entity_spec done cur ents st g I Hk Eg) as F.
  set (m := length (concat (done ++ [cur]))) in *.
  (* the slot is free *)
  assert (Hfree : forall x, exists c, conn_set_to_free (b_cDd st) (length done) x = Some c /\
            rep c (done ++ (cur ++ [x]) :: repeat [] (n_cell - S (length done))) caps).
  { intros x. destruct (set_to_free_spec _ _ _ (length done) x (i_rep _ _ _ _ I)) as (c & E & R).
    - rewrite length_caps. auto.
    - rewrite nth_app_done, Nat.ltb_irrefl, Nat.eqb_refl, nth_caps by auto. auto.
    - exists c. split; auto. rewrite nth_app_done, Nat.ltb_irrefl, Nat.eqb_refl, upd_done in R. auto. }
  assert (Hm : forall e, length (concat (done ++ [cur ++ [e]])) - 1 = m).
  { intros e. rewrite concat_snoc_cur, app_length. simpl. fold m. lia. }
  assert (Hori : forall e p, p < length (concat (done ++ [cur ++ [e]])) ->
            nth p (upd (b_ori st) m key) None = nth p (Kflat (S (length done))) None).
  { intros e p Hp. rewrite concat_snoc_cur, app_length in Hp. simpl in Hp. fold m in Hp.
    rewrite nth_upd. rewrite (i_olen _ _ _ _ I). destruct (Nat.eqb_spec p m) as [->|Hne]; simpl.
    - destruct (Nat.ltb_spec m (nsum caps)); [|lia]. rewrite Ek. symmetry. auto.
    - apply (i_ori _ _ _ _ I). fold m. lia. }
  unfold build_entity. destruct (find_entity cDD st (length done) (sort234 g)) as [e|].
  - destruct F as [He P]. destruct (Hfree e) as (c & E & R). rewrite E.
    eexists. exists ents, e. split; [reflexivity|].
    rewrite (ori_pos c done (cur ++ [e]) Hl (i_done _ _ _ _ I)) by (auto; rewrite app_length; simpl; lia).
    rewrite Hm. destruct I. constructor; simpl; auto.
    + rewrite app_length. simpl. lia.
    + intros p Hp. rewrite concat_snoc_cur in *. rewrite app_length in Hp. simpl in Hp. fold m in Hp.
      destruct (Nat.eq_dec p m) as [->|Hne].
      * rewrite app_nth2 by (unfold m; lia). unfold m at 1 2. rewrite Nat.sub_diag. simpl. split; auto.
        fold m. rewrite FG, <- Eg. auto.
      * rewrite app_nth1 by (unfold m in *; lia). apply i_id0. fold m. lia.
    + intros p Hp. rewrite concat_snoc_cur in *. rewrite app_length in Hp. simpl in Hp. fold m in Hp.
      rewrite firstn_app_le by (fold m; lia).
      destruct (Nat.eq_dec p m) as [->|Hne].
      * rewrite app_nth2 by (unfold m; lia). unfold m at 1 2 3 4 5. rewrite Nat.sub_diag. simpl. rewrite firstn_all. split.
        -- intros e' He'. apply i_all0. lia.
        -- intros Hn. exfalso. apply Hn. apply i_all0; auto.
      * rewrite app_nth1 by (unfold m in *; lia). apply i_first0. fold m. lia.
    + intros e' He'. rewrite concat_snoc_cur. apply in_app_iff. left. auto.
    + rewrite length_upd. auto.
    + apply Hori.
  - assert (Eid : b_id st = length ents).
    { unfold b_id. rewrite (i_off _ _ _ _ I), length_cumsum, map_length. lia. }
    rewrite Eid. destruct (Hfree (length ents)) as (c & E & R). rewrite E.
    eexists. exists (ents ++ [g]), (length ents). split; [reflexivity|].
    rewrite (ori_pos c done (cur ++ [length ents]) Hl (i_done _ _ _ _ I)) by (auto; rewrite app_length; simpl; lia).
    rewrite Hm.
    assert (Nold : forall e, e < length ents -> nth e (ents ++ [g]) [] = nth e ents []) by (intros; apply app_nth1; auto).
    assert (Nnew : nth (length ents) (ents ++ [g]) [] = g) by (rewrite app_nth2, Nat.sub_diag by lia; auto).
    destruct I. constructor; simpl; auto.
    + rewrite app_length. simpl. lia.
    + rewrite i_off0, map_app. simpl. rewrite last_cumsum.
      assert (C : forall l a x, cumsum a (l ++ [x]) = cumsum a l ++ [a + nsum l + x]).
      { induction l as [|y l IHl]; intros a x; simpl; [f_equal; f_equal; lia|]. f_equal. rewrite IHl. f_equal. f_equal. lia. }
      rewrite C. reflexivity.
    + rewrite i_ind0, concat_app. simpl. rewrite app_nil_r. auto.
    + intros h Hh. apply in_app_iff in Hh. destruct Hh as [Hh|[<-|[]]]; auto. exists (length done); split; assumption.
    + intros p Hp. rewrite concat_snoc_cur in *. rewrite app_length in Hp. simpl in Hp. fold m in Hp. rewrite app_length. simpl.
      destruct (Nat.eq_dec p m) as [->|Hne].
      * rewrite app_nth2 by (unfold m; lia). unfold m at 1 2. rewrite Nat.sub_diag. simpl. split; [lia|].
        fold m. rewrite Nnew, FG, <- Eg. auto.
      * rewrite app_nth1 by (unfold m in *; lia). destruct (i_id0 p) as [B P]; [fold m; lia|].
        rewrite Nold by auto. split; auto. lia.
    + intros p Hp. rewrite concat_snoc_cur in *. rewrite app_length in Hp. simpl in Hp. fold m in Hp.
      rewrite firstn_app_le by (fold m; lia).
      destruct (Nat.eq_dec p m) as [->|Hne].
      * rewrite app_nth2 by (unfold m; lia). unfold m at 1 2 3 4 5. rewrite Nat.sub_diag. simpl. rewrite firstn_all. split.
        -- intros e' He'. apply i_all0. lia.
        -- intros Hn. fold m. rewrite Nnew, FG. auto.
      * rewrite app_nth1 by (unfold m in *; lia). destruct (i_id0 p) as [B P]; [fold m; lia|].
        rewrite Nold by auto. apply i_first0. fold m. lia.
    + intros e' He'. rewrite concat_snoc_cur. rewrite app_length in He'. simpl in He'. apply in_app_iff.
      destruct (Nat.eq_dec e' (length ents)) as [->|]; [right; left; auto|left; apply i_all0; lia].
    + intros a b Ha Hb Hab. rewrite app_length in Ha, Hb. simpl in Ha, Hb.
      destruct (Nat.eq_dec a (length ents)) as [->|Na]; destruct (Nat.eq_dec b (length ents)) as [->|Nb]; try congruence.
      * rewrite Nnew, Nold by lia. intros P. apply (F b); [lia|]. apply Permutation_sym; auto.
      * rewrite Nnew, Nold by lia. apply F. lia.
      * rewrite !Nold by lia. apply i_uniq0; lia || auto.
    + rewrite length_upd. auto.
    + apply Hori.
Qed.

Lemma combine_nth_suffix : forall (gs : list (list nat)) (ks : list (option nat)) k, length gs = length ks -> k < length gs ->
  skipn k (combine gs ks) = (nth k gs [], nth k ks None) :: skipn (S k) (combine gs ks).
Proof.
  induction gs as [|g gs IH]; intros [|x ks] [|k] L H; simpl in *; try lia; auto. apply IH; lia.
Qed.

Lemma build_cell_spec : forall rest done cur ents st,
  inv done cur ents st ->
  rest = skipn (length cur) (combine (G (length done)) (keys_from None (G (length done)))) ->
  exists st' ents' cur', fold_left (fun ost gk => match ost with None => None | Some st => build_entity cDD (length done) st gk end)
     rest (Some st) = Some st' /\ inv done cur' ents' st' /\ length cur' = length (G (length done)).
Proof.
  intros rest. remember (length rest) as r eqn:Lr. revert rest Lr. induction r as [|r IH]; intros rest Lr done cur ents st I E.
  - destruct rest; [|discriminate]. simpl. exists st, ents, cur. split; [reflexivity|split; [exact I|]].
    assert (HH : length (skipn (length cur) (combine (G (length done)) (keys_from None (G (length done))))) = 0) by (rewrite <- E; auto).
    rewrite skipn_length, combine_length, keys_len in HH. pose proof (i_cur _ _ _ _ I). lia.
  - pose proof (i_cur _ _ _ _ I) as Hc.
    assert (Hlt : length cur < length (G (length done))).
    { assert (HH : length rest = length (skipn (length cur) (combine (G (length done)) (keys_from None (G (length done)))))) by (rewrite <- E; auto).
      rewrite skipn_length, combine_length, keys_len in HH. lia. }
    rewrite combine_nth_suffix in E by (rewrite ?keys_len; auto).
    destruct rest as [|gk rest]; [discriminate|]. injection E as E1 E2. subst gk. cbn [fold_left].
    destruct (build_entity_spec done cur ents st _ _ I Hlt eq_refl eq_refl) as (st1 & ents1 & e & B & I1).
    rewrite B. simpl in Lr. apply (IH rest ltac:(lia) done (cur ++ [e]) ents1); auto.
    rewrite E2. rewrite app_length. simpl. rewrite Nat.add_1_r. auto.
Qed.

(** After a complete cell. *)
Record inv_c (done : list (list nat)) (ents : list (list nat)) (st : bstate) : Prop := {
  j_done : forall c, c < length done -> length (nth c done []) = length (G c);
  j_rep : rep (b_cDd st) (done ++ repeat [] (n_cell - length done)) caps;
  j_off : b_off st = cumsum 0 (map (@length nat) ents);
  j_ind : b_ind st = concat ents;
  j_elen : forall g, In g ents -> is_loc g;
  j_id : forall p, p < length (concat done) -> nth p (concat done) 0 < length ents /\
           Permutation (nth (nth p (concat done) 0) ents []) (nth p (Gflat (length done)) []);
  j_first : forall p, p < length (concat done) ->
           (forall e, e < nth p (concat done) 0 -> In e (firstn p (concat done))) /\
           (~ In (nth p (concat done) 0) (firstn p (concat done)) ->
            nth (nth p (concat done) 0) ents [] = nth p (Gflat (length done)) []);
  j_all : forall e, e < length ents -> In e (concat done);
  j_uniq : forall a b, a < length ents -> b < length ents -> a <> b -> ~ Permutation (nth a ents []) (nth b ents []);
  j_olen : length (b_ori st) = nsum caps;
  j_ori : forall p, p < length (concat done) -> nth p (b_ori st) None = nth p (Kflat (length done)) None }.

Lemma Gflat_S : forall m, Gflat (S m) = Gflat m ++ G m.
Proof.
  intros. unfold Gflat. replace (S m) with (m + 1) by lia. rewrite seq_app, map_app, concat_app. simpl.
  rewrite app_nil_r. auto.
Qed.

Lemma Kflat_S : forall m, Kflat (S m) = Kflat m ++ keys_from None (G m).
Proof.
  intros. unfold Kflat. replace (S m) with (m + 1) by lia. rewrite seq_app, map_app, concat_app. simpl.
  rewrite app_nil_r. auto.
Qed.

Lemma len_Gflat_done : forall (done : list (list nat)), (forall c, c < length done -> length (nth c done []) = length (G c)) ->
  length (concat done) = length (Gflat (length done)).
Proof.
  intros done Hd. unfold Gflat. rewrite !length_concat_nsum. f_equal. apply list_ext with (d := 0).
  - rewrite !map_length, seq_length. auto.
  - intros k Hk. rewrite !map_length in Hk. rewrite !nth_map_len.
    rewrite nth_map_in with (da := 0) by (rewrite seq_length; lia). rewrite seq_nth by lia. simpl. auto.
Qed.

Lemma len_Kflat : forall m, length (Kflat m) = length (Gflat m).
Proof.
  intros. unfold Kflat, Gflat. rewrite !length_concat_nsum, !map_map. f_equal. apply map_ext. intros. apply keys_len.
Qed.

Lemma inv_start : forall done ents st, inv_c done ents st -> length done < n_cell -> inv done [] ents st.
Proof.
  intros done ents st J Hl.
  assert (C : concat (done ++ [[]]) = concat done) by (rewrite concat_app; simpl; apply app_nil_r).
  assert (L : length (concat done) = length (Gflat (length done))) by (apply len_Gflat_done, (j_done _ _ _ J)).
  destruct J. constructor; rewrite ?C; auto.
  - simpl. lia.
  - replace (n_cell - length done) with (S (n_cell - S (length done))) in j_rep0 by lia. simpl in j_rep0. auto.
  - intros p Hp. rewrite Gflat_S, app_nth1 by lia. auto.
  - intros p Hp. rewrite Gflat_S, app_nth1 by lia. auto.
  - intros p Hp. rewrite Kflat_S, app_nth1 by (rewrite len_Kflat; lia). auto.
Qed.

Lemma inv_end : forall done cur ents st, inv done cur ents st -> length cur = length (G (length done)) ->
  inv_c (done ++ [cur]) ents st.
Proof.
  intros done cur ents st I Hc. pose proof (i_len _ _ _ _ I) as Hl. destruct I.
  assert (L : length (done ++ [cur]) = S (length done)) by (rewrite app_length; simpl; lia).
  constructor; rewrite ?L; auto.
  - intros c Hc'. destruct (Nat.eq_dec c (length done)) as [->|].
    + rewrite app_nth2, Nat.sub_diag by lia. auto.
    + rewrite app_nth1 by lia. apply i_done0. lia.
  - rewrite <- app_assoc. auto.
Qed.

Lemma build_loop : forall k done ents st, inv_c done ents st -> length done + k = n_cell ->
  exists st' ents' rows, fold_left (build_cell cD0 cDD refs) (seq (length done) k) (Some st) = Some st' /\
    inv_c rows ents' st' /\ length rows = n_cell.
Proof.
  induction k as [|k IH]; intros done ents st J Hk; simpl.
  - exists st, ents, done. split; [reflexivity|split; [exact J|]]. lia.
  - assert (Hl : length done < n_cell) by lia. pose proof (inv_start _ _ _ J Hl) as I.
    assert (EG : local_conn (irow cD0 (length done)) (refs (length done)) = G (length done)).
    { unfold G, cD0. rewrite (full_irow _ _ _ (of_rows_full cells)) by auto. auto. }
    destruct (build_cell_spec (combine (G (length done)) (keys_from None (G (length done)))) done [] ents st I eq_refl)
      as (st1 & ents1 & cur & B & I1 & Lc).
    unfold build_cell at 2. rewrite EG, B.
    pose proof (inv_end _ _ _ _ I1 Lc) as J1.
    replace (S (length done)) with (length (done ++ [cur])) by (rewrite app_length; simpl; lia).
    apply IH with (ents := ents1); auto. rewrite app_length. simpl. lia.
Qed.

Lemma build_ok : exists st ents rows, mesh_build cD0 cDD refs n_cell = Some st /\
  inv_c rows ents st /\ length rows = n_cell.
Proof.
  unfold mesh_build. fold caps.
  apply (build_loop n_cell [] []); auto. constructor; cbn [length concat app]; try (intros; lia); auto.
  - rewrite Nat.sub_0_r, <- length_caps. apply alloc_rep.
  - intros g Hg. destruct Hg.
  - cbn [b_ori]. rewrite repeat_length, last_cumsum. auto.
Qed.

End Build.
