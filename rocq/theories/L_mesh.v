(** Lemmas on slot filling, transposition and intersection of connectivities. *)
From Verif Require Import Base M_mesh.
Open Scope nat_scope.

Definition nsum (l : list nat) : nat := fold_right Nat.add 0 l.

Lemma nsum_app : forall a b, nsum (a ++ b) = nsum a + nsum b.
Proof. induction a; simpl; intros; auto. rewrite IHa; lia. Qed.

Lemma length_cumsum : forall l a, length (cumsum a l) = S (length l).
Proof. induction l; simpl; intros; auto. Qed.

Lemma nth_cumsum : forall l a i, i <= length l -> nth i (cumsum a l) 0 = a + nsum (firstn i l).
Proof.
  induction l as [|x l IH]; intros a [|i] H; simpl in *; try lia.
  rewrite IH by lia. lia.
Qed.

Lemma last_cumsum : forall l a, last (cumsum a l) 0 = a + nsum l.
Proof.
  induction l as [|x l IH]; intros a; simpl; [lia|].
  destruct (cumsum (a + x) l) eqn:E.
  - destruct l; discriminate.
  - rewrite <- E, IH. lia.
Qed.

Lemma length_concat_nsum : forall A (ls : list (list A)), length (concat ls) = nsum (map (@length A) ls).
Proof. induction ls; simpl; auto. rewrite app_length, IHls; auto. Qed.

Lemma firstn_skipn_concat : forall A (ls : list (list A)) i, i < length ls ->
  firstn (length (nth i ls [])) (skipn (nsum (firstn i (map (@length A) ls))) (concat ls)) = nth i ls [].
Proof.
  induction ls as [|l ls IH]; intros [|i] H; simpl in *; try lia.
  - rewrite firstn_app, Nat.sub_diag, firstn_all. simpl. apply app_nil_r.
  - rewrite skipn_app. rewrite skipn_all2 by lia.
    replace (length l + nsum (firstn i (map (@length A) ls)) - length l) with (nsum (firstn i (map (@length A) ls))) by lia.
    simpl. apply IH. lia.
Qed.

(** ** Representation *)
Definition slot (row : list nat) (cap : nat) : list (option nat) :=
  map Some row ++ repeat None (cap - length row).

Fixpoint slots (rows : list (list nat)) (caps : list nat) : list (list (option nat)) :=
  match rows, caps with
  | r :: rt, c :: ct => slot r c :: slots rt ct
  | _, _ => []
  end.

Definition rep (c : conn) (rows : list (list nat)) (caps : list nat) : Prop :=
  length rows = length caps /\
  (forall i, i < length caps -> length (nth i rows []) <= nth i caps 0) /\
  c_off c = cumsum 0 caps /\ c_ind c = concat (slots rows caps).

Lemma length_slot : forall r c, length r <= c -> length (slot r c) = c.
Proof. intros. unfold slot. rewrite app_length, map_length, repeat_length. lia. Qed.

Lemma length_slots : forall rows caps, length rows = length caps -> length (slots rows caps) = length caps.
Proof. induction rows as [|r rt IH]; intros [|c ct] H; simpl in *; auto; try lia. Qed.

Lemma nth_slots : forall rows caps i, length rows = length caps -> i < length caps ->
  nth i (slots rows caps) [] = slot (nth i rows []) (nth i caps 0).
Proof.
  induction rows as [|r rt IH]; intros [|c ct] [|i] H Hi; simpl in *; auto; try lia.
  apply IH; lia.
Qed.

Lemma lens_slots : forall rows caps, length rows = length caps ->
  (forall i, i < length caps -> length (nth i rows []) <= nth i caps 0) ->
  map (@length (option nat)) (slots rows caps) = caps.
Proof.
  induction rows as [|r rt IH]; intros [|c ct] H Hle; simpl in *; auto; try lia.
  f_equal.
  - apply length_slot. apply (Hle 0). lia.
  - apply IH; [lia|]. intros i Hi. apply (Hle (S i)). lia.
Qed.

Lemma firstn_S_nth : forall (l : list nat) i, i < length l -> nsum (firstn (S i) l) = nsum (firstn i l) + nth i l 0.
Proof.
  induction l as [|x l IH]; intros [|i] H; simpl in *; try lia.
  rewrite <- Nat.add_assoc. f_equal. apply IH. lia.
Qed.

Lemma rep_off : forall c rows caps i, rep c rows caps -> i < length caps ->
  nth i (c_off c) 0 = nsum (firstn i caps) /\
  nth (S i) (c_off c) 0 - nth i (c_off c) 0 = nth i caps 0.
Proof.
  intros c rows caps i (H1 & H2 & H3 & H4) Hi. rewrite H3, !nth_cumsum by lia.
  rewrite firstn_S_nth by auto. lia.
Qed.

Lemma rep_crow : forall c rows caps i, rep c rows caps -> i < length caps ->
  crow c i = slot (nth i rows []) (nth i caps 0).
Proof.
  intros c rows caps i R Hi. unfold crow. destruct (rep_off _ _ _ i R Hi) as [E1 E2].
  rewrite E2, E1. destruct R as (H1 & H2 & H3 & H4). rewrite H4.
  rewrite <- nth_slots by auto.
  assert (L : nth i caps 0 = length (nth i (slots rows caps) [])).
  { rewrite nth_slots, length_slot; auto. }
  rewrite L.
  replace (firstn i caps) with (firstn i (map (@length (option nat)) (slots rows caps)))
    by (rewrite lens_slots; auto).
  apply firstn_skipn_concat. rewrite length_slots; auto.
Qed.

Lemma rep_num : forall c rows caps, rep c rows caps -> c_num c = length rows.
Proof. intros c rows caps (H1 & H2 & H3 & H4). unfold c_num. rewrite H3, length_cumsum. lia. Qed.

(** Fully filled: capacities are the row lengths. *)
Definition full (c : conn) (rows : list (list nat)) : Prop := rep c rows (map (@length nat) rows).

Lemma nth_map_len : forall A (ls : list (list A)) i, nth i (map (@length A) ls) 0 = length (nth i ls []).
Proof. intros. exact (map_nth (@length A) ls [] i). Qed.

Lemma full_irow : forall c rows i, full c rows -> i < length rows -> irow c i = nth i rows [].
Proof.
  intros c rows i R Hi. unfold irow. rewrite (rep_crow _ _ _ _ R) by (rewrite map_length; auto).
  rewrite nth_map_len. unfold slot. rewrite Nat.sub_diag. simpl. rewrite app_nil_r, map_map. apply map_id.
Qed.

Lemma slots_full : forall rows, concat (slots rows (map (@length nat) rows)) = map Some (concat rows).
Proof.
  induction rows as [|r rt IH]; simpl; auto. unfold slot at 1. rewrite Nat.sub_diag. simpl.
  rewrite app_nil_r, IH, map_app. auto.
Qed.

Lemma of_rows_full : forall rows, full (of_rows rows) rows.
Proof.
  intros rows. unfold full, rep. rewrite map_length. repeat split; auto.
  - intros i Hi. rewrite nth_map_len. lia.
  - simpl. rewrite slots_full. auto.
Qed.

Lemma full_of_rows : forall c rows, full c rows -> c = of_rows rows.
Proof.
  intros [off ind] rows (H1 & H2 & H3 & H4). unfold of_rows. simpl in *. rewrite H3, H4, slots_full. auto.
Qed.

Lemma alloc_rep : forall caps, rep (alloc_rows caps) (repeat [] (length caps)) caps.
Proof.
  intros caps. unfold alloc_rows, rep. simpl. rewrite repeat_length. repeat split; auto.
  - intros i Hi. rewrite nth_repeat. simpl. lia.
  - rewrite last_cumsum. simpl. induction caps as [|c ct IH]; simpl; auto.
    unfold slot at 1. simpl. rewrite Nat.sub_0_r, <- IH, <- repeat_app. f_equal; lia.
Qed.

(** ** conn_set_to_free *)
Lemma first_free_spec : forall pre row m post,
  first_free (pre ++ map Some row ++ repeat None m ++ post) (length pre) (length row + m) =
  match m with 0 => None | S _ => Some (length pre + length row) end.
Proof.
  intros pre row m post. revert pre. induction row as [|r row IH]; intros pre; simpl.
  - destruct m; simpl; auto. rewrite app_nth2, Nat.sub_diag by lia. simpl. f_equal; lia.
  - rewrite app_nth2, Nat.sub_diag by lia. simpl.
    replace (pre ++ Some r :: map Some row ++ repeat None m ++ post)
      with ((pre ++ [Some r]) ++ map Some row ++ repeat None m ++ post) by (rewrite <- app_assoc; auto).
    replace (S (length pre)) with (length (pre ++ [Some r])) by (rewrite app_length; simpl; lia).
    rewrite IH. destruct m; auto. rewrite app_length; simpl. f_equal; lia.
Qed.

Lemma upd_app_r : forall A (l1 l2 : list A) k x, upd (l1 ++ l2) (length l1 + k) x = l1 ++ upd l2 k x.
Proof. induction l1; simpl; intros; auto. f_equal. apply IHl1. Qed.

Lemma upd_app_mid : forall A (l1 l2 : list A) y x, upd (l1 ++ y :: l2) (length l1) x = l1 ++ x :: l2.
Proof. intros. replace (length l1) with (length l1 + 0) by lia. rewrite upd_app_r. auto. Qed.

Lemma split_nth : forall A (l : list A) i d, i < length l ->
  l = firstn i l ++ nth i l d :: skipn (S i) l.
Proof.
  induction l as [|x l IH]; intros [|i] d H; simpl in *; try lia; auto. f_equal. apply IH. lia.
Qed.

Lemma slots_split : forall rows caps i, length rows = length caps -> i < length caps ->
  slots rows caps = slots (firstn i rows) (firstn i caps) ++ slot (nth i rows []) (nth i caps 0) ::
                    slots (skipn (S i) rows) (skipn (S i) caps).
Proof.
  induction rows as [|r rt IH]; intros [|c ct] [|i] H Hi; simpl in *; try lia; auto.
  f_equal. apply IH; lia.
Qed.

Lemma slots_upd : forall rows caps i row, length rows = length caps -> i < length caps ->
  slots (upd rows i row) caps = slots (firstn i rows) (firstn i caps) ++ slot row (nth i caps 0) ::
                    slots (skipn (S i) rows) (skipn (S i) caps).
Proof.
  induction rows as [|r rt IH]; intros [|c ct] [|i] row H Hi; simpl in *; try lia; auto.
  f_equal. apply IH; lia.
Qed.

Lemma length_concat_slots_firstn : forall rows caps i, length rows = length caps -> i <= length caps ->
  (forall j, j < length caps -> length (nth j rows []) <= nth j caps 0) ->
  length (concat (slots (firstn i rows) (firstn i caps))) = nsum (firstn i caps).
Proof.
  induction rows as [|r rt IH]; intros [|c ct] [|i] H Hi Hle; simpl in *; try lia; auto.
  rewrite app_length, length_slot by (apply (Hle 0); lia). f_equal. apply IH; try lia.
  intros j Hj. apply (Hle (S j)). lia.
Qed.

Lemma set_to_free_spec : forall c rows caps i x, rep c rows caps -> i < length caps ->
  length (nth i rows []) < nth i caps 0 ->
  exists c', conn_set_to_free c i x = Some c' /\ rep c' (upd rows i (nth i rows [] ++ [x])) caps.
Proof.
  intros c rows caps i x R Hi Hlt. pose proof (rep_off _ _ _ i R Hi) as [E1 E2].
  unfold conn_set_to_free. rewrite E2, E1. destruct R as (H1 & H2 & H3 & H4). rewrite H4, (slots_split _ _ i) by auto.
  set (pre := concat (slots (firstn i rows) (firstn i caps))).
  assert (Lp : length pre = nsum (firstn i caps)) by (apply length_concat_slots_firstn; auto; lia).
  rewrite concat_app. fold pre. simpl. set (post := concat (slots (skipn (S i) rows) (skipn (S i) caps))).
  unfold slot. rewrite <- app_assoc. rewrite <- Lp.
  destruct (nth i caps 0 - length (nth i rows [])) as [|m] eqn:Em; [lia|].
  replace (nth i caps 0) with (length (nth i rows []) + S m) by lia.
  rewrite first_free_spec. eexists. split; [reflexivity|].
  unfold rep. rewrite length_upd. repeat split; auto.
  - intros j Hj. rewrite nth_upd. destruct (Nat.eqb_spec j i) as [->|Hn]; simpl.
    + destruct (i <? length rows); auto. rewrite app_length. simpl. lia.
    + apply H2; auto.
  - simpl. rewrite slots_upd by auto. rewrite concat_app. fold pre. simpl. fold post.
    rewrite upd_app_r. f_equal.
    change (map Some (nth i rows []) ++ None :: repeat None m ++ post)
      with (map Some (nth i rows []) ++ None :: (repeat None m ++ post)).
    replace (length (nth i rows [])) with (length (map Some (nth i rows []))) at 1 by apply map_length.
    simpl. rewrite upd_app_mid. unfold slot. rewrite map_app, app_length. simpl.
    rewrite <- !app_assoc. simpl. f_equal. f_equal. f_equal. f_equal. lia.
Qed.

(** ** Passes *)
Definition evs_of (evs : list (nat * nat)) (i : nat) : list nat :=
  map snd (filter (fun e => fst e =? i) evs).

Lemma length_evs_cons : forall e evs i,
  length (evs_of (e :: evs) i) = (if fst e =? i then 1 else 0) + length (evs_of evs i).
Proof. intros. unfold evs_of. simpl. destruct (fst e =? i); auto. Qed.

Lemma fill_gen : forall evs c rows caps, rep c rows caps ->
  (forall e, In e evs -> fst e < length caps) ->
  (forall i, i < length caps -> length (nth i rows []) + length (evs_of evs i) <= nth i caps 0) ->
  exists c', fill evs c = Some c' /\
             rep c' (map (fun i => nth i rows [] ++ evs_of evs i) (seq 0 (length caps))) caps.
Proof.
  unfold fill. induction evs as [|[i x] evs IH]; intros c rows caps R Hb Hc; simpl.
  - exists c. split; auto.
    replace (map (fun i => nth i rows [] ++ evs_of [] i) (seq 0 (length caps))) with rows; auto.
    destruct R as (H1 & _). rewrite <- H1. apply list_ext with (d := []).
    + rewrite map_length, seq_length. auto.
    + intros k Hk. rewrite nth_map_in with (da := 0) by (rewrite seq_length; auto). rewrite seq_nth by auto.
      simpl. rewrite app_nil_r. auto.
  - assert (Hi : i < length caps) by (apply (Hb (i, x)); left; auto).
    pose proof (Hc i Hi) as Hci. rewrite length_evs_cons in Hci. simpl in Hci. rewrite Nat.eqb_refl in Hci.
    destruct (set_to_free_spec c rows caps i x R Hi) as (c1 & E1 & R1); [lia|].
    rewrite E1.
    destruct (IH c1 _ _ R1) as (c2 & E2 & R2).
    + intros e He. apply Hb; right; auto.
    + intros j Hj. pose proof (Hc j Hj) as Hcj. rewrite length_evs_cons in Hcj. simpl in Hcj.
      destruct R as (H1 & _). rewrite nth_upd. destruct (Nat.eqb_spec j i) as [->|Hn]; simpl.
      * destruct (Nat.ltb_spec i (length rows)); [|lia]. rewrite app_length. simpl. lia.
      * destruct (Nat.eqb_spec i j); [congruence|]. lia.
    + exists c2. split; auto.
      replace (map (fun j => nth j rows [] ++ evs_of ((i, x) :: evs) j) (seq 0 (length caps)))
        with (map (fun j => nth j (upd rows i (nth i rows [] ++ [x])) [] ++ evs_of evs j) (seq 0 (length caps))); auto.
      apply map_ext_in. intros j Hj. apply in_seq in Hj. destruct R as (H1 & _).
      rewrite nth_upd. unfold evs_of at 2. simpl. destruct (Nat.eqb_spec j i) as [->|Hn]; simpl.
      * rewrite Nat.eqb_refl. destruct (Nat.ltb_spec i (length rows)); [|lia]. rewrite <- app_assoc. auto.
      * destruct (Nat.eqb_spec i j); [congruence|]. auto.
Qed.

Lemma count_gen : forall evs cnt i,
  (forall e, In e evs -> fst e < length cnt) ->
  nth i (fold_left (fun cnt e => upd cnt (fst e) (S (nth (fst e) cnt 0))) evs cnt) 0 =
  nth i cnt 0 + length (evs_of evs i).
Proof.
  induction evs as [|[k x] evs IH]; intros cnt i Hb; simpl; [unfold evs_of; simpl; lia|].
  rewrite IH. 2: { intros e He. rewrite length_upd. apply Hb; right; auto. }
  assert (k < length cnt) by (apply (Hb (k, x)); left; auto).
  rewrite nth_upd. unfold evs_of. simpl. destruct (Nat.eqb_spec i k) as [->|Hn]; simpl.
  - rewrite Nat.eqb_refl. destruct (Nat.ltb_spec k (length cnt)); [|lia]. simpl. lia.
  - destruct (Nat.eqb_spec k i); [congruence|]. auto.
Qed.

Lemma length_count_rows : forall evs n, length (count_rows n evs) = n.
Proof.
  intros evs n. unfold count_rows. rewrite <- (repeat_length 0 n) at 2. generalize (repeat 0 n).
  induction evs; simpl; intros; auto. rewrite IHevs, length_upd. auto.
Qed.

Lemma nth_count_rows : forall evs n i, (forall e, In e evs -> fst e < n) ->
  nth i (count_rows n evs) 0 = length (evs_of evs i).
Proof.
  intros evs n i H. unfold count_rows. rewrite count_gen by (rewrite repeat_length; auto).
  rewrite nth_repeat. auto.
Qed.

(** Counting and filling with the same events gives exactly their rows. *)
Lemma two_pass : forall evs n, (forall e, In e evs -> fst e < n) ->
  exists c, fill evs (alloc_rows (count_rows n evs)) = Some c /\ full c (map (evs_of evs) (seq 0 n)).
Proof.
  intros evs n Hb. pose proof (length_count_rows evs n) as L.
  destruct (fill_gen evs _ _ _ (alloc_rep (count_rows n evs))) as (c & E & R).
  - rewrite L. auto.
  - rewrite L. intros i Hi. rewrite nth_repeat, nth_count_rows by auto. simpl. lia.
  - exists c. split; auto. unfold full. rewrite L in R.
    assert (A : map (fun i => nth i (repeat [] n) [] ++ evs_of evs i) (seq 0 n) = map (evs_of evs) (seq 0 n)).
    { apply map_ext. intros. rewrite nth_repeat. auto. }
    rewrite A in R. rewrite map_map.
    replace (map (fun x => length (evs_of evs x)) (seq 0 n)) with (count_rows n evs); auto.
    apply list_ext with (d := 0).
    + rewrite map_length, seq_length, L. auto.
    + intros k Hk. rewrite L in Hk. rewrite nth_count_rows by auto.
      rewrite nth_map_in with (da := 0) by (rewrite seq_length; auto). rewrite seq_nth by auto. auto.
Qed.

(** ** Transposition *)
Lemma filter_concat : forall A (p : A -> bool) ls, filter p (concat ls) = concat (map (filter p) ls).
Proof. induction ls; simpl; auto. rewrite filter_app, IHls. auto. Qed.

Lemma evs_of_concat : forall evss i, evs_of (concat evss) i = concat (map (fun evs => evs_of evs i) evss).
Proof.
  intros. unfold evs_of. rewrite filter_concat, concat_map, map_map. auto.
Qed.

Lemma evs_of_swap : forall row j i,
  evs_of (map (fun i => (i, j)) row) i = repeat j (count_occ Nat.eq_dec row i).
Proof.
  induction row as [|r row IH]; intros; simpl; auto. unfold evs_of in *. simpl.
  destruct (Nat.eqb_spec r i) as [->|Hn].
  - destruct (Nat.eq_dec i i); [|congruence]. simpl. f_equal. apply IH.
  - destruct (Nat.eq_dec r i); [congruence|]. apply IH.
Qed.

Definition transposed (rows : list (list nat)) (i : nat) : list nat :=
  concat (map (fun j => repeat j (count_occ Nat.eq_dec (nth j rows []) i)) (seq 0 (length rows))).

Lemma transpose_events_of : forall c21 rows i, full c21 rows ->
  evs_of (transpose_events c21 (length rows)) i = transposed rows i.
Proof.
  intros c21 rows i F. unfold transpose_events, transposed. rewrite evs_of_concat, map_map. f_equal.
  apply map_ext_in. intros j Hj. apply in_seq in Hj. rewrite (full_irow _ _ _ F) by lia. apply evs_of_swap.
Qed.

Lemma transpose_ok : forall c21 rows n1, full c21 rows ->
  (forall row, In row rows -> forall i, In i row -> i < n1) ->
  exists c12, mesh_transpose c21 (length rows) n1 = Some c12 /\ full c12 (map (transposed rows) (seq 0 n1)).
Proof.
  intros c21 rows n1 F Hb. unfold mesh_transpose.
  destruct (two_pass (transpose_events c21 (length rows)) n1) as (c & E & R).
  - unfold transpose_events. intros e He. apply in_concat in He. destruct He as (l & Hl & He).
    apply in_map_iff in Hl. destruct Hl as (j & <- & Hj). apply in_seq in Hj.
    apply in_map_iff in He. destruct He as (i & <- & Hi). simpl.
    rewrite (full_irow _ _ _ F) in Hi by lia. apply (Hb (nth j rows [])); auto. apply nth_In. lia.
  - exists c. split; auto.
    replace (map (transposed rows) (seq 0 n1)) with (map (evs_of (transpose_events c21 (length rows))) (seq 0 n1)); auto.
    apply map_ext. intros. apply transpose_events_of; auto.
Qed.

Lemma count_occ_repeat : forall (j k : nat) m, count_occ Nat.eq_dec (repeat j m) k = if j =? k then m else 0.
Proof.
  induction m; simpl; [destruct (j =? k); auto|]. destruct (Nat.eq_dec j k) as [->|Hn].
  - rewrite Nat.eqb_refl in *. rewrite IHm. auto.
  - destruct (Nat.eqb_spec j k); [congruence|]. auto.
Qed.

Lemma count_occ_concat_repeat : forall f a n k,
  count_occ Nat.eq_dec (concat (map (fun j => repeat j (f j)) (seq a n))) k =
  if (a <=? k) && (k <? a + n) then f k else 0.
Proof.
  intros f a n. revert a. induction n as [|n IH]; intros a k; simpl.
  - destruct (Nat.leb_spec a k), (Nat.ltb_spec k (a + 0)); simpl; auto; lia.
  - rewrite count_occ_app, count_occ_repeat, IH.
    destruct (Nat.eqb_spec a k) as [->|Hn].
    + destruct (Nat.leb_spec (S k) k); [lia|]. destruct (Nat.leb_spec k k); [|lia].
      destruct (Nat.ltb_spec k (k + S n)); [|lia]. simpl. lia.
    + destruct (Nat.leb_spec (S a) k), (Nat.leb_spec a k); try lia; simpl; auto.
      replace (a + S n) with (S (a + n)) by lia. destruct (k <? S (a + n)); auto.
Qed.

Lemma transposed_count : forall rows i j, 
  count_occ Nat.eq_dec (transposed rows i) j = count_occ Nat.eq_dec (nth j rows []) i.
Proof.
  intros. unfold transposed. rewrite count_occ_concat_repeat. simpl.
  destruct (Nat.ltb_spec j (length rows)); auto. rewrite nth_overflow by lia. auto.
Qed.

Lemma transposed_In : forall rows i j, In j (transposed rows i) <-> In i (nth j rows []).
Proof.
  intros. rewrite !(count_occ_In Nat.eq_dec), transposed_count. tauto.
Qed.

Lemma sorted_concat_repeat : forall f n a, Sorted le (concat (map (fun j => repeat j (f j)) (seq a n))) /\
  forall x, In x (concat (map (fun j => repeat j (f j)) (seq a n))) -> a <= x.
Proof.
  intros f. induction n as [|n IH]; intros a; simpl; [split; [constructor|intros ? []]|].
  destruct (IH (S a)) as [S1 G1]. split.
  - clear IH. induction (f a) as [|m IHm]; simpl; auto.
    constructor; auto. destruct m; simpl.
    + destruct (concat _) eqn:E; constructor. specialize (G1 n0 (or_introl eq_refl)). lia.
    + constructor. lia.
  - intros x Hx. apply in_app_iff in Hx. destruct Hx as [Hx|Hx].
    + apply repeat_spec in Hx. lia.
    + specialize (G1 x Hx). lia.
Qed.

Lemma transposed_sorted : forall rows i, Sorted le (transposed rows i).
Proof. intros. apply sorted_concat_repeat. Qed.

(** ** Intersection *)
Fixpoint firsts (seen : list nat) (l : list nat) : list nat :=
  match l with
  | [] => []
  | x :: t => if memb x seen then firsts seen t else x :: firsts (x :: seen) t
  end.

Lemma firsts_In : forall l seen x, In x (firsts seen l) <-> In x l /\ ~ In x seen.
Proof.
  induction l as [|y l IH]; intros seen x; simpl; [tauto|].
  destruct (memb y seen) eqn:E.
  - apply memb_In in E. rewrite IH. split; [tauto|]. intros [[->|H] H']; tauto.
  - apply memb_false in E. simpl. rewrite IH. simpl. split.
    + intros [->|[H1 H2]]; tauto.
    + intros [[->|H] H']; auto. destruct (Nat.eq_dec y x) as [->|]; auto. right. split; auto. tauto.
Qed.

Lemma firsts_NoDup : forall l seen, NoDup (firsts seen l).
Proof.
  induction l as [|y l IH]; intros seen; simpl; [constructor|].
  destruct (memb y seen); auto. constructor; auto. rewrite firsts_In. simpl. tauto.
Qed.

Lemma firsts_ext : forall l s1 s2, (forall x, In x l -> (In x s1 <-> In x s2)) -> firsts s1 l = firsts s2 l.
Proof.
  induction l as [|y l IH]; intros s1 s2 H; simpl; auto.
  assert (E : memb y s1 = memb y s2).
  { destruct (memb y s1) eqn:E1, (memb y s2) eqn:E2; auto.
    - apply memb_In in E1. apply memb_false in E2. apply H in E1; [tauto|left; auto].
    - apply memb_In in E2. apply memb_false in E1. apply H in E2; [tauto|left; auto]. }
  rewrite E. destruct (memb y s2).
  - apply IH. intros; apply H; right; auto.
  - f_equal. apply IH. intros x Hx. simpl. rewrite H by (right; auto). tauto.
Qed.

Lemma mask_loop_spec : forall ok cands mask seen,
  (forall x, In x cands -> x < length mask) ->
  (forall x, In x cands -> (nth x mask false = true <-> In x seen)) ->
  snd (mask_loop ok cands mask) = filter ok (firsts seen cands) /\
  length (fst (mask_loop ok cands mask)) = length mask.
Proof.
  induction cands as [|x t IH]; intros mask seen Hb Hm; simpl; auto.
  destruct (nth x mask false) eqn:E.
  - assert (In x seen) by (apply Hm; auto; left; auto).
    destruct (memb x seen) eqn:Es; [|apply memb_false in Es; tauto].
    apply IH; [intros; apply Hb; right; auto|intros; apply Hm; right; auto].
  - assert (Hn : ~ In x seen).
    { intros H. apply Hm in H; [congruence|left; auto]. }
    destruct (memb x seen) eqn:Es; [apply memb_In in Es; tauto|].
    destruct (IH (upd mask x true) (x :: seen)) as [I1 I2].
    + intros y Hy. rewrite length_upd. apply Hb; right; auto.
    + intros y Hy. rewrite nth_upd. simpl. assert (x < length mask) by (apply Hb; left; auto).
      destruct (Nat.eqb_spec y x) as [->|Hyx]; simpl.
      * destruct (Nat.ltb_spec x (length mask)); [|lia]. tauto.
      * rewrite Hm by (right; auto). split; [tauto|]. intros [->|]; [congruence|auto].
    + destruct (mask_loop ok t (upd mask x true)) as [m' out]. simpl in *. rewrite length_upd in I2.
      split; auto. rewrite I1. simpl. destruct (ok x); auto.
Qed.

Lemma clear_mask_len : forall cands mask, length (clear_mask cands mask) = length mask.
Proof. unfold clear_mask. induction cands; simpl; intros; auto. rewrite IHcands, length_upd. auto. Qed.

Lemma clear_mask_spec : forall cands mask x, In x cands -> nth x (clear_mask cands mask) false = false.
Proof.
  unfold clear_mask. induction cands as [|y t IH]; simpl; intros mask x H; [destruct H|].
  destruct (in_dec Nat.eq_dec x t) as [Hi|Hn]; [apply IH; auto|].
  destruct H as [->|H]; [|tauto].
  assert (G : forall m, nth x (fold_left (fun m x0 => upd m x0 false) t m) false = nth x m false).
  { clear IH. induction t as [|z t IHt]; simpl; intros m; auto. rewrite IHt by (intros H; apply Hn; right; auto).
    apply nth_upd_neq. intros ->. apply Hn; left; auto. }
  rewrite G. rewrite nth_upd. destruct ((x =? x) && (x <? length mask)) eqn:E; auto.
  rewrite Nat.eqb_refl in E. simpl in E. apply Nat.ltb_ge in E. apply nth_overflow. auto.
Qed.

Lemma intersect_pass_spec : forall same c13 c32 c10 c20 is mask,
  (forall i, In i is -> forall x, In x (candidates c13 c32 i) -> x < length mask) ->
  snd (intersect_pass same c13 c32 c10 c20 is mask) =
  concat (map (fun i => map (fun j => (i, j))
     (filter (accept same c10 c20 i) (firsts [] (candidates c13 c32 i)))) is) /\
  length (fst (intersect_pass same c13 c32 c10 c20 is mask)) = length mask.
Proof.
  induction is as [|i t IH]; intros mask Hb; simpl; auto.
  destruct (mask_loop_spec (accept same c10 c20 i) (candidates c13 c32 i)
              (clear_mask (candidates c13 c32 i) mask) []) as [I1 I2].
  - intros x Hx. rewrite clear_mask_len. apply (Hb i); auto. left; auto.
  - intros x Hx. rewrite clear_mask_spec by auto. split; [discriminate|intros []].
  - destruct (mask_loop _ _ _) as [m1 out]. simpl in *. rewrite clear_mask_len in I2.
    destruct (IH m1) as [J1 J2].
    + intros k Hk x Hx. rewrite I2. apply (Hb k); auto.
    + destruct (intersect_pass same c13 c32 c10 c20 t m1) as [m2 evs]. simpl in *. subst. split; auto. congruence.
Qed.

Lemma evs_of_rows : forall f n a i, 
  evs_of (concat (map (fun i => map (fun j => (i, j)) (f i)) (seq a n))) i =
  if (a <=? i) && (i <? a + n) then f i else [].
Proof.
  intros f. induction n as [|n IH]; intros a i; simpl.
  - destruct (Nat.leb_spec a i), (Nat.ltb_spec i (a + 0)); simpl; auto; lia.
  - unfold evs_of in *. rewrite filter_app, map_app, IH.
    assert (E : map snd (filter (fun e => fst e =? i) (map (fun j => (a, j)) (f a))) = if a =? i then f a else []).
    { induction (f a) as [|y l IHl]; simpl; [destruct (a =? i); auto|].
      destruct (a =? i); simpl; auto. f_equal. auto. }
    rewrite E. destruct (Nat.eqb_spec a i) as [->|Hn].
    + destruct (Nat.leb_spec (S i) i); [lia|]. destruct (Nat.leb_spec i i); [|lia].
      destruct (Nat.ltb_spec i (i + S n)); [|lia]. simpl. apply app_nil_r.
    + rewrite app_nil_l. replace (a + S n) with (S a + n) by lia.
      destruct (Nat.leb_spec (S a) i), (Nat.leb_spec a i); auto; lia.
Qed.

Lemma intersect_ok : forall same c13 c32 c10 c20 n1 n2,
  (forall i, i < n1 -> forall x, In x (candidates c13 c32 i) -> x < n2) ->
  exists c12, mesh_intersect same c13 c32 c10 c20 n1 n2 = Some c12 /\
    full c12 (map (fun i => filter (accept same c10 c20 i) (firsts [] (candidates c13 c32 i))) (seq 0 n1)).
Proof.
  intros same c13 c32 c10 c20 n1 n2 Hb. unfold mesh_intersect.
  destruct (intersect_pass_spec same c13 c32 c10 c20 (seq 0 n1) (repeat false n2)) as [I1 I2].
  { intros i Hi x Hx. apply in_seq in Hi. rewrite repeat_length. apply (Hb i); auto. lia. }
  destruct (intersect_pass _ _ _ _ _ _ _) as [m1 e1]. simpl in *.
  destruct (intersect_pass_spec same c13 c32 c10 c20 (seq 0 n1) m1) as [J1 J2].
  { intros i Hi x Hx. apply in_seq in Hi. rewrite I2, repeat_length. apply (Hb i); auto. lia. }
  destruct (intersect_pass same c13 c32 c10 c20 (seq 0 n1) m1) as [m2 e2]. simpl in *.
  rewrite <- I1 in J1. subst e2.
  destruct (two_pass e1 n1) as (c & E & F).
  { rewrite I1. intros e He. apply in_concat in He. destruct He as (l & Hl & He).
    apply in_map_iff in Hl. destruct Hl as (j & <- & Hj). apply in_seq in Hj.
    apply in_map_iff in He. destruct He as (i & <- & Hi). simpl. lia. }
  exists c. split; auto.
  replace (map (fun i => filter (accept same c10 c20 i) (firsts [] (candidates c13 c32 i))) (seq 0 n1))
    with (map (evs_of e1) (seq 0 n1)); auto.
  apply map_ext_in. intros i Hi. apply in_seq in Hi. rewrite I1.
  rewrite (evs_of_rows (fun i => filter (accept same c10 c20 i) (firsts [] (candidates c13 c32 i)))).
  simpl. destruct (Nat.ltb_spec i n1); auto. lia.
Qed.

Lemma contains_spec : forall a b, contains a b = true <-> incl b a.
Proof.
  intros a b. unfold contains. rewrite forallb_forall. unfold incl. split.
  - intros H x Hx. specialize (H x Hx). apply existsb_exists in H. destruct H as (y & Hy & E).
    apply Nat.eqb_eq in E. subst; auto.
  - intros H x Hx. apply existsb_exists. exists x. split; [apply H; auto|apply Nat.eqb_refl].
Qed.

Lemma In_candidates : forall c13 c32 r13 r32 i j, full c13 r13 -> full c32 r32 -> i < length r13 ->
  (forall k, In k (nth i r13 []) -> k < length r32) ->
  (In j (candidates c13 c32 i) <-> exists k, In k (nth i r13 []) /\ In j (nth k r32 [])).
Proof.
  intros c13 c32 r13 r32 i j F1 F2 Hi Hb. unfold candidates. rewrite (full_irow _ _ _ F1) by auto.
  rewrite in_concat. split.
  - intros (l & Hl & Hj). apply in_map_iff in Hl. destruct Hl as (k & <- & Hk). exists k. split; auto.
    rewrite (full_irow _ _ _ F2) in Hj by auto. auto.
  - intros (k & Hk & Hj). exists (irow c32 k). split; [apply in_map; auto|].
    rewrite (full_irow _ _ _ F2) by auto. auto.
Qed.
