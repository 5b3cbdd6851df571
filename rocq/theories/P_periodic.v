(** C47: the periodic matching of nodes and its cache. *)
From Coq Require Import QArith Qabs Lqa.
From Verif Require Import Base M_periodic.
Set Implicit Arguments.
Open Scope Q_scope.

(** ** Specification *)
(** [nm.argsort]: any sorting permutation. *)
Definition argsorts (f : list Q -> list nat) : Prop :=
  forall l, Permutation (f l) (seq 0 (length l)) /\ StronglySorted Qle (take 0 l (f l)).
(** [cKDTree.query_pairs(r)]: all pairs i < j of points of distance at most r. *)
Definition pairs_spec (q : Q -> list (list Q) -> list (nat * nat)) : Prop :=
  forall e x, NoDup (q e x) /\
    forall i j, In (i, j) (q e x) <-> (i < j < length x)%nat /\ dist2 (nth i x []) (nth j x []) <= e * e.
(** [i1], [i2] match the points of two lines along the axis [w]. *)
Definition line_matching (eps : Q) (c1 c2 : coors) (w : nat) (i1 i2 : list nat) : Prop :=
  Permutation i1 (seq 0 (nrow c1)) /\ Permutation i2 (seq 0 (nrow c2)) /\ length i1 = length i2 /\
  forall k, (k < length i1)%nat -> Qabs (nth w (row c1 (nth k i1 O)) 0 - nth w (row c2 (nth k i2 O)) 0) < eps.
(** [i1], [i2] match the points of [c1] with the points of [c2] shifted by [s]. *)
Definition shifted_matching (eps : Q) (c1 c2 : coors) (s : list Q) (i1 i2 : list nat) : Prop :=
  Permutation i1 (seq 0 (nrow c1)) /\ Permutation i2 (seq 0 (nrow c2)) /\ length i1 = length i2 /\
  forall k, (k < length i1)%nat -> dist2 (row c1 (nth k i1 O)) (vadd (row c2 (nth k i2 O)) s) <= eps * eps.

(** ** Counting *)
Lemma take_perm : forall A (d : A) l is, Permutation is (seq 0 (length l)) -> Permutation (take d l is) l.
Proof.
  intros A d l is H. unfold take. etransitivity; [apply Permutation_map; exact H|].
  replace (map (fun i => nth i l d) (seq 0 (length l))) with l; auto.
  apply list_ext with (d := d); [rewrite map_length, seq_length; auto|].
  intros k Hk. rewrite nth_map_in with (da := O) by (rewrite seq_length; auto). rewrite nth_seq0 by auto. reflexivity.
Qed.
Definition count (p : Q -> bool) (l : list Q) : nat := length (filter p l).
Lemma filter_perm : forall A (p : A -> bool) l l', Permutation l l' -> Permutation (filter p l) (filter p l').
Proof.
  intros A p l l' H. induction H; simpl; auto.
  - destruct (p x); auto.
  - destruct (p y), (p x); auto. constructor.
  - etransitivity; eauto.
Qed.
Lemma count_perm : forall p l l', Permutation l l' -> count p l = count p l'.
Proof. intros. unfold count. apply Permutation_length, filter_perm; auto. Qed.
Lemma count_lower : forall p l k, (k < length l)%nat -> (forall i, (i <= k)%nat -> p (nth i l 0) = true) -> (k < count p l)%nat.
Proof.
  intros p l. unfold count. induction l as [|x l IH]; intros k Hk H; simpl in Hk; [lia|].
  assert (Hx := H O ltac:(lia)). simpl in Hx. simpl. rewrite Hx. simpl. destruct k as [|k]; [lia|].
  apply -> Nat.succ_lt_mono. apply IH; [lia|]. intros i Hi. apply (H (S i)). lia.
Qed.
Lemma count_upper : forall p l k, (forall i, (k <= i < length l)%nat -> p (nth i l 0) = false) -> (count p l <= k)%nat.
Proof.
  intros p l. unfold count. induction l as [|x l IH]; intros k H; simpl; [lia|].
  destruct k as [|k].
  - assert (Hx := H O ltac:(simpl; lia)). simpl in Hx. rewrite Hx. apply IH. intros i Hi. apply (H (S i)). simpl. lia.
  - assert (G : (length (filter p l) <= k)%nat) by (apply IH; intros i Hi; apply (H (S i)); simpl; lia).
    destruct (p x); simpl; lia.
Qed.
Lemma sorted_nth : forall l i j, StronglySorted Qle l -> (i <= j < length l)%nat -> nth i l 0 <= nth j l 0.
Proof.
  induction l as [|x l IH]; intros i j Hs Hij; simpl in Hij; [lia|]. inversion Hs as [|? ? H1 H2]; subst.
  destruct i as [|i], j as [|j]; simpl; try lia.
  - apply Qle_refl.
  - rewrite Forall_forall in H2. apply H2, nth_In. lia.
  - apply IH; auto. lia.
Qed.
Lemma count_sub : forall (p q : Q -> bool) (f g : nat -> Q) is,
  (forall i, In i is -> p (f i) = true -> q (g i) = true) -> (count p (map f is) <= count q (map g is))%nat.
Proof.
  unfold count. induction is as [|i is IH]; intros H; simpl; auto.
  assert (G := IH (fun x Hx => H x (or_intror Hx))). assert (Hi := H i (or_introl eq_refl)).
  destruct (p (f i)), (q (g i)); simpl; try lia.
Qed.
(** Sorting matches values if any matching exists. *)
Lemma sorted_bound : forall eps x1 x2 s1 s2 n (f g : nat -> Q),
  Permutation (map f (seq 0 n)) x1 -> Permutation (map g (seq 0 n)) x2 ->
  (forall i, (i < n)%nat -> f i < g i + eps) ->
  Permutation s1 x1 -> Permutation s2 x2 -> StronglySorted Qle s1 -> StronglySorted Qle s2 ->
  forall k, (k < n)%nat -> nth k s1 0 < nth k s2 0 + eps.
Proof.
  intros eps x1 x2 s1 s2 n f g P1 P2 H Q1 Q2 S1 S2 k Hk.
  assert (L1 : length s1 = n) by (rewrite (Permutation_length Q1), <- (Permutation_length P1), map_length, seq_length; auto).
  assert (L2 : length s2 = n) by (rewrite (Permutation_length Q2), <- (Permutation_length P2), map_length, seq_length; auto).
  destruct (Qlt_le_dec (nth k s1 0) (nth k s2 0 + eps)) as [|Hle]; auto. exfalso.
  set (p := fun v => if Qlt_le_dec (nth k s2 0) v then false else true).
  set (q := fun v => if Qlt_le_dec v (nth k s1 0) then true else false).
  assert (A : (k < count p s2)%nat).
  { apply count_lower; [lia|]. intros i Hi. unfold p. destruct (Qlt_le_dec _ _) as [Hl|]; auto.
    exfalso. apply (Qlt_not_le _ _ Hl). apply sorted_nth; auto. lia. }
  assert (B : (count q s1 <= k)%nat).
  { apply count_upper. intros i Hi. unfold q. destruct (Qlt_le_dec _ _) as [Hl|]; auto.
    exfalso. apply (Qlt_not_le _ _ Hl). apply sorted_nth; auto. }
  assert (C : (count p (map g (seq 0 n)) <= count q (map f (seq 0 n)))%nat).
  { apply count_sub. intros i Hi. apply in_seq in Hi. unfold p, q. destruct (Qlt_le_dec (nth k s2 0) (g i)); [discriminate|].
    intros _. destruct (Qlt_le_dec _ _) as [|Hn]; auto. exfalso. specialize (H i ltac:(lia)). lra. }
  rewrite (@count_perm p _ _ P2), <- (@count_perm p _ _ Q2) in C.
  rewrite (@count_perm q _ _ P1), <- (@count_perm q _ _ Q1) in C. lia.
Qed.

Section Thms.
Variable argsort : list Q -> list nat.
Hypothesis Hargsort : argsorts argsort.
Variable query_pairs : Q -> list (list Q) -> list (nat * nat).
Hypothesis Hpairs : pairs_spec query_pairs.
Variable eps : Q.

Lemma col_length : forall w a, length (col w a) = nrow a.
Proof. intros. unfold col, nrow. apply map_length. Qed.
Lemma col_nth : forall w a i, (i < nrow a)%nat -> nth i (col w a) 0 = nth w (row a i) 0.
Proof. intros. unfold col, row. rewrite nth_map_in with (da := []) by auto. reflexivity. Qed.
Lemma Qabs_lt : forall a b, Qabs (a - b) < eps <-> a < b + eps /\ b < a + eps.
Proof.
  intros a b. split.
  - intros H. assert (H1 := Qle_Qabs (a - b)). assert (H2 := Qle_Qabs (-(a - b))). rewrite Qabs_opp in H2. split; lra.
  - intros [H1 H2]. apply Qabs_case; intros; lra.
Qed.
Lemma combine_nth_forall : forall (P : Q * Q -> bool) a b, length a = length b ->
  (forallb P (combine a b) = true <-> forall k, (k < length a)%nat -> P (nth k a 0, nth k b 0) = true).
Proof.
  intros P. induction a as [|x a IH]; destruct b as [|y b]; simpl; intros L; try lia.
  - split; auto. intros _ k Hk. lia.
  - rewrite andb_true_iff, IH by lia. split.
    + intros [H1 H2] [|k] Hk; auto. apply H2. lia.
    + intros H. split; [apply (H O); lia|]. intros k Hk. apply (H (S k)). lia.
Qed.

(** Without the cache, points on lines are matched if they can be, otherwise it is an error. *)
Theorem C47_line : forall c1 c2 w, nrow c1 = nrow c2 ->
  (exists i1 i2, match_line argsort eps c1 c2 w = Ok (i1, i2) /\ line_matching eps c1 c2 w i1 i2) \/
  match_line argsort eps c1 c2 w = Err ValueError /\ forall i1 i2, ~ line_matching eps c1 c2 w i1 i2.
Proof.
  intros c1 c2 w En. unfold match_line.
  set (x1 := col w c1). set (x2 := col w c2). set (i1 := argsort x1). set (i2 := argsort x2).
  destruct (Hargsort x1) as [P1 S1]. destruct (Hargsort x2) as [P2 S2].
  fold i1 in P1, S1. fold i2 in P2, S2.
  assert (X1 : length x1 = nrow c1) by apply col_length. assert (X2 : length x2 = nrow c2) by apply col_length.
  assert (L1 : length i1 = nrow c1) by (rewrite (Permutation_length P1), seq_length; auto).
  assert (L2 : length i2 = nrow c2) by (rewrite (Permutation_length P2), seq_length; auto).
  assert (B1 : forall k, (k < length i1)%nat -> (nth k i1 O < nrow c1)%nat).
  { intros k Hk. assert (In (nth k i1 O) (seq 0 (length x1))) by (apply (Permutation_in _ P1), nth_In; auto).
    apply in_seq in H. lia. }
  assert (B2 : forall k, (k < length i2)%nat -> (nth k i2 O < nrow c2)%nat).
  { intros k Hk. assert (In (nth k i2 O) (seq 0 (length x2))) by (apply (Permutation_in _ P2), nth_In; auto).
    apply in_seq in H. lia. }
  destruct (forallb _ _) eqn:E.
  - left. exists i1, i2. split; auto. rewrite X1 in P1. rewrite X2 in P2. split; auto. split; auto. split; [lia|].
    rewrite combine_nth_forall in E by (rewrite !length_take; lia).
    intros k Hk. specialize (E k ltac:(rewrite length_take; auto)). rewrite !nth_take in E by lia. cbn [fst snd] in E.
    unfold x1, x2 in E. rewrite !col_nth in E by (try apply B1; try apply B2; lia). destruct (Qlt_le_dec _ _); auto; discriminate.
  - right. split; auto. intros j1 j2 (M1 & M2 & M3 & M4).
    assert (T : forallb (fun p : Q * Q => if Qlt_le_dec (Qabs (fst p - snd p)) eps then true else false)
                  (combine (take 0 x1 i1) (take 0 x2 i2)) = true); [|congruence].
    apply combine_nth_forall; [rewrite !length_take; lia|]. intros k Hk. rewrite length_take in Hk. cbn [fst snd].
    set (f := fun m => nth (nth m j1 O) x1 0). set (g := fun m => nth (nth m j2 O) x2 0).
    assert (N1 : length j1 = nrow c1) by (rewrite (Permutation_length M1), seq_length; auto).
    assert (Lseq : forall l, map (fun m => nth m l O) (seq 0 (length l)) = l).
    { intros l. apply list_ext with (d := O); [rewrite map_length, seq_length; auto|].
      intros z Hz. rewrite map_length, seq_length in Hz. rewrite nth_map_in with (da := O) by (rewrite seq_length; auto). rewrite nth_seq0 by auto. reflexivity. }
    assert (F1 : Permutation (map f (seq 0 (nrow c1))) x1).
    { rewrite <- (map_map (fun m => nth m j1 O) (fun i => nth i x1 0)). rewrite <- N1, Lseq.
      apply (take_perm 0 x1). rewrite X1. auto. }
    assert (F2 : Permutation (map g (seq 0 (nrow c1))) x2).
    { rewrite <- (map_map (fun m => nth m j2 O) (fun i => nth i x2 0)). rewrite <- N1, M3, Lseq.
      apply (take_perm 0 x2). rewrite X2. auto. }
    assert (FG : forall m, (m < nrow c1)%nat -> f m < g m + eps /\ g m < f m + eps).
    { intros m Hm. apply Qabs_lt. unfold f, g, x1, x2. rewrite !col_nth.
      - apply M4. lia.
      - assert (In (nth m j2 O) (seq 0 (nrow c2))) by (apply (Permutation_in _ M2), nth_In; lia). apply in_seq in H. lia.
      - assert (In (nth m j1 O) (seq 0 (nrow c1))) by (apply (Permutation_in _ M1), nth_In; lia). apply in_seq in H. lia. }
    destruct (Qlt_le_dec _ _) as [|Hn]; auto. exfalso. apply (Qlt_not_le _ _) in Hn; auto.
    apply Qabs_lt. split.
    + apply (@sorted_bound eps x1 x2 _ _ (nrow c1) f g); auto; try (apply take_perm; auto); try lia.
      intros; apply FG; auto.
    + apply (@sorted_bound eps x2 x1 _ _ (nrow c1) g f); auto; try (apply take_perm; auto); try lia.
      intros; apply FG; auto.
Qed.

(** ** Matching in a direction *)
(** No two points of an array are close to the same point of the other. *)
Definition separated (x1 x2 : list (list Q)) : Prop :=
  (forall i i' j, (i < length x1)%nat -> (i' < length x1)%nat -> (j < length x2)%nat ->
     dist2 (nth i x1 []) (nth j x2 []) <= eps * eps -> dist2 (nth i' x1 []) (nth j x2 []) <= eps * eps -> i = i') /\
  (forall i j j', (i < length x1)%nat -> (j < length x2)%nat -> (j' < length x2)%nat ->
     dist2 (nth i x1 []) (nth j x2 []) <= eps * eps -> dist2 (nth i x1 []) (nth j' x2 []) <= eps * eps -> j = j').
Lemma find_map_ok : forall x1 x2 i1 i2, find_map query_pairs eps false x1 x2 = Ok (i1, i2) ->
  length i1 = length i2 /\ (forall k, (k < length i1)%nat -> (nth k i1 O < length x1 /\ nth k i2 O < length x2)%nat /\
     dist2 (nth (nth k i1 O) x1 []) (nth (nth k i2 O) x2 []) <= eps * eps) /\ NoDup (combine i1 i2).
Proof.
  intros x1 x2 i1 i2 H. unfold find_map in H. destruct (Hpairs eps (x1 ++ x2)) as [Nd Hp].
  set (cm := query_pairs eps (x1 ++ x2)) in *.
  destruct (Nat.eqb_spec (length (filter (fun p : nat * nat => (snd p <? length x1)%nat) cm) + length (filter (fun p : nat * nat => (length x1 <=? fst p)%nat) cm)) 0) as [E|E]; [|discriminate].
  simpl in H. inversion H; subst i1 i2; clear H.
  assert (D : forall p, In p cm -> (fst p < length x1 <= snd p)%nat).
  { intros p Hin. split.
    - destruct (le_lt_dec (length x1) (fst p)) as [L|L]; auto.
      assert (I : In p (filter (fun p => (length x1 <=? fst p)%nat) cm)) by (apply filter_In; split; auto; apply Nat.leb_le; auto).
      destruct (filter (fun p : nat * nat => (length x1 <=? fst p)%nat) cm); [destruct I|simpl in E; lia].
    - destruct (le_lt_dec (length x1) (snd p)) as [L|L]; auto.
      assert (I : In p (filter (fun p => (snd p <? length x1)%nat) cm)) by (apply filter_In; split; auto; apply Nat.ltb_lt; auto).
      destruct (filter (fun p : nat * nat => (snd p <? length x1)%nat) cm); [destruct I|simpl in E; lia]. }
  split; [rewrite !map_length; auto|]. split.
  - intros k Hk. rewrite map_length in Hk. rewrite !nth_map_in with (da := (O, O)) by auto.
    assert (I := nth_In cm (O, O) Hk). assert (D' := D _ I).
    destruct (nth k cm (O, O)) as [a b] eqn:Eab. apply Hp in I. destruct I as [I1 I2]. simpl in *.
    rewrite app_length in I1. split; [lia|]. rewrite app_nth1, app_nth2 in I2 by lia. auto.
  - assert (Ec : combine (map fst cm) (map (fun p => (snd p - length x1)%nat) cm) = map (fun p => (fst p, snd p - length x1)%nat) cm).
    { clear. induction cm; simpl; congruence. }
    rewrite Ec. revert Nd D. clear. induction cm as [|p cm IH]; intros Nd D; simpl; [constructor|].
    inversion Nd; subst. constructor; [|apply IH; auto; intros; apply D; simpl; auto].
    intros I. apply in_map_iff in I. destruct I as [q [E Hq]]. inversion E.
    assert (p = q); [|subst; tauto]. assert (D1 := D p (or_introl eq_refl)). assert (D2 := D q (or_intror Hq)).
    destruct p, q; simpl in *. f_equal; lia.
Qed.
Lemma nodup_len_perm : forall l n, NoDup l -> length l = n -> (forall x, In x l -> (x < n)%nat) -> Permutation l (seq 0 n).
Proof.
  intros l n Hn Hl Hb. apply NoDup_Permutation_bis; auto; [rewrite seq_length; lia|].
  intros x Hx. apply in_seq. specialize (Hb x Hx). lia.
Qed.
Lemma map_matching : forall x1 x2 i1 i2, find_map query_pairs eps false x1 x2 = Ok (i1, i2) -> separated x1 x2 ->
  length i1 = length x1 -> length x1 = length x2 -> Permutation i1 (seq 0 (length x1)) /\ Permutation i2 (seq 0 (length x2)).
Proof.
  intros x1 x2 i1 i2 H [S1 S2] Hl En. destruct (find_map_ok _ _ H) as (F1 & F2 & F3).
  assert (U : forall k k', (k < length i1)%nat -> (k' < length i1)%nat -> nth k i1 O = nth k' i1 O /\ nth k i2 O = nth k' i2 O -> k = k').
  { intros k k' Hk Hk' [E1 E2]. apply (proj1 (NoDup_nth (combine i1 i2) (O, O)) F3); rewrite ?combine_length, <- ?F1; try lia.
    rewrite !combine_nth by auto. congruence. }
  split; apply nodup_len_perm; try lia.
  - apply (NoDup_nth i1 O). intros k k' Hk Hk' E. apply U; auto. split; auto.
    destruct (F2 k Hk) as [[A1 A2] A3]. destruct (F2 k' Hk') as [[B1 B2] B3]. rewrite <- E in B3.
    apply (S2 (nth k i1 O)); auto.
  - intros x Hx. apply (in_nth_ex) with (d := O) in Hx. destruct Hx as [k [Hk <-]]. apply F2; auto.
  - apply (NoDup_nth i2 O). intros k k' Hk Hk' E. rewrite <- F1 in Hk, Hk'. apply U; auto. split; auto.
    destruct (F2 k Hk) as [[A1 A2] A3]. destruct (F2 k' Hk') as [[B1 B2] B3]. rewrite <- E in B3.
    apply (S1 _ _ (nth k i2 O)); auto.
  - intros x Hx. apply (in_nth_ex) with (d := O) in Hx. destruct Hx as [k [Hk <-]]. apply F2. lia.
Qed.
(** [match_coors]: the arrays contain the same points. *)
Theorem C47_coors : forall c1 c2 i1 i2, nrow c1 = nrow c2 -> separated (a_rows c1) (a_rows c2) ->
  match_dir query_pairs eps c1 c2 None = Ok (i1, i2) ->
  Permutation i1 (seq 0 (nrow c1)) /\ Permutation i2 (seq 0 (nrow c2)) /\ length i1 = length i2 /\
  forall k, (k < length i1)%nat -> dist2 (row c1 (nth k i1 O)) (row c2 (nth k i2 O)) <= eps * eps.
Proof.
  intros c1 c2 i1 i2 En Hsep H. unfold match_dir in H. cbn [bind] in H.
  destruct (find_map _ _ _ _ _) as [[j1 j2]|] eqn:E; [|discriminate]. cbn [bind fst] in H.
  destruct (Nat.eqb_spec (length j1) (nrow c1)) as [L|L]; [|discriminate]. inversion H; subst j1 j2.
  destruct (find_map_ok _ _ E) as (F1 & F2 & F3). destruct (map_matching E Hsep L En) as [P1 P2].
  split; auto. split; auto. split; auto. intros k Hk. apply F2; auto.
Qed.
(** A direction: the shift is parallel to it (up to eps), and the points match. *)
Theorem C47_dir : forall c1 c2 d i1 i2, nrow c1 = nrow c2 ->
  match_dir query_pairs eps c1 c2 (Some d) = Ok (i1, i2) ->
  exists j, (j < nrow c2)%nat /\
    let s := vsub (row c1 0) (row c2 j) in let d := firstn (a_dim c1) d in
    let p := vsub s (vscale (vdot s d / vdot d d) d) in vdot p p < eps * eps /\
    (separated (a_rows c1) (map (fun x => vadd x s) (a_rows c2)) -> shifted_matching eps c1 c2 s i1 i2).
Proof.
  intros c1 c2 d i1 i2 En H. unfold match_dir in H. 
  destruct (nonzero _ (a_rows c2)) as [|j js] eqn:Ej; [discriminate|]. cbn [bind] in H.
  set (s := vsub (row c1 0) (row c2 j)) in *.
  destruct (find_map _ _ _ _ _) as [[j1 j2]|] eqn:E; [|discriminate]. cbn [bind fst] in H.
  destruct (Nat.eqb_spec (length j1) (nrow c1)) as [L|L]; [|discriminate]. inversion H; subst j1 j2.
  assert (I : In j (j :: js)) by (simpl; auto). rewrite <- Ej in I. apply (nonzero_spec _ []) in I. destruct I as [I1 I2].
  exists j. split; auto. cbv zeta. split.
  - fold (row c2 j) in I2. destruct (Qlt_le_dec _ _) as [q|]; [exact q|discriminate].
  - intros Hsep. assert (Lm : length (map (fun x => vadd x s) (a_rows c2)) = nrow c2) by apply map_length.
    destruct (map_matching E Hsep L ltac:(rewrite Lm; exact En)) as [P1 P2]. rewrite Lm in P2.
    destruct (find_map_ok _ _ E) as (F1 & F2 & F3). split; auto. split; auto. split; auto.
    intros k Hk. destruct (F2 k Hk) as [[A1 A2] A3]. rewrite nth_map_in with (da := []) in A3; auto.
    rewrite map_length in A2. auto.
Qed.

(** ** The cache *)
Notation do_call := (do_call argsort query_pairs eps).
Notation run := (run argsort query_pairs eps).
Notation fresh := (fresh argsort query_pairs eps).
(** Every result is the matching of the coordinates of some earlier call with the same shape and axis (or of this one). *)
Lemma run_gen : forall cs pc n c, 
  nth_error cs n = Some c -> same_shape c = true -> forall r, nth_error (run pc cs) n = Some (Ok r) ->
  (exists k, find (fun e => key_eqb (fst e) (key_of c)) pc = Some (k, r)) \/
  exists m c', (m <= n)%nat /\ nth_error cs m = Some c' /\ key_eqb (key_of c') (key_of c) = true /\ same_shape c' = true /\ fresh c' = Ok r.
Proof.
  induction cs as [|c0 cs IH]; intros pc [|n] c Hn Hs r Hr; simpl in Hn; try discriminate.
  - inversion Hn; subst c0. simpl in Hr. unfold M_periodic.do_call in Hr. rewrite Hs in Hr. simpl in Hr.
    destruct (k_saved c).
    + unfold cget in Hr. destruct (find _ pc) as [[k r']|] eqn:E; simpl in Hr.
      * inversion Hr; subst. left. exists k. auto.
      * right. exists O, c. destruct (fresh c) eqn:F; simpl in Hr; inversion Hr; subst.
        assert (K : key_eqb (key_of c) (key_of c) = true).
        { clear. destruct (key_of c) as [n d w|n d [x|]]; simpl; rewrite ?Nat.eqb_refl; auto. simpl. unfold lQ_eqb.
          rewrite Nat.eqb_refl. simpl. induction x; simpl; auto. rewrite IHx, andb_true_r. apply Qeq_bool_refl. }
        simpl. auto.
    + right. exists O, c. destruct (fresh c) eqn:F; simpl in Hr; inversion Hr; subst.
      assert (K : key_eqb (key_of c) (key_of c) = true).
      { clear. destruct (key_of c) as [n d w|n d [x|]]; simpl; rewrite ?Nat.eqb_refl; auto. simpl. unfold lQ_eqb.
        rewrite Nat.eqb_refl. simpl. induction x; simpl; auto. rewrite IHx, andb_true_r. apply Qeq_bool_refl. }
      simpl. auto.
  - simpl in Hr. destruct (do_call pc c0) as [pc' r0] eqn:E. simpl in Hr.
    destruct (IH pc' n c Hn Hs r Hr) as [[k F]|(m & c' & M1 & M2 & M3)].
    + unfold M_periodic.do_call in E. destruct (same_shape c0) eqn:S0; simpl in E; [|inversion E; subst; eauto].
      destruct (if k_saved c0 then _ else _); [inversion E; subst; eauto|].
      destruct (fresh c0) as [r'|] eqn:F0; inversion E; subst; eauto. simpl in F.
      destruct (key_eqb (key_of c0) (key_of c)) eqn:K; [|eauto]. inversion F; subst.
      right. exists O, c0. simpl. repeat split; auto. lia.
    + right. exists (S m), c'. split; [lia|]. auto.
Qed.
(** If all calls with the same shape and axis have the same coordinates, each call gets the matching of its own. *)
(** Two calls of the same function with the same number of points, dimension and axis or
    direction. *)
Definition same_use (c c' : call) : Prop :=
  length (a_rows (k_1 c)) = length (a_rows (k_1 c')) /\ a_dim (k_1 c) = a_dim (k_1 c') /\
  match k_what c, k_what c' with
  | WLine w, WLine w' => w = w'
  | WDir None, WDir None => True
  | WDir (Some d), WDir (Some d') => length d = length d' /\ forall i, (i < length d)%nat -> nth i d 0 == nth i d' 0
  | _, _ => False
  end.
Lemma key_use : forall c c', key_eqb (key_of c) (key_of c') = true -> same_use c c'.
Proof.
  intros c c' H. unfold key_eqb, key_of, nrow in H. unfold same_use. destruct (k_what c) as [w|[d|]], (k_what c') as [w'|[d'|]]; try discriminate; rewrite ?andb_true_iff, ?Nat.eqb_eq in H; try tauto.
  destruct H as [[H1 H2] H3]. split; auto. split; auto. unfold lQ_eqb in H3. apply andb_true_iff in H3. destruct H3 as [H3 H4]. apply Nat.eqb_eq in H3. split; auto. intros i Hi. rewrite forallb_forall in H4. apply Qeq_bool_iff.
  specialize (H4 (nth i d 0, nth i d' 0)). apply H4. rewrite <- combine_nth by auto. apply nth_In. rewrite combine_length. lia.
Qed.
Theorem C47_calls_partial : forall cs n c r, nth_error cs n = Some c -> nth_error (run [] cs) n = Some (Ok r) ->
  (forall m c', (m < n)%nat -> nth_error cs m = Some c' -> same_use c' c -> fresh c' = fresh c) ->
  same_shape c = true /\ fresh c = Ok r.
Proof.
  intros cs n c r Hn Hr H.
  assert (Hs : same_shape c = true).
  { destruct (same_shape c) eqn:E; auto. exfalso. revert n Hn Hr H. generalize (@nil (key * (list nat * list nat))).
    induction cs as [|c0 cs IH]; intros pc [|n] Hn Hr H; simpl in Hn; try discriminate.
    - inversion Hn; subst c0. simpl in Hr. unfold M_periodic.do_call in Hr. rewrite E in Hr. simpl in Hr. discriminate.
    - simpl in Hr. destruct (do_call pc c0) as [pc' r0]. simpl in Hr. apply (IH pc' n Hn Hr).
      intros m c' Hm Hc. apply (H (S m)); auto. lia. }
  split; auto. destruct (@run_gen cs [] n c Hn Hs r Hr) as [[k F]|(m & c' & M1 & M2 & M3 & M4 & M5)]; [discriminate|].
  destruct (Nat.eq_dec m n) as [->|D]; [rewrite Hn in M2; inversion M2; subst; auto|].
  rewrite <- (H m c'); auto; [lia|]. apply key_use. auto.
Qed.
End Thms.

(** ** Example and failure: an insertion sort, a list of pairs, eps = 1e-9. *)
Fixpoint ins (l : list Q) (i : nat) (s : list nat) : list nat :=
  match s with
  | [] => [i]
  | j :: t => if Qlt_le_dec (nth j l 0) (nth i l 0) then j :: ins l i t else i :: s
  end.
Definition isort (l : list Q) : list nat := fold_right (ins l) [] (seq 0 (length l)).
Lemma ins_perm : forall l i s, Permutation (ins l i s) (i :: s).
Proof. induction s as [|j t IH]; simpl; auto. destruct (Qlt_le_dec _ _); auto. rewrite IH. constructor. Qed.
Lemma ins_sorted : forall l i s, StronglySorted Qle (take 0 l s) -> StronglySorted Qle (take 0 l (ins l i s)).
Proof.
  induction s as [|j t IH]; simpl; intros H; [repeat constructor|]. inversion H as [|? ? H1 H2]; subst.
  destruct (Qlt_le_dec _ _) as [q|q]; simpl.
  - constructor; [apply IH; auto|]. unfold take. rewrite Forall_map.
    apply Forall_forall. intros x Hx. apply (Permutation_in _ (ins_perm l i t)) in Hx.
    destruct Hx as [<-|Hx]; [apply Qlt_le_weak; auto|]. rewrite Forall_forall in H2. apply H2. apply in_map_iff. eauto.
  - constructor; auto. constructor; auto. eapply Forall_impl; [|exact H2]. intros a Ha. eapply Qle_trans; eauto.
Qed.
Lemma isort_ok : argsorts isort.
Proof.
  intros l. unfold isort. induction (seq 0 (length l)) as [|i is [IH1 IH2]]; simpl; [split; constructor|].
  split; [rewrite ins_perm; auto|apply ins_sorted; auto].
Qed.
Definition allpairs (e : Q) (x : list (list Q)) : list (nat * nat) :=
  filter (fun p => (fst p <? snd p)%nat && Qle_bool (dist2 (nth (fst p) x []) (nth (snd p) x [])) (e * e))
    (list_prod (seq 0 (length x)) (seq 0 (length x))).
Lemma nodup_prod : forall A B (a : list A) (b : list B), NoDup a -> NoDup b -> NoDup (list_prod a b).
Proof.
  intros A B a b Ha Hb. induction Ha; simpl; [constructor|].
  assert (N : NoDup (map (fun y => (x, y)) b)).
  { clear -Hb. induction Hb; simpl; constructor; auto. intros I. apply in_map_iff in I. destruct I as [y [E Hy]]. inversion E; subst; auto. }
  revert N. assert (D : forall z, In z (map (fun y => (x, y)) b) -> ~ In z (list_prod l b)).
  { intros z Hz Hz'. apply in_map_iff in Hz. destruct Hz as [y [<- _]]. apply in_prod_iff in Hz'. tauto. }
  revert D. generalize (map (fun y => (x, y)) b). induction l0; simpl; intros D N; auto.
  inversion N; subst. constructor; [|apply IHl0; auto]. rewrite in_app_iff. intros [?|?]; [auto|]. eapply D; eauto.
Qed.
Lemma allpairs_ok : pairs_spec allpairs.
Proof.
  intros e x. unfold allpairs. split.
  - apply NoDup_filter, nodup_prod; apply seq_NoDup.
  - intros i j. rewrite filter_In, in_prod_iff, !in_seq. simpl. rewrite andb_true_iff, Nat.ltb_lt, Qle_bool_iff. intuition lia.
Qed.
Definition e9 : Q := 1 # 1000000000.
(** Two lines x = 0 and x = 1 with y = 0, 1, 3 in different orders. *)
Definition lineA : coors := mkco 2 [[0; 0]; [0; 1]; [0; 3]].
Definition lineB : coors := mkco 2 [[1; 3]; [1; 0]; [1; 1]].
Definition lineC : coors := mkco 2 [[1; 0]; [1; 3]; [1; 1]].
Example C47_ex : match_line isort e9 lineA lineB 1 = Ok ([0; 1; 2]%nat, [1; 2; 0]%nat) /\
  match_dir allpairs e9 lineA lineB (Some [2; 0; 0]) = Ok ([0; 1; 2]%nat, [1; 2; 0]%nat) /\
  separated e9 (a_rows lineA) (map (fun x => vadd x [-1; 0]) (a_rows lineB)).
Proof.
  split; [reflexivity|]. split; [reflexivity|].
  split; intros i i' j Hi Hi' Hj H1 H2; simpl in *;
  destruct i as [|[|[|i]]], i' as [|[|[|i']]], j as [|[|[|j]]]; try reflexivity; try lia; exfalso;
    vm_compute in H1, H2; tauto.
Qed.
(** A second call with another line of the same number of points gets the matching of the first. *)
Theorem C47_cache_refuted : exists cs c r, nth_error cs 1 = Some c /\
  nth_error (run isort allpairs e9 [] cs) 1 = Some (Ok r) /\
  ~ line_matching e9 (k_1 c) (k_2 c) 1 (fst r) (snd r) /\
  exists i1 i2, line_matching e9 (k_1 c) (k_2 c) 1 i1 i2.
Proof.
  exists [mkcall lineA lineB (WLine 1) true; mkcall lineA lineC (WLine 1) true], (mkcall lineA lineC (WLine 1) true), ([0; 1; 2]%nat, [1; 2; 0]%nat).
  split; [reflexivity|]. split; [reflexivity|]. split.
  - intros (_ & _ & _ & H). specialize (H O). simpl in H. specialize (H ltac:(lia)). vm_compute in H. discriminate.
  - exists [0; 1; 2]%nat, [0; 2; 1]%nat. split; [apply Permutation_refl|]. split; [simpl; constructor; constructor|].
    split; [reflexivity|]. intros [|[|[|k]]] Hk; simpl in Hk; try lia; vm_compute; reflexivity.
Qed.
Print Assumptions C47_line.
Print Assumptions C47_dir.
Print Assumptions C47_calls_partial.
Print Assumptions C47_cache_refuted.
