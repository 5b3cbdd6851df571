(** C43 (map_permutations), C71 (chunk_arrays), C72 (cycle), C73 (assemble1d). *)
From Verif Require Import Base M_linutils.
Set Implicit Arguments.

(** ** Generic facts. *)
Lemma take_seq : forall A (d : A) l, take d l (seq 0 (length l)) = l.
Proof.
  intros A d l. apply list_ext with (d := d).
  - rewrite length_take, seq_length; auto.
  - intros k Hk. rewrite length_take, seq_length in Hk.
    rewrite (@nth_take A d l _ k d) by (rewrite seq_length; auto).
    rewrite nth_seq0; auto.
Qed.
Lemma take_perm : forall A (d : A) l i, Permutation i (seq 0 (length l)) ->
  Permutation (take d l i) l.
Proof.
  intros A d l i P. rewrite <- (@take_seq A d l) at 2. unfold take. apply Permutation_map; auto.
Qed.
Lemma take_take : forall A (d : A) l i j, (forall x, In x j -> x < length i) ->
  take d l (take 0 i j) = take d (take d l i) j.
Proof.
  intros A d l i j H. unfold take. rewrite map_map. apply map_ext_in. intros x Hx.
  rewrite (@nth_map_in _ _ (fun i => nth i l d) i x 0 d); auto.
Qed.
Section SortedUnique.
Variable A : Type.
Variable R : A -> A -> Prop.
Hypothesis Rrefl : forall x, R x x.
Lemma sorted_unique : forall a b, (forall x y, In x a -> In y a -> R x y -> R y x -> x = y) ->
  StronglySorted R a -> StronglySorted R b -> Permutation a b -> a = b.
Proof.
  induction a as [|x a IH]; intros b Hanti Ha Hb P.
  - apply Permutation_nil in P; auto.
  - destruct b as [|y b]; [symmetry in P; apply Permutation_nil in P; discriminate|].
    inversion Ha as [|? ? Ha1 Ha2]; inversion Hb as [|? ? Hb1 Hb2]; subst.
    rewrite Forall_forall in *.
    assert (Hy : In y (x :: a)) by (eapply Permutation_in; [symmetry; apply P|simpl; auto]).
    assert (Hx : In x (y :: b)) by (eapply Permutation_in; [apply P|simpl; auto]).
    assert (E : x = y).
    { apply Hanti; simpl; auto.
      - destruct Hy as [->|Hy]; auto.
      - destruct Hx as [->|Hx]; auto. }
    subst y. f_equal. apply IH; auto.
    + intros u v Hu Hv. apply Hanti; simpl; auto.
    + eapply Permutation_cons_inv; eauto.
Qed.
End SortedUnique.

(** ** [lexsort] sorts lexicographically. *)
(** Lexicographic order by a list of keys, the first one is primary. *)
Fixpoint lexle (ks : list (nat -> Z)) (i j : nat) : Prop :=
  match ks with
  | [] => True
  | k :: t => (k i < k j)%Z \/ (k i = k j /\ lexle t i j)
  end.
Lemma lexle_trans : forall ks i j l, lexle ks i j -> lexle ks j l -> lexle ks i l.
Proof.
  induction ks as [|k t IH]; simpl; auto. intros i j l [H|[H H']] [G|[G G']].
  - left; lia.
  - left; lia.
  - left; lia.
  - right; split; [lia|eauto].
Qed.
Lemma kinsert_perm : forall k x l, Permutation (kinsert k x l) (x :: l).
Proof.
  intros k x l; induction l as [|y t IH]; simpl; auto.
  destruct (k x <=? k y)%Z; auto. rewrite IH. apply perm_swap.
Qed.
Lemma ksort_perm : forall k l, Permutation (ksort k l) l.
Proof. induction l as [|x t IH]; simpl; auto. rewrite kinsert_perm, IH; auto. Qed.
Lemma kinsert_sorted : forall k ks x l, (forall y, In y l -> lexle ks x y) ->
  StronglySorted (lexle (k :: ks)) l -> StronglySorted (lexle (k :: ks)) (kinsert k x l).
Proof.
  intros k ks x l Hx H; induction H as [|y t Ht IH Hy]; cbn [kinsert].
  - repeat constructor.
  - rewrite Forall_forall in Hy. destruct (k x <=? k y)%Z eqn:E.
    + apply Z.leb_le in E.
      assert (L : lexle (k :: ks) x y).
      { simpl. destruct (Z.eq_dec (k x) (k y)); [right; split; auto; apply Hx; simpl; auto|left; lia]. }
      constructor; [constructor; auto; rewrite Forall_forall; auto|].
      constructor; auto. rewrite Forall_forall. intros z Hz.
      eapply lexle_trans; [apply L|auto].
    + apply Z.leb_gt in E. constructor.
      * apply IH. intros z Hz. apply Hx; simpl; auto.
      * rewrite Forall_forall. intros z Hz.
        apply (Permutation_in _ (kinsert_perm k x t)) in Hz.
        destruct Hz as [<-|Hz]; auto. simpl. left. lia.
Qed.
Lemma ksort_sorted : forall k ks l, StronglySorted (lexle ks) l ->
  StronglySorted (lexle (k :: ks)) (ksort k l).
Proof.
  intros k ks l H; induction H as [|x t Ht IH Hx]; simpl ksort; [constructor|].
  apply kinsert_sorted; auto. intros y Hy. rewrite Forall_forall in Hx.
  apply Hx. apply (Permutation_in _ (ksort_perm k t)); auto.
Qed.
Lemma lexsort_gen : forall keys ks l,
  StronglySorted (lexle ks) l ->
  let r := fold_left (fun l k => ksort (fun i => nth i k 0%Z) l) keys l in
  Permutation r l /\
  StronglySorted (lexle (map (fun k i => nth i k 0%Z) (rev keys) ++ ks)) r.
Proof.
  induction keys as [|k t IH]; intros ks l H; simpl; auto.
  destruct (IH _ _ (@ksort_sorted (fun i => nth i k 0%Z) ks l H)) as [P S'].
  split.
  - rewrite P. apply ksort_perm.
  - rewrite map_app, <- app_assoc. simpl. exact S'.
Qed.

(** Lexicographic order of rows. *)
Fixpoint row_le (a b : list Z) : Prop :=
  match a, b with
  | x :: a', y :: b' => (x < y)%Z \/ (x = y /\ row_le a' b')
  | _, _ => True
  end.
Lemma row_le_anti : forall a b, length a = length b -> row_le a b -> row_le b a -> a = b.
Proof.
  induction a as [|x a IH]; intros [|y b] L; simpl in *; auto; try discriminate.
  intros [H|[H H']] [G|[G G']]; try lia. subst. f_equal. apply IH; auto.
Qed.
Lemma row_le_refl : forall a, row_le a a.
Proof. induction a; simpl; auto. Qed.
Lemma lexle_row : forall m c ra rb i j, length ra = c + m -> length rb = c + m ->
  lexle (map (fun q n => nth q (if n =? i then ra else rb) 0%Z) (seq c m)) i j -> i <> j ->
  row_le (skipn c ra) (skipn c rb).
Proof.
  induction m as [|m IH]; intros c ra rb i j La Lb H Hij; simpl in H.
  - rewrite skipn_all2 by lia. simpl. auto.
  - assert (Sk : forall (r : list Z), c < length r -> skipn c r = nth c r 0%Z :: skipn (S c) r).
    { clear. induction c; intros [|x r] H; simpl in *; try lia; auto. rewrite IHc by lia. auto. }
    rewrite (Sk ra), (Sk rb) by lia. simpl. rewrite Nat.eqb_refl in H.
    destruct (j =? i) eqn:E; [apply Nat.eqb_eq in E; congruence|].
    destruct H as [H|[H H']]; auto. right. split; auto. eapply (IH (S c)); eauto; lia.
Qed.

(** An [argsort]. *)
Definition sorting (argsort : list Z -> list nat) : Prop :=
  forall l, Permutation (argsort l) (seq 0 (length l)) /\
            StronglySorted Z.le (take 0%Z l (argsort l)).

(** The order of the items of an array and the items. *)
Definition wf_arr (a : arr) : Prop :=
  match a with
  | A1 _ => True
  | A2 n r => 0 < n /\ forall row, In row r -> length row = n
  end.
Definition same_items (a b : arr) : Prop :=
  match a, b with
  | A1 l, A1 l' => Permutation l l'
  | A2 n r, A2 n' r' => n = n' /\ Permutation r r'
  | _, _ => False
  end.

Lemma StronglySorted_map : forall A B (f : A -> B) (R : B -> B -> Prop) (Q : A -> A -> Prop) l,
  (forall x y, In x l -> In y l -> Q x y -> R (f x) (f y)) -> StronglySorted Q l ->
  StronglySorted R (map f l).
Proof.
  intros A B f R Q l H S'. induction S' as [|x t Ht IH Hx]; simpl; constructor.
  - apply IH. intros; apply H; simpl; auto.
  - rewrite Forall_forall in *. intros y Hy. apply in_map_iff in Hy.
    destruct Hy as [z [<- Hz]]. apply H; simpl; auto.
Qed.

Lemma lexle_ext : forall ks ks' i j, length ks = length ks' ->
  (forall q, q < length ks -> nth q ks (fun _ => 0%Z) i = nth q ks' (fun _ => 0%Z) i /\
                              nth q ks (fun _ => 0%Z) j = nth q ks' (fun _ => 0%Z) j) ->
  lexle ks i j -> lexle ks' i j.
Proof.
  induction ks as [|k t IH]; intros [|k' t'] i j L H G; simpl in *; auto; try discriminate.
  destruct (H 0 ltac:(lia)) as [H1 H2]. simpl in H1, H2. rewrite <- H1, <- H2.
  destruct G as [G|[G G']]; auto. right. split; auto.
  apply IH; auto. intros q Hq. apply (H (S q)). lia.
Qed.

Lemma lexsort_rows : forall n r, (forall row, In row r -> length row = n) ->
  let i := lexsort (rev (transpose n r)) (length r) in
  Permutation i (seq 0 (length r)) /\ StronglySorted row_le (take [] r i).
Proof.
  intros n r Hr i.
  assert (S0 : StronglySorted (lexle []) (seq 0 (length r))).
  { generalize (seq 0 (length r)). intros l; induction l; constructor; auto.
    rewrite Forall_forall. simpl; auto. }
  destruct (@lexsort_gen (rev (transpose n r)) [] _ S0) as [P S'].
  fold (lexsort (rev (transpose n r)) (length r)) in P, S'. fold i in P, S'.
  split; auto.
  rewrite rev_involutive, app_nil_r in S'.
  apply StronglySorted_map with (2 := S').
  intros x y Hx Hy Hl.
  assert (Bx : x < length r) by (apply (Permutation_in _ P), in_seq in Hx; lia).
  assert (By : y < length r) by (apply (Permutation_in _ P), in_seq in Hy; lia).
  assert (Lx : length (nth x r []) = n) by (apply Hr, nth_In; auto).
  assert (Ly : length (nth y r []) = n) by (apply Hr, nth_In; auto).
  destruct (Nat.eq_dec x y) as [->|Hne]; [apply row_le_refl|].
  change (row_le (skipn 0 (nth x r [])) (skipn 0 (nth y r []))).
  apply (@lexle_row n 0 _ _ x y); auto.
  revert Hl. apply lexle_ext.
  - unfold transpose. rewrite !map_length; auto.
  - intros q Hq. unfold transpose in Hq |- *. rewrite !map_length, seq_length in Hq.
    rewrite map_map.
    rewrite !(@nth_map_in _ _ _ (seq 0 n) q 0 (fun _ => 0%Z)) by (rewrite seq_length; auto).
    rewrite nth_seq0 by auto. rewrite Nat.eqb_refl.
    replace (y =? x) with false by (symmetry; apply Nat.eqb_neq; auto).
    rewrite !(@nth_map_in _ _ (fun r0 => nth q r0 0%Z) r _ []) by auto. auto.
Qed.

Section MapPerm.
Variable argsort : list Z -> list nat.
Hypothesis Hargsort : sorting argsort.

Lemma argsort_inverse : forall n i, Permutation i (seq 0 n) ->
  let ii := argsort (map Z.of_nat i) in
  Permutation ii (seq 0 n) /\ take 0 i ii = seq 0 n.
Proof.
  intros n i P ii. assert (L : length i = n) by (rewrite (Permutation_length P); apply seq_length).
  destruct (Hargsort (map Z.of_nat i)) as [P2 S2]. fold ii in P2, S2.
  rewrite map_length, L in P2. split; auto.
  assert (E : take 0%Z (map Z.of_nat i) ii = map Z.of_nat (take 0 i ii)).
  { unfold take. rewrite map_map. apply map_ext. intros k.
    change 0%Z with (Z.of_nat 0). apply map_nth. }
  rewrite E in S2.
  apply sorted_unique with (R := le); auto using Nat.le_refl.
  - intros; lia.
  - clear -S2. remember (map Z.of_nat (take 0 i ii)) as z eqn:Ez. revert Ez.
    generalize (take 0 i ii). induction S2 as [|x t Ht IH Hx]; intros [|a l] Ez; simpl in Ez;
      try discriminate; constructor.
    + apply IH. inversion Ez; auto.
    + inversion Ez; subst. rewrite Forall_forall in *. intros b Hb.
      specialize (Hx (Z.of_nat b) (in_map _ _ _ Hb)). lia.
  - clear. generalize 0 as k. induction n; intros k; simpl; constructor; auto.
    rewrite Forall_forall. intros x Hx. apply in_seq in Hx. lia.
  - eapply Permutation_trans; [apply take_perm; rewrite L; auto|auto].
Qed.

Lemma map_core : forall A (d : A) (R : A -> A -> Prop) s1 s2 i1 i2,
  (forall x, R x x) -> (forall x y, In x s1 -> In y s1 -> R x y -> R y x -> x = y) ->
  Permutation i1 (seq 0 (length s1)) -> Permutation i2 (seq 0 (length s2)) ->
  StronglySorted R (take d s1 i1) -> StronglySorted R (take d s2 i2) ->
  Permutation s1 s2 ->
  take d s1 i1 = take d s2 i2 /\
  take d s1 (take 0 i1 (argsort (map Z.of_nat i2))) = s2 /\
  Permutation (take 0 i1 (argsort (map Z.of_nat i2))) (seq 0 (length s1)).
Proof.
  intros A d R s1 s2 i1 i2 Rr Ra P1 P2 S1 S2 P.
  assert (L1 : length i1 = length s1) by (rewrite (Permutation_length P1); apply seq_length).
  assert (L2 : length i2 = length s2) by (rewrite (Permutation_length P2); apply seq_length).
  pose proof (Permutation_length P) as LL.
  destruct (@argsort_inverse _ _ P2) as [Pi Ei]. set (ii := argsort (map Z.of_nat i2)) in *.
  assert (E : take d s1 i1 = take d s2 i2).
  { apply sorted_unique with (R := R); auto.
    - intros x y Hx Hy. apply Ra; eapply Permutation_in; try apply take_perm; eauto.
    - rewrite (@take_perm _ d s1 _ P1), (@take_perm _ d s2 _ P2); auto. }
  assert (Bii : forall x, In x ii -> x < length s1).
  { intros x Hx. apply (Permutation_in _ Pi), in_seq in Hx. lia. }
  split; auto. split.
  - rewrite take_take by (intros; rewrite L1; auto).
    rewrite E. rewrite <- take_take by (intros; rewrite L2, <- LL; auto).
    rewrite Ei. apply take_seq.
  - rewrite take_perm; [auto|]. rewrite L1, LL. exact Pi.
Qed.

(** C43, first part: sequences with the same items are mapped, with duplicates,
    in one and two dimensions, with and without the check. *)
Theorem C43_map_permutations : forall s1 s2 check, wf_arr s1 -> wf_arr s2 ->
  same_items s1 s2 ->
  exists imap, map_permutations argsort s1 s2 check = Ok imap /\
    a_take s1 imap = s2 /\ Permutation imap (seq 0 (a_len s1)).
Proof.
  intros s1 s2 check W1 W2 H.
  destruct s1 as [l1|n1 r1], s2 as [l2|n2 r2]; simpl in H; try contradiction.
  - destruct (Hargsort l1) as [P1 S1], (Hargsort l2) as [P2 S2].
    destruct (@map_core Z 0%Z Z.le l1 l2 _ _ Z.le_refl
                ltac:(intros; lia) P1 P2 S1 S2 H) as (E1 & E2 & E3).
    unfold map_permutations. simpl. rewrite (Permutation_length H), Nat.eqb_refl. simpl.
    rewrite (Permutation_length H) in E3.
    rewrite E1. destruct (list_eq_dec Z.eq_dec _ _) as [_|F]; [|congruence].
    simpl. rewrite !andb_false_r. eexists; split; [reflexivity|]. split; [|auto].
    rewrite E2; auto.
  - destruct H as [<- H]. destruct W1 as [W0 W1], W2 as [_ W2].
    destruct (@lexsort_rows n1 r1 W1) as [P1 S1], (@lexsort_rows n1 r2 W2) as [P2 S2].
    destruct (@map_core (list Z) [] row_le r1 r2 _ _ row_le_refl
                ltac:(intros; apply row_le_anti; auto; rewrite !W1; auto)
                P1 P2 S1 S2 H) as (E1 & E2 & E3).
    unfold map_permutations. simpl. rewrite (Permutation_length H), Nat.eqb_refl. simpl.
    destruct n1 as [|n1]; [lia|].
    cbn [bind].
    rewrite (Permutation_length H) in E1, E2, E3.
    cbn [a_take a_eqb] in *. 
    rewrite E1. destruct (list_eq_dec (list_eq_dec Z.eq_dec) _ _) as [_|F]; [|congruence].
    rewrite !Nat.eqb_refl. simpl andb. rewrite !andb_false_r.
    eexists; split; [reflexivity|]. split; [|auto]. rewrite E2; auto.
Qed.

(** C43, second part: with the check, success means same items; and different
    lengths are always rejected. *)
Theorem C43_check : forall s1 s2 imap, wf_arr s1 -> wf_arr s2 ->
  map_permutations argsort s1 s2 true = Ok imap -> same_items s1 s2.
Proof.
  intros s1 s2 imap W1 W2 H. unfold map_permutations in H.
  destruct (Nat.eqb _ _) eqn:EL in H; [|discriminate]. simpl in H.
  destruct s1 as [l1|n1 r1], s2 as [l2|n2 r2]; simpl in *.
  - rewrite EL in H. simpl in H.
    destruct (list_eq_dec Z.eq_dec _ _) as [E|F] in H; [|discriminate].
    destruct (Hargsort l1) as [P1 _], (Hargsort l2) as [P2 _].
    rewrite <- (@take_perm _ 0%Z l1 _ P1), <- (@take_perm _ 0%Z l2 _ P2), E. auto.
  - destruct n2; simpl in H; discriminate.
  - destruct n1; simpl in H; discriminate.
  - destruct n1 as [|n1]; [discriminate|]. destruct n2 as [|n2]; [discriminate|].
    cbn [bind] in H. destruct (S n1 =? S n2) eqn:En; simpl in En; rewrite ?En in H; [|discriminate].
    apply Nat.eqb_eq in En. subst n2.
    rewrite EL in H. cbn [andb negb] in H.
    destruct (list_eq_dec (list_eq_dec Z.eq_dec) _ _) as [E|F] in H; [|discriminate].
    split; auto.
    destruct W1 as [_ W1], W2 as [_ W2].
    destruct (@lexsort_rows (S n1) r1 W1) as [P1 _], (@lexsort_rows (S n1) r2 W2) as [P2 _].
    rewrite <- (@take_perm _ [] r1 _ P1), <- (@take_perm _ [] r2 _ P2), E. auto.
Qed.
Theorem C43_length : forall s1 s2 check, a_len s1 <> a_len s2 ->
  map_permutations argsort s1 s2 check = Err AssertionError.
Proof.
  intros s1 s2 check H. unfold map_permutations.
  destruct (Nat.eqb _ _) eqn:E; auto. apply Nat.eqb_eq in E. congruence.
Qed.
(** [argsort_rows] itself: a sorting permutation, rows compared column by
    column from the first one. *)
Theorem C43_argsort_rows : forall n r, 0 < n -> (forall row, In row r -> length row = n) ->
  exists i, argsort_rows argsort (A2 n r) = Ok i /\
    Permutation i (seq 0 (length r)) /\ StronglySorted row_le (take [] r i).
Proof.
  intros [|n] r Hn Hr; [lia|]. eexists; split; [reflexivity|]. apply lexsort_rows; auto.
Qed.
End MapPerm.

(** Witness: a sorting function exists (so the hypothesis is satisfiable). *)
Definition the_argsort (l : list Z) : list nat := ksort (fun i => nth i l 0%Z) (seq 0 (length l)).
Lemma the_argsort_sorting : sorting the_argsort.
Proof.
  intros l. unfold the_argsort. split; [apply ksort_perm|].
  assert (S0 : StronglySorted (lexle []) (seq 0 (length l))).
  { generalize (seq 0 (length l)). intros m; induction m; constructor; auto.
    rewrite Forall_forall. simpl; auto. }
  apply StronglySorted_map with (2 := @ksort_sorted (fun i => nth i l 0%Z) [] _ S0).
  intros x y _ _. simpl. intuition lia.
Qed.
Example C43_ex1 : map_permutations the_argsort (A1 [3; 1; 3; 2]%Z) (A1 [2; 3; 3; 1]%Z) true
                  = Ok [3; 0; 2; 1].
Proof. reflexivity. Qed.
Example C43_ex2 :
  map_permutations the_argsort (A2 2 [[1; 5]; [0; 7]; [1; 2]]%Z) (A2 2 [[0; 7]; [1; 2]; [1; 5]]%Z) true
  = Ok [1; 2; 0].
Proof. reflexivity. Qed.
Example C43_ex3 : map_permutations the_argsort (A1 [3; 1]%Z) (A1 [3; 3]%Z) true = Err AssertionError.
Proof. reflexivity. Qed.

(** ** C71: chunk_arrays. *)
Lemma skipn_add : forall A (l : list A) i j, skipn i (skipn j l) = skipn (j + i) l.
Proof.
  intros A l i j; revert l; induction j; intros l; simpl; auto.
  destruct l; simpl; auto. apply skipn_nil.
Qed.
Definition same_lengths {A} (arrs : list (list A)) (n : nat) : Prop :=
  arrs <> [] /\ forall a, In a arrs -> length a = n.
Lemma chunk_loop_spec : forall A (arrs : list (list A)) cs n, 0 < cs -> same_lengths arrs n ->
  forall fuel ii, n - ii < fuel ->
  exists r, chunk_loop fuel arrs cs ii = Some r /\
    (forall ch, In ch r -> length ch = length arrs) /\
    (forall k, k < length arrs ->
       concat (map (fun ch => nth k ch []) r) = skipn ii (nth k arrs [])) /\
    (forall j k, j < length r -> k < length arrs ->
       ii + j * cs < n /\
       nth k (nth j r []) [] = firstn cs (skipn (ii + j * cs) (nth k arrs []))).
Proof.
  intros A arrs cs n Hcs [Hne Hlen] fuel; induction fuel as [|fuel IH]; intros ii Hf; [lia|].
  assert (Hhd : length (hd [] arrs) = n).
  { destruct arrs; [congruence|]. simpl. apply Hlen; simpl; auto. }
  assert (Hk : forall k, k < length arrs -> length (nth k arrs []) = n).
  { intros k Hk. apply Hlen, nth_In; auto. }
  cbn [chunk_loop]. rewrite Hhd. destruct (ii <? n) eqn:E.
  - apply Nat.ltb_lt in E. destruct (IH (ii + cs) ltac:(lia)) as (r & Er & R1 & R2 & R3).
    rewrite Er. eexists; split; [reflexivity|]. split; [|split].
    + intros ch [<-|H]; [apply map_length|auto].
    + intros k Hk'. simpl. rewrite R2 by auto.
      rewrite (@nth_map_in _ _ (fun a => firstn cs (skipn ii a)) arrs k [] []) by auto.
      rewrite <- skipn_add. apply firstn_skipn.
    + intros [|j] k Hj Hk'; simpl.
      * rewrite Nat.add_0_r. split; auto.
        rewrite (@nth_map_in _ _ (fun a => firstn cs (skipn ii a)) arrs k [] []) by auto. auto.
      * simpl in Hj. destruct (R3 j k ltac:(lia) Hk') as [B Q]. split; [lia|].
        rewrite Q. f_equal. f_equal. lia.
  - apply Nat.ltb_ge in E. exists []. split; auto. split; [simpl; tauto|]. split.
    + intros k Hk'. simpl. symmetry. apply skipn_all2. rewrite Hk; auto.
    + intros j k Hj. simpl in Hj. lia.
Qed.

(** The chunks are consecutive slices that cover all arrays; all have the
    length [chunk_size], except the last one that may be shorter, not empty. *)
Theorem C71_chunk_arrays : forall A (arrs : list (list A)) cs n, 0 < cs -> same_lengths arrs n ->
  exists chunks, chunk_arrays arrs cs = Some chunks /\
    (forall k, k < length arrs -> concat (map (fun ch => nth k ch []) chunks) = nth k arrs []) /\
    (forall ch, In ch chunks -> length ch = length arrs) /\
    (forall j k, j < length chunks -> k < length arrs ->
       let l := length (nth k (nth j chunks []) []) in
       0 < l <= cs /\ (S j < length chunks -> l = cs)).
Proof.
  intros A arrs cs n Hcs H.
  assert (Hhd : length (hd [] arrs) = n).
  { destruct H as [Hne Hl]. destruct arrs; [congruence|]. apply Hl; simpl; auto. }
  destruct (@chunk_loop_spec A arrs cs n Hcs H (S (length (hd [] arrs))) 0 ltac:(lia))
    as (r & E & R1 & R2 & R3).
  exists r. split; [exact E|]. split; [|split]; auto.
  intros j k Hj Hk l. destruct (R3 j k Hj Hk) as [B Q]. unfold l. rewrite Q.
  rewrite firstn_length, skipn_length.
  rewrite (proj2 H (nth k arrs [])) by (apply nth_In; auto). split; [lia|].
  intros Hj2. destruct (R3 (S j) k Hj2 Hk) as [B2 _]. simpl in B2. lia.
Qed.
(** With a zero chunk size the generator never ends. *)
Theorem C71_zero_chunk_diverges : forall A (arrs : list (list A)) n fuel, 0 < n ->
  same_lengths arrs n -> chunk_loop fuel arrs 0 0 = None.
Proof.
  intros A arrs n fuel Hn [Hne Hl]. 
  assert (Hhd : length (hd [] arrs) = n).
  { destruct arrs; [congruence|]. apply Hl; simpl; auto. }
  induction fuel as [|fuel IH]; simpl; auto. rewrite Hhd.
  destruct n; [lia|]. simpl. rewrite IH; auto.
Qed.
Example C71_ex : chunk_arrays [[1;2;3;4;5]; [6;7;8;9;10]] 2
  = Some [[[1;2];[6;7]]; [[3;4];[8;9]]; [[5];[10]]].
Proof. reflexivity. Qed.

(** ** C72: cycle. *)
Fixpoint in_bounds (is bounds : list nat) : Prop :=
  match is, bounds with
  | [], [] => True
  | i :: is', b :: bs => i < b /\ in_bounds is' bs
  | _, _ => False
  end.
Fixpoint lex_lt (a b : list nat) : Prop :=
  match a, b with
  | x :: a', y :: b' => x < y \/ (x = y /\ lex_lt a' b')
  | _, _ => False
  end.
Lemma SS_app : forall A (R : A -> A -> Prop) a b, StronglySorted R a -> StronglySorted R b ->
  (forall x y, In x a -> In y b -> R x y) -> StronglySorted R (a ++ b).
Proof.
  intros A R a b Ha Hb H. induction Ha as [|x a Ha IH Hx]; simpl; auto. constructor.
  - apply IH. intros; apply H; simpl; auto.
  - rewrite Forall_forall in *. intros y Hy. apply in_app_iff in Hy.
    destruct Hy; [auto|apply H; simpl; auto].
Qed.
(** Exactly the index tuples within the bounds, in strictly increasing
    lexicographic order (so each one once, the last index the fastest). *)
Theorem C72_cycle : forall bounds,
  (forall is, In is (cycle bounds) <-> in_bounds is bounds) /\
  StronglySorted lex_lt (cycle bounds) /\
  length (cycle bounds) = fold_right Nat.mul 1 bounds.
Proof.
  induction bounds as [|b t [IH1 [IH2 IH3]]].
  - simpl. split; [|split]; auto.
    + intros [|i is]; simpl; [tauto|]. split; [intros [H|[]]; discriminate|tauto].
    + repeat constructor.
  - cbn [cycle]. split; [|split].
    + intros is. rewrite in_flat_map. split.
      * intros [i [Hi H]]. apply in_map_iff in H. destruct H as [js [<- H]].
        apply in_seq in Hi. simpl. split; [lia|]. apply IH1; auto.
      * destruct is as [|i is]; simpl; [tauto|]. intros [Hi H]. exists i.
        split; [apply in_seq; lia|]. apply in_map. apply IH1; auto.
    + generalize 0 as s. induction b as [|b IHb]; intros s; simpl; [constructor|].
      apply SS_app; auto.
      * apply StronglySorted_map with (2 := IH2). simpl. auto.
      * intros x y Hx Hy. apply in_map_iff in Hx. destruct Hx as [x' [<- Hx]].
        apply in_flat_map in Hy. destruct Hy as [i [Hi Hy]]. apply in_seq in Hi.
        apply in_map_iff in Hy. destruct Hy as [y' [<- Hy]]. simpl. left. lia.
    + cbn [fold_right]. rewrite <- IH3. generalize 0 as s. clear. induction b as [|b IHb]; intros s; simpl; auto.
      rewrite app_length, map_length, IHb. auto.
Qed.
Example C72_ex : cycle [3; 2] = [[0;0];[0;1];[1;0];[1;1];[2;0];[2;1]].
Proof. reflexivity. Qed.

(** ** C73: assemble1d. *)
Fixpoint sum_at (indx : list nat) (vals : list Z) (i : nat) : Z :=
  match indx, vals with
  | j :: indx', v :: vals' => ((if Nat.eqb j i then v else 0) + sum_at indx' vals' i)%Z
  | _, _ => 0%Z
  end.
Lemma fold_add_acc : forall l a, fold_left Z.add l a = (a + fold_left Z.add l 0)%Z.
Proof.
  induction l as [|x l IH]; intros a; simpl; [lia|]. rewrite IH, (IH x). lia.
Qed.
Lemma sum_at_filter : forall indx vals i,
  fold_left Z.add (map snd (filter (fun p => Nat.eqb (fst p) i) (combine indx vals))) 0%Z
  = sum_at indx vals i.
Proof.
  induction indx as [|j indx IH]; intros [|v vals] i; simpl; auto.
  destruct (j =? i); simpl; [|auto]. rewrite fold_add_acc, IH. lia.
Qed.
Lemma sum_at_notin : forall indx vals i, ~ In i indx -> sum_at indx vals i = 0%Z.
Proof.
  induction indx as [|j indx IH]; intros [|v vals] i H; simpl in *; auto.
  destruct (j =? i) eqn:E; [apply Nat.eqb_eq in E; tauto|]. rewrite IH; tauto.
Qed.
Theorem C73_assemble1d : forall out indx vals, length vals = length indx ->
  (forall i, In i indx -> i < length out) ->
  length (assemble1d out indx vals) = length out /\
  forall i, nth i (assemble1d out indx vals) 0%Z = (nth i out 0 + sum_at indx vals i)%Z.
Proof.
  intros out indx vals L B. unfold assemble1d. split; [apply length_put|]. intros i.
  set (rows := unique indx).
  set (data := map _ rows).
  assert (Ev : map (fun p : nat * Z => (nth (fst p) out 0 + snd p)%Z) (combine rows data)
               = map (fun r => (nth r out 0 + sum_at indx vals r)%Z) rows).
  { unfold data. clearbody rows. induction rows as [|r rs IH]; simpl; auto.
    rewrite sum_at_filter, IH. auto. }
  rewrite Ev.
  destruct (in_dec Nat.eq_dec i indx) as [Hi|Hi].
  - assert (Hr : In i rows) by (apply unique_In; auto).
    destruct (@in_nth_ex nat rows i 0 Hr) as [k [Hk Ek]].
    rewrite <- Ek at 1.
    rewrite (@put_nth Z rows (map (fun r => (nth r out 0 + sum_at indx vals r)%Z) rows) out k 0%Z).
    + rewrite (@nth_map_in _ _ _ rows k 0 0%Z) by auto. rewrite Ek. auto.
    + apply sinc_NoDup, unique_sinc.
    + intros r Hr'. apply B. apply unique_In; auto.
    + apply map_length.
    + auto.
  - rewrite sum_at_notin, Z.add_0_r by auto. apply put_notin. intros H. apply Hi. apply unique_In; auto.
Qed.
(** Plain fancy [+=] does not sum the duplicates. *)
Theorem C73_fancy_iadd_differs : exists out indx vals,
  fancy_iadd out indx vals <> assemble1d out indx vals.
Proof. exists [0%Z], [0; 0], [1%Z; 1%Z]. vm_compute. discriminate. Qed.
Example C73_ex : assemble1d [10; 20; 30]%Z [2; 0; 2] [1; 2; 3]%Z = [12; 20; 34]%Z.
Proof. reflexivity. Qed.

Print Assumptions C43_map_permutations.
Print Assumptions C43_check.
Print Assumptions C71_chunk_arrays.
Print Assumptions C72_cycle.
Print Assumptions C73_assemble1d.
