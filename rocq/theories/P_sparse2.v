(** Theorems C211, C212: inserting a sparse matrix into a CSR matrix, the
    infinity norm.  C211 is about any commutative semiring (exact real or
    complex arithmetic). *)
From Coq Require Import Reals Lra.
From Verif Require Import Base BaseSum M_assemble S_assemble L_assemble P_assemble M_sparse2.
Open Scope nat_scope.

Section Contribs.
Variable V : Type.
Variables (gr gc : nat * nat * V -> Z).

Lemma single_contribs_gen : forall (entries pre : list (nat * nat * V)),
  concat (map (fun p =>
    concat (map (fun q => map (fun c => (fst q, fst c, snd c))
       (combine (nth (fst p) (map (fun e => [gc e]) (pre ++ entries)) []) (snd q)))
                (combine (nth (fst p) (map (fun e => [gr e]) (pre ++ entries)) []) (snd p))))
    (combine (seq (length pre) (length entries)) (map (fun e => [[snd e]]) entries)))
  = map (fun e => (gr e, gc e, snd e)) entries.
Proof.
  induction entries as [|e l IH]; intros pre; simpl; auto.
  assert (N : forall (g : nat * nat * V -> Z), nth (length pre) (map (fun e => [g e]) (pre ++ e :: l)) [] = [g e]).
  { intros g. rewrite map_app, app_nth2; rewrite map_length; [|lia]. rewrite Nat.sub_diag. reflexivity. }
  rewrite !N. simpl. f_equal.
  specialize (IH (pre ++ [e])). rewrite app_length, Nat.add_1_r, <- app_assoc in IH. exact IH.
Qed.

Lemma single_contribs : forall (entries : list (nat * nat * V)),
  mtx_contribs (map (fun e => [gr e]) entries) (map (fun e => [gc e]) entries) (seq 0 (length entries))
    (map (fun e => [[snd e]]) entries) = map (fun e => (gr e, gc e, snd e)) entries.
Proof. intros. exact (single_contribs_gen entries []). Qed.
End Contribs.

(** ** C211 *)
(** Entry (r, c) of a COO matrix (duplicates are summed). *)
Definition coo_entry {V} (v0 : V) (add : V -> V -> V) (entries : list (nat * nat * V)) (r c : nat) : V :=
  lsum v0 add (map (fun e => ind v0 (Nat.eqb (fst (fst e)) r && Nat.eqb (snd (fst e)) c) (snd e)) entries).

Definition in_range (n : nat) (l : list Z) : Prop := forall i, In i l -> (0 <= i < Z.of_nat n)%Z.

Lemma forallb_range : forall n l, forallb (fun i => (0 <=? i)%Z && (i <? Z.of_nat n)%Z) l = true <-> in_range n l.
Proof.
  intros. rewrite forallb_forall. unfold in_range. split; intros H i Hi; specialize (H i Hi).
  - apply andb_true_iff in H. lia.
  - apply andb_true_iff. lia.
Qed.

(** The slices select the expected indices. *)
Theorem C211_slice : forall start stop step i, (0 < step)%Z ->
  In i (sel_items (Slice start stop step)) <->
  (start <= i < stop /\ exists k, i = start + k * step)%Z.
Proof.
  intros a b s i Hs. simpl. unfold arange. rewrite in_map_iff.
  assert (D := Z.div_mod (b - a + s - 1) s ltac:(lia)).
  assert (M := Z.mod_pos_bound (b - a + s - 1) s Hs).
  set (q := ((b - a + s - 1) / s)%Z) in *. split.
  - intros [k [<- Hk]]. apply in_seq in Hk.
    assert (Z.of_nat k + 1 <= q)%Z by lia. split; [split|exists (Z.of_nat k); lia]; nia.
  - intros [[H1 H2] [k ->]]. exists (Z.to_nat k).
    assert (0 <= k)%Z by nia. split; [rewrite Z2Nat.id; lia|]. apply in_seq.
    assert (k < q)%Z by nia. lia.
Qed.

Section Insert.
Variable V : Type.
Variables (v0 v1 : V) (add mul : V -> V -> V).
Hypothesis SR : semi_ring_theory v0 v1 add mul eq.

(** Success: exactly when the selections are not empty and inside of the
    matrix, the items of [mtx2] are inside of the selections and all their
    positions are in the structure of [mtx1]; the errors. *)
Theorem C211_success : forall n_row n_col data prows cols entries srs scs, wf_csr n_row prows cols ->
  let irs := sel_items srs in let ics := sel_items scs in
  let out := insert_sparse_to_csr v0 v1 add mul n_row n_col data prows cols entries srs scs in
  (exists d, out = Ok d) <->
  (irs <> [] /\ ics <> [] /\ in_range n_row irs /\ in_range n_col ics /\
   forall r c x, In (r, c, x) entries -> r < length irs /\ c < length ics /\
     in_pattern prows cols (Z.to_nat (nth r irs 0%Z)) (Z.to_nat (nth c ics 0%Z))).
Proof.
  intros n_row n_col data prows cols entries srs scs W irs ics out.
  unfold out, insert_sparse_to_csr. fold irs ics.
  destruct (Nat.eqb_spec (length irs) 0) as [E|E].
  { split; [intros [d H]; discriminate|]. intros [H _]. apply length_zero_iff_nil in E. congruence. }
  assert (Ni : irs <> []) by (intros Q; apply E; rewrite Q; auto).
  destruct (forallb (fun i => (0 <=? i)%Z && (i <? Z.of_nat n_row)%Z) irs) eqn:R1; simpl negb; cbv iota.
  2:{ split; [intros [d H]; discriminate|]. intros (_ & _ & H & _). apply forallb_range in H. congruence. }
  destruct (Nat.eqb_spec (length ics) 0) as [E2|E2].
  { split; [intros [d H]; discriminate|]. intros (_ & H & _). apply length_zero_iff_nil in E2. congruence. }
  assert (Nc : ics <> []) by (intros Q; apply E2; rewrite Q; auto).
  destruct (forallb (fun i => (0 <=? i)%Z && (i <? Z.of_nat n_col)%Z) ics) eqn:R2; simpl negb; cbv iota.
  2:{ split; [intros [d H]; discriminate|]. intros (_ & _ & _ & H & _). apply forallb_range in H. congruence. }
  destruct (forallb (fun e : nat * nat * V => fst (fst e) <? length irs) entries) eqn:R3; simpl negb; cbv iota.
  2:{ split; [intros [d H]; discriminate|]. intros (_ & _ & _ & _ & H). exfalso.
      assert (Q : forallb (fun e : nat * nat * V => fst (fst e) <? length irs) entries = true).
      { apply forallb_forall. intros [[r c] x] He. apply Nat.ltb_lt. apply (H _ _ _ He). }
      congruence. }
  destruct (forallb (fun e : nat * nat * V => snd (fst e) <? length ics) entries) eqn:R4; simpl negb; cbv iota.
  2:{ split; [intros [d H]; discriminate|]. intros (_ & _ & _ & _ & H). exfalso.
      assert (Q : forallb (fun e : nat * nat * V => snd (fst e) <? length ics) entries = true).
      { apply forallb_forall. intros [[r c] x] He. apply Nat.ltb_lt. apply (H _ _ _ He). }
      congruence. }
  apply forallb_range in R1, R2. rewrite forallb_forall in R3, R4.
  match goal with |- context [assemble_matrix v0 add mul ?f ?d ?els ?ii ?s ?rc ?cc] =>
    destruct (C13_error V v0 add mul n_row prows cols d els ii s rc cc W) as [C _] end.
  { rewrite (single_contribs V (fun e => nth (fst (fst e)) irs 0%Z) (fun e => nth (snd (fst e)) ics 0%Z)).
    intros p Hp. apply in_map_iff in Hp. destruct Hp as [e [<- He]]. simpl.
    apply R1. apply nth_In. apply Nat.ltb_lt. apply R3; auto. }
  rewrite C. clear C.
  rewrite (single_contribs V (fun e => nth (fst (fst e)) irs 0%Z) (fun e => nth (snd (fst e)) ics 0%Z)).
  split.
  - intros H. repeat (split; auto). all: specialize (R3 _ H0); specialize (R4 _ H0); simpl in R3, R4;
      apply Nat.ltb_lt in R3, R4; auto.
    assert (A : In (nth r irs 0%Z, nth c ics 0%Z, x)
       (map (fun e : nat * nat * V => (nth (fst (fst e)) irs 0%Z, nth (snd (fst e)) ics 0%Z, snd e)) entries)).
    { apply in_map_iff. exists (r, c, x). auto. }
    apply (H _ A); simpl.
    + apply R1. apply nth_In; auto.
    + apply R2. apply nth_In; auto.
  - intros (_ & _ & _ & _ & H) p Hp _ _. apply in_map_iff in Hp. destruct Hp as [[[r c] x] [<- He]]. simpl.
    apply (H _ _ _ He).
Qed.

Theorem C211_errors : forall n_row n_col data prows cols entries srs scs e, wf_csr n_row prows cols ->
  let irs := sel_items srs in let ics := sel_items scs in
  insert_sparse_to_csr v0 v1 add mul n_row n_col data prows cols entries srs scs = Err e ->
  (e = ValueError /\ (irs = [] \/ ics = [])) \/
  (e = AssertionError /\ ~ (in_range n_row irs /\ in_range n_col ics)) \/
  (e = IndexError /\ in_range n_row irs /\ in_range n_col ics /\
   exists r c x, In (r, c, x) entries /\ (length irs <= r \/ length ics <= c \/
     ~ in_pattern prows cols (Z.to_nat (nth r irs 0%Z)) (Z.to_nat (nth c ics 0%Z)))).
Proof.
  intros n_row n_col data prows cols entries srs scs e W irs ics H.
  assert (S0 := C211_success n_row n_col data prows cols entries srs scs W). cbv zeta in S0.
  rewrite H in S0. revert H. unfold insert_sparse_to_csr. fold irs ics in S0 |- *.
  destruct (Nat.eqb_spec (length irs) 0) as [E|E].
  { intros [= <-]. left. split; auto. left. apply length_zero_iff_nil; auto. }
  destruct (forallb (fun i => (0 <=? i)%Z && (i <? Z.of_nat n_row)%Z) irs) eqn:R1; simpl negb; cbv iota.
  2:{ intros [= <-]. right; left. split; auto. intros [Q _]. apply forallb_range in Q. congruence. }
  destruct (Nat.eqb_spec (length ics) 0) as [E2|E2].
  { intros [= <-]. left. split; auto. right. apply length_zero_iff_nil; auto. }
  destruct (forallb (fun i => (0 <=? i)%Z && (i <? Z.of_nat n_col)%Z) ics) eqn:R2; simpl negb; cbv iota.
  2:{ intros [= <-]. right; left. split; auto. intros [_ Q]. apply forallb_range in Q. congruence. }
  apply forallb_range in R1, R2.
  assert (X : ~ (forall r c x, In (r, c, x) entries -> r < length irs /\ c < length ics /\
     in_pattern prows cols (Z.to_nat (nth r irs 0%Z)) (Z.to_nat (nth c ics 0%Z)))).
  { intros Q. destruct S0 as [_ S0]. destruct S0 as [d Hd]; [|discriminate].
    repeat (split; auto); try apply (Q _ _ _ H); intros Z0; try (apply E; rewrite Z0; auto); apply E2; rewrite Z0; auto. }
  intros H. right; right.
  assert (He : e = IndexError).
  { destruct (negb (forallb (fun e : nat * nat * V => fst (fst e) <? length irs) entries)); [congruence|].
    destruct (negb (forallb (fun e : nat * nat * V => snd (fst e) <? length ics) entries)); [congruence|].
    rewrite asm_mtx_flat in H. eapply scat2_indexerror; eauto. }
  split; [auto|]. split; [auto|]. split; [auto|].
  assert (D : forall i j, in_pattern prows cols i j \/ ~ in_pattern prows cols i j).
  { intros i j. destruct (existsb (fun ik => nth ik cols 0 =? j) (seq (nth i prows 0) (nth (S i) prows 0 - nth i prows 0))) eqn:Q.
    - left. apply existsb_exists in Q. destruct Q as [ik [Q1 Q2]]. apply in_seq in Q1. apply Nat.eqb_eq in Q2.
      exists ik. split; [lia|auto].
    - right. intros [ik [Q1 Q2]]. assert (Q3 : existsb (fun ik => nth ik cols 0 =? j) (seq (nth i prows 0) (nth (S i) prows 0 - nth i prows 0)) = true); [|congruence].
      apply existsb_exists. exists ik. split; [apply in_seq; lia|apply Nat.eqb_eq; auto]. }
  clear - X D. induction entries as [|[[r c] x] l IH].
  - exfalso. apply X. intros r c x [].
  - destruct (le_lt_dec (length irs) r); [exists r, c, x; split; [left; auto|auto]|].
    destruct (le_lt_dec (length ics) c); [exists r, c, x; split; [left; auto|auto]|].
    destruct (D (Z.to_nat (nth r irs 0%Z)) (Z.to_nat (nth c ics 0%Z))); [|exists r, c, x; split; [left; auto|auto]].
    destruct IH as (r' & c' & x' & I1 & I2).
    + intros Q. apply X. intros r' c' x' [Hq|Hq]; [injection Hq as -> -> ->; auto|apply (Q _ _ _ Hq)].
    + exists r', c', x'. split; [right; auto|auto].
Qed.

(** The values: every item of [mtx2] is added at its place. *)
Theorem C211_values : forall n_row n_col data prows cols entries srs scs data', wf_csr n_row prows cols ->
  length data = length cols ->
  insert_sparse_to_csr v0 v1 add mul n_row n_col data prows cols entries srs scs = Ok data' ->
  let irs := sel_items srs in let ics := sel_items scs in
  length data' = length data /\
  forall i j, i < n_row -> csr_entry v0 add prows cols data' i j =
    add (csr_entry v0 add prows cols data i j)
        (lsum v0 add (map (fun e => ind v0 (Z.eqb (nth (fst (fst e)) irs 0%Z) (Z.of_nat i) &&
                                            Z.eqb (nth (snd (fst e)) ics 0%Z) (Z.of_nat j)) (snd e)) entries)).
Proof.
  intros n_row n_col data prows cols entries srs scs data' W Hl H irs ics.
  assert (S0 := C211_success n_row n_col data prows cols entries srs scs W). cbv zeta in S0. fold irs ics in S0.
  destruct S0 as [S0 _]. destruct (S0 ltac:(eauto)) as (N1 & N2 & R1 & R2 & HE). clear S0.
  unfold insert_sparse_to_csr in H. fold irs ics in H.
  destruct (length irs =? 0); [discriminate|].
  destruct (negb (forallb (fun i => (0 <=? i)%Z && (i <? Z.of_nat n_row)%Z) irs)); [discriminate|].
  destruct (length ics =? 0); [discriminate|].
  destruct (negb (forallb (fun i => (0 <=? i)%Z && (i <? Z.of_nat n_col)%Z) ics)); [discriminate|].
  destruct (negb (forallb (fun e : nat * nat * V => fst (fst e) <? length irs) entries)); [discriminate|].
  destruct (negb (forallb (fun e : nat * nat * V => snd (fst e) <? length ics) entries)); [discriminate|].
  assert (C := fun Hb => C13_value V v0 v1 add mul SR n_row prows cols data _ _ _ _ _ data' W Hl Hb H).
  destruct C as [A B].
  - rewrite (single_contribs V (fun e => nth (fst (fst e)) irs 0%Z) (fun e => nth (snd (fst e)) ics 0%Z)).
    intros p Hp. apply in_map_iff in Hp. destruct Hp as [[[r c] x] [<- He]]. simpl.
    apply R1. apply nth_In. apply (HE _ _ _ He).
  - split; auto. intros i j Hi. rewrite B by auto. f_equal.
    rewrite (single_contribs V (fun e => nth (fst (fst e)) irs 0%Z) (fun e => nth (snd (fst e)) ics 0%Z)).
    rewrite map_map. apply lsum_ext. intros e _. simpl. unfold ind.
    destruct (_ && _); auto. apply (mul1l _ _ _ _ _ SR).
Qed.

(** With selections without repetition: the submatrix is incremented by
    [mtx2], everything else is left unchanged. *)
Theorem C211_block : forall n_row n_col data prows cols entries srs scs data', wf_csr n_row prows cols ->
  length data = length cols ->
  insert_sparse_to_csr v0 v1 add mul n_row n_col data prows cols entries srs scs = Ok data' ->
  let irs := sel_items srs in let ics := sel_items scs in
  NoDup irs -> NoDup ics ->
  (forall r c, r < length irs -> c < length ics ->
     let i := Z.to_nat (nth r irs 0%Z) in let j := Z.to_nat (nth c ics 0%Z) in
     csr_entry v0 add prows cols data' i j =
     add (csr_entry v0 add prows cols data i j) (coo_entry v0 add entries r c)) /\
  (forall i j, i < n_row -> ~ (In (Z.of_nat i) irs /\ In (Z.of_nat j) ics) ->
     csr_entry v0 add prows cols data' i j = csr_entry v0 add prows cols data i j).
Proof.
  intros n_row n_col data prows cols entries srs scs data' W Hl H irs ics D1 D2.
  assert (S0 := C211_success n_row n_col data prows cols entries srs scs W). cbv zeta in S0. fold irs ics in S0.
  destruct S0 as [S0 _]. destruct (S0 ltac:(eauto)) as (N1 & N2 & R1 & R2 & HE). clear S0.
  destruct (C211_values _ _ _ _ _ _ _ _ _ W Hl H) as [_ B]. fold irs ics in B. split.
  - intros r c Hr Hc i j. assert (Qr := R1 _ (nth_In irs 0%Z Hr)). assert (Qc := R2 _ (nth_In ics 0%Z Hc)).
    rewrite B by (unfold i; lia). f_equal. apply lsum_ext. intros [[r' c'] x] He. simpl.
    destruct (HE _ _ _ He) as (L1 & L2 & _). f_equal. f_equal.
    + apply eq_true_iff_eq. rewrite Z.eqb_eq, Nat.eqb_eq. unfold i. rewrite Z2Nat.id by lia. split.
      * intros Q. rewrite NoDup_nth in D1. apply (D1 r' r); eauto.
      * intros ->; auto.
    + apply eq_true_iff_eq. rewrite Z.eqb_eq, Nat.eqb_eq. unfold j. rewrite Z2Nat.id by lia. split.
      * intros Q. rewrite NoDup_nth in D2. apply (D2 c' c); eauto.
      * intros ->; auto.
  - intros i j Hi Hn. rewrite B by auto. rewrite lsum_zero with (add := add) (mul := mul) (v1 := v1); auto.
    + apply (add0r _ _ _ _ _ SR).
    + intros [[r c] x] He. simpl. destruct (HE _ _ _ He) as (L1 & L2 & _).
      destruct (Z.eqb_spec (nth r irs 0%Z) (Z.of_nat i)) as [E1|]; auto.
      destruct (Z.eqb_spec (nth c ics 0%Z) (Z.of_nat j)) as [E2|]; auto.
      exfalso. apply Hn. rewrite <- E1, <- E2. split; apply nth_In; auto.
Qed.
End Insert.

(** The name and the documentation say "insert": the items are added to the
    old ones, they do not replace them. *)
Theorem C211_insert_replaces_refuted :
  insert_sparse_to_csr 0%Z 1%Z Z.add Z.mul 1 1 [5]%Z [0; 1] [0] [(0, 0, 3%Z)] (Idx [0%Z]) (Slice 0 1 1) = Ok [8%Z].
Proof. reflexivity. Qed.

Example C211_ex : wf_csr 3 [0; 2; 3; 5] [0; 2; 1; 0; 2] /\
  insert_sparse_to_csr 0%Z 1%Z Z.add Z.mul 3 3 [1; 2; 3; 4; 5]%Z [0; 2; 3; 5] [0; 2; 1; 0; 2]
    [(0, 0, 10%Z); (0, 1, 20%Z); (1, 1, 30%Z)] (Slice 0 3 2) (Idx [2; 0]%Z) = Ok [21; 12; 3; 34; 5]%Z /\
  NoDup (sel_items (Slice 0 3 2)) /\
  insert_sparse_to_csr 0%Z 1%Z Z.add Z.mul 3 3 [1; 2; 3; 4; 5]%Z [0; 2; 3; 5] [0; 2; 1; 0; 2]
    [(0, 0, 10%Z)] (Idx [1%Z]) (Idx [2%Z]) = Err IndexError.
Proof.
  split; [|split; [reflexivity|split; [|reflexivity]]].
  - split; [auto|]. split; auto. intros i j [H1 H2].
    destruct j as [|[|[|[|]]]]; [| | | |lia]; destruct i as [|[|[|[|]]]]; simpl; lia.
  - repeat constructor; simpl; intuition discriminate.
Qed.
