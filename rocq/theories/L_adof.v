(** Assembling with active DOFs = R^T (full) R; the matrix graph is complete. *)
From Verif Require Import Base BaseSum M_dofs S_matrix M_assemble S_assemble L_expand L_eqfin L_operator L_assemble.
Open Scope nat_scope.

(** Local DOFs (component by component) of each element in the node-by-node
    numbering. *)
Definition rawdofs (conn : list (list nat)) (dpn : nat) : list (list nat) :=
  map (fun row => concat (map (fun idof => map (fun c => dpn * c + idof) row) (seq 0 dpn))) conn.

Lemma adof_raw : forall eq conn dpn offset,
  create_adof_conn eq conn dpn offset = map (map (fun d => shift offset (nth d eq 0%Z))) (rawdofs conn dpn).
Proof.
  intros. rewrite adof_general. unfold rawdofs. rewrite map_map. apply map_ext. intros row.
  rewrite concat_map, map_map. f_equal. apply map_ext. intros i. rewrite map_map. auto.
Qed.

Lemma raw_bound : forall conn dpn n_nod, (forall row c, In row conn -> In c row -> c < n_nod) ->
  forall e d, In d (nth e (rawdofs conn dpn) []) -> d < dpn * n_nod.
Proof.
  intros conn dpn n_nod H e d Hd.
  destruct (Nat.lt_ge_cases e (length conn)) as [He|He].
  - unfold rawdofs in Hd. rewrite nth_map_in with (da := []) in Hd by auto.
    apply in_concat in Hd. destruct Hd as (l & Hl & Hd). apply in_map_iff in Hl.
    destruct Hl as (i & <- & Hi). apply in_seq in Hi. apply in_map_iff in Hd. destruct Hd as (c & <- & Hc).
    assert (c < n_nod) by (apply (H (nth e conn [])); auto; apply nth_In; auto). nia.
  - rewrite nth_overflow in Hd; [destruct Hd|]. unfold rawdofs. rewrite map_length; auto.
Qed.

Lemma combine_map_l : forall A B C (f : A -> C) (a : list A) (b : list B),
  combine (map f a) b = map (fun p => (f (fst p), snd p)) (combine a b).
Proof. induction a; destruct b; simpl; auto. f_equal; auto. Qed.

Lemma nth_map_nil : forall A B (f : A -> B) (ll : list (list A)) e, nth e (map (map f) ll) [] = map f (nth e ll []).
Proof. induction ll; destruct e; simpl; auto. Qed.

Section Raw.
Variable V : Type.
Definition raw_vec (raw : list (list nat)) (iels : list nat) (els : list (list V)) : list (nat * V) :=
  concat (map (fun p => combine (nth (fst p) raw []) (snd p)) (combine iels els)).
Definition raw_mtx (rraw craw : list (list nat)) (iels : list nat) (els : list (list (list V))) : list (nat * nat * V) :=
  concat (map (fun p =>
    concat (map (fun q => map (fun c => (fst q, fst c, snd c)) (combine (nth (fst p) craw []) (snd q)))
                (combine (nth (fst p) rraw []) (snd p))))
    (combine iels els)).

Lemma vec_contribs_raw : forall f raw iels (els : list (list V)),
  vec_contribs (map (map f) raw) iels els = map (fun p => (f (fst p), snd p)) (raw_vec raw iels els).
Proof.
  intros. unfold vec_contribs, raw_vec. rewrite concat_map, map_map. f_equal. apply map_ext. intros [e v]. simpl.
  rewrite nth_map_nil, combine_map_l. auto.
Qed.

Lemma mtx_contribs_raw : forall f g rraw craw iels (els : list (list (list V))),
  mtx_contribs (map (map f) rraw) (map (map g) craw) iels els =
  map (fun p => (f (fst (fst p)), g (snd (fst p)), snd p)) (raw_mtx rraw craw iels els).
Proof.
  intros. unfold mtx_contribs, raw_mtx. rewrite concat_map, map_map. f_equal. apply map_ext. intros [e m]. simpl.
  rewrite !nth_map_nil, combine_map_l, map_map. rewrite concat_map, map_map. f_equal. apply map_ext. intros [r row]. simpl.
  rewrite combine_map_l, !map_map. auto.
Qed.

Lemma raw_vec_in : forall raw iels els d x, In (d, x) (raw_vec raw iels els) -> exists e, In d (nth e raw []).
Proof.
  intros raw iels els d x H. apply in_concat in H. destruct H as (l & Hl & H).
  apply in_map_iff in Hl. destruct Hl as ((e, v) & <- & _). apply in_combine_l in H. eauto.
Qed.
Lemma raw_mtx_in : forall rraw craw iels els r c x, In (r, c, x) (raw_mtx rraw craw iels els) ->
  exists e v, In (e, v) (combine iels els) /\ In r (nth e rraw []) /\ In c (nth e craw []).
Proof.
  intros rraw craw iels els r c x H. apply in_concat in H. destruct H as (l & Hl & H).
  apply in_map_iff in Hl. destruct Hl as ((e, v) & <- & He). exists e, v. split; auto. simpl in H.
  apply in_concat in H. destruct H as (l & Hl & H). apply in_map_iff in Hl. destruct Hl as ((q, row) & <- & Hq).
  apply in_map_iff in H. destruct H as ((c', x') & E & H). simpl in E. injection E as <- <- <-.
  apply in_combine_l in Hq. apply in_combine_l in H. auto.
Qed.
End Raw.

Section Adof.
Variable V : Type.
Variables (v0 v1 : V) (add mul : V -> V -> V).
Hypothesis SR : semi_ring_theory v0 v1 add mul eq.
Notation lsum := (lsum v0 add).
Notation ind := (ind v0).

Lemma shift_eq : forall off e j, (Z.eqb (shift (Z.of_nat off) e) (Z.of_nat (off + j))) = Z.eqb e (Z.of_nat j).
Proof.
  intros. unfold shift. destruct (Z.leb_spec 0 e).
  - destruct (Z.eqb_spec e (Z.of_nat j)), (Z.eqb_spec (e + Z.of_nat off) (Z.of_nat (off + j))); auto; lia.
  - destruct (Z.eqb_spec e (Z.of_nat j)), (Z.eqb_spec (e + 0) (Z.of_nat (off + j))); auto; lia.
Qed.

Lemma arange_nth : forall n d, d < n -> nth d (map Z.of_nat (seq 0 n)) 0%Z = Z.of_nat d.
Proof. intros. rewrite nth_map_in with (da := 0) by (rewrite seq_length; auto). rewrite nth_seq0; auto. Qed.

Lemma firstn_skipn_nth : forall (l : list V) off n i, i < n -> nth i (firstn n (skipn off l)) v0 = nth (off + i) l v0.
Proof.
  intros l off n i Hi.
  assert (H1 : forall n (l : list V) i, i < n -> nth i (firstn n l) v0 = nth i l v0).
  { clear. induction n; intros l i Hi; [lia|]. destruct l; simpl; auto. destruct i; auto. apply IHn; lia. }
  assert (H2 : forall off (l : list V) i, nth i (skipn off l) v0 = nth (off + i) l v0).
  { clear. induction off; intros l i; auto. destruct l; simpl; auto. destruct i; auto. }
  rewrite H1, H2; auto.
Qed.

Section Vec.
Variables (n unum : nat).
Variables (unused : list nat) (A : list (nat * nat)) (fl : list bool) (val : list V) (em : eqmap V).
Hypothesis O : em_ok V v0 n unused A fl val em.
Notation R := (coo_ones v0 v1 add (get_operator em)).

Lemma adof_vec : forall conn dpn n_nod sign els iels roff foff Nr Nf,
  n = dpn * n_nod -> (forall row c, In row conn -> In c row -> c < n_nod) ->
  roff + em_neq em <= Nr -> foff + n <= Nf ->
  let red := assemble_vector v0 add mul (repeat v0 Nr) els iels sign (create_adof_conn (em_eq em) conn dpn (Z.of_nat roff)) in
  let full := assemble_vector v0 add mul (repeat v0 Nf) els iels sign
                (create_adof_conn (map Z.of_nat (seq 0 n)) conn dpn (Z.of_nat foff)) in
  firstn (em_neq em) (skipn roff red) = mat_vec v0 add mul (em_neq em) n (transp R) (firstn n (skipn foff full)).
Proof.
  intros conn dpn n_nod sign els iels roff foff Nr Nf Hn Hc Hr Hf red full.
  destruct (asm_vec_spec V v0 v1 add mul SR (repeat v0 Nr) els iels sign (create_adof_conn (em_eq em) conn dpn (Z.of_nat roff))) as [L1 E1].
  destruct (asm_vec_spec V v0 v1 add mul SR (repeat v0 Nf) els iels sign (create_adof_conn (map Z.of_nat (seq 0 n)) conn dpn (Z.of_nat foff))) as [L2 E2].
  fold red in L1, E1. fold full in L2, E2. rewrite repeat_length in *.
  assert (Lf : length (firstn (em_neq em) (skipn roff red)) = em_neq em) by (rewrite firstn_length, skipn_length; lia).
  apply list_ext with (d := v0).
  - rewrite Lf. unfold mat_vec. rewrite map_length, seq_length; auto.
  - rewrite Lf. intros j Hj. rewrite firstn_skipn_nth by auto. unfold mat_vec, transp.
    rewrite nth_map_in with (da := 0) by (rewrite seq_length; auto). rewrite nth_seq0 by auto.
    rewrite E1 by lia. rewrite nth_repeat_lt by lia. rewrite (add0l _ _ _ _ _ SR).
    rewrite adof_raw, vec_contribs_raw, map_map. simpl.
    set (raw := rawdofs conn dpn) in *.
    transitivity (bigsum v0 add n (fun i => lsum (map (fun p => mul (R i j) (ind (Nat.eqb (fst p) i) (mul sign (snd p)))) (raw_vec V raw iels els)))).
    + unfold bigsum. rewrite (lsum_swap _ _ _ _ _ SR). apply lsum_ext. intros [d x] Hd. simpl.
      apply raw_vec_in in Hd. destruct Hd as (e & Hd). apply (raw_bound conn dpn n_nod Hc) in Hd. rewrite <- Hn in Hd.
      fold (bigsum v0 add n (fun i => mul (R i j) (ind (d =? i) (mul sign x)))).
      rewrite (bigsum_single _ _ _ _ _ SR) with (i := d); auto.
      * rewrite Nat.eqb_refl. simpl. rewrite (op_entry _ _ _ _ _ SR n unused A fl val em O) by auto.
        rewrite (mul_ind_l _ _ _ _ _ SR), (mul1l _ _ _ _ _ SR). rewrite shift_eq. auto.
      * intros i Hi N. destruct (Nat.eqb_spec d i); [congruence|]. simpl. apply (mul0r _ _ _ _ _ SR).
    + apply bigsum_ext. intros i Hi. rewrite firstn_skipn_nth by auto. rewrite E2 by lia.
      rewrite nth_repeat_lt by lia. rewrite (add0l _ _ _ _ _ SR).
      rewrite <- (lsum_mull _ _ _ _ _ SR). f_equal.
      rewrite adof_raw, vec_contribs_raw, map_map. simpl.
      apply lsum_ext. intros [d x] Hd. simpl. f_equal.
      apply raw_vec_in in Hd. destruct Hd as (e & Hd). apply (raw_bound conn dpn n_nod Hc) in Hd. rewrite <- Hn in Hd.
      rewrite arange_nth by auto. rewrite shift_eq.
      destruct (Nat.eqb_spec d i), (Z.eqb_spec (Z.of_nat d) (Z.of_nat i)); auto; lia.
Qed.
End Vec.

Section Mtx.
Variables (n1 n2 : nat).
Variables (un1 un2 : list nat) (A1 A2 : list (nat * nat)) (fl1 fl2 : list bool) (val1 val2 : list V) (em1 em2 : eqmap V).
Hypothesis O1 : em_ok V v0 n1 un1 A1 fl1 val1 em1.
Hypothesis O2 : em_ok V v0 n2 un2 A2 fl2 val2 em2.
Notation R1 := (coo_ones v0 v1 add (get_operator em1)).
Notation R2 := (coo_ones v0 v1 add (get_operator em2)).

Lemma csr_entry_zero : forall prows cols m i j, csr_entry v0 add prows cols (repeat v0 m) i j = v0.
Proof.
  intros. unfold csr_entry. apply (lsum_zero _ _ _ _ _ SR). intros k _.
  destruct (Nat.lt_ge_cases k m).
  - rewrite nth_repeat_lt by auto. destruct (_ =? _); auto.
  - rewrite (nth_overflow (repeat v0 m)) by (rewrite repeat_length; auto). destruct (_ =? _); auto.
Qed.

Lemma adof_mtx : forall rconn cconn dpr dpc nnr nnc sign els iels roff coff froff fcoff
    nr prows cols fnr fprows fcols find ffind red full,
  n1 = dpr * nnr -> n2 = dpc * nnc ->
  (forall row c, In row rconn -> In c row -> c < nnr) -> (forall row c, In row cconn -> In c row -> c < nnc) ->
  wf_csr nr prows cols -> find_good nr prows cols find -> roff + em_neq em1 <= nr ->
  wf_csr fnr fprows fcols -> find_good fnr fprows fcols ffind -> froff + n1 <= fnr ->
  assemble_matrix v0 add mul find (repeat v0 (length cols)) els iels sign
     (create_adof_conn (em_eq em1) rconn dpr (Z.of_nat roff)) (create_adof_conn (em_eq em2) cconn dpc (Z.of_nat coff)) = Ok red ->
  assemble_matrix v0 add mul ffind (repeat v0 (length fcols)) els iels sign
     (create_adof_conn (map Z.of_nat (seq 0 n1)) rconn dpr (Z.of_nat froff))
     (create_adof_conn (map Z.of_nat (seq 0 n2)) cconn dpc (Z.of_nat fcoff)) = Ok full ->
  forall i j, i < em_neq em1 -> j < em_neq em2 ->
  csr_entry v0 add prows cols red (roff + i) (coff + j) =
  sandwich v0 add mul n1 n2 R1 (fun k l => csr_entry v0 add fprows fcols full (froff + k) (fcoff + l)) R2 i j.
Proof.
  intros rconn cconn dpr dpc nnr nnc sign els iels roff coff froff fcoff nr prows cols fnr fprows fcols find ffind red full
    Hn1 Hn2 Hb1 Hb2 W FG Hr Wf FGf Hfr H1 H2 i j Hi Hj.
  rewrite asm_mtx_flat in H1, H2. rewrite !adof_raw, mtx_contribs_raw in H1, H2.
  set (rr := rawdofs rconn dpr) in *. set (cr := rawdofs cconn dpc) in *.
  set (L := raw_mtx V rr cr iels els) in *.
  assert (HL : forall p, In p L -> fst (fst p) < n1 /\ snd (fst p) < n2).
  { intros [[r c] x] Hp. apply raw_mtx_in in Hp. destruct Hp as (e & m & _ & G1 & G2). simpl.
    apply (raw_bound rconn dpr nnr Hb1) in G1. apply (raw_bound cconn dpc nnc Hb2) in G2. lia. }
  assert (B1 : forall p, In p (map (fun p => (shift (Z.of_nat roff) (nth (fst (fst p)) (em_eq em1) 0%Z),
       shift (Z.of_nat coff) (nth (snd (fst p)) (em_eq em2) 0%Z), snd p)) L) -> active V p -> Z.to_nat (fst (fst p)) < nr).
  { intros p Hp Ha. apply in_map_iff in Hp. destruct Hp as (q & <- & Hq). destruct Ha as [Ha _]. simpl in *.
    apply HL in Hq. destruct Hq as [Hq _].
    unfold shift in *. destruct (Z.leb_spec 0 (nth (fst (fst q)) (em_eq em1) 0%Z)) as [G|G]; [|lia].
    assert (Z.to_nat (nth (fst (fst q)) (em_eq em1) 0%Z) < em_neq em1).
    { apply (eq_lt V v0 n1 un1 A1 fl1 val1 em1 O1 (fst (fst q))); [exact Hq|]. rewrite Z2Nat.id; auto. }
    lia. }
  assert (B2 : forall p, In p (map (fun p => (shift (Z.of_nat froff) (nth (fst (fst p)) (map Z.of_nat (seq 0 n1)) 0%Z),
       shift (Z.of_nat fcoff) (nth (snd (fst p)) (map Z.of_nat (seq 0 n2)) 0%Z), snd p)) L) -> active V p -> Z.to_nat (fst (fst p)) < fnr).
  { intros p Hp Ha. apply in_map_iff in Hp. destruct Hp as (q & <- & Hq). simpl in *.
    apply HL in Hq. rewrite arange_nth by tauto. unfold shift.
    destruct (Z.leb_spec 0 (Z.of_nat (fst (fst q)))); lia. }
  destruct (scat2_spec V v0 v1 add mul SR nr prows cols find sign W FG _ _ _ (repeat_length _ _) B1 H1) as [_ E1].
  destruct (scat2_spec V v0 v1 add mul SR fnr fprows fcols ffind sign Wf FGf _ _ _ (repeat_length _ _) B2 H2) as [_ E2].
  rewrite E1 by lia. rewrite csr_entry_zero, (add0l _ _ _ _ _ SR), map_map. simpl.
  unfold sandwich.
  transitivity (bigsum v0 add n1 (fun k => bigsum v0 add n2 (fun l =>
     lsum (map (fun p => mul (mul (R1 k i) (ind (Nat.eqb (fst (fst p)) k && Nat.eqb (snd (fst p)) l) (mul sign (snd p)))) (R2 l j)) L)))).
  - transitivity (lsum (map (fun p => bigsum v0 add n1 (fun k => bigsum v0 add n2 (fun l =>
       mul (mul (R1 k i) (ind (Nat.eqb (fst (fst p)) k && Nat.eqb (snd (fst p)) l) (mul sign (snd p)))) (R2 l j)))) L)).
    + apply lsum_ext. intros [[r c] x] Hp. apply HL in Hp. simpl in *. destruct Hp as [Hr1 Hc1].
      rewrite (bigsum_single _ _ _ _ _ SR) with (i := r); auto.
      * rewrite (bigsum_single _ _ _ _ _ SR) with (i := c); auto.
        -- rewrite !Nat.eqb_refl. simpl. rewrite !shift_eq.
           rewrite (op_entry _ _ _ _ _ SR n1 un1 A1 fl1 val1 em1 O1) by auto.
           rewrite (op_entry _ _ _ _ _ SR n2 un2 A2 fl2 val2 em2 O2) by auto.
           destruct (_ =? Z.of_nat i)%Z; simpl.
           ++ rewrite (mul1l _ _ _ _ _ SR). destruct (_ =? Z.of_nat j)%Z; simpl;
                [rewrite (mul1r _ _ _ _ _ SR)|rewrite (mul0r _ _ _ _ _ SR)]; auto.
           ++ rewrite !(mul0l _ _ _ _ _ SR); auto.
        -- intros l Hl N. destruct (Nat.eqb_spec c l); [congruence|]. rewrite andb_false_r. simpl.
           rewrite (mul0r _ _ _ _ _ SR), (mul0l _ _ _ _ _ SR); auto.
      * intros k Hk N. apply (bigsum_zero _ _ _ _ _ SR). intros l Hl.
        destruct (Nat.eqb_spec r k); [congruence|]. simpl.
        rewrite (mul0r _ _ _ _ _ SR), (mul0l _ _ _ _ _ SR); auto.
    + unfold bigsum at 1 3. rewrite (lsum_swap _ _ _ _ _ SR). apply lsum_ext. intros k _.
      unfold bigsum. rewrite (lsum_swap _ _ _ _ _ SR). auto.
  - apply bigsum_ext. intros k Hk. apply bigsum_ext. intros l Hl.
    rewrite E2 by lia. rewrite csr_entry_zero, (add0l _ _ _ _ _ SR), map_map. simpl.
    rewrite (lsum_mull _ _ _ _ _ SR), (lsum_mulr _ _ _ _ _ SR). apply lsum_ext. intros [[r c] x] Hp.
    apply HL in Hp. simpl in *. rewrite !arange_nth by tauto. rewrite !shift_eq. do 3 f_equal.
    f_equal; [destruct (Nat.eqb_spec r k), (Z.eqb_spec (Z.of_nat r) (Z.of_nat k))|destruct (Nat.eqb_spec c l), (Z.eqb_spec (Z.of_nat c) (Z.of_nat l))]; auto; lia.
Qed.
End Mtx.
End Adof.

(** ** The matrix graph *)
Lemma chunk2_spec : forall cs fuel r c, 0 < cs -> length r <= fuel -> length r = length c ->
  concat (map (fun rc => combine (fst rc) (snd rc)) (chunk2 fuel cs r c)) = combine r c.
Proof.
  intros cs fuel. induction fuel as [|f IH]; intros r c Hcs Hl Hrc; simpl.
  - destruct r; simpl in *; auto; lia.
  - destruct r as [|r0 r]; auto. simpl. rewrite IH.
    + set (rr := r0 :: r) in *. transitivity (combine (firstn cs rr ++ skipn cs rr) (firstn cs c ++ skipn cs c)); [|rewrite !firstn_skipn; auto].
      assert (HF : forall A B (a1 a2 : list A) (b1 b2 : list B), length a1 = length b1 ->
         combine (a1 ++ a2) (b1 ++ b2) = combine a1 b1 ++ combine a2 b2).
      { clear. induction a1; destruct b1; simpl; intros; try lia; auto. f_equal; auto. }
      rewrite HF; auto. rewrite !firstn_length. lia.
    + auto.
    + rewrite skipn_length. simpl in Hl. simpl (length (r0 :: r)). lia.
    + rewrite !skipn_length. lia.
Qed.

Lemma chunk_len_pos : forall n cs, 2 <= cs -> 0 < n -> 0 < chunk_len n cs.
Proof.
  intros n cs Hcs Hn. unfold chunk_len. apply Nat.div_str_pos. split; [lia|].
  assert (n / cs <= n / 2) by (apply Nat.div_le_compat_l; lia).
  assert (2 * (n / 2) <= n) by (apply Nat.mul_div_le; lia). 
  destruct (Nat.eq_dec n 1) as [->|]; [|lia].
  assert (1 / cs = 0) by (apply Nat.div_small; lia). lia.
Qed.

Lemma dof_graph_in : forall rdc cdc a b, In (a, b) (create_dof_graph rdc cdc) <->
  (0 <= a)%Z /\ (0 <= b)%Z /\ exists r c, In (r, c) (combine rdc cdc) /\ In a r /\ In b c.
Proof.
  intros. unfold create_dof_graph. rewrite filter_In. simpl. rewrite andb_true_iff, !Z.leb_le. split.
  - intros (H & H1 & H2). apply in_concat in H. destruct H as (l & Hl & H). apply in_map_iff in Hl.
    destruct Hl as ((r, c) & <- & Hrc). simpl in H. apply in_prod_iff in H. split; auto. split; auto. exists r, c. tauto.
  - intros (H1 & H2 & r & c & Hrc & Ha & Hb). split; auto. apply in_concat.
    exists (list_prod r c). split; [|apply in_prod; auto]. apply in_map_iff. exists (r, c). auto.
Qed.

Lemma block_graph_in : forall chunk_size ro co rdc cdc a b, 2 <= chunk_size -> length rdc = length cdc ->
  In (a, b) (block_graph chunk_size ro co rdc cdc) <->
  (0 <= a)%Z /\ (0 <= b)%Z /\ exists r c, In (r, c) (combine rdc cdc) /\ In (a + ro)%Z r /\ In (b + co)%Z c.
Proof.
  intros chunk_size ro co rdc cdc a b Hcs Hl. unfold block_graph.
  set (sr := map (map (fun a => (a - ro)%Z)) rdc). set (sc := map (map (fun a => (a - co)%Z)) cdc).
  assert (Hsub : forall r c, (exists r' c', In (r', c') (combine sr sc) /\ In a r' /\ In b c' /\ (r = 0) /\ (c = 0)) <->
      (exists r' c', In (r', c') (combine rdc cdc) /\ In (a + ro)%Z r' /\ In (b + co)%Z c' /\ (r = 0) /\ (c = 0))).
  { intros r c. assert (E : combine sr sc = map (fun p => (map (fun a => (a - ro)%Z) (fst p), map (fun a => (a - co)%Z) (snd p))) (combine rdc cdc)).
    { unfold sr, sc. clear. revert cdc. induction rdc; destruct cdc; simpl; auto. f_equal; auto. }
    rewrite E. split.
    - intros (r' & c' & H & Ha & Hb & R). apply in_map_iff in H. destruct H as ((p, q) & Epq & H). simpl in Epq.
      injection Epq as <- <-. apply in_map_iff in Ha. destruct Ha as (a' & <- & Ha). apply in_map_iff in Hb.
      destruct Hb as (b' & <- & Hb). exists p, q. split; auto.
      replace (a' - ro + ro)%Z with a' by lia. replace (b' - co + co)%Z with b' by lia. auto.
    - intros (r' & c' & H & Ha & Hb & R). exists (map (fun a => (a - ro)%Z) r'), (map (fun a => (a - co)%Z) c').
      split; [apply in_map_iff; exists (r', c'); auto|].
      split; [apply in_map_iff; exists (a + ro)%Z; split; auto; lia|].
      split; [apply in_map_iff; exists (b + co)%Z; split; auto; lia|]. auto. }
  specialize (Hsub 0 0).
  destruct (Nat.eq_dec (length rdc) 0) as [E0|E0].
  { destruct rdc; [|discriminate]. simpl. split; [intros []|]. intros (_ & _ & r & c & [] & _). }
  assert (Hcc : concat (map (fun rc => combine (fst rc) (snd rc)) (chunk2 (length rdc) (chunk_len (length rdc) chunk_size) sr sc)) = combine sr sc).
  { apply chunk2_spec.
    - apply chunk_len_pos; auto. lia.
    - unfold sr. rewrite map_length; auto.
    - unfold sr, sc. rewrite !map_length; auto. }
  split.
  - intros H. apply in_concat in H. destruct H as (l & Hlc & H). apply in_map_iff in Hlc.
    destruct Hlc as ((p, q) & <- & Hpq). apply dof_graph_in in H. destruct H as (H1 & H2 & r & c & Hrc & Ha & Hb).
    split; auto. split; auto.
    destruct (proj1 Hsub) as (r' & c' & G1 & G2 & G3 & _).
    + exists r, c. split; auto. rewrite <- Hcc. apply in_concat. exists (combine p q). split; auto.
      apply in_map_iff. exists (p, q). auto.
    + exists r', c'. auto.
  - intros (H1 & H2 & r & c & Hrc & Ha & Hb).
    destruct (proj2 Hsub) as (r' & c' & G1 & G2 & G3 & _); [exists r, c; auto|].
    rewrite <- Hcc in G1. apply in_concat in G1. destruct G1 as (l & Gl & G1). apply in_map_iff in Gl.
    destruct Gl as ((p, q) & <- & Gpq). apply in_concat. exists (create_dof_graph p q).
    split; [apply in_map_iff; exists (p, q); auto|]. apply dof_graph_in. split; auto. split; auto. exists r', c'. auto.
Qed.

Lemma matrix_graph_in : forall chunk_size roffs coffs items, 2 <= chunk_size ->
  (forall rdc cdc b, In (rdc, cdc, b) items -> length rdc = length cdc) ->
  forall a b, In (a, b) (create_matrix_graph chunk_size roffs coffs items) <->
  exists rdc cdc ir ic r c, In (rdc, cdc, (ir, ic)) items /\ In (r, c) (combine rdc cdc) /\ In a r /\ In b c /\
    (nth ir roffs 0 <= a)%Z /\ (nth ic coffs 0 <= b)%Z.
Proof.
  intros chunk_size roffs coffs items Hcs Hl a b. unfold create_matrix_graph. split.
  - intros H. apply in_concat in H. destruct H as (l & Hlc & H). apply in_map_iff in Hlc.
    destruct Hlc as (((rdc, cdc), (ir, ic)) & <- & Hit). apply in_map_iff in H. destruct H as ((a', b') & E & H).
    simpl in E. injection E as <- <-. apply block_graph_in in H; eauto.
    destruct H as (H1 & H2 & r & c & H3 & H4 & H5). exists rdc, cdc, ir, ic, r, c. repeat split; auto; lia.
  - intros (rdc & cdc & ir & ic & r & c & Hit & Hrc & Ha & Hb & H1 & H2). apply in_concat.
    eexists. split; [apply in_map_iff; exists (rdc, cdc, (ir, ic)); split; [reflexivity|auto]|].
    simpl. apply in_map_iff. exists (a - nth ir roffs 0, b - nth ic coffs 0)%Z. simpl.
    split; [f_equal; lia|]. apply block_graph_in; eauto. split; [lia|]. split; [lia|]. exists r, c.
    replace (a - nth ir roffs 0 + nth ir roffs 0)%Z with a by lia.
    replace (b - nth ic coffs 0 + nth ic coffs 0)%Z with b by lia. auto.
Qed.

(** CSR structure from the coordinates *)
Lemma csr_cols_S : forall g i, csr_cols g (S i) = csr_cols g i ++ csr_row g i.
Proof.
  intros. unfold csr_cols. rewrite seq_S, map_app, concat_app. simpl. rewrite app_nil_r. auto.
Qed.
Lemma csr_prows_nth : forall g nr i, i <= nr -> nth i (csr_prows g nr) 0 = length (csr_cols g i).
Proof.
  intros. unfold csr_prows. rewrite nth_map_in with (da := 0) by (rewrite seq_length; lia). rewrite nth_seq0; auto. lia.
Qed.
Lemma csr_cols_mono : forall g i j, i <= j -> exists t, csr_cols g j = csr_cols g i ++ t.
Proof.
  intros g i j H. induction H as [|j H IH].
  - exists []. rewrite app_nil_r; auto.
  - destruct IH as (t & IH). rewrite csr_cols_S, IH, <- app_assoc. eauto.
Qed.
Lemma csr_wf : forall g nr, wf_csr nr (csr_prows g nr) (csr_cols g nr).
Proof.
  intros g nr. split; [unfold csr_prows; rewrite map_length, seq_length; auto|]. split.
  - intros i j Hij. rewrite !csr_prows_nth by lia. destruct (csr_cols_mono g i j) as (t & ->); [lia|].
    rewrite app_length; lia.
  - apply csr_prows_nth; auto.
Qed.
Lemma csr_slice : forall g nr i a, i < nr -> nth i (csr_prows g nr) 0 <= a < nth (S i) (csr_prows g nr) 0 ->
  a - length (csr_cols g i) < length (csr_row g i) /\
  nth a (csr_cols g nr) 0 = nth (a - length (csr_cols g i)) (csr_row g i) 0.
Proof.
  intros g nr i a Hi Ha. rewrite !csr_prows_nth in Ha by lia. rewrite csr_cols_S, app_length in Ha. split; [lia|].
  destruct (csr_cols_mono g (S i) nr) as (t & ->); [lia|]. rewrite csr_cols_S, <- app_assoc.
  rewrite app_nth2 by lia. rewrite app_nth1 by lia. auto.
Qed.
Lemma csr_sorted : forall g nr, sorted_csr nr (csr_prows g nr) (csr_cols g nr).
Proof.
  intros g nr i a b Hi H1 H2 H3.
  destruct (csr_slice g nr i a Hi) as [La ->]; [lia|]. destruct (csr_slice g nr i b Hi) as [Lb ->]; [lia|].
  rewrite csr_prows_nth in H1 by lia.
  assert (Hs : sinc (csr_row g i)) by (apply unique_sinc).
  assert (HS : forall l x y, sinc l -> x < y -> y < length l -> nth x l 0 < nth y l 0).
  { clear. induction l as [|z l IH]; intros x y Hs Hxy Hy; simpl in *; [lia|].
    inversion Hs; subst. destruct y as [|y]; [lia|]. destruct x as [|x].
    - rewrite Forall_forall in H2. apply H2. apply nth_In. lia.
    - apply IH; auto; lia. }
  apply HS; auto; lia.
Qed.
Lemma csr_in_pattern : forall g nr i j, i < nr ->
  in_pattern (csr_prows g nr) (csr_cols g nr) i j <-> exists b, In (Z.of_nat i, b) g /\ Z.to_nat b = j.
Proof.
  intros g nr i j Hi.
  assert (Hrow : forall j, In j (csr_row g i) <-> exists b, In (Z.of_nat i, b) g /\ Z.to_nat b = j).
  { intros j'. unfold csr_row. rewrite unique_In, in_map_iff. split.
    - intros ((a, b) & E & H). apply filter_In in H. simpl in *. destruct H as [H H']. apply Z.eqb_eq in H'. subst a. eauto.
    - intros (b & H & E). exists (Z.of_nat i, b). split; auto. apply filter_In. simpl. rewrite Z.eqb_refl. auto. }
  rewrite <- Hrow. split.
  - intros (ik & Hik & <-). destruct (csr_slice g nr i ik Hi Hik) as [L ->]. apply nth_In; auto.
  - intros H. destruct (In_nth _ _ 0 H) as (k & Hk & E). exists (length (csr_cols g i) + k).
    assert (Hr : nth i (csr_prows g nr) 0 <= length (csr_cols g i) + k < nth (S i) (csr_prows g nr) 0).
    { rewrite !csr_prows_nth by lia. rewrite csr_cols_S, app_length. lia. }
    split; auto. destruct (csr_slice g nr i _ Hi Hr) as [L ->].
    replace (length (csr_cols g i) + k - length (csr_cols g i)) with k by lia. auto.
Qed.
