(** Theorems C23-C26: facet sorting, connectivity transposition/intersection,
    numbering of edges and faces.  A connectivity is given by its rows
    ([of_rows] is the CSR storage of the rows: offsets and flat indices). *)
From Verif Require Import Base M_mesh L_mesh L_build L_build2.
Open Scope nat_scope.

(** C23 *)
Theorem C23_sort : forall p, 2 <= length p <= 4 -> Sorted le (sort234 p) /\ Permutation (sort234 p) p.
Proof. intros p H. split; [apply sort234_sorted; auto|apply sort234_perm]. Qed.

(** Two facets with distinct vertices have the same orientation key iff their
    vertices are ordered in the same way. *)
Theorem C23_keys : forall p q, 2 <= length p <= 4 -> length q = length p -> NoDup p -> NoDup q ->
  (ori_key None p = ori_key None q <->
   forall i j, i < length p -> j < length p -> (nth i p 0 < nth j p 0 <-> nth i q 0 < nth j q 0)).
Proof.
  intros p q Hp Hq Np Nq. unfold ori_key. rewrite Hq. fold (same_order p q).
  assert (length p = 2 \/ length p = 3 \/ length p = 4) as [E|[E|E]] by lia; rewrite E.
  - rewrite <- key2_spec by (auto; lia). split; congruence.
  - rewrite <- key3_spec by (auto; lia). split; congruence.
  - rewrite <- key4_spec by (auto; lia). split; congruence.
Qed.

Example C23_ex : sort234 [7; 3; 9; 1] = [1; 3; 7; 9] /\ ori_key None [7; 3; 9; 1] = Some 6 /\
  ori_key None [5; 2; 8; 0] = Some 6 /\ ori_key None [3; 7; 9; 1] = Some 7.
Proof. repeat split. Qed.

(** C24: [j] is in the row [i] of the transposed connectivity as many times as
    [i] is in the row [j]; rows are ordered; no internal error. *)
Theorem C24_transpose : forall rows n1,
  (forall row, In row rows -> forall i, In i row -> i < n1) ->
  exists out, mesh_transpose (of_rows rows) (length rows) n1 = Some (of_rows out) /\ length out = n1 /\
  forall i, i < n1 -> Sorted le (nth i out []) /\
    forall j, count_occ Nat.eq_dec (nth i out []) j = count_occ Nat.eq_dec (nth j rows []) i.
Proof.
  intros rows n1 Hb. destruct (transpose_ok _ rows n1 (of_rows_full rows) Hb) as (c & E & F).
  exists (map (transposed rows) (seq 0 n1)). rewrite <- (full_of_rows _ _ F). split; auto.
  rewrite map_length, seq_length. split; auto. intros i Hi.
  rewrite nth_map_in with (da := 0) by (rewrite seq_length; auto). rewrite seq_nth by auto. simpl.
  split; [apply transposed_sorted|]. intros. apply transposed_count.
Qed.

Example C24_ex : mesh_transpose (of_rows [[0; 1; 2]; [2; 1; 3]; []]) 3 5 =
  Some (of_rows [[0]; [0; 1]; [0; 1]; [1]; []]).
Proof. vm_compute. reflexivity. Qed.

Section WithCells.
Variable cells : list (list nat).
Variable n_vert : nat.
Hypothesis Hb : forall row, In row cells -> forall i, In i row -> i < n_vert.

Lemma c0D_ok : exists c, mesh_transpose (of_rows cells) (length cells) n_vert = Some c /\
  full c (map (transposed cells) (seq 0 n_vert)).
Proof. apply transpose_ok; auto. apply of_rows_full. Qed.

Lemma In_through : forall c i j, full c (map (transposed cells) (seq 0 n_vert)) -> i < length cells ->
  (In j (candidates (of_rows cells) c i) <-> exists v, In v (nth i cells []) /\ In v (nth j cells [])).
Proof.
  intros c i j F Hi.
  assert (Hv : forall k, In k (nth i cells []) -> k < n_vert) by (intros k Hk; apply (Hb (nth i cells [])); auto; apply nth_In; auto).
  rewrite (In_candidates _ _ cells _ i j (of_rows_full cells) F Hi).
  - split; intros (v & Hv1 & Hv2); exists v; (split; [auto|]);
      rewrite nth_map_in with (da := 0) in * by (rewrite seq_length; auto); rewrite seq_nth in * by auto;
      apply transposed_In; auto.
  - intros k Hk. rewrite map_length, seq_length. auto.
Qed.

Lemma setup_DD_ok : exists nb, setup_DD (of_rows cells) (length cells) n_vert = Some (of_rows nb) /\
  length nb = length cells /\
  forall i, i < length cells -> NoDup (nth i nb []) /\
    forall j, In j (nth i nb []) <-> j < length cells /\ i <> j /\ exists v, In v (nth i cells []) /\ In v (nth j cells []).
Proof.
  destruct c0D_ok as (c & E & F). unfold setup_DD. rewrite E.
  assert (HN : forall i j, i < length cells -> In j (candidates (of_rows cells) c i) -> j < length cells).
  { intros i j Hi Hj. apply (In_through c i j F Hi) in Hj. destruct Hj as (v & _ & Hv).
    destruct (Nat.lt_ge_cases j (length cells)); auto. rewrite nth_overflow in Hv by auto. destruct Hv. }
  destruct (intersect_ok true (of_rows cells) c no_conn no_conn (length cells) (length cells)) as (d & E2 & F2).
  { intros i Hi x Hx. eapply HN; eauto. }
  eexists. rewrite E2. rewrite (full_of_rows _ _ F2) at 1. split; [reflexivity|].
  rewrite map_length, seq_length. split; auto. intros i Hi.
  rewrite nth_map_in with (da := 0) by (rewrite seq_length; auto). rewrite seq_nth by auto. simpl.
  split; [apply NoDup_filter, firsts_NoDup|]. intros j. rewrite filter_In, firsts_In, (In_through c i j F Hi).
  unfold accept. destruct (Nat.eqb_spec i j); simpl; split; intros H.
  - destruct H; discriminate.
  - tauto.
  - split; [|tauto]. apply (HN i); auto. apply (In_through c i j F Hi). tauto.
  - tauto.
Qed.
End WithCells.

(** C25, cells: the neighbours of a cell are the other cells sharing a vertex. *)
Theorem C25_neighbours : forall cells n_vert,
  (forall row, In row cells -> forall v, In v row -> v < n_vert) ->
  exists nb, setup_DD (of_rows cells) (length cells) n_vert = Some (of_rows nb) /\ length nb = length cells /\
  forall i, i < length cells -> NoDup (nth i nb []) /\
    forall j, In j (nth i nb []) <->
      j < length cells /\ i <> j /\ exists v, In v (nth i cells []) /\ In v (nth j cells []).
Proof. exact setup_DD_ok. Qed.

(** C25, vertices: the neighbours of a vertex are the other vertices of its
    cells. *)
Theorem C25_vertices : forall cells n_vert,
  (forall row, In row cells -> forall v, In v row -> v < n_vert) ->
  exists nb, setup_00 (of_rows cells) (length cells) n_vert = Some (of_rows nb) /\ length nb = n_vert /\
  forall v, v < n_vert -> NoDup (nth v nb []) /\
    forall w, In w (nth v nb []) <-> v <> w /\ exists row, In row cells /\ In v row /\ In w row.
Proof.
  intros cells n_vert Hb. destruct (c0D_ok cells n_vert Hb) as (c & E & F). unfold setup_00. rewrite E.
  assert (IC : forall v w, v < n_vert -> (In w (candidates c (of_rows cells) v) <-> exists row, In row cells /\ In v row /\ In w row)).
  { intros v w Hv. rewrite (In_candidates _ _ _ _ v w F (of_rows_full cells)).
    - rewrite nth_map_in with (da := 0) by (rewrite seq_length; auto). rewrite seq_nth by auto. simpl. split.
      + intros (k & Hk & Hw). apply transposed_In in Hk. exists (nth k cells []). repeat split; auto.
        apply nth_In. destruct (Nat.lt_ge_cases k (length cells)); auto. rewrite nth_overflow in Hk by auto. destruct Hk.
      + intros (row & Hr & Hv' & Hw). apply In_nth with (d := []) in Hr. destruct Hr as (k & Hk & <-).
        exists k. split; auto. apply transposed_In. auto.
    - rewrite map_length, seq_length. auto.
    - intros k Hk. rewrite nth_map_in with (da := 0) in Hk by (rewrite seq_length; auto). rewrite seq_nth in Hk by auto.
      apply transposed_In in Hk. destruct (Nat.lt_ge_cases k (length cells)); auto. rewrite nth_overflow in Hk by auto. destruct Hk. }
  destruct (intersect_ok true c (of_rows cells) no_conn no_conn n_vert n_vert) as (d & E2 & F2).
  { intros v Hv w Hw. apply IC in Hw; auto. destruct Hw as (row & Hr & _ & Hw). eapply Hb; eauto. }
  eexists. rewrite E2. rewrite (full_of_rows _ _ F2) at 1. split; [reflexivity|].
  rewrite map_length, seq_length. split; auto. intros v Hv.
  rewrite nth_map_in with (da := 0) by (rewrite seq_length; auto). rewrite seq_nth by auto. simpl.
  split; [apply NoDup_filter, firsts_NoDup|]. intros w. rewrite filter_In, firsts_In, IC by auto.
  unfold accept. destruct (Nat.eqb_spec v w); simpl; split; intros H; try tauto. destruct H; discriminate.
Qed.

(** C25, faces -> edges: exactly the edges all of whose vertices are in the face. *)
Theorem C25_subentities : forall faces edges n_vert,
  (forall row, In row edges -> forall v, In v row -> v < n_vert) ->
  (forall row, In row faces -> forall v, In v row -> v < n_vert) ->
  exists fe, setup_d1d2 (of_rows faces) (of_rows edges) (length faces) (length edges) n_vert = Some (of_rows fe) /\
  length fe = length faces /\
  forall i, i < length faces -> NoDup (nth i fe []) /\
    forall j, In j (nth i fe []) <->
      j < length edges /\ incl (nth j edges []) (nth i faces []) /\ nth j edges [] <> [].
Proof.
  intros faces edges n_vert Hbe Hbf. destruct (c0D_ok edges n_vert Hbe) as (c & E & F). unfold setup_d1d2. rewrite E.
  assert (Hv : forall i k, i < length faces -> In k (nth i faces []) -> k < n_vert).
  { intros i k Hi Hk. apply (Hbf (nth i faces [])); auto. apply nth_In; auto. }
  assert (IC : forall i j, i < length faces -> (In j (candidates (of_rows faces) c i) <-> 
            exists v, In v (nth i faces []) /\ In v (nth j edges []))).
  { intros i j Hi. rewrite (In_candidates _ _ _ _ i j (of_rows_full faces) F Hi).
    - split; intros (v & Hv1 & Hv2); exists v; (split; [auto|]); pose proof (Hv i v Hi Hv1);
        rewrite nth_map_in with (da := 0) in * by (rewrite seq_length; auto); rewrite seq_nth in * by auto;
        apply transposed_In; auto.
    - intros k Hk. rewrite map_length, seq_length. eapply Hv; eauto. }
  assert (HN : forall i j, i < length faces -> In j (candidates (of_rows faces) c i) -> j < length edges).
  { intros i j Hi Hj. apply IC in Hj; auto. destruct Hj as (v & _ & Hv2).
    destruct (Nat.lt_ge_cases j (length edges)); auto. rewrite nth_overflow in Hv2 by auto. destruct Hv2. }
  destruct (intersect_ok false (of_rows faces) c (of_rows faces) (of_rows edges) (length faces) (length edges)) as (d & E2 & F2).
  { intros i Hi x Hx. eapply HN; eauto. }
  eexists. rewrite E2. rewrite (full_of_rows _ _ F2) at 1. split; [reflexivity|].
  rewrite map_length, seq_length. split; auto. intros i Hi.
  rewrite nth_map_in with (da := 0) by (rewrite seq_length; auto). rewrite seq_nth by auto. simpl.
  split; [apply NoDup_filter, firsts_NoDup|]. intros j. rewrite filter_In, firsts_In.
  unfold accept. rewrite contains_spec. rewrite (full_irow _ _ _ (of_rows_full faces)) by auto. split.
  - intros [[H1 _] H2]. pose proof (HN _ _ Hi H1) as Hj. rewrite (full_irow _ _ _ (of_rows_full edges)) in H2 by auto.
    repeat split; auto. apply IC in H1; auto. destruct H1 as (v & _ & Hv2) . intros Z. rewrite Z in Hv2. destruct Hv2.
  - intros (Hj & H1 & H2). rewrite (full_irow _ _ _ (of_rows_full edges)) by auto. repeat split; auto.
    apply IC; auto. destruct (nth j edges []) as [|v l] eqn:Ev; [congruence|]. exists v. split; [apply H1; left; auto|left; auto].
Qed.

(** Two triangles and one separate cell. *)
Example C25_ex : setup_DD (of_rows [[0; 1; 2]; [2; 1; 3]; [4; 5; 6]]) 3 7 = Some (of_rows [[1]; [0]; []]).
Proof. vm_compute. reflexivity. Qed.

(** C26.  [refs c] are the local entities (edges or faces) of the reference
    cell of the type of cell [c] as lists of local vertices.  [loc c i] are the
    global vertices of the local entity [i]. *)
Definition loc (cells : list (list nat)) (refs : nat -> list (list nat)) (c i : nat) : list nat :=
  map (fun k => nth k (nth c cells []) 0) (nth i (refs c) []).

Lemma loc_G : forall cells refs c i, i < length (refs c) -> nth i (G cells refs c) [] = loc cells refs c i.
Proof.
  intros. unfold G, local_conn, loc. rewrite nth_map_in with (da := []) by auto. auto.
Qed.

(** Position of the local entity [i] of [c] in the flat arrays. *)
Definition flat_pos (refs : nat -> list (list nat)) (c i : nat) : nat :=
  length (concat (map refs (seq 0 c))) + i.

Lemma len_concat_G : forall cells refs c, length (concat (map (G cells refs) (seq 0 c))) = length (concat (map refs (seq 0 c))).
Proof.
  intros. rewrite !length_concat_nsum, !map_map. f_equal. apply map_ext. intros. unfold G, local_conn. apply map_length.
Qed.

Theorem C26_entities : forall cells refs n_vert,
  (forall row, In row cells -> forall v, In v row -> v < n_vert) ->
  (forall c, c < length cells -> forall e, In e (refs c) ->
     2 <= length e <= 4 /\ forall i, In i e -> i < length (nth c cells [])) ->
  (* conforming: no entity is a part of a larger entity of the same dimension *)
  (forall c c' i i', c < length cells -> c' < length cells -> i < length (refs c) -> i' < length (refs c') ->
     length (loc cells refs c i) < length (loc cells refs c' i') ->
     ~ incl (loc cells refs c i) (loc cells refs c' i')) ->
  (* the local entities of one cell differ *)
  (forall c, c < length cells -> forall i j, i < length (refs c) -> j < length (refs c) -> i <> j ->
     ~ Permutation (loc cells refs c i) (loc cells refs c j)) ->
  exists st ids ents,
  build_entities (of_rows cells) refs (length cells) n_vert = Some st /\
  b_cDd st = of_rows ids /\ mk_conn (b_off st) (map Some (b_ind st)) = of_rows ents /\
  length ids = length cells /\
  (* cell c lists its local entities in order *)
  (forall c, c < length cells -> length (nth c ids []) = length (refs c) /\
     forall i, i < length (refs c) -> nth i (nth c ids []) 0 < length ents /\
       Permutation (nth (nth i (nth c ids []) 0) ents []) (loc cells refs c i)) /\
  (* the same id iff the same vertices *)
  (forall c c' i i', c < length cells -> c' < length cells -> i < length (refs c) -> i' < length (refs c') ->
     (nth i (nth c ids []) 0 = nth i' (nth c' ids []) 0 <->
      Permutation (loc cells refs c i) (loc cells refs c' i'))) /\
  (* numbering by the first occurrence, no gaps *)
  (forall e, e < length ents -> In e (concat ids)) /\
  (forall c i, c < length cells -> i < length (refs c) ->
     let before := firstn (flat_pos refs c i) (concat ids) in
     let e := nth i (nth c ids []) 0 in
     (forall e', e' < e -> In e' before) /\ (~ In e before -> nth e ents [] = loc cells refs c i)) /\
  (* orientations *)
  (forall c i, c < length cells -> i < length (refs c) ->
     nth (flat_pos refs c i) (b_ori st) None = ori_key None (loc cells refs c i)).
Proof.
  intros cells refs n_vert Hb Hrefs Hconf Hdeg.
  destruct (setup_DD_ok cells n_vert Hb) as (nb & E & Lnb & Hnb).
  assert (Hdeg' : forall c, c < length cells -> forall i j, i < length (G cells refs c) -> j < length (G cells refs c) -> i <> j ->
     ~ Permutation (nth i (G cells refs c) []) (nth j (G cells refs c) [])).
  { intros c Hc i j Hi Hj Hij. rewrite len_G in Hi, Hj. rewrite !loc_G by auto. auto. }
  assert (Hnbs : forall i j, i < length cells -> j < length cells ->
     (In j (nth i nb []) <-> i <> j /\ exists v, In v (nth i cells []) /\ In v (nth j cells []))).
  { intros i j Hi Hj. destruct (Hnb i Hi) as [_ H]. rewrite H. tauto. }
  assert (Hconf' : forall c c' g g', c < length cells -> c' < length cells -> In g (G cells refs c) -> In g' (G cells refs c') ->
     length g < length g' -> ~ incl g g').
  { intros c c' g g' Hc Hc' Hg Hg'. apply In_nth with (d := []) in Hg. apply In_nth with (d := []) in Hg'.
    destruct Hg as (i & Hi & <-). destruct Hg' as (i' & Hi' & <-). rewrite len_G in Hi, Hi'. rewrite !loc_G by auto. auto. }
  destruct (build_ok cells refs (of_rows nb) nb Hrefs (of_rows_full nb) Lnb Hnbs Hdeg' Hconf') as (st & ents & ids & B & J & Lr).
  exists st, ids, ents. unfold build_entities. rewrite E, B. split; [reflexivity|].
  assert (Hpos : forall c i, c < length cells -> i < length (refs c) ->
      flat_pos refs c i < length (concat ids) /\ nth (flat_pos refs c i) (concat ids) 0 = nth i (nth c ids []) 0 /\
      nth (flat_pos refs c i) (Gflat cells refs (length cells)) [] = loc cells refs c i /\
      nth (flat_pos refs c i) (Kflat cells refs (length cells)) None = ori_key None (loc cells refs c i)).
  { intros c i Hc Hi.
    assert (Hlen : flat_pos refs c i = length (concat (firstn c ids)) + i).
    { unfold flat_pos. f_equal. rewrite <- (len_concat_G cells). rewrite !length_concat_nsum, <- firstn_map. f_equal.
      apply list_ext with (d := 0).
      - rewrite firstn_length, !map_length, seq_length. rewrite Lr. lia.
      - intros k Hk. rewrite !map_length, seq_length in Hk. rewrite nth_firstn.
        destruct (Nat.ltb_spec k c); [|lia]. rewrite !nth_map_len.
        rewrite nth_map_in with (da := 0) by (rewrite seq_length; auto). rewrite seq_nth by auto. simpl.
        symmetry. apply (j_done _ _ _ _ _ J). lia. }
    assert (Hi' : i < length (nth c ids [])) by (rewrite (j_done _ _ _ _ _ J) by lia; rewrite len_G; auto).
    destruct (concat_nth_pos ids c i) as [P1 P2]; [lia|auto|]. rewrite <- Hlen in *. split; auto. split; auto.
    assert (N1 : nth c (map (G cells refs) (seq 0 (length cells))) [] = G cells refs c).
    { rewrite nth_map_in with (da := 0) by (rewrite seq_length; auto). rewrite seq_nth by auto. auto. }
    assert (FS : forall A (f : nat -> list A), firstn c (map f (seq 0 (length cells))) = map f (seq 0 c)).
    { intros A f. rewrite firstn_map. f_equal. replace (length cells) with (c + (length cells - c)) by lia.
      rewrite seq_app, firstn_app, seq_length, Nat.sub_diag. simpl. rewrite app_nil_r. apply firstn_all2.
      rewrite seq_length. auto. }
    split.
    - unfold Gflat, flat_pos. rewrite <- (len_concat_G cells), <- (FS _ (G cells refs)).
      rewrite concat_nth_posG; rewrite ?N1.
      + apply loc_G; auto.
      + rewrite map_length, seq_length. auto.
      + rewrite len_G. auto.
    - assert (N2 : nth c (map (fun c => keys_from None (G cells refs c)) (seq 0 (length cells))) [] = keys_from None (G cells refs c)).
      { rewrite nth_map_in with (da := 0) by (rewrite seq_length; auto). rewrite seq_nth by auto. auto. }
      assert (L2 : length (concat (map refs (seq 0 c))) = length (concat (map (fun c => keys_from None (G cells refs c)) (seq 0 c)))).
      { rewrite <- (len_concat_G cells). rewrite !length_concat_nsum, !map_map. f_equal. apply map_ext. intros.
        symmetry. apply keys_len. }
      unfold Kflat, flat_pos. rewrite L2, <- FS. rewrite concat_nth_posG; rewrite ?N2.
      + rewrite <- (loc_G cells refs c i Hi).
        assert (HK : forall gs prev k, (forall g, In g gs -> 2 <= length g <= 4) -> k < length gs ->
                   nth k (keys_from prev gs) None = ori_key None (nth k gs [])).
        { clear. induction gs as [|g gs IH]; intros prev k Hg Hk; simpl in *; [lia|]. destruct k.
          - specialize (Hg g (or_introl eq_refl)). unfold ori_key.
            destruct (length g) as [|[|[|[|[|n]]]]]; auto; lia.
          - apply IH; [intros; apply Hg; auto|lia]. }
        apply HK; [|rewrite len_G; auto]. intros g Hg. destruct (G_len cells refs Hrefs c g Hc Hg). lia.
      + rewrite map_length, seq_length. auto.
      + rewrite keys_len, len_G. auto. }
  pose proof (j_done _ _ _ _ _ J) as Jd. pose proof (j_id _ _ _ _ _ J) as Ji. pose proof (j_first _ _ _ _ _ J) as Jf.
  pose proof (j_uniq _ _ _ _ _ J) as Ju. pose proof (j_ori _ _ _ _ _ J) as Jo. rewrite Lr in *.
  split.
  { apply full_of_rows. unfold full. pose proof (j_rep _ _ _ _ _ J) as R. rewrite Lr, Nat.sub_diag in R.
    simpl in R. rewrite app_nil_r in R.
    replace (map (@length nat) ids) with (caps cells refs); auto.
    apply list_ext with (d := 0).
    - rewrite length_caps, map_length. auto.
    - intros k Hk. rewrite length_caps in Hk. rewrite nth_caps, nth_map_len, Jd by auto. auto. }
  split.
  { rewrite (j_off _ _ _ _ _ J), (j_ind _ _ _ _ _ J). reflexivity. }
  split; [auto|]. split.
  { intros c Hc. split; [rewrite Jd, len_G by auto; auto|]. intros i Hi.
    destruct (Hpos c i Hc Hi) as (P1 & P2 & P3 & _). destruct (Ji _ P1) as [Q1 Q2]. rewrite P2 in Q1, Q2. rewrite P3 in Q2. auto. }
  split.
  { intros c c' i i' Hc Hc' Hi Hi'.
    destruct (Hpos c i Hc Hi) as (P1 & P2 & P3 & _). destruct (Ji _ P1) as [Q1 Q2]. rewrite P2 in Q1, Q2. rewrite P3 in Q2.
    destruct (Hpos c' i' Hc' Hi') as (P1' & P2' & P3' & _). destruct (Ji _ P1') as [Q1' Q2']. rewrite P2' in Q1', Q2'. rewrite P3' in Q2'.
    split; intros H.
    - rewrite <- H in Q2'. eapply Permutation_trans; [apply Permutation_sym; eauto|eauto].
    - destruct (Nat.eq_dec (nth i (nth c ids []) 0) (nth i' (nth c' ids []) 0)) as [Heq|Hne]; auto.
      exfalso. apply (Ju _ _ Q1 Q1' Hne). eapply Permutation_trans; [eauto|]. eapply Permutation_trans; [eauto|].
      apply Permutation_sym; auto. }
  split; [apply (j_all _ _ _ _ _ J)|]. split.
  { intros c i Hc Hi. destruct (Hpos c i Hc Hi) as (P1 & P2 & P3 & _). destruct (Jf _ P1) as [Q1 Q2].
    rewrite P2 in Q1, Q2. rewrite P3 in Q2. simpl. auto. }
  { intros c i Hc Hi. destruct (Hpos c i Hc Hi) as (P1 & _ & _ & P4). rewrite Jo by auto. auto. }
Qed.

(** Two wedges (triangular and quadrilateral faces) sharing a quadrilateral. *)
Definition wedge_faces : list (list nat) := [[0; 2; 1]; [0; 3; 5; 2]; [0; 1; 4; 3]; [3; 4; 5]; [1; 2; 5; 4]].
Example C26_ex_wedge : option_map (fun st => (irow (b_cDd st) 0, irow (b_cDd st) 1, b_id st))
   (build_entities (of_rows [[0; 1; 2; 4; 5; 6]; [1; 3; 2; 5; 7; 6]]) (fun _ => wedge_faces) 2 8) =
   Some ([0; 1; 2; 3; 4], [5; 4; 6; 7; 8], 9).
Proof. vm_compute. reflexivity. Qed.

(** Without conformity a quadrilateral face may be taken for a stored triangle
    (only the first vertices are compared): the new face [0; 2; 1; 7] of the
    second cell gets the id 0 of the triangle [0; 2; 1] followed by 7. *)
Theorem C26_nonconforming_refuted :
  exists cells refs n_vert st, build_entities (of_rows cells) refs (length cells) n_vert = Some st /\
  nth 0 (irow (b_cDd st) 1) 9 = nth 0 (irow (b_cDd st) 0) 8 /\
  length (loc cells refs 0 0) = 3 /\ length (loc cells refs 1 0) = 4.
Proof.
  exists [[0; 1; 2; 7]; [0; 2; 1; 7]], (fun c => if c =? 0 then [[0; 2; 1]; [3; 0; 1]] else [[0; 1; 2; 3]]), 8.
  eexists. split; [vm_compute; reflexivity|]. repeat split.
Qed.

(** Two tetrahedra sharing a face: seven faces; the hypotheses hold. *)
Definition tet_faces : list (list nat) := [[0; 2; 1]; [0; 3; 2]; [0; 1; 3]; [1; 2; 3]].
Definition two_tets : list (list nat) := [[0; 1; 2; 3]; [1; 2; 3; 4]].
Example C26_ex : option_map (fun st => (irow (b_cDd st) 0, irow (b_cDd st) 1, b_id st))
   (build_entities (of_rows two_tets) (fun _ => tet_faces) 2 5) = Some ([0; 1; 2; 3], [3; 4; 5; 6], 7).
Proof. vm_compute. reflexivity. Qed.
Example C26_ex_hyp : forall c, c < 2 -> forall i j, i < 4 -> j < 4 -> i <> j ->
  ~ Permutation (loc two_tets (fun _ => tet_faces) c i) (loc two_tets (fun _ => tet_faces) c j).
Proof.
  intros c Hc i j Hi Hj Hij P.
  assert (forall x, In x (loc two_tets (fun _ => tet_faces) c i) <-> In x (loc two_tets (fun _ => tet_faces) c j)) as Q.
  { intros x. split; apply Permutation_in; [|apply Permutation_sym]; auto. }
  clear P. assert (c = 0 \/ c = 1) as [-> | ->] by lia;
  (assert (i = 0 \/ i = 1 \/ i = 2 \/ i = 3) as [-> |[-> |[-> | ->]]] by lia);
  (assert (j = 0 \/ j = 1 \/ j = 2 \/ j = 3) as [-> |[-> |[-> | ->]]] by lia); try congruence;
  unfold loc in Q; simpl in Q;
  first [specialize (Q 0); lia | specialize (Q 1); lia | specialize (Q 2); lia | specialize (Q 3); lia | specialize (Q 4); lia].
Qed.

Print Assumptions C23_sort.
Print Assumptions C23_keys.
Print Assumptions C24_transpose.
Print Assumptions C25_neighbours.
Print Assumptions C25_vertices.
Print Assumptions C25_subentities.
Print Assumptions C26_entities.
Print Assumptions C26_nonconforming_refuted.
