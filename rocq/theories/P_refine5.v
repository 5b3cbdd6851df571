(** C141: refinement of segments, error edges of the refined reference cell. *)
From Coq Require Import Reals Lra Lia Permutation.
From Verif Require Import Base M_mesh M_lagnodes M_fmf L_fmf M_map S_map M_refine P_mgeo L_refine P_refine P_refine2 P_refine3 P_refine4.
Open Scope nat_scope.

(** ** Segments *)
(** Nodes from left to right, cells in the same order *)
Definition chain (m : mesh) : Prop :=
  1 < m_n m /\ m_conn m = map (fun i => [i; S i]) (seq 0 (m_n m - 1)) /\ length (m_grp m) = length (m_conn m) /\
  forall i, S i < m_n m -> Rle (m_x m i 0) (m_x m (S i) 0).
Lemma repeat2 : forall N a, repeat_each 2 (seq a (S N)) = a :: concat (map (fun k => [k; S k]) (seq a N)) ++ [a + N].
Proof.
  induction N as [|N IH]; intros a; [cbn; rewrite Nat.add_0_r; reflexivity|].
  change (seq a (S (S N))) with (a :: seq (S a) (S N)). unfold repeat_each in *. cbn [flat_map]. rewrite IH. cbn [seq map concat repeat app].
  f_equal. f_equal. f_equal. f_equal. f_equal. lia.
Qed.
Lemma tl_removelast : forall A (a b : A) l, removelast (tl (a :: l ++ [b])) = l.
Proof. intros. cbn [tl]. apply removelast_last. Qed.
Lemma concat_pairs_len : forall N a, length (concat (map (fun k => [k; S k]) (seq a N))) = 2 * N.
Proof. induction N; intros a; cbn; auto. rewrite IHN. lia. Qed.
Lemma chop_pairs : forall N a fuel, 2 * N <= fuel -> chop fuel 2 (concat (map (fun k => [k; S k]) (seq a N))) = map (fun k => [k; S k]) (seq a N).
Proof.
  induction N as [|N IH]; intros a fuel F; [destruct fuel; reflexivity|]. destruct fuel as [|fuel]; [lia|]. cbn [seq map concat app chop firstn skipn]. f_equal. apply IH. lia.
Qed.
Lemma conn_1 : forall N, reshape 2 (removelast (tl (repeat_each 2 (seq 0 (S N))))) = map (fun k => [k; S k]) (seq 0 N).
Proof. intros N. rewrite repeat2, tl_removelast. unfold reshape. apply chop_pairs. rewrite concat_pairs_len. lia. Qed.
Lemma sorted_ok : forall m, (forall i, S i < m_n m -> Rle (m_x m i 0) (m_x m (S i) 0)) -> sorted_x m = true.
Proof.
  intros m H. unfold sorted_x. apply forallb_forall. intros k Hk. apply in_seq in Hk. destruct (Rle_dec _ _) as [|N]; auto. exfalso. apply N. apply H. lia.
Qed.
Lemma nth_pairs : forall N c d, c < N -> nth c (map (fun k => [k; S k]) (seq 0 N)) d = [c; S c].
Proof. intros N c d H. rewrite nth_map_in with (da := 0) by (rewrite seq_length; auto). rewrite seq_nth by auto. reflexivity. Qed.
(** The halves of the cell c are the cells 2c, 2c + 1 *)
Theorem C141_segments : forall m, chain m -> exists m', refine_1 m = Ok m' /\ chain m' /\ m_n m' = 2 * m_n m - 1 /\ length (m_conn m') = 2 * length (m_conn m) /\
  forall c s j, c < length (m_conn m) -> s < 2 -> j < 2 ->
    nth (2 * c + s) (m_grp m') 0 = nth c (m_grp m) 0 /\
    let a := nodes (m_x m) (nth c (m_conn m) []) 0 0 in let b := nodes (m_x m) (nth c (m_conn m) []) 1 0 in
    nodes (m_x m') (nth (2 * c + s) (m_conn m') []) j 0 = (a + INR (s + j) / 2 * (b - a))%R.
Proof.
  intros m (N & E & Gr & So). assert (Ln : length (m_conn m) = m_n m - 1) by (rewrite E, map_length, seq_length; auto).
  eexists. split.
  - unfold refine_1. rewrite (sorted_ok m So). cbn [negb]. destruct (Nat.eqb_spec (m_n m) 0); [lia|]. rewrite Ln, Nat.eqb_refl. cbn [orb]. reflexivity.
  - replace (2 * m_n m - 1) with (S (2 * (m_n m - 1))) by lia. rewrite conn_1. cbn [m_n m_conn m_grp m_x].
    assert (X : forall c s, c < m_n m -> s < 2 -> (s = 0 \/ S c < m_n m) -> (if Nat.even (2 * c + s) then m_x m ((2 * c + s) / 2) else centroid (m_x m) (nth ((2 * c + s) / 2) (m_conn m) [])) 0
      = (m_x m c 0%nat + INR s / 2 * (m_x m (S c) 0%nat - m_x m c 0%nat))%R).
    { intros c s C Hs Q. assert (D : (2 * c + s) / 2 = c) by (symmetry; apply (Nat.div_unique _ 2 c s); lia). rewrite D.
      destruct s as [|[|s]]; [| |lia].
      - rewrite Nat.add_0_r, Nat.even_mul. cbn. lra.
      - replace (Nat.even (2 * c + 1)) with false by (rewrite Nat.even_add, Nat.even_mul; reflexivity).
        rewrite E, nth_pairs by lia. rewrite centroid_sum. cbn. field. }
    split; [|split; [lia|split; [rewrite map_length, seq_length; lia|]]].
    + split; [cbn; lia|]. split; [cbn [m_conn m_n]; f_equal; f_equal; lia|]. cbn [m_n m_conn m_grp m_x]. split.
      * rewrite map_length, seq_length. unfold repeat_each. rewrite (@flat_len _ _ (fun a => repeat a 2) 2) by (intros; apply repeat_length). lia.
      * intros i Hi. assert (exists c s, i = 2 * c + s /\ s < 2) as (c & s & -> & Hs) by (exists (i / 2), (i mod 2); split; [apply Nat.div_mod; lia|apply Nat.mod_upper_bound; lia]).
        assert (C : S c < m_n m) by lia. pose proof (So c C) as Q. rewrite X by lia. destruct s as [|[|s]]; [| |lia].
        -- replace (S (2 * c + 0)) with (2 * c + 1) by lia. rewrite X by lia. cbn. lra.
        -- replace (S (2 * c + 1)) with (2 * (S c) + 0) by lia. rewrite X by lia. cbn. lra.
    + intros c s j C Hs Hj. split.
      * replace (2 * c + s) with (c * 2 + s) by lia. apply nth_repeat_each; auto. lia.
      * rewrite nth_pairs by lia. assert (Ec : nth c (m_conn m) [] = [c; S c]) by (rewrite E; apply nth_pairs; lia). rewrite Ec. unfold nodes. cbv zeta.
        assert (Q : nth j [2 * c + s; S (2 * c + s)] 0 = 2 * c + (s + j)) by (destruct j as [|[|j]]; cbn; lia). rewrite Q. cbn [nth].
        destruct (Nat.lt_ge_cases (s + j) 2) as [A|A].
        -- rewrite X by lia. reflexivity.
        -- replace (2 * c + (s + j)) with (2 * (S c) + 0) by lia. replace (s + j) with 2 by lia. rewrite X by lia. cbn. lra.
Qed.
(** Cells in another order: the new cells overlap *)
Definition two_seg : mesh := mkMesh 3 (pts [[0]; [1]; [3]]%R) [[1; 2]; [0; 1]] [0; 0].
Theorem C141_order_refuted : mesh_ok Seg two_seg /\ exists m', refine_1 two_seg = Ok m' /\
  nodes (m_x m') (nth 0 (m_conn m') []) 0 0 = 0%R /\ nodes (m_x m') (nth 0 (m_conn m') []) 1 0 = 2%R /\
  nodes (m_x m') (nth 3 (m_conn m') []) 0 0 = (1 / 2)%R /\ nodes (m_x m') (nth 3 (m_conn m') []) 1 0 = 3%R.
Proof.
  split.
  - split; [reflexivity|]. intros c Hc. cbn in Hc. destruct c as [|[|c]]; [| |lia]; cbn; (split; [reflexivity|]); (split; [repeat constructor; cbn; lia|]); intros; lia.
  - eexists. split.
    + unfold refine_1. rewrite sorted_ok; [reflexivity|]. intros i Hi. cbn in Hi. destruct i as [|[|i]]; [| |lia]; cbn; lra.
    + cbn [m_conn m_x]. vm_compute reshape. unfold nodes, centroid. cbn. repeat split; try field; reflexivity.
Qed.

(** ** Error edges *)
Definition ee_ok (g : geom) : bool :=
  forallb (fun tr => match tr with [p; q; r] => forallb (fun p => (fst p <? nch g) && (snd p <? gnv g)) tr | _ => false end) (eetab g) &&
  forallb (fun r => match r with RC _ => true | _ => existsb (fun tr => match nth_error tr 1 with Some p => rneqb r (nth (snd p) (child g (fst p)) RB) | None => false end) (eetab g) end) (rtab g).
Lemma ee_chk : forall g, isgeom g -> ee_ok g = true.
Proof. intros g G. destruct G as [<- | [<- | [<- | [<- | []]]]]; vm_compute; reflexivity. Qed.
Definition lnode (g : geom) (p : nat * nat) : rnode := nth (snd p) (child g (fst p)) RB.
Lemma enum_tr : forall (P : list (nat * nat) -> Prop) l, (fix all (l : list (list (nat * nat))) : Prop := match l with [] => True | r :: l => P r /\ all l end) l -> forall r, In r l -> P r.
Proof. induction l as [|a l IH]; intros H r I; [destruct I|]. destruct H as [H1 H2]. destruct I as [<-|I]; auto. Qed.
Lemma ee_mid : forall g X tr k, isgeom g -> In tr (eetab g) -> match tr with [p; q; r] =>
  (centroid X (supp g (lnode g q)) k = (centroid X (supp g (lnode g p)) k + centroid X (supp g (lnode g r)) k) / 2)%R | _ => False end.
Proof.
  intros g X tr k G. revert tr. apply enum_tr. destruct G as [<- | [<- | [<- | [<- | []]]]]; cbn [eetab combine map fst snd]; repeat split;
  unfold lnode; cbn; unfold centroid; cbn; field.
Qed.
(** The middle node of each triple is the midpoint of the two others, and each new node is the middle of a triple. *)
Theorem C141_error_edges : forall g m, isgeom g -> mesh_ok g m -> exists m', refine g m = Some m' /\ length (error_edges g (m_conn m')) = length (m_conn m) /\
  (forall c tr, c < length (m_conn m) -> In tr (nth c (error_edges g (m_conn m')) []) -> exists a b d, tr = [a; b; d] /\
     (forall k, m_x m' b k = (m_x m' a k + m_x m' d k) / 2)%R /\
     forall v, In v tr -> exists s, s < 2 ^ gdim g /\ In v (nth (c * 2 ^ gdim g + s) (m_conn m') [])) /\
  (forall c s v, c < length (m_conn m) -> s < 2 ^ gdim g -> In v (nth (c * 2 ^ gdim g + s) (m_conn m') []) -> m_n m <= v ->
     exists a d, In [a; v; d] (nth c (error_edges g (m_conn m')) [])).
Proof.
  intros g m G M. destruct (@topology_ok g m G M) as (t & T & TO). eexists. unfold refine. rewrite T. split; [reflexivity|]. cbn [m_n m_x m_conn m_grp].
  set (rows := reshape _ _).
  assert (L : length rows = nch g * length (m_conn m)).
  { destruct (@reshape_rows _ (fun c => map (gid m t c) (rtab g)) (gnv g) (nch g) (length (m_conn m)) (gnv_pos g)) as [H _]; auto.
    intros c'. rewrite map_length, rtab_len; auto. }
  assert (Rw : forall c s, c < length (m_conn m) -> s < nch g -> nth (c * nch g + s) rows [] = map (gid m t c) (child g s)) by (intros; apply refine_rows; auto).
  assert (Le : length rows / n_child g = length (m_conn m)). { rewrite L, n_child_eq by auto. rewrite Nat.mul_comm. apply Nat.div_mul. pose proof (nch_pos g). lia. }
  assert (Ec : forall c, c < length (m_conn m) -> nth c (error_edges g rows) [] = map (map (fun p => nth (snd p) (nth (c * nch g + fst p) rows []) 0)) (eetab g)).
  { intros c C. unfold error_edges. rewrite Le, n_child_eq by auto. rewrite nth_map_in with (da := 0) by (rewrite seq_length; auto). rewrite seq_nth by auto. reflexivity. }
  assert (Nd : forall c p, c < length (m_conn m) -> fst p < nch g -> snd p < gnv g -> nth (snd p) (nth (c * nch g + fst p) rows []) 0 = gid m t c (lnode g p)).
  { intros c p C P1 P2. rewrite Rw by auto. unfold lnode. apply nth_map_in. rewrite child_len; auto. }
  pose proof (ee_chk g G) as H. unfold ee_ok in H. band H. destruct H as [H1 H2]. rewrite forallb_forall in H1, H2.
  split; [unfold error_edges; rewrite map_length, seq_length; auto|]. split.
  - intros c tr C I. rewrite Ec in I by auto. apply in_map_iff in I. destruct I as (l & <- & Il). specialize (H1 l Il).
    destruct l as [|p [|q [|r [|]]]]; try discriminate. rewrite forallb_forall in H1.
    assert (B : forall x, In x [p; q; r] -> fst x < nch g /\ snd x < gnv g) by (intros x Hx; specialize (H1 x Hx); band H1; rewrite !Nat.ltb_lt in H1; auto).
    destruct (B p ltac:(cbn; auto)) as [P1 P2]. destruct (B q ltac:(cbn; auto)) as [Q1 Q2]. destruct (B r ltac:(cbn; auto)) as [R1 R2].
    cbn [map]. do 3 eexists. split; [reflexivity|]. split.
    + intros k. rewrite !Nd by auto. unfold lnode. rewrite !(new_node g) by (auto; apply rchk, child_In; auto). rewrite !nodes_gverts.
      apply (ee_mid g _ [p; q; r] k G Il).
    + intros v [<- | [<- | [<- | []]]]; [exists (fst p)|exists (fst q)|exists (fst r)]; (split; [auto|]); apply nth_In; rewrite Rw by auto; rewrite map_length, child_len; auto.
  - intros c s v C Hs Hv Nv. rewrite Rw in Hv by auto. apply in_map_iff in Hv. destruct Hv as (r & <- & Hr). pose proof (child_rtab g s r G Hs Hr) as Ir. specialize (H2 r Ir).
    assert (Z : existsb (fun tr => match nth_error tr 1 with Some p => rneqb r (nth (snd p) (child g (fst p)) RB) | None => false end) (eetab g) = true).
    { destruct r as [i| | |]; auto. exfalso. pose proof (gid_range g m t c (RC i) G M TO C (rchk g _ Ir)) as Q. cbn [kind] in Q. unfold o1 in Q. lia. }
    apply existsb_exists in Z. destruct Z as (l & Il & Z). specialize (H1 l Il).
    destruct l as [|p [|q [|w [|]]]]; try discriminate. rewrite forallb_forall in H1. cbn [nth_error] in Z. apply rneqb_spec in Z. specialize (H1 q ltac:(cbn; auto)). band H1. rewrite !Nat.ltb_lt in H1.
    rewrite Ec by auto. do 2 eexists. apply in_map_iff. exists [p; q; w]. split; [cbn [map]|exact Il]. f_equal. f_equal. rewrite Nd by tauto. unfold lnode. rewrite <- Z. reflexivity.
Qed.
Example C141_ex : chain (mkMesh 3 (pts [[0]; [1]; [3]]%R) [[0; 1]; [1; 2]] [0; 7]).
Proof. split; [cbn; lia|]. split; [reflexivity|]. split; [reflexivity|]. intros i Hi. cbn in Hi. destruct i as [|[|i]]; [| |lia]; cbn; lra. Qed.
Print Assumptions C141_segments.
Print Assumptions C141_error_edges.
