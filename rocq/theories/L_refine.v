(** Lemmas on refinement. *)
From Coq Require Import Reals Lra Lia Permutation.
From Verif Require Import Base M_mesh L_mesh L_build P_mesh M_lagnodes M_fmf L_fmf M_map S_map M_refine P_mgeo.
Open Scope nat_scope.

(** ** reshape *)
Lemma skipn_skipn : forall A a b (l : list A), skipn b (skipn a l) = skipn (a + b) l.
Proof. induction a as [|a IH]; intros b l; [reflexivity|]. destruct l; [destruct b; reflexivity|]. cbn. apply IH. Qed.
Lemma chop_nth : forall A n, 0 < n -> forall fuel (l : list A) k, length l <= fuel -> k * n < length l -> nth k (chop fuel n l) [] = firstn n (skipn (k * n) l).
Proof.
  intros A n N. induction fuel as [|fuel IH]; intros l k F K; [lia|]. cbn [chop]. destruct l as [|a l]; [cbn in K; lia|].
  destruct k as [|k]; [reflexivity|]. cbn [nth]. rewrite IH.
  - rewrite skipn_skipn. reflexivity.
  - rewrite skipn_length. cbn [length] in *. lia.
  - rewrite skipn_length. cbn [length] in *. cbn in K. lia.
Qed.
Lemma chop_len : forall A n, 0 < n -> forall fuel (l : list A) q, length l <= fuel -> length l = n * q -> length (chop fuel n l) = q.
Proof.
  intros A n N. induction fuel as [|fuel IH]; intros l q F K.
  - assert (length l = 0) by lia. cbn. destruct q; auto. rewrite H in K. nia.
  - cbn [chop]. destruct l as [|a l]; [cbn in K; cbn; nia|].
    destruct q as [|q]; [cbn in K; lia|]. cbn [length]. f_equal. apply IH; rewrite skipn_length; cbn [length] in *; nia.
Qed.
Lemma skipn_flat : forall A B (f : A -> list B) q (d : A) l c k, (forall a, length (f a) = q) -> c < length l -> k <= q ->
  skipn (c * q + k) (flat_map f l) = skipn k (f (nth c l d)) ++ flat_map f (skipn (S c) l).
Proof.
  intros A B f q d. induction l as [|a l IH]; intros c k H C K; [cbn in C; lia|]. destruct c as [|c].
  - cbn. rewrite skipn_app. rewrite H. replace (k - q) with 0 by lia. reflexivity.
  - cbn [flat_map nth skipn]. replace (S c * q + k) with (q + (c * q + k)) by lia. rewrite <- skipn_skipn, skipn_app, H, Nat.sub_diag. cbn [skipn].
    rewrite (skipn_all2 (f a)) by (rewrite H; lia). cbn [app]. rewrite IH by (auto; cbn in C; lia). reflexivity.
Qed.
Lemma flat_len : forall A B (f : A -> list B) q l, (forall a, length (f a) = q) -> length (flat_map f l) = q * length l.
Proof. intros A B f q l H. induction l as [|a l IH]; cbn; [lia|]. rewrite app_length, H, IH. lia. Qed.
Lemma reshape_rows : forall A (f : nat -> list A) n q N, 0 < n -> (forall c, length (f c) = n * q) ->
  length (reshape n (flat_map f (seq 0 N))) = q * N /\
  forall c s, c < N -> s < q -> nth (c * q + s) (reshape n (flat_map f (seq 0 N))) [] = firstn n (skipn (s * n) (f c)).
Proof.
  intros A f n q N P H. assert (L : length (flat_map f (seq 0 N)) = n * q * N) by (rewrite (@flat_len _ _ f (n * q)), seq_length; auto).
  split.
  - unfold reshape. apply chop_len; [auto|lia|]. rewrite L. lia.
  - intros c s C S. unfold reshape. assert (s * n + n <= n * q) by nia.
    rewrite chop_nth; [|auto|lia|rewrite L; nia].
    replace ((c * q + s) * n) with (c * (n * q) + s * n) by lia.
    rewrite (@skipn_flat _ _ f (n * q) 0) by (auto; try rewrite seq_length; auto; lia).
    rewrite seq_nth by auto. cbn [Nat.add]. rewrite firstn_app, skipn_length, H.
    replace (n - (n * q - s * n)) with 0 by lia. cbn [firstn]. apply app_nil_r.
Qed.

(** ** Topology *)
Definition isgeom (g : geom) : Prop := In g [Tri; Quad; Tet; Hex].
(** A mesh of cells of type [g]: rows of the right length of different existing vertices; a group for each cell *)
Definition mesh_ok (g : geom) (m : mesh) : Prop :=
  length (m_grp m) = length (m_conn m) /\
  forall c, c < length (m_conn m) -> length (nth c (m_conn m) []) = gnv g /\ NoDup (nth c (m_conn m) []) /\
    forall v, In v (nth c (m_conn m) []) -> v < m_n m.
(** Local entities [refs], cells -> entities [ids], entities -> vertices [ents] *)
Definition ents_ok (cells : list (list nat)) (refs : list (list nat)) (ids ents : list (list nat)) : Prop :=
  length ids = length cells /\
  (forall c, c < length cells -> length (nth c ids []) = length refs /\ forall i, i < length refs -> nth i (nth c ids []) 0 < length ents /\
     Permutation (nth (nth i (nth c ids []) 0) ents []) (map (fun k => nth k (nth c cells []) 0) (nth i refs []))) /\
  (forall c c' i i', c < length cells -> c' < length cells -> i < length refs -> i' < length refs ->
     (nth i (nth c ids []) 0 = nth i' (nth c' ids []) 0 <->
      Permutation (map (fun k => nth k (nth c cells []) 0) (nth i refs [])) (map (fun k => nth k (nth c' cells []) 0) (nth i' refs [])))) /\
  (forall e, e < length ents -> exists c i, c < length cells /\ i < length refs /\ nth i (nth c ids []) 0 = e).
Lemma irow_of_rows : forall rows c, c < length rows -> irow (of_rows rows) c = nth c rows [].
Proof. intros. apply full_irow; auto. apply of_rows_full. Qed.
Lemma rows_of_rows : forall rows, rows_of (of_rows rows) (length rows) = rows.
Proof.
  intros rows. unfold rows_of. apply list_ext with (d := []); [rewrite map_length, seq_length; auto|].
  intros i Hi. rewrite map_length, seq_length in Hi. rewrite nth_map_in with (da := 0) by (rewrite seq_length; auto). rewrite seq_nth by auto. apply irow_of_rows. auto.
Qed.
Lemma cumsum_len : forall l a, length (cumsum a l) = S (length l).
Proof. induction l; intros; cbn; auto. Qed.
(** Checks of the reference entities: indices below [nv], 2 to 4 vertices, the same number of them; differ in pairs *)
Definition refs_chk (nv k : nat) (refs : list (list nat)) : bool :=
  forallb (fun e => (length e =? k) && forallb (fun i => i <? nv) e) refs && (2 <=? k) && (k <=? 4) &&
  forallb (fun i => forallb (fun j => (i =? j) || existsb (fun a => negb (existsb (Nat.eqb a) (nth j refs []))) (nth i refs [])) (seq 0 (length refs))) (seq 0 (length refs)).
Lemma ents_build : forall cells refs nv k n, refs_chk nv k refs = true ->
  (forall c, c < length cells -> length (nth c cells []) = nv /\ NoDup (nth c cells []) /\ forall v, In v (nth c cells []) -> v < n) ->
  exists st, build_entities (of_rows cells) (fun _ => refs) (length cells) n = Some st /\
    ents_ok cells refs (fst (ent_rows (length cells) st)) (snd (ent_rows (length cells) st)).
Proof.
  intros cells refs nv k n H M. unfold refs_chk in H. rewrite !Bool.andb_true_iff, !forallb_forall in H. destruct H as (((H1 & K1) & K2) & H2).
  apply Nat.leb_le in K1. apply Nat.leb_le in K2.
  assert (R : forall e, In e refs -> length e = k /\ forall i, In i e -> i < nv).
  { intros e He. specialize (H1 e He). rewrite Bool.andb_true_iff, forallb_forall in H1. destruct H1 as [H0 H1]. apply Nat.eqb_eq in H0. split; auto.
    intros i Hi. apply Nat.ltb_lt. auto. }
  assert (D : forall i j, i < length refs -> j < length refs -> i <> j -> exists a, In a (nth i refs []) /\ ~ In a (nth j refs [])).
  { intros i j Hi Hj Hij. specialize (H2 i ltac:(apply in_seq; lia)). rewrite forallb_forall in H2. specialize (H2 j ltac:(apply in_seq; lia)).
    apply Bool.orb_true_iff in H2. destruct H2 as [H2|H2]; [apply Nat.eqb_eq in H2; lia|].
    apply existsb_exists in H2. destruct H2 as (a & A & B). exists a. split; auto. intros C. apply Bool.negb_true_iff in B.
    assert (existsb (Nat.eqb a) (nth j refs []) = true); [|congruence]. apply existsb_exists. exists a. split; auto. apply Nat.eqb_refl. }
  destruct (@C26_entities cells (fun _ => refs) n) as (st & ids & ents & B & E1 & E2 & L & P1 & P2 & P3 & _).
  - intros row Hr v Hv. apply In_nth with (d := []) in Hr. destruct Hr as (c & Hc & <-). apply (M c Hc). auto.
  - intros c Hc e He. destruct (R e He) as [Re Ri]. split; [lia|]. intros i Hi. rewrite (proj1 (M c Hc)). auto.
  - intros c c' i i' Hc Hc' Hi Hi' Hl. unfold loc in Hl. rewrite !map_length in Hl.
    rewrite (proj1 (R _ (nth_In refs [] Hi))), (proj1 (R _ (nth_In refs [] Hi'))) in Hl. lia.
  - intros c Hc i j Hi Hj Hij P. destruct (D i j Hi Hj Hij) as (a & A & B). apply B.
    assert (I : In (nth a (nth c cells []) 0) (loc cells (fun _ => refs) c j)).
    { apply (Permutation_in _ P). unfold loc. apply in_map_iff. exists a. auto. }
    unfold loc in I. apply in_map_iff in I. destruct I as (b & Eb & Hb).
    destruct (M c Hc) as (Lc & Nc & _). assert (b = a); [|subst; auto].
    apply (proj1 (NoDup_nth _ 0) Nc); auto; rewrite Lc; [apply (R (nth j refs [])); auto; apply nth_In; auto|apply (R (nth i refs [])); auto; apply nth_In; auto].
  - exists st. split; auto. unfold ent_rows. cbn [fst snd].
    assert (Eid : b_id st = length ents).
    { unfold b_id. assert (Q := f_equal c_off E2). cbn in Q. rewrite Q, cumsum_len, map_length. lia. }
    rewrite E1, E2, Eid. rewrite <- L at 1. rewrite !rows_of_rows.
    split; [auto|]. split; [|split].
    + intros c Hc. destruct (P1 c Hc) as [Q1 Q2]. split; auto.
    + intros c c' i i' Hc Hc' Hi Hi'. apply (P2 c c' i i' Hc Hc' Hi Hi').
    + intros e He. specialize (P3 e He). apply in_concat in P3. destruct P3 as (row & Hr & Hi). apply In_nth with (d := []) in Hr. destruct Hr as (c & Hc & <-).
      rewrite L in Hc. apply In_nth with (d := 0) in Hi. destruct Hi as (i & Hi & <-). exists c, i. split; auto. split; auto. rewrite (proj1 (P1 c Hc)) in Hi. auto.
Qed.
Definition gfaces (g : geom) : list (list nat) := match g with Hex => faces_3_8 | _ => [] end.
Definition topo_ok (g : geom) (m : mesh) (t : topo) : Prop :=
  ents_ok (m_conn m) (gedges g) (t_ce t) (t_ev t) /\
  (g = Hex -> ents_ok (m_conn m) faces_3_8 (t_cf t) (t_fv t)) /\ (g <> Hex -> t_fv t = []).
Lemma topology_ok : forall g m, isgeom g -> mesh_ok g m -> exists t, topology g m = Some t /\ topo_ok g m t.
Proof.
  intros g m G [_ M]. unfold topology, topo_ok.
  assert (E : exists st, build_entities (of_rows (m_conn m)) (fun _ => gedges g) (length (m_conn m)) (m_n m) = Some st /\
    ents_ok (m_conn m) (gedges g) (fst (ent_rows (length (m_conn m)) st)) (snd (ent_rows (length (m_conn m)) st))).
  { apply (@ents_build _ _ (gnv g) 2); auto. destruct G as [<- | [<- | [<- | [<- | []]]]]; vm_compute; reflexivity. }
  destruct E as (es & -> & E). destruct (ent_rows (length (m_conn m)) es) as [ce ev]. cbn [fst snd] in E.
  destruct G as [<- | [<- | [<- | [<- | []]]]].
  1-3: exists (mkTopo ce ev [] []); split; [reflexivity|]; split; [exact E|]; split; [discriminate|reflexivity].
  destruct (@ents_build (m_conn m) faces_3_8 (gnv Hex) 4 (m_n m)) as (fs & B & F); [vm_compute; reflexivity|exact M|]. rewrite B.
  destruct (ent_rows (length (m_conn m)) fs) as [cf fv]. cbn [fst snd] in F. exists (mkTopo ce ev cf fv). split; [reflexivity|].
  split; [exact E|]. split; [intros _; exact F|]. intros N. exfalso. apply N. reflexivity.
Qed.

(** ** Positions of the new nodes *)
(** The local vertices a new node is the centroid of *)
Definition supp (g : geom) (r : rnode) : list nat :=
  match r with RC i => [i] | RE i => nth i (gedges g) [] | RF i => nth i faces_3_8 [] | RB => seq 0 (gnv g) end.
Definition rnode_chk (g : geom) (r : rnode) : bool :=
  match r with
  | RC i => i <? gnv g | RE i => i <? length (gedges g)
  | RF i => match g with Hex => i <? 6 | _ => false end | RB => has_centres g
  end.
Lemma rtab_chk : forall g, forallb (rnode_chk g) (rtab g) = true.
Proof. intros []; vm_compute; reflexivity. Qed.
Definition gverts_of (m : mesh) (c : nat) (l : list nat) : list nat := map (fun i => nth i (nth c (m_conn m) []) 0) l.
Lemma centroid_one : forall x v k, centroid x [v] k = x v k.
Proof. intros. rewrite centroid_sum. cbn. field. Qed.
Lemma map_nth_seq0 : forall (l : list nat), map (fun i => nth i l 0) (seq 0 (length l)) = l.
Proof.
  intros l. apply list_ext with (d := 0); [rewrite map_length, seq_length; auto|]. intros i Hi. rewrite map_length, seq_length in Hi.
  rewrite nth_map_in with (da := 0) by (rewrite seq_length; auto). rewrite seq_nth by auto. reflexivity.
Qed.
Lemma new_node : forall g m t c r k, isgeom g -> mesh_ok g m -> topo_ok g m t -> c < length (m_conn m) -> rnode_chk g r = true ->
  new_coors m t (gid m t c r) k = centroid (m_x m) (gverts_of m c (supp g r)) k.
Proof.
  intros g m t c r k G [_ M] (TE & TF & TN) C R. destruct (M c C) as (L & _ & V). unfold new_coors, gverts_of. destruct r as [i|i|i|]; cbn [gid rnode_chk supp] in *.
  - apply Nat.ltb_lt in R. cbn [map]. rewrite centroid_one.
    assert (H : nth i (nth c (m_conn m) []) 0 < m_n m) by (apply V, nth_In; lia). destruct (Nat.ltb_spec (nth i (nth c (m_conn m) []) 0) (o1 m)); auto. unfold o1 in *. lia.
  - apply Nat.ltb_lt in R. destruct TE as (_ & TE & _). destruct (TE c C) as [_ TE']. destruct (TE' i R) as [E P]. unfold o2.
    destruct (Nat.ltb_spec (nth i (nth c (t_ce t) []) 0 + o1 m) (o1 m)); [lia|].
    destruct (Nat.ltb_spec (nth i (nth c (t_ce t) []) 0 + o1 m) (o1 m + length (t_ev t))); [|lia].
    rewrite Nat.add_sub. apply centroid_perm. exact P.
  - destruct g; try discriminate. apply Nat.ltb_lt in R. destruct (TF eq_refl) as (_ & TF' & _). destruct (TF' c C) as [_ TF1]. destruct (TF1 i R) as [E P]. unfold o3.
    destruct (Nat.ltb_spec (nth i (nth c (t_cf t) []) 0 + o2 m t) (o1 m)); [unfold o2 in *; lia|].
    destruct (Nat.ltb_spec (nth i (nth c (t_cf t) []) 0 + o2 m t) (o2 m t)); [lia|].
    destruct (Nat.ltb_spec (nth i (nth c (t_cf t) []) 0 + o2 m t) (o2 m t + length (t_fv t))); [|lia].
    rewrite Nat.add_sub. apply centroid_perm. exact P.
  - destruct (Nat.ltb_spec (c + o3 m t) (o1 m)); [unfold o3, o2 in *; lia|].
    destruct (Nat.ltb_spec (c + o3 m t) (o2 m t)); [unfold o3 in *; lia|].
    destruct (Nat.ltb_spec (c + o3 m t) (o3 m t)); [lia|].
    rewrite Nat.add_sub. rewrite <- L, map_nth_seq0. reflexivity.
Qed.
(** The position of a new node in the reference cell *)
Definition rpos (g : geom) (r : rnode) (k : nat) : R := centroid (gcoor g) (supp g r) k.
Definition gphys (g : geom) (X : nat -> nat -> R) (xi : nat -> R) (k : nat) : R := phys (gnv g) (fun j xi => gbase g xi j) X xi k.
Lemma enum_nodes : forall (P : rnode -> Prop) l, (fix all (l : list rnode) : Prop := match l with [] => True | r :: l => P r /\ all l end) l -> forall r, In r l -> P r.
Proof. induction l as [|a l IH]; intros H r I; [destruct I|]. destruct H as [H1 H2]. destruct I as [<-|I]; auto. Qed.
Lemma node_phys : forall g X r k, isgeom g -> In r (rtab g) -> centroid X (supp g r) k = gphys g X (rpos g r) k.
Proof.
  intros g X r k G. revert r. apply enum_nodes.
  destruct G as [<- | [<- | [<- | [<- | []]]]]; cbn [rtab]; repeat split;
  unfold gphys, phys, rpos, gbase, pf, gcoor, centroid; cbn; field.
Qed.
Lemma nodes_gverts : forall m c l k, centroid (m_x m) (gverts_of m c l) k = centroid (nodes (m_x m) (nth c (m_conn m) [])) l k.
Proof. intros. rewrite !centroid_sum. unfold gverts_of, nodes. rewrite map_map, map_length. reflexivity. Qed.
