(** Theorems about the facet neighbour index of DG fields (C161). *)
From Coq Require Import ZArith.
From Verif Require Import Base M_mesh M_dgnbr S_dgnbr.

Lemma index_nat_nth : forall l x j, NoDup l -> j < length l -> nth j l 0 = x -> index_nat x l = Some j.
Proof.
  induction l as [|y t IH]; intros x j ND H E; cbn in *; [lia|].
  inversion ND; subst. destruct j as [|j].
  - cbn. now rewrite Nat.eqb_refl.
  - cbn. destruct (Nat.eqb_spec (nth j t 0) y) as [E|E].
    + exfalso. apply H2. rewrite <- E. apply nth_In. lia.
    + rewrite (IH (nth j t 0) j); auto. lia.
Qed.

(** Every row of a facet shared by two cells, seen from either of them. *)
Lemma facet_nbr_other : forall c2f f2c c j fa c' j', manifold_mesh c2f f2c ->
  side c2f c j fa -> side c2f c' j' fa -> c <> c' ->
  facet_nbr c2f f2c c fa = (Z.of_nat c', Z.of_nat j').
Proof.
  intros c2f f2c c j fa c' j' (T & B & N1 & N2) (Hc & Hj & E) (Hc' & Hj' & E') D.
  assert (I : In c (nth fa f2c [])) by (apply T; [auto|]; rewrite <- E; now apply nth_In).
  assert (I' : In c' (nth fa f2c [])) by (apply T; [auto|]; rewrite <- E'; now apply nth_In).
  destruct (N2 fa) as [ND LE].
  pose proof (index_nat_nth _ _ _ (N1 c') Hj' E') as X'.
  unfold facet_nbr, fis.
  destruct (nth fa f2c []) as [|a [|b [|z t]]]; cbn in *; try lia; try (now destruct I).
  - destruct I as [I|[I|[]]], I' as [I'|[I'|[]]]; try congruence.
    + rewrite I, Nat.eqb_refl, I', X'. reflexivity.
    + destruct (Nat.eqb_spec a c) as [Q|Q]; [congruence|]. rewrite I', X'. reflexivity.
Qed.

Lemma facet_nbr_alone : forall c2f f2c c j fa, manifold_mesh c2f f2c ->
  side c2f c j fa -> (forall c' j', side c2f c' j' fa -> c' = c) ->
  facet_nbr c2f f2c c fa = ((-1)%Z, (-1)%Z).
Proof.
  intros c2f f2c c j fa (T & B & N1 & N2) (Hc & Hj & E) A.
  assert (I : In c (nth fa f2c [])) by (apply T; [auto|]; rewrite <- E; now apply nth_In).
  assert (Q : forall x, In x (nth fa f2c []) -> x = c).
  { intros x Hx. pose proof (B _ _ Hx) as Bx. apply T in Hx; [|auto].
    destruct (In_nth _ _ 0 Hx) as (jx & Lx & Ex). apply (A x jx). repeat split; auto. }
  destruct (N2 fa) as [ND _]. unfold facet_nbr, fis.
  destruct (nth fa f2c []) as [|a [|b t]]; [destruct I| reflexivity |].
  exfalso. inversion ND; subst. apply H1. left. rewrite (Q a), (Q b); cbn; auto.
Qed.

(** C161: in a mesh where every facet belongs to one or two cells, two cells
    sharing a facet are each other's neighbours through it, with the right local
    facet numbers, and exactly the facets of one cell have no neighbour. *)
Theorem C161_facet_neighbours : forall c2f f2c, manifold_mesh c2f f2c ->
  let N := mesh_nbrs c2f f2c in
  (forall c j c' j' fa, side c2f c j fa -> side c2f c' j' fa -> c <> c' -> paired (fst N) (snd N) c j c' j') /\
  (forall c j fa, side c2f c j fa -> (forall c' j', side c2f c' j' fa -> c' = c) -> unpaired (fst N) (snd N) c j) /\
  (forall c j fa, side c2f c j fa -> (0 <= fst N c j)%Z -> exists c' j', side c2f c' j' fa /\ c' <> c /\
      paired (fst N) (snd N) c j c' j').
Proof.
  intros c2f f2c M N.
  assert (P1 : forall c j c' j' fa, side c2f c j fa -> side c2f c' j' fa -> c <> c' -> paired (fst N) (snd N) c j c' j').
  { intros c j c' j' fa H H' D. unfold paired, N, mesh_nbrs; cbn [fst snd].
    pose proof (facet_nbr_other _ _ _ _ _ _ _ M H H' D) as X.
    pose proof (facet_nbr_other _ _ _ _ _ _ _ M H' H (not_eq_sym D)) as X'.
    destruct H as (_ & _ & E), H' as (_ & _ & E'). rewrite E, E', X, X'. auto. }
  split; [exact P1|]. split.
  - intros c j fa H A. unfold unpaired, N, mesh_nbrs; cbn [fst snd].
    pose proof (facet_nbr_alone _ _ _ _ _ M H A) as X. destruct H as (_ & _ & E). rewrite E, X. auto.
  - intros c j fa H P.
    destruct (existsb (fun c' => negb (c' =? c) && existsb (Nat.eqb fa) (nth c' c2f []))%bool (seq 0 (length c2f))) eqn:X.
    + apply existsb_exists in X. destruct X as (c' & Hc' & Y). apply andb_prop in Y. destruct Y as [Y1 Y2].
      apply existsb_exists in Y2. destruct Y2 as (fb & I & Q). apply Nat.eqb_eq in Q. subst fb.
      destruct (In_nth _ _ 0 I) as (j' & L & E). apply in_seq in Hc'.
      assert (S' : side c2f c' j' fa) by (repeat split; auto; lia).
      assert (D : c' <> c) by (apply Bool.negb_true_iff in Y1; apply Nat.eqb_neq in Y1; auto).
      exists c', j'. split; [auto|]. split; [auto|]. apply (P1 c j c' j' fa); auto.
    + exfalso. assert (A : forall c' j', side c2f c' j' fa -> c' = c).
      { intros c' j' (L & Lj & E). destruct (Nat.eq_dec c' c) as [?|D]; [auto|].
        assert (Z : existsb (fun c' => negb (c' =? c) && existsb (Nat.eqb fa) (nth c' c2f []))%bool (seq 0 (length c2f)) = true).
        { apply existsb_exists. exists c'. split; [apply in_seq; lia|].
          apply Nat.eqb_neq in D. rewrite D. cbn. apply existsb_exists. exists fa. split; [rewrite <- E; now apply nth_In|apply Nat.eqb_refl]. }
        congruence. }
      pose proof (facet_nbr_alone _ _ _ _ _ M H A) as X'. unfold N, mesh_nbrs in P; cbn [fst snd] in P.
      destruct H as (_ & _ & E). rewrite E, X' in P. cbn in P. lia.
Qed.

(** Writes of a fancy assignment. *)
Lemma fancy_other : forall ix vals A c j, ~ In (c, j) ix -> fancy_set ix vals A c j = A c j.
Proof.
  unfold fancy_set. induction ix as [|[a b] ix IH]; intros vals A c j H; [reflexivity|].
  destruct vals as [|v vals]; [reflexivity|]. cbn [combine fold_left fst snd].
  rewrite IH; [|intro K; apply H; now right]. unfold zupd.
  destruct (Nat.eqb_spec c a), (Nat.eqb_spec j b); cbn; auto. subst. exfalso. apply H. now left.
Qed.
Lemma fancy_hit : forall ix vals A k d, NoDup ix -> k < length ix -> length vals = length ix ->
  fancy_set ix vals A (fst (nth k ix d)) (snd (nth k ix d)) = Z.of_nat (nth k vals 0).
Proof.
  induction ix as [|[a b] ix IH]; intros vals A k d ND H L; cbn in *; [lia|].
  destruct vals as [|v vals]; [discriminate|]. inversion ND; subst.
  unfold fancy_set. cbn [combine fold_left fst snd]. fold (fancy_set ix vals (zupd A a b (Z.of_nat v))).
  destruct k as [|k].
  - cbn [nth fst snd]. rewrite fancy_other; auto. unfold zupd. now rewrite !Nat.eqb_refl.
  - cbn [nth]. apply IH; auto; lia.
Qed.

Lemma NoDup_app_l : forall A (l l' : list A), NoDup (l ++ l') -> NoDup l /\ NoDup l' /\ forall x, In x l -> ~ In x l'.
Proof.
  induction l as [|a l IH]; intros l' H; cbn in *; [repeat split; auto; constructor|].
  inversion H; subst. destruct (IH _ H3) as (P & Q & X). split; [constructor; auto; intro K; apply H2, in_or_app; now left|].
  split; [auto|]. intros x [<-|K]; [intro K; apply H2, in_or_app; now right|auto].
Qed.

(** C161, periodic conditions: sides paired by a DG periodic condition become
    each other's neighbours; all other sides keep theirs. *)
Theorem C161_periodic_pair : forall (N : nbrs) m s, length m = length s -> NoDup (m ++ s) ->
  let N' := set_dg_periodic N [(m, s)] in
  (forall k d, k < length m ->
     paired (fst N') (snd N') (fst (nth k m d)) (snd (nth k m d)) (fst (nth k s d)) (snd (nth k s d))) /\
  (forall c j, ~ In (c, j) (m ++ s) -> fst N' c j = fst N c j /\ snd N' c j = snd N c j).
Proof.
  intros N m s L ND N'. destruct (NoDup_app_l _ _ _ ND) as (Nm & Ns & D).
  assert (MF : forall (l : list (nat * nat)) k d, nth k (map fst l) 0 = (if k <? length l then fst (nth k l d) else 0)).
  { intros l k d. destruct (Nat.ltb_spec k (length l)).
    - rewrite (nth_indep _ 0 (fst d)) by (rewrite map_length; auto). now rewrite map_nth.
    - apply nth_overflow. now rewrite map_length. }
  assert (MS : forall (l : list (nat * nat)) k d, nth k (map snd l) 0 = (if k <? length l then snd (nth k l d) else 0)).
  { intros l k d. destruct (Nat.ltb_spec k (length l)).
    - rewrite (nth_indep _ 0 (snd d)) by (rewrite map_length; auto). now rewrite map_nth.
    - apply nth_overflow. now rewrite map_length. }
  assert (SP : forall p : nat * nat, (fst p, snd p) = p) by (intros []; reflexivity).
  split.
  - intros k d Hk. assert (Hs : k < length s) by lia.
    unfold paired, N', set_dg_periodic, set_pair; cbn [fold_left fst snd].
    assert (Im : ~ In (fst (nth k m d), snd (nth k m d)) s) by (rewrite SP; apply D, nth_In; auto).
    assert (Is : ~ In (fst (nth k s d), snd (nth k s d)) m) by (rewrite SP; intro K; apply (D _ K), nth_In; auto).
    repeat split.
    + rewrite fancy_other by auto. rewrite fancy_hit; rewrite ?map_length; auto.
      rewrite (MF s k d). now apply Nat.ltb_lt in Hs as ->.
    + rewrite fancy_hit; rewrite ?map_length; auto. rewrite (MS s k d). now apply Nat.ltb_lt in Hs as ->.
    + rewrite fancy_hit; rewrite ?map_length; auto. rewrite (MF m k d). now apply Nat.ltb_lt in Hk as ->.
    + rewrite fancy_other by auto. rewrite fancy_hit; rewrite ?map_length; auto.
      rewrite (MS m k d). now apply Nat.ltb_lt in Hk as ->.
  - intros c j H. unfold N', set_dg_periodic, set_pair; cbn [fold_left fst snd].
    split; rewrite !fancy_other; auto; intro K; apply H, in_or_app; auto.
Qed.

(** C161 is false on a facet of three cells: the relation is not symmetric. *)
Theorem C161_three_cells_refuted : ~ (forall c2f f2c c j c' j',
  (forall c fa, c < length c2f -> (In fa (nth c c2f []) <-> In c (nth fa f2c []))) ->
  let N := mesh_nbrs c2f f2c in
  c < length c2f -> j < length (nth c c2f []) ->
  fst N c j = Z.of_nat c' -> snd N c j = Z.of_nat j' -> paired (fst N) (snd N) c j c' j').
Proof.
  intro H. assert (T : forall c fa, c < 3 -> (In fa (nth c [[0];[0];[0]] []) <-> In c (nth fa [[0;1;2]] []))).
  { intros [|[|[|c]]] [|[|fa]] Hc; try lia; cbn; intuition lia. }
  specialize (H [[0];[0];[0]] [[0;1;2]] 1 0 0 0 T).
  cbv in H. specialize (H ltac:(lia) ltac:(lia) eq_refl eq_refl). destruct H as (_ & _ & H & _). discriminate.
Qed.

(** C161 is false of the second call: the index is cached by the name of the
    region alone, so changed periodic conditions are ignored until the cache is
    cleared. *)
Theorem C161_cache_refuted : ~ (forall c2f f2c region e1 e2 c,
  lookup region c = None ->
  let c1 := snd (get_facet_neighbor_idx c2f f2c region e1 c) in
  let N := fst (get_facet_neighbor_idx c2f f2c region e2 c1) in
  let N' := set_dg_periodic (mesh_nbrs c2f f2c) e2 in
  forall i j, fst N i j = fst N' i j).
Proof.
  intro H. specialize (H [[0;1];[1;2]] [[0];[0;1];[1]] 0 [] [([(0,0)],[(1,1)])] [] eq_refl 0 0).
  cbv in H. discriminate.
Qed.
Theorem C161_cache : forall c2f f2c region e1 e2 c,
  let c1 := snd (get_facet_neighbor_idx c2f f2c region e1 c) in
  fst (get_facet_neighbor_idx c2f f2c region e2 (clear_cache c1)) = set_dg_periodic (mesh_nbrs c2f f2c) e2 /\
  fst (get_facet_neighbor_idx c2f f2c region e2 c1) = fst (get_facet_neighbor_idx c2f f2c region e1 c).
Proof.
  intros. split; [reflexivity|]. unfold c1, get_facet_neighbor_idx at 2 3.
  destruct (lookup region c) eqn:E; cbn [fst snd]; unfold get_facet_neighbor_idx.
  - rewrite E. reflexivity.
  - cbn [lookup]. rewrite Nat.eqb_refl. reflexivity.
Qed.

(** The mesh of three intervals meets the hypotheses, and gets the neighbours expected. *)
Example C161_line : manifold_mesh [[0;1];[1;2];[2;3]] [[0];[0;1];[1;2];[2]] /\
  (let N := set_dg_periodic (mesh_nbrs [[0;1];[1;2];[2;3]] [[0];[0;1];[1;2];[2]]) [([(0,0)], [(2,1)])] in
   map (fun c => map (fun j => (fst N c j, snd N c j)) [0;1]) [0;1;2] =
     [[(2,1);(1,0)];[(0,1);(2,0)];[(1,1);(0,0)]]%Z).
Proof.
  split; [|reflexivity]. repeat split.
  - intro H1. destruct c as [|[|[|c]]]; cbn in H; try lia; cbn in H1; destruct H1 as [<-|[<-|[]]]; cbn; auto.
  - intro H1. destruct c as [|[|[|c]]]; cbn in H; try lia; destruct fa as [|[|[|[|fa]]]]; cbn in H1 |- *; try (destruct fa; cbn in H1); intuition lia.
  - intros fa c H. destruct fa as [|[|[|[|fa]]]]; cbn in H |- *; try (destruct fa; cbn in H); intuition lia.
  - intros [|[|[|c]]]; cbn; try (destruct c; cbn; constructor); repeat constructor; cbn; intuition lia.
  - destruct fa as [|[|[|[|fa]]]]; cbn; try (destruct fa; cbn; constructor); repeat constructor; cbn; intuition lia.
  - destruct fa as [|[|[|[|fa]]]]; cbn; try (destruct fa; cbn); lia.
Qed.

Print Assumptions C161_facet_neighbours.
Print Assumptions C161_periodic_pair.
Print Assumptions C161_three_cells_refuted.
Print Assumptions C161_cache_refuted.
Print Assumptions C161_cache.
