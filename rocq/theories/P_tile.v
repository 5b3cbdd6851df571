(** C99: tiling of periodic meshes. *)
From Coq Require Import QArith Qabs Lqa.
From Verif Require Import Base M_parallel M_periodic P_periodic M_merge L_merge P_merge P_extract M_block L_block P_block P_triang M_tile L_tile.
Set Implicit Arguments.
Open Scope nat_scope.

(** ** Specification *)
(** The offset of the tile number [q]; the first axis changes fastest. *)
Fixpoint offset (grid : list nat) (size : list Q) (q : nat) : point :=
  match grid, size with
  | g :: grid, l :: size => (q_of (q mod g) * l)%Q :: offset grid size (q / g)
  | _, _ => []
  end.
Definition far (sep : Q) (x : list point) : Prop := forall i j, i < j < length x -> (sep * sep < dist2 (nth i x []) (nth j x []))%Q.
(** The nodes are in the two faces normal to the axis [a], or between them. *)
Definition planar (x : list point) (a : nat) (b0 b1 eps : Q) : Prop :=
  (b0 + eps <= b1 - eps)%Q /\
  forall p, In p x -> (nth a p 0 == b0)%Q \/ (b0 + eps <= nth a p 0 <= b1 - eps)%Q \/ (nth a p 0 == b1)%Q.
(** [match_grid_plane] matches the nodes of two parallel planes up to [d]. *)
Definition matches (d sep : Q) (f : list point -> list point -> nat -> res (list nat * list nat)) : Prop :=
  forall A B dim a b0 b1 m1 m2, length A = length B -> (forall p, In p A \/ In p B -> length p = dim) -> a < dim <= 3 ->
    (forall p, In p A -> nth a p 0 == b0)%Q -> (forall p, In p B -> nth a p 0 == b1)%Q -> far sep A -> far sep B -> f A B a = Ok (m1, m2) ->
    Permutation m1 (seq 0 (length A)) /\ Permutation m2 (seq 0 (length B)) /\
    forall k c, k < length A -> c < dim ->
      (Qabs (nth c (nth (nth k m2 0%nat) B []) 0 - (nth c (nth (nth k m1 0%nat) A []) 0 + if Nat.eqb c a then b1 - b0 else 0)) <= d)%Q.

(** ** Vectors *)
Lemma nth_vadd : forall p q a, length p = length q -> a < length p -> nth a (vadd p q) 0%Q = (nth a p 0 + nth a q 0)%Q.
Proof. unfold vadd. induction p as [|x p IH]; intros [|y q] [|a] L A; cbn in L, A; try lia; cbn [combine map nth fst snd]; auto. apply IH; lia. Qed.
Lemma nth_vscale : forall p c a, a < length p -> nth a (vscale c p) 0%Q = (c * nth a p 0)%Q.
Proof. intros p c a H. unfold vscale. rewrite nth_map_in with (da := 0%Q); auto. Qed.
Lemma nth_axis : forall dim a l c, c < dim -> nth c (axis_vec dim a l) 0%Q = if c =? a then l else 0%Q.
Proof.
  intros dim a l c H. unfold axis_vec. rewrite nth_upd. rewrite repeat_length. destruct (Nat.eqb_spec c a) as [->|E]; cbn [andb].
  - destruct (Nat.ltb_spec a dim); [auto|lia].
  - apply nth_repeat_lt. auto.
Qed.
Lemma length_axis : forall dim a l, length (axis_vec dim a l) = dim.
Proof. intros. unfold axis_vec. rewrite length_upd, repeat_length. auto. Qed.
Lemma length_vadd : forall p q, length p = length q -> length (vadd p q) = length p.
Proof. intros p q H. unfold vadd. rewrite map_length, combine_length. lia. Qed.
Lemma nth_cshift : forall dim a l i p c, length p = dim -> c < dim ->
  (nth c (cshift (axis_vec dim a l) i p) 0 == nth c p 0 + if Nat.eqb c a then q_of i * l else 0)%Q.
Proof.
  intros dim a l i p c L H. unfold cshift. destruct i as [|i].
  - destruct (c =? a); unfold q_of; cbn; ring.
  - rewrite nth_vadd by (unfold vscale; rewrite ?map_length, ?length_axis; lia). rewrite nth_vscale by (rewrite length_axis; auto). rewrite nth_axis by auto. destruct (c =? a); ring.
Qed.
Lemma length_cshift : forall dim a l i p, length p = dim -> length (cshift (axis_vec dim a l) i p) = dim.
Proof. intros dim a l i p L. unfold cshift. destruct i; auto. rewrite length_vadd; auto. unfold vscale. rewrite map_length, length_axis. auto. Qed.
Lemma dist2_ext : forall dim p q p' q', length p = dim -> length q = dim -> length p' = dim -> length q' = dim ->
  (forall c, c < dim -> (nth c p 0 - nth c q 0 == nth c p' 0 - nth c q' 0)%Q) -> (dist2 p q == dist2 p' q')%Q.
Proof.
  induction dim as [|dim IH]; intros [|x p] [|y q] [|x' p'] [|y' q'] L1 L2 L3 L4 H; cbn in L1, L2, L3, L4; try lia; [reflexivity|].
  rewrite !dist2_cons. assert (E := H 0 ltac:(lia)). cbn [nth] in E. rewrite E. rewrite (IH p q p' q') by (try lia; intros c C; apply (H (S c)); lia). reflexivity.
Qed.
Lemma dist2_ge : forall p q c, length p = length q -> c < length p -> ((nth c p 0 - nth c q 0) * (nth c p 0 - nth c q 0) <= dist2 p q)%Q.
Proof.
  induction p as [|x p IH]; intros [|y q] [|c] L C; cbn in L, C; try lia; rewrite dist2_cons; cbn [nth].
  - assert (D := dist2_nonneg p q). lra.
  - assert (D := IH q c ltac:(lia) ltac:(lia)). assert (D2 := sq_nonneg (x - y)). lra.
Qed.
Lemma qltb_true : forall a b, qltb a b = true <-> (a < b)%Q.
Proof. intros. unfold qltb. destruct (Qlt_le_dec a b); split; intros; auto; try discriminate. lra. Qed.
Lemma take_perm_in : forall s m, Permutation m (seq 0 (length s)) -> forall x, In x (take 0 s m) <-> In x s.
Proof. intros s m P x. assert (Q := take_perm 0 s P). split; apply Permutation_in; [auto|apply Permutation_sym; auto]. Qed.
Lemma sq_lt : forall a b, (0 <= a)%Q -> (a < b \/ a < - b)%Q -> (a * a < b * b)%Q.
Proof. intros a b H [K|K]; nra. Qed.

(** ** One axis *)
Section Axis.
Variable f : list point -> list point -> nat -> res (list nat * list nat).
Variables (d sep eps : Q) (dim : nat).
Hypothesis Hf : matches d sep f.
Hypothesis Hsep : (0 <= sep)%Q.
Hypothesis Heps : (sep < eps)%Q.
Hypothesis Hd : (0 <= d)%Q.
Hypothesis H3 : dim <= 3.
Definition good (t : tiled) : Prop :=
  0 < length (t_coors t) /\ (forall p, In p (t_coors t) -> length p = dim) /\ length (t_grp t) = length (t_coors t) /\ length (t_map t) = length (t_coors t) /\
  (forall row v, In row (t_conn t) -> In v row -> v < length (t_coors t)) /\ far sep (t_coors t).
Definition map_ok (nref : nat) (t : tiled) : Prop :=
  0 < nref <= length (t_map t) /\ (forall v, v < nref -> nth v (t_map t) 0 = v) /\ (forall v, In v (t_map t) -> v < nref).
Definition coor (t : tiled) (v : nat) : point := nth v (t_coors t) [].
Lemma list_max_ok : forall nref t, map_ok nref t -> list_max (t_map t) = nref - 1.
Proof.
  intros nref t (A & B & C). apply Nat.le_antisymm.
  - apply list_max_le. apply Forall_forall. intros x X. specialize (C x X). lia.
  - assert (I0 : In (nref - 1) (t_map t)). { rewrite <- (B (nref - 1)) by lia. apply nth_In. lia. }
    assert (X := proj1 (list_max_le (t_map t) (list_max (t_map t))) (Nat.le_refl _)). rewrite Forall_forall in X. apply X. auto.
Qed.
Lemma one_axis : forall t a gr b0 b1 nd t', good t -> a < dim -> 1 <= gr -> planar (t_coors t) a b0 b1 eps ->
  (nd = None /\ t_map t = seq 0 (length (t_coors t)) \/ nd = Some (t_map t) /\ exists nref, map_ok nref t) ->
  tiled_mesh1d f (t_conn t) (t_coors t) (t_grp t) a gr b0 b1 eps nd = Ok t' ->
  good t' /\
  (exists os, length os = length (t_coors t') /\ (forall n, n < length os -> fst (nth n os (0, 0)) < gr /\ snd (nth n os (0, 0)) < length (t_coors t)) /\
    (forall n c, n < length os -> c < dim -> (nth c (coor t' n) 0 == nth c (coor t (snd (nth n os (0, 0)%nat))) 0 + if Nat.eqb c a then q_of (fst (nth n os (0, 0)%nat)) * (b1 - b0) else 0)%Q) /\
    t_grp t' = map (fun o => nth (snd o) (t_grp t) 0%Z) os /\ t_map t' = map (fun o => nth (snd o) (t_map t) 0) os /\
    (forall v, v < length (t_coors t) -> nth v os (0, 0) = (0, v)) /\
    (forall i v, i < gr -> v < length (t_coors t) -> exists n, n < length os /\
       forall c, c < dim -> (Qabs (nth c (coor t' n) 0 - (nth c (coor t v) 0 + if Nat.eqb c a then q_of i * (b1 - b0) else 0)) <= d)%Q)) /\
  length (t_conn t') = gr * length (t_conn t) /\
  (forall i e, i < gr -> e < length (t_conn t) -> let row := nth e (t_conn t) [] in let row' := nth (i * length (t_conn t) + e) (t_conn t') [] in
     length row' = length row /\
     forall k c, k < length row -> c < dim ->
       (Qabs (nth c (coor t' (nth k row' 0%nat)) 0 - (nth c (coor t (nth k row 0%nat)) 0 + if Nat.eqb c a then q_of i * (b1 - b0) else 0)) <= d)%Q).
Proof.
  intros t a gr b0 b1 nd t' (N0 & DIM & LG & LM & CO & FAR) A GR [PL0 PL] ND T. unfold tiled_mesh1d in T.
  set (x := t_coors t) in *. set (s1 := nonzero (fun p => qltb (nth a p 0%Q) (b0 + eps)) x) in *.
  set (s2 := nonzero (fun p => qltb (b1 - eps) (nth a p 0%Q)) x) in *.
  destruct (length s1 =? length s2) eqn:EL; cbn [negb] in T; [|discriminate]. apply Nat.eqb_eq in EL.
  destruct (f (take [] x s1) (take [] x s2) a) as [[m1 m2]|] eqn:EM; cbn [bind fst snd] in T; [|discriminate].
  set (dd := axis_vec (length (nth 0 x [])) a (b1 - b0)) in *.
  assert (DD : dd = axis_vec dim a (b1 - b0)) by (unfold dd; f_equal; apply DIM, nth_In; auto).
  assert (S1 : forall v, In v s1 <-> v < length x /\ (nth a (nth v x []) 0 == b0)%Q).
  { intros v. unfold s1. rewrite (nonzero_spec _ []). rewrite qltb_true. split; intros [H1 H2]; split; auto; [|lra].
    destruct (PL (nth v x []) (nth_In _ _ H1)) as [P|[P|P]]; auto; lra. }
  assert (S2 : forall v, In v s2 <-> v < length x /\ (nth a (nth v x []) 0 == b1)%Q).
  { intros v. unfold s2. rewrite (nonzero_spec _ []). rewrite qltb_true. split; intros [H1 H2]; split; auto; [|lra].
    destruct (PL (nth v x []) (nth_In _ _ H1)) as [P|[P|P]]; auto; lra. }
  assert (SI : forall s, sinc s -> (forall v, In v s -> v < length x) -> far sep (take [] x s)).
  { intros s SS SB i j IJ. rewrite length_take in IJ. rewrite !nth_take by lia.
    assert (B1 : nth i s 0 < length x) by (apply SB, nth_In; lia). assert (B2 : nth j s 0 < length x) by (apply SB, nth_In; lia).
    assert (LT : nth i s 0 < nth j s 0).
    { clear -SS IJ. revert i j IJ. induction SS as [|z s SS IH SF]; intros i j IJ; cbn in IJ; [lia|]. destruct j as [|j]; [lia|]. destruct i as [|i]; cbn [nth].
      - rewrite Forall_forall in SF. apply SF, nth_In. lia.
      - apply IH. lia. }
    apply FAR. lia. }
  assert (TI : forall s p, In p (take [] x s) -> exists v, In v s /\ p = nth v x []).
  { intros s p P. unfold take in P. apply in_map_iff in P. destruct P as (v & <- & V). eauto. }
  destruct (@Hf (take [] x s1) (take [] x s2) dim a b0 b1 m1 m2) as (P1 & P2 & PM); auto.
  { rewrite !length_take. auto. }
  { intros p [P|P]; apply TI in P; destruct P as (v & V & ->); apply DIM, nth_In; [apply S1 in V|apply S2 in V]; tauto. }
  { intros p P. apply TI in P. destruct P as (v & V & ->). apply S1 in V. tauto. }
  { intros p P. apply TI in P. destruct P as (v & V & ->). apply S2 in V. tauto. }
  { apply SI; [apply nonzero_sinc|]. intros v V; apply S1 in V; tauto. }
  { apply SI; [apply nonzero_sinc|]. intros v V; apply S2 in V; tauto. }
  rewrite length_take in P1, P2, PM.
  set (a1 := take 0 s1 m1) in *. set (a2 := take 0 s2 m2) in *.
  assert (B1 : forall v, In v s1 -> v < length x) by (intros v V; apply S1 in V; tauto).
  assert (ND1 : NoDup a1).
  { eapply Permutation_NoDup; [apply Permutation_sym, (take_perm 0 s1 P1)|]. apply sinc_NoDup, nonzero_sinc. }
  assert (IA1 : forall v, In v a1 <-> In v s1) by (apply take_perm_in; auto).
  assert (LM1 : length m1 = length s1) by (rewrite (Permutation_length P1), seq_length; auto).
  assert (LM2 : length m2 = length s2) by (rewrite (Permutation_length P2), seq_length; auto).
  assert (LA : length a2 = length a1) by (unfold a1, a2; rewrite !length_take; lia).
  assert (IA2 : forall v, In v a2 -> v < length x /\ ~ In v s1).
  { intros v V. unfold a2 in V. apply (take_perm_in s2 P2) in V. apply S2 in V. split; [tauto|]. intros W. apply S1 in W. lra. }
  assert (CO' : forall row v, In row (t_conn t) -> In v row -> v < length x) by exact CO.
  set (n := gr - 1) in *.
  assert (LS := @loop_spec (t_conn t) x (t_grp t) dd s1 a1 a2 B1 ND1 IA1 LA IA2 CO' N0 n 0).
  assert (NN : map (newnode x s1 0) a2 = a2) by (cbn [newnode]; apply map_id). rewrite NN in LS. rewrite Nat.mul_0_l, Nat.add_0_r in LS.
  rewrite LS in T. cbn [t_conn t_coors t_grp t_map] in T.
  rewrite (@all_conn (t_conn t) x s1 a1 a2 n) in T. rewrite (@all_coors x dd s1 n) in T. rewrite (@all_grp x (t_grp t) s1 a1 a2 LA N0 n LG) in T. rewrite (@all_map x s1 n) in T.
  set (os := orgs x s1 n) in *. replace (S n) with gr in T by lia.
  assert (T' : t' = mkT (flat_map (fun i => map (map (node x s1 a1 a2 i)) (t_conn t)) (seq 0 gr)) (map (fun o => cshift dd (fst o) (nth (snd o) x [])) os)
                (map (fun o => nth (snd o) (t_grp t) 0%Z) os) (map (fun o => nth (snd o) (t_map t) 0) os)).
  { assert (OB : forall o, In o os -> snd o < length x) by (intros [i v] O; apply (@orgs_In x s1 a1 a2 LA N0) in O; tauto).
    destruct ND as [[-> E]|[-> [nref MO]]]; injection T as <-; f_equal.
    - apply map_ext_in. intros o O. rewrite E. fold x. symmetry. apply nth_seq0. auto.
    - rewrite map_map. apply map_ext_in. intros o O. rewrite (list_max_ok MO). destruct MO as (M1 & M2 & M3).
      destruct (nref - 1 <? snd o) eqn:E; auto. apply Nat.ltb_ge in E. symmetry. apply M2. lia. }
  clear T LS. subst t'. cbn [t_conn t_coors t_grp t_map].
  assert (OC : forall k, k < length os -> fst (nth k os (0, 0)) <= n /\ snd (nth k os (0, 0)) < length x /\ (fst (nth k os (0, 0)) = 0 \/ ~ In (snd (nth k os (0, 0))) s1)).
  { intros k K. assert (I0 := nth_In os (0, 0) K). destruct (nth k os (0, 0)) as [i v]. apply (@orgs_In x s1 a1 a2 LA N0) in I0. exact I0. }
  assert (CN : forall k c, k < length os -> c < dim -> (nth c (nth k (map (fun o => cshift dd (fst o) (nth (snd o) x [])) os) []) 0 ==
     nth c (nth (snd (nth k os (0, 0)%nat)) x []) 0 + if Nat.eqb c a then q_of (fst (nth k os (0, 0)%nat)) * (b1 - b0) else 0)%Q).
  { intros k c K C. rewrite nth_map_in with (da := (0, 0)) by auto. rewrite DD. apply nth_cshift; auto. apply DIM, nth_In. apply OC. auto. }
  assert (NODE : forall i v, i < gr -> v < length x -> node x s1 a1 a2 i v < length os /\
     forall c, c < dim -> (Qabs (nth c (nth (node x s1 a1 a2 i v) (map (fun o => cshift dd (fst o) (nth (snd o) x [])) os) []) 0 -
        (nth c (nth v x []) 0 + if Nat.eqb c a then q_of i * (b1 - b0) else 0)) <= d)%Q).
  { intros i v I0 V. destruct (@node_org x s1 a1 a2 ND1 IA1 LA IA2 N0 n i v ltac:(lia) V) as [L1 OR]. fold os in L1, OR. split; auto. intros c C. rewrite CN by auto.
    destruct OR as [->|(j & -> & V1 & ->)]; cbn [fst snd].
    - assert (Z0 : forall y, (Qabs (y - y) <= d)%Q) by (intros y; assert (E : (y - y == 0)%Q) by ring; rewrite E; cbn; auto). apply Z0.
    - assert (V2 := proj2 (IA1 v) V1). destruct (In_nth a1 v 0 V2) as (k & K & EK). rewrite <- EK. unfold partner. rewrite pairing_nth by auto.
      assert (K1 : k < length s1) by (unfold a1 in K; rewrite length_take in K; lia).
      assert (X1 : nth k m1 0 < length s1). { assert (Y : In (nth k m1 0) (seq 0 (length s1))) by (eapply Permutation_in; [exact P1|apply nth_In; lia]). apply in_seq in Y. lia. }
      assert (X2 : nth k m2 0 < length s2). { assert (Y : In (nth k m2 0) (seq 0 (length s2))) by (eapply Permutation_in; [exact P2|apply nth_In; lia]). apply in_seq in Y. lia. }
      specialize (PM k c ltac:(lia) C). rewrite !nth_take in PM by lia. unfold a1, a2. rewrite !nth_take by lia.
      match goal with |- (Qabs ?u <= d)%Q => match type of PM with (Qabs ?w <= d)%Q => assert (E : (u == w)%Q) end end.
      { assert (QS := q_of_S j). destruct (c =? a); [rewrite QS|]; ring. }
      rewrite E. exact PM. }
  assert (LO : length os = length (map (fun o => cshift dd (fst o) (nth (snd o) x [])) os)) by (rewrite map_length; auto).
  split; [|split; [|split]].
  - unfold good. cbn [t_conn t_coors t_grp t_map]. rewrite !map_length. split; [unfold os; rewrite length_orgs; lia|]. split; [|split; [auto|split; [auto|split]]].
    + intros p P. apply in_map_iff in P. destruct P as (o & <- & O). rewrite DD. apply length_cshift. apply DIM, nth_In.
      destruct (In_nth os o (0, 0) O) as (k & K & <-). apply OC. auto.
    + intros row v R V. apply in_flat_map in R. destruct R as (i & I0 & R). apply in_map_iff in R. destruct R as (r & <- & R). apply in_map_iff in V. destruct V as (w & <- & V).
      apply in_seq in I0. apply NODE; [lia|]. eapply CO; eauto.
    + intros i j IJ. rewrite map_length in IJ. destruct (OC i ltac:(lia)) as (I1 & I2 & I3). destruct (OC j ltac:(lia)) as (J1 & J2 & J3).
      assert (CI := fun c => CN i c ltac:(lia)). assert (CJ := fun c => CN j c ltac:(lia)).
      assert (LEN : forall k, k < length os -> length (nth k (map (fun o => cshift dd (fst o) (nth (snd o) x [])) os) []) = dim).
      { intros k K. rewrite nth_map_in with (da := (0, 0)) by auto. rewrite DD. apply length_cshift. apply DIM, nth_In. apply OC. auto. }
      assert (LI := LEN i ltac:(lia)). assert (LJ := LEN j ltac:(lia)).
      assert (NE : nth i os (0, 0) <> nth j os (0, 0)).
      { intros E. assert (X := proj1 (NoDup_nth os (0, 0)) (@orgs_NoDup x s1 a1 a2 LA N0 n) i j ltac:(lia) ltac:(lia) E). lia. }
      set (pi := nth i (map (fun o => cshift dd (fst o) (nth (snd o) x [])) os) []) in *. set (pj := nth j (map (fun o => cshift dd (fst o) (nth (snd o) x [])) os) []) in *.
      destruct (nth i os (0, 0)) as [ti vi]. destruct (nth j os (0, 0)) as [tj vj]. cbn [fst snd] in *.
      assert (DI : length (nth vi x []) = dim) by (apply DIM, nth_In; auto). assert (DJ : length (nth vj x []) = dim) by (apply DIM, nth_In; auto).
      destruct (Nat.eq_dec ti tj) as [->|NT].
      * assert (E : (dist2 pi pj == dist2 (nth vi x []) (nth vj x []))%Q).
        { apply dist2_ext with (dim := dim); auto. intros c C. rewrite CI, CJ by auto. ring. }
        rewrite E. destruct (Nat.lt_trichotomy vi vj) as [H|[H|H]]; [apply FAR; lia|congruence|]. rewrite dist2_sym. apply FAR. lia.
      * assert (GE := dist2_ge pi pj (c := a) ltac:(lia) ltac:(lia)). specialize (CI a A). specialize (CJ a A). rewrite Nat.eqb_refl in CI, CJ.
        assert (BI := PL _ (nth_In x [] I2)). assert (BJ := PL _ (nth_In x [] J2)).
        assert (QQ : forall u w, u < w -> (q_of u * (b1 - b0) + (b1 - b0) <= q_of w * (b1 - b0))%Q).
        { intros u w UW. assert (X := q_of_le (UW : S u <= w)). rewrite q_of_S in X. nra. }
        assert (NI : ~ In vi s1 -> (b0 + eps <= nth a (nth vi x []) 0)%Q).
        { intros W. destruct BI as [BI|[BI|BI]]; try lra. exfalso. apply W. apply S1. auto. }
        assert (NJ : ~ In vj s1 -> (b0 + eps <= nth a (nth vj x []) 0)%Q).
        { intros W. destruct BJ as [BJ|[BJ|BJ]]; try lra. exfalso. apply W. apply S1. auto. }
        assert (UI : (b0 <= nth a (nth vi x []) 0 <= b1)%Q) by (destruct BI as [BI|[BI|BI]]; lra).
        assert (UJ : (b0 <= nth a (nth vj x []) 0 <= b1)%Q) by (destruct BJ as [BJ|[BJ|BJ]]; lra).
        eapply Qlt_le_trans; [|exact GE]. apply sq_lt; auto. rewrite CI, CJ. destruct (Nat.lt_ge_cases ti tj) as [H|H].
        -- right. destruct J3 as [J3|J3]; [lia|]. specialize (NJ J3). specialize (QQ _ _ H). lra.
        -- left. destruct I3 as [I3|I3]; [lia|]. specialize (NI I3). specialize (QQ tj ti ltac:(lia)). lra.
  - exists os. split; auto. split; [|split; [|split; [reflexivity|split; [reflexivity|split]]]].
    + intros k K. destruct (OC k K) as (O1 & O2 & O3). split; auto. lia.
    + intros k c K C. unfold coor. cbn [t_coors]. apply CN; auto.
    + intros v V. unfold os, orgs. rewrite app_nth1 by (rewrite map_length, seq_length; auto). rewrite nth_map_in with (da := 0) by (rewrite seq_length; auto). rewrite nth_seq0; auto.
    + intros i v I0 V. destruct (NODE i v I0 V) as [A1 A2]. exists (node x s1 a1 a2 i v). split; auto.
  - rewrite (@length_flat_n _ _ _ (length (t_conn t))) by (intros; apply map_length). rewrite seq_length. auto.
  - intros i e I0 E. cbv zeta. rewrite (@nth_flat_const _ _ (fun i => map (map (node x s1 a1 a2 i)) (t_conn t)) (length (t_conn t)) (seq 0 gr) [] 0); [|intros; apply map_length|rewrite seq_length; auto|auto].
    rewrite nth_seq0 by auto. rewrite nth_map_in with (da := []) by auto. split; [apply map_length|]. intros k c K C.
    rewrite nth_map_in with (da := 0) by auto. unfold coor. cbn [t_coors]. apply NODE; auto. eapply CO; [apply nth_In; eauto|apply nth_In; auto].
Qed.
End Axis.

(** ** All axes *)
Definition offs (a : nat) (grid : list nat) (bb : list (Q * Q)) (q c : nat) : Q :=
  if c <? a then 0%Q else nth (c - a) (offset grid (map (fun b => snd b - fst b)%Q bb) q) 0%Q.
Lemma offs_cons : forall a g grid b bb q i c, i < g ->
  (offs a (g :: grid) (b :: bb) (q * g + i) c == (if Nat.eqb c a then q_of i * (snd b - fst b) else 0) + offs (S a) grid bb q c)%Q.
Proof.
  intros a g grid b bb q i c H. unfold offs. cbn [map offset]. replace (q * g + i) with (i + q * g) by lia. rewrite Nat.mod_add, Nat.div_add by lia. rewrite Nat.mod_small, Nat.div_small by auto.
  destruct (Nat.eqb_spec c a) as [->|E].
  - replace (a <? a) with false by (symmetry; apply Nat.ltb_ge; lia). replace (a <? S a) with true by (symmetry; apply Nat.ltb_lt; lia). rewrite Nat.sub_diag. cbn [nth]. ring.
  - destruct (Nat.ltb_spec c a) as [L|L].
    + replace (c <? S a) with true by (symmetry; apply Nat.ltb_lt; lia). ring.
    + replace (c <? S a) with false by (symmetry; apply Nat.ltb_ge; lia). replace (c - a) with (S (c - S a)) by lia. cbn [nth plus]. ring.
Qed.
Lemma near_trans : forall r1 r2 u v w y z, (Qabs (u - (v + y)) <= r1)%Q -> (Qabs (v - (w + z)) <= r2)%Q -> (Qabs (u - (w + (z + y))) <= r1 + r2)%Q.
Proof.
  intros r1 r2 u v w y z A B. assert (E : (u - (w + (z + y)) == (u - (v + y)) + (v - (w + z)))%Q) by ring. rewrite E.
  eapply Qle_trans; [apply Qabs_triangle|]. lra.
Qed.
Lemma near_eq : forall r u w w', (w == w')%Q -> (Qabs (u - w) <= r)%Q -> (Qabs (u - w') <= r)%Q.
Proof. intros r u w w' E H. rewrite <- E. auto. Qed.
Lemma divmod_lt : forall q g k, 0 < g -> q < g * k -> q / g < k /\ q mod g < g /\ q = q / g * g + q mod g.
Proof.
  intros q g k G H. split; [apply Nat.div_lt_upper_bound; lia|]. split; [apply Nat.mod_upper_bound; lia|].
  assert (E := Nat.div_mod q g). lia.
Qed.
Section Axes.
Variable f : list point -> list point -> nat -> res (list nat * list nat).
Variables (d sep eps : Q) (dim : nat).
Hypothesis Hf : matches d sep f.
Hypothesis Hsep : (0 <= sep)%Q.
Hypothesis Heps : (sep < eps)%Q.
Hypothesis Hd : (0 <= d)%Q.
Hypothesis H3 : dim <= 3.
Lemma all_axes : forall grid bb a t nd t', length bb = length grid -> a + length grid <= dim -> good sep dim t -> (forall g, In g grid -> 1 <= g) ->
  (forall k, k < length grid -> planar (t_coors t) (a + k) (fst (nth k bb (0, 0)%Q)) (snd (nth k bb (0, 0)%Q)) eps) ->
  (nd = None /\ t_map t = seq 0 (length (t_coors t)) \/ nd = Some (t_map t) /\ exists nref, map_ok nref t) ->
  tile_axes f a grid bb eps t nd = Ok t' ->
  good sep dim t' /\
  (exists os, length os = length (t_coors t') /\ (forall n, n < length os -> fst (nth n os (0, 0)) < prod grid /\ snd (nth n os (0, 0)) < length (t_coors t)) /\
    (forall n c, n < length os -> c < dim -> (nth c (coor t' n) 0 == nth c (coor t (snd (nth n os (0, 0)%nat))) 0 + offs a grid bb (fst (nth n os (0, 0)%nat)) c)%Q) /\
    t_grp t' = map (fun o => nth (snd o) (t_grp t) 0%Z) os /\ t_map t' = map (fun o => nth (snd o) (t_map t) 0) os) /\
  (forall q v, q < prod grid -> v < length (t_coors t) -> exists n, n < length (t_coors t') /\
     forall c, c < dim -> (Qabs (nth c (coor t' n) 0 - (nth c (coor t v) 0 + offs a grid bb q c)) <= q_of (length grid) * d)%Q) /\
  length (t_conn t') = prod grid * length (t_conn t) /\
  (forall q e, q < prod grid -> e < length (t_conn t) -> let row := nth e (t_conn t) [] in let row' := nth (q * length (t_conn t) + e) (t_conn t') [] in
     length row' = length row /\
     forall k c, k < length row -> c < dim ->
       (Qabs (nth c (coor t' (nth k row' 0%nat)) 0 - (nth c (coor t (nth k row 0%nat)) 0 + offs a grid bb q c)) <= q_of (length grid) * d)%Q).
Proof.
  induction grid as [|g grid IH]; intros [|b bb] a t nd t' LB LA G GR PL ND T; cbn [length] in LB, LA; try lia.
  - cbn [tile_axes] in T. injection T as <-.
    assert (O0 : forall q c, offs a [] [] q c = 0%Q) by (intros; unfold offs; cbn [map offset]; destruct (c <? a); auto; destruct (c - a); auto).
    assert (NZ : forall c n, (Qabs (nth c (coor t n) 0 - (nth c (coor t n) 0 + 0)) <= q_of 0 * d)%Q).
    { intros c n. assert (E : (nth c (coor t n) 0 - (nth c (coor t n) 0 + 0) == 0)%Q) by ring. rewrite E. assert (E2 : (q_of 0 * d == 0)%Q) by (unfold q_of; cbn [Z.of_nat]; ring). rewrite E2. apply Qle_refl. }
    cbn [prod fold_right length]. split; [auto|]. split; [|split; [|split; [lia|]]].
    + exists (map (pair 0) (seq 0 (length (t_coors t)))). rewrite map_length, seq_length. split; auto. split; [|split; [|split]].
      * intros n N. rewrite nth_map_in with (da := 0) by (rewrite seq_length; auto). rewrite nth_seq0 by auto. cbn; lia.
      * intros n c N C. rewrite nth_map_in with (da := 0) by (rewrite seq_length; auto). rewrite nth_seq0 by auto. cbn [fst snd]. rewrite O0. ring.
      * destruct G as (_ & _ & G & _). rewrite map_map. apply list_ext with (d := 0%Z); [rewrite map_length, seq_length; auto|]. intros k K. rewrite nth_map_in with (da := 0) by (rewrite seq_length; lia). rewrite nth_seq0 by lia. auto.
      * destruct G as (_ & _ & _ & G & _). rewrite map_map. apply list_ext with (d := 0); [rewrite map_length, seq_length; auto|]. intros k K. rewrite nth_map_in with (da := 0) by (rewrite seq_length; lia). rewrite nth_seq0 by lia. auto.
    + intros q v _ V. exists v. split; auto. intros c C. rewrite O0. apply NZ.
    + intros q e Q0 E. assert (q = 0) by lia. subst q. cbv zeta. rewrite Nat.mul_0_l, Nat.add_0_l. split; auto. intros k c K C. rewrite O0. apply NZ.
  - cbn [tile_axes] in T. destruct (tiled_mesh1d f (t_conn t) (t_coors t) (t_grp t) a g (fst b) (snd b) eps nd) as [t1|] eqn:E1; cbn [bind] in T; [|discriminate].
    assert (G1 : 1 <= g) by (apply GR; left; auto).
    assert (PA : planar (t_coors t) a (fst b) (snd b) eps) by (specialize (PL 0 ltac:(cbn; lia)); rewrite Nat.add_0_r in PL; exact PL).
    destruct (one_axis Hf Hsep Heps Hd H3 G (a := a) ltac:(lia) G1 PA ND E1) as (GT & (os & LO & OB & OC & OG & OM & OP & OS) & LC & CE).
    assert (PL1 : forall k, k < length grid -> planar (t_coors t1) (S a + k) (fst (nth k bb (0, 0)%Q)) (snd (nth k bb (0, 0)%Q)) eps).
    { intros k K. specialize (PL (S k) ltac:(cbn; lia)). cbn [nth] in PL. destruct PL as [P1 P2]. replace (a + S k) with (S a + k) in P2 by lia. split; auto.
      intros p P. destruct (In_nth _ _ [] P) as (n & N & <-). fold (coor t1 n). assert (X := OC n (S a + k) ltac:(lia) ltac:(lia)).
      replace (S a + k =? a) with false in X by (symmetry; apply Nat.eqb_neq; lia). 
      specialize (P2 (coor t (snd (nth n os (0, 0)))) ltac:(apply nth_In; apply OB; lia)). lra. }
    assert (MO : exists nref, map_ok nref t1).
    { assert (X : exists nref, map_ok nref t).
      { destruct ND as [[_ E]|[_ E]]; auto. exists (length (t_coors t)). destruct G as (G0 & _). unfold map_ok. rewrite E, seq_length. split; [lia|]. split; [intros; apply nth_seq0; auto|]. intros v V. apply in_seq in V. lia. }
      destruct X as (nref & M1 & M2 & M3). exists nref. unfold map_ok. rewrite OM, map_length.
      assert (LM : length (t_map t) = length (t_coors t)) by (apply G).
      assert (LE : length (t_coors t) <= length os). { destruct (Nat.le_gt_cases (length (t_coors t)) (length os)) as [H|H]; auto. exfalso.
        assert (X := OP (length (t_coors t) - 1) ltac:(lia)). rewrite nth_overflow in X by lia. injection X as X.
        assert (length (t_coors t) = 1) by lia. assert (0 < length (t_coors t1)) by apply GT. lia. }
      split; [lia|]. split.
      - intros v V. rewrite nth_map_in with (da := (0, 0)) by lia. rewrite OP by lia. cbn [snd]. apply M2. auto.
      - intros v V. apply in_map_iff in V. destruct V as (o & <- & O). apply M3. destruct (In_nth os o (0, 0) O) as (n & N & <-). apply nth_In. rewrite LM. apply OB. auto. }
    destruct (IH bb (S a) t1 (Some (t_map t1)) t' ltac:(lia) ltac:(lia) GT) as (GT' & (os2 & LO2 & OB2 & OC2 & OG2 & OM2) & OS2 & LC2 & CE2); auto.
    { intros g' G'. apply GR. right. auto. }
    assert (PR : prod (g :: grid) = g * prod grid) by reflexivity. rewrite PR.
    assert (QS : (q_of (length (g :: grid)) * d == q_of (length grid) * d + d)%Q) by (cbn [length]; rewrite q_of_S; ring).
    split; auto. split; [|split; [|split]].
    + set (F := fun o : nat * nat => let p := nth (snd o) os (0, 0) in (fst o * g + fst p, snd p)).
      exists (map F os2). rewrite map_length. split; auto.
      assert (FN : forall n, n < length os2 -> nth n (map F os2) (0, 0) = F (nth n os2 (0, 0))) by (intros n N; apply nth_map_in; auto).
      split; [|split; [|split]].
      * intros n N. rewrite FN by auto. destruct (OB2 n N) as [A1 A2]. unfold F. cbv zeta. cbn [fst snd]. destruct (OB (snd (nth n os2 (0, 0))) ltac:(lia)) as [A3 A4]. split; auto. nia.
      * intros n c N C. rewrite FN by auto. destruct (OB2 n N) as [A1 A2]. unfold F. cbv zeta. cbn [fst snd]. destruct (OB (snd (nth n os2 (0, 0))) ltac:(lia)) as [A3 A4].
        rewrite OC2 by auto. rewrite OC by (auto; lia). rewrite offs_cons by auto. ring.
      * rewrite OG2, OG. rewrite map_map. apply map_ext_in. intros o O. destruct (In_nth os2 o (0, 0) O) as (n & N & <-). destruct (OB2 n N) as [A1 A2].
        rewrite nth_map_in with (da := (0, 0)) by lia. reflexivity.
      * rewrite OM2, OM. rewrite map_map. apply map_ext_in. intros o O. destruct (In_nth os2 o (0, 0) O) as (n & N & <-). destruct (OB2 n N) as [A1 A2].
        rewrite nth_map_in with (da := (0, 0)) by lia. reflexivity.
    + intros q v Q0 V. destruct (@divmod_lt q g (prod grid) ltac:(lia) Q0) as (D1 & D2 & D3).
      destruct (OS (q mod g) v D2 V) as (n1 & N1 & X1). destruct (OS2 (q / g) n1 D1 ltac:(lia)) as (n2 & N2 & X2). exists n2. split; auto. intros c C.
      rewrite QS. eapply near_eq; [|apply (@near_trans _ _ _ _ _ _ _ (X2 c C) (X1 c C))]. rewrite D3 at 3. rewrite offs_cons by auto. reflexivity.
    + rewrite LC2, LC. nia.
    + intros q e Q0 E. cbv zeta. destruct (@divmod_lt q g (prod grid) ltac:(lia) Q0) as (D1 & D2 & D3).
      destruct (CE (q mod g) e D2 E) as [L1 X1]. assert (E2 : q mod g * length (t_conn t) + e < length (t_conn t1)) by (rewrite LC; nia).
      destruct (CE2 (q / g) (q mod g * length (t_conn t) + e) D1 E2) as [L2 X2]. cbv zeta in *.
      assert (EI : q / g * length (t_conn t1) + (q mod g * length (t_conn t) + e) = q * length (t_conn t) + e) by (rewrite LC; transitivity ((q / g * g + q mod g) * length (t_conn t) + e); [ring|rewrite <- D3; auto]).
      rewrite EI in L2, X2. split; [congruence|]. intros k c K C. rewrite QS.
      eapply near_eq; [|apply (@near_trans _ _ _ _ _ _ _ (X2 k c ltac:(lia) C) (X1 k c K C))]. rewrite D3 at 3. rewrite offs_cons by auto. reflexivity.
Qed.
End Axes.

(** ** The tiled mesh *)
Lemma rows_kind : forall m old, wf_mesh m -> (forall g, In g (m_groups m) -> g_desc g = old) ->
  rows m = map (fun rm => (old, fst rm, snd rm)) (combine (mesh_rows m) (cell_groups m)) /\ length (cell_groups m) = length (mesh_rows m).
Proof.
  intros m old [_ W] H. split.
  - unfold rows, cell_groups, mesh_rows. induction (m_groups m) as [|g gs IH]; cbn [flat_map]; [reflexivity|].
    rewrite IH by (intros g' G; first [apply W | apply H]; right; auto). rewrite (H g (or_introl eq_refl)). destruct (W g (or_introl eq_refl)) as [_ L].
    assert (X : forall A B (a b : list A) (c d : list B), length a = length c -> combine (a ++ b) (c ++ d) = combine a c ++ combine b d).
    { intros A B. induction a as [|x a IHa]; intros b [|y c] d E; cbn in *; auto; try lia. f_equal. apply IHa. lia. }
    rewrite X by auto. rewrite map_app. auto.
  - unfold cell_groups, mesh_rows. clear H. induction (m_groups m) as [|g gs IH]; cbn; auto. rewrite !app_length, IH by (intros g' G; apply W; right; auto).
    f_equal. apply W. left; auto.
Qed.
Lemma nth_error_rows : forall m old e, wf_mesh m -> (forall g, In g (m_groups m) -> g_desc g = old) -> e < length (mesh_rows m) ->
  nth_error (rows m) e = Some (old, nth e (mesh_rows m) [], nth e (cell_groups m) 0%Z).
Proof.
  intros m old e W H E. destruct (rows_kind W H) as [-> L]. rewrite nth_error_map. rewrite (nth_error_nth' _ ([], 0%Z)) by (rewrite combine_length; lia).
  rewrite combine_nth by lia. reflexivity.
Qed.
Lemma length_rows : forall m old, wf_mesh m -> (forall g, In g (m_groups m) -> g_desc g = old) -> length (rows m) = length (mesh_rows m).
Proof. intros m old W H. destruct (rows_kind W H) as [-> L]. rewrite map_length, combine_length. lia. Qed.
Lemma nth_concat_repeat : forall A (l : list A) n q e x, q < n -> e < length l -> nth (q * length l + e) (concat (repeat l n)) x = nth e l x.
Proof.
  intros A l. induction n as [|n IH]; intros q e x Q0 E; [lia|]. cbn [repeat concat]. destruct q as [|q].
  - cbn. apply app_nth1. auto.
  - rewrite app_nth2 by lia. replace (S q * length l + e - length l) with (q * length l + e) by lia. apply IH; lia.
Qed.
Lemma length_concat_repeat : forall A (l : list A) n, length (concat (repeat l n)) = n * length l.
Proof. intros A l. induction n as [|n IH]; cbn; auto. rewrite app_length, IH. lia. Qed.
Lemma dist2_scale : forall s dim p q, length p = dim -> length q = dim -> (dist2 (vscale s p) (vscale s q) == s * s * dist2 p q)%Q.
Proof.
  intros s. induction dim as [|dim IH]; intros [|x p] [|y q] L1 L2; cbn in L1, L2; try lia; [unfold dist2; cbn; ring|].
  cbn [vscale map]. fold (vscale s p). fold (vscale s q). rewrite !dist2_cons. rewrite IH by lia. ring.
Qed.
Theorem C99_tiled_mesh : forall f d sep eps dim m grid scale m' nd desc,
  matches d sep f -> (0 <= sep)%Q -> (sep < eps)%Q -> (0 <= d)%Q -> dim <= 3 ->
  wf_mesh m -> m_coors m <> [] -> m_groups m <> [] -> (forall g, In g (m_groups m) -> g_desc g = desc) ->
  (forall p, In p (m_coors m) -> length p = dim) -> far sep (m_coors m) ->
  (forall a, a < dim -> planar (m_coors m) a (fst (nth a (bbox dim (m_coors m)) (0, 0)%Q)) (snd (nth a (bbox dim (m_coors m)) (0, 0)%Q)) eps) ->
  length grid = dim -> (forall g, In g grid -> 1 <= g) ->
  gen_tiled_mesh f m grid scale eps = Ok (m', nd) ->
  let shift q c := nth c (offset grid (map (fun b => snd b - fst b)%Q (bbox dim (m_coors m))) q) 0%Q in
  (* the cells are copies of the cells of the mesh, in all tiles *)
  wf_mesh m' /\ length (rows m') = prod grid * length (rows m) /\
  (forall q e, q < prod grid -> e < length (rows m) -> exists row row' mat,
     nth_error (rows m) e = Some (desc, row, mat) /\ nth_error (rows m') (q * length (rows m) + e) = Some (desc, row', mat) /\ length row' = length row /\
     forall k c, k < length row -> c < dim ->
       (Qabs (nth c (coor_of m' (nth k row' 0%nat)) 0 - scale * (nth c (coor_of m (nth k row 0%nat)) 0 + shift q c)) <= Qabs scale * (q_of dim * d))%Q) /\
  (* each node is a shifted node of the mesh given by the map *)
  length nd = length (m_coors m') /\
  (forall n, n < length nd -> nth n nd 0 < length (m_coors m) /\ nth n (m_vg m') 0%Z = nth (nth n nd 0) (m_vg m) 0%Z /\
     exists q, q < prod grid /\ forall c, c < dim -> (nth c (coor_of m' n) 0 == scale * (nth c (coor_of m (nth n nd 0%nat)) 0 + shift q c))%Q) /\
  (* all nodes of all tiles are there, once *)
  (forall q v, q < prod grid -> v < length (m_coors m) -> exists n, n < length (m_coors m') /\
     forall c, c < dim -> (Qabs (nth c (coor_of m' n) 0 - scale * (nth c (coor_of m v) 0 + shift q c)) <= Qabs scale * (q_of dim * d))%Q) /\
  (forall i j, i < j < length (m_coors m') -> ~ (scale == 0)%Q -> (scale * scale * (sep * sep) < dist2 (coor_of m' i) (coor_of m' j))%Q).
Proof.
  intros f d sep eps dim m grid scale m' nd desc Hf Hsep Heps Hd H3 W NC NG K DIM FAR PL LGR GR H shift. unfold gen_tiled_mesh in H.
  assert (DS : match m_groups m with g :: _ => g_desc g | [] => 0 end = desc) by (destruct (m_groups m) as [|g gs]; [congruence|]; apply K; left; auto).
  rewrite DS in H. clear DS.
  assert (D0 : length (nth 0 (m_coors m) []) = dim) by (apply DIM, nth_In; destruct (m_coors m); [congruence|cbn; lia]). rewrite D0 in H.
  rewrite (kind_conn _ K) in H.
  set (t0 := mkT (mesh_rows m) (m_coors m) (m_vg m) (seq 0 (length (m_coors m)))) in *.
  destruct (tile_axes f 0 grid (bbox dim (m_coors m)) eps t0 None) as [t|] eqn:ET; cbn [bind] in H; [|discriminate]. injection H as <- <-.
  assert (G0 : good sep dim t0).
  { unfold good, t0. cbn [t_conn t_coors t_grp t_map]. split; [destruct (m_coors m); [congruence|cbn; lia]|]. split; auto. split; [apply W|]. split; [apply seq_length|]. split; auto.
    intros row v R V. unfold mesh_rows in R. apply in_flat_map in R. destruct R as (g & G & R). destruct (proj2 W g G) as [IR _]. eapply IR; eauto. }
  assert (LB : length (bbox dim (m_coors m)) = length grid) by (unfold bbox; rewrite map_length, seq_length; auto).
  destruct (@all_axes f d sep eps dim Hf Hsep Heps Hd H3 grid (bbox dim (m_coors m)) 0 t0 None t LB ltac:(lia) G0 GR (fun k HK => PL k ltac:(lia)) (or_introl (conj eq_refl eq_refl)) ET) as (GT & (os & LO & OB & OC & OG & OM) & OS & LC & CE).
  cbn [t_conn t_coors t_grp t_map t0] in *.
  assert (OFF : forall q c, offs 0 grid (bbox dim (m_coors m)) q c = shift q c) by (intros q c; unfold offs; cbn [Nat.ltb Nat.leb]; rewrite Nat.sub_0_r; auto).
  assert (DIMT : forall n, n < length (t_coors t) -> length (coor t n) = dim) by (intros n N; apply GT, nth_In; auto).
  set (mat := concat (repeat (cell_groups m) (prod grid))).
  set (m' := mkM (map (vscale scale) (t_coors t)) (t_grp t) [mkG desc (t_conn t) mat]).
  assert (LCG : length (cell_groups m) = length (mesh_rows m)) by (apply (rows_kind W K)).
  assert (W' : wf_mesh m').
  { split; cbn [m_vg m_coors m' m_groups]; [rewrite map_length; apply GT|]. intros g [<-|[]]. cbn [g_conn g_mat]. split.
    - intros row v R V. rewrite map_length. destruct GT as (_ & _ & _ & _ & GC & _). eapply GC; eauto.
    - unfold mat. rewrite length_concat_repeat, LC, LCG. auto. }
  assert (K' : forall g, In g (m_groups m') -> g_desc g = desc) by (intros g [<-|[]]; auto).
  assert (MR : mesh_rows m' = t_conn t) by (unfold mesh_rows; cbn [m' m_groups flat_map g_conn]; apply app_nil_r).
  assert (CG : cell_groups m' = mat) by (unfold cell_groups; cbn [m' m_groups flat_map g_mat]; apply app_nil_r).
  assert (CO : forall n c, n < length (t_coors t) -> c < dim -> nth c (coor_of m' n) 0%Q = (scale * nth c (coor t n) 0)%Q).
  { intros n c N C. unfold coor_of. cbn [m' m_coors]. rewrite nth_map_in with (da := []) by auto. apply nth_vscale. fold (coor t n). rewrite DIMT; auto. }
  assert (SC : forall u w r, (Qabs (u - w) <= r)%Q -> (Qabs (scale * u - scale * w) <= Qabs scale * r)%Q).
  { intros u w r X. assert (E : (scale * u - scale * w == scale * (u - w))%Q) by ring. rewrite E, Qabs_Qmult. rewrite !(Qmult_comm (Qabs scale)). apply Qmult_le_compat_r; auto. apply Qabs_nonneg. }
  split; auto. split; [rewrite (length_rows W' K'), (length_rows W K), MR, LC; auto|]. split; [|split; [|split; [|split]]].
  - intros q e Q0 E. rewrite (length_rows W K) in *. exists (nth e (mesh_rows m) []), (nth (q * length (mesh_rows m) + e) (t_conn t) []), (nth e (cell_groups m) 0%Z).
    split; [apply nth_error_rows; auto|]. assert (E2 : q * length (mesh_rows m) + e < length (t_conn t)) by (rewrite LC; nia).
    split; [rewrite (nth_error_rows W' K') by (rewrite MR; auto); rewrite MR, CG; unfold mat; rewrite <- LCG; rewrite nth_concat_repeat by (auto; lia); auto|].
    destruct (CE q e Q0 E) as [L1 X]. split; auto. intros k c K0 C.
    assert (NB : nth k (nth (q * length (mesh_rows m) + e) (t_conn t) []) 0 < length (t_coors t)).
    { destruct GT as (_ & _ & _ & _ & GC & _). eapply GC; [apply nth_In; eauto|apply nth_In; lia]. }
    rewrite CO by auto. apply SC. specialize (X k c K0 C). rewrite OFF in X. rewrite LGR in X. exact X.
  - cbn [m' m_coors]. rewrite map_length. apply GT.
  - intros n N. assert (N2 : n < length os) by (rewrite OM, map_length in N; auto). change (m_vg m') with (t_grp t). rewrite OM, OG. rewrite !nth_map_in with (da := (0, 0)) by auto.
    destruct (OB n N2) as [B1 B2]. rewrite nth_seq0 by auto. split; auto. split; auto. exists (fst (nth n os (0, 0))). split; auto. intros c C. rewrite CO by (auto; lia).
    rewrite (OC n c N2 C). rewrite OFF. reflexivity.
  - intros q v Q0 V. destruct (OS q v Q0 V) as (n & N & X). exists n. cbn [m' m_coors]. rewrite map_length. split; auto. intros c C. rewrite CO by auto. apply SC. specialize (X c C). rewrite OFF, LGR in X. exact X.
  - intros i j IJ NZ. cbn [m' m_coors] in IJ. rewrite map_length in IJ. unfold coor_of. cbn [m' m_coors]. rewrite !nth_map_in with (da := []) by lia.
    rewrite (@dist2_scale scale dim) by (apply DIMT; lia). destruct GT as (_ & _ & _ & _ & _ & GF). specialize (GF i j IJ).
    assert (SP : (0 < scale * scale)%Q) by (assert (Y := sq_nonneg scale); destruct (Qlt_le_dec 0 (scale * scale)) as [L|L]; auto; exfalso; apply NZ; assert (Z0 : (scale * scale == 0)%Q) by lra; apply Qmult_integral in Z0; tauto).
    rewrite !(Qmult_comm (scale * scale)). apply Qmult_lt_compat_r; auto.
Qed.

(** ** The matching of periodic.py *)
Definition eye3 (a : nat) : list Q := upd [0; 0; 0]%Q a 1%Q.
(** periodic.py l.97-108 [match_grid_plane]: a call with the cache [pc]. *)
Definition match_grid_plane argsort query_pairs (peps : Q) (pc : cache) (A B : list point) (a : nat) : res (list nat * list nat) :=
  snd (do_call argsort query_pairs peps pc (mkcall (mkco (length (nth 0 A [])) A) (mkco (length (nth 0 B [])) B) (WDir (Some (eye3 a))) true)).
Lemma vdot_nonneg : forall p, (0 <= vdot p p)%Q.
Proof. unfold vdot. induction p as [|x p IH]; cbn [combine map fold_right]; [apply Qle_refl|]. cbn [fst snd]. assert (S := sq_nonneg x). lra. Qed.
Lemma vdot_ge : forall p c, c < length p -> (nth c p 0 * nth c p 0 <= vdot p p)%Q.
Proof.
  induction p as [|x p IH]; intros [|c] H; cbn in H; try lia; unfold vdot; cbn [combine map fold_right nth fst snd]; fold (vdot p p).
  - assert (S := vdot_nonneg p). lra.
  - assert (S := IH c ltac:(lia)). assert (S2 := sq_nonneg x). lra.
Qed.
Lemma sq_le_abs : forall a e, (0 <= e)%Q -> (a * a <= e * e)%Q -> (Qabs a <= e)%Q.
Proof. intros a e E H. apply Qabs_Qle_condition. split; nra. Qed.
Lemma nth_vsub : forall p q a, length p = length q -> a < length p -> nth a (vsub p q) 0%Q = (nth a p 0 - nth a q 0)%Q.
Proof. unfold vsub. induction p as [|x p IH]; intros [|y q] [|a] L A; cbn in L, A; try lia; cbn [combine map nth fst snd]; auto. apply IH; lia. Qed.
Lemma length_vsub : forall p q, length p = length q -> length (vsub p q) = length p.
Proof. intros p q H. unfold vsub. rewrite map_length, combine_length. lia. Qed.
Lemma dist2_triangle : forall dim p q r, length p = dim -> length q = dim -> length r = dim -> (dist2 p q <= 2 * dist2 p r + 2 * dist2 q r)%Q.
Proof.
  induction dim as [|dim IH]; intros [|x p] [|y q] [|z r] L1 L2 L3; cbn in L1, L2, L3; try lia; [unfold dist2; cbn; lra|].
  rewrite !dist2_cons. assert (H := IH p q r ltac:(lia) ltac:(lia) ltac:(lia)). assert (S := sq_nonneg (x - z + (y - z))). lra.
Qed.
Lemma far_inj : forall e x p i j dim, far (2 * e) x -> (forall q, In q x -> length q = dim) -> length p = dim -> i < length x -> j < length x ->
  (dist2 (nth i x []) p <= e * e)%Q -> (dist2 (nth j x []) p <= e * e)%Q -> i = j.
Proof.
  intros e x p i j dim F D LP I0 J0 A B. assert (T := @dist2_triangle dim (nth i x []) (nth j x []) p (D _ (nth_In _ _ I0)) (D _ (nth_In _ _ J0)) LP).
  destruct (Nat.lt_trichotomy i j) as [H|[H|H]]; auto; exfalso.
  - specialize (F i j ltac:(lia)). lra.
  - specialize (F j i ltac:(lia)). rewrite dist2_sym in F. lra.
Qed.
Lemma unit_dot : forall dim a s, a < dim <= 3 -> length s = dim ->
  let e := firstn dim (eye3 a) in length e = dim /\ (vdot s e / vdot e e == nth a s 0)%Q /\ (forall c, c < dim -> nth c e 0%Q = if Nat.eqb c a then 1%Q else 0%Q).
Proof.
  intros dim a s A L. destruct dim as [|[|[|[|dim]]]]; try lia; destruct a as [|[|[|a]]]; try lia;
    destruct s as [|x [|y [|z [|w s]]]]; try discriminate; cbn [eye3 upd firstn length]; (split; [reflexivity|split]);
    try (unfold vdot; cbn [combine map fold_right nth fst snd]; field); intros c C; destruct c as [|[|[|c]]]; try lia; reflexivity.
Qed.
Theorem C99_matches : forall argsort query_pairs peps, pairs_spec query_pairs -> (0 < peps)%Q ->
  matches (2 * peps) (2 * peps) (match_grid_plane argsort query_pairs peps []).
Proof.
  intros argsort qp peps PS PE A B dim a b0 b1 m1 m2 LAB DIM AD PA PB FA FB H. unfold match_grid_plane, do_call in H. cbn [k_1 k_2 k_saved k_what cget find option_map] in H.
  unfold cget in H. cbn [find option_map] in H.
  destruct (same_shape _) eqn:SS; cbn [negb] in H; [|discriminate]. unfold fresh in H. cbn [k_what k_1 k_2] in H.
  destruct (match_dir qp peps _ _ _) as [r|] eqn:M; cbn [snd] in H; [|discriminate]. injection H as ->.
  set (c1 := mkco (length (nth 0 A [])) A) in *. set (c2 := mkco (length (nth 0 B [])) B) in *.
  destruct (@C47_dir qp PS peps c1 c2 (eye3 a) m1 m2 LAB M) as (j & J & PJ & SM). unfold nrow in J. cbn [a_rows c2] in J.
  assert (A0 : 0 < length A) by lia. assert (LA0 : length (nth 0 A []) = dim) by (apply DIM; left; apply nth_In; auto).
  cbn [a_dim c1] in PJ. rewrite LA0 in PJ. unfold row in PJ, SM. cbn [a_rows c1 c2] in PJ, SM.
  set (s := vsub (nth 0 A []) (nth j B [])) in *.
  assert (LBJ : length (nth j B []) = dim) by (apply DIM; right; apply nth_In; auto).
  assert (LS : length s = dim) by (unfold s; rewrite length_vsub; lia).
  destruct (@unit_dot dim a s AD LS) as (LE & DE & NE). set (e := firstn dim (eye3 a)) in *.
  assert (SA : (nth a s 0 == b0 - b1)%Q).
  { unfold s. rewrite nth_vsub by lia. rewrite (PA _ (nth_In A [] A0)), (PB _ (nth_In B [] J)). reflexivity. }
  assert (SC : forall c, c < dim -> c <> a -> (Qabs (nth c s 0) <= peps)%Q).
  { intros c C CA. apply sq_le_abs; [lra|]. set (p := vsub s (vscale (vdot s e / vdot e e) e)) in *.
    assert (LP : length p = dim) by (unfold p; rewrite length_vsub; auto; unfold vscale; rewrite map_length; lia).
    assert (X := vdot_ge p (c := c) ltac:(lia)). unfold p in X at 1 2. rewrite nth_vsub in X by (unfold vscale; rewrite ?map_length; lia).
    rewrite nth_vscale in X by lia. rewrite NE in X by auto. replace (c =? a) with false in X by (symmetry; apply Nat.eqb_neq; auto). lra. }
  assert (DB : forall q, In q (map (fun x => vadd x s) B) -> length q = dim).
  { intros q Q0. apply in_map_iff in Q0. destruct Q0 as (x & <- & X). rewrite length_vadd; [apply DIM; auto|]. rewrite LS. apply DIM. auto. }
  assert (FB' : far (2 * peps) (map (fun x => vadd x s) B)).
  { intros u v UV. rewrite map_length in UV. rewrite !nth_map_in with (da := []) by lia. 
    assert (LU : length (nth u B []) = dim) by (apply DIM; right; apply nth_In; lia). assert (LV : length (nth v B []) = dim) by (apply DIM; right; apply nth_In; lia).
    rewrite (@dist2_ext dim _ _ (nth u B []) (nth v B [])); auto; try (rewrite length_vadd; lia). intros c C. rewrite !nth_vadd by lia. ring. }
  assert (SEP : separated peps A (map (fun x => vadd x s) B)).
  { split.
    - intros i i' k I1 I2 K X1 X2. apply (@far_inj peps A (nth k (map (fun x => vadd x s) B) []) i i' dim); auto. apply DB, nth_In; auto.
    - intros i k k' I1 K1 K2 X1 X2. apply (@far_inj peps (map (fun x => vadd x s) B) (nth i A []) k k' dim); auto; [apply DIM; left; apply nth_In; auto|rewrite dist2_sym; auto|rewrite dist2_sym; auto]. }
  destruct (SM SEP) as (P1 & P2 & PL & PD). unfold nrow in P1, P2. cbn [a_rows c1 c2] in P1, P2. unfold row in PD. cbn [a_rows c1 c2] in PD.
  split; auto. split; auto. intros k c K C.
  assert (L1 : length m1 = length A) by (rewrite (Permutation_length P1), seq_length; auto).
  specialize (PD k ltac:(lia)).
  assert (X1 : nth k m1 0 < length A). { assert (Y : In (nth k m1 0) (seq 0 (length A))) by (eapply Permutation_in; [exact P1|apply nth_In; lia]). apply in_seq in Y. lia. }
  assert (X2 : nth k m2 0 < length B). { assert (Y : In (nth k m2 0) (seq 0 (length B))) by (eapply Permutation_in; [exact P2|apply nth_In; lia]). apply in_seq in Y. lia. }
  set (x := nth (nth k m1 0) A []) in *. set (y := nth (nth k m2 0) B []) in *.
  assert (LX : length x = dim) by (apply DIM; left; apply nth_In; auto). assert (LY : length y = dim) by (apply DIM; right; apply nth_In; auto).
  destruct (Nat.eqb_spec c a) as [->|CA].
  - assert (E : (nth a y 0 - (nth a x 0 + (b1 - b0)) == 0)%Q) by (rewrite (PA x (nth_In A [] X1)), (PB y (nth_In B [] X2)); ring). rewrite E. apply Qle_trans with 0%Q; [apply Qle_refl|lra].
  - assert (GE := @dist2_ge x (vadd y s) c ltac:(rewrite length_vadd; lia) ltac:(lia)). rewrite nth_vadd in GE by lia.
    assert (ab := @sq_le_abs (nth c x 0 - (nth c y 0 + nth c s 0))%Q peps ltac:(lra) ltac:(lra)). specialize (SC c C CA).
    apply Qabs_Qle_condition in ab. apply Qabs_Qle_condition in SC. apply Qabs_Qle_condition. lra.
Qed.

(** ** Examples and failures *)
Definition eps6 : Q := 1 # 1000000.
Definition plane9 (pc : cache) := match_grid_plane isort allpairs e9 pc.
(** A square of two triangles. *)
Definition sq (a : Q) : mesh := mkM [[0; 0]; [a; 0]; [a; a]; [0; a]]%Q [0; 1; 2; 3]%Z [mkG d2_3 [[0; 1; 2]; [0; 2; 3]] [5; 6]%Z].
Lemma sq_ok : wf_mesh (sq 1) /\ far (2 * e9) (m_coors (sq 1)) /\ (forall p, In p (m_coors (sq 1)) -> length p = 2) /\
  (forall a, a < 2 -> planar (m_coors (sq 1)) a (fst (nth a (bbox 2 (m_coors (sq 1))) (0, 0)%Q)) (snd (nth a (bbox 2 (m_coors (sq 1))) (0, 0)%Q)) eps6).
Proof.
  split; [|split; [|split]].
  - split; [reflexivity|]. intros g [<-|[]]. split; [|reflexivity]. intros row v R V. cbn in R.
    repeat (destruct R as [<-|R]; [cbn in V; cbn; repeat (destruct V as [<-|V]; [lia|]); destruct V|]). destruct R.
  - intros i j IJ. cbn [sq m_coors length] in IJ. destruct i as [|[|[|i]]]; destruct j as [|[|[|[|j]]]]; try lia; vm_compute; reflexivity.
  - intros p P. cbn in P. repeat (destruct P as [<-|P]; [reflexivity|]). destruct P.
  - intros a A. destruct a as [|[|a]]; [| |lia]; (split; [vm_compute; discriminate|]); intros p P; cbn in P;
      repeat (destruct P as [<-|P]; [first [left; vm_compute; reflexivity|right; right; vm_compute; reflexivity]|]); destruct P.
Qed.
Example C99_ex : matches (2 * e9) (2 * e9) (plane9 []) /\
  gen_tiled_mesh (plane9 []) (sq 1) [2; 2] 1 eps6 =
  Ok (mkM [[0; 0]; [1; 0]; [1; 1]; [0; 1]; [2; 0]; [2; 1]; [1; 2]; [0; 2]; [2; 2]]%Q [0; 1; 2; 3; 1; 2; 2; 3; 2]%Z
        [mkG d2_3 [[0; 1; 2]; [0; 2; 3]; [1; 4; 5]; [1; 5; 2]; [3; 2; 6]; [3; 6; 7]; [2; 5; 8]; [2; 8; 6]] [5; 6; 5; 6; 5; 6; 5; 6]%Z],
      [0; 1; 2; 3; 1; 2; 2; 3; 2]).
Proof. split; [apply C99_matches; [apply allpairs_ok|vm_compute; reflexivity]|vm_compute; reflexivity]. Qed.
(** The same square with other numbers of nodes, tiled after the first one: the cached
    matching is used, and the second tile is attached upside down. *)
Definition sq' : mesh := mkM [[0; 0]; [1; 1]; [1; 0]; [0; 1]]%Q [0; 2; 1; 3]%Z [mkG d2_3 [[0; 2; 1]; [0; 1; 3]] [5; 6]%Z].
Definition plane_call (m : mesh) (s1 s2 : list nat) (a : nat) : call :=
  mkcall (mkco 2 (take [] (m_coors m) s1)) (mkco 2 (take [] (m_coors m) s2)) (WDir (Some (eye3 a))) true.
Theorem C99_cache_refuted :
  let pc := fst (do_call isort allpairs e9 [] (plane_call (sq 1) [0; 3] [1; 2] 0)) in
  exists m1 m2, gen_tiled_mesh (plane9 []) sq' [2; 1] 1 eps6 = Ok (m1, [0; 1; 2; 3; 1; 2]) /\
    gen_tiled_mesh (plane9 pc) sq' [2; 1] 1 eps6 = Ok (m2, [0; 1; 2; 3; 1; 2]) /\ m_coors m1 = m_coors m2 /\
    map (coor_of m1) (nth 2 (mesh_rows m1) []) = [[1; 0]; [2; 0]; [2; 1]]%Q /\
    map (coor_of m2) (nth 2 (mesh_rows m2) []) = [[1; 1]; [2; 0]; [2; 1]]%Q.
Proof. intros pc. eexists. eexists. split; [vm_compute; reflexivity|]. split; [vm_compute; reflexivity|]. repeat split. Qed.
(** eps is not relative: all nodes of a mesh smaller than eps are on both faces, and all
    tiles are the first one. *)
Theorem C99_small_refuted : exists m', gen_tiled_mesh (plane9 []) (sq (1 # 10000000)) [2; 1] 1 eps6 = Ok (m', [0; 1; 2; 3]) /\
  m_coors m' = m_coors (sq (1 # 10000000)) /\ mesh_rows m' = [[0; 1; 2]; [0; 2; 3]; [0; 1; 2]; [0; 2; 3]].
Proof. eexists. split; [vm_compute; reflexivity|]. split; reflexivity. Qed.
Print Assumptions C99_tiled_mesh.
Print Assumptions C99_matches.
Print Assumptions C99_cache_refuted.
Print Assumptions C99_small_refuted.
