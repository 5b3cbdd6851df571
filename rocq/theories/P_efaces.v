(** C135: facets of fields of higher order: the DOFs and the basis of a facet. *)
From Coq Require Import Permutation Reals Lra.
From Verif Require Import Base M_dofs M_mesh M_nls M_lagnodes M_lagrange P_lagnodes L_lagrange P_lagrange M_facet L_facet L_econn S_econn L_econn2 L_econn3 L_econn4 M_efaces.
Open Scope nat_scope.

(** The value of the field with element DOFs [u] in the point with barycentric coordinates [bc] *)
Definition field_value (nodes : list lnode) (order : nat) (u : nat -> R) (bc : list R) : R :=
  lsum (map (fun k => (u k * simplex_val order bc (node_of nodes k))%R) (seq 0 (length nodes))).
(** The value in the point [bc] of facet [f] given by the facet DOFs and the facet basis *)
Definition facet_value (g : gel) (nodes : list lnode) (order : nat) (u : nat -> R) (f : nat) (bc : list R) : R :=
  lsum (map (fun j => (u (nth j (nth f (efaces g nodes) []) 0%nat) * facet_basis g nodes order bc j)%R)
            (seq 0 (length (nth f (efaces g nodes) [])))).

Lemma NoDup_app_i : forall A (a b : list A), NoDup a -> NoDup b -> (forall x, In x a -> ~ In x b) -> NoDup (a ++ b).
Proof.
  induction a as [|x a IH]; intros b Na Nb H; cbn [app]; auto. inversion Na; subst. constructor.
  - rewrite in_app_iff. intros [I|I]; auto. apply (H x); cbn; auto.
  - apply IH; auto. intros y Y. apply H. cbn; auto.
Qed.
Lemma lprod_zero : forall l, In 0%R l -> lprod l = 0%R.
Proof. induction l as [|a l IH]; intros H; [destruct H|]. rewrite lprod_cons. destruct H as [-> |H]; [ring|rewrite IH by auto; ring]. Qed.
Lemma val_vanish : forall o bc node v, v < length bc -> nth v bc 0%R = 0%R -> 0 < nth v node 0 -> simplex_val o bc node = 0%R.
Proof.
  intros o bc node v L Z P. rewrite simplex_val_prod. apply lprod_zero. apply in_map_iff. exists v. split; [|apply in_seq; lia].
  rewrite Z, Rmult_0_r. apply (@cb_nat_lt 0). auto.
Qed.
Lemma lsum_pick : forall n L (f : nat -> R), NoDup L -> (forall k, In k L -> k < n) -> (forall k, k < n -> ~ In k L -> f k = 0%R) ->
  lsum (map f (seq 0 n)) = lsum (map f L).
Proof.
  intros n L f N B Z.
  set (M := filter (fun k => negb (existsb (Nat.eqb k) L)) (seq 0 n)).
  assert (P : Permutation (seq 0 n) (L ++ M)).
  { apply NoDup_Permutation; [apply seq_NoDup| |].
    - apply NoDup_app_i; auto; [apply NoDup_filter, seq_NoDup|]. intros x HL HM. unfold M in HM. apply filter_In in HM. destruct HM as [_ HM].
      apply negb_true_iff in HM. rewrite <- not_true_iff_false in HM. apply HM. apply existsb_exists. exists x. split; auto. apply Nat.eqb_refl.
    - intros x. rewrite in_app_iff. unfold M. rewrite filter_In, in_seq. split.
      + intros H. destruct (existsb (Nat.eqb x) L) eqn:E; [left|right; split; auto].
        apply existsb_exists in E. destruct E as (y & Y & Q). apply Nat.eqb_eq in Q. subst. auto.
      + intros [H|H]; [specialize (B x H); lia|lia]. }
  rewrite (lsum_perm (Permutation_map f P)), map_app, lsum_app.
  rewrite (lsum_zero f M); [ring|]. intros k K. unfold M in K. apply filter_In in K. destruct K as [K E]. apply in_seq in K. apply Z; [lia|].
  intros I. apply negb_true_iff in E. rewrite <- not_true_iff_false in E. apply E. apply existsb_exists. exists k. split; auto. apply Nat.eqb_refl.
Qed.

Definition r0 : region := mkReg [] [] [] [].
(** ** Triangles *)
Lemma tri_nodes_edge : forall o e i, 1 <= o -> e < 3 -> i < o - 1 ->
  node_of (simplex_all 2 o) (3 + (e * (o - 1) + i)) = map (fun x => gw (nth e edges_2_3 []) [o - (i + 1); i + 1] x) (seq 0 3).
Proof.
  intros o e i O E I. unfold node_of. rewrite simplex_split by lia. assert (LV : length (vert_nodes (2 + 1) o) = 3) by (unfold vert_nodes; rewrite map_length, seq_length; auto). rewrite app_nth2 by (rewrite LV; apply Nat.le_add_r).
  rewrite LV, (Nat.add_comm 3 (e * (o - 1) + i)), Nat.add_sub.
  cbn [s_E]. rewrite edges_af. rewrite app_nth1 by (rewrite (proj1 (af_block 2 o o 3 1 (vert_nodes 3 o) edges_2_3)); cbn [length edges_2_3 fsize]; nia).
  change (o - 1) with (fsize 2 o). rewrite af_nth by auto. rewrite fw_simplex; [|auto|].
  - apply map_ext. intros. rewrite Nat.mul_1_l. auto.
  - intros v V. destruct e as [|[|[|]]]; try lia; cbn in V; lia.
Qed.
Lemma tri_efaces : forall o f, 1 <= o -> f < 3 ->
  nth f (efaces (sgel 2) (simplex_all 2 o)) [] = nth f edges_2_3 [] ++ seq (3 + f * (o - 1)) (o - 1).
Proof.
  intros o f O F. assert (CT := @simplex_ctype 2 o ltac:(lia) O).
  assert (F2 : describe_facets (simplex_all 2 o) 2 = None) by (apply (d_face0 r0 CT); left; reflexivity).
  unfold efaces. rewrite F2. destruct (Nat.eq_dec o 1) as [-> |N].
  - rewrite (d_edge0 r0 CT) by (right; reflexivity). destruct f as [|[|[|]]]; try lia; reflexivity.
  - rewrite (d_edge r0 CT) by (cbn; lia). destruct f as [|[|[|]]]; try lia; cbn; rewrite ?app_nil_r; auto.
Qed.
Lemma vertex_node : forall dim o v, v < dim + 1 -> 1 <= dim <= 3 -> node_of (simplex_all dim o) v = map (fun i => if i =? v then o else 0) (seq 0 (dim + 1)).
Proof.
  intros dim o v V D. unfold node_of. rewrite simplex_split by auto. unfold vert_nodes at 1. rewrite app_nth1 by (rewrite map_length, seq_length; auto).
  rewrite nth_map_in with (da := 0) by (rewrite seq_length; auto). rewrite seq_nth by auto. reflexivity.
Qed.
Ltac bcs bc L := destruct bc as [|?b [|?b [|?b [|]]]]; try discriminate L.
Ltac unval := rewrite !simplex_val_prod; unfold gw; cbn -[cb INR Nat.sub Nat.add]; rewrite ?Nat.add_0_r, ?Nat.add_0_l; repeat change (cb _ 0) with 1%R; ring.
Lemma tri_value : forall o f j bc, 1 <= o -> f < 3 -> j < o + 1 -> length bc = 2 ->
  simplex_val o (facet_bary (sgel 2) f bc) (node_of (simplex_all 2 o) (nth j (nth f (efaces (sgel 2) (simplex_all 2 o)) []) 0)) =
  facet_basis (sgel 2) (simplex_all 2 o) o bc j.
Proof.
  intros o f j bc O F J L. unfold facet_basis. rewrite !tri_efaces by (auto; lia). bcs bc L.
  destruct (le_lt_dec 2 j) as [J2|J2].
  - rewrite !app_nth2 by (destruct f as [|[|[|]]]; cbn; lia).
    replace (length (nth f edges_2_3 [])) with 2 by (destruct f as [|[|[|]]]; try lia; reflexivity).
    change (length (nth 0 edges_2_3 [])) with 2. rewrite !seq_nth by lia. rewrite <- !Nat.add_assoc. rewrite !tri_nodes_edge by lia.
    destruct f as [|[|[|]]]; try lia; unval.
  - rewrite !app_nth1 by (destruct f as [|[|[|]]]; cbn; lia).
    destruct f as [|[|[|]]]; try lia; destruct j as [|[|]]; try lia; cbn [nth edges_2_3]; rewrite !vertex_node by lia; change (2 + 1) with 3; unval.
Qed.
Lemma tri_vanish : forall o f k bc, 1 <= o -> f < 3 -> k < length (simplex_all 2 o) -> length bc = 2 ->
  ~ In k (nth f (efaces (sgel 2) (simplex_all 2 o)) []) -> simplex_val o (facet_bary (sgel 2) f bc) (node_of (simplex_all 2 o) k) = 0%R.
Proof.
  intros o f k bc O F K L N. rewrite tri_efaces in N by auto. rewrite in_app_iff, in_seq in N.
  assert (W : exists v, v < 3 /\ ~ In v (nth f edges_2_3 []) /\ 0 < nth v (node_of (simplex_all 2 o) k) 0).
  { destruct (le_lt_dec 3 k) as [K3|K3].
    - destruct (le_lt_dec (3 + 3 * (o - 1)) k) as [K4|K4].
      + assert (P : forall v, v < 3 -> 0 < nth v (node_of (simplex_all 2 o) k) 0).
        { intros v V. unfold node_of. rewrite simplex_split in K |- * by lia. cbn [s_F app] in K |- *.
          assert (A1 : length (vert_nodes (2 + 1) o) = 3) by (unfold vert_nodes; rewrite map_length, seq_length; auto).
          assert (A2 : length (s_E 2 o) = 3 * (o - 1)) by (cbn [s_E]; rewrite edges_af; apply (proj1 (af_block 2 o o 3 1 (vert_nodes 3 o) edges_2_3))).
          rewrite !app_length in K. rewrite app_nth2, app_nth2 by lia.
          assert (KB : k - length (vert_nodes (2 + 1) o) - length (s_E 2 o) < length (s_B 2 o)) by lia.
          assert (I : In (nth (k - length (vert_nodes (2 + 1) o) - length (s_E 2 o)) (s_B 2 o) ln0) (s_B 2 o)) by (apply nth_In; auto).
          assert (CT := @simplex_ctype 2 o ltac:(lia) O).
          apply (ct_wb CT _ I). apply nth_In. unfold simplex_w. rewrite (proj1 (@simplex_all_ok 2 o _ ltac:(lia) O (@nth_In_B 2 o _ ltac:(lia) KB))). auto. }
        destruct f as [|[|[|]]]; try lia; [exists 2|exists 0|exists 1]; (split; [lia|split; [cbn; lia|apply P; lia]]).
      + assert (E : exists e i, e < 3 /\ i < o - 1 /\ k = 3 + (e * (o - 1) + i)).
        { exists ((k - 3) / (o - 1)), ((k - 3) mod (o - 1)). assert (D := Nat.div_mod (k - 3) (o - 1) ltac:(lia)). assert (M := Nat.mod_upper_bound (k - 3) (o - 1) ltac:(lia)).
          split; [apply Nat.div_lt_upper_bound; lia|split; [auto|lia]]. }
        destruct E as (e & i & E & I & ->). rewrite tri_nodes_edge by auto. assert (e <> f) by (intros ->; apply N; right; lia).
        destruct f as [|[|[|]]]; try lia; [exists 2|exists 0|exists 1]; (split; [lia|split; [cbn; lia|]]); destruct e as [|[|[|]]]; try lia; cbn; lia.
    - rewrite vertex_node by lia. exists k. split; auto. split; [tauto|]. destruct k as [|[|[|]]]; try lia; cbn; lia. }
  destruct W as (v & V & NV & P). apply val_vanish with (v := v); auto.
  unfold facet_bary. rewrite nth_map_in with (da := 0) by (rewrite seq_length; auto). rewrite seq_nth by auto.
    cbn [plus]. destruct f as [|[|[|]]]; try lia; destruct v as [|[|[|]]]; try lia; cbn in NV; try (exfalso; apply NV; tauto); reflexivity.
Qed.
(** ** Tetrahedra of orders 1 and 2 *)
Definition tet_ok (o : nat) : Prop := forall f bc, f < 4 -> length bc = 3 ->
  NoDup (nth f (efaces (sgel 3) (simplex_all 3 o)) []) /\
  (forall k, In k (nth f (efaces (sgel 3) (simplex_all 3 o)) []) -> k < length (simplex_all 3 o)) /\
  (forall j, j < length (nth f (efaces (sgel 3) (simplex_all 3 o)) []) ->
     simplex_val o (facet_bary (sgel 3) f bc) (node_of (simplex_all 3 o) (nth j (nth f (efaces (sgel 3) (simplex_all 3 o)) []) 0)) =
     facet_basis (sgel 3) (simplex_all 3 o) o bc j) /\
  (forall k, k < length (simplex_all 3 o) -> ~ In k (nth f (efaces (sgel 3) (simplex_all 3 o)) []) ->
     simplex_val o (facet_bary (sgel 3) f bc) (node_of (simplex_all 3 o) k) = 0%R).
Ltac pick4 x H := destruct x as [|[|[|[|]]]]; [| | | |exfalso; lia].
Lemma node_conc : forall (l : list lnode) n k, l = n -> node_of l k = node_of n k. Proof. intros; subst; auto. Qed.
Lemma lt10 : forall j n, j < n -> n <= 10 -> j = 0 \/ j = 1 \/ j = 2 \/ j = 3 \/ j = 4 \/ j = 5 \/ j = 6 \/ j = 7 \/ j = 8 \/ j = 9. Proof. lia. Qed.
Ltac enum10 j H := let E := fresh in pose proof (lt10 j _ H ltac:(cbn; lia)) as E; cbn in H; decompose [or] E; clear E; subst j; try lia.
Lemma tet_small : forall o, o = 1 \/ o = 2 -> tet_ok o.
Proof.
  intros o O f bc F L. unfold facet_basis.
  set (nodes := simplex_all 3 o). set (EF := efaces (sgel 3) nodes).
  assert (EN : nodes = simplex_all 3 o) by reflexivity. assert (EE : EF = efaces (sgel 3) nodes) by reflexivity.
  clearbody nodes. subst nodes. clearbody EF.
  destruct O; subst o; vm_compute in EE; subst EF;
  (set (nodes := simplex_all 3 _); assert (EN : nodes = simplex_all 3 _) by reflexivity; clearbody nodes; vm_compute in EN; subst nodes);
  bcs bc L.
  - split; [|split; [|split]].
    + enum10 f F; cbn; repeat constructor; cbn; intuition lia.
    + intros k K. enum10 f F; cbn in K |- *; lia.
    + intros j J. enum10 f F; cbn [nth] in J; enum10 j J; unfold node_of; cbn [nth ln_node]; unval.
    + intros k K N. enum10 f F; enum10 k K; try (exfalso; apply N; cbn; tauto); clear N; unfold node_of; cbn [nth ln_node];
      first [apply val_vanish with (v := 0); cbn; auto; lia | apply val_vanish with (v := 1); cbn; auto; lia | apply val_vanish with (v := 2); cbn; auto; lia | apply val_vanish with (v := 3); cbn; auto; lia].
  - split; [|split; [|split]].
    + enum10 f F; cbn; repeat constructor; cbn; intuition lia.
    + intros k K. enum10 f F; cbn in K |- *; lia.
    + intros j J. enum10 f F; cbn [nth] in J; enum10 j J; unfold node_of; cbn [nth ln_node]; unval.
    + intros k K N. enum10 f F; enum10 k K; try (exfalso; apply N; cbn; tauto); clear N; unfold node_of; cbn [nth ln_node];
      first [apply val_vanish with (v := 0); cbn; auto; lia | apply val_vanish with (v := 1); cbn; auto; lia | apply val_vanish with (v := 2); cbn; auto; lia | apply val_vanish with (v := 3); cbn; auto; lia].
Qed.

(** ** Fields *)
(** The values in facet points given by the DOFs of the facet are those of the field, in 2D for
    all orders, in 3D for the orders 1 and 2. *)
Theorem C135_field_trace_partial : forall dim order nodes u f bc, dim = 2 /\ 1 <= order \/ dim = 3 /\ 1 <= order <= 2 ->
  simplex_nodes dim order = Ok nodes -> f < length (surf_entities (sgel dim)) -> length bc = dim ->
  facet_value (sgel dim) nodes order u f bc = field_value nodes order u (facet_bary (sgel dim) f bc).
Proof.
  intros dim order nodes u f bc C EN F L.
  rewrite simplex_nodes_eq in EN by lia. injection EN as <-.
  assert (G : NoDup (nth f (efaces (sgel dim) (simplex_all dim order)) []) /\
    (forall k, In k (nth f (efaces (sgel dim) (simplex_all dim order)) []) -> k < length (simplex_all dim order)) /\
    (forall j, j < length (nth f (efaces (sgel dim) (simplex_all dim order)) []) ->
       simplex_val order (facet_bary (sgel dim) f bc) (node_of (simplex_all dim order) (nth j (nth f (efaces (sgel dim) (simplex_all dim order)) []) 0)) =
       facet_basis (sgel dim) (simplex_all dim order) order bc j) /\
    (forall k, k < length (simplex_all dim order) -> ~ In k (nth f (efaces (sgel dim) (simplex_all dim order)) []) ->
       simplex_val order (facet_bary (sgel dim) f bc) (node_of (simplex_all dim order) k) = 0%R)).
  { destruct C as [[-> O]|[-> O]].
    - change (length (surf_entities (sgel 2))) with 3 in F. split; [|split; [|split]].
      + rewrite tri_efaces by auto. apply NoDup_app_i; [|apply seq_NoDup|].
        * destruct f as [|[|[|]]]; try lia; repeat constructor; cbn; intuition lia.
        * intros x X Y. apply in_seq in Y. destruct f as [|[|[|]]]; try lia; cbn in X; lia.
      + intros k K. rewrite tri_efaces in K by auto. rewrite simplex_split, app_length, app_length by lia.
        assert (A1 : length (vert_nodes (2 + 1) order) = 3) by (unfold vert_nodes; rewrite map_length, seq_length; auto).
        assert (A2 : length (s_E 2 order) = 3 * (order - 1)) by (cbn [s_E]; rewrite edges_af; apply (proj1 (af_block 2 order order 3 1 (vert_nodes 3 order) edges_2_3))).
        rewrite in_app_iff, in_seq in K. destruct K as [K|K]; destruct f as [|[|[|]]]; try lia; cbn in K; lia.
      + intros j J. apply tri_value; auto. rewrite tri_efaces, app_length, seq_length in J by auto. destruct f as [|[|[|]]]; try lia; cbn in J; lia.
      + intros k K N. apply tri_vanish; auto.
    - apply tet_small; auto. lia. }
  destruct G as (G1 & G2 & G3 & G4). unfold facet_value, field_value.
  rewrite (@lsum_pick (length (simplex_all dim order)) (nth f (efaces (sgel dim) (simplex_all dim order)) [])); auto.
  - rewrite (map_seq_nth _ 0 (nth f (efaces (sgel dim) (simplex_all dim order)) [])).
    apply lsum_ext. intros j J. apply in_seq in J. rewrite G3 by lia. auto.
  - intros k K N. rewrite G4 by auto. ring.
Qed.
(** Not for tetrahedra of any higher order. *)
Theorem C135_field_trace_refuted : forall order, 3 <= order -> exists nodes u f bc,
  simplex_nodes 3 order = Ok nodes /\ f < 4 /\ length bc = 3 /\ (forall b, In b bc -> (0 <= b)%R) /\ lsum bc = 1%R /\
  facet_value (sgel 3) nodes order u f bc <> field_value nodes order u (facet_bary (sgel 3) f bc).
Proof.
  intros order O. exists (simplex_all 3 order), (fun k => if k =? 4 then 1%R else 0%R), 2, [INR (order - 1) / INR order; 1 / INR order; 0]%R.
  assert (PO : (0 < INR order)%R) by (apply lt_0_INR; lia). assert (NO : INR order <> 0%R) by lra.
  split; [apply simplex_nodes_eq; lia|]. split; [lia|]. split; [auto|]. split.
  { intros b [<- |[<- |[<- |[]]]]; [apply Rle_mult_inv_pos; auto; apply pos_INR|apply Rle_mult_inv_pos; auto; lra|lra]. }
  split. { unfold lsum. cbn [fold_right]. rewrite minus_INR by lia. change (INR 1) with 1%R. field. auto. }
  assert (CT := @simplex_ctype 3 order ltac:(lia) ltac:(lia)).
  assert (NE : forall e i, e < 6 -> i < order - 1 -> node_of (simplex_all 3 order) (4 + (e * (order - 1) + i)) = map (fun x => gw (nth e edges_3_4 []) [order - (i + 1); i + 1] x) (seq 0 4)).
  { intros e i E I. unfold node_of. rewrite simplex_split by lia. assert (LV : length (vert_nodes (3 + 1) order) = 4) by (unfold vert_nodes; rewrite map_length, seq_length; auto).
    rewrite app_nth2 by (rewrite LV; apply Nat.le_add_r). rewrite LV, (Nat.add_comm 4 (e * (order - 1) + i)), Nat.add_sub. cbn [s_E]. rewrite edges_af.
    rewrite app_nth1 by (rewrite (proj1 (af_block 2 order order 4 1 (vert_nodes 4 order) edges_3_4)); cbn [length edges_3_4 fsize]; nia).
    change (order - 1) with (fsize 2 order). rewrite af_nth by auto. rewrite fw_simplex; [|lia|].
    - apply map_ext. intros. rewrite Nat.mul_1_l. auto.
    - intros v V. destruct e as [|[|[|[|[|[|]]]]]]; try lia; cbn in V; lia. }
  assert (LN : 4 < length (simplex_all 3 order)).
  { rewrite simplex_split, app_length, app_length by lia.
    assert (A1 : length (vert_nodes (3 + 1) order) = 4) by (unfold vert_nodes; rewrite map_length, seq_length; auto).
    assert (A2 : length (s_E 3 order) = 6 * (order - 1)) by (cbn [s_E]; rewrite edges_af; apply (proj1 (af_block 2 order order 4 1 (vert_nodes 4 order) edges_3_4))). lia. }
  assert (DE := d_edge r0 CT ltac:(cbn; lia) ltac:(lia)).
  assert (FS : fsize 3 order <> 0). { cbn [fsize]. destruct order as [|[|[|o]]]; try lia. cbn. discriminate. }
  assert (DF := d_face r0 CT ltac:(cbn; lia) FS). cbn [sgel g_nv g_edges g_faces length edges_3_4 faces_3_4] in DE, DF.
  assert (EP : edges_per_face (sgel 3) = [[2; 1; 0]; [3; 5; 2]; [0; 4; 3]; [1; 5; 4]]) by reflexivity.
  assert (E2 : exists rest, nth 2 (efaces (sgel 3) (simplex_all 3 order)) [] = [0; 1; 3; 4] ++ rest /\ ~ In 4 rest).
  { unfold efaces. rewrite DE, DF, EP. cbn -[Nat.mul Nat.sub fsize]. rewrite ?app_nil_r. destruct order as [|[|[|o]]]; try lia.
    replace (S (S (S o)) - 1) with (S (S o)) by lia. cbn [seq app Nat.mul Nat.add].
    eexists. split; [reflexivity|]. cbn -[Nat.mul Nat.sub fsize]. rewrite !in_app_iff. intros H.
    repeat (match goal with H : _ \/ _ |- _ => destruct H as [H|H] | H : In _ (_ ++ _) |- _ => apply in_app_iff in H | H : In _ (_ :: _) |- _ => cbn [In] in H
      | H : In _ (seq _ _) |- _ => apply in_seq in H end; try lia). }
  assert (E0 : nth 3 (nth 0 (efaces (sgel 3) (simplex_all 3 order)) []) 0 = 4 + (2 * (order - 1) + 0)).
  { unfold efaces. rewrite DE, DF, EP. cbn -[Nat.mul Nat.sub fsize]. destruct order as [|[|[|o]]]; try lia. replace (S (S (S o)) - 1) with (S (S o)) by lia. cbn [seq app nth]. lia. }
  destruct E2 as (rest & E2 & NR).
  assert (FB : facet_basis (sgel 3) (simplex_all 3 order) order [INR (order - 1) / INR order; 1 / INR order; 0]%R 3 = 0%R).
  { unfold facet_basis. rewrite E0, NE by lia. rewrite simplex_val_prod. apply lprod_zero. apply in_map_iff. exists 2. split; [|cbn; auto].
    cbn -[cb INR Nat.sub Nat.add Rdiv]. unfold gw. cbn -[cb INR Nat.sub Nat.add Rdiv]. rewrite ?Nat.add_0_r, ?Nat.add_0_l.
    replace (INR order * (1 / INR order))%R with (INR 1) by (cbn [INR]; field; auto). apply (@cb_nat_lt 1). lia. }
  assert (FV : facet_value (sgel 3) (simplex_all 3 order) order (fun k => if k =? 4 then 1%R else 0%R) 2 [INR (order - 1) / INR order; 1 / INR order; 0]%R = 0%R).
  { unfold facet_value. apply lsum_zero. intros j J. apply in_seq in J. rewrite E2 in J |- *. destruct (Nat.eq_dec j 3) as [-> |J3].
    - rewrite FB. ring.
    - replace (nth j ([0; 1; 3; 4] ++ rest) 0 =? 4) with false; [ring|]. symmetry. apply Nat.eqb_neq.
      destruct j as [|[|[|[|j]]]]; try (cbn; lia). cbn [app nth]. intros Q. apply NR. rewrite <- Q. apply nth_In. cbn [app length] in J. lia. }
  rewrite FV. unfold field_value. rewrite (@lsum_pick _ [4]).
  - cbn [map]. rewrite lsum_cons. change (lsum []) with 0%R. cbn [Nat.eqb].
    change 4 with (4 + (0 * (order - 1) + 0)) at 1. rewrite NE by lia. rewrite simplex_val_prod.
    cbn -[cb INR Nat.sub Nat.add Rdiv]. unfold gw. cbn -[cb INR Nat.sub Nat.add Rdiv]. rewrite ?Nat.add_0_r, ?Nat.add_0_l. cbn [Nat.add].
    replace (INR order * (INR (order - 1) / INR order))%R with (INR (order - 1)) by (field; auto).
    replace (INR order * (1 / INR order))%R with (INR 1) by (cbn [INR]; field; auto).
    rewrite (cb_diag (order - 1)), (cb_diag 1). cbn [cb]. lra.
  - repeat constructor; auto.
  - intros k [<- |[]]. auto.
  - intros k K N. replace (k =? 4) with false; [ring|]. symmetry. apply Nat.eqb_neq. intros ->. apply N. cbn; auto.
Qed.
