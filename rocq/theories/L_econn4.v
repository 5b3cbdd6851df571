(** The cells of the mesh: simplices and tensor product cells satisfy [ctype]. *)
From Coq Require Import Permutation Sorted.
From Verif Require Import Base M_dofs M_mesh M_lagnodes L_mesh L_build P_mesh P_lagnodes M_facet L_facet L_econn S_econn P_facets L_econn2 L_econn3.
Set Implicit Arguments.
Open Scope nat_scope.

Lemma append_nth : forall (h : nat -> list nat -> nat -> lnode) N es j i, j < length es -> i < N ->
  nth (j * N + i) (flat_map (fun p : nat * list nat => map (h (fst p) (snd p)) (seq 0 N)) (combine (seq 0 (length es)) es)) ln0 = h j (nth j es []) i.
Proof.
  intros h N es j i J I. rewrite flat_map_concat_map. assert (LC : length (combine (seq 0 (length es)) es) = length es) by (rewrite combine_length, seq_length; lia).
  rewrite (@concat_nth_const _ _ N); auto.
  - rewrite nth_map_in with (da := (0, [])) by (rewrite LC; auto). rewrite combine_nth by (rewrite seq_length; auto). cbn [fst snd]. rewrite nth_map_in with (da := 0) by (rewrite seq_length; auto). rewrite !seq_nth by auto. auto.
  - intros l L. apply in_map_iff in L. destruct L as (p & <- & _). rewrite map_length, seq_length. auto.
  - rewrite map_length, LC. auto.
Qed.
Lemma length_append : forall (h : nat -> list nat -> nat -> lnode) N es, length (flat_map (fun p : nat * list nat => map (h (fst p) (snd p)) (seq 0 N)) (combine (seq 0 (length es)) es)) = length es * N.
Proof. intros. rewrite length_flat_sum. rewrite (@list_sum_const _ _ N) by (intros; rewrite map_length, seq_length; auto). rewrite combine_length, seq_length, Nat.min_id. auto. Qed.
Definition fnode (n o D nc nt : nat) (v : list lnode) (j : nat) (e : list nat) (i : nat) : lnode := mkLN nt j (lin D (fweights n o i) (verts v e) nc).
Definition afacets (n o D nc nt : nat) (v : list lnode) (es : list (list nat)) : list lnode :=
  flat_map (fun p : nat * list nat => map (fnode n o D nc nt v (fst p) (snd p)) (seq 0 (fsize n o))) (combine (seq 0 (length es)) es).
Lemma map_seq_nth : forall A B (f : A -> B) (d : A) l, map f l = map (fun i => f (nth i l d)) (seq 0 (length l)).
Proof. intros. apply list_ext with (d := f d); [rewrite !map_length, seq_length; auto|]. intros i I. rewrite map_length in I. rewrite !nth_map_in with (da := d) by auto. rewrite nth_map_in with (da := 0) by (rewrite seq_length; auto). rewrite seq_nth by auto. auto. Qed.
Lemma edges_af : forall v nt es o nc, append_edges v nt es o nc = afacets 2 o o nc nt v es.
Proof. reflexivity. Qed.
Lemma faces_af : forall v nt es o nc, append_faces v nt es o nc = afacets 3 o o nc nt v es.
Proof.
  intros. unfold append_faces, afacets. apply flat_map_ext. intros [j e]. cbn [fst snd fsize].
  transitivity (map (fun p => mkLN nt j (lin o [o - (fst p + 1) - (snd p + 1); snd p + 1; fst p + 1] (verts v e) nc)) (tp (o - 2))).
  - unfold tp. rewrite map_flat_map. apply flat_map_ext. intros a. rewrite map_map. auto.
  - rewrite (map_seq_nth _ (0, 0)). apply map_ext. intros i. unfold fnode. cbn [fweights]. destruct (nth i (tp (o - 2)) (0, 0)). auto.
Qed.
Lemma tpfaces_af : forall v nt es o nc, append_tp_faces v nt es o nc = afacets 4 o (o ^ 2) nc nt v es.
Proof.
  intros. unfold append_tp_faces, afacets. apply flat_map_ext. intros [j e]. cbn [fst snd fsize].
  transitivity (map (fun p => let c4 := fst p + 1 in let c3 := snd p + 1 in let c2 := o - c4 in let c1 := o - c3 in mkLN nt j (lin (o ^ 2) [c1 * c2; c2 * c3; c3 * c4; c4 * c1] (verts v e) nc)) (sq (o - 1))).
  - unfold sq. rewrite map_flat_map. apply flat_map_ext. intros a. rewrite map_map. auto.
  - rewrite (map_seq_nth _ (0, 0)). apply map_ext. intros i. unfold fnode. cbn [fweights]. destruct (nth i (sq (o - 1)) (0, 0)). auto.
Qed.
Lemma af_nth : forall n o D nc nt v es j i, j < length es -> i < fsize n o -> nth (j * fsize n o + i) (afacets n o D nc nt v es) ln0 = fnode n o D nc nt v j (nth j es []) i.
Proof. intros. apply (append_nth (fnode n o D nc nt v)); auto. Qed.
Lemma af_block : forall n o D nc nt v es, block nt (length es) (fsize n o) (afacets n o D nc nt v es).
Proof. intros. split; [apply length_append|]. intros j i J I. rewrite af_nth by auto. auto. Qed.
Lemma af_In : forall n o D nc nt v es x, In x (afacets n o D nc nt v es) -> ln_type x = nt.
Proof. intros n o D nc nt v es x. apply block_types with (m := length es) (N := fsize n o). apply af_block. Qed.
(** ** Simplices *)
Lemma gw_swap : forall cs ent i, list_sum (map (fun p => if snd p =? i then fst p else 0) (combine cs ent)) = gw ent cs i.
Proof. induction cs as [|c cs IH]; intros [|e ent] i; auto. cbn [combine map]. rewrite gw_cons. change (list_sum (?a :: ?l)) with (a + list_sum l). rewrite IH. auto. Qed.
Definition s_E (dim o : nat) := match dim with 1 => [] | 2 => append_edges (vert_nodes 3 o) 1 edges_2_3 o 3 | _ => append_edges (vert_nodes 4 o) 1 edges_3_4 o 4 end.
Definition s_F (dim o : nat) := match dim with 1 => [] | 2 => [] | _ => append_faces (vert_nodes 4 o) 2 faces_3_4 o 4 end.
Definition s_B (dim o : nat) := match dim with 1 => append_edges (vert_nodes 2 o) 3 [[0; 1]] o 2 | 2 => append_faces (vert_nodes 3 o) 3 [[0; 1; 2]] o 3 | _ => append_bubbles (vert_nodes 4 o) 3 o 4 end.
Lemma simplex_split : forall dim o, 1 <= dim <= 3 -> simplex_all dim o = vert_nodes (dim + 1) o ++ s_E dim o ++ s_F dim o ++ s_B dim o.
Proof. intros dim o D. destruct dim as [|[|[|[|]]]]; try lia; reflexivity. Qed.
Definition permb (a b : list nat) : bool := forallb (fun x => existsb (Nat.eqb x) b) a && forallb (fun x => existsb (Nat.eqb x) a) b.
Lemma permb_ok : forall a b, Permutation a b -> permb a b = true.
Proof.
  intros a b P. unfold permb. apply andb_true_iff. split; apply forallb_forall; intros x X; apply existsb_exists; exists x; split; try apply Nat.eqb_refl; [apply (Permutation_in _ P)|apply (Permutation_in _ (Permutation_sym P))]; auto.
Qed.
Lemma distinct_ok : forall es, forallb (fun i => forallb (fun j => (i =? j) || negb (permb (nth i es []) (nth j es []))) (seq 0 (length es))) (seq 0 (length es)) = true ->
  forall i j, i < length es -> j < length es -> i <> j -> ~ Permutation (nth i es []) (nth j es []).
Proof.
  intros es H i j I J N P. rewrite forallb_forall in H. specialize (H i ltac:(apply in_seq; lia)). rewrite forallb_forall in H. specialize (H j ltac:(apply in_seq; lia)). apply permb_ok in P. rewrite P in H. cbn [negb] in H. rewrite orb_false_r in H. apply Nat.eqb_eq in H. auto.
Qed.
Definition refs_ok (n nv : nat) (es : list (list nat)) : bool := forallb (fun e => (length e =? n) && forallb (fun i => i <? nv) e && forallb (fun i => forallb (fun j => (i =? j) || negb (nth i e 0 =? nth j e 0)) (seq 0 (length e))) (seq 0 (length e))) es.
Lemma refs_ok_ok : forall n nv es, refs_ok n nv es = true -> forall e, In e es -> length e = n /\ NoDup e /\ forall i, In i e -> i < nv.
Proof.
  intros n nv es H e E. unfold refs_ok in H. rewrite forallb_forall in H. specialize (H e E). rewrite !andb_true_iff in H. destruct H as [[H1 H2] H3]. apply Nat.eqb_eq in H1. split; auto. split.
  - apply (NoDup_nth e 0). intros i j I J Q. rewrite forallb_forall in H3. specialize (H3 i ltac:(apply in_seq; lia)). rewrite forallb_forall in H3. specialize (H3 j ltac:(apply in_seq; lia)). rewrite Q, Nat.eqb_refl in H3. cbn [negb] in H3. rewrite orb_false_r in H3. apply Nat.eqb_eq. auto.
  - intros i I. rewrite forallb_forall in H2. apply Nat.ltb_lt. auto.
Qed.
Lemma fw_simplex : forall n o nv nt j e i, 1 <= o -> (forall v, In v e -> v < nv) -> ln_node (fnode n o o nv nt (vert_nodes nv o) j e i) = map (fun x => 1 * gw e (fweights n o i) x) (seq 0 nv).
Proof. intros. unfold fnode. cbn [ln_node]. rewrite lin_simplex by auto. apply map_ext. intros. rewrite gw_swap. lia. Qed.
Lemma nth_In_B : forall dim o i, 1 <= dim <= 3 -> i < length (s_B dim o) -> In (nth i (s_B dim o) ln0) (simplex_all dim o).
Proof. intros. rewrite simplex_split, !in_app_iff by auto. right. right. right. apply nth_In. auto. Qed.
Lemma s_B_type : forall dim o n, 1 <= dim <= 3 -> In n (s_B dim o) -> ln_type n = 3.
Proof.
  intros dim o n D I. destruct dim as [|[|[|[|]]]]; try lia; cbn [s_B] in I.
  - rewrite edges_af in I. eapply af_In; eauto.
  - rewrite faces_af in I. eapply af_In; eauto.
  - apply In_bubbles in I. destruct I as (? & ? & ? & _ & _ & _ & _ & ->). auto.
Qed.
Lemma simplex_ctype : forall dim o, 1 <= dim <= 3 -> 1 <= o -> ctype (sgel dim) (simplex_all dim o) o 3 simplex_w (vert_nodes (dim + 1) o) (s_E dim o) (s_F dim o) (s_B dim o).
Proof.
  intros dim o D O. assert (NV : g_nv (sgel dim) = dim + 1) by (destruct dim as [|[|[|[|]]]]; try lia; reflexivity).
  destruct (C104_simplex_nodes D O) as (l & L1 & ND & _). rewrite simplex_nodes_eq in L1 by auto. injection L1 as <-.
  assert (OK : forall n, In n (simplex_all dim o) -> length (ln_node n) = dim + 1 /\ list_sum (ln_node n) = o /\ same_set (support (ln_node n)) (entity dim n)) by (intros; apply simplex_all_ok; auto).
  constructor.
  - apply simplex_split; auto.
  - auto.
  - rewrite NV. lia.
  - unfold vert_nodes. rewrite map_length, seq_length. auto.
  - intros n I. unfold vert_nodes in I. apply in_map_iff in I. destruct I as (k & <- & _). auto.
  - destruct dim as [|[|[|[|]]]]; try lia; cbn [sgel g_edges s_E].
    + split; auto. intros ? ? J0; cbn in J0; lia.
    + rewrite edges_af. apply (af_block 2).
    + rewrite edges_af. apply (af_block 2).
  - destruct dim as [|[|[|[|]]]]; try lia; cbn [sgel g_faces s_F].
    + split; auto. intros ? ? J0; cbn in J0; lia.
    + split; auto. intros ? ? J0; cbn in J0; lia.
    + rewrite faces_af. apply (af_block 3).
  - intros n I. eapply s_B_type; eauto.
  - destruct dim as [|[|[|[|]]]]; try lia; cbn; auto; right; lia.
  - lia.
  - destruct dim as [|[|[|[|]]]]; try lia; cbn; auto; right; lia.
  - destruct dim as [|[|[|[|]]]]; try lia; apply refs_ok_ok; reflexivity.
  - destruct dim as [|[|[|[|]]]]; try lia; apply refs_ok_ok; reflexivity.
  - destruct dim as [|[|[|[|]]]]; try lia; apply distinct_ok; reflexivity.
  - destruct dim as [|[|[|[|]]]]; try lia; apply distinct_ok; reflexivity.
  - intros n I. rewrite NV. apply OK. auto.
  - exists o. split; [lia|]. intros a A. rewrite NV in *. unfold vert_nodes. rewrite nth_map_in with (da := 0) by (rewrite seq_length; auto). rewrite seq_nth by auto. unfold simplex_w. cbn [ln_node]. apply map_ext. intros x. rewrite gw_cons. cbn [plus]. rewrite (Nat.eqb_sym a x). destruct (x =? a); cbn; lia.
  - exists 1. split; [lia|]. intros j i J I. destruct dim as [|[|[|[|]]]]; try lia; cbn [sgel g_edges s_E g_nv] in *; [cbn in J; lia| |]; rewrite edges_af; change (o - 1) with (fsize 2 o); rewrite af_nth by auto; apply fw_simplex; auto; eapply (@refs_ok_ok 2); try (apply nth_In; exact J); reflexivity.
  - exists 1. split; [lia|]. intros j i J I. destruct dim as [|[|[|[|]]]]; try lia; cbn [sgel g_faces s_F g_nv] in *; [cbn in J; lia|cbn in J; lia|]; rewrite faces_af; rewrite af_nth by auto; apply fw_simplex; auto; eapply (@refs_ok_ok 3); try (apply nth_In; exact J); reflexivity.
  - intros n I x X. assert (I2 : In n (simplex_all dim o)) by (rewrite simplex_split, !in_app_iff by auto; auto). destruct (OK n I2) as (Q1 & Q2 & Q3). unfold entity in Q3. rewrite (@s_B_type dim o n) in Q3 by auto. unfold simplex_w in X. apply In_nth with (d := 0) in X. destruct X as (k & K & <-). assert (Z : In k (support (ln_node n))) by (apply Q3, in_seq; lia). unfold support in Z. apply filter_In in Z. destruct Z as [_ Z]. apply negb_true_iff, Nat.eqb_neq in Z. lia.
  - intros i j I J Q. unfold simplex_w in Q. rewrite simplex_split in ND by auto. rewrite !map_app in ND. apply NoDup_app_remove_l, NoDup_app_remove_l, NoDup_app_remove_l in ND.
    apply (proj1 (NoDup_nth _ []) ND); try (rewrite map_length; auto). rewrite !nth_map_in with (da := ln0) by auto. auto.
Qed.
(** ** Tensor product cells *)
Definition t_E (dim o : nat) := match dim with 1 => [] | 2 => append_edges (tp_vert 2 o) 1 edges_2_4 o 4 | _ => append_edges (tp_vert 3 o) 1 edges_3_8 o 6 end.
Definition t_F (dim o : nat) := match dim with 1 => [] | 2 => [] | _ => append_tp_faces (tp_vert 3 o) 2 faces_3_8 o 6 end.
Definition t_B (dim o : nat) := match dim with 1 => append_edges (tp_vert 1 o) 3 [[0; 1]] o 2 | 2 => append_tp_faces (tp_vert 2 o) 3 [[0; 1; 2; 3]] o 4 | _ => append_tp_bubbles (tp_vert 3 o) 3 o 6 end.
Lemma tp_split : forall dim o, 1 <= dim <= 3 -> tp_all dim o = tp_vert dim o ++ t_E dim o ++ t_F dim o ++ t_B dim o.
Proof. intros dim o D. destruct dim as [|[|[|[|]]]]; try lia; reflexivity. Qed.
Lemma t_B_type : forall dim o n, 1 <= dim <= 3 -> In n (t_B dim o) -> ln_type n = 3.
Proof.
  intros dim o n D I. destruct dim as [|[|[|[|]]]]; try lia; cbn [t_B] in I.
  - rewrite edges_af in I. eapply af_In; eauto.
  - rewrite tpfaces_af in I. eapply af_In; eauto.
  - apply In_tp_bubbles in I. destruct I as (? & ? & ? & _ & _ & _ & ->). auto.
Qed.
Lemma length_tp_vert : forall dim o, 1 <= dim <= 3 -> length (tp_vert dim o) = 2 ^ dim.
Proof. intros dim o D. unfold tp_vert. rewrite map_length. destruct dim as [|[|[|[|]]]]; try lia; reflexivity. Qed.
(** The products of a point of the lattice *)
Lemma prod1 : forall o a, map (fun vm => fold_right Nat.mul 1 (map (fun d => nth (2 * d + nth d vm 0) (pt o [a]) 0) (seq 0 1))) (vertex_maps 1) = [o - a; a].
Proof. intros. cbn [vertex_maps map seq nth pt flat_map app Nat.mul plus fold_right]. rewrite !Nat.mul_1_r. auto. Qed.
Lemma prod2 : forall o a b, map (fun vm => fold_right Nat.mul 1 (map (fun d => nth (2 * d + nth d vm 0) (pt o [a; b]) 0) (seq 0 2))) (vertex_maps 2) = [(o - a) * (o - b); a * (o - b); a * b; (o - a) * b].
Proof. intros. cbn [vertex_maps map seq nth pt flat_map app Nat.mul plus fold_right]. rewrite !Nat.mul_1_r. auto. Qed.
Lemma prod3 : forall o a b c, map (fun vm => fold_right Nat.mul 1 (map (fun d => nth (2 * d + nth d vm 0) (pt o [a; b; c]) 0) (seq 0 3))) (vertex_maps 3) =
  [(o - a) * ((o - b) * (o - c)); a * ((o - b) * (o - c)); a * (b * (o - c)); (o - a) * (b * (o - c)); (o - a) * ((o - b) * c); a * ((o - b) * c); a * (b * c); (o - a) * (b * c)].
Proof. intros. cbn [vertex_maps map seq nth pt flat_map app Nat.mul plus fold_right]. rewrite !Nat.mul_1_r. auto. Qed.
Ltac gwc := unfold gw; cbn [combine map fst snd Nat.eqb seq list_sum fold_right]; rewrite ?Nat.sub_diag, ?Nat.sub_0_r, ?Nat.mul_0_r, ?Nat.mul_0_l, ?Nat.add_0_r, ?Nat.add_0_l.
Lemma sub_sub : forall o a, a <= o -> o - (o - a) = a. Proof. lia. Qed.
Ltac leq := repeat (apply f_equal2; [first [reflexivity | ring]|]); try reflexivity.
Lemma we_2 : forall o j i, j < 4 -> i < o - 1 -> tensor_w 2 (fnode 2 o o 4 1 (tp_vert 2 o) j (nth j edges_2_4 []) i) = map (fun x => o * gw (nth j edges_2_4 []) (fweights 2 o i) x) (seq 0 4).
Proof.
  intros o j i J I. unfold tensor_w, fnode. cbn [ln_node fweights]. destruct j as [|[|[|[|]]]]; try lia; cbn [nth edges_2_4]; tp_e; rewrite prod2; gwc; rewrite ?sub_sub by lia; leq.
Qed.
Lemma we_3 : forall o j i, j < 12 -> i < o - 1 -> tensor_w 3 (fnode 2 o o 6 1 (tp_vert 3 o) j (nth j edges_3_8 []) i) = map (fun x => o ^ 2 * gw (nth j edges_3_8 []) (fweights 2 o i) x) (seq 0 8).
Proof.
  intros o j i J I. unfold tensor_w, fnode. cbn [ln_node fweights Nat.pow]. destruct j as [|[|[|[|[|[|[|[|[|[|[|[|]]]]]]]]]]]]; try lia; cbn [nth edges_3_8]; tp_e; rewrite prod3; gwc; rewrite ?sub_sub by lia; leq.
Qed.
Lemma wf_3 : forall o j i, j < 6 -> i < fsize 4 o -> tensor_w 3 (fnode 4 o (o ^ 2) 6 2 (tp_vert 3 o) j (nth j faces_3_8 []) i) = map (fun x => o * gw (nth j faces_3_8 []) (fweights 4 o i) x) (seq 0 8).
Proof.
  intros o j i J I. unfold tensor_w, fnode. cbn [ln_node fweights fsize] in *. assert (P := nth_In _ (0, 0) I). destruct (nth i (sq (o - 1)) (0, 0)) as [a b]. apply In_sq in P. cbv zeta.
  destruct j as [|[|[|[|[|[|]]]]]]; try lia; cbn [nth faces_3_8]; tp_f; rewrite prod3; gwc; rewrite ?sub_sub by lia; leq.
Qed.
Lemma tensor_len : forall dim n, 1 <= dim <= 3 -> length (tensor_w dim n) = 2 ^ dim.
Proof. intros dim n D. unfold tensor_w. rewrite map_length. destruct dim as [|[|[|[|]]]]; try lia; reflexivity. Qed.
Lemma cube_pt : forall dim o t, cube_point dim o t -> exists is, length is = dim /\ (forall i, In i is -> i <= o) /\ t = pt o is.
Proof. intros dim o t (is & L & H & E). exists is. auto. Qed.
Lemma tensor_inj : forall dim o n n', 1 <= dim <= 3 -> 1 <= o -> cube_point dim o (ln_node n) -> cube_point dim o (ln_node n') -> tensor_w dim n = tensor_w dim n' -> ln_node n = ln_node n'.
Proof.
  intros dim o n n' D O H H' Q. apply cube_pt in H, H'. destruct H as (is & L & B & E), H' as (is' & L' & B' & E'). unfold tensor_w in Q. rewrite E, E' in *. f_equal. clear E E'.
  assert (K : forall a x, a <= o -> (o - a) * x + a * x = o * x) by (intros a x A; rewrite <- Nat.mul_add_distr_r; f_equal; lia).
  assert (K2 : forall x y, o * x = o * y -> x = y) by (intros x y; apply Nat.mul_cancel_l; lia).
  destruct dim as [|[|[|[|]]]]; try lia.
  - destruct is as [|a [|]]; try discriminate. destruct is' as [|a' [|]]; try discriminate. rewrite !prod1 in Q. congruence.
  - destruct is as [|a [|b [|]]]; try discriminate. destruct is' as [|a' [|b' [|]]]; try discriminate. rewrite !prod2 in Q. injection Q as Q0 Q1 Q2 Q3.
    assert (A := B a (or_introl eq_refl)). assert (Bb := B b (or_intror (or_introl eq_refl))). assert (A' := B' a' (or_introl eq_refl)). assert (Bb' := B' b' (or_intror (or_introl eq_refl))).
    assert (X1 := K a b A). assert (X2 := K a' b' A'). assert (X3 := K b a Bb). assert (X4 := K b' a' Bb'). assert (b = b') by (apply K2; lia). assert (a = a') by (apply K2; lia). subst; auto.
  - destruct is as [|a [|b [|c [|]]]]; try discriminate. destruct is' as [|a' [|b' [|c' [|]]]]; try discriminate. rewrite !prod3 in Q. injection Q as Q0 Q1 Q2 Q3 Q4 Q5 Q6 Q7.
    assert (A := B a ltac:(cbn; auto)). assert (Bb := B b ltac:(cbn; auto)). assert (C := B c ltac:(cbn; auto)). assert (A' := B' a' ltac:(cbn; auto)). assert (Bb' := B' b' ltac:(cbn; auto)). assert (C' := B' c' ltac:(cbn; auto)).
    assert (Y1 : b * c = b' * c') by (apply K2; rewrite <- (K a (b * c)), <- (K a' (b' * c')) by auto; lia).
    assert (Y2 : (o - b) * c = (o - b') * c') by (apply K2; rewrite <- (K a ((o - b) * c)), <- (K a' ((o - b') * c')) by auto; lia).
    assert (Y3 : b * (o - c) = b' * (o - c')) by (apply K2; rewrite <- (K a (b * (o - c))), <- (K a' (b' * (o - c'))) by auto; lia).
    assert (c = c') by (apply K2; rewrite <- (K b c), <- (K b' c') by auto; lia).
    assert (b = b') by (apply K2; rewrite <- (K c b), <- (K c' b') by auto; lia).
    assert (Y4 : a * c = a' * c') by (apply K2; rewrite <- (K b (a * c)), <- (K b' (a' * c')) by auto; subst; lia).
    assert (Y5 : a * (o - c) = a' * (o - c')) by (apply K2; rewrite <- (K b (a * (o - c))), <- (K b' (a' * (o - c'))) by auto; subst; lia).
    assert (a = a') by (apply K2; rewrite <- (K c a), <- (K c' a') by auto; lia). subst; auto.
Qed.
Lemma tp_vert_w : forall dim o a, 1 <= dim <= 3 -> a < 2 ^ dim -> tensor_w dim (nth a (tp_vert dim o) ln0) = map (fun x => o ^ dim * gw [a] [1] x) (seq 0 (2 ^ dim)).
Proof.
  intros dim o a D A. assert (Z : forall x, o - o * x = o * (1 - x) \/ 1 < x) by (intros [|[|]]; try lia). destruct dim as [|[|[|[|]]]]; try lia; cbn [Nat.pow Nat.mul plus] in A |- *;
  do 8 (destruct a as [|a]; [try lia; unfold tensor_w, tp_vert; cbn [vertex_maps length seq combine map fst snd flat_map app nth ln_node Nat.mul plus fold_right]; gwc; rewrite ?Nat.mul_1_r, ?Nat.sub_diag, ?Nat.sub_0_r; solve [leq]|]); lia.
Qed.
Lemma tensor_ctype : forall dim o, 1 <= dim <= 3 -> 1 <= o -> ctype (tgel dim) (tp_all dim o) o 4 (tensor_w dim) (tp_vert dim o) (t_E dim o) (t_F dim o) (t_B dim o).
Proof.
  intros dim o D O. assert (NV : g_nv (tgel dim) = 2 ^ dim) by (destruct dim as [|[|[|[|]]]]; try lia; reflexivity).
  destruct (C104_tensor_nodes D O) as (l & L1 & ND & _). rewrite tp_nodes_eq in L1 by auto. injection L1 as <-.
  assert (OK : forall n, In n (tp_all dim o) -> cube_point dim o (ln_node n) /\ same_set (tp_support dim (ln_node n)) (tp_entity dim n)) by (intros; apply tp_all_ok; auto).
  constructor.
  - apply tp_split; auto.
  - auto.
  - rewrite NV. destruct dim as [|[|[|[|]]]]; cbn; lia.
  - rewrite length_tp_vert; auto.
  - intros n I. unfold tp_vert in I. apply in_map_iff in I. destruct I as (k & <- & _). auto.
  - destruct dim as [|[|[|[|]]]]; try lia; cbn [tgel g_edges t_E].
    + split; auto. intros ? ? J0; cbn in J0; lia.
    + rewrite edges_af. apply (af_block 2).
    + rewrite edges_af. apply (af_block 2).
  - destruct dim as [|[|[|[|]]]]; try lia; cbn [tgel g_faces t_F].
    + split; auto. intros ? ? J0; cbn in J0; lia.
    + split; auto. intros ? ? J0; cbn in J0; lia.
    + rewrite tpfaces_af. apply (af_block 4).
  - intros n I. eapply t_B_type; eauto.
  - destruct dim as [|[|[|[|]]]]; try lia; cbn; auto; right; lia.
  - lia.
  - destruct dim as [|[|[|[|]]]]; try lia; cbn; auto; right; lia.
  - destruct dim as [|[|[|[|]]]]; try lia; apply refs_ok_ok; reflexivity.
  - destruct dim as [|[|[|[|]]]]; try lia; apply refs_ok_ok; reflexivity.
  - destruct dim as [|[|[|[|]]]]; try lia; apply distinct_ok; reflexivity.
  - destruct dim as [|[|[|[|]]]]; try lia; apply distinct_ok; reflexivity.
  - intros n I. rewrite NV. apply tensor_len. auto.
  - exists (o ^ dim). split; [apply Nat.neq_0_lt_0, Nat.pow_nonzero; lia|]. intros a A. rewrite NV in *. apply tp_vert_w; auto.
  - destruct dim as [|[|[|[|]]]]; try lia; cbn [tgel g_edges t_E g_nv].
    + exists 1. split; [lia|]. intros j i J. cbn in J. lia.
    + exists o. split; [lia|]. intros j i J I. rewrite edges_af. change (o - 1) with (fsize 2 o). rewrite af_nth by auto. apply we_2; auto.
    + exists (o ^ 2). split; [cbn; nia|]. intros j i J I. rewrite edges_af. change (o - 1) with (fsize 2 o). rewrite af_nth by auto. apply we_3; auto.
  - destruct dim as [|[|[|[|]]]]; try lia; cbn [tgel g_faces t_F g_nv].
    + exists 1. split; [lia|]. intros j i J. cbn in J. lia.
    + exists 1. split; [lia|]. intros j i J. cbn in J. lia.
    + exists o. split; [lia|]. intros j i J I. rewrite tpfaces_af. rewrite af_nth by auto. apply wf_3; auto.
  - intros n I x X. assert (I2 : In n (tp_all dim o)) by (rewrite tp_split, !in_app_iff by auto; auto). destruct (OK n I2) as (_ & Q3). unfold tp_entity in Q3. rewrite (@t_B_type dim o n) in Q3 by auto. unfold tensor_w in X. apply in_map_iff in X. destruct X as (vm & <- & VM).
    apply In_nth with (d := []) in VM. destruct VM as (k & K & <-). assert (Z : In k (tp_support dim (ln_node n))) by (apply Q3, in_seq; destruct dim as [|[|[|[|]]]]; try lia; cbn in *; lia).
    unfold tp_support in Z. apply filter_In in Z. destruct Z as [_ Z]. rewrite forallb_forall in Z.
    assert (G : forall l, (forall d, In d l -> In d (seq 0 dim)) -> 0 < fold_right Nat.mul 1 (map (fun d => nth (2 * d + nth d (nth k (vertex_maps dim) []) 0) (ln_node n) 0) l)).
    { induction l as [|d l IH]; intros H; [cbn; lia|]. cbn [map fold_right]. apply Nat.mul_pos_pos; [|apply IH; intros; apply H; right; auto]. specialize (Z d (H d (or_introl eq_refl))). apply negb_true_iff, Nat.eqb_neq in Z. lia. }
    apply G. auto.
  - intros i j I J Q. rewrite tp_split in ND by auto. rewrite !map_app in ND. apply NoDup_app_remove_l, NoDup_app_remove_l, NoDup_app_remove_l in ND.
    apply (proj1 (NoDup_nth _ []) ND); try (rewrite map_length; auto). rewrite !nth_map_in with (da := ln0) by auto. assert (IB : forall i, i < length (t_B dim o) -> In (nth i (t_B dim o) ln0) (tp_all dim o)) by (intros; rewrite tp_split, !in_app_iff by auto; right; right; right; apply nth_In; auto). apply (@tensor_inj dim o); auto; apply OK; auto.
Qed.
