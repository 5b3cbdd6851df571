(** C46: an example, the failures of distributing DOFs over badly connected
    parts, and [verify_task_dof_maps]. *)
From Coq Require Import Relations.
From Verif Require Import Base M_parallel L_parallel P_parallel.
Set Implicit Arguments.

(** A strip of three quadrilateral cells, a linear field:
    4---5---6---7
    | 0 | 1 | 2 |
    0---1---2---3  *)
Definition strip : fmesh :=
  let vs c := if c <? 3 then [c; c + 1; c + 5; c + 4] else [] in
  let fs f := nth f [[0; 4]; [1; 5]; [2; 6]; [3; 7]; [0; 1]; [1; 2]; [2; 3]; [4; 5]; [5; 6]; [6; 7]] [] in
  mkfmesh 3 [[0]; [0; 1]; [1; 2]; [2]; [0]; [1]; [2]; [0]; [1]; [2]]
    fs vs 8 vs (fun _ => fs) fs (seq 0 8).
Lemma strip_adj : forall a b, a < 3 -> b < 3 -> (a = S b \/ b = S a) -> adjacent strip a b.
Proof.
  intros a b Ha Hb H.
  exists (Nat.max a b). assert (D : a = 0 /\ b = 1 \/ a = 1 /\ b = 0 \/ a = 1 /\ b = 2 \/ a = 2 /\ b = 1) by lia.
  destruct D as [[-> ->]|[[-> ->]|[[-> ->]|[-> ->]]]]; split; split; simpl; auto; lia.
Qed.
Ltac three c H := destruct c as [|[|[|c]]]; [| | |exfalso; revert H; unfold is_cell, strip; cbn; lia].
Example C46_ex_mesh : mesh_field strip /\ connected strip /\ manifold strip /\ tasks_ok strip [0; 0; 1] 2.
Proof.
  split; [|split; [|split]].
  - split; [simpl; lia|]. split.
    { intros f Hf. simpl in Hf. do 10 (destruct f as [|f];
        [split; [repeat constructor; simpl; intuition congruence|split; [simpl; lia|]];
         simpl; intros c Hc; unfold is_cell; simpl; intuition lia|]). lia. }
    split.
    { intros d. split.
      - simpl. intros Hd.
        destruct (le_lt_dec (d mod 4) 2) as [H|H].
        + exists (d mod 4). do 8 (destruct d as [|d]; [unfold is_cell, in_cell; cbn in *; intuition lia|]). lia.
        + exists 2. do 8 (destruct d as [|d]; [unfold is_cell, in_cell; cbn in *; intuition lia|]). lia.
      - intros [c [Hc Hd]]. three c Hc; unfold in_cell in Hd; cbn in *; intuition lia. }
    split. { intros c d Hc Hd. three c Hc; unfold in_cell in Hd; cbn in *; intuition lia. }
    split. { intros; reflexivity. }
    split.
    { intros c f d [Hf Hc] Hd. cbn in Hf.
      do 10 (destruct f as [|f]; [unfold in_cell; cbn in *; intuition (subst; cbn; auto; lia)|]). lia. }
    split.
    { intros f c d Hd Hc Hdc. exists d. split; auto. }
    apply Permutation_refl.
  - intros a b Ha Hb. three a Ha; three b Hb; try apply rt_refl;
      try (apply rt_step, strip_adj; lia); apply rt_trans with 1; apply rt_step, strip_adj; lia.
  - intros d a b Ha Hb H1 H2. three a Ha; three b Hb; try apply rt_refl; try (exfalso; unfold in_cell in *; cbn in *; intuition lia);
      apply rt_step; unfold in_cell in *; cbn in H1, H2; red; first
        [exists 1; unfold cell_of_facet; cbn; intuition (auto; lia)|exists 2; unfold cell_of_facet; cbn; intuition (auto; lia)].
  - split; [reflexivity|]. split.
    + intros c Hc. cbn in Hc. do 3 (destruct c as [|c]; [cbn; lia|]). lia.
    + intros [|[|t]] Ht; [exists 0|exists 2|lia]; cbn; lia.
Qed.
(** Two components: task 0 owns both interface nodes 2 and 6. *)
Example C46_ex : create_task_dof_maps strip 2 true [0; 0; 1] (get_inter_facets strip [0; 0; 1]) =
  Ok ([(0, mkdm (Some [0; 1; 2; 3; 8; 9; 10; 11]) [[4; 5; 12; 13]] [[1; 2; 1; 2]] 12 0);
       (1, mkdm (Some [6; 7; 14; 15]) [] [] 4 12)],
      [0; 1; 2; 3; 8; 9; 12; 13; 4; 5; 6; 7; 10; 11; 14; 15], [[0; 1]; [2]], [[1; 2]; []]).
Proof. vm_compute. reflexivity. Qed.

(** Without connectedness: two cells with a common facet and a third one that
    touches nothing, each in its own task.  Nothing is reported and the DOFs of
    the third cell (4, 5) belong to no task; their numbers in [id_map] collide
    with the number of DOF 0. *)
Definition islands : fmesh :=
  let vs c := nth c [[0; 1]; [1; 2]; [4; 5]] [] in
  let fs f := nth f [[0]; [1]; [2]; [4]; [5]] [] in
  mkfmesh 3 [[0]; [0; 1]; [1]; [2]; [2]] fs vs 6
    (fun c => nth c [[0; 1]; [1; 2]; [4; 5; 3]] []) (fun _ => fs) fs (seq 0 6).
Theorem C46_disconnected_refuted :
  tasks_ok islands [0; 1; 2] 3 /\ manifold islands /\ mesh_field islands /\
  exists maps idm parts ovls,
    create_task_dof_maps islands 1 true [0; 1; 2] (get_inter_facets islands [0; 1; 2]) = Ok (maps, idm, parts, ovls) /\
    length parts = 2 /\
    ~ Permutation (concat (map (fun kv => owned_dofs (snd kv)) maps)) (seq 0 6) /\
    (forall t, ~ In 2 (nth t parts [])) /\
    nth 4 idm 9 = nth 0 idm 9.
Proof.
  split; [|split; [|split]].
  - split; [reflexivity|]. split.
    + intros c Hc. cbn in Hc. do 3 (destruct c as [|c]; [cbn; lia|]). lia.
    + intros [|[|[|t]]] Ht; [exists 0|exists 1|exists 2|lia]; cbn; lia.
  - intros d a b Ha Hb H1 H2. unfold is_cell in Ha, Hb. cbn in Ha, Hb.
    destruct a as [|[|[|a]]]; [| | |lia]; (destruct b as [|[|[|b]]]; [| | |lia]); try apply rt_refl;
      try (exfalso; unfold in_cell in *; cbn in *; intuition lia); apply rt_step; exists 1;
      unfold in_cell in *; cbn in H1, H2; unfold cell_of_facet; cbn; intuition (auto; lia).
  - split; [cbn; lia|]. split.
    { intros f Hf. cbn in Hf. do 5 (destruct f as [|f];
        [split; [repeat constructor; simpl; intuition congruence|split; [simpl; lia|]];
         simpl; intros c Hc; unfold is_cell; simpl; intuition lia|]). lia. }
    assert (Hb : forall c d, is_cell islands c -> in_cell islands d c -> d < f_ndof islands).
    { intros c d Hc Hd. unfold is_cell, in_cell in *. cbn in Hc. do 3 (destruct c as [|c]; [cbn in *; intuition lia|]). lia. }
    split.
    { intros d. split; [|intros [c [H1 H2]]; eauto]. cbn. intros Hd. 
      do 2 (destruct d as [|d]; [exists 0; unfold is_cell, in_cell; cbn; intuition lia|]).
      destruct d as [|d]; [exists 1; unfold is_cell, in_cell; cbn; intuition lia|].
      do 3 (destruct d as [|d]; [exists 2; unfold is_cell, in_cell; cbn; intuition lia|]). lia. }
    split; auto. split; [intros; reflexivity|]. split.
    { intros c f d [Hf Hc] Hd. cbn in Hf.
      do 5 (destruct f as [|f]; [unfold in_cell; cbn in *; intuition (subst; cbn; auto; lia)|]). lia. }
    split; [|apply Permutation_refl].
    intros f c d Hd Hc Hdc. exists d. split; auto. 
    unfold in_cell, is_cell in *. cbn in Hc. 
    do 2 (destruct c as [|c]; [exact Hdc|]). destruct c as [|c]; [|lia]. cbn in Hdc |- *.
    destruct Hdc as [|[|[<-|[]]]]; auto. exfalso.
    do 5 (destruct f as [|f]; [cbn in Hd; intuition lia|]). destruct f; destruct Hd.
  - do 4 eexists. split; [vm_compute; reflexivity|]. split; [reflexivity|]. split; [|split].
    + intros H. apply Permutation_length in H. cbn in H. lia.
    + intros [|[|t]]; cbn; [intuition lia|intuition lia|destruct t; intros []].
    + reflexivity.
Qed.
(** Two cells touching in a vertex only while connected through a third one
    (not a manifold at the vertex): an AssertionError, a DOF is claimed as
    inner by two tasks. *)
Definition pinched : fmesh :=
  (* triangles around vertex 0, connected through edges away from it *)
  let vs c := nth c [[0; 1; 2]; [1; 2; 5]; [2; 5; 3]; [5; 3; 4]; [0; 3; 4]] [] in
  let fs f := nth f [[1; 2]; [2; 5]; [5; 3]; [3; 4]] [] in
  mkfmesh 5 [[0; 1]; [1; 2]; [2; 3]; [3; 4]] fs vs 6 vs (fun _ => fs) fs (seq 0 6).
Theorem C46_pinched_refuted :
  connected pinched /\ tasks_ok pinched [0; 1; 1; 1; 2] 3 /\
  create_task_dof_maps pinched 1 true [0; 1; 1; 1; 2] (get_inter_facets pinched [0; 1; 1; 1; 2]) = Err AssertionError.
Proof.
  split; [|split; [|vm_compute; reflexivity]].
  - assert (St : forall k, k < 4 -> adjacent pinched k (S k) /\ adjacent pinched (S k) k).
    { intros k Hk. assert (D : k = 0 \/ k = 1 \/ k = 2 \/ k = 3) by lia.
      destruct D as [-> | [-> | [-> | ->]]]; split;
        match goal with |- adjacent _ ?a ?b => exists (Nat.min a b) end;
        unfold cell_of_facet; cbn; intuition lia. }
    assert (Up : forall n a, a + n < 5 -> clos_refl_trans _ (adjacent pinched) a (a + n) /\
                                 clos_refl_trans _ (adjacent pinched) (a + n) a).
    { induction n as [|n IH]; intros a H; [rewrite Nat.add_0_r; split; apply rt_refl|].
      destruct (IH a ltac:(lia)) as [P Q]. destruct (St (a + n) ltac:(lia)) as [S1 S2].
      replace (a + S n) with (S (a + n)) by lia. split.
      - eapply rt_trans; [exact P|apply rt_step; auto].
      - eapply rt_trans; [apply rt_step; exact S2|auto]. }
    intros a b Ha Hb. unfold is_cell in *. cbn in Ha, Hb.
    destruct (le_lt_dec a b) as [H|H].
    + replace b with (a + (b - a)) by lia. apply Up; lia.
    + replace a with (b + (a - b)) by lia. apply Up; lia.
  - split; [reflexivity|]. split.
    + intros c Hc. cbn in Hc. do 5 (destruct c as [|c]; [cbn; lia|]). lia.
    + intros [|[|[|t]]] Ht; [exists 0|exists 1|exists 4|lia]; cbn; lia.
Qed.

(** ** The result of distributing one field: see C46_partition. *)
Definition distribution (n_tasks N : nat) (maps : list (nat * dmap)) (idm : list nat) : Prop :=
  map fst maps = seq 0 n_tasks /\
  Permutation (concat (map (fun kv => owned_dofs (snd kv)) maps)) (seq 0 N) /\
  Permutation idm (seq 0 N) /\
  forall t dm, nth_error maps t = Some (t, dm) ->
    d_inner dm <> None /\ d_n dm = length (owned_dofs dm) /\
    d_off dm = list_sum (map (fun kv => d_n (snd kv)) (firstn t maps)) /\
    forall d, d < N -> (In d (owned_dofs dm) <-> d_off dm <= nth d idm 0 < d_off dm + d_n dm).
Corollary C46_distribution : forall m nc ct n_tasks is_overlap maps idm parts ovls,
  0 < nc -> mesh_field m -> tasks_ok m ct n_tasks -> connected m -> manifold m ->
  create_task_dof_maps m nc is_overlap ct (get_inter_facets m ct) = Ok (maps, idm, parts, ovls) ->
  distribution n_tasks (f_ndof m * nc) maps idm.
Proof.
  intros m nc ct n_tasks ov maps idm parts ovls Hnc Hm Ht Hc Hf E.
  destruct (@C46_partition m nc ct n_tasks Hnc Hm Ht ov Hc Hf) as (maps' & idm' & parts' & ovls' & E' & P1 & _ & _ & P2 & P3 & P4).
  rewrite E in E'. inversion E'; subst. split; auto. split; auto. split; auto.
  intros t dm H. destruct (P4 t dm H) as (Q1 & Q2 & Q3 & Q4 & _). auto.
Qed.

Lemma dm_owned_eq : forall dm, concat (dm_blocks dm) = owned_dofs dm.
Proof. intros. unfold dm_blocks, owned_dofs. destruct (d_inner dm); reflexivity. Qed.
Lemma ordered_items_seq : forall A (maps : list (nat * A)) n v, map fst maps = seq 0 n -> ordered_items maps v = maps.
Proof.
  intros A maps n v H. unfold ordered_items.
  assert (E : unique (map fst maps) = map fst maps).
  { apply sinc_ext; [apply unique_sinc|rewrite H; apply sinc_seq|intros; apply unique_In]. }
  rewrite E, map_map. rewrite <- (map_id maps) at 2. apply map_ext_in. intros [k x] Hx. simpl. f_equal.
  unfold get_or. rewrite (@in_aget _ maps k x); auto. rewrite H. apply seq_NoDup.
Qed.
Lemma forallb_concat : forall A (p : A -> bool) ls, forallb (forallb p) ls = forallb p (concat ls).
Proof. induction ls; simpl; auto. rewrite forallb_app, IHls. reflexivity. Qed.
Definition all_owned' (items : list (nat * dmap)) : list nat := concat (map (fun kv => owned_dofs (snd kv)) items).
(** What the loop computes, if it ends. *)
Lemma verify_loop_inv : forall expanded idm items vec dofs count count2 vec' dofs' c' c2',
  verify_loop expanded idm items (vec, dofs, count, count2) = Ok (vec', dofs', c', c2') ->
  length vec' = length vec /\ dofs' = dofs ++ all_owned' items /\
  c' = count + length (all_owned' items) /\ c2' = count2 + list_sum (map (fun kv => d_n (snd kv)) items) /\
  (forall d, In d (all_owned' items) -> d < length vec) /\
  (NoDup (all_owned' items) -> forall t dm d, In (t, dm) items -> In d (owned_dofs dm) -> nth d vec' 0 = t) /\
  (forall d, ~ In d (all_owned' items) -> nth d vec' 0 = nth d vec 0) /\
  (expanded = false -> forall t dm d, In (t, dm) items -> In d (owned_dofs dm) ->
     d < length idm /\ d_off dm <= nth d idm 0 < d_off dm + d_n dm).
Proof.
  intros expanded idm. induction items as [|[ir dm] items IH]; intros vec dofs count count2 vec' dofs' c' c2' E.
  - inversion E; subst. unfold all_owned'. simpl. rewrite app_nil_r. repeat split; auto; try lia; intros; tauto.
  - cbn [verify_loop] in E. destruct (has_inner dm) eqn:Eh; [|discriminate]. cbn [negb] in E.
    destruct (if expanded then Ok tt else verify_range idm dm) as [u|] eqn:Er; [|discriminate]. cbn [bind] in E.
    rewrite dm_owned_eq in E.
    destruct (forallb (fun d => d <? length vec) (owned_dofs dm)) eqn:Ef; [|discriminate]. cbn [negb] in E.
    rewrite forallb_forall in Ef.
    apply IH in E. destruct E as (A1 & A2 & A3 & A4 & A5 & A6 & A7 & A8).
    rewrite length_put1 in *.
    assert (EA : all_owned' ((ir, dm) :: items) = owned_dofs dm ++ all_owned' items) by reflexivity.
    rewrite EA. rewrite app_length. cbn [map list_sum fold_right snd].
    change (fold_right Nat.add 0 (map (fun kv : nat * dmap => d_n (snd kv)) items)) with
      (list_sum (map (fun kv : nat * dmap => d_n (snd kv)) items)).
    split; auto. split; [rewrite A2, app_assoc; auto|]. split; [lia|]. split; [lia|].
    split. { intros d Hd. apply in_app_iff in Hd. destruct Hd as [Hd|Hd]; auto. apply Ef in Hd. apply Nat.ltb_lt; auto. }
    split.
    { intros Hnd t dm' d [Hin|Hin] Hd.
      - inversion Hin; subst t dm'. rewrite A7.
        + assert (Hlt := Ef d Hd). apply Nat.ltb_lt in Hlt. rewrite nth_put1 by auto.
          destruct (in_dec Nat.eq_dec d (owned_dofs dm)); tauto.
        + apply NoDup_app_inv in Hnd. apply Hnd; auto.
      - apply (A6 (NoDup_app_remove_l _ _ Hnd) t dm' d Hin Hd). }
    split.
    { intros d Hd. rewrite in_app_iff in Hd. rewrite A7 by tauto.
      destruct (le_lt_dec (length vec) d) as [Hl|Hl]; [rewrite !nth_overflow; rewrite ?length_put1; auto|].
      rewrite nth_put1 by auto. destruct (in_dec Nat.eq_dec d (owned_dofs dm)); tauto. }
    intros -> t dm' d [Hin|Hin] Hd.
    + inversion Hin; subst t dm'. unfold verify_range in Er.
      rewrite !forallb_concat, !dm_owned_eq in Er.
      destruct (forallb (fun d => d <? length idm) (owned_dofs dm)) eqn:E1; [|discriminate]. cbn [negb] in Er.
      destruct (forallb _ (owned_dofs dm)) eqn:E2 in Er; [|discriminate].
      rewrite forallb_forall in E1, E2. specialize (E1 d Hd). specialize (E2 d Hd).
      apply Nat.ltb_lt in E1. apply andb_true_iff in E2. rewrite Nat.leb_le, Nat.ltb_lt in E2. auto.
    + eapply A8; eauto.
Qed.

Lemma all_owned_ordered : forall maps, NoDup (map fst maps) ->
  Permutation (all_owned' (ordered_items maps dm0)) (all_owned' maps).
Proof.
  intros maps H. apply (@ordered_items_perm _ maps dm0) in H. unfold all_owned'. 
  generalize (ordered_items maps dm0) H. clear H. intros l H. induction H; simpl; auto.
  - apply Permutation_app_head; auto.
  - apply Permutation_app_swap_app.
  - etransitivity; eauto.
Qed.
Lemma sinc_length_lt : forall l n, sinc l -> (forall x, In x l -> x < n) -> length l = n -> l = seq 0 n.
Proof.
  intros l n Hs Hb Hl. apply sinc_ext; auto; [apply sinc_seq|]. intros x. split.
  - intros H. apply in_seq. specialize (Hb x H). lia.
  - assert (P : Permutation l (seq 0 n)).
    { apply NoDup_Permutation_bis; [apply sinc_NoDup; auto|rewrite seq_length; lia|].
      intros y Hy. apply in_seq. specialize (Hb y Hy). lia. }
    apply Permutation_in. symmetry; auto.
Qed.
Lemma unique_length_NoDup : forall l, length (unique l) = length l -> NoDup l.
Proof.
  intros l H. assert (P : Permutation (unique l) l).
  { apply NoDup_Permutation_bis; [apply sinc_NoDup, unique_sinc|lia|]. intros x. apply unique_In. }
  eapply Permutation_NoDup; [exact P|apply sinc_NoDup, unique_sinc].
Qed.
Lemma unique_NoDup_length : forall l, NoDup l -> length (unique l) = length l.
Proof.
  intros l H. apply Permutation_length. apply NoDup_Permutation; auto; [apply sinc_NoDup, unique_sinc|].
  intros; apply unique_In.
Qed.

(** What a passed verification guarantees: each DOF has exactly one owner, the
    returned vector gives it, the numbers are distinct. *)
Theorem C46_verify_sound : forall expanded junk maps idm vec, NoDup (map fst maps) ->
  verify_task_dof_maps expanded junk maps idm = Ok vec ->
  let n := length junk in
  Permutation (concat (map (fun kv => owned_dofs (snd kv)) maps)) (seq 0 n) /\
  length vec = n /\
  (forall t dm d, In (t, dm) maps -> In d (owned_dofs dm) -> nth d vec 0 = t) /\
  length idm = n /\ NoDup idm /\
  (expanded = false -> forall t dm d, In (t, dm) maps -> In d (owned_dofs dm) ->
     d_off dm <= nth d idm 0 < d_off dm + d_n dm).
Proof.
  intros expanded junk maps idm vec Hnd E n. unfold verify_task_dof_maps in E. fold n in E.
  destruct (verify_loop _ _ _ _) as [[[[v dofs] c] c2]|] eqn:El; [|discriminate]. cbn [bind] in E.
  destruct (length maps =? 0); [discriminate|].
  destruct (Nat.eqb_spec n (length dofs)) as [H1|]; [|discriminate]. cbn [negb] in E.
  destruct (Nat.eqb_spec n (length (unique dofs))) as [H2|]; [|discriminate]. cbn [negb] in E.
  destruct (length (unique dofs) =? 0); [discriminate|].
  destruct (Nat.eqb_spec n (last (unique dofs) 0 + 1)) as [H3|]; [|discriminate]. cbn [negb] in E.
  destruct (Nat.eqb_spec n c) as [H4|]; [|discriminate]. cbn [negb] in E.
  destruct (Nat.eqb_spec n c2) as [H5|]; [|discriminate]. cbn [negb] in E.
  destruct (Nat.eqb_spec n (length idm)) as [H6|]; [|discriminate]. cbn [negb] in E.
  destruct (Nat.eqb_spec n (length (unique idm))) as [H7|]; [|discriminate]. cbn [negb] in E.
  inversion E; subst v. clear E.
  apply verify_loop_inv in El. destruct El as (A1 & A2 & A3 & A4 & A5 & A6 & A7 & A8). simpl in A2.
  assert (Nd : NoDup dofs) by (apply unique_length_NoDup; lia).
  assert (Po := @all_owned_ordered maps Hnd). rewrite <- A2 in Po.
  assert (Hin : forall t dm, In (t, dm) maps <-> In (t, dm) (ordered_items maps dm0)).
  { intros. assert (P := @ordered_items_perm _ maps dm0 Hnd). split; apply Permutation_in; auto. symmetry; auto. }
  fold (all_owned' maps). fold n in A1, A5.
  split. { rewrite <- Po. apply NoDup_Permutation_bis; auto; [rewrite seq_length; lia|].
           intros x Hx. apply in_seq. rewrite A2 in Hx. apply A5 in Hx. lia. }
  split; auto. split. { intros t dm d H. apply Hin in H. apply A6; auto. rewrite <- A2; auto. }
  split; auto. split; [apply unique_length_NoDup; lia|].
  intros He t dm d H Hd. apply Hin in H. apply (A8 He t dm d H Hd).
Qed.
(** A correct distribution passes. *)
Theorem C46_verify_complete : forall expanded junk maps idm n_tasks, 0 < length junk ->
  distribution n_tasks (length junk) maps idm ->
  exists vec, verify_task_dof_maps expanded junk maps idm = Ok vec.
Proof.
  intros expanded junk maps idm n_tasks Hj (D1 & D2 & D3 & D4).
  unfold verify_task_dof_maps. rewrite (@ordered_items_seq _ maps n_tasks dm0 D1).
  set (n := length junk) in *.
  assert (Hidx : forall k t dm, nth_error maps k = Some (t, dm) -> t = k).
  { intros k t dm H. assert (E := map_nth_error fst _ _ H). rewrite D1 in E. simpl in E.
    assert (Hk : k < n_tasks) by (rewrite <- (seq_length n_tasks 0); apply nth_error_Some; congruence).
    apply (nth_error_nth _ _ 0) in E. rewrite nth_seq0 in E; auto. }
  assert (Hok : forall t dm, In (t, dm) maps -> d_inner dm <> None /\ d_n dm = length (owned_dofs dm) /\
     forall d, In d (owned_dofs dm) -> d < n /\ d_off dm <= nth d idm 0 < d_off dm + d_n dm).
  { intros t dm H. assert (H' := H). apply In_nth_error in H. destruct H as [k Hk]. assert (t = k) by eauto. subst k.
    destruct (D4 t dm Hk) as (Q1 & Q2 & Q3 & Q4). split; auto. split; auto. intros d Hd.
    assert (Hlt : d < n).
    { assert (I : In d (seq 0 n)); [|apply in_seq in I; lia]. apply (Permutation_in _ D2).
      apply in_concat_skip. exists (t, dm). auto. }
    split; auto. apply Q4; auto. }
  assert (Li : length idm = n) by (rewrite (Permutation_length D3), seq_length; auto).
  assert (G : forall items vec dofs c c2, (forall x, In x items -> In x maps) -> length vec = n ->
    exists vec', verify_loop expanded idm items (vec, dofs, c, c2) =
      Ok (vec', dofs ++ all_owned' items, c + length (all_owned' items), c2 + length (all_owned' items))).
  { induction items as [|[t dm] items IH]; intros vec dofs c c2 Hs Hv.
    - exists vec. unfold all_owned'. simpl. rewrite app_nil_r, !Nat.add_0_r. reflexivity.
    - destruct (Hok t dm (Hs _ (or_introl eq_refl))) as (Q1 & Q2 & Q3).
      cbn [verify_loop]. unfold has_inner. destruct (d_inner dm) eqn:Ed; [|congruence]. cbn [negb].
      assert (Er : (if expanded then Ok tt else verify_range idm dm) = Ok tt).
      { destruct expanded; auto. unfold verify_range. rewrite !forallb_concat, !dm_owned_eq.
        replace (forallb (fun d => d <? length idm) (owned_dofs dm)) with true.
        - cbn [negb]. match goal with |- (if negb ?b then _ else _) = _ => replace b with true; auto end.
          symmetry. apply forallb_forall. intros d Hd. apply Q3 in Hd. apply andb_true_iff.
          rewrite Nat.leb_le, Nat.ltb_lt. lia.
        - symmetry. apply forallb_forall. intros d Hd. apply Q3 in Hd. apply Nat.ltb_lt. lia. }
      rewrite Er. cbn [bind]. rewrite dm_owned_eq.
      replace (forallb (fun d => d <? length vec) (owned_dofs dm)) with true;
        [|symmetry; apply forallb_forall; intros d Hd; apply Q3 in Hd; apply Nat.ltb_lt; lia].
      cbn [negb].
      destruct (IH (put1 vec (owned_dofs dm) t) (dofs ++ owned_dofs dm) (c + length (owned_dofs dm)) (c2 + d_n dm)) as [vec' E].
      { intros x Hx. apply Hs. right; auto. }
      { rewrite length_put1; auto. }
      exists vec'. rewrite E. unfold all_owned'. cbn [map concat snd]. rewrite app_length, <- app_assoc.
      f_equal. f_equal; [f_equal|]; lia. }
  destruct (G maps junk [] 0 0 (fun x H => H) eq_refl) as [vec' E]. rewrite E. cbn [bind].
  assert (Nm : length maps <> 0).
  { intros F. destruct maps; [|discriminate]. simpl in D2. apply Permutation_length in D2. rewrite seq_length in D2. simpl in D2. lia. }
  destruct (Nat.eqb_spec (length maps) 0) as [|_]; [lia|]. simpl app.
  assert (La : length (all_owned' maps) = n) by (unfold all_owned'; rewrite (Permutation_length D2), seq_length; auto).
  rewrite La. rewrite Nat.eqb_refl. cbn [negb].
  assert (Eu : unique (all_owned' maps) = seq 0 n).
  { apply sinc_ext; [apply unique_sinc|apply sinc_seq|]. intros x. rewrite unique_In. unfold all_owned'.
    split; [apply Permutation_in; auto|apply Permutation_in; symmetry; auto]. }
  rewrite Eu, seq_length, Nat.eqb_refl. cbn [negb]. destruct (Nat.eqb_spec n 0); [lia|].
  assert (Els : last (seq 0 n) 0 = n - 1).
  { destruct n as [|k]; [lia|]. rewrite seq_S. rewrite last_last. lia. }
  rewrite Els. replace (n - 1 + 1) with n by lia. rewrite !Nat.eqb_refl. cbn [negb]. rewrite ?Li, ?Nat.eqb_refl. cbn [negb].
  rewrite unique_NoDup_length, Li, Nat.eqb_refl; [|eapply Permutation_NoDup; [symmetry; exact D3|apply seq_NoDup]].
  cbn [negb]. eauto.
Qed.
(** The numbering itself is not verified: numbers outside of [0, n) pass, as the
    comparison of the DOFs with [id_map] depends on a function being false. *)
Theorem C46_verify_refuted : exists junk maps idm vec expanded,
  verify_task_dof_maps expanded junk maps idm = Ok vec /\ length junk = 3 /\ ~ Permutation idm (seq 0 3) /\
  nth 0 idm 0 = 5.
Proof.
  exists [0; 0; 0], [(0, mkdm (Some [0; 1; 2]) [] [] 3 5)], [5; 6; 7], [0; 0; 0], false.
  split; [reflexivity|]. split; auto. split; auto. intros H.
  assert (F : In 5 (seq 0 3)) by (apply (Permutation_in _ H); simpl; auto). simpl in F. intuition lia.
Qed.
Example C46_verify_ex : verify_task_dof_maps true (repeat 9 16)
  [(0, mkdm (Some [0; 1; 2; 3; 8; 9; 10; 11]) [[4; 5; 12; 13]] [[1; 2; 1; 2]] 12 0);
   (1, mkdm (Some [6; 7; 14; 15]) [] [] 4 12)]
  [0; 1; 2; 3; 8; 9; 12; 13; 4; 5; 6; 7; 10; 11; 14; 15] =
  Ok [0; 0; 0; 0; 0; 0; 1; 1; 0; 0; 0; 0; 0; 0; 1; 1].
Proof. vm_compute. reflexivity. Qed.
Print Assumptions C46_verify_sound.
Print Assumptions C46_disconnected_refuted.
