(** C45: partitioning of cells; C46: ownership and numbering of DOFs in tasks. *)
From Coq Require Import Relations.
From Verif Require Import Base M_parallel L_parallel.
Set Implicit Arguments.

(** ** C45 *)
Lemma list_sum_counts : forall q r k, list_sum (map (fun i => q + (if i <? r then 1 else 0)) (seq 0 k))
  = k * q + Nat.min r k.
Proof.
  induction k as [|k IH]; [simpl; lia|].
  rewrite seq_S, map_app, list_sum_app, IH. simpl.
  destruct (Nat.ltb_spec k r); simpl; lia.
Qed.
Lemma counts_sum : forall n k, 0 < k -> list_sum (cell_counts n k) = n.
Proof.
  intros n k Hk. unfold cell_counts. rewrite list_sum_counts.
  pose proof (Nat.div_mod n k ltac:(lia)). pose proof (Nat.mod_upper_bound n k ltac:(lia)).
  rewrite Nat.min_l by lia. lia.
Qed.
(** The cumulative sums and [digitize]. *)
Lemma cumsum_last : forall l s d, last (cumsum_from s l) d = match l with [] => d | _ => s + list_sum l end.
Proof.
  induction l as [|x l IH]; intros s d; [reflexivity|].
  cbn [cumsum_from]. destruct l as [|y l].
  - simpl. lia.
  - change (last (s + x :: cumsum_from (s + x) (y :: l)) d) with (last (cumsum_from (s + x) (y :: l)) d).
    rewrite IH. simpl. lia.
Qed.
Lemma digitize_cons : forall x b l, digitize x (b :: l) = (if b <=? x then 1 else 0) + digitize x l.
Proof. intros. unfold digitize. simpl. destruct (b <=? x); reflexivity. Qed.
Lemma digitize_above : forall l s x, x < s -> digitize x (cumsum_from s l) = 0.
Proof.
  induction l as [|y l IH]; intros s x H; [reflexivity|].
  cbn [cumsum_from]. rewrite digitize_cons.
  destruct (Nat.leb_spec (s + y) x); [lia|]. rewrite IH by lia. reflexivity.
Qed.
(** The block of each task. *)
Lemma digitize_blocks : forall l s, map (fun x => digitize x (cumsum_from s l)) (seq s (list_sum l))
  = concat (map (fun ic => repeat (fst ic) (snd ic)) (combine (seq 0 (length l)) l)).
Proof.
  induction l as [|y l IH]; intros s; [reflexivity|].
  cbn [cumsum_from list_sum fold_right length seq combine map concat fst snd].
  change (fold_right Nat.add 0 l) with (list_sum l).
  rewrite seq_app, map_app. f_equal.
  - apply list_ext with (d := 0); [rewrite map_length, seq_length, repeat_length; auto|].
    intros k Hk. rewrite map_length, seq_length in Hk.
    rewrite nth_map_in with (da := 0) by (rewrite seq_length; auto). rewrite seq_nth by auto.
    rewrite nth_repeat_lt by auto. rewrite digitize_cons.
    destruct (Nat.leb_spec (s + y) (s + k)); [lia|]. rewrite digitize_above by lia. reflexivity.
  - transitivity (map S (map (fun x => digitize x (cumsum_from (s + y) l)) (seq (s + y) (list_sum l)))).
    + rewrite map_map. apply map_ext_in. intros x Hx. apply in_seq in Hx.
      rewrite digitize_cons. destruct (Nat.leb_spec (s + y) x); [reflexivity|lia].
    + rewrite IH, concat_map, map_map, <- seq_shift.
      f_equal. rewrite <- (map_id l) at 4.
      assert (C : forall (a b : list nat), combine (map S a) (map (fun x => x) b) =
                    map (fun p => (S (fst p), snd p)) (combine a b)).
      { induction a as [|? a IHa]; intros [|? b]; simpl; auto. f_equal; auto. }
      rewrite C, map_map. apply map_ext. intros [i c]. simpl.
      clear. induction c; simpl; f_equal; auto.
Qed.
Theorem C45_partition : forall n_el n_parts, 0 < n_parts <= n_el ->
  exists ct, partition_naive n_el n_parts = Ok ct /\ length ct = n_el /\
    (forall c, c < n_el -> nth c ct 0 < n_parts) /\
    StronglySorted le ct /\
    (forall t, t < n_parts -> n_el / n_parts <= count_occ Nat.eq_dec ct t <= n_el / n_parts + 1) /\
    (forall t u, t < u < n_parts -> count_occ Nat.eq_dec ct u <= count_occ Nat.eq_dec ct t) /\
    (forall t, t < n_parts -> 0 < count_occ Nat.eq_dec ct t).
Proof.
  intros n k Hk. set (counts := cell_counts n k).
  assert (Hpos : forallb (fun c => 0 <? c) counts = true).
  { apply forallb_forall. intros c Hc. unfold counts, cell_counts in Hc. apply in_map_iff in Hc.
    destruct Hc as [i [<- _]]. apply Nat.ltb_lt.
    assert (1 <= n / k) by (apply Nat.div_le_lower_bound; lia). lia. }
  assert (Lc : length counts = k) by (unfold counts, cell_counts; rewrite map_length, seq_length; auto).
  set (ct := concat (map (fun ic => repeat (fst ic) (snd ic)) (combine (seq 0 k) counts))).
  assert (E : partition_naive n k = Ok ct).
  { unfold partition_naive. fold counts. unfold counts at 1. rewrite counts_sum by lia.
    rewrite Nat.eqb_refl, Hpos. simpl negb. cbv iota. f_equal.
    cbn [cumsum_from]. rewrite Nat.add_0_l.
    assert (Ne : counts <> []) by (intros F; rewrite F in Lc; simpl in Lc; lia).
    assert (El : last (0 :: cumsum_from 0 counts) 0 = list_sum counts).
    { change (0 :: cumsum_from 0 counts) with (cumsum_from 0 (0 :: counts)). rewrite cumsum_last. reflexivity. }
    rewrite El. unfold ct. rewrite <- Lc, <- (digitize_blocks counts 0).
    apply map_ext. intros x. rewrite digitize_cons. simpl. lia. }
  exists ct. split; auto.
  assert (Cnt : forall t, t < k -> count_occ Nat.eq_dec ct t = nth t counts 0).
  { intros t Ht. unfold ct. rewrite <- Lc. clear Hpos E ct Hk.
    assert (G : forall l s t, count_occ Nat.eq_dec
        (concat (map (fun ic => repeat (fst ic) (snd ic)) (combine (seq s (length l)) l))) (s + t) = nth t l 0).
    { clear. induction l as [|c l IH]; intros s t; [simpl; destruct t; reflexivity|].
      cbn [length seq combine map concat fst snd]. rewrite count_occ_app.
      destruct t as [|t].
      - rewrite Nat.add_0_r. simpl nth.
        assert (R : count_occ Nat.eq_dec (repeat s c) s = c).
        { clear. induction c; simpl; auto. destruct (Nat.eq_dec s s); congruence. }
        rewrite R. rewrite (proj1 (count_occ_not_In Nat.eq_dec _ _)); [lia|].
        intros F. apply in_concat in F. destruct F as [r [Hr Hx]]. apply in_map_iff in Hr.
        destruct Hr as [[i c'] [<- Hi]]. apply in_combine_l in Hi. apply in_seq in Hi. simpl in Hx.
        apply repeat_spec in Hx. lia.
      - simpl nth. rewrite (proj1 (count_occ_not_In Nat.eq_dec (repeat s c) (s + S t))).
        + rewrite <- (IH (S s) t). replace (s + S t) with (S s + t) by lia. reflexivity.
        + intros F. apply repeat_spec in F. lia. }
    rewrite <- (G counts 0 t). reflexivity. }
  assert (Nc : forall t, t < k -> nth t counts 0 = n / k + (if t <? n mod k then 1 else 0)).
  { intros t Ht. unfold counts, cell_counts. rewrite nth_map_in with (da := 0) by (rewrite seq_length; auto).
    rewrite seq_nth by auto. reflexivity. }
  assert (Lct : length ct = n).
  { rewrite <- (@counts_sum n k) by lia. fold counts. unfold ct. rewrite <- Lc. clear.
    generalize 0 at 1. induction counts as [|c l IH]; intros s; simpl; auto.
    rewrite app_length, repeat_length, IH. reflexivity. }
  assert (Hin : forall x, In x ct -> x < k).
  { intros x Hx. unfold ct in Hx. apply in_concat in Hx. destruct Hx as [r [Hr Hx]].
    apply in_map_iff in Hr. destruct Hr as [[i c'] [<- Hi]]. apply in_combine_l in Hi. apply in_seq in Hi.
    simpl in Hx. apply repeat_spec in Hx. lia. }
  split; auto. split; [intros c Hc; apply Hin, nth_In; lia|]. split.
  { unfold ct. rewrite <- Lc. clear. generalize 0.
    induction counts as [|c l IH]; intros s; simpl; [constructor|].
    specialize (IH (S s)).
    assert (G : forall x, In x (concat (map (fun ic => repeat (fst ic) (snd ic)) (combine (seq (S s) (length l)) l))) -> s <= x).
    { intros x Hx. apply in_concat in Hx. destruct Hx as [r [Hr Hx]]. apply in_map_iff in Hr.
      destruct Hr as [[i c'] [<- Hi]]. apply in_combine_l in Hi. apply in_seq in Hi. simpl in Hx.
      apply repeat_spec in Hx. lia. }
    induction c as [|c IHc]; simpl; auto. constructor; auto. apply Forall_forall. intros x Hx.
    apply in_app_iff in Hx. destruct Hx as [Hx|Hx]; auto. apply repeat_spec in Hx. lia. }
  split; [|split].
  - intros t Ht. rewrite Cnt, Nc by auto. destruct (t <? n mod k); lia.
  - intros t u Ht. rewrite !Cnt, !Nc by lia.
    destruct (Nat.ltb_spec t (n mod k)), (Nat.ltb_spec u (n mod k)); lia.
  - intros t Ht. rewrite Cnt, Nc by auto.
    assert (1 <= n / k) by (apply Nat.div_le_lower_bound; lia). lia.
Qed.
Theorem C45_too_many_parts : forall n_el n_parts, n_el < n_parts ->
  partition_naive n_el n_parts = Err AssertionError.
Proof.
  intros n k H. unfold partition_naive. rewrite counts_sum by lia. rewrite Nat.eqb_refl.
  assert (E : forallb (fun c => 0 <? c) (cell_counts n k) = false).
  { apply not_true_iff_false. intros F. rewrite forallb_forall in F.
    assert (D : n / k = 0) by (apply Nat.div_small; auto).
    assert (Hi : In (n / k + (if (k - 1) <? n mod k then 1 else 0)) (cell_counts n k)).
    { unfold cell_counts. apply in_map_iff. exists (k - 1). split; auto. apply in_seq. lia. }
    apply F in Hi. rewrite D in Hi. rewrite (Nat.mod_small n k) in Hi by auto.
    destruct (Nat.ltb_spec (k - 1) n); [lia|]. discriminate. }
  rewrite E. reflexivity.
Qed.
Example C45_ex : partition_naive 7 3 = Ok [0; 0; 0; 1; 1; 2; 2].
Proof. reflexivity. Qed.
Print Assumptions C45_partition.

(** ** C46 *)
(** Specification: what is assumed of the mesh and of the field. *)
Section MeshSpec.
Variable m : fmesh.
Definition is_cell (c : nat) : Prop := c < f_ncell m.
Definition in_cell (d c : nat) : Prop := In d (f_econn m c).
Definition cell_of_facet (c f : nat) : Prop := f < length (f_cfc m) /\ In c (nth f (f_cfc m) []).
(** Two cells with a common facet (containing the DOF [d]). *)
Definition adjacent (a b : nat) : Prop := exists f, cell_of_facet a f /\ cell_of_facet b f.
Definition adjacent_at (d a b : nat) : Prop :=
  exists f, cell_of_facet a f /\ cell_of_facet b f /\ In d (f_fdofs m f).
(** A mesh with a field: each facet is in one or two cells, each DOF is in a cell
    and the DOFs of a facet are DOFs of its cells. *)
Definition mesh_field : Prop :=
  0 < f_ncell m /\
  (forall f, f < length (f_cfc m) -> NoDup (nth f (f_cfc m) []) /\
     1 <= length (nth f (f_cfc m) []) <= 2 /\ forall c, In c (nth f (f_cfc m) []) -> is_cell c) /\
  (forall d, d < f_ndof m <-> exists c, is_cell c /\ in_cell d c) /\
  (forall c d, is_cell c -> in_cell d c -> d < f_ndof m) /\
  (forall c f d, cell_of_facet c f -> (In d (f_frow m c f) <-> In d (f_fdofs m f))) /\
  (forall c f d, cell_of_facet c f -> In d (f_fdofs m f) -> in_cell d c) /\
  (forall f c d, In d (f_fdofs m f) -> is_cell c -> in_cell d c ->
     exists v, In v (f_fverts m f) /\ In v (f_cverts m c)) /\
  Permutation (f_all m) (seq 0 (f_ndof m)).
(** Any two cells are connected through facets. *)
Definition connected : Prop := forall a b, is_cell a -> is_cell b -> clos_refl_trans _ adjacent a b.
(** The cells around each DOF are connected through facets containing it. *)
Definition manifold : Prop := forall d a b, is_cell a -> is_cell b -> in_cell d a -> in_cell d b ->
  clos_refl_trans _ (adjacent_at d) a b.
End MeshSpec.
(** Each cell belongs to one of the tasks, each task has a cell. *)
Definition tasks_ok (m : fmesh) (ct : list nat) (n_tasks : nat) : Prop :=
  length ct = f_ncell m /\ (forall c, c < length ct -> nth c ct 0 < n_tasks) /\
  forall t, t < n_tasks -> exists c, c < length ct /\ nth c ct 0 = t.

(** The DOFs owned by each task, in the returned structure. *)
Definition owned_dofs (dm : dmap) : list nat :=
  match d_inner dm with Some l => l ++ concat (d_inter dm) | None => concat (d_inter dm) end.

Section C46.
Variable m : fmesh.
Variable nc : nat.
Variable ct : list nat.
Variable n_tasks : nat.
Hypothesis Hnc : 0 < nc.
Hypothesis Hm : mesh_field m.
Hypothesis Ht : tasks_ok m ct n_tasks.

Let inter := get_inter_facets m ct.
Let Hi := get_inter_facets_spec m ct.
Notation task c := (nth c ct 0).

Lemma cells_of_In : forall t c, In c (cells_of ct t) <-> c < f_ncell m /\ task c = t.
Proof.
  intros. unfold cells_of. rewrite (nonzero_spec _ 0). destruct Ht as [<- _].
  rewrite Nat.eqb_eq. split; intros [? ?]; auto.
Qed.
Lemma tdofs_In : forall t d, In d (tdofs m nc ct t) <-> exists c, c < f_ncell m /\ task c = t /\ In (d / nc) (f_econn m c).
Proof.
  intros. unfold tdofs. rewrite expand_In by auto. rewrite in_concat_skip. split.
  - intros [c [H1 H2]]. apply cells_of_In in H1. exists c; tauto.
  - intros (c & H1 & H2 & H3). exists c. split; auto. apply cells_of_In; auto.
Qed.
(** Facets between tasks. *)
Lemma inter_In : forall a b f, In f (get2 inter a b) <->
  a <> b /\ exists c c', cell_of_facet m c f /\ cell_of_facet m c' f /\ task c = a /\ task c' = b.
Proof.
  intros a b f. unfold inter. rewrite (proj2 Hi). rewrite filter_In. unfold inter_list. rewrite filter_In, in_seq.
  destruct Hm as (_ & Hf & _). split.
  - intros [[Hlt Hb] Hbw]. destruct (Hf f ltac:(lia)) as [Nf [Lf Cf]].
    unfold betw in Hbw. unfold facet_tasks in *. 
    destruct (nth f (f_cfc m) []) as [|x [|y [|z l]]] eqn:E; simpl in Lf, Hb, Hbw; try lia; try discriminate.
    apply negb_true_iff, Nat.eqb_neq in Hb.
    assert (Cx : cell_of_facet m x f) by (split; [lia|]; rewrite E; simpl; auto).
    assert (Cy : cell_of_facet m y f) by (split; [lia|]; rewrite E; simpl; auto).
    apply orb_true_iff in Hbw. rewrite !andb_true_iff, !Nat.eqb_eq in Hbw.
    destruct Hbw as [[<- <-]|[<- <-]].
    + split; auto. exists x, y; auto.
    + split; auto. exists y, x; auto.
  - intros [Hab (c & c' & [L1 C1] & [_ C2] & T1 & T2)].
    destruct (Hf f L1) as [Nf [Lf Cf]]. unfold betw, facet_tasks.
    destruct (nth f (f_cfc m) []) as [|x [|y [|z l]]] eqn:E; simpl in Lf; try lia.
    + simpl in C1, C2. destruct C1 as [<-|[]], C2 as [<-|[]]. congruence.
    + simpl in C1, C2.
      assert (D : (c = x /\ c' = y) \/ (c = y /\ c' = x)).
      { destruct C1 as [<-|[<-|[]]], C2 as [<-|[<-|[]]]; auto; congruence. }
      simpl. destruct D as [[-> ->]|[-> ->]]; rewrite T1, T2, !Nat.eqb_refl; simpl;
        destruct (Nat.eqb_spec a b); try congruence; destruct (Nat.eqb_spec b a); try congruence; simpl;
        rewrite ?orb_true_r; repeat split; auto; lia.
Qed.
Lemma inter_sym : forall a b, get2 inter a b = get2 inter b a.
Proof.
  intros. unfold inter. rewrite !(proj2 Hi). apply filter_ext. intros f. unfold betw.
  destruct (facet_tasks ct (nth f (f_cfc m) [])) as [x y]. apply orb_comm.
Qed.
Lemma cell_in_ok : forall a b f, In f (get2 inter a b) -> cell_of_facet m (cell_in m ct a f) f /\ task (cell_in m ct a f) = a.
Proof.
  intros a b f H. apply inter_In in H. destruct H as [_ (c & c' & [L C] & _ & T & _)].
  unfold cell_in. destruct (find _ _) eqn:E.
  - apply find_some in E. rewrite Nat.eqb_eq in E. split; [split|]; tauto.
  - exfalso. eapply find_none in E; eauto. simpl in E. apply Nat.eqb_neq in E. congruence.
Qed.
(** First change of the task along a path. *)
Lemma path_exit : forall (R : nat -> nat -> Prop) a b, clos_refl_trans _ R a b -> task a <> task b ->
  exists x y, R x y /\ task x = task a /\ task y <> task a.
Proof.
  intros R a b H. apply clos_rt_rt1n in H. induction H as [a|a y b Hr Hp IH]; intros Hne; [congruence|].
  destruct (Nat.eq_dec (task y) (task a)) as [E|E].
  - rewrite <- E in *. apply IH; auto.
  - exists a, y; auto.
Qed.

Variable is_overlap : bool.
Notation N := (f_ndof m * nc).

Lemma shared_on_inter : manifold m -> forall t t' d, t <> t' ->
  In d (tdofs m nc ct t) -> In d (tdofs m nc ct t') -> on_inter m nc inter t d.
Proof.
  intros Hman t t' d Hne H1 H2. apply tdofs_In in H1. apply tdofs_In in H2.
  destruct H1 as (a & A1 & A2 & A3), H2 as (b & B1 & B2 & B3).
  destruct (@path_exit _ _ _ (Hman _ a b A1 B1 A3 B3)) as (x & y & (f & F1 & F2 & F3) & X & Y); [congruence|].
  exists (task y), f. split; [|apply expand_In; auto].
  apply inter_In. split; [congruence|]. exists x, y. repeat split; try apply F1; try apply F2; congruence.
Qed.
Lemma div_lt_N : forall d, d / nc < f_ndof m <-> d < N.
Proof.
  intros. split; intros H.
  - pose proof (Nat.div_mod d nc ltac:(lia)). pose proof (Nat.mod_upper_bound d nc ltac:(lia)). nia.
  - apply Nat.div_lt_upper_bound; lia.
Qed.

Lemma seq_of_tasks : forall l, sinc l -> (forall x, In x l <-> x < n_tasks) -> l = seq 0 n_tasks.
Proof.
  intros l Hs H. apply sinc_ext; auto; [apply sinc_seq|]. intros x. rewrite H, in_seq. lia.
Qed.

Theorem C46_partition : connected m -> manifold m ->
  exists maps idm parts ovls,
    create_task_dof_maps m nc is_overlap ct (get_inter_facets m ct) = Ok (maps, idm, parts, ovls) /\
    (* one entry per task *)
    map fst maps = seq 0 n_tasks /\ length parts = n_tasks /\ length ovls = n_tasks /\
    (* each DOF is owned by exactly one task *)
    Permutation (concat (map (fun kv => owned_dofs (snd kv)) maps)) (seq 0 N) /\
    (* the numbering is a permutation *)
    Permutation idm (seq 0 N) /\
    forall t dm, nth_error maps t = Some (t, dm) ->
      d_inner dm <> None /\ d_n dm = length (owned_dofs dm) /\
      (* tasks have consecutive ranges *)
      d_off dm = list_sum (map (fun kv => d_n (snd kv)) (firstn t maps)) /\
      (forall d, d < N -> (In d (owned_dofs dm) <-> d_off dm <= nth d idm 0 < d_off dm + d_n dm)) /\
      (* a task owns DOFs of its cells only *)
      (forall d, In d (owned_dofs dm) -> exists c, is_cell m c /\ task c = t /\ in_cell m (d / nc) c) /\
      (forall c, In c (nth t parts []) <-> is_cell m c /\ task c = t) /\
      (* all cells with a DOF owned by the task are known to it *)
      (is_overlap = true -> forall d c, In d (owned_dofs dm) -> is_cell m c -> in_cell m (d / nc) c ->
         In c (nth t parts []) \/ In c (nth t ovls [])).
Proof.
  intros Hcon Hman. fold inter.
  assert (Hm' := Hm). destruct Hm' as (M0 & M1 & M2 & M3 & M4 & M5 & M6 & M7).
  assert (Ht' := Ht). destruct Ht' as (T1 & T2 & T3).
  assert (EO : forall dm, owned_dofs dm = owned dm).
  { intros dm. unfold owned_dofs, owned. destruct (d_inner dm); auto. }
  assert (Hdof : forall d, d < N -> exists t, t < n_tasks /\ In d (tdofs m nc ct t)).
  { intros d Hd. apply div_lt_N in Hd. apply M2 in Hd. destruct Hd as [c [C1 C2]].
    exists (task c). split; [apply T2; rewrite T1; auto|]. apply tdofs_In. exists c; auto. }
  assert (HdN : forall t d, In d (tdofs m nc ct t) -> d < N).
  { intros t d Hd. apply tdofs_In in Hd. destruct Hd as (c & C1 & C2 & C3). apply div_lt_N. eauto. }
  assert (Ikeys : forall t, In t (map fst inter) <-> exists x, get2 inter t x <> []).
  { apply (proj2 (proj2 (proj1 Hi))). }
  (* the empty case: a single task *)
  destruct (Nat.eq_dec n_tasks 0) as [->|Hn0].
  { exfalso. specialize (T2 0). rewrite T1 in T2. lia. }
  destruct (Nat.eq_dec n_tasks 1) as [H1|H1].
  { assert (Etask : forall c, is_cell m c -> task c = 0).
    { intros c Hc. specialize (T2 c). rewrite T1 in T2. unfold is_cell in Hc. lia. }
    assert (Ei : inter = []).
    { assert (G : forall t nt r, inter = (t, nt) :: r -> False); [|destruct inter as [|[t nt] r]; auto; exfalso; eauto].
      intros t nt r E.
      assert (Hin : In t (map fst inter)) by (rewrite E; simpl; auto).
      apply Ikeys in Hin. destruct Hin as [x Hx]. destruct (get2 inter t x) as [|f l] eqn:Eg; [congruence|].
      assert (Hf : In f (get2 inter t x)) by (rewrite Eg; simpl; auto).
      apply inter_In in Hf. destruct Hf as [Hne (c & c' & [L1 F1] & [L2 F2] & X1 & X2)].
      destruct (M1 f L1) as (_ & _ & Cc). rewrite (Etask c) in X1 by auto. rewrite (Etask c') in X2 by auto. congruence. }
    rewrite Ei. unfold create_task_dof_maps. simpl.
    eexists; eexists; eexists; eexists. split; [reflexivity|]. rewrite H1.
    assert (PE : Permutation (expand_dofs nc (f_all m)) (seq 0 N)).
    { rewrite <- expand_seq by auto. apply expand_perm; auto. }
    assert (LE := Permutation_length PE). rewrite seq_length in LE. rewrite LE.
    split; [reflexivity|]. split; [reflexivity|]. split; [reflexivity|].
    split. { unfold owned_dofs. simpl. rewrite !app_nil_r. auto. }
    split; auto.
    intros [|t] dm Hdm; simpl in Hdm; [|destruct t; discriminate].
    inversion Hdm; subst dm; clear Hdm. unfold owned_dofs. simpl. rewrite app_nil_r.
    split; [discriminate|]. split; auto. split; auto.
    assert (HIn : forall d, In d (expand_dofs nc (f_all m)) <-> d < N).
    { intros d. split; intros H.
      - apply (Permutation_in _ PE) in H. apply in_seq in H. lia.
      - apply (Permutation_in _ (Permutation_sym PE)). apply in_seq. lia. }
    split. { intros d Hd. rewrite HIn. rewrite nth_seq0 by auto. lia. }
    split. { intros d Hd. apply HIn in Hd. apply div_lt_N, M2 in Hd. destruct Hd as [c [C1 C2]]. exists c; auto. }
    split. { intros c. rewrite in_seq, T1. unfold is_cell. split; intros; [split; [lia|apply Etask; unfold is_cell; lia]|lia]. }
    intros _ d c _ Hc _. left. apply in_seq. unfold is_cell in Hc. lia. }
  (* several tasks: each has an interface *)
  assert (Hkeys : forall t, In t (map fst inter) <-> t < n_tasks).
  { intros t. rewrite Ikeys. split.
    - intros [x Hx]. destruct (get2 inter t x) as [|f l] eqn:Eg; [congruence|].
      assert (Hf : In f (get2 inter t x)) by (rewrite Eg; simpl; auto).
      apply inter_In in Hf. destruct Hf as [Hne (c & c' & [L1 F1] & _ & X1 & _)].
      destruct (M1 f L1) as (_ & _ & Cc). rewrite <- X1. apply T2. rewrite T1. apply Cc; auto.
    - intros Hlt. destruct (T3 t Hlt) as [a [A1 A2]].
      destruct (T3 (if t =? 0 then 1 else 0)) as [b [B1 B2]]; [destruct (t =? 0); lia|].
      rewrite T1 in A1, B1.
      destruct (@path_exit _ _ _ (Hcon a b A1 B1)) as (x & y & (f & F1 & F2) & X & Y).
      { rewrite A2, B2. destruct (Nat.eqb_spec t 0); lia. }
      exists (task y). intros F. assert (Hf : In f (get2 inter t (task y))).
      { apply inter_In. split; [congruence|]. exists x, y. repeat split; try apply F1; try apply F2; congruence. }
      rewrite F in Hf. destruct Hf. }
  assert (Hsorted : map fst (ordered_items inter []) = seq 0 n_tasks).
  { rewrite ordered_items_keys. apply seq_of_tasks; [apply unique_sinc|]. intros x. rewrite unique_In. auto. }
  assert (Hfd : forall a b f d, In f (get2 inter a b) -> In d (efdofs m nc f) -> In d (tdofs m nc ct a)).
  { intros a b f d Hf Hd. apply tdofs_In. destruct (cell_in_ok _ _ _ Hf) as [[L C] T].
    exists (cell_in m ct a f). split; [apply (M1 f L); auto|]. split; auto.
    apply (M5 _ f); [split; auto|]. apply expand_In in Hd; auto. }
  assert (Hrow : forall a b f d, In f (get2 inter a b) ->
    (In d (f_frow m (cell_in m ct a f) f) <-> In d (f_fdofs m f))).
  { intros a b f d Hf. apply M4. apply (cell_in_ok _ _ _ Hf). }
  destruct (@L_parallel.tasks_ok m nc is_overlap ct inter Hnc (proj1 Hi) inter_sym Hrow Hfd HdN
      (fun f c d H1 H2 H3 => M6 f c d H1 H2 H3) (shared_on_inter Hman)
      (ordered_items inter []) [] (repeat 0 N, [])) as (st & Est & Inv & _).
  - (* initial invariant *)
    split; [constructor|]. split; [apply repeat_length|]. split; [constructor|].
    split. { intros d Hd. rewrite nth_repeat_lt by auto. split; auto. }
    split; [intros t dm []|]. split; [intros t d []|intros t []].
  - intros t nt H. apply ordered_items_in in H. destruct H as [H ->]. apply (proj2 (aget_key _ _)) in H.
    destruct H as [nt E]. unfold get_or. rewrite E. reflexivity.
  - rewrite Hsorted. apply seq_NoDup.
  - intros t _ [].
  - rewrite Hsorted, app_nil_r in Inv.
    assert (Hdone : forall t, In t (rev (seq 0 n_tasks)) <-> t < n_tasks).
    { intros t. rewrite <- in_rev, in_seq. lia. }
    destruct st as [idm maps]. destruct Inv as (I1 & I2 & I3 & I4 & I5 & I6 & I7).
    unfold create_task_dof_maps. rewrite Est. cbn [bind].
    set (items := ordered_items maps dm0).
    assert (Pit : Permutation items maps) by (apply ordered_items_perm; auto).
    assert (Kmaps : forall t, In t (map fst maps) <-> t < n_tasks).
    { intros t. split.
      - intros H. apply in_map_iff in H. destruct H as [[t' dm] [<- H]]. apply Hkeys. apply (I5 _ _ H).
      - intros H. apply I7. apply Hdone; auto. }
    assert (Kit : map fst items = seq 0 n_tasks).
    { unfold items. rewrite ordered_items_keys. apply seq_of_tasks; [apply unique_sinc|].
      intros x. rewrite unique_In. auto. }
    assert (Hit : forall t dm, In (t, dm) items -> d_inner dm <> None /\ d_n dm = length (owned dm)).
    { intros t dm H. apply (Permutation_in _ Pit) in H. destruct (I5 _ _ H) as (J1 & J2 & J3 & J4 & J5 & J6).
      split; auto. apply J5. apply Hdone, Hkeys; auto. }
    rewrite number_loop_spec by auto. cbn [bind].
    assert (Lit : length items = n_tasks) by (rewrite <- (map_length fst), Kit, seq_length; auto).
    assert (Lof : length (offsets items 0) = n_tasks).
    { rewrite <- (map_length fst), offsets_keys, Kit, seq_length; auto. }
    rewrite Lof. destruct (Nat.eqb_spec n_tasks 0); [lia|].
    rewrite !map_length. rewrite Lit. destruct (Nat.eqb_spec n_tasks 0); [lia|].
    assert (Li : length (ordered_items inter []) = n_tasks).
    { rewrite <- (map_length fst), Hsorted, seq_length; auto. }
    rewrite Li. destruct (Nat.eqb_spec n_tasks 0); [lia|].
    set (L := all_owned items).
    assert (PL : Permutation L (seq 0 N)).
    { assert (PLm : Permutation L (all_owned maps)).
      { unfold L, all_owned. clear - Pit. induction Pit; simpl; auto.
        - apply Permutation_app_head; auto.
        - apply Permutation_app_swap_app.
        - etransitivity; eauto. }
      rewrite PLm. apply NoDup_Permutation; auto; [apply seq_NoDup|].
      intros d. rewrite in_seq. split.
      - intros Hd. apply all_owned_In in Hd. destruct Hd as (t & dm & D1 & D2).
        destruct (I5 _ _ D1) as (J1 & J2 & J3 & _). specialize (J3 d D2). specialize (HdN t d J3). lia.
      - intros Hd. destruct (Hdof d ltac:(lia)) as [t [Tt Td]]. apply (I6 t); auto. apply Hdone; auto. }
    assert (LL : length L = N) by (rewrite (Permutation_length PL), seq_length; auto).
    assert (NL : NoDup L) by (eapply Permutation_NoDup; [symmetry; exact PL|apply seq_NoDup]).
    rewrite LL. set (idm' := put idm L (seq 0 N)).
    assert (Hid : forall k, k < N -> nth (nth k L 0) idm' 0 = k).
    { intros k Hk. unfold idm'. rewrite put_nth; auto.
      - apply nth_seq0; auto.
      - intros i Hil. rewrite I2. apply (Permutation_in _ PL), in_seq in Hil. lia.
      - rewrite seq_length; auto.
      - lia. }
    assert (Lid : length idm' = N) by (unfold idm'; rewrite length_put; auto).
    eexists; eexists; eexists; eexists. split; [reflexivity|].
    split; [rewrite offsets_keys; auto|]. split; [rewrite map_length; auto|]. split; [rewrite map_length; auto|].
    split.
    { rewrite (map_ext (fun kv => owned_dofs (snd kv)) (fun kv => owned (snd kv))) by (intros; apply EO).
      fold (all_owned (offsets items 0)). rewrite offsets_owned. exact PL. }
    split.
    { apply NoDup_Permutation_bis.
      - apply (NoDup_nth idm' 0). intros i j Hi' Hj E. rewrite Lid in Hi', Hj.
        assert (Ai : In i L) by (apply (Permutation_in _ (Permutation_sym PL)), in_seq; lia).
        assert (Aj : In j L) by (apply (Permutation_in _ (Permutation_sym PL)), in_seq; lia).
        apply (In_nth _ _ 0) in Ai. apply (In_nth _ _ 0) in Aj.
        destruct Ai as [a [A1 <-]], Aj as [b [B1 <-]]. rewrite LL in A1, B1. rewrite !Hid in E by auto. congruence.
      - rewrite Lid, seq_length. auto.
      - intros x Hx. apply (In_nth _ _ 0) in Hx. destruct Hx as [i [Hi' <-]]. rewrite Lid in Hi'.
        assert (Ai : In i L) by (apply (Permutation_in _ (Permutation_sym PL)), in_seq; lia).
        apply (In_nth _ _ 0) in Ai. destruct Ai as [a [A1 <-]]. rewrite LL in A1. rewrite Hid by auto.
        apply in_seq. lia. }
    intros t dm Hdm.
    assert (Hdm' := Hdm). apply offsets_nth in Hdm. destruct Hdm as (dm' & D1 & D2 & D3 & D4 & D5 & D6).
    assert (Eo : owned_dofs dm = owned dm') by (unfold owned_dofs, owned; rewrite D2, D3; destruct (d_inner dm'); auto).
    assert (Hin : In (t, dm') items) by (eapply nth_error_In; eauto).
    assert (Hin' := Permutation_in _ Pit Hin). destruct (I5 _ _ Hin') as (J1 & J2 & J3 & J4 & J5 & J6).
    assert (Htlt : t < n_tasks) by (apply Hkeys; auto).
    assert (Dn : d_n dm = length (owned_dofs dm)) by (rewrite D5, J2, Eo; auto).
    assert (Doff : d_off dm = length (all_owned (firstn t items))).
    { rewrite D6. simpl.
      assert (G : forall l, (forall t dm, In (t, dm) l -> d_n dm = length (owned dm)) ->
               list_sum (map (fun kv => d_n (snd kv)) l) = length (all_owned l)).
      { clear. induction l as [|[t dm] l IH]; intros H; [reflexivity|].
        unfold all_owned in *. simpl. rewrite app_length, <- IH.
        - rewrite (H t dm); simpl; auto.
        - intros; apply (H t0); simpl; auto. }
      apply G. intros t' e He. apply in_firstn in He. apply (Hit _ _ He). }
    (* the position of the owned DOFs in L *)
    assert (EL : L = all_owned (firstn t items) ++ owned dm' ++ all_owned (skipn (S t) items)).
    { apply nth_error_split in D1. destruct D1 as (l1 & l2 & El & Ll). unfold L, all_owned.
      rewrite El. clear - Ll. 
      assert (G : forall e, concat (map (fun kv : nat * dmap => owned (snd kv)) (l1 ++ e :: l2)) =
        concat (map (fun kv => owned (snd kv)) (firstn t (l1 ++ e :: l2))) ++ owned (snd e) ++
        concat (map (fun kv => owned (snd kv)) (skipn (S t) (l1 ++ e :: l2)))).
      { intros e. rewrite firstn_app, skipn_app. rewrite firstn_all2, skipn_all2 by lia.
        replace (t - length l1) with 0 by lia. replace (S t - length l1) with 1 by lia.
        simpl. rewrite app_nil_r, map_app, concat_app. reflexivity. }
      apply (G (t, dm')). }
    split; [rewrite D2; apply (Hit _ _ Hin)|]. split; auto. split.
    { rewrite D6. simpl. f_equal. rewrite <- (map_map snd d_n), <- (map_map snd d_n (firstn t (offsets items 0))).
      clear. assert (G : forall l off, map d_n (map snd (firstn t l)) = map d_n (map snd (firstn t (offsets l off)))).
      { induction t as [|t IH]; intros l off; [reflexivity|]. destruct l as [|[k dm] l]; [reflexivity|].
        simpl. f_equal. apply IH. }
      apply G. }
    split.
    { intros d Hd. rewrite Eo.
      assert (Ai : In d L) by (apply (Permutation_in _ (Permutation_sym PL)), in_seq; lia).
      apply (In_nth _ _ 0) in Ai. destruct Ai as [k [K1 K2]]. rewrite LL in K1.
      assert (Ek : nth d idm' 0 = k) by (rewrite <- K2; apply Hid; auto). rewrite Ek, Doff, Dn, Eo.
      set (o := length (all_owned (firstn t items))) in *.
      split.
      - intros Ho. apply (In_nth _ _ 0) in Ho. destruct Ho as [j [Hj1 Hj2]].
        assert (E2 : nth (o + j) L 0 = d).
        { rewrite EL, app_nth2 by (unfold o; lia). replace (o + j - _) with j by (unfold o; lia).
          rewrite app_nth1; auto. }
        assert (k = o + j); [|lia].
        apply (proj1 (NoDup_nth L 0) NL); [lia| |congruence].
        rewrite EL, !app_length. fold o. lia.
      - intros Hr. rewrite <- K2, EL, app_nth2 by (fold o; lia). fold o. rewrite app_nth1 by lia.
        apply nth_In. lia. }
    split. { intros d Hd. rewrite Eo in Hd. apply J3 in Hd. apply tdofs_In in Hd. exact Hd. }
    assert (Hpart : forall c, In c (nth t (map (fun tn => cells_of ct (fst tn)) (ordered_items inter [])) []) <->
                     is_cell m c /\ task c = t).
    { intros c. rewrite <- (map_map fst (cells_of ct)), Hsorted.
      rewrite nth_map_in with (da := 0) by (rewrite seq_length; auto). rewrite nth_seq0 by auto. apply cells_of_In. }
    split; auto.
    intros Ho d c Hd Hc Hdc. rewrite Eo in Hd. unfold owned in Hd.
    destruct (d_inner dm') as [l|] eqn:El; [|exfalso; apply (Hit _ _ Hin); auto].
    apply in_app_iff in Hd. destruct Hd as [Hd|Hd].
    + left. apply Hpart. split; auto. destruct (Nat.eq_dec (task c) t) as [|Hne]; auto. exfalso.
      apply (proj2 (J6 l eq_refl) d Hd). apply (shared_on_inter Hman (t' := task c)); auto.
      * apply J3. unfold owned. rewrite El. apply in_app_iff; auto.
      * apply tdofs_In. exists c. auto.
    + right. rewrite nth_map_in with (da := (0, dm0)) by lia.
      rewrite (nth_error_nth _ _ _ D1). simpl. apply unique_In. apply (J4 d Hd); auto.
Qed.
End C46.
Print Assumptions C46_partition.
