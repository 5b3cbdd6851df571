(** C83, C84: the theorems for the distribution made by [create_task_dof_maps],
    and the failures of repeated assembling. *)
From Verif Require Import Base BaseSum S_assemble M_assemble M_parallel L_parallel P_parallel P_parallel2 M_passemble P_passemble.
Set Implicit Arguments.

(** ** Overlap cells are cells. *)
Section Ovl.
Variable m : fmesh.
Variables (nc : nat) (ov : bool) (ct : list nat).
Definition ovl_ok (maps : list (nat * dmap)) : Prop :=
  forall t dm c, In (t, dm) maps -> In c (concat (d_ovl dm)) -> c < f_ncell m.
Lemma in_aset : forall A (d : list (nat * A)) k v t x, In (t, x) (aset d k v) -> (t = k /\ x = v) \/ In (t, x) d.
Proof.
  induction d as [|[k' v'] d IH]; intros k v t x H; simpl in H.
  - destruct H as [E|[]]. inversion E; auto.
  - destruct (Nat.eqb_spec k k').
    + destruct H as [E|H]; [inversion E; subst; auto|]. right; simpl; auto.
    + destruct H as [E|H]; [right; simpl; auto|]. apply IH in H. destruct H; auto. right; simpl; auto.
Qed.
Lemma get_or_in : forall A (d : list (nat * A)) k v, In (k, get_or d k v) d \/ get_or d k v = v.
Proof. intros. unfold get_or. destruct (aget d k) eqn:E; auto. left. apply aget_in; auto. Qed.
Lemma ovl_get : forall maps t c, ovl_ok maps -> In c (concat (d_ovl (get_or maps t dm0))) -> c < f_ncell m.
Proof.
  intros maps t c H Hc. destruct (get_or_in maps t dm0) as [G|G]; [eapply H; eauto|]. rewrite G in Hc. destruct Hc.
Qed.
Lemma ovl_setdefault : forall maps t, ovl_ok maps -> ovl_ok (setdefault maps t dm0).
Proof.
  intros maps t H. unfold setdefault. destruct (aget maps t); auto. intros t' dm c Hin Hc.
  apply in_aset in Hin. destruct Hin as [[-> ->]|Hin]; [destruct Hc|eapply H; eauto].
Qed.
Lemma ovl_half : forall t rows facets idm maps, ovl_ok maps -> ovl_ok (snd (half_step m nc ov t rows facets (idm, maps))).
Proof.
  intros t rows facets idm maps H. unfold half_step. destruct (_ =? 0); auto. cbn [snd]. intros t' dm c Hin Hc.
  apply in_aset in Hin. destruct Hin as [[-> ->]|Hin]; [|eapply H; eauto]. cbn [d_ovl] in Hc.
  destruct ov; [|eapply ovl_get; eauto]. rewrite concat_app, in_app_iff in Hc. destruct Hc as [Hc|Hc]; [eapply ovl_get; eauto|].
  simpl in Hc. rewrite app_nil_r in Hc. unfold cells_around in Hc. apply in_concat_skip in Hc. destruct Hc as [v [_ Hc]].
  apply filter_In in Hc. destruct Hc as [Hc _]. apply in_seq in Hc. lia.
Qed.
Lemma ovl_pair : forall ir st nf, ovl_ok (snd st) -> ovl_ok (snd (pair_step m nc ov ct ir st nf)).
Proof.
  intros ir [idm maps] [ic facets] H. unfold pair_step.
  assert (G := @ovl_half ir (firstn (Nat.max (length (map (fun f => f_frow m (cell_in m ct ir f) f) facets) / 2) 1)
     (map (fun f => f_frow m (cell_in m ct ir f) f) facets))
     (firstn (Nat.max (length (map (fun f => f_frow m (cell_in m ct ir f) f) facets) / 2) 1) facets) idm _ (@ovl_setdefault maps ic H)).
  destruct (half_step m nc ov ir _ _ (idm, setdefault maps ic dm0)) as [idm2 maps2]. apply ovl_half. exact G.
Qed.
Lemma ovl_tasks : forall items st st', ovl_ok (snd st) -> tasks_loop m nc ov ct items st = Ok st' -> ovl_ok (snd st').
Proof.
  induction items as [|[ir nt] items IH]; intros [idm maps] st' H E; cbn [tasks_loop] in E; [inversion E; subst; auto|].
  destruct (task_step m nc ov ct (idm, maps) (ir, nt)) as [st1|] eqn:E1; [|discriminate]. cbn [bind] in E.
  eapply IH; [|exact E]. unfold task_step in E1.
  assert (F : forall l st, ovl_ok (snd st) -> ovl_ok (snd (fold_left (pair_step m nc ov ct ir) l st))).
  { induction l as [|x l IHl]; intros st0 H0; simpl; auto. apply IHl. apply ovl_pair; auto. }
  assert (F1 := F (ordered_items nt []) (idm, setdefault maps ir dm0) (@ovl_setdefault maps ir H)).
  destruct (fold_left _ _ _) as [idm2 maps2]. cbn [snd] in F1. cbv zeta in E1.
  destruct (negb _); [discriminate|]. inversion E1; subst. cbn [snd]. intros t' dm c Hin Hc.
  apply in_aset in Hin. destruct Hin as [[-> ->]|Hin]; [|eapply F1; eauto]. cbn [d_ovl] in Hc. eapply ovl_get; eauto.
Qed.
Lemma ovl_number : forall items idm off maps' idm' ovls', ovl_ok items ->
  number_loop items idm off = Ok (maps', idm', ovls') -> forall l c, In l ovls' -> In c l -> c < f_ncell m.
Proof.
  induction items as [|[t dm] items IH]; intros idm off maps' idm' ovls' H E; cbn [number_loop] in E; [inversion E; subst; intros l c []|].
  destruct (d_inner dm); [|discriminate]. destruct (number_inter _ _ _) as [idm2 stop].
  destruct (negb _); [discriminate|].
  destruct (number_loop items idm2 (off + d_n dm)) as [[[mm ii] oo]|] eqn:E1; [|discriminate]. cbn [bind] in E.
  inversion E; subst. intros l' c [<-|Hl] Hc.
  - apply (proj1 (unique_In _ _)) in Hc. eapply H; [left; reflexivity|exact Hc].
  - eapply IH; eauto. intros t1 dm1 c1 Hin Hc1. eapply H; [right; exact Hin|exact Hc1].
Qed.
Lemma ovl_cells : forall inter maps idm parts ovls,
  create_task_dof_maps m nc ov ct inter = Ok (maps, idm, parts, ovls) ->
  forall t c, In c (nth t ovls []) -> c < f_ncell m.
Proof.
  intros inter maps idm parts ovls E t c Hc. unfold create_task_dof_maps in E.
  destruct (tasks_loop _ _ _ _ _ _) as [[idm1 maps1]|] eqn:E1; [|discriminate]. cbn [bind] in E.
  destruct (number_loop _ _ _) as [[[mm ii] oo]|] eqn:E2; [|discriminate]. cbn [bind] in E.
  destruct (length mm =? 0); inversion E; subst; clear E;
  (assert (H1 : ovl_ok maps1) by (refine (@ovl_tasks _ _ _ _ E1); intros ? ? ? []);
   assert (H2 : ovl_ok (ordered_items maps1 dm0)) by
     (intros t' dm' c' Hin Hc'; apply ordered_items_in in Hin; destruct Hin as [_ ->]; eapply ovl_get; eauto);
   destruct (length oo =? 0); [destruct t as [|[|t]]; destruct Hc|];
   destruct (le_lt_dec (length oo) t); [rewrite nth_overflow in Hc by auto; destruct Hc|];
   eapply ovl_number; eauto; apply nth_In; auto).
Qed.
End Ovl.

(** ** The theorems *)
Section Final.
Variable V : Type.
Variables (v0 v1 : V) (add mul : V -> V -> V).
Hypothesis SR : semi_ring_theory v0 v1 add mul eq.
Variable is0 : V -> bool.
Hypothesis His0 : forall x, is0 x = true <-> x = v0.
(** The mesh, the field, the partitioning. *)
Variable m : fmesh.
Variables (nc n_tasks : nat) (ct : list nat) (is_overlap : bool).
Hypothesis Hnc : 0 < nc.
Hypothesis Hm : mesh_field m.
Hypothesis Hconn : connected m.
Hypothesis Hman : manifold m.
Hypothesis Ht : tasks_ok m ct n_tasks.
Variables (maps : list (nat * dmap)) (idm : list nat) (parts ovls : list (list nat)).
Hypothesis Hdist : create_task_dof_maps m nc is_overlap ct (get_inter_facets m ct) = Ok (maps, idm, parts, ovls).
(** Fixed DOFs have negative equation numbers. *)
Variable eqg : list Z.
Notation NN := (f_ndof m * nc).
Hypothesis Heqg : length eqg = NN /\ forall k, k < NN -> (nth k eqg 0 < 0)%Z \/ nth k eqg 0%Z = Z.of_nat k.
(** The local problems of the tasks. *)
Variable lps : nat -> local_problem.
Hypothesis Hlps : forall t, t < n_tasks -> localizes nc (f_econn m) eqg (lps t) /\ lp_cells (lps t) = local_cells parts ovls t.
Definition lo (t : nat) : nat := d_off (get_or maps t dm0).
Definition hi (t : nat) : nat := d_off (get_or maps t dm0) + d_n (get_or maps t dm0).

Lemma fin_dist : distribution n_tasks NN maps idm.
Proof. exact (@C46_distribution m nc ct n_tasks is_overlap maps idm parts ovls Hnc Hm Ht Hconn Hman Hdist). Qed.
Lemma fin_part : forall t dm, nth_error maps t = Some (t, dm) -> t < n_tasks -> get_or maps t dm0 = dm.
Proof.
  intros t dm H Hlt. destruct fin_dist as (D1 & _).
  unfold get_or. rewrite (@in_aget _ maps t dm); auto; [rewrite D1; apply seq_NoDup|eapply nth_error_In; eauto].
Qed.
Lemma fin_nth : forall t, t < n_tasks -> exists dm, nth_error maps t = Some (t, dm) /\ get_or maps t dm0 = dm.
Proof.
  intros t Hlt. destruct fin_dist as (D1 & _).
  assert (L : length maps = n_tasks) by (rewrite <- (map_length fst), D1, seq_length; auto).
  destruct (nth_error maps t) as [[t' dm]|] eqn:E; [|apply nth_error_None in E; lia].
  assert (t' = t).
  { assert (E' := map_nth_error fst _ _ E). rewrite D1 in E'. apply (nth_error_nth _ _ 0) in E'. rewrite nth_seq0 in E'; auto. }
  subst t'. exists dm. split; auto. apply fin_part; auto.
Qed.
Lemma fin_cells : forall t c, t < n_tasks -> In c (lp_cells (lps t)) -> c < f_ncell m.
Proof.
  intros t c Hlt Hc. destruct (Hlps Hlt) as [_ E]. rewrite E in Hc. unfold local_cells in Hc. apply union1d_In in Hc.
  destruct Hc as [Hc|Hc]; [|eapply ovl_cells; eauto].
  destruct (@C46_partition m nc ct n_tasks Hnc Hm Ht is_overlap Hconn Hman) as (maps' & idm' & parts' & ovls' & E' & _ & _ & _ & _ & _ & P).
  rewrite Hdist in E'. injection E' as <- <- <- <-. destruct (fin_nth Hlt) as [dm [D1 _]].
  destruct (P t dm D1) as (_ & _ & _ & _ & _ & Q & _). apply Q in Hc. apply Hc.
Qed.
Lemma fin_hlps : forall t, t < n_tasks -> localizes nc (f_econn m) eqg (lps t) /\ forall c, In c (lp_cells (lps t)) -> c < f_ncell m.
Proof. intros t Hlt. split; [apply (Hlps Hlt)|]. intros c. apply fin_cells; auto. Qed.
Lemma fin_inj : forall a b, a < NN -> b < NN -> nth a idm 0 = nth b idm 0 -> a = b.
Proof.
  destruct fin_dist as (_ & _ & D3 & _).
  assert (Nd : NoDup idm) by (eapply Permutation_NoDup; [symmetry; exact D3|apply seq_NoDup]).
  assert (L := Permutation_length D3). rewrite seq_length in L.
  intros a b Ha Hb. apply (proj1 (NoDup_nth idm 0) Nd); lia.
Qed.
Lemma fin_bound : forall a, a < NN -> nth a idm 0 < NN.
Proof.
  destruct fin_dist as (_ & _ & D3 & _).
  assert (L := Permutation_length D3). rewrite seq_length in L.
  intros a Ha. assert (I : In (nth a idm 0) (seq 0 NN)); [|apply in_seq in I; lia].
  apply (Permutation_in _ D3). apply nth_In. lia.
Qed.
Lemma fin_ranges : ranges_ok nc (f_ndof m) n_tasks idm lo hi.
Proof.
  intros d Hd. destruct fin_dist as (D1 & D2 & D3 & D4).
  assert (Ho : In d (concat (map (fun kv => owned_dofs (snd kv)) maps))).
  { apply (Permutation_in _ (Permutation_sym D2)), in_seq. lia. }
  apply in_concat_skip in Ho. destruct Ho as [[t dm] [H1 H2]]. cbn [snd] in H2.
  assert (Hlt : t < n_tasks).
  { assert (I : In t (map fst maps)) by (apply (in_map fst) in H1; auto). rewrite D1 in I. apply in_seq in I. lia. }
  destruct (fin_nth Hlt) as [dm' [E1 E2]].
  assert (dm' = dm).
  { rewrite <- E2. unfold get_or. rewrite (@in_aget _ maps t dm); auto. rewrite D1. apply seq_NoDup. }
  exists t. split; auto. unfold lo, hi. destruct (D4 _ _ E1) as (_ & _ & _ & Q). rewrite E2. apply Q; auto. rewrite H; auto.
Qed.
Lemma fin_ghosts : is_overlap = true -> ghosts_ok nc (f_ndof m) (f_ncell m) (f_econn m) n_tasks lps idm lo hi.
Proof.
  intros Eo t d c Hlt Hd Hr Hc Hin. destruct (Hlps Hlt) as [_ E]. rewrite E. unfold local_cells. apply union1d_In.
  destruct (@C46_partition m nc ct n_tasks Hnc Hm Ht is_overlap Hconn Hman) as (maps' & idm' & parts' & ovls' & E' & _ & _ & _ & _ & _ & P).
  rewrite Hdist in E'. injection E' as <- <- <- <-. destruct (fin_nth Hlt) as [dm [D1 D2]].
  destruct (P t dm D1) as (_ & _ & _ & Q1 & _ & _ & Q2). apply (Q2 Eo d c); auto.
  apply Q1; auto. unfold lo, hi in Hr. rewrite D2 in Hr. auto.
Qed.
Lemma fin_cover : forall n, n < f_ndof m -> exists c, c < f_ncell m /\ In n (f_econn m c).
Proof. intros n Hn. destruct Hm as (_ & _ & M2 & _). apply M2 in Hn. auto. Qed.
Lemma fin_econ : forall c n, c < f_ncell m -> In n (f_econn m c) -> n < f_ndof m.
Proof. intros c n Hc Hn. destruct Hm as (_ & _ & _ & M3 & _). eapply M3; eauto. Qed.
Lemma fin_parts : is_overlap = false -> 
  Permutation (concat (map (fun t => lp_cells (lps t)) (seq 0 n_tasks))) (seq 0 (f_ncell m)).
Proof.
  intros Eo.
  destruct (@C46_partition m nc ct n_tasks Hnc Hm Ht is_overlap Hconn Hman) as (maps' & idm' & parts' & ovls' & E' & _ & _ & _ & _ & _ & P).
  rewrite Hdist in E'. injection E' as <- <- <- <-.
  assert (Hno : forall t, nth t ovls [] = []).
  { assert (G : forall t c, ~ In c (nth t ovls [])); [|intros t; destruct (nth t ovls []) as [|c l] eqn:E; auto;
      exfalso; apply (G t c); rewrite E; simpl; auto].
    intros t c Hc. subst is_overlap. revert Hdist Hc. clear. intros E Hc.
    (* no overlap cells are ever added: the mesh without cells around facets gives the same *)
    set (m0 := mkfmesh 0 (f_cfc m) (f_fverts m) (f_cverts m) (f_ndof m) (f_econn m) (f_frow m) (f_fdofs m) (f_all m)).
    assert (Em : create_task_dof_maps m0 nc false ct (get_inter_facets m ct) = Ok (maps, idm, parts, ovls)) by exact E.
    apply (ovl_cells m0 _ _ _ _ Em t c) in Hc. simpl in Hc. lia. }
  assert (Hcell : forall t, t < n_tasks -> forall c, In c (lp_cells (lps t)) <-> c < f_ncell m /\ nth c ct 0 = t).
  { intros t Hlt c. destruct (Hlps Hlt) as [_ E]. rewrite E. unfold local_cells. rewrite union1d_In, Hno.
    destruct (fin_nth Hlt) as [dm [D1 _]]. destruct (P t dm D1) as (_ & _ & _ & _ & _ & Q & _). rewrite Q. unfold is_cell. simpl. tauto. }
  apply NoDup_Permutation.
  - assert (G : forall l, NoDup l -> (forall t, In t l -> t < n_tasks) -> NoDup (concat (map (fun t => lp_cells (lps t)) l))).
    { induction l as [|t l IH]; intros Hnd Hl; simpl; [constructor|]. inversion Hnd; subst. apply NoDup_app_l.
      - apply (proj1 (Hlps (Hl t (or_introl eq_refl)))).
      - apply IH; auto. intros; apply Hl; simpl; auto.
      - intros c Hc Hc'. apply in_concat_skip in Hc'. destruct Hc' as [t' [T1 T2]].
        apply Hcell in Hc; [|apply Hl; simpl; auto]. apply Hcell in T2; [|apply Hl; simpl; auto].
        destruct Hc, T2. assert (t' = t) by congruence. subst. tauto. }
    apply G; [apply seq_NoDup|]. intros t Hin. apply in_seq in Hin. lia.
  - apply seq_NoDup.
  - intros c. rewrite in_concat_skip, in_seq. split.
    + intros [t [T1 T2]]. apply in_seq in T1. apply Hcell in T2; [|lia]. lia.
    + intros Hc. destruct Ht as (T1 & T2 & _). assert (Hlt : nth c ct 0 < n_tasks) by (apply T2; lia).
      exists (nth c ct 0). split; [apply in_seq; lia|]. apply Hcell; auto. split; auto. lia.
Qed.

(** *** C83 *)
Variable sign : V.
Variable els : nat -> list V.
Notation serial := (serial_rhs v0 add mul nc (f_ndof m) (f_ncell m) (f_econn m) eqg sign els).
Notation parallel := (parallel_rhs v0 add mul nc (f_econn m) sign els lps idm lo hi).
(** With overlaps: for any order of the tasks and any previous contents of the
    PETSc vector, it is the serially assembled vector, renumbered. *)
Theorem C83_overlap : is_overlap = true -> forall order prhs,
  Permutation order (seq 0 n_tasks) -> length prhs = NN ->
  forall d, d < NN -> nth (nth d idm 0) (parallel true order prhs) v0 = nth d serial v0.
Proof.
  intros Eo order prhs Ho Hp d Hd.
  apply (@rhs_overlap V v0 v1 add mul SR nc (f_ndof m) (f_ncell m) Hnc (f_econn m) fin_econ eqg Heqg sign els n_tasks lps idm lo hi NN
    fin_hlps fin_cover fin_inj fin_bound (fin_ghosts Eo) fin_ranges); auto.
  intros t. split; intros H; [apply (Permutation_in _ Ho), in_seq in H; lia|].
  apply (Permutation_in _ (Permutation_sym Ho)), in_seq. lia.
Qed.
(** Without overlaps: it is added to the previous contents. *)
Theorem C83_no_overlap_partial : is_overlap = false -> forall order prhs,
  Permutation order (seq 0 n_tasks) -> length prhs = NN ->
  forall d, d < NN -> nth (nth d idm 0) (parallel false order prhs) v0 = add (nth (nth d idm 0) prhs v0) (nth d serial v0).
Proof.
  intros Eo order prhs Ho Hp d Hd.
  apply (@rhs_no_overlap V v0 v1 add mul SR nc (f_ndof m) (f_ncell m) Hnc (f_econn m) fin_econ eqg Heqg sign els n_tasks lps idm lo hi NN
    fin_hlps fin_inj fin_bound); auto. apply fin_parts; auto.
Qed.

(** *** C84 *)
Variable mels : nat -> list (list V).
Variables gprows gcols : list nat.
Variable gdata : list V.
Hypothesis Hserial : mtx_of v0 add mul sign mels NN (gconn nc (f_ncell m) (f_econn m) eqg)
  (seq 0 (f_ncell m)) (seq 0 (f_ncell m)) gprows gcols gdata.
Variables prows cols : nat -> list nat.
Variable data : nat -> list V.
Hypothesis Hlocal : forall t, t < n_tasks -> mtx_of v0 add mul sign mels (lp_n (lps t) * nc) (lconn nc (lps t)) (lp_cells (lps t))
  (seq 0 (length (lp_cells (lps t)))) (prows t) (cols t) (data t).
Notation pmtx := (parallel_mtx v0 add nc (f_econn m) lps idm lo hi is0 prows cols data).
Notation entry := (csr_entry v0 add gprows gcols gdata).
(** With overlaps, an entry is right unless it is zero and was not zero before. *)
Theorem C84_overlap_partial : is_overlap = true -> forall order pm0, Permutation order (seq 0 n_tasks) ->
  forall d e, d < NN -> e < NN -> 
  pm0 (nth d idm 0) (nth e idm 0) = v0 \/ pm0 (nth d idm 0) (nth e idm 0) = entry d e \/ entry d e <> v0 ->
  pmtx true order pm0 (nth d idm 0) (nth e idm 0) = entry d e.
Proof.
  intros Eo order pm0 Ho d e Hd He H0.
  apply (@mtx_overlap V v0 v1 add mul SR nc (f_ndof m) (f_ncell m) Hnc (f_econn m) fin_econ eqg Heqg sign els n_tasks lps idm lo hi
    fin_hlps fin_inj mels is0 His0 gprows gcols gdata Hserial prows cols data Hlocal (fin_ghosts Eo) fin_ranges); auto.
  intros t. split; intros H; [apply (Permutation_in _ Ho), in_seq in H; lia|].
    apply (Permutation_in _ (Permutation_sym Ho)), in_seq. lia.
Qed.
Theorem C84_no_overlap_partial : is_overlap = false -> forall order pm0, Permutation order (seq 0 n_tasks) ->
  forall d e, d < NN -> e < NN ->
  pmtx false order pm0 (nth d idm 0) (nth e idm 0) = add (pm0 (nth d idm 0) (nth e idm 0)) (entry d e).
Proof.
  intros Eo order pm0 Ho d e Hd He.
  apply (@mtx_no_overlap V v0 v1 add mul SR nc (f_ndof m) (f_ncell m) Hnc (f_econn m) fin_econ eqg Heqg sign els n_tasks lps idm lo hi
    fin_hlps fin_inj mels is0 gprows gcols gdata Hserial prows cols data Hlocal); auto.
  apply fin_parts; auto.
Qed.
End Final.
Print Assumptions C83_overlap.
Print Assumptions C84_overlap_partial.

(** ** Examples: the strip of [P_parallel2], a scalar field with the DOF 0 fixed, integers. *)
Definition ex_eqg : list Z := (-1 :: map Z.of_nat (seq 1 7))%Z.
Definition ex_lp0 (ncell : nat) : local_problem :=
  mklp (seq 0 ncell) (if ncell =? 3 then 8 else 6)
    (if ncell =? 3 then [[0; 1; 5; 4]; [1; 2; 6; 5]; [2; 3; 7; 6]] else [[0; 1; 4; 3]; [1; 2; 5; 4]])
    (fun l => if ncell =? 3 then l else nth l [0; 1; 2; 4; 5; 6] 0)
    (if ncell =? 3 then ex_eqg else (-1)%Z :: map Z.of_nat (seq 1 5))
    (repeat 9 (if ncell =? 3 then 8 else 6)).
(** Task 0 has the cells 0, 1 and, with overlaps, 2; task 1 the cell 2. *)
Definition ex_lps (ov : bool) (t : nat) : local_problem :=
  if t =? 0 then ex_lp0 (if ov then 3 else 2)
  else mklp [2] 4 [[0; 1; 3; 2]] (fun l => nth l [2; 3; 6; 7] 0) (map Z.of_nat (seq 0 4)) (repeat 9 4).
Definition ex_dist (ov : bool) := create_task_dof_maps strip 1 ov [0; 0; 1] (get_inter_facets strip [0; 0; 1]).
Definition ex_maps : list (nat * dmap) := Eval vm_compute in match ex_dist true with Ok (m, _, _, _) => m | _ => [] end.
Definition ex_idm : list nat := [0; 1; 4; 6; 2; 3; 5; 7].
Definition ex_els (c : nat) : list Z := map Z.of_nat [c + 1; 2 * c; 3; 7].
Definition ex_mels (k : Z) (c : nat) : list (list Z) :=
  map (fun i => map (fun j => (k * Z.of_nat (1 + i + 2 * j + c))%Z) (seq 0 4)) (seq 0 4).
Definition ex_n (ov : bool) (t : nat) : nat := lp_n (ex_lps ov t).
Definition full_rows (n : nat) : list nat := map (fun i => i * n) (seq 0 (S n)).
Definition full_cols (n : nat) : list nat := concat (repeat (seq 0 n) n).
Definition ex_asm (k : Z) (n : nat) (cells : list nat) (conn : list (list Z)) : list Z :=
  match assemble_matrix 0%Z Z.add Z.mul (find_lin (full_rows n) (full_cols n)) (repeat 0%Z (n * n)) (map (ex_mels k) cells)
     (seq 0 (length cells)) 1%Z conn conn with Ok d => d | _ => [] end.
Definition ex_gdata (k : Z) : list Z := ex_asm k 8 (seq 0 3) (gconn 1 3 (f_econn strip) ex_eqg).
Definition ex_data (k : Z) (ov : bool) (t : nat) : list Z := ex_asm k (ex_n ov t) (lp_cells (ex_lps ov t)) (lconn 1 (ex_lps ov t)).
Definition ex_lo (ov : bool) (t : nat) : nat := match ex_dist ov with Ok (m, _, _, _) => lo m t | _ => 0 end.
Definition ex_hi (ov : bool) (t : nat) : nat := match ex_dist ov with Ok (m, _, _, _) => hi m t | _ => 0 end.
Lemma ex_dist_ok : forall ov, exists ovls, ex_dist ov = Ok (if ov then ex_maps else
   match ex_dist false with Ok (m, _, _, _) => m | _ => [] end, ex_idm, [[0; 1]; [2]], ovls) /\
   forall t, t < 2 -> lp_cells (ex_lps ov t) = local_cells [[0; 1]; [2]] ovls t.
Proof.
  intros [|].
  - exists [[1; 2]; []]. split; [vm_compute; reflexivity|]. intros [|[|t]] H; try reflexivity. lia.
  - exists [[]; []]. split; [vm_compute; reflexivity|]. intros [|[|t]] H; try reflexivity. lia.
Qed.
Lemma ex_eqg_ok : length ex_eqg = f_ndof strip * 1 /\ forall k, k < f_ndof strip * 1 -> (nth k ex_eqg 0 < 0)%Z \/ nth k ex_eqg 0%Z = Z.of_nat k.
Proof. split; auto. intros k Hk. simpl in Hk. do 8 (destruct k as [|k]; [cbn; lia|]). lia. Qed.
Ltac cases n H := repeat (destruct n as [|n]; [|try (exfalso; simpl in H; lia)]).
Lemma ex_localizes : forall ov t, t < 2 -> localizes 1 (f_econn strip) ex_eqg (ex_lps ov t).
Proof.
  assert (G : forall ov t, t < 2 ->
     let lp := ex_lps ov t in
     NoDup (lp_cells lp) /\ map (map (lp_lg lp)) (lp_conn lp) = map (f_econn strip) (lp_cells lp) /\
     (forall a b, a < lp_n lp -> b < lp_n lp -> lp_lg lp a = lp_lg lp b -> a = b) /\
     (forall l, l < lp_n lp <-> In l (concat (lp_conn lp))) /\ length (lp_junk lp) = lp_n lp * 1 /\
     Forall (fun l => (nth l (lp_eq lp) 0 < 0 /\ nth (lgx 1 (lp_lg lp) l) ex_eqg 0 < 0)%Z \/
      (nth l (lp_eq lp) 0%Z = Z.of_nat l /\ nth (lgx 1 (lp_lg lp) l) ex_eqg 0%Z = Z.of_nat (lgx 1 (lp_lg lp) l))) (seq 0 (lp_n lp * 1))).
  { intros ov t Ht. destruct t as [|[|t]]; [| |lia].
    - destruct ov; cbv zeta; split; try (repeat constructor; simpl; intuition congruence); (split; [reflexivity|]); split.
      + simpl. auto.
      + split; [simpl; lia|]. split; [reflexivity|]. cbn. repeat constructor; cbn; lia.
      + intros a b Ha Hb. simpl in Ha, Hb.
        assert (E : NoDup [0; 1; 2; 4; 5; 6]) by (repeat constructor; simpl; intuition congruence).
        apply (proj1 (NoDup_nth _ 0) E); simpl; lia.
      + split; [simpl; lia|]. split; [reflexivity|]. cbn. repeat constructor; cbn; lia.
    - cbv zeta. split; [repeat constructor; simpl; intuition congruence|]. split; [reflexivity|]. split.
      + intros a b Ha Hb. simpl in Ha, Hb.
        assert (E : NoDup [2; 3; 6; 7]) by (repeat constructor; simpl; intuition congruence).
        apply (proj1 (NoDup_nth _ 0) E); simpl; lia.
      + split; [simpl; lia|]. split; [reflexivity|]. cbn. repeat constructor; cbn; lia. }
  intros ov t Ht. destruct (G ov t Ht) as (G1 & G2 & G3 & G4 & G5 & G6). cbv zeta in *.
  split; auto. split; auto. split; auto. split; [|split; auto].
  - intros l. rewrite G4, in_concat. split; intros [x [H1 H2]]; eauto.
  - intros l Hl. rewrite Forall_forall in G6. apply G6. apply in_seq. lia.
Qed.
Lemma nth_full_cols : forall n m k, k < m * n -> nth k (concat (repeat (seq 0 n) m)) 0 = k mod n.
Proof.
  intros n m. induction m as [|m IH]; intros k H; [lia|]. simpl.
  destruct (le_lt_dec n k) as [L|L].
  - rewrite app_nth2; rewrite seq_length; auto. rewrite IH by (simpl in H; lia).
    replace k with (k - n + 1 * n) at 2 by lia. rewrite Nat.mod_add by lia. reflexivity.
  - rewrite app_nth1 by (rewrite seq_length; auto). rewrite seq_nth, Nat.mod_small by lia. reflexivity.
Qed.
Lemma full_cols_length : forall n m, length (concat (repeat (seq 0 n) m)) = m * n.
Proof. intros n m. induction m; simpl; auto. rewrite app_length, seq_length, IHm. reflexivity. Qed.
Lemma full_csr : forall n, 0 < n -> csr_ok n (full_rows n) (full_cols n).
Proof.
  intros n Hn.
  assert (R : forall i, i <= n -> nth i (full_rows n) 0 = i * n).
  { intros i Hi. unfold full_rows. rewrite nth_map_in with (da := 0) by (rewrite seq_length; lia).
    rewrite seq_nth by lia. reflexivity. }
  assert (L : length (full_cols n) = n * n) by apply full_cols_length.
  split; [split; [unfold full_rows; rewrite map_length, seq_length; auto|split]|split].
  - intros i j Hij. rewrite !R by lia. nia.
  - rewrite R, L; auto.
  - intros i a b Hi Ha Hab Hb. rewrite !R in * by lia.
    unfold full_cols. rewrite !nth_full_cols by nia.
    replace a with (a - i * n + i * n) by lia. replace b with (b - i * n + i * n) by lia.
    rewrite !Nat.mod_add by lia. rewrite !Nat.mod_small by (simpl in Hb; lia). lia.
  - intros k Hk. unfold full_cols. rewrite nth_full_cols by lia. apply Nat.mod_upper_bound. lia.
Qed.
Lemma ex_serial : forall k, (k = 1 \/ k = 0)%Z -> mtx_of 0%Z Z.add Z.mul 1%Z (ex_mels k) (f_ndof strip * 1) (gconn 1 3 (f_econn strip) ex_eqg)
  (seq 0 3) (seq 0 3) (full_rows 8) (full_cols 8) (ex_gdata k).
Proof. intros k [-> | ->]; (split; [apply full_csr; lia|vm_compute; reflexivity]). Qed.
Lemma ex_local : forall k ov t, (k = 1 \/ k = 0)%Z -> t < 2 ->
  mtx_of 0%Z Z.add Z.mul 1%Z (ex_mels k) (lp_n (ex_lps ov t) * 1) (lconn 1 (ex_lps ov t)) (lp_cells (ex_lps ov t))
    (seq 0 (length (lp_cells (ex_lps ov t)))) (full_rows (ex_n ov t)) (full_cols (ex_n ov t)) (ex_data k ov t).
Proof.
  intros k ov t Hk Ht. rewrite Nat.mul_1_r. split.
  - apply full_csr. unfold ex_n. destruct t as [|t]; destruct ov; simpl; lia.
  - destruct Hk as [-> | ->]; destruct ov; (destruct t as [|[|t]]; [| |lia]); vm_compute; reflexivity.
Qed.
Definition ex_prhs (ov : bool) (order : list nat) (p : list Z) : list Z :=
  parallel_rhs 0%Z Z.add Z.mul 1 (f_econn strip) 1%Z ex_els (ex_lps ov) ex_idm (lo ex_maps) (hi ex_maps) ov order p.
Definition ex_srhs : list Z := serial_rhs 0%Z Z.add Z.mul 1 8 3 (f_econn strip) ex_eqg 1%Z ex_els.
Definition ex_pmtx (k : Z) (ov : bool) (order : list nat) (p : nat -> nat -> Z) : nat -> nat -> Z :=
  parallel_mtx 0%Z Z.add 1 (f_econn strip) (ex_lps ov) ex_idm (lo ex_maps) (hi ex_maps) (Z.eqb 0)
    (fun t => full_rows (ex_n ov t)) (fun t => full_cols (ex_n ov t)) (ex_data k ov) ov order p.
Definition ex_smtx (k : Z) (d e : nat) : Z := csr_entry 0%Z Z.add (full_rows 8) (full_cols 8) (ex_gdata k) d e.
(** The hypotheses of C83 and C84 hold, with and without overlaps, and the results are these: *)
Example C83_ex :
  (mesh_field strip /\ connected strip /\ manifold strip /\ tasks_ok strip [0; 0; 1] 2) /\
  (forall ov t, t < 2 -> localizes 1 (f_econn strip) ex_eqg (ex_lps ov t)) /\
  ex_srhs = [0; 2; 5; 4; 7; 10; 10; 3]%Z /\
  ex_prhs true [1; 0] (repeat 55%Z 8) = [0; 2; 7; 10; 5; 10; 4; 3]%Z /\
  ex_prhs false [1; 0] (repeat 0%Z 8) = [0; 2; 7; 10; 5; 10; 4; 3]%Z.
Proof.
  split; [apply C46_ex_mesh|]. split; [apply ex_localizes|]. vm_compute. repeat split.
Qed.
Example C84_ex :
  ex_smtx 1 2 6 = 16%Z /\ ex_pmtx 1 true [0; 1] (fun _ _ => 0%Z) 4 5 = 16%Z /\ ex_pmtx 1 false [1; 0] (fun _ _ => 0%Z) 4 5 = 16%Z.
Proof. vm_compute. repeat split. Qed.

(** ** Failures of repeated assembling: the PETSc objects are never zeroed. *)
Theorem C83_reassembly_refuted :
  (* without overlaps, a second assembling doubles the vector *)
  nth 2 (ex_prhs false [0; 1] (ex_prhs false [0; 1] (repeat 0%Z 8))) 0%Z = 14%Z /\ nth 4 ex_srhs 0%Z = 7%Z /\ nth 4 ex_idm 0 = 2.
Proof. vm_compute. repeat split. Qed.
Theorem C84_reassembly_refuted :
  (* with overlaps: an entry that becomes zero keeps its old value *)
  ex_smtx 0 2 6 = 0%Z /\ ex_pmtx 0 true [0; 1] (ex_pmtx 1 true [0; 1] (fun _ _ => 0%Z)) (nth 2 ex_idm 0) (nth 6 ex_idm 0) = 16%Z /\
  (* without overlaps: the matrices are added *)
  ex_pmtx 1 false [0; 1] (ex_pmtx 1 false [0; 1] (fun _ _ => 0%Z)) (nth 2 ex_idm 0) (nth 6 ex_idm 0) = 32%Z.
Proof. vm_compute. repeat split. Qed.
