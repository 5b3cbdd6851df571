(** C180, C181: failed updates, special parameters, constants by region. *)
From Verif Require Import Base M_mat S_mat P_mat.
Import ListNotations.
Set Implicit Arguments.

(** *** C180 *)

(** A time-dependent material recovers from a failed update: a later
    successful one gives the current values. *)
Theorem C180_recovers_partial : forall V n_qp (f : mfun V) ts1 terms1 mode1 m m1 e ts terms m',
  term_independent f -> m_user m = false -> m_stat m = false -> m_isc m = false ->
  time_update n_qp f ts1 terms1 mode1 m = (m1, Some e) ->
  time_update n_qp f ts terms Normal m1 = (m', None) ->
  forall t d name l, users (m_name m) terms t ->
  f_qp f ts (t_region t) (t_order t) t = Ok (Some d) -> nget d name = Some l ->
  ~ In name (m_special m') ->
  exists a, shape_data (n_qp (t_region t) (t_order t)) l = Ok a /\
            get_data m' (qp_key t) name = Ok (GQp a).
Proof.
  intros V n_qp f ts1 terms1 mode1 m m1 e ts terms m' TI U1 U2 U3 H1 H2.
  pose proof (time_update_attr n_qp f ts1 terms1 mode1 m) as A. rewrite H1 in A. simpl in A.
  destruct A as (A1 & A2 & A3 & A4 & _). rewrite <- A1.
  apply (@C178_time_dependent_current V n_qp f ts terms m1 m'); try congruence. exact TI.
Qed.

(** A failed update stores nothing for the terms after the failing one, and
    keeps an empty item for the failing one. *)
Definition flaky : mfun nat :=
  MFun (fun ts _ _ _ => if ts =? 0 then Err ValueError else Ok (Some [(1, [5])]))
       (fun _ => Ok None) (Ok []).
Definition nq2 : nat -> nat -> nat := fun _ _ => 2.
Definition tA : term := Term 10 1 2 [4].
Definition tB : term := Term 11 1 2 [4].

(** A stationary material does not: the empty item makes the repeated update
    return at once, without an error, and the term gets None. *)
Theorem C180_stationary_refuted : exists m1 m2,
  time_update nq2 flaky 0 [tA] Normal (new_material nat 4 true false false)
    = (m1, Some ValueError) /\
  time_update nq2 flaky 1 [tA] Normal m1 = (m2, None) /\
  f_qp flaky 1 (t_region tA) (t_order tA) tA = Ok (Some [(1, [5])]) /\
  get_data m2 (qp_key tA) 1 = Ok GNone.
Proof. eexists. eexists. repeat split; vm_compute; reflexivity. Qed.

(** A function depending on the term: a second term with the same region and
    order gets the values computed for the first one. *)
Definition by_term : mfun nat :=
  MFun (fun _ _ _ t => Ok (Some [(1, [t_id t])])) (fun _ => Ok None) (Ok []).
Theorem C180_term_dependent_refuted : exists m1,
  time_update nq2 by_term 0 [tA; tB] Normal (new_material nat 4 false false false)
    = (m1, None) /\
  f_qp by_term 0 (t_region tB) (t_order tB) tB = Ok (Some [(1, [11])]) /\
  get_data m1 (qp_key tB) 1 = Ok (GQp [[10; 10]]).
Proof. eexists. repeat split; vm_compute; reflexivity. Qed.

(** The names of special parameters outlive their values: after a step in which
    a parameter was special, a step in which it is an array raises KeyError. *)
Definition sometimes_special : mfun nat :=
  MFun (fun ts _ _ _ => if ts =? 0 then Ok None else Ok (Some [(1, [5])]))
       (fun ts => if ts =? 0 then Ok (Some [(1, 7)]) else Ok None) (Ok []).
Theorem C180_special_names_refuted : exists m1 m2,
  time_update nq2 sometimes_special 0 [tA] Normal (new_material nat 4 false false false)
    = (m1, None) /\
  get_data m1 (qp_key tA) 1 = Ok (GSp 7) /\
  time_update nq2 sometimes_special 1 [tA] Force m1 = (m2, None) /\
  dget (m_datas m2) (qp_key tA) = Some (PQp [(1, [[5; 5]])]) /\
  get_data m2 (qp_key tA) 1 = Err KeyError.
Proof. eexists. eexists. repeat split; vm_compute; reflexivity. Qed.

(** [get_data] with a dict of names never finds an array. *)
Lemma no_name_key V n_qp (f : mfun V) a ops : forall m,
  dget (m_datas m) (KName a) = None ->
  dget (m_datas (mhist n_qp f m ops)) (KName a) = None.
Proof.
  unfold mhist. induction ops as [|o t IH]; intros m H; [easy|]. simpl. apply IH.
  destruct o as [ts terms mode|]; [|easy]. simpl. unfold time_update.
  destruct (kept m mode) as [d0|] eqn:K; [|easy].
  assert (H0 : dget d0 (KName a) = None).
  { destruct mode; simpl in K; [|injection K as <-; exact H|injection K as <-; easy].
    destruct (m_datas m); [injection K as <-; easy|].
    destruct (m_user m || m_stat m); [easy|]. destruct (m_isc m); injection K as <-; easy. }
  destruct (update_terms n_qp f ts (m_name m) d0 terms) as [d e] eqn:U.
  assert (HN : forall t, users (m_name m) terms t -> qp_key t <> KName a)
    by (intros; unfold qp_key; discriminate).
  pose proof (@update_unused V n_qp f ts (m_name m) terms d0 d e (KName a) U HN) as E.
  rewrite H0 in E. destruct e; [exact E|].
  unfold update_special, update_special_constant.
  destruct (dget (m_datas (with_datas m d)) KSpecial).
  - destruct (dget _ KConst); [exact E|]. destruct (negb _); [exact E|].
    destruct (f_const f); [|exact E]. simpl. rewrite dget_set_other by discriminate. exact E.
  - destruct (f_special f ts) as [[s|]|]; [| |exact E].
    + destruct (dget _ KConst); [simpl; rewrite dget_set_other by discriminate; exact E|].
      destruct (negb _); [simpl; rewrite dget_set_other by discriminate; exact E|].
      destruct (f_const f); simpl; rewrite !dget_set_other by discriminate; exact E.
    + destruct (dget _ KConst); [exact E|]. destruct (negb _); [exact E|].
      destruct (f_const f); [|exact E]. simpl. rewrite dget_set_other by discriminate. exact E.
Qed.

Theorem C180_dict_of_names_refuted : forall V n_qp (f : mfun V) name stat isc flagc ops k attr pname,
  let m := mhist n_qp f (new_material V name stat isc flagc) ops in
  ~ In pname (m_special m) ->
  get_data_dict m k [(attr, pname)] = Err KeyError \/
  get_data_dict m k [(attr, pname)] = Err ValueError.
Proof.
  intros V n_qp f name stat isc flagc ops k attr pname m NS.
  pose proof (@no_name_key V n_qp f attr ops (new_material V name stat isc flagc) eq_refl) as H.
  fold m in H. simpl. unfold get_data. destruct (m_datas m) as [|x y] eqn:D; [now right|].
  destruct (memb pname (m_special m)) eqn:M; [apply memb_In in M; easy|]. rewrite H. now left.
Qed.

(** *** C181: constants by region *)
Definition lastv {V} (cells : nat -> list nat) (c : nat) (vs : list (nat * V)) (v0 : V) : V :=
  fold_left (fun acc rv => if memb c (cells (fst rv)) then snd rv else acc) vs v0.

Lemma lastv_none {V} cells c : forall (vs : list (nat * V)) v0,
  (forall r v, In (r, v) vs -> ~ In c (cells r)) -> lastv cells c vs v0 = v0.
Proof.
  unfold lastv. induction vs as [|[r v] t IH]; intros v0 H; [easy|]. simpl.
  destruct (memb c (cells r)) eqn:M.
  - apply memb_In in M. exfalso. apply (H r v); simpl; auto.
  - apply IH. intros r' v' Hin. apply (H r' v'). simpl. auto.
Qed.

Lemma region_value_lastv {V} cells (zero : V) c vs v :
  region_value cells zero c vs v -> v = lastv cells c vs zero.
Proof.
  destruct 1 as [vs H|vs1 r v vs2 H1 H2]; [now rewrite lastv_none|].
  unfold lastv. rewrite fold_left_app. simpl. apply memb_In in H1. rewrite H1.
  symmetry. exact (@lastv_none V cells c vs2 v H2).
Qed.

(** The specification determines the value. *)
Theorem C181_region_value_unique : forall V cells (zero : V) c vs v w,
  region_value cells zero c vs v -> region_value cells zero c vs w -> v = w.
Proof. intros. apply region_value_lastv in H, H0. congruence. Qed.

Lemma lastv_spec {V} cells (zero : V) c : forall vs, region_value cells zero c vs (lastv cells c vs zero).
Proof.
  intros vs. induction vs as [|[r v] vs IH] using rev_ind; [constructor; easy|].
  unfold lastv in *. rewrite fold_left_app. simpl. destruct (memb c (cells r)) eqn:M.
  - apply memb_In in M. apply rv_last; [easy|]. easy.
  - assert (NM : ~ In c (cells r)) by (intros H; apply memb_In in H; congruence).
    match type of IH with region_value _ _ _ _ ?x => remember x as z eqn:Z; clear Z end.
    destruct IH as [vs0 H|vs1 r1 v1 vs2 H1 H2].
    + apply rv_none. intros r' v' Hin. apply in_app_or in Hin. destruct Hin as [Hin|[E|[]]].
      * eapply H; eauto.
      * now injection E as <- <-.
    + rewrite <- app_assoc. simpl. apply rv_last; [easy|].
      intros r' v' Hin. apply in_app_or in Hin. destruct Hin as [Hin|[E|[]]]; [eauto|].
      now injection E as <- <-.
Qed.

Lemma fold_rows {V} cells nq : forall (val : list (nat * V)) tcells (vs : list V),
  length vs = length tcells ->
  fold_left (fun md rv =>
      map (fun p : nat * list V =>
             if memb (fst p) (cells (fst rv)) then repeat (snd rv) nq else snd p)
          (combine tcells md)) val (map (fun v => repeat v nq) vs)
  = map (fun p : nat * V => repeat (lastv cells (fst p) val (snd p)) nq) (combine tcells vs).
Proof.
  induction val as [|[r v] t IH]; intros tcells vs L; simpl.
  - unfold lastv. simpl. revert vs L. induction tcells; destruct vs; simpl; intros; try easy.
    f_equal. apply IHtcells. lia.
  - assert (E : map (fun p : nat * list V => if memb (fst p) (cells r) then repeat v nq else snd p)
        (combine tcells (map (fun v => repeat v nq) vs))
      = map (fun w => repeat w nq)
          (map (fun p : nat * V => if memb (fst p) (cells r) then v else snd p) (combine tcells vs))).
    { clear IH. revert vs L. induction tcells; destruct vs; simpl; intros; try easy.
      f_equal; [|apply IHtcells; lia]. destruct (memb a (cells r)); easy. }
    rewrite E, IH.
    + clear E IH. revert vs L. induction tcells; destruct vs; simpl; intros; try easy.
      f_equal. apply IHtcells. lia.
    + rewrite map_length, combine_length. lia.
Qed.

Lemma concat_rows_at {V} nq : forall (ls : list V) c q, c < length ls -> q < nq ->
  nth_error (concat (map (fun v => repeat v nq) ls)) (c * nq + q) = nth_error ls c.
Proof.
  induction ls as [|v t IH]; simpl; intros c q Hc Hq; [lia|]. destruct c; simpl.
  - rewrite nth_error_app1 by (rewrite repeat_length; lia). now apply repeat_nth.
  - rewrite nth_error_app2 by (rewrite repeat_length; lia). rewrite repeat_length.
    replace (nq + c * nq + q - nq) with (c * nq + q) by lia. apply IH; lia.
Qed.

Lemma repeat_map {V W} (g : V -> W) v : forall n, repeat (g v) n = map g (repeat v n).
Proof. induction n; simpl; congruence. Qed.

(** In each point of cell number [i] of the term region the parameter has the
    value of the last of the given regions that has the cell. *)
Theorem C181_value_by_region : forall V (zero : V) cells tcells nq val i q,
  i < length tcells -> q < nq ->
  exists v, region_value cells zero (nth i tcells 0) val v /\
    nth_error (by_region zero cells tcells nq val) (i * nq + q) = Some v /\
    length (by_region zero cells tcells nq val) = length tcells * nq.
Proof.
  intros V zero cells tcells nq val i q Hi Hq.
  exists (lastv cells (nth i tcells 0) val zero). split; [apply lastv_spec|].
  unfold by_region. rewrite (repeat_map (fun v => repeat v nq)).
  rewrite fold_rows by apply repeat_length.
  set (g := fun p : nat * V => lastv cells (fst p) val (snd p)).
  assert (E : map (fun p : nat * V => repeat (lastv cells (fst p) val (snd p)) nq)
      (combine tcells (repeat zero (length tcells)))
    = map (fun v => repeat v nq) (map g (combine tcells (repeat zero (length tcells)))))
    by (rewrite map_map; easy).
  rewrite E. set (ls := map g (combine tcells (repeat zero (length tcells)))).
  assert (LL : length ls = length tcells)
    by (unfold ls; rewrite map_length, combine_length, repeat_length; lia).
  split.
  - rewrite concat_rows_at by lia. unfold ls. rewrite nth_error_map.
    rewrite (nth_error_nth' _ (0, zero)) by (rewrite combine_length, repeat_length; lia).
    rewrite combine_nth by (now rewrite repeat_length). simpl. unfold g. simpl.
    f_equal. f_equal. apply nth_error_nth. now apply repeat_nth.
  - clear -LL. rewrite <- LL. clear LL. induction ls; simpl; [easy|].
    rewrite app_length, repeat_length. lia.
Qed.

(** A cell in none of the regions silently gets zero. *)
Theorem C181_uncovered_cell_refuted : exists (cells : nat -> list nat) tcells val,
  (forall r v, In (r, v) val -> ~ In 7 (cells r)) /\ In 7 tcells /\
  by_region 0 cells tcells 2 val = [3; 3; 0; 0].
Proof.
  exists (fun r => [5 + r]), [5; 7], [(0, 3); (1, 4)]. split; [|split].
  - intros r v [E|[E|[]]]; injection E as <- <-; simpl; lia.
  - simpl. auto.
  - reflexivity.
Qed.

(** With overlapping regions the order of the dict decides. *)
Theorem C181_overlap_refuted : exists (cells : nat -> list nat) tcells r1 v1 r2 v2,
  by_region 0 cells tcells 1 [(r1, v1); (r2, v2)]
  <> by_region 0 cells tcells 1 [(r2, v2); (r1, v1)].
Proof. exists (fun _ => [5]), [5], 0, 3, 1, 4. vm_compute. discriminate. Qed.

(** *** Witnesses *)
Definition lin : mfun nat :=
  MFun (fun ts r o _ => Ok (Some [(1, [ts; ts + 1; ts + 2; r])])) (fun _ => Ok None) (Ok []).
Example lin_indep : term_independent lin.
Proof. easy. Qed.
Example lin_run : exists m1 m2,
  time_update nq2 lin 0 [tA] Normal (new_material nat 4 false false false) = (m1, None) /\
  get_data m1 (qp_key tA) 1 = Ok (GQp [[0; 1]; [2; 1]]) /\
  time_update nq2 lin 3 [tB; Term 12 6 2 [4]] Normal m1 = (m2, None) /\
  get_data m2 (qp_key tB) 1 = Ok (GQp [[3; 4]; [5; 1]]) /\
  users 4 [tB; Term 12 6 2 [4]] tB.
Proof. eexists. eexists. repeat split; try (vm_compute; reflexivity); simpl; auto. Qed.
Example stat_run : exists m1,
  time_update nq2 lin 0 [tA] Normal (new_material nat 4 true false false) = (m1, None) /\
  m_datas m1 <> [] /\ get_data (mhist nq2 lin m1 [TU 5 [tB] Normal]) (qp_key tA) 1
    = Ok (GQp [[0; 1]; [2; 1]]).
Proof. eexists. split; [reflexivity|]. split; [discriminate|reflexivity]. Qed.
Example const_run :
  get_data (mhist nq2 (constant_fun [(1, 9)] [(2, 8)]) (new_material nat 4 false true false)
    [TU 0 [tA] Normal; TU 1 [tA; Term 12 6 2 [4]] Normal]) (KQp 6 2) 1 = Ok (GQp [[9; 9]]).
Proof. reflexivity. Qed.
Example recover_ex : exists m1 m2,
  time_update nq2 flaky 0 [tA] Normal (new_material nat 4 false false false)
    = (m1, Some ValueError) /\
  time_update nq2 flaky 1 [tA] Normal m1 = (m2, None) /\
  get_data m2 (qp_key tA) 1 = Ok (GQp [[5; 5]]) /\ term_independent flaky.
Proof. eexists. eexists. repeat split; vm_compute; reflexivity. Qed.

Print Assumptions C178_time_dependent_current.
Print Assumptions C178_force_current.
Print Assumptions C178_update_mode.
Print Assumptions C178_values_in_points.
Print Assumptions C179_stationary_evaluated_once.
Print Assumptions C179_constants_always.
Print Assumptions C180_recovers_partial.
Print Assumptions C180_dict_of_names_refuted.
Print Assumptions C181_value_by_region.
