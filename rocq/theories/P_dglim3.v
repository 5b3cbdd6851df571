(** C159: the two-dimensional moment limiter; C160: limiters of several fields. *)
From Coq Require Import List Arith ZArith Lia Reals Lra Bool.
From Verif Require Import M_dglim S_dglim P_dglim P_dglim2.
Import ListNotations.
Open Scope R_scope.

Lemma fold_min_le l : forall a, fold_left Rmin l a <= a.
Proof.
  induction l as [|x l IH]; intro a; cbn; [lra|]. eapply Rle_trans; [apply IH|]. apply Rmin_l.
Qed.
Lemma fold_min_nonneg l : forall a, 0 <= a -> (forall x, In x l -> 0 <= x) -> 0 <= fold_left Rmin l a.
Proof.
  induction l as [|x l IH]; intros a Ha Hl; cbn; [exact Ha|]. apply IH.
  - apply Rmin_glb; [exact Ha | apply Hl; left; reflexivity].
  - intros. apply Hl. right. assumption.
Qed.

Lemma minmod_seq_shrinks a l : shrinks a (minmod_seq a l).
Proof.
  unfold minmod_seq. destruct (forallb _ _); unfold shrinks.
  - pose proof (fold_min_le (map Rabs l) (Rabs a)) as H1.
    pose proof (fold_min_nonneg (map Rabs l) (Rabs a) (Rabs_pos a)) as H2.
    specialize (H2 ltac:(intros x Hx; apply in_map_iff in Hx; destruct Hx as (y & <- & _); apply Rabs_pos)).
    set (m := fold_left Rmin (map Rabs l) (Rabs a)) in *.
    destruct (sgn_cases a) as [[Ha E] | [[Ha E] | [Ha E]]]; rewrite E.
    + split; [nra|]. rewrite Rmult_1_l, (Rabs_pos_eq m) by lra. exact H1.
    + split; [nra|]. replace (-1 * m) with (- m) by ring. rewrite Rabs_Ropp, (Rabs_pos_eq m) by lra. exact H1.
    + rewrite Rmult_0_l, Rabs_R0. pose proof (Rabs_pos a). lra.
  - rewrite Rabs_R0. pose proof (Rabs_pos a). lra.
Qed.

Lemma minmod_seq_nil a : minmod_seq a [] = a.
Proof.
  unfold minmod_seq. cbn. replace (reqb (sgn a) (sgn a)) with true by (symmetry; now apply reqb_true). cbn.
  destruct (sgn_cases a) as [[Ha E] | [[Ha E] | [Ha E]]]; rewrite E.
  - rewrite Rabs_pos_eq by lra. ring.
  - rewrite Rabs_left by lra. ring.
  - subst. ring.
Qed.

Lemma shrinks_trans a b c : shrinks a b -> shrinks b c -> shrinks a c.
Proof.
  unfold shrinks. intros [H1 H2] [H3 H4]. split; [|lra].
  destruct (Rtotal_order b 0) as [B | [B | B]].
  - assert (c <= 0) by nra. assert (a <= 0) by nra. nra.
  - subst b. rewrite Rabs_R0 in H4. assert (c = 0) by (unfold Rabs in H4; destruct (Rcase_abs c) in H4; lra). subst. lra.
  - assert (0 <= c) by nra. assert (0 <= a) by nra. nra.
Qed.

Section L2.
Variables (order : nat) (extended : bool) (n_cell : nat) (nb : nat -> nat -> Z).
Let n := get_n_el_nod order 2 extended.
Let ps := iter2 order extended.

Lemma mem_In i l : mem i l = true <-> In i l.
Proof.
  unfold mem. rewrite existsb_exists. split.
  - intros (x & Hx & E). apply Nat.eqb_eq in E. now subst.
  - intro H. exists i. split; [exact H | apply Nat.eqb_refl].
Qed.

Lemma lim2_inv inner (nu0 : nu2) l : forall nu tilu idx stop,
  (forall c, In c idx -> In c inner) ->
  (forall i j c, shrinks (nu0 i j c) (nu i j c) /\ (~ In c inner \/ (i = 0 /\ j = 0)%nat -> nu i j c = nu0 i j c)) ->
  let '(nu', _, _, _) := fold_left (lim2_step nb) l (nu, tilu, idx, stop) in
  forall i j c, shrinks (nu0 i j c) (nu' i j c) /\ (~ In c inner \/ (i = 0 /\ j = 0)%nat -> nu' i j c = nu0 i j c).
Proof.
  induction l as [|[ii jj] l IH]; intros nu tilu idx stop Hi Hn; [exact Hn|].
  cbn [fold_left]. unfold lim2_step at 2. cbn [fst snd]. destruct stop; [apply IH; assumption|].
  set (tilu' := fun c => if mem c idx then minmod_seq (nu ii jj c) (minmod_args nb nu ii jj c) else tilu c).
  cbv zeta.
  match goal with |- context [filter ?f idx] => set (p := f) end.
  destruct (filter p idx) as [|x0 r0] eqn:E; [apply IH; [intros c []|exact Hn]|].
  rewrite <- E.
  assert (Hsub : forall c, In c (filter p idx) -> In c inner) by (intros c Hc; apply filter_In in Hc; apply Hi; tauto).
  apply IH; [exact Hsub|].
  intros i j c. destruct (Nat.eqb i ii && Nat.eqb j jj && mem c (filter p idx))%bool eqn:B; [|apply Hn].
  rewrite !andb_true_iff in B. destruct B as [[B1 B2] B3]. apply Nat.eqb_eq in B1, B2. subst i j.
  apply mem_In in B3. pose proof B3 as B4. apply filter_In in B3. destruct B3 as [B3 B5].
  assert (Ht : tilu' c = minmod_seq (nu ii jj c) (minmod_args nb nu ii jj c)).
  { unfold tilu'. apply mem_In in B3. rewrite B3. reflexivity. }
  destruct (Hn ii jj c) as [Hs He]. split.
  - change (shrinks (nu0 ii jj c) (tilu' c)). rewrite Ht. eapply shrinks_trans; [exact Hs | apply minmod_seq_shrinks].
  - intros [N | [-> ->]]; [exfalso; apply N, Hsub, B4|].
    exfalso. unfold p in B5. fold tilu' in B5. cbv beta in B5. 
    change (rltb machine_eps (Rabs (tilu' c - nu 0%nat 0%nat c)) = true) in B5.
    rewrite Ht in B5. unfold minmod_args in B5. cbn [Nat.leb app] in B5. rewrite minmod_seq_nil in B5.
    rewrite Rminus_eq_0, Rabs_R0 in B5. unfold rltb in B5. destruct (Rlt_dec _ _) as [L|]; [|discriminate].
    unfold machine_eps in L. assert (0 < / 10 ^ 30) by (apply Rinv_0_lt_compat, pow_lt; lra). lra.
Qed.

Lemma set_pairs_at qs : forall l0 u nu ll, NoDup qs -> (ll < length qs)%nat ->
  set_pairs qs l0 u nu (fst (nth ll qs (0, 0)%nat)) (snd (nth ll qs (0, 0)%nat)) = u (l0 + ll)%nat.
Proof.
  assert (Out : forall rs l0 u nu i j, ~ In (i, j) rs -> set_pairs rs l0 u nu i j = nu i j).
  { intro rs. induction rs as [|[a b] rs IH]; intros l0 u nu i j H; [reflexivity|]. cbn [set_pairs].
    rewrite IH by (intro; apply H; right; assumption).
    destruct (Nat.eqb_spec i a) as [-> |]; [|reflexivity]. destruct (Nat.eqb_spec j b) as [-> |]; [|reflexivity].
    exfalso. apply H. left. reflexivity. }
  induction qs as [|[a b] qs IH]; intros l0 u nu ll ND Hl; [cbn in Hl; lia|].
  inversion ND as [|? ? N1 N2]; subst. destruct ll as [|ll]; cbn [set_pairs nth fst snd].
  - rewrite Out by exact N1. rewrite !Nat.eqb_refl. cbn [andb]. rewrite Nat.add_0_r. reflexivity.
  - cbn in Hl. rewrite (IH (S l0)) by (auto; lia). f_equal. lia.
Qed.

(** Cell means do not change, cells that have a facet without neighbour do not
    change, every other moment shrinks towards zero. *)
Theorem C159_limiter_2d v c ll : (c < n_cell)%nat -> (ll < n)%nat ->
  let w := limiter2d order extended n n_cell nb v in
  (ll = 0%nat \/ (exists f, (f < 4)%nat /\ (nb c f < 0)%Z) -> w (c * n + ll)%nat = v (c * n + ll)%nat) /\
  shrinks (v (c * n + ll)%nat) (w (c * n + ll)%nat).
Proof.
  intros Hc Hl w. unfold w, limiter2d.
  destruct (Nat.eqb_spec n 1) as [E1 | N1]; [split; [reflexivity | apply shrinks_refl]|].
  fold ps. set (u := unravel n v). set (nu0 := set_pairs ps 0 u (fun _ _ _ => 0)).
  pose proof (lim2_inv (inner_cells n_cell nb 4) nu0 (rev ps) nu0 (fun _ => 0) (inner_cells n_cell nb 4) false (fun c H => H)) as H.
  specialize (H ltac:(intros; split; [apply shrinks_refl | reflexivity])).
  destruct (fold_left _ _ _) as [[[nu' t'] i'] s'].
  assert (Hlen : length ps = n) by (unfold ps, n; apply C158_basis_indices).
  rewrite ravel_at by exact Hl. cbv zeta.
  specialize (H (fst (nth ll ps (0, 0)%nat)) (snd (nth ll ps (0, 0)%nat)) c).
  assert (E0 : nu0 (fst (nth ll ps (0, 0)%nat)) (snd (nth ll ps (0, 0)%nat)) c = v (c * n + ll)%nat).
  { unfold nu0. rewrite set_pairs_at; [reflexivity | apply NoDup_iter2 | lia]. }
  rewrite E0 in H. destruct H as [H1 H2]. split; [|exact H1].
  intro Hcase. apply H2. destruct Hcase as [-> | (f & Hf & Hb)].
  - right. assert (Eh : exists r, ps = (0, 0)%nat :: r).
    { unfold ps, iter2. rewrite Nat.add_1_r. eexists. reflexivity. }
    destruct Eh as [r Eh]. rewrite Eh. split; reflexivity.
  - left. intro I. unfold inner_cells in I. apply filter_In in I. destruct I as [_ I].
    rewrite forallb_forall in I. specialize (I f ltac:(apply in_seq; lia)). apply Z.ltb_lt in I. lia.
Qed.

(** A cell next to cell number 0 is never limited: the test is [> 0], not [>= 0]. *)
Theorem C159_neighbour_zero_partial v c ll f : (c < n_cell)%nat -> (ll < n)%nat -> (f < 4)%nat -> nb c f = 0%Z ->
  limiter2d order extended n n_cell nb v (c * n + ll)%nat = v (c * n + ll)%nat.
Proof.
  intros Hc Hl Hf Hb. unfold limiter2d.
  destruct (Nat.eqb_spec n 1) as [E1 | N1]; [reflexivity|].
  fold ps. set (u := unravel n v). set (nu0 := set_pairs ps 0 u (fun _ _ _ => 0)).
  pose proof (lim2_inv (inner_cells n_cell nb 4) nu0 (rev ps) nu0 (fun _ => 0) (inner_cells n_cell nb 4) false (fun c H => H)) as H.
  specialize (H ltac:(intros; split; [apply shrinks_refl | reflexivity])).
  destruct (fold_left _ _ _) as [[[nu' t'] i'] s'].
  assert (Hlen : length ps = n) by (unfold ps, n; apply C158_basis_indices).
  rewrite ravel_at by exact Hl. cbv zeta.
  specialize (H (fst (nth ll ps (0, 0)%nat)) (snd (nth ll ps (0, 0)%nat)) c).
  assert (E0 : nu0 (fst (nth ll ps (0, 0)%nat)) (snd (nth ll ps (0, 0)%nat)) c = v (c * n + ll)%nat).
  { unfold nu0. rewrite set_pairs_at; [reflexivity | apply NoDup_iter2 | lia]. }
  rewrite E0 in H. apply H. left. intro I. unfold inner_cells in I. apply filter_In in I. destruct I as [_ I].
  rewrite forallb_forall in I. specialize (I f ltac:(apply in_seq; lia)). rewrite Hb in I. discriminate.
Qed.
End L2.

(** ** Refutations: five cells in a cross, first order, cell means 0 in all
    cells and a steep slope in the middle cell. *)
(** middle cell [m], neighbours [a b c d] below, right, above, left *)
Definition cross (m a b c d : nat) : nat -> nat -> Z :=
  fun k f => if Nat.eqb k m then match f with 0 => Z.of_nat a | 1 => Z.of_nat b | 2 => Z.of_nat c | _ => Z.of_nat d end else (-1)%Z.
(** slopes [sx], [sy] in cell [m]: moments (0,0), (0,1), (1,0) *)
Definition steep (m : nat) (sy sx : R) : nat -> R :=
  fun i => if Nat.eqb i (m * 3 + 1) then sy else if Nat.eqb i (m * 3 + 2) then sx else 0.

Lemma rlt_eps_1 : rltb machine_eps (Rabs (0 - 1)) = true.
Proof.
  unfold rltb. destruct (Rlt_dec _ _) as [|L]; [reflexivity|]. exfalso. apply L.
  unfold machine_eps. rewrite Rabs_left by lra.
  apply Rlt_le_trans with (/ 1); [apply Rinv_lt_contravar; [rewrite Rmult_1_l; apply pow_lt; lra|] | rewrite Rinv_1; lra].
  apply Rlt_pow_R1; [lra | lia].
Qed.
Lemma rlt_eps_0 : rltb machine_eps (Rabs (0 - 0)) = false.
Proof.
  unfold rltb. destruct (Rlt_dec _ _) as [L|]; [|reflexivity]. exfalso. rewrite Rminus_eq_0, Rabs_R0 in L.
  unfold machine_eps in L. assert (0 < / 10 ^ 30) by (apply Rinv_0_lt_compat, pow_lt; lra). lra.
Qed.
Lemma minmod_seq_zero a b : minmod_seq a [b * (0 - 0); b * (0 - 0)] = 0.
Proof.
  replace (b * (0 - 0)) with 0 by ring.
  unfold minmod_seq. destruct (forallb _ _) eqn:E; [|reflexivity].
  cbn [forallb] in E. rewrite !andb_true_iff in E. destruct E as [_ [E _]]. apply reqb_true in E. rewrite E, sgn_0. ring.
Qed.

(** The middle cell numbered 4 (neighbours 0..3) is not limited, numbered 0
    (neighbours 1..4) it is: the result depends on the cell numbering. *)
Theorem C159_numbering_refuted :
  limiter2d 1 false 3 5 (cross 4 0 1 2 3) (steep 4 1 1) (4 * 3 + 2)%nat = 1 /\
  limiter2d 1 false 3 5 (cross 0 1 2 3 4) (steep 0 1 1) (0 * 3 + 2)%nat = 0.
Proof.
  split.
  - change 3%nat with (get_n_el_nod 1 2 false) at 1 2. rewrite (C159_neighbour_zero_partial 1 false 5 (cross 4 0 1 2 3) _ 4 2 0); cbn; try lia; reflexivity.
  - unfold limiter2d. cbn [Nat.eqb]. 
    set (nb := cross 0 1 2 3 4).
    replace (inner_cells 5 nb 4) with [0]%nat by reflexivity.
    change (iter2 1 false) with [(0, 0); (0, 1); (1, 0)]%nat. cbn [rev app].
    cbn [set_pairs]. cbn [fold_left]. unfold lim2_step at 3. cbv zeta. cbn [mem existsb Nat.eqb orb filter].
    unfold minmod_args at 2. cbn [Nat.leb app]. 
    unfold nb at 1 2 3 4 5 6. unfold cross at 1 2 3 4 5 6. cbn -[fold_left Rminus Rmult machine_eps alf minmod_seq rltb Rabs lim2_step].
    unfold unravel, steep. cbn -[fold_left Rminus Rmult machine_eps alf minmod_seq rltb Rabs lim2_step].
    rewrite minmod_seq_zero, rlt_eps_1. 
    unfold lim2_step. cbn -[Rminus Rmult machine_eps alf minmod_seq rltb Rabs].
    rewrite minmod_seq_zero, rlt_eps_1. cbn -[Rminus Rmult machine_eps alf minmod_seq rltb Rabs].
    rewrite minmod_seq_nil, rlt_eps_0. unfold ravel. change (2 mod 3)%nat with 2%nat. change (2 / 3)%nat with 0%nat.
    cbn -[Rminus Rmult machine_eps alf minmod_seq rltb Rabs]. try reflexivity. apply minmod_seq_zero.
Qed.

(** With a zero slope in x, a steep slope in y is not limited: the values
    exceed the means of the neighbours (all means are 0). *)
Theorem C159_second_slope_refuted :
  limiter2d 1 false 3 5 (cross 0 1 2 3 4) (steep 0 1 0) (0 * 3 + 1)%nat = 1 /\
  (forall c, (c < 5)%nat -> steep 0 1 0 (c * 3)%nat = 0).
Proof.
  split.
  - unfold limiter2d. cbn [Nat.eqb]. 
    set (nb := cross 0 1 2 3 4).
    replace (inner_cells 5 nb 4) with [0]%nat by reflexivity.
    change (iter2 1 false) with [(0, 0); (0, 1); (1, 0)]%nat. cbn [rev app].
    cbn [set_pairs]. cbn [fold_left]. unfold lim2_step at 3. cbv zeta. cbn [mem existsb Nat.eqb orb filter].
    unfold minmod_args at 2. cbn [Nat.leb app]. 
    unfold nb at 1 2 3 4 5 6. unfold cross at 1 2 3 4 5 6. cbn -[fold_left Rminus Rmult machine_eps alf minmod_seq rltb Rabs lim2_step].
    unfold unravel, steep. cbn -[fold_left Rminus Rmult machine_eps alf minmod_seq rltb Rabs lim2_step].
    rewrite minmod_seq_zero, rlt_eps_0. 
    unfold lim2_step. cbn -[Rminus Rmult machine_eps alf minmod_seq rltb Rabs].
    unfold ravel. reflexivity.
  - intros c Hc. destruct c as [|[|[|[|[|c]]]]]; try lia; reflexivity.
Qed.

(** ** Several fields *)
Lemma composed_slices fs : forall u lu start i,
  let sl := combine (limiter_slices (map fst fs) start) (map snd fs) in
  ((i < start)%nat \/ (start + list_sum (map fst fs) <= i)%nat -> composed_loop sl u lu i = lu i) /\
  (forall f n lim a, nth_error fs f = Some (n, lim) -> a = (start + list_sum (map fst (firstn f fs)))%nat ->
     (a <= i < a + n)%nat -> composed_loop sl u lu i = lim (slice u a) (i - a)%nat).
Proof.
  induction fs as [|[m lim0] fs IH]; intros u lu start i; cbn [map fst snd limiter_slices combine composed_loop].
  - split; [reflexivity|]. intros f n lim a E. destruct f; discriminate.
  - destruct (IH u (fun i => if (Nat.leb start i && Nat.ltb i (start + m))%bool then lim0 (slice u start) (i - start)%nat else lu i) (start + m)%nat i) as [I1 I2].
    split.
    + intro H. cbn [list_sum fold_right] in H. unfold list_sum in H. cbn [fold_right] in H. fold (list_sum (map fst fs)) in H. rewrite I1 by lia.
      replace (start <=? i)%nat with (negb (i <? start)%nat) by (symmetry; apply Nat.leb_antisym).
      destruct (Nat.ltb_spec i start) as [L | L]; [reflexivity|]. cbn [negb andb].
      replace (i <? start + m)%nat with false by (symmetry; apply Nat.ltb_ge; lia). reflexivity.
    + intros f n lim a E Ea Hi. destruct f as [|f]; cbn [nth_error firstn map] in *.
      * inversion E; subst. unfold list_sum in *. cbn [fold_right] in *. rewrite I1 by lia.
        replace (start <=? i)%nat with true by (symmetry; apply Nat.leb_le; lia).
        replace (i <? start + n)%nat with true by (symmetry; apply Nat.ltb_lt; lia). cbn [andb]. rewrite !Nat.add_0_r. reflexivity.
      * apply (I2 f n lim a E); [|exact Hi]. rewrite Ea. unfold list_sum. cbn [fold_right fst]. lia.
Qed.

(** Each field's block of the DOF vector is limited by that field's limiter,
    and depends on nothing else. *)
Theorem C160_composed fs u f n lim i : nth_error fs f = Some (n, lim) -> (i < n)%nat ->
  let a := list_sum (map fst (firstn f fs)) in
  composed fs u (a + i)%nat = lim (fun k => u (a + k)%nat) i.
Proof.
  intros E Hi a. unfold composed.
  destruct (composed_slices fs u (fun _ => 0) 0 (a + i)%nat) as [_ H].
  rewrite (H f n lim a E eq_refl) by lia. unfold slice. f_equal. lia.
Qed.

(** The slices are sized by fields, not by variables: with two variables of one
    field, the DOFs of the second variable become zero. *)
Theorem C160_two_variables_refuted : exists u : nat -> R,
  (* one field with 2 DOFs and no limiter; the vector holds 2 variables *)
  u 2%nat = 1 /\ composed [(2%nat, fun x => x)] u 2%nat = 0.
Proof. exists (fun _ => 1). split; reflexivity. Qed.

Example C160_example : composed [(2%nat, fun x => x); (3%nat, fun x i => 2 * x i)] (fun i => INR i) 3%nat = 6.
Proof.
  etransitivity; [exact (C160_composed [(2%nat, fun x => x); (3%nat, fun x i => 2 * x i)] (fun i => INR i) 1 3 (fun x i => 2 * x i) 1 eq_refl ltac:(lia))|].
  cbn. lra.
Qed.

Print Assumptions C159_limiter_2d.
Print Assumptions C159_numbering_refuted.
Print Assumptions C159_second_slope_refuted.
Print Assumptions C160_composed.
