(** C152 The basis of a patch, continued. *)
From Coq Require Import Reals Lra Lia Arith List Bool.
From Coquelicot Require Import Coquelicot.
From Verif Require Import M_fmf L_fmf M_map L_map P_map S_iga M_iga L_iga S_iga2 M_iga2 P_iga P_iga2 P_iga3 L_iga2 P_iga4 P_iga5.
Import ListNotations.
Open Scope R_scope.

Lemma max_all : forall l x, In x l -> (x <= fold_right Nat.max 0 l)%nat.
Proof. induction l as [|a l IH]; intros x H; [destruct H|]. cbn. destruct H as [->|H]. lia. specialize (IH x H). lia. Qed.
Lemma max_le : forall l m, (forall x, In x l -> (x <= m)%nat) -> (fold_right Nat.max 0 l <= m)%nat.
Proof. induction l as [|a l IH]; intros m H; cbn. lia. assert (a <= m)%nat by (apply H; left; auto). assert (fold_right Nat.max 0 l <= m)%nat by (apply IH; intros; apply H; right; auto). lia. Qed.
Lemma max_entry_eq : forall c m, (forall r x, In r c -> In x r -> (x <= m)%nat) -> (exists r, In r c /\ In m r) -> max_entry c = m.
Proof.
  intros c m H (r & R1 & R2). unfold max_entry. apply Nat.le_antisymm.
  - apply max_le. intros x Hx. apply in_map_iff in Hx. destruct Hx as (r' & <- & Hr'). apply max_le. intros; eapply H; eauto.
  - etransitivity. apply (max_all r m R2). apply max_all. apply in_map_iff. eauto.
Qed.

Section Knots.
Variables (t : nat -> R) (n p : nat).
Hypothesis HO : open_knots t n p.
Definition conn1 : list (list nat) := map (fun s => map (fun k => k + (s - p))%nat (seq 0 (p + 1))) (spans t n).
Lemma span_last : In (n - p - 2)%nat (spans t n).
Proof.
  pose proof HO as (N & _ & _ & _ & _ & L). unfold spans. apply filter_In. split. apply in_seq. lia.
  destruct (Rlt_dec _ _) as [|Q]; auto. exfalso. apply Q. replace (n - p - 2 + 1)%nat with (n - p - 1)%nat by lia. auto.
Qed.
Lemma span_bounds : forall s, In s (spans t n) -> (p <= s)%nat /\ (s + p + 1 < n)%nat /\ t s < t (s + 1)%nat.
Proof. intros s H. apply spans_in in H. destruct H as (H1 & H2). destruct (span_in t n p HO s H1 H2). auto. Qed.
(** The number of functions is the number of knots minus degree minus one. *)
Lemma conn1_max : (max_entry conn1 + 1 = n - p - 1)%nat.
Proof.
  pose proof HO as (N & _). rewrite (@max_entry_eq conn1 (n - p - 2)). lia.
  - intros r x Hr Hx. unfold conn1 in Hr. apply in_map_iff in Hr. destruct Hr as (s & <- & Hs). apply in_map_iff in Hx. destruct Hx as (k & <- & Hk). apply in_seq in Hk.
    apply span_bounds in Hs. lia.
  - exists (map (fun k => k + (n - p - 2 - p))%nat (seq 0 (p + 1))). split. apply in_map_iff. exists (n - p - 2)%nat. split; auto. apply span_last.
    apply in_map_iff. exists p. split. lia. apply in_seq. lia.
Qed.
Lemma bspline_nonneg : forall q i x, (i + q + 1 < n)%nat -> 0 <= bspline t q i x.
Proof.
  pose proof (o_mono t n p HO) as M. induction q; intros i x L.
  - cbn. destruct (Rle_dec _ _); [destruct (Rlt_dec _ _)|]; lra.
  - cbn [bspline]. assert (A : 0 <= ratio (x - t i) (t (i + S q)%nat - t i) * bspline t q i x).
    { destruct (Rlt_dec x (t i)) as [X|X]. rewrite (@bspline_supp t n M q i x) by (try lia; auto). lra.
      apply Rmult_le_pos; [|apply IHq; lia]. unfold ratio. destruct (Req_EM_T _ _); [lra|].
      pose proof (o_le t n p HO i (i + S q) ltac:(lia) ltac:(lia)). apply Rmult_le_pos; [lra|]. left. apply Rinv_0_lt_compat. lra. }
    assert (B : 0 <= ratio (t (i + S q + 1)%nat - x) (t (i + S q + 1)%nat - t (i + 1)%nat) * bspline t q (S i) x).
    { destruct (Rle_dec (t (S i + q + 1)%nat) x) as [X|X]. rewrite (@bspline_supp t n M q (S i) x) by (try lia; auto). lra.
      replace (S i + q + 1)%nat with (i + S q + 1)%nat in X by lia.
      apply Rmult_le_pos; [|apply IHq; lia]. unfold ratio. destruct (Req_EM_T _ _); [lra|].
      pose proof (o_le t n p HO (i + 1) (i + S q + 1) ltac:(lia) ltac:(lia)). apply Rmult_le_pos; [lra|]. left. apply Rinv_0_lt_compat. lra. }
    replace (S (i + S q)) with (i + S q + 1)%nat in * by lia. lra.
Qed.
(** The data of one direction. *)
Lemma one_dir : forall n_el, exists cs bconn, compute_bezier_extraction_1d t n p = Some cs /\ create_connectivity_1d t n p n_el = Some (conn1, bconn) /\
  bconn = map (fun e => map (fun k => k + p * e)%nat (seq 0 (p + 1))) (seq 0 n_el) /\
  length cs = length (spans t n) /\
  forall e, (e < length (spans t n))%nat -> let s := nth e (spans t n) 0%nat in
    forall i x, (i < p + 1)%nat -> t s <= x < t (s + 1)%nat ->
      sm (p + 1) (fun j => nth e cs eye i j * bernstein p j ((x - t s) / (t (s + 1)%nat - t s))) = bspline t p (i + (s - p)) x.
Proof.
  intros n_el. destruct (@C150_extraction t n p n_el HO) as (cs & conn & bconn & E1 & E2 & L1 & L2 & H).
  destruct (connectivity_spans t n p HO n_el) as (conn' & bconn' & E3 & E4 & E5). rewrite E2 in E3. inversion E3 as [[X1 X2]]. rewrite <- X1 in E4. rewrite <- X2 in E5. clear E3 X1 X2.
  exists cs, bconn. split; auto. split. unfold conn1. rewrite <- E4. auto. split; auto. split; auto.
  intros e He s i x Hi Hx. destruct (H e s) as (C & ec & H1 & H2 & _ & _ & _ & H3). unfold s. apply nth_error_nth'. auto.
  destruct (H3 x Hx) as (H4 & _). apply nth_error_nth with (d := eye) in H1. rewrite H1. rewrite <- H4 by auto. f_equal.
  rewrite E4 in H2. rewrite nth_error_map in H2. unfold s in *. rewrite (nth_error_nth' (spans t n) 0%nat He) in H2. cbn in H2. inversion H2.
  rewrite (@nth_map0 _ _ _ _ _ 0%nat) by (rewrite seq_length; auto). rewrite seq_nth by auto. reflexivity.
Qed.
End Knots.

Section Patch.
Variable kps : list (knot_vector * nat).
Notation dim := (length kps).
Notation D0 := ((fun _ : nat => 0, 0%nat), 0%nat).
Notation kn k := (fst (fst (nth k kps D0))).
Notation nk k := (snd (fst (nth k kps D0))).
Notation dg k := (snd (nth k kps D0)).
Hypothesis H13 : (1 <= dim <= 3)%nat.
Hypothesis HO : List.Forall (fun '((t, n), p) => open_knots t n p) kps.
Lemma HOk : forall k, (k < dim)%nat -> open_knots (kn k) (nk k) (dg k).
Proof. intros k Hk. rewrite List.Forall_forall in HO. specialize (HO (nth k kps D0) (nth_In _ _ Hk)). destruct (nth k kps D0) as ((t & n) & p). exact HO. Qed.
Definition n_spans (kp : knot_vector * nat) : nat := length (spans (fst (fst kp)) (snd (fst kp))).

Lemma patch_lists : exists cs bcs, compute_bezier_extraction (map fst kps) (map snd kps) = Some cs /\
  length cs = dim /\ map (@length mat) cs = map n_spans kps /\
  create_connectivity (map (@length mat) cs) (map fst kps) (map snd kps) =
    Some (make_conn (map n_spans kps) (map (fun p => p + 1)%nat (map snd kps)) (map (fun kp => conn1 (fst (fst kp)) (snd (fst kp)) (snd kp)) kps),
          make_conn (map n_spans kps) (map (fun p => p + 1)%nat (map snd kps)) bcs) /\
  bcs = map (fun kp => map (fun e => map (fun k => k + snd kp * e)%nat (seq 0 (snd kp + 1))) (seq 0 (n_spans kp))) kps /\
  forall k, (k < dim)%nat -> forall e, (e < n_spans (nth k kps D0))%nat -> let s := nth e (spans (kn k) (nk k)) 0%nat in
    forall i x, (i < dg k + 1)%nat -> kn k s <= x < kn k (s + 1)%nat ->
      sm (dg k + 1) (fun j => nth e (nth k cs []) eye i j * bernstein (dg k) j ((x - kn k s) / (kn k (s + 1)%nat - kn k s))) = bspline (kn k) (dg k) (i + (s - dg k)) x.
Proof.
  clear H13. unfold compute_bezier_extraction, create_connectivity.
  assert (X : exists cs bcs, all_some (map (fun '((t, n), p) => compute_bezier_extraction_1d t n p) (combine (map fst kps) (map snd kps))) = Some cs /\
    length cs = dim /\ map (@length mat) cs = map n_spans kps /\
    all_some (map (fun '(n_el, ((t, n), p)) => create_connectivity_1d t n p n_el) (combine (map (@length mat) cs) (combine (map fst kps) (map snd kps)))) =
      Some (combine (map (fun kp => conn1 (fst (fst kp)) (snd (fst kp)) (snd kp)) kps) bcs) /\
    bcs = map (fun kp => map (fun e => map (fun k => k + snd kp * e)%nat (seq 0 (snd kp + 1))) (seq 0 (n_spans kp))) kps /\
    forall k, (k < dim)%nat -> forall e, (e < n_spans (nth k kps D0))%nat -> let s := nth e (spans (kn k) (nk k)) 0%nat in
    forall i x, (i < dg k + 1)%nat -> kn k s <= x < kn k (s + 1)%nat ->
      sm (dg k + 1) (fun j => nth e (nth k cs []) eye i j * bernstein (dg k) j ((x - kn k s) / (kn k (s + 1)%nat - kn k s))) = bspline (kn k) (dg k) (i + (s - dg k)) x).
  { clear - HO. induction kps as [|((t & n) & p) l IH].
    - exists [], []. repeat (split; [reflexivity|]). intros; cbn in *; lia.
    - inversion HO as [|? ? Ho Hl]; subst. destruct (IH Hl) as (cs & bcs & I1 & I2 & I3 & I4 & I5 & I6).
      destruct (@one_dir t n p Ho (length (spans t n))) as (c & b & J1 & J2 & J3 & J4 & J5).
      exists (c :: cs), (b :: bcs). cbn [map fst snd combine all_some length]. rewrite J1, I1. cbn [option_map]. split; auto. split. f_equal; auto.
      split. unfold n_spans at 1. cbn [fst snd]. f_equal; auto. split. { rewrite J4, J2, I4. reflexivity. }
      split. { rewrite J3, I5. reflexivity. }
      intros [|k] Hk e He; cbn [nth] in *. intros i x Hi Hx. apply J5; auto. apply I6; auto. lia. }
  destruct X as (cs & bcs & I1 & I2 & I3 & I4 & I5 & I6). exists cs, bcs. split; auto. split; auto. split; auto. split; [|split; auto].
  eapply eq_trans; [apply (f_equal (option_map _) I4)|]. cbn [option_map]. rewrite I3.
  assert (Q : forall (A B : Type) (a : list A) (b : list B), length a = length b -> map fst (combine a b) = a /\ map snd (combine a b) = b).
  { clear. intros A B a. induction a; intros [|y b] H; cbn in H; try lia; cbn; auto. destruct (IHa b) as (-> & ->). lia. auto. }
  destruct (Q _ _ (map (fun kp => conn1 (fst (fst kp)) (snd (fst kp)) (snd kp)) kps) bcs) as (-> & ->). rewrite I5, !map_length. reflexivity. reflexivity.
Qed.
End Patch.
