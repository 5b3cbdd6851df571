(** C152 The theorem. *)
From Coq Require Import Reals Lra Lia Arith List Bool.
From Coquelicot Require Import Coquelicot.
From Verif Require Import M_fmf L_fmf M_map L_map P_map S_iga M_iga L_iga S_iga2 M_iga2 P_iga P_iga2 P_iga3 L_iga2 P_iga4 P_iga5 P_iga6.
Import ListNotations.
Open Scope R_scope.

Section Element.
Variable kps : list (knot_vector * nat).
Notation dim := (length kps).
Notation D0 := ((fun _ : nat => 0, 0%nat), 0%nat).
Notation kn k := (fst (fst (nth k kps D0))).
Notation nk k := (snd (fst (nth k kps D0))).
Notation dg k := (snd (nth k kps D0)).
Hypothesis H13 : (1 <= dim <= 3)%nat.
Hypothesis HO : List.Forall (fun '((t, n), p) => open_knots t n p) kps.
Variables (cs : list (list mat)) (ies : list nat).
Hypothesis LC : length cs = dim.
Hypothesis LS : map (@length mat) cs = map n_spans kps.
Hypothesis HN : forall k, (k < dim)%nat -> forall e, (e < n_spans (nth k kps D0))%nat -> let s := nth e (spans (kn k) (nk k)) 0%nat in
    forall i x, (i < dg k + 1)%nat -> kn k s <= x < kn k (s + 1)%nat ->
      sm (dg k + 1) (fun j => nth e (nth k cs []) eye i j * bernstein (dg k) j ((x - kn k s) / (kn k (s + 1)%nat - kn k s))) = bspline (kn k) (dg k) (i + (s - dg k)) x.
Hypothesis HE : inside ies (map n_spans kps).
Notation n_els := (map n_spans kps).
Notation degrees := (map snd kps).
Notation ds := (map (fun p => p + 1)%nat degrees).
Notation shape := (map n_funs kps).
Notation ie := (position n_els ies).
Definition sp_of (k : nat) : nat := nth (nth k ies 0%nat) (spans (kn k) (nk k)) 0%nat.
Definition loc (l : list nat) : list nat := map (fun k => nth k l 0 + (sp_of k - dg k))%nat (seq 0 dim).
Definition conn_el : nat -> nat -> nat := make_conn n_els ds (map (fun kp => conn1 (fst (fst kp)) (snd (fst kp)) (snd kp)) kps).

Lemma ies_lt : forall k, (k < dim)%nat -> (nth k ies 0 < n_spans (nth k kps D0))%nat.
Proof. intros k Hk. pose proof (@f2_elim _ _ HE k) as Q. rewrite map_length in Q. specialize (Q Hk). rewrite (@nth_map0 _ _ n_spans kps k D0) in Q by auto. exact Q. Qed.
Lemma sp_in : forall k, (k < dim)%nat -> In (sp_of k) (spans (kn k) (nk k)).
Proof. intros k Hk. apply nth_In. apply (ies_lt k Hk). Qed.
Lemma sp_b : forall k, (k < dim)%nat -> (dg k <= sp_of k)%nat /\ (sp_of k + dg k + 1 < nk k)%nat /\ kn k (sp_of k) < kn k (sp_of k + 1)%nat.
Proof. intros k Hk. apply (@span_bounds _ _ _ (HOk _ HO k Hk)). apply sp_in; auto. Qed.
Lemma ds_nth : forall k, (k < dim)%nat -> nth k ds 0%nat = (dg k + 1)%nat.
Proof. intros k Hk. rewrite map_map. rewrite (@nth_map0 _ _ (fun x => (snd x + 1)%nat) kps k D0) by auto. reflexivity. Qed.
Lemma ds_len : length ds = dim. Proof. rewrite !map_length. reflexivity. Qed.
Lemma shape_nth : forall k, (k < dim)%nat -> nth k shape 0%nat = (nk k - dg k - 1)%nat.
Proof. intros k Hk. rewrite (@nth_map0 _ _ n_funs kps k D0) by auto. reflexivity. Qed.
Lemma loc_in : forall l, Forall2 lt l ds -> inside (loc l) shape.
Proof.
  intros l Hl. apply f2_intro. unfold loc. rewrite !map_length, seq_length. reflexivity.
  intros k Hk. rewrite map_length in Hk. unfold loc. rewrite nth_map_seq, shape_nth by auto.
  pose proof (@f2_elim _ _ Hl k) as Q. rewrite ds_len, ds_nth in Q by auto. pose proof (sp_b k Hk). specialize (Q Hk). lia.
Qed.
Lemma loc_inj : forall l l', Forall2 lt l ds -> Forall2 lt l' ds -> loc l = loc l' -> l = l'.
Proof.
  intros l l' H H' E. apply f2_length in H. apply f2_length in H'. rewrite ds_len in *. apply nth_ext0. congruence.
  intros k Hk. rewrite H in Hk. assert (Q : nth k (loc l) 0%nat = nth k (loc l') 0%nat) by congruence. unfold loc in Q. rewrite !nth_map_seq in Q by auto. lia.
Qed.
Lemma conn_at : forall l, Forall2 lt l ds -> conn_el ie (position ds l) = position shape (loc l).
Proof.
  intros l Hl. unfold conn_el. rewrite make_conn_at; auto; try (rewrite ?map_length; auto; fail).
  assert (E1 : map (fun c => (max_entry c + 1)%nat) (map (fun kp => conn1 (fst (fst kp)) (snd (fst kp)) (snd kp)) kps) = shape).
  { rewrite map_map. apply map_ext_in. intros kp Hkp. unfold n_funs. apply conn1_max. rewrite List.Forall_forall in HO. specialize (HO _ Hkp). destruct kp as ((t & n) & p). exact HO. }
  rewrite E1. f_equal. unfold loc. rewrite map_length. apply map_ext_in. intros k Hk. apply in_seq in Hk. assert (Hk' : (k < dim)%nat) by lia.
  rewrite (@nth_map0 _ _ (fun kp => conn1 (fst (fst kp)) (snd (fst kp)) (snd kp)) kps k D0) by auto. unfold conn1.
  rewrite (@nth_map0 _ _ _ _ _ 0%nat) by (apply (ies_lt k Hk')). fold (sp_of k).
  pose proof (@f2_elim _ _ Hl k) as Q. rewrite ds_len, ds_nth in Q by auto.
  rewrite (@nth_map0 _ _ _ _ _ 0%nat) by (rewrite seq_length; auto). rewrite seq_nth by auto. reflexivity.
Qed.

Variables (bern : R -> nat -> arr * arr) (w : nat -> R) (qp : nat -> R).
Hypothesis HB : bern_ok bern.
Hypothesis HW : forall g, (g < prodn shape)%nat -> 0 < w g.
Hypothesis HQ : forall k, (k < dim)%nat -> 0 <= qp k < 1.
Definition xk (k : nat) : R := kn k (sp_of k) + qp k * (kn k (sp_of k + 1)%nat - kn k (sp_of k)).
Notation N := (elem_N degrees cs bern qp ie).
Notation nf := (n_efun degrees).
Lemma xk_in : forall k, (k < dim)%nat -> kn k (sp_of k) <= xk k < kn k (sp_of k + 1)%nat /\ (xk k - kn k (sp_of k)) / (kn k (sp_of k + 1)%nat - kn k (sp_of k)) = qp k.
Proof.
  intros k Hk. destruct (sp_b k Hk) as (_ & _ & L). specialize (HQ k Hk). unfold xk. set (a := kn k (sp_of k)) in *. set (b := kn k (sp_of k + 1)%nat) in *.
  split. split; nra. field. lra.
Qed.
Lemma N_at : forall k i, (k < dim)%nat -> (i < dg k + 1)%nat -> N k i = bspline (kn k) (dg k) (i + (sp_of k - dg k)) (xk k).
Proof.
  intros k i Hk Hi. destruct (xk_in k Hk) as (X1 & X2). pose proof (@HN k Hk (nth k ies 0%nat) (ies_lt k Hk) i (xk k) Hi X1) as HH. cbv zeta in HH. fold (sp_of k) in HH. rewrite X2 in HH. rewrite <- HH. clear HH.
  unfold elem_N. rewrite (@nth_map0 _ _ snd kps k D0) by auto. apply sm_ext. intros j Hj. f_equal.
  - unfold elem_C. rewrite LS. rewrite unravel_hrav; auto. rewrite map_length; auto.
  - apply HB. lia.
Qed.
Lemma nf_prod : nf = prodn ds. Proof. reflexivity. Qed.
Lemma idx_ds : forall a, (a < nf)%nat -> Forall2 lt (nth a (tuples ds) []) ds /\ position ds (nth a (tuples ds) []) = a.
Proof. intros a Ha. apply tuples_nth. auto. Qed.
Notation lI a := (loc (nth a (tuples ds) [])).
Lemma val_at : forall a, (a < nf)%nat -> tp_val N (nth a (tuples ds) []) = tp_spline kps (lI a) xk.
Proof.
  intros a Ha. destruct (idx_ds a Ha) as (I1 & _). rewrite (@tp_val_prod N _ dim). 2: { rewrite (f2_length _ _ I1). apply ds_len. } 2: auto.
  unfold tp_spline. apply prodR_ext. intros k Hk. unfold loc. rewrite nth_map_seq by auto.
  pose proof (@f2_elim _ _ I1 k) as Q. rewrite ds_len, ds_nth in Q by auto. rewrite N_at by auto. destruct (nth k kps D0) as ((t & n) & p). reflexivity.
Qed.
Lemma val_nonneg : forall a, (a < nf)%nat -> 0 <= tp_val N (nth a (tuples ds) []).
Proof.
  intros a Ha. rewrite val_at by auto. apply prodR_nonneg. intros k Hk. destruct (idx_ds a Ha) as (I1 & _).
  pose proof (@f2_elim _ _ I1 k) as Q. rewrite ds_len, ds_nth in Q by auto. specialize (Q Hk). pose proof (sp_b k Hk) as SB. pose proof (HOk _ HO k Hk) as HK.
  unfold loc. rewrite nth_map_seq by auto. destruct (nth k kps D0) as ((t & n) & p). cbn [fst snd] in *. apply (@bspline_nonneg t n p HK). lia.
Qed.
Lemma val_sum : sm nf (fun a => tp_val N (nth a (tuples ds) [])) = 1.
Proof.
  rewrite (@sm_ext nf _ (fun a => prodR (map (fun k => N k (nth k (nth a (tuples ds) []) 0%nat)) (seq 0 (length ds))))).
  2: { intros a Ha. destruct (idx_ds a Ha) as (I1 & _). rewrite ds_len. apply tp_val_prod; auto. rewrite (f2_length _ _ I1). apply ds_len. }
  rewrite nf_prod, sum_product, ds_len. apply prodR_1. intros k Hk. rewrite ds_nth by auto.
  destruct (sp_b k Hk) as (S1 & S2 & S3). destruct (xk_in k Hk) as (X1 & X2). pose proof (HOk _ HO k Hk) as HK.
  rewrite (@sm_ext _ _ (fun i => bspline (kn k) (dg k) (i + (sp_of k - dg k)) (xk k))). 2: { intros; apply N_at; auto. }
  rewrite <- (@C150_unity (kn k) (nk k) (dg k) (sp_of k) (xk k) HK ltac:(lia) X1).
  symmetry. apply (@sm_inj (dg k + 1) (nk k - dg k - 1) (fun i => i + (sp_of k - dg k))%nat).
  - intros; lia.
  - intros; lia.
  - intros g Hg H. apply (@bspline_supp (kn k) (nk k) (o_mono _ _ _ HK)). lia.
    destruct (Nat.lt_ge_cases g (sp_of k - dg k)) as [L|L].
    + right. pose proof (o_le _ _ _ HK (g + dg k + 1) (sp_of k) ltac:(lia) ltac:(lia)). lra.
    + left. pose proof (H (g - (sp_of k - dg k))%nat) as H'. pose proof (o_le _ _ _ HK (sp_of k + 1) g ltac:(lia) ltac:(lia)). lra.
Qed.
Lemma others_zero : forall I, inside I shape -> (forall a, (a < nf)%nat -> I <> lI a) -> tp_spline kps I xk = 0.
Proof.
  intros I HI H. assert (LI : length I = dim) by (rewrite (f2_length _ _ HI), map_length; auto).
  assert (D : (exists k, (k < dim)%nat /\ ~ (sp_of k - dg k <= nth k I 0 <= sp_of k)%nat) \/ forall k, (k < dim)%nat -> (sp_of k - dg k <= nth k I 0 <= sp_of k)%nat).
  { generalize dim as m. clear. induction m. right; intros; lia. destruct IHm as [(k & K & E)|A]. left; exists k; split; auto; lia.
    destruct (Nat.le_gt_cases (sp_of m - dg m) (nth m I 0%nat)), (Nat.le_gt_cases (nth m I 0%nat) (sp_of m)).
    right. intros k Hk. destruct (Nat.eq_dec k m) as [->|]; auto. apply A. lia.
    all: left; exists m; split; lia. }
  destruct D as [(k & Hk & E)|A].
  - unfold tp_spline. apply (@prodR_0 _ _ k Hk). pose proof (HOk _ HO k Hk) as HK. destruct (sp_b k Hk) as (S1 & S2 & S3). destruct (xk_in k Hk) as (X1 & _).
    pose proof (@f2_elim _ _ HI k) as Q. rewrite map_length, shape_nth in Q by auto. specialize (Q Hk).
    destruct (nth k kps D0) as ((t & n) & p). cbn [fst snd] in *. apply (@bspline_supp t n (o_mono _ _ _ HK)). lia.
    destruct (Nat.lt_ge_cases (nth k I 0%nat) (sp_of k - p)) as [L|L].
    + right. pose proof (o_le _ _ _ HK (nth k I 0%nat + p + 1) (sp_of k) ltac:(lia) ltac:(lia)). lra.
    + left. pose proof (o_le _ _ _ HK (sp_of k + 1) (nth k I 0%nat) ltac:(lia) ltac:(lia)). lra.
  - exfalso. set (l := map (fun k => nth k I 0 - (sp_of k - dg k))%nat (seq 0 dim)).
    assert (Hl : Forall2 lt l ds).
    { apply f2_intro. unfold l. rewrite map_length, seq_length, ds_len. reflexivity. intros k Hk. rewrite ds_len in Hk. unfold l. rewrite nth_map_seq, ds_nth by auto. specialize (A k Hk). pose proof (sp_b k Hk). lia. }
    apply (H (position ds l)). apply hrav_lt; auto. rewrite nth_hrav by auto. apply nth_ext0. unfold loc. rewrite map_length, seq_length; auto.
    intros k Hk. rewrite LI in Hk. unfold loc. rewrite nth_map_seq by auto. unfold l. rewrite nth_map_seq by auto. specialize (A k Hk). lia.
Qed.
(** The weighted sum over the element is the one over the patch, and positive. *)
Lemma wsum_patch : wsum degrees cs bern ie (fun a => w (conn_el ie a)) qp = sumR (map (fun J => w (position shape J) * tp_spline kps J xk) (multi shape)).
Proof.
  rewrite (@sumR_nth _ _ (multi shape) []). rewrite <- multi_tuples. rewrite tuples_length.
  rewrite (@sm_inj nf (prodn shape) (fun a => position shape (lI a))).
  - unfold wsum. apply sm_ext. intros a Ha. destruct (idx_ds a Ha) as (I1 & I2). rewrite val_at by auto. rewrite nth_hrav by (apply loc_in; auto).
    rewrite <- (conn_at _ I1), I2. ring.
  - intros a Ha. apply hrav_lt. apply loc_in. apply idx_ds; auto.
  - intros a b Ha Hb E. destruct (idx_ds a Ha) as (I1 & I2). destruct (idx_ds b Hb) as (J1 & J2). apply hrav_inj in E; [|apply loc_in; auto|apply loc_in; auto].
    apply loc_inj in E; auto. congruence.
  - intros g Hg H. destruct (tuples_nth shape g Hg) as (G1 & G2). rewrite others_zero. ring. exact G1.
    intros a Ha E. apply (H a Ha). rewrite <- E. exact G2.
Qed.
Lemma wsum_pos : 0 < wsum degrees cs bern ie (fun a => w (conn_el ie a)) qp.
Proof.
  unfold wsum. apply sm_pos_w. intros; apply val_nonneg; auto.
  - intros a Ha. destruct (idx_ds a Ha) as (I1 & I2). apply HW. rewrite <- I2, conn_at by auto. apply hrav_lt. apply loc_in; auto.
  - rewrite val_sum. lra.
Qed.
Lemma basis_nurbs : forall a, (a < nf)%nat -> fst (tp_basis dim degrees cs true bern qp ie (fun a => w (conn_el ie a))) a = nurbs kps w (lI a) xk.
Proof.
  intros a Ha. rewrite (proj1 (@basis_at dim degrees cs true bern ie _ qp a Ha)). unfold den. fold (wsum degrees cs bern ie (fun a => w (conn_el ie a)) qp).
  destruct (idx_ds a Ha) as (I1 & I2). rewrite val_at by auto. rewrite wsum_patch. unfold nurbs. rewrite <- I2 at 2. rewrite conn_at by auto. unfold Rdiv. ring.
Qed.
End Element.
