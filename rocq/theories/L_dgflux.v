(** Lemmas for the DG facet terms. *)
From Coq Require Import Reals ZArith Lra Permutation.
From Verif Require Import Base M_fmf L_fmf M_dgflux S_dgflux.
Open Scope R_scope.

(** ** Sums over lists *)
Fixpoint sumL {A} (g : A -> R) (l : list A) : R := match l with [] => 0 | x :: t => g x + sumL g t end.
Lemma sumL_app : forall A (g : A -> R) l l', sumL g (l ++ l') = sumL g l + sumL g l'.
Proof. induction l as [|x l IH]; intros; cbn [app sumL]; [lra|]. rewrite IH. lra. Qed.
Lemma sumL_ext : forall A (g h : A -> R) l, (forall x, In x l -> g x = h x) -> sumL g l = sumL h l.
Proof. induction l as [|x l IH]; intros H; cbn; [lra|]. rewrite (H x), IH; [lra| |now left]. intros; apply H; now right. Qed.
Lemma sumL_map : forall A B (k : A -> B) g l, sumL g (map k l) = sumL (fun x => g (k x)) l.
Proof. induction l as [|x l IH]; cbn; [lra|]. now rewrite IH. Qed.
Lemma sumL_flat_map : forall A B (k : A -> list B) g l, sumL g (flat_map k l) = sumL (fun x => sumL g (k x)) l.
Proof. induction l as [|x l IH]; cbn; [lra|]. now rewrite sumL_app, IH. Qed.
Lemma sumL_perm : forall A (g : A -> R) l l', Permutation l l' -> sumL g l = sumL g l'.
Proof. induction 1; cbn; lra. Qed.
Lemma sumL_seq : forall n g, sumL g (seq 0 n) = sm n g.
Proof.
  induction n as [|n IH]; intros; [reflexivity|]. rewrite seq_S, sumL_app, IH. cbn. lra.
Qed.
Lemma sumL_filter : forall A (p : A -> bool) g l, sumL g (filter p l) = sumL (fun x => if p x then g x else 0) l.
Proof. induction l as [|x l IH]; cbn; [lra|]. destruct (p x); cbn; rewrite IH; lra. Qed.
Lemma list_prod_flat : forall A B (l : list A) (l' : list B), list_prod l l' = flat_map (fun x => map (fun y => (x, y)) l') l.
Proof. induction l as [|x l IH]; intros; [reflexivity|]. cbn [list_prod flat_map]. now rewrite IH. Qed.
Lemma sumL_prod : forall n m (g : nat -> nat -> R),
  sumL (fun p => g (fst p) (snd p)) (list_prod (seq 0 n) (seq 0 m)) = sm n (fun i => sm m (fun j => g i j)).
Proof.
  intros. rewrite list_prod_flat, sumL_flat_map, <- sumL_seq. apply sumL_ext. intros i _.
  rewrite sumL_map, <- sumL_seq. reflexivity.
Qed.

Lemma NoDup_map_in : forall A B (k : A -> B) l, NoDup l -> (forall x y, In x l -> In y l -> k x = k y -> x = y) -> NoDup (map k l).
Proof.
  induction l as [|a l IH]; intros ND H; [constructor|]. inversion ND; subst. cbn. constructor.
  - intro K. apply in_map_iff in K. destruct K as (y & E & I). assert (y = a) by (apply H; cbn; auto). now subst.
  - apply IH; auto. intros. apply H; cbn; auto.
Qed.
Lemma sm_rev : forall n g, sm n (fun q => g (n - 1 - q)%nat) = sm n g.
Proof.
  intros. rewrite <- !sumL_seq.
  rewrite <- (sumL_map _ _ (fun q => n - 1 - q)%nat g). apply sumL_perm.
  apply NoDup_Permutation_bis.
  - apply NoDup_map_in; [apply seq_NoDup|]. intros x y Hx Hy. apply in_seq in Hx, Hy. lia.
  - rewrite map_length. lia.
  - intros x Hx. apply in_map_iff in Hx. destruct Hx as (y & <- & Hy). apply in_seq in Hy. apply in_seq. lia.
Qed.

(** ** The COO matrix *)
Lemma combine_app_eq : forall A B (a a' : list A) (b b' : list B), length a = length b ->
  combine (a ++ a') (b ++ b') = combine a b ++ combine a' b'.
Proof.
  induction a as [|x a IH]; intros a' [|y b] b' H; cbn in *; try discriminate; [reflexivity|]. rewrite IH; auto.
Qed.
Lemma combine_flat : forall A B C (k : A -> list B) (h : A -> list C) l, (forall x, In x l -> length (k x) = length (h x)) ->
  combine (flat_map k l) (flat_map h l) = flat_map (fun x => combine (k x) (h x)) l.
Proof.
  induction l as [|x l IH]; intros H; [reflexivity|]. cbn [flat_map].
  rewrite combine_app_eq by (apply H; now left). rewrite IH; [reflexivity|]. intros; apply H; now right.
Qed.
Lemma combine_map2 : forall A B C (k : A -> B) (h : A -> C) l, combine (map k l) (map h l) = map (fun x => (k x, h x)) l.
Proof. induction l as [|x l IH]; [reflexivity|]. cbn. now rewrite IH. Qed.
Lemma flat_map_len : forall A B C (k : A -> list B) (h : A -> list C) l, (forall x, In x l -> length (k x) = length (h x)) ->
  length (flat_map k l) = length (flat_map h l).
Proof.
  induction l as [|x l IH]; intros H; [reflexivity|]. cbn. rewrite !app_length, (H x), IH; auto; intros; [apply H; now right|now left].
Qed.
Lemma flat_map_concat : forall A B C (k : A -> list B) (h : B -> list C) l,
  flat_map h (flat_map k l) = flat_map (fun x => flat_map h (k x)) l.
Proof. induction l as [|x l IH]; [reflexivity|]. cbn. now rewrite flat_map_app, IH. Qed.
Lemma flat_map_map : forall A B C (k : A -> B) (h : B -> list C) l, flat_map h (map k l) = flat_map (fun x => h (k x)) l.
Proof. induction l as [|x l IH]; [reflexivity|]. cbn. now rewrite IH. Qed.
Lemma flat_map_ext_in : forall A B (k h : A -> list B) l, (forall x, In x l -> k x = h x) -> flat_map k l = flat_map h l.
Proof. induction l as [|x l IH]; intros H; [reflexivity|]. cbn. rewrite (H x), IH; auto; intros; [apply H; now right|now left]. Qed.
Lemma repeat_map_seq : forall A (x : A) n, repeat x n = map (fun _ => x) (seq 0 n).
Proof.
  intros. generalize 0%nat. induction n as [|n IH]; intros s; [reflexivity|]. cbn. now rewrite (IH (S s)).
Qed.

(** Rows of dofs of cells: repeated and tiled they give all pairs, row index slow. *)
Definition cellrow (m i : nat) : list nat := map (fun d => i * m + d)%nat (seq 0 m).
Lemma nth_bubble : forall F i, (i < ncell F)%nat -> nth i (bubble_dofs F) [] = cellrow (nnod F) i.
Proof.
  intros F i H. unfold bubble_dofs. rewrite (nth_indep _ [] (cellrow (nnod F) 0)) by (rewrite map_length, seq_length; auto).
  change (nth i (map (fun i => cellrow (nnod F) i) (seq 0 (ncell F))) (cellrow (nnod F) 0) = cellrow (nnod F) i).
  rewrite (map_nth (fun i => cellrow (nnod F) i) (seq 0 (ncell F)) 0%nat i). now rewrite seq_nth.
Qed.
Lemma repeat_tile : forall A m (r c : A -> nat) (l : list A),
  combine (np_repeat (map (fun x => cellrow m (r x)) l) m) (np_tile (map (fun x => cellrow m (c x)) l) m) =
  flat_map (fun x => flat_map (fun d => map (fun b => (r x * m + d, c x * m + b)%nat) (seq 0 m)) (seq 0 m)) l.
Proof.
  intros. unfold np_repeat, np_tile. rewrite <- flat_map_concat_map, flat_map_concat, flat_map_map.
  rewrite combine_flat.
  - apply flat_map_ext_in. intros x _. unfold cellrow at 1. rewrite flat_map_map.
    rewrite repeat_map_seq, <- flat_map_concat_map.
    rewrite combine_flat.
    + apply flat_map_ext_in. intros d _. rewrite repeat_map_seq. unfold cellrow. now rewrite combine_map2.
    + intros d _. unfold cellrow. now rewrite repeat_length, map_length, seq_length.
  - intros x _. unfold cellrow at 1. rewrite flat_map_map.
    rewrite repeat_map_seq, <- flat_map_concat_map. apply flat_map_len.
    intros d _. unfold cellrow. now rewrite repeat_length, map_length, seq_length.
Qed.

Lemma in_active : forall F i f, In (i, f) (active F) <-> (i < ncell F)%nat /\ (f < nfac F)%nat /\ (0 <= n0 F i f)%Z.
Proof.
  intros. unfold active. rewrite filter_In, in_prod_iff, !in_seq. cbn [fst snd]. rewrite Z.leb_le. intuition lia.
Qed.

Definition in_range (F : field) : Prop :=
  forall i f, (i < ncell F)%nat -> (f < nfac F)%nat -> (n0 F i f < Z.of_nat (ncell F))%Z.

Lemma mtx_tuple_list : forall F inner outer, in_range F ->
  mtx_tuple F inner outer =
  flat_map (fun i => flat_map (fun d => map (fun b => (inner i d b, (i * nnod F + d, i * nnod F + b)%nat))
     (seq 0 (nnod F))) (seq 0 (nnod F))) (seq 0 (ncell F)) ++
  flat_map (fun p => flat_map (fun d => map (fun b => (outer (fst p) (snd p) d b,
      (fst p * nnod F + d, Z.to_nat (n0 F (fst p) (snd p)) * nnod F + b)%nat))
     (seq 0 (nnod F))) (seq 0 (nnod F))) (active F).
Proof.
  intros F inner outer HR. unfold mtx_tuple, nbrhd_dof_indexes.
  assert (T1 : take_rows (bubble_dofs F) (map fst (active F)) = map (fun p => cellrow (nnod F) (fst p)) (active F)).
  { unfold take_rows. rewrite map_map. apply map_ext_in. intros [i f] H. apply in_active in H. apply nth_bubble. cbn. tauto. }
  assert (T2 : take_rows (bubble_dofs F) (map (fun p => Z.to_nat (n0 F (fst p) (snd p))) (active F)) =
               map (fun p => cellrow (nnod F) (Z.to_nat (n0 F (fst p) (snd p)))) (active F)).
  { unfold take_rows. rewrite map_map. apply map_ext_in. intros [i f] H. apply in_active in H. cbn [fst snd].
    apply nth_bubble. destruct H as (A & B & C). specialize (HR i f A B). lia. }
  rewrite T1, T2.
  change (bubble_dofs F) with (map (fun i => cellrow (nnod F) ((fun x => x) i)) (seq 0 (ncell F))).
  rewrite !repeat_tile.
  assert (LB : forall (a : nat -> nat -> R) (r c : nat), length (flatten2 F a) =
     length (flat_map (fun d => map (fun b => (r * nnod F + d, c * nnod F + b)%nat) (seq 0 (nnod F))) (seq 0 (nnod F)))).
  { intros. unfold flatten2. apply flat_map_len. intros. now rewrite !map_length. }
  assert (CB : forall (a : nat -> nat -> R) (r c : nat), combine (flatten2 F a)
     (flat_map (fun d => map (fun b => (r * nnod F + d, c * nnod F + b)%nat) (seq 0 (nnod F))) (seq 0 (nnod F))) =
     flat_map (fun d => map (fun b => (a d b, (r * nnod F + d, c * nnod F + b)%nat)) (seq 0 (nnod F))) (seq 0 (nnod F))).
  { intros. unfold flatten2. rewrite combine_flat by (intros; now rewrite !map_length).
    apply flat_map_ext_in. intros. apply combine_map2. }
  rewrite combine_app_eq.
  - f_equal.
    + rewrite combine_flat by (intros; apply LB). apply flat_map_ext_in. intros i _. apply CB.
    + rewrite combine_flat by (intros; apply LB). apply flat_map_ext_in. intros p _. apply CB.
  - apply flat_map_len. intros. apply LB.
Qed.

Lemma coo_sumL : forall m u r, coo_apply m u r = sumL (fun e => if fst (snd e) =? r then fst e * u (snd (snd e)) else 0) m.
Proof. induction m as [|e m IH]; intros; [reflexivity|]. cbn. now rewrite <- IH. Qed.

Lemma row_pick : forall m i d i' d', (d < m)%nat -> (d' < m)%nat -> (i' * m + d' =? i * m + d) = ((i' =? i) && (d' =? d))%bool.
Proof.
  intros. destruct (Nat.eqb_spec i' i) as [->|N], (Nat.eqb_spec d' d) as [->|N']; cbn.
  - apply Nat.eqb_refl.
  - apply Nat.eqb_neq. lia.
  - apply Nat.eqb_neq. intro E. apply N. destruct (Nat.lt_trichotomy i' i) as [L|[L|L]]; [|auto|].
    + assert (S i' * m <= i * m)%nat by (apply Nat.mul_le_mono_r; lia). cbn in *. lia.
    + assert (S i * m <= i' * m)%nat by (apply Nat.mul_le_mono_r; lia). cbn in *. lia.
  - apply Nat.eqb_neq. intro E. apply N. destruct (Nat.lt_trichotomy i' i) as [L|[L|L]]; [|auto|].
    + assert (S i' * m <= i * m)%nat by (apply Nat.mul_le_mono_r; lia). cbn in *. lia.
    + assert (S i * m <= i' * m)%nat by (apply Nat.mul_le_mono_r; lia). cbn in *. lia.
Qed.

Lemma block_apply : forall m i d i' (v : nat -> nat -> R) (c : nat -> nat) u, (d < m)%nat ->
  sumL (fun e : R * (nat * nat) => if fst (snd e) =? i * m + d then fst e * u (snd (snd e)) else 0)
    (flat_map (fun d' => map (fun b => (v d' b, (i' * m + d', c b)%nat)) (seq 0 m)) (seq 0 m)) =
  if i' =? i then sm m (fun b => v d b * u (c b)) else 0.
Proof.
  intros. rewrite sumL_flat_map.
  rewrite (sumL_ext _ _ (fun d' => if d' =? d then (if i' =? i then sm m (fun b => v d' b * u (c b)) else 0) else 0)).
  - rewrite sumL_seq. apply (sm_pick m d (fun d' => if i' =? i then sm m (fun b => v d' b * u (c b)) else 0)); auto.
  - intros d' Hd'. apply in_seq in Hd'. rewrite sumL_map. cbn [fst snd]. rewrite row_pick by lia.
    destruct (i' =? i), (d' =? d); cbn [andb]; try (rewrite sumL_seq; apply sm_0; reflexivity).
    rewrite sumL_seq. reflexivity.
Qed.

Lemma coo_matrix : forall F inner outer u i d, in_range F -> (i < ncell F)%nat -> (d < nnod F)%nat ->
  coo_apply (mtx_tuple F inner outer) u (i * nnod F + d) =
  sm (nnod F) (fun b => inner i d b * u (i * nnod F + b)%nat) +
  sm (nfac F) (fun f => if (n0 F i f <? 0)%Z then 0 else
     sm (nnod F) (fun b => outer i f d b * u (Z.to_nat (n0 F i f) * nnod F + b)%nat)).
Proof.
  intros F inner outer u i d HR Hi Hd. rewrite coo_sumL, mtx_tuple_list, sumL_app by auto. f_equal.
  - rewrite sumL_flat_map.
    rewrite (sumL_ext _ _ (fun i' => if i' =? i then sm (nnod F) (fun b => inner i' d b * u (i' * nnod F + b)%nat) else 0)).
    + rewrite sumL_seq. apply (sm_pick (ncell F) i (fun i' => sm (nnod F) (fun b => inner i' d b * u (i' * nnod F + b)%nat))); auto.
    + intros i' _. rewrite (block_apply (nnod F) i d i' (inner i') (fun b => (i' * nnod F + b)%nat)) by auto. reflexivity.
  - rewrite sumL_flat_map.
    rewrite (sumL_ext _ _ (fun p => if fst p =? i then sm (nnod F) (fun b => outer (fst p) (snd p) d b * u (Z.to_nat (n0 F (fst p) (snd p)) * nnod F + b)%nat) else 0)).
    2:{ intros p _. rewrite (block_apply (nnod F) i d (fst p) (outer (fst p) (snd p)) (fun b => (Z.to_nat (n0 F (fst p) (snd p)) * nnod F + b)%nat)) by auto. reflexivity. }
    unfold active. rewrite sumL_filter.
    rewrite (sumL_prod (ncell F) (nfac F) (fun i' f => if (0 <=? n0 F i' f)%Z then
        (if i' =? i then sm (nnod F) (fun b => outer i' f d b * u (Z.to_nat (n0 F i' f) * nnod F + b)%nat) else 0) else 0)).
    rewrite (sm_ext _ _ (fun i' => if i' =? i then sm (nfac F) (fun f => if (n0 F i' f <? 0)%Z then 0 else
        sm (nnod F) (fun b => outer i' f d b * u (Z.to_nat (n0 F i' f) * nnod F + b)%nat)) else 0)).
    + apply (sm_pick (ncell F) i (fun i' => sm (nfac F) (fun f => if (n0 F i' f <? 0)%Z then 0 else
        sm (nnod F) (fun b => outer i' f d b * u (Z.to_nat (n0 F i' f) * nnod F + b)%nat)))); auto.
    + intros i' _. destruct (i' =? i).
      * apply sm_ext. intros f _. destruct (Z.leb_spec 0 (n0 F i' f)), (Z.ltb_spec (n0 F i' f) 0); auto; lia.
      * apply sm_0. intros f _. now destruct (0 <=? n0 F i' f)%Z.
Qed.
