(** C152 The tensor product basis of a patch is the NURBS basis. *)
From Coq Require Import Reals Lra Lia Arith List Bool.
From Coquelicot Require Import Coquelicot.
From Verif Require Import M_fmf L_fmf M_map L_map P_map S_iga M_iga L_iga S_iga2 M_iga2 P_iga P_iga2 P_iga3 L_iga2 P_iga4.
Import ListNotations.
Open Scope R_scope.

(** ** Lists *)
Lemma f2_intro : forall ds l, length l = length ds -> (forall k, (k < length ds)%nat -> (nth k l 0 < nth k ds 0)%nat) -> Forall2 lt l ds.
Proof.
  induction ds as [|d ds IH]; intros [|i l] L H; cbn in L; try lia; constructor.
  - apply (H 0%nat). cbn; lia.
  - apply IH. lia. intros k Hk. apply (H (S k)). cbn; lia.
Qed.
Lemma f2_elim : forall ds l, Forall2 lt l ds -> forall k, (k < length ds)%nat -> (nth k l 0 < nth k ds 0)%nat.
Proof. intros ds l H. induction H; intros k Hk; cbn in Hk; [lia|]. destruct k; cbn [nth]; auto. apply IHForall2. lia. Qed.
Lemma nth_ext0 : forall l l' : list nat, length l = length l' -> (forall k, (k < length l)%nat -> nth k l 0%nat = nth k l' 0%nat) -> l = l'.
Proof. intros l l' L H. apply (nth_ext l l' 0%nat 0%nat); auto. Qed.
Lemma nth_map_seq : forall {A} (f : nat -> A) n k d, (k < n)%nat -> nth k (map f (seq 0 n)) d = f k.
Proof. intros A f n k d H. rewrite (nth_indep _ d (f 0%nat)) by (rewrite map_length, seq_length; auto). rewrite map_nth, seq_nth by auto. reflexivity. Qed.
Lemma nth_map0 : forall {A B} (f : A -> B) l k d d', (k < length l)%nat -> nth k (map f l) d' = f (nth k l d).
Proof. intros A B f l k d d' H. rewrite (nth_indep _ d' (f d)) by (rewrite map_length; auto). apply map_nth. Qed.

(** ** Sums and products *)
Lemma prodR_ext : forall (f g : nat -> R) n, (forall k, (k < n)%nat -> f k = g k) -> prodR (map f (seq 0 n)) = prodR (map g (seq 0 n)).
Proof. intros. f_equal. apply map_ext_in. intros k Hk. apply in_seq in Hk. apply H. lia. Qed.
Lemma prodR_S : forall (f : nat -> R) n, prodR (map f (seq 0 (S n))) = f 0%nat * prodR (map (fun k => f (S k)) (seq 0 n)).
Proof. intros. cbn [seq map prodR fold_right]. f_equal. rewrite <- seq_shift, map_map. reflexivity. Qed.
Lemma prodR_0 : forall (f : nat -> R) n k, (k < n)%nat -> f k = 0 -> prodR (map f (seq 0 n)) = 0.
Proof.
  intros f n. revert f. induction n; intros f k Hk E. lia. rewrite prodR_S. destruct k. rewrite E; ring.
  rewrite (IHn (fun k => f (S k)) k) by (auto; lia). ring.
Qed.
Lemma prodR_nonneg : forall (f : nat -> R) n, (forall k, (k < n)%nat -> 0 <= f k) -> 0 <= prodR (map f (seq 0 n)).
Proof. intros f n. revert f. induction n; intros f H. cbn; lra. rewrite prodR_S. apply Rmult_le_pos. apply H; lia. apply IHn. intros; apply H; lia. Qed.
Lemma prodR_1 : forall (f : nat -> R) n, (forall k, (k < n)%nat -> f k = 1) -> prodR (map f (seq 0 n)) = 1.
Proof. intros f n. revert f. induction n; intros f H. reflexivity. rewrite prodR_S, IHn, H by (intros; try apply H; lia). ring. Qed.
Lemma sum_tuples : forall d ds (F : list nat -> R), sm (prodn (d :: ds)) (fun a => F (nth a (tuples (d :: ds)) [])) =
  sm d (fun i => sm (prodn ds) (fun a => F (i :: nth a (tuples ds) []))).
Proof.
  intros d ds F. cbn [prodn]. rewrite sm_blocks. apply sm_ext. intros i Hi. apply sm_ext. intros a Ha. f_equal. cbn [tuples].
  rewrite (@nth_flat _ (fun i => map (cons i) (tuples ds)) (prodn ds)); auto.
  2: { intros; rewrite map_length; apply tuples_length. }
  rewrite (nth_indep _ [] (i :: [])) by (rewrite map_length, tuples_length; auto). cbn [Nat.add]. apply map_nth.
Qed.
(** The sum of the products is the product of the sums. *)
Lemma sum_product : forall ds (f : nat -> nat -> R),
  sm (prodn ds) (fun a => prodR (map (fun k => f k (nth k (nth a (tuples ds) []) 0%nat)) (seq 0 (length ds)))) =
  prodR (map (fun k => sm (nth k ds 0%nat) (f k)) (seq 0 (length ds))).
Proof.
  induction ds as [|d ds IH]; intros f.
  - cbn. lra.
  - pose proof (@sum_tuples d ds (fun l => prodR (map (fun k => f k (nth k l 0%nat)) (seq 0 (S (length ds)))))) as Q. cbv beta in Q. cbn [length]. rewrite Q.
    rewrite (@sm_ext d _ (fun i => f 0%nat i * prodR (map (fun k => sm (nth k ds 0%nat) (f (S k))) (seq 0 (length ds))))).
    + rewrite sm_scalr, prodR_S. reflexivity.
    + intros i Hi. rewrite <- (IH (fun k => f (S k))). rewrite <- sm_scal. apply sm_ext. intros a Ha. rewrite prodR_S. reflexivity.
Qed.
Lemma sumR_nth : forall {A} (F : A -> R) l d, sumR (map F l) = sm (length l) (fun k => F (nth k l d)).
Proof.
  intros A F l d. induction l as [|a l IH]. reflexivity. cbn [length]. rewrite sm_first. cbn [map sumR fold_right nth]. f_equal. exact IH.
Qed.
(** Reindexing of a sum by an injection that meets all non-zero terms. *)
Lemma sm_inj : forall m n (c : nat -> nat) (f : nat -> R), (forall a, (a < m)%nat -> (c a < n)%nat) ->
  (forall a b, (a < m)%nat -> (b < m)%nat -> c a = c b -> a = b) ->
  (forall g, (g < n)%nat -> (forall a, (a < m)%nat -> c a <> g) -> f g = 0) ->
  sm n f = sm m (fun a => f (c a)).
Proof.
  intros m n c f R I Z. rewrite (@sm_ext m _ (fun a => sm n (fun g => if (g =? c a)%nat then f g else 0))).
  2: { intros a Ha. rewrite sm_pick by auto. reflexivity. }
  rewrite sm_swap. apply sm_ext. intros g Hg.
  assert (D : (exists a, (a < m)%nat /\ c a = g) \/ forall a, (a < m)%nat -> c a <> g).
  { clear - m. induction m. right; intros; lia. destruct IHm as [(a & A & E)|N]. left; exists a; split; auto; lia.
    destruct (Nat.eq_dec (c m) g). left; exists m; split; auto. right. intros a Ha. destruct (Nat.eq_dec a m) as [->|]; auto. apply N. lia. }
  destruct D as [(a & Ha & E)|N].
  - rewrite (@sm_ext m _ (fun b => if (b =? a)%nat then f g else 0)). rewrite sm_pick; auto.
    intros b Hb. destruct (Nat.eqb_spec g (c b)), (Nat.eqb_spec b a); auto. exfalso. apply n0. apply I; auto. congruence. subst. congruence.
  - rewrite (Z g Hg N). symmetry. apply sm_0. intros b Hb. destruct (Nat.eqb_spec g (c b)) as [Q|Q]; [exfalso; apply (N b Hb); auto | reflexivity].
Qed.
Lemma sm_pos_w : forall n f w, (forall k, (k < n)%nat -> 0 <= f k) -> (forall k, (k < n)%nat -> 0 < w k) -> 0 < sm n f -> 0 < sm n (fun k => f k * w k).
Proof.
  induction n; intros f w F W P; cbn [sm] in *. lra.
  assert (0 <= sm n f) by (apply sm_nonneg; intros; apply F; lia).
  assert (0 <= sm n (fun k => f k * w k)). { apply sm_nonneg. intros. apply Rmult_le_pos. apply F; lia. left; apply W; lia. }
  assert (0 <= f n) by (apply F; lia). assert (0 < w n) by (apply W; lia).
  destruct (Rle_lt_or_eq_dec 0 (f n) H1) as [L|E]. assert (0 < f n * w n) by (apply Rmult_lt_0_compat; auto). lra.
  assert (0 < sm n (fun k => f k * w k)). { apply IHn. intros; apply F; lia. intros; apply W; lia. lra. } rewrite <- E. lra.
Qed.
Lemma tp_val_prod : forall N l n, length l = n -> (1 <= n <= 3)%nat -> tp_val N l = prodR (map (fun k => N k (nth k l 0%nat)) (seq 0 n)).
Proof. intros N l n L H. subst n. destruct l as [|a [|b [|c [|]]]]; cbn in H; try lia; cbn; ring. Qed.

(** ** The connectivity of the patch *)
Lemma assign_at : forall {K : Type} (key : K -> nat * nat) (v : K -> nat) (e a g : nat) l c0,
  (forall x, In x l -> key x = (e, a) -> v x = g) -> (exists x, In x l /\ key x = (e, a)) ->
  fold_left (fun (c : nat -> nat -> nat) x => (fun e l => if ((e =? fst (key x)) && (l =? snd (key x)))%nat then v x else c e l)) l c0 e a = g.
Proof.
  intros K key v e a g l.
  assert (G : forall c0, (forall x, In x l -> key x = (e, a) -> v x = g) -> (exists x, In x l /\ key x = (e, a)) \/ c0 e a = g ->
    fold_left (fun (c : nat -> nat -> nat) x => (fun e l => if ((e =? fst (key x)) && (l =? snd (key x)))%nat then v x else c e l)) l c0 e a = g).
  { induction l as [|x l IH]; intros c0 A B; cbn [fold_left].
    - destruct B as [(x & [] & _)|]; auto.
    - apply IH. intros; apply A; auto. right; auto.
      destruct B as [(y & [->|Hy] & E)|E].
      + right. rewrite E. cbn. rewrite !Nat.eqb_refl. cbn. apply A; auto. left; auto.
      + left. eauto.
      + right. destruct (Nat.eqb_spec e (fst (key x))), (Nat.eqb_spec a (snd (key x))); cbn; auto. apply A. left; auto. destruct (key x); cbn in *; congruence. }
  intros c0 A B. apply G; auto.
Qed.
Lemma rav : forall ds idx, (1 <= length ds <= 3)%nat -> Forall2 lt idx ds -> ravel_multi_index idx ds = position ds idx.
Proof. intros. apply ravel_hrav; auto. apply f2_length; auto. Qed.
Lemma make_conn_at : forall n_els n_efuns conns ies ils, (1 <= length conns <= 3)%nat -> length n_els = length conns -> length n_efuns = length conns ->
  Forall2 lt ies n_els -> Forall2 lt ils n_efuns ->
  make_conn n_els n_efuns conns (position n_els ies) (position n_efuns ils) =
  position (map (fun c => max_entry c + 1)%nat conns)
    (map (fun k => nth (nth k ils 0) (nth (nth k ies 0) (nth k conns []) []) 0)%nat (seq 0 (length conns))).
Proof.
  intros n_els n_efuns conns ies ils L L1 L2 HE HI. unfold make_conn.
  assert (C : length conns = 1%nat \/ (2 <= length conns <= 3)%nat) by lia. destruct C as [C|C].
  - destruct conns as [|c [|]]; cbn in C; try lia. destruct n_els as [|d [|]]; cbn in L1; try lia. destruct n_efuns as [|d' [|]]; cbn in L2; try lia.
    inversion HE as [|i ? ? ? ? T]; subst. inversion T; subst. inversion HI as [|j ? ? ? ? T']; subst. inversion T'; subst.
    cbn. rewrite !Nat.mul_1_r, !Nat.add_0_r. reflexivity.
  - destruct (length conns) as [|[|n]] eqn:LC; try lia. rewrite <- LC in *. clear n LC.
    set (key := fun x : list nat * list nat => (ravel_multi_index (fst x) n_els, ravel_multi_index (snd x) n_efuns)).
    set (v := fun x : list nat * list nat => ravel_multi_index (map (fun k => nth (nth k (snd x) 0) (nth (nth k (fst x) 0) (nth k conns []) []) 0)%nat (seq 0 (length conns))) (map (fun c => max_entry c + 1)%nat conns)).
    rewrite <- (@ravel_hrav (map (fun c => max_entry c + 1)%nat conns)) by (rewrite ?map_length, ?seq_length; lia).
    change (ravel_multi_index (map (fun k => nth (nth k ils 0) (nth (nth k ies 0) (nth k conns []) []) 0)%nat (seq 0 (length conns))) (map (fun c => max_entry c + 1)%nat conns)) with (v (ies, ils)).
    rewrite <- (@assign_at _ key v (position n_els ies) (position n_efuns ils) (v (ies, ils)) (flat_map (fun ies => map (pair ies) (tuples n_efuns)) (tuples n_els)) (fun _ _ => 0%nat)).
    + match goal with |- ?A ?x ?y = ?B ?x ?y => enough (QQ : A = B) by (rewrite QQ; reflexivity) end.
      clear. generalize (fun _ _ : nat => 0%nat). induction (flat_map (fun ies => map (pair ies) (tuples n_efuns)) (tuples n_els)) as [|(x & y) l IH]; intros c0; cbn [fold_left]; [reflexivity | apply IH].
    + intros (x & y) Hx E. apply in_flat_map in Hx. destruct Hx as (x' & X1 & X2). apply in_map_iff in X2. destruct X2 as (y' & Y1 & Y2). inversion Y1; subst.
      apply in_tuples in X1. apply in_tuples in Y2. unfold key in E. cbn [fst snd] in E.
      rewrite !rav in E by (auto; lia). inversion E as [[E1 E2]].
      apply hrav_inj in E1; auto. apply hrav_inj in E2; auto. subst. reflexivity.
    + exists (ies, ils). split. apply in_flat_map. exists ies. split. apply in_tuples; auto. apply in_map. apply in_tuples; auto.
      unfold key. cbn [fst snd]. rewrite !rav by (auto; lia). reflexivity.
Qed.
