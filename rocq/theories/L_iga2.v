(** Lemmas on index tuples, raveling and the tensor product loop. *)
From Coq Require Import Reals Lra Lia Arith List Bool.
From Coquelicot Require Import Coquelicot.
From Verif Require Import M_fmf L_fmf M_map S_iga M_iga L_iga S_iga2 M_iga2 P_iga L_hyper.
Import ListNotations.
Open Scope R_scope.

Notation hrav := position.
Lemma multi_tuples : forall ds, tuples ds = multi ds.
Proof. intros; reflexivity. Qed.
Lemma prodn_fold : forall ds, fold_right Nat.mul 1%nat ds = prodn ds.
Proof. induction ds; cbn; auto. Qed.
Lemma tuples_length : forall ds, length (tuples ds) = prodn ds.
Proof.
  induction ds as [|d ds IH]; auto. cbn [tuples prodn]. set (m := prodn ds) in *. clearbody m. generalize 0%nat. induction d; intros s; cbn [seq flat_map]; auto.
  rewrite app_length, map_length. rewrite IHd. rewrite IH. cbn [Nat.mul]. reflexivity.
Qed.
Lemma in_tuples : forall ds idx, In idx (tuples ds) <-> Forall2 lt idx ds.
Proof.
  induction ds as [|d ds IH]; intros idx; cbn [tuples].
  - split. intros [<-|[]]. constructor. intros H; inversion H; left; auto.
  - rewrite in_flat_map. split.
    + intros (i & Hi & H). apply in_map_iff in H. destruct H as (r & <- & Hr). apply in_seq in Hi. constructor. lia. apply IH. auto.
    + intros H. inversion H as [|i d' r ds' Hi Hr]; subst. exists i. split. apply in_seq. lia. apply in_map. apply IH. auto.
Qed.
Lemma f2_length : forall ds idx, Forall2 lt idx ds -> length idx = length ds.
Proof. intros ds idx H. induction H; cbn; auto. Qed.
Lemma hrav_lt : forall ds idx, Forall2 lt idx ds -> (hrav ds idx < prodn ds)%nat.
Proof. intros ds idx H. induction H; cbn [position prodn]; [lia|]. nia. Qed.
Lemma nth_flat : forall (A : Type) (f : nat -> list A) m, (forall i, length (f i) = m) -> forall d s i k z, (i < d)%nat -> (k < m)%nat ->
  nth (i * m + k) (flat_map f (seq s d)) z = nth k (f (s + i)%nat) z.
Proof.
  intros A f m H. induction d; intros s i k z Hi Hk. lia. cbn [seq flat_map]. destruct i as [|i].
  - rewrite app_nth1 by (rewrite H; lia). rewrite Nat.add_0_r. reflexivity.
  - rewrite app_nth2 by (rewrite H; nia). rewrite H. replace (S i * m + k - m)%nat with (i * m + k)%nat by nia.
    rewrite IHd by lia. do 2 f_equal. lia.
Qed.
Lemma nth_hrav : forall ds idx z, Forall2 lt idx ds -> nth (hrav ds idx) (tuples ds) z = idx.
Proof.
  intros ds idx z H. induction H as [|i d idx ds Hi Hr IH]; cbn [position tuples]; auto.
  rewrite (@nth_flat _ (fun i => map (cons i) (tuples ds)) (prodn ds)); auto.
  - rewrite (nth_indep _ z (i :: z)) by (rewrite map_length, tuples_length; apply hrav_lt; auto). rewrite map_nth. rewrite IH. reflexivity.
  - intros; rewrite map_length. apply tuples_length.
  - apply hrav_lt; auto.
Qed.
Lemma hrav_inj : forall ds i j, Forall2 lt i ds -> Forall2 lt j ds -> hrav ds i = hrav ds j -> i = j.
Proof. intros ds i j H1 H2 E. rewrite <- (@nth_hrav ds i []), <- (@nth_hrav ds j []) by auto. rewrite E. reflexivity. Qed.
Lemma tuples_nth : forall ds a, (a < prodn ds)%nat -> Forall2 lt (nth a (tuples ds) []) ds /\ hrav ds (nth a (tuples ds) []) = a.
Proof.
  induction ds as [|d ds IH]; intros a H; cbn [prodn] in H.
  - replace a with 0%nat by lia. split. constructor. reflexivity.
  - cbn [tuples].
    assert (P : (0 < prodn ds)%nat) by nia. set (m := prodn ds) in *.
    pose proof (Nat.div_mod a m ltac:(lia)) as E. pose proof (Nat.mod_upper_bound a m ltac:(lia)) as U.
    assert (Q : (a / m < d)%nat) by (apply Nat.div_lt_upper_bound; nia).
    rewrite E at 1 2. rewrite Nat.mul_comm. rewrite (@nth_flat _ (fun i => map (cons i) (tuples ds)) m); auto.
    2: { intros; rewrite map_length; apply tuples_length. }
    rewrite (nth_indep _ [] ((a / m)%nat :: [])) by (rewrite map_length, tuples_length; exact U). cbn [Nat.add]. rewrite map_nth.
    destruct (IH _ U) as (A & B). split. constructor; auto. cbn [position]. rewrite B. fold m. lia.
Qed.
Lemma ravel_hrav : forall ds idx, (1 <= length ds <= 3)%nat -> length idx = length ds -> ravel_multi_index idx ds = hrav ds idx.
Proof.
  intros ds idx L E. destruct ds as [|d0 [|d1 [|d2 [|]]]]; cbn in L; try lia; destruct idx as [|i0 [|i1 [|i2 [|]]]]; cbn in E; try lia; cbn; nia.
Qed.
Lemma unravel_hrav : forall ds idx, (1 <= length ds <= 3)%nat -> Forall2 lt idx ds -> unravel_index (hrav ds idx) ds = idx.
Proof.
  intros ds idx L H.
  assert (Q : forall a m b, (b < m)%nat -> ((a * m + b) mod m = b /\ (a * m + b) / m = a)%nat).
  { intros a m b Hb. split. symmetry; apply (Nat.mod_unique _ m a); lia. symmetry; apply (Nat.div_unique _ m a b); lia. }
  inversion H as [|i0 d0 r0 e0 H0 T0]; subst; cbn in L; [lia|].
  inversion T0 as [|i1 d1 r1 e1 H1 T1]; subst.
  - cbn. rewrite Nat.mul_1_r, Nat.add_0_r. rewrite Nat.mod_small by auto. reflexivity.
  - inversion T1 as [|i2 d2 r2 e2 H2 T2]; subst.
    + unfold unravel_index. cbn. rewrite !Nat.mul_1_r, !Nat.add_0_r. destruct (Q i0 d1 i1 H1) as (-> & ->). rewrite Nat.mod_small by auto. reflexivity.
    + inversion T2; subst; [|cbn in L; lia]. unfold unravel_index. cbn. rewrite !Nat.mul_1_r, !Nat.add_0_r.
      replace (i0 * (d1 * d2) + (i1 * d2 + i2))%nat with ((i0 * d1 + i1) * d2 + i2)%nat by ring.
      destruct (Q (i0 * d1 + i1)%nat d2 i2 H2) as (-> & ->). destruct (Q i0 d1 i1 H1) as (-> & ->). rewrite Nat.mod_small by auto. reflexivity.
Qed.
(** Raveling and unraveling are inverse to each other. *)
Theorem C152_ravel : forall ds, (1 <= length ds <= 3)%nat ->
  (forall idx, Forall2 lt idx ds -> (ravel_multi_index idx ds < prodn ds)%nat /\ unravel_index (ravel_multi_index idx ds) ds = idx) /\
  (forall k, (k < prodn ds)%nat -> Forall2 lt (unravel_index k ds) ds /\ ravel_multi_index (unravel_index k ds) ds = k).
Proof.
  intros ds L. split.
  - intros idx H. rewrite ravel_hrav by (auto; apply f2_length; auto). split. apply hrav_lt; auto. apply unravel_hrav; auto.
  - intros k H. destruct (tuples_nth ds k H) as (A & B). set (idx := nth k (tuples ds) []) in *. rewrite <- B.
    rewrite unravel_hrav by auto. split; auto. apply ravel_hrav; auto. apply f2_length; auto.
Qed.

(** ** The loop *)
Section Loop.
Variables (dim : nat) (rational : bool) (W : nat -> R) (N dN : nat -> nat -> R).
Definition wt (a : nat) : R := if rational then W a else 1.
Lemma loop_at : forall l s, let s' := fold_left (tp_step dim rational W N dN) l s in
  s_a s' = (s_a s + length l)%nat /\
  (forall a, s_R s' a = if ((s_a s <=? a) && (a <? s_a s + length l))%nat then tp_val N (nth (a - s_a s) l []) * wt a else s_R s a) /\
  (forall a k, (k < dim)%nat -> s_dR s' a k = if ((s_a s <=? a) && (a <? s_a s + length l))%nat then tp_der N dN k (nth (a - s_a s) l []) * wt a else s_dR s a k) /\
  s_w s' = s_w s + sm (length l) (fun j => tp_val N (nth j l []) * wt (s_a s + j)) /\
  (forall k, (k < dim)%nat -> s_dw s' k = s_dw s k + sm (length l) (fun j => tp_der N dN k (nth j l []) * wt (s_a s + j))).
Proof.
  induction l as [|idx l IH]; intros s.
  - cbv zeta. cbn [fold_left length sm]. split; [lia|]. split. { intros a. destruct (Nat.leb_spec (s_a s) a), (Nat.ltb_spec a (s_a s + 0)); cbn [andb]; auto; lia. }
    split. { intros a k _. destruct (Nat.leb_spec (s_a s) a), (Nat.ltb_spec a (s_a s + 0)); cbn [andb]; auto; lia. }
    split. ring. intros; ring.
  - cbn [fold_left]. cbv zeta. specialize (IH (tp_step dim rational W N dN s idx)). cbv zeta in IH.
    set (s' := fold_left _ l _) in *. destruct IH as (I1 & I2 & I3 & I4 & I5). cbn [s_a tp_step s_R s_dR s_w s_dw] in *.
    assert (V : (if rational then tp_val N idx * (if rational then W (s_a s) else 1) else tp_val N idx) = tp_val N idx * wt (s_a s)) by (unfold wt; destruct rational; ring).
    assert (VD : forall k, (if rational then tp_der N dN k idx * (if rational then W (s_a s) else 1) else tp_der N dN k idx) = tp_der N dN k idx * wt (s_a s)) by (intros; unfold wt; destruct rational; ring).
    cbn [length]. split; [lia|]. split; [|split; [|split]].
    + intros a. rewrite I2. destruct (Nat.leb_spec (s_a s + 1) a), (Nat.ltb_spec a (s_a s + 1 + length l)), (Nat.leb_spec (s_a s) a), (Nat.ltb_spec a (s_a s + S (length l))); cbn [andb]; try lia.
      * replace (a - s_a s)%nat with (S (a - (s_a s + 1))) by lia. reflexivity.
      * rewrite upd_other by lia. reflexivity.
      * replace a with (s_a s) by lia. rewrite upd_same, Nat.sub_diag. cbn [nth]. exact V.
      * rewrite upd_other by lia. reflexivity.
    + intros a k Hk. rewrite I3 by auto. destruct (Nat.ltb_spec k dim); [|lia].
      destruct (Nat.leb_spec (s_a s + 1) a), (Nat.ltb_spec a (s_a s + 1 + length l)), (Nat.leb_spec (s_a s) a), (Nat.ltb_spec a (s_a s + S (length l))), (Nat.eqb_spec a (s_a s)); cbn [andb]; try lia; auto.
      * replace (a - s_a s)%nat with (S (a - (s_a s + 1))) by lia. reflexivity.
      * subst a. rewrite Nat.sub_diag. cbn [nth]. apply VD.
    + rewrite I4, V. rewrite sm_first. cbn [nth]. rewrite Nat.add_0_r. rewrite Rplus_assoc. do 2 f_equal. apply sm_ext. intros. f_equal. f_equal. lia.
    + intros k Hk. rewrite I5 by auto. destruct (Nat.ltb_spec k dim); [|lia]. rewrite VD. rewrite sm_first. cbn [nth]. rewrite Nat.add_0_r. rewrite Rplus_assoc. do 2 f_equal. apply sm_ext. intros. f_equal. f_equal. lia.
Qed.
End Loop.

Section Basis.
Variables (dim : nat) (degrees : list nat) (cs : list (list mat)) (rational : bool) (bern : R -> nat -> arr * arr) (ie : nat) (W : nat -> R).
Notation ds := (map (fun p => p + 1)%nat degrees).
Notation idx a := (nth a (tuples ds) []).
Notation N qp := (elem_N degrees cs bern qp ie).
Notation dN qp := (elem_dN degrees cs bern qp ie).
Notation nf := (n_efun degrees).
Definition den (qp : nat -> R) : R := sm nf (fun a => tp_val (N qp) (idx a) * W a).
Definition dden (qp : nat -> R) (k : nat) : R := sm nf (fun a => tp_der (N qp) (dN qp) k (idx a) * W a).
Lemma basis_at : forall qp a, (a < nf)%nat ->
  fst (tp_basis dim degrees cs rational bern qp ie W) a
  = (if rational then tp_val (N qp) (idx a) * W a * (1 / den qp) else tp_val (N qp) (idx a)) /\
  (forall k, (k < dim)%nat -> snd (tp_basis dim degrees cs rational bern qp ie W) a k
  = if rational then (tp_der (N qp) (dN qp) k (idx a) * W a - tp_val (N qp) (idx a) * W a * (1 / den qp) * dden qp k) / den qp else tp_der (N qp) (dN qp) k (idx a)).
Proof.
  intros qp a Ha. unfold tp_basis. pose proof (@loop_at dim rational W (N qp) (dN qp) (tuples ds) (mkTP 0 (fun _ => 0) (fun _ _ => 0) 0 (fun _ => 0))) as L.
  cbv zeta in L. fold (tp_loop dim degrees rational W (N qp) (dN qp)) in L. destruct L as (_ & L1 & L2 & L3 & L4). cbn [s_a s_R s_dR s_w s_dw] in *.
  set (s := tp_loop _ _ _ _ _ _) in *. rewrite tuples_length in *. change (prodn ds) with nf in *.
  specialize (L1 a). assert (LT : (a <? 0 + nf)%nat = true) by (apply Nat.ltb_lt; lia). rewrite LT, Nat.sub_0_r in L1. cbn [Nat.leb andb] in L1.
  assert (DE : rational = true -> s_w s = den qp). { intros ->. rewrite L3, Rplus_0_l. unfold den, wt. reflexivity. }
  split.
  - destruct rational; cbn [fst]; rewrite L1; unfold wt. rewrite DE by auto. reflexivity. ring.
  - intros k Hk. specialize (L2 a k Hk). rewrite LT, Nat.sub_0_r in L2. cbn [Nat.leb andb] in L2. specialize (L4 k Hk). rewrite Rplus_0_l in L4.
    destruct rational; cbn [snd]; rewrite L2; unfold wt. rewrite DE by auto. rewrite L1, L4. unfold wt, dden. reflexivity. ring.
Qed.
End Basis.
