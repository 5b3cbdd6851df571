(** C150 Bezier extraction in one dimension: the operators give the B-splines. *)
From Coq Require Import Reals Lra Lia Arith List Bool.
From Verif Require Import M_fmf L_fmf S_iga M_iga L_iga P_iga.
Import ListNotations.
Open Scope R_scope.

Lemma rev_seq_S : forall s k, rev (seq s (S k)) = (s + k)%nat :: rev (seq s k).
Proof. intros. rewrite seq_S, rev_app_distr. reflexivity. Qed.

Section Extract.
Variables (t : nat -> R) (n p : nat).
Hypothesis HO : open_knots t n p.
Lemma o_mono : forall i, (i + 1 < n)%nat -> t i <= t (i + 1)%nat. Proof. apply HO. Qed.
Lemma o_n : (2 * p + 2 <= n)%nat. Proof. apply HO. Qed.
Lemma o_le : forall i j, (i <= j)%nat -> (j < n)%nat -> t i <= t j.
Proof. intros i j H1 H2. apply (@mono_le t n o_mono j i); auto. Qed.
(** A non-empty interval is inside. *)
Lemma span_in : forall s, (s + 1 < n)%nat -> t s < t (s + 1)%nat -> (p <= s)%nat /\ (s + p + 1 < n)%nat.
Proof.
  intros s Hs H. destruct HO as (N & _ & F & _ & L & _). split.
  - destruct (Nat.le_gt_cases p s); auto. rewrite (F s), (F (s + 1)%nat) in H by lia. lra.
  - destruct (Nat.lt_ge_cases (s + p + 1) n); auto. rewrite (L s), (L (s + 1)%nat) in H by lia. lra.
Qed.

Lemma last_same_spec : forall fuel b, (n - b <= fuel)%nat -> (b < n)%nat -> let b' := last_same t n fuel b in
  (b <= b')%nat /\ (b' < n)%nat /\ (forall k, (b <= k <= b')%nat -> t k = t b) /\ ((b' + 1 < n)%nat -> t b' < t (b' + 1)%nat).
Proof.
  induction fuel; intros b H1 H2. lia. cbn [last_same]. destruct (Nat.ltb_spec (b + 1) n) as [L|L].
  - destruct (Req_EM_T (t b) (t (b + 1)%nat)) as [E|E].
    + destruct (IHfuel (b + 1)%nat ltac:(lia) ltac:(lia)) as (A & B & C & D). cbv zeta. split; [lia|]. split; [auto|]. split; [|auto].
      intros k Hk. destruct (Nat.eq_dec k b) as [->|]; auto. rewrite C by lia. auto.
    + cbv zeta. split; [lia|]. split; [lia|]. split. intros k Hk. f_equal. lia. intros. pose proof (o_mono b L). lra.
  - cbv zeta. split; [lia|]. split; [lia|]. split. intros k Hk. f_equal. lia. lia.
Qed.

Lemma alphas_at : forall a b mult k, (k < p - mult)%nat ->
  bez_alphas t p a b mult k = (t b - t a) / (t (a + (k + mult + 1))%nat - t a).
Proof.
  intros a b mult k. unfold bez_alphas. generalize (p - mult)%nat (fun _ : nat => 0). intros m. induction m; intros z Hk. lia.
  rewrite rev_seq_S. cbn [fold_left]. destruct (Nat.eq_dec k m) as [->|N].
  - assert (G : forall l z, (forall j, In j l -> (j - mult - 1 <> m)%nat) -> fold_left (fun al ij => upd al (ij - mult - 1) ((t b - t a) / (t (a + ij)%nat - t a))) l z m = z m).
    { induction l as [|h l IH]; intros z' Hl; auto. cbn [fold_left]. rewrite IH. apply upd_other. intro E. apply (Hl h); auto. left; auto. intros; apply Hl; right; auto. }
    rewrite G. replace (mult + 1 + m - mult - 1)%nat with m by lia. rewrite upd_same. do 3 f_equal. lia.
    intros j Hj. apply in_rev, in_seq in Hj. lia.
  - apply IHm. lia.
Qed.
Lemma columns_at : forall (al : nat -> R) k s cc i j,
  fold_left (fun cc ik => bez_column (al ik) ik cc) (rev (seq (s + 1) k)) cc i j
  = if ((s <? j) && (j <=? s + k))%nat then al j * cc i j + (1 - al j) * cc i (j - 1)%nat else cc i j.
Proof.
  intros al. induction k; intros s cc i j.
  - cbn [seq rev fold_left]. destruct (Nat.ltb_spec s j), (Nat.leb_spec j (s + 0)); cbn [andb]; auto; lia.
  - rewrite rev_seq_S. cbn [fold_left]. rewrite IHk. unfold bez_column.
    destruct (Nat.ltb_spec s j), (Nat.leb_spec j (s + k)), (Nat.leb_spec j (s + S k)); cbn [andb]; try lia;
      destruct (Nat.eqb_spec j (s + 1 + k)) as [->|]; try lia; auto.
    destruct (Nat.eqb_spec (j - 1) (s + 1 + k)); [lia|]. reflexivity.
Qed.

Lemma eye_sum : forall ik (f : nat -> R), (ik <= p)%nat -> sm (S p) (fun i => eye i ik * f i) = f ik.
Proof.
  intros ik f H. rewrite <- (sm_pick (S p) ik f) by lia. apply sm_ext. intros k Hk. unfold eye. destruct (Nat.eqb_spec k ik); ring.
Qed.
(** The state of an operator before the insertions for its interval. *)
Definition good (a : nat) (cc : mat) : Prop :=
  (forall ik y, (ik <= p)%nat -> sm (S p) (fun i => cc i ik * psi t (a - p + i) p y) = (y - t a) ^ (p - ik) * psi t a ik y) /\
  (forall i ik, (i < ik)%nat -> (ik <= p)%nat -> cc i ik = 0).
(** The finished operator. *)
Definition final (s : nat) (C : mat) : Prop :=
  forall j y, (j <= p)%nat -> sm (S p) (fun i => C i j * psi t (s - p + i) p y) = (y - t s) ^ (p - j) * (y - t (s + 1)%nat) ^ j.

Section Element.
Variables (a b mult : nat) (more : bool).
Hypothesis (Ha : (a + 1 < n)%nat) (HT : t a < t (a + 1)%nat) (Hb : (b < n)%nat) (Hm : b = (a + mult)%nat) (Hm1 : (1 <= mult)%nat).
Hypothesis same : forall k, (a + 1 <= k <= b)%nat -> t k = t (a + 1)%nat.
Lemma tb : t b = t (a + 1)%nat. Proof. apply same. lia. Qed.
Lemma psi_same : forall k y, (k <= mult)%nat -> psi t a k y = (y - t b) ^ k.
Proof. intros k y. induction k; intros H; auto. cbn [psi pow]. rewrite IHk by lia. rewrite tb, (same (a + S k)%nat) by lia. ring. Qed.
Lemma psi_over : forall k y, psi t a (mult + k) y = (y - t b) ^ mult * psi t b k y.
Proof.
  intros k y. induction k.
  - rewrite Nat.add_0_r, psi_same by lia. cbn [psi]. ring.
  - replace (mult + S k)%nat with (S (mult + k)) by lia. cbn [psi]. rewrite IHk. replace (a + S (mult + k))%nat with (b + S k)%nat by lia. ring.
Qed.
Definition Phi (m ik : nat) (y : R) : R := (y - t a) ^ (p - ik) * (y - t b) ^ (Nat.min m ik) * psi t a (ik - m) y.
Definition inv_cc (m : nat) (cc : mat) : Prop :=
  (forall ik y, (ik <= p)%nat -> sm (S p) (fun i => cc i ik * psi t (a - p + i) p y) = Phi m ik y) /\
  (forall i ik, (i + m < ik)%nat -> (ik <= p)%nat -> cc i ik = 0).
Lemma insert_cc : forall m cc cn, (m < p - mult)%nat -> inv_cc m cc ->
  inv_cc (S m) (fst (bez_insert p (bez_alphas t p a b mult) mult more (cc, cn) m)).
Proof.
  intros m cc cn Hlt (I1 & I2). destruct (span_in a Ha HT) as (P1 & P2).
  unfold bez_insert. cbv zeta. cbn [fst].
  assert (E : forall i ik, fold_left (fun cc ik => bez_column (bez_alphas t p a b mult (ik - (mult + m) - 1)%nat) ik cc) (rev (seq (mult + m + 1) (p - (mult + m)))) cc i ik
     = if ((mult + m <? ik) && (ik <=? p))%nat then (t b - t a) / (t (a + (ik - m))%nat - t a) * cc i ik + (1 - (t b - t a) / (t (a + (ik - m))%nat - t a)) * cc i (ik - 1)%nat else cc i ik).
  { intros i ik. rewrite (@columns_at (fun ik => bez_alphas t p a b mult (ik - (mult + m) - 1)%nat)).
    replace (mult + m + (p - (mult + m)))%nat with p by lia. destruct (Nat.ltb_spec (mult + m) ik), (Nat.leb_spec ik p); cbn [andb]; auto.
    rewrite alphas_at by lia. replace (ik - (mult + m) - 1 + mult + 1)%nat with (ik - m)%nat by lia. reflexivity. }
  split.
  - intros ik y Hik. rewrite (@sm_ext (S p) _ (fun i => (if ((mult + m <? ik) && (ik <=? p))%nat then (t b - t a) / (t (a + (ik - m))%nat - t a) * cc i ik + (1 - (t b - t a) / (t (a + (ik - m))%nat - t a)) * cc i (ik - 1)%nat else cc i ik) * psi t (a - p + i) p y)).
    2: { intros i Hi. rewrite E. reflexivity. }
    destruct (Nat.leb_spec ik p); [|lia]. destruct (Nat.ltb_spec (mult + m) ik) as [L|L]; cbn [andb].
    + set (al := (t b - t a) / (t (a + (ik - m))%nat - t a)).
      rewrite (@sm_ext (S p) _ (fun i => al * (cc i ik * psi t (a - p + i) p y) + (1 - al) * (cc i (ik - 1)%nat * psi t (a - p + i) p y))) by (intros; ring).
      rewrite sm_plus, !sm_scal, !I1 by lia. unfold Phi.
      rewrite !Nat.min_l by lia. replace (p - (ik - 1))%nat with (S (p - ik)) by lia.
      replace (ik - m)%nat with (S (ik - S m)) by lia. replace (ik - 1 - m)%nat with (ik - S m)%nat by lia. cbn [pow psi].
      assert (NE : t (a + S (ik - S m))%nat - t a <> 0).
      { pose proof (o_le (a + 1) (a + S (ik - S m)) ltac:(lia) ltac:(lia)). lra. }
      unfold al. replace (ik - m)%nat with (S (ik - S m)) by lia. field. exact NE.
    + rewrite I1 by lia. unfold Phi. destruct (Nat.le_gt_cases ik m) as [K|K].
      * replace (ik - m)%nat with 0%nat by lia. replace (ik - S m)%nat with 0%nat by lia. rewrite !Nat.min_r by lia. reflexivity.
      * rewrite !Nat.min_l by lia. rewrite !psi_same by lia. replace (ik - m)%nat with (S (ik - S m)) by lia. cbn [pow]. ring.
  - intros i ik Hi Hik. rewrite E. destruct ((mult + m <? ik) && (ik <=? p))%nat; [|apply I2; lia].
    rewrite (I2 i ik), (I2 i (ik - 1)%nat) by lia. ring.
Qed.
(** The next operator: the columns from [p - mult - m] on are finished. *)
Definition inv_cn (m : nat) (cn : mat) : Prop :=
  (forall ik y, (p - mult - m <= ik <= p)%nat -> sm (S p) (fun i => cn i ik * psi t (b - p + i) p y) = (y - t b) ^ (p - ik) * psi t b ik y) /\
  (forall i ik, (i < ik)%nat -> (ik <= p)%nat -> cn i ik = 0) /\ (forall i ik, (ik < p - mult - m)%nat -> cn i ik = eye i ik).
(** Consecutive knots equal to t_b before b. *)
Lemma psi_eye : forall ik y, (p - mult <= ik <= p)%nat -> (p <= b)%nat -> psi t (b - p + ik) p y = (y - t b) ^ (p - ik) * psi t b ik y.
Proof.
  intros ik y H H2. remember (p - ik)%nat as d eqn:Ed. revert ik Ed H. induction d; intros ik Ed H.
  - replace ik with p by lia. replace (b - p + p)%nat with b by lia. cbn [pow]. ring.
  - specialize (IHd (S ik) ltac:(lia) ltac:(lia)). cbn [pow].
    destruct p as [|q] eqn:Ep; [lia|].
    rewrite psi_head. replace (S (b - S q + ik)) with (b - S q + S ik)%nat by lia.
    assert (X : psi t (b - S q + S ik) (S q) y = psi t (b - S q + S ik) q y * (y - t (b + S ik)%nat)).
    { cbn [psi]. do 3 f_equal. lia. }
    assert (Y : psi t b (S ik) y = psi t b ik y * (y - t (b + S ik)%nat)) by reflexivity.
    rewrite (same (b - S q + ik + 1)%nat) by lia. rewrite <- tb.
    enough (Z : psi t (b - S q + S ik) q y = (y - t b) ^ d * psi t b ik y) by (rewrite Z; ring).
    clear IHd X Y.
    assert (G : forall e i, (i <= b)%nat -> (b - i = e)%nat -> (forall k, (i < k <= b)%nat -> t k = t b) -> forall m, psi t i (e + m) y = (y - t b) ^ e * psi t b m y).
    { induction e; intros i B1 B2 B3 m. replace i with b by lia. cbn [Nat.add pow]. ring.
      cbn [Nat.add]. rewrite psi_head. rewrite (B3 (i + 1)%nat) by lia. rewrite (IHe (S i)); [cbn [pow]; ring | lia | lia | intros; apply B3; lia]. }
    replace q with (d + ik)%nat by lia. apply G. lia. lia. intros k Hk. rewrite tb. apply same. lia.
Qed.
Lemma inv_cn_0 : (p <= b)%nat -> inv_cn 0 eye.
Proof.
  intros B. split; [|split].
  - intros ik y Hik. rewrite (@eye_sum ik (fun i => psi t (b - p + i) p y)) by lia. apply psi_eye. lia. auto.
  - intros i ik H1 H2. unfold eye. destruct (Nat.eqb_spec i ik); [lia|reflexivity].
  - auto.
Qed.
Lemma insert_cn : forall m cc cn, more = true -> (m < p - mult)%nat -> inv_cc m cc -> inv_cn m cn ->
  inv_cn (S m) (snd (bez_insert p (bez_alphas t p a b mult) mult more (cc, cn) m)).
Proof.
  intros m cc cn M Hlt I (J1 & J2 & J3). pose proof (insert_cc m cc cn Hlt I) as (I1 & I2).
  destruct (span_in a Ha HT) as (P1 & P2).
  unfold bez_insert in *. cbv zeta in *. cbn [fst snd] in *. rewrite M.
  set (c1 := fold_left _ (rev _) cc) in *. clearbody c1. set (save := (p - mult - m - 1)%nat).
  split; [|split].
  - intros ik y Hik. destruct (Nat.eq_dec ik save) as [->|N].
    + specialize (I1 p y ltac:(lia)). unfold Phi in I1. rewrite Nat.sub_diag, Nat.min_l in I1 by lia.
      replace (p - S m)%nat with (mult + save)%nat in I1 by lia. rewrite psi_over in I1.
      replace (p - save)%nat with (S m + mult)%nat by lia. rewrite pow_add.
      transitivity (sm (S p) (fun i => c1 i p * psi t (a - p + i) p y)); [|rewrite I1; cbn [pow]; ring].
      replace (S p) with (save + mult + (m + 2))%nat at 2 by lia. rewrite (sm_split (save + mult) (m + 2)).
      rewrite (sm_0 (save + mult)). 2: { intros k Hk. rewrite I2 by lia. ring. } rewrite Rplus_0_l.
      replace (S p) with (save + (m + 2 + mult))%nat at 1 by lia. rewrite sm_split. rewrite (sm_0 save).
      2: { intros k Hk. destruct (Nat.leb_spec save k); [lia|]. rewrite andb_false_r. cbn [andb]. rewrite J2 by lia. ring. }
      rewrite Rplus_0_l. rewrite (sm_split (m + 2) mult). rewrite (sm_0 mult).
      2: { intros k Hk. destruct (Nat.ltb_spec (save + (m + 2 + k)) (m + save + 2)); [lia|]. rewrite andb_false_r.
           rewrite J3 by lia. unfold eye. destruct (Nat.eqb_spec (save + (m + 2 + k)) save); [lia|]. ring. }
      rewrite Rplus_0_r. apply sm_ext. intros k Hk. rewrite Nat.eqb_refl. destruct (Nat.leb_spec save (save + k)); [|lia]. destruct (Nat.ltb_spec (save + k) (m + save + 2)); [|lia]. cbn [andb].
      f_equal. f_equal; lia. f_equal. lia.
    + rewrite <- (J1 ik y) by lia. apply sm_ext. intros k Hk. destruct (Nat.eqb_spec ik save); [lia|]. reflexivity.
  - intros i ik H1 H2. destruct (Nat.eqb_spec ik save) as [->|N]; cbn [andb]; auto. destruct (Nat.leb_spec save i); [lia|]. cbn [andb]. auto.
  - intros i ik H. destruct (Nat.eqb_spec ik save) as [->|N]; [lia|]. cbn [andb]. apply J3. lia.
Qed.
Lemma inserts : forall m cc, (m <= p - mult)%nat -> inv_cc 0 cc -> (more = true -> (p <= b)%nat) ->
  let st := fold_left (bez_insert p (bez_alphas t p a b mult) mult more) (seq 0 m) (cc, eye) in
  inv_cc m (fst st) /\ (more = true -> inv_cn m (snd st)).
Proof.
  intros m cc Hm0 I0 B. induction m. cbn. split; auto. intros. apply inv_cn_0; auto.
  rewrite seq_S, fold_left_app. cbn [fold_left Nat.add]. destruct (fold_left _ (seq 0 m) (cc, eye)) as (c1 & n1). cbn [fst snd] in IHm.
  destruct (IHm ltac:(lia)) as (A1 & A2). split. apply insert_cc; auto. intros M. apply insert_cn; auto.
Qed.
(** One element: the operator is finished and the next one is ready. *)
Lemma element : forall cc, good a cc -> (more = true -> (p <= b)%nat) -> (more = false -> (p <= mult)%nat) ->
  let '(c1, cn) := if (mult <? p)%nat then fold_left (bez_insert p (bez_alphas t p a b mult) mult more) (seq 0 (p - mult)) (cc, eye) else (cc, eye) in
  final a c1 /\ (more = true -> good b cn).
Proof.
  intros cc (G1 & G2) B1 B2.
  assert (I0 : inv_cc 0 cc).
  { split. intros ik y Hik. rewrite G1 by auto. unfold Phi. rewrite Nat.min_l, Nat.sub_0_r by lia. cbn [pow]. ring. intros i ik H1 H2. apply G2; lia. }
  assert (FIN : forall c, (exists m, (p - mult <= m)%nat /\ (m <= p)%nat /\ inv_cc m c) -> final a c).
  { intros c (m & M1 & M2 & J1 & J2) j y Hj. rewrite J1 by auto. unfold Phi. rewrite <- tb. rewrite psi_same by lia. rewrite Rmult_assoc. f_equal.
    rewrite <- pow_add. f_equal. lia. }
  destruct (Nat.ltb_spec mult p) as [L|L].
  - pose proof (inserts (p - mult) cc ltac:(lia) I0 B1) as X. cbv zeta in X. destruct (fold_left _ (seq 0 (p - mult)) (cc, eye)) as (c1 & cn). cbn [fst snd] in X.
    destruct X as (X1 & X2). split. apply FIN. exists (p - mult)%nat. split; [lia|]. split; [lia|auto].
    intros M. destruct (X2 M) as (Y1 & Y2 & _). split. intros ik y Hik. apply Y1. lia. auto.
  - split. apply FIN. exists 0%nat. split; [lia|]. split; [lia|auto].
    intros M. destruct (inv_cn_0 (B1 M)) as (Y1 & Y2 & _). split. intros ik y Hik. apply Y1. lia. auto.
Qed.
End Element.

Definition sp (s : nat) : bool := if Rlt_dec (t s) (t (s + 1)%nat) then true else false.
Lemma sp_true : forall s, t s < t (s + 1)%nat -> sp s = true. Proof. intros s H. unfold sp. destruct (Rlt_dec _ _); auto; contradiction. Qed.
Lemma sp_none : forall a m, (forall k, (a <= k < a + m)%nat -> t k = t (k + 1)%nat) -> filter sp (seq a m) = [].
Proof.
  intros a m. revert a. induction m; intros a H; auto. cbn [seq filter]. unfold sp at 1. rewrite <- (H a) by lia.
  destruct (Rlt_dec (t a) (t a)); [lra|]. apply IHm. intros; apply H; lia.
Qed.
Lemma sp_next : forall a b, (a + 1 < n)%nat -> t a < t (a + 1)%nat -> (a + 1 <= b)%nat -> (b < n)%nat -> (forall k, (a + 1 <= k <= b)%nat -> t k = t (a + 1)%nat) ->
  filter sp (seq a (n - 1 - a)) = a :: filter sp (seq b (n - 1 - b)).
Proof.
  intros a b Ha H Hb Hn E. replace (n - 1 - a)%nat with (S (b - a - 1) + (n - 1 - b))%nat by lia. rewrite seq_app, filter_app.
  cbn [seq filter]. rewrite sp_true by auto. rewrite (sp_none (S a)).
  2: { intros k Hk. rewrite (E k), (E (k + 1)%nat) by lia. reflexivity. }
  cbn [app]. do 3 f_equal. lia.
Qed.
Lemma loop_ok : forall fuel done cc a, (n - a <= fuel)%nat -> (a + 1 < n)%nat -> t a < t (a + 1)%nat -> good a cc ->
  exists cs, bez_loop t n p fuel done cc a (a + 1) = Some (done ++ cs) /\ Forall2 final (filter sp (seq a (n - 1 - a))) cs.
Proof.
  induction fuel; intros done cc a H1 H2 HT G. lia. cbn [bez_loop]. destruct (span_in a H2 HT) as (P1 & P2).
  destruct (Nat.ltb_spec (a + 1 + 1) n) as [L|L].
  - destruct (last_same_spec n (a + 1) ltac:(lia) ltac:(lia)) as (B1 & B2 & B3 & B4). set (b := last_same t n n (a + 1)) in *.
    assert (B3' : forall k, (a + 1 <= k <= b)%nat -> t k = t (a + 1)%nat) by auto.
    rewrite (sp_next a b) by auto.
    pose proof (@element a b (b - (a + 1) + 1) ((b + 1 <? n)%nat) H2 HT B2 ltac:(lia) ltac:(lia) B3' cc G) as X.
    assert (Q1 : (b + 1 <? n)%nat = true -> (p <= b)%nat) by lia.
    assert (Q2 : (b + 1 <? n)%nat = false -> (p <= b - (a + 1) + 1)%nat). { intros Q. apply Nat.ltb_ge in Q. lia. }
    specialize (X Q1 Q2). destruct (if (b - (a + 1) + 1 <? p)%nat then _ else _) as (c1 & cn). destruct X as (X1 & X2).
    destruct (Nat.ltb_spec (b + 1) n) as [M|M].
    + destruct (IHfuel (done ++ [c1]) cn b ltac:(lia) M (B4 M) (X2 eq_refl)) as (cs & E & F).
      exists (c1 :: cs). rewrite E. rewrite <- app_assoc. split; [reflexivity|]. constructor; auto.
    + exists [c1]. split; [reflexivity|]. replace (n - 1 - b)%nat with 0%nat by lia. cbn [seq filter]. constructor; auto.
  - (* only for p = 0 *)
    exists [cc]. split; [reflexivity|].
    replace (n - 1 - a)%nat with 1%nat by lia. cbn [seq filter]. rewrite sp_true by auto. constructor; [|constructor].
    intros j y Hj. destruct G as (G1 & _). replace p with 0%nat in * by lia. replace j with 0%nat by lia. rewrite G1 by lia. cbn [psi pow Nat.sub]. ring.
Qed.
Lemma spans_p : spans t n = filter sp (seq p (n - 1 - p)).
Proof.
  destruct HO as (N & _ & F & _). unfold spans. fold sp. replace (n - 1)%nat with (p + (n - 1 - p))%nat at 1 by lia.
  rewrite seq_app, filter_app. change (filter (fun s => if Rlt_dec (t s) (t (s + 1)%nat) then true else false)) with (filter sp).
  rewrite (sp_none 0 p). reflexivity. intros k Hk. rewrite (F k), (F (k + 1)%nat) by lia. reflexivity.
Qed.
Lemma first_good : good p eye.
Proof.
  destruct HO as (N & _ & F & HT & _). split.
  - intros ik y Hik. rewrite (@eye_sum ik (fun i => psi t (p - p + i) p y)) by auto. rewrite Nat.sub_diag. cbn [Nat.add].
    assert (G : forall d i, (i + d = p)%nat -> forall m, psi t i (d + m) y = (y - t p) ^ d * psi t p m y).
    { induction d; intros i E m. replace i with p by lia. cbn [Nat.add pow]. ring.
      cbn [Nat.add]. rewrite psi_head. rewrite (F (i + 1)%nat), <- (F p) by lia. rewrite (IHd (S i)) by lia. cbn [pow]. ring. }
    replace p with (p - ik + ik)%nat at 1 by lia. rewrite (G (p - ik)%nat ik) by lia. replace (p - ik + ik)%nat with p by lia. reflexivity.
  - intros i ik H1 H2. unfold eye. destruct (Nat.eqb_spec i ik); [lia|reflexivity].
Qed.
Theorem extraction_final : exists cs, compute_bezier_extraction_1d t n p = Some cs /\ Forall2 final (spans t n) cs.
Proof.
  destruct HO as (N & _ & F & HT & _). unfold compute_bezier_extraction_1d.
  destruct (loop_ok (S n) [] eye p ltac:(lia) ltac:(lia) HT first_good) as (cs & E & FF). exists cs. split; auto.
  rewrite spans_p. exact FF.
Qed.

(** ** The connectivity *)
Lemma last_same_c_spec : forall fuel b, (n - b <= fuel)%nat -> (b <= n - p - 2)%nat -> let b' := last_same_c t n p fuel b in
  (b <= b')%nat /\ (b' <= n - p - 2)%nat /\ (forall k, (b <= k <= b')%nat -> t k = t b) /\ t b' < t (b' + 1)%nat.
Proof.
  pose proof HO as (N & _ & _ & _ & _ & LT).
  induction fuel; intros b H1 H2. lia. cbn [last_same_c]. destruct (Nat.ltb_spec b (n - p - 2)) as [L|L].
  - destruct (Req_EM_T (t b) (t (b + 1)%nat)) as [E|E].
    + destruct (IHfuel (b + 1)%nat ltac:(lia) ltac:(lia)) as (A & B & C & D). cbv zeta. split; [lia|]. split; [auto|]. split; [|auto].
      intros k Hk. destruct (Nat.eq_dec k b) as [->|]; auto. rewrite C by lia. auto.
    + cbv zeta. split; [lia|]. split; [lia|]. split. intros k Hk. f_equal. lia. pose proof (o_mono b ltac:(lia)). lra.
  - cbv zeta. split; [lia|]. split; [lia|]. split. intros k Hk. f_equal. lia. replace (b + 1)%nat with (n - p - 1)%nat by lia. replace b with (n - p - 2)%nat by lia. auto.
Qed.
Lemma muls_ok : forall fuel a, (n - a <= fuel)%nat -> (p <= a)%nat -> (a + p + 1 < n)%nat -> t a < t (a + 1)%nat ->
  exists muls, conn_muls t n p fuel (a + 1) = Some muls /\
    map (fun c => c + p)%nat (cumsum (a - p) muls) = filter sp (seq (a + 1) (n - 1 - (a + 1))).
Proof.
  pose proof HO as (N & _ & _ & _ & LA & _).
  induction fuel; intros a H1 H2 H3 HT. lia. cbn [conn_muls]. destruct (Nat.ltb_spec (a + 1) (n - p - 1)) as [L|L].
  - destruct (last_same_c_spec n (a + 1) ltac:(lia) ltac:(lia)) as (B1 & B2 & B3 & B4). set (b := last_same_c t n p n (a + 1)) in *.
    assert (B3' : forall k, (a + 1 <= k <= b)%nat -> t k = t (a + 1)%nat) by exact B3. clear B3.
    destruct (IHfuel b ltac:(lia) ltac:(lia) ltac:(lia) B4) as (muls & E & M). rewrite E. cbn [option_map]. eexists. split; [reflexivity|].
    cbn [cumsum map]. replace (a - p + (b - (a + 1) + 1))%nat with (b - p)%nat by lia. rewrite M.
    replace (b - p + p)%nat with b by lia.
    replace (n - 1 - (a + 1))%nat with (b - (a + 1) + S (n - 1 - (b + 1)))%nat by lia. rewrite seq_app, filter_app.
    rewrite (sp_none (a + 1) (b - (a + 1))). 2: { intros k Hk. rewrite (B3' k), (B3' (k + 1)%nat) by lia. reflexivity. }
    replace (a + 1 + (b - (a + 1)))%nat with b by lia. cbn [seq filter app]. rewrite sp_true by auto. replace (b + 1)%nat with (S b) by lia. reflexivity.
  - exists []. split; auto. cbn [cumsum map]. symmetry. apply sp_none. intros k Hk. rewrite (LA k), (LA (k + 1)%nat) by lia. reflexivity.
Qed.
Theorem connectivity_spans : forall n_el, exists conn bconn, create_connectivity_1d t n p n_el = Some (conn, bconn) /\
  conn = map (fun s => map (fun k => k + (s - p))%nat (seq 0 (p + 1))) (spans t n) /\
  bconn = map (fun e => map (fun k => k + p * e)%nat (seq 0 (p + 1))) (seq 0 n_el).
Proof.
  intros n_el. pose proof HO as (N & _ & _ & HT & _). destruct (muls_ok (S n) p ltac:(lia) ltac:(lia) ltac:(lia) HT) as (muls & E & M).
  unfold create_connectivity_1d. rewrite E. cbn [option_map]. do 2 eexists. split; [reflexivity|]. split; [|reflexivity].
  rewrite spans_p. replace (n - 1 - p)%nat with (S (n - 1 - (p + 1))) by lia. cbn [seq filter]. rewrite sp_true by auto.
  replace (S p) with (p + 1)%nat by lia. rewrite <- M. rewrite Nat.sub_diag. cbn [cumsum map Nat.add]. rewrite Nat.sub_diag. f_equal.
  rewrite map_map. apply map_ext. intros c. replace (c + p - p)%nat with c by lia. reflexivity.
Qed.
End Extract.
