(** Lemmas: signs of the extraction operators, their end columns, Kronecker products. *)
From Coq Require Import Reals Lra Lia Arith List Bool.
From Coquelicot Require Import Coquelicot.
From Verif Require Import M_fmf L_fmf M_map L_map P_map S_iga M_iga L_iga S_iga2 M_iga2 P_iga P_iga2 P_iga3 L_iga2 P_iga4 P_iga5 P_iga6 M_iga3.
Import ListNotations.
Open Scope R_scope.

(** ** Non-negative operators *)
Definition nn (cc : mat) : Prop := forall i j, 0 <= cc i j.
Lemma nn_eye : nn eye. Proof. intros i j. unfold eye. destruct (i =? j)%nat; lra. Qed.
Lemma nn_column : forall al ik cc, 0 <= al <= 1 -> nn cc -> nn (bez_column al ik cc).
Proof.
  intros al ik cc A N i j. unfold bez_column. destruct (j =? ik)%nat; auto. pose proof (N i ik). pose proof (N i (ik - 1)%nat). nra.
Qed.
Lemma nn_insert : forall p al mult more s ij, (forall k, 0 <= al k <= 1) -> nn (fst s) -> nn (snd s) -> let s' := bez_insert p al mult more s ij in nn (fst s') /\ nn (snd s').
Proof.
  intros p al mult more (cc & cn) ij A N1 N2. unfold bez_insert. cbn [fst snd] in *.
  assert (G : forall l c, nn c -> nn (fold_left (fun cc ik => bez_column (al (ik - (mult + ij) - 1)%nat) ik cc) l c)).
  { induction l; intros c N; cbn [fold_left]; auto. apply IHl. apply nn_column; auto. }
  split; [apply G; auto|]. destruct more; auto. intros i j. destruct (_ && _); auto. apply G; auto.
Qed.
Lemma nn_inserts : forall p al mult more l s, (forall k, 0 <= al k <= 1) -> nn (fst s) -> nn (snd s) ->
  let s' := fold_left (bez_insert p al mult more) l s in nn (fst s') /\ nn (snd s').
Proof.
  intros p al mult more l. induction l; intros s A N1 N2; cbn [fold_left]; auto. destruct (nn_insert p al mult more s a A N1 N2). apply IHl; auto.
Qed.
Section Knots.
Variables (t : nat -> R) (n p : nat).
Hypothesis HO : open_knots t n p.
Lemma alphas_unit : forall a b mult, (a + p < n)%nat -> (b = a + mult)%nat -> t a < t b -> forall k, 0 <= bez_alphas t p a b mult k <= 1.
Proof.
  intros a b mult Ha Hb L. unfold bez_alphas.
  assert (G : forall l f, (forall x, In x l -> (mult + 1 <= x <= p)%nat) -> (forall k, 0 <= f k <= 1) ->
    forall k, 0 <= fold_left (fun al ij => upd al (ij - mult - 1) ((t b - t a) / (t (a + ij)%nat - t a))) l f k <= 1).
  { induction l as [|x l IH]; intros f X F k; cbn [fold_left]; auto. apply IH. intros; apply X; right; auto.
    intros j. unfold upd. destruct (_ =? _)%nat; auto. specialize (X x (or_introl eq_refl)).
    pose proof (o_le t n p HO b (a + x) ltac:(lia) ltac:(lia)). split.
    apply Rmult_le_pos; [lra|]. left; apply Rinv_0_lt_compat; lra. apply Rmult_le_reg_r with (t (a + x)%nat - t a); [lra|]. unfold Rdiv. rewrite Rmult_assoc, Rinv_l by lra. lra. }
  apply G. intros x Hx. apply in_rev in Hx. apply in_seq in Hx. lia. intros; lra.
Qed.
Lemma loop_nn : forall fuel done cc a cs, (a + 1 < n)%nat -> t a < t (a + 1)%nat -> nn cc -> List.Forall nn done ->
  bez_loop t n p fuel done cc a (a + 1) = Some cs -> List.Forall nn cs.
Proof.
  induction fuel; intros done cc a cs Ha HT N ND E. discriminate. cbn [bez_loop] in E. destruct (span_in t n p HO a Ha HT) as (P1 & P2).
  assert (AP : forall c, nn c -> List.Forall nn (done ++ [c])).
  { intros c Hc. apply List.Forall_app. split; auto. }
  destruct (Nat.ltb_spec (a + 1 + 1) n) as [L|L].
  - destruct (@last_same_spec t n p HO n (a + 1) ltac:(lia) ltac:(lia)) as (B1 & B2 & B3 & B4). set (b := last_same t n n (a + 1)) in *.
    assert (tb : t b = t (a + 1)%nat) by (apply B3; lia).
    assert (X : let s := if (b - (a + 1) + 1 <? p)%nat then fold_left (bez_insert p (bez_alphas t p a b (b - (a + 1) + 1)) (b - (a + 1) + 1) ((b + 1 <? n)%nat)) (seq 0 (p - (b - (a + 1) + 1))) (cc, eye) else (cc, eye) in nn (fst s) /\ nn (snd s)).
    { cbv zeta. destruct (Nat.ltb_spec (b - (a + 1) + 1) p).
      - apply nn_inserts; auto. apply alphas_unit; try lia. lra. apply nn_eye.
      - split; auto. apply nn_eye. }
    cbv zeta in X. destruct (if (b - (a + 1) + 1 <? p)%nat then _ else _) as (c1 & cn). cbn [fst snd] in X. destruct X as (X1 & X2).
    destruct (Nat.ltb_spec (b + 1) n) as [M|M].
    + apply IHfuel in E; auto.
    + inversion E. apply AP; auto.
  - inversion E. apply AP; auto.
Qed.
(** The entries of the extraction operators are non-negative. *)
Theorem C150_nonneg : forall cs, compute_bezier_extraction_1d t n p = Some cs -> forall C i j, In C cs -> 0 <= C i j.
Proof.
  intros cs E C i j HC. unfold compute_bezier_extraction_1d in E. destruct HO as (N & _ & F & HT & _).
  apply loop_nn in E; auto; try lia. rewrite List.Forall_forall in E. apply E. auto. apply nn_eye.
Qed.

(** ** The end columns *)
Lemma first_column : forall s C i, (p <= s)%nat -> (s + p + 1 < n)%nat -> t s < t (s + 1)%nat -> final t p s C -> (i <= p)%nat -> C i 0%nat = bspline t p (s - p + i) (t s).
Proof.
  intros s C i H1 H2 H3 F Hi. enough (E : C i 0%nat - bspline t p (s - p + i) (t s) = 0) by lra.
  apply (@psi_indep t p (s - p) (fun i => C i 0%nat - bspline t p (s - p + i) (t s))); auto.
  - intros a b A1 A2 B1 B2. pose proof (o_le t n p HO a s ltac:(lia) ltac:(lia)). pose proof (o_le t n p HO (s + 1) b ltac:(lia) ltac:(lia)). lra.
  - intros y. rewrite (@sm_ext (S p) _ (fun i => C i 0%nat * psi t (s - p + i) p y - bspline t p (s - p + i) (t s) * psi t (s - p + i) p y)) by (intros; ring).
    rewrite sm_minus, F by lia. rewrite (@marsden t n (o_mono t n p HO)) by (auto; lra). rewrite Nat.sub_0_r. cbn [pow]. ring.
Qed.
(** Functions starting at a knot of multiplicity at most q vanish there. *)
Lemma zero_start : forall d i q, (i + q + 1 < n)%nat -> (d < q)%nat -> (forall k, (i <= k <= i + d)%nat -> t k = t i) -> t (i + d)%nat < t (i + d + 1)%nat -> bspline t q i (t i) = 0.
Proof.
  induction d; intros i q Hn Hq E L; (destruct q as [|q]; [lia|]); cbn [bspline].
  - replace (t i - t i) with 0 by ring. rewrite (@bspline_supp t n (o_mono t n p HO) q (S i)). unfold ratio. destruct (Req_EM_T _ _); unfold Rdiv; ring.
    lia. left. replace (S i) with (i + 0 + 1)%nat by lia. rewrite Nat.add_0_r in L at 1. exact L.
  - replace (t i - t i) with 0 by ring. assert (E1 : t (S i) = t i) by (apply E; lia). assert (Z : bspline t q (S i) (t i) = 0).
    { rewrite <- E1. apply (IHd (S i) q); try lia. intros k Hk. rewrite E1. apply E. lia. replace (S i + d)%nat with (i + S d)%nat by lia. exact L. }
    rewrite Z. unfold ratio. destruct (Req_EM_T (t (i + S q)%nat - t i) 0); unfold Rdiv; ring.
Qed.
Lemma last_column : forall s s' C i, (1 <= p)%nat -> (p <= s)%nat -> (s < s')%nat -> (s' <= s + p)%nat -> (s' + p + 1 < n)%nat -> t s < t (s + 1)%nat -> t s' < t (s' + 1)%nat ->
  (forall k, (s + 1 <= k <= s')%nat -> t k = t s') -> final t p s C -> (i <= p)%nat -> C i p = bspline t p (s - p + i) (t s').
Proof.
  intros s s' C i Hp H1 H2 H2' H3 H4 H5 E F Hi. enough (Q : C i p - bspline t p (s - p + i) (t s') = 0) by lra.
  apply (@psi_indep t p (s - p) (fun i => C i p - bspline t p (s - p + i) (t s'))); auto.
  - intros a b A1 A2 B1 B2. pose proof (o_le t n p HO a s ltac:(lia) ltac:(lia)). pose proof (o_le t n p HO (s + 1) b ltac:(lia) ltac:(lia)). lra.
  - intros y. rewrite (@sm_ext (S p) _ (fun i => C i p * psi t (s - p + i) p y - bspline t p (s - p + i) (t s') * psi t (s - p + i) p y)) by (intros; ring).
    rewrite sm_minus, F by lia. rewrite Nat.sub_diag. cbn [pow]. rewrite (E (s + 1)%nat) by lia.
    pose proof (@marsden t n (o_mono t n p HO) p s' (t s') y ltac:(lia) ltac:(lia) ltac:(lra)) as M. rewrite <- M.
    set (m := (s' - s)%nat).
    assert (SH : forall f : nat -> R, (forall k, (k < m)%nat -> f k = 0) -> sm (S p) f = sm (S p - m) (fun k => f (m + k)%nat)).
    { intros f Z. replace (S p) with (m + (S p - m))%nat at 1 by lia. rewrite sm_split, sm_0 by auto. ring. }
    assert (ST : forall f : nat -> R, (forall k, (S p - m <= k < S p)%nat -> f k = 0) -> sm (S p) f = sm (S p - m) f).
    { intros f Z. replace (S p) with (S p - m + m)%nat at 1 by lia. rewrite sm_split, (sm_0 m). ring. intros; apply Z; lia. }
    rewrite (ST (fun i0 => bspline t p (s' - p + i0) (t s') * psi t (s' - p + i0) p y)).
    2: { intros k Hk. rewrite <- (E (s' - p + k)%nat) by lia. rewrite (@zero_start (s' - (s' - p + k))); try lia. ring.
      intros j Hj. rewrite (E j), (E (s' - p + k)%nat) by lia. reflexivity. replace (s' - p + k + (s' - (s' - p + k)))%nat with s' by lia. exact H5. }
    rewrite (SH (fun i0 => bspline t p (s - p + i0) (t s') * psi t (s - p + i0) p y)).
    2: { intros k Hk. rewrite (@bspline_supp t n (o_mono t n p HO)). ring. lia. right. apply (o_le t n p HO); lia. }
    rewrite (@sm_ext (S p - m) (fun k => bspline t p (s - p + (m + k)) (t s') * psi t (s - p + (m + k)) p y) (fun e => bspline t p (s' - p + e) (t s') * psi t (s' - p + e) p y)).
    ring. intros k Hk. replace (s - p + (m + k))%nat with (s' - p + k)%nat by lia. reflexivity.
Qed.
End Knots.

(** ** Consecutive elements of a filtered range *)
Lemma filter_head : forall f m a x, nth_error (filter f (seq a m)) 0 = Some x -> (a <= x < a + m)%nat /\ f x = true /\ forall k, (a <= k < x)%nat -> f k = false.
Proof.
  intros f. induction m; intros a x H; cbn [seq filter] in H. discriminate. destruct (f a) eqn:E.
  - cbn in H. inversion H; subst. split; [lia|]. split; auto. intros; lia.
  - apply IHm in H. destruct H as (H1 & H2 & H3). split; [lia|]. split; auto. intros k Hk. destruct (Nat.eq_dec k a) as [->|]; auto. apply H3. lia.
Qed.
Lemma filter_next : forall f m a e x y, nth_error (filter f (seq a m)) e = Some x -> nth_error (filter f (seq a m)) (S e) = Some y -> (x < y)%nat /\ forall k, (x < k < y)%nat -> f k = false.
Proof.
  intros f. induction m; intros a e x y H1 H2; cbn [seq filter] in *. destruct e; discriminate. destruct (f a) eqn:E.
  - destruct e as [|e]. cbn [nth_error] in H1. inversion H1; subst. cbn [nth_error] in H2. apply filter_head in H2. destruct H2 as (Q1 & Q2 & Q3). split; [lia|]. intros; apply Q3; lia.
    cbn [nth_error] in *. eapply IHm; eauto.
  - eapply IHm; eauto.
Qed.
Lemma next_span : forall t n p e s s', open_knots t n p -> nth_error (spans t n) e = Some s -> nth_error (spans t n) (S e) = Some s' ->
  (s < s')%nat /\ forall k, (s + 1 <= k <= s')%nat -> t k = t s'.
Proof.
  intros t n p e s s' HO H1 H2. pose proof (nth_error_In _ _ H2) as I2. apply spans_in in I2. destruct (filter_next _ _ _ _ _ _ H1 H2) as (L & F). split; auto.
  assert (G : forall d k, (k + d = s')%nat -> (s + 1 <= k)%nat -> t k = t s').
  { induction d; intros k E K. f_equal; lia. rewrite <- (IHd (k + 1)%nat) by lia. specialize (F k ltac:(lia)). destruct (Rlt_dec _ _); [discriminate|].
    pose proof (o_mono t n p HO k ltac:(lia)). lra. }
  intros k Hk. apply (G (s' - k)%nat); lia.
Qed.
(** Every interior knot has multiplicity at most p. *)
Definition continuous_knots (t : nat -> R) (n p : nat) : Prop := (1 <= p)%nat /\ forall i, (1 <= i)%nat -> (i + p < n - 1)%nat -> t i < t (i + p)%nat.
(** The coefficient of the g-th B-spline in the j-th Bernstein polynomial of the e-th element. *)
Definition gcoef (t : nat -> R) (n p : nat) (cs : list mat) (e j g : nat) : R :=
  let s := nth e (spans t n) 0%nat in if ((s - p <=? g) && (g <=? s))%nat then nth e cs eye (g - (s - p))%nat j else 0.
(** Shared Bezier functions have the same coefficients in both elements. *)
Lemma gcoef_shared : forall t n p cs e j e' j' g, open_knots t n p -> continuous_knots t n p -> compute_bezier_extraction_1d t n p = Some cs ->
  (e < length (spans t n))%nat -> (e' < length (spans t n))%nat -> (j <= p)%nat -> (j' <= p)%nat -> (j + p * e = j' + p * e')%nat -> (g < n - p - 1)%nat ->
  gcoef t n p cs e j g = gcoef t n p cs e' j' g.
Proof.
  intros t n p cs e j e' j' g HO (Hp & HC) E He He' Hj Hj' Q Hg.
  assert (W : forall e e', (e < length (spans t n))%nat -> (e' < length (spans t n))%nat -> e' = S e -> gcoef t n p cs e p g = gcoef t n p cs e' 0 g).
  { clear e e' j j' He He' Hj Hj' Q. intros e e' He He' ->.
    destruct (extraction_final t n p HO) as (cs' & E' & F). rewrite E in E'. inversion E'; subst cs'. destruct (Forall2_nth _ _ _ F) as (L & FN).
    pose proof (nth_error_nth' (spans t n) 0%nat He) as N1. pose proof (nth_error_nth' (spans t n) 0%nat He') as N2.
    destruct (FN _ _ N1) as (C1 & M1 & F1). destruct (FN _ _ N2) as (C2 & M2 & F2). destruct (next_span _ _ _ _ _ _ HO N1 N2) as (LT & EQ).
    unfold gcoef. rewrite (nth_error_nth _ _ eye M1), (nth_error_nth _ _ eye M2).
    set (s := nth e (spans t n) 0%nat) in *. set (s' := nth (S e) (spans t n) 0%nat) in *.
    destruct (@span_bounds t n p HO s (nth_error_In _ _ N1)) as (S1 & S2 & S3). destruct (@span_bounds t n p HO s' (nth_error_In _ _ N2)) as (S4 & S5 & S6).
    assert (MU : (s' <= s + p)%nat).
    { destruct (Nat.le_gt_cases s' (s + p)); auto. exfalso. specialize (HC (s + 1)%nat ltac:(lia) ltac:(lia)).
      rewrite (EQ (s + 1)%nat), (EQ (s + 1 + p)%nat) in HC by lia. lra. }
    assert (V1 : (if ((s - p <=? g) && (g <=? s))%nat then C1 (g - (s - p))%nat p else 0) = bspline t p g (t s')).
    { destruct (Nat.leb_spec (s - p) g), (Nat.leb_spec g s); cbn [andb].
      - rewrite (@last_column t n p HO s s') by (auto; lia). f_equal. lia.
      - symmetry. destruct (Nat.le_gt_cases g s') as [G|G].
        + rewrite <- (EQ g) by lia. apply (@zero_start t n p HO (s' - g)); try lia. intros k Hk. rewrite (EQ k), (EQ g) by lia. reflexivity. replace (g + (s' - g))%nat with s' by lia. auto.
        + apply (@bspline_supp t n (o_mono t n p HO)). lia. left. pose proof (o_le t n p HO (s' + 1) g ltac:(lia) ltac:(lia)). lra.
      - symmetry. apply (@bspline_supp t n (o_mono t n p HO)). lia. right. apply (o_le t n p HO); lia.
      - lia. }
    assert (V2 : (if ((s' - p <=? g) && (g <=? s'))%nat then C2 (g - (s' - p))%nat 0%nat else 0) = bspline t p g (t s')).
    { destruct (Nat.leb_spec (s' - p) g), (Nat.leb_spec g s'); cbn [andb].
      - rewrite (@first_column t n p HO s') by (auto; lia). f_equal. lia.
      - symmetry. apply (@bspline_supp t n (o_mono t n p HO)). lia. left. pose proof (o_le t n p HO (s' + 1) g ltac:(lia) ltac:(lia)). lra.
      - symmetry. apply (@bspline_supp t n (o_mono t n p HO)). lia. right. apply (o_le t n p HO); lia.
      - lia. }
    rewrite V1, V2. reflexivity. }
  assert (D : (e = e' /\ j = j') \/ (e' = S e /\ j = p /\ j' = 0%nat) \/ (e = S e' /\ j' = p /\ j = 0%nat)).
  { destruct (Nat.lt_trichotomy e e') as [T|[T|T]].
    - right; left. assert (e' = S e) by nia. subst e'. nia.
    - left. subst. split; nia.
    - right; right. assert (e = S e') by nia. subst e. nia. }
  destruct D as [(-> & ->)|[(X & -> & ->)|(X & -> & ->)]]; auto. symmetry. apply W; auto.
Qed.

(** ** Kronecker products *)
Lemma tensor_at : forall r0 c0 n a b i j, (i < r0 * n)%nat -> (j < c0 * n)%nat ->
  tensor_product r0 c0 n n a b i j = a (i / n)%nat (j / n)%nat * b (i mod n)%nat (j mod n)%nat.
Proof.
  intros r0 c0 n a b i j Hi Hj. assert (N : (0 < n)%nat) by nia.
  pose proof (Nat.div_mod i n ltac:(lia)) as DI. pose proof (Nat.mod_upper_bound i n ltac:(lia)) as UI.
  pose proof (Nat.div_mod j n ltac:(lia)) as DJ. pose proof (Nat.mod_upper_bound j n ltac:(lia)) as UJ.
  set (qi := (i / n)%nat) in *. set (qj := (j / n)%nat) in *. set (ri := (i mod n)%nat) in *. set (rj := (j mod n)%nat) in *.
  assert (QI : (qi < r0)%nat) by nia. assert (QJ : (qj < c0)%nat) by nia. unfold tensor_product.
  assert (G : forall l c, (In (qi, qj) l \/ c i j = a qi qj * b ri rj) ->
    fold_left (fun (c : mat) '(ir, ic) => (fun i j => if ((n * ir <=? i) && (i <? n * (ir + 1)) && (n * ic <=? j) && (j <? n * (ic + 1)))%nat
      then a ir ic * b (i - n * ir)%nat (j - n * ic)%nat else c i j)) l c i j = a qi qj * b ri rj).
  { induction l as [|(x & y) l IH]; intros c H; cbn [fold_left]. destruct H as [[]|]; auto.
    apply IH. destruct (Nat.leb_spec (n * x) i), (Nat.ltb_spec i (n * (x + 1))), (Nat.leb_spec (n * y) j), (Nat.ltb_spec j (n * (y + 1))); cbn [andb];
      try (destruct H as [[H|H]|H]; [exfalso; injection H as X Y; rewrite X, Y in *; clearbody qi qj ri rj; nia | auto | auto]).
    right. assert (x = qi) by nia. assert (y = qj) by nia. subst x y. replace (i - n * qi)%nat with ri by nia. replace (j - n * qj)%nat with rj by nia. reflexivity. }
  apply G. left. apply in_flat_map. exists qi. split. apply in_seq; lia. apply in_map. apply in_seq. lia.
Qed.
