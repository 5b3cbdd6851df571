(** C150 Bezier extraction: the theorems. *)
From Coq Require Import Reals Lra Lia Arith List Bool.
From Coquelicot Require Import Coquelicot.
From Verif Require Import M_fmf L_fmf S_iga M_iga L_iga P_iga P_iga2.
Import ListNotations.
Open Scope R_scope.

Lemma Forall2_nth : forall {A B} (P : A -> B -> Prop) l l', Forall2 P l l' -> length l = length l' /\
  forall e a, nth_error l e = Some a -> exists b, nth_error l' e = Some b /\ P a b.
Proof.
  intros A B P l l' H. induction H; split; auto.
  - intros e a E. destruct e; discriminate.
  - cbn. f_equal. apply IHForall2.
  - intros [|e] a E; cbn in *. inversion E; subst. eauto. apply IHForall2. auto.
Qed.
Lemma spans_in : forall t n s, In s (spans t n) -> (s + 1 < n)%nat /\ t s < t (s + 1)%nat.
Proof.
  intros t n s H. unfold spans in H. apply filter_In in H. destruct H as (H & E). apply in_seq in H. destruct (Rlt_dec _ _); [|discriminate]. split; [lia|auto].
Qed.
(** On every non-empty knot interval, the B-splines of the element's connectivity are the
    extraction operator times the Bernstein polynomials of the local coordinate; all other
    B-splines vanish there. *)
Theorem C150_extraction : forall t n p n_el, open_knots t n p -> exists cs conn bconn,
  compute_bezier_extraction_1d t n p = Some cs /\ create_connectivity_1d t n p n_el = Some (conn, bconn) /\
  length cs = length (spans t n) /\ length conn = length (spans t n) /\
  forall e s, nth_error (spans t n) e = Some s -> exists C ec,
    nth_error cs e = Some C /\ nth_error conn e = Some ec /\ NoDup ec /\ length ec = (p + 1)%nat /\
    (forall k, In k ec -> (k < n - p - 1)%nat) /\
    forall x, t s <= x < t (s + 1)%nat ->
      (forall i, (i < p + 1)%nat -> bspline t p (nth i ec 0%nat) x = sm (p + 1) (fun j => C i j * bernstein p j ((x - t s) / (t (s + 1)%nat - t s)))) /\
      (forall k, (k < n - p - 1)%nat -> ~ In k ec -> bspline t p k x = 0).
Proof.
  intros t n p n_el HO. destruct (extraction_final t n p HO) as (cs & E1 & F). destruct (connectivity_spans t n p HO n_el) as (conn & bconn & E2 & E3 & _).
  destruct (Forall2_nth _ _ _ F) as (L & FN). exists cs, conn, bconn. repeat (split; auto).
  { rewrite E3, map_length. reflexivity. }
  intros e s Hs. destruct (FN e s Hs) as (C & EC & FC). exists C, (map (fun k => k + (s - p))%nat (seq 0 (p + 1))).
  destruct (spans_in t n s (nth_error_In _ _ Hs)) as (S1 & S2). destruct (span_in t n p HO s S1 S2) as (P1 & P2).
  split; [auto|]. split. { rewrite E3. rewrite nth_error_map, Hs. reflexivity. }
  split. { apply FinFun.Injective_map_NoDup. intros a b; lia. apply seq_NoDup. }
  split. { rewrite map_length, seq_length. reflexivity. }
  assert (IN : forall k, In k (map (fun k => k + (s - p))%nat (seq 0 (p + 1))) <-> (s - p <= k <= s)%nat).
  { intros k. rewrite in_map_iff. split. intros (q & <- & Hq). apply in_seq in Hq. lia. intros H. exists (k - (s - p))%nat. split. lia. apply in_seq. lia. }
  split. { intros k Hk. apply IN in Hk. lia. }
  intros x Hx. split.
  - intros i Hi. rewrite (nth_indep _ 0%nat (0 + (s - p))%nat) by (rewrite map_length, seq_length; lia). rewrite map_nth with (f := fun k => (k + (s - p))%nat). rewrite seq_nth by lia.
    replace (0 + i + (s - p))%nat with (s - p + i)%nat by lia. replace (p + 1)%nat with (S p) by lia.
    apply (@dual_rep t n (o_mono t n p HO) p s C P1 P2 S2); auto. lia.
  - intros k Hk Hn. apply (@bspline_supp t n (o_mono t n p HO)). lia.
    assert (O : (k < s - p)%nat \/ (s < k)%nat). { destruct (Nat.lt_ge_cases k (s - p)); auto. destruct (Nat.lt_ge_cases s k); auto. exfalso. apply Hn. apply IN. lia. }
    destruct O as [O|O].
    + right. pose proof (o_le t n p HO (k + p + 1) s ltac:(lia) ltac:(lia)). lra.
    + left. pose proof (o_le t n p HO (s + 1) k ltac:(lia) ltac:(lia)). lra.
Qed.

(** The leading coefficient of a vanishing combination of products of p linear factors. *)
Lemma psi_shift : forall t m p y, psi t m p y = psi (fun k => t (m + k)%nat) 0 p y.
Proof. intros t m p y. induction p; cbn [psi]; auto. rewrite IHp. reflexivity. Qed.
Lemma lead_gen : forall (T : nat -> nat -> R) p n (c : nat -> R), (forall y, sm n (fun i => c i * psi (T i) 0 p y) = 0) -> sm n c = 0.
Proof.
  intros T p n c H. pose (t := fun k => T (k / S p)%nat (k mod S p)%nat).
  set (g := fun z => sm n (fun i => c i * psz (T i) 0 p z)).
  assert (G : forall z, z <> 0 -> g z = 0).
  { intros z Hz. unfold g. rewrite (@sm_ext n _ (fun i => z ^ p * (c i * psi (T i) 0 p (/ z)))).
    rewrite sm_scal, H. ring. intros. rewrite psz_psi by auto. ring. }
  assert (C : continuous g 0).
  { apply (@sm_cont n (fun i z => c i * psz (T i) 0 p z)). intros k _. apply (@continuous_mult R_UniformSpace R_AbsRing (fun _ => c k)). apply continuous_const. apply psz_cont. }
  assert (G0 : g 0 = 0).
  { destruct (Req_dec (g 0) 0) as [|N]; auto. exfalso.
    assert (P : 0 < Rabs (g 0)) by (apply Rabs_pos_lt; auto).
    destruct (C (ball (g 0) (mkposreal _ P))) as (d & D). apply locally_ball.
    specialize (D (d / 2)). destruct d as (d & Hd). cbn in D.
    assert (B : Rabs (d / 2 - 0) < d) by (rewrite Rminus_0_r, Rabs_right; lra).
    specialize (D B). unfold ball in D. cbn in D. unfold AbsRing_ball, abs, minus, plus, opp in D. cbn in D.
    rewrite (G (d / 2)) in D by lra. rewrite Rplus_0_l, Rabs_Ropp in D. lra. }
  unfold g in G0. rewrite (@sm_ext n _ c) in G0; auto. intros. rewrite psz_0. ring.
Qed.
Lemma psi_two : forall (u v : R) q m y, psi (fun k => if (k <=? q)%nat then u else v) 0 (q + m) y = (y - u) ^ q * (y - v) ^ m.
Proof.
  intros u v q m y. induction m.
  - rewrite Nat.add_0_r. cbn [pow]. rewrite Rmult_1_r. assert (G : forall k, (k <= q)%nat -> psi (fun k => if (k <=? q)%nat then u else v) 0 k y = (y - u) ^ k).
    { induction k; intros K; auto. cbn [psi pow Nat.add]. rewrite IHk by lia. destruct (Nat.leb_spec (S k) q); [|lia]. ring. }
    apply G. lia.
  - replace (q + S m)%nat with (S (q + m)) by lia. cbn [psi pow]. rewrite IHm. cbn [Nat.add]. destruct (Nat.leb_spec (S (q + m)) q); [lia|]. ring.
Qed.
(** The columns of every operator sum to one (the B-spline basis is a partition of unity). *)
Theorem C150_columns : forall t n p cs, open_knots t n p -> compute_bezier_extraction_1d t n p = Some cs ->
  forall C j, In C cs -> (j < p + 1)%nat -> sm (p + 1) (fun i => C i j) = 1.
Proof.
  intros t n p cs HO E C j HC Hj. destruct (extraction_final t n p HO) as (cs' & E' & F). rewrite E in E'. inversion E'; subst cs'.
  assert (X : exists s, final t p s C). { clear E E'. induction F. destruct HC. destruct HC as [->|HC]; eauto. }
  destruct X as (s & FC). replace (p + 1)%nat with (S p) by lia.
  pose (cc := fun i => if (i <? S p)%nat then C i j else -1).
  pose (T := fun i => if (i <? S p)%nat then (fun k => t (s - p + i + k)%nat) else (fun k => if (k <=? p - j)%nat then t s else t (s + 1)%nat)).
  assert (Z : sm (S (S p)) cc = 0).
  { apply (@lead_gen T p). intros y. change (sm (S (S p)) ?f) with (sm (S p) f + f (S p)). cbv beta.
    rewrite (@sm_ext (S p) _ (fun i => C i j * psi t (s - p + i) p y)).
    2: { intros k Hk. unfold cc, T. destruct (Nat.ltb_spec k (S p)); [|lia]. rewrite psi_shift with (m := (s - p + k)%nat). reflexivity. }
    rewrite FC by lia. unfold cc, T. destruct (Nat.ltb_spec (S p) (S p)); [lia|]. pose proof (psi_two (t s) (t (s + 1)%nat) (p - j) j y) as Q. replace (p - j + j)%nat with p in Q by lia. rewrite Q. ring. }
  change (sm (S (S p)) cc) with (sm (S p) cc + cc (S p)) in Z. unfold cc at 2 in Z. destruct (Nat.ltb_spec (S p) (S p)); [lia|].
  rewrite (@sm_ext (S p) _ cc). lra. intros k Hk. unfold cc. destruct (Nat.ltb_spec k (S p)); [auto|lia].
Qed.
(** B-splines sum to one between the first and the last knot. *)
Corollary C150_unity : forall t n p s x, open_knots t n p -> (s + 1 < n)%nat -> t s <= x < t (s + 1)%nat ->
  sm (n - p - 1) (fun k => bspline t p k x) = 1.
Proof.
  intros t n p s x HO Hs Hx. assert (S2 : t s < t (s + 1)%nat) by lra. destruct (span_in t n p HO s Hs S2) as (P1 & P2).
  replace (n - p - 1)%nat with (s - p + (S p + (n - s - p - 2)))%nat by lia. rewrite sm_split, sm_split.
  rewrite sm_0. 2: { intros k Hk. apply (@bspline_supp t n (o_mono t n p HO)). lia. right. pose proof (o_le t n p HO (k + p + 1) s ltac:(lia) ltac:(lia)). lra. }
  rewrite (sm_0 (n - s - p - 2)). 2: { intros k Hk. apply (@bspline_supp t n (o_mono t n p HO)). lia. left. pose proof (o_le t n p HO (s + 1) (s - p + (S p + k)) ltac:(lia) ltac:(lia)). lra. }
  rewrite Rplus_0_l, Rplus_0_r.
  pose (cc := fun i => if (i <? S p)%nat then bspline t p (s - p + i) x else -1).
  pose (T := fun i => if (i <? S p)%nat then (fun k => t (s - p + i + k)%nat) else (fun k => if (k <=? p)%nat then x else 0)).
  assert (Z : sm (S (S p)) cc = 0).
  { apply (@lead_gen T p). intros y. change (sm (S (S p)) ?f) with (sm (S p) f + f (S p)). cbv beta.
    rewrite (@sm_ext (S p) _ (fun i => bspline t p (s - p + i) x * psi t (s - p + i) p y)).
    2: { intros k Hk. unfold cc, T. destruct (Nat.ltb_spec k (S p)); [|lia]. rewrite psi_shift with (m := (s - p + k)%nat). reflexivity. }
    rewrite (@marsden t n (o_mono t n p HO)) by auto. unfold cc, T. destruct (Nat.ltb_spec (S p) (S p)); [lia|]. pose proof (psi_two x 0 p 0 y) as Q. rewrite Nat.add_0_r in Q. rewrite Q. cbn [pow]. ring. }
  change (sm (S (S p)) cc) with (sm (S p) cc + cc (S p)) in Z. unfold cc at 2 in Z. destruct (Nat.ltb_spec (S p) (S p)); [lia|].
  rewrite (@sm_ext (S p) _ cc). lra. intros k Hk. unfold cc. destruct (Nat.ltb_spec k (S p)); [auto|lia].
Qed.

(** A quadratic example with a double and a simple interior knot: 0 0 0 1 1 2 3 3 3. *)
Definition kv : nat -> R := fun k => nth k [0; 0; 0; 1; 1; 2; 3; 3; 3] 3.
Lemma kv_open : open_knots kv 9 2.
Proof.
  unfold open_knots, kv. split; [lia|]. split.
  { intros i Hi. do 8 (try destruct i as [|i]); try lia; cbn; lra. }
  split. { intros i Hi. do 3 (try destruct i as [|i]); try lia; cbn; lra. }
  split. { cbn; lra. } split; [|cbn; lra].
  intros i Hi. do 9 (try destruct i as [|i]); try lia; cbn; lra.
Qed.
Example C150_example : spans kv 9 = [2; 4; 5]%nat /\ exists cs, compute_bezier_extraction_1d kv 9 2 = Some cs /\ length cs = 3%nat.
Proof.
  assert (S : spans kv 9 = [2; 4; 5]%nat).
  { unfold spans. cbn [seq Nat.sub filter Nat.add]. unfold kv. cbn [nth]. repeat (destruct (Rlt_dec _ _); try lra). reflexivity. }
  split; auto. destruct (@C150_extraction kv 9 2 3 kv_open) as (cs & conn & bconn & E & _ & L & _). exists cs. rewrite L, S. auto.
Qed.
Print Assumptions C149_bernstein.
Print Assumptions C150_extraction.
Print Assumptions C150_columns.
