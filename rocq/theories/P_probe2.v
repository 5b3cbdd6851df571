(** C201: fixed line probes; C202: adaptive line probes. *)
From Coq Require Import Reals Lra.
From Verif Require Import Base M_probe P_probe.
Set Implicit Arguments.
Open Scope R_scope.

(** ** Specification *)
(** The Euclidean distance. *)
Definition dist (p q : point) : R := sqrt (fold_right Rplus 0 (map (fun k => (nth k q 0 - nth k p 0) * (nth k q 0 - nth k p 0)) (seq 0 (List.length p)))).
(** [q] divides the segment from [p0] to [p1] in the ratio [s]. *)
Definition divides (p0 p1 : point) (s : R) (q : point) : Prop :=
  List.length q = List.length p0 /\ forall k, (k < List.length p0)%nat -> nth k q 0 = nth k p0 0 + s * (nth k p1 0 - nth k p0 0).
(** The largest distance of neighbours: the size hint or the mean of the diameters of
    the elements of the two points. *)
Definition allowed (ed : point -> R) (hint : option R) (p q : point) : R :=
  match hint with Some h => h | None => (ed p + ed q) / 2 end.

(** ** Norms *)
Lemma sumsq_dist : forall p q, List.length p = List.length q -> pnorm (psub q p) = dist p q.
Proof.
  intros p q L. unfold pnorm, dist. f_equal. revert q L. induction p as [|x p IH]; intros [|y q] L; try discriminate; auto.
  simpl. rewrite <- seq_shift, map_map. simpl. change (map (fun q0 => fst q0 - snd q0) (combine q p)) with (psub q p).
  rewrite IH by auto. reflexivity.
Qed.
Lemma sumsq_pos : forall a, 0 <= sumsq a.
Proof. induction a as [|x a IH]; simpl; [lra|]. pose proof (Rle_0_sqr x) as H. unfold Rsqr in H. lra. Qed.
Lemma sumsq_scale : forall k a, sumsq (pscale k a) = k * k * sumsq a.
Proof. intros k. induction a as [|x a IH]; [simpl; ring|].
  change (sumsq (pscale k (x :: a))) with (x * k * (x * k) + sumsq (pscale k a)). rewrite IH.
  change (sumsq (x :: a)) with (x * x + sumsq a). ring.
Qed.
Lemma pnorm_scale : forall k a, pnorm (pscale k a) = Rabs k * pnorm a.
Proof.
  intros k a. unfold pnorm. rewrite sumsq_scale. rewrite sqrt_mult_alt by apply Rle_0_sqr.
  f_equal. change (k * k) with (Rsqr k). apply sqrt_Rsqr_abs.
Qed.
Lemma psub_line : forall p d a b, List.length p = List.length d ->
  psub (padd p (pscale b d)) (padd p (pscale a d)) = pscale (b - a) d.
Proof.
  intros p d a b. revert d. induction p as [|x p IH]; intros [|y d] L; try discriminate; auto.
  unfold psub, padd, pscale in *. simpl. f_equal; [ring|]. apply IH. auto.
Qed.
Lemma psub_len : forall a b, List.length a = List.length b -> List.length (psub a b) = List.length a.
Proof. intros a b L. unfold psub. rewrite map_length, combine_length. lia. Qed.
Lemma padd_len : forall a b, List.length a = List.length b -> List.length (padd a b) = List.length a.
Proof. intros a b L. unfold padd. rewrite map_length, combine_length. lia. Qed.
Lemma nth_padd : forall a b k, List.length a = List.length b -> nth k (padd a b) 0 = nth k a 0 + nth k b 0.
Proof.
  induction a as [|x a IH]; intros [|y b] k L; try discriminate; [destruct k; simpl; ring|].
  destruct k; [reflexivity|]. simpl. apply (IH b k). auto.
Qed.
Lemma nth_psub : forall a b k, List.length a = List.length b -> nth k (psub a b) 0 = nth k a 0 - nth k b 0.
Proof.
  induction a as [|x a IH]; intros [|y b] k L; try discriminate; [destruct k; simpl; ring|].
  destruct k; [reflexivity|]. simpl. apply (IH b k). auto.
Qed.
Lemma nth_pscale : forall s a k, nth k (pscale s a) 0 = nth k a 0 * s.
Proof. intros s. induction a as [|x a IH]; intros k; [destruct k; simpl; ring|]. destruct k; [reflexivity|]. simpl. apply IH. Qed.

Section Line.
Variables p0 p1 : point.
Hypothesis Len : List.length p0 = List.length p1.
Hypothesis Dist : p0 <> p1.
Lemma length_pos : 0 < line_length p0 p1.
Proof.
  unfold line_length, pnorm. apply sqrt_lt_R0. revert p1 Len Dist. induction p0 as [|x p IH]; intros [|y q] L D; try discriminate; [congruence|].
  simpl. change (map (fun q0 => fst q0 - snd q0) (combine q p)) with (psub q p).
  pose proof (sumsq_pos (psub q p)). destruct (Req_dec x y) as [->|N].
  - assert (0 < sumsq (psub q p)) by (apply IH; auto; congruence). pose proof (Rle_0_sqr (y - y)) as S. unfold Rsqr in S. lra.
  - assert (0 < Rsqr (y - x)) by (apply Rsqr_pos_lt; lra). unfold Rsqr in *. lra.
Qed.
Lemma line_dir_len : List.length (line_dir p0 p1) = List.length p0.
Proof. unfold line_dir. rewrite map_length, psub_len; auto. Qed.
Lemma line_dir_unit : pnorm (line_dir p0 p1) = 1.
Proof.
  pose proof length_pos as P. change (line_dir p0 p1) with (pscale (/ line_length p0 p1) (psub p1 p0)). rewrite pnorm_scale.
  rewrite Rabs_right by (apply Rle_ge, Rlt_le, Rinv_0_lt_compat; auto). change (pnorm (psub p1 p0)) with (line_length p0 p1).
  apply Rinv_l. lra.
Qed.
Lemma line_point_len : forall t, List.length (line_point p0 p1 t) = List.length p0.
Proof. intros t. unfold line_point. apply padd_len. unfold pscale. rewrite map_length. symmetry. apply line_dir_len. Qed.
Lemma line_point_dist : forall a b, pnorm (psub (line_point p0 p1 b) (line_point p0 p1 a)) = Rabs (b - a).
Proof.
  intros a b. unfold line_point. rewrite psub_line by (rewrite line_dir_len; auto). rewrite pnorm_scale, line_dir_unit. ring.
Qed.
Lemma line_point_divides : forall t, divides p0 p1 (t / line_length p0 p1) (line_point p0 p1 t).
Proof.
  intros t. split; [apply line_point_len|]. intros k K. unfold line_point.
  rewrite nth_padd by (unfold pscale; rewrite map_length, line_dir_len; auto). rewrite nth_pscale. f_equal.
  change (line_dir p0 p1) with (pscale (/ line_length p0 p1) (psub p1 p0)). rewrite nth_pscale, nth_psub by auto.
  pose proof length_pos. field. lra.
Qed.
End Line.

Lemma nth_map_seq : forall A (f : nat -> A) n i d, (i < n)%nat -> nth i (map f (seq 0 n)) d = f i.
Proof. intros A f n i d H. rewrite nth_indep with (d' := f 0%nat) by (rewrite map_length, seq_length; auto). rewrite map_nth, seq_nth; auto. Qed.
Lemma linspace_len : forall a b n, List.length (linspace a b n) = n.
Proof. intros. unfold linspace. rewrite map_length, seq_length. auto. Qed.
Lemma adj_nth : forall (P : R -> R -> Prop) l i, adj P l -> (S i < List.length l)%nat -> P (nth i l 0) (nth (S i) l 0).
Proof.
  induction l as [|a [|b l] IH]; intros i A L; simpl in L; try lia. destruct A as [A1 A2]. destruct i; [exact A1|].
  change (P (nth i (b :: l) 0) (nth (S i) (b :: l) 0)). apply IH; auto. simpl. lia.
Qed.
Lemma adj_map_seq : forall (P : R -> R -> Prop) f n s, (forall i, P (f i) (f (S i))) -> adj P (map f (seq s n)).
Proof.
  intros P f. induction n as [|[|n] IH]; intros s H; [exact I|exact I|]. change (P (f s) (f (S s)) /\ adj P (map f (seq (S s) (S n)))).
  split; auto.
Qed.
Lemma linspace_adj : forall b n, 0 < b -> (2 <= n)%nat -> adj (fun x y => x < y /\ y - x <= b) (linspace 0 b n).
Proof.
  intros b n B N. apply adj_map_seq. intros i. rewrite S_INR. assert (H : 1 <= INR (n - 1)) by (apply (le_INR 1); lia).
  assert (E : 0 < (b - 0) / INR (n - 1)) by (apply Rdiv_lt_0_compat; lra).
  assert (F : (b - 0) / INR (n - 1) <= b).
  { apply (Rmult_le_reg_r (INR (n - 1))); [lra|]. unfold Rdiv. rewrite Rmult_assoc, Rinv_l by lra. nra. }
  split; lra.
Qed.
Lemma linspace_hd : forall a b n, (1 <= n)%nat -> hd 0 (linspace a b n) = a.
Proof. intros a b [|n] H; [lia|]. unfold linspace. simpl. ring. Qed.
Lemma last_map_seq : forall (f : nat -> R) n, last (map f (seq 0 (S n))) 0 = f n.
Proof. intros f n. rewrite seq_S, map_app. simpl. apply last_last. Qed.
Lemma linspace_last : forall b n, (2 <= n)%nat -> last (linspace 0 b n) 0 = b.
Proof.
  intros b [|n] H; [lia|]. unfold linspace. rewrite last_map_seq. replace (S n - 1)%nat with n by lia. field.
  apply not_0_INR. lia.
Qed.
Lemma set_n_point_min : forall n, (2 <= fst (set_n_point n))%nat.
Proof. intros n. unfold set_n_point. destruct (Z.leb_spec (match n with Some n => n | None => (-10)%Z end) 0); simpl fst; lia. Qed.

(** C201: a line probe with a positive number of points has that many points (at
    least two): they divide the segment from [p0] to [p1] evenly, the first is [p0],
    the last [p1], and the parameters are the distances from [p0]. *)
Theorem C201_line_fixed : forall ed hint fuel p0 p1 n, List.length p0 = List.length p1 -> p0 <> p1 -> (0 < n)%Z ->
  exists pars points, line_probe ed hint fuel p0 p1 (Some n) = Ok (pars, points) /\
  List.length pars = Z.to_nat (Z.max n 2) /\ List.length points = Z.to_nat (Z.max n 2) /\
  forall i, (i < Z.to_nat (Z.max n 2))%nat ->
    divides p0 p1 (INR i / INR (Z.to_nat (Z.max n 2) - 1)) (nth i points []) /\
    nth i pars 0 = dist p0 (nth i points []).
Proof.
  intros ed hint fuel p0 p1 n L D N. unfold line_probe, set_n_point. rewrite (proj2 (Z.leb_gt n 0)) by lia.
  set (m := Z.to_nat (Z.max n 2)). assert (M : (2 <= m)%nat) by (unfold m; lia).
  cbn [bind]. do 2 eexists. split; [reflexivity|]. rewrite map_length, linspace_len. split; auto. split; auto.
  intros i I. pose proof (length_pos L D) as P.
  rewrite nth_indep with (d' := line_point p0 p1 0) by (rewrite map_length, linspace_len; auto). rewrite map_nth.
  unfold linspace. rewrite nth_map_seq by auto. set (t := 0 + INR i * ((line_length p0 p1 - 0) / INR (m - 1))).
  assert (Q : 0 < INR (m - 1)) by (apply lt_0_INR; lia). split.
  - replace (INR i / INR (m - 1)) with (t / line_length p0 p1) by (unfold t; field; lra). now apply line_point_divides.
  - rewrite <- sumsq_dist by (rewrite line_point_len; auto).
    assert (T : 0 <= t). { unfold t. pose proof (pos_INR i). assert (0 < (line_length p0 p1 - 0) / INR (m - 1)) by (apply Rdiv_lt_0_compat; lra). nra. }
    replace p0 with (line_point p0 p1 0) at 2; [rewrite line_point_dist by auto; rewrite Rminus_0_r, Rabs_right; lra|].
    unfold line_point. apply nth_ext with (d := 0) (d' := 0).
    { apply padd_len. unfold pscale. rewrite map_length, line_dir_len; auto. }
    intros k K. rewrite nth_padd by (unfold pscale; rewrite map_length, line_dir_len; auto). rewrite nth_pscale. ring.
Qed.
Example C201_fixed_example : dist [0; 0] [3; 4] = 5 /\ [0; 0] <> [3; 4].
Proof.
  split. 2: { intros H. injection H. intros. lra. }
  unfold dist. simpl. replace ((3 - 0) * (3 - 0) + ((4 - 0) * (4 - 0) + 0)) with (Rsqr 5) by (unfold Rsqr; ring). rewrite sqrt_Rsqr_abs. apply Rabs_right; lra.
Qed.

(** ** Adaptive line probes *)
Definition at_line (p0 p1 : point) (pars : list R) (points : list point) : Prop :=
  List.length points = List.length pars /\ forall i, (i < List.length pars)%nat ->
  divides p0 p1 (nth i pars 0 / dist p0 p1) (nth i points []).

Lemma adaptive_init : forall n, (match n with Some n => n | None => (-10)%Z end <= 0)%Z ->
  set_n_point n = (Z.to_nat (Z.max (- match n with Some n => n | None => (-10)%Z end) 2), None).
Proof. intros n H. unfold set_n_point. rewrite (proj2 (Z.leb_le _ 0)) by auto. reflexivity. Qed.

(** C202: an adaptive line probe (no positive number of points) starts at [p0] and ends
    at [p1]; it contains the evenly spaced initial points; its parameters increase and
    are the distances from [p0]; the distance of neighbours is never larger than the
    size hint, or the mean diameter of the two elements containing them. *)
Theorem C202_line_adaptive : forall ed hint fuel p0 p1 n pars points, List.length p0 = List.length p1 -> p0 <> p1 ->
  (match n with Some n => n | None => (-10)%Z end <= 0)%Z ->
  line_probe ed hint fuel p0 p1 n = Ok (pars, points) ->
  at_line p0 p1 pars points /\ hd 0 pars = 0 /\ last pars 0 = dist p0 p1 /\
  (let m := Z.to_nat (Z.max (- match n with Some n => n | None => (-10)%Z end) 2) in
   forall i, (i < m)%nat -> In (INR i / INR (m - 1) * dist p0 p1) pars) /\
  (forall i, (S i < List.length pars)%nat ->
     nth i pars 0 < nth (S i) pars 0 /\
     dist (nth i points []) (nth (S i) points []) = nth (S i) pars 0 - nth i pars 0 /\
     dist (nth i points []) (nth (S i) points []) <= allowed ed hint (nth i points []) (nth (S i) points [])).
Proof.
  intros ed hint fuel p0 p1 n pars points L D N H. unfold line_probe in H. rewrite (adaptive_init n N) in H. cbv zeta.
  set (m := Z.to_nat (Z.max (- match n with Some n => n | None => (-10)%Z end) 2)) in *. assert (M : (2 <= m)%nat) by (unfold m; lia).
  pose proof (length_pos L D) as P.
  assert (LL : line_length p0 p1 = dist p0 p1) by (unfold line_length; now apply sumsq_dist).
  destruct (probe_loop ed hint fuel (line_point p0 p1) None (linspace 0 (line_length p0 p1) m)) as [out|] eqn:E; [|discriminate].
  cbn [bind] in H. injection H as <- <-.
  assert (NE : linspace 0 (line_length p0 p1) m <> []) by (intros X; apply (f_equal (@List.length R)) in X; rewrite linspace_len in X; simpl in X; lia).
  assert (C0 : closes hint (line_point p0 p1) None (linspace 0 (line_length p0 p1) m)) by (intros c Hc; discriminate).
  assert (A0 : increasing (closed None (linspace 0 (line_length p0 p1) m))).
  { apply adj_imp with (P := fun x y => x < y /\ y - x <= line_length p0 p1); [tauto|]. now apply linspace_adj. }
  destruct (@loop_result ed hint (line_point p0 p1) None fuel _ out NE C0 A0 E) as (R1 & R2 & R3 & R4 & R5 & R6).
  unfold closed in *. rewrite linspace_hd in R2 by lia. rewrite linspace_last in R3 by lia.
  assert (G : forall i, (i < List.length out)%nat -> nth i (map (line_point p0 p1) out) [] = line_point p0 p1 (nth i out 0)).
  { intros i I. rewrite nth_indep with (d' := line_point p0 p1 0) by (rewrite map_length; auto). apply map_nth. }
  split; [|split; [exact R2|split; [now rewrite <- LL|split]]].
  - split; [apply map_length|]. intros i I. rewrite G by auto. rewrite <- LL. now apply line_point_divides.
  - intros i I. apply R4. unfold linspace. apply in_map_iff. exists i. split; [|apply in_seq; lia].
    rewrite <- LL. field. apply not_0_INR. lia.
  - intros i I. pose proof (@adj_nth _ _ i R5 I) as A. pose proof (@adj_nth _ _ i R6 I) as B. simpl in B.
    rewrite !G by lia. rewrite <- sumsq_dist by (rewrite !line_point_len; auto).
    rewrite line_point_dist by auto. rewrite Rabs_right by lra. split; [exact A|]. split; [reflexivity|].
    unfold fl, too_far in B. apply Rltb_false in B. rewrite line_point_dist in B by auto. rewrite Rabs_right in B by lra.
    unfold allowed. destruct hint; lra.
Qed.

Lemma pow2_ge : forall k, INR k <= 2 ^ k.
Proof. induction k as [|k IH]; [simpl; lra|]. rewrite S_INR. simpl. assert (1 <= 2 ^ k) by (apply pow_R1_Rle; lra). lra. Qed.
Lemma halves : forall L h, 0 < L -> 0 < h -> exists k, L / 2 ^ k <= h.
Proof.
  intros L h HL Hh. destruct (archimed_cor1 (h / L)) as (k & K1 & K2); [apply Rdiv_lt_0_compat; lra|]. exists k.
  assert (K : INR k * h > L).
  { assert (0 < INR k) by (apply lt_0_INR; auto). apply (Rmult_lt_compat_l (INR k * L)) in K1; [|nra].
    replace (INR k * L * / INR k) with L in K1 by (field; lra). replace (INR k * L * (h / L)) with (INR k * h) in K1 by (field; lra). lra. } pose proof (pow2_ge k).
  assert (Q : 0 < 2 ^ k) by (apply pow_lt; lra). apply (Rmult_le_reg_r (2 ^ k)); auto.
  unfold Rdiv. rewrite Rmult_assoc, Rinv_l by lra. assert (T : INR k * h <= 2 ^ k * h) by (apply Rmult_le_compat_r; lra). lra.
Qed.

(** C202: the refinement ends if the size hint is positive or the element diameters
    are bounded from below by a positive number. *)
Theorem C202_line_ends : forall ed hint p0 p1 n h, List.length p0 = List.length p1 -> p0 <> p1 -> 0 < h ->
  (forall p q, h <= allowed ed hint p q) ->
  exists fuel r, line_probe ed hint fuel p0 p1 n = Ok r.
Proof.
  intros ed hint p0 p1 n h L D Hh A. pose proof (length_pos L D) as P.
  destruct (halves P Hh) as [k K]. exists (S k). unfold line_probe. pose proof (set_n_point_min n) as M.
  destruct (set_n_point n) as [m [q|]]; simpl in M; [eexists; reflexivity|].
  destruct (@loop_ends ed hint (line_point p0 p1) None h k (S k) (linspace 0 (line_length p0 p1) m) (line_length p0 p1)) as [out E].
  - intros a b ab ba. unfold fl, too_far. apply Rltb_false. rewrite line_point_dist by auto. rewrite Rabs_right by lra.
    specialize (A (line_point p0 p1 a) (line_point p0 p1 b)). unfold allowed in A. destruct hint; lra.
  - intros X; apply (f_equal (@List.length R)) in X; rewrite linspace_len in X; simpl in X; lia.
  - intros c Hc. discriminate.
  - unfold closed. apply adj_imp with (P := fun x y => x < y /\ y - x <= line_length p0 p1); [tauto|]. now apply linspace_adj.
  - exact K.
  - lia.
  - rewrite E. eexists; reflexivity.
Qed.
(** A constant diameter of 1 satisfies the hypotheses. *)
Example C202_ends_example : exists fuel r, line_probe (fun _ => 1) None fuel [0; 0] [3; 4] None = Ok r.
Proof.
  apply C202_line_ends with (h := 1); [reflexivity| |lra|].
  - intros H. injection H. intros. lra.
  - intros p q. unfold allowed. lra.
Qed.

Print Assumptions C201_line_fixed.
Print Assumptions C202_line_adaptive.
Print Assumptions C202_line_ends.
