(** C114: the global LCBC operator. *)
From Coq Require Import Reals Lra.
From Verif Require Import Base M_nls M_lagnodes M_lagrange P_lagnodes L_lagrange M_lcbc.
Set Implicit Arguments.
Open Scope nat_scope.

(** ** Specification *)
Definition rhs_at (op : lcop) (k : nat) : R := match op_rhs op with None => 0%R | Some r => nth k r 0%R end.
(** The full vector u of active DOFs satisfies the constraint of the operator: model reduction: the constrained DOFs are
    mtx @ q + rhs for some new DOFs q; otherwise they are mtx @ (the DOFs of the other variable) + rhs *)
Definition satisfies (ns : list nat) (op : lcop) (u : nat -> R) : Prop :=
  match op_cvar op with
  | None => exists q : nat -> R, forall k, k < length (op_ameq op) -> u (start ns (op_var op) + nth k (op_ameq op) 0)%nat = (mulv (op_mtx op) q k + rhs_at op k)%R
  | Some cv => forall k, k < length (op_ameq op) -> u (start ns (op_var op) + nth k (op_ameq op) 0)%nat = (mulv (op_mtx op) (fun c => u (start ns cv + c)%nat) (nth k (op_ameq op) 0%nat) + rhs_at op k)%R
  end.
(** What the constructors of the operators provide; the independent DOFs of ties are not constrained by other operators *)
Definition wf_op (ns : list nat) (ops : list lcop) (op : lcop) : Prop :=
  op_var op < length ns /\ NoDup (op_ameq op) /\ (forall e, In e (op_ameq op) -> e < nth (op_var op) ns 0) /\ op_nm op = length (op_ameq op) /\
  (forall r, op_rhs op = Some r -> length r = length (op_ameq op)) /\
  match op_cvar op with
  | None => forall r c x, In (r, c, x) (op_mtx op) -> r < length (op_ameq op) /\ c < op_new op
  | Some cv => op_new op = 0 /\ cv < length ns /\ forall r c x, In (r, c, x) (op_mtx op) -> In r (op_ameq op) /\ c < nth cv ns 0 /\ forall op2, In op2 ops -> op_var op2 = cv -> ~ In c (op_ameq op2)
  end.

(** ** Lemmas *)
Lemma mulv_app : forall M N v i, mulv (M ++ N) v i = (mulv M v i + mulv N v i)%R.
Proof. intros. unfold mulv. change (fold_right Rplus 0%R) with lsum. rewrite map_app, lsum_app. auto. Qed.
Lemma mulv_zero : forall M v i, (forall r c x, In (r, c, x) M -> r <> i) -> mulv M v i = 0%R.
Proof.
  intros M v i H. unfold mulv. induction M as [|[[r c] x] M IH]; auto. cbn [map fold_right fst snd]. rewrite IH by (intros; eapply H; right; eauto). destruct (r =? i) eqn:E; [apply Nat.eqb_eq in E; exfalso; apply (H r c x); [left; auto|auto]|lra].
Qed.
Lemma mulv_reindex : forall (f g : nat -> nat) M v i k, (forall r c x, In (r, c, x) M -> (f r = i <-> r = k)) -> mulv (map (fun t => (f (fst (fst t)), g (snd (fst t)), snd t)) M) v i = mulv M (fun c => v (g c)) k.
Proof.
  intros f g M v i k H. unfold mulv. induction M as [|[[r c] x] M IH]; auto. cbn [map fold_right fst snd]. rewrite IH by (intros; eapply H; right; eauto). f_equal. specialize (H r c x (or_introl eq_refl)). destruct (f r =? i) eqn:E, (r =? k) eqn:F; auto; [apply Nat.eqb_eq in E; apply Nat.eqb_neq in F; tauto|apply Nat.eqb_neq in E; apply Nat.eqb_eq in F; tauto].
Qed.
Lemma mulv_ext : forall M v w i, (forall r c x, In (r, c, x) M -> r = i -> v c = w c) -> mulv M v i = mulv M w i.
Proof.
  intros M v w i H. unfold mulv. induction M as [|[[r c] x] M IH]; auto. cbn [map fold_right fst snd]. rewrite IH by (intros; eapply H; [right|]; eauto). f_equal. destruct (r =? i) eqn:E; auto. apply Nat.eqb_eq in E. rewrite (H r c x); auto. left; auto.
Qed.
Lemma start_S : forall ns v, v < length ns -> start ns (S v) = start ns v + nth v ns 0.
Proof.
  intros ns. unfold start. induction ns as [|n ns IH]; intros v V; [cbn in V; lia|]. destruct v; [cbn; lia|]. change (firstn (S (S v)) (n :: ns)) with (n :: firstn (S v) ns). change (firstn (S v) (n :: ns)) with (n :: firstn v ns). change (list_sum (n :: firstn (S v) ns)) with (n + list_sum (firstn (S v) ns)). change (list_sum (n :: firstn v ns)) with (n + list_sum (firstn v ns)).
  rewrite IH by (cbn in V; lia). cbn [nth]. lia.
Qed.
Lemma start_mono : forall ns v w, v < w -> w <= length ns -> start ns v + nth v ns 0 <= start ns w.
Proof. intros ns v w V W. induction V as [|w V IH]; [rewrite start_S; lia|]. rewrite start_S by lia. specialize (IH ltac:(lia)). lia. Qed.
Lemma start_all : forall ns, start ns (length ns) = list_sum ns.
Proof. intros. unfold start. rewrite firstn_all. auto. Qed.
Lemma start_inj : forall ns v w e f, v < length ns -> w < length ns -> e < nth v ns 0 -> f < nth w ns 0 -> start ns v + e = start ns w + f -> v = w /\ e = f.
Proof.
  intros ns v w e f V W E F H. destruct (Nat.lt_trichotomy v w) as [L|[L|L]]; [assert (X := start_mono ns L ltac:(lia)); lia|subst; split; auto; lia|assert (X := start_mono ns L ltac:(lia)); lia].
Qed.
Lemma start_cover : forall ns i, i < list_sum ns -> exists v e, v < length ns /\ e < nth v ns 0 /\ i = start ns v + e.
Proof.
  induction ns as [|n ns IH]; intros i I; [cbn in I; lia|]. change (list_sum (n :: ns)) with (n + list_sum ns) in I. destruct (Nat.lt_ge_cases i n) as [H|H].
  - exists 0, i. split; [cbn; lia|]. split; auto.
  - destruct (IH (i - n) ltac:(lia)) as (v & e & V & E & EQ). exists (S v), e. split; [cbn; lia|]. split; [auto|]. unfold start in *. change (firstn (S v) (n :: ns)) with (n :: firstn v ns). change (list_sum (n :: firstn v ns)) with (n + list_sum (firstn v ns)). lia.
Qed.
(** counting *)
Lemma count_filter : forall (A : list nat) (f : nat -> bool) n, (forall e, In e A -> e < n) -> (forall e, e < n -> (f e = false <-> In e A)) -> length (filter f (seq 0 n)) + length (nodup Nat.eq_dec A) = n.
Proof.
  intros A f n B F. assert (L : length (nodup Nat.eq_dec A) = length (filter (fun e => negb (f e)) (seq 0 n))).
  { apply Nat.le_antisymm; apply NoDup_incl_length; try apply NoDup_nodup; try (apply NoDup_filter, seq_NoDup).
    - intros e I. apply nodup_In in I. apply filter_In. split; [apply in_seq; specialize (B e I); lia|]. specialize (B e I). apply F in I; auto. rewrite I. auto.
    - intros e I. apply filter_In in I. destruct I as [I E]. apply in_seq in I. apply nodup_In. apply F; [lia|]. destruct (f e); auto; discriminate. }
  rewrite L. clear. rewrite <- (seq_length n 0) at 3. generalize (seq 0 n). induction l as [|x l IH]; auto. cbn [filter length]. destruct (f x); cbn [negb filter length]; lia.
Qed.
Lemma nodup_le : forall (A : list nat), length (nodup Nat.eq_dec A) <= length A.
Proof. induction A as [|x A IH]; auto. cbn [nodup length]. destruct (in_dec Nat.eq_dec x A); cbn [length]; lia. Qed.
Lemma nodup_len_NoDup : forall (A : list nat), length (nodup Nat.eq_dec A) = length A -> NoDup A.
Proof. intros A H. apply (@NoDup_incl_NoDup nat (nodup Nat.eq_dec A)); [apply NoDup_nodup|lia|]. intros x I. apply nodup_In in I. auto. Qed.
Lemma filter_flat : forall A B (f : B -> bool) (g : A -> list B) l, filter f (flat_map g l) = flat_map (fun a => filter f (g a)) l.
Proof. intros. induction l; cbn [flat_map]; auto. rewrite filter_app, IHl. auto. Qed.
Lemma seq_starts : forall ns, seq 0 (list_sum ns) = flat_map (fun v => map (fun e => start ns v + e) (seq 0 (nth v ns 0))) (seq 0 (length ns)).
Proof.
  intros ns. assert (G : forall k, k <= length ns -> seq 0 (start ns k) = flat_map (fun v => map (fun e => start ns v + e) (seq 0 (nth v ns 0))) (seq 0 k)).
  { induction k as [|k IH]; intros K; [reflexivity|]. rewrite start_S by lia. rewrite seq_app, IH by lia. rewrite (seq_S k 0), flat_map_app. f_equal. cbn [flat_map plus]. rewrite app_nil_r. rewrite <- (Nat.add_0_r (start ns k)) at 1. generalize (nth k ns 0). intros m. generalize 0. induction m as [|m IHm]; intros b; auto. cbn [seq map]. f_equal. rewrite <- IHm. f_equal. lia. }
  rewrite <- start_all. apply G. auto.
Qed.
Lemma map_filter_comm : forall A B (f : B -> bool) (g : A -> B) l, filter f (map g l) = map g (filter (fun a => f (g a)) l).
Proof. intros. induction l; cbn [map filter]; auto. destruct (f (g a)); cbn [map]; rewrite IHl; auto. Qed.
Lemma list_sum_flat : forall A B (g : A -> list B) l, length (flat_map g l) = list_sum (map (fun a => length (g a)) l).
Proof. intros. induction l; auto. cbn [flat_map map]. rewrite app_length, IHl. auto. Qed.
Lemma list_sum_eq : forall A (f g : A -> nat) l, (forall a, In a l -> g a <= f a) -> list_sum (map f l) = list_sum (map g l) -> forall a, In a l -> f a = g a.
Proof.
  intros A f g l. induction l as [|x l IH]; intros H E a I; [destruct I|]. cbn [map] in E. change (list_sum (f x :: map f l)) with (f x + list_sum (map f l)) in E. change (list_sum (g x :: map g l)) with (g x + list_sum (map g l)) in E.
  assert (LE : list_sum (map g l) <= list_sum (map f l)). { clear - H. induction l as [|y l IH]; auto. cbn [map]. change (list_sum (f y :: map f l)) with (f y + list_sum (map f l)). change (list_sum (g y :: map g l)) with (g y + list_sum (map g l)). assert (g y <= f y) by (apply H; right; left; auto). specialize (IH (fun a I => H a (match I with or_introl e => or_introl e | or_intror i => or_intror (or_intror i) end))). lia. }
  assert (g x <= f x) by (apply H; left; auto). destruct I as [<-|I]; [lia|]. apply IH; auto; [intros; apply H; right; auto|lia].
Qed.
Section glob.
Variable ns : list nat.
Variable ops : list lcop.
Hypothesis WF : forall op, In op ops -> wf_op ns ops op.
Definition masters (v : nat) : list nat := concat (map op_ameq (of_var ops v)).
Lemma masters_in : forall v e, In e (masters v) <-> exists op, In op ops /\ op_var op = v /\ In e (op_ameq op).
Proof.
  intros v e. unfold masters. rewrite in_concat. split.
  - intros (l & L & I). apply in_map_iff in L. destruct L as (op & <- & O). apply filter_In in O. destruct O as [O V]. apply Nat.eqb_eq in V. exists op. auto.
  - intros (op & O & V & I). exists (op_ameq op). split; auto. apply in_map_iff. exists op. split; auto. apply filter_In. split; auto. apply Nat.eqb_eq. auto.
Qed.
Lemma masters_bound : forall v e, In e (masters v) -> e < nth v ns 0.
Proof. intros v e I. apply masters_in in I. destruct I as (op & O & <- & I). destruct (WF _ O) as (_ & _ & B & _). auto. Qed.
Lemma masters_len : forall v, length (masters v) = n_master ops v.
Proof.
  intros v. unfold masters, n_master. assert (H : forall op, In op (of_var ops v) -> op_nm op = length (op_ameq op)) by (intros op O; apply filter_In in O; destruct O as [O _]; apply WF in O; apply O).
  revert H. generalize (of_var ops v). induction l as [|op l IH]; intros H; auto. cbn [map concat]. rewrite app_length, IH by (intros; apply H; right; auto). rewrite <- H by (left; auto). auto.
Qed.
Lemma mask_in : forall v e, v < length ns -> e < nth v ns 0 -> (mask ns ops (start ns v + e) = false <-> In e (masters v)).
Proof.
  intros v e V E. unfold mask. rewrite negb_false_iff. rewrite existsb_exists. rewrite masters_in. split.
  - intros (op & O & X). apply existsb_exists in X. destruct X as (i & I & X). apply Nat.eqb_eq in X. subst i. unfold irs in I. apply in_map_iff in I. destruct I as (f & F & I). destruct (WF _ O) as (VO & _ & B & _). destruct (start_inj ns VO V (B _ I) E F) as [<- <-]. exists op. auto.
  - intros (op & O & <- & I). exists op. split; auto. apply existsb_exists. exists (start ns (op_var op) + e). split; [|apply Nat.eqb_refl]. unfold irs. apply in_map_iff. exists e. auto.
Qed.
Lemma unmasked_len : forall v, v < length ns -> length (unmasked ns ops v) + length (nodup Nat.eq_dec (masters v)) = nth v ns 0.
Proof. intros v V. unfold unmasked. apply count_filter; [apply masters_bound|]. intros e E. apply mask_in; auto. Qed.
Lemma ir_eq : filter (mask ns ops) (seq 0 (list_sum ns)) = flat_map (fun v => map (fun e => start ns v + e) (unmasked ns ops v)) (seq 0 (length ns)).
Proof. rewrite seq_starts, filter_flat. apply flat_map_ext. intros v. rewrite map_filter_comm. auto. Qed.
Lemma ok_counts : forall r, make_global ns ops = Ok r -> forall v, v < length ns -> NoDup (masters v) /\ length (unmasked ns ops v) = n_free ns ops v.
Proof.
  intros r OK v V. unfold make_global in OK. destruct (existsb _ _) eqn:X; [discriminate|]. destruct (negb _) eqn:Y; [discriminate|]. clear OK. apply negb_false_iff, Nat.eqb_eq in Y. rewrite ir_eq in Y. rewrite !list_sum_flat in Y.
  rewrite (map_ext (fun a => length (map (fun e => start ns a + e) (unmasked ns ops a))) (fun a => length (unmasked ns ops a))) in Y by (intros; apply map_length). rewrite (map_ext (fun a => length (map (fun i => start (actives ns ops) a + i) (seq 0 (n_free ns ops a)))) (n_free ns ops)) in Y by (intros; rewrite map_length, seq_length; auto).
  assert (NM : forall w, w < length ns -> n_master ops w <= nth w ns 0). { intros w W. destruct (Nat.le_gt_cases (n_master ops w) (nth w ns 0)) as [H|H]; auto. exfalso. assert (T : existsb (fun v0 => nth v0 ns 0 <? n_master ops v0) (seq 0 (length ns)) = true); [|congruence]. apply existsb_exists. exists w. split; [apply in_seq; lia|]. apply Nat.ltb_lt. auto. }
  assert (LE : forall w, In w (seq 0 (length ns)) -> n_free ns ops w <= length (unmasked ns ops w)). { intros w W. apply in_seq in W. assert (L := unmasked_len (v := w) ltac:(lia)). assert (N := nodup_le (masters w)). rewrite masters_len in N. unfold n_free. specialize (NM w ltac:(lia)). lia. }
  assert (EQ := list_sum_eq _ _ _ LE Y v ltac:(apply in_seq; lia)). split; auto. apply nodup_len_NoDup. assert (L := unmasked_len V). unfold n_free in EQ. rewrite masters_len. specialize (NM v V). lia.
Qed.
(** position of an unmasked DOF *)
Lemma filter_seq_lt : forall (f : nat -> bool) n e, e <= n -> filter (fun y => y <? e) (filter f (seq 0 n)) = filter f (seq 0 e).
Proof.
  intros f n e E. replace n with (e + (n - e)) by lia. rewrite seq_app, !filter_app. cbn [plus]. replace (filter (fun y => y <? e) (filter f (seq e (n - e)))) with (@nil nat).
  - rewrite app_nil_r. assert (G : forall l, (forall y, In y l -> y < e) -> filter (fun y => y <? e) l = l). { induction l as [|y l IH]; intros H; auto. cbn [filter]. replace (y <? e) with true by (symmetry; apply Nat.ltb_lt; apply H; left; auto). f_equal. apply IH. intros; apply H; right; auto. } apply G. intros y Y. apply filter_In in Y. destruct Y as [Y _]. apply in_seq in Y. lia.
  - symmetry. assert (G : forall l, (forall y, In y l -> e <= y) -> filter (fun y => y <? e) l = []). { induction l as [|y l IH]; intros H; auto. cbn [filter]. replace (y <? e) with false by (symmetry; apply Nat.ltb_ge; apply H; left; auto). apply IH. intros; apply H; right; auto. } apply G. intros y Y. apply filter_In in Y. destruct Y as [Y _]. apply in_seq in Y. lia.
Qed.
Lemma search_nth : forall (f : nat -> bool) n e, e < n -> f e = true -> searchsorted (filter f (seq 0 n)) e < length (filter f (seq 0 n)) /\ nth (searchsorted (filter f (seq 0 n)) e) (filter f (seq 0 n)) 0 = e.
Proof.
  intros f n e E F. unfold searchsorted. rewrite filter_seq_lt by lia. replace n with (e + S (n - e - 1)) by lia. rewrite seq_app, filter_app. cbn [seq filter plus]. rewrite F. rewrite app_length, app_nth2 by lia. rewrite Nat.sub_diag. cbn [length nth]. split; auto. lia.
Qed.
(** the copied DOFs *)
Lemma flat_combine : forall A B C (f : A -> list B) (g : A -> list C) l, (forall a, In a l -> length (f a) = length (g a)) -> combine (flat_map f l) (flat_map g l) = flat_map (fun a => combine (f a) (g a)) l.
Proof.
  intros A B C f g l. induction l as [|a l IH]; intros H; auto. cbn [flat_map]. rewrite <- IH by (intros; apply H; right; auto). assert (L := H a (or_introl eq_refl)). revert L. generalize (f a) (g a). induction l0 as [|x l0 IH0]; intros [|y l1] L; try discriminate; auto. cbn. f_equal. apply IH0. auto.
Qed.
Lemma mulv_flat : forall A (f : A -> list triple) l v i, mulv (flat_map f l) v i = lsum (map (fun a => mulv (f a) v i) l).
Proof. intros. induction l; auto. cbn [flat_map map]. rewrite mulv_app, IHl. auto. Qed.
Lemma lsum_one : forall A (f : A -> R) l1 a l2, (forall b, In b l1 \/ In b l2 -> f b = 0%R) -> lsum (map f (l1 ++ a :: l2)) = f a.
Proof.
  intros A f l1 a l2 H. rewrite map_app, lsum_app. cbn [map]. rewrite lsum_cons. assert (Z : forall l, (forall b, In b l -> f b = 0%R) -> lsum (map f l) = 0%R). { induction l as [|b l IH]; intros G; auto. cbn [map]. rewrite lsum_cons, G by (left; auto). rewrite IH by (intros; apply G; right; auto). lra. }
  rewrite (Z l1), (Z l2) by auto. lra.
Qed.
Lemma mulv_pos : forall ks (h : nat -> nat) v, NoDup ks -> forall j, j < length ks -> mulv (map (fun p => (fst p, snd p, 1%R)) (combine ks (map h (seq 0 (length ks))))) v (nth j ks 0) = v (h j).
Proof.
  intros ks h v ND j J.
  assert (E : combine ks (map h (seq 0 (length ks))) = map (fun i => (nth i ks 0, h i)) (seq 0 (length ks))).
  { apply nth_ext with (d := (0, h 0)) (d' := (0, h 0)); [rewrite combine_length, !map_length, seq_length; lia|]. intros i I. rewrite combine_length, map_length, seq_length in I. rewrite combine_nth by (rewrite map_length, seq_length; auto). rewrite !nth_map_in with (da := 0) by (rewrite seq_length; lia). rewrite seq_nth by lia. auto. }
  rewrite E, map_map. cbn [fst snd]. unfold mulv. change (fold_right Rplus 0%R) with lsum. rewrite map_map. cbn [fst snd].
  replace (seq 0 (length ks)) with (seq 0 j ++ j :: seq (S j) (length ks - S j)). 2:{ replace (length ks) with (j + S (length ks - S j)) at 2 by lia. rewrite seq_app. auto. }
  rewrite (lsum_one (fun i => if nth i ks 0 =? nth j ks 0 then (1 * v (h i))%R else 0%R)).
  - rewrite Nat.eqb_refl. lra.
  - intros i I. rewrite !in_seq in I. destruct (nth i ks 0 =? nth j ks 0) eqn:X; auto. apply Nat.eqb_eq in X. rewrite NoDup_nth in ND. apply ND in X; lia.
Qed.

Lemma flat_nth : forall A B (g : A -> list B) l1 a l2 c d, c < length (g a) -> nth (list_sum (map (fun x => length (g x)) l1) + c) (flat_map g (l1 ++ a :: l2)) d = nth c (g a) d.
Proof.
  intros A B g l1 a l2 c d C. rewrite flat_map_app, app_nth2 by (rewrite list_sum_flat; lia). rewrite list_sum_flat. replace (_ + c - _) with c by lia. cbn [flat_map]. rewrite app_nth1 by auto. auto.
Qed.
(** the operators share no DOFs *)
Lemma nodup_concat : forall A (p : A -> bool) (f : A -> list nat) l1 a l2 b e, NoDup (concat (map f (filter p (l1 ++ a :: l2)))) -> p a = true -> p b = true -> In b l1 \/ In b l2 -> In e (f a) -> In e (f b) -> False.
Proof.
  intros A p f l1 a l2 b e ND PA PB I EA EB. rewrite filter_app in ND. cbn [filter] in ND. rewrite PA in ND. rewrite map_app, concat_app in ND. cbn [map concat] in ND.
  assert (G : forall (X Y : list nat), NoDup (X ++ Y) -> forall x, In x X -> In x Y -> False). { induction X as [|x X IH]; intros Y N y YX YY; [destruct YX|]. cbn in N. inversion N; subst. destruct YX as [<-|YX]; [apply H1; apply in_or_app; auto|eapply IH; eauto]. }
  destruct I as [I|I].
  - apply (G _ _ ND e); [|apply in_or_app; left; auto]. apply in_concat. exists (f b). split; auto. apply in_map. apply filter_In. auto.
  - assert (N2 : NoDup (f a ++ concat (map f (filter p l2)))). { clear - ND. induction (concat (map f (filter p l1))) as [|x X IH]; auto. cbn in ND. inversion ND; auto. }
    apply (G _ _ N2 e); auto. apply in_concat. exists (f b). split; auto. apply in_map. apply filter_In. auto.
Qed.
Lemma op_row : forall ii op r c x, In op ops -> In (r, c, x) (op_entries ns ops ii op) -> exists e, In e (op_ameq op) /\ r = start ns (op_var op) + e.
Proof.
  intros ii op r c x O I. destruct (WF _ O) as (_ & _ & _ & _ & _ & W). unfold op_entries in I. destruct (op_cvar op) as [cv|]; apply in_map_iff in I; destruct I as ([[r0 c0] x0] & E & I); cbn [fst snd] in E; injection E as <- _ _.
  - destruct W as (_ & _ & W). destruct (W _ _ _ I) as (M & _). eauto.
  - destruct (W _ _ _ I) as (M & _). exists (nth r0 (op_ameq op) 0). split; [apply nth_In; auto|]. unfold irs. rewrite nth_map_in with (da := 0) by auto. auto.
Qed.
Definition M1 := flat_map (fun p => op_entries ns ops (fst p) (snd p)) (enum ops).
Definition M2 := map (fun p : nat * nat => (fst p, snd p, 1%R)) (combine (filter (mask ns ops) (seq 0 (list_sum ns))) (flat_map (fun v => map (fun i => start (actives ns ops) v + i) (seq 0 (n_free ns ops v))) (seq 0 (length ns)))).
Lemma M1_row : forall r c x, In (r, c, x) M1 -> exists op e, In op ops /\ In e (op_ameq op) /\ r = start ns (op_var op) + e.
Proof.
  intros r c x I. apply in_flat_map in I. destruct I as ([ii op] & P & I). cbn [fst snd] in I. apply in_combine_r in P. destruct (@op_row _ _ _ _ _ P I) as (e & E & R0). eauto.
Qed.
Lemma M1_free : forall w v e, v < length ns -> e < nth v ns 0 -> ~ In e (masters v) -> mulv M1 w (start ns v + e) = 0%R.
Proof.
  intros w v e V E N. apply mulv_zero. intros r c x I H. apply M1_row in I. destruct I as (op & f & O & F & ->). destruct (WF _ O) as (VO & _ & B & _). destruct (start_inj ns VO V (B _ F) E H) as [<- <-]. apply N. apply masters_in. exists op. auto.
Qed.
Hypothesis ND : forall v, v < length ns -> NoDup (masters v) /\ length (unmasked ns ops v) = n_free ns ops v.
Lemma M2_eq : M2 = flat_map (fun v => map (fun p : nat * nat => (fst p, snd p, 1%R)) (combine (map (fun e => start ns v + e) (unmasked ns ops v)) (map (fun i => start (actives ns ops) v + i) (seq 0 (n_free ns ops v))))) (seq 0 (length ns)).
Proof.
  unfold M2. rewrite ir_eq. rewrite flat_combine. 2:{ intros v V. apply in_seq in V. rewrite !map_length, seq_length. apply ND. lia. }
  generalize (seq 0 (length ns)). induction l as [|v l IH]; auto. cbn [flat_map]. rewrite map_app, IH. auto.
Qed.
Lemma M2_free : forall w v e, v < length ns -> e < nth v ns 0 -> ~ In e (masters v) -> mulv M2 w (start ns v + e) = w (start (actives ns ops) v + searchsorted (unmasked ns ops v) e).
Proof.
  intros w v e V E N. rewrite M2_eq, mulv_flat. replace (seq 0 (length ns)) with (seq 0 v ++ v :: seq (S v) (length ns - S v)). 2:{ replace (length ns) with (v + S (length ns - S v)) at 2 by lia. rewrite seq_app. auto. }
  rewrite (lsum_one (fun a => mulv (map (fun p : nat * nat => (fst p, snd p, 1%R)) (combine (map (fun e => start ns a + e) (unmasked ns ops a)) (map (fun i => start (actives ns ops) a + i) (seq 0 (n_free ns ops a))))) w (start ns v + e))).
  - assert (MK : mask ns ops (start ns v + e) = true). { destruct (mask ns ops (start ns v + e)) eqn:X; auto. apply mask_in in X; auto; tauto. }
    destruct (search_nth (fun e => mask ns ops (start ns v + e)) E MK) as [L NT]. fold (unmasked ns ops v) in L, NT. destruct (ND V) as [_ LE]. rewrite <- LE. set (um := unmasked ns ops v) in *. set (k := searchsorted um e) in *.
    replace (start ns v + e) with (nth k (map (fun e => start ns v + e) um) 0) by (rewrite nth_map_in with (da := 0) by auto; rewrite NT; auto).
    replace (length um) with (length (map (fun e => start ns v + e) um)) by apply map_length. rewrite (@mulv_pos (map (fun e => start ns v + e) um) (fun i => start (actives ns ops) v + i)); auto; [|rewrite map_length; auto].
    apply FinFun.Injective_map_NoDup; [intros a b; lia|]. apply NoDup_filter, seq_NoDup.
  - intros a A. rewrite !in_seq in A. apply mulv_zero. intros r c x I H. subst r. apply in_map_iff in I. destruct I as ([r' c'] & X & I). cbn in X. injection X as -> -> _. apply in_combine_l in I. apply in_map_iff in I. destruct I as (f & F & I). apply filter_In in I. destruct I as [I _]. apply in_seq in I. destruct (@start_inj ns a v f e) as [-> _]; try lia.
Qed.
Lemma M2_master : forall w v e, v < length ns -> e < nth v ns 0 -> In e (masters v) -> mulv M2 w (start ns v + e) = 0%R.
Proof.
  intros w v e V E N. apply mulv_zero. intros r c x I H. subst r. unfold M2 in I. apply in_map_iff in I. destruct I as ([r' c'] & X & I). cbn in X. injection X as -> -> _. apply in_combine_l in I. apply filter_In in I. destruct I as [_ I]. apply mask_in in N; auto. congruence.
Qed.
Lemma enum_split : forall A (l1 : list A) a l2, enum (l1 ++ a :: l2) = combine (seq 0 (length l1)) l1 ++ (length l1, a) :: combine (seq (S (length l1)) (length l2)) l2.
Proof.
  intros. unfold enum. rewrite app_length. cbn [length]. rewrite seq_app. cbn [seq plus].
  assert (G : forall (l : list A) b r1 r2, combine (seq b (length l) ++ r1) (l ++ r2) = combine (seq b (length l)) l ++ combine r1 r2) by (induction l as [|x l IH]; intros; auto; cbn; rewrite IH; auto).
  rewrite G. auto.
Qed.
Lemma M1_master : forall w l1 op l2 e, ops = l1 ++ op :: l2 -> In e (op_ameq op) -> mulv M1 w (start ns (op_var op) + e) = mulv (op_entries ns ops (length l1) op) w (start ns (op_var op) + e).
Proof.
  intros w l1 op l2 e EQ E. assert (O : In op ops) by (rewrite EQ; apply in_or_app; right; left; auto). destruct (WF _ O) as (VO & _ & B & _). unfold M1. replace (enum ops) with (enum (l1 ++ op :: l2)) by (rewrite <- EQ; auto). rewrite enum_split, mulv_flat.
  rewrite (lsum_one (fun a => mulv (op_entries ns ops (fst a) (snd a)) w (start ns (op_var op) + e))); auto. intros [jj op'] I. cbn [fst snd]. assert (I' : In op' l1 \/ In op' l2) by (destruct I as [I|I]; apply in_combine_r in I; auto).
  assert (O' : In op' ops) by (rewrite EQ; apply in_or_app; destruct I'; [left|right; right]; auto). destruct (WF _ O') as (VO' & _ & B' & _).
  apply mulv_zero. intros r c x J H. destruct (@op_row _ _ _ _ _ O' J) as (f & F & R1). rewrite R1 in H. destruct (start_inj ns VO' VO (B' _ F) (B _ E) H) as [EV <-]. destruct (ND VO) as [N _]. unfold masters, of_var in N. rewrite EQ in N.
  apply (@nodup_concat _ _ _ _ _ _ op' (f) N); auto; apply Nat.eqb_eq; auto.
Qed.
Lemma row_master : forall w l1 op l2 k, ops = l1 ++ op :: l2 -> k < length (op_ameq op) ->
  mulv M1 w (start ns (op_var op) + nth k (op_ameq op) 0) =
  match op_cvar op with
  | None => mulv (op_mtx op) (fun c => w (new_start ns ops (length l1) op + c)) k
  | Some cv => mulv (op_mtx op) (fun c => w (start (actives ns ops) cv + searchsorted (unmasked ns ops cv) c)) (nth k (op_ameq op) 0)
  end.
Proof.
  intros w l1 op l2 k EQ K. rewrite (@M1_master _ _ _ _ _ EQ) by (apply nth_In; auto). assert (O : In op ops) by (rewrite EQ; apply in_or_app; right; left; auto). destruct (WF _ O) as (VO & N & B & _ & _ & W). unfold op_entries. destruct (op_cvar op) as [cv|].
  - apply (mulv_reindex (fun r => start ns (op_var op) + r) (fun c => start (actives ns ops) cv + searchsorted (unmasked ns ops cv) c)). intros; lia.
  - apply (mulv_reindex (fun r => nth r (irs ns op) 0) (fun c => new_start ns ops (length l1) op + c)). intros r c x I. destruct (W _ _ _ I) as [R _]. unfold irs. rewrite nth_map_in with (da := 0) by auto. split; [|intros ->; auto]. intros H. assert (H' : nth r (op_ameq op) 0 = nth k (op_ameq op) 0) by lia. rewrite NoDup_nth in N. apply N in H'; auto.
Qed.
(** the right-hand side *)
Lemma add_rhs_other : forall f op i, ~ In i (irs ns op) -> add_rhs ns f op i = f i.
Proof.
  intros f op i N. unfold add_rhs. destruct (op_rhs op) as [r|]; auto. set (h := f). unfold h at 2. assert (G : forall is rs g, ~ In i is -> fold_left (fun f p => upd_at f (fst p) (h (fst p) + snd p)%R) (combine is rs) g i = g i).
  { induction is as [|j is IH]; intros rs g J; [auto|]. destruct rs as [|y rs]; auto. cbn [combine fold_left fst snd]. rewrite IH by (intros X; apply J; right; auto). unfold upd_at. destruct (i =? j) eqn:E; auto. apply Nat.eqb_eq in E. subst. exfalso. apply J. left; auto. }
  apply G. auto.
Qed.
Lemma add_rhs_own : forall f op k, In op ops -> k < length (op_ameq op) -> add_rhs ns f op (start ns (op_var op) + nth k (op_ameq op) 0) = (f (start ns (op_var op) + nth k (op_ameq op) 0)%nat + rhs_at op k)%R.
Proof.
  intros f op k O K. destruct (WF _ O) as (VO & N & B & _ & LR & _). unfold add_rhs, rhs_at. destruct (op_rhs op) as [r|]; [|lra]. specialize (LR r eq_refl).
  assert (NI : NoDup (irs ns op)) by (apply FinFun.Injective_map_NoDup; auto; intros a b; lia). replace (start ns (op_var op) + nth k (op_ameq op) 0) with (nth k (irs ns op) 0) by (unfold irs; rewrite nth_map_in with (da := 0) by auto; auto).
  set (h := f). assert (LI : length r = length (irs ns op)) by (unfold irs; rewrite map_length; auto). assert (KI : k < length (irs ns op)) by (unfold irs; rewrite map_length; auto). clearbody h. clear f. revert NI LI KI. generalize (irs ns op) r. clear.
  assert (S0 : forall i is rs g, ~ In i is -> fold_left (fun f p => upd_at f (fst p) (h (fst p) + snd p)%R) (combine is rs) g i = g i).
  { intros i. induction is as [|j is IH]; intros rs g J; [auto|]. destruct rs as [|y rs]; auto. cbn [combine fold_left fst snd]. rewrite IH by (intros X; apply J; right; auto). unfold upd_at. destruct (i =? j) eqn:E; auto. apply Nat.eqb_eq in E. subst. exfalso. apply J. left; auto. }
  assert (G : forall is rs k g, NoDup is -> length rs = length is -> k < length is -> fold_left (fun f p => upd_at f (fst p) (h (fst p) + snd p)%R) (combine is rs) g (nth k is 0) = (h (nth k is 0%nat) + nth k rs 0)%R).
  { induction is as [|j is IH]; intros rs k0 g N L K; [cbn in K; lia|]. destruct rs as [|y rs]; [discriminate|]. inversion N; subst. cbn [combine fold_left fst snd]. destruct k0 as [|k0].
    - cbn [nth]. rewrite S0 by auto. unfold upd_at. rewrite Nat.eqb_refl. auto.
    - cbn [nth]. apply IH; auto. cbn in K. lia. }
  intros l r0 NI LI KI. apply G; auto.
Qed.
Definition vecg := fold_left (add_rhs ns) ops (fun _ => 0%R).
Lemma fold_other : forall l f i, (forall op, In op l -> ~ In i (irs ns op)) -> fold_left (add_rhs ns) l f i = f i.
Proof. induction l as [|op l IH]; intros f i H; auto. cbn [fold_left]. rewrite IH by (intros; apply H; right; auto). apply add_rhs_other. apply H. left; auto. Qed.
Lemma vec_free : forall v e, v < length ns -> e < nth v ns 0 -> ~ In e (masters v) -> vecg (start ns v + e) = 0%R.
Proof.
  intros v e V E N. unfold vecg. rewrite fold_other; auto. intros op O I. apply in_map_iff in I. destruct I as (f & H & F). destruct (WF _ O) as (VO & _ & B & _). destruct (start_inj ns VO V (B _ F) E H) as [<- <-]. apply N. apply masters_in. exists op. auto.
Qed.
Lemma vec_master : forall l1 op l2 k, ops = l1 ++ op :: l2 -> k < length (op_ameq op) -> vecg (start ns (op_var op) + nth k (op_ameq op) 0) = rhs_at op k.
Proof.
  intros l1 op l2 k EQ K. assert (O : In op ops) by (rewrite EQ; apply in_or_app; right; left; auto). destruct (WF _ O) as (VO & _ & B & _).
  assert (OT : forall op', In op' l1 \/ In op' l2 -> ~ In (start ns (op_var op) + nth k (op_ameq op) 0) (irs ns op')).
  { intros op' I' J. assert (O' : In op' ops) by (rewrite EQ; apply in_or_app; destruct I'; [left|right; right]; auto). destruct (WF _ O') as (VO' & _ & B' & _). apply in_map_iff in J. destruct J as (f & H & F). assert (E := nth_In (op_ameq op) 0 K). destruct (start_inj ns VO' VO (B' _ F) (B _ E) H) as [EV ->]. destruct (ND VO) as [N _]. unfold masters, of_var in N. rewrite EQ in N.
    apply (@nodup_concat _ _ _ _ _ _ op' (nth k (op_ameq op) 0) N); auto; apply Nat.eqb_eq; auto. }
  unfold vecg. rewrite EQ. rewrite fold_left_app. cbn [fold_left]. rewrite fold_other by auto. rewrite add_rhs_own by auto. rewrite fold_other by auto. lra.
Qed.
End glob.

(** ** Sums of the new columns *)
Lemma list_sum_app' : forall a b, list_sum (a ++ b) = list_sum a + list_sum b.
Proof. intros. apply list_sum_app. Qed.
Lemma choice_list : forall A (l : list A) (P : A -> (nat -> R) -> Prop), (forall a, In a l -> exists q, P a q) -> exists Q : nat -> nat -> R, forall ii a, nth_error l ii = Some a -> P a (Q ii).
Proof.
  intros A l P. induction l as [|a l IH]; intros H; [exists (fun _ _ => 0%R); intros [|ii] a X; discriminate|]. destruct (H a (or_introl eq_refl)) as [q Pq]. destruct (IH (fun b I => H b (or_intror I))) as [Q PQ]. exists (fun ii => match ii with 0 => q | S ii => Q ii end). intros [|ii] b X; [injection X as <-; auto|apply PQ; auto].
Qed.
Lemma starts_len : forall (f : nat -> nat) n x, x <= n -> start (map f (seq 0 n)) x = list_sum (map f (seq 0 x)).
Proof. intros f n x X. unfold start. rewrite firstn_map. f_equal. f_equal. replace n with (x + (n - x)) by lia. rewrite seq_app, firstn_app, seq_length, Nat.sub_diag. cbn [firstn]. rewrite app_nil_r. apply firstn_all2. rewrite seq_length. auto. Qed.
Section complete.
Variable ns : list nat.
Variable ops : list lcop.
Hypothesis WF : forall op, In op ops -> wf_op ns ops op.
Hypothesis ND : forall v, v < length ns -> NoDup (masters ops v) /\ length (unmasked ns ops v) = n_free ns ops v.
Variable u : nat -> R.
Variable Q : nat -> nat -> R.
Definition newblk (x : nat) (p : nat * lcop) : list R := if op_var (snd p) =? x then map (Q (fst p)) (seq 0 (op_new (snd p))) else [].
Definition blk (x : nat) : list R := map (fun e => u (start ns x + e)) (unmasked ns ops x) ++ flat_map (newblk x) (enum ops).
Definition wl : list R := flat_map blk (seq 0 (length ns)).
Lemma newblk_len : forall x b l, list_sum (map (fun p => length (newblk x p)) (combine (seq b (length l)) l)) = list_sum (map op_new (of_var l x)).
Proof.
  intros x b l. revert b. induction l as [|op l IH]; intros b; auto. cbn [length seq combine map]. change (list_sum (?a :: ?l)) with (a + list_sum l). rewrite IH. unfold newblk at 1. cbn [fst snd]. unfold of_var. cbn [filter]. destruct (op_var op =? x); [|auto]. rewrite map_length, seq_length. auto.
Qed.
Lemma blk_len : forall x, x < length ns -> length (blk x) = n_active ns ops x.
Proof. intros x X. unfold blk. rewrite app_length, map_length, list_sum_flat. unfold enum. rewrite newblk_len. destruct (ND X) as [_ ->]. auto. Qed.
Lemma wl_nth : forall x c, x < length ns -> c < n_active ns ops x -> nth (start (actives ns ops) x + c) wl 0%R = nth c (blk x) 0%R.
Proof.
  intros x c X C. unfold wl. replace (seq 0 (length ns)) with (seq 0 x ++ x :: seq (S x) (length ns - S x)). 2:{ replace (length ns) with (x + S (length ns - S x)) at 2 by lia. rewrite seq_app. auto. }
  unfold actives. rewrite starts_len by lia. replace (list_sum (map (n_active ns ops) (seq 0 x))) with (list_sum (map (fun x => length (blk x)) (seq 0 x))). 2:{ f_equal. apply map_ext_in. intros y Y. apply in_seq in Y. apply blk_len. lia. }
  apply flat_nth. rewrite blk_len; auto.
Qed.
Lemma wl_free : forall v e, v < length ns -> e < nth v ns 0 -> ~ In e (masters ops v) -> nth (start (actives ns ops) v + searchsorted (unmasked ns ops v) e) wl 0%R = u (start ns v + e).
Proof.
  intros v e V E N. assert (MK : mask ns ops (start ns v + e) = true). { destruct (mask ns ops (start ns v + e)) eqn:X; auto. apply mask_in in X; auto; tauto. }
  destruct (search_nth (fun e => mask ns ops (start ns v + e)) E MK) as [L NT]. fold (unmasked ns ops v) in L, NT. destruct (ND V) as [_ LE]. rewrite wl_nth; auto; [|unfold n_active; lia]. unfold blk. rewrite app_nth1 by (rewrite map_length; auto). rewrite nth_map_in with (da := 0) by auto. rewrite NT. auto.
Qed.
Lemma wl_new : forall l1 op l2 c, ops = l1 ++ op :: l2 -> c < op_new op -> nth (new_start ns ops (length l1) op + c) wl 0%R = Q (length l1) c.
Proof.
  intros l1 op l2 c EQ C. assert (O : In op ops) by (rewrite EQ; apply in_or_app; right; left; auto). destruct (WF _ O) as (VO & _). unfold new_start.
  assert (F : firstn (length l1) ops = l1) by (rewrite EQ, firstn_app, Nat.sub_diag, firstn_all; cbn [firstn]; apply app_nil_r). rewrite F.
  assert (AC : list_sum (map op_new (of_var l1 (op_var op))) + c < n_newv ops (op_var op)). { unfold n_newv. rewrite EQ at 1. unfold of_var. rewrite filter_app. cbn [filter]. rewrite Nat.eqb_refl. rewrite map_app, list_sum_app. cbn [map]. change (list_sum (?a :: ?l)) with (a + list_sum l). lia. }
  rewrite <- !Nat.add_assoc. rewrite wl_nth; auto; [|unfold n_active; lia]. unfold blk. destruct (ND VO) as [_ LE]. rewrite app_nth2 by (rewrite map_length; lia). rewrite map_length, LE. replace (_ + _ - n_free ns ops (op_var op)) with (list_sum (map op_new (of_var l1 (op_var op))) + c) by lia.
  rewrite <- (newblk_len (op_var op) 0 l1). replace (enum ops) with (enum (l1 ++ op :: l2)) by (rewrite <- EQ; auto). rewrite enum_split. assert (NB : newblk (op_var op) (length l1, op) = map (Q (length l1)) (seq 0 (op_new op))) by (unfold newblk; cbn [fst snd]; rewrite Nat.eqb_refl; auto).
  rewrite flat_nth by (rewrite NB, map_length, seq_length; auto). rewrite NB. rewrite nth_map_in with (da := 0) by (rewrite seq_length; auto). rewrite seq_nth; auto.
Qed.
End complete.

(** ** C114 *)
(** The vectors M v + rhs are exactly those that satisfy all the constraints. *)
Theorem C114_global : forall ns ops M vec n, (forall op, In op ops -> wf_op ns ops op) -> make_global ns ops = Ok (M, vec, n) ->
  forall u, (forall op, In op ops -> satisfies ns op u) <-> exists v : nat -> R, forall i, i < list_sum ns -> u i = (mulv M v i + vec i)%R.
Proof.
  intros ns ops M vec n WF OK u. assert (ND := ok_counts WF OK). assert (EM : M = M1 ns ops ++ M2 ns ops /\ vec = vecg ns ops). { unfold make_global in OK. destruct (existsb _ _); [discriminate|]. destruct (negb _); [discriminate|]. injection OK as <- <- _. auto. }
  destruct EM as [-> ->]. clear OK. split.
  - intros SAT. destruct (choice_list ops (fun op q => match op_cvar op with None => forall k, k < length (op_ameq op) -> u (start ns (op_var op) + nth k (op_ameq op) 0) = (mulv (op_mtx op) q k + rhs_at op k)%R | Some _ => True end)) as [Q HQ].
    { intros op O. specialize (SAT op O). unfold satisfies in SAT. destruct (op_cvar op); [exists (fun _ => 0%R); auto|auto]. }
    exists (fun c => nth c (wl ns ops u Q) 0%R). intros i I. destruct (start_cover ns I) as (v & e & V & E & ->). rewrite mulv_app. destruct (in_dec Nat.eq_dec e (masters ops v)) as [MI|MI].
    + rewrite M2_master by auto. apply masters_in in MI. destruct MI as (op & O & <- & MI). destruct (In_nth _ _ 0 MI) as (k & K & <-). destruct (in_split _ _ O) as (l1 & l2 & EQ). rewrite (@row_master _ _ WF ND _ _ _ _ _ EQ K), (@vec_master _ _ WF ND _ _ _ _ EQ K). destruct (WF _ O) as (_ & _ & _ & _ & _ & W). specialize (SAT op O). unfold satisfies in SAT. specialize (HQ (length l1) op). destruct (op_cvar op) as [cv|].
      * destruct W as (_ & CV & W). rewrite SAT by auto. rewrite Rplus_0_r. f_equal. apply mulv_ext. intros r c x J _. destruct (W _ _ _ J) as (_ & CB & CN). symmetry. apply wl_free; auto. intros MM. apply masters_in in MM. destruct MM as (op2 & O2 & V2 & X). apply (CN op2); auto.
      * rewrite Rplus_0_r. rewrite HQ; auto. 2:{ rewrite EQ, nth_error_app2 by lia. rewrite Nat.sub_diag. auto. } f_equal. apply mulv_ext. intros r c x J _. destruct (W _ _ _ J) as (_ & CB). symmetry. eapply wl_new; eauto.
    + rewrite M1_free, M2_free, vec_free by auto. rewrite wl_free; auto. lra.
  - intros [v H] op O. destruct (in_split _ _ O) as (l1 & l2 & EQ). destruct (WF _ O) as (VO & _ & B & _ & _ & W).
    assert (BD : forall x e, x < length ns -> e < nth x ns 0 -> start ns x + e < list_sum ns). { intros x e X E. rewrite <- start_all. assert (Y := @start_mono ns x (length ns) X (le_n _)). lia. }
    assert (RW : forall k, k < length (op_ameq op) -> u (start ns (op_var op) + nth k (op_ameq op) 0) = (match op_cvar op with None => mulv (op_mtx op) (fun c => v (new_start ns ops (length l1) op + c)%nat) k | Some cv => mulv (op_mtx op) (fun c => v (start (actives ns ops) cv + searchsorted (unmasked ns ops cv) c)%nat) (nth k (op_ameq op) 0%nat) end + rhs_at op k)%R).
    { intros k K. assert (IK := nth_In (op_ameq op) 0 K). rewrite H by (apply BD; auto). rewrite mulv_app. rewrite M2_master; auto. 2:{ apply masters_in. exists op. auto. } rewrite (@row_master _ _ WF ND _ _ _ _ _ EQ K), (@vec_master _ _ WF ND _ _ _ _ EQ K). rewrite Rplus_0_r. auto. }
    unfold satisfies. destruct (op_cvar op) as [cv|].
    + intros k K. rewrite RW by auto. f_equal. destruct W as (_ & CV & W). apply mulv_ext. intros r c x J _. destruct (W _ _ _ J) as (_ & CB & CN). assert (MM : ~ In c (masters ops cv)). { intros MM. apply masters_in in MM. destruct MM as (op2 & O2 & V2 & X). apply (CN op2); auto. }
      rewrite H by (apply BD; auto). rewrite mulv_app, M1_free, M2_free, vec_free by auto. lra.
    + exists (fun c => v (new_start ns ops (length l1) op + c)). auto.
Qed.
(** Operators that constrain disjoint sets of DOFs can always be combined... *)
Theorem C114_succeeds : forall ns ops, (forall op, In op ops -> wf_op ns ops op) ->
  (forall l1 op1 l2 op2 l3, ops = l1 ++ op1 :: l2 ++ op2 :: l3 -> op_var op1 = op_var op2 -> forall e, In e (op_ameq op1) -> ~ In e (op_ameq op2)) ->
  exists M vec n, make_global ns ops = Ok (M, vec, n).
Proof.
  intros ns ops WF DJ. assert (ND : forall v, NoDup (masters ops v)).
  { intros v. assert (NO : forall op, In op ops -> NoDup (op_ameq op)) by (intros op O; apply WF in O; apply O). clear WF. unfold masters, of_var. induction ops as [|op ops IH]; [constructor|]. cbn [filter].
    assert (IH' : NoDup (concat (map op_ameq (filter (fun op => op_var op =? v) ops)))). { apply IH; [|intros; apply NO; right; auto]. intros l1 op1 l2 op2 l3 E V e I. apply (DJ (op :: l1) op1 l2 op2 l3); auto. rewrite E. auto. }
    destruct (op_var op =? v) eqn:EV; auto. apply Nat.eqb_eq in EV. cbn [map concat]. assert (G : forall (X Y : list nat), NoDup X -> NoDup Y -> (forall x, In x X -> ~ In x Y) -> NoDup (X ++ Y)) by (induction X as [|x X IHX]; intros Y NX NY D; auto; cbn; inversion NX; subst; constructor; [intros J; apply in_app_or in J; destruct J as [J|J]; [auto|apply (D x); [left|]; auto]|apply IHX; auto; intros; apply D; right; auto]). apply G; auto.
    - apply NO. left; auto.
    - intros e I J. apply in_concat in J. destruct J as (x & J & X). apply in_map_iff in J. destruct J as (op2 & <- & J). apply filter_In in J. destruct J as [J V2]. apply Nat.eqb_eq in V2. destruct (in_split _ _ J) as (l2 & l3 & ->). apply (DJ [] op l2 op2 l3 eq_refl ltac:(congruence) e I X). }
  assert (LE : forall v, v < length ns -> length (unmasked ns ops v) + n_master ops v = nth v ns 0). { intros v V. rewrite <- (masters_len WF). assert (UL := unmasked_len WF V). rewrite nodup_fixed_point in UL by auto. auto. }
  unfold make_global. destruct (existsb _ _) eqn:X.
  - exfalso. apply existsb_exists in X. destruct X as (v & V & X). apply in_seq in V. apply Nat.ltb_lt in X. specialize (LE v ltac:(lia)). lia.
  - destruct (negb _) eqn:Y; [|eauto]. exfalso. apply negb_true_iff, Nat.eqb_neq in Y. apply Y. rewrite ir_eq, !list_sum_flat. f_equal. apply map_ext_in. intros v V. apply in_seq in V. rewrite !map_length, seq_length. unfold n_free. specialize (LE v ltac:(lia)). lia.
Qed.
(** ... and two operators constraining a common DOF are refused. *)
Theorem C114_overlap : forall ns ops l1 op1 l2 op2 l3 e, (forall op, In op ops -> wf_op ns ops op) ->
  ops = l1 ++ op1 :: l2 ++ op2 :: l3 -> op_var op1 = op_var op2 -> In e (op_ameq op1) -> In e (op_ameq op2) -> make_global ns ops = Err ValueError.
Proof.
  intros ns ops l1 op1 l2 op2 l3 e WF EQ V E1 E2. destruct (make_global ns ops) as [r|err] eqn:OK.
  - exfalso. assert (O : In op1 ops) by (rewrite EQ; apply in_or_app; right; left; auto). destruct (WF _ O) as (VO & _). destruct (@ok_counts ns ops WF r OK (op_var op1) VO) as [N _]. unfold masters, of_var in N. rewrite EQ in N.
    apply (@nodup_concat _ _ _ _ _ _ op2 e N); auto; try (apply Nat.eqb_eq; auto). right. apply in_or_app. right. left. auto.
  - unfold make_global in OK. destruct (existsb _ _); [congruence|]. destruct (negb _); [congruence|discriminate].
Qed.
(** All rows and columns exist. *)
Theorem C114_columns : forall ns ops M vec n, (forall op, In op ops -> wf_op ns ops op) -> make_global ns ops = Ok (M, vec, n) -> forall r c x, In (r, c, x) M -> r < list_sum ns /\ c < n.
Proof.
  intros ns ops M vec n WF OK. assert (ND := ok_counts WF OK). assert (EM : M = M1 ns ops ++ M2 ns ops /\ n = list_sum (actives ns ops)). { unfold make_global in OK. destruct (existsb _ _); [discriminate|]. destruct (negb _); [discriminate|]. injection OK as <- <- <-. auto. }
  destruct EM as [-> ->]. clear OK.
  assert (LA : length (actives ns ops) = length ns) by (unfold actives; rewrite map_length, seq_length; auto).
  assert (NA : forall v, v < length ns -> nth v (actives ns ops) 0 = n_active ns ops v). { intros v V. unfold actives. rewrite nth_map_in with (da := 0) by (rewrite seq_length; auto). rewrite seq_nth; auto. }
  assert (BA : forall x e, x < length ns -> e < n_active ns ops x -> start (actives ns ops) x + e < list_sum (actives ns ops)). { intros x e X E. rewrite <- start_all. assert (Y := @start_mono (actives ns ops) x (length (actives ns ops)) ltac:(lia) (le_n _)). rewrite NA in Y by auto. lia. }
  assert (BD : forall x e, x < length ns -> e < nth x ns 0 -> start ns x + e < list_sum ns). { intros x e X E. rewrite <- start_all. assert (Y := @start_mono ns x (length ns) X (le_n _)). lia. }
  intros r c x I. apply in_app_or in I. destruct I as [I|I].
  - split. { destruct (@M1_row _ _ WF _ _ _ I) as (op & e & O & E & ->). destruct (WF _ O) as (VO & _ & B & _). auto. }
    apply in_flat_map in I. destruct I as ([ii op] & P & I). cbn [fst snd] in I. assert (O := in_combine_r _ _ _ _ P). apply In_nth with (d := (0, op)) in P. destruct P as (k & K & P). unfold enum in K, P. rewrite combine_length, seq_length, Nat.min_id in K. rewrite combine_nth in P by (rewrite seq_length; auto). rewrite seq_nth in P by auto. injection P as PI PO. cbn in PI. subst ii.
    destruct (WF _ O) as (VO & _ & B & _ & _ & W). unfold op_entries in I. destruct (op_cvar op) as [cv|]; apply in_map_iff in I; destruct I as ([[r0 c0] x0] & E & I); cbn [fst snd] in E; injection E as _ <- _.
    + destruct W as (_ & CV & W). destruct (W _ _ _ I) as (_ & CB & CN). apply BA; auto. destruct (ND _ CV) as [_ LE]. unfold n_active. rewrite <- LE. assert (MK : mask ns ops (start ns cv + c0) = true). { destruct (mask ns ops (start ns cv + c0)) eqn:X; auto. apply mask_in in X; auto. apply masters_in in X. destruct X as (op2 & O2 & V2 & X). exfalso. apply (CN op2); auto. }
      destruct (search_nth (fun e => mask ns ops (start ns cv + e)) CB MK) as [L _]. fold (unmasked ns ops cv) in L. lia.
    + destruct (W _ _ _ I) as (_ & CB). unfold new_start. rewrite <- !Nat.add_assoc. apply BA; auto. unfold n_active. apply Nat.add_lt_mono_l. unfold n_newv. rewrite <- (firstn_skipn k ops) at 2. replace (skipn k ops) with (op :: skipn (S k) ops). 2:{ rewrite <- PO. clear - K. revert K. generalize op. revert k. induction ops as [|a l IH]; intros k d K; [cbn in K; lia|]. destruct k; auto. cbn [nth skipn]. rewrite <- (IH k d) by (cbn in K; lia). auto. }
      unfold of_var. rewrite filter_app. cbn [filter]. rewrite Nat.eqb_refl, map_app, list_sum_app. cbn [map]. change (list_sum (?a :: ?l)) with (a + list_sum l). lia.
  - unfold M2 in I. apply in_map_iff in I. destruct I as ([r' c'] & X & I). cbn in X. injection X as -> -> _. split; [apply in_combine_l in I; apply filter_In in I; destruct I as [I _]; apply in_seq in I; lia|]. apply in_combine_r in I. apply in_flat_map in I. destruct I as (v & V & I). apply in_seq in V. apply in_map_iff in I. destruct I as (i & <- & I). apply in_seq in I. apply BA; [lia|]. unfold n_active. lia.
Qed.
