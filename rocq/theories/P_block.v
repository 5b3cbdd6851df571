(** C97: block meshes. *)
From Coq Require Import QArith Lqa.
From Verif Require Import Base L_chains M_parallel M_periodic M_merge M_block L_block P_merge.
Set Implicit Arguments.
Open Scope nat_scope.

(** ** Specification *)
Definition coor_of (m : mesh) (v : nat) : point := nth v (m_coors m) [].
(** The corners of the box between [lo] and [hi] in the order of the vertices of the
    reference line, quadrilateral and hexahedron. *)
Definition corners (lo hi : point) : list point :=
  match lo, hi with
  | [a], [a'] => [[a]; [a']]
  | [a; b], [a'; b'] => [[a; b]; [a'; b]; [a'; b']; [a; b']]
  | [a; b; c], [a'; b'; c'] => [[a; b; c]; [a'; b; c]; [a'; b'; c]; [a; b'; c]; [a; b; c']; [a'; b; c']; [a'; b'; c']; [a; b'; c']]
  | _, _ => []
  end.
Definition le_pt (p q : point) : Prop := Forall2 (fun a b => (a <= b)%Q) p q.
Definition lt_pt (p q : point) : Prop := Forall2 (fun a b => (a < b)%Q) p q.

(** ** Axes *)
Notation axis := (Q * Q * nat)%type.    (* first coordinate, step, number of vertices *)
Definition axes (dims centre : list Q) (shape : list nat) : list axis :=
  map (fun p => ((snd (fst p) - (1 # 2) * fst (fst p))%Q, (fst (fst p) / q_of (snd p - 1))%Q, snd p)) (combine (combine dims centre) shape).
Definition at_ (x : axis) (i : nat) : Q := (fst (fst x) + q_of i * snd (fst x))%Q.
Fixpoint vert (ax : list axis) (t : list nat) : point :=
  match ax, t with x :: ax', i :: t' => at_ x i :: vert ax' t' | _, _ => [] end.
Lemma coors_vert : forall dims centre shape t, length dims = length shape -> length centre = length shape -> length t = length shape ->
  map (fun p => fst (fst p) + q_of (snd p) * snd (fst p))%Q
    (combine (combine (map (fun p => fst p - (1 # 2) * snd p)%Q (combine centre dims)) (map (fun p => fst p / q_of (snd p - 1))%Q (combine dims shape))) t) =
  vert (axes dims centre shape) t.
Proof.
  induction dims as [|d dims IH]; intros [|c centre] [|n shape] [|i t] H1 H2 H3; cbn in H1, H2, H3; try lia; [reflexivity|].
  unfold axes. cbn [combine map vert fst snd]. f_equal. apply (IH centre shape t); lia.
Qed.
Lemma axes_shape : forall dims centre shape, length dims = length shape -> length centre = length shape -> map snd (axes dims centre shape) = shape.
Proof.
  induction dims as [|d dims IH]; intros [|c centre] [|n shape] H1 H2; cbn in H1, H2; try lia; [reflexivity|].
  unfold axes. cbn [combine map snd]. f_equal. apply (IH centre shape); lia.
Qed.
Lemma q_of_pos : forall n, 0 < n -> (0 < q_of n)%Q.
Proof. intros n H. unfold q_of, Qlt. cbn. lia. Qed.
Lemma q_of_S : forall n, (q_of (S n) == q_of n + 1)%Q.
Proof. intros n. unfold q_of. rewrite Nat2Z.inj_succ. unfold Z.succ. rewrite inject_Z_plus. reflexivity. Qed.
Lemma q_of_0 : (q_of 0 == 0)%Q.
Proof. reflexivity. Qed.
Lemma q_of_le : forall a b, a <= b -> (q_of a <= q_of b)%Q.
Proof. intros a b H. unfold q_of, Qle. cbn. lia. Qed.
Lemma at_S : forall x i, (at_ x (S i) == at_ x i + snd (fst x))%Q.
Proof. intros. unfold at_. rewrite q_of_S. ring. Qed.
Lemma at_le : forall x i j, (0 < snd (fst x))%Q -> i <= j -> (at_ x i <= at_ x j)%Q.
Proof. intros x i j H L. assert (A := q_of_le L). unfold at_. nra. Qed.
Lemma find_interval : forall x n p, (0 < snd (fst x))%Q -> 1 <= n -> (at_ x 0 <= p <= at_ x n)%Q ->
  exists i, i < n /\ (at_ x i <= p <= at_ x (S i))%Q.
Proof.
  intros x n p H L [A B]. induction n as [|n IH]; [lia|]. destruct n as [|n]; [exists 0; split; [lia|split; auto]|].
  destruct (Qlt_le_dec p (at_ x (S n))) as [C|C].
  - destruct IH as (i & I1 & I2); [lia|lra|]. exists i. split; [lia|auto].
  - exists (S n). split; [lia|split; auto].
Qed.
Definition lo_of (ax : list axis) : point := map (fun x => at_ x 0) ax.
Definition hi_of (ax : list axis) : point := map (fun x => at_ x (snd x - 1)) ax.
Definition good_axes (ax : list axis) : Prop := Forall (fun x => (0 < snd (fst x))%Q /\ 2 <= snd x) ax.
Lemma cover_axes : forall ax p, good_axes ax -> le_pt (lo_of ax) p -> le_pt p (hi_of ax) ->
  exists t, in_shape (map (fun x => snd x - 1) ax) t /\ le_pt (vert ax t) p /\ le_pt p (vert ax (map S t)).
Proof.
  induction ax as [|x ax IH]; intros p G L H; unfold lo_of, hi_of in L, H; cbn [map] in L, H.
  - inversion L; subst. exists []. repeat split; constructor.
  - inversion L as [|a c l p' A1 A2]; subst. inversion H as [|a' c' l' p'' B1 B2]; subst. inversion G as [|y z [G1 G2] G3]; subst.
    destruct (IH p' G3 A2 B2) as (t & T1 & T2 & T3). destruct (@find_interval x (snd x - 1) c G1 ltac:(lia) (conj A1 B1)) as (i & I1 & I2 & I3).
    exists (i :: t). split; [constructor; auto|]. split; cbn [vert map]; constructor; auto.
Qed.
Lemma disjoint_axes : forall ax p t t', good_axes ax -> length t = length ax -> length t' = length ax ->
  lt_pt (vert ax t) p -> lt_pt p (vert ax (map S t)) -> lt_pt (vert ax t') p -> lt_pt p (vert ax (map S t')) -> t = t'.
Proof.
  induction ax as [|x ax IH]; intros p [|i t] [|i' t'] G L L' A B A' B'; cbn in L, L'; try lia; [reflexivity|].
  cbn [vert map] in A, B, A', B'. inversion A as [|? c ? p0 A1 A2]; subst. inversion B as [|? ? ? ? B1 B2]; subst.
  inversion A' as [|? ? ? ? A1' A2']; subst. inversion B' as [|? ? ? ? B1' B2']; subst. inversion G as [|y z [G1 G2] G3]; subst.
  f_equal; [|apply (IH p0); auto]. destruct (Nat.lt_trichotomy i i') as [H|[H|H]]; auto; exfalso.
  - assert (X := at_le x G1 (H : S i <= i')). lra.
  - assert (X := at_le x G1 (H : S i' <= i)). lra.
Qed.
Lemma vert_le : forall ax t u, good_axes ax -> Forall2 le t u -> length t = length ax -> le_pt (vert ax t) (vert ax u).
Proof.
  induction ax as [|x ax IH]; intros t u G H L; destruct H as [|i j t u H1 H2]; cbn in L; try lia; cbn [vert]; constructor;
    inversion G as [|y z [G1 G2] G3]; subst; [apply at_le; auto|]. apply IH; auto.
Qed.
Lemma vert_lt : forall ax t, good_axes ax -> length t = length ax -> lt_pt (vert ax t) (vert ax (map S t)).
Proof.
  induction ax as [|x ax IH]; intros [|i t] G L; cbn in L; try lia; cbn [vert map]; constructor; inversion G as [|y z [G1 G2] G3]; subst.
  - rewrite at_S. lra.
  - apply IH; auto.
Qed.
Lemma lo_vert : forall ax, lo_of ax = vert ax (map (fun _ => 0) ax).
Proof. induction ax as [|x ax IH]; cbn; auto. f_equal. auto. Qed.
Lemma hi_vert : forall ax, hi_of ax = vert ax (map (fun x => snd x - 1) ax).
Proof. induction ax as [|x ax IH]; cbn; auto. f_equal. auto. Qed.
Lemma good_axes_ok : forall dims centre shape, length dims = length shape -> length centre = length shape ->
  (forall n, In n shape -> 2 <= n) -> (forall d, In d dims -> (0 < d)%Q) -> good_axes (axes dims centre shape).
Proof.
  induction dims as [|d dims IH]; intros [|c centre] [|n shape] H1 H2 N D; cbn in H1, H2; try lia; [constructor|].
  unfold axes. cbn [combine map]. constructor.
  - cbn [fst snd]. split; [|apply N; left; auto]. apply Qlt_shift_div_l; [apply q_of_pos; specialize (N n (or_introl eq_refl)); lia|].
    specialize (D d (or_introl eq_refl)). lra.
  - apply (IH centre shape); try lia; intros; [apply N|apply D]; right; auto.
Qed.
Lemma hi_axes : forall dims centre shape, length dims = length shape -> length centre = length shape ->
  (forall n, In n shape -> 2 <= n) ->
  Forall2 Qeq (hi_of (axes dims centre shape)) (map (fun p => snd p + (1 # 2) * fst p)%Q (combine dims centre)).
Proof.
  induction dims as [|d dims IH]; intros [|c centre] [|n shape] H1 H2 N; cbn in H1, H2; try lia; [constructor|].
  unfold axes, hi_of. cbn [combine map fst snd]. constructor.
  - unfold at_. cbn [fst snd]. assert (X := q_of_pos (n := n - 1) ltac:(specialize (N n (or_introl eq_refl)); lia)). field. lra.
  - apply (IH centre shape); try lia. intros; apply N; right; auto.
Qed.
Lemma lo_axes : forall dims centre shape, length dims = length shape -> length centre = length shape ->
  Forall2 Qeq (lo_of (axes dims centre shape)) (map (fun p => snd p - (1 # 2) * fst p)%Q (combine dims centre)).
Proof.
  induction dims as [|d dims IH]; intros [|c centre] [|n shape] H1 H2; cbn in H1, H2; try lia; [constructor|].
  unfold axes, lo_of. cbn [combine map fst snd]. constructor.
  - unfold at_. cbn [fst snd]. rewrite q_of_0. ring.
  - apply (IH centre shape); try lia.
Qed.
Lemma le_pt_Qeq_l : forall a b p, Forall2 Qeq a b -> le_pt b p -> le_pt a p.
Proof. intros a b p H. revert p. induction H as [|x y a b H1 H2 IH]; intros p L; inversion L; subst; constructor; [lra|]. apply IH; auto. Qed.
Lemma le_pt_Qeq_r : forall a b p, Forall2 Qeq a b -> le_pt p b -> le_pt p a.
Proof. intros a b p H. revert p. induction H as [|x y a b H1 H2 IH]; intros p L; inversion L; subst; constructor; [lra|]. apply IH; auto. Qed.
Lemma Forall2_Qeq_sym : forall a b, Forall2 Qeq a b -> Forall2 Qeq b a.
Proof. intros a b H. induction H; constructor; auto. symmetry; auto. Qed.

(** The corners of a cell. *)
Lemma addb_in : forall shape t bits, (forall n, In n shape -> 2 <= n) -> in_shape (map (fun n => n - 1) shape) t -> length bits = length shape ->
  in_shape shape (addb t bits).
Proof.
  unfold in_shape. induction shape as [|n sh IH]; intros t [|b bs] N H L; cbn in L; try lia; inversion H as [|? i ? t' A B]; subst; cbn [addb]; constructor.
  - specialize (N n (or_introl eq_refl)). destruct b; cbn [b2n]; lia.
  - apply IH; auto. intros; apply N; right; auto.
Qed.
Lemma corners_vert : forall ax t, 1 <= length ax <= 3 -> length t = length ax ->
  map (fun bits => vert ax (addb t bits)) (columns (length ax)) = corners (vert ax t) (vert ax (map S t)).
Proof.
  assert (E : forall x i, at_ x (i + 0) = at_ x i /\ at_ x (i + 1) = at_ x (S i)) by (intros; rewrite Nat.add_0_r, Nat.add_1_r; auto).
  intros [|x [|y [|z [|w ax]]]] [|i [|j [|k [|l t]]]] L1 L2; cbn in L1, L2; try lia; cbn [columns length map addb b2n vert corners];
    repeat rewrite (proj1 (E _ _)); repeat rewrite (proj2 (E _ _)); reflexivity.
Qed.
Lemma columns_length : forall d bits, 1 <= d <= 3 -> In bits (columns d) -> length bits = d.
Proof. intros [|[|[|[|d]]]] bits H I; try lia; cbn in I; repeat (destruct I as [<-|I]; [reflexivity|]); destruct I. Qed.

Section Block.
Variables (dims centre : list Q) (shape : list nat) (mat : Z).
Hypothesis Hd : length dims = length shape.
Hypothesis Hc : length centre = length shape.
Hypothesis Hdim : 1 <= length shape <= 3.
Hypothesis Hn : forall n, In n shape -> 2 <= n.
Hypothesis Hpos : forall d, In d dims -> (0 < d)%Q.
Notation m := (gen_block_mesh dims centre shape mat).
Notation ax := (axes dims centre shape).

Lemma block_length_ax : length ax = length shape.
Proof. clear Hdim Hn Hpos. unfold axes. rewrite map_length, !combine_length. lia. Qed.
Lemma block_coor : forall t, in_shape shape t -> coor_of m (numb 0 shape t) = vert ax t.
Proof.
  intros t H. unfold coor_of. cbn [m_coors gen_block_mesh]. unfold block_coors. rewrite nth_map_in with (da := []) by (rewrite length_tuples; apply numb_lt; auto).
  rewrite nth_numb by auto. apply coors_vert; auto. apply in_shape_length; auto.
Qed.
Lemma block_shape1 : map (fun x : axis => snd x - 1) ax = map (fun n => n - 1) shape.
Proof. rewrite <- (axes_shape dims centre shape Hd Hc) at 2. rewrite map_map. auto. Qed.

(** The cells are boxes in a regular grid; they cover the block and do not overlap. *)
Theorem C97_block :
  let conn := get_tensor_product_conn shape in
  m_groups m = [mkG (desc_of (length shape)) conn (repeat mat (length conn))] /\
  length conn = prod (map (fun n => n - 1) shape) /\ length (m_coors m) = prod shape /\ wf_mesh m /\
  (forall i j, i < j < length (m_coors m) -> coor_of m i <> coor_of m j) /\
  exists box : nat -> point * point,
    (forall e, e < length conn ->
       map (coor_of m) (nth e conn []) = corners (fst (box e)) (snd (box e)) /\ lt_pt (fst (box e)) (snd (box e)) /\
       le_pt (map (fun p => snd p - (1 # 2) * fst p)%Q (combine dims centre)) (fst (box e)) /\
       le_pt (snd (box e)) (map (fun p => snd p + (1 # 2) * fst p)%Q (combine dims centre)) /\
       Forall2 Qeq (map (fun p => snd p - fst p)%Q (combine (fst (box e)) (snd (box e)))) (map (fun p => fst p / q_of (snd p - 1))%Q (combine dims shape))) /\
    (forall p, le_pt (map (fun p => snd p - (1 # 2) * fst p)%Q (combine dims centre)) p ->
               le_pt p (map (fun p => snd p + (1 # 2) * fst p)%Q (combine dims centre)) ->
       exists e, e < length conn /\ le_pt (fst (box e)) p /\ le_pt p (snd (box e))) /\
    (forall p e e', e < length conn -> e' < length conn -> lt_pt (fst (box e)) p -> lt_pt p (snd (box e)) ->
       lt_pt (fst (box e')) p -> lt_pt p (snd (box e')) -> e = e').
Proof.
  intros conn. set (T := tuples (map (fun n => n - 1) shape)).
  assert (CE : conn = map (fun t => map (fun bits => numb 0 shape (addb t bits)) (columns (length shape))) T) by (apply conn_spec; auto).
  assert (LC : length conn = prod (map (fun n => n - 1) shape)) by (rewrite CE, map_length; apply length_tuples).
  assert (LT : length T = length conn) by (rewrite CE, map_length; auto).
  assert (LX : length (m_coors m) = prod shape) by (cbn [m_coors gen_block_mesh]; unfold block_coors; rewrite map_length; apply length_tuples).
  assert (TI : forall e, e < length conn -> in_shape (map (fun n => n - 1) shape) (nth e T [])).
  { intros e E. apply tuples_In. apply nth_In. unfold T in LT. rewrite LT. auto. }
  assert (G : good_axes ax) by (apply good_axes_ok; auto).
  assert (TL : forall e, e < length conn -> length (nth e T []) = length ax).
  { intros e E. rewrite (in_shape_length (TI e E)), map_length, block_length_ax. auto. }
  assert (NE : forall e, e < length conn -> nth e conn [] = map (fun bits => numb 0 shape (addb (nth e T []) bits)) (columns (length shape))).
  { intros e E. rewrite CE. rewrite nth_map_in with (da := []) by lia. auto. }
  split; [cbn [m_groups gen_block_mesh]; fold conn; rewrite LC; auto|]. split; auto. split; auto. split; [|split].
  - split; [cbn [m_vg gen_block_mesh]; rewrite repeat_length; auto|]. intros g [<-|[]]. cbn [g_conn g_mat]. fold conn. split; [|rewrite repeat_length; auto].
    rewrite LX. intros row v R V. destruct (In_nth conn row [] R) as (e & E & <-). rewrite NE in V by auto. apply in_map_iff in V. destruct V as (bits & <- & V).
    apply numb_lt. apply addb_in; auto. apply columns_length in V; auto.
  - intros i j IJ. rewrite LX in IJ. unfold coor_of. cbn [m_coors gen_block_mesh]. unfold block_coors.
    rewrite !nth_map_in with (da := []) by (rewrite length_tuples; lia).
    assert (Ti : in_shape shape (nth i (tuples shape) [])) by (apply tuples_In, nth_In; rewrite length_tuples; lia).
    assert (Tj : in_shape shape (nth j (tuples shape) [])) by (apply tuples_In, nth_In; rewrite length_tuples; lia).
    rewrite !coors_vert by (auto; apply in_shape_length; auto). intros E.
    assert (X : nth i (tuples shape) [] = nth j (tuples shape) []).
    { assert (L1 := in_shape_length Ti). assert (L2 := in_shape_length Tj). rewrite <- block_length_ax in L1, L2. revert G L1 L2 E.
      generalize (nth i (tuples shape) []) (nth j (tuples shape) []). clear. induction ax as [|x a IH]; intros [|i t] [|j u] G L1 L2 E; cbn in L1, L2; try lia; auto.
      cbn [vert] in E. assert (E1 : at_ x i = at_ x j) by exact (f_equal (hd 0%Q) E). assert (E2 : vert a t = vert a u) by exact (f_equal (@tl Q) E). inversion G as [|y z [G1 G2] G3]; subst. f_equal; [|apply IH; auto].
      assert (Y : (at_ x i == at_ x j)%Q) by (rewrite E1; reflexivity). destruct (Nat.lt_trichotomy i j) as [H|[H|H]]; auto; exfalso.
      - assert (Z1 := at_le x G1 (H : S i <= j)). rewrite at_S in Z1. lra.
      - assert (Z1 := at_le x G1 (H : S j <= i)). rewrite at_S in Z1. lra. }
    assert (Y := proj1 (NoDup_nth (tuples shape) []) (tuples_NoDup shape) i j). rewrite length_tuples in Y. specialize (Y ltac:(lia) ltac:(lia) X). lia.
  - exists (fun e => (vert ax (nth e T []), vert ax (map S (nth e T [])))). split; [|split]; cbn [fst snd].
    + intros e E. split; [|split; [|split; [|split]]].
      * rewrite NE by auto. rewrite map_map. rewrite <- corners_vert by (rewrite ?block_length_ax; auto; rewrite <- block_length_ax; auto).
        rewrite block_length_ax. apply map_ext_in. intros bits B. apply block_coor. apply addb_in; auto. apply columns_length in B; auto.
      * apply vert_lt; auto.
      * eapply le_pt_Qeq_l; [apply Forall2_Qeq_sym, (lo_axes dims centre shape); auto|]. rewrite lo_vert. apply vert_le; auto; [|rewrite map_length; auto].
        assert (L := TL e E). revert L. generalize (nth e T []). clear. induction ax as [|x a IH]; intros [|i t] L; cbn in L; try lia; cbn; constructor; [lia|]. apply IH; lia.
      * eapply le_pt_Qeq_r; [apply Forall2_Qeq_sym, (hi_axes dims centre shape); auto|]. rewrite hi_vert. rewrite block_shape1. apply vert_le; auto; [|rewrite map_length; auto].
        assert (L := TI e E). revert L. generalize (nth e T []) (map (fun n : nat => n - 1) shape). intros t0 s0 L. clear -L. induction L as [|n i s t L1 L2 IH]; cbn; constructor; [lia|auto].
      * assert (L := TL e E). revert L. generalize (nth e T []). clear -Hd Hc. revert centre shape Hd Hc. induction dims as [|d ds IH]; intros [|c cs] [|n ns] H1 H2 [|i t] L; cbn in H1, H2, L; try lia; cbn; constructor.
        { cbn [fst snd]. rewrite at_S. cbn [fst snd]. ring. }
        apply (IH cs ns); [lia|lia|injection L as L; exact L].
    + intros p P1 P2. destruct (@cover_axes ax p G) as (t & T1 & T2 & T3).
      * eapply le_pt_Qeq_l; [apply (lo_axes dims centre shape); auto|auto].
      * eapply le_pt_Qeq_r; [apply (hi_axes dims centre shape); auto|auto].
      * rewrite block_shape1 in T1. apply tuples_In in T1. destruct (In_nth _ t [] T1) as (e & E & X). exists e. fold T in E, X. rewrite X. split; [lia|auto].
    + intros p e e' E E' A B A' B'. assert (X := @disjoint_axes ax p (nth e T []) (nth e' T []) G (TL e E) (TL e' E') A B A' B').
      apply (proj1 (NoDup_nth T []) (tuples_NoDup _) e e'); auto; lia.
Qed.
End Block.
Example C97_ex : gen_block_mesh [2; 1]%Q [0; 0]%Q [3; 2] 7 =
  mkM (m_coors (gen_block_mesh [2; 1]%Q [0; 0]%Q [3; 2] 7)) (repeat 0%Z 6) [mkG d2_4 [[0; 2; 3; 1]; [2; 4; 5; 3]] [7; 7]%Z].
Proof. vm_compute. reflexivity. Qed.
Print Assumptions C97_block.
