(** C104: nodes of the Lagrange elements. *)
From Verif Require Import Base M_lagnodes.
Set Implicit Arguments.
Open Scope nat_scope.

(** ** Specification *)
(** The points of the lattice: barycentric coordinates t / order on a simplex, and
    (i1, ..., id) / order in a cube, given as the pairs (order - i, i). *)
Definition simplex_point (dim order : nat) (t : tuple) : Prop := length t = dim + 1 /\ list_sum t = order.
Definition cube_point (dim order : nat) (t : tuple) : Prop :=
  exists is, length is = dim /\ (forall i, In i is -> i <= order) /\ t = flat_map (fun i => [order - i; i]) is.
(** The vertices spanning the smallest part of the simplex containing the point *)
Definition support (t : tuple) : list nat := filter (fun k => negb (nth k t 0 =? 0)) (seq 0 (length t)).
Definition same_set (a b : list nat) : Prop := forall x, In x a <-> In x b.

(** ** Lemmas *)
Lemma combine_seq_nth : forall A (l : list A) k j x, In (j, x) (combine (seq k (length l)) l) <-> k <= j /\ nth_error l (j - k) = Some x.
Proof.
  induction l as [|a l IH]; intros k j x; cbn [length seq combine In].
  - split; [tauto|]. intros [_ H]. destruct (j - k); discriminate.
  - rewrite IH. split.
    + intros [E|[L E]]; [inversion E; subst; rewrite Nat.sub_diag; auto|]. split; [lia|]. replace (j - k) with (S (j - S k)) by lia. auto.
    + intros [L E]. destruct (Nat.eq_dec j k) as [->|NE]; [rewrite Nat.sub_diag in E; injection E as <-; auto|]. right. split; [lia|]. replace (j - k) with (S (j - S k)) in E by lia. auto.
Qed.
Lemma In_edges : forall v nt es o nc n, In n (append_edges v nt es o nc) <->
  exists j e c2, nth_error es j = Some e /\ 1 <= c2 < o /\ n = mkLN nt j (lin o [o - c2; c2] (verts v e) nc).
Proof.
  intros. unfold append_edges. rewrite in_flat_map. split.
  - intros ([j e] & P & H). apply combine_seq_nth in P. rewrite Nat.sub_0_r in P. apply in_map_iff in H. destruct H as (ie & <- & I). apply in_seq in I. exists j, e, (ie + 1). split; [tauto|]. split; [lia|auto].
  - intros (j & e & c2 & P & C & ->). exists (j, e). split; [apply combine_seq_nth; rewrite Nat.sub_0_r; split; [lia|auto]|]. apply in_map_iff. exists (c2 - 1). split; [|apply in_seq; lia].
    cbn [fst snd]. replace (c2 - 1 + 1) with c2 by lia. auto.
Qed.
Lemma In_faces : forall v nt es o nc n, In n (append_faces v nt es o nc) <->
  exists j e c2 c3, nth_error es j = Some e /\ 1 <= c2 /\ 1 <= c3 /\ c2 + c3 < o /\ n = mkLN nt j (lin o [o - c3 - c2; c2; c3] (verts v e) nc).
Proof.
  intros. unfold append_faces. rewrite in_flat_map. split.
  - intros ([j e] & P & H). apply combine_seq_nth in P. rewrite Nat.sub_0_r in P. apply in_flat_map in H. destruct H as (i1 & I1 & H). apply in_map_iff in H. destruct H as (i2 & <- & I2). apply in_seq in I1, I2.
    exists j, e, (i2 + 1), (i1 + 1). split; [tauto|]. repeat split; auto; lia.
  - intros (j & e & c2 & c3 & P & C2 & C3 & C & ->). exists (j, e). split; [apply combine_seq_nth; rewrite Nat.sub_0_r; split; [lia|auto]|]. apply in_flat_map. exists (c3 - 1). split; [apply in_seq; lia|].
    apply in_map_iff. exists (c2 - 1). split; [|apply in_seq; lia]. cbn [fst snd]. replace (c2 - 1 + 1) with c2 by lia. replace (c3 - 1 + 1) with c3 by lia. auto.
Qed.
Lemma In_bubbles : forall v nt o nc n, In n (append_bubbles v nt o nc) <->
  exists c2 c3 c4, 1 <= c2 /\ 1 <= c3 /\ 1 <= c4 /\ c2 + c3 + c4 < o /\ n = mkLN nt 0 (lin o [o - c4 - c3 - c2; c2; c3; c4] (verts v [0; 1; 2; 3]) nc).
Proof.
  intros. unfold append_bubbles. rewrite in_flat_map. split.
  - intros (i1 & I1 & H). apply in_flat_map in H. destruct H as (i2 & I2 & H). apply in_map_iff in H. destruct H as (i3 & <- & I3). apply in_seq in I1, I2, I3.
    exists (i3 + 1), (i2 + 1), (i1 + 1). repeat split; auto; lia.
  - intros (c2 & c3 & c4 & C2 & C3 & C4 & C & ->). exists (c4 - 1). split; [apply in_seq; lia|]. apply in_flat_map. exists (c3 - 1). split; [apply in_seq; lia|].
    apply in_map_iff. exists (c2 - 1). split; [|apply in_seq; lia]. replace (c2 - 1 + 1) with c2 by lia. replace (c3 - 1 + 1) with c3 by lia. replace (c4 - 1 + 1) with c4 by lia. auto.
Qed.
Lemma In_tp_faces : forall v nt es o nc n, In n (append_tp_faces v nt es o nc) <->
  exists j e c3 c4, nth_error es j = Some e /\ 1 <= c3 < o /\ 1 <= c4 < o /\ n = mkLN nt j (lin (o ^ 2) [(o - c3) * (o - c4); (o - c4) * c3; c3 * c4; c4 * (o - c3)] (verts v e) nc).
Proof.
  intros. unfold append_tp_faces. rewrite in_flat_map. split.
  - intros ([j e] & P & H). apply combine_seq_nth in P. rewrite Nat.sub_0_r in P. apply in_flat_map in H. destruct H as (i1 & I1 & H). apply in_map_iff in H. destruct H as (i2 & <- & I2). apply in_seq in I1, I2.
    exists j, e, (i2 + 1), (i1 + 1). split; [tauto|]. repeat split; auto; lia.
  - intros (j & e & c3 & c4 & P & C3 & C4 & ->). exists (j, e). split; [apply combine_seq_nth; rewrite Nat.sub_0_r; split; [lia|auto]|]. apply in_flat_map. exists (c4 - 1). split; [apply in_seq; lia|].
    apply in_map_iff. exists (c3 - 1). split; [|apply in_seq; lia]. cbn [fst snd]. replace (c4 - 1 + 1) with c4 by lia. replace (c3 - 1 + 1) with c3 by lia. auto.
Qed.
Lemma In_tp_bubbles : forall v nt o nc n, In n (append_tp_bubbles v nt o nc) <->
  exists c4 c5 c6, 1 <= c4 < o /\ 1 <= c5 < o /\ 1 <= c6 < o /\ n = mkLN nt 0 (lin (o ^ 3)
    [(o - c4) * (o - c5) * (o - c6); c4 * (o - c5) * (o - c6); c5 * c4 * (o - c6); (o - c4) * (o - c6) * c5; (o - c4) * (o - c5) * c6; c4 * (o - c5) * c6; c5 * c4 * c6; (o - c4) * c6 * c5]
    (verts v [0; 1; 2; 3; 4; 5; 6; 7]) nc).
Proof.
  intros. unfold append_tp_bubbles. rewrite in_flat_map. split.
  - intros (i1 & I1 & H). apply in_flat_map in H. destruct H as (i2 & I2 & H). apply in_map_iff in H. destruct H as (i3 & <- & I3). apply in_seq in I1, I2, I3.
    exists (i3 + 1), (i2 + 1), (i1 + 1). repeat split; auto; lia.
  - intros (c4 & c5 & c6 & C4 & C5 & C6 & ->). exists (c6 - 1). split; [apply in_seq; lia|]. apply in_flat_map. exists (c5 - 1). split; [apply in_seq; lia|].
    apply in_map_iff. exists (c4 - 1). split; [|apply in_seq; lia]. replace (c4 - 1 + 1) with c4 by lia. replace (c5 - 1 + 1) with c5 by lia. replace (c6 - 1 + 1) with c6 by lia. auto.
Qed.
(** *** Lengths *)
Lemma length_flat_sum : forall A B (f : A -> list B) l, length (flat_map f l) = list_sum (map (fun x => length (f x)) l).
Proof. intros A B f l. induction l; cbn; auto. rewrite app_length, IHl. auto. Qed.
Lemma list_sum_const : forall A (f : A -> nat) c l, (forall x, In x l -> f x = c) -> list_sum (map f l) = length l * c.
Proof. intros A f c l. induction l as [|a l IH]; intros H; cbn; auto. rewrite H by (left; auto). fold (list_sum (map f l)). rewrite IH by (intros; apply H; right; auto). auto. Qed.
Definition tri (m : nat) : nat := list_sum (map (fun i => m - i) (seq 0 m)).
Definition tet (m : nat) : nat := list_sum (map (fun i1 => list_sum (map (fun i2 => m - i1 - i2) (seq 0 m))) (seq 0 m)).
Lemma sum_shift : forall f n, list_sum (map f (seq 0 (S n))) = f 0 + list_sum (map (fun i => f (S i)) (seq 0 n)).
Proof. intros. cbn [seq map]. change (list_sum (f 0 :: map f (seq 1 n))) with (f 0 + list_sum (map f (seq 1 n))). rewrite <- seq_shift, map_map. auto. Qed.
Lemma tri_S : forall m, tri (S m) = S m + tri m.
Proof. intros. unfold tri. rewrite sum_shift. f_equal. Qed.
Lemma tri_eq : forall m, 2 * tri m = m * (m + 1).
Proof. induction m; [reflexivity|]. rewrite tri_S. nia. Qed.
Lemma tri_long : forall n m, m <= n -> list_sum (map (fun i => m - i) (seq 0 n)) = tri m.
Proof.
  induction n as [|n IH]; intros m L; [destruct m; [reflexivity|lia]|]. destruct m as [|m].
  - rewrite (@list_sum_const _ _ 0) by (intros; lia). unfold tri. cbn. lia.
  - rewrite sum_shift, tri_S. f_equal. rewrite <- IH by lia. auto.
Qed.
Lemma tet_eq : forall m, 6 * tet m = m * (m + 1) * (m + 2).
Proof.
  intros m. unfold tet. assert (E : forall n, list_sum (map (fun i1 => list_sum (map (fun i2 => n - i1 - i2) (seq 0 n))) (seq 0 n)) = list_sum (map (fun i1 => tri (n - i1)) (seq 0 n))).
  { intros n. f_equal. apply map_ext. intros a. apply tri_long. lia. }
  rewrite E. clear E. induction m as [|m IH]; [reflexivity|]. rewrite sum_shift. replace (list_sum (map (fun i => tri (S m - S i)) (seq 0 m))) with (list_sum (map (fun i1 => tri (m - i1)) (seq 0 m))) by (f_equal).
  assert (T := tri_eq (S m)). rewrite Nat.sub_0_r. nia.
Qed.
Lemma length_edges : forall v nt es o nc, length (append_edges v nt es o nc) = length es * (o - 1).
Proof.
  intros. unfold append_edges. rewrite length_flat_sum. rewrite (@list_sum_const _ _ (o - 1)) by (intros; rewrite map_length, seq_length; auto). rewrite combine_length, seq_length, Nat.min_id. auto.
Qed.
Lemma length_faces : forall v nt es o nc, length (append_faces v nt es o nc) = length es * tri (o - 2).
Proof.
  intros. unfold append_faces. rewrite length_flat_sum. rewrite (@list_sum_const _ _ (tri (o - 2))).
  - rewrite combine_length, seq_length, Nat.min_id. auto.
  - intros x _. rewrite length_flat_sum. unfold tri. f_equal. apply map_ext. intros a. rewrite map_length, seq_length. auto.
Qed.
Lemma length_bubbles : forall v nt o nc, length (append_bubbles v nt o nc) = tet (o - 3).
Proof.
  intros. unfold append_bubbles. rewrite length_flat_sum. unfold tet. f_equal. apply map_ext. intros i1. rewrite length_flat_sum. f_equal. apply map_ext. intros i2. rewrite map_length, seq_length. auto.
Qed.
Lemma length_tp_faces : forall v nt es o nc, length (append_tp_faces v nt es o nc) = length es * ((o - 1) * (o - 1)).
Proof.
  intros. unfold append_tp_faces. rewrite length_flat_sum. rewrite (@list_sum_const _ _ ((o - 1) * (o - 1))).
  - rewrite combine_length, seq_length, Nat.min_id. auto.
  - intros x _. rewrite length_flat_sum. rewrite (@list_sum_const _ _ (o - 1)) by (intros; rewrite map_length, seq_length; auto). rewrite seq_length. auto.
Qed.
Lemma length_tp_bubbles : forall v nt o nc, length (append_tp_bubbles v nt o nc) = (o - 1) * ((o - 1) * (o - 1)).
Proof.
  intros. unfold append_tp_bubbles. rewrite length_flat_sum. rewrite (@list_sum_const _ _ ((o - 1) * (o - 1))); [rewrite seq_length; auto|].
  intros x _. rewrite length_flat_sum. rewrite (@list_sum_const _ _ (o - 1)) by (intros; rewrite map_length, seq_length; auto). rewrite seq_length. auto.
Qed.
(** *** The lattice *)
Fixpoint comps (k n : nat) : list tuple :=
  match k with
  | 0 => if n =? 0 then [[]] else []
  | S k => flat_map (fun a => map (cons a) (comps k (n - a))) (seq 0 (S n))
  end.
Lemma comps_In : forall k n t, In t (comps k n) <-> length t = k /\ list_sum t = n.
Proof.
  induction k as [|k IH]; intros n t; cbn [comps].
  - destruct (Nat.eqb_spec n 0) as [->|N]; cbn; split.
    + intros [<-|[]]. auto.
    + intros [L _]. destruct t; [auto|discriminate].
    + tauto.
    + intros [L S]. destruct t; [cbn in S; lia|discriminate].
  - rewrite in_flat_map. split.
    + intros (a & A & H). apply in_map_iff in H. destruct H as (u & <- & H). apply IH in H. apply in_seq in A. destruct H as [L S]. split; [cbn; lia|]. change (list_sum (a :: u)) with (a + list_sum u). lia.
    + intros [L S]. destruct t as [|a u]; [discriminate|]. change (list_sum (a :: u)) with (a + list_sum u) in S. cbn in L. exists a. split; [apply in_seq; lia|]. apply in_map. apply IH. split; lia.
Qed.
Lemma NoDup_flat : forall A B (f : A -> list B) l, NoDup l -> (forall x, In x l -> NoDup (f x)) -> (forall x y z, In x l -> In y l -> In z (f x) -> In z (f y) -> x = y) -> NoDup (flat_map f l).
Proof.
  intros A B f l. induction l as [|a l IH]; intros ND N1 N2; cbn; [constructor|]. inversion ND as [|? ? NI ND']; subst.
  assert (T := IH ND' (fun x X => N1 x (or_intror X)) (fun x y z X Y => N2 x y z (or_intror X) (or_intror Y))). assert (H := N1 a (or_introl eq_refl)).
  assert (D : forall z, In z (f a) -> ~ In z (flat_map f l)).
  { intros z Z1 Z2. apply in_flat_map in Z2. destruct Z2 as (y & Y & Z2). assert (a = y) by (apply (N2 a y z); auto; [left|right]; auto). subst. auto. }
  clear -H T D. induction (f a) as [|b u IHu]; cbn; auto. inversion H; subst. constructor; [|apply IHu; auto; intros; apply D; right; auto].
  rewrite in_app_iff. intros [X|X]; auto. apply (D b); auto. left; auto.
Qed.
Lemma comps_NoDup : forall k n, NoDup (comps k n).
Proof.
  induction k as [|k IH]; intros n; cbn [comps].
  - destruct (n =? 0); repeat constructor; auto.
  - apply NoDup_flat; [apply seq_NoDup| |].
    + intros x _. apply FinFun.Injective_map_NoDup; auto. intros a b E. congruence.
    + intros x y z _ _ H1 H2. apply in_map_iff in H1, H2. destruct H1 as (? & <- & _), H2 as (? & E & _). congruence.
Qed.
Lemma comps_len_S : forall k n, length (comps (S k) (S n)) = length (comps k (S n)) + length (comps (S k) n).
Proof.
  intros. cbn [comps]. rewrite !length_flat_sum, sum_shift. rewrite map_length, Nat.sub_0_r. f_equal. f_equal. apply map_ext. intros a. rewrite !map_length. f_equal.
Qed.
Lemma comps_len_0 : forall k, length (comps k 0) = 1.
Proof. induction k; auto. cbn [comps seq flat_map]. rewrite app_nil_r, map_length. auto. Qed.
Lemma comps_len_1 : forall n, length (comps 1 n) = 1.
Proof. induction n; [reflexivity|]. rewrite comps_len_S, IHn. reflexivity. Qed.
Lemma comps_len_2 : forall n, length (comps 2 n) = n + 1.
Proof. induction n; [reflexivity|]. rewrite comps_len_S, IHn, comps_len_1. lia. Qed.
Lemma comps_len_3 : forall n, 2 * length (comps 3 n) = (n + 1) * (n + 2).
Proof. induction n; [reflexivity|]. rewrite comps_len_S, comps_len_2. nia. Qed.
Lemma comps_len_4 : forall n, 6 * length (comps 4 n) = (n + 1) * (n + 2) * (n + 3).
Proof. induction n; [reflexivity|]. rewrite comps_len_S. assert (H := comps_len_3 (S n)). nia. Qed.
Lemma fac_pos : forall n, 0 < fac n.
Proof. induction n; cbn [fac]; nia. Qed.
Lemma n_nod_1 : forall o, fac (o + 1) / (fac o * fac 1) = o + 1.
Proof. intros. replace (fac (o + 1)) with ((o + 1) * (fac o * fac 1)) by (rewrite Nat.add_1_r; cbn [fac]; lia). rewrite Nat.div_mul; auto. assert (H := fac_pos o). cbn [fac]. lia. Qed.
Lemma n_nod_2 : forall o, fac (o + 2) / (fac o * fac 2) = length (comps 3 o).
Proof.
  intros. replace (o + 2) with (S (S o)) by lia. change (fac (S (S o))) with (fac o * (o + 1) * (S o + 1)). assert (L := comps_len_3 o). assert (H := fac_pos o).
  replace (fac o * (o + 1) * (S o + 1)) with (length (comps 3 o) * (fac o * fac 2)); [rewrite Nat.div_mul; auto; cbn [fac]; lia|]. change (fac 2) with 2.
  transitivity (fac o * (2 * length (comps 3 o))); [lia|]. rewrite L. replace (S o + 1) with (o + 2) by lia. lia.
Qed.
Lemma n_nod_3 : forall o, fac (o + 3) / (fac o * fac 3) = length (comps 4 o).
Proof.
  intros. replace (o + 3) with (S (S (S o))) by lia. change (fac (S (S (S o)))) with (fac o * (o + 1) * (S o + 1) * (S (S o) + 1)). assert (L := comps_len_4 o). assert (H := fac_pos o).
  replace (fac o * (o + 1) * (S o + 1) * (S (S o) + 1)) with (length (comps 4 o) * (fac o * fac 3)); [rewrite Nat.div_mul; auto; change (fac 3) with 6; lia|]. change (fac 3) with 6.
  transitivity (fac o * (6 * length (comps 4 o))); [lia|]. rewrite L. replace (S o + 1) with (o + 2) by lia. replace (S (S o) + 1) with (o + 3) by lia. lia.
Qed.
(** *** Values of lin *)
Definition vert_nodes (n_v order : nat) : list lnode := map (fun k => mkLN 0 k (map (fun i => if i =? k then order else 0) (seq 0 n_v))) (seq 0 n_v).
Lemma lin_simplex : forall o n_v cs ent, 0 < o -> (forall v, In v ent -> v < n_v) ->
  lin o cs (verts (vert_nodes n_v o) ent) n_v = map (fun i => list_sum (map (fun p => if snd p =? i then fst p else 0) (combine cs ent))) (seq 0 n_v).
Proof.
  intros o n_v cs ent O E. unfold lin. apply map_ext_in. intros k K. apply in_seq in K. unfold verts.
  replace (list_sum (map (fun p => fst p * nth k (snd p) 0) (combine cs (map (fun v => ln_node (nth v (vert_nodes n_v o) (mkLN 0 0 []))) ent))))
    with (list_sum (map (fun p => if snd p =? k then fst p else 0) (combine cs ent)) * o); [apply Nat.div_mul; lia|].
  revert cs. induction ent as [|v ent IH]; intros [|c cs]; cbn [map combine]; auto.
  change (list_sum (?a :: ?l)) with (a + list_sum l). rewrite Nat.mul_add_distr_r, (IH (fun v V => E v (or_intror V)) cs). f_equal. cbn [fst snd].
  assert (V := E v (or_introl eq_refl)). unfold vert_nodes. rewrite nth_map_in with (da := 0) by (rewrite seq_length; auto). rewrite seq_nth by auto. cbn [ln_node plus].
  rewrite nth_map_in with (da := 0) by (rewrite seq_length; lia). rewrite seq_nth by lia. cbn [plus]. rewrite (Nat.eqb_sym v k). destruct (k =? v); lia.
Qed.
(** ** Simplices *)
Definition simplex_all (dim order : nat) : list lnode :=
  let n_v := dim + 1 in let v := vert_nodes n_v order in
  match dim with
  | 0 => v
  | 1 => v ++ append_edges v 3 [[0; 1]] order n_v
  | 2 => v ++ append_edges v 1 edges_2_3 order n_v ++ append_faces v 3 [[0; 1; 2]] order n_v
  | _ => v ++ append_edges v 1 edges_3_4 order n_v ++ append_faces v 2 faces_3_4 order n_v ++ append_bubbles v 3 order n_v
  end.
(** The vertices of the vertex / edge / face / cell of the node *)
Definition entity (dim : nat) (n : lnode) : list nat :=
  match ln_type n with
  | 0 => [ln_ent n]
  | 1 => nth (ln_ent n) (if dim =? 2 then edges_2_3 else edges_3_4) []
  | 2 => nth (ln_ent n) faces_3_4 []
  | _ => seq 0 (dim + 1)
  end.
Ltac nth_cases j H := destruct j as [|[|[|[|[|[|[|[|[|[|[|[|j]]]]]]]]]]]]; cbn [nth_error] in H; try discriminate H; try (destruct j; discriminate H); try (injection H as <-).
Ltac nth_cases2 j H := destruct j as [|[|[|[|[|[|[|[|[|[|[|[|j]]]]]]]]]]]]; cbn [nth_error] in H; try discriminate H; try (destruct j; discriminate H); try (injection H as <- <-).
Ltac lin_s := rewrite lin_simplex by (first [lia | intros ? HH; cbn in HH; lia]); cbn [plus map seq combine fst snd Nat.eqb list_sum fold_right].
Lemma sup2 : forall a b, support [a; b] = (if a =? 0 then [] else [0]) ++ (if b =? 0 then [] else [1]).
Proof. intros. unfold support. cbn [length seq filter nth]. destruct (a =? 0), (b =? 0); reflexivity. Qed.
Lemma sup3 : forall a b c, support [a; b; c] = (if a =? 0 then [] else [0]) ++ (if b =? 0 then [] else [1]) ++ (if c =? 0 then [] else [2]).
Proof. intros. unfold support. cbn [length seq filter nth]. destruct (a =? 0), (b =? 0), (c =? 0); reflexivity. Qed.
Lemma sup4 : forall a b c d, support [a; b; c; d] = (if a =? 0 then [] else [0]) ++ (if b =? 0 then [] else [1]) ++ (if c =? 0 then [] else [2]) ++ (if d =? 0 then [] else [3]).
Proof. intros. unfold support. cbn [length seq filter nth]. destruct (a =? 0), (b =? 0), (c =? 0), (d =? 0); reflexivity. Qed.
Ltac eqs := repeat match goal with |- context [?a =? 0] => first [replace (a =? 0) with true by (symmetry; apply Nat.eqb_eq; lia) | replace (a =? 0) with false by (symmetry; apply Nat.eqb_neq; lia)] end.
Ltac fin_s := split; [reflexivity|]; split; [change list_sum with (fold_right plus 0); cbn [fold_right]; lia|]; rewrite ?sup2, ?sup3, ?sup4; eqs; intros x; cbn; intuition lia.
Lemma simplex_all_ok : forall dim o n, 1 <= dim <= 3 -> 1 <= o -> In n (simplex_all dim o) ->
  length (ln_node n) = dim + 1 /\ list_sum (ln_node n) = o /\ same_set (support (ln_node n)) (entity dim n).
Proof.
  intros dim o n D O H.
  assert (V : forall m, In m (vert_nodes (dim + 1) o) -> length (ln_node m) = dim + 1 /\ list_sum (ln_node m) = o /\ same_set (support (ln_node m)) (entity dim m)).
  { intros m M. unfold vert_nodes in M. apply in_map_iff in M. destruct M as (k & <- & K). apply in_seq in K. cbn [ln_node ln_type ln_ent entity].
    destruct dim as [|[|[|[|]]]]; try lia; cbn [plus seq map] in *; destruct k as [|[|[|[|]]]]; try lia; cbn [Nat.eqb]; fin_s. }
  destruct dim as [|[|[|[|]]]]; try lia; cbn [simplex_all] in H; repeat rewrite in_app_iff in H.
  - destruct H as [H|H]; [auto|]. apply In_edges in H. destruct H as (j & e & c2 & J & C & ->). destruct j as [|[|]]; try discriminate. injection J as <-. cbn [ln_node]. cbn [plus]. lin_s. fin_s.
  - destruct H as [H|[H|H]]; [auto| |].
    + apply In_edges in H. destruct H as (j & e & c2 & J & C & ->). unfold edges_2_3 in J. nth_cases j J; cbn [ln_node plus]; lin_s; fin_s.
    + apply In_faces in H. destruct H as (j & e & c2 & c3 & J & C2 & C3 & C & ->). nth_cases j J; cbn [ln_node plus]; lin_s; fin_s.
  - destruct H as [H|[H|[H|H]]]; [auto| | |].
    + apply In_edges in H. destruct H as (j & e & c2 & J & C & ->). unfold edges_3_4 in J. nth_cases j J; cbn [ln_node plus]; lin_s; fin_s.
    + apply In_faces in H. destruct H as (j & e & c2 & c3 & J & C2 & C3 & C & ->). unfold faces_3_4 in J. nth_cases j J; cbn [ln_node plus]; lin_s; fin_s.
    + apply In_bubbles in H. destruct H as (c2 & c3 & c4 & C2 & C3 & C4 & C & ->). cbn [ln_node plus]; lin_s; fin_s.
Qed.

Ltac l_eq := match goal with t0 := _ |- _ => subst t0 end; f_equal; cbn [plus]; lin_s; repeat (f_equal; try lia).
Ltac v_in k := match goal with t0 := _ |- _ => subst t0 end; unfold vert_nodes; apply in_map_iff; exists k; split; [f_equal; cbn [plus seq map Nat.eqb]; repeat (f_equal; try lia) | apply in_seq; lia].
Ltac nz := repeat match goal with Z : ?x = 0 |- _ => subst x end.
Lemma lattice_1 : forall o a b, 1 <= o -> a + b = o -> exists n, ln_node n = [a; b] /\ In n (simplex_all 1 o).
Proof.
  intros o a b O S. set (t0 := [a; b]). cbn [simplex_all].
  destruct (Nat.eq_dec a 0) as [Z0|Z0]; destruct (Nat.eq_dec b 0) as [Z1|Z1].
  - exfalso; lia.
  - exists (mkLN 0 1 t0); split; [auto|]; rewrite !in_app_iff; left; v_in 1.
  - exists (mkLN 0 0 t0); split; [auto|]; rewrite !in_app_iff; left; v_in 0.
  - exists (mkLN 3 0 t0); split; [auto|]; rewrite !in_app_iff; right; apply In_edges; exists 0, [0; 1], b; split; [reflexivity|]; split; [lia|]; l_eq.
Qed.
Lemma lattice_2 : forall o a b c, 1 <= o -> a + b + c = o -> exists n, ln_node n = [a; b; c] /\ In n (simplex_all 2 o).
Proof.
  intros o a b c O S. set (t0 := [a; b; c]). cbn [simplex_all].
  destruct (Nat.eq_dec a 0) as [Z0|Z0]; destruct (Nat.eq_dec b 0) as [Z1|Z1]; destruct (Nat.eq_dec c 0) as [Z2|Z2].
  - exfalso; lia.
  - exists (mkLN 0 2 t0); split; [auto|]; rewrite !in_app_iff; left; v_in 2.
  - exists (mkLN 0 1 t0); split; [auto|]; rewrite !in_app_iff; left; v_in 1.
  - exists (mkLN 1 1 t0); split; [auto|]; rewrite !in_app_iff; right; left; apply In_edges; exists 1, [1; 2], c; repeat (split; [first [reflexivity|lia]|]); l_eq.
  - exists (mkLN 0 0 t0); split; [auto|]; rewrite !in_app_iff; left; v_in 0.
  - exists (mkLN 1 2 t0); split; [auto|]; rewrite !in_app_iff; right; left; apply In_edges; exists 2, [2; 0], a; repeat (split; [first [reflexivity|lia]|]); l_eq.
  - exists (mkLN 1 0 t0); split; [auto|]; rewrite !in_app_iff; right; left; apply In_edges; exists 0, [0; 1], b; repeat (split; [first [reflexivity|lia]|]); l_eq.
  - exists (mkLN 3 0 t0); split; [auto|]; rewrite !in_app_iff; right; right; apply In_faces; exists 0, [0; 1; 2], b, c; repeat (split; [first [reflexivity|lia]|]); l_eq.
Qed.
Lemma lattice_3 : forall o a b c d, 1 <= o -> a + b + c + d = o -> exists n, ln_node n = [a; b; c; d] /\ In n (simplex_all 3 o).
Proof.
  intros o a b c d O S. set (t0 := [a; b; c; d]). cbn [simplex_all].
  destruct (Nat.eq_dec a 0) as [Z0|Z0]; destruct (Nat.eq_dec b 0) as [Z1|Z1]; destruct (Nat.eq_dec c 0) as [Z2|Z2]; destruct (Nat.eq_dec d 0) as [Z3|Z3].
  - exfalso; lia.
  - exists (mkLN 0 3 t0); split; [auto|]; rewrite !in_app_iff; left; v_in 3.
  - exists (mkLN 0 2 t0); split; [auto|]; rewrite !in_app_iff; left; v_in 2.
  - exists (mkLN 1 5 t0); split; [auto|]; rewrite !in_app_iff; right; left; apply In_edges; exists 5, [2; 3], d; repeat (split; [first [reflexivity|lia]|]); l_eq.
  - exists (mkLN 0 1 t0); split; [auto|]; rewrite !in_app_iff; left; v_in 1.
  - exists (mkLN 1 4 t0); split; [auto|]; rewrite !in_app_iff; right; left; apply In_edges; exists 4, [1; 3], d; repeat (split; [first [reflexivity|lia]|]); l_eq.
  - exists (mkLN 1 1 t0); split; [auto|]; rewrite !in_app_iff; right; left; apply In_edges; exists 1, [1; 2], c; repeat (split; [first [reflexivity|lia]|]); l_eq.
  - exists (mkLN 2 3 t0); split; [auto|]; rewrite !in_app_iff; right; right; left; apply In_faces; exists 3, [1; 2; 3], c, d; repeat (split; [first [reflexivity|lia]|]); l_eq.
  - exists (mkLN 0 0 t0); split; [auto|]; rewrite !in_app_iff; left; v_in 0.
  - exists (mkLN 1 3 t0); split; [auto|]; rewrite !in_app_iff; right; left; apply In_edges; exists 3, [0; 3], d; repeat (split; [first [reflexivity|lia]|]); l_eq.
  - exists (mkLN 1 2 t0); split; [auto|]; rewrite !in_app_iff; right; left; apply In_edges; exists 2, [2; 0], a; repeat (split; [first [reflexivity|lia]|]); l_eq.
  - exists (mkLN 2 1 t0); split; [auto|]; rewrite !in_app_iff; right; right; left; apply In_faces; exists 1, [0; 3; 2], d, c; repeat (split; [first [reflexivity|lia]|]); l_eq.
  - exists (mkLN 1 0 t0); split; [auto|]; rewrite !in_app_iff; right; left; apply In_edges; exists 0, [0; 1], b; repeat (split; [first [reflexivity|lia]|]); l_eq.
  - exists (mkLN 2 2 t0); split; [auto|]; rewrite !in_app_iff; right; right; left; apply In_faces; exists 2, [0; 1; 3], b, d; repeat (split; [first [reflexivity|lia]|]); l_eq.
  - exists (mkLN 2 0 t0); split; [auto|]; rewrite !in_app_iff; right; right; left; apply In_faces; exists 0, [0; 2; 1], c, b; repeat (split; [first [reflexivity|lia]|]); l_eq.
  - exists (mkLN 3 0 t0); split; [auto|]; rewrite !in_app_iff; right; right; right; apply In_bubbles; exists b, c, d; repeat (split; [first [reflexivity|lia]|]); l_eq.
Qed.
Lemma simplex_len : forall dim o, 1 <= dim <= 3 -> 1 <= o -> length (simplex_all dim o) = length (comps (dim + 1) o).
Proof.
  intros dim o D O. assert (VL : forall n, length (vert_nodes n o) = n) by (intros; unfold vert_nodes; rewrite map_length, seq_length; auto).
  destruct o as [|o]; [lia|]. destruct dim as [|[|[|[|]]]]; try lia; cbn [simplex_all plus]; repeat rewrite app_length; rewrite ?length_edges, ?length_faces, ?length_bubbles, VL.
  - rewrite comps_len_2. cbn [length]. lia.
  - assert (C := comps_len_3 (S o)). assert (T := tri_eq (S o - 2)). cbn [length edges_2_3]. destruct o as [|o]; [cbn in T |- *; nia|]. replace (S (S o) - 2) with o in * by lia. nia.
  - assert (C := comps_len_4 (S o)). assert (T := tri_eq (S o - 2)). assert (T4 := tet_eq (S o - 3)). cbn [length edges_3_4 faces_3_4]. destruct o as [|[|o]]; [cbn in T, T4 |- *; nia|cbn in T, T4 |- *; nia|].
    replace (S (S (S o)) - 2) with (S o) in * by lia. replace (S (S (S o)) - 3) with o in * by lia. nia.
Qed.
Lemma simplex_nodes_eq : forall dim o, 1 <= dim <= 3 -> 1 <= o -> simplex_nodes dim o = Ok (simplex_all dim o).
Proof.
  intros dim o D O. unfold simplex_nodes. replace (3 <? dim) with false by (symmetry; apply Nat.ltb_ge; lia). replace (o =? 0) with false by (symmetry; apply Nat.eqb_neq; lia).
  replace (fac (o + dim) / (fac o * fac dim)) with (length (comps (dim + 1) o)) by (destruct dim as [|[|[|[|]]]]; try lia; [rewrite n_nod_1; apply comps_len_2|symmetry; apply n_nod_2|symmetry; apply n_nod_3]).
  change (map (fun k => mkLN 0 k (map (fun i => if i =? k then o else 0) (seq 0 (dim + 1)))) (seq 0 (dim + 1))) with (vert_nodes (dim + 1) o).
  match goal with |- bind (fill _ _ ?a) _ = _ => assert (E : a = simplex_all dim o) by (destruct dim as [|[|[|[|]]]]; try lia; reflexivity) end.
  rewrite E. unfold fill. rewrite simplex_len by auto. rewrite Nat.ltb_irrefl, Nat.sub_diag. cbn [repeat bind]. rewrite app_nil_r. unfold check_orders.
  replace (forallb _ _) with true; auto. symmetry. apply forallb_forall. intros n N. apply Nat.eqb_eq. apply simplex_all_ok in N; auto. tauto.
Qed.
Lemma nth_error_edges : forall v nt es o nc j ie e, nth_error es j = Some e -> ie < o - 1 ->
  nth_error (append_edges v nt es o nc) (j * (o - 1) + ie) = Some (mkLN nt j (lin o [o - (ie + 1); ie + 1] (verts v e) nc)).
Proof.
  intros v nt es o nc j ie e J I. unfold append_edges.
  assert (G : forall k es j, nth_error es j = Some e -> nth_error (flat_map (fun p : nat * list nat => map (fun ie => let c2 := ie + 1 in let c1 := o - c2 in
                  mkLN nt (fst p) (lin o [c1; c2] (verts v (snd p)) nc)) (seq 0 (o - 1))) (combine (seq k (length es)) es)) (j * (o - 1) + ie) = Some (mkLN nt (k + j) (lin o [o - (ie + 1); ie + 1] (verts v e) nc))).
  { clear J j es. intros k es. revert k. induction es as [|a es IH]; intros k j J; [destruct j; discriminate|]. cbn [length seq combine flat_map].
    destruct j as [|j].
    - injection J as ->. rewrite nth_error_app1 by (rewrite map_length, seq_length; lia). cbn [Nat.mul plus]. rewrite nth_error_map.
      rewrite (nth_error_nth' _ 0) by (rewrite seq_length; lia). rewrite seq_nth by lia. cbn [option_map plus fst snd]. rewrite Nat.add_0_r. auto.
    - rewrite nth_error_app2 by (rewrite map_length, seq_length; nia). rewrite map_length, seq_length. replace (S j * (o - 1) + ie - (o - 1)) with (j * (o - 1) + ie) by nia. etransitivity; [apply (IH (S k) j J)|]. do 2 f_equal. lia. }
  apply (G 0); auto.
Qed.

(** The edges of the simplex *)
Definition simplex_edges (dim : nat) : list (list nat) := match dim with 1 => [[0; 1]] | 2 => edges_2_3 | _ => edges_3_4 end.
Theorem C104_simplex_nodes : forall dim order, 1 <= dim <= 3 -> 1 <= order ->
  exists l, simplex_nodes dim order = Ok l /\
    NoDup (map ln_node l) /\
    (forall t, In t (map ln_node l) <-> simplex_point dim order t) /\
    (forall n, In n l -> same_set (support (ln_node n)) (entity dim n)) /\
    (forall k, k <= dim -> exists n, nth_error l k = Some n /\ ln_type n = 0 /\ ln_ent n = k /\ forall i, i <= dim -> nth i (ln_node n) 0 = if i =? k then order else 0) /\
    (forall j p q ie, nth_error (simplex_edges dim) j = Some [p; q] -> ie < order - 1 ->
       exists n, nth_error l (dim + 1 + j * (order - 1) + ie) = Some n /\ ln_ent n = j /\ same_set (support (ln_node n)) [p; q] /\
         nth p (ln_node n) 0 = order - (ie + 1) /\ nth q (ln_node n) 0 = ie + 1).
Proof.
  intros dim o D O. exists (simplex_all dim o). split; [apply simplex_nodes_eq; auto|].
  assert (IN : forall t, In t (map ln_node (simplex_all dim o)) <-> simplex_point dim o t).
  { intros t. rewrite in_map_iff. split.
    - intros (n & <- & N). apply simplex_all_ok in N; auto. split; tauto.
    - intros [L S]. destruct dim as [|[|[|[|]]]]; try lia.
      + destruct t as [|a [|b [|]]]; try discriminate L. apply lattice_1; auto. cbn in S. lia.
      + destruct t as [|a [|b [|c [|]]]]; try discriminate L. apply lattice_2; auto. cbn in S. lia.
      + destruct t as [|a [|b [|c [|d [|]]]]]; try discriminate L. apply lattice_3; auto. cbn in S. lia. }
  split; [|split; [exact IN|split; [intros n N; apply simplex_all_ok in N; tauto|split]]].
  - apply (NoDup_incl_NoDup (comps_NoDup (dim + 1) o)); [rewrite map_length, simplex_len; auto|]. intros t T. apply IN. apply comps_In in T. exact T.
  - intros k K. assert (E : nth_error (vert_nodes (dim + 1) o) k = Some (mkLN 0 k (map (fun i => if i =? k then o else 0) (seq 0 (dim + 1))))).
    { unfold vert_nodes. rewrite nth_error_map, (nth_error_nth' _ 0) by (rewrite seq_length; lia). rewrite seq_nth by lia. auto. }
    exists (mkLN 0 k (map (fun i => if i =? k then o else 0) (seq 0 (dim + 1)))). split.
    + rewrite <- E. assert (L : k < length (vert_nodes (dim + 1) o)) by (unfold vert_nodes; rewrite map_length, seq_length; lia).
      destruct dim as [|[|[|[|]]]]; try lia; cbn [simplex_all]; apply nth_error_app1; auto.
    + repeat split; auto. intros i I. cbn [ln_node]. rewrite nth_map_in with (da := 0) by (rewrite seq_length; lia). rewrite seq_nth by lia. auto.
  - intros j p q ie J I. assert (L : length (vert_nodes (dim + 1) o) = dim + 1) by (unfold vert_nodes; rewrite map_length, seq_length; lia).
    assert (K : j < length (simplex_edges dim)) by (apply nth_error_Some; congruence).
    assert (E : nth_error (simplex_all dim o) (dim + 1 + j * (o - 1) + ie) = Some (mkLN (if dim =? 1 then 3 else 1) j (lin o [o - (ie + 1); ie + 1] (verts (vert_nodes (dim + 1) o) [p; q]) (dim + 1)))).
    { rewrite <- (@nth_error_edges (vert_nodes (dim + 1) o) _ (simplex_edges dim) o (dim + 1) j ie [p; q] J I).
      destruct dim as [|[|[|[|]]]]; try lia; cbn [simplex_all]; rewrite nth_error_app2 by (rewrite L, <- Nat.add_assoc; apply Nat.le_add_r); rewrite L.
      - cbn [Nat.eqb simplex_edges]. f_equal; generalize (j * (o - 1)); intros; lia.
      - rewrite nth_error_app1 by (rewrite length_edges; cbn [simplex_edges length] in *; nia). cbn [Nat.eqb simplex_edges]. f_equal; generalize (j * (o - 1)); intros; lia.
      - rewrite nth_error_app1 by (rewrite length_edges; cbn [simplex_edges length] in *; nia). cbn [Nat.eqb simplex_edges]. f_equal; generalize (j * (o - 1)); intros; lia. }
    eexists. split; [exact E|]. assert (M := nth_error_In _ _ E). apply simplex_all_ok in M; auto. destruct M as (_ & _ & M). split; [auto|].
    clear E. destruct dim as [|[|[|[|]]]]; try lia; cbn [simplex_edges edges_2_3 edges_3_4] in J; nth_cases2 j J; cbn [ln_node plus] in *; (split; [intros x; rewrite (M x); cbn; tauto|]); lin_s; cbn [nth]; lia.
Qed.

(** ** Tensor product elements *)
Definition pt (o : nat) (is : list nat) : tuple := flat_map (fun i => [o - i; i]) is.
Definition tp_vert (dim o : nat) : list lnode :=
  map (fun p : nat * tuple => mkLN 0 (fst p) (flat_map (fun i => [o - o * i; o * i]) (snd p))) (combine (seq 0 (length (vertex_maps dim))) (vertex_maps dim)).
Definition tp_edges (dim : nat) : list (list nat) := match dim with 1 => [[0; 1]] | 2 => edges_2_4 | _ => edges_3_8 end.
Definition tp_all (dim order : nat) : list lnode :=
  let v := tp_vert dim order in let ncol := 2 * dim in
  match dim with
  | 1 => v ++ append_edges v 3 [[0; 1]] order ncol
  | 2 => v ++ append_edges v 1 edges_2_4 order ncol ++ append_tp_faces v 3 [[0; 1; 2; 3]] order ncol
  | _ => v ++ append_edges v 1 edges_3_8 order ncol ++ append_tp_faces v 2 faces_3_8 order ncol ++ append_tp_bubbles v 3 order ncol
  end.
(** The vertices of the smallest part of the cube containing the point: those whose
    multilinear function does not vanish there. *)
Definition tp_support (dim : nat) (t : tuple) : list nat :=
  filter (fun k => forallb (fun d => negb (nth (2 * d + nth d (nth k (vertex_maps dim) []) 0) t 0 =? 0)) (seq 0 dim)) (seq 0 (2 ^ dim)).
Definition tp_entity (dim : nat) (n : lnode) : list nat :=
  match ln_type n with
  | 0 => [ln_ent n]
  | 1 => nth (ln_ent n) (tp_edges dim) []
  | 2 => nth (ln_ent n) faces_3_8 []
  | _ => seq 0 (2 ^ dim)
  end.
Lemma div_ex : forall x y d, 0 < d -> x = y * d -> x / d = y.
Proof. intros x y d D ->. apply Nat.div_mul. lia. Qed.
Ltac zring := apply Nat2Z.inj; repeat first [rewrite Nat2Z.inj_add | rewrite Nat2Z.inj_mul | rewrite Nat2Z.inj_sub by lia]; ring.
Ltac lin_tp := unfold lin, verts, tp_vert, pt; cbn [vertex_maps length seq combine map fst snd flat_map app nth ln_node list_sum fold_right plus Nat.mul Nat.pow];
  repeat (apply f_equal2; [apply div_ex; [nia|zring]|]); try reflexivity.
Lemma tpe_1_0 : forall o c2, 1 <= c2 < o -> lin o [o - c2; c2] (verts (tp_vert 1 o) [0; 1]) 2 = pt o [c2].
Proof. intros. lin_tp. Qed.
Lemma tpe_2_0 : forall o c2, 1 <= c2 < o -> lin o [o - c2; c2] (verts (tp_vert 2 o) [0; 1]) 4 = pt o [c2; 0].
Proof. intros. lin_tp. Qed.
Lemma tpe_2_1 : forall o c2, 1 <= c2 < o -> lin o [o - c2; c2] (verts (tp_vert 2 o) [1; 2]) 4 = pt o [o; c2].
Proof. intros. lin_tp. Qed.
Lemma tpe_2_2 : forall o c2, 1 <= c2 < o -> lin o [o - c2; c2] (verts (tp_vert 2 o) [2; 3]) 4 = pt o [(o - c2); o].
Proof. intros. lin_tp. Qed.
Lemma tpe_2_3 : forall o c2, 1 <= c2 < o -> lin o [o - c2; c2] (verts (tp_vert 2 o) [3; 0]) 4 = pt o [0; (o - c2)].
Proof. intros. lin_tp. Qed.
Lemma tpf_2_0 : forall o c3 c4, 1 <= c3 < o -> 1 <= c4 < o -> lin (o ^ 2) [(o - c3) * (o - c4); (o - c4) * c3; c3 * c4; c4 * (o - c3)] (verts (tp_vert 2 o) [0; 1; 2; 3]) 4 = pt o [c3; c4].
Proof. intros. lin_tp. Qed.
Lemma tpe_3_0 : forall o c2, 1 <= c2 < o -> lin o [o - c2; c2] (verts (tp_vert 3 o) [0; 1]) 6 = pt o [c2; 0; 0].
Proof. intros. lin_tp. Qed.
Lemma tpe_3_1 : forall o c2, 1 <= c2 < o -> lin o [o - c2; c2] (verts (tp_vert 3 o) [1; 2]) 6 = pt o [o; c2; 0].
Proof. intros. lin_tp. Qed.
Lemma tpe_3_2 : forall o c2, 1 <= c2 < o -> lin o [o - c2; c2] (verts (tp_vert 3 o) [2; 3]) 6 = pt o [(o - c2); o; 0].
Proof. intros. lin_tp. Qed.
Lemma tpe_3_3 : forall o c2, 1 <= c2 < o -> lin o [o - c2; c2] (verts (tp_vert 3 o) [3; 0]) 6 = pt o [0; (o - c2); 0].
Proof. intros. lin_tp. Qed.
Lemma tpe_3_4 : forall o c2, 1 <= c2 < o -> lin o [o - c2; c2] (verts (tp_vert 3 o) [4; 5]) 6 = pt o [c2; 0; o].
Proof. intros. lin_tp. Qed.
Lemma tpe_3_5 : forall o c2, 1 <= c2 < o -> lin o [o - c2; c2] (verts (tp_vert 3 o) [5; 6]) 6 = pt o [o; c2; o].
Proof. intros. lin_tp. Qed.
Lemma tpe_3_6 : forall o c2, 1 <= c2 < o -> lin o [o - c2; c2] (verts (tp_vert 3 o) [6; 7]) 6 = pt o [(o - c2); o; o].
Proof. intros. lin_tp. Qed.
Lemma tpe_3_7 : forall o c2, 1 <= c2 < o -> lin o [o - c2; c2] (verts (tp_vert 3 o) [7; 4]) 6 = pt o [0; (o - c2); o].
Proof. intros. lin_tp. Qed.
Lemma tpe_3_8 : forall o c2, 1 <= c2 < o -> lin o [o - c2; c2] (verts (tp_vert 3 o) [0; 4]) 6 = pt o [0; 0; c2].
Proof. intros. lin_tp. Qed.
Lemma tpe_3_9 : forall o c2, 1 <= c2 < o -> lin o [o - c2; c2] (verts (tp_vert 3 o) [1; 5]) 6 = pt o [o; 0; c2].
Proof. intros. lin_tp. Qed.
Lemma tpe_3_10 : forall o c2, 1 <= c2 < o -> lin o [o - c2; c2] (verts (tp_vert 3 o) [2; 6]) 6 = pt o [o; o; c2].
Proof. intros. lin_tp. Qed.
Lemma tpe_3_11 : forall o c2, 1 <= c2 < o -> lin o [o - c2; c2] (verts (tp_vert 3 o) [3; 7]) 6 = pt o [0; o; c2].
Proof. intros. lin_tp. Qed.
Lemma tpf_3_0 : forall o c3 c4, 1 <= c3 < o -> 1 <= c4 < o -> lin (o ^ 2) [(o - c3) * (o - c4); (o - c4) * c3; c3 * c4; c4 * (o - c3)] (verts (tp_vert 3 o) [0; 3; 2; 1]) 6 = pt o [c4; c3; 0].
Proof. intros. lin_tp. Qed.
Lemma tpf_3_1 : forall o c3 c4, 1 <= c3 < o -> 1 <= c4 < o -> lin (o ^ 2) [(o - c3) * (o - c4); (o - c4) * c3; c3 * c4; c4 * (o - c3)] (verts (tp_vert 3 o) [0; 4; 7; 3]) 6 = pt o [0; c4; c3].
Proof. intros. lin_tp. Qed.
Lemma tpf_3_2 : forall o c3 c4, 1 <= c3 < o -> 1 <= c4 < o -> lin (o ^ 2) [(o - c3) * (o - c4); (o - c4) * c3; c3 * c4; c4 * (o - c3)] (verts (tp_vert 3 o) [0; 1; 5; 4]) 6 = pt o [c3; 0; c4].
Proof. intros. lin_tp. Qed.
Lemma tpf_3_3 : forall o c3 c4, 1 <= c3 < o -> 1 <= c4 < o -> lin (o ^ 2) [(o - c3) * (o - c4); (o - c4) * c3; c3 * c4; c4 * (o - c3)] (verts (tp_vert 3 o) [4; 5; 6; 7]) 6 = pt o [c3; c4; o].
Proof. intros. lin_tp. Qed.
Lemma tpf_3_4 : forall o c3 c4, 1 <= c3 < o -> 1 <= c4 < o -> lin (o ^ 2) [(o - c3) * (o - c4); (o - c4) * c3; c3 * c4; c4 * (o - c3)] (verts (tp_vert 3 o) [1; 2; 6; 5]) 6 = pt o [o; c3; c4].
Proof. intros. lin_tp. Qed.
Lemma tpf_3_5 : forall o c3 c4, 1 <= c3 < o -> 1 <= c4 < o -> lin (o ^ 2) [(o - c3) * (o - c4); (o - c4) * c3; c3 * c4; c4 * (o - c3)] (verts (tp_vert 3 o) [3; 7; 6; 2]) 6 = pt o [c4; o; c3].
Proof. intros. lin_tp. Qed.
Lemma tpb_3 : forall o c4 c5 c6, 1 <= c4 < o -> 1 <= c5 < o -> 1 <= c6 < o -> lin (o ^ 3)
    [(o - c4) * (o - c5) * (o - c6); c4 * (o - c5) * (o - c6); c5 * c4 * (o - c6); (o - c4) * (o - c6) * c5; (o - c4) * (o - c5) * c6; c4 * (o - c5) * c6; c5 * c4 * c6; (o - c4) * c6 * c5]
    (verts (tp_vert 3 o) [0; 1; 2; 3; 4; 5; 6; 7]) 6 = pt o [c4; c5; c6].
Proof. intros. lin_tp. Qed.
Ltac tp_e := first [rewrite tpe_1_0 by lia | rewrite tpe_2_0 by lia | rewrite tpe_2_1 by lia | rewrite tpe_2_2 by lia | rewrite tpe_2_3 by lia | rewrite tpe_3_0 by lia | rewrite tpe_3_1 by lia | rewrite tpe_3_2 by lia | rewrite tpe_3_3 by lia | rewrite tpe_3_4 by lia | rewrite tpe_3_5 by lia | rewrite tpe_3_6 by lia | rewrite tpe_3_7 by lia | rewrite tpe_3_8 by lia | rewrite tpe_3_9 by lia | rewrite tpe_3_10 by lia | rewrite tpe_3_11 by lia].
Ltac tp_f := first [rewrite tpf_2_0 by lia | rewrite tpf_3_0 by lia | rewrite tpf_3_1 by lia | rewrite tpf_3_2 by lia | rewrite tpf_3_3 by lia | rewrite tpf_3_4 by lia | rewrite tpf_3_5 by lia].
Ltac eqs2 := repeat match goal with |- context [?a =? 0] => first [replace (a =? 0) with true by (symmetry; apply Nat.eqb_eq; lia) | replace (a =? 0) with false by (symmetry; apply Nat.eqb_neq; lia)] end.
Lemma pt_cube : forall dim o is, length is = dim -> (forall i, In i is -> i <= o) -> cube_point dim o (pt o is).
Proof. intros dim o is L H. exists is. repeat split; auto. Qed.
Ltac fin_tp := split; [apply pt_cube; [reflexivity|intros ? HH; cbn [In] in HH; lia]|]; intros x;
  unfold tp_support; cbn [seq vertex_maps pt flat_map app nth Nat.mul Nat.pow plus filter forallb]; eqs2; cbn [negb andb]; cbn; tauto.
Lemma vert_pt : forall o is, (forall i, In i is -> i <= 1) -> flat_map (fun i => [o - o * i; o * i]) is = pt o (map (fun i => o * i) is).
Proof. intros o is H. unfold pt. induction is; cbn; auto. rewrite IHis; auto. intros; apply H; right; auto. Qed.
Lemma tp_all_ok : forall dim o n, 1 <= dim <= 3 -> 1 <= o -> In n (tp_all dim o) ->
  cube_point dim o (ln_node n) /\ same_set (tp_support dim (ln_node n)) (tp_entity dim n).
Proof.
  intros dim o n D O H.
  assert (V : forall m, In m (tp_vert dim o) -> cube_point dim o (ln_node m) /\ same_set (tp_support dim (ln_node m)) (tp_entity dim m)).
  { intros m M. unfold tp_vert in M. apply in_map_iff in M. destruct M as ([k is] & <- & K). cbn [fst snd ln_node].
    rewrite vert_pt by (destruct dim as [|[|[|[|]]]]; try lia; apply in_combine_r in K; cbn [vertex_maps In] in K; intros i I; repeat destruct K as [K|K]; subst; cbn in I; lia).
    destruct dim as [|[|[|[|]]]]; try lia; cbn [vertex_maps length seq combine In] in K; repeat (destruct K as [K|K]; [inversion K; subst k is; clear K; cbn [map]; fin_tp|]); destruct K. }
  destruct dim as [|[|[|[|]]]]; try lia; cbn [tp_all] in H; repeat rewrite in_app_iff in H.
  - destruct H as [H|H]; [auto|]. apply In_edges in H. destruct H as (j & e & c2 & J & C & ->). nth_cases j J; cbn [ln_node Nat.mul plus]; tp_e; fin_tp.
  - destruct H as [H|[H|H]]; [auto| |].
    + apply In_edges in H. destruct H as (j & e & c2 & J & C & ->). unfold edges_2_4 in J. nth_cases j J; cbn [ln_node Nat.mul plus]; tp_e; fin_tp.
    + apply In_tp_faces in H. destruct H as (j & e & c3 & c4 & J & C3 & C4 & ->). nth_cases j J; cbn [ln_node Nat.mul plus]; tp_f; fin_tp.
  - destruct H as [H|[H|[H|H]]]; [auto| | |].
    + apply In_edges in H. destruct H as (j & e & c2 & J & C & ->). unfold edges_3_8 in J. nth_cases j J; cbn [ln_node Nat.mul plus]; tp_e; fin_tp.
    + apply In_tp_faces in H. destruct H as (j & e & c3 & c4 & J & C3 & C4 & ->). unfold faces_3_8 in J. nth_cases j J; cbn [ln_node Nat.mul plus]; tp_f; fin_tp.
    + apply In_tp_bubbles in H. destruct H as (c4 & c5 & c6 & C4 & C5 & C6 & ->). cbn [ln_node Nat.mul plus]. rewrite tpb_3 by lia. fin_tp.
Qed.
Ltac ptq := unfold pt; cbn [flat_map app]; repeat (apply f_equal2; [lia|]); try reflexivity.
Lemma cases3 : forall a o, a <= o -> a = 0 \/ a = o \/ 1 <= a < o.
Proof. lia. Qed.
Lemma tp_lattice_1 : forall o a, 1 <= o -> a <= o -> exists n, ln_node n = pt o [a] /\ In n (tp_all 1 o).
Proof.
  intros. cbn [tp_all].
  destruct (@cases3 a o ltac:(lia)) as [Za|[Za|Za]].
  - exists (mkLN 0 0 (pt o (map (fun i => o * i) [0]))); split; [cbn [map ln_node]; ptq|]; rewrite !in_app_iff; left; unfold tp_vert; apply in_map_iff; exists (0, [0]); cbn [fst snd]; split; [rewrite vert_pt by (intros ? HH; cbn [In] in HH; lia); reflexivity|cbn; tauto].
  - exists (mkLN 0 1 (pt o (map (fun i => o * i) [1]))); split; [cbn [map ln_node]; ptq|]; rewrite !in_app_iff; left; unfold tp_vert; apply in_map_iff; exists (1, [1]); cbn [fst snd]; split; [rewrite vert_pt by (intros ? HH; cbn [In] in HH; lia); reflexivity|cbn; tauto].
  - eexists (mkLN _ 0 _); split; [|rewrite !in_app_iff; right; apply In_edges; exists 0, [0; 1], a; split; [reflexivity|]; split; [lia|reflexivity]]; cbn [ln_node Nat.mul plus]; rewrite tpe_1_0 by lia; ptq.
Qed.
Lemma tp_lattice_2 : forall o a b, 1 <= o -> a <= o -> b <= o -> exists n, ln_node n = pt o [a; b] /\ In n (tp_all 2 o).
Proof.
  intros. cbn [tp_all].
  destruct (@cases3 a o ltac:(lia)) as [Za|[Za|Za]]; destruct (@cases3 b o ltac:(lia)) as [Zb|[Zb|Zb]].
  - exists (mkLN 0 0 (pt o (map (fun i => o * i) [0; 0]))); split; [cbn [map ln_node]; ptq|]; rewrite !in_app_iff; left; unfold tp_vert; apply in_map_iff; exists (0, [0; 0]); cbn [fst snd]; split; [rewrite vert_pt by (intros ? HH; cbn [In] in HH; lia); reflexivity|cbn; tauto].
  - exists (mkLN 0 3 (pt o (map (fun i => o * i) [0; 1]))); split; [cbn [map ln_node]; ptq|]; rewrite !in_app_iff; left; unfold tp_vert; apply in_map_iff; exists (3, [0; 1]); cbn [fst snd]; split; [rewrite vert_pt by (intros ? HH; cbn [In] in HH; lia); reflexivity|cbn; tauto].
  - eexists (mkLN _ 3 _); split; [|rewrite !in_app_iff; right; left; apply In_edges; exists 3, [3; 0], (o - b); split; [reflexivity|]; split; [lia|reflexivity]]; cbn [ln_node Nat.mul plus]; rewrite tpe_2_3 by lia; ptq.
  - exists (mkLN 0 1 (pt o (map (fun i => o * i) [1; 0]))); split; [cbn [map ln_node]; ptq|]; rewrite !in_app_iff; left; unfold tp_vert; apply in_map_iff; exists (1, [1; 0]); cbn [fst snd]; split; [rewrite vert_pt by (intros ? HH; cbn [In] in HH; lia); reflexivity|cbn; tauto].
  - exists (mkLN 0 2 (pt o (map (fun i => o * i) [1; 1]))); split; [cbn [map ln_node]; ptq|]; rewrite !in_app_iff; left; unfold tp_vert; apply in_map_iff; exists (2, [1; 1]); cbn [fst snd]; split; [rewrite vert_pt by (intros ? HH; cbn [In] in HH; lia); reflexivity|cbn; tauto].
  - eexists (mkLN _ 1 _); split; [|rewrite !in_app_iff; right; left; apply In_edges; exists 1, [1; 2], b; split; [reflexivity|]; split; [lia|reflexivity]]; cbn [ln_node Nat.mul plus]; rewrite tpe_2_1 by lia; ptq.
  - eexists (mkLN _ 0 _); split; [|rewrite !in_app_iff; right; left; apply In_edges; exists 0, [0; 1], a; split; [reflexivity|]; split; [lia|reflexivity]]; cbn [ln_node Nat.mul plus]; rewrite tpe_2_0 by lia; ptq.
  - eexists (mkLN _ 2 _); split; [|rewrite !in_app_iff; right; left; apply In_edges; exists 2, [2; 3], (o - a); split; [reflexivity|]; split; [lia|reflexivity]]; cbn [ln_node Nat.mul plus]; rewrite tpe_2_2 by lia; ptq.
  - eexists (mkLN _ 0 _); split; [|rewrite !in_app_iff; right; right; apply In_tp_faces; exists 0, [0; 1; 2; 3], a, b; split; [reflexivity|]; split; [lia|]; split; [lia|reflexivity]]; cbn [ln_node Nat.mul plus]; rewrite tpf_2_0 by lia; ptq.
Qed.
Lemma tp_lattice_3 : forall o a b c, 1 <= o -> a <= o -> b <= o -> c <= o -> exists n, ln_node n = pt o [a; b; c] /\ In n (tp_all 3 o).
Proof.
  intros. cbn [tp_all].
  destruct (@cases3 a o ltac:(lia)) as [Za|[Za|Za]]; destruct (@cases3 b o ltac:(lia)) as [Zb|[Zb|Zb]]; destruct (@cases3 c o ltac:(lia)) as [Zc|[Zc|Zc]].
  - exists (mkLN 0 0 (pt o (map (fun i => o * i) [0; 0; 0]))); split; [cbn [map ln_node]; ptq|]; rewrite !in_app_iff; left; unfold tp_vert; apply in_map_iff; exists (0, [0; 0; 0]); cbn [fst snd]; split; [rewrite vert_pt by (intros ? HH; cbn [In] in HH; lia); reflexivity|cbn; tauto].
  - exists (mkLN 0 4 (pt o (map (fun i => o * i) [0; 0; 1]))); split; [cbn [map ln_node]; ptq|]; rewrite !in_app_iff; left; unfold tp_vert; apply in_map_iff; exists (4, [0; 0; 1]); cbn [fst snd]; split; [rewrite vert_pt by (intros ? HH; cbn [In] in HH; lia); reflexivity|cbn; tauto].
  - eexists (mkLN _ 8 _); split; [|rewrite !in_app_iff; right; left; apply In_edges; exists 8, [0; 4], c; split; [reflexivity|]; split; [lia|reflexivity]]; cbn [ln_node Nat.mul plus]; rewrite tpe_3_8 by lia; ptq.
  - exists (mkLN 0 3 (pt o (map (fun i => o * i) [0; 1; 0]))); split; [cbn [map ln_node]; ptq|]; rewrite !in_app_iff; left; unfold tp_vert; apply in_map_iff; exists (3, [0; 1; 0]); cbn [fst snd]; split; [rewrite vert_pt by (intros ? HH; cbn [In] in HH; lia); reflexivity|cbn; tauto].
  - exists (mkLN 0 7 (pt o (map (fun i => o * i) [0; 1; 1]))); split; [cbn [map ln_node]; ptq|]; rewrite !in_app_iff; left; unfold tp_vert; apply in_map_iff; exists (7, [0; 1; 1]); cbn [fst snd]; split; [rewrite vert_pt by (intros ? HH; cbn [In] in HH; lia); reflexivity|cbn; tauto].
  - eexists (mkLN _ 11 _); split; [|rewrite !in_app_iff; right; left; apply In_edges; exists 11, [3; 7], c; split; [reflexivity|]; split; [lia|reflexivity]]; cbn [ln_node Nat.mul plus]; rewrite tpe_3_11 by lia; ptq.
  - eexists (mkLN _ 3 _); split; [|rewrite !in_app_iff; right; left; apply In_edges; exists 3, [3; 0], (o - b); split; [reflexivity|]; split; [lia|reflexivity]]; cbn [ln_node Nat.mul plus]; rewrite tpe_3_3 by lia; ptq.
  - eexists (mkLN _ 7 _); split; [|rewrite !in_app_iff; right; left; apply In_edges; exists 7, [7; 4], (o - b); split; [reflexivity|]; split; [lia|reflexivity]]; cbn [ln_node Nat.mul plus]; rewrite tpe_3_7 by lia; ptq.
  - eexists (mkLN _ 1 _); split; [|rewrite !in_app_iff; right; right; left; apply In_tp_faces; exists 1, [0; 4; 7; 3], c, b; split; [reflexivity|]; split; [lia|]; split; [lia|reflexivity]]; cbn [ln_node Nat.mul plus]; rewrite tpf_3_1 by lia; ptq.
  - exists (mkLN 0 1 (pt o (map (fun i => o * i) [1; 0; 0]))); split; [cbn [map ln_node]; ptq|]; rewrite !in_app_iff; left; unfold tp_vert; apply in_map_iff; exists (1, [1; 0; 0]); cbn [fst snd]; split; [rewrite vert_pt by (intros ? HH; cbn [In] in HH; lia); reflexivity|cbn; tauto].
  - exists (mkLN 0 5 (pt o (map (fun i => o * i) [1; 0; 1]))); split; [cbn [map ln_node]; ptq|]; rewrite !in_app_iff; left; unfold tp_vert; apply in_map_iff; exists (5, [1; 0; 1]); cbn [fst snd]; split; [rewrite vert_pt by (intros ? HH; cbn [In] in HH; lia); reflexivity|cbn; tauto].
  - eexists (mkLN _ 9 _); split; [|rewrite !in_app_iff; right; left; apply In_edges; exists 9, [1; 5], c; split; [reflexivity|]; split; [lia|reflexivity]]; cbn [ln_node Nat.mul plus]; rewrite tpe_3_9 by lia; ptq.
  - exists (mkLN 0 2 (pt o (map (fun i => o * i) [1; 1; 0]))); split; [cbn [map ln_node]; ptq|]; rewrite !in_app_iff; left; unfold tp_vert; apply in_map_iff; exists (2, [1; 1; 0]); cbn [fst snd]; split; [rewrite vert_pt by (intros ? HH; cbn [In] in HH; lia); reflexivity|cbn; tauto].
  - exists (mkLN 0 6 (pt o (map (fun i => o * i) [1; 1; 1]))); split; [cbn [map ln_node]; ptq|]; rewrite !in_app_iff; left; unfold tp_vert; apply in_map_iff; exists (6, [1; 1; 1]); cbn [fst snd]; split; [rewrite vert_pt by (intros ? HH; cbn [In] in HH; lia); reflexivity|cbn; tauto].
  - eexists (mkLN _ 10 _); split; [|rewrite !in_app_iff; right; left; apply In_edges; exists 10, [2; 6], c; split; [reflexivity|]; split; [lia|reflexivity]]; cbn [ln_node Nat.mul plus]; rewrite tpe_3_10 by lia; ptq.
  - eexists (mkLN _ 1 _); split; [|rewrite !in_app_iff; right; left; apply In_edges; exists 1, [1; 2], b; split; [reflexivity|]; split; [lia|reflexivity]]; cbn [ln_node Nat.mul plus]; rewrite tpe_3_1 by lia; ptq.
  - eexists (mkLN _ 5 _); split; [|rewrite !in_app_iff; right; left; apply In_edges; exists 5, [5; 6], b; split; [reflexivity|]; split; [lia|reflexivity]]; cbn [ln_node Nat.mul plus]; rewrite tpe_3_5 by lia; ptq.
  - eexists (mkLN _ 4 _); split; [|rewrite !in_app_iff; right; right; left; apply In_tp_faces; exists 4, [1; 2; 6; 5], b, c; split; [reflexivity|]; split; [lia|]; split; [lia|reflexivity]]; cbn [ln_node Nat.mul plus]; rewrite tpf_3_4 by lia; ptq.
  - eexists (mkLN _ 0 _); split; [|rewrite !in_app_iff; right; left; apply In_edges; exists 0, [0; 1], a; split; [reflexivity|]; split; [lia|reflexivity]]; cbn [ln_node Nat.mul plus]; rewrite tpe_3_0 by lia; ptq.
  - eexists (mkLN _ 4 _); split; [|rewrite !in_app_iff; right; left; apply In_edges; exists 4, [4; 5], a; split; [reflexivity|]; split; [lia|reflexivity]]; cbn [ln_node Nat.mul plus]; rewrite tpe_3_4 by lia; ptq.
  - eexists (mkLN _ 2 _); split; [|rewrite !in_app_iff; right; right; left; apply In_tp_faces; exists 2, [0; 1; 5; 4], a, c; split; [reflexivity|]; split; [lia|]; split; [lia|reflexivity]]; cbn [ln_node Nat.mul plus]; rewrite tpf_3_2 by lia; ptq.
  - eexists (mkLN _ 2 _); split; [|rewrite !in_app_iff; right; left; apply In_edges; exists 2, [2; 3], (o - a); split; [reflexivity|]; split; [lia|reflexivity]]; cbn [ln_node Nat.mul plus]; rewrite tpe_3_2 by lia; ptq.
  - eexists (mkLN _ 6 _); split; [|rewrite !in_app_iff; right; left; apply In_edges; exists 6, [6; 7], (o - a); split; [reflexivity|]; split; [lia|reflexivity]]; cbn [ln_node Nat.mul plus]; rewrite tpe_3_6 by lia; ptq.
  - eexists (mkLN _ 5 _); split; [|rewrite !in_app_iff; right; right; left; apply In_tp_faces; exists 5, [3; 7; 6; 2], c, a; split; [reflexivity|]; split; [lia|]; split; [lia|reflexivity]]; cbn [ln_node Nat.mul plus]; rewrite tpf_3_5 by lia; ptq.
  - eexists (mkLN _ 0 _); split; [|rewrite !in_app_iff; right; right; left; apply In_tp_faces; exists 0, [0; 3; 2; 1], b, a; split; [reflexivity|]; split; [lia|]; split; [lia|reflexivity]]; cbn [ln_node Nat.mul plus]; rewrite tpf_3_0 by lia; ptq.
  - eexists (mkLN _ 3 _); split; [|rewrite !in_app_iff; right; right; left; apply In_tp_faces; exists 3, [4; 5; 6; 7], a, b; split; [reflexivity|]; split; [lia|]; split; [lia|reflexivity]]; cbn [ln_node Nat.mul plus]; rewrite tpf_3_3 by lia; ptq.
  - eexists (mkLN _ 0 _); split; [|rewrite !in_app_iff; right; right; right; apply In_tp_bubbles; exists a, b, c; split; [lia|]; split; [lia|]; split; [lia|reflexivity]]; cbn [ln_node Nat.mul plus]; rewrite tpb_3 by lia; ptq.
Qed.
Fixpoint cubes (d o : nat) : list tuple := match d with 0 => [[]] | S d => flat_map (fun i => map (fun t => o - i :: i :: t) (cubes d o)) (seq 0 (S o)) end.
Lemma cubes_In : forall d o t, In t (cubes d o) -> cube_point d o t.
Proof.
  induction d as [|d IH]; intros o t H; cbn [cubes] in H.
  - destruct H as [<-|[]]. exists []. repeat split; auto. intros i [].
  - apply in_flat_map in H. destruct H as (i & I & H). apply in_seq in I. apply in_map_iff in H. destruct H as (u & <- & U). apply IH in U. destruct U as (is & L & B & ->).
    exists (i :: is). repeat split; [cbn; lia|]. intros j [<-|J]; [lia|auto].
Qed.
Lemma cubes_NoDup : forall d o, NoDup (cubes d o).
Proof.
  induction d as [|d IH]; intros o; cbn [cubes]; [repeat constructor; auto|]. apply NoDup_flat; [apply seq_NoDup| |].
  - intros x _. apply FinFun.Injective_map_NoDup; auto. intros a b E. congruence.
  - intros x y z _ _ H1 H2. apply in_map_iff in H1, H2. destruct H1 as (? & <- & _), H2 as (? & E & _). congruence.
Qed.
Lemma cubes_len : forall d o, length (cubes d o) = (o + 1) ^ d.
Proof.
  induction d as [|d IH]; intros o; [reflexivity|]. cbn [cubes]. rewrite length_flat_sum. rewrite (@list_sum_const _ _ ((o + 1) ^ d)) by (intros; rewrite map_length; auto). rewrite seq_length. cbn [Nat.pow]. nia.
Qed.
Lemma tp_len : forall dim o, 1 <= dim <= 3 -> 1 <= o -> length (tp_all dim o) = (o + 1) ^ dim.
Proof.
  intros dim o D O. destruct o as [|o]; [lia|].
  destruct dim as [|[|[|[|]]]]; try lia; cbn [tp_all]; repeat rewrite app_length; rewrite ?length_edges, ?length_tp_faces, ?length_tp_bubbles; unfold tp_vert; rewrite map_length; cbn [vertex_maps length seq combine edges_2_4 edges_3_8 faces_3_8]; replace (S o - 1) with o by lia; cbn [Nat.pow]; nia.
Qed.
Lemma cube_sum : forall dim o t, cube_point dim o t -> list_sum t = o * dim.
Proof.
  intros dim o t (is & L & B & ->). revert dim L. induction is as [|i is IH]; intros dim L; [cbn in L |- *; lia|]. destruct dim as [|dim]; [discriminate|]. cbn [flat_map app]. change (list_sum (?a :: ?b :: ?l)) with (a + (b + list_sum l)).
  rewrite (IH (fun j J => B j (or_intror J)) dim) by (cbn in L; lia). assert (I := B i (or_introl eq_refl)). nia.
Qed.
Lemma tp_nodes_eq : forall dim o, 1 <= dim <= 3 -> 1 <= o -> tp_nodes dim o = Ok (tp_all dim o).
Proof.
  intros dim o D O. unfold tp_nodes. replace (o =? 0) with false by (symmetry; apply Nat.eqb_neq; lia).
  match goal with |- bind (fill _ _ ?a) _ = _ => assert (E : a = tp_all dim o) by (destruct dim as [|[|[|[|]]]]; try lia; reflexivity) end.
  rewrite E. unfold fill. rewrite tp_len by auto. rewrite Nat.ltb_irrefl, Nat.sub_diag. cbn [repeat bind]. rewrite app_nil_r. unfold check_orders.
  replace (forallb _ _) with true; auto. symmetry. apply forallb_forall. intros n N. apply Nat.eqb_eq. apply tp_all_ok in N; auto. apply cube_sum. tauto.
Qed.
Theorem C104_tensor_nodes : forall dim order, 1 <= dim <= 3 -> 1 <= order ->
  exists l, tp_nodes dim order = Ok l /\
    NoDup (map ln_node l) /\
    (forall t, In t (map ln_node l) <-> cube_point dim order t) /\
    (forall n, In n l -> same_set (tp_support dim (ln_node n)) (tp_entity dim n)) /\
    (forall k, k < 2 ^ dim -> exists n, nth_error l k = Some n /\ ln_type n = 0 /\ ln_ent n = k /\ ln_node n = flat_map (fun i => [order - order * i; order * i]) (nth k (vertex_maps dim) [])) /\
    (forall j p q ie, nth_error (tp_edges dim) j = Some [p; q] -> ie < order - 1 ->
       exists n, nth_error l (2 ^ dim + j * (order - 1) + ie) = Some n /\ ln_ent n = j /\ same_set (tp_support dim (ln_node n)) [p; q] /\
         exists d, d < dim /\ nth d (nth p (vertex_maps dim) []) 0 <> nth d (nth q (vertex_maps dim) []) 0 /\
           nth (2 * d + nth d (nth q (vertex_maps dim) []) 0) (ln_node n) 0 = ie + 1).
Proof.
  intros dim o D O. exists (tp_all dim o). split; [apply tp_nodes_eq; auto|].
  assert (IN : forall t, In t (map ln_node (tp_all dim o)) <-> cube_point dim o t).
  { intros t. rewrite in_map_iff. split.
    - intros (n & <- & N). apply tp_all_ok in N; auto. tauto.
    - intros (is & L & B & ->). destruct dim as [|[|[|[|]]]]; try lia.
      + destruct is as [|a [|]]; try discriminate L. apply tp_lattice_1; auto. apply B; cbn; auto.
      + destruct is as [|a [|b [|]]]; try discriminate L. apply tp_lattice_2; auto; apply B; cbn; auto.
      + destruct is as [|a [|b [|c [|]]]]; try discriminate L. apply tp_lattice_3; auto; apply B; cbn; auto. }
  split; [|split; [exact IN|split; [intros n N; apply tp_all_ok in N; tauto|]]].
  - apply (NoDup_incl_NoDup (cubes_NoDup dim o)); [rewrite map_length, tp_len, cubes_len; auto|]. intros t T. apply IN. apply cubes_In in T. exact T.
  - assert (L : length (tp_vert dim o) = 2 ^ dim) by (unfold tp_vert; rewrite map_length; destruct dim as [|[|[|[|]]]]; try lia; reflexivity). split.
    + intros k K. exists (mkLN 0 k (flat_map (fun i => [o - o * i; o * i]) (nth k (vertex_maps dim) []))). split; [|repeat split; auto].
      transitivity (nth_error (tp_vert dim o) k).
      * destruct dim as [|[|[|[|]]]]; try lia; cbn [tp_all]; apply nth_error_app1; lia.
      * unfold tp_vert. rewrite nth_error_map. destruct dim as [|[|[|[|]]]]; try lia; do 8 (destruct k as [|k]; [reflexivity || (cbn in K; lia)|]); cbn in K; lia.
    + intros j p q ie J I.
      assert (K : j < length (tp_edges dim)) by (apply nth_error_Some; congruence).
      assert (E : nth_error (tp_all dim o) (2 ^ dim + j * (o - 1) + ie) = Some (mkLN (if dim =? 1 then 3 else 1) j (lin o [o - (ie + 1); ie + 1] (verts (tp_vert dim o) [p; q]) (2 * dim)))).
      { rewrite <- (@nth_error_edges (tp_vert dim o) _ (tp_edges dim) o (2 * dim) j ie [p; q] J I).
        destruct dim as [|[|[|[|]]]]; try lia; cbn [tp_all]; rewrite nth_error_app2 by (rewrite L, <- Nat.add_assoc; apply Nat.le_add_r); rewrite L;
          try (rewrite nth_error_app1 by (rewrite length_edges; cbn [tp_edges edges_2_4 edges_3_8 length Nat.pow] in *; nia)); cbn [Nat.eqb tp_edges]; f_equal; generalize (j * (o - 1)); intros; lia. }
      eexists. split; [exact E|]. assert (M := nth_error_In _ _ E). apply tp_all_ok in M; auto. destruct M as (_ & M). split; [auto|].
      clear E. destruct dim as [|[|[|[|]]]]; try lia; cbn [tp_edges edges_2_4 edges_3_8] in J; nth_cases2 j J; (split; [intros x; rewrite (M x); cbn; tauto|]); clear M;
      first [exists 0; split; [lia|]; split; [cbn; lia|]; cbn [ln_node Nat.mul plus]; tp_e; cbn; lia | exists 1; split; [lia|]; split; [cbn; lia|]; cbn [ln_node Nat.mul plus]; tp_e; cbn; lia | exists 2; split; [lia|]; split; [cbn; lia|]; cbn [ln_node Nat.mul plus]; tp_e; cbn; lia].
Qed.
(** The cubic triangle and the quadratic hexahedron *)
Example C104_triangle_3 : bind (simplex_nodes 2 3) (fun l => Ok (map ln_node l)) =
  Ok [[3;0;0]; [0;3;0]; [0;0;3]; [2;1;0]; [1;2;0]; [0;2;1]; [0;1;2]; [1;0;2]; [2;0;1]; [1;1;1]].
Proof. vm_compute. reflexivity. Qed.
Example C104_hex_2 : bind (tp_nodes 3 2) (fun l => Ok (length l, nth_error (map ln_node l) 26, nth_error (map ln_node l) 20)) = Ok (27, Some [1;1;1;1;1;1], Some [1;1;1;1;2;0]).
Proof. vm_compute. reflexivity. Qed.
Print Assumptions C104_simplex_nodes.
Print Assumptions C104_tensor_nodes.
