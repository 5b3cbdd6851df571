(** C120-C122: the DOF connectivity of nodal fields. *)
From Coq Require Import Permutation Reals Lra.
From Verif Require Import Base M_dofs M_mesh M_nls M_lagnodes M_lagrange P_lagnodes L_lagrange P_lagrange M_facet L_facet L_econn S_econn L_econn2 L_econn3 L_econn4.
Set Implicit Arguments.
Open Scope nat_scope.

(** The vertices of the k-th cell of the region *)
Definition cell_of (m : cmesh) (r : region) (k : nat) : list nat := nth (nth k (r_cells r) 0) (m_cells m) [].
(** The DOF of the node [a] of the k-th cell *)
Definition dof_of (rows : list (list nat)) (k a : nat) : nat := nth a (nth k rows []) 0.

Section Gen.
Variables (g : gel) (nodes : list lnode) (o nf : nat) (w : lnode -> list nat) (V E F B : list lnode) (m : cmesh) (r : region) (n_vert : nat).
Hypothesis CT : ctype g nodes o nf w V E F B.
Hypothesis MO : mesh_ok g m n_vert.
Hypothesis FO : faces_ok g m.
Hypothesis RO : region_ok m r.
Lemma econn_ok : exists rows, econn g nodes o m r = Ok rows /\ length rows = length (r_cells r) /\
  (forall k, k < length (r_cells r) -> econn_row g nodes o m r k = Ok (nth k rows []) /\ length (nth k rows []) = length nodes).
Proof.
  unfold econn. destruct (@mapM_ok _ _ (econn_row g nodes o m r) (seq 0 (length (r_cells r)))) as (rows & R1 & R2 & R3).
  - intros k K. apply in_seq in K. destruct (econn_row_ok CT MO RO (k := k)) as (row & H & _); [lia|]. eauto.
  - exists rows. split; auto. rewrite seq_length in *. split; auto. intros k K. specialize (R3 k 0 [] K). rewrite seq_nth in R3 by auto. cbn [plus] in R3. split; auto.
    destruct (econn_row_ok CT MO RO K) as (row & H & L & _). congruence.
Qed.
Lemma gen_iff : exists rows, econn g nodes o m r = Ok rows /\ length rows = length (r_cells r) /\ (forall row, In row rows -> length row = length nodes) /\
  (forall k k' a a', k < length rows -> k' < length rows -> a < length nodes -> a' < length nodes ->
    (dof_of rows k a = dof_of rows k' a' <-> forall v, gw (cell_of m r k) (w (nth a nodes ln0)) v = gw (cell_of m r k') (w (nth a' nodes ln0)) v)) /\
  (forall k a, k < length rows -> a < length nodes -> dof_of rows k a < n_nod nodes r) /\
  (forall d, d < n_nod nodes r -> exists k a, k < length rows /\ a < length nodes /\ dof_of rows k a = d).
Proof.
  destruct econn_ok as (rows & R1 & R2 & R3). exists rows. split; auto. split; auto. split; [|split; [|split]].
  - intros row I. apply (In_nth _ _ []) in I. destruct I as (k & K & <-). apply R3. lia.
  - intros k k' a a' K K' A A'. rewrite R2 in *. destruct (R3 k K), (R3 k' K'). unfold dof_of. eapply (dof_iff CT MO FO RO); eauto.
  - intros k a K A. rewrite R2 in *. destruct (R3 k K). eapply (dof_lt CT MO RO); eauto.
  - intros d D. destruct (dof_surj CT MO RO D) as (k & row & a & K & H & A & <-). exists k, a. rewrite R2. split; auto. split; auto. unfold dof_of. destruct (R3 k K). congruence.
Qed.
End Gen.

(** Triangles with the same vertices have the same cycle *)
Lemma cycle3 : forall a b : list nat, length a = 3 -> Permutation a b -> same_cycle a b.
Proof.
  intros a b L P. assert (L' := Permutation_length P). destruct a as [|x [|y [|z [|]]]]; try discriminate L. rewrite L in L'. destruct b as [|x' [|y' [|z' [|]]]]; try discriminate L'.
  assert (C : forall p q s : nat, same_cycle [p; q; s] [p; q; s] /\ same_cycle [p; q; s] [q; s; p] /\ same_cycle [p; q; s] [s; p; q] /\ same_cycle [p; q; s] [s; q; p] /\ same_cycle [p; q; s] [p; s; q] /\ same_cycle [p; q; s] [q; p; s]).
  { intros p q s. assert (A1 : same_cycle [p; q; s] [p; q; s]) by constructor. assert (A2 : same_cycle [p; q; s] [q; s; p]) by apply (sc_rot A1). assert (A3 : same_cycle [p; q; s] [s; p; q]) by apply (sc_rot A2).
    repeat split; auto; [apply (sc_rev A1)|apply (sc_rev A2)|apply (sc_rev A3)]. }
  assert (D : x' = x \/ x' = y \/ x' = z). { assert (X : In x' [x; y; z]) by (apply (Permutation_in _ (Permutation_sym P)); left; auto). cbn in X. intuition. }
  assert (Q2 : forall u v u' v' : nat, Permutation [u; v] [u'; v'] -> (u' = u /\ v' = v) \/ (u' = v /\ v' = u)).
  { intros u v u' v' Q. apply Permutation_length_2 in Q. intuition. }
  destruct D as [->|[->| ->]].
  - apply Permutation_cons_inv, Q2 in P. destruct P as [[-> ->]|[-> ->]]; apply C.
  - assert (P' : Permutation [y; x; z] [y; y'; z']) by (etransitivity; [|apply P]; apply perm_swap). apply Permutation_cons_inv, Q2 in P'. destruct P' as [[-> ->]|[-> ->]]; apply C.
  - assert (P' : Permutation [z; x; y] [z; y'; z']) by (etransitivity; [|apply P]; apply (Permutation_cons_append [x; y] z)). apply Permutation_cons_inv, Q2 in P'. destruct P' as [[-> ->]|[-> ->]]; apply C.
Qed.
Lemma simplex_faces_ok : forall dim m, 1 <= dim <= 3 -> faces_ok (sgel dim) m.
Proof.
  intros dim m D c c' f f' _ _ F F' P. destruct dim as [|[|[|[|]]]]; try lia; try contradiction. apply cycle3; auto. unfold fverts. rewrite map_length.
  cbn in F. repeat (destruct F as [<-|F]; [reflexivity|]). contradiction.
Qed.

(** ** C120 *)
(** Two nodes of the cells of the region have the same DOF iff they have the same position:
    the same weights of the vertices of the mesh. *)
Theorem C120_simplex : forall dim order m r n_vert, 1 <= dim <= 3 -> 1 <= order -> mesh_ok (sgel dim) m n_vert -> region_ok m r ->
  exists nodes rows, simplex_nodes dim order = Ok nodes /\ econn (sgel dim) nodes order m r = Ok rows /\
    length rows = length (r_cells r) /\ (forall row, In row rows -> length row = length nodes) /\
    forall k k' a a', k < length rows -> k' < length rows -> a < length nodes -> a' < length nodes ->
      (dof_of rows k a = dof_of rows k' a' <->
       forall v, gw (cell_of m r k) (simplex_w (nth a nodes ln0)) v = gw (cell_of m r k') (simplex_w (nth a' nodes ln0)) v).
Proof.
  intros dim o m r n_vert D O MO RO. exists (simplex_all dim o). destruct (gen_iff (simplex_ctype D O) MO (simplex_faces_ok m D) RO) as (rows & H). exists rows. split; [apply simplex_nodes_eq; auto|]. tauto.
Qed.
Theorem C120_tensor : forall dim order m r n_vert, 1 <= dim <= 3 -> 1 <= order -> mesh_ok (tgel dim) m n_vert -> faces_ok (tgel dim) m -> region_ok m r ->
  exists nodes rows, tp_nodes dim order = Ok nodes /\ econn (tgel dim) nodes order m r = Ok rows /\
    length rows = length (r_cells r) /\ (forall row, In row rows -> length row = length nodes) /\
    forall k k' a a', k < length rows -> k' < length rows -> a < length nodes -> a' < length nodes ->
      (dof_of rows k a = dof_of rows k' a' <->
       forall v, gw (cell_of m r k) (tensor_w dim (nth a nodes ln0)) v = gw (cell_of m r k') (tensor_w dim (nth a' nodes ln0)) v).
Proof.
  intros dim o m r n_vert D O MO FO RO. exists (tp_all dim o). destruct (gen_iff (tensor_ctype D O) MO FO RO) as (rows & H). exists rows. split; [apply tp_nodes_eq; auto|]. tauto.
Qed.
(** The position with the coordinates X of the vertices (one component) *)
Definition position (X : nat -> R) (cell ws : list nat) : R := lsum (map (fun p : nat * nat => INR (snd p) * X (fst p))%R (combine cell ws)).
Lemma lsum_pick : forall n (f : nat -> R) x, x < n -> lsum (map (fun v => if x =? v then f v else 0)%R (seq 0 n)) = f x.
Proof.
  intros n f x. induction n as [|n IH]; intros H; [lia|]. rewrite lsum_S. destruct (Nat.eq_dec x n) as [->|N].
  - rewrite Nat.eqb_refl, lsum_zero; [lra|]. intros v I. apply in_seq in I. replace (n =? v) with false; auto. symmetry. apply Nat.eqb_neq. lia.
  - rewrite IH by lia. replace (x =? n) with false by (symmetry; apply Nat.eqb_neq; auto). lra.
Qed.
Lemma position_gw : forall X cell ws n, (forall v, In v cell -> v < n) -> position X cell ws = lsum (map (fun v => INR (gw cell ws v) * X v)%R (seq 0 n)).
Proof.
  intros X cell. induction cell as [|c cell IH]; intros ws n H; [symmetry; apply lsum_zero; intros; cbn; lra|]. destruct ws as [|w ws]; [symmetry; apply lsum_zero; intros; cbn; lra|].
  unfold position. cbn [combine map fst snd]. rewrite lsum_cons. fold (position X cell ws). rewrite (IH ws n) by (intros; apply H; right; auto).
  transitivity (lsum (map (fun v => (if c =? v then INR w * X v else 0)%R) (seq 0 n)) + lsum (map (fun v => INR (gw cell ws v) * X v)%R (seq 0 n)))%R.
  - rewrite lsum_pick by (apply H; left; auto). auto.
  - rewrite <- lsum_plus. apply lsum_ext. intros v _. rewrite gw_cons, plus_INR. destruct (c =? v); cbn [INR]; lra.
Qed.
(** Nodes with the same DOF are in the same place whatever the coordinates of the vertices. *)
Theorem C120_same_place : forall X c c' ws ws', (forall v, gw c ws v = gw c' ws' v) -> position X c ws = position X c' ws'.
Proof.
  intros X c c' ws ws' H. set (n := S (list_max (c ++ c'))).
  assert (B : forall v, In v (c ++ c') -> v < n). { intros v I. unfold n. apply Nat.lt_succ_r. assert (L := proj1 (list_max_le (c ++ c') (list_max (c ++ c'))) (le_n _)). rewrite Forall_forall in L. auto. }
  rewrite (@position_gw X c ws n), (@position_gw X c' ws' n) by (intros; apply B, in_or_app; auto). apply lsum_ext. intros v _. rewrite H. auto.
Qed.

(** ** C122 *)
(** The DOFs are exactly 0, ..., n_nod - 1. *)
Theorem C122_numbering : forall dim order m r n_vert (simplex : bool), 1 <= dim <= 3 -> 1 <= order ->
  mesh_ok (if simplex then sgel dim else tgel dim) m n_vert -> faces_ok (if simplex then sgel dim else tgel dim) m -> region_ok m r ->
  exists nodes rows, (if simplex then simplex_nodes dim order else tp_nodes dim order) = Ok nodes /\ econn (if simplex then sgel dim else tgel dim) nodes order m r = Ok rows /\
    (forall d, (exists row, In row rows /\ In d row) <-> d < n_nod nodes r) /\
    (forall row, In row rows -> NoDup row).
Proof.
  intros dim o m r n_vert s D O MO FO RO.
  assert (G : exists nodes w V E F B nf, (if s then simplex_nodes dim o else tp_nodes dim o) = Ok nodes /\ ctype (if s then sgel dim else tgel dim) nodes o nf w V E F B /\ (forall a a', a < length nodes -> a' < length nodes -> w (nth a nodes ln0) = w (nth a' nodes ln0) -> a = a')).
  { destruct s.
    - exists (simplex_all dim o). do 6 eexists. split; [apply simplex_nodes_eq; auto|]. split; [apply simplex_ctype; auto|]. intros a a' A A' H. destruct (C104_simplex_nodes D O) as (l & L1 & L2 & _). rewrite simplex_nodes_eq in L1 by auto. inversion L1; subst l.
      apply (proj1 (NoDup_nth _ []) L2); rewrite ?map_length; auto. rewrite !nth_map_in with (da := ln0) by auto. exact H.
    - exists (tp_all dim o). do 6 eexists. split; [apply tp_nodes_eq; auto|]. split; [apply tensor_ctype; auto|]. intros a a' A A' H. destruct (C104_tensor_nodes D O) as (l & L1 & L2 & L3 & _). rewrite tp_nodes_eq in L1 by auto. inversion L1; subst l.
      apply (proj1 (NoDup_nth _ []) L2); rewrite ?map_length; auto. rewrite !nth_map_in with (da := ln0) by auto. apply (@tensor_inj dim o); auto; apply L3, in_map, nth_In; auto. }
  destruct G as (nodes & w & V & E & F & B & nf & N & CT & WI). destruct (gen_iff CT MO FO RO) as (rows & R1 & R2 & R3 & R4 & R5 & R6). exists nodes, rows. split; auto. split; auto. split.
  - intros d. split.
    + intros (row & I & J). assert (L := R3 _ I). apply (In_nth _ _ []) in I. destruct I as (k & K & <-). apply (In_nth _ _ 0) in J. destruct J as (a & A & <-). apply R5; auto. lia.
    + intros H. destruct (R6 d H) as (k & a & K & A & <-). exists (nth k rows []). split; [apply nth_In; auto|]. apply nth_In. rewrite R3; auto. apply nth_In. auto.
  - intros row I. assert (L := R3 _ I). apply (In_nth _ _ []) in I. destruct I as (k & K & <-). apply (NoDup_nth _ 0). intros a a' A A' H. rewrite L in A, A'.
    apply WI; auto. assert (H' := proj1 (R4 k k a a' K K A A') H). rewrite R2 in K. assert (K1 : In (nth k (r_cells r) 0) (r_cells r)) by (apply nth_In; auto). assert (K2 := ro_cells RO _ K1). assert (K3 : In (cell_of m r k) (m_cells m)) by (apply nth_In; auto).
    apply (@gw_inj (cell_of m r k)); auto; [apply (mo_nodup MO); auto|rewrite (ct_wl CT), (mo_len MO); auto; apply nth_In; auto|rewrite (ct_wl CT), (mo_len MO); auto; apply nth_In; auto].
Qed.

(** ** C121 *)
Lemma lprod_perm : forall a b, Permutation a b -> lprod a = lprod b.
Proof. intros a b P. induction P; rewrite ?lprod_cons; try lra; congruence. Qed.
Lemma nodup_app : forall A (a b : list A), NoDup a -> NoDup b -> (forall x, In x a -> ~ In x b) -> NoDup (a ++ b).
Proof. intros A a b Na Nb H. induction Na as [|x a NI Na IH]; cbn [app]; auto. constructor; [rewrite in_app_iff; intros [I|I]; [auto|apply (H x); cbn; auto]|apply IH; intros; apply H; right; auto]. Qed.
Lemma split_seq : forall vs n, NoDup vs -> (forall v, In v vs -> v < n) -> Permutation (seq 0 n) (vs ++ filter (fun v => negb (existsb (Nat.eqb v) vs)) (seq 0 n)).
Proof.
  intros vs n N B.
  assert (EX : forall v, existsb (Nat.eqb v) vs = true <-> In v vs). { intros v. rewrite existsb_exists. split; [intros (x & I & X); apply Nat.eqb_eq in X; subst; auto|]. intros I. exists v. split; auto. apply Nat.eqb_refl. }
  apply NoDup_Permutation; [apply seq_NoDup| |].
  - apply nodup_app; auto; [apply NoDup_filter, seq_NoDup|]. intros v I J. apply filter_In in J. destruct J as [_ J]. apply EX in I. rewrite I in J. discriminate J.
  - intros v. rewrite in_app_iff, filter_In, in_seq. split.
    + intros H. destruct (existsb (Nat.eqb v) vs) eqn:X; [left; apply EX; auto|right; split; auto].
    + intros [I|[I _]]; auto. split; [lia|]. apply B in I. lia.
Qed.
Lemma filter_out : forall vs n v, In v (filter (fun v => negb (existsb (Nat.eqb v) vs)) (seq 0 n)) -> ~ In v vs.
Proof. intros vs n v I J. apply filter_In in I. destruct I as [_ I]. replace (existsb (Nat.eqb v) vs) with true in I; [discriminate|]. symmetry. apply existsb_exists. exists v. split; auto. apply Nat.eqb_refl. Qed.
Lemma lprod_ones : forall A (f : A -> R) l, (forall x, In x l -> f x = 1%R) -> lprod (map f l) = 1%R.
Proof. intros A f l H. induction l; cbn [map]; [reflexivity|]. rewrite lprod_cons, H by (left; auto). rewrite IHl by (intros; apply H; right; auto). lra. Qed.
Lemma lprod_all : forall vs n (G : nat -> R), NoDup vs -> (forall v, In v vs -> v < n) -> (forall v, ~ In v vs -> G v = 1%R) -> lprod (map G vs) = lprod (map G (seq 0 n)).
Proof.
  intros vs n G N B O. rewrite (lprod_perm (Permutation_map G (split_seq N B))), map_app, lprod_app. rewrite (@lprod_ones _ G (filter _ _)); [lra|]. intros v I. apply O. eapply filter_out; eauto.
Qed.
Lemma list_sum_perm : forall a b, Permutation a b -> list_sum a = list_sum b.
Proof. intros a b P. induction P; cbn [list_sum fold_right] in *; unfold list_sum in *; cbn [fold_right]; lia. Qed.
Lemma list_sum_zero : forall A (f : A -> nat) l, (forall x, In x l -> f x = 0) -> list_sum (map f l) = 0.
Proof. intros A f l H. induction l; cbn [map]; [reflexivity|]. change (f a + list_sum (map f l) = 0). rewrite H, IHl; auto; [intros; apply H; right; auto|left; auto]. Qed.
Lemma sum_all : forall vs n (G : nat -> nat), NoDup vs -> (forall v, In v vs -> v < n) -> (forall v, ~ In v vs -> G v = 0) -> list_sum (map G vs) = list_sum (map G (seq 0 n)).
Proof.
  intros vs n G N B O. rewrite (list_sum_perm (Permutation_map G (split_seq N B))), map_app, list_sum_app. rewrite (@list_sum_zero _ G (filter _ _)); [lia|]. intros v I. apply O. eapply filter_out; eauto.
Qed.
Lemma map_gw : forall vs ws, NoDup vs -> length ws = length vs -> map (gw vs ws) vs = ws.
Proof.
  intros vs ws N L. apply list_ext with (d := 0); rewrite map_length; auto. intros i I. rewrite nth_map_in with (da := 0) by auto. apply gw_nth; auto.
Qed.
Lemma gw_of : forall vs (G : nat -> nat), NoDup vs -> (forall v, ~ In v vs -> G v = 0) -> forall v, gw vs (map G vs) v = G v.
Proof.
  intros vs G N O v. destruct (in_dec Nat.eq_dec v vs) as [I|I]; [|rewrite gw_notin, O; auto].
  apply (In_nth _ _ 0) in I. destruct I as (i & I & <-). rewrite gw_nth by (rewrite ?map_length; auto). rewrite nth_map_in with (da := 0) by auto. auto.
Qed.
Lemma cb_zero : forall n, 0 < n -> cb 0 n = 0%R.
Proof. intros n H. change 0%R with (INR 0). apply cb_nat_lt. auto. Qed.
(** The basis function as a function of the position of its node *)
Lemma val_gw : forall o vs node (lam : nat -> R) n, NoDup vs -> (forall v, In v vs -> v < n) -> length node = length vs ->
  simplex_val o (map lam vs) node = lprod (map (fun v => cb (INR o * lam v) (gw vs node v)) (seq 0 n)).
Proof.
  intros o vs node lam n N B L. rewrite simplex_val_prod, map_length. rewrite <- (@lprod_all vs n); auto; [|intros v V; rewrite gw_notin; auto].
  f_equal. rewrite (map_seq_nth (fun v => cb (INR o * lam v) (gw vs node v)) 0 vs). apply map_ext_in. intros i I. apply in_seq in I. rewrite nth_map_in with (da := 0) by lia. rewrite gw_nth by (auto; lia). auto.
Qed.
Lemma lsum_match : forall N (f f' : nat -> R) (d d' : nat -> nat),
  (forall a b, a < N -> b < N -> d a = d b -> a = b) -> (forall a b, a < N -> b < N -> d' a = d' b -> a = b) ->
  (forall a, a < N -> f a <> 0%R -> exists b, b < N /\ d' b = d a) -> (forall b, b < N -> f' b <> 0%R -> exists a, a < N /\ d a = d' b) ->
  (forall a b, a < N -> b < N -> d a = d' b -> f a = f' b) ->
  lsum (map f (seq 0 N)) = lsum (map f' (seq 0 N)).
Proof.
  intros N f f' d d' I I' S S' H.
  assert (G : forall (f : nat -> R) (d d' : nat -> nat), (forall a b, a < N -> b < N -> d' a = d' b -> a = b) -> (forall a, a < N -> f a <> 0%R -> exists b, b < N /\ d' b = d a) ->
    lsum (map f (seq 0 N)) = lsum (map (fun a => lsum (map (fun b => if d a =? d' b then f a else 0%R) (seq 0 N))) (seq 0 N))).
  { clear. intros f d d' I S. apply lsum_ext. intros a A. apply in_seq in A. destruct (Req_dec (f a) 0) as [Z|Z].
    - rewrite Z. symmetry. apply lsum_zero. intros b _. destruct (d a =? d' b); auto.
    - destruct (S a) as (b & B & E); [lia|auto|]. transitivity (lsum (map (fun x => if b =? x then (fun _ => f a) x else 0%R) (seq 0 N))).
      + rewrite (@lsum_pick N (fun _ => f a) b); auto.
      + apply lsum_ext. intros x X. apply in_seq in X. cbv beta. destruct (Nat.eqb_spec b x) as [->|NE].
        * rewrite E, Nat.eqb_refl. auto.
        * replace (d a =? d' x) with false; auto. symmetry. apply Nat.eqb_neq. intros Q. apply NE. apply I; [auto|lia|congruence]. }
  rewrite (G f d d' I' S), (G f' d' d I S'), lsum_swap. apply lsum_ext. intros b B. apply lsum_ext. intros a A. apply in_seq in A, B. rewrite (Nat.eqb_sym (d' b)). destruct (Nat.eqb_spec (d a) (d' b)) as [Q|Q]; auto. apply H; auto; lia.
Qed.

(** The value in the k-th cell of the function with the DOFs [u], in the point with the
    barycentric coordinates [bc] *)
Definition cell_value (order : nat) (nodes : list lnode) (rows : list (list nat)) (u : nat -> R) (k : nat) (bc : list R) : R :=
  let vals := nth 0 (eval_simplex order false [] bc (map ln_node nodes)) [] in
  lsum (map (fun a => u (dof_of rows k a) * nth a vals 0)%R (seq 0 (length nodes))).
(** [lam] are the barycentric coordinates of a common point of the cells k and k', zero in the
    vertices that are not in both cells. *)
Theorem C121_continuity : forall dim order m r n_vert, 1 <= dim <= 3 -> 1 <= order -> mesh_ok (sgel dim) m n_vert -> region_ok m r ->
  exists nodes rows, simplex_nodes dim order = Ok nodes /\ econn (sgel dim) nodes order m r = Ok rows /\ length rows = length (r_cells r) /\
    forall u k k' lam, k < length rows -> k' < length rows ->
      (forall v, lam v <> 0%R -> In v (cell_of m r k) /\ In v (cell_of m r k')) ->
      cell_value order nodes rows u k (map lam (cell_of m r k)) = cell_value order nodes rows u k' (map lam (cell_of m r k')).
Proof.
  intros dim o m r n_vert D O MO RO. destruct (C120_simplex D O MO RO) as (nodes & rows & N & R1 & R2 & R3 & R4). exists nodes, rows. split; auto. split; auto. split; auto.
  intros u k k' lam K K' LAM. destruct (C104_simplex_nodes D O) as (l & L1 & L2 & L3 & _). assert (l = nodes) by congruence. subst l.
  assert (CO : forall k, k < length rows -> NoDup (cell_of m r k) /\ length (cell_of m r k) = dim + 1 /\ forall v, In v (cell_of m r k) -> v < n_vert).
  { clear - R2 MO RO D. intros k K. rewrite R2 in K. assert (K1 : In (nth k (r_cells r) 0) (r_cells r)) by (apply nth_In; auto). assert (K2 := ro_cells RO _ K1). assert (K3 : In (cell_of m r k) (m_cells m)) by (apply nth_In; auto).
    split; [apply (mo_nodup MO); auto|]. split; [rewrite (mo_len MO) by auto; destruct dim as [|[|[|[|]]]]; try lia; reflexivity|]. apply (mo_bound MO); auto. }
  assert (NL : forall a, a < length nodes -> length (ln_node (nth a nodes ln0)) = dim + 1 /\ list_sum (ln_node (nth a nodes ln0)) = o) by (intros a A; apply L3, in_map, nth_In; auto).
  assert (VAL : forall k a, k < length rows -> a < length nodes -> nth a (nth 0 (eval_simplex o false [] (map lam (cell_of m r k)) (map ln_node nodes)) []) 0%R = lprod (map (fun v => cb (INR o * lam v) (gw (cell_of m r k) (ln_node (nth a nodes ln0)) v)) (seq 0 n_vert))).
  { intros q a Q A. cbn [eval_simplex nth]. rewrite nth_map_in with (da := []) by (rewrite map_length; auto). rewrite nth_map_in with (da := ln0) by auto. destruct (CO q Q) as (C1 & C2 & C3). apply val_gw; auto. rewrite C2. apply NL. auto. }
  assert (INJ : forall k a b, k < length rows -> a < length nodes -> b < length nodes -> dof_of rows k a = dof_of rows k b -> a = b).
  { intros q a b Q A B E0. assert (E := proj1 (R4 q q a b Q Q A B) E0). destruct (CO q Q) as (C1 & C2 & C3). apply gw_inj in E; auto; [|unfold simplex_w; rewrite C2; apply NL; auto|unfold simplex_w; rewrite C2; apply NL; auto].
    apply (proj1 (NoDup_nth _ []) L2); rewrite ?map_length; auto. rewrite !nth_map_in with (da := ln0) by auto. exact E. }
  assert (SUR : forall k k' a, k < length rows -> k' < length rows -> a < length nodes -> (forall v, lam v <> 0%R -> In v (cell_of m r k')) ->
     (u (dof_of rows k a) * nth a (nth 0 (eval_simplex o false [] (map lam (cell_of m r k)) (map ln_node nodes)) []) 0)%R <> 0%R -> exists b, b < length nodes /\ dof_of rows k' b = dof_of rows k a).
  { clear k k' K K' LAM. intros k k' a K K' A LAM NZ. rewrite VAL in NZ by auto. set (G := gw (cell_of m r k) (ln_node (nth a nodes ln0))) in *.
    assert (SUP : forall v, ~ In v (cell_of m r k') -> G v = 0).
    { intros v V. destruct (Nat.eq_dec (G v) 0) as [|Z]; auto. exfalso. apply NZ.
      destruct (in_dec Nat.eq_dec v (cell_of m r k)) as [I|I]; [|exfalso; apply Z; apply gw_notin; auto]. destruct (CO k K) as (_ & _ & C3). apply C3 in I.
      assert (Q : In v (seq 0 n_vert)) by (apply in_seq; lia). apply in_split in Q. destruct Q as (l1 & l2 & ->). rewrite map_app, lprod_app. cbn [map]. rewrite lprod_cons.
      destruct (Req_dec (lam v) 0) as [E|E]; [|exfalso; apply V, LAM; auto]. rewrite E, Rmult_0_r, cb_zero by lia. lra. }
    destruct (CO k' K') as (C1' & C2' & C3'). destruct (CO k K) as (C1 & C2 & C3). destruct (NL a A) as (NL1 & NL2).
    assert (T : simplex_point dim o (map G (cell_of m r k'))).
    { split; [rewrite map_length; auto|]. rewrite (@sum_all (cell_of m r k') n_vert G C1' C3' SUP). rewrite <- (@sum_all (cell_of m r k) n_vert G); auto; [unfold G; rewrite map_gw; auto; lia|]. intros v V. apply gw_notin. auto. }
    apply L3 in T. apply in_map_iff in T. destruct T as (n & E & I). apply (In_nth _ _ ln0) in I. destruct I as (b & B & <-). exists b. split; auto. apply R4; auto. intros v. unfold simplex_w. rewrite E. rewrite gw_of; auto. }
  unfold cell_value. cbv zeta. apply (@lsum_match _ _ _ (dof_of rows k) (dof_of rows k')).
  - intros. eapply INJ; eauto.
  - intros. eapply INJ; eauto.
  - intros a A NZ. apply (SUR k k' a); auto. intros v V. apply LAM; auto.
  - intros a A NZ. apply (SUR k' k a); auto. intros v V. apply LAM; auto.
  - intros a b A B E. rewrite !VAL by auto. rewrite E. f_equal. f_equal. apply map_ext. intros v. assert (Q := proj1 (R4 k k' a b K K' A B) E v). unfold simplex_w in Q. rewrite Q. auto.
Qed.

(** ** Examples *)
Definition ex_mesh (g : gel) (cells : list (list nat)) (n_vert : nat) : option cmesh :=
  match build_entities (of_rows cells) (fun _ => g_edges g) (length cells) n_vert, build_entities (of_rows cells) (fun _ => g_faces g) (length cells) n_vert with
  | Some e, Some f => Some (mkCM cells e f) | _, _ => None end.
Definition cells_ok (nv n_vert : nat) (cells : list (list nat)) : bool :=
  forallb (fun row => (length row =? nv) && forallb (fun v => v <? n_vert) row && forallb (fun i => forallb (fun j => (i =? j) || negb (nth i row 0 =? nth j row 0)) (seq 0 (length row))) (seq 0 (length row))) cells &&
  forallb (fun i => forallb (fun j => (i =? j) || negb (permb (nth i cells []) (nth j cells []))) (seq 0 (length cells))) (seq 0 (length cells)).
Lemma ex_mesh_ok : forall g cells n_vert m, ex_mesh g cells n_vert = Some m -> cells_ok (g_nv g) n_vert cells = true -> m_cells m = cells /\ mesh_ok g m n_vert.
Proof.
  intros g cells n_vert m H C. unfold ex_mesh in H. destruct (build_entities _ (fun _ => g_edges g) _ _) as [e|] eqn:E1; [|discriminate]. destruct (build_entities _ (fun _ => g_faces g) _ _) as [f|] eqn:E2; [|discriminate]. inversion H; subst m. clear H. split; auto.
  apply andb_true_iff in C. destruct C as [C D]. assert (R : refs_ok (g_nv g) n_vert cells = true) by exact C. assert (RO := refs_ok_ok _ _ _ R). split; cbn [m_cells m_edge m_face]; auto.
  - intros. apply RO; auto.
  - intros. apply RO; auto.
  - intros row I v V. destruct (RO row I) as (_ & _ & X). auto.
  - intros c c' L L' P. destruct (Nat.eq_dec c c') as [|NE]; auto. exfalso. apply (@distinct_ok cells D c c' L L' NE P).
Qed.
Definition cycles (l : list nat) : list (list nat) := [l; rot l; rot (rot l); rot (rot (rot l)); rev l; rev (rot l); rev (rot (rot l)); rev (rot (rot (rot l)))].
Lemma cycles_ok : forall l b, In b (cycles l) -> same_cycle l b.
Proof. intros l b I. cbn [cycles In] in I. repeat (destruct I as [<-|I]; [repeat constructor|]). contradiction. Qed.
Definition faces_okb (g : gel) (cells : list (list nat)) : bool :=
  forallb (fun c => forallb (fun c' => forallb (fun f => forallb (fun f' => negb (permb (fverts c f) (fverts c' f')) || existsb (fun b => if list_eq_dec Nat.eq_dec b (fverts c' f') then true else false) (cycles (fverts c f))) (g_faces g)) (g_faces g)) cells) cells.
Lemma faces_okb_ok : forall g m, faces_okb g (m_cells m) = true -> faces_ok g m.
Proof.
  intros g m H c c' f f' C C' F F' P. unfold faces_okb in H. rewrite forallb_forall in H. specialize (H c C). rewrite forallb_forall in H. specialize (H c' C'). rewrite forallb_forall in H. specialize (H f F). rewrite forallb_forall in H. specialize (H f' F').
  rewrite (permb_ok P) in H. cbn [negb orb] in H. apply existsb_exists in H. destruct H as (b & B & E). destruct (list_eq_dec _ b _) as [->|]; [|discriminate]. apply cycles_ok. auto.
Qed.
(** The region of all the cells *)
Definition all_region (m : cmesh) : region :=
  mkReg (seq 0 (length (m_cells m))) (nodup Nat.eq_dec (concat (m_cells m)))
    (nodup Nat.eq_dec (concat (map (irow (b_cDd (m_edge m))) (seq 0 (length (m_cells m)))))) (nodup Nat.eq_dec (concat (map (irow (b_cDd (m_face m))) (seq 0 (length (m_cells m)))))).
Lemma all_region_ok : forall m, region_ok m (all_region m).
Proof.
  intros m. assert (G : forall (f : nat -> list nat) v, In v (nodup Nat.eq_dec (concat (map f (seq 0 (length (m_cells m)))))) <-> exists c, In c (seq 0 (length (m_cells m))) /\ In v (f c)).
  { intros f v. rewrite nodup_In, in_concat. split; [intros (x & X & V); apply in_map_iff in X; destruct X as (c & <- & C); eauto|]. intros (c & C & V). exists (f c). split; auto. apply in_map. auto. }
  split; cbn [all_region r_cells r_verts r_edges r_faces]; try apply NoDup_nodup; try apply seq_NoDup; try apply G.
  - intros c C. apply in_seq in C. lia.
  - intros v. rewrite <- (G (fun c => nth c (m_cells m) [])). rewrite <- (map_seq_nth (fun x => x) [] (m_cells m)), map_id. reflexivity.
Qed.
(** Two triangles *)
Example ex_tri : exists m, ex_mesh (sgel 2) [[0; 1; 2]; [1; 3; 2]] 4 = Some m /\ mesh_ok (sgel 2) m 4 /\ region_ok m (all_region m) /\
  econn (sgel 2) (simplex_all 2 3) 3 m (all_region m) = Ok [[0; 1; 3; 4; 5; 12; 13; 7; 6; 14]; [1; 2; 3; 8; 9; 11; 10; 13; 12; 15]] /\ n_nod (simplex_all 2 3) (all_region m) = 16.
Proof.
  destruct (ex_mesh (sgel 2) [[0; 1; 2]; [1; 3; 2]] 4) as [m|] eqn:E; [|vm_compute in E; discriminate]. exists m. split; auto. destruct (@ex_mesh_ok _ _ _ _ E eq_refl) as (_ & M). split; auto. split; [apply all_region_ok|].
  vm_compute in E. inversion E. split; reflexivity.
Qed.
(** Two hexahedra with a common face, with different orientations *)
Example ex_hex : exists m, ex_mesh (tgel 3) [[0; 1; 2; 3; 4; 5; 6; 7]; [6; 2; 1; 5; 11; 10; 9; 8]] 12 = Some m /\ mesh_ok (tgel 3) m 12 /\ faces_ok (tgel 3) m /\ region_ok m (all_region m) /\
  econn (tgel 3) (tp_all 3 2) 2 m (all_region m) = Ok [[0; 6; 5; 1; 2; 7; 4; 3; 12; 21; 13; 14; 15; 23; 16; 17; 18; 22; 20; 19; 32; 33; 34; 35; 37; 36; 43];
    [4; 5; 6; 7; 8; 9; 10; 11; 20; 21; 22; 23; 24; 25; 26; 27; 28; 29; 30; 31; 37; 38; 39; 40; 41; 42; 44]].
Proof.
  destruct (ex_mesh (tgel 3) [[0; 1; 2; 3; 4; 5; 6; 7]; [6; 2; 1; 5; 11; 10; 9; 8]] 12) as [m|] eqn:E; [|vm_compute in E; discriminate]. exists m. split; auto. destruct (@ex_mesh_ok _ _ _ _ E eq_refl) as (C & M). split; auto.
  split; [apply faces_okb_ok; rewrite C; reflexivity|]. split; [apply all_region_ok|]. vm_compute in E. inversion E. reflexivity.
Qed.
Print Assumptions C120_simplex.
Print Assumptions C120_tensor.
Print Assumptions C120_same_place.
Print Assumptions C121_continuity.
Print Assumptions C122_numbering.
