(** C139: geometry of uniform refinement, theorems. *)
From Coq Require Import Reals Lra Lia Permutation.
From Verif Require Import Base M_mesh M_lagnodes M_fmf L_fmf M_map S_map S_quad M_refine P_mgeo L_refine P_refine.
Open Scope R_scope.

Lemma half : forall x : R, x <= 1 / 2 \/ 1 / 2 <= x.
Proof. intros. lra. Qed.
Ltac dimc := repeat match goal with K : (?i < _)%nat |- _ => progress cbn in K end.
(** In all coordinates *)
Lemma all2 : forall (P : nat -> Prop), (forall i, (i < 2)%nat -> P i) <-> P 0%nat /\ P 1%nat.
Proof. intros P. split; [intros H; split; apply H; lia|]. intros [A B] i H. destruct i as [|[|i]]; auto. lia. Qed.
Lemma all3 : forall (P : nat -> Prop), (forall i, (i < 3)%nat -> P i) <-> P 0%nat /\ P 1%nat /\ P 2%nat.
Proof. intros P. split; [intros H; repeat split; apply H; lia|]. intros (A & B & C) i H. destruct i as [|[|[|i]]]; auto. lia. Qed.
Lemma cover : forall g x, isgeom g -> inref g x -> exists s, (s < 2 ^ gdim g)%nat /\ inref g (inv g s x).
Proof.
  intros g x G H. unfold inref in *. destruct G as [<- | [<- | [<- | [<- | []]]]]; cbn [simplexb gdim Nat.pow Nat.mul Nat.add] in *.
  - rewrite all2 in H. destruct H as [[X Y] S]. cbn in S.
    destruct (half (x 0%nat)) as [A|A]; [|exists 2%nat; rewrite all2; cbn; split; [lia|]; lra].
    destruct (half (x 1%nat)) as [B|B]; [|exists 3%nat; rewrite all2; cbn; split; [lia|]; lra].
    destruct (half (x 0%nat + x 1%nat)) as [C|C]; [exists 0%nat|exists 1%nat]; rewrite all2; cbn; (split; [lia|]); lra.
  - rewrite all2 in H. destruct H as [X Y].
    destruct (half (x 0%nat)) as [A|A]; destruct (half (x 1%nat)) as [B|B]; [exists 0%nat|exists 3%nat|exists 1%nat|exists 2%nat]; rewrite all2; cbn; (split; [lia|]); lra.
  - rewrite all3 in H. destruct H as [(X & Y & Z) S]. cbn in S.
    destruct (half (x 0%nat)) as [A|A]; [|exists 1%nat; rewrite all3; cbn; split; [lia|]; lra].
    destruct (half (x 1%nat)) as [B|B]; [|exists 2%nat; rewrite all3; cbn; split; [lia|]; lra].
    destruct (half (x 2%nat)) as [C|C]; [|exists 3%nat; rewrite all3; cbn; split; [lia|]; lra].
    destruct (half (x 0%nat + x 1%nat + x 2%nat)) as [D|D]; [exists 0%nat; rewrite all3; cbn; split; [lia|]; lra|].
    destruct (half (x 0%nat + x 1%nat)) as [E|E]; destruct (half (x 1%nat + x 2%nat)) as [F|F]; [exists 4%nat|exists 6%nat|exists 5%nat|exists 7%nat]; rewrite all3; cbn; (split; [lia|]); lra.
  - rewrite all3 in H. destruct H as (X & Y & Z).
    destruct (half (x 0%nat)) as [A|A]; destruct (half (x 1%nat)) as [B|B]; destruct (half (x 2%nat)) as [C|C];
    [exists 0%nat|exists 4%nat|exists 3%nat|exists 7%nat|exists 1%nat|exists 5%nat|exists 2%nat|exists 6%nat]; rewrite all3; cbn; (split; [lia|]); lra.
Qed.
(** Open parts do not meet: [inv s] of the same point *)
Lemma inref_ext : forall g x y, (forall i, (i < gdim g)%nat -> x i = y i) -> inref g x -> inref g y.
Proof.
  intros g x y E. unfold inref. destruct (simplexb g).
  - intros [H S]. split; [intros i Hi; rewrite <- E; auto|]. rewrite (@sm_ext (gdim g) y x) by (intros; symmetry; auto). auto.
  - intros H i Hi. rewrite <- E; auto.
Qed.
Lemma inopen_ext : forall g x y, (forall i, (i < gdim g)%nat -> x i = y i) -> inopen g x -> inopen g y.
Proof.
  intros g x y E. unfold inopen. destruct (simplexb g).
  - intros [H S]. split; [intros i Hi; rewrite <- E; auto|]. rewrite (@sm_ext (gdim g) y x) by (intros; symmetry; auto). auto.
  - intros H i Hi. rewrite <- E; auto.
Qed.
Lemma inv_ext : forall g s x y k, isgeom g -> (forall i, (i < gdim g)%nat -> x i = y i) -> inv g s x k = inv g s y k.
Proof.
  intros g s x y k G E. destruct G as [<- | [<- | [<- | [<- | []]]]]; cbn [inv gdim] in *; [rewrite all2 in E|rewrite all2 in E|rewrite all3 in E|rewrite all3 in E]; decompose [and] E;
  repeat match goal with H : x _ = y _ |- _ => rewrite H; clear H end; reflexivity.
Qed.
Lemma disjoint : forall g s s' z, isgeom g -> (s < 2 ^ gdim g)%nat -> (s' < 2 ^ gdim g)%nat -> inopen g (inv g s z) -> inopen g (inv g s' z) -> s = s'.
Proof.
  intros g s s' z G S S' H H'. unfold inopen in *.
  destruct G as [<- | [<- | [<- | [<- | []]]]]; cbn [simplexb gdim Nat.pow Nat.mul Nat.add] in *;
  [rewrite all2 in H, H'|rewrite all2 in H, H'|rewrite all3 in H, H'|rewrite all3 in H, H'];
  en s S; en s' S'; try reflexivity; exfalso; cbn in H, H'; lra.
Qed.
Lemma inside : forall g s x, isgeom g -> (s < 2 ^ gdim g)%nat -> inref g x -> inref g (sub g s x).
Proof.
  intros g s x G S H. unfold inref in *.
  destruct G as [<- | [<- | [<- | [<- | []]]]]; cbn [simplexb gdim Nat.pow Nat.mul Nat.add] in *;
  [rewrite all2 in H |- *|rewrite all2 in H |- *|rewrite all3 in H |- *|rewrite all3 in H |- *].
  all: cbn in H; en s S.
  all: comp. all: lra.
Qed.
Theorem sub_subdivision : forall g, isgeom g -> subdivision g (2 ^ gdim g) (sub g).
Proof.
  intros g G. split; [|split; [|split]].
  - intros s S. exists (fun k j => sub g s (fun i => if i =? j then 1 else 0) k - sub g s (fun _ => 0) k), (sub g s (fun _ => 0)).
    split; [intros x i Hi; apply sub_lin; auto|apply sub_det; auto].
  - intros s x S. apply inside; auto.
  - intros x H. destruct (@cover g x G H) as (s & S & I). exists s, (inv g s x). split; auto. split; auto. intros i Hi. apply sub_inv; auto.
  - intros s s' x y S S' X Y E. apply (@disjoint g s s' (sub g s x)); auto.
    + apply (@inopen_ext g x); auto. intros i Hi. symmetry. apply inv_sub; auto.
    + apply (@inopen_ext g y); auto. intros i Hi. rewrite (@inv_ext g s' _ (sub g s' y)) by auto. symmetry. apply inv_sub; auto.
Qed.
Lemma gphys_ext : forall g X Y x k, (forall j, (j < gnv g)%nat -> X j k = Y j k) -> gphys g X x k = gphys g Y x k.
Proof. intros g X Y x k H. unfold gphys, phys. apply sm_ext. intros j Hj. rewrite H; auto. Qed.
Lemma n_child_eq : forall g, isgeom g -> n_child g = (2 ^ gdim g)%nat.
Proof. intros g G. destruct G as [<- | [<- | [<- | [<- | []]]]]; reflexivity. Qed.
Lemma rtab_len : forall g, isgeom g -> length (rtab g) = (gnv g * 2 ^ gdim g)%nat.
Proof. intros g G. destruct G as [<- | [<- | [<- | [<- | []]]]]; reflexivity. Qed.
Lemma gnv_pos : forall g, (0 < gnv g)%nat.
Proof. intros []; cbn; lia. Qed.
Lemma child_len : forall g s, isgeom g -> (s < 2 ^ gdim g)%nat -> length (child g s) = gnv g.
Proof.
  intros g s G S. unfold child. rewrite firstn_length, skipn_length, rtab_len by auto.
  assert ((s + 1) * gnv g <= 2 ^ gdim g * gnv g)%nat by (apply Nat.mul_le_mono_r; lia). lia.
Qed.
Lemma child_In : forall g s j, isgeom g -> (s < 2 ^ gdim g)%nat -> (j < gnv g)%nat -> In (nth j (child g s) RB) (rtab g).
Proof.
  intros g s j G S J. assert (I : In (nth j (child g s) RB) (child g s)) by (apply nth_In; rewrite child_len; auto).
  unfold child in I. rewrite <- (firstn_skipn (s * gnv g) (rtab g)). apply in_or_app. right.
  rewrite <- (firstn_skipn (gnv g) (skipn (s * gnv g) (rtab g))). apply in_or_app. left. exact I.
Qed.
Lemma nth_repeat_each : forall A k (l : list A) d c s, (s < k)%nat -> (c < length l)%nat -> nth (c * k + s) (repeat_each k l) d = nth c l d.
Proof.
  intros A k. induction l as [|a l IH]; intros d c s Hs C; [cbn in C; lia|]. cbn [repeat_each flat_map]. fold (repeat_each k l).
  destruct c as [|c].
  - cbn [Nat.mul Nat.add nth]. rewrite app_nth1 by (rewrite repeat_length; auto). clear - Hs. revert s Hs. induction k; intros s Hs; [lia|]. destruct s; cbn; auto. apply IHk. lia.
  - rewrite app_nth2 by (rewrite repeat_length; lia). rewrite repeat_length. replace (S c * k + s - k)%nat with (c * k + s)%nat by lia. cbn [nth]. apply IH; auto. cbn in C. lia.
Qed.
Lemma refine_rows : forall g m t c s, isgeom g -> (c < length (m_conn m))%nat -> (s < 2 ^ gdim g)%nat ->
  nth (c * 2 ^ gdim g + s) (reshape (gnv g) (flat_map (fun c => map (gid m t c) (rtab g)) (seq 0 (length (m_conn m))))) [] = map (gid m t c) (child g s).
Proof.
  intros g m t c s G C S.
  destruct (@reshape_rows _ (fun c => map (gid m t c) (rtab g)) (gnv g) (2 ^ gdim g) (length (m_conn m)) (gnv_pos g)) as [_ H].
  - intros c'. rewrite map_length, rtab_len by auto. auto.
  - rewrite H by auto. unfold child. rewrite skipn_map, firstn_map. reflexivity.
Qed.

(** ** Jacobians and volumes of the children *)
Definition ptl (g : geom) (x : nat -> R) : list R := map x (seq 0 (gdim g)).
Definition jacx (g : geom) (X : nat -> nat -> R) (x : nat -> R) : R := detm (gdim g) (mtxRM (gnv g) (ggrad g x) X).
Lemma detm_ext : forall d a b, (1 <= d <= 3)%nat -> (forall i j, (i < d)%nat -> (j < d)%nat -> a i j = b i j) -> detm d a = detm d b.
Proof. intros d a b D H. destruct d as [|[|[|[|d]]]]; try lia; cbn [detm]; rewrite !H by lia; reflexivity. Qed.
Lemma detm_mul : forall d a b c, (1 <= d <= 3)%nat -> (forall i j, (i < d)%nat -> (j < d)%nat -> c i j = sm d (fun k => a i k * b k j)) -> detm d c = detm d a * detm d b.
Proof. intros d a b c D H. rewrite (@detm_ext d c _ D H). destruct d as [|[|[|[|d]]]]; try lia; cbn; ring. Qed.
Lemma gdim_range : forall g, (1 <= gdim g <= 3)%nat.
Proof. intros []; cbn; lia. Qed.
Lemma sub_grad : forall g X s x i k, isgeom g -> (s < 2 ^ gdim g)%nat -> (i < gdim g)%nat ->
  mtxRM (gnv g) (ggrad g x) (fun j => gphys g X (rpos g (nth j (child g s) RB))) i k
  = sm (gdim g) (fun l => (sub g s (fun j => if j =? i then 1 else 0) l - sub g s (fun _ => 0) l) * mtxRM (gnv g) (ggrad g (sub g s x)) X l k).
Proof.
  intros g X s x i k G Hs Hi. destruct G as [<- | [<- | [<- | [<- | []]]]]; en s Hs; en i Hi; comp; field.
Qed.
Lemma jac_ptl : forall g X x, isgeom g -> jac g X (ptl g x) = jacx g X x.
Proof. intros g X x G. destruct G as [<- | [<- | [<- | [<- | []]]]]; reflexivity. Qed.
Lemma sub_jac : forall g X s x, isgeom g -> (s < 2 ^ gdim g)%nat ->
  jacx g (fun j => gphys g X (rpos g (nth j (child g s) RB))) x = jacx g X (sub g s x) / INR (2 ^ gdim g).
Proof.
  intros g X s x G Hs. unfold jacx.
  rewrite (@detm_mul (gdim g) (fun i l => sub g s (fun j => if j =? i then 1 else 0) l - sub g s (fun _ => 0) l) (mtxRM (gnv g) (ggrad g (sub g s x)) X)).
  - unfold Rdiv. rewrite <- (@sub_det g s G Hs). rewrite Rmult_comm. f_equal.
    destruct G as [<- | [<- | [<- | [<- | []]]]]; cbn [gdim detm]; ring.
  - apply gdim_range.
  - intros i k Hi Hk. apply sub_grad; auto.
Qed.
(** The children of each cell are the images of the parts of one subdivision of the reference cell under the mapping of
    the cell; the Jacobian of a child is that of the parent in the
    same point over the number of the children; the old nodes are kept and the children are in the group of their parent. *)
Theorem C139_geometry : forall g, isgeom g -> exists A, subdivision g (2 ^ gdim g) A /\
  forall m, mesh_ok g m -> exists m', refine g m = Some m' /\
    length (m_conn m') = (2 ^ gdim g * length (m_conn m))%nat /\ (m_n m <= m_n m')%nat /\ (forall v, (v < m_n m)%nat -> m_x m' v = m_x m v) /\
    forall c s, (c < length (m_conn m))%nat -> (s < 2 ^ gdim g)%nat ->
      let parent := nodes (m_x m) (nth c (m_conn m) []) in
      let new := nth (c * 2 ^ gdim g + s) (m_conn m') [] in
      length new = gnv g /\ nth (c * 2 ^ gdim g + s) (m_grp m') 0%nat = nth c (m_grp m) 0%nat /\
      (forall x k, gphys g (nodes (m_x m') new) x k = gphys g parent (A s x) k) /\
      (forall x, jac g (nodes (m_x m') new) (ptl g x) = jac g parent (ptl g (A s x)) / INR (2 ^ gdim g)).
Proof.
  intros g G. exists (sub g). split; [apply sub_subdivision; auto|]. intros m M.
  destruct (@topology_ok g m G M) as (t & T & TO). eexists. unfold refine. rewrite T. split; [reflexivity|]. cbn [m_n m_x m_conn m_grp].
  split; [|split; [|split]].
  - destruct (@reshape_rows _ (fun c => map (gid m t c) (rtab g)) (gnv g) (2 ^ gdim g) (length (m_conn m)) (gnv_pos g)) as [H _]; auto.
    intros c'. rewrite map_length, rtab_len; auto.
  - unfold o3, o2, o1. lia.
  - intros v V. unfold new_coors. destruct (Nat.ltb_spec v (o1 m)); auto. unfold o1 in *. lia.
  - intros c s C Hs. cbv zeta. rewrite refine_rows by auto.
    assert (N : forall j k, (j < gnv g)%nat -> nodes (new_coors m t) (map (gid m t c) (child g s)) j k = gphys g (nodes (m_x m) (nth c (m_conn m) [])) (rpos g (nth j (child g s) RB)) k).
    { intros j k J. unfold nodes at 1. rewrite nth_map_in with (da := RB) by (rewrite child_len; auto).
      pose proof (@child_In g s j G Hs J) as I. assert (Rc : rnode_chk g (nth j (child g s) RB) = true) by (pose proof (rtab_chk g) as Q; rewrite forallb_forall in Q; auto).
      rewrite (@new_node g) by auto. rewrite nodes_gverts. apply node_phys; auto. }
    split; [|split; [|split]].
    + rewrite map_length. apply child_len; auto.
    + rewrite n_child_eq by auto. apply nth_repeat_each; auto. rewrite (proj1 M). auto.
    + intros x k. rewrite <- sub_comp by auto. apply gphys_ext. intros j J. apply N; auto.
    + intros x. rewrite !jac_ptl by auto. rewrite <- (@sub_jac g _ s x G Hs). unfold jacx. apply detm_ext; [apply gdim_range|].
      intros i j Hi Hj. unfold mtxRM. apply sm_ext. intros a Ha. rewrite N by auto. reflexivity.
Qed.

(** The volumes (mesh.c) of the children of a simplex are equal: they sum up to the volume of the simplex. *)
Theorem C139_volumes : forall g m, g = Tri \/ g = Tet -> mesh_ok g m -> exists m', refine g m = Some m' /\
  forall c s, (c < length (m_conn m))%nat -> (s < 2 ^ gdim g)%nat ->
    volume (gdim g) (gdim g) (m_x m') (nth (c * 2 ^ gdim g + s) (m_conn m') [])
    = volume (gdim g) (gdim g) (m_x m) (nth c (m_conn m) []) / INR (2 ^ gdim g).
Proof.
  intros g m G M. assert (I : isgeom g) by (destruct G; subst; cbn; tauto).
  destruct (@C139_geometry g I) as (A & _ & H). destruct (H m M) as (m' & E & _ & _ & _ & K). exists m'. split; auto. intros c s C Hs.
  destruct (K c s C Hs) as (L & _ & _ & J). destruct (proj2 M c C) as (L0 & _ & _). specialize (J (fun _ => 0)).
  assert (P : forall d, 0 < d -> 0 < / d) by (intros; apply Rinv_0_lt_compat; auto).
  destruct G as [-> | ->]; cbn [gdim gnv] in *.
  - rewrite !C138_volume_triangle_2d by (auto; lia).
    assert (Q : forall X p, jac Tri X p = 2 * simplex_volume 2 X) by (intros; comp; field).
    rewrite !Q in J. replace (simplex_volume 2 (nodes (m_x m') (nth (c * 2 ^ 2 + s) (m_conn m') []))) with (simplex_volume 2 (nodes (m_x m) (nth c (m_conn m) [])) / INR (2 ^ 2)) by lra.
    unfold Rdiv. rewrite Rabs_mult. f_equal. apply Rabs_right. apply Rle_ge, Rlt_le, P. apply lt_0_INR. cbn. lia.
  - rewrite !C138_volume_tetrahedron by auto.
    assert (Q : forall X p, jac Tet X p = 6 * simplex_volume 3 X) by (intros; comp; field).
    rewrite !Q in J. lra.
Qed.
(** Two triangles *)
Definition two_tri : mesh := mkMesh 4 (pts [[0; 0]; [1; 0]; [0; 1]; [1; 1]]) [[0; 1; 2]; [1; 3; 2]]%nat [0; 1]%nat.
Example C139_ex : mesh_ok Tri two_tri /\ exists m', refine Tri two_tri = Some m' /\ m_n m' = 9%nat /\
  m_conn m' = [[0; 4; 6]; [4; 5; 6]; [1; 5; 4]; [2; 6; 5]; [1; 7; 5]; [7; 8; 5]; [3; 8; 7]; [2; 5; 8]]%nat /\ m_grp m' = [0; 0; 0; 0; 1; 1; 1; 1]%nat.
Proof.
  split.
  - split; [reflexivity|]. intros c Hc. cbn in Hc. destruct c as [|[|c]]; [| |lia]; cbn; (split; [reflexivity|]); (split; [repeat constructor; cbn; lia|]); intros; lia.
  - eexists. split; [unfold refine; cbn [two_tri m_conn m_n topology]; vm_compute topology; reflexivity|]. cbn [m_n m_conn m_grp]. repeat split; vm_compute; reflexivity.
Qed.
Print Assumptions C139_geometry.
Print Assumptions C139_volumes.
