(** C100: meshes from voxels. *)
From Coq Require Import QArith Lqa.
From Verif Require Import Base L_chains M_parallel M_periodic M_merge P_merge P_extract M_block L_block P_block P_triang M_voxel.
Set Implicit Arguments.
Open Scope nat_scope.

(** ** Specification *)
(** The corners of the voxel with the index (iy, ix) or (iy, ix, iz). *)
Definition voxel_lo (t : list nat) (dims : list Q) : point :=
  match t, dims with
  | [iy; ix], [dx; dy] => [q_of ix * dx; q_of iy * dy]%Q
  | [iy; ix; iz], [dx; dy; dz] => [q_of ix * dx; q_of iy * dy; q_of iz * dz]%Q
  | _, _ => []
  end.
Definition voxel_hi (t : list nat) (dims : list Q) : point := voxel_lo (map S t) dims.

Lemma tup_eqb_true : forall t u, tup_eqb t u = true <-> t = u.
Proof. intros. unfold tup_eqb. destruct (list_eq_dec Nat.eq_dec t u); split; auto; discriminate. Qed.
Lemma in_shapeb_ok : forall shape t, in_shapeb shape t = true <-> in_shape shape t.
Proof.
  unfold in_shapeb, in_shape. induction shape as [|n sh IH]; intros [|i t]; cbn [length combine forallb fst snd Nat.eqb andb].
  - split; auto.
  - split; [discriminate|intros H; inversion H].
  - split; [discriminate|intros H; inversion H].
  - specialize (IH t). rewrite andb_true_iff in IH. rewrite !andb_true_iff. rewrite Nat.ltb_lt. split.
    + intros (A & B & C). constructor; auto. apply IH. auto.
    + intros H. inversion H; subst. split; [apply IH; auto|]. split; auto. apply IH; auto.
Qed.
Lemma pos_nth : forall l t, In t l -> pos_of_tuple l t < length l /\ nth (pos_of_tuple l t) l [] = t.
Proof.
  induction l as [|u l IH]; intros t H; [destruct H|]. cbn [pos_of_tuple]. destruct (tup_eqb u t) eqn:E.
  - apply tup_eqb_true in E. subst. cbn. split; [lia|auto].
  - destruct H as [<-|H]; [exfalso; assert (X : tup_eqb u u = true) by (apply tup_eqb_true; auto); congruence|]. destruct (IH t H). cbn. split; [lia|auto].
Qed.
Lemma mul_inj : forall dims t u, length t = length dims -> length u = length dims -> (forall d, In d dims -> ~ (d == 0)%Q) ->
  Forall2 Qeq (mul_dims t dims) (mul_dims u dims) -> t = u.
Proof.
  unfold mul_dims. induction dims as [|d dims IH]; intros [|i t] [|j u] L1 L2 D H; cbn in L1, L2; try lia; auto.
  cbn [combine map fst snd] in H. inversion H as [|? ? ? ? H1 H2]; subst. f_equal; [|apply IH; auto; intros; apply D; right; auto].
  assert (D0 := D d (or_introl eq_refl)). assert (E : (q_of i == q_of j)%Q) by (apply (Qmult_inj_r _ _ d); auto). unfold q_of, inject_Z, Qeq in E. cbn in E. lia.
Qed.
Lemma bits_corners : forall dims t, length dims = 2 \/ length dims = 3 -> length t = length dims ->
  map (fun bits => mul_dims (addb (swap12 t) bits) dims) (columns (length dims)) = corners (voxel_lo t dims) (voxel_hi t dims).
Proof.
  intros dims t D L. destruct dims as [|dx [|dy [|dz [|]]]]; cbn in D; try lia; destruct t as [|a [|b [|c [|]]]]; try discriminate;
    cbn [length swap12 columns map addb b2n mul_dims combine fst snd voxel_hi voxel_lo corners]; rewrite ?Nat.add_0_r, ?Nat.add_1_r; reflexivity.
Qed.
Definition max_bits (dim : nat) : list bool := repeat true dim.
Lemma columns_le : forall dim bits t sh, dim = 2 \/ dim = 3 -> In bits (columns dim) -> length t = dim -> length sh = dim -> in_shape sh (addb t (max_bits dim)) -> in_shape sh (addb t bits).
Proof.
  unfold in_shape, max_bits. intros dim bits t sh D B LT LS H.
  assert (LB : length bits = dim) by (apply columns_length in B; auto; lia). clear D B.
  revert bits t sh LB LT LS H. induction dim as [|dim IH]; intros [|b bits] [|i t] [|n sh] LB LT LS H; cbn in LB, LT, LS; try lia; cbn [addb] in *; auto.
  cbn [repeat addb] in H. inversion H as [|? ? ? ? H1 H2]; subst. constructor; [destruct b; cbn [b2n] in *; lia|]. apply IH; auto.
Qed.
Lemma swap_length : forall t, length (swap12 t) = length t.
Proof. intros [|a [|b t]]; auto. Qed.

(** When does it work. *)
Theorem C100_defined : forall vox shape dims tet, length dims = length shape -> length shape = 2 \/ length shape = 3 ->
  ((exists m, gen_mesh_from_voxels vox shape dims tet = Ok m) <->
   forall t, in_shape shape t -> vox t = true -> nth 1 t 0 <= nth 0 shape 0 /\ nth 0 t 0 <= nth 1 shape 0).
Proof.
  intros vox shape dims tet LD D. unfold gen_mesh_from_voxels. 
  replace ((length dims =? 2) || (length dims =? 3)) with true by (rewrite LD; destruct D as [-> | ->]; auto). cbn [negb].
  set (nd := map (fun n => n + 2) shape). rewrite LD.
  set (test := forallb (fun c => forallb (fun bits => in_shapeb nd (addb c bits)) (columns (length shape))) (map swap12 (filter vox (tuples shape)))).
  assert (T : test = true <-> forall t, in_shape shape t -> vox t = true -> nth 1 t 0 <= nth 0 shape 0 /\ nth 0 t 0 <= nth 1 shape 0).
  { unfold test. rewrite forallb_forall. split.
    - intros H t T V. specialize (H (swap12 t)). rewrite in_map_iff in H. specialize (H ltac:(exists t; split; auto; apply filter_In; split; auto; apply tuples_In; auto)).
      rewrite forallb_forall in H. assert (LT := in_shape_length T).
      destruct D as [D|D]; destruct shape as [|a [|b [|c [|]]]]; try discriminate; destruct t as [|i [|j [|k [|]]]]; try discriminate; cbn [length] in H.
      + specialize (H [true; true] ltac:(cbn; auto 10)). apply in_shapeb_ok in H. cbn [swap12 addb b2n nd map] in H. inversion H as [|? ? ? ? H1 H2]; subst. inversion H2; subst. cbn [nth]. lia.
      + specialize (H [true; true; true] ltac:(cbn; auto 10)). apply in_shapeb_ok in H. cbn [swap12 addb b2n nd map] in H. inversion H as [|? ? ? ? H1 H2]; subst. inversion H2; subst. cbn [nth]. lia.
    - intros H c C. apply in_map_iff in C. destruct C as (t & <- & C). apply filter_In in C. destruct C as [T V]. apply tuples_In in T. assert (LT := in_shape_length T).
      specialize (H t T V). apply forallb_forall. intros bits B. apply in_shapeb_ok. apply columns_le with (dim := length shape); auto.
      + rewrite swap_length. auto.
      + unfold nd. apply map_length.
      + unfold in_shape in *. destruct D as [D|D]; destruct shape as [|a [|b [|c [|]]]]; try discriminate; destruct t as [|i [|j [|k [|]]]]; try discriminate;
          cbn [nth length] in *; cbn [swap12 max_bits repeat addb b2n nd map]; inversion T as [|? ? ? ? T1 T2]; subst; inversion T2 as [|? ? ? ? T3 T4]; subst; repeat constructor; try lia.
        inversion T4; subst. lia. }
  split.
  - intros [m H]. apply T. destruct test; auto. discriminate.
  - intros H. apply T in H. rewrite H. cbn [negb]. eauto.
Qed.
(** The cells are the voxels, in their order; the nodes are the corners of voxels. *)
Theorem C100_voxels : forall vox shape dims tet m, length dims = length shape -> length shape = 2 \/ length shape = 3 ->
  gen_mesh_from_voxels vox shape dims tet = Ok m ->
  let cells := filter vox (tuples shape) in
  (exists quads, length quads = length cells /\ Forall (fun row => Forall (fun v => v < length (m_coors m)) row) quads /\
     (forall k, k < length cells -> map (coor_of m) (nth k quads []) = corners (voxel_lo (nth k cells []) dims) (voxel_hi (nth k cells []) dims)) /\
     rows m = map (fun r => (if length shape =? 2 then if tet then d2_3 else d2_4 else if tet then d3_4 else d3_8, r, 1%Z))
                  (if tet then flat_map (fun row => map (fun loc => map (fun k => nth k row 0) loc) (if length shape =? 2 then triangles else tetrahedra)) quads else quads) /\
     (forall v, v < length (m_coors m) -> exists row, In row quads /\ In v row)) /\
  ((forall d, In d dims -> ~ (d == 0)%Q) -> forall i j, i < j < length (m_coors m) -> ~ Forall2 Qeq (coor_of m i) (coor_of m j)).
Proof.
  intros vox shape dims tet m LD D H cells. unfold gen_mesh_from_voxels in H.
  replace ((length dims =? 2) || (length dims =? 3)) with true in H by (rewrite LD; destruct D as [-> | ->]; auto). cbn [negb] in H. fold cells in H.
  set (nd := map (fun n => n + 2) shape) in *. rewrite LD in H. set (cs := columns (length shape)) in *.
  destruct (forallb (fun c => forallb (fun bits => in_shapeb nd (addb c bits)) cs) (map swap12 cells)) eqn:T; cbn [negb] in H; [|discriminate].
  set (used := fun t => existsb (fun c => existsb (fun bits => tup_eqb (addb c bits) t) cs) (map swap12 cells)) in *.
  set (ndidx := filter used (tuples nd)) in *. set (elems := map (fun c => map (fun bits => pos_of_tuple ndidx (addb c bits)) cs) (map swap12 cells)) in *.
  assert (IN : forall t bits, In t cells -> In bits cs -> In (addb (swap12 t) bits) ndidx).
  { intros t bits C B. apply filter_In. rewrite forallb_forall in T. specialize (T (swap12 t) (in_map swap12 _ _ C)). rewrite forallb_forall in T. specialize (T bits B). split.
    - apply tuples_In. apply in_shapeb_ok. auto.
    - unfold used. apply existsb_exists. exists (swap12 t). split; [apply in_map; auto|]. apply existsb_exists. exists bits. split; auto. apply tup_eqb_true. auto. }
  assert (LEN : forall t, In t ndidx -> length t = length dims).
  { intros t C. apply filter_In in C. destruct C as [C _]. apply tuples_In in C. rewrite (in_shape_length C). unfold nd. rewrite map_length. auto. }
  injection H as <-. cbn [m_coors m_groups]. rewrite map_length. split.
  - exists elems. split; [unfold elems; rewrite !map_length; auto|]. split; [|split; [|split]].
    + unfold elems. apply Forall_forall. intros row R. apply in_map_iff in R. destruct R as (c & <- & C). apply in_map_iff in C. destruct C as (t & <- & C).
      apply Forall_forall. intros v V. apply in_map_iff in V. destruct V as (bits & <- & B). apply pos_nth. apply IN; auto.
    + intros k K. unfold elems. rewrite nth_map_in with (da := []) by (rewrite map_length; auto). rewrite nth_map_in with (da := []) by auto.
      assert (C : In (nth k cells []) cells) by (apply nth_In; auto). rewrite map_map. rewrite <- bits_corners.
      2:{ rewrite LD; auto. } 2:{ apply filter_In in C. destruct C as [C _]. apply tuples_In in C. rewrite (in_shape_length C). auto. }
      rewrite LD. fold cs. apply map_ext_in. intros bits B. unfold coor_of. cbn [m_coors]. destruct (pos_nth ndidx _ (IN _ _ C B)) as [P1 P2].
      rewrite nth_map_in with (da := []) by auto. rewrite P2. auto.
    + unfold rows. cbn [m_groups flat_map g_desc g_conn g_mat]. rewrite app_nil_r.
      assert (X : forall (d : nat) (l : list (list nat)), map (fun rm => (d, fst rm, snd rm)) (combine l (repeat 1%Z (length l))) = map (fun r => (d, r, 1%Z)) l).
      { intros d l. induction l as [|r l IH]; cbn; auto. f_equal. apply IH. }
      rewrite X. destruct tet; auto. rewrite elems_q2t_spec. unfold cs. destruct D as [-> | ->]; reflexivity.
    + intros v V. assert (C : In (nth v ndidx []) ndidx) by (apply nth_In; auto). apply filter_In in C. destruct C as [C U]. unfold used in U. apply existsb_exists in U. destruct U as (c & C1 & U).
      apply existsb_exists in U. destruct U as (bits & B & E). apply tup_eqb_true in E. exists (map (fun bits => pos_of_tuple ndidx (addb c bits)) cs). split.
      * unfold elems. apply in_map_iff. exists c. auto.
      * apply in_map_iff. exists bits. split; auto. rewrite E. assert (C2 : In (nth v ndidx []) ndidx) by (apply nth_In; auto). destruct (pos_nth ndidx _ C2) as [P1 P2].
        assert (ND : NoDup ndidx) by (apply NoDup_filter, tuples_NoDup). apply (proj1 (NoDup_nth ndidx []) ND); auto.
  - intros DZ i j IJ E. unfold coor_of in E. cbn [m_coors] in E. rewrite !nth_map_in with (da := []) in E by lia.
    assert (Li : length (nth i ndidx []) = length dims) by (apply LEN, nth_In; lia). assert (Lj : length (nth j ndidx []) = length dims) by (apply LEN, nth_In; lia).
    assert (X := @mul_inj dims _ _ Li Lj DZ E). assert (ND : NoDup ndidx) by (apply NoDup_filter, tuples_NoDup).
    assert (Y := proj1 (NoDup_nth ndidx []) ND i j ltac:(lia) ltac:(lia) X). lia.
Qed.
Example C100_ex : gen_mesh_from_voxels (fun t => match t with [0; 1] => false | _ => true end) [2; 2] [1; 2]%Q false =
  Ok (mkM (map (fun t => mul_dims t [1; 2]%Q) [[0; 0]; [0; 1]; [0; 2]; [1; 0]; [1; 1]; [1; 2]; [2; 1]; [2; 2]]) (repeat 1%Z 8)
       [mkG d2_4 [[0; 3; 4; 1]; [1; 4; 5; 2]; [4; 6; 7; 5]] [1; 1; 1]%Z]).
Proof. vm_compute. reflexivity. Qed.
(** An image with many more columns than rows fails. *)
Theorem C100_wide_refuted : gen_mesh_from_voxels (fun _ => true) [1; 3] [1; 1]%Q false = Err IndexError /\ gen_mesh_from_voxels (fun _ => true) [3; 1] [1; 1]%Q false = Err IndexError.
Proof. split; reflexivity. Qed.
Print Assumptions C100_defined.
Print Assumptions C100_voxels.
