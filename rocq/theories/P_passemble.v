(** C83, C84: parallel assembling gives the serially assembled vector and
    matrix, renumbered. *)
From Verif Require Import Base BaseSum S_assemble M_assemble L_assemble P_assemble M_parallel L_parallel P_parallel P_parallel2
  M_passemble.
Set Implicit Arguments.

(** ** Specification: a local problem. *)
(** Component DOF of a local DOF in the global numbering, given the map of nodes. *)
Definition lgx (nc : nat) (lg : nat -> nat) (l : nat) : nat := nc * lg (l / nc) + l mod nc.
Record local_problem := mklp {
  lp_cells : list nat;            (* the cells, in the global numbering *)
  lp_n : nat;                     (* local number of nodes *)
  lp_conn : list (list nat);      (* local connectivity *)
  lp_lg : nat -> nat;             (* global nodes of the local nodes *)
  lp_eq : list Z;                 (* local equation numbers: negative for fixed DOFs *)
  lp_junk : list nat }.           (* contents of uninitialized memory *)
(** The local field is the restriction of the global field [econn] (with
    equation numbers [eqg]) to the cells. *)
Definition localizes (nc : nat) (econn : nat -> list nat) (eqg : list Z) (lp : local_problem) : Prop :=
  NoDup (lp_cells lp) /\
  map (map (lp_lg lp)) (lp_conn lp) = map econn (lp_cells lp) /\
  (forall a b, a < lp_n lp -> b < lp_n lp -> lp_lg lp a = lp_lg lp b -> a = b) /\
  (forall l, l < lp_n lp <-> exists row, In row (lp_conn lp) /\ In l row) /\
  length (lp_junk lp) = lp_n lp * nc /\
  (forall l, l < lp_n lp * nc ->
     (nth l (lp_eq lp) 0 < 0 /\ nth (lgx nc (lp_lg lp) l) eqg 0 < 0)%Z \/
     (nth l (lp_eq lp) 0%Z = Z.of_nat l /\ nth (lgx nc (lp_lg lp) l) eqg 0%Z = Z.of_nat (lgx nc (lp_lg lp) l))).

(** ** Connectivities of component DOFs. *)
Definition arow (eq : list Z) (nc : nat) (row : list nat) : list Z :=
  concat (map (fun idof => map (fun c => shift 0 (nth (nc * c + idof) eq 0%Z)) row) (seq 0 nc)).
Lemma adof_row : forall eq conn nc k, nth k (create_adof_conn eq conn nc 0) [] =
  if k <? length conn then arow eq nc (nth k conn []) else [].
Proof.
  intros. unfold create_adof_conn.
  destruct (Nat.ltb_spec k (length conn)) as [H|H].
  - destruct (Nat.eqb_spec nc 1) as [->|_].
    + rewrite nth_map_in with (da := []) by auto. unfold arow. simpl. rewrite app_nil_r. apply map_ext.
      intros c. rewrite !Nat.add_0_r. reflexivity.
    + rewrite nth_map_in with (da := []) by auto. reflexivity.
  - destruct (nc =? 1); apply nth_overflow; rewrite map_length; auto.
Qed.
Lemma shift0 : forall a, shift 0 a = a.
Proof. intros. unfold shift. destruct (0 <=? a)%Z; lia. Qed.

Section Rel.
Variable nc : nat.
Hypothesis Hnc : 0 < nc.
Variable n : nat.
Variable lg : nat -> nat.
Hypothesis lg_inj : forall a b, a < n -> b < n -> lg a = lg b -> a = b.
Lemma lgx_div : forall l, lgx nc lg l / nc = lg (l / nc).
Proof.
  intros. unfold lgx. rewrite (Nat.mul_comm nc), Nat.div_add_l by lia.
  rewrite (Nat.div_small (l mod nc)) by (apply Nat.mod_upper_bound; lia). lia.
Qed.
Lemma lgx_mod : forall l, lgx nc lg l mod nc = l mod nc.
Proof.
  intros. unfold lgx. rewrite Nat.add_comm, (Nat.mul_comm nc), Nat.mod_add by lia. apply Nat.mod_mod. lia.
Qed.
Lemma lgx_inj : forall a b, a < n * nc -> b < n * nc -> lgx nc lg a = lgx nc lg b -> a = b.
Proof.
  intros a b Ha Hb E. assert (E1 := f_equal (fun x => x / nc) E). assert (E2 := f_equal (fun x => x mod nc) E).
  cbv beta in E1, E2. rewrite !lgx_div in E1. rewrite !lgx_mod in E2.
  apply lg_inj in E1; try (apply Nat.div_lt_upper_bound; lia).
  rewrite (Nat.div_mod a nc), (Nat.div_mod b nc) by lia. lia.
Qed.
Lemma lgx_comp : forall c i, i < nc -> lgx nc lg (nc * c + i) = nc * lg c + i.
Proof.
  intros c i Hi. unfold lgx. rewrite (Nat.mul_comm nc c), Nat.div_add_l, (Nat.div_small i) by lia.
  assert (M : (c * nc + i) mod nc = i) by (rewrite Nat.add_comm, Nat.mod_add, Nat.mod_small; lia).
  rewrite M, Nat.add_0_r. reflexivity.
Qed.
(** Local and global equation numbers of the same DOF. *)
Definition rel (a b : Z) : Prop :=
  (a < 0 /\ b < 0)%Z \/ exists l, l < n * nc /\ a = Z.of_nat l /\ b = Z.of_nat (lgx nc lg l).
Variables eql eqg : list Z.
Hypothesis Heq : forall l, l < n * nc ->
  (nth l eql 0 < 0 /\ nth (lgx nc lg l) eqg 0 < 0)%Z \/
  (nth l eql 0%Z = Z.of_nat l /\ nth (lgx nc lg l) eqg 0%Z = Z.of_nat (lgx nc lg l)).
Lemma arow_rel : forall row, (forall c, In c row -> c < n) -> Forall2 rel (arow eql nc row) (arow eqg nc (map lg row)).
Proof.
  intros row Hr. unfold arow.
  assert (G : forall is, (forall i, In i is -> i < nc) ->
    Forall2 rel (concat (map (fun idof => map (fun c => shift 0 (nth (nc * c + idof) eql 0%Z)) row) is))
                (concat (map (fun idof => map (fun c => shift 0 (nth (nc * c + idof) eqg 0%Z)) (map lg row)) is))).
  { induction is as [|i is IH]; intros Hi; simpl; [constructor|]. apply Forall2_app; [|apply IH; intros; apply Hi; simpl; auto].
    assert (Hi0 : i < nc) by (apply Hi; simpl; auto). clear IH Hi.
    induction row as [|c row IHr]; simpl; constructor.
    - rewrite !shift0. assert (Hc : c < n) by (apply Hr; simpl; auto).
      assert (Hl : nc * c + i < n * nc) by nia.
      destruct (Heq Hl) as [[E1 E2]|[E1 E2]]; rewrite lgx_comp in E2 by auto.
      + left. auto.
      + right. exists (nc * c + i). split; auto. rewrite lgx_comp by auto. auto.
    - apply IHr. intros; apply Hr; simpl; auto. }
  apply G. intros i Hi. apply in_seq in Hi. lia.
Qed.
Lemma rel_eqb : forall a b l, rel a b -> l < n * nc -> Z.eqb a (Z.of_nat l) = Z.eqb b (Z.of_nat (lgx nc lg l)).
Proof.
  intros a b l [[H1 H2]|(k & Hk & -> & ->)] Hl.
  - rewrite !(proj2 (Z.eqb_neq _ _)) by lia. reflexivity.
  - destruct (Z.eqb_spec (Z.of_nat k) (Z.of_nat l)), (Z.eqb_spec (Z.of_nat (lgx nc lg k)) (Z.of_nat (lgx nc lg l))); auto.
    + exfalso. apply Nat2Z.inj in e. subst. congruence.
    + exfalso. apply Nat2Z.inj in e. apply lgx_inj in e; auto; congruence.
Qed.
End Rel.
(** An equation number in a row belongs to a node of the row. *)
Lemma arow_In : forall eq nc row d, 0 < nc -> (forall k, (nth k eq 0 < 0)%Z \/ nth k eq 0%Z = Z.of_nat k \/ length eq <= k) ->
  (forall c, In c row -> nc * c + nc <= length eq) ->
  In (Z.of_nat d) (arow eq nc row) -> In (d / nc) row.
Proof.
  intros eq nc row d Hnc Heq Hb H. unfold arow in H. apply in_concat_skip in H. destruct H as [i [Hi H]].
  apply in_seq in Hi. apply in_map_iff in H. destruct H as [c [E Hc]]. rewrite shift0 in E.
  specialize (Hb c Hc). destruct (Heq (nc * c + i)) as [F|[F|F]]; [lia| |lia].
  rewrite F in E. apply Nat2Z.inj in E. subst d.
  rewrite (Nat.mul_comm nc c), Nat.div_add_l, Nat.div_small, Nat.add_0_r by lia. auto.
Qed.

(** ** [get_local_ordering] gives the PETSc number of each local DOF. *)
Lemma expand_map : forall nc lg row, 0 < nc -> expand_dofs nc (map lg row) = map (lgx nc lg) (expand_dofs nc row).
Proof.
  intros nc lg row Hnc. unfold expand_dofs. rewrite concat_map, !map_map. f_equal. apply map_ext. intros d.
  rewrite map_map. apply map_ext_in. intros i Hi. apply in_seq in Hi. symmetry. apply lgx_comp; lia.
Qed.
Lemma local_ordering : forall nc econn eqg idm lp l, 0 < nc -> localizes nc econn eqg lp -> l < lp_n lp * nc ->
  nth l (get_local_ordering nc (lp_junk lp) (lp_conn lp) (petsc_conn idm econn nc (lp_cells lp))) 0 =
  nth (lgx nc (lp_lg lp) l) idm 0.
Proof.
  intros nc econn eqg idm lp l Hnc (H1 & H2 & H3 & H4 & H5 & H6) Hl. unfold get_local_ordering, petsc_conn.
  assert (E : concat (map (fun c => map (fun d => nth d idm 0) (expand_dofs nc (econn c))) (lp_cells lp)) =
              map (fun l => nth (lgx nc (lp_lg lp) l) idm 0) (concat (map (expand_dofs nc) (lp_conn lp)))).
  { rewrite <- (map_map econn (fun r => map (fun d => nth d idm 0) (expand_dofs nc r))), <- H2.
    rewrite concat_map, !map_map. f_equal. apply map_ext. intros row. rewrite expand_map by auto. apply map_map. }
  rewrite E. rewrite (put_fun (fun l => nth (lgx nc (lp_lg lp) l) idm 0)).
  - destruct (in_dec _ _ _) as [|n0]; auto. exfalso. apply n0.
    apply in_concat_skip. assert (Hn : l / nc < lp_n lp) by (apply Nat.div_lt_upper_bound; lia).
    apply H4 in Hn. destruct Hn as [row [R1 R2]]. exists row. split; auto. apply expand_In; auto.
  - intros i Hi. rewrite H5. apply in_concat_skip in Hi. destruct Hi as [row [R1 R2]]. apply expand_In in R2; auto.
    assert (i / nc < lp_n lp) by (apply H4; eauto).
    pose proof (Nat.div_mod i nc ltac:(lia)). pose proof (Nat.mod_upper_bound i nc ltac:(lia)). nia.
Qed.

Section Main.
Variable V : Type.
Variables (v0 v1 : V) (add mul : V -> V -> V).
Hypothesis SR : semi_ring_theory v0 v1 add mul eq.
Notation lsum := (lsum v0 add).
Notation ind := (ind v0).

(** The global field and the serial assembling. *)
Variable nc N ncell : nat.
Hypothesis Hnc : 0 < nc.
Variable econn : nat -> list nat.
Hypothesis Hecon : forall c n, c < ncell -> In n (econn c) -> n < N.
Variable eqg : list Z.                  (* equation numbers, negative for fixed DOFs *)
Hypothesis Heqg : length eqg = N * nc /\ forall k, k < N * nc -> (nth k eqg 0 < 0)%Z \/ nth k eqg 0%Z = Z.of_nat k.
Variable sign : V.
Definition gconn : list (list Z) := create_adof_conn eqg (map econn (seq 0 ncell)) nc 0.
Definition lconn (lp : local_problem) : list (list Z) := create_adof_conn (lp_eq lp) (lp_conn lp) nc 0.

Lemma gconn_nth : forall c, c < ncell -> nth c gconn [] = arow eqg nc (econn c).
Proof.
  intros c Hc. unfold gconn. rewrite adof_row, map_length, seq_length. destruct (Nat.ltb_spec c ncell); [|lia].
  rewrite nth_map_in with (da := 0) by (rewrite seq_length; auto). rewrite nth_seq0 by auto. reflexivity.
Qed.
Lemma arow_g_In : forall c d, c < ncell -> In (Z.of_nat d) (arow eqg nc (econn c)) -> In (d / nc) (econn c).
Proof.
  intros c d Hc H. destruct Heqg as [L E]. apply (@arow_In eqg nc (econn c) d); auto.
  - intros k. destruct (le_lt_dec (N * nc) k) as [|Hk]; [right; right; lia|]. destruct (E k Hk); auto.
  - intros n Hn. rewrite L. specialize (@Hecon c n Hc Hn). nia.
Qed.
Section Local.
Variable lp : local_problem.
Hypothesis Hlp : localizes nc econn eqg lp.
Hypothesis Hcells : forall c, In c (lp_cells lp) -> c < ncell.
Notation lx := (lgx nc (lp_lg lp)).
Lemma lp_length : length (lp_conn lp) = length (lp_cells lp).
Proof. destruct Hlp as (_ & H & _). apply (f_equal (@length _)) in H. rewrite !map_length in H. auto. Qed.
Lemma lp_row : forall k, k < length (lp_cells lp) -> map (lp_lg lp) (nth k (lp_conn lp) []) = econn (nth k (lp_cells lp) 0).
Proof.
  intros k Hk. destruct Hlp as (_ & H & _). apply (f_equal (fun l => nth k l [])) in H.
  rewrite nth_map_in with (da := []) in H by (rewrite lp_length; auto).
  rewrite nth_map_in with (da := 0) in H by auto. auto.
Qed.
Lemma rows_rel : forall k, k < length (lp_cells lp) ->
  Forall2 (rel nc (lp_n lp) (lp_lg lp)) (nth k (lconn lp) []) (nth (nth k (lp_cells lp) 0) gconn []).
Proof.
  intros k Hk. assert (Hl := Hlp). destruct Hl as (H1 & H2 & H3 & H4 & H5 & H6). unfold lconn.
  rewrite adof_row. rewrite lp_length. destruct (Nat.ltb_spec k (length (lp_cells lp))); [|lia].
  rewrite gconn_nth by (apply Hcells, nth_In; auto). rewrite <- lp_row by auto.
  apply arow_rel; auto. intros c Hc. apply H4. exists (nth k (lp_conn lp) []). split; auto.
  apply nth_In. rewrite lp_length; auto.
Qed.
Lemma lp_inj : forall a b, a < lp_n lp -> b < lp_n lp -> lp_lg lp a = lp_lg lp b -> a = b.
Proof. apply Hlp. Qed.
(** Local DOFs are the DOFs of the cells. *)
Lemma local_dof : forall c d, In c (lp_cells lp) -> In (d / nc) (econn c) -> exists l, l < lp_n lp * nc /\ lx l = d.
Proof.
  intros c d Hc Hd. apply (In_nth _ _ 0) in Hc. destruct Hc as [k [K1 K2]]. subst c.
  rewrite <- lp_row in Hd by auto. apply in_map_iff in Hd. destruct Hd as [n [E Hn]].
  assert (Hn' : n < lp_n lp).
  { apply (proj1 (proj2 (proj2 (proj2 Hlp)))). exists (nth k (lp_conn lp) []). split; auto. apply nth_In. rewrite lp_length; auto. }
  pose proof (Nat.mod_upper_bound d nc ltac:(lia)).
  exists (nc * n + d mod nc). split; [nia|]. rewrite lgx_comp by auto. rewrite E. symmetry. apply Nat.div_mod. lia.
Qed.
End Local.

(** *** Vectors *)
Variable els : nat -> list V.           (* element vectors *)
Definition serial_rhs : list V :=
  assemble_vector v0 add mul (repeat v0 (N * nc)) (map els (seq 0 ncell)) (seq 0 ncell) sign gconn.
Definition local_rhs (lp : local_problem) : list V :=
  assemble_vector v0 add mul (repeat v0 (lp_n lp * nc)) (map els (lp_cells lp)) (seq 0 (length (lp_cells lp))) sign (lconn lp).
(** The contribution of a cell to a DOF. *)
Definition cellsum (c d : nat) : V :=
  lsum (map (fun p => ind (Z.eqb (fst p) (Z.of_nat d)) (mul sign (snd p))) (combine (nth c gconn []) (els c))).
Lemma contribs_sum : forall (g : Z * V -> V) conn iels (f : nat -> list V),
  lsum (map g (vec_contribs conn iels (map f iels))) =
  lsum (map (fun c => lsum (map g (combine (nth c conn []) (f c)))) iels).
Proof.
  intros. unfold vec_contribs. 
  assert (E : combine iels (map f iels) = map (fun c => (c, f c)) iels).
  { clear. induction iels; simpl; congruence. }
  rewrite E, map_map. simpl. rewrite concat_map, map_map.
  induction iels as [|c l IH]; simpl; auto. rewrite (lsum_app _ _ _ _ _ SR). f_equal; auto.
  apply IH. clear. induction l; simpl; congruence.
Qed.
Lemma serial_nth : forall d, d < N * nc -> length serial_rhs = N * nc /\ nth d serial_rhs v0 = lsum (map (fun c => cellsum c d) (seq 0 ncell)).
Proof.
  intros d Hd. unfold serial_rhs.
  destruct (C12_scatter_add V v0 v1 add mul SR (repeat v0 (N * nc)) (map els (seq 0 ncell)) (seq 0 ncell) sign gconn) as [L H].
  rewrite repeat_length in *. split; auto. rewrite H by auto. rewrite nth_repeat_lt by auto.
  rewrite (add0l _ _ _ _ _ SR). rewrite contribs_sum. reflexivity.
Qed.
Lemma cellsum_zero : forall c d, c < ncell -> ~ In (d / nc) (econn c) -> cellsum c d = v0.
Proof.
  intros c d Hc Hn. unfold cellsum. apply (lsum_zero _ _ _ _ _ SR). intros [z x] Hp. simpl.
  apply in_combine_l in Hp. destruct (Z.eqb_spec z (Z.of_nat d)); auto. subst z. exfalso. apply Hn.
  apply arow_g_In; auto. rewrite <- gconn_nth; auto.
Qed.
Lemma local_nth : forall lp, localizes nc econn eqg lp -> (forall c, In c (lp_cells lp) -> c < ncell) ->
  forall l, l < lp_n lp * nc -> length (local_rhs lp) = lp_n lp * nc /\
  nth l (local_rhs lp) v0 = lsum (map (fun c => cellsum c (lgx nc (lp_lg lp) l)) (lp_cells lp)).
Proof.
  intros lp Hlp Hc l Hl. unfold local_rhs.
  destruct (C12_scatter_add V v0 v1 add mul SR (repeat v0 (lp_n lp * nc)) (map els (lp_cells lp))
     (seq 0 (length (lp_cells lp))) sign (lconn lp)) as [L H].
  rewrite repeat_length in *. split; auto. rewrite H by auto. rewrite nth_repeat_lt by auto. rewrite (add0l _ _ _ _ _ SR).
  assert (Ec : lp_cells lp = map (fun k => nth k (lp_cells lp) 0) (seq 0 (length (lp_cells lp)))).
  { apply list_ext with (d := 0); [rewrite map_length, seq_length; auto|]. intros k Hk.
    rewrite nth_map_in with (da := 0) by (rewrite seq_length; auto). rewrite nth_seq0 by auto. reflexivity. }
  rewrite Ec at 2 3. rewrite !map_map.
  rewrite contribs_sum. 
  apply (lsum_ext _ v0 add). intros k Hk. apply in_seq in Hk. unfold cellsum.
  assert (R := @rows_rel lp Hlp Hc k ltac:(lia)). 
  set (a := nth k (lconn lp) []) in *. set (b := nth (nth k (lp_cells lp) 0) gconn []) in *.
  generalize (els (nth k (lp_cells lp) 0)). clear - R Hl Hlp Hnc. induction R as [|x y a b Hxy R IH]; intros [|v vs]; simpl; auto.
  rewrite IH. f_equal. rewrite (@rel_eqb nc Hnc (lp_n lp) (lp_lg lp) (lp_inj Hlp) x y l Hxy Hl). reflexivity.
Qed.
(** *** PETSc vectors *)
Lemma set_insert_out : forall pd rhs p lo hi j, ~ (In j pd /\ lo <= j < hi) ->
  nth j (set_insert p (rdofs pd lo hi) rhs) v0 = nth j p v0.
Proof.
  induction pd as [|i pd IH]; intros rhs p lo hi j H; [reflexivity|]. unfold rdofs in *. cbn [map].
  destruct rhs as [|x rhs]; [destruct ((i <? lo) || (hi <=? i)); reflexivity|].
  destruct (Nat.ltb_spec i lo), (Nat.leb_spec hi i); cbn [orb set_insert]; try (apply IH; simpl in H; tauto).
  rewrite IH by (simpl in H; tauto). apply nth_upd_neq. intros ->. apply H. simpl. auto.
Qed.
Lemma set_insert_in : forall pd rhs p lo hi l, NoDup pd -> length rhs = length pd -> l < length pd ->
  lo <= nth l pd 0 < hi -> nth l pd 0 < length p ->
  nth (nth l pd 0) (set_insert p (rdofs pd lo hi) rhs) v0 = nth l rhs v0.
Proof.
  induction pd as [|i pd IH]; intros rhs p lo hi l Hnd Hlen Hl Hr Hb; [simpl in Hl; lia|].
  destruct rhs as [|x rhs]; [discriminate|]. inversion Hnd as [|? ? Hni Hnd']; subst.
  unfold rdofs in *. cbn [map]. destruct l as [|l].
  - cbn [nth] in *. destruct (Nat.ltb_spec i lo); [lia|]. destruct (Nat.leb_spec hi i); [lia|]. cbn [orb set_insert].
    fold (rdofs pd lo hi). rewrite set_insert_out by tauto. apply nth_upd_eq; auto.
  - cbn [nth] in *. simpl in Hl, Hlen.
    destruct ((i <? lo) || (hi <=? i)); cbn [set_insert]; apply IH; auto; try lia. rewrite length_upd. auto.
Qed.
Lemma set_insert_length : forall pd rhs (p : list V), length (set_insert p pd rhs) = length p.
Proof.
  induction pd as [|[i|] pd IH]; intros [|x rhs] p; auto; cbn [set_insert]; rewrite IH; auto. apply length_upd.
Qed.
Lemma set_add_nth : forall pd rhs p j, (forall i, In i pd -> i < length p) ->
  length (set_add v0 add p pd rhs) = length p /\
  nth j (set_add v0 add p pd rhs) v0 = add (nth j p v0) (lsum (map (fun ix => ind (fst ix =? j) (snd ix)) (combine pd rhs))).
Proof.
  induction pd as [|i pd IH]; intros rhs p j Hb; [simpl; split; auto; symmetry; apply (add0r _ _ _ _ _ SR)|].
  destruct rhs as [|x rhs]; [simpl; split; auto; symmetry; apply (add0r _ _ _ _ _ SR)|].
  cbn [set_add combine map]. destruct (IH rhs (upd p i (add (nth i p v0) x)) j) as [L H].
  { intros k Hk. rewrite length_upd. apply Hb; simpl; auto. }
  rewrite length_upd in L. split; auto. rewrite H. unfold BaseSum.lsum, BaseSum.ind. cbn [fold_right fst snd].
  destruct (Nat.eqb_spec i j) as [->|Hne].
  - rewrite nth_upd_eq by (apply Hb; simpl; auto). symmetry. apply (addA _ _ _ _ _ SR).
  - rewrite nth_upd_neq by auto. rewrite (add0l _ _ _ _ _ SR). reflexivity.
Qed.

(** *** The tasks *)
Variable n_tasks : nat.
Variable lps : nat -> local_problem.
Variable idm : list nat.                (* the PETSc number of each DOF *)
Variables lo hi : nat -> nat.           (* ranges of the tasks *)
Variable M : nat.                       (* the size of the PETSc vector *)
Hypothesis Hlps : forall t, t < n_tasks -> localizes nc econn eqg (lps t) /\ forall c, In c (lp_cells (lps t)) -> c < ncell.
Hypothesis Hcover : forall n, n < N -> exists c, c < ncell /\ In n (econn c).
Hypothesis Hidm_inj : forall a b, a < N * nc -> b < N * nc -> nth a idm 0 = nth b idm 0 -> a = b.
Hypothesis Hidm_M : forall a, a < N * nc -> nth a idm 0 < M.
Notation lx t := (lgx nc (lp_lg (lps t))).
Definition pdofs (t : nat) : list nat :=
  get_local_ordering nc (lp_junk (lps t)) (lp_conn (lps t)) (petsc_conn idm econn nc (lp_cells (lps t))).
Definition parallel_rhs (is_overlap : bool) (order : list nat) (p0 : list V) : list V :=
  fold_left (fun p t => assemble_rhs v0 add is_overlap p (local_rhs (lps t)) (pdofs t) (lo t) (hi t)) order p0.

Lemma pdofs_length : forall t, t < n_tasks -> length (pdofs t) = lp_n (lps t) * nc.
Proof. intros t Ht. unfold pdofs, get_local_ordering. rewrite length_put. apply (Hlps Ht). Qed.
Lemma pdofs_nth : forall t l, t < n_tasks -> l < lp_n (lps t) * nc -> nth l (pdofs t) 0 = nth (lx t l) idm 0.
Proof. intros t l Ht Hl. unfold pdofs. eapply local_ordering; eauto. apply (Hlps Ht). Qed.
Lemma lx_bound : forall t l, t < n_tasks -> l < lp_n (lps t) * nc -> lx t l < N * nc.
Proof.
  intros t l Ht Hl. destruct (Hlps Ht) as [Hlp Hc].
  assert (Hn : l / nc < lp_n (lps t)) by (apply Nat.div_lt_upper_bound; lia).
  assert (Hb : lp_lg (lps t) (l / nc) < N).
  { assert (Hn' := Hn). apply (proj1 (proj2 (proj2 (proj2 Hlp)))) in Hn'. destruct Hn' as [row [R1 R2]].
    apply (In_nth _ _ []) in R1. destruct R1 as [k [K1 K2]]. rewrite (lp_length Hlp) in K1. subst row.
    apply (@Hecon (nth k (lp_cells (lps t)) 0)); [apply Hc, nth_In; auto|]. rewrite <- (@lp_row _ Hlp k K1).
    apply in_map; auto. }
  unfold lgx. pose proof (Nat.mod_upper_bound l nc ltac:(lia)). nia.
Qed.
Lemma pdofs_inj : forall t, t < n_tasks -> NoDup (pdofs t).
Proof.
  intros t Ht. apply (NoDup_nth _ 0). intros i j Hi Hj E. rewrite pdofs_length in Hi, Hj by auto.
  rewrite !pdofs_nth in E by auto. apply Hidm_inj in E; try (apply lx_bound; auto).
  apply (@lgx_inj nc Hnc (lp_n (lps t)) (lp_lg (lps t)) (lp_inj (proj1 (Hlps Ht)))); auto.
Qed.
Lemma local_of : forall t c d, t < n_tasks -> In c (lp_cells (lps t)) -> In (d / nc) (econn c) ->
  exists l, l < lp_n (lps t) * nc /\ lx t l = d.
Proof. intros t c d Ht Hc Hd. apply (@local_dof (lps t) (proj1 (Hlps Ht)) c d Hc Hd). Qed.
Lemma dec_local : forall t d, t < n_tasks -> d < N * nc ->
  (exists l, l < lp_n (lps t) * nc /\ lx t l = d) \/ forall c, In c (lp_cells (lps t)) -> ~ In (d / nc) (econn c).
Proof.
  intros t d Ht Hd. destruct (Exists_dec (fun c => In (d / nc) (econn c)) (lp_cells (lps t))) as [H|H].
  { intros c. apply in_dec, Nat.eq_dec. }
  - left. apply Exists_exists in H. destruct H as [c [H1 H2]]. eapply local_of; eauto.
  - right. intros c Hc Hin. apply H. apply Exists_exists. eauto.
Qed.

(** All the cells of an owned DOF are local. *)
Definition ghosts_ok : Prop := forall t d c, t < n_tasks -> d < N * nc -> lo t <= nth d idm 0 < hi t ->
  c < ncell -> In (d / nc) (econn c) -> In c (lp_cells (lps t)).
Definition ranges_ok : Prop := forall d, d < N * nc -> exists t, t < n_tasks /\ lo t <= nth d idm 0 < hi t.

Lemma owned_value : ghosts_ok -> forall t d, t < n_tasks -> d < N * nc -> lo t <= nth d idm 0 < hi t ->
  exists l, l < lp_n (lps t) * nc /\ lx t l = d /\ nth l (local_rhs (lps t)) v0 = nth d serial_rhs v0.
Proof.
  intros Hg t d Ht Hd Hr. destruct (Hlps Ht) as [Hlp Hc].
  assert (Hn : d / nc < N) by (apply Nat.div_lt_upper_bound; lia).
  destruct (Hcover Hn) as [c [C1 C2]].
  destruct (@local_of t c d Ht (Hg t d c Ht Hd Hr C1 C2) C2) as [l [L1 L2]]. exists l. split; auto. split; auto.
  destruct (local_nth Hlp Hc L1) as [_ ->]. destruct (serial_nth Hd) as [_ ->]. rewrite L2.
  (* the cells without the DOF do not contribute *)
  assert (G : forall cs, NoDup cs -> (forall x, In x cs -> x < ncell) ->
    lsum (map (fun c => cellsum c d) cs) =
    lsum (map (fun c => cellsum c d) (filter (fun c => memb (d / nc) (econn c)) cs))).
  { clear - SR Hnc Hecon Heqg. induction cs as [|x cs IH]; intros Hnd Hb; auto. cbn [map filter].
    inversion Hnd; subst. assert (IH' := IH ltac:(auto) (fun y Hy => Hb y (or_intror Hy))).
    destruct (memb (d / nc) (econn x)) eqn:Em.
    - cbn [map]. unfold BaseSum.lsum in *. cbn [fold_right]. rewrite IH'. reflexivity.
    - unfold BaseSum.lsum in *. cbn [fold_right]. rewrite IH'. rewrite cellsum_zero, (add0l _ _ _ _ _ SR); auto.
      + apply Hb; simpl; auto.
      + apply memb_false; auto. }
  rewrite (G (lp_cells (lps t))), (G (seq 0 ncell)); auto.
  - apply (lsum_perm _ _ _ _ _ SR). apply Permutation_map. apply NoDup_Permutation.
    + apply NoDup_filter. apply Hlp.
    + apply NoDup_filter, seq_NoDup.
    + intros x. rewrite !filter_In, in_seq, memb_In. split.
      * intros [X1 X2]. split; auto. specialize (Hc x X1). lia.
      * intros [X1 X2]. split; auto. apply (Hg t d x); auto. lia.
  - apply seq_NoDup.
  - intros x Hx. apply in_seq in Hx. lia.
  - apply Hlp.
Qed.

Theorem rhs_overlap : ghosts_ok -> ranges_ok -> forall order p0, (forall t, In t order <-> t < n_tasks) -> length p0 = M ->
  forall d, d < N * nc -> nth (nth d idm 0) (parallel_rhs true order p0) v0 = nth d serial_rhs v0.
Proof.
  intros Hg Hr order p0 Ho Hp d Hd. destruct (Hr d Hd) as [t0 [T1 T2]].
  assert (G : forall l p, (forall t, In t l -> t < n_tasks) -> length p = M ->
     (In t0 l \/ nth (nth d idm 0) p v0 = nth d serial_rhs v0) ->
     nth (nth d idm 0) (parallel_rhs true l p) v0 = nth d serial_rhs v0).
  { induction l as [|t l IH]; intros p Hl HM H; [destruct H as [[]|]; auto|].
    cbn [parallel_rhs fold_left]. apply IH.
    { intros; apply Hl; simpl; auto. }
    { unfold assemble_rhs. rewrite set_insert_length. auto. }
    assert (Ht : t < n_tasks) by (apply Hl; simpl; auto). unfold assemble_rhs.
    assert (D : (lo t <= nth d idm 0 < hi t) \/ ~ (lo t <= nth d idm 0 < hi t)) by lia.
    destruct D as [D|D].
    - right. destruct (owned_value Hg Ht Hd D) as (l0 & L1 & L2 & L3).
      assert (Ep : nth l0 (pdofs t) 0 = nth d idm 0) by (rewrite pdofs_nth by auto; congruence).
      rewrite <- L3, <- Ep. destruct (Hlps Ht) as [Hlp Hc]. apply set_insert_in; auto.
      + apply pdofs_inj; auto.
      + rewrite pdofs_length by auto. apply (local_nth Hlp Hc L1).
      + rewrite pdofs_length by auto. auto.
      + rewrite Ep. auto.
      + rewrite Ep, HM. auto.
    - destruct H as [[->|H]|H]; [lia|auto|]. right. rewrite set_insert_out by tauto. auto. }
  apply G; auto. { intros t. apply Ho. } left. apply Ho; auto.
Qed.

Theorem rhs_no_overlap : forall order p0, Permutation order (seq 0 n_tasks) ->
  Permutation (concat (map (fun t => lp_cells (lps t)) (seq 0 n_tasks))) (seq 0 ncell) ->
  length p0 = M -> forall d, d < N * nc ->
  nth (nth d idm 0) (parallel_rhs false order p0) v0 = add (nth (nth d idm 0) p0 v0) (nth d serial_rhs v0).
Proof.
  intros order p0 Ho Hpart Hp d Hd.
  assert (G : forall l p, (forall t, In t l -> t < n_tasks) -> length p = M ->
     nth (nth d idm 0) (parallel_rhs false l p) v0 =
     add (nth (nth d idm 0) p v0) (lsum (map (fun c => cellsum c d) (concat (map (fun t => lp_cells (lps t)) l))))).
  { induction l as [|t l IH]; intros p Hl HM; [simpl; symmetry; apply (add0r _ _ _ _ _ SR)|].
    assert (Ht : t < n_tasks) by (apply Hl; simpl; auto). destruct (Hlps Ht) as [Hlp Hc].
    assert (Hpb : forall i, In i (pdofs t) -> i < length p).
    { intros i Hi. apply (In_nth _ _ 0) in Hi. destruct Hi as [l0 [L1 L2]]. rewrite pdofs_length in L1 by auto.
      rewrite pdofs_nth in L2 by auto. subst i. rewrite HM. apply Hidm_M, lx_bound; auto. }
    change (parallel_rhs false (t :: l) p) with (parallel_rhs false l (set_add v0 add p (pdofs t) (local_rhs (lps t)))). cbn [map concat].
    destruct (@set_add_nth (pdofs t) (local_rhs (lps t)) p (nth d idm 0) Hpb) as [L E].
    rewrite IH; [|intros; apply Hl; simpl; auto|congruence]. rewrite E.
    rewrite map_app, (lsum_app _ _ _ _ _ SR), <- (addA _ _ _ _ _ SR). f_equal. f_equal.
    destruct (dec_local Ht Hd) as [[l0 [L1 L2]]|Hn].
    - destruct (local_nth Hlp Hc L1) as [Lr Er]. rewrite <- L2, <- Er. rewrite <- pdofs_nth by auto.
      (* a single item of the sum *)
      assert (Nd := pdofs_inj Ht). assert (Lp := pdofs_length Ht). rewrite <- Lp in L1, Lr.
      clear - SR Nd Lr L1. revert L1 Lr Nd. generalize (pdofs t) (local_rhs (lps t)). intros pd. revert l0.
      induction pd as [|i pd IHp]; intros l0 r L1 Lr Nd; [simpl in L1; lia|].
      destruct r as [|x r]; [discriminate|]. inversion Nd; subst. simpl in Lr. destruct l0 as [|l0]; cbn [combine map nth].
      + unfold BaseSum.lsum. cbn [fold_right fst snd]. rewrite Nat.eqb_refl. cbn [BaseSum.ind].
        fold (lsum (map (fun ix : nat * V => ind (fst ix =? i) (snd ix)) (combine pd r))).
        rewrite (lsum_zero _ _ _ _ _ SR); [apply (add0r _ _ _ _ _ SR)|].
        intros [i' y] Hin. simpl. destruct (Nat.eqb_spec i' i); auto. subst. apply in_combine_l in Hin. tauto.
      + unfold BaseSum.lsum. cbn [fold_right fst snd]. simpl in L1.
        assert (Hin : In (nth l0 pd 0) pd) by (apply nth_In; lia).
        destruct (Nat.eqb_spec i (nth l0 pd 0)) as [E|E]; [exfalso; subst i; tauto|]. cbn [BaseSum.ind].
        fold (lsum (map (fun ix : nat * V => ind (fst ix =? nth l0 pd 0) (snd ix)) (combine pd r))).
        rewrite IHp; auto; try lia. apply (add0l _ _ _ _ _ SR).
    - rewrite !(lsum_zero _ _ _ _ _ SR); auto.
      + intros c Hc'. apply cellsum_zero; auto.
      + intros [i x] Hin. simpl. destruct (Nat.eqb_spec i (nth d idm 0)); auto. subst i. exfalso.
        apply in_combine_l in Hin. apply (In_nth _ _ 0) in Hin. destruct Hin as [l0 [L1 L2]].
        rewrite pdofs_length in L1 by auto. rewrite pdofs_nth in L2 by auto.
        apply Hidm_inj in L2; auto; [|apply lx_bound; auto].
        assert (Hl0 : l0 / nc < lp_n (lps t)) by (apply Nat.div_lt_upper_bound; lia).
        apply (proj1 (proj2 (proj2 (proj2 Hlp)))) in Hl0. destruct Hl0 as [row [R1 R2]].
        apply (In_nth _ _ []) in R1. destruct R1 as [k [K1 K2]]. rewrite (lp_length Hlp) in K1. subst row.
        apply (Hn (nth k (lp_cells (lps t)) 0)); [apply nth_In; auto|]. rewrite <- (@lp_row _ Hlp k K1).
        rewrite <- L2, lgx_div by auto. apply in_map; auto. }
  rewrite G; auto; [|intros t Ht; apply (Permutation_in _ Ho), in_seq in Ht; lia].
  destruct (serial_nth Hd) as [_ ->]. f_equal. apply (lsum_perm _ _ _ _ _ SR). apply Permutation_map.
  rewrite <- Hpart. clear - Ho. induction Ho; simpl; auto.
  - apply Permutation_app_head; auto.
  - rewrite !app_assoc. apply Permutation_app_tail, Permutation_app_comm.
  - etransitivity; eauto.
Qed.

(** *** Matrices *)
Variable mels : nat -> list (list V).   (* element matrices *)
Variable is0 : V -> bool.
Hypothesis His0 : forall x, is0 x = true <-> x = v0.
(** A CSR structure with columns in the range, stored once. *)
Definition csr_ok (n : nat) (prows cols : list nat) : Prop :=
  wf_csr n prows cols /\ sorted_csr n prows cols /\ forall ik, ik < length cols -> nth ik cols 0 < n.
Definition mtx_of (n : nat) (conn : list (list Z)) (cells iels : list nat) (prows cols : list nat) (data : list V) : Prop :=
  csr_ok n prows cols /\
  assemble_matrix v0 add mul (find_lin prows cols) (repeat v0 (length cols)) (map mels cells) iels sign conn conn = Ok data.
Variables gprows gcols : list nat.
Variable gdata : list V.
Hypothesis Hserial : mtx_of (N * nc) gconn (seq 0 ncell) (seq 0 ncell) gprows gcols gdata.
Variables prows cols : nat -> list nat.
Variable data : nat -> list V.
Hypothesis Hlocal : forall t, t < n_tasks ->
  mtx_of (lp_n (lps t) * nc) (lconn (lps t)) (lp_cells (lps t)) (seq 0 (length (lp_cells (lps t)))) (prows t) (cols t) (data t).

(** The contribution of a cell to an entry. *)
Definition elsum (row : list Z) (mel : list (list V)) (d e : nat) : V :=
  lsum (map (fun q => lsum (map (fun c => ind (Z.eqb (fst q) (Z.of_nat d) && Z.eqb (fst c) (Z.of_nat e)) (mul sign (snd c)))
     (combine row (snd q)))) (combine row mel)).
Definition mcell (c d e : nat) : V := elsum (nth c gconn []) (mels c) d e.

Lemma lsum_cons : forall x l, lsum (x :: l) = add x (lsum l).
Proof. reflexivity. Qed.
Lemma mcontribs_sum : forall (g : Z * Z * V -> V) conn cells iels, length cells = length iels ->
  lsum (map g (mtx_contribs conn conn iels (map mels cells))) =
  lsum (map (fun kc => lsum (map (fun q => lsum (map (fun c => g (fst q, fst c, snd c)) (combine (nth (fst kc) conn []) (snd q))))
     (combine (nth (fst kc) conn []) (mels (snd kc))))) (combine iels cells)).
Proof.
  intros g conn cells iels. unfold mtx_contribs. revert iels.
  induction cells as [|c cells IH]; intros [|k iels] Hl; try discriminate; auto.
  cbn [map combine concat]. rewrite map_app, (lsum_app _ _ _ _ _ SR).
  rewrite lsum_cons. rewrite <- IH by (simpl in Hl; lia). f_equal. cbn [fst snd].
  induction (combine (nth k conn []) (mels c)) as [|q qs IHq]; auto.
  cbn [map concat]. rewrite map_app, (lsum_app _ _ _ _ _ SR), IHq. rewrite lsum_cons. f_equal.
  rewrite map_map. reflexivity.
Qed.
Lemma csr_zero : forall pr co i j n, csr_entry v0 add pr co (repeat v0 n) i j = v0.
Proof.
  intros. unfold csr_entry. apply (lsum_zero _ _ _ _ _ SR). intros ik _.
  assert (E : nth ik (repeat v0 n) v0 = v0).
  { destruct (le_lt_dec n ik); [apply nth_overflow; rewrite repeat_length; auto|apply nth_repeat_lt; auto]. }
  rewrite E. unfold BaseSum.ind. destruct (_ =? _); auto.
Qed.
Lemma mtx_value : forall n conn cells iels pr co da, length cells = length iels ->
  (forall k z, In z (nth k conn []) -> (z < Z.of_nat n)%Z) ->
  mtx_of n conn cells iels pr co da ->
  length da = length co /\
  forall i j, i < n -> csr_entry v0 add pr co da i j =
    lsum (map (fun kc => elsum (nth (fst kc) conn []) (mels (snd kc)) i j) (combine iels cells)).
Proof.
  intros n conn cells iels pr co da Hl Hb [[W _] H].
  destruct (C13_value V v0 v1 add mul SR n pr co (repeat v0 (length co)) (map mels cells) iels sign conn conn da W
              (repeat_length _ _)) as [L E]; auto.
  - intros p Hp. unfold mtx_contribs in Hp. apply in_concat_skip in Hp. destruct Hp as [[k me] [_ Hp]].
    apply in_concat_skip in Hp. destruct Hp as [q [Hq Hp]]. apply in_map_iff in Hp. destruct Hp as [c [<- Hc]].
    destruct q as [z r]. simpl. apply in_combine_l in Hq. simpl in Hq. eapply Hb; eauto.
  - rewrite repeat_length in L. split; auto. intros i j Hi. rewrite E by auto. rewrite csr_zero, (add0l _ _ _ _ _ SR).
    rewrite (mcontribs_sum _ _ _ _ Hl). reflexivity.
Qed.
Lemma gconn_bound : forall k z, In z (nth k gconn []) -> (z < Z.of_nat (N * nc))%Z.
Proof.
  intros k z Hz. destruct (le_lt_dec ncell k) as [H|H].
  { exfalso. unfold gconn in Hz. rewrite adof_row, map_length, seq_length in Hz.
    destruct (Nat.ltb_spec k ncell); [lia|destruct Hz]. }
  rewrite gconn_nth in Hz by auto. unfold arow in Hz. apply in_concat_skip in Hz. destruct Hz as [i [Hi Hz]].
  apply in_seq in Hi. apply in_map_iff in Hz. destruct Hz as [c [<- Hc]]. rewrite shift0.
  specialize (@Hecon k c H Hc). destruct Heqg as [_ E]. destruct (E (nc * c + i)); nia.
Qed.
Lemma lconn_bound : forall t, t < n_tasks -> forall k z, In z (nth k (lconn (lps t)) []) -> (z < Z.of_nat (lp_n (lps t) * nc))%Z.
Proof.
  intros t Ht k z Hz. destruct (Hlps Ht) as [Hlp Hc].
  destruct (le_lt_dec (length (lp_cells (lps t))) k) as [H|H].
  { exfalso. unfold lconn in Hz. rewrite adof_row, (lp_length Hlp) in Hz.
    destruct (Nat.ltb_spec k (length (lp_cells (lps t)))); [lia|destruct Hz]. }
  assert (R := rows_rel Hlp Hc H). clear - R Hz. revert Hz. induction R as [|x y a b Hxy R IH]; intros Hz; [destruct Hz|].
  destruct Hz as [<-|Hz]; auto. destruct Hxy as [[? ?]|(l & L1 & -> & _)]; lia.
Qed.
Lemma combine_diag : forall A (l : list A), combine l l = map (fun x => (x, x)) l.
Proof. induction l; simpl; congruence. Qed.
Lemma serial_entry : forall d e, d < N * nc -> csr_entry v0 add gprows gcols gdata d e = lsum (map (fun c => mcell c d e) (seq 0 ncell)).
Proof.
  intros d e Hd. destruct (mtx_value eq_refl gconn_bound Hserial) as [_ H]. rewrite H by auto.
  rewrite combine_diag, map_map. reflexivity.
Qed.
Lemma elsum_rel : forall lp k, localizes nc econn eqg lp -> (forall c, In c (lp_cells lp) -> c < ncell) ->
  k < length (lp_cells lp) -> forall l l', l < lp_n lp * nc -> l' < lp_n lp * nc ->
  elsum (nth k (lconn lp) []) (mels (nth k (lp_cells lp) 0)) l l' =
  mcell (nth k (lp_cells lp) 0) (lgx nc (lp_lg lp) l) (lgx nc (lp_lg lp) l').
Proof.
  intros lp k Hlp Hc Hk l l' Hl Hl'. unfold mcell, elsum. assert (R := rows_rel Hlp Hc Hk). revert R.
  generalize (nth k (lconn lp) []) (nth (nth k (lp_cells lp) 0) gconn []) (mels (nth k (lp_cells lp) 0)).
  intros a b mel R.
  assert (Ei : forall x y l, rel nc (lp_n lp) (lp_lg lp) x y -> l < lp_n lp * nc ->
     Z.eqb x (Z.of_nat l) = Z.eqb y (Z.of_nat (lgx nc (lp_lg lp) l))).
  { intros x y l1 Hxy Hl1. apply (@rel_eqb nc Hnc (lp_n lp) (lp_lg lp) (lp_inj Hlp) x y l1 Hxy Hl1). }
  assert (Inner : forall (bl bg : bool) r, bl = bg ->
    lsum (map (fun c => ind (bl && Z.eqb (fst c) (Z.of_nat l')) (mul sign (snd c))) (combine a r)) =
    lsum (map (fun c => ind (bg && Z.eqb (fst c) (Z.of_nat (lgx nc (lp_lg lp) l'))) (mul sign (snd c))) (combine b r))).
  { intros bl bg r <-. clear mel. revert r. induction R as [|x y a b Hxy R IH]; intros [|v r]; auto.
    cbn [combine map]. rewrite !lsum_cons. rewrite IH. cbn [fst snd]. rewrite (Ei x y l' Hxy Hl'). reflexivity. }
  assert (G : forall a' b', Forall2 (rel nc (lp_n lp) (lp_lg lp)) a' b' -> forall mel,
    lsum (map (fun q => lsum (map (fun c => ind (Z.eqb (fst q) (Z.of_nat l) && Z.eqb (fst c) (Z.of_nat l')) (mul sign (snd c)))
       (combine a (snd q)))) (combine a' mel)) =
    lsum (map (fun q => lsum (map (fun c => ind (Z.eqb (fst q) (Z.of_nat (lgx nc (lp_lg lp) l)) &&
         Z.eqb (fst c) (Z.of_nat (lgx nc (lp_lg lp) l'))) (mul sign (snd c))) (combine b (snd q)))) (combine b' mel))).
  { clear mel. intros a' b' R'. induction R' as [|x y a' b' Hxy R' IH]; intros [|r mel]; auto.
    cbn [combine map]. rewrite !lsum_cons. rewrite IH. f_equal. cbn [fst snd].
    apply Inner. apply Ei; auto. }
  apply G; auto.
Qed.
Lemma local_entry : forall t, t < n_tasks -> forall l l', l < lp_n (lps t) * nc -> l' < lp_n (lps t) * nc ->
  csr_entry v0 add (prows t) (cols t) (data t) l l' = lsum (map (fun c => mcell c (lx t l) (lx t l')) (lp_cells (lps t))).
Proof.
  intros t Ht l l' Hl Hl'. destruct (Hlps Ht) as [Hlp Hc].
  destruct (mtx_value (eq_sym (seq_length _ _)) (lconn_bound Ht) (Hlocal Ht)) as [_ H].
  rewrite H by auto.
  assert (Ec : combine (seq 0 (length (lp_cells (lps t)))) (lp_cells (lps t)) =
               map (fun k => (k, nth k (lp_cells (lps t)) 0)) (seq 0 (length (lp_cells (lps t))))).
  { apply list_ext with (d := (0, 0)); [rewrite map_length, combine_length, seq_length; lia|].
    intros k Hk. rewrite combine_length, seq_length, Nat.min_id in Hk. rewrite combine_nth by (rewrite seq_length; auto).
    rewrite nth_map_in with (da := 0) by (rewrite seq_length; auto). rewrite nth_seq0 by auto. reflexivity. }
  rewrite Ec, map_map.
  assert (Ec2 : lp_cells (lps t) = map (fun k => nth k (lp_cells (lps t)) 0) (seq 0 (length (lp_cells (lps t))))).
  { apply list_ext with (d := 0); [rewrite map_length, seq_length; auto|]. intros k Hk.
    rewrite nth_map_in with (da := 0) by (rewrite seq_length; auto). rewrite nth_seq0 by auto. reflexivity. }
  transitivity (lsum (map (fun c => mcell c (lx t l) (lx t l')) (map (fun k => nth k (lp_cells (lps t)) 0) (seq 0 (length (lp_cells (lps t))))))).
  2:{ rewrite <- Ec2. reflexivity. }
  rewrite map_map. apply (lsum_ext _ v0 add). intros k Hk. apply in_seq in Hk. cbn [fst snd].
  apply elsum_rel; auto; lia.
Qed.
Lemma mcell_zero : forall c d e, c < ncell -> ~ (In (d / nc) (econn c) /\ In (e / nc) (econn c)) -> mcell c d e = v0.
Proof.
  intros c d e Hc Hn. unfold mcell, elsum. apply (lsum_zero _ _ _ _ _ SR). intros [z r] Hq. apply in_combine_l in Hq. cbn [fst snd].
  apply (lsum_zero _ _ _ _ _ SR). intros [z' x] Hc'. apply in_combine_l in Hc'. cbn [fst snd].
  destruct (Z.eqb_spec z (Z.of_nat d)); auto. destruct (Z.eqb_spec z' (Z.of_nat e)); auto. exfalso. subst. apply Hn.
  rewrite gconn_nth in Hq, Hc' by auto. split; eapply arow_g_In; eauto.
Qed.

(** The stored items of the local matrices. *)
Definition items (t : nat) : list (nat * nat * V) := csr_items v0 (lp_n (lps t) * nc) (prows t) (cols t) (data t).
Lemma items_In : forall t i j x, t < n_tasks -> In (i, j, x) (items t) ->
  i < lp_n (lps t) * nc /\ j < lp_n (lps t) * nc /\ x = csr_entry v0 add (prows t) (cols t) (data t) i j.
Proof.
  intros t i j x Ht H. destruct (Hlocal Ht) as [[(W1 & W2 & W3) [Sc Cb]] _]. unfold items, csr_items in H.
  apply in_concat_skip in H. destruct H as [i' [Hi H]]. apply in_seq in Hi. apply in_map_iff in H.
  destruct H as [ik [E Hk]]. inversion E; subst i' j x; clear E. apply in_seq in Hk.
  assert (Hik : nth i (prows t) 0 <= ik < nth (S i) (prows t) 0) by lia.
  split; [lia|]. split.
  { apply Cb. rewrite <- W3. pose proof (W2 (S i) (lp_n (lps t) * nc) ltac:(lia)). lia. }
  unfold csr_entry. symmetry. rewrite (lsum_single _ _ _ _ _ SR _ _ _ ik).
  - rewrite Nat.eqb_refl. reflexivity.
  - apply seq_NoDup.
  - apply in_seq. lia.
  - intros ik' Hk' Hne. apply in_seq in Hk'. unfold BaseSum.ind.
    destruct (Nat.eqb_spec (nth ik' (cols t) 0) (nth ik (cols t) 0)) as [E|]; auto. exfalso.
    destruct (lt_eq_lt_dec ik ik') as [[L|L]|L]; [|congruence|].
    + specialize (Sc i ik ik' ltac:(lia) ltac:(lia) L ltac:(lia)). lia.
    + specialize (Sc i ik' ik ltac:(lia) ltac:(lia) L ltac:(lia)). lia.
Qed.
Lemma items_nonzero : forall t i j, t < n_tasks -> i < lp_n (lps t) * nc ->
  csr_entry v0 add (prows t) (cols t) (data t) i j <> v0 -> exists x, In (i, j, x) (items t).
Proof.
  intros t i j Ht Hi Hne.
  destruct (Exists_dec (fun ik => nth ik (cols t) 0 = j) (seq (nth i (prows t) 0) (nth (S i) (prows t) 0 - nth i (prows t) 0))) as [H|H].
  { intros x. apply Nat.eq_dec. }
  - apply Exists_exists in H. destruct H as [ik [H1 H2]]. exists (nth ik (data t) v0). unfold items, csr_items.
    apply in_concat_skip. exists i. split; [apply in_seq; lia|]. apply in_map_iff. exists ik. rewrite H2. auto.
  - exfalso. apply Hne. unfold csr_entry. apply (lsum_zero _ _ _ _ _ SR). intros ik Hik.
    destruct (Nat.eqb_spec (nth ik (cols t) 0) j); auto. exfalso. apply H. apply Exists_exists. eauto.
Qed.
Lemma items_sum : forall t i j, t < n_tasks -> i < lp_n (lps t) * nc ->
  lsum (map (fun it => ind ((fst (fst it) =? i) && (snd (fst it) =? j)) (snd it)) (items t)) =
  csr_entry v0 add (prows t) (cols t) (data t) i j.
Proof.
  intros t i j Ht Hi. unfold items, csr_items. set (n := lp_n (lps t) * nc) in *.
  rewrite (lsum_concat _ _ _ _ _ SR).
  rewrite (lsum_single _ _ _ _ _ SR _ _ _ i).
  - rewrite map_map. cbn [fst snd]. unfold csr_entry. rewrite Nat.eqb_refl. reflexivity.
  - apply seq_NoDup.
  - apply in_seq. lia.
  - intros k Hk Hne. rewrite map_map. apply (lsum_zero _ _ _ _ _ SR). intros ik _. cbn [fst snd].
    destruct (Nat.eqb_spec k i); [congruence|]. reflexivity.
Qed.

Definition parallel_mtx (is_overlap : bool) (order : list nat) (pm0 : pmat V) : pmat V :=
  fold_left (fun m t => assemble_mtx v0 add is0 is_overlap m (lp_n (lps t) * nc) (prows t) (cols t) (data t)
                          (pdofs t) (lo t) (hi t)) order pm0.

Lemma mset_out : forall (pos : nat -> nat) its (m : pmat V) a b,
  (forall i j x, In (i, j, x) its -> ~ (pos i = a /\ pos j = b)) ->
  fold_left (fun m it => let '(i, j, x) := it in mset m (pos i) (pos j) x) its m a b = m a b.
Proof.
  intros pos. induction its as [|[[i j] x] its IH]; intros m a b H; auto. cbn [fold_left]. rewrite IH.
  - unfold mset. specialize (H i j x (or_introl eq_refl)).
    destruct (Nat.eqb_spec a (pos i)), (Nat.eqb_spec b (pos j)); auto. exfalso. apply H; auto.
  - intros; apply (H i0 j0 x0); simpl; auto.
Qed.
Lemma mset_in : forall (pos : nat -> nat) its (m : pmat V) a b v,
  (forall i j x, In (i, j, x) its -> pos i = a -> pos j = b -> x = v) ->
  (m a b = v \/ exists i j x, In (i, j, x) its /\ pos i = a /\ pos j = b) ->
  fold_left (fun m it => let '(i, j, x) := it in mset m (pos i) (pos j) x) its m a b = v.
Proof.
  intros pos. induction its as [|[[i j] x] its IH]; intros m a b v H He.
  - destruct He as [He|(i & j & x & [] & _)]; auto.
  - cbn [fold_left]. apply IH; [intros; eapply H; simpl; eauto|]. unfold mset.
    destruct (Nat.eqb_spec a (pos i)) as [Ea|Ea], (Nat.eqb_spec b (pos j)) as [Eb|Eb]; cbn [andb];
      try (destruct He as [He|(i' & j' & x' & [E|Hin] & E1 & E2)]; [left; exact He|inversion E; subst; congruence|right; eauto 8]).
    left. apply (H i j x); simpl; auto.
Qed.
Lemma madd_fold : forall (pos : nat -> nat) its (m : pmat V) a b,
  fold_left (fun m it => let '(i, j, x) := it in mset m (pos i) (pos j) (add (m (pos i) (pos j)) x)) its m a b =
  add (m a b) (lsum (map (fun it => ind ((pos (fst (fst it)) =? a) && (pos (snd (fst it)) =? b)) (snd it)) its)).
Proof.
  intros pos. induction its as [|[[i j] x] its IH]; intros m a b; [simpl; symmetry; apply (add0r _ _ _ _ _ SR)|].
  cbn [fold_left map]. rewrite IH, lsum_cons. cbn [fst snd]. unfold mset.
  rewrite (Nat.eqb_sym a), (Nat.eqb_sym b).
  destruct (Nat.eqb_spec (pos i) a), (Nat.eqb_spec (pos j) b); cbn [andb BaseSum.ind];
    rewrite ?(add0l _ _ _ _ _ SR); auto. subst. symmetry. apply (addA _ _ _ _ _ SR).
Qed.

Lemma owned_entry : ghosts_ok -> forall t d e, t < n_tasks -> d < N * nc -> lo t <= nth d idm 0 < hi t ->
  lsum (map (fun c => mcell c d e) (lp_cells (lps t))) = csr_entry v0 add gprows gcols gdata d e.
Proof.
  intros Hg t d e Ht Hd Hr. destruct (Hlps Ht) as [Hlp Hc]. rewrite serial_entry by auto.
  assert (G : forall cs, (forall x, In x cs -> x < ncell) ->
    lsum (map (fun c => mcell c d e) cs) =
    lsum (map (fun c => mcell c d e) (filter (fun c => memb (d / nc) (econn c)) cs))).
  { clear - SR Hnc Hecon Heqg. induction cs as [|x cs IH]; intros Hb; auto. cbn [map filter].
    assert (IH' := IH (fun y Hy => Hb y (or_intror Hy))).
    destruct (memb (d / nc) (econn x)) eqn:Em.
    - cbn [map]. rewrite !lsum_cons. rewrite IH'. reflexivity.
    - rewrite lsum_cons, IH'. rewrite mcell_zero, (add0l _ _ _ _ _ SR); auto.
      + apply Hb; simpl; auto.
      + apply memb_false in Em. tauto. }
  rewrite (G (lp_cells (lps t))), (G (seq 0 ncell)); auto.
  - apply (lsum_perm _ _ _ _ _ SR). apply Permutation_map. apply NoDup_Permutation.
    + apply NoDup_filter. apply Hlp.
    + apply NoDup_filter, seq_NoDup.
    + intros x. rewrite !filter_In, in_seq, memb_In. split.
      * intros [X1 X2]. split; auto. specialize (Hc x X1). lia.
      * intros [X1 X2]. split; auto. apply (Hg t d x); auto. lia.
  - intros x Hx. apply in_seq in Hx. lia.
Qed.
Lemma pos_inj : forall t i d, t < n_tasks -> i < lp_n (lps t) * nc -> d < N * nc -> nth i (pdofs t) 0 = nth d idm 0 -> lx t i = d.
Proof. intros t i d Ht Hi Hd E. rewrite pdofs_nth in E by auto. apply Hidm_inj in E; auto. apply lx_bound; auto. Qed.

Theorem mtx_overlap : ghosts_ok -> ranges_ok -> forall order pm0, (forall t, In t order <-> t < n_tasks) ->
  forall d e, d < N * nc -> e < N * nc ->
  pm0 (nth d idm 0) (nth e idm 0) = v0 \/ pm0 (nth d idm 0) (nth e idm 0) = csr_entry v0 add gprows gcols gdata d e \/
  csr_entry v0 add gprows gcols gdata d e <> v0 ->
  parallel_mtx true order pm0 (nth d idm 0) (nth e idm 0) = csr_entry v0 add gprows gcols gdata d e.
Proof.
  intros Hg Hr order pm0 Ho d e Hd He H0. destruct (Hr d Hd) as [t0 [T1 T2]].
  set (v := csr_entry v0 add gprows gcols gdata d e) in *. set (a := nth d idm 0) in *. set (b := nth e idm 0) in *.
  (* the effect of one task *)
  assert (Step : forall t m, t < n_tasks ->
    let m' := assemble_mtx v0 add is0 true m (lp_n (lps t) * nc) (prows t) (cols t) (data t) (pdofs t) (lo t) (hi t) in
    (m a b = v -> m' a b = v) /\ (lo t <= a < hi t -> v <> v0 -> m' a b = v) /\ (v = v0 -> m' a b = m a b)).
  { intros t m Ht m'. unfold m', assemble_mtx. fold (items t).
    set (its := filter _ _).
    assert (Hits : forall i j x, In (i, j, x) its -> nth i (pdofs t) 0 = a -> nth j (pdofs t) 0 = b -> x = v /\ x <> v0).
    { intros i j x Hin Ea Eb. unfold its in Hin. apply filter_In in Hin. destruct Hin as [Hin Hz]. cbn [snd] in Hz.
      apply in_map_iff in Hin. destruct Hin as [[[i' j'] x'] [E Hin]]. inversion E; subst i' j'; clear E.
      assert (Hx0 : x <> v0) by (intros F; rewrite (proj2 (His0 x) F) in Hz; discriminate).
      destruct (items_In _ _ _ Ht Hin) as (I1 & I2 & I3).
      destruct ((nth i (pdofs t) 0 <? lo t) || (hi t <=? nth i (pdofs t) 0)) eqn:Em; [congruence|].
      apply orb_false_iff in Em. rewrite Nat.ltb_ge, Nat.leb_gt, Ea in Em.
      assert (x = x') by congruence. subst x'. split; auto.
      assert (Ei := @pos_inj t i d Ht I1 Hd Ea). assert (Ej := @pos_inj t j e Ht I2 He Eb).
      rewrite I3, (local_entry Ht I1 I2), Ei, Ej.
      exact (@owned_entry Hg t d e Ht Hd (conj (proj1 Em) (proj2 Em))). }
    split; [|split].
    - intros Hm. apply (mset_in (fun i => nth i (pdofs t) 0)); [|auto]. intros i j x Hin Ea Eb. apply (Hits i j x Hin Ea Eb).
    - intros Ha Hv. apply (mset_in (fun i => nth i (pdofs t) 0)); [intros i j x Hin Ea Eb; apply (Hits i j x Hin Ea Eb)|].
      right.
      assert (Ev := owned_entry Hg e Ht Hd Ha). fold v in Ev.
      destruct (dec_local Ht Hd) as [[l [L1 L2]]|Hn].
      2:{ exfalso. apply Hv. rewrite <- Ev. apply (lsum_zero _ _ _ _ _ SR). intros c Hc. apply mcell_zero; [apply (Hlps Ht); auto|].
          specialize (Hn c Hc). tauto. }
      destruct (dec_local Ht He) as [[l' [L1' L2']]|Hn].
      2:{ exfalso. apply Hv. rewrite <- Ev. apply (lsum_zero _ _ _ _ _ SR). intros c Hc. apply mcell_zero; [apply (Hlps Ht); auto|].
          specialize (Hn c Hc). tauto. }
      assert (El : csr_entry v0 add (prows t) (cols t) (data t) l l' = v) by (rewrite local_entry, L2, L2' by auto; auto).
      destruct (@items_nonzero t l l' Ht L1) as [x Hx]; [congruence|].
      destruct (items_In _ _ _ Ht Hx) as (_ & _ & Exv). rewrite El in Exv. subst x.
      assert (Pa : nth l (pdofs t) 0 = a) by (rewrite pdofs_nth by auto; rewrite L2; reflexivity).
      assert (Pb : nth l' (pdofs t) 0 = b) by (rewrite pdofs_nth by auto; rewrite L2'; reflexivity).
      exists l, l', v. split; auto. unfold its. apply filter_In. split.
      + apply in_map_iff. exists (l, l', v). split; auto. rewrite Pa.
        destruct (Nat.ltb_spec a (lo t)); [lia|]. destruct (Nat.leb_spec (hi t) a); [lia|]. reflexivity.
      + cbn [snd]. destruct (is0 v) eqn:E0; auto. apply His0 in E0. congruence.
    - intros Hv. apply (mset_out (fun i => nth i (pdofs t) 0)). intros i j x Hin [Ea Eb]. destruct (Hits i j x Hin Ea Eb). congruence. }
  assert (G : forall l m, (forall t, In t l -> t < n_tasks) ->
     (m a b = v \/ v <> v0 /\ In t0 l) -> parallel_mtx true l m a b = v).
  { induction l as [|t l IH]; intros m Hl H; [destruct H as [H|[_ []]]; auto|].
    cbn [parallel_mtx fold_left]. destruct (Step t m (Hl t (or_introl eq_refl))) as (S1 & S2 & S3). apply IH.
    - intros; apply Hl; simpl; auto.
    - destruct H as [H|[Hv [->|Hin]]]; [left; apply S1; auto|left; apply S2; auto|right; auto]. }
  apply G; [intros; apply Ho; auto|].
  destruct H0 as [H0|[H0|H0]]; auto.
  - destruct (is0 v) eqn:E0.
    + apply His0 in E0. left. congruence.
    + right. split; [|apply Ho; auto]. intros F. rewrite (proj2 (His0 v) F) in E0. discriminate.
  - right. split; auto. apply Ho; auto.
Qed.

Theorem mtx_no_overlap : forall order pm0, Permutation order (seq 0 n_tasks) ->
  Permutation (concat (map (fun t => lp_cells (lps t)) (seq 0 n_tasks))) (seq 0 ncell) ->
  forall d e, d < N * nc -> e < N * nc ->
  parallel_mtx false order pm0 (nth d idm 0) (nth e idm 0) =
  add (pm0 (nth d idm 0) (nth e idm 0)) (csr_entry v0 add gprows gcols gdata d e).
Proof.
  intros order pm0 Ho Hpart d e Hd He.
  assert (G : forall l m, (forall t, In t l -> t < n_tasks) ->
     parallel_mtx false l m (nth d idm 0) (nth e idm 0) =
     add (m (nth d idm 0) (nth e idm 0)) (lsum (map (fun c => mcell c d e) (concat (map (fun t => lp_cells (lps t)) l))))).
  { induction l as [|t l IH]; intros m Hl; [simpl; symmetry; apply (add0r _ _ _ _ _ SR)|].
    assert (Ht : t < n_tasks) by (apply Hl; simpl; auto). destruct (Hlps Ht) as [Hlp Hc].
    change (parallel_mtx false (t :: l) m) with (parallel_mtx false l
      (assemble_mtx v0 add is0 false m (lp_n (lps t) * nc) (prows t) (cols t) (data t) (pdofs t) (lo t) (hi t))).
    cbn [map concat]. rewrite IH by (intros; apply Hl; simpl; auto). unfold assemble_mtx. fold (items t).
    rewrite (madd_fold (fun i => nth i (pdofs t) 0)).
    rewrite map_app, (lsum_app _ _ _ _ _ SR), <- (addA _ _ _ _ _ SR). f_equal. f_equal.
    destruct (dec_local Ht Hd) as [[l1 [L1 L2]]|Hn]; [destruct (dec_local Ht He) as [[l1' [L1' L2']]|Hn]|].
    - rewrite <- L2, <- L2', <- local_entry by auto. rewrite <- (items_sum l1' Ht L1).
      apply (lsum_ext _ v0 add). intros [[i j] x] Hin. cbn [fst snd]. destruct (items_In _ _ _ Ht Hin) as (I1 & I2 & _).
      rewrite L2, L2'. f_equal. f_equal.
      + destruct (Nat.eqb_spec (nth i (pdofs t) 0) (nth d idm 0)) as [E|E], (Nat.eqb_spec i l1) as [E'|E']; auto; exfalso.
        * apply pos_inj in E; auto. apply E'. rewrite <- L2 in E.
          apply (@lgx_inj nc Hnc (lp_n (lps t)) (lp_lg (lps t)) (lp_inj Hlp)) in E; auto.
        * subst i. apply E. rewrite pdofs_nth, L2 by auto. reflexivity.
      + destruct (Nat.eqb_spec (nth j (pdofs t) 0) (nth e idm 0)) as [E|E], (Nat.eqb_spec j l1') as [E'|E']; auto; exfalso.
        * apply pos_inj in E; auto. apply E'. rewrite <- L2' in E.
          apply (@lgx_inj nc Hnc (lp_n (lps t)) (lp_lg (lps t)) (lp_inj Hlp)) in E; auto.
        * subst j. apply E. rewrite pdofs_nth, L2' by auto. reflexivity.
    - rewrite !(lsum_zero _ _ _ _ _ SR); auto.
      + intros c Hc'. apply mcell_zero; auto. specialize (Hn c Hc'). tauto.
      + intros [[i j] x] Hin. cbn [fst snd]. destruct (items_In _ _ _ Ht Hin) as (I1 & I2 & _).
        destruct (Nat.eqb_spec (nth j (pdofs t) 0) (nth e idm 0)) as [E|]; [|rewrite andb_false_r; auto]. exfalso.
        apply pos_inj in E; auto. revert E I2 Hn. clear - Hnc Hlp. intros E I2 Hn.
        assert (Hl0 : j / nc < lp_n (lps t)) by (apply Nat.div_lt_upper_bound; lia).
        apply (proj1 (proj2 (proj2 (proj2 Hlp)))) in Hl0. destruct Hl0 as [row [R1 R2]].
        apply (In_nth _ _ []) in R1. destruct R1 as [k [K1 K2]]. rewrite (lp_length Hlp) in K1. subst row.
        apply (Hn (nth k (lp_cells (lps t)) 0)); [apply nth_In; auto|]. rewrite <- (@lp_row _ Hlp k K1).
        rewrite <- E, lgx_div by auto. apply in_map; auto.
    - rewrite !(lsum_zero _ _ _ _ _ SR); auto.
      + intros c Hc'. apply mcell_zero; auto. specialize (Hn c Hc'). tauto.
      + intros [[i j] x] Hin. cbn [fst snd]. destruct (items_In _ _ _ Ht Hin) as (I1 & I2 & _).
        destruct (Nat.eqb_spec (nth i (pdofs t) 0) (nth d idm 0)) as [E|]; [|auto]. exfalso.
        apply pos_inj in E; auto. revert E I1 Hn. clear - Hnc Hlp. intros E I2 Hn.
        assert (Hl0 : i / nc < lp_n (lps t)) by (apply Nat.div_lt_upper_bound; lia).
        apply (proj1 (proj2 (proj2 (proj2 Hlp)))) in Hl0. destruct Hl0 as [row [R1 R2]].
        apply (In_nth _ _ []) in R1. destruct R1 as [k [K1 K2]]. rewrite (lp_length Hlp) in K1. subst row.
        apply (Hn (nth k (lp_cells (lps t)) 0)); [apply nth_In; auto|]. rewrite <- (@lp_row _ Hlp k K1).
        rewrite <- E, lgx_div by auto. apply in_map; auto. }
  rewrite G; [|intros t Ht; apply (Permutation_in _ Ho), in_seq in Ht; lia].
  rewrite serial_entry by auto. f_equal. apply (lsum_perm _ _ _ _ _ SR). apply Permutation_map.
  rewrite <- Hpart. clear - Ho. induction Ho; simpl; auto.
  - apply Permutation_app_head; auto.
  - rewrite !app_assoc. apply Permutation_app_tail, Permutation_app_comm.
  - etransitivity; eauto.
Qed.
End Main.
