(** C107: the Lagrange basis on tensor product elements. *)
From Coq Require Import Reals Lra.
From Verif Require Import Base M_nls M_lagnodes M_lagrange P_lagnodes L_lagrange P_lagrange.
Set Implicit Arguments.
Open Scope R_scope.

(** ** Specification *)
(** The reference element is [v0, v1]^dim. *)
Definition in_cube (dim : nat) (v0 v1 : R) (x : point) : Prop := length x = dim /\ forall k, (k < dim)%nat -> v0 <= nth k x 0 <= v1.
(** Polynomials of degree at most n in each of the coordinates: sums of products *)
Inductive qpoly (n dim : nat) : (point -> R) -> Prop :=
| q_prod : forall ps, length ps = dim -> (forall p, In p ps -> poly n p) -> qpoly n dim (fun x => lprod (map (fun k => nth k ps (fun _ => 0) [nth k x 0]) (seq 0 dim)))
| q_add : forall f g, qpoly n dim f -> qpoly n dim g -> qpoly n dim (fun x => f x + g x)
| q_scale : forall c f, qpoly n dim f -> qpoly n dim (fun x => c * f x)
| q_ext : forall f g, qpoly n dim f -> (forall x, f x = g x) -> qpoly n dim g.
(** poly_spaces.py l.586-590 *)
Definition tp_coor (dim order : nat) (v0 v1 : R) (node : list nat) : point :=
  map (fun k => (INR (nth (2 * k) node 0%nat) * v0 + INR (nth (2 * k + 1) node 0%nat) * v1) / INR order) (seq 0 dim).
(** The inverse of [[v0, v1], [1, 1]] *)
Definition mtx1 (v0 v1 : R) : list (list R) := [[-1 / (v1 - v0); v1 / (v1 - v0)]; [1 / (v1 - v0); - v0 / (v1 - v0)]].

(** ** Lemmas *)
Definition bc1 (v0 v1 x : R) : list R := [(v1 - x) / (v1 - v0); (x - v0) / (v1 - v0)].
Lemma mtx1_inv : forall v0 v1, v0 < v1 -> is_inverse 1 (mtx1 v0 v1) [[v0]; [v1]].
Proof.
  intros v0 v1 V. split; [reflexivity|]. split; [|split].
  - intros i j Hi Hj. cbn in Hi, Hj. do 2 (destruct i as [|i]; [do 2 (destruct j as [|j]; [cbn; field; lra|]); lia|]); lia.
  - intros l L. destruct l; [cbn; field; lra|lia].
  - cbn. field. lra.
Qed.
Lemma bary1_val : forall v0 v1 x, v0 < v1 -> map (fun row => bary_val 1 row [x]) (mtx1 v0 v1) = bc1 v0 v1 x.
Proof. intros v0 v1 x V. unfold mtx1, bc1, bary_val, sumf. cbn. repeat (f_equal; try (field; lra)). Qed.
Lemma bary1_in : forall v0 v1 x eps check buf, v0 < v1 -> v0 <= x <= v1 -> bary 1 (mtx1 v0 v1) [x] eps check false buf = (bc1 v0 v1 x, false, false).
Proof.
  intros v0 v1 x eps check buf V X. apply bary_inside; [reflexivity| |].
  - intros i Hi. rewrite <- (bary1_val x V). cbn in Hi. do 2 (destruct i as [|i]; [reflexivity|]). lia.
  - assert (P : 0 < / (v1 - v0)) by (apply Rinv_0_lt_compat; lra). intros b [<-|[<-|[]]]; unfold Rdiv; split; try nra; apply (Rmult_le_reg_r (v1 - v0)); try lra; rewrite Rmult_assoc, Rinv_l by lra; lra.
Qed.
Lemma bary_dims_in : forall v0 v1 x eps check iis bufs, v0 < v1 -> (forall k, In k iis -> v0 <= nth k x 0 <= v1) ->
  bary_dims (mtx1 v0 v1) x eps check false bufs iis = (map (fun k => bc1 v0 v1 (nth k x 0)) iis, false, false).
Proof.
  intros v0 v1 x eps check iis bufs V. induction iis as [|k iis IH]; intros H; auto. cbn [bary_dims map]. rewrite bary1_in by (auto; apply H; left; auto). rewrite IH by (intros; apply H; right; auto). auto.
Qed.
Lemma bary_dims_nocheck : forall v0 v1 x iis bufs, v0 < v1 -> bary_dims (mtx1 v0 v1) x 0 false false bufs iis = (map (fun k => bc1 v0 v1 (nth k x 0)) iis, false, false).
Proof.
  intros v0 v1 x iis bufs V. induction iis as [|k iis IH]; auto. cbn [bary_dims map]. rewrite bary_nocheck, IH, bary1_val by auto. auto.
Qed.
Definition tctx (dim order : nat) (nodes : list (list nat)) (v0 v1 : R) : context := mkCtx order nodes None (mtx1 v0 v1) dim true.
Lemma eval_cube : forall dim order nodes v0 v1 diff eps check xs bufs, v0 < v1 -> (forall x, In x xs -> in_cube dim v0 v1 x) ->
  eval_points (tctx dim order nodes v0 v1) diff eps check false bufs xs =
  (map (fun x => eval_tensor (tctx dim order nodes v0 v1) diff false (map (fun k => bc1 v0 v1 (nth k x 0)) (seq 0 dim))) xs, false, false).
Proof.
  intros dim order nodes v0 v1 diff eps check xs. induction xs as [|x xs IH]; intros bufs V H; auto. cbn [eval_points cx_tensor tctx cx_mtx_i cx_dim map].
  rewrite bary_dims_in; auto.
  - rewrite (IH _ V (fun x X => H x (or_intror X))). auto.
  - intros k K. apply in_seq in K. apply H; [left; auto|lia].
Qed.
(** The value of one function *)
Definition tvalue (order : nat) (v0 v1 : R) (x : point) (dim : nat) (node : list nat) : R :=
  lprod (map (fun k => simplex_val order (bc1 v0 v1 (nth k x 0)) (slice k node)) (seq 0 dim)).
Lemma nth_dims : forall dim v0 v1 x k, (k < dim)%nat -> nth k (map (fun k => bc1 v0 v1 (nth k x 0)) (seq 0 dim)) [] = bc1 v0 v1 (nth k x 0).
Proof. intros. rewrite nth_map_in with (da := 0%nat) by (rewrite seq_length; auto). rewrite seq_nth by auto. auto. Qed.
Lemma eval_tensor_values : forall dim order nodes v0 v1 x, eval_tensor (tctx dim order nodes v0 v1) false false (map (fun k => bc1 v0 v1 (nth k x 0)) (seq 0 dim)) = [map (tvalue order v0 v1 x dim) nodes].
Proof.
  intros. unfold eval_tensor. cbn [tctx cx_dim cx_nodes cx_order cx_mtx_i map]. f_equal. apply map_ext. intros node. cbn [andb eval_simplex map nth].
  rewrite (fold_mult (fun ii => simplex_val order (nth ii (map (fun k => bc1 v0 v1 (nth k x 0)) (seq 0 dim)) []) (slice ii node))). unfold tvalue. rewrite Rmult_1_l. f_equal. apply map_ext_in. intros k K. apply in_seq in K. rewrite nth_dims by lia. auto.
Qed.
Lemma slice_S : forall k a b node, slice (S k) (a :: b :: node) = slice k node.
Proof. intros. unfold slice. replace (2 * S k)%nat with (S (S (2 * k))) by lia. reflexivity. Qed.
Lemma tvalue_S : forall o v0 v1 y x d a b node, tvalue o v0 v1 (y :: x) (S d) (a :: b :: node) = simplex_val o (bc1 v0 v1 y) [a; b] * tvalue o v0 v1 x d node.
Proof.
  intros. unfold tvalue. rewrite lprod_0S. f_equal. f_equal. apply map_ext. intros k. rewrite slice_S. auto.
Qed.
Lemma tp_coor_S : forall o v0 v1 d a b node, tp_coor (S d) o v0 v1 (a :: b :: node) = (INR a * v0 + INR b * v1) / INR o :: tp_coor d o v0 v1 node.
Proof.
  intros. unfold tp_coor. cbn [seq map]. f_equal. rewrite <- seq_shift, map_map. apply map_ext. intros k. replace (2 * S k)%nat with (S (S (2 * k))) by lia. reflexivity.
Qed.
Lemma bc1_comb : forall v0 v1 x, v0 < v1 -> [x] = comb 1 [[v0]; [v1]] (bc1 v0 v1 x).
Proof. intros v0 v1 x V. unfold comb, bc1. cbn. f_equal. field. lra. Qed.
Lemma bc1_sum : forall v0 v1 x, v0 < v1 -> lsum (bc1 v0 v1 x) = 1.
Proof. intros. unfold bc1. cbn. field. lra. Qed.
Lemma line_perm : forall o, Permutation.Permutation (map (fun i => [o - i; i]%nat) (seq 0 (S o))) (comps 2 o).
Proof.
  intros o. apply Permutation.NoDup_Permutation; [|apply comps_NoDup|].
  - apply FinFun.Injective_map_NoDup; [|apply seq_NoDup]. intros a b E. congruence.
  - intros t. rewrite comps_In, in_map_iff. split.
    + intros (i & <- & I). apply in_seq in I. split; [auto|]. cbn. lia.
    + intros [L S]. destruct t as [|a [|b [|]]]; try discriminate. cbn in S. exists b. split; [f_equal; lia|apply in_seq; lia].
Qed.
Lemma line_rep : forall o v0 v1 x p, (0 < o)%nat -> v0 < v1 -> poly o p ->
  lsum (map (fun i => p [(INR (o - i) * v0 + INR i * v1) / INR o] * simplex_val o (bc1 v0 v1 x) [o - i; i]%nat) (seq 0 (S o))) = p [x].
Proof.
  intros o v0 v1 x p O V P. assert (O' : INR o <> 0) by (apply not_0_INR; lia).
  rewrite (bc1_comb x V). rewrite <- (@basis_rep o 2 (bc1 v0 v1 x) o (fun t => p (comb 1 [[v0]; [v1]] t))); auto; [|apply bc1_sum; auto|apply poly_comb; auto].
  rewrite <- (lsum_perm (Permutation.Permutation_map _ (line_perm o))). rewrite map_map. apply lsum_ext. intros i I. f_equal.
  - f_equal. unfold comb. cbn. f_equal. field. auto.
  - apply simplex_val_eq. auto.
Qed.
Lemma cube_rep : forall o v0 v1 d x ps, (0 < o)%nat -> v0 < v1 -> length x = d -> length ps = d -> (forall p, In p ps -> poly o p) ->
  lsum (map (fun node => lprod (map (fun k => nth k ps (fun _ => 0) [nth k (tp_coor d o v0 v1 node) 0]) (seq 0 d)) * tvalue o v0 v1 x d node) (cubes d o)) =
  lprod (map (fun k => nth k ps (fun _ => 0) [nth k x 0]) (seq 0 d)).
Proof.
  intros o v0 v1. induction d as [|d IH]; intros x ps O V LX LP H.
  - cbn. unfold tvalue. cbn. lra.
  - destruct x as [|y x]; [discriminate|]. destruct ps as [|p ps]; [discriminate|]. cbn [cubes]. rewrite lsum_flat. rewrite lprod_0S. cbn [nth].
    rewrite <- (IH x ps O V ltac:(cbn in LX; lia) ltac:(cbn in LP; lia) (fun q Q => H q (or_intror Q))).
    rewrite <- (line_rep y O V (H p (or_introl eq_refl))). rewrite (Rmult_comm (lsum _)), <- lsum_scal. apply lsum_ext. intros i I. rewrite map_map.
    match goal with |- _ = ?s * ?c => rewrite (Rmult_comm s c) end. rewrite <- lsum_scal. apply lsum_ext. intros node N. rewrite tvalue_S, tp_coor_S, lprod_0S. cbn [nth]. lra.
Qed.
Lemma cube_perm : forall dim order l, (1 <= dim <= 3)%nat -> (1 <= order)%nat -> tp_nodes dim order = Ok l -> Permutation.Permutation (map ln_node l) (cubes dim order).
Proof.
  intros dim order l D O H. destruct (C104_tensor_nodes D O) as (l' & E & ND & IN & _). rewrite H in E. injection E as <-. apply Permutation.NoDup_Permutation_bis; [apply ND| |].
  - rewrite map_length, cubes_len. rewrite tp_nodes_eq in H by auto. injection H as <-. rewrite tp_len; auto.
  - intros t T. apply IN in T. destruct T as (is & LI & B & ->). clear - LI B. revert dim LI. induction is as [|i is IH]; intros dim LI; destruct dim; try discriminate; [left; auto|]. cbn [cubes]. apply in_flat_map. exists i. split; [apply in_seq; assert (X := B i (or_introl eq_refl)); lia|].
    cbn [flat_map app]. apply (in_map (fun t => (order - i)%nat :: i :: t)). apply IH; [intros; apply B; right; auto|cbn in LI; lia].
Qed.
Lemma simplex_val_node : forall o a b i j, (0 < o)%nat -> (a + b = o)%nat -> (i + j = o)%nat -> simplex_val o [INR a / INR o; INR b / INR o] [i; j] = if (j =? b)%nat then 1 else 0.
Proof.
  intros o a b i j O A I. assert (O' : INR o <> 0) by (apply not_0_INR; lia). rewrite simplex_val_eq by auto. cbn [map]. replace [INR o * (INR a / INR o); INR o * (INR b / INR o)] with (map INR [a; b]) by (cbn [map]; f_equal; [field; auto|f_equal; field; auto]).
  destruct (Nat.eqb_spec j b) as [->|N]; [replace i with a by lia; apply pcb_diag|]. apply pcb_other; [auto|cbn; lia|congruence].
Qed.
Lemma tvalue_nodal : forall o v0 v1 d a b, (0 < o)%nat -> v0 < v1 -> cube_point d o a -> cube_point d o b -> tvalue o v0 v1 (tp_coor d o v0 v1 b) d a = if list_eq_dec Nat.eq_dec a b then 1 else 0.
Proof.
  intros o v0 v1. induction d as [|d IH]; intros a b O V (ia & LA & BA & ->) (ib & LB & BB & ->).
  - destruct ia, ib; try discriminate. cbn [flat_map]. destruct (list_eq_dec Nat.eq_dec [] []); [reflexivity|congruence].
  - destruct ia as [|i ia]; [discriminate|]. destruct ib as [|j ib]; [discriminate|]. cbn [flat_map app]. rewrite tp_coor_S, tvalue_S.
    assert (Bi := BA i (or_introl eq_refl)). assert (Bj := BB j (or_introl eq_refl)).
    assert (E : bc1 v0 v1 ((INR (o - j) * v0 + INR j * v1) / INR o) = [INR (o - j) / INR o; INR j / INR o]).
    { assert (O' : INR o <> 0) by (apply not_0_INR; lia). rewrite minus_INR by lia. unfold bc1. f_equal; [field; split; auto; lra|f_equal; field; split; auto; lra]. }
    rewrite E, simplex_val_node by (auto; lia). rewrite IH; auto.
    2: { exists ia. repeat split; [cbn in LA; lia|]. intros; apply BA; right; auto. }
    2: { exists ib. repeat split; [cbn in LB; lia|]. intros; apply BB; right; auto. }
    destruct (Nat.eqb_spec i j) as [->|N].
    + destruct (list_eq_dec Nat.eq_dec (flat_map (fun i => [o - i; i]%nat) ia) (flat_map (fun i => [o - i; i]%nat) ib)) as [E'|N'];
        destruct (list_eq_dec Nat.eq_dec ((o - j)%nat :: j :: flat_map (fun i => [o - i; i]%nat) ia) ((o - j)%nat :: j :: flat_map (fun i => [o - i; i]%nat) ib)) as [E2|N2]; try lra; exfalso; congruence.
    + destruct (list_eq_dec Nat.eq_dec ((o - i)%nat :: i :: flat_map (fun i => [o - i; i]%nat) ia) ((o - j)%nat :: j :: flat_map (fun i => [o - i; i]%nat) ib)) as [E2|N2]; [exfalso; congruence|lra].
Qed.
Theorem C107_tensor_basis : forall dim order v0 v1 l eps check xs bufs, (1 <= dim <= 3)%nat -> (1 <= order)%nat -> v0 < v1 ->
  tp_nodes dim order = Ok l -> (forall x, In x xs -> in_cube dim v0 v1 x) ->
  exists out, evaluate (mkCtx order (map ln_node l) None (mtx1 v0 v1) dim true) false eps check xs false bufs = (Ok out, false) /\
    Forall2 (fun x o => exists vals, o = [vals] /\ length vals = length l /\
      lsum vals = 1 /\
      (forall j n, nth_error l j = Some n -> x = tp_coor dim order v0 v1 (ln_node n) -> forall i, (i < length l)%nat -> nth i vals 0 = if (i =? j)%nat then 1 else 0) /\
      (forall p, qpoly order dim p -> lsum (map (fun q => p (tp_coor dim order v0 v1 (ln_node (fst q))) * snd q) (combine l vals)) = p x)) xs out.
Proof.
  intros dim order v0 v1 l eps check xs bufs D O V N H. unfold evaluate. change (mkCtx order (map ln_node l) None (mtx1 v0 v1) dim true) with (tctx dim order (map ln_node l) v0 v1). rewrite (@eval_cube dim order (map ln_node l) v0 v1 false eps check xs bufs V H).
  eexists. split; [reflexivity|]. assert (PM := cube_perm D O N). destruct (C104_tensor_nodes D O) as (l' & E' & ND & IN & _). rewrite N in E'. injection E' as <-.
  assert (G : forall x, In x xs -> exists vals, eval_tensor (tctx dim order (map ln_node l) v0 v1) false false (map (fun k => bc1 v0 v1 (nth k x 0)) (seq 0 dim)) = [vals] /\ length vals = length l /\ lsum vals = 1 /\
      (forall j n, nth_error l j = Some n -> x = tp_coor dim order v0 v1 (ln_node n) -> forall i, (i < length l)%nat -> nth i vals 0 = if (i =? j)%nat then 1 else 0) /\
      (forall p, qpoly order dim p -> lsum (map (fun q => p (tp_coor dim order v0 v1 (ln_node (fst q))) * snd q) (combine l vals)) = p x)).
  { intros x X. destruct (H x X) as [LX _]. rewrite eval_tensor_values. exists (map (tvalue order v0 v1 x dim) (map ln_node l)). split; [auto|]. split; [rewrite !map_length; auto|].
    assert (REP : forall p, qpoly order dim p -> lsum (map (fun q => p (tp_coor dim order v0 v1 (ln_node (fst q))) * snd q) (combine l (map (tvalue order v0 v1 x dim) (map ln_node l)))) = p x).
    { intros p Q. transitivity (lsum (map (fun node => p (tp_coor dim order v0 v1 node) * tvalue order v0 v1 x dim node) (cubes dim order))).
      { rewrite <- (lsum_perm (Permutation.Permutation_map _ PM)). rewrite !map_map. generalize l. clear. induction l as [|n l IH]; auto. cbn [map combine fst snd]. rewrite !lsum_cons, IH. auto. }
      induction Q.
      - apply cube_rep; auto.
      - rewrite (lsum_ext _ (fun node => f (tp_coor dim order v0 v1 node) * tvalue order v0 v1 x dim node + g (tp_coor dim order v0 v1 node) * tvalue order v0 v1 x dim node)) by (intros; lra). rewrite lsum_plus, IHQ1, IHQ2. auto.
      - rewrite (lsum_ext _ (fun node => c * (f (tp_coor dim order v0 v1 node) * tvalue order v0 v1 x dim node))) by (intros; lra). rewrite lsum_scal, IHQ. auto.
      - rewrite <- H0, <- IHQ. apply lsum_ext. intros. rewrite H0. auto. }
    split; [|split; auto].
    - assert (Q1 : qpoly order dim (fun _ => 1)).
      { apply (@q_ext order dim (fun x => lprod (map (fun k => nth k (repeat (fun _ : point => 1) dim) (fun _ => 0) [nth k x 0]) (seq 0 dim)))).
        - apply q_prod; [apply repeat_length|]. intros p P. apply repeat_spec in P. subst p. constructor.
        - intros y. rewrite (map_ext_in _ (fun _ => 1)).
          + generalize (seq 0 dim). induction l0; cbn [map]; [reflexivity|]. rewrite lprod_cons, IHl0. lra.
          + intros k K. apply in_seq in K. rewrite (nth_indep _ _ (fun _ => 1)) by (rewrite repeat_length; lia). rewrite nth_repeat. auto. }
      rewrite <- (REP _ Q1). rewrite !map_map. clear. induction l as [|n l IH]; auto. cbn [map combine fst snd]. rewrite !lsum_cons, IH. lra.
    - intros j n J EX i Hi. rewrite nth_map_in with (da := []) by (rewrite map_length; auto).
      assert (NJ : nth j (map ln_node l) [] = ln_node n). { apply nth_error_nth. rewrite nth_error_map, J. auto. }
      assert (HJ : (j < length l)%nat) by (apply nth_error_Some; congruence).
      rewrite EX, <- NJ. rewrite tvalue_nodal; auto; try (apply IN; apply nth_In; rewrite map_length; auto).
      destruct (list_eq_dec Nat.eq_dec (nth i (map ln_node l) []) (nth j (map ln_node l) [])) as [E|NE].
      + replace (i =? j)%nat with true; auto. symmetry. apply Nat.eqb_eq. apply (NoDup_nth (map ln_node l) []); rewrite ?map_length; auto.
      + replace (i =? j)%nat with false; auto. symmetry. apply Nat.eqb_neq. congruence. }
  clear H. induction xs as [|x xs IH]; cbn [map]; constructor; [apply G; left; auto|apply IH; intros; apply G; right; auto].
Qed.
(** ** Gradients *)
Lemma lprod_pick : forall n (v : nat -> R) d r, (r < n)%nat -> lprod (map (fun k => if (k =? r)%nat then d else v k) (seq 0 n)) = d * lprod (map (fun k => if (k =? r)%nat then 1 else v k) (seq 0 n)).
Proof.
  induction n as [|n IH]; intros v d r L; [lia|]. rewrite !lprod_S. destruct (Nat.eqb_spec n r) as [->|N].
  - rewrite (map_ext_in (fun k => if (k =? r)%nat then d else v k) (fun k => if (k =? r)%nat then 1 else v k)); [lra|]. intros k K. apply in_seq in K. replace (k =? r)%nat with false by (symmetry; apply Nat.eqb_neq; lia). auto.
  - rewrite IH by lia. lra.
Qed.
Lemma eval_tensor_der : forall dim order nodes v0 v1 x r i, (r < dim)%nat -> (i < length nodes)%nat ->
  nth i (nth r (eval_tensor (tctx dim order nodes v0 v1) true false (map (fun k => bc1 v0 v1 (nth k x 0)) (seq 0 dim))) []) 0 =
  lprod (map (fun k => if (k =? r)%nat then simplex_der order (mtx1 v0 v1) (bc1 v0 v1 (nth k x 0)) (slice k (nth i nodes [])) 0 else simplex_val order (bc1 v0 v1 (nth k x 0)) (slice k (nth i nodes []))) (seq 0 dim)).
Proof.
  intros dim order nodes v0 v1 x r i R I. unfold eval_tensor. cbn [tctx cx_dim cx_nodes cx_order cx_mtx_i]. rewrite nth_map_in with (da := 0%nat) by (rewrite seq_length; auto). rewrite seq_nth by auto. cbn [plus].
  rewrite nth_map_in with (da := []) by auto. cbn [andb].
  rewrite (fold_mult (fun ii => nth 0 (nth 0 (eval_simplex order (ii =? r)%nat (mtx1 v0 v1) (nth ii (map (fun k => bc1 v0 v1 (nth k x 0)) (seq 0 dim)) []) [slice ii (nth i nodes [])]) []) 0)). rewrite Rmult_1_l. f_equal. apply map_ext_in.
  intros k K. apply in_seq in K. rewrite nth_dims by lia. destruct (k =? r)%nat; reflexivity.
Qed.
Lemma basis_at_tensor : forall dim order nodes v0 v1 i x, v0 < v1 -> (i < length nodes)%nat -> basis_at (tctx dim order nodes v0 v1) i x = tvalue order v0 v1 x dim (nth i nodes []).
Proof.
  intros dim order nodes v0 v1 i x V I. unfold basis_at, evaluate. cbn [eval_points cx_tensor tctx cx_mtx_i cx_dim]. rewrite bary_dims_nocheck by auto. fold (tctx dim order nodes v0 v1). rewrite eval_tensor_values. cbn [orb fst]. apply nth_map_in. auto.
Qed.
Theorem C107_tensor_gradient : forall dim order v0 v1 nodes eps check xs bufs, v0 < v1 -> (forall x, In x xs -> in_cube dim v0 v1 x) ->
  exists out, evaluate (mkCtx order nodes None (mtx1 v0 v1) dim true) true eps check xs false bufs = (Ok out, false) /\
    Forall2 (fun x o => length o = dim /\ forall r i, (r < dim)%nat -> (i < length nodes)%nat ->
      length (nth r o []) = length nodes /\
      derivable_pt_lim (fun s => basis_at (mkCtx order nodes None (mtx1 v0 v1) dim true) i (moved x r s)) 0 (nth i (nth r o []) 0)) xs out.
Proof.
  intros dim order v0 v1 nodes eps check xs bufs V H. unfold evaluate. change (mkCtx order nodes None (mtx1 v0 v1) dim true) with (tctx dim order nodes v0 v1). rewrite (@eval_cube dim order nodes v0 v1 true eps check xs bufs V H).
  eexists. split; [reflexivity|].
  assert (G : forall x, In x xs -> let o := eval_tensor (tctx dim order nodes v0 v1) true false (map (fun k => bc1 v0 v1 (nth k x 0)) (seq 0 dim)) in
    length o = dim /\ forall r i, (r < dim)%nat -> (i < length nodes)%nat -> length (nth r o []) = length nodes /\ derivable_pt_lim (fun s => basis_at (tctx dim order nodes v0 v1) i (moved x r s)) 0 (nth i (nth r o []) 0)).
  { intros x X. destruct (H x X) as [LX _]. cbv zeta. split; [unfold eval_tensor; cbn [tctx cx_dim]; rewrite map_length, seq_length; auto|]. intros r i R I. split.
    - unfold eval_tensor. cbn [tctx cx_dim cx_nodes]. rewrite nth_map_in with (da := 0%nat) by (rewrite seq_length; auto). apply map_length.
    - rewrite eval_tensor_der by auto. apply (@deriv_ext (fun s => tvalue order v0 v1 (moved x r s) dim (nth i nodes []))); [intros; rewrite basis_at_tensor; auto|]. unfold tvalue.
      set (node := nth i nodes []).
      refine (deriv_val _ (@deriv_lprod dim (fun k s => simplex_val order (bc1 v0 v1 (nth k (moved x r s) 0)) (slice k node)) (fun k => if (k =? r)%nat then simplex_der order (mtx1 v0 v1) (bc1 v0 v1 (nth k x 0)) (slice k node) 0 else 0) 0 _)).
      + rewrite moved_0. rewrite (lprod_pick (fun k => simplex_val order (bc1 v0 v1 (nth k x 0)) (slice k node)) (simplex_der order (mtx1 v0 v1) (bc1 v0 v1 (nth r x 0)) (slice r node) 0) R) || idtac.
        rewrite (lsum_ext _ (fun k => (if (r =? k)%nat then 1 else 0) * (simplex_der order (mtx1 v0 v1) (bc1 v0 v1 (nth r x 0)) (slice r node) 0 * lprod (map (fun j => if (j =? k)%nat then 1 else simplex_val order (bc1 v0 v1 (nth j x 0)) (slice j node)) (seq 0 dim))))).
        * rewrite (lsum_delta (fun k => simplex_der order (mtx1 v0 v1) (bc1 v0 v1 (nth r x 0)) (slice r node) 0 * lprod (map (fun j => if (j =? k)%nat then 1 else simplex_val order (bc1 v0 v1 (nth j x 0)) (slice j node)) (seq 0 dim)))) by auto.
          rewrite <- lprod_pick by auto. f_equal. apply map_ext. intros k. destruct (Nat.eqb_spec k r) as [->|]; auto.
        * intros k K. rewrite (Nat.eqb_sym r k). destruct (Nat.eqb_spec k r) as [->|]; lra.
      + intros k K. assert (MV : forall s, nth k (moved x r s) 0 = nth k x 0 + (if (k =? r)%nat then s else 0)).
        { intros s. unfold moved. rewrite nth_map_in with (da := 0%nat) by (rewrite seq_length; lia). rewrite seq_nth by lia. auto. }
        destruct (Nat.eqb_spec k r) as [->|NE].
        * apply deriv_simplex_val; [intros; reflexivity|rewrite MV, Rplus_0_r; auto|]. intros q Q. cbn in Q.
          apply (@deriv_ext (fun s => nth 0 (nth q (mtx1 v0 v1) []) 0 * s + nth q (bc1 v0 v1 (nth r x 0)) 0)).
          -- intros s. rewrite MV. unfold mtx1, bc1. do 2 (destruct q as [|q]; [cbn; field; lra|]). lia.
          -- refine (deriv_val _ (@derivable_pt_lim_plus (fun s => nth 0 (nth q (mtx1 v0 v1) []) 0 * s) (fun _ => nth q (bc1 v0 v1 (nth r x 0)) 0) 0 _ _ (derivable_pt_lim_scal id _ 0 1 (derivable_pt_lim_id 0)) (derivable_pt_lim_const _ 0))). lra.
        * apply (@deriv_ext (fun _ => simplex_val order (bc1 v0 v1 (nth k x 0)) (slice k node))); [|apply derivable_pt_lim_const]. intros s. rewrite MV, Rplus_0_r. auto. }
  clear H. induction xs as [|x xs IH]; cbn [map]; constructor; [apply G; left; auto|apply IH; intros; apply G; right; auto].
Qed.
Example C107_example : in_cube 2 0 1 [/ 2; 1] /\ tp_nodes 2 1 = Ok [mkLN 0 0 [1; 0; 1; 0]%nat; mkLN 0 1 [0; 1; 1; 0]%nat; mkLN 0 2 [0; 1; 0; 1]%nat; mkLN 0 3 [1; 0; 0; 1]%nat] /\ tp_coor 2 1 0 1 [0; 1; 0; 1]%nat = [1; 1].
Proof.
  split; [|split; [vm_compute; reflexivity|unfold tp_coor; cbn; f_equal; [field|f_equal; field]]]. split; auto. intros k K. do 2 (destruct k as [|k]; [cbn; lra|]). lia.
Qed.
Print Assumptions C107_tensor_basis.
Print Assumptions C107_tensor_gradient.
