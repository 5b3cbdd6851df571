(** C105 - C106: the Lagrange basis on simplices. *)
From Coq Require Import Reals Lra.
From Verif Require Import Base M_nls M_lagnodes M_lagrange P_lagnodes L_lagrange.
Set Implicit Arguments.
Open Scope R_scope.

(** ** Specification *)
(** The point with barycentric coordinates [t] in the simplex with vertices [V] *)
Definition comb (dim : nat) (V : list point) (t : list R) : point :=
  map (fun r => lsum (map (fun k => nth k t 0 * nth r (nth k V []) 0) (seq 0 (length V)))) (seq 0 dim).
Definition in_simplex (dim : nat) (V : list point) (x : point) : Prop :=
  exists t, length t = length V /\ (forall b, In b t -> 0 <= b) /\ lsum t = 1 /\ x = comb dim V t.
(** mtx_i is the inverse of the matrix with the columns (vertex, 1). *)
Definition is_inverse (dim : nat) (mtx_i : list (list R)) (V : list point) : Prop :=
  length mtx_i = length V /\
  (forall i j, (i < length V)%nat -> (j < length V)%nat ->
     lsum (map (fun l => nth l (nth i mtx_i []) 0 * nth l (nth j V []) 0) (seq 0 dim)) + nth dim (nth i mtx_i []) 0 = if (i =? j)%nat then 1 else 0) /\
  (forall l, (l < dim)%nat -> lsum (map (fun k => nth l (nth k mtx_i []) 0) (seq 0 (length V))) = 0) /\
  lsum (map (fun k => nth dim (nth k mtx_i []) 0) (seq 0 (length V))) = 1.
(** Polynomials of degree at most n in the coordinates of a point *)
Inductive poly : nat -> (point -> R) -> Prop :=
| poly_const : forall n c, poly n (fun _ => c)
| poly_var : forall n f k, poly n f -> poly (S n) (fun x => nth k x 0 * f x)
| poly_add : forall n f g, poly n f -> poly n g -> poly n (fun x => f x + g x)
| poly_scale : forall n f c, poly n f -> poly n (fun x => c * f x)
| poly_ext : forall n f g, poly n f -> (forall x, f x = g x) -> poly n g.
(** node_coors, poly_spaces.py l.376 *)
Definition node_coor (dim order : nat) (V : list point) (node : list nat) : point := comb dim V (map (fun a => INR a / INR order) node).

(** ** Lemmas *)
Lemma snap_in : forall eps v, 0 <= v <= 1 -> snap eps v = (v, false).
Proof.
  intros eps v [A B]. unfold snap, Rltb. destruct (Rlt_dec v 0); [lra|]. destruct (Rlt_dec 1 v); [lra|]. auto.
Qed.
Lemma snap_0 : forall v, fst (snap 0 v) = v.
Proof.
  intros v. unfold snap, Rltb. destruct (Rlt_dec v 0).
  - destruct (Rlt_dec (- 0) v); [lra|]. destruct (Rlt_dec 1 v); [lra|]. auto.
  - destruct (Rlt_dec 1 v); [|auto]. destruct (Rlt_dec v (1 + 0)); [lra|auto].
Qed.
Lemma map_nth_seq : forall A (l : list A) d, map (fun i => nth i l d) (seq 0 (length l)) = l.
Proof.
  intros A l d. induction l as [|a l IH]; auto. cbn [length seq map]. f_equal. rewrite <- seq_shift, map_map. auto.
Qed.
Lemma lsum_delta : forall n (f : nat -> R) j, (j < n)%nat -> lsum (map (fun i => (if (j =? i)%nat then 1 else 0) * f i) (seq 0 n)) = f j.
Proof.
  induction n as [|n IH]; intros f j L; [lia|]. rewrite lsum_S. destruct (Nat.eqb_spec j n) as [->|N].
  - rewrite lsum_zero; [lra|]. intros i I. apply in_seq in I. replace (n =? i)%nat with false by (symmetry; apply Nat.eqb_neq; lia). lra.
  - rewrite IH by lia. lra.
Qed.
Lemma bary_val_comb : forall dim mtx V t i, is_inverse dim mtx V -> length t = length V -> lsum t = 1 -> (i < length V)%nat ->
  bary_val dim (nth i mtx []) (comb dim V t) = nth i t 0.
Proof.
  intros dim mtx V t i (L & I & _) LT S1 Hi. unfold bary_val. rewrite sumf_eq.
  transitivity (lsum (map (fun k => (if (i =? k)%nat then 1 else 0) * nth k t 0) (seq 0 (length V)))); [|apply (lsum_delta (fun k => nth k t 0)); auto].
  transitivity (lsum (map (fun k => nth k t 0 * (lsum (map (fun l => nth l (nth i mtx []) 0 * nth l (nth k V []) 0) (seq 0 dim)) + nth dim (nth i mtx []) 0)) (seq 0 (length V)))).
  2: { apply lsum_ext. intros k K. apply in_seq in K. rewrite I by lia. lra. }
  transitivity (lsum (map (fun k => nth k t 0 * lsum (map (fun l => nth l (nth i mtx []) 0 * nth l (nth k V []) 0) (seq 0 dim)) + nth dim (nth i mtx []) 0 * nth k t 0) (seq 0 (length V)))).
  2: { apply lsum_ext. intros. lra. }
  rewrite lsum_plus, lsum_scal. rewrite <- LT at 2. rewrite map_nth_seq, S1. rewrite Rmult_1_r. f_equal.
  transitivity (lsum (map (fun l => lsum (map (fun k => nth k t 0 * (nth l (nth i mtx []) 0 * nth l (nth k V []) 0)) (seq 0 (length V)))) (seq 0 dim))).
  - apply lsum_ext. intros l Hl. apply in_seq in Hl. unfold comb. rewrite nth_map_in with (da := 0%nat) by (rewrite seq_length; lia). rewrite seq_nth by lia. cbn [plus]. rewrite <- lsum_scal. apply lsum_ext. intros. lra.
  - rewrite lsum_swap. apply lsum_ext. intros. rewrite lsum_scal. auto.
Qed.
Lemma bary_inside : forall dim x eps check t rows buf, length rows = length t -> (forall i, (i < length rows)%nat -> bary_val dim (nth i rows []) x = nth i t 0) -> (forall b, In b t -> 0 <= b <= 1) ->
  bary dim rows x eps check false buf = (t, false, false).
Proof.
  intros dim x eps check. induction t as [|a t IH]; intros [|row rows] buf L H B; try discriminate; auto. cbn [bary].
  assert (H0 := H 0%nat ltac:(cbn; lia)). cbn [nth] in H0. rewrite H0, snap_in by (apply B; left; auto). rewrite Bool.andb_false_r. cbn [orb].
  rewrite IH; auto. intros i Hi. apply (H (S i)). cbn; lia. intros; apply B; right; auto.
Qed.
Lemma lsum_nonneg : forall l, (forall b, In b l -> 0 <= b) -> 0 <= lsum l.
Proof. induction l as [|a l IH]; intros H; [cbn; lra|]. rewrite lsum_cons. assert (A := H a (or_introl eq_refl)). assert (B := IH (fun b X => H b (or_intror X))). lra. Qed.
Lemma le_lsum : forall l b, (forall b, In b l -> 0 <= b) -> In b l -> b <= lsum l.
Proof.
  induction l as [|a l IH]; intros b H I; [destruct I|]. destruct I as [->|I]; rewrite lsum_cons.
  - assert (X := lsum_nonneg l (fun b X => H b (or_intror X))). lra.
  - assert (A := H a (or_introl eq_refl)). assert (X := IH b (fun b X => H b (or_intror X)) I). lra.
Qed.
Lemma bary_simplex : forall dim mtx V t eps check buf, is_inverse dim mtx V -> length t = length V -> (forall b, In b t -> 0 <= b) -> lsum t = 1 ->
  bary dim mtx (comb dim V t) eps check false buf = (t, false, false).
Proof.
  intros dim mtx V t eps check buf I L P S1. apply bary_inside.
  - destruct I. lia.
  - intros i Hi. apply bary_val_comb; auto. destruct I. lia.
  - intros b B. split; auto. rewrite <- S1. apply le_lsum; auto.
Qed.
Lemma nth_scal : forall o bc i, nth i (map (fun b => o * b) bc) 0 = o * nth i bc 0.
Proof. intros. replace 0 with (o * 0) at 1 by lra. apply (map_nth (fun b => o * b)). Qed.
Lemma lprod_pcb : forall bc node, length node = length bc -> lprod (map (fun i => cb (nth i bc 0) (nth i node 0%nat)) (seq 0 (length bc))) = pcb bc node.
Proof.
  induction bc as [|b bc IH]; intros [|n node] L; try discriminate; auto. cbn [length]. rewrite lprod_0S. cbn [nth pcb]. rewrite IH by (cbn in L; lia). auto.
Qed.
Lemma simplex_val_prod : forall o bc node, simplex_val o bc node = lprod (map (fun i => cb (INR o * nth i bc 0) (nth i node 0%nat)) (seq 0 (length bc))).
Proof.
  intros. unfold simplex_val. generalize (seq 0 (length bc)). intros l.
  transitivity (1 * lprod (map (fun i => cb (INR o * nth i bc 0) (nth i node 0%nat)) l)); [|lra]. generalize 1. induction l as [|i l IH]; intros p; cbn [fold_left map]; [cbn; lra|].
  rewrite IH, factors_eq, lprod_cons. lra.
Qed.
Lemma simplex_val_eq : forall o bc node, length node = length bc -> simplex_val o bc node = pcb (map (fun b => INR o * b) bc) node.
Proof.
  intros o bc node L. rewrite simplex_val_prod, <- lprod_pcb by (rewrite map_length; auto). rewrite map_length. f_equal. apply map_ext. intros i. rewrite nth_scal. auto.
Qed.
(** *** Polynomials *)
Lemma poly_lsum : forall A n (f : A -> point -> R) l, (forall a, In a l -> poly n (f a)) -> poly n (fun x => lsum (map (fun a => f a x) l)).
Proof.
  intros A n f l H. induction l as [|a l IH]; [apply (@poly_ext n (fun _ => 0)); [constructor|reflexivity]|].
  apply (@poly_ext n (fun x => f a x + lsum (map (fun a => f a x) l))); [|reflexivity]. apply poly_add; [apply H; left; auto|apply IH; intros; apply H; right; auto].
Qed.
Lemma poly_comb : forall dim V n p, poly n p -> poly n (fun t => p (comb dim V t)).
Proof.
  intros dim V n p H. induction H.
  - constructor.
  - destruct (Nat.lt_ge_cases k dim) as [L|G].
    + apply (@poly_ext (S n) (fun t => lsum (map (fun i => nth i t 0 * (nth k (nth i V []) 0 * f (comb dim V t))) (seq 0 (length V))))).
      * apply poly_lsum. intros i _. apply (@poly_var n (fun t => nth k (nth i V []) 0 * f (comb dim V t))). apply poly_scale. auto.
      * intros t. unfold comb at 2. rewrite nth_map_in with (da := 0%nat) by (rewrite seq_length; lia). rewrite seq_nth by lia. cbn [plus]. rewrite Rmult_comm, <- lsum_scal. apply lsum_ext. intros. lra.
    + apply (@poly_ext (S n) (fun _ => 0)); [constructor|]. intros t. rewrite nth_overflow by (unfold comb; rewrite map_length, seq_length; auto). lra.
  - apply poly_add; auto.
  - apply poly_scale; auto.
  - apply (@poly_ext n _ (fun t => g (comb dim V t)) IHpoly). auto.
Qed.
Fixpoint incr (k : nat) (m : list nat) : list nat := match m, k with [], _ => [] | a :: m, O => S a :: m | a :: m, S k => a :: incr k m end.
Lemma incr_len : forall m k, length (incr k m) = length m.
Proof. induction m; intros [|k]; cbn; auto. Qed.
Lemma incr_sum : forall m k, (k < length m)%nat -> list_sum (incr k m) = S (list_sum m).
Proof. induction m as [|a m IH]; intros [|k] L; cbn in L |- *; try lia. fold (list_sum (incr k m)) (list_sum m). rewrite IH by lia. lia. Qed.
Lemma pcb_mul : forall ys m k, (k < length ys)%nat -> length m = length ys -> nth k ys 0 * pcb ys m = (INR (nth k m 0%nat) + 1) * pcb ys (incr k m) + INR (nth k m 0%nat) * pcb ys m.
Proof.
  induction ys as [|y ys IH]; intros [|a m] [|k] K L; cbn in K; try discriminate; try lia.
  - cbn [nth incr pcb]. transitivity (((INR a + 1) * cb y (S a)) * pcb ys m + INR a * (cb y a * pcb ys m)); [rewrite cb_step|]; lra.
  - cbn [nth incr pcb]. assert (E := IH m k ltac:(lia) ltac:(cbn in L; lia)). transitivity (cb y a * (nth k ys 0 * pcb ys m)); [lra|]. rewrite E. lra.
Qed.
Lemma poly_span : forall o nv n f, (0 < o)%nat -> poly n f -> exists L : list (R * list nat), (forall c m, In (c, m) L -> length m = nv /\ (list_sum m <= n)%nat) /\
  forall t, length t = nv -> f t = lsum (map (fun p => fst p * pcb (map (fun b => INR o * b) t) (snd p)) L).
Proof.
  intros o nv n f O H. assert (O' : INR o <> 0) by (apply not_0_INR; lia). induction H.
  - exists [(c, repeat 0%nat nv)]. split.
    + intros c' m [E|[]]. inversion E; subst. rewrite repeat_length. split; auto. assert (Z : forall k, list_sum (repeat 0%nat k) = 0%nat) by (induction k; auto). rewrite Z. lia.
    + intros t L. cbn [map fst snd]. rewrite lsum_cons. change (lsum []) with 0. assert (Z : forall ys k, pcb ys (repeat 0%nat k) = 1). { induction ys; intros [|k]; cbn [repeat pcb cb]; auto. rewrite IHys. lra. } rewrite Z. lra.
  - destruct IHpoly as (L & HL & E). destruct (Nat.lt_ge_cases k nv) as [K|K].
    + exists (flat_map (fun p => [(fst p * (INR (nth k (snd p) 0%nat) + 1) / INR o, incr k (snd p)); (fst p * INR (nth k (snd p) 0%nat) / INR o, snd p)]) L). split.
      * intros c m I. apply in_flat_map in I. destruct I as ([c0 m0] & I & J). apply HL in I. destruct I as [I1 I2]. cbn [fst snd] in J. destruct J as [J|[J|[]]]; inversion J; subst; clear J.
        -- rewrite incr_len, incr_sum by lia. split; [auto|lia].
        -- split; [auto|lia].
      * intros t LT. rewrite E by auto. rewrite lsum_flat, <- lsum_scal. apply lsum_ext. intros [c m] I. apply HL in I. cbn [fst snd map]. rewrite !lsum_cons. change (lsum []) with 0.
        assert (M := @pcb_mul (map (fun b => INR o * b) t) m k). rewrite map_length in M. specialize (M ltac:(lia) ltac:(lia)). rewrite nth_scal in M.
        transitivity (c / INR o * ((INR o * nth k t 0) * pcb (map (fun b => INR o * b) t) m)); [field; auto|]. rewrite M. field; auto.
    + exists []. split; [intros c m []|]. intros t LT. rewrite nth_overflow by lia. cbn. lra.
  - destruct IHpoly1 as (L1 & H1 & E1), IHpoly2 as (L2 & H2 & E2). exists (L1 ++ L2). split.
    + intros c m I. apply in_app_iff in I. destruct I; eauto.
    + intros t LT. rewrite E1, E2 by auto. rewrite map_app, lsum_app. auto.
  - destruct IHpoly as (L & HL & E). exists (map (fun p => (c * fst p, snd p)) L). split.
    + intros c' m I. apply in_map_iff in I. destruct I as ([c0 m0] & J & I). inversion J; subst. eauto.
    + intros t LT. rewrite E by auto. rewrite map_map, <- lsum_scal. apply lsum_ext. intros. cbn [fst snd]. lra.
  - destruct IHpoly as (L & HL & E). exists L. split; auto. intros t LT. rewrite <- H0. auto.
Qed.
Lemma lsum_lin2 : forall A B (l : list A) (L : list B) (u : A -> R) (w : B -> A -> R), lsum (map (fun a => lsum (map (fun p => w p a) L) * u a) l) = lsum (map (fun p => lsum (map (fun a => w p a * u a) l)) L).
Proof. intros. rewrite <- (lsum_swap (fun a p => w p a * u a)). apply lsum_ext. intros a _. rewrite Rmult_comm, <- lsum_scal. apply lsum_ext. intros. lra. Qed.
(** The sum over the nodes of the values of a polynomial times the basis *)
Lemma basis_rep : forall o nv t n p, (0 < o)%nat -> length t = nv -> lsum t = 1 -> poly n p -> (n <= o)%nat ->
  lsum (map (fun a => p (map (fun i => INR i / INR o) a) * pcb (map (fun b => INR o * b) t) a) (comps nv o)) = p t.
Proof.
  intros o nv t n p O LT S1 P N. assert (O' : INR o <> 0) by (apply not_0_INR; lia). destruct (poly_span nv O P) as (L & HL & E). rewrite E by auto.
  transitivity (lsum (map (fun a => lsum (map (fun q => fst q * pcb (map INR a) (snd q)) L) * pcb (map (fun b => INR o * b) t) a) (comps nv o))).
  - apply lsum_ext. intros a A. apply comps_In in A. f_equal. rewrite E by (rewrite map_length; tauto). apply lsum_ext. intros q _. do 2 f_equal. rewrite map_map. apply map_ext. intros i. field. auto.
  - rewrite lsum_lin2. apply lsum_ext. intros [c m] I. apply HL in I. cbn [fst snd].
    assert (S2 : lsum (map (fun b => INR o * b) t) = INR o). { rewrite lsum_scal, map_id, S1. lra. }
    rewrite <- (@rep_at_order (map (fun b => INR o * b) t) m o); [|rewrite map_length; lia|lia|auto]. rewrite map_length, LT, <- lsum_scal. apply lsum_ext. intros. lra.
Qed.
(** *** Evaluation inside *)
Lemma eval_inside : forall dim V mtx order nodes diff eps check xs bufs, is_inverse dim mtx V -> (forall x, In x xs -> in_simplex dim V x) ->
  exists out, eval_points (mkCtx order nodes None mtx dim false) diff eps check false bufs xs = (out, false, false) /\
    Forall2 (fun x o => exists t, length t = length V /\ (forall b, In b t -> 0 <= b) /\ lsum t = 1 /\ x = comb dim V t /\ o = eval_simplex order diff mtx t nodes) xs out.
Proof.
  intros dim V mtx order nodes diff eps check xs. induction xs as [|x xs IH]; intros bufs I H; [exists []; split; auto|].
  destruct (H x (or_introl eq_refl)) as (t & L & P & S1 & ->). cbn [eval_points cx_tensor cx_mtx_i cx_dim cx_order cx_nodes cx_bubble]. rewrite (@bary_simplex dim mtx V t eps check (nth 0 bufs []) I L P S1).
  destruct (IH [t] I (fun x X => H x (or_intror X))) as (out & E & F). rewrite E. eexists. split; [reflexivity|]. constructor; auto. exists t. auto.
Qed.
Lemma simplex_perm : forall dim order l, (1 <= dim <= 3)%nat -> (1 <= order)%nat -> simplex_nodes dim order = Ok l -> Permutation.Permutation (map ln_node l) (comps (dim + 1) order).
Proof.
  intros dim order l D O H. destruct (C104_simplex_nodes D O) as (l' & E & ND & IN & _). rewrite H in E. injection E as <-. apply Permutation.NoDup_Permutation; auto; [apply comps_NoDup|].
  intros t. rewrite IN, comps_In. reflexivity.
Qed.
Lemma basis_sum : forall o nv t, (0 < o)%nat -> length t = nv -> lsum t = 1 -> lsum (map (fun a => pcb (map (fun b => INR o * b) t) a) (comps nv o)) = 1.
Proof.
  intros o nv t O L S1. subst nv. replace (length t) with (length (map (fun b => INR o * b) t)) by apply map_length. change (fun a => pcb (map (fun b => INR o * b) t) a) with (pcb (map (fun b => INR o * b) t)). rewrite multi_sum.
  rewrite lsum_scal, map_id, S1, Rmult_1_r. apply cb_diag.
Qed.
(** If barycentric coordinates are found from the point, they are unique. *)
Lemma comb_inj : forall dim mtx V s t, is_inverse dim mtx V -> length s = length V -> length t = length V -> lsum s = 1 -> lsum t = 1 -> comb dim V s = comb dim V t -> s = t.
Proof.
  intros dim mtx V s t I Ls Lt S T E. apply (nth_ext _ _ 0 0); [lia|]. intros i Hi. rewrite Ls in Hi. rewrite <- (@bary_val_comb dim mtx V s i I Ls S Hi), <- (@bary_val_comb dim mtx V t i I Lt T Hi), E. auto.
Qed.
Lemma nodes_sum : forall o node, (0 < o)%nat -> list_sum node = o -> lsum (map (fun a => INR a / INR o) node) = 1.
Proof.
  intros o node O S. assert (O' : INR o <> 0) by (apply not_0_INR; lia). assert (E : lsum (map (fun a => INR a / INR o) node) = INR (list_sum node) / INR o).
  { clear S. induction node as [|a node IH]; [cbn; field; auto|]. cbn [map]. rewrite lsum_cons, IH. change (list_sum (a :: node)) with (a + list_sum node)%nat. rewrite plus_INR. field; auto. }
  rewrite E, S. field; auto.
Qed.
Lemma Forall2_weaken : forall A B (P Q : A -> B -> Prop) xs ys, (forall x y, P x y -> Q x y) -> Forall2 P xs ys -> Forall2 Q xs ys.
Proof. intros A B P Q xs ys H F. induction F; constructor; auto. Qed.
Theorem C105_simplex_basis : forall dim order V mtx_i l eps check xs bufs, (1 <= dim <= 3)%nat -> (1 <= order)%nat ->
  simplex_nodes dim order = Ok l -> length V = (dim + 1)%nat -> is_inverse dim mtx_i V -> (forall x, In x xs -> in_simplex dim V x) ->
  exists out, evaluate (mkCtx order (map ln_node l) None mtx_i dim false) false eps check xs false bufs = (Ok out, false) /\
    Forall2 (fun x o => exists vals, o = [vals] /\ length vals = length l /\
      lsum vals = 1 /\
      (forall j n, nth_error l j = Some n -> x = node_coor dim order V (ln_node n) -> forall i, (i < length l)%nat -> nth i vals 0 = if (i =? j)%nat then 1 else 0) /\
      (forall p, poly order p -> lsum (map (fun q => p (node_coor dim order V (ln_node (fst q))) * snd q) (combine l vals)) = p x)) xs out.
Proof.
  intros dim order V mtx l eps check xs bufs D O N LV I H. destruct (@eval_inside dim V mtx order (map ln_node l) false eps check xs bufs I H) as (out & E & F).
  exists out. unfold evaluate. rewrite E. split; [auto|]. assert (PM := simplex_perm D O N). destruct (C104_simplex_nodes D O) as (l' & E' & ND & IN & _). rewrite N in E'. injection E' as <-.
  apply (fun H => Forall2_weaken _ H F). clear E F H. intros x o (t & LT & P & S1 & -> & ->). cbn [eval_simplex].
  assert (EV : map (simplex_val order t) (map ln_node l) = map (pcb (map (fun b => INR order * b) t)) (map ln_node l)).
  { apply map_ext_in. intros a A. apply IN in A. destruct A as [A _]. apply simplex_val_eq. lia. }
  exists (map (simplex_val order t) (map ln_node l)). split; [auto|]. split; [rewrite !map_length; auto|]. rewrite EV. split; [|split].
  - rewrite (lsum_perm (Permutation.Permutation_map _ PM)). apply basis_sum; auto; lia.
  - intros j n J EX i Hi. assert (TE : t = map (fun a => INR a / INR order) (ln_node n)).
    { assert (A : In (ln_node n) (map ln_node l)) by (apply in_map; eapply nth_error_In; eauto). apply IN in A. destruct A as [A1 A2]. apply (@comb_inj dim mtx V); auto; [rewrite map_length; lia|apply nodes_sum; auto]. }
    rewrite nth_map_in with (da := []) by (rewrite map_length; auto). subst t. rewrite map_map. replace (map (fun x => INR order * (INR x / INR order)) (ln_node n)) with (map INR (ln_node n)).
    2: { apply map_ext. intros a. field. apply not_0_INR. lia. }
    assert (NJ : nth j (map ln_node l) [] = ln_node n). { apply nth_error_nth. rewrite nth_error_map, J. auto. }
    assert (HJ : (j < length l)%nat) by (apply nth_error_Some; congruence).
    rewrite <- NJ. destruct (Nat.eqb_spec i j) as [->|NE]; [apply pcb_diag|].
    assert (A : forall k, (k < length l)%nat -> simplex_point dim order (nth k (map ln_node l) [])). { intros k K. apply IN. apply nth_In. rewrite map_length. auto. }
    destruct (A i Hi) as [A1 A2], (A j HJ) as [B1 B2]. apply pcb_other; [lia|lia|]. intros E. apply NE. apply (NoDup_nth (map ln_node l) []); rewrite ?map_length; auto.
  - intros p PP. rewrite <- (@basis_rep order (dim + 1) t order (fun t => p (comb dim V t))); auto; [|lia|apply poly_comb; auto].
    rewrite <- (lsum_perm (Permutation.Permutation_map _ PM)). rewrite !map_map. unfold node_coor. generalize l. clear. induction l as [|n l IH]; auto. cbn [map combine fst snd]. rewrite !lsum_cons, IH. auto.
Qed.
(** ** Gradients *)
(** The point moved by s in the direction r *)
Definition moved (x : point) (r : nat) (s : R) : point := map (fun k => nth k x 0 + (if (k =? r)%nat then s else 0)) (seq 0 (length x)).
(** The value of the basis function i in any point, also outside of the element *)
Definition basis_at (c : context) (i : nat) (x : point) : R :=
  match fst (evaluate c false 0 false [x] false []) with Ok [[vals]] => nth i vals 0 | _ => 0 end.
Lemma deriv_ext : forall f g x l, (forall s, f s = g s) -> derivable_pt_lim f x l -> derivable_pt_lim g x l.
Proof. intros f g x l H D eps E. destruct (D eps E) as [d Hd]. exists d. intros h H1 H2. rewrite <- !H. auto. Qed.
Lemma deriv_val : forall f x l l', l = l' -> derivable_pt_lim f x l -> derivable_pt_lim f x l'.
Proof. intros; subst; auto. Qed.
Lemma deriv_lprod : forall n (f : nat -> R -> R) f' x, (forall i, (i < n)%nat -> derivable_pt_lim (f i) x (f' i)) ->
  derivable_pt_lim (fun s => lprod (map (fun i => f i s) (seq 0 n))) x
    (lsum (map (fun i => f' i * lprod (map (fun j => if (j =? i)%nat then 1 else f j x) (seq 0 n))) (seq 0 n))).
Proof.
  induction n as [|n IH]; intros f f' x H; [apply derivable_pt_lim_const|].
  apply (@deriv_ext (fun s => lprod (map (fun i => f i s) (seq 0 n)) * f n s)); [intros; rewrite (lprod_S (fun i => f i s)); auto|].
  refine (deriv_val _ (@derivable_pt_lim_mult (fun s => lprod (map (fun i => f i s) (seq 0 n))) (f n) x _ _ (IH f f' x (fun i L => H i ltac:(lia))) (H n ltac:(lia)))).
  rewrite lsum_S. f_equal.
  - rewrite Rmult_comm, <- lsum_scal. apply lsum_ext. intros i I. apply in_seq in I. rewrite lprod_S. replace (n =? i)%nat with false by (symmetry; apply Nat.eqb_neq; lia). lra.
  - rewrite lprod_S, Nat.eqb_refl. rewrite Rmult_comm, Rmult_1_r. f_equal. f_equal. apply map_ext_in. intros j J. apply in_seq in J. replace (j =? n)%nat with false by (symmetry; apply Nat.eqb_neq; lia). auto.
Qed.
Lemma fold_skip : forall (f : nat -> R) (q : nat -> bool) l p, fold_left (fun p i => if q i then p else p * f i) l p = p * lprod (map (fun i => if q i then 1 else f i) l).
Proof. intros f q l. induction l as [|i l IH]; intros p; cbn [fold_left map]; [cbn; lra|]. rewrite IH, lprod_cons. destruct (q i); lra. Qed.
Lemma deriv_cb : forall o n b, derivable_pt_lim (fun b => cb (INR o * b) n) b (der_dval o b n).
Proof.
  intros o n b. unfold der_dval. rewrite sumf_eq.
  apply (@deriv_ext (fun b => lprod (map (fun i => (INR o * b - INR i) / (INR i + 1)) (seq 0 n)))); [intros; rewrite cb_prod; auto|].
  refine (deriv_val _ (@deriv_lprod n (fun i b => (INR o * b - INR i) / (INR i + 1)) (fun i => INR o / (INR i + 1)) b _)).
  - apply lsum_ext. intros i _. rewrite (fold_skip (fun i2 => (INR o * b - INR i2) / (INR i2 + 1)) (fun i2 => (i =? i2)%nat)).
    rewrite (map_ext (fun j => if (i =? j)%nat then 1 else (INR o * b - INR j) / (INR j + 1)) (fun j => if (j =? i)%nat then 1 else (INR o * b - INR j) / (INR j + 1))) by (intros; rewrite Nat.eqb_sym; auto). unfold Rdiv. lra.
  - intros i _. apply (@deriv_ext (fun b => INR o / (INR i + 1) * b + - INR i / (INR i + 1))); [intros; unfold Rdiv; lra|].
    refine (deriv_val _ (@derivable_pt_lim_plus (fun b => INR o / (INR i + 1) * b) (fun _ => - INR i / (INR i + 1)) b _ _ (derivable_pt_lim_scal id _ b 1 (derivable_pt_lim_id b)) (derivable_pt_lim_const _ b))). lra.
Qed.
Lemma der_vv_eq : forall o bc node ii, der_vv o bc node ii = lprod (map (fun i => if (i =? ii)%nat then 1 else cb (INR o * nth i bc 0) (nth i node 0%nat)) (seq 0 (length bc))).
Proof.
  intros. unfold der_vv. generalize (seq 0 (length bc)). intros l. transitivity (1 * lprod (map (fun i => if (i =? ii)%nat then 1 else cb (INR o * nth i bc 0) (nth i node 0%nat)) l)); [|lra].
  assert (G : forall p, fold_left (fun p i1 => if (i1 =? ii)%nat then p else factors o (nth i1 bc 0) (nth i1 node 0%nat) p) l p = p * lprod (map (fun i => if (i =? ii)%nat then 1 else cb (INR o * nth i bc 0) (nth i node 0%nat)) l)); [|apply G].
  induction l as [|i l IH]; intros p; cbn [fold_left map]; [cbn; lra|]. rewrite IH, lprod_cons. destruct (i =? ii)%nat; [lra|]. rewrite factors_eq. lra.
Qed.
(** The derivative of the product, the coordinates being affine functions *)
Lemma deriv_simplex_val : forall o bc (bcs : R -> list R) node ir mtx s0, (forall s, length (bcs s) = length bc) -> bcs s0 = bc ->
  (forall k, (k < length bc)%nat -> derivable_pt_lim (fun s => nth k (bcs s) 0) s0 (nth ir (nth k mtx []) 0)) ->
  derivable_pt_lim (fun s => simplex_val o (bcs s) node) s0 (simplex_der o mtx bc node ir).
Proof.
  intros o bc bcs node ir mtx s0 L E D. unfold simplex_der. rewrite sumf_eq.
  apply (@deriv_ext (fun s => lprod (map (fun i => cb (INR o * nth i (bcs s) 0) (nth i node 0%nat)) (seq 0 (length bc))))); [intros; rewrite simplex_val_prod, L; auto|].
  refine (deriv_val _ (@deriv_lprod (length bc) (fun i s => cb (INR o * nth i (bcs s) 0) (nth i node 0%nat)) (fun i => der_dval o (nth i bc 0) (nth i node 0%nat) * nth ir (nth i mtx []) 0) s0 _)).
  - apply lsum_ext. intros i _. rewrite der_vv_eq. rewrite E. lra.
  - intros i Hi. refine (deriv_val _ (@derivable_pt_lim_comp (fun s => nth i (bcs s) 0) (fun b => cb (INR o * b) (nth i node 0%nat)) s0 _ _ (D i Hi) (deriv_cb o (nth i node 0%nat) _))). rewrite E. auto.
Qed.
Lemma bary_nocheck : forall dim rows x buf, bary dim rows x 0 false false buf = (map (fun row => bary_val dim row x) rows, false, false).
Proof.
  intros dim rows x. induction rows as [|row rows IH]; intros buf; auto. cbn [bary map]. assert (S := snap_0 (bary_val dim row x)). destruct (snap 0 (bary_val dim row x)) as [v e]. cbn [fst] in S. subst v. cbn [andb orb]. rewrite IH. auto.
Qed.
Lemma deriv_bary : forall dim row x r, length x = dim -> (r < dim)%nat -> derivable_pt_lim (fun s => bary_val dim row (moved x r s)) 0 (nth r row 0).
Proof.
  intros dim row x r L R.
  apply (@deriv_ext (fun s => nth r row 0 * s + bary_val dim row x)).
  - intros s. unfold bary_val. rewrite !sumf_eq. rewrite (lsum_ext (fun i => nth i row 0 * nth i (moved x r s) 0) (fun i => nth i row 0 * nth i x 0 + (if (r =? i)%nat then 1 else 0) * (nth r row 0 * s))).
    + rewrite lsum_plus. rewrite (lsum_delta (fun _ => nth r row 0 * s)) by auto. lra.
    + intros i I. apply in_seq in I. unfold moved. rewrite nth_map_in with (da := 0%nat) by (rewrite seq_length; lia). rewrite seq_nth by lia. cbn [plus]. rewrite (Nat.eqb_sym r i). destruct (Nat.eqb_spec i r) as [->|]; lra.
  - refine (deriv_val _ (@derivable_pt_lim_plus (fun s => nth r row 0 * s) (fun _ => bary_val dim row x) 0 _ _ (derivable_pt_lim_scal id _ 0 1 (derivable_pt_lim_id 0)) (derivable_pt_lim_const _ 0))). lra.
Qed.
Lemma moved_0 : forall x r, moved x r 0 = x.
Proof.
  intros. unfold moved. rewrite (map_ext _ (fun k => nth k x 0)) by (intros; destruct (a =? r)%nat; lra). apply map_nth_seq.
Qed.
Lemma basis_at_simplex : forall order nodes mtx dim i x, (i < length nodes)%nat ->
  basis_at (mkCtx order nodes None mtx dim false) i x = simplex_val order (map (fun row => bary_val dim row x) mtx) (nth i nodes []).
Proof.
  intros. unfold basis_at, evaluate. cbn [eval_points cx_tensor cx_mtx_i cx_dim cx_order cx_nodes cx_bubble]. rewrite bary_nocheck. cbn [orb fst eval_simplex]. apply nth_map_in. auto.
Qed.
Lemma comb_len : forall dim V t, length (comb dim V t) = dim.
Proof. intros. unfold comb. rewrite map_length, seq_length. auto. Qed.
Theorem C106_simplex_gradient : forall dim order V mtx_i nodes eps check xs bufs,
  is_inverse dim mtx_i V -> length V = (dim + 1)%nat -> (forall x, In x xs -> in_simplex dim V x) ->
  exists out, evaluate (mkCtx order nodes None mtx_i dim false) true eps check xs false bufs = (Ok out, false) /\
    Forall2 (fun x o => length o = dim /\ forall r i, (r < dim)%nat -> (i < length nodes)%nat ->
      length (nth r o []) = length nodes /\
      derivable_pt_lim (fun s => basis_at (mkCtx order nodes None mtx_i dim false) i (moved x r s)) 0 (nth i (nth r o []) 0)) xs out.
Proof.
  intros dim order V mtx nodes eps check xs bufs I LV H. destruct (@eval_inside dim V mtx order nodes true eps check xs bufs I H) as (out & E & F).
  exists out. unfold evaluate. rewrite E. split; [auto|]. apply (fun H => Forall2_weaken _ H F). clear E F H. intros x o (t & LT & P & S1 & -> & ->).
  cbn [eval_simplex]. split; [rewrite map_length, seq_length; lia|]. intros r i R Hi. rewrite nth_map_in with (da := 0%nat) by (rewrite seq_length; lia). rewrite seq_nth by lia. cbn [plus].
  split; [apply map_length|]. rewrite nth_map_in with (da := []) by auto.
  apply (@deriv_ext (fun s => simplex_val order (map (fun row => bary_val dim row (moved (comb dim V t) r s)) mtx) (nth i nodes []))); [intros; rewrite basis_at_simplex; auto|].
  assert (LM : length mtx = length V) by (destruct I; auto).
  apply deriv_simplex_val.
  - intros s. rewrite map_length. lia.
  - rewrite moved_0. apply (nth_ext _ _ 0 0); [rewrite map_length; lia|]. intros k K. rewrite map_length in K. rewrite nth_map_in with (da := []) by auto. apply bary_val_comb; auto. lia.
  - intros k K. apply (@deriv_ext (fun s => bary_val dim (nth k mtx []) (moved (comb dim V t) r s))).
    + intros s. rewrite nth_map_in with (da := []) by lia. auto.
    + apply deriv_bary; auto. apply comb_len.
Qed.
(** The gradients of the basis sum up to zero. *)
Lemma deriv_lsum : forall A (l : list A) (f : A -> R -> R) (f' : A -> R) x, (forall a, In a l -> derivable_pt_lim (f a) x (f' a)) -> derivable_pt_lim (fun s => lsum (map (fun a => f a s) l)) x (lsum (map f' l)).
Proof.
  intros A l f f' x. induction l as [|a l IH]; intros H; [apply derivable_pt_lim_const|]. cbn [map].
  apply (@derivable_pt_lim_plus (f a) (fun s => lsum (map (fun a => f a s) l)) x); [apply H; left; auto|]. apply IH. intros; apply H; right; auto.
Qed.
Lemma bary_sum : forall dim mtx V x, is_inverse dim mtx V -> lsum (map (fun row => bary_val dim row x) mtx) = 1.
Proof.
  intros dim mtx V x (L & _ & Z & O). transitivity (lsum (map (fun k => bary_val dim (nth k mtx []) x) (seq 0 (length mtx)))).
  { rewrite <- (map_nth_seq mtx []) at 1. rewrite map_map. auto. }
  rewrite L. unfold bary_val. rewrite lsum_plus, O. rewrite (lsum_ext _ (fun k => lsum (map (fun l => nth l (nth k mtx []) 0 * nth l x 0) (seq 0 dim)))) by (intros; apply sumf_eq).
  rewrite lsum_swap, lsum_zero; [lra|]. intros i I. apply in_seq in I. rewrite (lsum_ext _ (fun k => nth i x 0 * nth i (nth k mtx []) 0)) by (intros; lra). rewrite lsum_scal, Z by lia. lra.
Qed.
Theorem C106_gradient_sum : forall dim order V mtx_i l eps check xs bufs, (1 <= dim <= 3)%nat -> (1 <= order)%nat ->
  simplex_nodes dim order = Ok l -> length V = (dim + 1)%nat -> is_inverse dim mtx_i V -> (forall x, In x xs -> in_simplex dim V x) ->
  exists out, evaluate (mkCtx order (map ln_node l) None mtx_i dim false) true eps check xs false bufs = (Ok out, false) /\
    Forall2 (fun x o => forall r, (r < dim)%nat -> lsum (nth r o []) = 0) xs out.
Proof.
  intros dim order V mtx l eps check xs bufs D O N LV I H. destruct (@C106_simplex_gradient dim order V mtx (map ln_node l) eps check xs bufs I LV H) as (out & E & F). exists out. split; [auto|].
  apply (fun H => Forall2_weaken _ H F). intros x o (LO & G) r R. set (c := mkCtx order (map ln_node l) None mtx dim false) in *.
  assert (LL : length (nth r o []) = length l).
  { destruct (C104_simplex_nodes D O) as (l' & E' & _ & _ & _ & V0 & _). rewrite N in E'. injection E' as <-. destruct (V0 0%nat ltac:(lia)) as (n0 & X & _). assert (0 < length l)%nat by (apply nth_error_Some; congruence).
    destruct (G r 0%nat R ltac:(rewrite map_length; lia)) as [X1 _]. rewrite X1, map_length. auto. }
  assert (DS : derivable_pt_lim (fun s => lsum (map (fun i => basis_at c i (moved x r s)) (seq 0 (length l)))) 0 (lsum (nth r o []))).
  { refine (deriv_val _ (@deriv_lsum nat (seq 0 (length l)) (fun i s => basis_at c i (moved x r s)) (fun i => nth i (nth r o []) 0) 0 _)).
    - rewrite <- LL, map_nth_seq. auto.
    - intros i Hi. apply in_seq in Hi. apply (G r i R). rewrite map_length. lia. }
  assert (DC : derivable_pt_lim (fun s => lsum (map (fun i => basis_at c i (moved x r s)) (seq 0 (length l)))) 0 0).
  { apply (@deriv_ext (fun _ => 1)); [|apply derivable_pt_lim_const]. intros s. symmetry.
    assert (PM := simplex_perm D O N). rewrite (lsum_ext _ (fun i => simplex_val order (map (fun row => bary_val dim row (moved x r s)) mtx) (nth i (map ln_node l) []))).
    2: { intros i Hi. apply in_seq in Hi. apply basis_at_simplex. rewrite map_length. lia. }
    set (bc := map (fun row => bary_val dim row (moved x r s)) mtx). assert (LB : length bc = (dim + 1)%nat) by (unfold bc; rewrite map_length; destruct I; lia).
    transitivity (lsum (map (simplex_val order bc) (map ln_node l))).
    { f_equal. rewrite <- (map_length ln_node l), <- (map_map (fun i => nth i (map ln_node l) []) (simplex_val order bc)), map_nth_seq. auto. }
    rewrite (lsum_perm (Permutation.Permutation_map _ PM)). rewrite (lsum_ext _ (fun a => pcb (map (fun b => INR order * b) bc) a)) by (intros a A; apply comps_In in A; apply simplex_val_eq; lia).
    apply basis_sum; auto. apply (@bary_sum dim mtx V); auto. }
  exact (uniqueness_limite _ _ _ _ DS DC).
Qed.
(** ** Errors *)
Lemma snap_err : forall eps v, 0 <= eps -> v < 0 /\ v <= - eps \/ 1 < v /\ 1 + eps <= v -> snap eps v = (v, true).
Proof.
  intros eps v E H. unfold snap, Rltb. destruct (Rlt_dec v 0).
  - destruct (Rlt_dec (- eps) v); [lra|]. destruct (Rlt_dec 1 v); [lra|auto].
  - destruct (Rlt_dec 1 v); [|lra]. destruct (Rlt_dec v (1 + eps)); [lra|auto].
Qed.
Lemma bary_err : forall dim x eps rows buf, 0 <= eps -> (exists row, In row rows /\ let v := bary_val dim row x in v < 0 /\ v <= - eps \/ 1 < v /\ 1 + eps <= v) ->
  exists bc, bary dim rows x eps true false buf = (bc, true, true).
Proof.
  intros dim x eps rows buf E (row & I & H). revert buf. induction rows as [|r0 rows IH]; intros buf; [destruct I|]. cbn [bary].
  destruct (snap eps (bary_val dim r0 x)) as [v e] eqn:S. destruct e; cbn [andb orb]; [eauto|]. destruct I as [->|I].
  - rewrite snap_err in S by auto. discriminate.
  - destruct (IH I (tl buf)) as [bc ->]. eauto.
Qed.
(** A point outside is reported. *)
Theorem C105_outside : forall dim order V mtx_i nodes diff eps xs x bufs t, 0 <= eps -> is_inverse dim mtx_i V ->
  (forall y, In y xs -> in_simplex dim V y) -> length t = length V -> lsum t = 1 -> x = comb dim V t ->
  (exists b, In b t /\ (b < 0 /\ b <= - eps \/ 1 < b /\ 1 + eps <= b)) ->
  fst (evaluate (mkCtx order nodes None mtx_i dim false) diff eps true (xs ++ [x]) false bufs) = Err RuntimeError.
Proof.
  intros dim order V mtx nodes diff eps xs x bufs t E I H LT S1 -> (b & B & HB).
  assert (G : exists out, eval_points (mkCtx order nodes None mtx dim false) diff eps true false bufs (xs ++ [comb dim V t]) = (out, true, true)).
  { revert bufs. induction xs as [|y xs IH]; intros bufs; cbn [app eval_points cx_tensor cx_mtx_i cx_dim cx_order cx_nodes cx_bubble].
    - destruct (In_nth _ _ 0 B) as (k & K & <-). destruct (@bary_err dim (comb dim V t) eps mtx (nth 0 bufs []) E) as [bc ->]; [|cbn [eval_points]; eauto].
      exists (nth k mtx []). split; [apply nth_In; destruct I; lia|]. cbv zeta. rewrite (@bary_val_comb dim mtx V t k) by (auto; lia). auto.
    - destruct (H y (or_introl eq_refl)) as (u & LU & PU & SU & ->). rewrite (@bary_simplex dim mtx V u eps true (nth 0 bufs []) I LU PU SU).
      destruct (IH (fun y Y => H y (or_intror Y)) [u]) as [out ->]. cbn [orb]. eauto. }
  destruct G as [out G]. unfold evaluate. rewrite G. auto.
Qed.
(** The reference simplices *)
Definition ref_coors (dim : nat) : list point := repeat 0 dim :: map (fun k => map (fun r => if (r =? k)%nat then 1 else 0) (seq 0 dim)) (seq 0 dim).
Definition ref_mtx_i (dim : nat) : list (list R) := (repeat (-1) dim ++ [1]) :: map (fun k => map (fun r => if (r =? k)%nat then 1 else 0) (seq 0 (dim + 1))) (seq 0 dim).
Lemma ref_inverse : forall dim, (1 <= dim <= 3)%nat -> is_inverse dim (ref_mtx_i dim) (ref_coors dim).
Proof.
  intros dim D. destruct dim as [|[|[|[|]]]]; try lia; (split; [reflexivity|]); (split; [|split]).
  all: try (intros i j Hi Hj; cbn in Hi, Hj; do 4 (destruct i as [|i]; [do 4 (destruct j as [|j]; [first [lia | cbn; lra]|]); lia|]); lia).
  all: try (intros i Hi; do 3 (destruct i as [|i]; [first [lia | cbn; lra]|]); lia).
  all: cbn; lra.
Qed.
(** After a failed call, the values in points inside are wrong and no error is reported: the
    global error flag is never reset. *)
Theorem C105_after_error_refuted : exists c x y bufs, c = mkCtx 1 [[1; 0]; [0; 1]]%nat None (ref_mtx_i 1) 1 false /\ in_simplex 1 (ref_coors 1) x /\
  fst (evaluate c false (/ 10) true [y] false [[0; 0]]) = Err RuntimeError /\
  exists vals, fst (evaluate c false (/ 10) true [x] (snd (evaluate c false (/ 10) true [y] false [[0; 0]])) bufs) = Ok [[vals]] /\ lsum vals <> 1.
Proof.
  set (c := mkCtx 1 [[1; 0]; [0; 1]]%nat None (ref_mtx_i 1) 1 false). exists c, [/ 4], [2], [[0; 0]]. split; [auto|]. split.
  { exists [3 / 4; / 4]. split; [auto|]. split; [intros b [<-|[<-|[]]]; lra|]. split; [cbn; lra|]. unfold comb. cbn. f_equal. lra. }
  assert (B0 : forall x, bary_val 1 (nth 0 (ref_mtx_i 1) []) [x] = 1 - x) by (intros; unfold bary_val, sumf; cbn; lra).
  assert (E : eval_points c false (/ 10) true false [[0; 0]] [[2]] = ([eval_simplex 1 false (ref_mtx_i 1) [-1; 0] [[1; 0]; [0; 1]]%nat], true, true)).
  { cbn [eval_points cx_tensor c cx_mtx_i cx_dim cx_order cx_nodes cx_bubble nth]. change (ref_mtx_i 1) with [nth 0 (ref_mtx_i 1) []; nth 1 (ref_mtx_i 1) []] at 1. cbn [bary]. rewrite B0, snap_err by lra. cbn [andb orb tl]. replace (1 - 2) with (-1) by lra. auto. }
  unfold evaluate. rewrite E. split; [auto|]. cbn [snd].
  assert (E2 : eval_points c false (/ 10) true true [[0; 0]] [[/ 4]] = ([eval_simplex 1 false (ref_mtx_i 1) [3 / 4; 0] [[1; 0]; [0; 1]]%nat], true, false)).
  { cbn [eval_points cx_tensor c cx_mtx_i cx_dim cx_order cx_nodes cx_bubble nth]. change (ref_mtx_i 1) with [nth 0 (ref_mtx_i 1) []; nth 1 (ref_mtx_i 1) []] at 1. cbn [bary]. rewrite B0, snap_in by lra. cbn [andb orb tl]. replace (1 - / 4) with (3 / 4) by lra. auto. }
  rewrite E2. eexists. split; [reflexivity|]. cbn [map]. rewrite !simplex_val_eq by auto. cbn. unfold fct. cbn. lra.
Qed.
Example C105_example : in_simplex 2 (ref_coors 2) [/ 3; / 3] /\ simplex_nodes 2 1 = Ok [mkLN 0 0 [1; 0; 0]%nat; mkLN 0 1 [0; 1; 0]%nat; mkLN 0 2 [0; 0; 1]%nat] /\ is_inverse 2 (ref_mtx_i 2) (ref_coors 2).
Proof.
  split; [|split; [vm_compute; reflexivity|apply ref_inverse; lia]]. exists [/ 3; / 3; / 3]. split; [auto|]. split; [intros b [<-|[<-|[<-|[]]]]; lra|]. split; [cbn; lra|]. unfold comb. cbn. repeat (f_equal; try lra).
Qed.
