(** C110: the second derivatives of the Lagrange basis. *)
From Coq Require Import Reals Lra.
From Verif Require Import Base M_nls M_lagnodes M_lagrange P_lagnodes L_lagrange P_lagrange P_lagtensor M_hess.
Set Implicit Arguments.
Open Scope R_scope.

(** The derivative in direction b of the basis function i in any point, as returned with
    diff = 1 *)
Definition grad_at (c : context) (i b : nat) (x : point) : R :=
  match fst (evaluate c true 0 false [x] false []) with Ok [rows] => nth i (nth b rows []) 0 | _ => 0 end.

Lemma fold_skip_plus : forall (f : nat -> R) (q : nat -> bool) l v, fold_left (fun v i => if q i then v else v + f i) l v = v + lsum (map (fun i => if q i then 0 else f i) l).
Proof. intros f q l. induction l as [|i l IH]; intros p; cbn [fold_left map]; [cbn; lra|]. rewrite IH, lsum_cons. destruct (q i); lra. Qed.
Lemma get_val_eq : forall o bc node omit, get_val o bc node omit = lprod (map (fun i => if isin i omit then 1 else cb (INR o * nth i bc 0) (nth i node 0%nat)) (seq 0 (length bc))).
Proof.
  intros. unfold get_val. generalize (seq 0 (length bc)). intros l.
  assert (G : forall p, fold_left (fun v i1 => if isin i1 omit then v else fold_left (fun v i2 => v * ((INR o * nth i1 bc 0 - INR i2) / (INR i2 + 1))) (seq 0 (nth i1 node 0%nat)) v) l p =
    p * lprod (map (fun i => if isin i omit then 1 else cb (INR o * nth i bc 0) (nth i node 0%nat)) l)).
  { induction l as [|i l IH]; intros p; cbn [fold_left map]; [cbn; lra|]. rewrite IH, lprod_cons. destruct (isin i omit); [lra|]. fold (factors o (nth i bc 0) (nth i node 0%nat) p). rewrite factors_eq. lra. }
  rewrite G. lra.
Qed.
Lemma get_der_eq : forall o b n omit, get_der o b n omit =
  lsum (map (fun i1 => if isin i1 omit then 0 else lprod (map (fun i2 => if (i1 =? i2)%nat || isin i2 omit then 1 else fct (INR o * b) i2) (seq 0 n)) * INR o / (INR i1 + 1)) (seq 0 n)).
Proof.
  intros. unfold get_der. rewrite (fold_skip_plus (fun i1 => fold_left (fun a i2 => if (i1 =? i2)%nat || isin i2 omit then a else a * ((INR o * b - INR i2) / (INR i2 + 1))) (seq 0 n) 1 * INR o / (INR i1 + 1)) (fun i1 => isin i1 omit)).
  rewrite Rplus_0_l. apply lsum_ext. intros i1 _. destruct (isin i1 omit); auto. rewrite (fold_skip (fun i2 => (INR o * b - INR i2) / (INR i2 + 1)) (fun i2 => (i1 =? i2)%nat || isin i2 omit)). rewrite Rmult_1_l. auto.
Qed.
Lemma get_der_nil : forall o b n, get_der o b n [] = der_dval o b n.
Proof.
  intros. rewrite get_der_eq. unfold der_dval. rewrite sumf_eq. apply lsum_ext. intros i1 _. cbn [isin existsb].
  rewrite (fold_skip (fun i2 => (INR o * b - INR i2) / (INR i2 + 1)) (fun i2 => (i1 =? i2)%nat)). rewrite Rmult_1_l. do 3 f_equal. apply map_ext. intros i2. rewrite Bool.orb_false_r. auto.
Qed.
(** The derivative of the derivative of the 1D factors *)
Lemma deriv_dval : forall o n b, derivable_pt_lim (fun b => der_dval o b n) b (sumf (fun i1 => get_der o b n [i1] * INR o / (INR i1 + 1)) n).
Proof.
  intros o n b. rewrite sumf_eq.
  apply (@deriv_ext (fun b => lsum (map (fun i1 => INR o / (INR i1 + 1) * lprod (map (fun i2 => if (i1 =? i2)%nat then 1 else fct (INR o * b) i2) (seq 0 n))) (seq 0 n)))).
  { intros s. unfold der_dval. rewrite sumf_eq. apply lsum_ext. intros i1 _. rewrite (fold_skip (fun i2 => (INR o * s - INR i2) / (INR i2 + 1)) (fun i2 => (i1 =? i2)%nat)). unfold fct, Rdiv. lra. }
  refine (deriv_val _ (@deriv_lsum nat (seq 0 n) (fun i1 b => INR o / (INR i1 + 1) * lprod (map (fun i2 => if (i1 =? i2)%nat then 1 else fct (INR o * b) i2) (seq 0 n))) (fun i1 => INR o / (INR i1 + 1) * get_der o b n [i1]) b _)).
  - apply lsum_ext. intros. unfold Rdiv. lra.
  - intros i1 _. apply (@derivable_pt_lim_scal (fun b => lprod (map (fun i2 => if (i1 =? i2)%nat then 1 else fct (INR o * b) i2) (seq 0 n)))).
    refine (deriv_val _ (@deriv_lprod n (fun i2 b => if (i1 =? i2)%nat then 1 else fct (INR o * b) i2) (fun i2 => if (i1 =? i2)%nat then 0 else INR o / (INR i2 + 1)) b _)).
    + rewrite get_der_eq. apply lsum_ext. intros i I. unfold isin. cbn [existsb]. rewrite !Bool.orb_false_r. rewrite (Nat.eqb_sym i1 i). destruct (i =? i1)%nat eqn:E; [lra|].
      rewrite (map_ext (fun i2 => if (i =? i2)%nat || ((i2 =? i1)%nat || false) then 1 else fct (INR o * b) i2) (fun j => if (j =? i)%nat then 1 else if (i1 =? j)%nat then 1 else fct (INR o * b) j)); [unfold Rdiv; lra|].
      intros j. rewrite Bool.orb_false_r, (Nat.eqb_sym i j), (Nat.eqb_sym i1 j). destruct (j =? i)%nat; auto.
    + intros i2 _. destruct (i1 =? i2)%nat; [apply derivable_pt_lim_const|]. unfold fct.
      apply (@deriv_ext (fun b => INR o / (INR i2 + 1) * b + - INR i2 / (INR i2 + 1))); [intros; unfold Rdiv; lra|].
      refine (deriv_val _ (@derivable_pt_lim_plus (fun b => INR o / (INR i2 + 1) * b) (fun _ => - INR i2 / (INR i2 + 1)) b _ _ (derivable_pt_lim_scal id _ b 1 (derivable_pt_lim_id b)) (derivable_pt_lim_const _ b))). lra.
Qed.
Lemma sumf_ext : forall f g n, (forall i, (i < n)%nat -> f i = g i) -> sumf f n = sumf g n.
Proof. intros f g n H. rewrite !sumf_eq. apply lsum_ext. intros i I. apply in_seq in I. apply H. lia. Qed.
Lemma lsum_point : forall n (f : nat -> R) r, (r < n)%nat -> (forall k, (k < n)%nat -> k <> r -> f k = 0) -> lsum (map f (seq 0 n)) = f r.
Proof. intros n f r L H. rewrite <- (lsum_delta f L). apply lsum_ext. intros k K. apply in_seq in K. destruct (Nat.eqb_spec r k) as [->|N]; [lra|]. rewrite H by (auto; lia). lra. Qed.
(** The derivative of simplex_der, the coordinates being affine functions *)
Lemma deriv_simplex_der : forall o bc (bcs : R -> list R) node a b mtx s0, (forall s, length (bcs s) = length bc) -> bcs s0 = bc ->
  (forall k, (k < length bc)%nat -> derivable_pt_lim (fun s => nth k (bcs s) 0) s0 (nth a (nth k mtx []) 0)) ->
  derivable_pt_lim (fun s => simplex_der o mtx (bcs s) node b) s0
    (sumf (fun ig1 => sumf (fun ig2 => hess_val o bc node ig1 ig2 * nth b (nth ig1 mtx []) 0 * nth a (nth ig2 mtx []) 0) (length bc)) (length bc)).
Proof.
  intros o bc bcs node a b mtx s0 L E D. rewrite sumf_eq.
  set (n := length bc) in *.
  apply (@deriv_ext (fun s => lsum (map (fun ii => der_vv o (bcs s) node ii * der_dval o (nth ii (bcs s) 0) (nth ii node 0%nat) * nth b (nth ii mtx []) 0) (seq 0 n)))); [intros; unfold simplex_der; rewrite sumf_eq, L; auto|].
  apply (@deriv_lsum nat (seq 0 n) (fun ii s => der_vv o (bcs s) node ii * der_dval o (nth ii (bcs s) 0) (nth ii node 0%nat) * nth b (nth ii mtx []) 0)).
  intros ii I. apply in_seq in I.
  set (v := fun k s => cb (INR o * nth k (bcs s) 0) (nth k node 0%nat)).
  assert (DV : forall k, (k < n)%nat -> derivable_pt_lim (v k) s0 (der_dval o (nth k bc 0) (nth k node 0%nat) * nth a (nth k mtx []) 0)).
  { intros k K. refine (deriv_val _ (@derivable_pt_lim_comp (fun s => nth k (bcs s) 0) (fun b => cb (INR o * b) (nth k node 0%nat)) s0 _ _ (D k K) (deriv_cb o (nth k node 0%nat) _))). rewrite E. auto. }
  assert (D1 : derivable_pt_lim (fun s => der_vv o (bcs s) node ii) s0
     (lsum (map (fun k => (if (k =? ii)%nat then 0 else der_dval o (nth k bc 0) (nth k node 0%nat) * nth a (nth k mtx []) 0) * get_val o bc node [ii; k]) (seq 0 n)))).
  { apply (@deriv_ext (fun s => lprod (map (fun k => if (k =? ii)%nat then 1 else v k s) (seq 0 n)))); [intros; rewrite der_vv_eq, L; auto|].
    refine (deriv_val _ (@deriv_lprod n (fun k s => if (k =? ii)%nat then 1 else v k s) (fun k => if (k =? ii)%nat then 0 else der_dval o (nth k bc 0) (nth k node 0%nat) * nth a (nth k mtx []) 0) s0 _)).
    - apply lsum_ext. intros k K. f_equal. rewrite get_val_eq. fold n. f_equal. apply map_ext. intros j. unfold isin. cbn [existsb]. unfold v. rewrite E. destruct (j =? k)%nat, (j =? ii)%nat; auto.
    - intros k K. destruct (k =? ii)%nat; [apply derivable_pt_lim_const|apply DV; auto]. }
  assert (D2 : derivable_pt_lim (fun s => der_dval o (nth ii (bcs s) 0) (nth ii node 0%nat)) s0 (sumf (fun i1 => get_der o (nth ii bc 0) (nth ii node 0%nat) [i1] * INR o / (INR i1 + 1)) (nth ii node 0%nat) * nth a (nth ii mtx []) 0)).
  { refine (deriv_val _ (@derivable_pt_lim_comp (fun s => nth ii (bcs s) 0) (fun b => der_dval o b (nth ii node 0%nat)) s0 _ _ (D ii ltac:(lia)) (deriv_dval o (nth ii node 0%nat) _))). rewrite E. auto. }
  apply (@deriv_ext (fun s => nth b (nth ii mtx []) 0 * (der_vv o (bcs s) node ii * der_dval o (nth ii (bcs s) 0) (nth ii node 0%nat)))); [intros; lra|].
  refine (deriv_val _ (derivable_pt_lim_scal (fun s => der_vv o (bcs s) node ii * der_dval o (nth ii (bcs s) 0) (nth ii node 0%nat)) (nth b (nth ii mtx []) 0) s0 _ (@derivable_pt_lim_mult (fun s => der_vv o (bcs s) node ii) (fun s => der_dval o (nth ii (bcs s) 0) (nth ii node 0%nat)) s0 _ _ D1 D2))).
  cbv beta. rewrite E. rewrite (sumf_eq (fun ig2 => hess_val o bc node ii ig2 * nth b (nth ii mtx []) 0 * nth a (nth ig2 mtx []) 0)).
  set (A := sumf (fun i1 => get_der o (nth ii bc 0) (nth ii node 0%nat) [i1] * INR o / (INR i1 + 1)) (nth ii node 0%nat)).
  assert (VV : der_vv o bc node ii = get_val o bc node [ii]).
  { rewrite der_vv_eq, get_val_eq. f_equal. apply map_ext. intros j. unfold isin. cbn [existsb]. rewrite Bool.orb_false_r. auto. }
  rewrite (lsum_ext (fun ig2 => hess_val o bc node ii ig2 * nth b (nth ii mtx []) 0 * nth a (nth ig2 mtx []) 0)
     (fun k => nth b (nth ii mtx []) 0 * der_dval o (nth ii bc 0) (nth ii node 0%nat) * ((if (k =? ii)%nat then 0 else der_dval o (nth k bc 0) (nth k node 0%nat) * nth a (nth k mtx []) 0) * get_val o bc node [ii; k])
             + (if (ii =? k)%nat then 1 else 0) * (nth b (nth ii mtx []) 0 * get_val o bc node [ii] * A * nth a (nth k mtx []) 0))).
  - rewrite lsum_plus, lsum_scal. rewrite (lsum_delta (fun k => nth b (nth ii mtx []) 0 * get_val o bc node [ii] * A * nth a (nth k mtx []) 0)) by lia. rewrite VV. lra.
  - intros k K. unfold hess_val. rewrite (Nat.eqb_sym k ii). destruct (Nat.eqb_spec ii k) as [<-|NE].
    + fold A. lra.
    + rewrite !get_der_nil. lra.
Qed.
Lemma grad_at_simplex : forall order nodes mtx dim i b x, (i < length nodes)%nat -> (b < dim)%nat -> length mtx = (dim + 1)%nat ->
  grad_at (mkCtx order nodes None mtx dim false) i b x = simplex_der order mtx (get_bc dim mtx x) (nth i nodes []) b.
Proof.
  intros order nodes mtx dim i b x I B L. unfold grad_at, evaluate. cbn [eval_points cx_tensor cx_mtx_i cx_dim cx_order cx_nodes cx_bubble]. rewrite bary_nocheck. cbn [orb fst eval_simplex].
  rewrite nth_map_in with (da := 0%nat) by (rewrite seq_length, map_length; lia). rewrite seq_nth by (rewrite map_length; lia). rewrite Nat.add_0_l. rewrite nth_map_in with (da := []) by auto. auto.
Qed.
Lemma hess_val_sym : forall o bc node i j, hess_val o bc node i j = hess_val o bc node j i.
Proof.
  intros. unfold hess_val. rewrite (Nat.eqb_sym j i). destruct (Nat.eqb_spec i j) as [->|]; auto. rewrite !get_val_eq.
  rewrite (map_ext (fun k => if isin k [j; i] then 1 else cb (INR o * nth k bc 0) (nth k node 0%nat)) (fun k => if isin k [i; j] then 1 else cb (INR o * nth k bc 0) (nth k node 0%nat))); [lra|].
  intros k. unfold isin. cbn [existsb]. destruct (k =? i)%nat, (k =? j)%nat; auto.
Qed.
Theorem C110_simplex_hessian : forall dim order mtx_i nodes x i a b, length mtx_i = (dim + 1)%nat -> length x = dim -> (i < length nodes)%nat -> (a < dim)%nat -> (b < dim)%nat ->
  derivable_pt_lim (fun s => grad_at (mkCtx order nodes None mtx_i dim false) i b (moved x a s)) 0 (simplex_hess order dim mtx_i x (nth i nodes []) a b) /\
  simplex_hess order dim mtx_i x (nth i nodes []) a b = simplex_hess order dim mtx_i x (nth i nodes []) b a.
Proof.
  intros dim order mtx nodes x i a b LM LX I A B. split.
  - apply (@deriv_ext (fun s => simplex_der order mtx (get_bc dim mtx (moved x a s)) (nth i nodes []) b)); [intros; rewrite grad_at_simplex; auto|].
    unfold simplex_hess. apply (@deriv_simplex_der order (get_bc dim mtx x) (fun s => get_bc dim mtx (moved x a s))).
    + intros. unfold get_bc. rewrite !map_length. auto.
    + rewrite moved_0. auto.
    + intros k K. unfold get_bc in K. rewrite map_length in K. apply (@deriv_ext (fun s => bary_val dim (nth k mtx []) (moved x a s))).
      * intros s. unfold get_bc. rewrite nth_map_in with (da := []) by auto. auto.
      * apply deriv_bary; auto.
  - unfold simplex_hess. rewrite !sumf_eq. rewrite (lsum_ext _ (fun i0 => lsum (map (fun ig2 => hess_val order (get_bc dim mtx x) (nth i nodes []) i0 ig2 * nth b (nth i0 mtx []) 0 * nth a (nth ig2 mtx []) 0) (seq 0 (length (get_bc dim mtx x)))))) by (intros; apply sumf_eq).
    rewrite lsum_swap. apply lsum_ext. intros k K. rewrite sumf_eq. apply lsum_ext. intros j J. rewrite hess_val_sym. lra.
Qed.
Print Assumptions C110_simplex_hessian.
(** ** Tensor products *)
Lemma deriv_one : forall n (F : nat -> R -> R) a d x, (a < n)%nat -> derivable_pt_lim (F a) x d -> (forall k s, (k < n)%nat -> k <> a -> F k s = F k x) ->
  derivable_pt_lim (fun s => lprod (map (fun k => F k s) (seq 0 n))) x (d * lprod (map (fun k => if (k =? a)%nat then 1 else F k x) (seq 0 n))).
Proof.
  intros n F a d x A D C. refine (deriv_val _ (@deriv_lprod n F (fun k => if (k =? a)%nat then d else 0) x _)).
  - rewrite (@lsum_point n (fun i => (if (i =? a)%nat then d else 0) * lprod (map (fun j => if (j =? i)%nat then 1 else F j x) (seq 0 n))) a A).
    + cbv beta. rewrite Nat.eqb_refl. auto.
    + intros k K NE. cbv beta. replace (k =? a)%nat with false by (symmetry; apply Nat.eqb_neq; auto). lra.
  - intros k K. destruct (Nat.eqb_spec k a) as [->|NE]; auto. apply (@deriv_ext (fun _ => F k x)); [intros; symmetry; apply C; auto|apply derivable_pt_lim_const].
Qed.
Lemma moved_nth : forall x r s k, (k < length x)%nat -> nth k (moved x r s) 0 = nth k x 0 + (if (k =? r)%nat then s else 0).
Proof. intros. unfold moved. rewrite nth_map_in with (da := 0%nat) by (rewrite seq_length; lia). rewrite seq_nth by lia. auto. Qed.
Lemma deriv_bc1 : forall v0 v1 x q, v0 < v1 -> (q < 2)%nat -> derivable_pt_lim (fun s => nth q (bc1 v0 v1 (x + s)) 0) 0 (nth 0 (nth q (mtx1 v0 v1) []) 0).
Proof.
  intros v0 v1 x q V Q. apply (@deriv_ext (fun s => nth 0 (nth q (mtx1 v0 v1) []) 0 * s + nth q (bc1 v0 v1 x) 0)).
  - intros s. unfold mtx1, bc1. do 2 (destruct q as [|q]; [cbn; field; lra|]). lia.
  - refine (deriv_val _ (@derivable_pt_lim_plus (fun s => nth 0 (nth q (mtx1 v0 v1) []) 0 * s) (fun _ => nth q (bc1 v0 v1 x) 0) 0 _ _ (derivable_pt_lim_scal id _ 0 1 (derivable_pt_lim_id 0)) (derivable_pt_lim_const _ 0))). lra.
Qed.
Lemma grad_at_tensor : forall dim order nodes v0 v1 i b x, v0 < v1 -> (i < length nodes)%nat -> (b < dim)%nat ->
  grad_at (tctx dim order nodes v0 v1) i b x =
  lprod (map (fun k => if (k =? b)%nat then simplex_der order (mtx1 v0 v1) (bc1 v0 v1 (nth k x 0)) (slice k (nth i nodes [])) 0 else simplex_val order (bc1 v0 v1 (nth k x 0)) (slice k (nth i nodes []))) (seq 0 dim)).
Proof.
  intros dim order nodes v0 v1 i b x V I B. unfold grad_at, evaluate. cbn [eval_points cx_tensor tctx cx_mtx_i cx_dim]. rewrite bary_dims_nocheck by auto. fold (tctx dim order nodes v0 v1). cbn [orb fst]. apply eval_tensor_der; auto.
Qed.
Lemma value1_in : forall order v0 v1 nodes diff x, v0 < v1 -> v0 <= x <= v1 ->
  value1 order (mtx1 v0 v1) nodes diff x = Ok (map (fun node => if diff then simplex_der order (mtx1 v0 v1) (bc1 v0 v1 x) node 0 else simplex_val order (bc1 v0 v1 x) node) nodes).
Proof.
  intros order v0 v1 nodes diff x V X. unfold value1, evaluate. cbn [eval_points cx_tensor cx_mtx_i cx_dim cx_order cx_nodes cx_bubble]. rewrite bary1_in by auto. cbn [orb fst]. destruct diff; reflexivity.
Qed.
Lemma mapr_ok : forall A B (f : A -> res B) (g : A -> B) l, (forall a, In a l -> f a = Ok (g a)) -> mapr f l = Ok (map g l).
Proof. intros A B f g l. induction l as [|a l IH]; intros H; auto. cbn [mapr map]. rewrite (H a (or_introl eq_refl)). cbn [bind]. rewrite IH by (intros; apply H; right; auto). auto. Qed.
Lemma hess1_bc : forall v0 v1 x, v0 < v1 -> get_bc 1 (mtx1 v0 v1) [x] = bc1 v0 v1 x.
Proof. intros. unfold get_bc. apply bary1_val. auto. Qed.
Theorem C110_tensor_hessian : forall dim order v0 v1 nodes x, v0 < v1 -> in_cube dim v0 v1 x ->
  exists H, tensor_hess order dim (mtx1 v0 v1) nodes x = Ok H /\
    forall a b i, (a < dim)%nat -> (b < dim)%nat -> (i < length nodes)%nat ->
      derivable_pt_lim (fun s => grad_at (mkCtx order nodes None (mtx1 v0 v1) dim true) i b (moved x a s)) 0 (nth i (nth b (nth a H []) []) 0) /\
      nth i (nth b (nth a H []) []) 0 = nth i (nth a (nth b H []) []) 0.
Proof.
  intros dim order v0 v1 nodes x V [LX X]. unfold tensor_hess.
  rewrite (@mapr_ok _ _ _ (fun ii => map (fun node => simplex_val order (bc1 v0 v1 (nth ii x 0)) (slice ii node)) nodes)) by (intros k K; apply in_seq in K; rewrite value1_in by (auto; apply X; lia); rewrite map_map; auto).
  cbn [bind].
  rewrite (@mapr_ok _ _ _ (fun ii => map (fun node => simplex_der order (mtx1 v0 v1) (bc1 v0 v1 (nth ii x 0)) (slice ii node) 0) nodes)) by (intros k K; apply in_seq in K; rewrite value1_in by (auto; apply X; lia); rewrite map_map; auto).
  cbn [bind].
  eexists. split; [reflexivity|].
  set (sv := fun k i => simplex_val order (bc1 v0 v1 (nth k x 0)) (slice k (nth i nodes []))).
  set (sd := fun k i => simplex_der order (mtx1 v0 v1) (bc1 v0 v1 (nth k x 0)) (slice k (nth i nodes [])) 0).
  set (sh := fun k i => simplex_hess order 1 (mtx1 v0 v1) [nth k x 0] (slice k (nth i nodes [])) 0 0).
  assert (AT : forall (f : nat -> list nat -> R) k i, (k < dim)%nat -> (i < length nodes)%nat -> nth i (nth k (map (fun ii => map (f ii) nodes) (seq 0 dim)) []) 0 = f k (nth i nodes [])).
  { intros f k i K I. rewrite nth_map_in with (da := 0%nat) by (rewrite seq_length; auto). rewrite seq_nth by auto. cbn [plus]. apply nth_map_in. auto. }
  assert (EN : forall a b i, (a < dim)%nat -> (b < dim)%nat -> (i < length nodes)%nat ->
    nth i (nth b (nth a (map (fun ir => map (fun ic => map (fun i =>
        if (ir =? ic)%nat then fold_left (fun v ik => if (ik =? ir)%nat then v else (v * nth i (nth ik (map (fun ii => map (fun node => simplex_val order (bc1 v0 v1 (nth ii x 0)) (slice ii node)) nodes) (seq 0 dim)) []) 0)%R) (seq 0 dim) (nth i (nth ir (map (fun ii => map (fun node => simplex_hess order 1 (mtx1 v0 v1) [nth ii x 0%R] (slice ii node) 0 0) nodes) (seq 0 dim)) []) 0)
        else fold_left (fun v ik => if (ik =? ir)%nat || (ik =? ic)%nat then v else (v * nth i (nth ik (map (fun ii => map (fun node => simplex_val order (bc1 v0 v1 (nth ii x 0)) (slice ii node)) nodes) (seq 0 dim)) []) 0)%R) (seq 0 dim) (nth i (nth ir (map (fun ii => map (fun node => simplex_der order (mtx1 v0 v1) (bc1 v0 v1 (nth ii x 0)) (slice ii node) 0) nodes) (seq 0 dim)) []) 0 * nth i (nth ic (map (fun ii => map (fun node => simplex_der order (mtx1 v0 v1) (bc1 v0 v1 (nth ii x 0)) (slice ii node) 0) nodes) (seq 0 dim)) []) 0)%R)
      (seq 0 (length nodes))) (seq 0 dim)) (seq 0 dim)) []) []) 0 =
    (if (a =? b)%nat then sh a i * lprod (map (fun k => if (k =? a)%nat then 1 else sv k i) (seq 0 dim))
     else sd a i * sd b i * lprod (map (fun k => if (k =? a)%nat || (k =? b)%nat then 1 else sv k i) (seq 0 dim)))).
  { intros a b i A B I. rewrite nth_map_in with (da := 0%nat) by (rewrite seq_length; auto). rewrite seq_nth by auto. rewrite nth_map_in with (da := 0%nat) by (rewrite seq_length; auto). rewrite seq_nth by auto. rewrite nth_map_in with (da := 0%nat) by (rewrite seq_length; auto). rewrite seq_nth by auto. cbn [plus].
    rewrite (fold_skip (fun ik => nth i (nth ik (map (fun ii => map (fun node => simplex_val order (bc1 v0 v1 (nth ii x 0)) (slice ii node)) nodes) (seq 0 dim)) []) 0) (fun ik => (ik =? a)%nat)).
    rewrite (fold_skip (fun ik => nth i (nth ik (map (fun ii => map (fun node => simplex_val order (bc1 v0 v1 (nth ii x 0)) (slice ii node)) nodes) (seq 0 dim)) []) 0) (fun ik => (ik =? a)%nat || (ik =? b)%nat)).
    rewrite (AT (fun ii node => simplex_hess order 1 (mtx1 v0 v1) [nth ii x 0] (slice ii node) 0 0)) by auto.
    rewrite !(AT (fun ii node => simplex_der order (mtx1 v0 v1) (bc1 v0 v1 (nth ii x 0)) (slice ii node) 0)) by auto.
    destruct (a =? b)%nat; f_equal; f_equal; apply map_ext_in; intros k K; apply in_seq in K; rewrite (AT (fun ii node => simplex_val order (bc1 v0 v1 (nth ii x 0)) (slice ii node))) by (auto; lia); auto. }
  intros a b i A B I. split.
  - rewrite EN by auto. clear EN AT.
    change (mkCtx order nodes None (mtx1 v0 v1) dim true) with (tctx dim order nodes v0 v1).
    set (node := nth i nodes []).
    set (F := fun k s => if (k =? b)%nat then simplex_der order (mtx1 v0 v1) (bc1 v0 v1 (nth k x 0 + (if (k =? a)%nat then s else 0))) (slice k node) 0 else simplex_val order (bc1 v0 v1 (nth k x 0 + (if (k =? a)%nat then s else 0))) (slice k node)).
    apply (@deriv_ext (fun s => lprod (map (fun k => F k s) (seq 0 dim)))).
    { intros s. rewrite grad_at_tensor by auto. f_equal. apply map_ext_in. intros k K. apply in_seq in K. rewrite moved_nth by lia. reflexivity. }
    assert (F0 : forall k, F k 0 = if (k =? b)%nat then sd k i else sv k i).
    { intros k. unfold F, sd, sv. replace (nth k x 0 + (if (k =? a)%nat then 0 else 0)) with (nth k x 0) by (destruct (k =? a)%nat; lra). auto. }
    refine (deriv_val _ (@deriv_one dim F a (if (a =? b)%nat then sh a i else sd a i) 0 A _ _)).
    + destruct (Nat.eqb_spec a b) as [<-|NE].
      * f_equal. f_equal. apply map_ext. intros k. destruct (k =? a)%nat eqn:Q; auto. rewrite F0, Q. auto.
      * rewrite Rmult_assoc. f_equal. rewrite <- (@lprod_pick dim (fun k => if (k =? a)%nat then 1 else sv k i) (sd b i) b B) || idtac.
        transitivity (lprod (map (fun k => if (k =? b)%nat then sd b i else if (k =? a)%nat then 1 else sv k i) (seq 0 dim))).
        -- f_equal. apply map_ext. intros k. rewrite F0. destruct (Nat.eqb_spec k a), (Nat.eqb_spec k b); subst; auto. lia.
        -- rewrite lprod_pick by auto. f_equal. f_equal. apply map_ext. intros k. destruct (k =? a)%nat, (k =? b)%nat; auto.
    + unfold F. rewrite Nat.eqb_refl. destruct (Nat.eqb_spec a b) as [<-|NE].
      * unfold sh, simplex_hess. rewrite hess1_bc by auto.
        apply (@deriv_simplex_der order (bc1 v0 v1 (nth a x 0)) (fun s => bc1 v0 v1 (nth a x 0 + s))); [auto|rewrite Rplus_0_r; auto|]. intros q Q. apply deriv_bc1; auto.
      * apply deriv_simplex_val; [intros; reflexivity|rewrite Rplus_0_r; auto|]. intros q Q. apply deriv_bc1; auto.
    + intros k s K NE. unfold F. replace (k =? a)%nat with false by (symmetry; apply Nat.eqb_neq; auto). auto.
  - rewrite !EN by auto. rewrite (Nat.eqb_sym b a). destruct (Nat.eqb_spec a b) as [<-|NE]; auto. rewrite (Rmult_comm (sd b i)). f_equal. f_equal. apply map_ext. intros k. rewrite Bool.orb_comm. auto.
Qed.
(** Second derivatives of the quadratic functions on the reference segment and square *)
Example C110_example : simplex_hess 2 1 (ref_mtx_i 1) [/ 3] [2; 0]%nat 0 0 = 4 /\ in_cube 2 0 1 [/ 3; / 2].
Proof.
  split.
  - unfold simplex_hess, get_bc, ref_mtx_i, hess_val, get_val, get_der, sumf, bary_val. cbn. field.
  - split; auto. intros k K. do 2 (destruct k as [|k]; [cbn; lra|]). lia.
Qed.
Print Assumptions C110_tensor_hessian.
