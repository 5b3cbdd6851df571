(** C131: volume mappings - Jacobians, gradients, volumes. *)
From Coq Require Import Reals Lra.
From Verif Require Import Base M_fmf L_fmf M_nls M_map S_map.
Open Scope nat_scope.

Lemma dim_cases : forall d, 1 <= d <= 3 -> d = 1 \/ d = 2 \/ d = 3. Proof. lia. Qed.
Lemma Rleb_true : forall a b, Rleb a b = true <-> (a <= b)%R.
Proof. intros. unfold Rleb. destruct (Rle_dec a b); split; intros; auto; try discriminate; contradiction. Qed.
Lemma Rleb_false : forall a b, Rleb a b = false <-> (b < a)%R.
Proof. intros. unfold Rleb. destruct (Rle_dec a b); split; intros; auto; try discriminate; lra. Qed.
Lemma Rltb_true : forall a b, Rltb a b = true <-> (a < b)%R.
Proof. intros. unfold Rltb. destruct (Rlt_dec a b); split; intros; auto; try discriminate; contradiction. Qed.
Lemma Rltb_false : forall a b, Rltb a b = false <-> (b <= a)%R.
Proof. intros. unfold Rltb. destruct (Rlt_dec a b); split; intros; auto; try discriminate; lra. Qed.

Lemma any_cq_true : forall n m p, any_cq n m p = true <-> exists c q, c < n /\ q < m /\ p c q = true.
Proof.
  intros. unfold any_cq. rewrite existsb_exists. split.
  - intros (c & Hc & H). apply existsb_exists in H. destruct H as (q & Hq & H).
    apply in_seq in Hc. apply in_seq in Hq. exists c, q. repeat split; auto; lia.
  - intros (c & q & Hc & Hq & H). exists c. split; [apply in_seq; lia|]. apply existsb_exists. exists q.
    split; [apply in_seq; lia|auto].
Qed.

(** The inverse is a left and right inverse. *)
Lemma invm_l : forall dim a i j, 1 <= dim <= 3 -> (detm dim a <> 0)%R -> i < dim -> j < dim ->
  sm dim (fun k => (invm dim a (detm dim a) i k * a k j)%R) = kron i j.
Proof.
  intros dim a i j D H Hi Hj. destruct (dim_cases _ D) as [-> | [-> | ->]].
  - destruct i; [|lia]. destruct j; [|lia]. rewrite sm1. unfold kron, invm. cbn in *. field. auto.
  - rewrite sm2. destruct i as [|[|i]]; [| |lia]; (destruct j as [|[|j]]; [| |lia]); unfold kron, invm; cbn in *; field; auto.
  - rewrite sm3. destruct i as [|[|[|i]]]; [| | |lia]; (destruct j as [|[|[|j]]]; [| | |lia]); unfold kron, invm; cbn in *; field; auto.
Qed.
Lemma invm_r : forall dim a i j, 1 <= dim <= 3 -> (detm dim a <> 0)%R -> i < dim -> j < dim ->
  sm dim (fun k => (a i k * invm dim a (detm dim a) k j)%R) = kron i j.
Proof.
  intros dim a i j D H Hi Hj. destruct (dim_cases _ D) as [-> | [-> | ->]].
  - destruct i; [|lia]. destruct j; [|lia]. rewrite sm1. unfold kron, invm. cbn in *. field. auto.
  - rewrite sm2. destruct i as [|[|i]]; [| |lia]; (destruct j as [|[|j]]; [| |lia]); unfold kron, invm; cbn in *; field; auto.
  - rewrite sm3. destruct i as [|[|[|i]]]; [| | |lia]; (destruct j as [|[|[|j]]]; [| | |lia]); unfold kron, invm; cbn in *; field; auto.
Qed.
Lemma sm_kron_l : forall n i f, i < n -> sm n (fun k => (kron i k * f k)%R) = f i.
Proof.
  intros. rewrite <- (@sm_pick n i f) by auto. apply sm_ext. intros k _. unfold kron. rewrite (Nat.eqb_sym i k).
  destruct (k =? i); lra.
Qed.
Lemma sm_kron_r : forall n i f, i < n -> sm n (fun k => (f k * kron k i)%R) = f i.
Proof.
  intros. rewrite <- (@sm_pick n i f) by auto. apply sm_ext. intros k _. unfold kron. destruct (k =? i); lra.
Qed.

(** Solving with the matrix. *)
Lemma invm_solve : forall dim a (b g : nat -> R) k, 1 <= dim <= 3 -> (detm dim a <> 0)%R -> k < dim ->
  (forall i, i < dim -> sm dim (fun l => (a i l * g l)%R) = b i) ->
  sm dim (fun j => (invm dim a (detm dim a) k j * b j)%R) = g k.
Proof.
  intros dim a b g k D H Hk E.
  rewrite (@sm_ext dim _ (fun j => sm dim (fun l => (invm dim a (detm dim a) k j * a j l * g l)%R))).
  2: { intros j Hj. rewrite <- (E j Hj), <- sm_scal. apply sm_ext. intros; ring. }
  rewrite sm_swap. rewrite (@sm_ext dim _ (fun l => (kron k l * g l)%R)).
  - apply sm_kron_l; auto.
  - intros l Hl. rewrite sm_scalr. rewrite invm_l; auto.
Qed.

Section Inv.
Variables (dim n_el n_qp ng : nat) (coors : nat -> nat -> R) (conn : nat -> nat -> nat)
  (bf_g : nat -> nat -> nat -> R) (w : nat -> R) (ebf_g : nat -> nat -> nat -> nat -> R).
(** Derivative of the coordinates: d x_k / d xi_i in point [q] of cell [c]. *)
Definition jac c q i k : R := sm ng (fun j => (bf_g q i j * coors (conn c j) k)%R).

Lemma mapping_ok : forall m, volume_mapping dim n_el n_qp ng coors conn bf_g w ebf_g = Ok m ->
  1 <= dim <= 3 /\
  (forall c q, c < n_el -> q < n_qp -> (0 < detm dim (jac c q))%R) /\
  (forall c q, m_det m c q = (detm dim (jac c q) * w q)%R) /\
  (forall c q k e, m_bfg m c q k e = sm dim (fun j => (invm dim (jac c q) (detm dim (jac c q)) k j * ebf_g c q j e)%R)) /\
  (forall c, m_volume m c = sm n_qp (m_det m c)).
Proof.
  intros m H. unfold volume_mapping in H.
  destruct (any_cq _ _ _) eqn:E; [discriminate|].
  destruct ((dim =? 0) || (3 <? dim)) eqn:D; [discriminate|]. apply Bool.orb_false_iff in D. destruct D as [D1 D2].
  apply Nat.eqb_neq in D1. apply Nat.ltb_ge in D2. injection H as <-. cbn.
  split; [lia|]. split; [|repeat split].
  intros c q Hc Hq. destruct (Rlt_dec 0 (detm dim (jac c q))) as [|N]; auto. exfalso.
  assert (any_cq n_el n_qp (fun c q => Rleb (detm dim (mtxRM ng (bf_g q) (fun j => coors (conn c j)))) 0) = true); [|congruence].
  apply any_cq_true. exists c, q. repeat split; auto. apply Rleb_true. unfold jac in N. unfold mtxRM. lra.
Qed.

(** The mapping: positive Jacobians times weights, the chain rule for the gradients (for
    them and only for them), and volumes. *)
Theorem C131_volume_mapping : forall m, volume_mapping dim n_el n_qp ng coors conn bf_g w ebf_g = Ok m ->
  forall c, c < n_el -> (forall q, q < n_qp ->
    (0 < detm dim (jac c q))%R /\ m_det m c q = (detm dim (jac c q) * w q)%R /\
    (forall i e, i < dim -> sm dim (fun k => (jac c q i k * m_bfg m c q k e)%R) = ebf_g c q i e) /\
    (forall g e, (forall i, i < dim -> sm dim (fun k => (jac c q i k * g k)%R) = ebf_g c q i e) ->
       forall k, k < dim -> m_bfg m c q k e = g k)) /\
  m_volume m c = sm n_qp (fun q => (detm dim (jac c q) * w q)%R).
Proof.
  intros m H c Hc. destruct (mapping_ok m H) as (D & P & E1 & E2 & E3). split.
  - intros q Hq. assert (N : (detm dim (jac c q) <> 0)%R) by (specialize (P c q Hc Hq); lra).
    split; [auto|]. split; [auto|]. split.
    + intros i e Hi. rewrite (@sm_ext dim _ (fun k => sm dim (fun j => (jac c q i k * invm dim (jac c q) (detm dim (jac c q)) k j * ebf_g c q j e)%R))).
      * rewrite sm_swap. rewrite (@sm_ext dim _ (fun j => (kron i j * ebf_g c q j e)%R)).
        { exact (@sm_kron_l dim i (fun j => ebf_g c q j e) Hi). }
        intros j Hj. rewrite sm_scalr. rewrite invm_r; auto.
      * intros k Hk. rewrite E2, <- sm_scal. apply sm_ext. intros; ring.
    + intros g e Hg k Hk. rewrite E2. apply invm_solve; auto.
  - rewrite E3. apply sm_ext. intros q _. apply E1.
Qed.

(** A cell with a non-positive Jacobian in a quadrature point is reported, and nothing else. *)
Theorem C131_warp_violation : 1 <= dim <= 3 ->
  (volume_mapping dim n_el n_qp ng coors conn bf_g w ebf_g = Err ValueError <->
   exists c q, c < n_el /\ q < n_qp /\ (detm dim (jac c q) <= 0)%R) /\
  ((exists m, volume_mapping dim n_el n_qp ng coors conn bf_g w ebf_g = Ok m) <->
   forall c q, c < n_el -> q < n_qp -> (0 < detm dim (jac c q))%R).
Proof.
  intros D. assert (Dt : (dim =? 0) || (3 <? dim) = false).
  { apply Bool.orb_false_iff. split; [apply Nat.eqb_neq; lia|apply Nat.ltb_ge; lia]. }
  unfold volume_mapping. rewrite Dt.
  destruct (any_cq _ _ _) eqn:E.
  - apply any_cq_true in E. destruct E as (c & q & Hc & Hq & E). apply Rleb_true in E. split.
    + split; auto. intros _. exists c, q. auto.
    + split; [intros [m Hm]; discriminate|]. intros P. exfalso. specialize (P c q Hc Hq).
      unfold jac in P. unfold mtxRM in E. lra.
  - assert (P : forall c q, c < n_el -> q < n_qp -> (0 < detm dim (jac c q))%R).
    { intros c q Hc Hq. destruct (Rlt_dec 0 (detm dim (jac c q))) as [|N]; auto. exfalso.
      assert (any_cq n_el n_qp (fun c q => Rleb (detm dim (mtxRM ng (bf_g q) (fun j => coors (conn c j)))) 0) = true); [|congruence].
      apply any_cq_true. exists c, q. repeat split; auto. apply Rleb_true. unfold jac in N. unfold mtxRM. lra. }
    split.
    + split; [discriminate|]. intros (c & q & Hc & Hq & L). specialize (P c q Hc Hq). lra.
    + split; auto. intros _. eexists. reflexivity.
Qed.
End Inv.

(** ** Exactness for affine functions *)
Theorem C131_affine_exact : forall dim n_el n_qp ng coors conn bf_g w m,
  volume_mapping dim n_el n_qp ng coors conn bf_g w (fun _ => bf_g) = Ok m ->
  (forall q i, q < n_qp -> i < dim -> sm ng (bf_g q i) = 0%R) ->
  forall (a : nat -> R) (b : R) c q k, c < n_el -> q < n_qp -> k < dim ->
  sm ng (fun e => (m_bfg m c q k e * (dot dim a (coors (conn c e)) + b))%R) = a k.
Proof.
  intros dim n_el n_qp ng coors conn bf_g w m H Z a b c q k Hc Hq Hk.
  destruct (mapping_ok _ _ _ _ _ _ _ _ _ _ H) as (D & P & _ & E2 & _).
  set (J := jac ng coors conn bf_g c q) in *. assert (N : (detm dim J <> 0)%R) by (specialize (P c q Hc Hq); unfold J; lra).
  rewrite (@sm_ext ng _ (fun e => sm dim (fun j => (invm dim J (detm dim J) k j * (bf_g q j e * (dot dim a (coors (conn c e)) + b)))%R))).
  2: { intros e _. rewrite E2, <- sm_scalr. apply sm_ext. intros; unfold J; ring. }
  rewrite sm_swap. rewrite (@sm_ext dim _ (fun j => (invm dim J (detm dim J) k j * sm dim (fun l => (J j l * a l))%R)%R)).
  { apply invm_solve; auto. }
  intros j Hj. rewrite sm_scal. f_equal.
  rewrite (@sm_ext ng _ (fun e => (sm dim (fun l => bf_g q j e * coors (conn c e) l * a l) + bf_g q j e * b)%R)).
  2: { intros e _. unfold dot. rewrite Rmult_plus_distr_l, <- sm_scal. f_equal. apply sm_ext. intros; ring. }
  rewrite sm_plus, sm_scalr, Z by auto. rewrite Rmult_0_l, Rplus_0_r, sm_swap. apply sm_ext. intros l _.
  rewrite sm_scalr. reflexivity.
Qed.
