(** C151 The tensor product NURBS basis of one element: partition of unity, derivatives, gradients. *)
From Coq Require Import Reals Lra Lia Arith List Bool.
From Coquelicot Require Import Coquelicot.
From Verif Require Import M_fmf L_fmf M_map L_map P_map S_iga M_iga L_iga S_iga2 M_iga2 P_iga L_hyper L_iga2 S_map.
Import ListNotations.
Open Scope R_scope.

(** A function computing Bernstein polynomials and their derivatives (the Python and the C one do). *)
Definition bern_ok (bern : R -> nat -> arr * arr) : Prop := forall x p i, (i <= p)%nat ->
  fst (bern x p) i = bernstein p i x /\ is_derive (bernstein p i) x (snd (bern x p) i).
Lemma bern_ok_py : bern_ok eval_bernstein_basis.
Proof. intros x p i Hi. pose proof (C149_bernstein x p) as H. destruct (eval_bernstein_basis x p) as (f & d). apply H. auto. Qed.
Lemma bern_ok_c : bern_ok eval_bernstein_basis_c.
Proof. intros x p i Hi. destruct (C149_bernstein_c x p i Hi) as (-> & ->). apply bern_ok_py. auto. Qed.

Section One.
Variables (dim : nat) (degrees : list nat) (cs : list (list mat)) (bern : R -> nat -> arr * arr) (ie : nat) (W : nat -> R).
Hypothesis Hd : dim = length degrees.
Hypothesis H13 : (1 <= dim <= 3)%nat.
Notation ds := (map (fun p => p + 1)%nat degrees).
Notation idx a := (nth a (tuples ds) []).
Notation N qp := (elem_N degrees cs bern qp ie).
Notation dN qp := (elem_dN degrees cs bern qp ie).
Notation nf := (n_efun degrees).
Notation tpb := (tp_basis dim degrees cs).

Lemma idx_in : forall a, (a < nf)%nat -> Forall2 lt (idx a) ds.
Proof. intros a Ha. apply tuples_nth. exact Ha. Qed.
Lemma idx_len : forall a, (a < nf)%nat -> length (idx a) = dim.
Proof. intros a Ha. rewrite (f2_length _ _ (idx_in a Ha)), map_length. auto. Qed.

(** The weighted sum of the functions of the element. *)
Definition wsum (qp : nat -> R) : R := sm nf (fun a => tp_val (N qp) (idx a) * W a).

Theorem C151_unity_gen : forall qp, wsum qp <> 0 ->
  sm nf (fst (tpb true bern qp ie W)) = 1 /\
  forall k, (k < dim)%nat -> sm nf (fun a => snd (tpb true bern qp ie W) a k) = 0.
Proof.
  intros qp D. unfold wsum in D. split.
  - rewrite (@sm_ext nf _ (fun a => tp_val (N qp) (idx a) * W a * (1 / den degrees cs bern ie W qp))).
    2: { intros a Ha. apply (proj1 (@basis_at dim degrees cs true bern ie W qp a Ha)). }
    rewrite sm_scalr. unfold den. field. exact D.
  - intros k Hk. rewrite (@sm_ext nf _ (fun a => (tp_der (N qp) (dN qp) k (idx a) * W a - tp_val (N qp) (idx a) * W a * (1 / den degrees cs bern ie W qp) * dden degrees cs bern ie W qp k) * / den degrees cs bern ie W qp)).
    2: { intros a Ha. apply (proj2 (@basis_at dim degrees cs true bern ie W qp a Ha) k Hk). }
    rewrite sm_scalr, sm_minus, sm_scalr, sm_scalr. unfold den, dden. field. exact D.
Qed.

Hypothesis HB : bern_ok bern.
Lemma elem_N_derive : forall qp k ii i, is_derive (fun z : R => N (upd qp k z) ii i) (qp k) (if (ii =? k)%nat then dN qp ii i else 0).
Proof.
  intros qp k ii i. unfold elem_N. set (p := nth ii degrees 0%nat). destruct (Nat.eqb_spec ii k) as [->|Q].
  - unfold elem_dN. fold p. apply (@dsm (p + 1) (fun j z => elem_C cs ie k i j * fst (bern (upd qp k z k) p) j)).
    intros j Hj. apply dscal. apply (@dext (fun z => bernstein p j z)). intros z. rewrite upd_same. symmetry. apply HB. lia. apply HB. lia.
  - apply (@dext (fun _ => sm (p + 1) (fun j => elem_C cs ie ii i j * fst (bern (qp ii) p) j))). intros z. rewrite upd_other by auto. reflexivity. apply dconst.
Qed.
Lemma tp_derive : forall qp k l, (k < dim)%nat -> length l = dim ->
  is_derive (fun z : R => tp_val (N (upd qp k z)) l) (qp k) (tp_der (N qp) (dN qp) k l).
Proof.
  intros qp k l Hk L.
  assert (V : forall ii i, N (upd qp k (qp k)) ii i = N qp ii i).
  { intros. unfold elem_N. apply sm_ext. intros. do 3 f_equal. unfold upd. destruct (Nat.eqb_spec ii k); congruence. }
  pose proof (elem_N_derive qp k) as D.
  destruct l as [|i0 [|i1 [|i2 [|]]]]; cbn [length] in L; try lia; cbn [tp_val tp_der].
  - destruct k; [|lia]. apply (D 0%nat).
  - eapply dval. apply (@dmult (fun z => N (upd qp k z) 0%nat i0) (fun z => N (upd qp k z) 1%nat i1)); apply D. rewrite !V.
    destruct k as [|[|k]]; try lia; cbn [Nat.eqb]; ring.
  - eapply dval. apply (@dmult (fun z => N (upd qp k z) 0%nat i0 * N (upd qp k z) 1%nat i1) (fun z => N (upd qp k z) 2%nat i2)); [|apply D].
    apply (@dmult (fun z => N (upd qp k z) 0%nat i0) (fun z => N (upd qp k z) 1%nat i1)); apply D. cbv beta. rewrite !V.
    destruct k as [|[|[|k]]]; try lia; cbn [Nat.eqb]; ring.
Qed.
(** [dR_dxi] holds the derivatives of the rational functions with respect to the reference coordinates. *)
Theorem C151_derivative_gen : forall qp a k, wsum qp <> 0 -> (a < nf)%nat -> (k < dim)%nat ->
  is_derive (fun z : R => fst (tpb true bern (upd qp k z) ie W) a) (qp k) (snd (tpb true bern qp ie W) a k).
Proof.
  intros qp a k D Ha Hk. rewrite (proj2 (@basis_at dim degrees cs true bern ie W qp a Ha) k Hk).
  assert (E : forall z, upd qp k (qp k) z = qp z) by (intros; unfold upd; destruct (Nat.eqb_spec z k); congruence).
  assert (V : forall l, tp_val (N (upd qp k (qp k))) l = tp_val (N qp) l).
  { intros. assert (X : forall ii i, N (upd qp k (qp k)) ii i = N qp ii i) by (intros; unfold elem_N; rewrite E; reflexivity).
    destruct l as [|? [|? [|? [|]]]]; cbn [tp_val]; rewrite ?X; auto. }
  assert (DD : is_derive (fun z : R => wsum (upd qp k z)) (qp k) (dden degrees cs bern ie W qp k)).
  { unfold wsum, dden. apply (@dsm nf (fun a z => tp_val (N (upd qp k z)) (idx a) * W a)). intros b Hb.
    eapply dval. apply (@dmult (fun z => tp_val (N (upd qp k z)) (idx b)) (fun _ => W b)). apply tp_derive; auto. apply idx_len; auto. apply dconst. cbv beta. ring. }
  assert (W0 : wsum (upd qp k (qp k)) = wsum qp) by (unfold wsum; apply sm_ext; intros; rewrite V; auto).
  apply (@dext (fun z => tp_val (N (upd qp k z)) (idx a) * W a / wsum (upd qp k z))).
  { intros z. rewrite (proj1 (@basis_at dim degrees cs true bern ie W (upd qp k z) a Ha)). unfold den, wsum, Rdiv. ring. }
  eapply dval. apply (@is_derive_div (fun z : R => tp_val (N (upd qp k z)) (idx a) * W a) (fun z => wsum (upd qp k z))).
  - apply (@dmult (fun z => tp_val (N (upd qp k z)) (idx a)) (fun _ => W a)). apply tp_derive; auto. apply idx_len; auto. apply dconst.
  - exact DD.
  - cbv beta. rewrite W0. exact D.
  - cbv beta. rewrite W0, V. change (den degrees cs bern ie W qp) with (wsum qp). cbn. field. exact D.
Qed.
End One.

(** The gradients with respect to the physical coordinates obey the chain rule and reproduce the coordinates. *)
Theorem C151_gradient_gen : forall dim dR nf P, (1 <= dim <= 3)%nat ->
  let '(dx_dxi, det, dR_dx) := tp_physical dim dR nf P in geme_eps <= Rabs det ->
  (forall i j, dx_dxi i j = sm nf (fun a => P a i * dR a j)) /\
  (forall a j, (j < dim)%nat -> sm dim (fun k => dR_dx a k * dx_dxi k j) = dR a j) /\
  (forall i k, (i < dim)%nat -> (k < dim)%nat -> sm nf (fun a => P a i * dR_dx a k) = if (i =? k)%nat then 1 else 0).
Proof.
  intros dim dR nf P Hd. unfold tp_physical. set (J := fun i j : nat => sm nf (fun a => P a i * dR a j)). cbv zeta. intros G.
  assert (G0 : detm dim J <> 0).
  { intros Z. rewrite Z, Rabs_R0 in G. unfold geme_eps in G. pose proof (Rinv_0_lt_compat (10 ^ 55) ltac:(apply pow_lt; lra)). lra. }
  destruct (Rlt_dec (Rabs (detm dim J)) geme_eps) as [Q|_]; [lra|].
  split; [reflexivity|]. split.
  - intros a j Hj. rewrite (@sm_ext dim _ (fun k => sm dim (fun l => dR a l * (invm dim J (detm dim J) l k * J k j)))).
    2: { intros k _. rewrite <- sm_scalr. apply sm_ext. intros. unfold J; ring. }
    rewrite sm_swap. rewrite (@sm_ext dim _ (fun l => dR a l * kron l j)).
    2: { intros l Hl. rewrite sm_scal, invm_l by auto. reflexivity. }
    apply sm_kron_r. auto.
  - intros i k Hi Hk. rewrite (@sm_ext nf _ (fun a => sm dim (fun j => P a i * dR a j * invm dim J (detm dim J) j k))).
    2: { intros a _. rewrite <- sm_scal. apply sm_ext. intros; unfold J; ring. }
    rewrite sm_swap. rewrite (@sm_ext dim _ (fun j => J i j * invm dim J (detm dim J) j k)).
    2: { intros j _. rewrite sm_scalr. reflexivity. }
    rewrite invm_r by auto. reflexivity.
Qed.
