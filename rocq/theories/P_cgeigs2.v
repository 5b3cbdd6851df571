(** Theorem C213: conjugate gradients with Lanczos tridiagonal matrix
    (cg_eigs), exact real arithmetic: the loop and the theorems. *)
From Coq Require Import Reals Lra.
From Verif Require Import Base M_cgeigs P_cgeigs.
Open Scope R_scope.

Section Loop.
Variables (n : nat) (A : nat -> nat -> R) (precond : option (nat -> nat -> R)) (rhs : vec) (eps_r : R).
Notation iter := (cg_iter n A precond rhs eps_r).

(** The variables after [k] iterations. *)
Fixpoint st (k : nat) : cg := match k with O => cg_init n precond rhs | S j => fst (iter j (st j)) end.
Definition done (j : nat) : Prop := snd (iter j (st j)) <> Precision.

Lemma loop_st : forall todo ii, (forall j, (j < ii)%nat -> done j) ->
  exists k, (ii <= k <= ii + todo)%nat /\ (forall j, (j < k)%nat -> done j) /\
    cg_loop n A precond rhs eps_r todo ii (st ii) = (st k, (Z.of_nat k - 1)%Z) /\
    ((k < ii + todo)%nat -> snd (iter k (st k)) = Precision \/ exists j, k = S j /\ snd (iter j (st j)) = Converged).
Proof.
  induction todo as [|t IH]; intros ii H; simpl.
  - exists ii. split; [lia|]. split; auto. split; auto. lia.
  - assert (E : iter ii (st ii) = (fst (iter ii (st ii)), snd (iter ii (st ii)))) by apply surjective_pairing.
    rewrite E. destruct (snd (iter ii (st ii))) eqn:S0.
    + assert (H' : forall j, (j < S ii)%nat -> done j).
      { intros j Hj. destruct (Nat.eq_dec j ii) as [->|]; [unfold done; rewrite S0; discriminate|apply H; lia]. }
      destruct (IH (S ii) H') as (k & K1 & K2 & K3 & K4). exists k. split; [lia|]. split; auto. split.
      * rewrite <- K3. reflexivity.
      * intros. apply K4. lia.
    + exists ii. split; [lia|]. split; auto. split; auto.
      revert S0. unfold cg_iter. destruct Req_EM_T; [reflexivity|]. destruct Rlt_dec; [reflexivity|].
      cbn. destruct Rlt_dec; discriminate.
    + exists (S ii). split; [lia|]. split.
      { intros j Hj. destruct (Nat.eq_dec j ii) as [->|]; [unfold done; rewrite S0; discriminate|apply H; lia]. }
      split; [f_equal; lia|]. intros _. right. eauto.
Qed.

(** The direction, the step length, etc. of iteration [j]. *)
Definition dir (j : nat) : vec := fun i => cz (st j) i + cbeta (st j) * cp (st j) i.
Definition alp (j : nat) : R := crho (st j) / dot n (dir j) (mv n A (dir j)).

Lemma iter_done : forall j, done j ->
  dot n (dir j) (mv n A (dir j)) <> 0 /\ alp j <> 0 /\
  cx (st (S j)) = (fun i => cx (st j) i + alp j * dir j i) /\
  cr (st (S j)) = (fun i => cr (st j) i - alp j * mv n A (dir j) i) /\
  cz (st (S j)) = apply_prec n precond (cr (st (S j))) /\
  cp (st (S j)) = dir j /\
  crho (st (S j)) = dot n (cz (st (S j))) (cr (st (S j))) /\
  cbeta (st (S j)) = crho (st (S j)) / crho (st j) /\
  cd0 (st (S j)) = set (set (cd0 (st j)) j (cd0 (st j) j + 1 / alp j)) (S j) (cbeta (st (S j)) / alp j) /\
  cd1 (st (S j)) = set (cd1 (st j)) j (- sqrt (cbeta (st (S j))) / alp j) /\
  cnorms (st (S j)) = cnorms (st j) ++ [norm n (cr (st (S j)))].
Proof.
  intros j H. unfold done in H. simpl st. unfold cg_iter in *. fold (dir j) in *.
  destruct Req_EM_T as [E|E]; [exfalso; apply H; reflexivity|].
  cbv zeta in *. fold (alp j) in *.
  destruct Rlt_dec as [E2|E2]; [exfalso; apply H; reflexivity|].
  split; auto. split.
  - intros Q. apply E2. rewrite Q, Rabs_R0. apply Rinv_0_lt_compat, pow_lt. lra.
  - cbn. repeat split; reflexivity.
Qed.

Section Done.
Variable K : nat.
Hypothesis HK : forall j, (j < K)%nat -> done j.

(** The residual of the current solution. *)
Lemma residual : forall j, (j <= K)%nat -> forall i, cr (st j) i = rhs i - mv n A (cx (st j)) i.
Proof.
  induction j as [|j IH]; intros Hj i.
  - simpl. unfold mv. rewrite dot_zero_r; auto. ring.
  - destruct (iter_done j (HK j Hj)) as (_ & _ & X & R0 & _). rewrite R0, X, IH by lia.
    rewrite (mv_lin n A (cx (st j)) (dir j) (alp j) (fun i => cx (st j) i + alp j * dir j i)) by auto. ring.
Qed.
Lemma norms_st : forall j, (j <= K)%nat -> cnorms (st j) = map (fun k => norm n (cr (st k))) (seq 0 (S j)).
Proof.
  induction j as [|j IH]; intros Hj; [reflexivity|].
  destruct (iter_done j (HK j Hj)) as (_ & _ & _ & _ & _ & _ & _ & _ & _ & _ & N).
  rewrite N, IH, (seq_S (S j) 0), map_app by lia. reflexivity.
Qed.
Lemma rho_ok : forall j, (j <= K)%nat -> crho (st j) = dot n (cz (st j)) (cr (st j)).
Proof.
  intros [|j] Hj; [reflexivity|]. apply iter_done. apply HK. lia.
Qed.
Lemma z_ok : forall j, (j <= K)%nat -> cz (st j) = apply_prec n precond (cr (st j)).
Proof. intros [|j] Hj; [reflexivity|]. apply iter_done. apply HK. lia. Qed.
Lemma rho_nz : forall j, (j < K)%nat -> crho (st j) <> 0.
Proof.
  intros j Hj. destruct (iter_done j (HK j Hj)) as (P & Q & _). intros E. apply Q. unfold alp. rewrite E.
  unfold Rdiv. ring.
Qed.
Lemma dir_0 : forall i, dir 0 i = cz (st 0) i.
Proof. intros. unfold dir. simpl. ring. Qed.
Lemma dir_S : forall j, (j < K)%nat -> forall i, dir (S j) i = cz (st (S j)) i + cbeta (st (S j)) * dir j i.
Proof.
  intros j Hj i. destruct (iter_done j (HK j Hj)) as (_ & _ & _ & _ & _ & P & _). unfold dir at 1. rewrite P. auto.
Qed.
Lemma alp_ok : forall j, (j < K)%nat -> alp j * dot n (dir j) (mv n A (dir j)) = crho (st j).
Proof. intros j Hj. destruct (iter_done j (HK j Hj)) as (P & _). unfold alp. field. auto. Qed.
Lemma beta_ok : forall j, (j < K)%nat -> cbeta (st (S j)) * crho (st j) = crho (st (S j)).
Proof.
  intros j Hj. destruct (iter_done j (HK j Hj)) as (_ & _ & _ & _ & _ & _ & _ & B & _). rewrite B. field.
  apply rho_nz; auto.
Qed.
Lemma diag_next : forall j, (j <= K)%nat ->
  cd0 (st j) j = match j with O => 0 | S i => cbeta (st j) / alp i end.
Proof.
  intros [|j] Hj; [reflexivity|].
  destruct (iter_done j (HK j ltac:(lia))) as (_ & _ & _ & _ & _ & _ & _ & _ & D & _). rewrite D.
  unfold set. rewrite Nat.eqb_refl. auto.
Qed.
Lemma diag_ok : forall k j, (k <= K)%nat -> (j < k)%nat ->
  cd0 (st k) j = 1 / alp j + match j with O => 0 | S i => cbeta (st j) / alp i end /\
  cd1 (st k) j = - sqrt (cbeta (st (S j))) / alp j.
Proof.
  induction k as [|k IH]; intros j Hk Hj; [lia|].
  destruct (iter_done k (HK k ltac:(lia))) as (_ & _ & _ & _ & _ & _ & _ & _ & D & D1 & _). rewrite D, D1.
  unfold set. destruct (Nat.eqb_spec j (S k)); [lia|]. destruct (Nat.eqb_spec j k) as [->|].
  - rewrite diag_next by lia. split; auto. ring.
  - apply IH; lia.
Qed.
End Done.
End Loop.

(** ** The theorems *)
(** Preconditioners are symmetric matrices in the first of them. *)
Definition apply_shift (n : nat) (A : nat -> nat -> R) (s : R) (v : vec) : vec := fun i => mv n A v i + s * v i.

Lemma mv_shifted : forall n A s v i, (i < n)%nat -> mv n (shifted A s) v i = apply_shift n A s v i.
Proof.
  intros n A s v i Hi. unfold apply_shift, mv, shifted.
  assert (E : forall m, dot m (fun j => A i j + s * (if Nat.eqb i j then 1 else 0)) v =
     dot m (A i) v + s * (if Nat.ltb i m then v i else 0)).
  { induction m; simpl; [ring|]. rewrite IHm. destruct (Nat.eqb_spec i m) as [->|].
    - destruct (Nat.ltb_spec m m), (Nat.ltb_spec m (S m)); try lia. ring.
    - destruct (Nat.ltb_spec i m), (Nat.ltb_spec i (S m)); try lia; ring. }
  rewrite E. destruct (Nat.ltb_spec i n); [auto|lia].
Qed.

(** The residual norms: the last one is that of the returned solution, of the
    shifted system; [n_it + 2] norms are returned. *)
Theorem C213_residual : forall n A rhs precond i_max eps_r shift mtx_norm out,
  cg_eigs n A rhs precond i_max eps_r shift mtx_norm = Ok out ->
  let s := shift_value shift mtx_norm in
  o_shift out = s /\
  (-1 <= o_it out < Z.of_nat i_max)%Z /\
  length (o_norms out) = Z.to_nat (o_it out + 2) /\
  length (o_diag out) = Z.to_nat (o_it out + 1) /\ length (o_sub out) = Z.to_nat (o_it out + 1) /\
  last (o_norms out) 0 = norm n (fun i => rhs i - apply_shift n A s (o_x out) i) /\
  nth 0 (o_norms out) 0 = norm n rhs.
Proof.
  intros n A rhs precond i_max eps_r shift mtx_norm out H s. unfold cg_eigs in H.
  destruct i_max as [|m]; [discriminate|]. fold s in H.
  destruct (loop_st n (shifted A s) precond rhs eps_r (S m) 0 ltac:(lia)) as (k & K1 & K2 & K3 & K4).
  change (st n (shifted A s) precond rhs eps_r 0) with (cg_init n precond rhs) in K3.
  rewrite K3 in H. injection H as <-. cbn [o_x o_it o_norms o_diag o_sub o_shift].
  split; auto. split; [lia|].
  assert (N := norms_st n (shifted A s) precond rhs eps_r k K2 k (le_n k)). rewrite N.
  split; [rewrite map_length, seq_length; lia|]. rewrite !map_length, !seq_length. split; auto. split; auto. split.
  - rewrite seq_S, map_app. simpl. rewrite last_last. unfold norm. f_equal.
    apply dot_ext; intros i Hi; rewrite (residual n (shifted A s) precond rhs eps_r k K2 k (le_n k)), mv_shifted; auto.
  - reflexivity.
Qed.

(** When it ends before [i_max] iterations, then either the relative residual
    is below [eps_r] or the precision limit has been reached. *)
Theorem C213_stop : forall n A rhs precond i_max eps_r shift mtx_norm out,
  cg_eigs n A rhs precond i_max eps_r shift mtx_norm = Ok out ->
  (o_it out + 1 < Z.of_nat i_max)%Z ->
  last (o_norms out) 0 / nth 0 (o_norms out) 0 < eps_r \/
  exists p, let s := shift_value shift mtx_norm in
    let r := fun i => rhs i - apply_shift n A s (o_x out) i in
    let rho := dot n (apply_prec n precond r) r in
    let pq := dot n p (apply_shift n A s p) in
    pq = 0 \/ Rabs (rho / pq) < / 10 ^ 16.
Proof.
  intros n A rhs precond i_max eps_r shift mtx_norm out H Hi.
  destruct (C213_residual _ _ _ _ _ _ _ _ _ H) as (_ & _ & _ & _ & _ & L & F). rewrite L, F. clear L F.
  unfold cg_eigs in H. destruct i_max as [|m]; [discriminate|]. set (s := shift_value shift mtx_norm) in *.
  destruct (loop_st n (shifted A s) precond rhs eps_r (S m) 0 ltac:(lia)) as (k & K1 & K2 & K3 & K4).
  change (st n (shifted A s) precond rhs eps_r 0) with (cg_init n precond rhs) in K3.
  rewrite K3 in H. injection H as <-. cbn [o_x o_it o_norms o_diag o_sub o_shift] in *.
  set (St := st n (shifted A s) precond rhs eps_r) in *.
  assert (E : forall i, (i < n)%nat -> cr (St k) i = rhs i - apply_shift n A s (cx (St k)) i).
  { intros i Hn. unfold St. rewrite (residual n (shifted A s) precond rhs eps_r k K2 k (le_n k)), mv_shifted; auto. }
  destruct K4 as [K4|[j [-> K4]]]; [lia| |].
  - right. exists (dir n (shifted A s) precond rhs eps_r k). cbv zeta.
    set (r := fun i => rhs i - apply_shift n A s (cx (St k)) i). set (rho := dot n (apply_prec n precond r) r).
    set (pq := dot n _ (apply_shift n A s _)).
    assert (Er : rho = crho (St k)).
    { unfold St. rewrite (rho_ok n (shifted A s) precond rhs eps_r k K2 k (le_n k)).
      rewrite (z_ok n (shifted A s) precond rhs eps_r k K2 k (le_n k)). apply dot_ext.
      - intros i Hn. unfold r. unfold apply_prec. destruct precond as [M|].
        + unfold mv. apply dot_ext; auto. intros. symmetry. apply E; auto.
        + symmetry. apply E; auto.
      - intros i Hn. symmetry. apply E; auto. }
    assert (Ep : pq = dot n (dir n (shifted A s) precond rhs eps_r k) (mv n (shifted A s) (dir n (shifted A s) precond rhs eps_r k))).
    { apply dot_ext; auto. intros. symmetry. apply mv_shifted; auto. }
    rewrite Er, Ep. revert K4. unfold cg_iter. fold (St k).
    change (fun i : nat => cz (St k) i + cbeta (St k) * cp (St k) i) with (dir n (shifted A s) precond rhs eps_r k).
    destruct Req_EM_T; [auto|]. cbv zeta. destruct Rlt_dec; [auto|]. cbn. destruct Rlt_dec; discriminate.
  - left. assert (Hd : done n (shifted A s) precond rhs eps_r j) by (apply K2; lia).
    assert (Q : norm n (cr (St (S j))) / norm n rhs < eps_r).
    { revert K4. unfold St. simpl st. unfold cg_iter. destruct Req_EM_T; [discriminate|]. cbv zeta.
      destruct Rlt_dec; [discriminate|]. cbn. destruct Rlt_dec; [auto|discriminate]. }
    replace (norm n (fun i => rhs i - apply_shift n A s (cx (St (S j))) i)) with (norm n (cr (St (S j)))); auto.
    unfold norm. f_equal. apply dot_ext; auto.
Qed.

(** "The number of CG iterations used": after one full iteration (the residual
    norm has been appended, the solution updated), [n_it] is 0.  Also, with
    [i_max] 0 it fails, and with a shift the solution is that of the shifted
    system (C213_residual). *)
Theorem C213_count_refuted : exists out,
  cg_eigs 1 (fun _ _ => 1) (fun _ => 1) None 5 (1 / 2) None 0 = Ok out /\
  o_it out = 0%Z /\ length (o_norms out) = 2%nat /\ o_x out 0%nat <> 0 /\ last (o_norms out) 0 = 0.
Proof.
  unfold cg_eigs. simpl shift_value. simpl. unfold cg_iter. simpl.
  destruct Req_EM_T as [E|E]; [exfalso; unfold mv, shifted in E; simpl in E; lra|].
  unfold mv, shifted in *. simpl in *.
  match goal with |- context [Rlt_dec (Rabs ?a) _] => replace a with 1 by field end.
  destruct Rlt_dec as [L|L].
  { exfalso. rewrite Rabs_R1 in L. assert (/ 10 ^ 16 < 1); [|simpl in *; lra].
    rewrite <- Rinv_1. apply Rinv_lt_contravar; [|simpl; lra]. simpl; lra. }
  unfold norm. simpl.
  replace (1 - 1 * (0 + (1 + 0 * 1) * (1 + 0 * 0))) with 0 by ring.
  replace (0 + 0 * 0) with 0 by ring. rewrite sqrt_0.
  destruct Rlt_dec as [L2|L2]; [|exfalso; apply L2; unfold Rdiv; lra].
  eexists. split; [reflexivity|]. cbn [o_x o_it o_norms cx cnorms]. simpl. repeat split; auto. lra.
Qed.

(** ** The tridiagonal matrix *)
(** The symmetric tridiagonal matrix given to eigvals_banded. *)
Definition tri (d e : list R) (i j : nat) : R :=
  if Nat.eqb i j then nth i d 0 else if Nat.eqb j (S i) then nth i e 0 else if Nat.eqb i (S j) then nth j e 0 else 0.

Lemma shifted_sym : forall n A s, symmetric n A -> symmetric n (shifted A s).
Proof. intros n A s S i j Hi Hj. unfold shifted. rewrite (S i j), (Nat.eqb_sym i j) by auto. auto. Qed.

(** For a symmetric matrix without preconditioner: the tridiagonal matrix is
    the (shifted) matrix in an orthonormal basis, that starts with the
    direction of the right-hand side. *)
Theorem C213_lanczos : forall n A rhs i_max eps_r shift mtx_norm out, symmetric n A ->
  cg_eigs n A rhs None i_max eps_r shift mtx_norm = Ok out ->
  let s := shift_value shift mtx_norm in
  exists v : nat -> vec,
    ((0 < length (o_diag out))%nat -> forall i, rhs i = norm n rhs * v 0%nat i) /\
    forall i j, (i < length (o_diag out))%nat -> (j < length (o_diag out))%nat ->
      dot n (v i) (v j) = (if Nat.eqb i j then 1 else 0) /\
      dot n (v i) (apply_shift n A s (v j)) = tri (o_diag out) (o_sub out) i j.
Proof.
  intros n A rhs i_max eps_r shift mtx_norm out S0 H s. unfold cg_eigs in H.
  destruct i_max as [|m]; [discriminate|]. fold s in H.
  destruct (loop_st n (shifted A s) None rhs eps_r (S m) 0 ltac:(lia)) as (k & K1 & K2 & K3 & K4).
  change (st n (shifted A s) None rhs eps_r 0) with (cg_init n None rhs) in K3.
  rewrite K3 in H. injection H as <-. cbn [o_x o_it o_norms o_diag o_sub o_shift].
  rewrite map_length, seq_length. replace (Z.to_nat (Z.of_nat k - 1 + 1)) with k by lia. clear K1 K3 K4.
  assert (SA := shifted_sym n A s S0). set (B := shifted A s) in *.
  set (St := st n B None rhs eps_r) in *. set (p := dir n B None rhs eps_r). set (al := alp n B None rhs eps_r).
  set (r := fun j => cr (St j)). set (rho := fun j => crho (St j)). set (be := fun j => cbeta (St j)).
  assert (Hzr : forall j, (j <= k)%nat -> cz (St j) = r j) by (intros; apply (z_ok n B None rhs eps_r k K2); auto).
  assert (Hnz : forall j, (j < k)%nat -> al j <> 0) by (intros; apply iter_done; auto).
  assert (Hr : forall j, (j < k)%nat -> forall i, r (S j) i = r j i - al j * mv n B (p j) i).
  { intros j Hj i. unfold r, St. destruct (iter_done n B None rhs eps_r j (K2 j Hj)) as (_ & _ & _ & Q & _).
    rewrite Q. auto. }
  assert (Hp0 : forall i, p 0%nat i = r 0%nat i) by (intros; apply dir_0).
  assert (Hp : forall j, (j < k)%nat -> forall i, p (S j) i = r (S j) i + be (S j) * p j i).
  { intros j Hj i. unfold p. rewrite (dir_S n B None rhs eps_r k K2) by auto. fold St. rewrite Hzr by auto. auto. }
  assert (Hrho : forall j, (j <= k)%nat -> rho j = dot n (r j) (r j)).
  { intros j Hj. unfold rho, St. rewrite (rho_ok n B None rhs eps_r k K2) by auto. fold St. rewrite Hzr by auto. auto. }
  assert (Hal : forall j, (j < k)%nat -> al j * dot n (p j) (mv n B (p j)) = rho j) by (intros; apply (alp_ok n B None rhs eps_r k K2); auto).
  assert (Hbe : forall j, (j < k)%nat -> be (S j) * rho j = rho (S j)) by (intros; apply (beta_ok n B None rhs eps_r k K2); auto).
  assert (Hz : forall i j, (i <= k)%nat -> (j <= k)%nat -> dot n (r i) (r j) = dot n (r j) (r i)) by (intros; apply dot_sym).
  assert (Hpos : forall j, (j < k)%nat -> 0 < rho j).
  { intros j Hj. assert (Q := rho_nz n B None rhs eps_r k K2 j Hj). fold St in Q. fold (rho j) in Q.
    assert (Q2 := dot_pos n (r j)). rewrite <- Hrho in Q2 by lia. lra. }
  assert (Hid : forall j, (j <= k)%nat -> forall i, r j i = r j i) by auto.
  assert (Hsq : forall j, (j < k)%nat -> 0 < sqrt (rho j)) by (intros; apply sqrt_lt_R0; auto).
  assert (Hss : forall j, (j < k)%nat -> sqrt (rho j) * sqrt (rho j) = rho j) by (intros; apply sqrt_sqrt, Rlt_le; auto).
  exists (fun j i => 0 + / sqrt (rho j) * r j i).
  assert (DL : forall i w, dot n (fun i0 => 0 + / sqrt (rho i) * r i i0) w = / sqrt (rho i) * dot n (r i) w).
  { intros. rewrite (dot_lin_l n (fun _ => 0) (r i) (/ sqrt (rho i))) by auto.
    rewrite dot_sym, (dot_zero_r n w) by auto. ring. }
  assert (DR : forall j w, dot n w (fun i0 => 0 + / sqrt (rho j) * r j i0) = / sqrt (rho j) * dot n w (r j)).
  { intros. rewrite dot_sym, DL, dot_sym. auto. }
  split.
  - intros Hk i. change (r 0%nat i) with (rhs i). replace (norm n rhs) with (sqrt (rho 0%nat)).
    + specialize (Hsq 0%nat Hk). field. lra.
    + reflexivity.
  - intros i j Hi Hj. split.
    + rewrite DL, DR. destruct (Nat.eqb_spec i j) as [->|N].
      * rewrite <- Hrho by lia. assert (Q := Hss j Hj). assert (Q1 := Hsq j Hj).
        set (q := sqrt (rho j)) in *. rewrite <- Q. field. lra.
      * rewrite (orth n B SA r r p al be rho k Hr Hp0 Hp Hrho Hal Hnz Hbe Hz Hid) by lia. ring.
    + assert (Ea : dot n (fun i0 => 0 + / sqrt (rho i) * r i i0) (apply_shift n A s (fun i0 => 0 + / sqrt (rho j) * r j i0))
          = / sqrt (rho i) * (/ sqrt (rho j) * dot n (r i) (mv n B (r j)))).
      { rewrite DL. f_equal.
        rewrite (dot_ext n (r i) (apply_shift n A s (fun i0 => 0 + / sqrt (rho j) * r j i0)) (r i)
                  (fun i0 => 0 + / sqrt (rho j) * mv n B (r j) i0)); auto.
        - rewrite (dot_lin_r n (fun _ => 0) (mv n B (r j)) (/ sqrt (rho j))) by auto. rewrite dot_zero_r by auto. ring.
        - intros i0 Hi0. rewrite <- mv_shifted by auto. fold B.
          rewrite (mv_lin n B (fun _ => 0) (r j) (/ sqrt (rho j)) (fun i0 => 0 + / sqrt (rho j) * r j i0)) by auto.
          unfold mv at 1. rewrite dot_zero_r by auto. ring. }
      rewrite Ea. clear Ea. unfold tri.
      assert (Off : forall i, (S i < k)%nat -> / sqrt (rho i) * (/ sqrt (rho (S i)) * dot n (r i) (mv n B (r (S i)))) =
         nth i (map (cd1 (St k)) (seq 0 k)) 0).
      { clear i j Hi Hj. intros i Hi.
        rewrite (nth_indep _ 0 (cd1 (St k) 0%nat)) by (rewrite map_length, seq_length; lia).
        rewrite map_nth, seq_nth by lia. simpl Nat.add.
        destruct (diag_ok n B None rhs eps_r k K2 k i (le_n k) ltac:(lia)) as [_ Q]. fold St in Q. rewrite Q.
        fold (be (S i)). fold al. clear Q.
        assert (Q := lan_off n B SA r r p al be rho k Hr Hp0 Hp Hrho Hal Hnz Hbe Hz Hid i Hi).
        assert (N := Hnz i ltac:(lia)). assert (Q1 := Hsq i ltac:(lia)). assert (Q2 := Hsq (S i) ltac:(lia)).
        replace (be (S i)) with (rho (S i) / rho i) by (rewrite <- (Hbe i) by lia; field; specialize (Hpos i ltac:(lia)); lra).
        rewrite sqrt_div_alt by (apply Hpos; lia).
        replace (dot n (r i) (mv n B (r (S i)))) with (- rho (S i) / al i) by (rewrite <- Q; field; auto).
        assert (Q3 := Hss (S i) ltac:(lia)). set (q := sqrt (rho (S i))) in *. rewrite <- Q3.
        field. repeat split; lra || auto. }
      destruct (Nat.eqb_spec i j) as [<-|N1]; [|destruct (Nat.eqb_spec j (S i)) as [->|N2]; [auto|destruct (Nat.eqb_spec i (S j)) as [->|N3]]].
      * rewrite (nth_indep _ 0 (cd0 (St k) 0%nat)) by (rewrite map_length, seq_length; lia).
        rewrite map_nth, seq_nth by lia. simpl Nat.add.
        destruct (diag_ok n B None rhs eps_r k K2 k i (le_n k) ltac:(lia)) as [Q _]. fold St in Q. rewrite Q. fold al. clear Q.
        assert (Q := lan_diag n B SA r r p al be rho k Hr Hp0 Hp Hrho Hal Hnz Hbe Hz Hid i Hi).
        assert (N := Hnz i ltac:(lia)). assert (Q1 := Hsq i ltac:(lia)).
        set (c := match i with O => 0 | S i0 => be i / al i0 end) in *.
        match goal with |- _ = _ + ?x => replace x with c by (unfold c; destruct i; auto) end.
        replace (dot n (r i) (mv n B (r i))) with (rho i * (1 + al i * c) / al i) by (rewrite <- Q; field; auto).
        assert (Q3 := Hss i ltac:(lia)). set (q := sqrt (rho i)) in *. rewrite <- Q3.
        field. split; lra || auto.
      * rewrite <- Off by lia. rewrite mv_sym, dot_sym by auto. ring.
      * destruct (Nat.lt_total i j) as [L|[L|L]]; [|congruence|].
        -- rewrite (lan_far n B SA r r p al be rho k Hr Hp0 Hp Hrho Hal Hnz Hbe Hz Hid) by lia. ring.
        -- rewrite mv_sym, dot_sym by auto.
           rewrite (lan_far n B SA r r p al be rho k Hr Hp0 Hp Hrho Hal Hnz Hbe Hz Hid) by lia. ring.
Qed.

Lemma dot_delta : forall m i y, (i < m)%nat -> dot m (fun j => if Nat.eqb i j then 1 else 0) y = y i.
Proof.
  assert (Z : forall m i y, (m <= i)%nat -> dot m (fun j => if Nat.eqb i j then 1 else 0) y = 0).
  { induction m; simpl; intros; auto. rewrite IHm by lia. destruct (Nat.eqb_spec i m); [lia|]. ring. }
  induction m; simpl; intros i y H; [lia|]. destruct (Nat.eqb_spec i m) as [->|].
  - rewrite Z by lia. ring.
  - rewrite IHm by lia. ring.
Qed.
Lemma dot_pos_strict : forall m y k, (k < m)%nat -> y k <> 0 -> 0 < dot m y y.
Proof.
  induction m; simpl; intros y k H N; [lia|]. assert (P := dot_pos m y).
  destruct (Nat.eq_dec k m) as [->|].
  - assert (0 < y m * y m) by nra. lra.
  - specialize (IHm y k ltac:(lia) N). nra.
Qed.
Lemma tri_sym : forall d e i j, tri d e i j = tri d e j i.
Proof.
  intros. unfold tri. destruct (Nat.eqb_spec i j), (Nat.eqb_spec j i), (Nat.eqb_spec i (S j)), (Nat.eqb_spec j (S i)); subst; auto; try lia.
Qed.

(** The approximate eigenvalues (those of the tridiagonal matrix minus the
    shift) lie between the bounds of the Rayleigh quotient of the matrix, for
    example between its smallest and its largest eigenvalue. *)
Theorem C213_ritz : forall n A rhs i_max eps_r shift mtx_norm out c d theta (y : vec), symmetric n A ->
  cg_eigs n A rhs None i_max eps_r shift mtx_norm = Ok out ->
  (forall v, c * dot n v v <= dot n v (mv n A v) <= d * dot n v v) ->
  let m := length (o_diag out) in
  (exists k, (k < m)%nat /\ y k <> 0) ->
  (forall i, (i < m)%nat -> dot m (tri (o_diag out) (o_sub out) i) y = theta * y i) ->
  c <= theta - o_shift out <= d.
Proof.
  intros n A rhs i_max eps_r shift mtx_norm out c d theta y S0 H Hcd m [k [Hk Hy]] HE.
  destruct (C213_residual _ _ _ _ _ _ _ _ _ H) as (Es & _).
  destruct (C213_lanczos _ _ _ _ _ _ _ _ S0 H) as (v & _ & HV). fold m in HV. rewrite Es.
  set (s := shift_value shift mtx_norm) in *.
  set (u := fun i => dot m (fun j => v j i) y).
  assert (DU : forall w, dot n w u = dot m (fun j => dot n w (v j)) y).
  { intros w. unfold u. rewrite (dot_swap n m (fun i j => v j i)). reflexivity. }
  assert (Nu : dot n u u = dot m y y).
  { rewrite DU. apply dot_ext; auto. intros j Hj. rewrite dot_sym, DU.
    rewrite (dot_ext m _ y (fun k => if Nat.eqb j k then 1 else 0) y); auto.
    - apply dot_delta; auto.
    - intros i Hi. apply (HV j i Hj Hi). }
  assert (SB : symmetric n (shifted A s)) by (apply shifted_sym; auto).
  assert (EB : forall w x, dot n w (apply_shift n A s x) = dot n w (mv n (shifted A s) x)).
  { intros. apply dot_ext; auto. intros. symmetry. apply mv_shifted; auto. }
  assert (Au : dot n u (apply_shift n A s u) = theta * dot m y y).
  { rewrite EB, mv_sym, DU by auto.
    rewrite (dot_ext m _ y (fun j => 0 + theta * y j) y); auto.
    - rewrite (dot_lin_l m (fun _ => 0) y theta) by auto. rewrite dot_sym, (dot_zero_r m y) by auto. ring.
    - intros j Hj. rewrite Rplus_0_l, <- HE by auto. rewrite <- mv_sym by auto. rewrite dot_sym, DU.
      apply dot_ext; auto. intros i Hi. rewrite <- mv_sym, <- EB by auto. apply (HV j i Hj Hi). }
  assert (Sp : dot n u (apply_shift n A s u) = dot n u (mv n A u) + s * dot n u u).
  { apply dot_lin_r. auto. }
  assert (P := dot_pos_strict m y k Hk Hy). specialize (Hcd u). rewrite Nu in *.
  assert (E : dot n u (mv n A u) = (theta - s) * dot m y y) by lra. rewrite E in Hcd.
  split; apply (Rmult_le_reg_r (dot m y y)); lra.
Qed.

(** A symmetric matrix, one iteration. *)
Example C213_ex : let A := fun i j : nat => if Nat.eqb i j then 2 else 1 in
  symmetric 2 A /\
  (forall v, 1 * dot 2 v v <= dot 2 v (mv 2 A v) <= 3 * dot 2 v v) /\
  exists out, cg_eigs 2 A (fun i => if Nat.eqb i 0 then 1 else 0) None 1 0 None 0 = Ok out /\
    o_diag out = [2] /\ dot 1 (tri (o_diag out) (o_sub out) 0) (fun _ => 1) = 2 * 1.
Proof.
  intros A. split; [|split].
  - intros i j _ _. unfold A. rewrite Nat.eqb_sym. auto.
  - intros v. unfold mv, A. simpl.
    assert (0 <= (v 0%nat + v 1%nat) * (v 0%nat + v 1%nat)) by apply Rle_0_sqr.
    assert (0 <= (v 0%nat - v 1%nat) * (v 0%nat - v 1%nat)) by apply Rle_0_sqr. split; lra.
  - unfold cg_eigs. simpl shift_value. simpl. unfold cg_iter. simpl.
    destruct Req_EM_T as [E|E]; [exfalso; unfold mv, shifted, A in E; simpl in E; lra|].
    unfold mv, shifted, A in *. simpl in *.
    match goal with |- context [Rlt_dec (Rabs ?a) _] => replace a with (1 / 2) by field end.
    destruct Rlt_dec as [L|L].
    { exfalso. rewrite Rabs_right in L by lra. assert (/ 10 ^ 16 < 1 / 2); [|simpl in *; lra].
      unfold Rdiv. rewrite Rmult_1_l. apply Rinv_lt_contravar; simpl; lra. }
    match goal with |- context [Rlt_dec ?x 0] => destruct (Rlt_dec x 0) as [L2|L2] end.
    + exfalso. unfold norm in L2.
      assert (Q := sqrt_pos (dot 2 (fun i : nat => 1) (fun i => 1))).
      match type of L2 with ?x / ?y < 0 => assert (0 <= x) by apply sqrt_pos; assert (Q2 : 0 < y) end.
      { apply sqrt_lt_R0. simpl. lra. }
      assert (0 <= / norm 2 (fun i : nat => if (i =? 0)%nat then 1 else 0)).
      { apply Rlt_le, Rinv_0_lt_compat. exact Q2. }
      unfold Rdiv in L2. unfold norm in *. nra.
    + eexists. split; [reflexivity|]. cbn [o_diag o_sub cd0 cd1]. simpl. unfold set, tri. simpl.
      split; [f_equal; field|field].
Qed.
