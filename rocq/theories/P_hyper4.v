(** The tangent matrix of a total Lagrangian hyperelastic term is the derivative of its residual. *)
From Coq Require Import Reals Lra Lia Arith List.
From Coquelicot Require Import Coquelicot.
From Verif Require Import Base M_fmf M_terms L_fmf S_terms L_terms L_terms2 M_hyper S_hyper L_hyper L_hyper2 L_hyper3 P_hyper.
Import ListNotations.
Open Scope R_scope.

Section Cell.
Variables (nq dim ne : nat) (vg : Geo).
Hypothesis (HS : shape nq dim ne vg) (HD : dim_ok dim).
Variables (conn : nat -> nat) (u : R -> nat -> R) (v : nat -> R) (t0 : R).
Hypothesis Hu : forall e c, (e < ne)%nat -> (c < dim)%nat ->
  is_derive (fun t => u t (dim * conn e + c)%nat) t0 (v (dim * conn e + c)%nat).
Notation FF t q := (Fq vg conn (u t) q).
Notation G := (Gq vg).

(** The rate of the deformation gradient, and of the strain. *)
Definition dF (q k : nat) : R := sm ne (fun e => v (dim * conn e + k / dim)%nat * G q (k mod dim) e).
Lemma dF_at : forall q i j, (i < dim)%nat -> (j < dim)%nat -> dF q (dim * i + j) = sm ne (fun e => v (dim * conn e + i)%nat * G q j e).
Proof.
  intros q i j Hi Hj. unfold dF.
  rewrite <- (Nat.div_unique (dim * i + j) dim i j Hj eq_refl), <- (Nat.mod_unique (dim * i + j) dim i j Hj eq_refl). reflexivity.
Qed.
Lemma F_derive : forall q k, (q < nq)%nat -> (k < dim * dim)%nat -> is_derive (fun t => FF t q k) t0 (dF q k).
Proof.
  intros q k Hq Hk. assert (N : dim <> 0%nat) by (destruct k; lia).
  pose proof (Nat.div_mod k dim N) as E. pose proof (Nat.mod_upper_bound k dim N) as M.
  assert (I : (k / dim < dim)%nat) by (apply Nat.div_lt_upper_bound; auto).
  set (i := (k / dim)%nat) in *. set (j := (k mod dim)%nat) in *. clearbody i j. subst k.
  rewrite dF_at by auto.
  eapply dext. { intros t. symmetry. apply (@Fq_at nq dim ne vg HS); auto. }
  eapply dval. apply dplus. apply dconst.
  apply (@dsm ne (fun e t => u t (dim * conn e + i)%nat * G q j e)). intros e He.
  apply dmult. apply Hu; auto. apply dconst.
  cbv beta. rewrite Rplus_0_l. apply sm_ext. intros. ring.
Qed.
Definition dE (q k : nat) : R := sm dim (fun c => sm ne (fun e => Bop dim (FF t0 q) (G q) k c e * v (dim * conn e + c)%nat)).
Lemma Bop_dF : forall q k c, (k < dim2sym dim)%nat -> (c < dim)%nat ->
  sm ne (fun e => Bop dim (FF t0 q) (G q) k c e * v (dim * conn e + c)%nat)
  = let i := t2i dim k in let j := t2j dim k in
    if (k <? dim)%nat then FF t0 q (dim * c + i)%nat * dF q (dim * c + i)
    else FF t0 q (dim * c + j)%nat * dF q (dim * c + i) + FF t0 q (dim * c + i)%nat * dF q (dim * c + j).
Proof.
  intros q k c Hk Hc. cbv zeta. unfold Bop. cbv zeta.
  assert (X : (t2i dim k < dim)%nat /\ (t2j dim k < dim)%nat).
  { clear - HD Hk. destruct HD as [-> | [-> | ->]]; do 6 (try destruct k as [|k]); try (cbn in Hk; exfalso; lia); cbn; lia. }
  destruct X as [X1 X2]. rewrite !dF_at by auto. destruct (k <? dim)%nat.
  - rewrite <- sm_scal. apply sm_ext. intros. ring.
  - rewrite <- !sm_scal. rewrite <- sm_plus. apply sm_ext. intros. ring.
Qed.
Lemma E_derive : forall q k, (q < nq)%nat -> (k < dim2sym dim)%nat ->
  is_derive (fun t => eng dim k * vecES (fs dim (fun t => FF t q) t) k) t0 (dE q k).
Proof.
  intros q k Hq Hk.
  pose proof (fun k => F_derive q k Hq) as DF. unfold dE.
  assert (B := fun c => Bop_dF q k c Hk). cbv zeta in B.
  assert (X : (sm dim (fun c => sm ne (fun e => Bop dim (FF t0 q) (G q) k c e * v (dim * conn e + c)%nat)))
    = (sm dim (fun c => let i := t2i dim k in let j := t2j dim k in
    if (k <? dim)%nat then FF t0 q (dim * c + i)%nat * dF q (dim * c + i)
    else FF t0 q (dim * c + j)%nat * dF q (dim * c + i) + FF t0 q (dim * c + i)%nat * dF q (dim * c + j))))
    by (apply sm_ext; intros; cbv zeta; apply B; auto).
  rewrite X. clear X B. unfold fs.
  apply (dext (fun t => eng dim k * green dim (FF t q) (t2i dim k) (t2j dim k))). { intros t. rewrite C142_green_strain by auto. reflexivity. }
  unfold green, Rdiv.
  set (i := t2i dim k). set (j := t2j dim k).
  assert (X : (i < dim)%nat /\ (j < dim)%nat /\ ((k <? dim)%nat = true -> i = j) /\ ((k <? dim)%nat = false -> i <> j)).
  { clear - HD Hk. unfold i, j. destruct HD as [-> | [-> | ->]]; do 6 (try destruct k as [|k]); try (cbn in Hk; exfalso; lia); cbn; repeat split; try lia; try discriminate; auto. }
  destruct X as (X1 & X2 & X3 & X4).
  assert (idx : forall a b, (a < dim)%nat -> (b < dim)%nat -> (dim * a + b < dim * dim)%nat) by (intros; apply idx_lt; auto).
  eapply dval.
  { apply dscal. apply dmult; [|apply dconst]. apply dminus; [|apply dconst].
    apply (@dsm dim (fun a t => FF t q (dim * a + i)%nat * FF t q (dim * a + j)%nat)
       (fun a => dF q (dim * a + i) * FF t0 q (dim * a + j)%nat + FF t0 q (dim * a + i)%nat * dF q (dim * a + j))).
    intros a Ha. apply (dmult (fun t => FF t q (dim * a + i)%nat) (fun t => FF t q (dim * a + j)%nat)); apply DF; auto. }
  cbv beta. unfold eng. destruct (k <? dim)%nat eqn:K.
  - rewrite <- (X3 eq_refl). rewrite Rmult_0_r, Rplus_0_r, Rmult_1_l, Rminus_0_r.
    rewrite <- sm_scalr. apply sm_ext. intros. field.
  - rewrite Rmult_0_r, Rplus_0_r, Rminus_0_r.
    replace (2 * (sm dim (fun a : nat => dF q (dim * a + i) * FF t0 q (dim * a + j)%nat + FF t0 q (dim * a + i)%nat * dF q (dim * a + j)) * / 2))
      with (sm dim (fun a : nat => dF q (dim * a + i) * FF t0 q (dim * a + j)%nat + FF t0 q (dim * a + i)%nat * dF q (dim * a + j))) by field.
    apply sm_ext. intros. ring.
Qed.
(** The geometric part: the rate of B times the stress. *)
Lemma geom_part : forall q c e (s : nat -> R), (c < dim)%nat ->
  sm (dim2sym dim) (fun k => Bop dim (dF q) (G q) k c e * s k)
  = sm ne (fun e' => sm dim (fun i => sm dim (fun j => sym2 dim s i j * G q i e * G q j e')) * v (dim * conn e' + c)%nat).
Proof.
  intros q c e s Hc.
  transitivity (sm dim (fun i => sm dim (fun j => sym2 dim s i j * G q i e * dF q (dim * c + j)))).
  - unfold sym2, Bop. generalize (dF q) as d. intros d. clear - HD. destruct HD as [-> | [-> | ->]];
    cbn [dim2sym sm t2i t2j t4s nth Nat.ltb Nat.leb Nat.mul Nat.add]; cbv beta zeta; ring.
  - rewrite (@sm_ext ne _ (fun e' => sm dim (fun i => sm dim (fun j => sym2 dim s i j * G q i e * (v (dim * conn e' + c)%nat * G q j e'))))).
    2: { intros e' He'. rewrite <- sm_scalr. apply sm_ext; intros. rewrite <- sm_scalr. apply sm_ext; intros. ring. }
    rewrite (sm_swap ne dim). apply sm_ext. intros i Hi. rewrite (sm_swap ne dim). apply sm_ext. intros j Hj.
    rewrite dF_at by auto. rewrite sm_scal. reflexivity.
Qed.
Lemma Bop_derive : forall q k c e, (q < nq)%nat -> (k < dim2sym dim)%nat -> (c < dim)%nat ->
  is_derive (fun t => Bop dim (FF t q) (G q) k c e) t0 (Bop dim (dF q) (G q) k c e).
Proof.
  intros q k c e Hq Hk Hc. unfold Bop. cbv zeta.
  assert (X : (t2i dim k < dim)%nat /\ (t2j dim k < dim)%nat).
  { clear - HD Hk. destruct HD as [-> | [-> | ->]]; do 6 (try destruct k as [|k]); try (cbn in Hk; exfalso; lia); cbn; lia. }
  assert (P1 := F_derive q (dim * c + t2i dim k) Hq (idx_lt dim dim c (t2i dim k) Hc (proj1 X))).
  assert (P2 := F_derive q (dim * c + t2j dim k) Hq (idx_lt dim dim c (t2j dim k) Hc (proj2 X))).
  destruct (k <? dim)%nat; (eapply dval; [der | cbv beta; ring]).
Qed.

Hypothesis HJ : forall q, (q < nq)%nat -> 0 < detF (fs dim (fun t => FF t q) t0) /\ inv_eps < detF (fs dim (fun t => FF t q) t0) * detF (fs dim (fun t => FF t q) t0).
Variables (St : nat -> Fam -> nat -> R) (Dt : nat -> Fam -> nat -> nat -> R).
Hypothesis HC : forall q, (q < nq)%nat -> consistent dim (St q) (Dt q).

Lemma path_q : forall q, (q < nq)%nat -> path dim (fun t => FF t q) t0 (dE q).
Proof.
  intros q Hq. split; [auto|]. split; [|split; [|split]].
  - intros k Hk. exists (dF q k). apply F_derive; auto.
  - apply (HJ q Hq).
  - apply (HJ q Hq).
  - intros k Hk. apply E_derive; auto.
Qed.
Lemma residual_derive : forall cache junk c e, (c < dim)%nat -> (e < ne)%nat ->
  is_derive (fun t => at_ (fst (he_weak dim St Dt cache false junk (u t) conn vg)) 0 (c * ne + e) 0) t0
   (sm nq (fun q => (sm (dim2sym dim) (fun k => Bop dim (dF q) (G q) k c e * St q (fs dim (fun t => FF t q) t0) k)
      + sm (dim2sym dim) (fun k => Bop dim (FF t0 q) (G q) k c e * sm (dim2sym dim) (fun l => Dt q (fs dim (fun t => FF t q) t0) k l * dE q l))) * scal (det vg) q)).
Proof.
  intros cache junk c e Hc He.
  eapply dext. { intros t. symmetry. apply (@tl_residual_at nq dim ne vg HS HD); auto. }
  apply (@dsm nq (fun q t => sm (dim2sym dim) (fun k => Bop dim (FF t q) (G q) k c e * St q (fs dim (fun t => FF t q) t) k) * scal (det vg) q)).
  intros q Hq. eapply dval. apply dmult; [|apply dconst].
  apply (@dsm (dim2sym dim) (fun k t => Bop dim (FF t q) (G q) k c e * St q (fs dim (fun t => FF t q) t) k)
     (fun k => Bop dim (dF q) (G q) k c e * St q (fs dim (fun t => FF t q) t0) k + Bop dim (FF t0 q) (G q) k c e * sm (dim2sym dim) (fun l => Dt q (fs dim (fun t => FF t q) t0) k l * dE q l))).
  intros k Hk. apply (dmult (fun t => Bop dim (FF t q) (G q) k c e) (fun t => St q (fs dim (fun t => FF t q) t) k)).
  apply Bop_derive; auto. apply HC; auto. apply path_q; auto.
  cbv beta. rewrite sm_plus. ring.
Qed.
Lemma material_part : forall q c e, (q < nq)%nat ->
  sm (dim2sym dim) (fun k => Bop dim (FF t0 q) (G q) k c e * sm (dim2sym dim) (fun l => Dt q (fs dim (fun t => FF t q) t0) k l * dE q l))
  = sm dim (fun c' => sm ne (fun e' => sm (dim2sym dim) (fun k => sm (dim2sym dim) (fun l => Bop dim (FF t0 q) (G q) l c e * Dt q (fs dim (fun t => FF t q) t0) l k)
        * Bop dim (FF t0 q) (G q) k c' e') * v (dim * conn e' + c')%nat)).
Proof.
  intros q c e Hq. set (D := Dt q _). set (B := Bop dim (FF t0 q) (G q)).
  transitivity (sm (dim2sym dim) (fun k => sm (dim2sym dim) (fun l => B l c e * D l k) * dE q k)).
  - rewrite (@sm_ext _ _ (fun k => sm (dim2sym dim) (fun l => B k c e * D k l * dE q l))).
    2: { intros k Hk. rewrite <- sm_scal. apply sm_ext; intros; ring. }
    rewrite sm_swap. apply sm_ext. intros k Hk. rewrite <- sm_scalr. reflexivity.
  - unfold dE. fold B. set (A := fun k => sm (dim2sym dim) (fun l => B l c e * D l k)).
    transitivity (sm (dim2sym dim) (fun k => sm dim (fun c' => sm ne (fun e' => A k * B k c' e' * v (dim * conn e' + c')%nat)))).
    + apply sm_ext. intros k Hk. rewrite <- sm_scal. apply sm_ext; intros c' Hc'. rewrite <- sm_scal. apply sm_ext; intros; unfold A; ring.
    + rewrite (sm_swap (dim2sym dim) dim). apply sm_ext. intros c' Hc'. rewrite (sm_swap (dim2sym dim) ne). apply sm_ext. intros e' He'. rewrite sm_scalr. reflexivity.
Qed.
Lemma tangent_any : forall cache cache' junk junk' c e, (c < dim)%nat -> (e < ne)%nat ->
  match cache' with Some s => nRow s = dim2sym dim /\ forall q k, (q < nq)%nat -> (k < dim2sym dim)%nat -> level s q k = St q (fs dim (fun t => FF t q) t0) k | None => True end ->
  is_derive (fun t => at_ (fst (he_weak dim St Dt cache false junk (u t) conn vg)) 0 (c * ne + e) 0) t0
    (sm dim (fun c' => sm ne (fun e' => at_ (fst (he_weak dim St Dt cache' true junk' (u t0) conn vg)) 0 (c * ne + e) (c' * ne + e')
       * v (dim * conn e' + c')%nat))).
Proof.
  intros cache cache' junk junk' c e Hc He Hs.
  eapply dval. apply residual_derive; auto.
  match goal with |- _ = ?x => replace x with (sm dim (fun c' => sm ne (fun e' => 
     sm nq (fun q => sm (dim2sym dim) (fun k => sm (dim2sym dim) (fun l => Bop dim (FF t0 q) (G q) l c e * Dt q (fs dim (fun t => FF t q) t0) l k)
        * Bop dim (FF t0 q) (G q) k c' e') * v (dim * conn e' + c')%nat * scal (det vg) q)
     + if (c' =? c)%nat then sm nq (fun q => sm dim (fun i => sm dim (fun j => sym2 dim (St q (fs dim (fun t => FF t q) t0)) i j * G q i e * G q j e')) * v (dim * conn e' + c')%nat * scal (det vg) q) else 0))) end.
  2: { apply sm_ext; intros c' Hc'. apply sm_ext; intros e' He'. 
       rewrite (@tl_matrix_at nq dim ne vg HS HD); auto. 2: destruct cache'; tauto.
       rewrite Rmult_plus_distr_r. f_equal.
       - rewrite <- sm_scalr. apply sm_ext; intros; unfold fs; ring.
       - rewrite (Nat.eqb_sym c' c). destruct (Nat.eqb_spec c c') as [<-|]; [|ring].
         rewrite <- sm_scalr. apply sm_ext; intros q Hq.
         match goal with |- ?a * ?w * ?d = ?b * ?d * ?w => replace b with a; [ring|] end.
         apply sm_ext; intros i Hi. apply sm_ext; intros j Hj. f_equal. f_equal. unfold sym2.
         assert (P : (t4s dim (dim * i + j) < dim2sym dim)%nat).
         { clear - HD Hi Hj. destruct HD as [-> | [-> | ->]]; do 3 (try destruct i as [|i]); try (exfalso; lia); do 3 (try destruct j as [|j]); try (exfalso; lia); cbn; lia. }
         destruct cache'; auto. symmetry. apply Hs; auto. }
  transitivity (sm dim (fun c' => sm ne (fun e' => sm nq (fun q => sm (dim2sym dim) (fun k => sm (dim2sym dim) (fun l => Bop dim (FF t0 q) (G q) l c e * Dt q (fs dim (fun t => FF t q) t0) l k)
        * Bop dim (FF t0 q) (G q) k c' e') * v (dim * conn e' + c')%nat * scal (det vg) q)))
    + sm ne (fun e' => sm nq (fun q => sm dim (fun i => sm dim (fun j => sym2 dim (St q (fs dim (fun t => FF t q) t0)) i j * G q i e * G q j e')) * v (dim * conn e' + c)%nat * scal (det vg) q))).
  - rewrite (@sm_ext nq _ (fun q => sm (dim2sym dim) (fun k => Bop dim (dF q) (G q) k c e * St q (fs dim (fun t => FF t q) t0) k) * scal (det vg) q
      + sm (dim2sym dim) (fun k => Bop dim (FF t0 q) (G q) k c e * sm (dim2sym dim) (fun l => Dt q (fs dim (fun t => FF t q) t0) k l * dE q l)) * scal (det vg) q)) by (intros; ring).
    rewrite sm_plus. rewrite Rplus_comm. f_equal.
    + rewrite (@sm_ext dim _ (fun c' => sm nq (fun q => sm ne (fun e' => sm (dim2sym dim) (fun k => sm (dim2sym dim) (fun l => Bop dim (FF t0 q) (G q) l c e * Dt q (fs dim (fun t => FF t q) t0) l k)
        * Bop dim (FF t0 q) (G q) k c' e') * v (dim * conn e' + c')%nat * scal (det vg) q)))) by (intros; apply sm_swap).
      rewrite (sm_swap dim nq). apply sm_ext; intros q Hq. rewrite material_part by auto.
      rewrite <- sm_scalr. apply sm_ext; intros c' Hc'. rewrite <- sm_scalr. reflexivity.
    + rewrite (sm_swap ne nq). apply sm_ext; intros q Hq. rewrite geom_part by auto. rewrite <- sm_scalr. reflexivity.
  - symmetry. rewrite (@sm_ext dim _ (fun c' => sm ne (fun e' => sm nq (fun q => sm (dim2sym dim) (fun k => sm (dim2sym dim) (fun l => Bop dim (FF t0 q) (G q) l c e * Dt q (fs dim (fun t => FF t q) t0) l k)
        * Bop dim (FF t0 q) (G q) k c' e') * v (dim * conn e' + c')%nat * scal (det vg) q)) + (if (c' =? c)%nat then sm ne (fun e' => sm nq (fun q => sm dim (fun i => sm dim (fun j => sym2 dim (St q (fs dim (fun t => FF t q) t0)) i j * G q i e * G q j e')) * v (dim * conn e' + c')%nat * scal (det vg) q)) else 0))).
    2: { intros c' Hc'. rewrite sm_plus. f_equal. destruct (c' =? c)%nat; auto. apply sm_0; auto. }
    rewrite sm_plus. f_equal. apply sm_pick; auto.
Qed.
End Cell.

(** The residual is evaluated at the state [u t0], then the matrix: the matrix is the
    derivative of the residual along every differentiable path of states. *)
Theorem C145_tangent : forall nq dim ne vg conn u v t0 St Dt cache junk junk' c e,
  shape nq dim ne vg -> dim_ok dim ->
  (forall e c, (e < ne)%nat -> (c < dim)%nat -> is_derive (fun t => u t (dim * conn e + c)%nat) t0 (v (dim * conn e + c)%nat)) ->
  (forall q, (q < nq)%nat -> let J := detF (finite_strain false dim (level (def_grad (u t0) conn (bfGM vg)) q)) in 0 < J /\ inv_eps < J * J) ->
  (forall q, (q < nq)%nat -> consistent dim (St q) (Dt q)) ->
  (c < dim)%nat -> (e < ne)%nat ->
  let residual t := he_weak dim St Dt cache false junk (u t) conn vg in
  let matrix := he_weak dim St Dt (snd (residual t0)) true junk' (u t0) conn vg in
  is_derive (fun t => at_ (fst (residual t)) 0 (c * ne + e) 0) t0
    (sm dim (fun c' => sm ne (fun e' => at_ (fst matrix) 0 (c * ne + e) (c' * ne + e') * v (dim * conn e' + c')%nat))).
Proof.
  intros nq dim ne vg conn u v t0 St Dt cache junk junk' c e HS HD Hu HJ HC Hc He residual matrix.
  unfold residual, matrix. apply tangent_any with (nq := nq); auto.
  split; [reflexivity|]. intros q k Hq Hk. cbn [snd]. rewrite qp_buf_level by lia. reflexivity.
Qed.
(** A term that has not evaluated any residual yet computes the stress for the matrix. *)
Theorem C145_tangent_fresh : forall nq dim ne vg conn u v t0 St Dt cache junk junk' c e,
  shape nq dim ne vg -> dim_ok dim ->
  (forall e c, (e < ne)%nat -> (c < dim)%nat -> is_derive (fun t => u t (dim * conn e + c)%nat) t0 (v (dim * conn e + c)%nat)) ->
  (forall q, (q < nq)%nat -> let J := detF (finite_strain false dim (level (def_grad (u t0) conn (bfGM vg)) q)) in 0 < J /\ inv_eps < J * J) ->
  (forall q, (q < nq)%nat -> consistent dim (St q) (Dt q)) ->
  (c < dim)%nat -> (e < ne)%nat ->
  let residual t := he_weak dim St Dt cache false junk (u t) conn vg in
  let matrix := he_weak dim St Dt None true junk' (u t0) conn vg in
  is_derive (fun t => at_ (fst (residual t)) 0 (c * ne + e) 0) t0
    (sm dim (fun c' => sm ne (fun e' => at_ (fst matrix) 0 (c * ne + e) (c' * ne + e') * v (dim * conn e' + c')%nat))).
Proof.
  intros nq dim ne vg conn u v t0 St Dt cache junk junk' c e HS HD Hu HJ HC Hc He residual matrix.
  unfold residual, matrix. apply tangent_any with (nq := nq); auto.
Qed.

(** The matrix evaluated at another state than the last residual uses the old stress. *)
Definition vg1 : Geo := mkG (mkF 1 1 2 (fun _ => / 2)) (mkF 1 1 2 (fun k => if (k =? 0)%nat then -1 else 1)) (mkF 1 1 1 (fun _ => 1)) (mkF 1 1 1 (fun _ => 0)).
Lemma vg1_shape : shape 1 1 2 vg1. Proof. repeat split. Qed.
Definition st1 (x : R) : nat -> R := fun k => if (k =? 1)%nat then x else 0.
Lemma F1 : forall x, Fq vg1 (fun e => e) (st1 x) 0 0%nat = 1 + x.
Proof.
  intros x. pose proof (@Fq_at 1 1 2 vg1 vg1_shape (fun e => e) (st1 x) 0 0 0 ltac:(lia) ltac:(lia) ltac:(lia)) as P.
  rewrite !Nat.mul_1_l in P. cbn [Nat.add] in P. rewrite P. cbv -[Rplus Rmult Ropp Rinv Rminus Rdiv IZR]. ring.
Qed.
Lemma eps_lt1 : inv_eps < 1.
Proof. unfold inv_eps. rewrite <- Rinv_1. apply Rinv_lt_contravar. rewrite Rmult_1_l. apply pow_lt; lra. apply Rlt_pow_R1; [lra|lia]. Qed.
Lemma S1 : forall x, 0 < x -> stress_bulk false 1 1 (finite_strain false 1 (Fq vg1 (fun e => e) (st1 x) 0)) 0 = x / (1 + x).
Proof.
  intros x Hx. assert (E := F1 x). set (f := Fq vg1 (fun e => e) (st1 x) 0) in *. clearbody f.
  pose proof eps_lt1.
  assert (I : vecInvCS (finite_strain false 1 f) 0%nat = / (f 0%nat * f 0%nat)).
  { transitivity (1 * safe_inv (0 + f 0%nat * f 0%nat)). cR; reflexivity. rewrite Rplus_0_l. rewrite safe_inv_big. ring. rewrite E. nra. }
  unfold stress_bulk. cbv iota. rewrite I.
  assert (J : detF (finite_strain false 1 f) = f 0%nat) by reflexivity. rewrite J, E. field. lra.
Qed.
Theorem C145_stale_stress_refuted : exists nq dim ne vg conn u0 u1 St Dt,
  shape nq dim ne vg /\ dim_ok dim /\ (forall q, (q < nq)%nat -> consistent dim (St q) (Dt q)) /\
  (forall q, (q < nq)%nat -> let J := detF (finite_strain false dim (level (def_grad u1 conn (bfGM vg)) q)) in 0 < J /\ inv_eps < J * J) /\
  forall junk junk',
  let after u := snd (he_weak dim St Dt None false junk u conn vg) in
  at_ (fst (he_weak dim St Dt (after u0) true junk' u1 conn vg)) 0 1 1
  <> at_ (fst (he_weak dim St Dt (after u1) true junk' u1 conn vg)) 0 1 1.
Proof.
  exists 1%nat, 1%nat, 2%nat, vg1, (fun e => e), (st1 0), (st1 1), (fun _ => stress_bulk false 1 1), (fun _ => tan_mod_bulk false 1 1).
  assert (D1 : dim_ok 1) by (left; auto). pose proof vg1_shape as V.
  split; [auto|]. split; [auto|]. split. { intros. apply C142_bulk; auto. }
  assert (F1' := F1 1). unfold Fq in F1'. pose proof eps_lt1.
  split. { intros q Hq. replace q with 0%nat by lia. cbv zeta.
    set (f := level _ 0) in *. assert (J : detF (finite_strain false 1 f) = f 0%nat) by reflexivity. rewrite J, F1'. lra. }
  intros junk junk' after.
  change 1%nat with (0 * 2 + 1)%nat at 4 5 9 10.
  rewrite !(@tl_matrix_at 1 1 2 vg1 V D1) by (auto; reflexivity).
  intros Q. apply Rplus_eq_reg_l in Q. cbn [Nat.eqb sm] in Q. unfold sym2 in Q.
  rewrite !Rplus_0_l in Q. unfold after, he_weak in Q. cbn [snd] in Q. cbv zeta in Q.
  assert (T : t4s 1 (1 * 0 + 0) = 0%nat) by reflexivity. rewrite T in Q. rewrite !qp_buf_level in Q by (cbn; lia).
  change (level (def_grad (st1 1) (fun e => e) (bfGM vg1)) 0) with (Fq vg1 (fun e => e) (st1 1) 0) in Q.
  rewrite S1 in Q by lra.
  assert (Z : stress_bulk false 1 1 (finite_strain false 1 (level (def_grad (st1 0) (fun e => e) (bfGM vg1)) 0)) 0 = 0).
  { unfold stress_bulk. assert (J : detF (finite_strain false 1 (level (def_grad (st1 0) (fun e => e) (bfGM vg1)) 0)) = 1).
    { transitivity (1 + 0); [exact (F1 0)|ring]. } rewrite J. ring. }
  rewrite Z in Q.
  assert (G1 : Gq vg1 0 0 1 = 1) by reflexivity. assert (W1 : scal (det vg1) 0 = 1) by reflexivity.
  rewrite G1, W1 in Q. lra.
Qed.

(** The hypotheses of [C145_tangent]: a triangle whose vertex 1 moves by (t, t/2), neo-Hookean material. *)
Definition vg2 : Geo := mkG (mkF 1 1 3 (fun _ => / 3)) (mkF 1 2 3 (fun k => nth k [-1; 1; 0; -1; 0; 1] 0)) (mkF 1 1 1 (fun _ => / 2)) (mkF 1 1 1 (fun _ => 0)).
Definition u2 (t : R) : nat -> R := fun k => match k with 2%nat => t | 3%nat => t / 2 | _ => 0 end.
Definition v2 : nat -> R := fun k => match k with 2%nat => 1 | 3%nat => / 2 | _ => 0 end.
Lemma vg2_shape : shape 1 2 3 vg2. Proof. repeat split. Qed.
Lemma vg2_path : forall e c, (e < 3)%nat -> (c < 2)%nat -> is_derive (fun t => u2 t (2 * e + c)%nat) 1 (v2 (2 * e + c)%nat).
Proof.
  intros e' c' He' Hc'. do 3 (try destruct e' as [|e']); try (exfalso; lia); do 2 (try destruct c' as [|c']); try (exfalso; lia);
    cbn [Nat.mul Nat.add]; unfold u2, v2, Rdiv;
    try apply dconst; [apply (@is_derive_id R_AbsRing) | eapply dval; [apply dmult; [apply (@is_derive_id R_AbsRing) | apply dconst] | unfold one; cbn; ring]].
Qed.
Lemma vg2_det : forall q, (q < 1)%nat -> let J := detF (finite_strain false 2 (level (def_grad (u2 1) (fun e => e) (bfGM vg2)) q)) in 0 < J /\ inv_eps < J * J.
Proof.
  intros q Hq. replace q with 0%nat by lia. cbv zeta. pose proof eps_lt1. pose proof vg2_shape as V.
  assert (P := fun i j => @Fq_at 1 2 3 vg2 V (fun e => e) (u2 1) 0 i j ltac:(lia)). unfold Fq in P.
  set (f := level _ 0) in *. clearbody f.
  pose proof (P 0%nat 0%nat ltac:(lia) ltac:(lia)) as P0. pose proof (P 0%nat 1%nat ltac:(lia) ltac:(lia)) as P1.
  pose proof (P 1%nat 0%nat ltac:(lia) ltac:(lia)) as P2. pose proof (P 1%nat 1%nat ltac:(lia) ltac:(lia)) as P3. clear P.
  cbn [Nat.mul Nat.add Nat.eqb sm] in P0, P1, P2, P3. unfold Gq, at_, vg2, u2 in P0, P1, P2, P3. cbn in P0, P1, P2, P3.
  assert (J : detF (finite_strain false 2 f) = 2).
  { transitivity (f 0%nat * f 3%nat - f 1%nat * f 2%nat). cR; ring. rewrite P0, P1, P2, P3. lra. }
  rewrite J. lra.
Qed.
Example C145_example : forall junk junk' c e, (c < 2)%nat -> (e < 3)%nat ->
  let St := fun _ : nat => stress_neohook false 2 5 in let Dt := fun _ : nat => tan_mod_neohook false 2 5 in
  let residual t := he_weak 2 St Dt None false junk (u2 t) (fun e => e) vg2 in
  let matrix := he_weak 2 St Dt (snd (residual 1)) true junk' (u2 1) (fun e => e) vg2 in
  is_derive (fun t => at_ (fst (residual t)) 0 (c * 3 + e) 0) 1
    (sm 2 (fun c' => sm 3 (fun e' => at_ (fst matrix) 0 (c * 3 + e) (c' * 3 + e') * v2 (2 * e' + c')%nat))).
Proof.
  intros junk junk' c e Hc He St Dt residual matrix.
  assert (D2 : dim_ok 2) by (right; left; auto).
  apply (@C145_tangent 1 2 3 vg2 (fun e => e) u2 v2 1 St Dt None junk junk' c e vg2_shape D2 vg2_path vg2_det); auto.
  intros. apply C142_neohook; auto.
Qed.
Print Assumptions C145_tangent.
Print Assumptions C145_stale_stress_refuted.
