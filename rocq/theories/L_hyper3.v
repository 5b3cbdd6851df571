(** The cell residual and the cell matrix of the total Lagrangian hyperelastic terms, entry by entry. *)
From Coq Require Import Reals Lra Lia Arith List.
From Verif Require Import Base M_fmf M_terms L_fmf S_terms L_terms L_terms2 M_hyper S_hyper L_hyper2.
Import ListNotations.
Open Scope nat_scope.

Lemma qp_buf_at : forall nq r c f q i j, i < r -> j < c -> at_ (qp_buf nq r c f) q i j = f q (c * i + j).
Proof.
  intros nq r c f q i j Hi Hj. unfold at_, qp_buf, ptr_level. cbn [nLev nRow nCol val].
  assert (L : c * i + j < c * r) by (rewrite (Nat.mul_comm c r); apply idx_lt; auto).
  replace (c * r * q + c * i + j) with (c * r * q + (c * i + j)) by lia.
  assert (E1 : q = (c * r * q + (c * i + j)) / (c * r)) by (apply (Nat.div_unique _ (c * r) q (c * i + j)); auto).
  assert (E2 : c * i + j = (c * r * q + (c * i + j)) mod (c * r)) by (apply (Nat.mod_unique _ (c * r) q (c * i + j)); auto).
  rewrite <- E1, <- E2. reflexivity.
Qed.
Lemma qp_buf_level : forall nq r c f q k, k < c * r -> level (qp_buf nq r c f) q k = f q k.
Proof.
  intros nq r c f q k L. unfold level, qp_buf, ptr_level. cbn [nLev nRow nCol val].
  assert (E1 : q = (c * r * q + k) / (c * r)) by (apply (Nat.div_unique _ (c * r) q k); auto).
  assert (E2 : k = (c * r * q + k) mod (c * r)) by (apply (Nat.mod_unique _ (c * r) q k); auto).
  rewrite <- E1, <- E2. reflexivity.
Qed.
Lemma sym_pos : forall dim, dim_ok dim -> 0 < dim2sym dim.
Proof. intros dim [-> | [-> | ->]]; cbn; lia. Qed.

(** The geometric part is added to the diagonal blocks. *)
Lemma blocks_at : forall dim ne base ik c e c' e', dim_ok dim -> c < dim -> c' < dim -> e < ne -> e' < ne ->
  nLev base = 1 /\ nRow base = dim * ne /\ nCol base = dim * ne -> nRow ik = ne /\ nCol ik = ne ->
  at_ (let out := addA_blockNC base ik 0 0 in
       let out := if 1 <? dim then addA_blockNC out ik ne ne else out in
       if 2 <? dim then addA_blockNC out ik (2 * ne) (2 * ne) else out) 0 (c * ne + e) (c' * ne + e')
  = (at_ base 0 (c * ne + e) (c' * ne + e') + if c =? c' then at_ ik 0 e e' else 0)%R.
Proof.
  intros dim ne base ik c e c' e' HD Hc Hc' He He' Bd Kd. cbv zeta.
  pose proof (idx_lt dim ne c e Hc He) as HI. rewrite (Nat.mul_comm ne c) in HI.
  pose proof (idx_lt dim ne c' e' Hc' He') as HI'. rewrite (Nat.mul_comm ne c') in HI'.
  destruct Bd as (B1 & B2 & B3). destruct Kd as (K1 & K2).
  assert (Ba : forall r (x : FMF), nLev (addA_blockNC x ik (r * ne) (r * ne)) = nLev x /\ nRow (addA_blockNC x ik (r * ne) (r * ne)) = nRow x /\ nCol (addA_blockNC x ik (r * ne) (r * ne)) = nCol x) by (intros; repeat split; reflexivity).
  assert (Bl : forall r (x : FMF), r < dim -> nLev x = 1 -> nRow x = dim * ne -> nCol x = dim * ne ->
    at_ (addA_blockNC x ik (r * ne) (r * ne)) 0 (c * ne + e) (c' * ne + e')
    = (at_ x 0 (c * ne + e) (c' * ne + e') + if ((c =? r) && (c' =? r))%bool then at_ ik 0 e e' else 0)%R).
  { intros r x Hr X1 X2 X3. assert (r * ne + ne <= dim * ne) by nia.
    rewrite addA_block_at by lia. rewrite K1, K2. f_equal.
    assert (U : forall c e, c < dim -> e < ne -> ((r * ne <=? c * ne + e) && (c * ne + e <? r * ne + ne))%bool = (c =? r)).
    { clear - Hr. intros c e Hc He. destruct (Nat.eqb_spec c r) as [->|N].
      - rewrite (proj2 (Nat.leb_le _ _)) by lia. rewrite (proj2 (Nat.ltb_lt _ _)) by lia. reflexivity.
      - apply Bool.andb_false_iff. destruct (Nat.leb_spec (r * ne) (c * ne + e)); auto. right. apply Nat.ltb_ge.
        assert (r < c \/ c < r) as [V|V] by lia; nia. }
    rewrite U, U by auto. destruct (Nat.eqb_spec c r) as [->|]; cbn [andb]; auto.
    destruct (Nat.eqb_spec c' r) as [->|]; auto. f_equal; lia. }
  destruct (Nat.eqb_spec c c') as [<-|N].
  -
    destruct HD as [D|[D|D]]; rewrite D in *; cbn [Nat.ltb Nat.leb].
    + rewrite (Bl 0) by (auto; lia). replace c with 0 by lia. cbn [Nat.eqb andb]. reflexivity.
    + pose proof (Bl 1 (addA_blockNC base ik 0 0) ltac:(lia) B1 B2 B3) as P1. rewrite !Nat.mul_1_l in P1. rewrite P1.
      rewrite (Bl 0) by (auto; lia). assert (X : c = 0 \/ c = 1) by lia.
      destruct X as [-> | ->]; cbn [Nat.eqb andb]; lra.
    + pose proof (Bl 1 (addA_blockNC base ik 0 0) ltac:(lia) B1 B2 B3) as P1. rewrite !Nat.mul_1_l in P1.
      rewrite (Bl 2) by (auto; lia). rewrite P1.
      rewrite (Bl 0) by (auto; lia). assert (X : c = 0 \/ c = 1 \/ c = 2) by lia.
      destruct X as [-> | [-> | ->]]; cbn [Nat.eqb andb]; lra.
  - assert (V : forall r, ((c =? r) && (c' =? r))%bool = false).
    { intros r. destruct (Nat.eqb_spec c r); destruct (Nat.eqb_spec c' r); auto. lia. }
    destruct HD as [D|[D|D]]; rewrite D in *; cbn [Nat.ltb Nat.leb].
    + lia.
    + pose proof (Bl 1 (addA_blockNC base ik 0 0) ltac:(lia) B1 B2 B3) as P1. rewrite !Nat.mul_1_l in P1. rewrite P1.
      rewrite (Bl 0) by (auto; lia). rewrite !V. lra.
    + pose proof (Bl 1 (addA_blockNC base ik 0 0) ltac:(lia) B1 B2 B3) as P1. rewrite !Nat.mul_1_l in P1.
      rewrite (Bl 2) by (auto; lia). rewrite P1.
      rewrite (Bl 0) by (auto; lia). rewrite !V. lra.
Qed.

Section Cell.
Variables (nq dim ne : nat) (vg : Geo).
Hypothesis (HS : shape nq dim ne vg) (HD : dim_ok dim).
Variables (St : nat -> Fam -> nat -> R) (Dt : nat -> Fam -> nat -> nat -> R) (conn : nat -> nat).
Definition Fq (st : nat -> R) (q : nat) : nat -> R := level (def_grad st conn (bfGM vg)) q.
Definition Gq (q d e : nat) : R := at_ (bfGM vg) q d e.

Lemma Fq_at : forall st q i j, q < nq -> i < dim -> j < dim ->
  Fq st q (dim * i + j) = ((if i =? j then 1 else 0) + sm ne (fun e => st (dim * conn e + i)%nat * Gq q j e))%R.
Proof.
  intros st q i j Hq Hi Hj. destruct HS as (? & ? & ? & L & Rw & Cl & ? & ? & ?).
  unfold Fq. replace dim with (nCol (def_grad st conn (bfGM vg))) at 1 by (cbn; auto).
  rewrite level_at, def_grad_at by lia. rewrite Rw, Cl. reflexivity.
Qed.
Lemma det_at : forall q, val (det vg) q = scal (det vg) q.
Proof. intros q. destruct HS as (? & ? & ? & L & Rw & Cl & ? & ? & ?). apply s11; auto. Qed.

Lemma Bq_at : forall out F q k c e, nRow out = dim2sym dim -> nCol out = dim * ne -> q < nq -> k < dim2sym dim -> c < dim -> e < ne ->
  at_ (buildOpB out F (bfGM vg)) q k (c * ne + e) = Bop dim (level F q) (Gq q) k c e.
Proof.
  intros out F q k c e Hr Hcl Hq Hk Hc He. destruct HS as (? & ? & ? & L & Rw & Cl & ? & ? & ?).
  pose proof (@buildOpB_at out F (bfGM vg) q k c e) as P. rewrite Rw, Cl, L in P. apply P; auto.
Qed.

Lemma tl_residual_at : forall cache junk st c e, c < dim -> e < ne ->
  at_ (fst (he_weak dim St Dt cache false junk st conn vg)) 0 (c * ne + e) 0
  = sm nq (fun q => (sm (dim2sym dim) (fun k => Bop dim (Fq st q) (Gq q) k c e * St q (finite_strain false dim (Fq st q)) k) * scal (det vg) q)%R).
Proof.
  intros cache junk st c e Hc He. pose proof HS as HS'. destruct HS' as (? & ? & ? & L & Rw & Cl & ? & ? & ?).
  pose proof (idx_lt dim ne c e Hc He) as HI. rewrite (Nat.mul_comm ne c) in HI.
  unfold he_weak. cbv zeta. cbn [fst]. unfold dw_he_rtm. cbv zeta. rewrite ?L, ?Rw, ?Cl. cbn [nRow qp_buf].
  rewrite sumLevelsMulF_at; [ | cbn; auto | cbn; auto | cbn; auto]. apply sm_ext. intros q Hq.
  rewrite det_at. f_equal.
  rewrite mulATB_nn_at; [ | cbn; auto | cbn; auto | cbn; auto].
  replace (nRow (buildOpB (alloc nq (dim2sym dim) (nRow (emp 1 (dim * ne) 1 junk))) (def_grad st conn (bfGM vg)) (bfGM vg))) with (dim2sym dim).
  2: { unfold buildOpB. rewrite Rw. destruct HD as [-> | [-> | ->]]; reflexivity. }
  apply sm_ext. intros k Hk. f_equal.
  - apply Bq_at; auto.
  - rewrite qp_buf_at by lia. unfold Fq. f_equal. lia.
Qed.

Lemma tl_matrix_at : forall cache junk st c e c' e', c < dim -> e < ne -> c' < dim -> e' < ne ->
  match cache with Some s => nRow s = dim2sym dim | None => True end ->
  let fam q := finite_strain false dim (Fq st q) in
  let s q := match cache with Some s => level s q | None => St q (fam q) end in
  at_ (fst (he_weak dim St Dt cache true junk st conn vg)) 0 (c * ne + e) (c' * ne + e')
  = (sm nq (fun q => sm (dim2sym dim) (fun k => sm (dim2sym dim) (fun l => Bop dim (Fq st q) (Gq q) l c e * Dt q (fam q) l k)
        * Bop dim (Fq st q) (Gq q) k c' e') * scal (det vg) q)
     + if c =? c' then sm nq (fun q => sm dim (fun i => sm dim (fun j => sym2 dim (s q) i j * Gq q i e * Gq q j e')) * scal (det vg) q) else 0)%R.
Proof.
  intros cache junk st c e c' e' Hc He Hc' He' HB fam s. pose proof HS as HS'. destruct HS' as (? & ? & ? & L & Rw & Cl & ? & ? & ?).
  pose proof (idx_lt dim ne c e Hc He) as HI. rewrite (Nat.mul_comm ne c) in HI.
  pose proof (idx_lt dim ne c' e' Hc' He') as HI'. rewrite (Nat.mul_comm ne c') in HI'.
  unfold he_weak. cbv zeta. cbn [fst]. unfold dw_he_rtm. cbv zeta. rewrite ?L, ?Rw, ?Cl.
  set (sb := match cache with Some s => s | None => _ end).
  assert (SB : nRow sb = dim2sym dim) by (unfold sb; destruct cache; auto). rewrite SB.
  cbn [nRow emp].
  set (base := sumLevelsMulF (emp 1 (dim * ne) (dim * ne) junk) _ _).
  set (ik := sumLevelsMulF (alloc 1 ne ne) _ _).
  assert (Bs : at_ base 0 (c * ne + e) (c' * ne + e') = sm nq (fun q => sm (dim2sym dim) (fun k => sm (dim2sym dim) (fun l => Bop dim (Fq st q) (Gq q) l c e * Dt q (fam q) l k)
        * Bop dim (Fq st q) (Gq q) k c' e') * scal (det vg) q)%R).
  { unfold base. rewrite sumLevelsMulF_at; [ | cbn; auto | cbn; auto | cbn; auto]. apply sm_ext. intros q Hq.
    rewrite det_at. f_equal. rewrite mulAB_nn_at; [ | cbn; auto | cbn; auto | cbn; auto].
    apply sm_ext. intros k Hk. f_equal.
    - rewrite mulATB_nn_at; [ | cbn; auto | cbn; auto | cbn; auto].
      replace (nRow (buildOpB (alloc nq (dim2sym dim) (dim * ne)) (def_grad st conn (bfGM vg)) (bfGM vg))) with (dim2sym dim).
      2: { unfold buildOpB. rewrite Rw. destruct HD as [-> | [-> | ->]]; reflexivity. }
      apply sm_ext. intros l Hl. f_equal.
      + apply Bq_at; auto.
      + rewrite qp_buf_at by auto. unfold fam, Fq. pose proof (sym_pos dim HD).
        f_equal; [symmetry; apply (Nat.div_unique _ (dim2sym dim) l k); auto | symmetry; apply (Nat.mod_unique _ (dim2sym dim) l k); auto].
    - apply Bq_at; auto. }
  assert (Ks : forall a b, a < ne -> b < ne -> at_ ik 0 a b = sm nq (fun q => sm dim (fun i => sm dim (fun j => sym2 dim (s q) i j * Gq q i a * Gq q j b)) * scal (det vg) q)%R).
  { intros a b Ha Hb. unfold ik. 
    assert (KC : nLev (buildOpKtsC (alloc nq ne ne) sb (bfGM vg)) = nq /\ nCol (buildOpKtsC (alloc nq ne ne) sb (bfGM vg)) = ne).
    { unfold buildOpKtsC. rewrite Rw. destruct HD as [-> | [-> | ->]]; split; reflexivity. }
    rewrite sumLevelsMulF_at; [ | cbn; auto | cbn; auto | apply KC]. rewrite (proj1 KC). apply sm_ext. intros q Hq.
    rewrite det_at. f_equal. rewrite KtsC_at; try (rewrite ?Rw, ?Cl, ?L; auto; fail).
    rewrite Rw. apply sm_ext; intros i Hi. apply sm_ext; intros j Hj. f_equal. f_equal.
    unfold sym2. set (p := t4s dim (dim * i + j)).
    assert (P : p < dim2sym dim).
    { unfold p. clear - HD Hi Hj. destruct HD as [-> | [-> | ->]]; do 3 (try destruct i as [|i]); try (exfalso; lia); do 3 (try destruct j as [|j]); try (exfalso; lia); cbn; lia. }
    unfold s, sb, fam. destruct cache; auto. rewrite qp_buf_level; auto. lia. }
  assert (Bd : nLev base = 1 /\ nRow base = dim * ne /\ nCol base = dim * ne) by (repeat split; reflexivity).
  assert (Kd : nRow ik = ne /\ nCol ik = ne) by (split; reflexivity).
  rewrite <- Bs. clearbody base ik. clear Bs sb SB.
  rewrite blocks_at with (e := e) (e' := e') by (auto; tauto).
  destruct (c =? c'); auto. rewrite Ks by auto. reflexivity.
Qed.
End Cell.
