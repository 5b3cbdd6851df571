(** Entry-wise meaning of the kernels of the hyperelastic terms. *)
From Coq Require Import Reals Lra Lia Arith List.
From Verif Require Import Base M_fmf M_terms L_fmf S_terms L_terms L_terms2 M_hyper S_hyper.
Import ListNotations.
Open Scope nat_scope.

(** Row [k] of the operator B of the variation of the Green strain:
    delta E_ij = sym (F^T grad v). *)
Definition Bop (dim : nat) (F : nat -> R) (G : nat -> nat -> R) (k c e : nat) : R :=
  let i := t2i dim k in let j := t2j dim k in
  (if k <? dim then F (dim * c + i)%nat * G i e else F (dim * c + j)%nat * G i e + F (dim * c + i)%nat * G j e)%R.

Lemma level_at : forall (o : FMF) q i j, level o q (nCol o * i + j) = at_ o q i j.
Proof. intros. unfold level, at_. f_equal. lia. Qed.

Ltac fin_ := repeat (split; [lia|]); unfold Bop; cbn [Nat.ltb Nat.leb t2i t2j nth]; unfold level, ptr_level; dims;
  match goal with W : nRow ?o = _, V : nCol ?o = _ |- _ => rewrite ?W, ?V end; apply f_equal2; [lia | reflexivity].
Ltac br2 Hp r := let q' := fresh in let e' := fresh in
  apply in_for in Hp as [e' [? Hp]]; rewrite !gat in Hp; match type of Hp with context [at_ _ ?q _ _] =>
  destruct Hp as [<-|[<-|[]]]; [exists q, r, 0, e' | exists q, r, 1, e'] end.
Ltac br3 Hp r := let q' := fresh in let e' := fresh in
  apply in_for in Hp as [e' [? Hp]]; rewrite !gat in Hp; match type of Hp with context [at_ _ ?q _ _] =>
  destruct Hp as [<-|[<-|[<-|[]]]]; [exists q, r, 0, e' | exists q, r, 1, e' | exists q, r, 2, e'] end.
Lemma buildOpB_at : forall out F gc q k c e, dim_ok (nRow gc) -> nRow out = dim2sym (nRow gc) -> nCol out = nRow gc * nCol gc ->
  q < nLev gc -> k < dim2sym (nRow gc) -> c < nRow gc -> e < nCol gc ->
  at_ (buildOpB out F gc) q k (c * nCol gc + e) = Bop (nRow gc) (level F q) (fun d e => at_ gc q d e) k c e.
Proof.
  intros out F gc q k c e K Rw Cw Hq Hk Hc He.
  pose proof (fun l => @colblock_at (fill0 out) l (nRow gc) (nCol gc)
    (fun q k c e => Bop (nRow gc) (level F q) (fun d e => at_ gc q d e) k c e) q k c e Cw) as P.
  cbn [fill0 nRow nCol] in P. rewrite Rw in P. specialize (fun l => P l Hk Hc He).
  unfold buildOpB. cbv zeta.
  destruct K as [K|[K|K]]; rewrite K in *; (apply P; clear P); cbn [dim2sym] in *.
  - intros p Hp. apply in_for in Hp as [q' [? Hp]]. apply in_for in Hp as [e' [? Hp]]. rewrite !gat in Hp.
    destruct Hp as [<-|[]]. exists q', 0, 0, e'. fin_.
  - assert (c = 0) by lia. assert (k = 0) by lia. subst. eexists. in2 q e. unfold ptr_level. dims. rewrite Rw, Cw. pick_.
  - intros p Hp. apply in_for in Hp as [q' [? Hp]]. rewrite !in_app_iff in Hp.
    destruct Hp as [Hp|[Hp|Hp]]; [br2 Hp 0 | br2 Hp 1 | br2 Hp 2]; rewrite ?Rw, ?Cw; fin_.
  - assert (X : c = 0 \/ c = 1) by lia.
    assert (Y : k = 0 \/ k = 1 \/ k = 2) by lia.
    destruct Y as [-> | [-> | ->]]; destruct X as [-> | ->]; eexists;
    (apply in_for; exists q; split; [auto|]); rewrite !in_app_iff; unfold ptr_level; dims; rewrite Rw, Cw;
    [left | left | right; left | right; left | right; right | right; right]; apply in_for; exists e; (split; [auto|]); pick_.
  - intros p Hp. apply in_for in Hp as [q' [? Hp]]. rewrite !in_app_iff in Hp.
    destruct Hp as [Hp|[Hp|[Hp|[Hp|[Hp|Hp]]]]]; [br3 Hp 0 | br3 Hp 1 | br3 Hp 2| br3 Hp 3 | br3 Hp 4 | br3 Hp 5]; rewrite ?Rw, ?Cw; fin_.
  - assert (X : c = 0 \/ c = 1 \/ c = 2) by lia.
    assert (Y : k = 0 \/ k = 1 \/ k = 2 \/ k = 3 \/ k = 4 \/ k = 5) by lia.
    destruct Y as [-> | [-> | [-> | [-> | [-> | ->]]]]]; destruct X as [-> | [-> | ->]]; eexists;
    (apply in_for; exists q; split; [auto|]); rewrite !in_app_iff; unfold ptr_level; dims; rewrite Rw, Cw;
    [left | left | left | right; left | right; left | right; left | right; right; left | right; right; left | right; right; left | right; right; right; left | right; right; right; left | right; right; right; left | right; right; right; right; left | right; right; right; right; left | right; right; right; right; left | right; right; right; right; right | right; right; right; right; right | right; right; right; right; right];
    apply in_for; exists e; (split; [auto|]); pick_.
Qed.

Definition sym2 (dim : nat) (a : nat -> R) (i j : nat) : R := a (t4s dim (dim * i + j)).
Lemma KtsC_at : forall out tau gc q e e', dim_ok (nRow gc) -> nRow out = nCol gc -> nCol out = nCol gc ->
  q < nLev gc -> e < nCol gc -> e' < nCol gc ->
  at_ (buildOpKtsC out tau gc) q e e'
  = sm (nRow gc) (fun i => sm (nRow gc) (fun j => sym2 (nRow gc) (level tau q) i j * at_ gc q i e * at_ gc q j e')%R).
Proof.
  intros out tau gc q e e' K Rw Cw Hq He He'. unfold buildOpKtsC. cbv zeta.
  assert (P : forall f : nat -> nat -> nat -> R, at_ (stores (fill0 out) (for_ (nLev gc) (fun q => for_ (nCol gc) (fun ir => for_ (nCol gc) (fun ic =>
      [((ptr_level out q + nCol gc * ir + ic)%nat, f q ir ic)]))))) q e e' = f q e e').
  { intros f. apply (@stores_at (fill0 out) _ f); dims; try lia.
    - intros p Hp. apply in_for in Hp as [q' [? Hp]]. apply in_for in Hp as [a [? Hp]]. apply in_for in Hp as [b [? Hp]].
      destruct Hp as [<-|[]]. exists q', a, b. split; [lia|]. split; [lia|]. f_equal. unfold ptr_level. dims. rewrite Rw, Cw. lia.
    - eexists. in3 q e e'. left. f_equal. unfold ptr_level. dims. rewrite Rw, Cw. lia. }
  destruct K as [K|[K|K]]; rewrite K in *; rewrite P; rewrite !gat; unfold sym2, level; cbn [sm t4s nth Nat.mul Nat.add]; cbv beta.
  - lra.
  - lra.
  - lra.
Qed.

Lemma mulATBT_1n_at : forall r a b q i j, q < nLev r -> i < nRow r -> j < nCol r ->
  at_ (mulATBT_1n r a b) q i j = sm (nRow a) (fun k => at_ a 0 k i * at_ b q j k)%R.
Proof.
  intros r a b q i j Hq Hi Hj. unfold mulATBT_1n.
  rewrite (@stores_at r _ (fun q i j => sm (nRow a) (fun k => at_ a 0 k i * at_ b q j k)%R)); auto.
  - intros p Hp. apply in_for in Hp as [q' [? Hp]]. apply in_for in Hp as [i' [? Hp]]. apply in_for in Hp as [j' [? Hp]].
    destruct Hp as [<-|[]]. exists q', i', j'. repeat (split; [auto|]). f_equal. apply sm_ext. intros. unfold at_, ptr_level. f_equal; f_equal; lia.
  - eexists. in3 q i j. left. reflexivity.
Qed.
Lemma def_grad_at : forall st conn g q i j, q < nLev g -> i < nRow g -> j < nRow g ->
  at_ (def_grad st conn g) q i j
  = ((if i =? j then 1 else 0) + sm (nCol g) (fun e => st (nRow g * conn e + i)%nat * at_ g q j e))%R.
Proof.
  intros st conn g q i j Hq Hi Hj. unfold def_grad. cbv zeta.
  set (m := mulATBT_1n _ _ _).
  assert (M : at_ m q i j = sm (nCol g) (fun e => st (nRow g * conn e + i)%nat * at_ g q j e)%R).
  { unfold m. rewrite mulATBT_1n_at by (dims; auto). apply sm_ext. intros e He.
    f_equal. apply (@extractNBN_at (alloc 1 (nCol g) (nRow g))); dims; auto. }
  assert (Mr : nRow m = nRow g) by reflexivity. assert (Mc : nCol m = nRow g) by reflexivity.
  destruct (Nat.eqb_spec i j) as [->|N].
  - rewrite <- M. unfold at_ at 1. cbn [stores val]. unfold ptr_level. cbn [stores nRow nCol].
    rewrite (@wrs_fun (fun k => val m k + 1)%R).
    + unfold at_, ptr_level. lra.
    + intros p Hp. apply in_for in Hp as [q' [? Hp]]. apply in_for in Hp as [a [? Hp]]. destruct Hp as [<-|[]]. cbn [fst snd]. intros <-. auto.
    + eexists. split. apply in_for; exists q; split; [auto|]. apply in_for; exists j; split; [auto|]. left; reflexivity.
      cbn [fst]. rewrite Mr, Mc. lia.
  - rewrite stores_none. lra.
    intros p Hp. apply in_for in Hp as [q' [? Hp]]. apply in_for in Hp as [a [? Hp]]. destruct Hp as [<-|[]]. cbn [fst].
    unfold ptr_level. rewrite Mr, Mc. intros E.
    destruct (@idx3 (nRow g) (nRow g) q' a a q i j) as (? & ? & ?); auto; lia.
Qed.
Lemma sumLevelsTMulF_at : forall r a v i j, i < nRow r -> j < nCol r ->
  at_ (sumLevelsTMulF r a v) 0 i j = sm (nLev a) (fun q => at_ a q j i * v q)%R.
Proof.
  intros r a v i j Hi Hj. unfold sumLevelsTMulF.
  rewrite (@stores_at (fill0 r) _ (fun q i j => sm (nLev a) (fun q => at_ a q j i * v q)%R)); dims; auto.
  - intros p Hp. apply in_for in Hp as [i' [? Hp]]. apply in_for in Hp as [j' [? Hp]].
    destruct Hp as [<-|[]]. exists 0, i', j'. repeat (split; [auto|]). f_equal. unfold ptr_level. lia.
  - eexists. in2 i j. left. unfold ptr_level. f_equal. dims. lia.
Qed.
(** Adding a block. *)
Lemma addA_block_at : forall r a row col i j, nLev r = 1 -> i < nRow r -> j < nCol r ->
  row + nRow a <= nRow r -> col + nCol a <= nCol r ->
  at_ (addA_blockNC r a row col) 0 i j
  = (at_ r 0 i j + (if ((row <=? i) && (i <? row + nRow a) && ((col <=? j) && (j <? col + nCol a)))%bool then at_ a 0 (i - row) (j - col) else 0))%R.
Proof.
  intros r a row col i j L Hi Hj Hr Hc. unfold addA_blockNC. rewrite L.
  destruct (Nat.leb_spec row i); [destruct (Nat.ltb_spec i (row + nRow a)); [destruct (Nat.leb_spec col j); [destruct (Nat.ltb_spec j (col + nCol a))|]|]|]; cbn [andb].
  2-5: rewrite stores_none; [lra|]; intros p Hp; apply in_for in Hp as [q' [? Hp]]; apply in_for in Hp as [i' [? Hp]]; apply in_for in Hp as [j' [? Hp]];
    destruct Hp as [<-|[]]; cbn [fst]; intros E; unfold ptr_level in E; assert (q' = 0) by lia; subst q';
    destruct (@idx2 (nCol r) (row + i') (col + j') i j) as (? & ?); lia.
  unfold at_ at 1. cbn [stores val]. unfold ptr_level. cbn [stores nRow nCol].
  rewrite (@wrs_fun (fun k => val r k + at_ a 0 (i - row) (j - col))%R).
  - unfold at_, ptr_level. reflexivity.
  - intros p Hp; apply in_for in Hp as [q' [? Hp]]; apply in_for in Hp as [i' [? Hp]]; apply in_for in Hp as [j' [? Hp]].
    destruct Hp as [<-|[]]; cbn [fst snd]; intros E. assert (q' = 0) by lia; subst q'.
    destruct (@idx2 (nCol r) (row + i') (col + j') i j) as (E1 & E2); try lia.
    assert (X1 : i' = i - row) by lia. assert (X2 : j' = j - col) by lia. rewrite X1, X2 in *. clear X1 X2.
    rewrite <- E. apply f_equal2; [reflexivity|]. unfold at_, ptr_level. apply f_equal. lia.
  - eexists. split. apply in_for; exists 0; split; [lia|]. apply in_for; exists (i - row); split; [lia|]. apply in_for; exists (j - col); split; [lia|]. left; reflexivity.
    cbn [fst]. assert (nCol r * (i - row) + nCol r * row = nCol r * i) by (rewrite <- Nat.mul_add_distr_l; f_equal; lia). lia.
Qed.
