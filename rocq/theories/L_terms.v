(** Entry-wise meaning of the gradient kernels. *)
From Coq Require Import Reals Lra Lia Arith.
From Verif Require Import Base M_fmf M_terms L_fmf S_terms.
Open Scope nat_scope.

Lemma divmod : forall n d e, e < n -> (d * n + e) / n = d /\ (d * n + e) mod n = e.
Proof.
  intros. rewrite (Nat.add_comm (d * n)), Nat.div_add, Nat.mod_add, Nat.div_small, Nat.mod_small by lia. auto.
Qed.
Lemma gat : forall (o : FMF) q d e, val o (ptr_level o q + d * nCol o + e) = at_ o q d e.
Proof. intros. unfold at_. f_equal. lia. Qed.
Lemma gat' : forall (o : FMF) q d e, val o (ptr_level o q + nCol o * d + e) = at_ o q d e.
Proof. reflexivity. Qed.
Lemma vat : forall (o : FMF) q k, nCol o = 1 -> val o (ptr_level o q + k) = at_ o q k 0.
Proof. intros. unfold at_. rewrite H. f_equal. lia. Qed.

Ltac dm := repeat match goal with H : ?e < ?n |- context [(?d * ?n + ?e) / ?n] => rewrite (proj1 (@divmod n d e H)) end;
           repeat match goal with H : ?e < ?n |- context [(?d * ?n + ?e) mod ?n] => rewrite (proj2 (@divmod n d e H)) end.
Ltac dcase d H := let x := fresh in do 3 (destruct d as [|d]; [|try (exfalso; lia)]); try (exfalso; lia).
Ltac inl := cbn [In]; first [left; reflexivity | right; inl].

Definition dim_ok (d : nat) := d = 1 \/ d = 2 \/ d = 3.


(** Stores in block rows / block columns (DOF-by-DOF order). *)
Lemma rowblock_at : forall (o : FMF) l D n (F : nat -> nat -> nat -> nat -> R) q d e ii,
  nRow o = D * n -> d < D -> e < n -> ii < nCol o ->
  (forall p, In p l -> exists q' d' e' i', d' < D /\ e' < n /\ i' < nCol o /\
      p = (ptr_level o q' + nCol o * (d' * n + e') + i', F q' d' e' i')) ->
  (exists v, In (ptr_level o q + nCol o * (d * n + e) + ii, v) l) ->
  at_ (stores o l) q (d * n + e) ii = F q d e ii.
Proof.
  intros o l D n F q d e ii Rw Hd He Hi H1 [v H2].
  rewrite (@stores_at o l (fun q i j => F q (i / n) (i mod n) j)).
  - dm. auto.
  - rewrite Rw. pose proof (@idx_lt _ _ _ _ Hd He). lia.
  - auto.
  - intros p Ip. destruct (H1 p Ip) as (q' & d' & e' & i' & a & b & c & ->). exists q', (d' * n + e'), i'.
    split; [rewrite Rw; pose proof (@idx_lt _ _ _ _ a b); lia|split; [auto|]]. dm. auto.
  - exists v. auto.
Qed.
Lemma colblock_at : forall (o : FMF) l D n (F : nat -> nat -> nat -> nat -> R) q i d e,
  nCol o = D * n -> i < nRow o -> d < D -> e < n ->
  (forall p, In p l -> exists q' i' d' e', i' < nRow o /\ d' < D /\ e' < n /\
      p = (ptr_level o q' + nCol o * i' + (d' * n + e'), F q' i' d' e')) ->
  (exists v, In (ptr_level o q + nCol o * i + (d * n + e), v) l) ->
  at_ (stores o l) q i (d * n + e) = F q i d e.
Proof.
  intros o l D n F q i d e Cw Hi Hd He H1 [v H2].
  rewrite (@stores_at o l (fun q i j => F q i (j / n) (j mod n))).
  - dm. auto.
  - auto.
  - rewrite Cw. pose proof (@idx_lt _ _ _ _ Hd He). lia.
  - intros p Ip. destruct (H1 p Ip) as (q' & i' & d' & e' & a & b & c & ->). exists q', i', (d' * n + e').
    split; [auto|split; [rewrite Cw; pose proof (@idx_lt _ _ _ _ b c); lia|]]. dm. auto.
  - exists v. auto.
Qed.
Lemma stores_none : forall (o : FMF) l q i j, (forall p, In p l -> fst p <> ptr_level o q + nCol o * i + j) ->
  at_ (stores o l) q i j = at_ o q i j.
Proof. intros. unfold at_, stores. cbn. apply wrs_other. auto. Qed.

Ltac in2 q e := apply in_for; exists q; split; [auto|]; apply in_for; exists e; split; [auto|].
Ltac in3 q e i := in2 q e; apply in_for; exists i; split; [auto|].
Ltac pick_ := first [left; f_equal; lia | right; pick_].
Ltac dcases D := destruct D as [D|[D|D]].

Lemma actOpGT_VS3_at : forall diff gc vec q d e, dim_ok (nRow gc) -> nRow diff = nRow gc * nCol gc -> nCol diff = 1 ->
  nCol vec = 1 -> q < nLev gc -> d < nRow gc -> e < nCol gc ->
  at_ (actOpGT_VS3 diff gc vec) q (d * nCol gc + e) 0
  = sm (nRow gc) (fun j => at_ gc q j e * at_ vec q (voigt (nRow gc) d j) 0)%R.
Proof.
  intros diff gc vec q d e K Rw C V Hq Hd He.
  pose proof (fun l => @rowblock_at diff l (nRow gc) (nCol gc)
    (fun q d e _ => sm (nRow gc) (fun j => at_ gc q j e * at_ vec q (voigt (nRow gc) d j) 0)%R) q d e 0 Rw Hd He) as P.
  unfold actOpGT_VS3. cbv zeta.
  destruct K as [K|[K|K]]; rewrite K in *; (apply P; clear P; [lia| |]).
  - intros p Hp. apply in_for in Hp as [q' [? Hp]]. apply in_for in Hp as [e' [? Hp]]. rewrite !gat, !vat in Hp by auto.
    destruct Hp as [<-|[]]. exists q', 0, e', 0. repeat (split; [lia|]). rewrite sm1, C. f_equal. lia.
  - eexists. in2 q e. rewrite C. assert (d = 0) by lia. subst. pick_.
  - intros p Hp. apply in_for in Hp as [q' [? Hp]]. apply in_for in Hp as [e' [? Hp]]. rewrite !gat, !vat in Hp by auto.
    destruct Hp as [<-|[<-|[]]]; [exists q', 0, e', 0|exists q', 1, e', 0]; repeat (split; [lia|]); rewrite sm2, C; f_equal; lia.
  - assert (D : d = 0 \/ d = 1) by lia. destruct D as [-> | ->]; eexists; in2 q e; rewrite C; pick_.
  - intros p Hp. apply in_for in Hp as [q' [? Hp]]. apply in_for in Hp as [e' [? Hp]]. rewrite !gat, !vat in Hp by auto.
    destruct Hp as [<-|[<-|[<-|[]]]]; [exists q', 0, e', 0|exists q', 1, e', 0|exists q', 2, e', 0]; repeat (split; [lia|]); rewrite sm3, C; f_equal; lia.
  - assert (D : d = 0 \/ d = 1 \/ d = 2) by lia. destruct D as [-> | [-> | ->]]; eexists; in2 q e; rewrite C; pick_.
Qed.

Lemma actOpGT_M3_at : forall diff gc mtx q d e ii, dim_ok (nRow gc) -> nRow diff = nRow gc * nCol gc -> nCol diff = nCol mtx ->
  q < nLev gc -> d < nRow gc -> e < nCol gc -> ii < nCol mtx ->
  at_ (actOpGT_M3 diff gc mtx) q (d * nCol gc + e) ii
  = sm (nRow gc) (fun j => at_ gc q j e * at_ mtx q (voigt (nRow gc) d j) ii)%R.
Proof.
  intros diff gc mtx q d e ii K Rw C Hq Hd He Hi.
  pose proof (fun l => @rowblock_at diff l (nRow gc) (nCol gc)
    (fun q d e ii => sm (nRow gc) (fun j => at_ gc q j e * at_ mtx q (voigt (nRow gc) d j) ii)%R) q d e ii Rw Hd He) as P.
  unfold actOpGT_M3. cbv zeta.
  destruct K as [K|[K|K]]; rewrite K in *; (apply P; clear P; [lia| |]).
  - intros p Hp. apply in_for in Hp as [q' [? Hp]]. apply in_for in Hp as [e' [? Hp]]. apply in_for in Hp as [i' [? Hp]]. rewrite !gat in Hp.
    destruct Hp as [<-|[]]. exists q', 0, e', i'. repeat (split; [lia|]). rewrite sm1, C. f_equal; lia.
  - eexists. in3 q e ii. rewrite C. assert (d = 0) by lia. subst. pick_.
  - intros p Hp. apply in_for in Hp as [q' [? Hp]]. apply in_for in Hp as [e' [? Hp]]. apply in_for in Hp as [i' [? Hp]]. rewrite !gat in Hp.
    destruct Hp as [<-|[<-|[]]]; [exists q', 0, e', i'|exists q', 1, e', i']; repeat (split; [lia|]); rewrite sm2, C; f_equal; lia.
  - assert (D : d = 0 \/ d = 1) by lia. destruct D as [-> | ->]; eexists; in3 q e ii; rewrite C; pick_.
  - intros p Hp. apply in_for in Hp as [q' [? Hp]]. apply in_for in Hp as [e' [? Hp]]. apply in_for in Hp as [i' [? Hp]]. rewrite !gat in Hp.
    destruct Hp as [<-|[<-|[<-|[]]]]; [exists q', 0, e', i'|exists q', 1, e', i'|exists q', 2, e', i']; repeat (split; [lia|]); rewrite sm3, C; f_equal; lia.
  - assert (D : d = 0 \/ d = 1 \/ d = 2) by lia. destruct D as [-> | [-> | ->]]; eexists; in3 q e ii; rewrite C; pick_.
Qed.

Lemma actOpG_RM3_at : forall diff mtx gc q i d e, dim_ok (nRow gc) -> nRow diff = nRow mtx -> nCol diff = nRow gc * nCol gc ->
  q < nLev gc -> i < nRow mtx -> d < nRow gc -> e < nCol gc ->
  at_ (actOpG_RM3 diff mtx gc) q i (d * nCol gc + e)
  = sm (nRow gc) (fun j => at_ gc q j e * at_ mtx q i (voigt (nRow gc) d j))%R.
Proof.
  intros diff mtx gc q i d e K Rw C Hq Hi Hd He.
  pose proof (fun l => @colblock_at diff l (nRow gc) (nCol gc)
    (fun q i d e => sm (nRow gc) (fun j => at_ gc q j e * at_ mtx q i (voigt (nRow gc) d j))%R) q i d e C) as P.
  unfold actOpG_RM3. cbv zeta.
  destruct K as [K|[K|K]]; rewrite K in *; (apply P; clear P; [lia|auto|auto| |]).
  - intros p Hp. apply in_for in Hp as [q' [? Hp]]. apply in_for in Hp as [i' [? Hp]]. apply in_for in Hp as [e' [? Hp]]. rewrite !gat, !gat' in Hp.
    destruct Hp as [<-|[]]. exists q', i', 0, e'. repeat (split; [lia|]). rewrite sm1. f_equal.
  - eexists. in3 q i e. assert (d = 0) by lia. subst. pick_.
  - intros p Hp. apply in_for in Hp as [q' [? Hp]]. apply in_for in Hp as [i' [? Hp]]. apply in_for in Hp as [e' [? Hp]]. rewrite !gat, !gat' in Hp.
    destruct Hp as [<-|[<-|[]]]; [exists q', i', 0, e'|exists q', i', 1, e']; repeat (split; [lia|]); rewrite sm2; f_equal; lia.
  - assert (D : d = 0 \/ d = 1) by lia. destruct D as [-> | ->]; eexists; in3 q i e; pick_.
  - intros p Hp. apply in_for in Hp as [q' [? Hp]]. apply in_for in Hp as [i' [? Hp]]. apply in_for in Hp as [e' [? Hp]]. rewrite !gat, !gat' in Hp.
    destruct Hp as [<-|[<-|[<-|[]]]]; [exists q', i', 0, e'|exists q', i', 1, e'|exists q', i', 2, e']; repeat (split; [lia|]); rewrite sm3; f_equal; lia.
  - assert (D : d = 0 \/ d = 1 \/ d = 2) by lia. destruct D as [-> | [-> | ->]]; eexists; in3 q i e; pick_.
Qed.

Definition symn (dim : nat) := (dim + 1) * dim / 2.
Lemma strain_at : forall s dg q i j, dim_ok (nRow dg) -> nCol dg = nRow dg -> nRow s = symn (nRow dg) -> nCol s = 1 ->
  q < nLev dg -> i <= j -> j < nRow dg ->
  at_ (strainCauchy_VS s dg) q (voigt (nRow dg) i j) 0
  = (if i =? j then at_ dg q i i else (at_ dg q i j + at_ dg q j i)%R).
Proof.
  intros s dg q i j K Cd Rw C Hq Hij Hj.
  set (F := fun q k (_ : nat) => 
     match nRow dg, k with
     | 3, 0 | 2, 0 | 1, 0 => at_ dg q 0 0 | 3, 1 | 2, 1 => at_ dg q 1 1 | 3, 2 => at_ dg q 2 2
     | 2, 2 => at_ dg q 0 1 +! at_ dg q 1 0
     | 3, 3 => at_ dg q 0 1 +! at_ dg q 1 0 | 3, 4 => at_ dg q 0 2 +! at_ dg q 2 0 | 3, 5 => at_ dg q 1 2 +! at_ dg q 2 1
     | _, _ => 0%R end).
  assert (A : forall q a b k, nCol dg * a + b = k -> val dg (ptr_level dg q + k) = at_ dg q a b).
  { intros. unfold at_. f_equal. lia. }
  transitivity (F q (voigt (nRow dg) i j) 0).
  - unfold strainCauchy_VS. cbv zeta.
    assert (Q : forall k, ptr_level s q + nCol s * k + 0 = ptr_level s q + k) by (intros; rewrite C; lia).
    destruct K as [K|[K|K]]; rewrite K in *; apply stores_at; rewrite ?Rw, ?C; auto.
    + assert (i = 0 /\ j = 0) as [-> ->] by lia. cbn; lia.
    + intros p Hp. apply in_for in Hp as [q' [? Hp]].
      destruct Hp as [<-|[]]; exists q', 0, 0; unfold F; rewrite ?Rw, ?K; (split; [cbn; lia|split; [lia|]]); f_equal; try lia. apply A; lia.
    + assert (i = 0 /\ j = 0) as [-> ->] by lia. eexists. apply in_for. exists q. split; auto. left. f_equal. cbn; lia.
    + assert (J : j = 0 \/ j = 1) by lia. assert (I : i = 0 \/ i = 1) by lia. destruct J as [-> | ->], I as [-> | ->]; cbn; lia.
    + intros p Hp. apply in_for in Hp as [q' [? Hp]].
      destruct Hp as [<-|[<-|[<-|[]]]]; [exists q', 0, 0|exists q', 1, 0|exists q', 2, 0]; unfold F; rewrite ?Rw, ?K; (split; [cbn; lia|split; [lia|]]); f_equal; try lia; try (f_equal; apply A; lia); apply A; lia.
    + assert (J : j = 0 \/ j = 1) by lia. assert (I : i = 0 \/ i = 1) by lia.
      destruct J as [-> | ->], I as [-> | ->]; try lia; eexists; apply in_for; exists q; (split; [auto|]); cbn -[ptr_level]; pick_.
    + assert (J : j = 0 \/ j = 1 \/ j = 2) by lia. assert (I : i = 0 \/ i = 1 \/ i = 2) by lia. destruct J as [-> |[-> | ->]], I as [-> |[-> | ->]]; cbn; lia.
    + intros p Hp. apply in_for in Hp as [q' [? Hp]].
      destruct Hp as [<-|[<-|[<-|[<-|[<-|[<-|[]]]]]]]; [exists q', 0, 0|exists q', 1, 0|exists q', 2, 0|exists q', 3, 0|exists q', 4, 0|exists q', 5, 0];
        unfold F; rewrite ?Rw, ?K; (split; [cbn; lia|split; [lia|]]); f_equal; try lia; try (f_equal; apply A; lia); apply A; lia.
    + assert (J : j = 0 \/ j = 1 \/ j = 2) by lia. assert (I : i = 0 \/ i = 1 \/ i = 2) by lia.
      destruct J as [-> |[-> | ->]], I as [-> |[-> | ->]]; try lia; eexists; apply in_for; exists q; (split; [auto|]); cbn -[ptr_level]; pick_.
  - unfold F. destruct K as [K|[K|K]]; rewrite K in *;
    assert (J : j = 0 \/ j = 1 \/ j = 2) by lia; assert (I : i = 0 \/ i = 1 \/ i = 2) by lia;
    destruct J as [-> |[-> | ->]], I as [-> |[-> | ->]]; try lia; reflexivity.
Qed.

Lemma laplace_build_gtg_at : forall out gc q i j, dim_ok (nRow gc) -> nRow out = nCol gc -> nCol out = nCol gc ->
  q < nLev gc -> i < nCol gc -> j < nCol gc ->
  at_ (laplace_build_gtg out gc) q i j = sm (nRow gc) (fun d => at_ gc q d i * at_ gc q d j)%R.
Proof.
  intros out gc q i j K Rw C Hq Hi Hj. unfold laplace_build_gtg. cbv zeta.
  destruct K as [K|[K|K]]; rewrite K;
  (rewrite (@stores_at (fill0 out) _ (fun q i j => sm (nRow gc) (fun d => at_ gc q d i * at_ gc q d j)%R)); dims; rewrite ?K; auto; try lia;
   [intros p Hp; apply in_for in Hp as [q' [? Hp]]; apply in_for in Hp as [i' [? Hp]]; apply in_for in Hp as [j' [? Hp]];
    rewrite !gat in Hp; destruct Hp as [<-|[]]; exists q', i', j'; (split; [lia|split; [lia|]]); rewrite ?sm1, ?sm2, ?sm3; reflexivity
   |eexists; in3 q i j; left; reflexivity]).
Qed.
Lemma laplace_act_gt_m_at : forall out gc mtx q e i, dim_ok (nRow gc) -> nRow out = nCol gc -> nCol out = nCol mtx ->
  q < nLev gc -> e < nCol gc -> i < nCol mtx ->
  at_ (laplace_act_gt_m out gc mtx) q e i = sm (nRow gc) (fun d => at_ gc q d e * at_ mtx q d i)%R.
Proof.
  intros out gc mtx q e i K Rw C Hq He Hi. unfold laplace_act_gt_m. cbv zeta.
  destruct K as [K|[K|K]]; rewrite K;
  (rewrite (@stores_at out _ (fun q e i => sm (nRow gc) (fun d => at_ gc q d e * at_ mtx q d i)%R)); dims; rewrite ?K; auto; try lia;
   [intros p Hp; apply in_for in Hp as [q' [? Hp]]; apply in_for in Hp as [i' [? Hp]]; apply in_for in Hp as [j' [? Hp]];
    rewrite !gat in Hp; destruct Hp as [<-|[]]; exists q', i', j'; (split; [lia|split; [lia|]]); rewrite ?sm1, ?sm2, ?sm3, C; reflexivity
   |eexists; in3 q e i; left; rewrite C; reflexivity]).
Qed.

Lemma divgrad_act_at : forall out gc mtx q d e ii, dim_ok (nRow gc) -> nRow out = nRow gc * nCol gc -> nCol out = nCol mtx ->
  q < nLev gc -> d < nRow gc -> e < nCol gc -> ii < nCol mtx ->
  at_ (divgrad_act_gt_m out gc mtx) q (d * nCol gc + e) ii
  = sm (nRow gc) (fun j => at_ gc q j e * at_ mtx q (d * nRow gc + j) ii)%R.
Proof.
  intros diff gc mtx q d e ii K Rw C Hq Hd He Hi.
  pose proof (fun l => @rowblock_at diff l (nRow gc) (nCol gc)
    (fun q d e ii => sm (nRow gc) (fun j => at_ gc q j e * at_ mtx q (d * nRow gc + j) ii)%R) q d e ii Rw Hd He) as P.
  unfold divgrad_act_gt_m. cbv zeta.
  destruct K as [K|[K|K]]; rewrite K in *; (apply P; clear P; [lia| |]).
  - intros p Hp. apply in_for in Hp as [q' [? Hp]]. apply in_for in Hp as [e' [? Hp]]. apply in_for in Hp as [i' [? Hp]]. rewrite !gat in Hp.
    destruct Hp as [<-|[]]. exists q', 0, e', i'. repeat (split; [lia|]). rewrite sm1, C. f_equal; lia.
  - eexists. in3 q e ii. rewrite C. assert (d = 0) by lia. subst. pick_.
  - intros p Hp. apply in_for in Hp as [q' [? Hp]]. apply in_for in Hp as [e' [? Hp]]. apply in_for in Hp as [i' [? Hp]]. rewrite !gat in Hp.
    destruct Hp as [<-|[<-|[]]]; [exists q', 0, e', i'|exists q', 1, e', i']; repeat (split; [lia|]); rewrite sm2, C; f_equal; lia.
  - assert (D : d = 0 \/ d = 1) by lia. destruct D as [-> | ->]; eexists; in3 q e ii; rewrite C; pick_.
  - intros p Hp. apply in_for in Hp as [q' [? Hp]]. apply in_for in Hp as [e' [? Hp]]. apply in_for in Hp as [i' [? Hp]]. rewrite !gat in Hp.
    destruct Hp as [<-|[<-|[<-|[]]]]; [exists q', 0, e', i'|exists q', 1, e', i'|exists q', 2, e', i']; repeat (split; [lia|]); rewrite sm3, C; f_equal; lia.
  - assert (D : d = 0 \/ d = 1 \/ d = 2) by lia. destruct D as [-> | [-> | ->]]; eexists; in3 q e ii; rewrite C; pick_.
Qed.

(** [op_nonsym_biot] into a column vector and into a row vector. *)
Lemma op_nonsym_col : forall out gc mtx q d e, (nRow gc = 2 \/ nRow gc = 3) -> nRow out = nRow gc * nCol gc -> nCol out = 1 -> nCol mtx = 1 ->
  q < nLev gc -> d < nRow gc -> e < nCol gc ->
  at_ (op_nonsym_biot out mtx gc) q (d * nCol gc + e) 0
  = sm (nRow gc) (fun j => at_ gc q j e * at_ mtx q (j * nRow gc + d) 0)%R.
Proof.
  intros diff gc vec q d e K Rw C V Hq Hd He.
  pose proof (fun l => @rowblock_at diff l (nRow gc) (nCol gc)
    (fun q d e _ => sm (nRow gc) (fun j => at_ gc q j e * at_ vec q (j * nRow gc + d) 0)%R) q d e 0 Rw Hd He) as P.
  unfold op_nonsym_biot. cbv zeta.
  destruct K as [K|K]; rewrite K in *; (apply P; clear P; [lia| |]).
  - intros p Hp. apply in_for in Hp as [q' [? Hp]]. apply in_for in Hp as [e' [? Hp]]. rewrite !gat, !vat in Hp by auto.
    destruct Hp as [<-|[<-|[]]]; [exists q', 0, e', 0|exists q', 1, e', 0]; repeat (split; [lia|]); rewrite sm2, C; f_equal; lia.
  - assert (D : d = 0 \/ d = 1) by lia. destruct D as [-> | ->]; eexists; in2 q e; rewrite C; pick_.
  - intros p Hp. apply in_for in Hp as [q' [? Hp]]. apply in_for in Hp as [e' [? Hp]]. rewrite !gat, !vat in Hp by auto.
    destruct Hp as [<-|[<-|[<-|[]]]]; [exists q', 0, e', 0|exists q', 1, e', 0|exists q', 2, e', 0]; repeat (split; [lia|]); rewrite sm3, C; f_equal; lia.
  - assert (D : d = 0 \/ d = 1 \/ d = 2) by lia. destruct D as [-> | [-> | ->]]; eexists; in2 q e; rewrite C; pick_.
Qed.
Lemma op_nonsym_row : forall out gc mtx q d e, (nRow gc = 2 \/ nRow gc = 3) -> nRow out = 1 -> nCol out = nRow gc * nCol gc -> nCol mtx = 1 ->
  q < nLev gc -> d < nRow gc -> e < nCol gc ->
  at_ (op_nonsym_biot out mtx gc) q 0 (d * nCol gc + e)
  = sm (nRow gc) (fun j => at_ gc q j e * at_ mtx q (j * nRow gc + d) 0)%R.
Proof.
  intros diff gc vec q d e K Rw C V Hq Hd He.
  pose proof (fun l => @colblock_at diff l (nRow gc) (nCol gc)
    (fun q _ d e => sm (nRow gc) (fun j => at_ gc q j e * at_ vec q (j * nRow gc + d) 0)%R) q 0 d e C) as P.
  unfold op_nonsym_biot. cbv zeta.
  destruct K as [K|K]; rewrite K in *; (apply P; clear P; [lia|auto|auto| |]).
  - intros p Hp. apply in_for in Hp as [q' [? Hp]]. apply in_for in Hp as [e' [? Hp]]. rewrite !gat, !vat in Hp by auto.
    destruct Hp as [<-|[<-|[]]]; [exists q', 0, 0, e'|exists q', 0, 1, e']; repeat (split; [lia|]); rewrite sm2; f_equal; lia.
  - assert (D : d = 0 \/ d = 1) by lia. destruct D as [-> | ->]; eexists; in2 q e; pick_.
  - intros p Hp. apply in_for in Hp as [q' [? Hp]]. apply in_for in Hp as [e' [? Hp]]. rewrite !gat, !vat in Hp by auto.
    destruct Hp as [<-|[<-|[<-|[]]]]; [exists q', 0, 0, e'|exists q', 0, 1, e'|exists q', 0, 2, e']; repeat (split; [lia|]); rewrite sm3; f_equal; lia.
  - assert (D : d = 0 \/ d = 1 \/ d = 2) by lia. destruct D as [-> | [-> | ->]]; eexists; in2 q e; pick_.
Qed.

(** Stores into the diagonal blocks only: what is in block (c, c') of the output. *)
Lemma block_at : forall (o : FMF) l D nr nc (F : nat -> nat -> nat -> R) q c e c' e',
  nRow o = D * nr -> nCol o = D * nc -> c < D -> c' < D -> e < nr -> e' < nc ->
  (forall p, In p l -> exists q1 c1 e1 e2, c1 < D /\ e1 < nr /\ e2 < nc /\
      p = (ptr_level o q1 + nCol o * (c1 * nr + e1) + (c1 * nc + e2), F q1 e1 e2)) ->
  (forall c1, c1 < D -> exists v, In (ptr_level o q + nCol o * (c1 * nr + e) + (c1 * nc + e'), v) l) ->
  at_ (stores o l) q (c * nr + e) (c' * nc + e') = if c =? c' then F q e e' else at_ o q (c * nr + e) (c' * nc + e').
Proof.
  intros o l D nr nc F q c e c' e' Rw Cw Hc Hc' He He' H1 H2.
  assert (A : forall x y, x < D -> y < nr -> x * nr + y < nRow o) by (intros x y X Y; rewrite Rw; pose proof (@idx_lt _ _ _ _ X Y); lia).
  assert (B : forall x y, x < D -> y < nc -> x * nc + y < nCol o) by (intros x y X Y; rewrite Cw; pose proof (@idx_lt _ _ _ _ X Y); lia).
  destruct (Nat.eqb_spec c c') as [<-|N].
  - unfold at_, stores. cbn.
    rewrite (@wrs_fun (fun _ => F q e e')); auto.
    + intros p Ip E. destruct (H1 p Ip) as (q1 & c1 & e1 & e2 & a & b & d & ->). cbn [fst snd] in *.
      destruct (@idx3 (nRow o) (nCol o) q1 (c1 * nr + e1) (c1 * nc + e2) q (c * nr + e) (c * nc + e')) as (-> & X & Y); auto.
      destruct (@idx2 nr c1 e1 c e) as [-> ->]; auto. lia.
      destruct (@idx2 nc c e2 c e') as [_ ->]; auto. lia.
    + destruct (H2 c Hc) as [v V]. eexists. split. exact V. auto.
  - apply stores_none. intros p Ip E. destruct (H1 p Ip) as (q1 & c1 & e1 & e2 & a & b & d & ->). cbn [fst snd] in *.
    destruct (@idx3 (nRow o) (nCol o) q1 (c1 * nr + e1) (c1 * nc + e2) q (c * nr + e) (c' * nc + e')) as (-> & X & Y); auto.
    destruct (@idx2 nr c1 e1 c e) as [-> ->]; auto. lia.
    destruct (@idx2 nc c e2 c' e') as [-> ->]; auto. lia.
Qed.

Lemma buildFTF_at : forall ftf f1 D q c e c' e', dim_ok D -> nRow ftf = D * nRow f1 -> nCol ftf = D * nCol f1 ->
  q < nLev f1 -> c < D -> c' < D -> e < nRow f1 -> e' < nCol f1 ->
  at_ (bf_buildFTF ftf f1) q (c * nRow f1 + e) (c' * nCol f1 + e') = (if c =? c' then at_ f1 q e e' else 0)%R.
Proof.
  intros ftf f1 D q c e c' e' K Rw Cw Hq Hc Hc' He He'. unfold bf_buildFTF. cbv zeta.
  assert (Dv : nRow ftf / nRow f1 = D) by (rewrite Rw; apply Nat.div_mul; lia). rewrite Dv.
  rewrite (@block_at (fill0 ftf) _ D (nRow f1) (nCol f1) (fun q e e' => at_ f1 q e e')); dims; auto.
  - intros p Hp. apply in_for in Hp as [q1 [? Hp]]; apply in_for in Hp as [e1 [? Hp]]; apply in_for in Hp as [e2 [? Hp]].
    rewrite gat' in Hp. unfold ptr_level in *. dims. rewrite Cw.
    destruct K as [-> |[-> | ->]]; cbn [Nat.eqb] in Hp.
    + destruct Hp as [<-|[]]. exists q1, 0, e1, e2. repeat (split; [lia|]). f_equal. lia.
    + destruct Hp as [<-|[<-|[]]]; [exists q1, 0, e1, e2|exists q1, 1, e1, e2]; repeat (split; [lia|]); f_equal; lia.
    + destruct Hp as [<-|[<-|[<-|[]]]]; [exists q1, 0, e1, e2|exists q1, 1, e1, e2|exists q1, 2, e1, e2]; repeat (split; [lia|]); f_equal; lia.
  - intros c1 C1. unfold ptr_level. dims. rewrite Cw.
    destruct K as [-> |[-> | ->]]; cbn [Nat.eqb];
    (assert (X : c1 = 0 \/ c1 = 1 \/ c1 = 2) by lia; destruct X as [-> |[-> | ->]]; try lia; eexists; in3 q e e'; pick_).
Qed.

Lemma divgrad_build_at : forall out gv gs q c e c' e', dim_ok (nRow gv) -> nCol gv = nCol gs ->
  nRow out = nRow gv * nCol gv -> nCol out = nRow gv * nCol gs ->
  q < nLev gv -> c < nRow gv -> c' < nRow gv -> e < nCol gv -> e' < nCol gs ->
  at_ (divgrad_build_gtg out gv gs) q (c * nCol gv + e) (c' * nCol gs + e')
  = (if c =? c' then sm (nRow gv) (fun d => at_ gv q d e * at_ gs q d e')%R else 0)%R.
Proof.
  intros out gv gs q c e c' e' K Sq Rw Cw Hq Hc Hc' He He'. unfold divgrad_build_gtg. cbv zeta.
  assert (P : forall l,
   (forall p, In p l -> exists q1 c1 e1 e2, c1 < nRow gv /\ e1 < nCol gv /\ e2 < nCol gs /\
      p = (ptr_level out q1 + nCol out * (c1 * nCol gv + e1) + (c1 * nCol gs + e2), sm (nRow gv) (fun d => at_ gv q1 d e1 * at_ gs q1 d e2)%R)) ->
   (forall c1, c1 < nRow gv -> exists v, In (ptr_level out q + nCol out * (c1 * nCol gv + e) + (c1 * nCol gs + e'), v) l) ->
   at_ (stores (fill0 out) l) q (c * nCol gv + e) (c' * nCol gs + e')
     = (if c =? c' then sm (nRow gv) (fun d => at_ gv q d e * at_ gs q d e')%R else 0)%R).
  { intros l H1 H2. rewrite (@block_at (fill0 out) l (nRow gv) (nCol gv) (nCol gs) (fun q e e' => sm (nRow gv) (fun d => at_ gv q d e * at_ gs q d e')%R)); dims; auto. }
  destruct K as [K|[K|K]]; rewrite K in *; (apply P; clear P).
  - intros p Hp. apply in_for in Hp as [q1 [? Hp]]; apply in_for in Hp as [e1 [? Hp]]; apply in_for in Hp as [e2 [? Hp]]. rewrite !gat in Hp.
    destruct Hp as [<-|[]]; exists q1, 0, e1, e2; repeat (split; [lia|]); rewrite sm1; f_equal; lia.
  - intros c1 C1. assert (X : c1 = 0) by lia. subst c1. eexists; in3 q e e'. pick_.
  - intros p Hp. apply in_for in Hp as [q1 [? Hp]]; apply in_for in Hp as [e1 [? Hp]]; apply in_for in Hp as [e2 [? Hp]]. rewrite !gat in Hp.
    destruct Hp as [<-|[<-|[]]]; [exists q1, 1, e1, e2|exists q1, 0, e1, e2]; repeat (split; [lia|]); rewrite sm2; f_equal; lia.
  - intros c1 C1. assert (X : c1 = 0 \/ c1 = 1) by lia. destruct X as [-> | ->]; eexists; in3 q e e'; pick_.
  - intros p Hp. apply in_for in Hp as [q1 [? Hp]]; apply in_for in Hp as [e1 [? Hp]]; apply in_for in Hp as [e2 [? Hp]]. rewrite !gat in Hp.
    destruct Hp as [<-|[<-|[<-|[]]]]; [exists q1, 2, e1, e2|exists q1, 1, e1, e2|exists q1, 0, e1, e2]; repeat (split; [lia|]); rewrite sm3; f_equal; lia.
  - intros c1 C1. assert (X : c1 = 0 \/ c1 = 1 \/ c1 = 2) by lia. destruct X as [-> | [-> | ->]]; eexists; in3 q e e'; pick_.
Qed.

Lemma vtg_at : forall out gc fv q c c' e, dim_ok (nRow gc) -> nRow out = nRow gc -> nCol out = nRow gc * nCol gc -> nCol fv = 1 ->
  q < nLev gc -> c < nRow gc -> c' < nRow gc -> e < nCol gc ->
  at_ (convect_build_vtg out gc fv) q c (c' * nCol gc + e)
  = (if c =? c' then sm (nRow gc) (fun d => at_ gc q d e * at_ fv q d 0)%R else at_ out q c (c' * nCol gc + e))%R.
Proof.
  intros out gc fv q c c' e K Rw Cw V Hq Hc Hc' He. unfold convect_build_vtg. cbv zeta.
  assert (P : forall l,
   (forall p, In p l -> exists q1 c1 e1 e2, c1 < nRow gc /\ e1 < 1 /\ e2 < nCol gc /\
      p = (ptr_level out q1 + nCol out * (c1 * 1 + e1) + (c1 * nCol gc + e2), sm (nRow gc) (fun d => at_ gc q1 d e2 * at_ fv q1 d 0)%R)) ->
   (forall c1, c1 < nRow gc -> exists v, In (ptr_level out q + nCol out * (c1 * 1 + 0) + (c1 * nCol gc + e), v) l) ->
   at_ (stores out l) q (c * 1 + 0) (c' * nCol gc + e)
     = (if c =? c' then sm (nRow gc) (fun d => at_ gc q d e * at_ fv q d 0)%R else at_ out q (c * 1 + 0) (c' * nCol gc + e))%R).
  { intros l H1 H2. rewrite (@block_at out l (nRow gc) 1 (nCol gc) (fun q _ e => sm (nRow gc) (fun d => at_ gc q d e * at_ fv q d 0)%R)); auto. lia. }
  replace c with (c * 1 + 0) at 1 3 by lia.
  destruct K as [K|[K|K]]; rewrite K in *; (apply P; clear P).
  - intros p Hp. apply in_for in Hp as [q1 [? Hp]]; apply in_for in Hp as [e2 [? Hp]]. rewrite !gat, !vat in Hp by auto.
    destruct Hp as [<-|[]]; exists q1, 0, 0, e2; repeat (split; [lia|]); rewrite sm1; f_equal; lia.
  - intros c1 C1. assert (X : c1 = 0) by lia. subst c1. eexists; in2 q e. pick_.
  - intros p Hp. apply in_for in Hp as [q1 [? Hp]]; apply in_for in Hp as [e2 [? Hp]]. rewrite !gat, !vat in Hp by auto.
    destruct Hp as [<-|[<-|[]]]; [exists q1, 1, 0, e2|exists q1, 0, 0, e2]; repeat (split; [lia|]); rewrite sm2; f_equal; lia.
  - intros c1 C1. assert (X : c1 = 0 \/ c1 = 1) by lia. destruct X as [-> | ->]; eexists; in2 q e; pick_.
  - intros p Hp. apply in_for in Hp as [q1 [? Hp]]; apply in_for in Hp as [e2 [? Hp]]. rewrite !gat, !vat in Hp by auto.
    destruct Hp as [<-|[<-|[<-|[]]]]; [exists q1, 2, 0, e2|exists q1, 1, 0, e2|exists q1, 0, 0, e2]; repeat (split; [lia|]); rewrite sm3; f_equal; lia.
  - intros c1 C1. assert (X : c1 = 0 \/ c1 = 1 \/ c1 = 2) by lia. destruct X as [-> | [-> | ->]]; eexists; in2 q e; pick_.
Qed.
