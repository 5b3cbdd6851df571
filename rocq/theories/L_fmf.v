(** Entry-wise meaning of the buffer kernels of M_fmf. *)
From Coq Require Import Reals Lra Lia Arith.
From Verif Require Import Base M_fmf.
Open Scope nat_scope.

(** Sums. *)
Lemma sm_ext : forall n f g, (forall k, k < n -> f k = g k) -> sm n f = sm n g.
Proof. induction n; intros f g H; cbn; auto. rewrite (IHn f g), (H n) by auto. auto. Qed.
Lemma sm_plus : forall n f g, sm n (fun k => f k + g k)%R = (sm n f + sm n g)%R.
Proof. induction n; intros; cbn; [lra|]. rewrite IHn. lra. Qed.
Lemma sm_scal : forall n c f, sm n (fun k => c * f k)%R = (c * sm n f)%R.
Proof. induction n; intros; cbn; [lra|]. rewrite IHn. lra. Qed.
Lemma sm_scalr : forall n c f, sm n (fun k => f k * c)%R = (sm n f * c)%R.
Proof. induction n; intros; cbn; [lra|]. rewrite IHn. lra. Qed.
Lemma sm_0 : forall n f, (forall k, k < n -> f k = 0%R) -> sm n f = 0%R.
Proof. induction n; intros f H; cbn; auto. rewrite IHn, H by auto. lra. Qed.
Lemma sm_swap : forall n m f, sm n (fun i => sm m (fun j => f i j)) = sm m (fun j => sm n (fun i => f i j)).
Proof.
  induction n; intros; cbn. symmetry. apply sm_0; auto. rewrite IHn, sm_plus. auto.
Qed.
Lemma sm_split : forall n m f, sm (n + m) f = sm n f +! sm m (fun k => f (n + k)).
Proof.
  induction m; intros; cbn. rewrite Nat.add_0_r. lra.
  rewrite Nat.add_succ_r. cbn. rewrite IHm. lra.
Qed.
(** The DOF-by-DOF order: entry [c * n + e] is node [e] of component [c]. *)
Lemma sm_blocks : forall d n f, sm (d * n) f = sm d (fun c => sm n (fun e => f (c * n + e))).
Proof.
  induction d; intros; cbn [sm]. auto.
  replace (S d * n) with (d * n + n) by lia. rewrite sm_split, IHd. auto.
Qed.
Lemma sm_pick : forall n r f, r < n -> sm n (fun k => (if k =? r then f k else 0)%R) = f r.
Proof.
  induction n; intros r f H; [lia|]. cbn. destruct (Nat.eqb_spec n r) as [->|N].
  - rewrite sm_0. lra. intros k K. destruct (Nat.eqb_spec k r); [lia|auto].
  - rewrite IHn by lia. lra.
Qed.
Lemma sm1 : forall f, sm 1 f = f 0. Proof. intros; cbn; lra. Qed.
Lemma sm2 : forall f, sm 2 f = (f 0%nat + f 1%nat)%R. Proof. intros; cbn; lra. Qed.
Lemma sm3 : forall f, sm 3 f = (f 0%nat + f 1%nat + f 2%nat)%R. Proof. intros; cbn; lra. Qed.

(** Stores. *)
Lemma wrs_app : forall a b m, wrs (a ++ b) m = wrs b (wrs a m).
Proof. intros. unfold wrs. apply fold_left_app. Qed.
Lemma wrs_other : forall l b k, (forall p, In p l -> fst p <> k) -> wrs l b k = b k.
Proof.
  unfold wrs. induction l as [|p l IH]; intros b k H; cbn; auto.
  rewrite IH by (intros; apply H; right; auto). unfold upd.
  destruct (Nat.eqb_spec k (fst p)); auto. exfalso. apply (H p (or_introl eq_refl)). auto.
Qed.
Lemma wrs_fun : forall (F : nat -> R) l b k, (forall p, In p l -> fst p = k -> snd p = F k) ->
  (exists p, In p l /\ fst p = k) -> wrs l b k = F k.
Proof.
  intros F. induction l as [|p l IH] using rev_ind; intros b k H [p' [I E]]; [destruct I|].
  rewrite wrs_app. cbn. unfold upd. destruct (Nat.eqb_spec k (fst p)) as [e|n].
  - rewrite (H p); auto. apply in_app_iff; right; left; auto.
  - apply IH. intros; apply H; auto. apply in_app_iff; auto.
    apply in_app_iff in I. destruct I as [I|[<-|[]]]; [|congruence]. eauto.
Qed.

Lemma in_for : forall A n (f : nat -> list A) x, In x (for_ n f) <-> exists i, i < n /\ In x (f i).
Proof.
  intros. unfold for_. rewrite in_flat_map. split; intros [i [a b]]; exists i; split; auto.
  apply in_seq in a; lia. apply in_seq; lia.
Qed.

(** Row-major indexing is injective. *)
Lemma idx2 : forall c i j i' j', j < c -> j' < c -> c * i + j = c * i' + j' -> i = i' /\ j = j'.
Proof.
  intros c i j i' j' H H' E.
  assert (i = i'). { transitivity ((c * i + j) / c). apply (Nat.div_unique _ c i j H). auto. rewrite E. symmetry. apply (Nat.div_unique _ c i' j' H'). auto. }
  subst. split; auto. lia.
Qed.
Lemma idx3 : forall r c q i j q' i' j', i < r -> i' < r -> j < c -> j' < c ->
  c * r * q + c * i + j = c * r * q' + c * i' + j' -> q = q' /\ i = i' /\ j = j'.
Proof.
  intros r c q i j q' i' j' Hi Hi' Hj Hj' E.
  destruct (@idx2 c (r * q + i) j (r * q' + i') j' Hj Hj'). lia.
  destruct (@idx2 r q i q' i' Hi Hi' H). auto.
Qed.
Lemma idx_lt : forall r c i j, i < r -> j < c -> c * i + j < r * c.
Proof. intros. assert (i <= r - 1) by lia. nia. Qed.

(** The general statement about a loop nest that stores in row-major positions. *)
Lemma stores_at : forall (o : FMF) l (f : nat -> nat -> nat -> R) q i j,
  i < nRow o -> j < nCol o ->
  (forall p, In p l -> exists q' i' j', i' < nRow o /\ j' < nCol o /\
       p = (ptr_level o q' + nCol o * i' + j', f q' i' j')) ->
  (exists v, In (ptr_level o q + nCol o * i + j, v) l) ->
  at_ (stores o l) q i j = f q i j.
Proof.
  intros o l f q i j Hi Hj H [v Hv]. unfold at_, stores, ptr_level in *. cbn.
  rewrite (@wrs_fun (fun k => f q i j)); auto.
  - intros p Ip E. destruct (H p Ip) as (q' & i' & j' & a & b & ->). cbn in *.
    destruct (@idx3 (nRow o) (nCol o) q' i' j' q i j) as (-> & -> & ->); auto.
  - eexists; split; [exact Hv|]. auto.
Qed.

Ltac dims := cbn [nLev nRow nCol stores fill0 alloc pretend] in *.

Lemma at_fill0 : forall o q i j, at_ (fill0 o) q i j = 0%R. Proof. reflexivity. Qed.
Lemma at_alloc : forall l r c q i j, at_ (alloc l r c) q i j = 0%R. Proof. reflexivity. Qed.

(** Kernels that store every entry in the order of the storage. *)
Ltac loop3 := let p := fresh "p" in intros p Hp; repeat (apply in_for in Hp; destruct Hp as [? [? Hp]]).

Lemma mulAB_nn_at : forall r a b q i j, q < nLev r -> i < nRow r -> j < nCol r ->
  at_ (mulAB_nn r a b) q i j = sm (nCol a) (fun k => at_ a q i k * at_ b q k j)%R.
Proof.
  intros r a b q i j Hq Hi Hj. unfold mulAB_nn.
  rewrite (@stores_at r _ (fun q i j => sm (nCol a) (fun k => at_ a q i k * at_ b q k j)%R)); auto.
  - loop3. destruct Hp as [<-|[]]. do 3 eexists. split; [|split]; [eauto|eauto|]. reflexivity.
  - eexists. apply in_for. exists q; split; auto. apply in_for. exists i; split; auto. apply in_for. exists j; split; auto. left. reflexivity.
Qed.
Lemma mulAB_n1_at : forall r a b q i j, q < nLev r -> i < nRow r -> j < nCol r ->
  at_ (mulAB_n1 r a b) q i j = sm (nCol a) (fun k => at_ a q i k * at_ b 0 k j)%R.
Proof.
  intros r a b q i j Hq Hi Hj. unfold mulAB_n1.
  rewrite (@stores_at r _ (fun q i j => sm (nCol a) (fun k => at_ a q i k * at_ b 0 k j)%R)); auto.
  - loop3. destruct Hp as [<-|[]]. do 3 eexists. split; [|split]; [eauto|eauto|]. f_equal. apply sm_ext; intros.
    unfold at_, ptr_level. rewrite Nat.mul_0_r. reflexivity.
  - eexists. apply in_for. exists q; split; auto. apply in_for. exists i; split; auto. apply in_for. exists j; split; auto. left. reflexivity.
Qed.
Lemma mulATB_nn_at : forall r a b q i j, q < nLev r -> i < nRow r -> j < nCol r ->
  at_ (mulATB_nn r a b) q i j = sm (nRow a) (fun k => at_ a q k i * at_ b q k j)%R.
Proof.
  intros r a b q i j Hq Hi Hj. unfold mulATB_nn.
  rewrite (@stores_at r _ (fun q i j => sm (nRow a) (fun k => at_ a q k i * at_ b q k j)%R)); auto.
  - loop3. destruct Hp as [<-|[]]. do 3 eexists. split; [|split]; [eauto|eauto|]. reflexivity.
  - eexists. apply in_for. exists q; split; auto. apply in_for. exists i; split; auto. apply in_for. exists j; split; auto. left. reflexivity.
Qed.
Lemma mulATBT_nn_at : forall r a b q i j, q < nLev r -> i < nRow r -> j < nCol r ->
  at_ (mulATBT_nn r a b) q i j = sm (nRow a) (fun k => at_ a q k i * at_ b q j k)%R.
Proof.
  intros r a b q i j Hq Hi Hj. unfold mulATBT_nn.
  rewrite (@stores_at r _ (fun q i j => sm (nRow a) (fun k => at_ a q k i * at_ b q j k)%R)); auto.
  - loop3. destruct Hp as [<-|[]]. do 3 eexists. split; [|split]; [eauto|eauto|]. reflexivity.
  - eexists. apply in_for. exists q; split; auto. apply in_for. exists i; split; auto. apply in_for. exists j; split; auto. left. reflexivity.
Qed.
Lemma mulATC_at : forall r a v q i j, q < nLev r -> i < nRow r -> j < nCol r ->
  at_ (mulATC r a v) q i j = (at_ a q j i * v)%R.
Proof.
  intros r a v q i j Hq Hi Hj. unfold mulATC.
  rewrite (@stores_at r _ (fun q i j => (at_ a q j i * v)%R)); auto.
  - loop3. destruct Hp as [<-|[]]. do 3 eexists. split; [|split]; [eauto|eauto|]. reflexivity.
  - eexists. apply in_for. exists q; split; auto. apply in_for. exists i; split; auto. apply in_for. exists j; split; auto. left. reflexivity.
Qed.

(** Kernels that run over all entries of a level with one index. *)
Lemma flat_at : forall (o : FMF) (F : nat -> nat -> R) q i j, q < nLev o -> i < nRow o -> j < nCol o ->
  at_ (stores o (for_ (nLev o) (fun il => for_ (nRow o * nCol o) (fun k => [(ptr_level o il + k, F il k)])))) q i j
  = F q (nCol o * i + j).
Proof.
  intros o F q i j Hq Hi Hj.
  rewrite (@stores_at o _ (fun q i j => F q (nCol o * i + j))); auto.
  - intros p Hp. apply in_for in Hp as [q' [Hq' Hp]]. apply in_for in Hp as [k [Hk Hp]]. destruct Hp as [<-|[]].
    assert (C : 0 < nCol o) by lia.
    exists q', (k / nCol o), (k mod nCol o). split; [|split].
    + apply Nat.div_lt_upper_bound; lia.
    + apply Nat.mod_upper_bound; lia.
    + rewrite <- (Nat.div_mod k (nCol o)) by lia. f_equal.
      pose proof (Nat.div_mod k (nCol o)). lia.
  - eexists. apply in_for. exists q; split; auto. apply in_for. exists (nCol o * i + j). split.
    apply idx_lt; auto. left. rewrite Nat.add_assoc. reflexivity.
Qed.
Lemma at_flat : forall (o : FMF) q i j, val o (ptr_level o q + (nCol o * i + j)) = at_ o q i j.
Proof. intros. unfold at_. f_equal. lia. Qed.

Lemma mul_at : forall o v q i j, q < nLev o -> i < nRow o -> j < nCol o ->
  at_ (mul_ o v) q i j = (at_ o q i j * v q)%R.
Proof.
  intros o v q i j Hq Hi Hj. unfold mul_.
  rewrite (@flat_at o (fun il k => val o (ptr_level o il + k) * v il)%R) by auto. rewrite at_flat. auto.
Qed.
Lemma mulAF_at : forall r a v q i j, q < nLev r -> i < nRow r -> j < nCol r -> nCol a = nCol r -> 
  at_ (mulAF r a v) q i j = (at_ a q i j * v q)%R.
Proof.
  intros r a v q i j Hq Hi Hj C. unfold mulAF.
  rewrite (@flat_at r (fun il k => val a (ptr_level a il + k) * v il)%R) by auto. rewrite <- C, at_flat. auto.
Qed.
Lemma addAB_at : forall r a b q i j, q < nLev r -> i < nRow r -> j < nCol r -> nCol a = nCol r -> nCol b = nCol r ->
  at_ (addAB_nn r a b) q i j = (at_ a q i j + at_ b q i j)%R.
Proof.
  intros r a b q i j Hq Hi Hj C D. unfold addAB_nn.
  rewrite (@flat_at r (fun il k => val a (ptr_level a il + k) + val b (ptr_level b il + k))%R) by auto.
  rewrite <- C at 1. rewrite at_flat, <- D, at_flat. auto.
Qed.
Lemma sumLevelsMulF_at : forall r a v i j, i < nRow r -> j < nCol r -> nCol a = nCol r ->
  at_ (sumLevelsMulF r a v) 0 i j = sm (nLev a) (fun q => at_ a q i j * v q)%R.
Proof.
  intros r a v i j Hi Hj C. unfold at_ at 1.
  replace (ptr_level (sumLevelsMulF r a v) 0) with 0 by (unfold ptr_level; lia).
  rewrite Nat.add_0_l. unfold sumLevelsMulF, stores. cbn [nCol val].
  rewrite (@wrs_fun (fun _ => sm (nLev a) (fun q => at_ a q i j * v q)%R)); auto.
  - intros p Hp E. apply in_for in Hp as [k [Hk Hp]]. destruct Hp as [<-|[]]. cbn [fst snd] in *. subst k.
    apply sm_ext; intros. rewrite <- C, at_flat. auto.
  - eexists. split. apply in_for. exists (nCol r * i + j). split. apply idx_lt; auto. left. reflexivity. reflexivity.
Qed.
Lemma mulC_at : forall o v i j, 0 < nLev o -> i < nRow o -> j < nCol o ->
  at_ (mulC o v) 0 i j = (at_ o 0 i j * v)%R.
Proof.
  intros o v i j L Hi Hj. unfold mulC, at_, ptr_level. cbn. rewrite !Nat.mul_0_r. cbn.
  rewrite (@wrs_fun (fun k => val o k * v)%R); auto.
  - intros p Hp E. apply in_for in Hp as [k [Hk Hp]]. destruct Hp as [<-|[]]. cbn in *. subst. auto.
  - eexists. split. apply in_for. exists (nCol o * i + j). split.
    pose proof (@idx_lt _ _ _ _ Hi Hj). nia. left; reflexivity. reflexivity.
Qed.

(** Extraction of nodal values: [u c e] = component [c] at local node [e]. *)
Lemma extractNBN_at : forall o st conn e c, e < nRow o -> c < nCol o ->
  at_ (extractNBN o st conn) 0 e c = st (nCol o * conn e + c).
Proof.
  intros o st conn e c He Hc. unfold extractNBN.
  rewrite (@stores_at o _ (fun q e c => if q =? 0 then st (nCol o * conn e + c) else 0%R)); auto.
  - loop3. destruct Hp as [<-|[]]. exists 0. do 2 eexists. split; [eauto|split]; [eauto|]. unfold ptr_level. rewrite Nat.mul_0_r. reflexivity.
  - eexists. apply in_for. exists e; split; auto. apply in_for. exists c; split; auto. left. unfold ptr_level. rewrite Nat.mul_0_r. reflexivity.
Qed.
Lemma extractDBD_at : forall o st conn c e, c < nRow o -> e < nCol o ->
  at_ (extractDBD o st conn) 0 c e = st (nRow o * conn e + c).
Proof.
  intros o st conn c e Hc He. unfold extractDBD.
  rewrite (@stores_at o _ (fun q c e => if q =? 0 then st (nRow o * conn e + c) else 0%R)); auto.
  - loop3. destruct Hp as [<-|[]]. exists 0. do 2 eexists. split; [eauto|split]; [eauto|]. unfold ptr_level. rewrite Nat.mul_0_r. reflexivity.
  - eexists. apply in_for. exists c; split; auto. apply in_for. exists e; split; auto. left. unfold ptr_level. rewrite Nat.mul_0_r. reflexivity.
Qed.

(** Base function kernels. *)
Lemma bf_act_at : forall out b inp q c, nCol out = 1 -> nRow out = nRow inp -> nCol inp = nCol b -> nRow b = 1 ->
  q < nLev b -> c < nRow inp ->
  at_ (bf_act out b inp) q c 0 = sm (nCol b) (fun e => at_ b q 0 e * at_ inp 0 c e)%R.
Proof.
  intros out b inp q c O R I B Hq Hc. unfold bf_act.
  rewrite (@stores_at (fill0 out) _ (fun q c j => sm (nCol b) (fun e => at_ b q 0 e * at_ inp 0 c e)%R)); dims; try lia; auto.
  - loop3. destruct Hp as [<-|[]]. exists x, x0, 0. split; [lia|split; [lia|]]. f_equal.
    unfold ptr_level; dims. lia. apply sm_ext; intros. unfold at_, ptr_level.
    rewrite I, !Nat.mul_0_r, !Nat.add_0_r. auto.
  - eexists. apply in_for. exists q; split; auto. apply in_for. exists c; split; auto. left. rewrite O, Nat.mul_1_l, Nat.add_0_r. reflexivity.
Qed.
Lemma bf_ract_at : forall out b inp q i c e, nCol out = nCol inp * nCol b -> nRow out = nRow inp -> nRow b = 1 ->
  q < nLev b -> i < nRow out -> c < nCol inp -> e < nCol b ->
  at_ (bf_ract out b inp) q i (c * nCol b + e) = (at_ inp q i c * at_ b q 0 e)%R.
Proof.
  intros out b inp q i c e O Rw B Hq Hi Hc He. unfold bf_ract.
  rewrite (@stores_at (fill0 out) _ (fun q i j => at_ inp q i (j / nCol b) * at_ b q 0 (j mod nCol b))%R); dims; auto.
  - rewrite (Nat.add_comm (c * nCol b)), Nat.div_add, Nat.mod_add, Nat.div_small, Nat.mod_small by lia. auto.
  - rewrite O. rewrite (Nat.mul_comm c), (Nat.mul_comm (nCol inp)). rewrite Nat.mul_comm. rewrite (Nat.mul_comm (nCol b) (nCol inp)). 
    rewrite (Nat.mul_comm c). pose proof (@idx_lt _ _ _ _ Hc He). lia.
  - loop3. destruct Hp as [<-|[]]. match goal with H1 : ?c' < nCol inp, H2 : ?e' < nCol b, H3 : ?i' < nRow out |- context [ptr_level _ ?q'] =>
      exists q', i', (c' * nCol b + e'); split; [exact H3|split]; [rewrite O; pose proof (@idx_lt _ _ _ _ H1 H2); lia|];
      rewrite (Nat.add_comm (c' * nCol b)), Nat.div_add, Nat.mod_add, Nat.div_small, Nat.mod_small by lia;
      f_equal; [rewrite O; unfold ptr_level; dims; lia|f_equal; unfold at_, ptr_level; f_equal; lia] end.
  - eexists. apply in_for. exists q; split; auto. apply in_for. exists i; split; auto. apply in_for. exists c; split; auto.
    apply in_for. exists e; split; auto. left. f_equal. rewrite O. unfold ptr_level; dims. lia.
Qed.
Lemma bf_actt_at : forall out b inp q c e j, nRow out = nRow inp * nCol b -> nCol out = nCol inp -> nRow b = 1 ->
  q < nLev b -> c < nRow inp -> e < nCol b -> j < nCol out ->
  at_ (bf_actt out b inp) q (c * nCol b + e) j = (at_ b q 0 e * at_ inp q c j)%R.
Proof.
  intros out b inp q c e j Rw O B Hq Hc He Hj. unfold bf_actt.
  rewrite (@stores_at (fill0 out) _ (fun q i j => at_ b q 0 (i mod nCol b) * at_ inp q (i / nCol b) j)%R); dims; auto.
  - rewrite (Nat.add_comm (c * nCol b)), Nat.div_add, Nat.mod_add, Nat.div_small, Nat.mod_small by lia. auto.
  - pose proof (@idx_lt _ _ _ _ Hc He). lia.
  - loop3. destruct Hp as [<-|[]]. match goal with H1 : ?c' < nRow inp, H2 : ?e' < nCol b, H3 : ?j' < nCol out |- context [ptr_level out ?q'] =>
      exists q', (c' * nCol b + e'), j'; split; [pose proof (@idx_lt _ _ _ _ H1 H2); lia|split]; [exact H3|];
      rewrite (Nat.add_comm (c' * nCol b)), Nat.div_add, Nat.mod_add, Nat.div_small, Nat.mod_small by lia;
      f_equal; [unfold ptr_level; dims; lia|f_equal; unfold at_, ptr_level; rewrite ?O; f_equal; lia] end.
  - eexists. apply in_for. exists q; split; auto. apply in_for. exists c; split; auto. apply in_for. exists j; split; auto.
    apply in_for. exists e; split; auto. left. f_equal. unfold ptr_level; dims. lia.
Qed.
Lemma bf_actt_c1_at : forall out b inp q c e, nRow out = nRow inp * nCol b -> nCol out = 1 -> nCol inp = 1 -> nRow b = 1 ->
  q < nLev b -> c < nRow inp -> e < nCol b ->
  at_ (bf_actt_c1 out b inp) q (c * nCol b + e) 0 = (at_ b q 0 e * at_ inp q c 0)%R.
Proof.
  intros out b inp q c e Rw O I B Hq Hc He. unfold bf_actt_c1.
  rewrite (@stores_at out _ (fun q i j => at_ b q 0 (i mod nCol b) * at_ inp q (i / nCol b) 0)%R); dims; auto; try lia.
  - rewrite (Nat.add_comm (c * nCol b)), Nat.div_add, Nat.mod_add, Nat.div_small, Nat.mod_small by lia. auto.
  - pose proof (@idx_lt _ _ _ _ Hc He). lia.
  - loop3. destruct Hp as [<-|[]]. match goal with H1 : ?c' < nRow inp, H2 : ?e' < nCol b |- context [ptr_level out ?q'] =>
      exists q', (c' * nCol b + e'), 0; split; [pose proof (@idx_lt _ _ _ _ H1 H2); lia|split]; [lia|];
      rewrite (Nat.add_comm (c' * nCol b)), Nat.div_add, Nat.mod_add, Nat.div_small, Nat.mod_small by lia;
      f_equal; [unfold ptr_level; rewrite O; lia|f_equal; unfold at_, ptr_level; rewrite ?I; f_equal; lia] end.
  - eexists. apply in_for. exists q; split; auto. apply in_for. exists c; split; auto.
    apply in_for. exists e; split; auto. left. f_equal. unfold ptr_level. rewrite O. lia.
Qed.
