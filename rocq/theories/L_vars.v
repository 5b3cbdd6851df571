(** Lemmas for the variable history and evaluate cache. *)
From Verif Require Import Base M_vars S_vars.
Set Implicit Arguments.
Open Scope nat_scope.

Lemma last_cons : forall A (x : A) l d, last (x :: l) d = last l x.
Proof.
  intros A x l; revert x. induction l as [|y l IH]; intros x d; auto.
  change (last (x :: y :: l) d) with (last (y :: l) d). rewrite IH. symmetry. apply (IH y x).
Qed.

Section L.
Context {A B D : Type}.
Variable ev : Z -> Z -> list A -> B.
Variable bdiff : D -> list A -> list A -> list A.
Variables (s e : nat).
Hypothesis Hse : s <= e.
Notation part := (@part A s e).

Lemma part_length : forall x : list A, e <= length x -> length (part x) = e - s.
Proof. intros. unfold S_vars.part. rewrite firstn_length, skipn_length. lia. Qed.

Lemma assign_ok : forall l r : list A, e <= length l -> length r = e - s ->
  exists l', assign (Some (s, e)) l r = Ok l' /\ part l' = r /\ length l' = length l.
Proof.
  intros l r Hl Hr. unfold assign. cbn [sub].
  assert (E : length r =? length (firstn (e - s) (skipn s l)) = true).
  { apply Nat.eqb_eq. rewrite firstn_length, skipn_length. lia. }
  rewrite E. eexists. split; [reflexivity|]. split.
  - unfold S_vars.part. rewrite skipn_app. rewrite firstn_length_le by lia.
    rewrite skipn_all2 by (rewrite firstn_length; lia). replace (s - s) with 0 by lia. simpl.
    rewrite <- Hr. rewrite firstn_app. rewrite firstn_all. replace (length r - length r) with 0 by lia. simpl. apply app_nil_r.
  - rewrite !app_length, firstn_length, skipn_length. lia.
Qed.

Lemma deref_app_l : forall (h h' : list (list A)) a, a < length h -> deref (h ++ h') a = deref h a.
Proof. intros. unfold deref. apply app_nth1; auto. Qed.

(** The first loop of advance(): fills in the missing copies. *)
Lemma adv_init_full : forall k ii (h : list (list A)) d,
  (forall j, ii <= j < ii + k -> nth j d None <> None) -> adv_init k ii h d = Ok (h, d).
Proof.
  induction k as [|k IH]; intros ii h d H; auto. cbn [adv_init].
  destruct (nth ii d None) eqn:E.
  - apply IH. intros j Hj. apply H. lia.
  - exfalso. apply (H ii); auto. lia.
Qed.

Lemma adv_init_empty : forall k ii (h : list (list A)) d b,
  1 <= ii -> (forall j, ii <= j < ii + k -> nth j d None = None) -> ii + k <= length d ->
  nth (ii - 1) d None = Some b -> b < length h ->
  exists d', adv_init k ii h d = Ok (h ++ repeat (deref h b) k, d') /\ length d' = length d /\
   (forall j, j < ii \/ ii + k <= j -> nth j d' None = nth j d None) /\
   (forall j, ii <= j < ii + k -> nth j d' None = Some (length h + (j - ii))).
Proof.
  induction k as [|k IH]; intros ii h d b Hii Hn Hl Hb Hbl.
  - exists d. cbn. rewrite app_nil_r. repeat split; auto. intros; lia.
  - cbn [adv_init]. rewrite (Hn ii) by lia. rewrite Hb. unfold alloc.
    destruct (IH (S ii) (h ++ [deref h b]) (upd d ii (Some (length h))) (length h)) as (d' & E & L & N1 & N2).
    + lia.
    + intros j Hj. rewrite nth_upd_neq by lia. apply Hn. lia.
    + rewrite length_upd. lia.
    + replace (S ii - 1) with ii by lia. apply nth_upd_eq. lia.
    + rewrite app_length. simpl. lia.
    + exists d'. split.
      * rewrite E. f_equal. f_equal. rewrite <- app_assoc. f_equal.
        unfold deref at 2. rewrite app_nth2 by lia. rewrite Nat.sub_diag. reflexivity.
      * rewrite length_upd in L. split; auto. split.
        -- intros j Hj. rewrite N1 by lia. apply nth_upd_neq. lia.
        -- intros j Hj. destruct (Nat.eq_dec j ii) as [->|Hji].
           ++ rewrite N1 by lia. rewrite nth_upd_eq by lia. f_equal. lia.
           ++ rewrite N2 by lia. rewrite app_length. simpl. f_equal. lia.
Qed.

(** The second loop: every history array gets the data of the previous one. *)
Lemma adv_shift_ok : forall i (h : list (list A)) d,
  (forall j, j <= i -> exists a, nth j d None = Some a /\ a < length h /\ e <= length (deref h a)) ->
  (forall j k, j < k -> k <= i -> nth j d None <> nth k d None) ->
  exists h', adv_shift i (Some (s, e)) h d = Ok h' /\ length h' = length h /\
    (forall b, length (deref h' b) = length (deref h b)) /\
    (forall b, (forall j, 1 <= j <= i -> nth j d None <> Some b) -> deref h' b = deref h b) /\
    (forall j a b, 1 <= j <= i -> nth j d None = Some a -> nth (j - 1) d None = Some b ->
       part (deref h' a) = part (deref h b)).
Proof.
  induction i as [|i IH]; intros h d Hd Hn.
  - exists h. cbn. repeat split; auto. intros; lia.
  - cbn [adv_shift].
    destruct (Hd (S i)) as (a & Ea & La & Lla); [lia|]. destruct (Hd i) as (b & Eb & Lb & Llb); [lia|].
    rewrite Ea, Eb.
    destruct (assign_ok (deref h a) (part (deref h b))) as (x & Ex & Px & Lx); auto using part_length.
    cbn [sub]. unfold S_vars.part in Ex. rewrite Ex.
    destruct (IH (upd h a x) d) as (h' & E & L & LL & Un & Sh).
    + intros j Hj. destruct (Hd j) as (c & Ec & Lc & Llc); [lia|]. exists c. rewrite length_upd. repeat split; auto.
      unfold deref. rewrite nth_upd. destruct (Nat.eqb_spec c a) as [->|]; cbn [andb]; auto.
      destruct (_ <? _); auto. rewrite Lx. auto.
    + intros; apply Hn; lia.
    + rewrite length_upd in L. exists h'. split; auto. split; auto. split; [|split].
      * intros c. rewrite LL. unfold deref. rewrite nth_upd.
        destruct (Nat.eqb_spec c a) as [->|]; cbn [andb]; auto. destruct (_ <? _); auto.
      * intros c Hc. rewrite Un by (intros; apply Hc; lia).
        unfold deref. apply nth_upd_neq. intros ->. apply (Hc (S i)); auto. lia.
      * intros j a' b' Hj Ea' Eb'. destruct (Nat.eq_dec j (S i)) as [->|Hji].
        -- simpl in Eb'. replace (i - 0) with i in Eb' by lia. rewrite Ea in Ea'. rewrite Eb in Eb'. inversion Ea'; inversion Eb'; subst.
           rewrite Un. { unfold deref at 1. rewrite nth_upd_eq by auto. auto. }
           intros j Hj' Ej. apply (Hn j (S i)); try lia. congruence.
        -- rewrite (Sh j a' b') by (auto; lia). f_equal. unfold deref. apply nth_upd_neq.
           intros ->. apply (Hn (j - 1) (S i)); try lia. congruence.
Qed.

(** The invariant of the executions. *)
Variables (n m : nat) (v0 : @var B D) (ok : Z -> nat -> Prop).

Definition Inv (a : @abs A) (h : list (list A)) (v : @var B D) : Prop :=
  v_history v = Some n /\ length (v_data v) = n + 1 /\ v_ndof v = v_ndof v0 /\ v_valued v = v_valued v0 /\ v_locked v = v_locked v0 /\
  v_dt v = v_dt v0 /\
  length (arrays a) = m /\ m <= length h /\ (forall i, i < m -> deref h i = nth i (arrays a) [] /\ e <= length (deref h i)) /\
  nth 0 (v_data v) None = cur a /\ (match cur a with Some i => i < m /\ v_indx v = Some (s, e) | None => True end) /\
  (snaps a = [] <-> v_step v = 0) /\ (snaps a <> [] -> cur a <> None) /\
  (forall k, 1 <= k <= n -> match snaps a with
     | [] => nth k (v_data v) None = None
     | _ => exists b, nth k (v_data v) None = Some b /\ m <= b < length h /\ e <= length (deref h b) /\
              part (deref h b) = ago s e a k end) /\
  (forall j k, j < k -> k <= n -> snaps a <> [] -> nth j (v_data v) None <> nth k (v_data v) None).

Lemma advance_ok : forall a h v t, Inv a h v -> cur a <> None ->
  exists h' v', advance t h v = Ok (h', v') /\
  Inv (mkAbs (arrays a) (cur a) (cur_value s e a :: snaps a)) h' v' /\
  v_cache v' = (if 0 <? n then map (fun mc => (fst mc, adv_cache1 n (snd mc))) (v_cache v) else v_cache v) /\
  v_step v' = t + 1.
Proof.
  intros a h v t (Hh & Hl & Hnd & Hv & Hlk & Hdt & Hm & Hmh & Ha & H0 & Hc & Hs & Hsc & Hk & Hd) Cur.
  destruct (cur a) as [i|] eqn:Ec; [|congruence]. clear Cur. destruct Hc as [Him Hix].
  unfold advance. rewrite Hh. cbn [set_vstep v_data v_indx v_cache].
  destruct (Nat.ltb_spec 0 n) as [Hn|Hn].
  2:{ eexists _, _. split; [reflexivity|]. split; [|split; reflexivity].
      unfold Inv. cbn. split; auto. split; auto. split; auto. split; auto. split; auto. split; auto. split; auto. split; auto. split; auto. split; auto.
      split; auto. split; [split; [intros HH; discriminate|intros HH; lia]|]. split; [intros; discriminate|]. split; intros; lia. }
  (* after the first loop *)
  assert (P : exists h1 d, adv_init n 1 h (v_data v) = Ok (h1, d) /\ length d = n + 1 /\ nth 0 d None = Some i /\ m <= length h1 /\
     (forall j, j < m -> deref h1 j = deref h j) /\
     (forall j, 1 <= j <= n -> exists b, nth j d None = Some b /\ m <= b < length h1 /\ e <= length (deref h1 b) /\
        part (deref h1 b) = (match snaps a with [] => cur_value s e a | _ => ago s e a j end)) /\
     (forall j k, j < k -> k <= n -> nth j d None <> nth k d None)).
  { destruct (snaps a) as [|sn sns] eqn:Es.
    - destruct (@adv_init_empty n 1 h (v_data v) i) as (d & E & L & N1 & N2); auto; try lia.
      { intros j Hj. apply Hk. lia. }
      exists (h ++ repeat (deref h i) n), d. split; auto. split; [lia|]. split; [rewrite N1 by lia; auto|].
      split; [rewrite app_length; lia|]. split; [intros; apply deref_app_l; lia|]. split.
      + intros j Hj. rewrite N2 by lia. eexists. split; [reflexivity|]. rewrite app_length, repeat_length. split; [lia|].
        assert (Ed : deref (h ++ repeat (deref h i) n) (length h + (j - 1)) = deref h i).
        { unfold deref. rewrite app_nth2 by lia. rewrite nth_repeat_lt; auto. lia. }
        rewrite Ed. destruct (Ha i Him) as [E1 E2]. split; auto. unfold cur_value. rewrite Ec. rewrite E1. auto.
      + intros j k Hjk Hkn. destruct (Nat.eq_dec j 0) as [->|Hj0].
        * rewrite N1 by lia. rewrite H0. rewrite N2 by lia. intros EE; inversion EE. lia.
        * rewrite !N2 by lia. intros EE; inversion EE. lia.
    - exists h, (v_data v). split; [apply adv_init_full|].
      { intros j Hj. destruct (Hk j) as (b & Eb & _); [lia|]. congruence. }
      split; auto. split; auto. split; auto. split; auto. split; [exact Hk|]. intros; apply Hd; auto. discriminate. }
  destruct P as (h1 & d & E1 & Ld & D0 & Lm & Und & Hdk & Dis). rewrite E1. rewrite Hix.
  destruct (@adv_shift_ok n h1 d) as (h2 & E2 & L2 & LL & Un & Sh).
  { intros j Hj. destruct (Nat.eq_dec j 0) as [->|].
    - exists i. split; auto. split; [lia|]. rewrite Und by lia. apply Ha; auto.
    - destruct (Hdk j) as (b & Eb & Hb & He & _); [lia|]. exists b. repeat split; auto. lia. }
  { auto. }
  rewrite E2. eexists _, _. split; [reflexivity|]. split; [|split; reflexivity].
  assert (Unm : forall j, j < m -> deref h2 j = deref h j).
  { intros j Hj. rewrite Un; [apply Und; auto|]. intros k Hk' Ek. destruct (Hdk k Hk') as (b & Eb & Hb & _). rewrite Ek in Eb. inversion Eb. lia. }
  unfold Inv. cbn [v_history v_data v_step v_indx v_ndof v_locked v_valued v_dt v_cache set_vcache set_vdata set_vstep arrays cur snaps].
  split; auto. split; auto. split; auto. split; auto. split; auto. split; auto. split; auto. split; [lia|]. split.
  { intros j Hj. rewrite Unm by auto. apply Ha; auto. }
  split; auto. split; auto. split; [split; [intros HH; discriminate|intros HH; lia]|]. split; [intros; discriminate|]. split.
  2:{ intros j k Hjk Hkn _. apply Dis; auto. }
  intros k Hk'. destruct (Hdk k Hk') as (b & Eb & Hb & He & Hp). exists b. rewrite L2, LL. split; auto. split; auto. split; auto.
  destruct (Nat.eq_dec k 1) as [->|Hk1].
  - rewrite (Sh 1 b i) by auto. cbn. rewrite Und by auto. unfold cur_value. rewrite Ec. destruct (Ha i Him) as [-> _]. reflexivity.
  - destruct (Hdk (k - 1)) as (c & Ec' & Hc' & _ & Hpc); [lia|]. rewrite (Sh k b c) by auto. rewrite Hpc.
    destruct k as [|[|k]]; try lia. cbn [ago]. replace (S (S k) - 1) with (S k) by lia.
    destruct (snaps a) as [|sn sns] eqn:Es.
    + simpl. destruct k; reflexivity.
    + cbn [ago snaps]. rewrite Es.
      change (nth (S k) (cur_value s e a :: sn :: sns) (last (cur_value s e a :: sn :: sns) [])) with
             (nth k (sn :: sns) (last (sn :: sns) [])). reflexivity.
Qed.

Lemma call_ok : forall a h v, Inv a h v -> cur a <> None ->
  call h v 0 = Ok (cur_value s e a) /\
  (forall k, 1 <= k <= n -> v_step v <> 0 -> call h v (- Z.of_nat k) = Ok (ago s e a k)) /\
  (v_step v = 0 -> call h v (-1) = Ok (cur_value s e a)) /\
  (forall k, n < k -> (v_step v <> 0 \/ k <> 1) -> call h v (- Z.of_nat k) = Err IndexError) /\
  (forall k, 2 <= k <= n -> v_step v = 0 -> call h v (- Z.of_nat k) = Err ValueError).
Proof.
  intros a h v (Hh & Hl & Hnd & Hv & Hlk & Hdt & Hm & Hmh & Ha & H0 & Hc & Hs & Hsc & Hk & Hd) Cur.
  destruct (cur a) as [i|] eqn:Ec; [|congruence]. clear Cur. destruct Hc as [Him Hix].
  assert (PI : forall k, (v_step v <> 0 \/ k <> 1) ->
     (if (v_step v =? 0) && (- Z.of_nat k =? -1)%Z then Some 0 else py_index (length (v_data v)) (- - Z.of_nat k)) =
     (if k <=? n then Some k else None)).
  { intros k Hcond.
    replace ((v_step v =? 0) && (- Z.of_nat k =? -1)%Z) with false.
    2:{ symmetry. destruct (Nat.eqb_spec (v_step v) 0), (Z.eqb_spec (- Z.of_nat k) (-1)); auto. lia. }
    unfold py_index. rewrite Z.opp_involutive, Hl. destruct (Z.leb_spec 0 (Z.of_nat k)); [|lia].
    destruct (Z.ltb_spec (Z.of_nat k) (Z.of_nat (n + 1))), (Nat.leb_spec k n); try lia; auto. rewrite Nat2Z.id; auto. }
  assert (CV : Ok (sub (v_indx v) (deref h i)) = Ok (cur_value s e a)).
  { rewrite Hix. cbn [sub]. unfold cur_value. rewrite Ec. destruct (Ha i Him) as [-> _]. reflexivity. }
  split; [|split; [|split; [|split]]].
  - unfold call. change 0%Z with (- Z.of_nat 0)%Z at 1 2. rewrite PI by lia. cbn [Nat.leb]. rewrite H0. auto.
  - intros k Hk' Hv'. unfold call. rewrite PI by auto. destruct (Nat.leb_spec k n); [|lia].
    pose proof (Hk k Hk') as P. destruct (snaps a) eqn:Es; [destruct Hs as [Hs _]; exfalso; auto|].
    destruct P as (b & -> & Hb & He & Hp). rewrite Hix. cbn [sub]. unfold S_vars.part in Hp. rewrite Hp. reflexivity.
  - intros Hv'. unfold call. rewrite Hv'. cbn. rewrite H0. auto.
  - intros k Hkn Hcond. unfold call. rewrite PI by auto. destruct (Nat.leb_spec k n); [lia|]. auto.
  - intros k Hk' Hv'. unfold call. rewrite PI by lia. destruct (Nat.leb_spec k n); [|lia].
    pose proof (Hk k ltac:(lia)) as P. destruct Hs as [_ Hs]. rewrite (Hs Hv') in P. rewrite P. reflexivity.
Qed.

Lemma eval_frame : forall h (v : @var B D) mode key st dt, exists c, snd (evaluate ev bdiff h v mode key st dt) = set_vcache v c.
Proof.
  intros. unfold evaluate. destruct (kget _ _); [eexists; reflexivity|].
  destruct (compute _ _ _ _ _ _ _ _); eexists; reflexivity.
Qed.

Lemma Inv_cache : forall a h v c, Inv a h v -> Inv a h (set_vcache v c).
Proof. intros a h v c H. exact H. Qed.

Lemma Inv_set : forall a h v i v', Inv a h v -> i < m -> set_data i (Some (s, e)) 0 false h v = Ok v' ->
  Inv (mkAbs (arrays a) (Some i) (snaps a)) h v' /\ v_step v' = v_step v /\
  v_cache v' = map (fun mc => (fst mc, dpop (snd mc) 0%Z)) (v_cache v).
Proof.
  intros a h v i v' (Hh & Hl & Hnd & Hv & Hlk & Hdt & Hm & Hmh & Ha & H0 & Hc & Hs & Hsc & Hk & Hd) Him E.
  unfold set_data in E. destruct (negb _); [discriminate|]. destruct (v_locked v) eqn:El; [discriminate|].
  cbn [fst snd] in E. destruct (negb _) eqn:En; [discriminate|]. destruct (_ || _) eqn:Eo; [discriminate|].
  unfold py_index in E. rewrite Hl in E. simpl (0 <=? 0)%Z in E. cbn iota in E.
  destruct (Z.ltb_spec 0 (Z.of_nat (n + 1))); [|lia]. change (Z.to_nat 0) with 0 in E. cbn iota in E.
  inversion E; subst v'. clear E. split; [|split; [reflexivity|reflexivity]].
  unfold Inv. cbn. rewrite El. split; auto. split; [rewrite length_upd; auto|]. split; auto. split; auto. split; auto. split; auto. split; auto. split; auto.
  split; auto. split; [rewrite nth_upd_eq by lia; auto|]. split; auto. split; auto. split; [intros; discriminate|]. split.
  - intros k Hk'. specialize (Hk k Hk'). destruct (snaps a) eqn:Es.
    + rewrite nth_upd_neq by lia. auto.
    + destruct Hk as (b & Eb & Hb). exists b. rewrite nth_upd_neq by lia. split; auto.
      destruct Hb as (Hb1 & Hb2 & Hb3). split; auto. split; auto. rewrite Hb3. destruct k; [lia|]. cbn [ago snaps]. rewrite Es. auto.
  - intros j k Hjk Hkn Hne. rewrite (nth_upd_neq) with (j := k) by lia. destruct (Nat.eq_dec j 0) as [->|].
    + rewrite nth_upd_eq by lia. specialize (Hk k ltac:(lia)). destruct (snaps a); [congruence|].
      destruct Hk as (b & -> & Hb & _). intros EE; inversion EE. lia.
    + rewrite nth_upd_neq by lia. apply Hd; auto.
Qed.

Lemma Inv_write : forall a h v i x h' v', Inv a h v -> i < m -> length x = length (nth i (arrays a) []) ->
  write_state i x h v = (h', v') ->
  Inv (mkAbs (upd (arrays a) i x) (cur a) (snaps a)) h' v' /\ v_step v' = v_step v /\
  v_cache v' = map (fun mc => (fst mc, dpop (snd mc) 0%Z)) (v_cache v).
Proof.
  intros a h v i x h' v' (Hh & Hl & Hnd & Hv & Hlk & Hdt & Hm & Hmh & Ha & H0 & Hc & Hs & Hsc & Hk & Hd) Him Lx E.
  inversion E; subst h' v'. clear E. split; [|split; reflexivity].
  unfold Inv. cbn. split; auto. split; auto. split; auto. split; auto. split; auto. split; auto. split; [rewrite length_upd; auto|]. split; [rewrite length_upd; auto|].
  split.
  { intros j Hj. destruct (Ha j Hj) as [E1 E2]. unfold deref in *. rewrite !nth_upd. destruct (Nat.eqb_spec j i) as [->|]; cbn [andb]; auto.
    destruct (Nat.ltb_spec i (length h)); [|lia]. destruct (Nat.ltb_spec i (length (arrays a))); [|lia]. split; auto. rewrite Lx, <- E1. auto. }
  split; auto. split; auto. split; auto. split; auto. split; auto.
  intros k Hk'. specialize (Hk k Hk'). destruct (snaps a) eqn:Es; auto.
  destruct Hk as (b & Eb & Hb & Hb2 & Hb3). exists b. rewrite length_upd. split; auto. split; auto.
  assert (EE : deref (upd h i x) b = deref h b) by (unfold deref; apply nth_upd_neq; lia).
  rewrite EE. split; auto. rewrite Hb3. destruct k; [lia|]. cbn [ago snaps]. rewrite Es. reflexivity.
Qed.

Lemma run_Inv : forall a h v, run ev bdiff s e n v0 m ok a h v -> Inv a h v.
Proof.
  intros a h v R. induction R as [H L Hh Hc He|a h v i v' R IH Hi E|a h v i x h' v' R IH Hi Lx E|a h v t h' v' R IH Cn E|a h v mode key st R IH Hok|a h v st R IH|a h v R IH].
  - unfold Inv, init_history. rewrite Hh. cbn. split; auto. split; [rewrite repeat_length; auto|]. split; auto. split; auto. split; auto. split; auto. split; auto.
    split; [lia|]. split; [intros i Hi; split; auto; apply He; apply nth_In; lia|]. split; [replace (n + 1) with (S n) by lia; reflexivity|].
    split; auto. split; [split; auto|]. split; [intros; congruence|]. split; [|intros; congruence].
    intros k Hk. replace (n+1) with (S n) by lia. cbn [repeat]. destruct k; [lia|]. cbn [nth].
    destruct (nth_in_or_default k (repeat (@None nat) n) None) as [Hi|Hi]; auto. apply repeat_spec in Hi. auto.
  - eapply Inv_set; eauto.
  - eapply Inv_write; eauto.
  - destruct (advance_ok t IH Cn) as (h2 & v2 & E2 & I2 & _). rewrite E in E2. inversion E2; subst. auto.
  - destruct (eval_frame h v mode key st None) as (c & ->). apply Inv_cache. auto.
  - apply Inv_cache. auto.
  - apply Inv_cache. auto.
Qed.

End L.
