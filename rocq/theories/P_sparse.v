(** C74: composition of sparse matrices from blocks; C75: saving. *)
From Verif Require Import Base M_sparse.
Set Implicit Arguments.
Local Open Scope Z_scope.

(** ** Specification. *)
(** The matrix entry represented by a list of items. *)
Fixpoint entry (items : list (Z * Z * Z)) (p q : Z) : Z :=
  match items with
  | [] => 0
  | (i, j, v) :: t => (if (i =? p) && (j =? q) then v else 0) + entry t p q
  end.
Definition coo_entry (m : coo) (i j : nat) : Z :=
  entry (map (fun it => let '(a, b, v) := it in (Z.of_nat a, Z.of_nat b, v)) (c_items m))
        (Z.of_nat i) (Z.of_nat j).
Definition block_at (blocks : list (list block)) (ir ic : nat) : block :=
  nth ic (nth ir blocks []) None.
Definition block_entry (b : block) (i j : nat) : Z :=
  match b with None => 0 | Some m => coo_entry m i j end.
Definition nsum (l : list nat) : nat := fold_right Nat.add 0%nat l.
(** The blocks fit into block rows of sizes [R] and block columns of sizes [C]. *)
Definition fit (blocks : list (list block)) (R C : list nat) : Prop :=
  length R = length blocks /\ length C = length (hd [] blocks) /\
  forall ir ic m, block_at blocks ir ic = Some m ->
    (ic < length C)%nat /\ c_nr m = nth ir R 0%nat /\ c_nc m = nth ic C 0%nat.
(** [out] is the block matrix. *)
Definition is_block_matrix (blocks : list (list block)) (R C : list nat) (out : zcoo) : Prop :=
  z_nr out = Z.of_nat (nsum R) /\ z_nc out = Z.of_nat (nsum C) /\
  forall ir ic i j, (ir < length R)%nat -> (ic < length C)%nat ->
    (i < nth ir R 0)%nat -> (j < nth ic C 0)%nat ->
    entry (z_items out) (Z.of_nat (nsum (firstn ir R) + i)) (Z.of_nat (nsum (firstn ic C) + j))
    = block_entry (block_at blocks ir ic) i j.
(** Each block row (column) has a size given, or a nonzero block. *)
Definition rows_known (blocks : list (list block)) (s : sizes) (R : list nat) : Prop :=
  match s with
  | SNone => forall ir, (ir < length blocks)%nat -> exists ic m, block_at blocks ir ic = Some m
  | SInts l => l = R
  | SSlices _ => False
  end.
Definition cols_known (blocks : list (list block)) (s : sizes) (C : list nat) : Prop :=
  match s with
  | SNone => forall ic, (ic < length (hd [] blocks))%nat ->
               exists ir m, block_at blocks ir ic = Some m
  | SInts l => l = C
  | SSlices _ => False
  end.
Definition wf_blocks (blocks : list (list block)) : Prop :=
  forall ir ic m, block_at blocks ir ic = Some m ->
    forall i j v, In (i, j, v) (c_items m) -> (i < c_nr m)%nat /\ (j < c_nc m)%nat.

(** ** Lemmas. *)
Lemma entry_app : forall a b p q, entry (a ++ b) p q = entry a p q + entry b p q.
Proof. induction a as [|[[i j] v] a IH]; intros; simpl; auto. rewrite IH. lia. Qed.
Lemma entry_zero : forall l p q, (forall i j v, In (i, j, v) l -> i <> p \/ j <> q) -> entry l p q = 0.
Proof.
  induction l as [|[[i j] v] l IH]; intros p q H; simpl; auto.
  rewrite IH by (intros; eapply H; simpl; eauto).
  destruct (H i j v) as [E|E]; [simpl; auto| |].
  - apply Z.eqb_neq in E. rewrite E. simpl. lia.
  - apply Z.eqb_neq in E. rewrite E, andb_false_r. lia.
Qed.

Definition ebs := list (nat * nat * coo).
Lemma enum_row_in : forall row ir ic r c m,
  In (r, c, m) (enum_row ir ic row) <-> r = ir /\ (ic <= c)%nat /\ nth (c - ic) row None = Some m.
Proof.
  induction row as [|b t IH]; intros ir ic r c m.
  - simpl. split; [tauto|]. intros (_ & _ & H). destruct (c - ic)%nat; discriminate.
  - cbn [enum_row]. assert (K : forall x, nth (c - ic) (x :: t) None =
                 if Nat.eqb (c - ic) 0 then x else nth (c - ic - 1) t None).
    { intros x. destruct (c - ic)%nat eqn:E; simpl; auto. f_equal. lia. }
    destruct b as [b|]; cbn [In]; rewrite IH; rewrite K; clear K.
    + split.
      * intros [H|(-> & H1 & H2)].
        -- inversion H; subst. rewrite Nat.sub_diag. simpl. auto.
        -- repeat split; auto; [lia|].
           destruct (Nat.eqb_spec (c - ic) 0); [lia|]. rewrite <- H2. f_equal. lia.
      * intros (-> & H1 & H2). destruct (Nat.eqb_spec (c - ic) 0).
        -- left. inversion H2. f_equal. f_equal. lia.
        -- right. repeat split; [lia|]. rewrite <- H2. f_equal. lia.
    + split.
      * intros (-> & H1 & H2). repeat split; auto; [lia|].
        destruct (Nat.eqb_spec (c - ic) 0); [lia|]. rewrite <- H2. f_equal. lia.
      * intros (-> & H1 & H2). destruct (Nat.eqb_spec (c - ic) 0); [discriminate|].
        repeat split; [lia|]. rewrite <- H2. f_equal. lia.
Qed.
Lemma enum_blocks_in : forall blocks k r c m,
  In (r, c, m) (enum_blocks k blocks) <-> (k <= r)%nat /\ block_at blocks (r - k) c = Some m.
Proof.
  unfold block_at. induction blocks as [|row t IH]; intros k r c m; simpl.
  - split; [tauto|]. intros (_ & H). destruct (r - k)%nat, c; discriminate.
  - rewrite in_app_iff, enum_row_in, IH, Nat.sub_0_r. split.
    + intros [(-> & _ & H)|(H1 & H2)].
      * rewrite Nat.sub_diag. auto.
      * split; [lia|]. replace (r - k)%nat with (S (r - S k)) by lia. auto.
    + intros (H1 & H2). destruct (r - k)%nat eqn:E.
      * left. repeat split; auto; lia.
      * right. split; [lia|]. replace (r - S k)%nat with n by lia. auto.
Qed.

(** Sum over the enumeration when only one position contributes. *)
Lemma sum_enum_row : forall (f : nat * nat * coo -> list (Z * Z * Z)) p q ir row ic0 ic,
  (forall c m, In (ir, c, m) (enum_row ir ic0 row) -> c <> ic -> entry (f (ir, c, m)) p q = 0) ->
  entry (flat_map f (enum_row ir ic0 row)) p q =
  if Nat.leb ic0 ic then match nth (ic - ic0) row None with
                         | Some m => entry (f (ir, ic, m)) p q | None => 0 end
  else 0.
Proof.
  intros f p q ir row; induction row as [|b t IH]; intros ic0 ic H.
  - simpl. destruct (Nat.leb ic0 ic); auto. destruct (ic - ic0)%nat; auto.
  - assert (Ht : entry (flat_map f (enum_row ir (S ic0) t)) p q =
       if Nat.leb (S ic0) ic then match nth (ic - S ic0) t None with
                         | Some m => entry (f (ir, ic, m)) p q | None => 0 end else 0).
    { apply IH. intros c m Hc. apply H. simpl. destruct b; simpl; auto. }
    destruct (Nat.leb_spec ic0 ic).
    + destruct (Nat.eq_dec ic0 ic) as [->|Hne].
      * rewrite Nat.sub_diag. simpl nth.
        destruct (Nat.leb_spec (S ic) ic); [lia|].
        destruct b as [m|]; simpl; [|auto]. rewrite entry_app, Ht. lia.
      * destruct (Nat.leb_spec (S ic0) ic); [|lia].
        replace (ic - ic0)%nat with (S (ic - S ic0)) by lia. simpl nth.
        destruct b as [m|]; simpl; auto. rewrite entry_app, Ht, H; simpl; auto; lia.
    + destruct (Nat.leb_spec (S ic0) ic); [lia|].
      destruct b as [m|]; simpl; auto. rewrite entry_app, Ht, H; simpl; auto; lia.
Qed.
Lemma entry_flat_zero : forall A (f : A -> list (Z * Z * Z)) p q l,
  (forall b, In b l -> entry (f b) p q = 0) -> entry (flat_map f l) p q = 0.
Proof.
  intros A f p q l; induction l as [|b l IH]; intros H; simpl; auto.
  rewrite entry_app, H, IH; simpl; auto. intros; apply H; simpl; auto.
Qed.
Lemma sum_enum : forall (f : nat * nat * coo -> list (Z * Z * Z)) p q blocks k ir ic,
  (forall r c m, In (r, c, m) (enum_blocks k blocks) -> r <> ir \/ c <> ic ->
     entry (f (r, c, m)) p q = 0) -> (k <= ir)%nat ->
  entry (flat_map f (enum_blocks k blocks)) p q =
  match block_at blocks (ir - k) ic with Some m => entry (f (ir, ic, m)) p q | None => 0 end.
Proof.
  intros f p q blocks; unfold block_at; induction blocks as [|row t IH]; intros k ir ic H Hk.
  - simpl. destruct (ir - k)%nat, ic; auto.
  - simpl. rewrite flat_map_app, entry_app.
    destruct (Nat.eq_dec k ir) as [->|Hne].
    + rewrite (@sum_enum_row f p q ir row 0 ic).
      * simpl Nat.leb. cbn iota. rewrite Nat.sub_0_r, Nat.sub_diag.
        rewrite (@entry_flat_zero _ f p q (enum_blocks (S ir) t)); [lia|].
        intros [[r c] m] Hb. apply H; [simpl; apply in_app_iff; auto|].
        apply enum_blocks_in in Hb. lia.
      * intros c m Hc Hn. apply H; [simpl; apply in_app_iff; auto|auto].
    + rewrite (@entry_flat_zero _ f p q (enum_row k 0 row)).
      * rewrite IH with (ir := ir) (ic := ic); [|intros; apply H; auto|lia].
        -- replace (ir - k)%nat with (S (ir - S k)) by lia. auto.
        -- simpl; apply in_app_iff; auto.
      * intros [[r c] m] Hb. apply H; [simpl; apply in_app_iff; auto|].
        apply enum_row_in in Hb. lia.
Qed.

(** The size loop. *)
Lemma fix_size_spec : forall rs i n rs', fix_size rs i n = Ok rs' -> (i < length rs)%nat ->
  length rs' = length rs /\ nth i rs' 0 = Z.of_nat n /\
  (forall j, j <> i -> nth j rs' 0 = nth j rs 0) /\
  (nth i rs 0 = -1 \/ nth i rs 0 = Z.of_nat n).
Proof.
  intros rs i n rs' H Hi. unfold fix_size in H.
  destruct (nth i rs 0 =? -1) eqn:E.
  - inversion H; subst. apply Z.eqb_eq in E. split; [apply length_upd|].
    split; [apply nth_upd_eq; auto|]. split; auto. intros j Hj. apply nth_upd_neq; auto.
  - destruct (nth i rs 0 =? Z.of_nat n) eqn:E2; [|discriminate]. inversion H; subst.
    apply Z.eqb_eq in E2. auto.
Qed.
Definition ext (a b : list Z) : Prop :=
  length b = length a /\ forall i, (i < length a)%nat -> nth i a 0 <> -1 -> nth i b 0 = nth i a 0.
Lemma fix_size_ext : forall rs i n rs', fix_size rs i n = Ok rs' -> (i < length rs)%nat -> ext rs rs'.
Proof.
  intros rs i n rs' H Hi. destruct (@fix_size_spec rs i n rs' H Hi) as (H1 & H2 & H3 & H4).
  split; auto. intros j Hj Hn. destruct (Nat.eq_dec j i) as [->|]; auto.
  destruct H4; [contradiction|congruence].
Qed.
Lemma ext_trans : forall a b c, ext a b -> ext b c -> ext a c.
Proof.
  intros a b c [L1 H1] [L2 H2]. split; [congruence|]. intros i Hi Hn.
  rewrite H2; [auto|lia|rewrite H1; auto].
Qed.
Lemma fix_sizes_spec : forall ncs bs rs cs rs' cs', length cs = ncs ->
  (forall r c m, In (r, c, m) bs -> (r < length rs)%nat) ->
  fix_sizes ncs bs rs cs = Ok (rs', cs') ->
  ext rs rs' /\ ext cs cs' /\
  forall r c m, In (r, c, m) bs -> (c < ncs)%nat /\ nth r rs' 0 = Z.of_nat (c_nr m) /\
                nth c cs' 0 = Z.of_nat (c_nc m).
Proof.
  intros ncs bs; induction bs as [|[[r c] m] t IH]; intros rs cs rs' cs' Lc B H; simpl in H.
  - inversion H; subst. repeat split; auto; simpl in *; tauto.
  - destruct (Nat.leb_spec ncs c) as [G|G]; [discriminate|].
    destruct (fix_size rs r (c_nr m)) as [rs1|] eqn:E1; [|discriminate]. simpl in H.
    destruct (fix_size cs c (c_nc m)) as [cs1|] eqn:E2; [|discriminate]. simpl in H.
    assert (Br : (r < length rs)%nat) by (eapply B; simpl; eauto).
    pose proof (@fix_size_ext _ _ _ _ E1 Br) as X1.
    pose proof (@fix_size_ext _ _ _ _ E2 ltac:(lia)) as X2.
    pose proof (@fix_size_spec _ _ _ _ E1 Br) as (_ & S1 & _ & _).
    pose proof (@fix_size_spec _ _ _ _ E2 ltac:(lia)) as (_ & S2 & _ & _).
    assert (Lc1 : length cs1 = ncs) by (rewrite (proj1 X2); auto).
    destruct (IH rs1 cs1 rs' cs' Lc1) as (Y1 & Y2 & Y3); auto.
    { intros r0 c0 m0 Hi. rewrite (proj1 X1). eapply B. simpl; eauto. }
    split; [eapply ext_trans; eauto|]. split; [eapply ext_trans; eauto|].
    intros r0 c0 m0 [Hi|Hi]; [|apply Y3; auto].
    inversion Hi; subst. split; auto. split.
    + rewrite (proj2 Y1); auto; [rewrite (proj1 X1); auto|lia].
    + rewrite (proj2 Y2); auto; lia.
Qed.

Lemma nth_cumsum : forall R a k, (k <= length R)%nat ->
  nth k (cumsum a (map Z.of_nat R)) 0 = a + Z.of_nat (nsum (firstn k R)).
Proof.
  induction R as [|x R IH]; intros a [|k] H; simpl in *; try lia.
  rewrite IH by lia. lia.
Qed.
Lemma last_cumsum : forall R a, last (cumsum a (map Z.of_nat R)) 0 = a + Z.of_nat (nsum R).
Proof.
  induction R as [|x R IH]; intros a; simpl; [lia|].
  specialize (IH (a + Z.of_nat x)). 
  destruct (cumsum (a + Z.of_nat x) (map Z.of_nat R)) eqn:E.
  - destruct R; discriminate.
  - simpl in *. rewrite IH. lia.
Qed.
Lemma nsum_app : forall a b, nsum (a ++ b) = (nsum a + nsum b)%nat.
Proof. induction a; simpl; intros; auto. rewrite IHa. lia. Qed.
Lemma nsum_firstn_S : forall R k, (k < length R)%nat ->
  nsum (firstn (S k) R) = (nsum (firstn k R) + nth k R 0)%nat.
Proof.
  induction R as [|x R IH]; intros [|k] H; simpl in *; try lia.
  rewrite <- Nat.add_assoc, <- IH by lia. auto.
Qed.
Lemma nsum_firstn_mono : forall R k l, (k <= l)%nat -> (nsum (firstn k R) <= nsum (firstn l R))%nat.
Proof.
  intros R k l H. induction H as [|l H IH]; auto.
  destruct (Nat.lt_ge_cases l (length R)).
  - rewrite nsum_firstn_S by auto. lia.
  - rewrite (firstn_all2 (n := S l)) by lia. rewrite (firstn_all2 (n := l)) in IH by lia. auto.
Qed.
Lemma nsum_firstn_all : forall R k, (nsum (firstn k R) <= nsum R)%nat.
Proof.
  intros R k. rewrite <- (firstn_all R) at 2.
  destruct (Nat.le_ge_cases k (length R)).
  - apply nsum_firstn_mono; auto.
  - rewrite (firstn_all2 (n := k)) by lia. rewrite firstn_all. auto.
Qed.
(** Different blocks occupy different rows. *)
Lemma offsets_disjoint : forall R k l i j, (k < length R)%nat -> (l < length R)%nat ->
  (i < nth k R 0)%nat -> (j < nth l R 0)%nat ->
  (nsum (firstn k R) + i)%nat = (nsum (firstn l R) + j)%nat -> k = l /\ i = j.
Proof.
  intros R k l i j Hk Hl Hi Hj E.
  destruct (Nat.lt_trichotomy k l) as [H|[->|H]].
  - pose proof (@nsum_firstn_mono R (S k) l H). rewrite nsum_firstn_S in H0 by auto. lia.
  - split; auto. lia.
  - pose proof (@nsum_firstn_mono R (S l) k H). rewrite nsum_firstn_S in H0 by auto. lia.
Qed.

Lemma known_sizes : forall rs0 rs (n : nat) (P : nat -> Z -> Prop), ext rs0 rs -> length rs0 = n ->
  (forall i, (i < n)%nat -> 0 <= nth i rs 0) -> exists R, rs = map Z.of_nat R /\ length R = n.
Proof.
  intros rs0 rs n _ [L _] <- H. exists (map Z.to_nat rs). split; [|rewrite map_length; auto].
  rewrite map_map. rewrite <- L in H. clear L. induction rs as [|x t IH]; simpl; auto.
  rewrite <- IH.
  - rewrite Z2Nat.id; auto. apply (H 0%nat). simpl; lia.
  - intros i Hi. apply (H (S i)). simpl; lia.
Qed.

Lemma entry_shift : forall (l : list (nat * nat * Z)) a b p q,
  entry (map (fun it => let '(i, j, v) := it in (Z.of_nat i + a, Z.of_nat j + b, v)) l) (a + p) (b + q)
  = entry (map (fun it => let '(i, j, v) := it in (Z.of_nat i, Z.of_nat j, v)) l) p q.
Proof.
  induction l as [|[[i j] v] l IH]; intros; simpl; auto. rewrite IH. f_equal.
  assert (E1 : (Z.of_nat i + a =? a + p) = (Z.of_nat i =? p))
    by (destruct (Z.eqb_spec (Z.of_nat i) p), (Z.eqb_spec (Z.of_nat i + a) (a + p)); auto; lia).
  assert (E2 : (Z.of_nat j + b =? b + q) = (Z.of_nat j =? q))
    by (destruct (Z.eqb_spec (Z.of_nat j) q), (Z.eqb_spec (Z.of_nat j + b) (b + q)); auto; lia).
  rewrite E1, E2. auto.
Qed.

Lemma block_at_row : forall blocks ir ic m, block_at blocks ir ic = Some m -> (ir < length blocks)%nat.
Proof.
  intros blocks ir ic m H. destruct (Nat.lt_ge_cases ir (length blocks)); auto.
  unfold block_at in H. rewrite (nth_overflow blocks) in H by auto. destruct ic; discriminate.
Qed.

(** Blocks at given offsets do not overlap. *)
Definition disjoint_at (O R : list nat) : Prop :=
  forall k l i j, (k < length R)%nat -> (l < length R)%nat ->
    (i < nth k R 0)%nat -> (j < nth l R 0)%nat ->
    (nth k O 0 + i)%nat = (nth l O 0 + j)%nat -> k = l /\ i = j.
(** The items of the composed matrix. *)
Lemma composed_entry_gen : forall blocks R C OR OC ro co, fit blocks R C -> wf_blocks blocks ->
  disjoint_at OR R -> disjoint_at OC C ->
  (forall k, (k < length R)%nat -> nth k ro 0 = Z.of_nat (nth k OR 0%nat)) ->
  (forall k, (k < length C)%nat -> nth k co 0 = Z.of_nat (nth k OC 0%nat)) ->
  forall ir ic i j, (ir < length R)%nat -> (ic < length C)%nat ->
    (i < nth ir R 0)%nat -> (j < nth ic C 0)%nat ->
  entry (flat_map (shift_items ro co) (enum_blocks 0 blocks))
        (Z.of_nat (nth ir OR 0%nat + i)) (Z.of_nat (nth ic OC 0%nat + j))
  = block_entry (block_at blocks ir ic) i j.
Proof.
  intros blocks R C OR OC ro co (LR & LC & HF) W DR DC Hro Hco ir ic i j Hir Hic Hi Hj.
  rewrite (@sum_enum _ _ _ blocks 0 ir ic).
  - rewrite Nat.sub_0_r. unfold block_entry. destruct (block_at blocks ir ic) as [m|]; auto.
    unfold shift_items. rewrite Hro, Hco by auto.
    rewrite !Nat2Z.inj_add, entry_shift. auto.
  - intros r c m Hin Hne. apply enum_blocks_in in Hin. destruct Hin as [_ Hin].
    rewrite Nat.sub_0_r in Hin.
    destruct (HF r c m Hin) as (Hc & Er & Ec).
    pose proof (@block_at_row _ _ _ _ Hin) as Hr.
    apply entry_zero. intros a b v Hab. unfold shift_items in Hab. apply in_map_iff in Hab.
    destruct Hab as [[[a0 b0] v0] [E Hit]]. inversion E; subst a b v0. clear E.
    destruct (W r c m Hin a0 b0 v Hit) as [Ha Hb].
    rewrite Hro, Hco by lia.
    destruct (Nat.eq_dec r ir) as [->|Hr'].
    + right. intros E. destruct Hne as [Hne|Hne]; [congruence|]. apply Hne.
      apply (@DC c ic b0 j); auto; lia.
    + left. intros E. apply Hr'.
      apply (@DR r ir a0 i); auto; lia.
  - lia.
Qed.
Lemma composed_entry : forall blocks R C ro co, fit blocks R C -> wf_blocks blocks ->
  (forall k, (k < length R)%nat -> nth k ro 0 = Z.of_nat (nsum (firstn k R))) ->
  (forall k, (k < length C)%nat -> nth k co 0 = Z.of_nat (nsum (firstn k C))) ->
  forall ir ic i j, (ir < length R)%nat -> (ic < length C)%nat ->
    (i < nth ir R 0)%nat -> (j < nth ic C 0)%nat ->
  entry (flat_map (shift_items ro co) (enum_blocks 0 blocks))
        (Z.of_nat (nsum (firstn ir R) + i)) (Z.of_nat (nsum (firstn ic C) + j))
  = block_entry (block_at blocks ir ic) i j.
Proof.
  intros blocks R C ro co HF W Hro Hco ir ic i j Hir Hic Hi Hj.
  set (OO := fun S' : list nat => map (fun k => nsum (firstn k S')) (seq 0 (length S'))).
  assert (HO : forall S' k, (k < length S')%nat -> nth k (OO S') 0%nat = nsum (firstn k S')).
  { intros S' k Hk. unfold OO. rewrite (@nth_map_in _ _ _ (seq 0 (length S')) k 0%nat 0%nat)
      by (rewrite seq_length; auto). rewrite nth_seq0; auto. }
  assert (HD : forall S', disjoint_at (OO S') S').
  { intros S' k l a b Hk Hl Ha Hb E. rewrite !HO in E by auto.
    apply (@offsets_disjoint S' k l a b); auto. }
  rewrite <- (HO R ir), <- (HO C ic) by auto.
  apply composed_entry_gen with (R := R) (C := C); auto; intros k Hk; rewrite HO; auto.
Qed.

Lemma compose_unfold : forall blocks rz cz, blocks <> [] ->
  sizes_len rz (length blocks) = length blocks ->
  sizes_len cz (length (hd [] blocks)) = length (hd [] blocks) ->
  compose_sparse blocks rz cz =
  let nr := length blocks in
  let nc := length (hd [] blocks) in
  let bs := enum_blocks 0 blocks in
  do sz <- fix_sizes nc bs (init_sizes rz nr) (init_sizes cz nc);
  let '(rs, cs) := sz in
  let '(ro, n_row) := offsets rz rs in
  let '(co, n_col) := offsets cz cs in
  match bs with
  | [] => Err ValueError
  | _ => make_coo n_row n_col (flat_map (shift_items ro co) bs)
  end.
Proof.
  intros blocks rz cz Hne Hr Hc. unfold compose_sparse. destruct blocks as [|row t]; [congruence|].
  simpl hd in *. rewrite Hr, Hc, !Nat.eqb_refl. reflexivity.
Qed.
Lemma init_sizes_length : forall s n, sizes_len s n = n -> length (init_sizes s n) = n.
Proof. intros [|l|l] n H; simpl in *; rewrite ?repeat_length, ?map_length; auto. Qed.

Lemma offsets_ints : forall s R, match s with SSlices _ => False | _ => True end ->
  offsets s (map Z.of_nat R) = (cumsum 0 (map Z.of_nat R), Z.of_nat (nsum R)).
Proof.
  intros s R H. destruct s; simpl; try contradiction; rewrite last_cumsum; auto.
Qed.

(** ** C74: a successful composition is the block matrix. *)
Theorem C74_compose : forall blocks rz cz out,
  wf_blocks blocks ->
  (rz = SNone -> forall ir, (ir < length blocks)%nat -> exists ic m, block_at blocks ir ic = Some m) ->
  (cz = SNone -> forall ic, (ic < length (hd [] blocks))%nat ->
     exists ir m, block_at blocks ir ic = Some m) ->
  (forall l, rz <> SSlices l) -> (forall l, cz <> SSlices l) ->
  compose_sparse blocks rz cz = Ok out ->
  exists R C, fit blocks R C /\ (forall l, rz = SInts l -> R = l) /\
    (forall l, cz = SInts l -> C = l) /\ is_block_matrix blocks R C out.
Proof.
  intros blocks rz cz out W Kr Kc Nr Nc H.
  assert (Hne : blocks <> []) by (intros ->; discriminate).
  assert (Hr : sizes_len rz (length blocks) = length blocks).
  { destruct blocks as [|row t]; [congruence|]. unfold compose_sparse in H.
    destruct (Nat.eqb_spec (sizes_len rz (length (row :: t))) (length (row :: t))); auto. discriminate. }
  assert (Hc : sizes_len cz (length (hd [] blocks)) = length (hd [] blocks)).
  { destruct blocks as [|row t]; [congruence|]. unfold compose_sparse in H. rewrite Hr, Nat.eqb_refl in H.
    simpl in *. destruct (Nat.eqb_spec (sizes_len cz (length row)) (length row)); auto. discriminate. }
  rewrite compose_unfold in H by auto. cbv zeta in H.
  set (nr := length blocks) in *. set (nc := length (hd [] blocks)) in *.
  destruct (fix_sizes nc (enum_blocks 0 blocks) (init_sizes rz nr) (init_sizes cz nc))
    as [[rs cs]|] eqn:E; [|discriminate]. simpl in H.
  pose proof (@fix_sizes_spec nc (enum_blocks 0 blocks) (init_sizes rz nr) (init_sizes cz nc) rs cs
                (@init_sizes_length cz _ Hc)) as FS.
  destruct FS with (2 := E) as (X1 & X2 & X3).
  { intros r c m Hin. apply enum_blocks_in in Hin. destruct Hin as [_ Hin].
    rewrite Nat.sub_0_r in Hin. rewrite (@init_sizes_length rz _ Hr). eapply block_at_row; eauto. }
  assert (PR : forall i, (i < nr)%nat -> 0 <= nth i rs 0).
  { intros i Hi. destruct rz as [|l|l].
    - destruct (Kr eq_refl i Hi) as [ic [m Hm]].
      destruct (X3 i ic m) as (_ & -> & _); [|lia].
      apply enum_blocks_in. rewrite Nat.sub_0_r. split; [lia|auto].
    - rewrite (proj2 X1); simpl; rewrite ?map_length; simpl in Hr; [|lia|];
        change 0 with (Z.of_nat 0); rewrite map_nth; lia.
    - exfalso; eapply Nr; eauto. }
  assert (PC : forall i, (i < nc)%nat -> 0 <= nth i cs 0).
  { intros i Hi. destruct cz as [|l|l].
    - destruct (Kc eq_refl i Hi) as [ir [m Hm]].
      destruct (X3 ir i m) as (_ & _ & ->); [|lia].
      apply enum_blocks_in. rewrite Nat.sub_0_r. split; [lia|auto].
    - rewrite (proj2 X2); simpl; rewrite ?map_length; simpl in Hc; [|lia|];
        change 0 with (Z.of_nat 0); rewrite map_nth; lia.
    - exfalso; eapply Nc; eauto. }
  destruct (@known_sizes _ rs nr (fun _ _ => True) X1 (@init_sizes_length rz _ Hr) PR) as [R [ER LR]].
  destruct (@known_sizes _ cs nc (fun _ _ => True) X2 (@init_sizes_length cz _ Hc) PC) as [C [EC LC]].
  assert (HF : fit blocks R C).
  { split; [auto|]. split; [auto|]. intros ir ic m Hm.
    destruct (X3 ir ic m) as (Hic & E1 & E2).
    { apply enum_blocks_in. rewrite Nat.sub_0_r. split; [lia|auto]. }
    split; [lia|]. rewrite ER in E1. rewrite EC in E2.
    change 0 with (Z.of_nat 0) in E1, E2. rewrite map_nth in E1, E2. lia. }
  exists R, C. split; auto.
  assert (IJ : forall a b, map Z.of_nat a = map Z.of_nat b -> a = b).
  { intros a b Hab. apply (f_equal (map Z.to_nat)) in Hab. rewrite !map_map in Hab.
    rewrite <- (map_id a), <- (map_id b).
    rewrite (map_ext _ (fun x => Z.to_nat (Z.of_nat x))) with (l := a) by (intros; lia).
    rewrite (map_ext _ (fun x => Z.to_nat (Z.of_nat x))) with (l := b) by (intros; lia). auto. }
  assert (GI : forall s n sz S', ext (init_sizes s n) sz -> sizes_len s n = n -> sz = map Z.of_nat S' ->
            length S' = n -> forall l, s = SInts l -> S' = l).
  { intros s n sz S' [XL XE] Hs Es Ls l ->. simpl in *. subst sz. apply IJ.
    rewrite map_length in XL, XE.
    apply list_ext with (d := 0); auto. rewrite !map_length in *; lia.
    intros k Hk. apply XE; [rewrite map_length in *; lia|].
    change 0 with (Z.of_nat 0). rewrite map_nth. lia. }
  split; [eapply GI; eauto|]. split; [eapply GI; eauto|].
  rewrite ER, EC in H.
  rewrite !offsets_ints in H.
  2:{ destruct cz; auto. eapply Nc; eauto. }
  2:{ destruct rz; auto. eapply Nr; eauto. }
  assert (Hm : make_coo (Z.of_nat (nsum R)) (Z.of_nat (nsum C))
     (flat_map (shift_items (cumsum 0 (map Z.of_nat R)) (cumsum 0 (map Z.of_nat C)))
        (enum_blocks 0 blocks)) = Ok out).
  { destruct (enum_blocks 0 blocks); [discriminate|exact H]. }
  unfold make_coo in Hm. destruct (_ && _) in Hm; [|discriminate]. inversion Hm. subst out.
  split; [reflexivity|]. split; [reflexivity|]. cbn [z_items].
  intros ir ic i j Hir Hic Hi Hj.
  apply composed_entry; auto; intros k Hk; rewrite nth_cumsum; lia.
Qed.

(** Slices: the blocks are put at the starts of their slices, anywhere; the
    shape is given by the ends of the last slices. *)
Theorem C74_compose_slices : forall blocks rl cl out,
  wf_blocks blocks ->
  (forall p, In p (rl ++ cl) -> (fst p <= snd p)%nat) ->
  disjoint_at (map fst rl) (map (fun p => snd p - fst p)%nat rl) ->
  disjoint_at (map fst cl) (map (fun p => snd p - fst p)%nat cl) ->
  compose_sparse blocks (SSlices rl) (SSlices cl) = Ok out ->
  fit blocks (map (fun p => snd p - fst p)%nat rl) (map (fun p => snd p - fst p)%nat cl) /\
  z_nr out = Z.of_nat (snd (last rl (0, 0)%nat)) /\ z_nc out = Z.of_nat (snd (last cl (0, 0)%nat)) /\
  forall ir ic i j, (ir < length rl)%nat -> (ic < length cl)%nat ->
    let r := nth ir rl (0, 0)%nat in let c := nth ic cl (0, 0)%nat in
    (i < snd r - fst r)%nat -> (j < snd c - fst c)%nat ->
    entry (z_items out) (Z.of_nat (fst r + i)) (Z.of_nat (fst c + j))
    = block_entry (block_at blocks ir ic) i j.
Proof.
  intros blocks rl cl out W Ho DR DC H.
  assert (Hne : blocks <> []) by (intros ->; discriminate).
  assert (Hr : length rl = length blocks).
  { destruct blocks as [|row t]; [congruence|]. unfold compose_sparse in H.
    destruct (Nat.eqb_spec (sizes_len (SSlices rl) (length (row :: t))) (length (row :: t))); auto. discriminate. }
  assert (Hc : length cl = length (hd [] blocks)).
  { destruct blocks as [|row t]; [congruence|]. unfold compose_sparse in H.
    cbn [sizes_len] in H. rewrite Hr, Nat.eqb_refl in H.
    simpl in *. destruct (Nat.eqb_spec (length cl) (length row)); auto. discriminate. }
  rewrite compose_unfold in H by auto. cbv zeta in H.
  set (nr := length blocks) in *. set (nc := length (hd [] blocks)) in *.
  set (R := map (fun p => snd p - fst p)%nat rl) in *.
  set (C := map (fun p => snd p - fst p)%nat cl) in *.
  assert (IR : init_sizes (SSlices rl) nr = map Z.of_nat R).
  { simpl. unfold R. rewrite map_map. apply map_ext_in. intros p Hp.
    specialize (Ho p ltac:(apply in_app_iff; auto)). lia. }
  assert (IC : init_sizes (SSlices cl) nc = map Z.of_nat C).
  { simpl. unfold C. rewrite map_map. apply map_ext_in. intros p Hp.
    specialize (Ho p ltac:(apply in_app_iff; auto)). lia. }
  rewrite IR, IC in H.
  assert (LR : length R = nr) by (unfold R; rewrite map_length; auto).
  assert (LC : length C = nc) by (unfold C; rewrite map_length; auto).
  destruct (fix_sizes nc (enum_blocks 0 blocks) (map Z.of_nat R) (map Z.of_nat C))
    as [[rs cs]|] eqn:E; [|discriminate]. simpl in H.
  pose proof (@fix_sizes_spec nc (enum_blocks 0 blocks) (map Z.of_nat R) (map Z.of_nat C) rs cs
                ltac:(rewrite map_length; auto)) as FS.
  destruct FS with (2 := E) as (X1 & X2 & X3).
  { intros r c m Hin. apply enum_blocks_in in Hin. destruct Hin as [_ Hin].
    rewrite Nat.sub_0_r in Hin. rewrite map_length, LR. eapply block_at_row; eauto. }
  assert (NR : forall k, (k < nr)%nat -> nth k rs 0 = Z.of_nat (nth k R 0%nat)).
  { intros k Hk. rewrite (proj2 X1); rewrite ?map_length; try lia;
      change 0 with (Z.of_nat 0); rewrite map_nth; auto; lia. }
  assert (NC : forall k, (k < nc)%nat -> nth k cs 0 = Z.of_nat (nth k C 0%nat)).
  { intros k Hk. rewrite (proj2 X2); rewrite ?map_length; try lia;
      change 0 with (Z.of_nat 0); rewrite map_nth; auto; lia. }
  assert (HF : fit blocks R C).
  { split; [auto|]. split; [auto|]. intros ir ic m Hm.
    destruct (X3 ir ic m) as (Hic & E1 & E2).
    { apply enum_blocks_in. rewrite Nat.sub_0_r. split; [lia|auto]. }
    pose proof (@block_at_row _ _ _ _ Hm). rewrite NR in E1 by auto. rewrite NC in E2 by auto. lia. }
  split; auto.
  assert (Hm : make_coo (Z.of_nat (snd (last rl (0, 0)%nat))) (Z.of_nat (snd (last cl (0, 0)%nat)))
     (flat_map (shift_items (map (fun p => Z.of_nat (fst p)) rl) (map (fun p => Z.of_nat (fst p)) cl))
        (enum_blocks 0 blocks)) = Ok out).
  { destruct (enum_blocks 0 blocks); [discriminate|exact H]. }
  unfold make_coo in Hm. destruct (_ && _) in Hm; [|discriminate]. inversion Hm. subst out.
  split; [reflexivity|]. split; [reflexivity|]. cbn [z_items].
  intros ir ic i j Hir Hic Hi Hj.
  assert (Nf : forall (l : list (nat * nat)) k, (k < length l)%nat -> nth k (map fst l) 0%nat = fst (nth k l (0, 0)%nat))
    by (intros l k Hk; apply nth_map_in; auto).
  rewrite <- !Nf by auto.
  apply composed_entry_gen with (R := R) (C := C); auto; try lia.
  - intros k Hk. rewrite LR in Hk. rewrite (@nth_map_in _ _ _ rl k (0, 0)%nat 0) by lia. rewrite Nf; auto; lia.
  - intros k Hk. rewrite LC in Hk. rewrite (@nth_map_in _ _ _ cl k (0, 0)%nat 0) by lia. rewrite Nf; auto; lia.
  - unfold R. rewrite (@nth_map_in _ _ _ rl ir (0, 0)%nat 0%nat) by auto. auto.
  - unfold C. rewrite (@nth_map_in _ _ _ cl ic (0, 0)%nat 0%nat) by auto. auto.
Qed.
Example C74_slices_ex : compose_sparse [[Some (mkcoo 1 2 [(0%nat, 1%nat, 4)]); Some (mkcoo 1 1 [(0%nat, 0%nat, 6)])]]
    (SSlices [(1, 2)]%nat) (SSlices [(1, 3); (4, 5)]%nat)
  = Ok (mkzcoo 2 5 [(1, 2, 4); (1, 4, 6)]).
Proof. reflexivity. Qed.

(** Conversely: blocks that fit are composed. *)
Lemma fix_size_ok : forall rs i n, nth i rs 0 = -1 \/ nth i rs 0 = Z.of_nat n ->
  exists rs', fix_size rs i n = Ok rs'.
Proof.
  intros rs i n H. unfold fix_size. destruct (nth i rs 0 =? -1) eqn:E; eauto.
  apply Z.eqb_neq in E. destruct H as [H|H]; [congruence|]. rewrite H, Z.eqb_refl. eauto.
Qed.
Definition agrees (R : list nat) (rs : list Z) : Prop :=
  length rs = length R /\
  forall i, (i < length R)%nat -> nth i rs 0 = -1 \/ nth i rs 0 = Z.of_nat (nth i R 0%nat).
Lemma fix_size_agrees : forall R rs i rs', agrees R rs -> (i < length R)%nat ->
  fix_size rs i (nth i R 0%nat) = Ok rs' -> agrees R rs'.
Proof.
  intros R rs i rs' [L A] Hi H.
  destruct (@fix_size_spec rs i _ rs' H ltac:(lia)) as (H1 & H2 & H3 & H4).
  split; [congruence|]. intros j Hj. destruct (Nat.eq_dec j i) as [->|Hn]; auto.
  rewrite H3; auto.
Qed.
Lemma fix_sizes_ok : forall R C bs rs cs, agrees R rs -> agrees C cs ->
  (forall r c m, In (r, c, m) bs -> (r < length R)%nat /\ (c < length C)%nat /\
     c_nr m = nth r R 0%nat /\ c_nc m = nth c C 0%nat) ->
  exists rs' cs', fix_sizes (length C) bs rs cs = Ok (rs', cs') /\ agrees R rs' /\ agrees C cs'.
Proof.
  intros R C bs; induction bs as [|[[r c] m] t IH]; intros rs cs AR AC H; simpl.
  - eauto.
  - destruct (H r c m) as (Hr & Hc & E1 & E2); [simpl; auto|].
    destruct (Nat.leb_spec (length C) c); [lia|].
    destruct (@fix_size_ok rs r (c_nr m)) as [rs1 F1]; [rewrite E1; apply AR; auto|].
    destruct (@fix_size_ok cs c (c_nc m)) as [cs1 F2]; [rewrite E2; apply AC; auto|].
    rewrite F1, F2. simpl. apply IH.
    + rewrite E1 in F1. eapply fix_size_agrees; eauto.
    + rewrite E2 in F2. eapply fix_size_agrees; eauto.
    + intros; apply H; simpl; auto.
Qed.
Lemma agrees_init : forall s R n, sizes_len s n = n -> length R = n ->
  (s = SNone \/ s = SInts R) -> agrees R (init_sizes s n).
Proof.
  intros s R n Hs L [-> | ->]; simpl.
  - split; [rewrite repeat_length; auto|]. intros i Hi. left. rewrite nth_repeat_lt; auto; lia.
  - split; [apply map_length|]. intros i Hi. right. change 0 with (Z.of_nat 0). apply map_nth.
Qed.

Theorem C74_compose_succeeds : forall blocks rz cz R C, blocks <> [] ->
  wf_blocks blocks -> fit blocks R C ->
  (rz = SInts R \/ rz = SNone /\
     forall ir, (ir < length blocks)%nat -> exists ic m, block_at blocks ir ic = Some m) ->
  (cz = SInts C \/ cz = SNone /\
     forall ic, (ic < length (hd [] blocks))%nat -> exists ir m, block_at blocks ir ic = Some m) ->
  (exists ir ic m, block_at blocks ir ic = Some m) ->
  exists out, compose_sparse blocks rz cz = Ok out /\ is_block_matrix blocks R C out.
Proof.
  intros blocks rz cz R C Hne W HF HR HC Hex.
  pose proof HF as (LR & LC & HB).
  assert (Sr : sizes_len rz (length blocks) = length blocks)
    by (destruct HR as [-> | [-> _]]; simpl; auto).
  assert (Sc : sizes_len cz (length (hd [] blocks)) = length (hd [] blocks))
    by (destruct HC as [-> | [-> _]]; simpl; auto).
  assert (NR : forall l, rz <> SSlices l) by (intros l; destruct HR as [-> | [-> _]]; discriminate).
  assert (NC : forall l, cz <> SSlices l) by (intros l; destruct HC as [-> | [-> _]]; discriminate).
  assert (EX : exists out, compose_sparse blocks rz cz = Ok out).
  { rewrite compose_unfold by auto. cbv zeta.
    destruct (@fix_sizes_ok R C (enum_blocks 0 blocks)
                (init_sizes rz (length blocks)) (init_sizes cz (length (hd [] blocks))))
      as (rs & cs & E & A1 & A2).
    - apply agrees_init; auto. destruct HR as [-> | [-> _]]; auto.
    - apply agrees_init; auto. destruct HC as [-> | [-> _]]; auto.
    - intros r c m Hin. apply enum_blocks_in in Hin. rewrite Nat.sub_0_r in Hin.
      destruct Hin as [_ Hin]. destruct (HB r c m Hin) as (Q1 & Q2 & Q3).
      pose proof (@block_at_row _ _ _ _ Hin). repeat split; auto; lia.
    - rewrite LC in E. rewrite E. simpl.
      pose proof (@fix_sizes_spec _ (enum_blocks 0 blocks) (init_sizes rz (length blocks)) _ rs cs
                    (@init_sizes_length cz _ Sc)) as FS.
      destruct FS with (2 := E) as (X1 & X2 & X3).
      { intros r c m Hin. apply enum_blocks_in in Hin. rewrite Nat.sub_0_r in Hin.
        rewrite (@init_sizes_length rz _ Sr). eapply block_at_row; apply Hin. }
      assert (ER : rs = map Z.of_nat R).
      { apply list_ext with (d := 0); [rewrite map_length; apply A1|].
        intros k Hk. rewrite (proj1 A1) in Hk. change 0 with (Z.of_nat 0). rewrite map_nth.
        destruct HR as [-> | [-> K]].
        - simpl in X1. rewrite (proj2 X1); rewrite ?map_length; auto;
            change 0 with (Z.of_nat 0); rewrite map_nth; auto; lia.
        - destruct (K k) as [ic [m Hm]]; [lia|].
          destruct (X3 k ic m) as (_ & E1 & _).
          + apply enum_blocks_in. rewrite Nat.sub_0_r. split; [lia|auto].
          + change 0 with (Z.of_nat 0) in E1. rewrite E1. destruct (HB k ic m Hm) as (_ & -> & _). auto. }
      assert (EC : cs = map Z.of_nat C).
      { apply list_ext with (d := 0); [rewrite map_length; apply A2|].
        intros k Hk. rewrite (proj1 A2) in Hk. change 0 with (Z.of_nat 0). rewrite map_nth.
        destruct HC as [-> | [-> K]].
        - simpl in X2. rewrite (proj2 X2); rewrite ?map_length; auto;
            change 0 with (Z.of_nat 0); rewrite map_nth; auto; lia.
        - destruct (K k) as [ir [m Hm]]; [lia|].
          destruct (X3 ir k m) as (_ & _ & E1).
          + apply enum_blocks_in. rewrite Nat.sub_0_r. split; [lia|auto].
          + change 0 with (Z.of_nat 0) in E1. rewrite E1. destruct (HB ir k m Hm) as (_ & _ & ->). auto. }
      rewrite ER, EC.
      rewrite !offsets_ints.
      2:{ destruct cz; auto. eapply NC; eauto. }
      2:{ destruct rz; auto. eapply NR; eauto. }
      destruct Hex as (ir & ic & m & Hm).
      assert (Hin0 : In (ir, ic, m) (enum_blocks 0 blocks)).
      { apply enum_blocks_in. rewrite Nat.sub_0_r. split; [lia|auto]. }
      set (bs := enum_blocks 0 blocks) in *.
      assert (G : forall it, In it (flat_map (shift_items (cumsum 0 (map Z.of_nat R))
                    (cumsum 0 (map Z.of_nat C))) bs) ->
                  let '(i, j, _) := it in 0 <= i < Z.of_nat (nsum R) /\ 0 <= j < Z.of_nat (nsum C)).
      { intros it Hit. apply in_flat_map in Hit. destruct Hit as [[[r c] m'] [Hb Hit]].
        apply enum_blocks_in in Hb. rewrite Nat.sub_0_r in Hb. destruct Hb as [_ Hb].
        destruct (HB r c m' Hb) as (Q1 & Q2 & Q3). pose proof (@block_at_row _ _ _ _ Hb) as Q4.
        unfold shift_items in Hit. apply in_map_iff in Hit. destruct Hit as [[[a b] v] [<- Hit]].
        destruct (W r c m' Hb a b v Hit) as [Wa Wb].
        rewrite !nth_cumsum by lia.
        pose proof (@nsum_firstn_all R (S r)) as B1. rewrite nsum_firstn_S in B1 by lia.
        pose proof (@nsum_firstn_all C (S c)) as B2. rewrite nsum_firstn_S in B2 by lia.
        lia. }
      destruct bs as [|b0 bs'] eqn:Ebs; [destruct Hin0|]. rewrite <- Ebs in *.
      unfold make_coo.
      replace (0 <=? Z.of_nat (nsum R)) with true by (symmetry; apply Z.leb_le; lia).
      replace (0 <=? Z.of_nat (nsum C)) with true by (symmetry; apply Z.leb_le; lia).
      simpl andb.
      match goal with |- context [if forallb ?f ?l then _ else _] =>
        replace (forallb f l) with true; [eauto|] end.
      symmetry. apply forallb_forall. intros [[i j] v] Hit. specialize (G _ Hit). simpl in G.
      rewrite !andb_true_iff, !Z.leb_le, !Z.ltb_lt. lia. }
  destruct EX as [out E]. exists out. split; auto.
  destruct (@C74_compose blocks rz cz out W) as (R' & C' & F' & G1 & G2 & G3); auto.
  - intros ->. destruct HR as [HR|[_ HR]]; [discriminate|auto].
  - intros ->. destruct HC as [HC|[_ HC]]; [discriminate|auto].
  - assert (R' = R).
    { destruct HR as [-> | [-> K]]; [apply G1; auto|].
      destruct F' as (LR' & LC' & HB').
      apply list_ext with (d := 0%nat); [congruence|]. intros k Hk.
      destruct (K k) as (ic & m & Hm); [lia|].
      destruct (HB k ic m Hm) as (_ & <- & _). destruct (HB' k ic m Hm) as (_ & <- & _). auto. }
    assert (C' = C).
    { destruct HC as [-> | [-> K]]; [apply G2; auto|].
      destruct F' as (LR' & LC' & HB').
      apply list_ext with (d := 0%nat); [congruence|]. intros k Hk.
      destruct (K k) as (ir & m & Hm); [lia|].
      destruct (HB ir k m Hm) as (_ & _ & <-). destruct (HB' ir k m Hm) as (_ & _ & <-). auto. }
    subst. auto.
Qed.

(** Witness: the Stokes-like example of the docstring. *)
Example C74_ex : compose_sparse [[Some (mkcoo 2 2 [(0%nat, 0%nat, 1); (1%nat, 1%nat, 1)]);
                                  Some (mkcoo 2 1 [(0%nat, 0%nat, 1); (1%nat, 0%nat, 1)])];
                                 [Some (mkcoo 1 2 [(0%nat, 0%nat, 1); (0%nat, 1%nat, 1)]); None]] SNone SNone
  = Ok (mkzcoo 3 3 [(0,0,1); (1,1,1); (0,2,1); (1,2,1); (2,0,1); (2,1,1)]).
Proof. reflexivity. Qed.
(** Sizes that do not fit are rejected. *)
Example C74_ex_bad : compose_sparse [[Some (mkcoo 2 2 []); Some (mkcoo 3 1 [])]] SNone SNone = Err ValueError.
Proof. reflexivity. Qed.

(** Finding: an undetermined block row (no nonzero block and no size given) is
    not reported - a matrix of a wrong shape is returned instead of
    ValueError('incomplete row block sizes!'). *)
Theorem C74_incomplete_sizes_refuted : exists blocks out,
  wf_blocks blocks /\ (exists ir, (ir < length blocks)%nat /\ forall ic, block_at blocks ir ic = None) /\
  compose_sparse blocks SNone SNone = Ok out /\ z_nr out = 1 /\ z_nc out = 1 /\
  exists m, block_at blocks 0 0 = Some m /\ c_nr m = 2%nat.
Proof.
  exists [[Some (mkcoo 2 2 [(0%nat, 0%nat, 5)]); None]; [None; None]].
  eexists. split; [|split; [|split; [reflexivity|split; [reflexivity|split; [reflexivity|eexists; split; reflexivity]]]]].
  - intros [|[|[|ir]]] [|[|[|ic]]] m H; cbv in H; try discriminate.
    inversion H; subst. simpl. intros i j v [E|[]]. inversion E; subst. lia.
  - exists 1%nat. split; [simpl; lia|]. intros [|[|[|ic]]]; reflexivity.
Qed.
(** Finding: all-zero blocks with given sizes raise ValueError. *)
Theorem C74_all_zero_refuted : compose_sparse [[None]] (SInts [2%nat]) (SInts [2%nat]) = Err ValueError.
Proof. reflexivity. Qed.
(** ** C75: save_sparse_txt. *)
(** The items of a CSR matrix. *)
Definition csr_wf (m : csx) : Prop :=
  length (x_indptr m) = S (x_nr m) /\ nth 0 (x_indptr m) 0%nat = 0%nat /\
  nth (x_nr m) (x_indptr m) 0%nat = length (x_data m) /\
  length (x_indices m) = length (x_data m) /\
  forall k, (k < x_nr m)%nat -> (nth k (x_indptr m) 0 <= nth (S k) (x_indptr m) 0)%nat.
(** Each stored item is written once, in the storage order, with its row. *)
Theorem C75_save_csr : forall m, x_csr m = true -> csr_wf m ->
  exists items, save_sparse_txt m = Ok (x_nr m, x_nc m, length (x_data m), items) /\
    length items = length (x_data m) /\
    forall k, (k < length (x_data m))%nat ->
      exists r, nth k items (0%nat, 0%nat, 0) = (r, nth k (x_indices m) 0%nat, nth k (x_data m) 0) /\
        (r < x_nr m)%nat /\ (nth r (x_indptr m) 0 <= k < nth (S r) (x_indptr m) 0)%nat.
Proof.
  intros m Hc (W1 & W2 & W3 & W4 & W5). unfold save_sparse_txt. rewrite Hc.
  eexists; split; [reflexivity|].
  set (g := fun (ir ii : nat) => (ir, nth ii (x_indices m) 0%nat, nth ii (x_data m) 0)).
  change (flat_map (fun ir => map (fun ii => (ir, nth ii (x_indices m) 0%nat, nth ii (x_data m) 0))
            (ptr_range (x_indptr m) ir)) (seq 0 (x_nr m)))
    with (flat_map (fun ir => map (g ir) (ptr_range (x_indptr m) ir)) (seq 0 (x_nr m))).
  assert (G : forall n, (n <= x_nr m)%nat ->
     let l := flat_map (fun ir => map (g ir) (ptr_range (x_indptr m) ir)) (seq 0 n) in
     length l = nth n (x_indptr m) 0%nat /\
     forall k, (k < nth n (x_indptr m) 0)%nat -> exists r, nth k l (0%nat, 0%nat, 0) = g r k /\
        (r < n)%nat /\ (nth r (x_indptr m) 0 <= k < nth (S r) (x_indptr m) 0)%nat).
  { induction n as [|n IH]; intros Hn l.
    - unfold l. simpl. split; [auto|]. intros k Hk. lia.
    - destruct (IH ltac:(lia)) as [L Q]. clear IH. unfold l. rewrite seq_S, flat_map_app. simpl.
      rewrite app_nil_r. pose proof (W5 n ltac:(lia)) as Le. split.
      + rewrite app_length, L, map_length. unfold ptr_range. rewrite seq_length. lia.
      + intros k Hk. destruct (Nat.lt_ge_cases k (nth n (x_indptr m) 0%nat)) as [B|B].
        * rewrite app_nth1 by lia. destruct (Q k B) as [r [Q1 [Q2 Q3]]]. exists r. split; auto. 
        * exists n. split; [|lia]. rewrite app_nth2 by lia. rewrite L.
          assert (Bk : (k - nth n (x_indptr m) 0 < length (ptr_range (x_indptr m) n))%nat)
            by (unfold ptr_range; rewrite seq_length; lia).
          rewrite (@nth_map_in _ _ (g n) _ _ 0%nat (0%nat, 0%nat, 0)) by auto.
          unfold ptr_range. rewrite seq_nth by (unfold ptr_range in Bk; rewrite seq_length in Bk; auto).
          f_equal. lia. }
  destruct (G (x_nr m) (le_n _)) as [L Q]. rewrite W3 in L, Q. split; auto.
Qed.
(** Finding: CSC matrices with at least one row cannot be saved. *)
Theorem C75_save_csc_refuted : forall m, x_csr m = false -> (0 < x_nr m)%nat ->
  save_sparse_txt m = Err NameError.
Proof. intros m H Hn. unfold save_sparse_txt. rewrite H. destruct (x_nr m); [lia|auto]. Qed.
Example C75_ex : save_sparse_txt (mkcsx true 2 2 [0; 1; 3]%nat [1; 0; 1]%nat [7; 8; 9])
  = Ok (2, 2, 3, [(0, 1, 7%Z); (1, 0, 8%Z); (1, 1, 9%Z)])%nat.
Proof. reflexivity. Qed.
Print Assumptions C75_save_csr.
Print Assumptions C74_compose.
Print Assumptions C74_compose_slices.
Print Assumptions C74_compose_succeeds.
