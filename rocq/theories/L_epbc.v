From Coq Require Import String Relations.
From Verif Require Import Base M_dofs S_dofs L_chains.
Open Scope nat_scope.
Set Implicit Arguments.

Definition fresh (ms : list Z) (p : nat * nat) : Prop :=
  nth (fst p) ms 0%Z = 0%Z /\ nth (snd p) ms 0%Z = 0%Z.

Lemma nz_spec : forall ms x, nz ms x = true <-> nth x ms 0%Z <> 0%Z.
Proof.
  intros. unfold nz. rewrite negb_true_iff, Z.eqb_neq. tauto.
Qed.

Lemma nth_combine : forall A B (a : list A) (b : list B) k da db,
  length a = length b -> k < length a -> nth k (combine a b) (da, db) = (nth k a da, nth k b db).
Proof. intros. apply combine_nth; auto. Qed.

Lemma in_combine_nth : forall A B (a : list A) (b : list B) x y da db, length a = length b ->
  (In (x, y) (combine a b) <-> exists k, k < length a /\ x = nth k a da /\ y = nth k b db).
Proof.
  intros A B a b x y da db Hl. split.
  - intros H. destruct (In_nth _ _ (da, db) H) as (k & Hk & E).
    rewrite combine_length, <- Hl, Nat.min_id in Hk. rewrite nth_combine in E by auto.
    injection E as <- <-. eauto.
  - intros (k & Hk & -> & ->). rewrite <- nth_combine by auto. apply nth_In.
    rewrite combine_length, <- Hl, Nat.min_id. auto.
Qed.

Lemma take_all : forall A (d : A) l, take d l (seq 0 (length l)) = l.
Proof.
  intros. apply list_ext with (d := d).
  - rewrite length_take, seq_length; auto.
  - rewrite length_take, seq_length. intros i Hi.
    rewrite nth_take by (rewrite seq_length; auto). rewrite nth_seq0; auto.
Qed.

(** The two assignments [ms[meq[ii]] = seq[ii]+1; ms[seq[ii]] = -meq[ii]-1]. *)
Definition set_pairs (ms : list Z) (meq sq ii : list nat) : list Z :=
  put (put ms (take 0 meq ii) (map (fun s => Z.of_nat s + 1)%Z (take 0 sq ii)))
      (take 0 sq ii) (map (fun m => - Z.of_nat m - 1)%Z (take 0 meq ii)).

Lemma take_nodup : forall (l ii : list nat), NoDup l -> NoDup ii -> (forall i, In i ii -> i < length l) ->
  NoDup (take 0 l ii).
Proof.
  intros l ii Hl Hi Hb. unfold take.
  induction Hi as [|i ii Hni Hnd IH]; simpl; constructor.
  - intros H. apply in_map_iff in H. destruct H as (j & E & Hj).
    apply (proj1 (NoDup_nth l 0) Hl) in E; try (apply Hb; simpl; auto). subst; auto.
  - apply IH. intros; apply Hb; simpl; auto.
Qed.

Lemma set_pairs_spec : forall ms meq sq ii,
  length meq = length sq -> NoDup (meq ++ sq) -> NoDup ii ->
  (forall i, In i ii -> i < length meq) ->
  (forall x, In x (meq ++ sq) -> x < length ms) ->
  length (set_pairs ms meq sq ii) = length ms /\
  (forall k, In k ii -> nth (nth k meq 0) (set_pairs ms meq sq ii) 0%Z = (Z.of_nat (nth k sq 0%nat) + 1)%Z
                     /\ nth (nth k sq 0) (set_pairs ms meq sq ii) 0%Z = (- Z.of_nat (nth k meq 0%nat) - 1)%Z) /\
  (forall x, (forall k, In k ii -> x <> nth k meq 0 /\ x <> nth k sq 0) ->
     nth x (set_pairs ms meq sq ii) 0%Z = nth x ms 0%Z).
Proof.
  intros ms meq sq ii Hl Hnd Hni Hb Hr.
  assert (Hm : NoDup meq) by (apply NoDup_app_remove_r in Hnd; auto).
  assert (Hs : NoDup sq) by (apply NoDup_app_remove_l in Hnd; auto).
  assert (Hdisj : forall x, In x meq -> ~ In x sq).
  { intros x H1 H2. clear -Hnd H1 H2. induction meq as [|y t IH]; simpl in *; [tauto|].
    inversion Hnd; subst. destruct H1 as [->|H1]; [apply H3; apply in_or_app; auto|]. auto. }
  unfold set_pairs. split; [rewrite !length_put; auto|].
  assert (Htm : NoDup (take 0 meq ii)) by (apply take_nodup; auto).
  assert (Hts : NoDup (take 0 sq ii)) by (apply take_nodup; auto; intros; rewrite <- Hl; auto).
  assert (Hbm : forall i, In i (take 0 meq ii) -> i < length ms).
  { intros i Hi. apply in_map_iff in Hi. destruct Hi as (k & <- & Hk).
    apply Hr. apply in_or_app. left. apply nth_In. auto. }
  assert (Hbs : forall i, In i (take 0 sq ii) -> i < length ms).
  { intros i Hi. apply in_map_iff in Hi. destruct Hi as (k & <- & Hk).
    apply Hr. apply in_or_app. right. apply nth_In. rewrite <- Hl. auto. }
  split.
  - intros k Hk. destruct (In_nth _ _ 0 Hk) as (j & Hj & <-).
    assert (E1 : nth (nth j ii 0) meq 0 = nth j (take 0 meq ii) 0) by (rewrite nth_take; auto).
    assert (E2 : nth (nth j ii 0) sq 0 = nth j (take 0 sq ii) 0) by (rewrite nth_take; auto).
    split.
    + rewrite put_notin.
      * rewrite E1, put_nth; auto; rewrite ?map_length, ?length_take; auto.
        rewrite nth_map_in with (da := 0) by (rewrite length_take; auto). rewrite <- E2; auto.
      * intros Hin. apply in_map_iff in Hin. destruct Hin as (q & E & Hq).
        apply (Hdisj (nth (nth j ii 0) meq 0)); [apply nth_In; auto|].
        rewrite <- E. apply nth_In. rewrite <- Hl; auto.
    + rewrite E2, put_nth; auto; rewrite ?map_length, ?length_take, ?length_put; auto.
      rewrite nth_map_in with (da := 0) by (rewrite length_take; auto). rewrite <- E1; auto.
  - intros x Hx. rewrite !put_notin; auto; intros Hin; apply in_map_iff in Hin;
      destruct Hin as (q & E & Hq); destruct (Hx q Hq); congruence.
Qed.

Lemma epbc_register_spec : forall ms ch meq sq ms' ch',
  epbc_register ms ch meq sq = (ms', ch') ->
  length meq = length sq -> NoDup (meq ++ sq) ->
  (forall x, In x (meq ++ sq) -> x < length ms) ->
  length ms' = length ms /\
  (forall k, k < length meq -> fresh ms (nth k meq 0, nth k sq 0) ->
     nth (nth k meq 0) ms' 0%Z = (Z.of_nat (nth k sq 0%nat) + 1)%Z /\
     nth (nth k sq 0) ms' 0%Z = (- Z.of_nat (nth k meq 0%nat) - 1)%Z) /\
  (forall x, (forall k, k < length meq -> fresh ms (nth k meq 0, nth k sq 0) ->
                x <> nth k meq 0 /\ x <> nth k sq 0) ->
     nth x ms' 0%Z = nth x ms 0%Z) /\
  (forall a b, In (a, b) ch' <-> In (a, b) ch \/
     exists k, k < length meq /\ ~ fresh ms (nth k meq 0, nth k sq 0) /\
       ((a, b) = (nth k meq 0, nth k sq 0) \/
        (nth (nth k meq 0) ms 0%Z <> 0%Z /\ (a, b) = (nth k meq 0, partner ms (nth k meq 0))) \/
        (nth (nth k sq 0) ms 0%Z <> 0%Z /\ (a, b) = (nth k sq 0, partner ms (nth k sq 0))))).
Proof.
  intros ms ch meq sq ms' ch' H Hl Hnd Hr.
  set (m_as := nonzero (nz ms) meq) in *. set (s_as := nonzero (nz ms) sq) in *.
  assert (Hma : forall k, In k m_as <-> k < length meq /\ nth (nth k meq 0) ms 0%Z <> 0%Z).
  { intros k. unfold m_as. rewrite (nonzero_spec _ 0), nz_spec. tauto. }
  assert (Hsa : forall k, In k s_as <-> k < length meq /\ nth (nth k sq 0) ms 0%Z <> 0%Z).
  { intros k. unfold s_as. rewrite (nonzero_spec _ 0), nz_spec, Hl. tauto. }
  assert (Hfr : forall k, k < length meq ->
            (fresh ms (nth k meq 0, nth k sq 0) <-> ~ In k m_as /\ ~ In k s_as)).
  { intros k Hk. unfold fresh. simpl. rewrite Hma, Hsa.
    destruct (Z.eq_dec (nth (nth k meq 0) ms 0%Z) 0), (Z.eq_dec (nth (nth k sq 0) ms 0%Z) 0); intuition. }
  assert (Hcase : (m_as = [] /\ s_as = []) \/
     (ms' = set_pairs ms meq sq (setdiff1d (seq 0 (length meq)) (union1d m_as s_as)) /\
      ch' = ch ++ map (fun m => (m, partner ms m)) (take 0 meq m_as)
               ++ map (fun s => (s, partner ms s)) (take 0 sq s_as)
               ++ combine (take 0 meq m_as) (take 0 sq m_as)
               ++ combine (take 0 meq (setdiff1d s_as m_as)) (take 0 sq (setdiff1d s_as m_as)))).
  { unfold epbc_register in H. fold m_as s_as in H.
    destruct m_as as [|x m_as']; destruct s_as as [|y s_as']; [left; auto|right..];
      injection H as <- <-; auto. }
  destruct Hcase as [[Em Es]|[E1 E2]].
  - (* nothing assigned *)
    assert (E : ms' = set_pairs ms meq sq (seq 0 (length meq)) /\ ch' = ch).
    { unfold epbc_register in H. fold m_as s_as in H. rewrite Em, Es in H.
      injection H as <- <-. split; auto. unfold set_pairs. rewrite take_all.
      rewrite Hl, take_all. auto. }
    destruct E as [-> ->].
    assert (Hallfresh : forall k, k < length meq -> fresh ms (nth k meq 0, nth k sq 0)).
    { intros k Hk. apply Hfr; auto. rewrite Em, Es. simpl; auto. }
    destruct (@set_pairs_spec ms meq sq (seq 0 (length meq))) as (S1 & S2 & S3); auto.
    { apply seq_NoDup. } { intros i Hi. apply in_seq in Hi; lia. }
    split; [auto|]. split; [|split].
    + intros k Hk _. apply S2. apply in_seq; lia.
    + intros x Hx. apply S3. intros k Hk. apply in_seq in Hk. apply Hx; [lia|]. apply Hallfresh; lia.
    + intros a b. split; auto. intros [|(k & Hk & Hn & _)]; auto. exfalso; apply Hn; auto.
  - assert (Hii : forall k, In k (setdiff1d (seq 0 (length meq)) (union1d m_as s_as)) <->
               k < length meq /\ fresh ms (nth k meq 0, nth k sq 0)).
    { intros k. rewrite setdiff1d_In, union1d_In, in_seq. split.
      - intros [A B]. split; [lia|]. apply Hfr; [lia|tauto].
      - intros [A B]. apply Hfr in B; auto. split; [lia|tauto]. }
    destruct (@set_pairs_spec ms meq sq (setdiff1d (seq 0 (length meq)) (union1d m_as s_as))) as (S1 & S2 & S3); auto.
    { apply sinc_NoDup, setdiff1d_sinc. } { intros i Hi. apply Hii in Hi; tauto. }
    rewrite <- E1 in S1, S2, S3. split; [auto|]. split; [|split].
    + intros k Hk Hf. apply S2. apply Hii; auto.
    + intros x Hx. apply S3. intros k Hk. apply Hii in Hk. destruct Hk; apply Hx; auto.
    + intros a b. rewrite E2. rewrite !in_app_iff.
      assert (P1 : In (a, b) (map (fun m => (m, partner ms m)) (take 0 meq m_as)) <->
                   exists k, In k m_as /\ (a, b) = (nth k meq 0, partner ms (nth k meq 0))).
      { unfold take. rewrite map_map, in_map_iff. split; intros (k & A & B); exists k; auto. }
      assert (P2 : In (a, b) (map (fun s => (s, partner ms s)) (take 0 sq s_as)) <->
                   exists k, In k s_as /\ (a, b) = (nth k sq 0, partner ms (nth k sq 0))).
      { unfold take. rewrite map_map, in_map_iff. split; intros (k & A & B); exists k; auto. }
      assert (P3 : forall l, In (a, b) (combine (take 0 meq l) (take 0 sq l)) <->
                   exists k, In k l /\ (a, b) = (nth k meq 0, nth k sq 0)).
      { intros l. rewrite (in_combine_nth (take 0 meq l) (take 0 sq l) a b 0 0)
          by (rewrite !length_take; auto). rewrite length_take. split.
        - intros (j & Hj & -> & ->). rewrite !nth_take by auto. exists (nth j l 0).
          split; auto. apply nth_In; auto.
        - intros (k & Hk & E). injection E as -> ->. destruct (In_nth _ _ 0 Hk) as (j & Hj & <-).
          exists j. rewrite !nth_take by auto. auto. }
      rewrite P1, P2, !P3. split.
      * intros [A|[(k & A & B)|[(k & A & B)|[(k & A & B)|(k & A & B)]]]]; auto; right; exists k.
        -- pose proof (proj1 (Hma k) A) as [A1 A2]. split; auto. split; [|auto].
           rewrite Hfr by auto. tauto.
        -- pose proof (proj1 (Hsa k) A) as [A1 A2]. split; auto. split; [|auto].
           rewrite Hfr by auto. tauto.
        -- pose proof (proj1 (Hma k) A) as [A1 A2]. split; auto. split; [|auto].
           rewrite Hfr by auto. tauto.
        -- apply setdiff1d_In in A. destruct A as [A _].
           pose proof (proj1 (Hsa k) A) as [A1 A2]. split; auto. split; [|auto].
           rewrite Hfr by auto. tauto.
      * intros [A|(k & Hk & Hn & B)]; auto. destruct B as [B|[[B1 B2]|[B1 B2]]].
        -- destruct (in_dec Nat.eq_dec k m_as) as [D|D].
           ++ right; right; right; left. exists k; auto.
           ++ right; right; right; right. exists k. split; auto. apply setdiff1d_In. split; auto.
              destruct (in_dec Nat.eq_dec k s_as); auto. exfalso; apply Hn; apply Hfr; auto.
        -- right; left. exists k. split; auto. apply Hma; auto.
        -- right; right; left. exists k. split; auto. apply Hsa; auto.
Qed.

(** ** Sequences of EPBCs: one list of pairs per condition. *)
Definition ends (ps : list (nat * nat)) : list nat := map fst ps ++ map snd ps.

Definition reg_step (reg : list nat) (ps : list (nat * nat)) : list nat :=
  reg ++ ends (filter (fun p => negb (memb (fst p) reg) && negb (memb (snd p) reg)) ps).

(** The exact bookkeeping condition under which chains are resolved right:
    a DOF that occurs again is registered. *)
Fixpoint okP (n : nat) (reg occ : list nat) (P : list (list (nat * nat))) : Prop :=
  match P with
  | [] => True
  | ps :: t =>
      NoDup (ends ps) /\ (forall x, In x (ends ps) -> x < n) /\
      (forall x, In x (ends ps) -> In x occ -> In x reg) /\
      okP n (reg_step reg ps) (occ ++ ends ps) t
  end.

Definition reg_run (st : list Z * list (nat * nat)) (P : list (list (nat * nat))) : list Z * list (nat * nat) :=
  fold_left (fun s ps => epbc_register (fst s) (snd s) (map fst ps) (map snd ps)) P st.

Record jinv (n : nat) (A : list (nat * nat)) (reg occ : list nat) (ms : list Z) (ch : list (nat * nat)) : Prop := {
  j_len : length ms = n;
  j_reg : forall x, nth x ms 0%Z <> 0%Z <-> In x reg;
  j_regocc : incl reg occ;
  j_bound : forall x, In x occ -> x < n;
  j_occ : forall x, touched A x <-> In x occ;
  j_pos : forall x y, nth x ms 0%Z = (Z.of_nat y + 1)%Z -> x <> y /\ nth y ms 0%Z = (- Z.of_nat x - 1)%Z;
  j_neg : forall x, (nth x ms 0 < 0)%Z -> exists y, nth x ms 0%Z = (- Z.of_nat y - 1)%Z /\
                                                 nth y ms 0%Z = (Z.of_nat x + 1)%Z;
  j_chA : forall a b, In (a, b) ch -> linked A a b;
  j_msA : forall x y, nth x ms 0%Z = (Z.of_nat y + 1)%Z -> linked A x y;
  j_A : forall a b, In (a, b) A -> nth a ms 0%Z = (Z.of_nat b + 1)%Z \/ linked ch a b;
  j_close : forall x y, touched ch x -> nth x ms 0%Z = (Z.of_nat y + 1)%Z \/ nth x ms 0%Z = (- Z.of_nat y - 1)%Z ->
                        linked ch x y;
  j_chocc : forall x, touched ch x -> In x occ }.

Lemma jinv_init : forall n, jinv n [] [] [] (repeat 0%Z n) [].
Proof.
  intros n.
  assert (H0 : forall x, nth x (repeat 0%Z n) 0%Z = 0%Z).
  { intros x. destruct (Nat.lt_ge_cases x n).
    - apply nth_repeat_lt; auto.
    - apply nth_overflow. rewrite repeat_length; auto. }
  constructor; simpl; intros; rewrite ?H0 in *; try tauto; try lia.
  all: try apply repeat_length.
  all: try (match goal with H : touched [] _ |- _ => destruct H as (? & [[]|[]]) end).
  - intros x H; destruct H.
  - split; [intros (y & [[]|[]])|tauto].
Qed.

Lemma touched_app : forall p q x, touched (p ++ q) x <-> touched p x \/ touched q x.
Proof.
  intros. unfold touched. setoid_rewrite in_app_iff. firstorder.
Qed.

Lemma touched_ends : forall ps x, touched ps x <-> In x (ends ps).
Proof.
  intros. unfold touched, ends. rewrite in_app_iff, !in_map_iff. split.
  - intros (y & [H|H]); [left; exists (x, y)|right; exists (y, x)]; auto.
  - intros [([a b] & <- & H)|([a b] & <- & H)]; simpl; eauto.
Qed.

Lemma partner_pos : forall ms x y, nth x ms 0%Z = (Z.of_nat y + 1)%Z -> partner ms x = y.
Proof. intros ms x y H. unfold partner. rewrite H. lia. Qed.
Lemma partner_neg : forall ms x y, nth x ms 0%Z = (- Z.of_nat y - 1)%Z -> partner ms x = y.
Proof. intros ms x y H. unfold partner. rewrite H. lia. Qed.

Lemma jinv_step : forall n A reg occ ms ch ps ms' ch',
  jinv n A reg occ ms ch -> NoDup (ends ps) -> (forall x, In x (ends ps) -> x < n) ->
  (forall x, In x (ends ps) -> In x occ -> In x reg) ->
  epbc_register ms ch (map fst ps) (map snd ps) = (ms', ch') ->
  jinv n (A ++ ps) (reg_step reg ps) (occ ++ ends ps) ms' ch'.
Proof.
  intros n A reg occ ms ch ps ms' ch' J Hnd Hb Hocc HR.
  assert (Hlen : length (map fst ps) = length (map snd ps)) by (rewrite !map_length; auto).
  destruct (epbc_register_spec _ _ _ _ HR Hlen Hnd) as (R1 & R2 & R3 & R4).
  { rewrite (j_len J). exact Hb. }
  assert (Hpk : forall k, k < length (map fst ps) ->
     In (nth k (map fst ps) 0, nth k (map snd ps) 0) ps /\
     nth k ps (0,0) = (nth k (map fst ps) 0, nth k (map snd ps) 0)).
  { intros k Hk. rewrite map_length in Hk.
    rewrite !nth_map_in with (da := (0,0)) by auto. rewrite <- surjective_pairing.
    split; auto. apply nth_In; auto. }
  assert (Hkp : forall a b, In (a, b) ps -> exists k, k < length (map fst ps) /\
            a = nth k (map fst ps) 0 /\ b = nth k (map snd ps) 0).
  { intros a b Hab. destruct (In_nth _ _ (0,0) Hab) as (k & Hk & E).
    exists k. rewrite map_length. split; auto.
    rewrite !nth_map_in with (da := (0,0)) by auto. rewrite E; auto. }
  (* a DOF has at most one pair in ps *)
  assert (Huniq : forall a b c d, In (a, b) ps -> In (c, d) ps ->
            (a = c \/ b = d -> (a, b) = (c, d)) /\ a <> d).
  { intros a b c d H1 H2. destruct (Hkp _ _ H1) as (k & Hk & -> & ->).
    destruct (Hkp _ _ H2) as (j & Hj & -> & ->).
    assert (N1 : NoDup (map fst ps)) by (eapply NoDup_app_remove_r; exact Hnd).
    assert (N2 : NoDup (map snd ps)) by (eapply NoDup_app_remove_l; exact Hnd).
    split.
    - intros [E|E].
      + apply (proj1 (NoDup_nth _ 0) N1) in E; auto. subst; auto.
      + apply (proj1 (NoDup_nth _ 0) N2) in E; auto; try lia. subst; auto.
    - intros E.
      assert (D : forall (u v : list nat) x, NoDup (u ++ v) -> In x u -> ~ In x v).
      { clear. induction u as [|y t IH]; intros v x H1 H2 H3; simpl in *; [tauto|].
        inversion H1; subst. destruct H2 as [->|H2]; [apply H4; apply in_or_app; auto|].
        eapply IH; eauto. }
      apply (D _ _ (nth k (map fst ps) 0) Hnd).
      + apply nth_In; auto.
      + rewrite E. apply nth_In. lia. }
  assert (HF : forall a b, In (a, b) ps -> fresh ms (a, b) ->
     nth a ms' 0%Z = (Z.of_nat b + 1)%Z /\ nth b ms' 0%Z = (- Z.of_nat a - 1)%Z).
  { intros a b Hab Hf. destruct (Hkp _ _ Hab) as (k & Hk & -> & ->). auto. }
  assert (HK : forall x, (forall a b, In (a, b) ps -> fresh ms (a, b) -> x <> a /\ x <> b) ->
     nth x ms' 0%Z = nth x ms 0%Z).
  { intros x Hx. apply R3. intros k Hk Hf. apply Hx; auto. apply Hpk; auto. }
  assert (HC : forall a b, In (a, b) ch' <-> In (a, b) ch \/
     exists m s, In (m, s) ps /\ ~ fresh ms (m, s) /\
       ((a, b) = (m, s) \/ (nth m ms 0%Z <> 0%Z /\ (a, b) = (m, partner ms m)) \/
        (nth s ms 0%Z <> 0%Z /\ (a, b) = (s, partner ms s)))).
  { intros a b. rewrite R4. split; intros [H|H]; auto; right.
    - destruct H as (k & Hk & Hf & H). eexists _, _. split; [apply (Hpk k Hk)|]. auto.
    - destruct H as (m & s & Hms & Hf & H). destruct (Hkp _ _ Hms) as (k & Hk & -> & ->). eauto. }
  clear R1 R2 R3 R4.
  (* endpoint membership *)
  assert (He1 : forall a b, In (a, b) ps -> In a (ends ps) /\ In b (ends ps)).
  { intros a b H. split; apply touched_ends; [exists b|exists a]; auto. }
  assert (Hfocc : forall a b, In (a, b) ps -> fresh ms (a, b) -> ~ In a occ /\ ~ In b occ).
  { intros a b H [F1 F2]. simpl in *. destruct (He1 _ _ H) as [E1 E2].
    split; intros Ho; apply Hocc in Ho; auto; apply (j_reg J) in Ho; congruence. }
  assert (Hfresh_dec : forall p, {fresh ms p} + {~ fresh ms p}).
  { intros [a b]. unfold fresh. simpl.
    destruct (Z.eq_dec (nth a ms 0%Z) 0), (Z.eq_dec (nth b ms 0%Z) 0); intuition. }
  assert (Hold : forall x, nth x ms 0%Z <> 0%Z -> nth x ms' 0%Z = nth x ms 0%Z).
  { intros x Hx. apply HK. intros a b _ [F1 F2]. simpl in *. split; congruence. }
  (* classification of ms' *)
  assert (Hcls : forall x, (exists b, In (x, b) ps /\ fresh ms (x, b)) \/
                           (exists a, In (a, x) ps /\ fresh ms (a, x)) \/
                           nth x ms' 0%Z = nth x ms 0%Z).
  { intros x.
    destruct (existsb (fun p => ((fst p =? x) || (snd p =? x)) && if Hfresh_dec p then true else false) ps) eqn:E.
    - apply existsb_exists in E. destruct E as ([a b] & Hin & E). apply andb_true_iff in E.
      destruct E as [E F]. destruct (Hfresh_dec (a, b)); [|discriminate].
      apply orb_true_iff in E. rewrite !Nat.eqb_eq in E. simpl in E. destruct E as [-> | ->]; eauto.
    - right; right. apply HK. intros a b Hab Hf.
      assert (Hn : ~ (a = x \/ b = x)); [|split; intros ->; tauto].
      intros Hor.
      assert (existsb (fun p => ((fst p =? x) || (snd p =? x)) && if Hfresh_dec p then true else false) ps = true); [|congruence].
      apply existsb_exists. exists (a, b). split; auto. simpl.
      destruct (Hfresh_dec (a, b)); [|contradiction].
      destruct Hor as [-> | ->]; rewrite Nat.eqb_refl; rewrite ?orb_true_r; auto. }
  assert (Hpt : forall m, nth m ms 0%Z <> 0%Z -> exists pm, partner ms m = pm /\
      (nth m ms 0%Z = (Z.of_nat pm + 1)%Z \/ nth m ms 0%Z = (- Z.of_nat pm - 1)%Z) /\
      linked A m pm /\ In pm reg /\
      (nth pm ms 0%Z = (Z.of_nat m + 1)%Z \/ nth pm ms 0%Z = (- Z.of_nat m - 1)%Z)).
  { intros m Hm. destruct (Z.lt_ge_cases (nth m ms 0%Z) 0) as [L|L].
    - destruct (j_neg J _ L) as (y & E1 & E2). exists y. split; [apply partner_neg; auto|].
      repeat split; auto.
      + apply rst_sym. apply (j_msA J); auto.
      + apply (j_reg J). lia.
    - assert (E : nth m ms 0%Z = (Z.of_nat (Z.to_nat (nth m ms 0%Z - 1)) + 1)%Z) by lia.
      set (y := Z.to_nat (nth m ms 0%Z - 1)) in *. destruct (j_pos J _ _ E) as [N E2].
      exists y. split; [apply partner_pos; auto|].
      repeat split; auto.
      + apply (j_msA J); auto.
      + apply (j_reg J). lia. }
  assert (HregS : forall x, In x (reg_step reg ps) <-> In x reg \/
            exists a b, In (a, b) ps /\ fresh ms (a, b) /\ (x = a \/ x = b)).
  { intros x. unfold reg_step. rewrite in_app_iff, <- touched_ends. unfold touched.
    assert (HFe : forall a b, In (a, b) (filter (fun p => negb (memb (fst p) reg) && negb (memb (snd p) reg)) ps)
               <-> In (a, b) ps /\ fresh ms (a, b)).
    { intros a b. rewrite filter_In, andb_true_iff, !negb_true_iff, !memb_false. simpl.
      unfold fresh. simpl. rewrite <- !(j_reg J).
      destruct (Z.eq_dec (nth a ms 0%Z) 0), (Z.eq_dec (nth b ms 0%Z) 0); intuition. }
    setoid_rewrite HFe. split.
    - intros [|(y & [[H1 H2]|[H1 H2]])]; auto; right; eauto 6.
    - intros [|(a & b & H1 & H2 & [-> | ->])]; eauto. }
  assert (HchA : forall a b, In (a, b) ch' -> linked (A ++ ps) a b).
  { intros a b Hab. apply HC in Hab. destruct Hab as [Hab|(m & s & Hms & Hf & Hab)].
    - apply (j_chA J) in Hab. revert Hab. apply linked_incl. intros z Hz; apply in_or_app; auto.
    - destruct Hab as [Hab|[[Hn Hab]|[Hn Hab]]].
      + injection Hab as -> ->. apply rst_step. apply in_or_app; auto.
      + injection Hab as -> ->. destruct (Hpt m Hn) as (pm & -> & _ & L & _).
        revert L. apply linked_incl. intros z Hz; apply in_or_app; auto.
      + injection Hab as -> ->. destruct (Hpt s Hn) as (pm & -> & _ & L & _).
        revert L. apply linked_incl. intros z Hz; apply in_or_app; auto. }
  constructor.
  - (* len *)
    unfold epbc_register in HR.
    destruct (nonzero (nz ms) (map fst ps)); destruct (nonzero (nz ms) (map snd ps));
      injection HR as <- _; rewrite !length_put; apply (j_len J).
  - (* reg *)
    intros x. rewrite HregS. split.
    + intros Hx. destruct (Hcls x) as [(b & H1 & H2)|[(a & H1 & H2)|E]].
      * right; exists x, b; auto.
      * right; exists a, x; auto.
      * left. apply (j_reg J). congruence.
    + intros [Hx|(a & b & H1 & H2 & [-> | ->])].
      * apply (j_reg J) in Hx. rewrite Hold; auto.
      * destruct (HF _ _ H1 H2) as [E _]. lia.
      * destruct (HF _ _ H1 H2) as [_ E]. lia.
  - (* reg incl occ *)
    intros x Hx. apply HregS in Hx. apply in_or_app. destruct Hx as [Hx|(a & b & H1 & H2 & [-> | ->])].
    + left. apply (j_regocc J); auto.
    + right. apply (He1 _ _ H1).
    + right. apply (He1 _ _ H1).
  - (* bound *)
    intros x Hx. apply in_app_or in Hx. destruct Hx; auto. apply (j_bound J); auto.
  - (* occ *)
    intros x. rewrite touched_app, in_app_iff, (j_occ J), touched_ends. tauto.
  - (* pos *)
    intros x y E. destruct (Hcls x) as [(b & H1 & H2)|[(a & H1 & H2)|E2]].
    + destruct (HF _ _ H1 H2) as [E1 E2]. assert (b = y) by lia. subst b. split; auto.
      apply (Huniq _ _ _ _ H1 H1).
    + destruct (HF _ _ H1 H2) as [_ E1]. lia.
    + rewrite E2 in E. destruct (j_pos J _ _ E) as [N E3]. split; auto.
      rewrite Hold; auto. lia.
  - (* neg *)
    intros x E. destruct (Hcls x) as [(b & H1 & H2)|[(a & H1 & H2)|E2]].
    + destruct (HF _ _ H1 H2) as [E1 E2]. lia.
    + destruct (HF _ _ H1 H2) as [E1 E2]. eauto.
    + rewrite E2 in E. destruct (j_neg J _ E) as (y & E3 & E4). exists y. rewrite E2. split; auto.
      rewrite Hold; auto. lia.
  - exact HchA.
  - (* msA *)
    intros x y E. destruct (Hcls x) as [(b & H1 & H2)|[(a & H1 & H2)|E2]].
    + destruct (HF _ _ H1 H2) as [E1 E2]. assert (b = y) by lia. subst b.
      apply rst_step. apply in_or_app; auto.
    + destruct (HF _ _ H1 H2) as [E1 E2]. lia.
    + rewrite E2 in E. apply (j_msA J) in E. revert E. apply linked_incl. intros z Hz; apply in_or_app; auto.
  - (* A *)
    intros a b Hab. apply in_app_or in Hab. destruct Hab as [Hab|Hab].
    + destruct (j_A J _ _ Hab) as [E|L].
      * left. rewrite Hold; auto. lia.
      * right. revert L. apply linked_incl. intros [u v] Hz. apply HC; auto.
    + destruct (Hfresh_dec (a, b)) as [F|F].
      * left. apply (HF _ _ Hab F).
      * right. apply rst_step. apply HC. right. exists a, b. auto.
  - (* close *)
    intros x y Ht E.
    assert (Hmono : forall u v, linked ch u v -> linked ch' u v).
    { intros u v. apply linked_incl. intros [c d] Hz. apply HC; auto. }
    (* a fresh DOF of ps is not touched by ch' *)
    assert (Hnf : forall a b, In (a, b) ps -> fresh ms (a, b) -> ~ touched ch' a /\ ~ touched ch' b).
    { intros a b Hab Hf.
      assert (Hgen : forall z, z = a \/ z = b -> ~ touched ch' z).
      { intros z Hz Htz.
        assert (Hzocc : ~ In z occ) by (destruct (Hfocc _ _ Hab Hf); destruct Hz as [-> | ->]; auto).
        assert (Hzreg : ~ In z reg) by (intros Q; apply Hzocc; apply (j_regocc J); auto).
        assert (Hms : forall m s, In (m, s) ps -> ~ fresh ms (m, s) -> z <> m /\ z <> s).
        { intros m s Hms Hnf. destruct (Huniq _ _ _ _ Hab Hms) as [U1 U2].
          destruct (Huniq _ _ _ _ Hms Hab) as [U3 U4].
          destruct Hz as [-> | ->]; split; auto; intros ->; apply Hnf.
          - rewrite <- U1; auto.
          - rewrite <- U1; auto. }
        assert (Hpart : forall m, nth m ms 0%Z <> 0%Z -> z <> partner ms m).
        { intros m Hm ->. destruct (Hpt m Hm) as (pm & Epm & _ & _ & Hr & _). rewrite <- Epm in Hr. auto. }
        destruct Htz as (w & [Hw|Hw]); apply HC in Hw;
          destruct Hw as [Hw|(m & s & H1 & H2 & H3)].
        - apply Hzocc. apply (j_chocc J). exists w; auto.
        - destruct (Hms _ _ H1 H2) as [N1 N2].
          destruct H3 as [H3|[[Hn H3]|[Hn H3]]]; injection H3 as H3a H3b; congruence.
        - apply Hzocc. apply (j_chocc J). exists w; auto.
        - destruct (Hms _ _ H1 H2) as [N1 N2].
          destruct H3 as [H3|[[Hn H3]|[Hn H3]]]; injection H3 as H3a H3b.
          + congruence.
          + apply (Hpart m); auto.
          + apply (Hpart s); auto. }
      split; apply Hgen; auto. }
    destruct (Hcls x) as [(b & H1 & H2)|[(a & H1 & H2)|E2]].
    + exfalso. destruct (Hnf _ _ H1 H2) as [Q1 Q2]. apply Q1; exact Ht.
    + exfalso. destruct (Hnf _ _ H1 H2) as [Q1 Q2]. apply Q2; exact Ht.
    + rewrite E2 in E.
      assert (Hxy : partner ms x = y).
      { destruct E; [apply partner_pos|apply partner_neg]; auto. }
      assert (Hnx : nth x ms 0%Z <> 0%Z) by lia.
      (* x touched by ch or by new pairs *)
      destruct Ht as (w & Hw).
      assert (Hor : touched ch x \/ (exists m s, In (m, s) ps /\ ~ fresh ms (m, s) /\
                 (x = m \/ x = s \/ (nth m ms 0%Z <> 0%Z /\ x = partner ms m) \/
                                   (nth s ms 0%Z <> 0%Z /\ x = partner ms s)))).
      { destruct Hw as [Hw|Hw]; apply HC in Hw; destruct Hw as [Hw|(m & s & H1 & H2 & H3)].
        - left; exists w; auto.
        - right. exists m, s. repeat split; auto.
          destruct H3 as [H3|[[Hn H3]|[Hn H3]]]; injection H3 as -> ->; auto.
        - left; exists w; auto.
        - right. exists m, s. repeat split; auto.
          destruct H3 as [H3|[[Hn H3]|[Hn H3]]]; injection H3 as -> H3; auto 6. }
      destruct Hor as [Ht|(m & s & H1 & H2 & Hx)].
      * apply Hmono. apply (j_close J); auto.
      * destruct Hx as [->|[->|[[Hn ->]|[Hn ->]]]].
        -- apply rst_step. apply HC. right. exists m, s. split; [exact H1|]. split; [exact H2|]. right; left. split; [assumption|]. rewrite Hxy; reflexivity.
        -- apply rst_step. apply HC. right. exists m, s. split; [exact H1|]. split; [exact H2|]. right; right. split; [assumption|]. rewrite Hxy; reflexivity.
        -- destruct (Hpt m Hn) as (pm & Epm & _ & _ & _ & Eb). rewrite Epm in *.
           assert (y = m). { destruct E, Eb; lia. } subst y.
           apply rst_sym, rst_step. apply HC. right. exists m, s. split; [exact H1|]. split; [exact H2|].
           right; left. split; [assumption|]. congruence.
        -- destruct (Hpt s Hn) as (pm & Epm & _ & _ & _ & Eb). rewrite Epm in *.
           assert (y = s). { destruct E, Eb; lia. } subst y.
           apply rst_sym, rst_step. apply HC. right. exists m, s. split; [exact H1|]. split; [exact H2|].
           right; right. split; [assumption|]. congruence.
  - (* chocc *)
    intros x (w & Hw). apply in_or_app.
    assert (Hpo : forall m, nth m ms 0%Z <> 0%Z -> In (partner ms m) occ).
    { intros m Hm. destruct (Hpt m Hm) as (pm & Epm & _ & _ & Hr & _). rewrite <- Epm in Hr. apply (j_regocc J); auto. }
    destruct Hw as [Hw|Hw]; apply HC in Hw; destruct Hw as [Hw|(m & s & H1 & H2 & H3)].
    + left. apply (j_chocc J). exists w; auto.
    + destruct (He1 _ _ H1). destruct H3 as [H3|[[Hn H3]|[Hn H3]]]; injection H3 as -> ->; auto.
    + left. apply (j_chocc J). exists w; auto.
    + destruct (He1 _ _ H1). destruct H3 as [H3|[[Hn H3]|[Hn H3]]]; injection H3 as -> H3; subst; auto.
Qed.

Lemma reg_run_inv : forall n P A reg occ ms ch ms' ch',
  jinv n A reg occ ms ch -> okP n reg occ P -> reg_run (ms, ch) P = (ms', ch') ->
  exists reg' occ', jinv n (A ++ concat P) reg' occ' ms' ch'.
Proof.
  intros n. induction P as [|ps P IH]; intros A reg occ ms ch ms' ch' J HP HR.
  - injection HR as <- <-. simpl. rewrite app_nil_r. eauto.
  - destruct HP as (H1 & H2 & H3 & H4). unfold reg_run in HR. cbn [fold_left fst snd] in HR.
    destruct (epbc_register ms ch (map fst ps) (map snd ps)) as [ms1 ch1] eqn:E.
    assert (J1 := jinv_step _ J H1 H2 H3 E).
    destruct (IH _ _ _ _ _ _ _ J1 H4 HR) as (reg' & occ' & J').
    exists reg', occ'. simpl. rewrite app_assoc. exact J'.
Qed.

(** ** Resolution *)
Definition rep (ms : list Z) (x : nat) : nat :=
  if (0 <? nth x ms 0)%Z then Z.to_nat (nth x ms 0%Z - 1) else x.

Record ms_good (n : nat) (A : list (nat * nat)) (ms : list Z) : Prop := {
  mg_len : length ms = n;
  mg_bound : forall x, touched A x -> x < n;
  mg_pos : forall x, (0 < nth x ms 0)%Z -> (nth (rep ms x) ms 0 < 0)%Z /\ linked A x (rep ms x);
  mg_tied : forall x y, linked A x y -> rep ms x = rep ms y;
  mg_none : forall x, ~ touched A x -> nth x ms 0%Z = 0%Z }.

Lemma removelast_last : forall A (l : list A) d, l <> [] -> l = removelast l ++ [last l d].
Proof. intros. apply app_removelast_last; auto. Qed.

Lemma resolve_chains_spec : forall gs ms,
  NoDup (concat gs) -> (forall g, In g gs -> g <> []) -> (forall x, In x (concat gs) -> x < length ms) ->
  length (resolve_chains ms gs) = length ms /\
  (forall g x, In g gs -> In x g ->
     nth x (resolve_chains ms gs) 0%Z =
     if x =? last g 0 then (- Z.of_nat (hd 0%nat g) - 1)%Z else (Z.of_nat (last g 0%nat) + 1)%Z) /\
  (forall x, ~ In x (concat gs) -> nth x (resolve_chains ms gs) 0%Z = nth x ms 0%Z).
Proof.
  induction gs as [|g gs IH]; intros ms Hnd Hne Hb; cbn [resolve_chains].
  - split; auto. split; auto. intros g x [].
  - simpl in Hnd, Hb.
    set (ms2 := upd (put1 ms (removelast g) (Z.of_nat (last g 0%nat) + 1)%Z) (last g 0)
                    (- Z.of_nat (hd 0%nat g) - 1)%Z).
    assert (L2 : length ms2 = length ms) by (unfold ms2; rewrite length_upd, length_put1; auto).
    assert (Hng : g <> []) by (apply Hne; simpl; auto).
    pose proof (@removelast_last nat g 0 Hng) as Eg.
    destruct (IH ms2) as (I1 & I2 & I3).
    { apply NoDup_app_remove_l in Hnd; auto. }
    { intros; apply Hne; simpl; auto. }
    { intros x Hx. rewrite L2. apply Hb. apply in_or_app; auto. }
    assert (Hdisj : forall x, In x g -> ~ In x (concat gs)).
    { clear -Hnd. intros x. induction g as [|y t IHg]; intros H1 H2; simpl in *; [tauto|].
      inversion Hnd; subst. destruct H1 as [->|H1]; [apply H3; apply in_or_app; auto|].
      apply IHg; auto. }
    split; [congruence|]. split.
    + intros g' x [<-|Hg'] Hx; [|apply I2; auto].
      rewrite I3 by (apply Hdisj; auto).
      assert (Hxb : x < length ms) by (apply Hb; apply in_or_app; auto).
      unfold ms2. rewrite nth_upd, length_put1.
      destruct (Nat.eqb_spec x (last g 0)) as [->|Hne'].
      * destruct (Nat.ltb_spec (last g 0) (length ms)); auto. lia.
      * cbn [andb]. rewrite nth_put1 by auto.
        destruct (in_dec Nat.eq_dec x (removelast g)) as [|Hni]; auto.
        exfalso. rewrite Eg in Hx. apply in_app_or in Hx. destruct Hx as [Hx|[Hx|[]]]; auto.
    + intros x Hx. simpl in Hx. rewrite in_app_iff in Hx.
      rewrite I3 by tauto. unfold ms2.
      assert (Hlast : x <> last g 0).
      { intros ->. apply Hx. left. rewrite Eg at 2. apply in_or_app; right; simpl; auto. }
      rewrite nth_upd_neq by auto.
      destruct (Nat.lt_ge_cases x (length ms)) as [Hxl|Hxl].
      * rewrite nth_put1 by auto. destruct (in_dec Nat.eq_dec x (removelast g)) as [Hi|]; auto.
        exfalso. apply Hx. left. rewrite Eg. apply in_or_app; auto.
      * rewrite !nth_overflow; auto. rewrite length_put1; auto.
Qed.

Lemma last_In : forall (g : list nat), g <> [] -> In (last g 0) g.
Proof.
  intros g H. rewrite (@removelast_last nat g 0 H) at 2. apply in_or_app; right; simpl; auto.
Qed.

Lemma resolve_good : forall n A reg occ ms ch gs,
  jinv n A reg occ ms ch -> gc_spec ch gs -> ms_good n A (resolve_chains ms gs).
Proof.
  intros n A reg occ ms ch gs J G.
  assert (Hcc : forall x, In x (concat gs) <-> touched ch x).
  { intros x. rewrite in_concat. split.
    - intros (g & Hg & Hx). apply (gs_same G x x). eauto.
    - intros Ht. destruct (proj2 (gs_same G x x)) as (g & Hg & Hx & _); eauto.
      repeat split; auto. apply rst_refl. }
  assert (Hb : forall x, In x (concat gs) -> x < length ms).
  { intros x Hx. rewrite (j_len J). apply (j_bound J). apply (j_chocc J). apply Hcc; auto. }
  destruct (resolve_chains_spec gs ms (gs_nodup G) (gs_nonempty G) Hb) as (L & R1 & R2).
  set (ms' := resolve_chains ms gs) in *.
  assert (Rg : forall g x, In g gs -> In x g -> rep ms' x = last g 0 /\
             ((0 < nth x ms' 0)%Z -> x <> last g 0)).
  { intros g x Hg Hx. unfold rep. rewrite (R1 g x Hg Hx).
    destruct (Nat.eqb_spec x (last g 0)) as [->|Hn].
    - destruct (Z.ltb_spec 0 (- Z.of_nat (hd 0%nat g) - 1)); split; auto; lia.
    - destruct (Z.ltb_spec 0 (Z.of_nat (last g 0%nat) + 1)); split; auto; lia. }
  assert (Hclosed : forall x y, touched ch x ->
     nth x ms 0%Z = (Z.of_nat y + 1)%Z \/ nth x ms 0%Z = (- Z.of_nat y - 1)%Z -> touched ch y).
  { intros x y Ht E. pose proof (j_close J _ Ht E) as Lk.
    destruct (Nat.eq_dec x y) as [->|N]; auto.
    assert (D : {touched ch y} + {~ touched ch y}).
    { destruct (in_dec Nat.eq_dec y (concat gs)); [left|right]; rewrite <- Hcc; auto. }
    destruct D; auto. exfalso. apply N. symmetry. eapply linked_untouched; [|eauto].
    apply rst_sym; auto. }
  assert (Hlin : forall a b, linked ch a b -> linked A a b).
  { apply linked_mono. apply (j_chA J). }
  assert (Hm' : forall x y, nth x ms 0%Z = (Z.of_nat y + 1)%Z -> ~ touched ch x ->
            nth x ms' 0%Z = (Z.of_nat y + 1)%Z /\ nth y ms' 0%Z = (- Z.of_nat x - 1)%Z /\
            rep ms' x = y /\ rep ms' y = y).
  { intros x y E Ht.
    destruct (j_pos J _ _ E) as [Nxy Ey].
    assert (Hty : ~ touched ch y) by (intros Q; apply Ht; apply (Hclosed y x); auto).
    rewrite <- Hcc in Ht, Hty. pose proof (R2 _ Ht) as E1. pose proof (R2 _ Hty) as E2.
    rewrite E in E1. rewrite Ey in E2. repeat split; auto.
    - unfold rep. rewrite E1. destruct (Z.ltb_spec 0 (Z.of_nat y + 1)); lia.
    - unfold rep. rewrite E2. destruct (Z.ltb_spec 0 (- Z.of_nat x - 1)); lia. }
  assert (Htd : forall x, touched ch x \/ ~ touched ch x).
  { intros x. rewrite <- Hcc. destruct (in_dec Nat.eq_dec x (concat gs)); auto. }
  constructor.
  - rewrite L. apply (j_len J).
  - intros x Hx. apply (j_bound J). apply (j_occ J); auto.
  - intros x Hx. destruct (Htd x) as [Ht|Ht].
    + apply Hcc in Ht. apply in_concat in Ht. destruct Ht as (g & Hg & Hxg).
      destruct (Rg _ _ Hg Hxg) as [E _]. rewrite E. split.
      * rewrite (R1 g (last g 0) Hg).
        -- rewrite Nat.eqb_refl. lia.
        -- apply last_In. apply (gs_nonempty G); auto.
      * apply Hlin. apply (gs_same G x (last g 0)). exists g. repeat split; auto.
        apply last_In. apply (gs_nonempty G); auto.
    + assert (E0 : nth x ms' 0%Z = nth x ms 0%Z) by (apply R2; rewrite Hcc; auto).
      rewrite E0 in Hx.
      assert (E : nth x ms 0%Z = (Z.of_nat (Z.to_nat (nth x ms 0%Z - 1)) + 1)%Z) by lia.
      set (y := Z.to_nat (nth x ms 0%Z - 1)) in *.
      destruct (Hm' _ _ E Ht) as (M1 & M2 & M3 & M4). rewrite M3. split; [lia|].
      apply (j_msA J); auto.
  - (* tied *)
    assert (Hstep : forall a b, In (a, b) A -> rep ms' a = rep ms' b).
    { assert (Hch : forall a b, linked ch a b -> rep ms' a = rep ms' b).
      { intros a b Lk. destruct (Nat.eq_dec a b) as [->|N]; auto.
        assert (Ta : touched ch a).
        { destruct (Htd a); auto. exfalso. apply N. eapply linked_untouched; eauto. }
        assert (Tb : touched ch b).
        { destruct (Htd b); auto. exfalso. apply N. symmetry.
          eapply linked_untouched; eauto. apply rst_sym; auto. }
        destruct (proj2 (gs_same G a b)) as (g & Hg & H1 & H2); auto.
        destruct (Rg _ _ Hg H1) as [-> _]. destruct (Rg _ _ Hg H2) as [-> _]. auto. }
      intros a b Hab. destruct (j_A J _ _ Hab) as [E|Lk]; auto.
      destruct (Htd a) as [Ta|Ta].
      - apply Hch. apply (j_close J); auto.
      - destruct (Hm' _ _ E Ta) as (_ & _ & M3 & M4). congruence. }
    intros x y Lk. induction Lk; auto; congruence.
  - intros x Hx.
    assert (Ht : ~ touched ch x).
    { intros Q. apply Hx. apply (j_occ J). apply (j_chocc J); auto. }
    rewrite R2 by (rewrite Hcc; auto).
    destruct (Z.eq_dec (nth x ms 0%Z) 0) as [|N]; auto.
    exfalso. apply Hx. apply (j_occ J). apply (j_regocc J). apply (j_reg J); auto.
Qed.
