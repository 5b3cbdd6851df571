From Coq Require Import String Relations.
From Verif Require Import Base M_dofs S_dofs.
Open Scope nat_scope.
Set Implicit Arguments.

Lemma linked_invariant : forall pairs (S : nat -> Prop),
  (forall a b, In (a, b) pairs -> (S a <-> S b)) ->
  forall x y, linked pairs x y -> (S x <-> S y).
Proof.
  intros pairs S H x y L. induction L; try tauto. apply H; auto.
Qed.

Lemma linked_untouched : forall pairs x y, linked pairs x y -> ~ touched pairs x -> x = y.
Proof.
  intros pairs x y L Ht.
  assert (H : x = x <-> y = x).
  { apply (@linked_invariant pairs (fun z => z = x)); auto.
    intros a b Hab. split; intros ->; exfalso; apply Ht; [exists b|exists a]; auto. }
  symmetry; apply H; auto.
Qed.

Lemma linked_mono : forall p q, (forall a b, In (a, b) p -> linked q a b) ->
  forall x y, linked p x y -> linked q x y.
Proof.
  intros p q H x y L. induction L.
  - apply H; auto.
  - apply rst_refl.
  - apply rst_sym; auto.
  - eapply rst_trans; eauto.
Qed.

Lemma linked_incl : forall p q, incl p q -> forall x y, linked p x y -> linked q x y.
Proof. intros p q H. apply linked_mono. intros; apply rst_step; auto. Qed.

Lemma setadd_In : forall x y s, In y (setadd x s) <-> y = x \/ In y s.
Proof.
  intros. unfold setadd. destruct (memb x s) eqn:E.
  - apply memb_In in E. split; [auto|]. intros [->|]; auto.
  - rewrite in_app_iff. simpl. intuition.
Qed.

Lemma setadd_NoDup : forall x s, NoDup s -> NoDup (setadd x s).
Proof.
  intros. unfold setadd. destruct (memb x s) eqn:E; auto. apply memb_false in E.
  apply (Permutation_NoDup (l := x :: s)); [apply Permutation_cons_append|constructor; auto].
Qed.

Lemma removeat_spec : forall A (l : list A) i d, i < length l ->
  exists a b, l = a ++ nth i l d :: b /\ removeat i l = a ++ b /\ length a = i.
Proof.
  induction l as [|x t IH]; intros i d H; simpl in *; [lia|].
  destruct i as [|i].
  - exists [], t. auto.
  - destruct (IH i d) as (a & b & E1 & E2 & E3); [lia|].
    exists (x :: a), b. simpl. rewrite <- E1, E2. auto.
Qed.

Record gc_post (chain : list nat) (l : list (nat * nat)) (chain' : list nat) (l' : list (nat * nat)) : Prop := {
  gp_incl : incl chain chain';
  gp_nodup : NoDup chain';
  gp_sub : incl l' l;
  gp_split : forall a b, In (a, b) l -> In (a, b) l' \/ (In a chain' /\ In b chain');
  gp_out : forall a b, In (a, b) l' -> ~ In a chain' /\ ~ In b chain';
  gp_conn : forall x, In x chain' -> exists y, In y chain /\ linked l y x;
  gp_len : length l' <= length l }.

Definition gc_measure (l : list (nat * nat)) (ii : nat) := length l * S (length l) + (length l - ii).

Lemma gc_inner_ok : forall fuel chain l ii,
  gc_measure l ii < fuel -> NoDup chain ->
  (forall k, k < ii -> k < length l -> ~ In (fst (nth k l (0,0))) chain /\ ~ In (snd (nth k l (0,0))) chain) ->
  exists chain' l', gc_inner fuel chain l ii = Some (chain', l') /\ gc_post chain l chain' l'.
Proof.
  induction fuel as [|f IH]; intros chain l ii Hf Hn Hpre; [lia|].
  cbn [gc_inner]. destruct (Nat.ltb_spec ii (length l)) as [Hlt|Hge].
  2:{ exists chain, l. split; auto. constructor; auto; try apply incl_refl.
      - intros a b Hab. destruct (In_nth _ _ (0,0) Hab) as (k & Hk & E).
        specialize (Hpre k). rewrite E in Hpre. apply Hpre; lia.
      - intros x Hx. exists x. split; auto. apply rst_refl. }
  destruct (removeat_spec l (0,0) Hlt) as (p & q & El & Er & Hp).
  destruct (nth ii l (0,0)) as [a b] eqn:Eab.
  assert (Hlen : length (removeat ii l) = length l - 1).
  { rewrite Er, El, !app_length. simpl. lia. }
  assert (Hl0 : 0 < length l) by lia.
  assert (Hmem : forall s, memb (Nat.min a b) s = true /\ memb (Nat.max a b) s = true
                           <-> In a s /\ In b s).
  { intros s. rewrite !memb_In.
    destruct (Nat.le_ge_cases a b); [rewrite Nat.min_l, Nat.max_r by lia|rewrite Nat.min_r, Nat.max_l by lia]; tauto. }
  assert (Hmem2 : forall s, memb (Nat.min a b) s = true \/ memb (Nat.max a b) s = true
                           <-> In a s \/ In b s).
  { intros s. rewrite !memb_In.
    destruct (Nat.le_ge_cases a b); [rewrite Nat.min_l, Nat.max_r by lia|rewrite Nat.min_r, Nat.max_l by lia]; tauto. }
  assert (Hin : forall x, In x l <-> x = (a, b) \/ In x (removeat ii l)).
  { intros x. rewrite Er. rewrite El at 1. rewrite !in_app_iff. simpl. intuition. }
  destruct (memb (Nat.min a b) chain && memb (Nat.max a b) chain) eqn:E1.
  - apply andb_true_iff in E1. apply Hmem in E1. destruct E1 as [Ha Hb].
    destruct (IH chain (removeat ii l) ii) as (chain' & l' & HE & HP); auto.
    { unfold gc_measure in *. rewrite Hlen. nia. }
    { intros k Hk Hk2. specialize (Hpre k Hk).
      replace (nth k (removeat ii l) (0,0)) with (nth k l (0,0)); [apply Hpre; lia|].
      rewrite Er, El. rewrite !app_nth1 by lia. auto. }
    exists chain', l'. split; auto. destruct HP. constructor; auto.
    + intros x Hx. apply Hin. right; auto.
    + intros u v Huv. apply Hin in Huv. destruct Huv as [Huv|Huv]; [injection Huv; intros; subst|]; auto.
    + intros x Hx. destruct (gp_conn0 x Hx) as (y & Hy & L). exists y. split; auto.
      revert L. apply linked_incl. intros z Hz; apply Hin; auto.
    + lia.
  - destruct (memb (Nat.min a b) chain || memb (Nat.max a b) chain) eqn:E2.
    + apply orb_true_iff in E2. apply Hmem2 in E2.
      destruct (IH (setadd (Nat.max a b) (setadd (Nat.min a b) chain)) (removeat ii l) 0)
        as (chain' & l' & HE & HP).
      { unfold gc_measure in *. rewrite Hlen. nia. }
      { apply setadd_NoDup, setadd_NoDup; auto. }
      { intros; lia. }
      assert (Hadd : forall x, In x (setadd (Nat.max a b) (setadd (Nat.min a b) chain))
                     <-> x = a \/ x = b \/ In x chain).
      { intros x. rewrite !setadd_In.
        destruct (Nat.le_ge_cases a b); [rewrite Nat.min_l, Nat.max_r by lia|rewrite Nat.min_r, Nat.max_l by lia]; tauto. }
      exists chain', l'. split; auto. destruct HP. constructor; auto.
      * intros x Hx. apply gp_incl0. apply Hadd; auto.
      * intros x Hx. apply Hin; right; auto.
      * intros u v Huv. apply Hin in Huv. destruct Huv as [Huv|Huv]; [injection Huv; intros; subst|]; auto.
        right. split; apply gp_incl0; apply Hadd; auto.
      * intros x Hx. destruct (gp_conn0 x Hx) as (y & Hy & L).
        assert (L' : linked l y x).
        { revert L. apply linked_incl. intros z Hz; apply Hin; auto. }
        assert (Lab : linked l a b) by (apply rst_step; apply Hin; auto).
        apply Hadd in Hy. destruct Hy as [->|[->|Hy]].
        -- destruct E2 as [E2|E2]; [exists a; auto|exists b]. split; auto.
           eapply rst_trans; [apply rst_sym; exact Lab|exact L'].
        -- destruct E2 as [E2|E2]; [exists a|exists b; auto]. split; auto.
           eapply rst_trans; [exact Lab|exact L'].
        -- exists y; auto.
      * lia.
    + assert (Hna : ~ In a chain /\ ~ In b chain).
      { split; intros HH; assert (Hor : In a chain \/ In b chain) by auto;
          apply Hmem2 in Hor; apply orb_false_iff in E2; destruct E2 as [E2 E3];
          rewrite E2, E3 in Hor; destruct Hor; discriminate. }
      apply IH; auto.
      * unfold gc_measure in *. lia.
      * intros k Hk Hk2. destruct (Nat.eq_dec k ii) as [->|]; [rewrite Eab; auto|].
        apply Hpre; lia.
Qed.

Record gc_spec (l : list (nat * nat)) (gs : list (list nat)) : Prop := {
  gs_nodup : NoDup (concat gs);
  gs_same : forall x y, (exists g, In g gs /\ In x g /\ In y g) <->
                        (touched l x /\ touched l y /\ linked l x y);
  gs_nonempty : forall g, In g gs -> g <> [] }.

Lemma Permutation_In_iff : forall A (l1 l2 : list A) x, Permutation l1 l2 -> (In x l1 <-> In x l2).
Proof.
  intros A l1 l2 x P. split; intros H.
  - eapply Permutation_in; eauto.
  - eapply Permutation_in; [apply Permutation_sym; exact P|auto].
Qed.

Lemma NoDup_app_intro : forall A (a b : list A), NoDup a -> NoDup b ->
  (forall x, In x a -> ~ In x b) -> NoDup (a ++ b).
Proof.
  induction a as [|x a IH]; intros b Ha Hb H; simpl; auto.
  inversion Ha; subst. constructor.
  - rewrite in_app_iff. intros [|Hx]; auto. apply (H x); simpl; auto.
  - apply IH; auto. intros y Hy; apply H; simpl; auto.
Qed.

Lemma gc_outer_ok : forall ord, (forall l, Permutation (ord l) l) ->
  forall fuel l, length l <= fuel -> exists gs, gc_outer ord fuel l = Some gs /\ gc_spec l gs.
Proof.
  intros ord Hord. induction fuel as [|f IH]; intros l Hl.
  - destruct l; [|simpl in Hl; lia]. exists []. split; auto. constructor; simpl.
    + constructor.
    + intros x y. split; [intros (g & [] & _)|intros ((z & [[]|[]]) & _)].
    + tauto.
  - destruct l as [|[a b] t].
    + exists []. split; auto. constructor; simpl.
      * constructor.
      * intros x y. split; [intros (g & [] & _)|intros ((z & [[]|[]]) & _)].
      * tauto.
    + cbn [gc_outer].
      assert (HN : NoDup (setadd b [a])) by (apply setadd_NoDup; repeat constructor; simpl; auto).
      assert (Hs : forall x, In x (setadd b [a]) <-> x = a \/ x = b).
      { intros x. rewrite setadd_In. simpl. intuition. }
      destruct (@gc_inner_ok (gc_fuel t) (setadd b [a]) t 0) as (chain & l' & HE & HP); auto.
      { unfold gc_measure, gc_fuel. lia. }
      { intros; lia. }
      rewrite HE. destruct (IH l') as (gs & HG & HS).
      { pose proof (gp_len HP). simpl in Hl. lia. }
      rewrite HG. exists (ord chain :: gs). split; auto.
      assert (Hoc : forall x, In x (ord chain) <-> In x chain).
      { intros x. apply Permutation_In_iff. apply Hord. }
      assert (Ha : In a chain) by (apply (gp_incl HP); apply Hs; auto).
      assert (Hb : In b chain) by (apply (gp_incl HP); apply Hs; auto).
      assert (Hinv : forall u v, In (u, v) ((a, b) :: t) -> (In u chain /\ In v chain) \/ In (u, v) l').
      { intros u v [Huv|Huv]; [injection Huv; intros; subst; auto|]. destruct (gp_split HP _ _ Huv); auto. }
      assert (Hnot : forall x, In x chain -> ~ touched l' x).
      { intros x Hx (y & [Hy|Hy]); apply (gp_out HP) in Hy; tauto. }
      assert (Hlink : forall x y, In x chain -> In y chain -> linked ((a, b) :: t) x y).
      { assert (Hax : forall x, In x chain -> linked ((a, b) :: t) a x).
        { intros x Hx. destruct (gp_conn HP x Hx) as (y & Hy & L).
          assert (L' : linked ((a,b)::t) y x).
          { revert L. apply linked_incl. intros z Hz; right; auto. }
          apply Hs in Hy. destruct Hy as [Hy|Hy]; subst y; auto.
          eapply rst_trans; [apply rst_step; left; reflexivity|exact L']. }
        intros x y Hx Hy. eapply rst_trans; [apply rst_sym; apply Hax; auto|apply Hax; auto]. }
      assert (Htc : forall x, In x chain -> touched ((a, b) :: t) x).
      { intros x Hx. destruct (gp_conn HP x Hx) as (y & Hy & L).
        assert (Hdec : x = a \/ x = b \/ ~ (x = a \/ x = b)) by (destruct (Nat.eq_dec x a), (Nat.eq_dec x b); tauto).
        destruct Hdec as [->|[->|Hno]].
        - exists b. left; left; auto.
        - exists a. right; left; auto.
        - assert (Ht : touched t x).
          { destruct (existsb (fun p => (fst p =? x) || (snd p =? x)) t) eqn:Ex.
            - apply existsb_exists in Ex. destruct Ex as ([u v] & Huv & E). simpl in E.
              apply orb_true_iff in E. rewrite !Nat.eqb_eq in E. destruct E as [-> | ->].
              + exists v; auto.
              + exists u; auto.
            - exfalso. apply Hno.
              assert (x = y); [|subst; apply Hs; auto].
              apply linked_untouched with (pairs := t).
              + apply rst_sym; auto.
              + intros (z & Hz).
                assert (existsb (fun p => (fst p =? x) || (snd p =? x)) t = true); [|congruence].
                apply existsb_exists. destruct Hz as [Hz|Hz]; [exists (x, z)|exists (z, x)];
                  split; auto; simpl; rewrite Nat.eqb_refl; auto using orb_true_r. }
          destruct Ht as (z & [Hz|Hz]); exists z; [left|right]; right; auto. }
      constructor.
      * simpl. apply NoDup_app_intro.
        -- apply (Permutation_NoDup (l := chain)); [apply Permutation_sym, Hord|apply (gp_nodup HP)].
        -- apply (gs_nodup HS).
        -- intros x Hx Hc. apply Hoc in Hx. apply in_concat in Hc. destruct Hc as (g & Hg & Hxg).
           apply (Hnot x Hx). apply (gs_same HS x x). exists g; auto.
      * intros x y. split.
        -- intros (g & [<-|Hg] & Hx & Hy).
           ++ apply Hoc in Hx. apply Hoc in Hy. repeat split; auto.
           ++ destruct (proj1 (gs_same HS x y)) as (T1 & T2 & L); [exists g; auto|].
              assert (Hm : forall z, touched l' z -> touched ((a, b) :: t) z).
              { intros z (w & [Hw|Hw]); exists w; [left|right]; right; apply (gp_sub HP); auto. }
              repeat split; auto.
              revert L. apply linked_incl. intros z Hz; right; apply (gp_sub HP); auto.
        -- intros (T1 & T2 & L).
           assert (HR : (In x chain /\ In y chain) \/ linked l' x y).
           { clear T1 T2. induction L.
             - apply Hinv in H. destruct H; auto. right; apply rst_step; auto.
             - right; apply rst_refl.
             - destruct IHL; [tauto|right; apply rst_sym; auto].
             - destruct IHL1 as [[A1 A2]|A]; destruct IHL2 as [[B1 B2]|B]; auto.
               + left. split; auto. apply linked_untouched in B; [subst; auto|apply Hnot; auto].
               + left. split; auto. apply rst_sym in A.
                 apply linked_untouched in A; [subst; auto|apply Hnot; auto].
               + right; eapply rst_trans; eauto. }
           destruct HR as [[Hx Hy]|HL'].
           ++ exists (ord chain). split; [left; auto|]. rewrite !Hoc. auto.
           ++ assert (Hcases : forall z, touched ((a, b) :: t) z -> In z chain \/ touched l' z).
              { intros z (w & [Hw|Hw]); apply Hinv in Hw; destruct Hw as [[H1 H2]|Hw]; auto;
                  right; exists w; auto. }
              destruct (Hcases x T1) as [Hx|Hx].
              ** assert (x = y) by (eapply linked_untouched; eauto). subst y.
                 exists (ord chain). split; [left; auto|]. rewrite !Hoc. auto.
              ** destruct (Hcases y T2) as [Hy|Hy].
                 --- assert (y = x) by (eapply linked_untouched; [apply rst_sym; eauto|apply Hnot; auto]).
                     subst y. exists (ord chain). split; [left; auto|]. rewrite !Hoc. auto.
                 --- destruct (proj2 (gs_same HS x y)) as (g & Hg & H1 & H2); auto.
                     exists g. split; [right; auto|auto].
      * intros g [<-|Hg]; [|apply (gs_nonempty HS); auto].
        intros E. assert (In a (ord chain)) by (apply Hoc; auto). rewrite E in H. destruct H.
Qed.

Lemma group_chains_ok : forall ord, (forall l, Permutation (ord l) l) ->
  forall l, exists gs, group_chains ord l = Some gs /\ gc_spec l gs.
Proof. intros ord H l. apply gc_outer_ok; auto. Qed.
