(** The part of map_equations after the loop. *)
From Coq Require Import String Relations.
From Verif Require Import Base M_dofs S_dofs S_eqmap L_expand L_chains L_epbc L_eqloop.
Open Scope nat_scope.

Lemma put_ex : forall A is (xs l : list A) j d,
  (forall i, In i is -> i < length l) -> length xs = length is ->
  (~ In j is /\ nth j (put l is xs) d = nth j l d) \/
  (exists k, k < length is /\ nth k is 0 = j /\ nth j (put l is xs) d = nth k xs d).
Proof.
  induction is as [|i is IH]; intros [|x xs] l j d Hb Hl; simpl in *; try lia; auto.
  destruct (IH xs (upd l i x) j d) as [[H1 H2]|(k & Hk & H1 & H2)].
  - intros; rewrite length_upd; auto.
  - lia.
  - rewrite H2. destruct (Nat.eq_dec j i) as [->|N].
    + right. exists 0. split; [lia|]. split; auto. apply nth_upd_eq; auto.
    + left. split; [intuition|]. apply nth_upd_neq; auto.
  - right. exists (S k). split; [lia|]. auto.
Qed.

Section Fin.
Variable V : Type.
Variable vzero : V.
Variable junk : nat.
Variable names : list string.

Notation bc_ok := (bc_ok V junk names).
Notation bc_eq := (bc_eq V junk names).
Notation bc_vals := (bc_vals V junk names).

Lemma flags_spec : forall n bcs fl, (forall bc, In bc bcs -> bc_ok n bc) -> length fl = n -> forall x, x < n ->
  nth x (fold_left (fun fl bc => put1 fl (bc_eq bc) true) bcs fl) false = true <->
  nth x fl false = true \/ exists bc, In bc bcs /\ fixes names bc x.
Proof.
  intros n. induction bcs as [|bc bcs IH]; intros fl Hok Hl x Hx; cbn [fold_left].
  - split; auto. intros [|(b & [] & _)]; auto.
  - rewrite IH; auto.
    + rewrite nth_put1 by lia.
      assert (Hb := bc_eq_fixes V junk names n bc x (Hok _ (or_introl eq_refl))).
      destruct (in_dec Nat.eq_dec x (bc_eq bc)) as [Hi|Hi].
      * split; auto. intros _. right. exists bc. split; [left; auto|]. apply Hb; auto.
      * split; intros [|(b & H1 & H2)]; auto.
        -- right; exists b; split; [right; auto|auto].
        -- destruct H1 as [<-|H1]; [exfalso; apply Hi, Hb; auto|right; eauto].
    + intros; apply Hok; simpl; auto.
    + rewrite length_put1; auto.
Qed.

Lemma flags_length : forall bcs fl, length (fold_left (fun fl bc => put1 fl (bc_eq bc) true) bcs fl) = length fl.
Proof.
  induction bcs as [|bc bcs IH]; intros fl; simpl; auto. rewrite IH, length_put1; auto.
Qed.
Lemma vals_length : forall bcs v, length (fold_left (fun v bc => put v (bc_eq bc) (bc_vals bc)) bcs v) = length v.
Proof.
  induction bcs as [|bc bcs IH]; intros v; simpl; auto. rewrite IH, length_put; auto.
Qed.

Lemma gives_spec : forall n bc x v, bc_ok n bc -> wf_bc names bc ->
  (gives names bc x v <->
   length (bc_vals bc) = length (bc_eq bc) /\
   exists t, t < length (bc_eq bc) /\ nth t (bc_eq bc) 0 = x /\ nth t (bc_vals bc) v = v).
Proof.
  intros n bc x v Hok Hwf.
  destruct bc as [[] rnods dofs vals|[] mnods snods i1 i2 d0 d1]; simpl;
    try (split; [tauto|]; intros (_ & t & Ht & _); lia).
  destruct vals as [vs|].
  2:{ split; [tauto|]. intros (H & t & Ht & _). simpl in H. lia. }
  destruct Hok as [->|(eq & He & Hb & Hv)].
  { simpl. rewrite exp_nil. simpl. split.
    - intros (k & i & p & H & _). lia.
    - intros (_ & t & Ht & _). lia. }
  unfold exp_. rewrite He. pose proof (expand_spec _ _ _ _ He) as [HL HS].
  assert (Hbc : exists vs', broadcast (length eq) vs = Ok vs' /\ length vs' = length eq /\
             forall t, t < length eq -> nth_error vs (if length vs =? 1 then 0 else t) = Some (nth t vs' v)
                      ).
  { unfold broadcast. destruct (Nat.eqb_spec (length vs) (length eq)) as [E|E].
    - exists vs. split; auto. split; auto. intros t Ht.
      destruct (Nat.eqb_spec (length vs) 1) as [E1|E1].
      + replace t with 0 by lia. rewrite (nth_error_nth' vs v) by lia. auto.
      + apply nth_error_nth'. lia.
    - destruct Hv as [Hv|Hv]; [congruence|]. destruct vs as [|w [|]]; try discriminate.
      exists (repeat w (length eq)). split; auto. split; [apply repeat_length|].
      intros t Ht. simpl. rewrite nth_repeat_lt; auto. }
  destruct Hbc as (vs' & Hbc & Hvl & Hvt). rewrite Hbc. split.
  - intros (k & i & p & H1 & H2 & H3 & H4 & H5). split; auto.
    assert (Ht : k * length dofs + i < length eq) by (rewrite HL; nia).
    exists (k * length dofs + i). split; auto.
    destruct (HS k i H1 H2) as (p' & Hp & Ev). apply index_at_pos in H3.
    assert (p' = p) by congruence. subst p'. split; [congruence|].
    assert (nth_error vs (if length vs =? 1 then 0 else k * length dofs + i)
            = Some (nth (k * length dofs + i) vs' v)) by (apply Hvt; auto).
    congruence.
  - intros (_ & t & Ht & H1 & H2). pose proof Ht as Ht'. rewrite HL in Ht'.
    destruct (idx_decomp _ _ Ht') as (k & i & Hk & Hi & ->).
    destruct (HS k i Hk Hi) as (p & Hp & Ev). exists k, i, p.
    split; auto. split; auto. split; [apply index_at_pos; auto|]. split; [congruence|].
    rewrite Hvt by auto. congruence.
Qed.

Lemma bc_eq_nodup : forall n bc, bc_ok n bc -> wf_bc names bc -> NoDup (bc_eq bc).
Proof.
  intros n bc Hok Hwf.
  destruct bc as [[] rnods dofs vals|[] mnods snods i1 i2 d0 d1]; simpl; try constructor.
  destruct Hok as [->|(eq & He & Hb & Hv)].
  - simpl. rewrite exp_nil. constructor.
  - unfold exp_. rewrite He. eapply expand_NoDup; [exact He| |exact Hwf].
    apply sinc_NoDup, unique_sinc.
Qed.

Lemma bc_vals_len : forall n bc, bc_ok n bc -> bc_vals bc = [] \/ length (bc_vals bc) = length (bc_eq bc).
Proof.
  intros n bc Hok.
  destruct bc as [[] rnods dofs [vs|]|[] mnods snods i1 i2 d0 d1]; simpl; auto.
  destruct (broadcast (length (exp_ junk names (unique rnods) dofs)) vs) as [vs'|] eqn:E; auto.
  right. unfold broadcast in E.
  destruct (Nat.eqb_spec (length vs) (length (exp_ junk names (unique rnods) dofs))) as [E1|E1].
  - injection E as <-; auto.
  - destruct vs as [|w [|]]; try discriminate. injection E as <-. apply repeat_length.
Qed.

Lemma vals_spec : forall n bcs v0, (forall bc, In bc bcs -> bc_ok n bc) -> wf_bcs names bcs ->
  length v0 = n -> forall x,
  let r := nth x (fold_left (fun v bc => put v (bc_eq bc) (bc_vals bc)) bcs v0) vzero in
  (exists b1 bc b2, bcs = b1 ++ bc :: b2 /\ gives names bc x r /\ (forall b w, In b b2 -> ~ gives names b x w)) \/
  (r = nth x v0 vzero /\ forall b w, In b bcs -> ~ gives names b x w).
Proof.
  intros n. induction bcs as [|bc bcs IH] using rev_ind; intros v0 Hok Hwf Hl x; simpl.
  - right. split; auto.
  - rewrite fold_left_app. cbn [fold_left].
    set (v1 := fold_left (fun v bc => put v (bc_eq bc) (bc_vals bc)) bcs v0) in *.
    assert (Hokb : bc_ok n bc) by (apply Hok; apply in_or_app; simpl; auto).
    assert (Hwfb : wf_bc names bc) by (apply Hwf; apply in_or_app; simpl; auto).
    assert (Hl1 : length v1 = n) by (unfold v1; rewrite vals_length; auto).
    assert (Hcase : (forall w, ~ gives names bc x w) /\ nth x (put v1 (bc_eq bc) (bc_vals bc)) vzero = nth x v1 vzero
                    \/ gives names bc x (nth x (put v1 (bc_eq bc) (bc_vals bc)) vzero)).
    { destruct (bc_vals_len n bc Hokb) as [E|E].
      - destruct (Nat.eq_dec (length (bc_eq bc)) 0) as [E0|E0].
        + left. split.
          * intros w Hg. apply (gives_spec n) in Hg; auto. destruct Hg as (_ & t & Ht & _). lia.
          * rewrite E. destruct (bc_eq bc); auto.
        + left. split.
          * intros w Hg. apply (gives_spec n) in Hg; auto. destruct Hg as (Hg & _).
            rewrite E in Hg. simpl in Hg. lia.
          * rewrite E. destruct (bc_eq bc); auto.
      - destruct (put_ex _ (bc_eq bc) (bc_vals bc) v1 x vzero) as [[H1 H2]|(k & Hk & H1 & H2)]; auto.
        + intros i Hi. rewrite Hl1. eapply bc_eq_bound; eauto.
        + left. split; auto. intros w Hg. apply (gives_spec n) in Hg; auto.
          destruct Hg as (_ & t & Ht & H3 & _). apply H1. rewrite <- H3. apply nth_In; auto.
        + right. apply (gives_spec n); auto. split; auto. exists k. split; auto. split; auto.
          rewrite H2. apply nth_indep. lia. }
    destruct Hcase as [[Hn E]|Hg].
    + rewrite E. destruct (IH v0) with (x := x) as [(b1 & b & b2 & E1 & G & N)|[E1 N]]; auto.
      * intros; apply Hok; apply in_or_app; auto.
      * intros b Hb; apply Hwf; apply in_or_app; auto.
      * left. exists b1, b, (b2 ++ [bc]). split; [rewrite E1, <- app_assoc; auto|]. split; auto.
        intros b' w Hb. apply in_app_or in Hb. destruct Hb as [Hb|[<-|[]]]; auto.
      * right. split; auto. intros b w Hb. apply in_app_or in Hb. destruct Hb as [Hb|[<-|[]]]; auto.
    + left. exists bcs, bc, []. split; [reflexivity|]. split; [exact Hg|]. intros b w [].
Qed.

(** ** Masters and slaves *)

Lemma masters_In : forall ms x, In x (masters ms) <-> (0 < nth x ms 0)%Z.
Proof.
  intros. unfold masters. rewrite (nonzero_spec _ 0%Z), Z.ltb_lt. split; [tauto|].
  intros H. split; auto. destruct (Nat.lt_ge_cases x (length ms)); auto.
  rewrite nth_overflow in H by auto. lia.
Qed.

Lemma slaves_rep : forall ms, slaves ms = map (rep ms) (masters ms).
Proof.
  intros. unfold slaves. apply map_ext_in. intros x Hx. apply masters_In in Hx.
  unfold rep. destruct (Z.ltb_spec 0 (nth x ms 0%Z)); auto. lia.
Qed.

Lemma combine_map_r : forall A B (f : A -> B) l, combine l (map f l) = map (fun x => (x, f x)) l.
Proof. induction l as [|a l IH]; simpl; auto. rewrite IH; auto. Qed.

Lemma filter_map : forall A B (f : A -> B) p l, filter p (map f l) = map f (filter (fun x => p (f x)) l).
Proof. induction l as [|a l IH]; simpl; auto. destruct (p (f a)); simpl; rewrite IH; auto. Qed.

(** Propagation in terms of [rep]. *)
Lemma propagate_spec : forall n A ms fl (val : list V) fl2 val2,
  ms_good n A ms -> length fl = n -> length val = n ->
  propagate vzero fl val (masters ms) (slaves ms) = (fl2, val2) ->
  length fl2 = n /\ length val2 = n /\
  (forall x, x < n -> (0 < nth x ms 0)%Z ->
     (nth x fl2 false = true <-> nth x fl false = true \/ nth (rep ms x) fl false = true)) /\
  (forall x, x < n -> ~ (0 < nth x ms 0)%Z ->
     (nth x fl2 false = true <-> exists y, rep ms y = x /\ nth y fl false = true)) /\
  (forall x, x < n -> nth x fl2 false = true -> exists y, linked A x y /\ nth y fl false = true /\
     nth x val2 vzero = nth y val vzero) /\
  (forall x, x < n -> nth x fl2 false = false -> nth x val2 vzero = nth x val vzero).
Proof.
  intros n A ms fl val fl2 val2 G Lf Lv H. unfold propagate in H.
  rewrite slaves_rep, combine_map_r, !filter_map, !map_map in H.
  cbn [fst snd] in H. rewrite !map_id in H.
  set (M0 := filter (fun x => nth x fl false) (masters ms)) in *.
  set (M1 := filter (fun x => nth (rep ms x) fl false) (masters ms)) in *.
  set (val1 := put val (map (rep ms) M0) (take vzero val M0)) in *.
  set (fl1 := put fl (map (rep ms) M0) (take false fl M0)) in *.
  assert (HM0 : forall x, In x M0 <-> (0 < nth x ms 0)%Z /\ nth x fl false = true).
  { intros x. unfold M0. rewrite filter_In, masters_In. tauto. }
  assert (HM1 : forall x, In x M1 <-> (0 < nth x ms 0)%Z /\ nth (rep ms x) fl false = true).
  { intros x. unfold M1. rewrite filter_In, masters_In. tauto. }
  assert (HMb : forall x, (0 < nth x ms 0)%Z -> x < n).
  { intros x Hx. destruct (Nat.lt_ge_cases x n); auto.
    rewrite nth_overflow in Hx by (rewrite (mg_len G); auto). lia. }
  assert (HRb : forall x, (0 < nth x ms 0)%Z -> rep ms x < n).
  { intros x Hx. destruct (mg_pos G x Hx) as [Hn _].
    destruct (Nat.lt_ge_cases (rep ms x) n); auto.
    rewrite nth_overflow in Hn by (rewrite (mg_len G); auto). lia. }
  assert (HRn : forall x, (0 < nth x ms 0)%Z -> ~ (0 < nth (rep ms x) ms 0)%Z).
  { intros x Hx. destruct (mg_pos G x Hx) as [Hn _]. lia. }
  assert (Hrepid : forall x, ~ (0 < nth x ms 0)%Z -> rep ms x = x).
  { intros x Hx. unfold rep. destruct (Z.ltb_spec 0 (nth x ms 0%Z)); auto; lia. }
  assert (L1 : length fl1 = n) by (unfold fl1; rewrite length_put; auto).
  assert (Lv1 : length val1 = n) by (unfold val1; rewrite length_put; auto).
  assert (Hr0 : forall i, In i (map (rep ms) M0) -> i < n).
  { intros i Hi. apply in_map_iff in Hi. destruct Hi as (x & <- & Hx). apply HM0 in Hx. apply HRb; tauto. }
  (* first assignment *)
  assert (F1 : forall x, (nth x fl1 false = nth x fl false /\ nth x val1 vzero = nth x val vzero /\
                          forall y, In y M0 -> rep ms y <> x) \/
               (exists y, In y M0 /\ rep ms y = x /\ nth x fl1 false = true /\ nth x val1 vzero = nth y val vzero)).
  { intros x. unfold fl1, val1.
    assert (Hc := put_ex _ (map (rep ms) M0) (take vzero val M0) val x vzero).
    destruct (put_lastval (map (rep ms) M0) (take false fl M0) fl x false) as [].
    { rewrite Lf; auto. }
    destruct Hc as [[H1 H2]|(k & Hk & H1 & H2)].
    { rewrite Lv; auto. } { rewrite length_take, map_length; auto. }
    - left. split; [|split; auto].
      + apply put_notin; auto.
      + intros y Hy E. apply H1. rewrite <- E. apply in_map; auto.
    - right. rewrite map_length in Hk. exists (nth k M0 0).
      assert (Hin : In (nth k M0 0) M0) by (apply nth_In; auto).
      split; auto. rewrite nth_map_in with (da := 0) in H1 by auto. split; auto. split.
      + destruct (put_ex _ (map (rep ms) M0) (take false fl M0) fl x false) as [[H3 _]|(k' & Hk' & H3 & H4)].
        * rewrite Lf; auto.
        * rewrite length_take, map_length; auto.
        * exfalso. apply H3. rewrite <- H1. apply in_map; auto.
        * rewrite H4. rewrite map_length in Hk'. rewrite nth_take by auto.
          assert (Hk0 : In (nth k' M0 0) M0) by (apply nth_In; auto). apply HM0 in Hk0. tauto.
      + rewrite H2. rewrite nth_take by auto. auto. }
  (* second assignment *)
  injection H as <- <-.
  assert (EF : forall (B : Type) (d : B) (l : list B), take d l (map (rep ms) M1) = map (fun x => nth (rep ms x) l d) M1).
  { intros. unfold take. rewrite map_map. auto. }
  rewrite !EF.
  assert (HM1b : forall i, In i M1 -> i < n) by (intros i Hi; apply HM1 in Hi; apply HMb; tauto).
  assert (S1 : forall x, nth x (put fl1 M1 (map (fun x => nth (rep ms x) fl1 false) M1)) false =
      if in_dec Nat.eq_dec x M1 then nth (rep ms x) fl1 false else nth x fl1 false).
  { intros x. apply (put_fun (fun x => nth (rep ms x) fl1 false)). rewrite L1; auto. }
  assert (S2 : forall x, nth x (put val1 M1 (map (fun x => nth (rep ms x) val1 vzero) M1)) vzero =
      if in_dec Nat.eq_dec x M1 then nth (rep ms x) val1 vzero else nth x val1 vzero).
  { intros x. apply (put_fun (fun x => nth (rep ms x) val1 vzero)). rewrite Lv1; auto. }
  split; [rewrite length_put; auto|]. split; [rewrite length_put; auto|].
  assert (Fm : forall x, (0 < nth x ms 0)%Z -> nth x fl1 false = nth x fl false /\ nth x val1 vzero = nth x val vzero).
  { intros x Hx. destruct (F1 x) as [(E1 & E2 & _)|(y & Hy & Er & _)]; auto.
    exfalso. apply HM0 in Hy. destruct Hy as [Hy _]. apply (HRn y Hy). rewrite Er; auto. }
  assert (Fr : forall x, ~ (0 < nth x ms 0)%Z -> (nth x fl1 false = true <-> exists y, rep ms y = x /\ nth y fl false = true)).
  { intros x Hx. destruct (F1 x) as [(E1 & E2 & E3)|(y & Hy & Er & E1 & E2)].
    - rewrite E1. split.
      + intros Hf. exists x. split; auto.
      + intros (y & Er & Hf). destruct (Z.lt_ge_cases 0 (nth y ms 0%Z)) as [Hy|Hy].
        * exfalso. apply (E3 y); auto. apply HM0; auto.
        * rewrite Hrepid in Er by lia. subst; auto.
    - split; auto. intros _. exists y. apply HM0 in Hy. tauto. }
  split; [|split; [|split]].
  - intros x Hx Hm. rewrite S1. destruct (Fm x Hm) as [E1 _].
    destruct (in_dec Nat.eq_dec x M1) as [Hi|Hi].
    + apply HM1 in Hi. destruct Hi as [_ Hi]. split; [tauto|]. intros _.
      apply Fr; [apply HRn; auto|]. exists (rep ms x). split; [apply Hrepid, HRn; auto|auto].
    + rewrite E1. split; auto. intros [|Hf]; auto. exfalso; apply Hi. apply HM1; auto.
  - intros x Hx Hm. rewrite S1. destruct (in_dec Nat.eq_dec x M1) as [Hi|Hi].
    + apply HM1 in Hi. tauto.
    + apply Fr; auto.
  - intros x Hx Hf. rewrite S1 in Hf. rewrite S2.
    assert (Hval1 : forall z, nth z fl1 false = true -> exists y, linked A z y /\ nth y fl false = true /\
                       nth z val1 vzero = nth y val vzero).
    { intros z Hz. destruct (F1 z) as [(E1 & E2 & E3)|(y & Hy & Er & E1 & E2)].
      - exists z. rewrite <- E1. split; [apply rst_refl|auto].
      - exists y. apply HM0 in Hy. destruct Hy as [Hy1 Hy2]. split; auto.
        destruct (mg_pos G y Hy1) as [_ Lk]. rewrite Er in Lk. apply rst_sym; auto. }
    destruct (in_dec Nat.eq_dec x M1) as [Hi|Hi]; auto.
    destruct (Hval1 _ Hf) as (y & Lk & Hy1 & Hy2). exists y. split; auto.
    apply HM1 in Hi. destruct (mg_pos G x) as [_ Lk2]; [tauto|]. eapply rst_trans; eauto.
  - intros x Hx Hf. rewrite S1 in Hf. rewrite S2. destruct (in_dec Nat.eq_dec x M1) as [Hi|Hi].
    + apply HM1 in Hi. destruct Hi as [Hi1 Hi2].
      assert (nth (rep ms x) fl1 false = true); [|congruence].
      apply Fr; [apply HRn; auto|]. exists (rep ms x). split; [apply Hrepid, HRn; auto|auto].
    + destruct (F1 x) as [(E1 & E2 & E3)|(y & Hy & Er & E1 & E2)]; auto. congruence.
Qed.

(** ** The numbering *)

Lemma eqi_filter : forall (eq : list Z) n, length eq = n ->
  (forall x, x < n -> nth x eq 0%Z = Z.of_nat x \/ (nth x eq 0 < 0)%Z) ->
  map Z.to_nat (filter (fun z => (0 <=? z)%Z) eq) = nonzero (fun z => (0 <=? z)%Z) eq.
Proof.
  intros eq n Hl H. subst n. unfold nonzero.
  assert (Hgen : forall (l : list Z) k, (forall x, x < length l -> nth x l 0%Z = Z.of_nat (k + x) \/ (nth x l 0 < 0)%Z) ->
     map Z.to_nat (filter (fun z => (0 <=? z)%Z) l) = nonzero_from (fun z => (0 <=? z)%Z) l k).
  { clear. induction l as [|z l IH]; intros k H; simpl; auto.
    assert (H' : map Z.to_nat (filter (fun z => (0 <=? z)%Z) l) = nonzero_from (fun z => (0 <=? z)%Z) l (S k)).
    { apply IH. intros x Hx. replace (S k + x) with (k + S x) by lia. apply (H (S x)). simpl; lia. }
    destruct (H 0) as [E|E]; simpl in *; try lia.
    - rewrite E. destruct (Z.leb_spec 0 (Z.of_nat (k + 0))); [|lia]. simpl. f_equal; auto. lia.
    - destruct (Z.leb_spec 0 z); [lia|]. auto. }
  apply Hgen. auto.
Qed.

Record em_ok (n : nat) (unused : list nat) (A : list (nat * nat)) (fl : list bool) (val : list V) (em : eqmap V) : Prop := {
  o_eqi_s : sinc (em_eqi em);
  o_eqi : forall x, In x (em_eqi em) <-> x < n /\ ~ In x (em_ebc em) /\ ~ In x (em_master em) /\ ~ In x unused;
  o_ebc_s : sinc (em_ebc em);
  o_ebc_n : forall x, In x (em_ebc em) -> x < n;
  o_val_l : length (em_val em) = length (em_ebc em);
  o_m_s : sinc (em_master em);
  o_s_l : length (em_slave em) = length (em_master em);
  o_ms : forall m s, In (m, s) (combine (em_master em) (em_slave em)) ->
           m < n /\ s < n /\ ~ In s (em_master em) /\ linked A m s;
  o_flag : forall x, x < n -> nth x fl false = true -> In x (em_ebc em);
  o_flag_inv : forall x, In x (em_ebc em) -> exists y, linked A x y /\ nth y fl false = true;
  o_flag_root : forall x y, x < n -> ~ In x (em_master em) -> linked A x y -> nth y fl false = true -> In x (em_ebc em);
  o_val : forall k, k < length (em_ebc em) -> exists y, linked A (nth k (em_ebc em) 0) y /\ nth y fl false = true /\
            nth k (em_val em) vzero = nth y val vzero;
  o_tied : forall x y, linked A x y -> x <> y ->
     exists r, (In (x, r) (combine (em_master em) (em_slave em)) \/ (x = r /\ ~ In x (em_master em))) /\
               (In (y, r) (combine (em_master em) (em_slave em)) \/ (y = r /\ ~ In y (em_master em)));
  o_eq_l : length (em_eq em) = n;
  o_eq : forall k, k < length (em_eqi em) -> nth (nth k (em_eqi em) 0) (em_eq em) 0%Z = Z.of_nat k;
  o_eq_neg : forall x, x < n -> ~ In x (em_eqi em) -> ~ In x (em_master em) -> (nth x (em_eq em) 0 < 0)%Z;
  o_eq_m : forall m s, In (m, s) (combine (em_master em) (em_slave em)) ->
             nth m (em_eq em) 0%Z = nth s (em_eq em) 0%Z }.

Lemma finish_ok : forall ord n unused A st em,
  (forall l, Permutation (ord l) l) ->
  length (m_flag st) = n -> length (m_val st) = n ->
  (forall gs, group_chains ord (m_ch st) = Some gs -> ms_good n A (resolve_chains (m_ms st) gs)) ->
  finish vzero ord n unused st = Ok em ->
  em_ok n unused A (m_flag st) (m_val st) em.
Proof.
  intros ord n unused A st em Hord Lf Lv HG H. unfold finish in H.
  destruct (group_chains ord (m_ch st)) as [gs|] eqn:Eg; [|discriminate].
  specialize (HG gs eq_refl). set (ms := resolve_chains (m_ms st) gs) in *.
  destruct (propagate vzero (m_flag st) (m_val st) (masters ms) (slaves ms)) as [fl2 val2] eqn:EP.
  destruct (propagate_spec n A ms (m_flag st) (m_val st) fl2 val2 HG Lf Lv EP) as (P1 & P2 & P3 & P4 & P5 & P6).
  injection H as <-.
  set (ebc := nonzero (fun b => b) fl2) in *.
  set (eq0 := map Z.of_nat (seq 0 n)).
  set (eq1 := put1 eq0 ebc (-2)%Z). set (eq2 := put1 eq1 (masters ms) (-1)%Z).
  set (eq3 := put1 eq2 unused (-3)%Z).
  set (eqi := map Z.to_nat (filter (fun z => (0 <=? z)%Z) eq3)) in *.
  set (eq4 := put eq3 eqi (map Z.of_nat (seq 0 (length eqi)))).
  assert (Hebc : forall x, In x ebc <-> x < n /\ nth x fl2 false = true).
  { intros x. unfold ebc. rewrite (nonzero_spec _ false), P1. tauto. }
  assert (L0 : length eq0 = n) by (unfold eq0; rewrite map_length, seq_length; auto).
  assert (L1 : length eq1 = n) by (unfold eq1; rewrite length_put1; auto).
  assert (L2 : length eq2 = n) by (unfold eq2; rewrite length_put1; auto).
  assert (L3 : length eq3 = n) by (unfold eq3; rewrite length_put1; auto).
  assert (N3 : forall x, x < n -> nth x eq3 0%Z =
     if in_dec Nat.eq_dec x unused then (-3)%Z else
     if in_dec Nat.eq_dec x (masters ms) then (-1)%Z else
     if in_dec Nat.eq_dec x ebc then (-2)%Z else Z.of_nat x).
  { intros x Hx. unfold eq3. rewrite nth_put1 by lia. unfold eq2. rewrite nth_put1 by lia.
    unfold eq1. rewrite nth_put1 by lia. unfold eq0.
    rewrite nth_map_in with (da := 0) by (rewrite seq_length; auto). rewrite nth_seq0 by auto. auto. }
  assert (Eeqi : eqi = nonzero (fun z => (0 <=? z)%Z) eq3).
  { unfold eqi. apply eqi_filter with (n := n); auto. intros x Hx. rewrite N3 by auto.
    destruct (in_dec Nat.eq_dec x unused); [right; lia|].
    destruct (in_dec Nat.eq_dec x (masters ms)); [right; lia|].
    destruct (in_dec Nat.eq_dec x ebc); [right; lia|]. auto. }
  assert (Heqi : forall x, In x eqi <-> x < n /\ ~ In x ebc /\ ~ In x (masters ms) /\ ~ In x unused).
  { intros x. rewrite Eeqi, (nonzero_spec _ 0%Z), L3, Z.leb_le.
    split.
    - intros [Hx H]. rewrite N3 in H by auto. split; auto.
      destruct (in_dec Nat.eq_dec x unused); [lia|].
      destruct (in_dec Nat.eq_dec x (masters ms)); [lia|].
      destruct (in_dec Nat.eq_dec x ebc); [lia|]. auto.
    - intros (Hx & H1 & H2 & H3). split; auto. rewrite N3 by auto.
      destruct (in_dec Nat.eq_dec x unused); [tauto|].
      destruct (in_dec Nat.eq_dec x (masters ms)); [tauto|].
      destruct (in_dec Nat.eq_dec x ebc); [tauto|]. lia. }
  assert (Hsi : sinc eqi) by (rewrite Eeqi; apply nonzero_sinc).
  assert (L4 : length eq4 = n) by (unfold eq4; rewrite length_put; auto).
  assert (N4 : forall k, k < length eqi -> nth (nth k eqi 0) eq4 0%Z = Z.of_nat k).
  { intros k Hk. unfold eq4. rewrite put_nth; auto.
    - rewrite nth_map_in with (da := 0) by (rewrite seq_length; auto). rewrite nth_seq0; auto.
    - apply sinc_NoDup; auto.
    - intros i Hi. apply Heqi in Hi. lia.
    - rewrite map_length, seq_length; auto. }
  assert (N4' : forall x, ~ In x eqi -> nth x eq4 0%Z = nth x eq3 0%Z).
  { intros x Hx. unfold eq4. apply put_notin; auto. }
  assert (Hcmb : forall m s, In (m, s) (combine (masters ms) (slaves ms)) <-> (0 < nth m ms 0)%Z /\ s = rep ms m).
  { intros m s. rewrite slaves_rep, combine_map_r, in_map_iff. split.
    - intros (x & E & Hx). injection E as -> <-. apply masters_In in Hx. auto.
    - intros [Hm ->]. exists m. split; auto. apply masters_In; auto. }
  assert (HMb : forall x, (0 < nth x ms 0)%Z -> x < n).
  { intros x Hx. destruct (Nat.lt_ge_cases x n); auto.
    rewrite nth_overflow in Hx by (rewrite (mg_len HG); auto). lia. }
  assert (HRb : forall x, (0 < nth x ms 0)%Z -> rep ms x < n /\ ~ In (rep ms x) (masters ms)).
  { intros x Hx. destruct (mg_pos HG x Hx) as [Hn _]. split.
    - destruct (Nat.lt_ge_cases (rep ms x) n); auto.
      rewrite nth_overflow in Hn by (rewrite (mg_len HG); auto). lia.
    - rewrite masters_In. lia. }
  assert (Hrepid : forall x, ~ In x (masters ms) -> rep ms x = x).
  { intros x Hx. rewrite masters_In in Hx. unfold rep. destruct (Z.ltb_spec 0 (nth x ms 0%Z)); auto; lia. }
  assert (N5 : forall x, nth x (put eq4 (masters ms) (take 0%Z eq4 (slaves ms))) 0%Z =
             if in_dec Nat.eq_dec x (masters ms) then nth (rep ms x) eq4 0%Z else nth x eq4 0%Z).
  { intros x. rewrite slaves_rep. unfold take. rewrite map_map.
    apply (put_fun (fun x => nth (rep ms x) eq4 0%Z)).
    intros i Hi. rewrite L4. apply HMb. apply masters_In; auto. }
  constructor; cbn [em_eqi em_ebc em_master em_slave em_val em_eq]; auto.
  - apply nonzero_sinc.
  - intros x Hx. apply Hebc in Hx. tauto.
  - apply length_take.
  - apply nonzero_sinc.
  - rewrite slaves_rep, map_length; auto.
  - intros m s Hms. apply Hcmb in Hms. destruct Hms as [Hm ->].
    destruct (HRb m Hm). destruct (mg_pos HG m Hm). auto.
  - intros x Hx Hf. apply Hebc. split; auto.
    destruct (Z.lt_ge_cases 0 (nth x ms 0%Z)).
    + apply P3; auto.
    + apply P4; auto; [lia|]. exists x. split; auto. apply Hrepid. rewrite masters_In. lia.
  - intros x Hx. apply Hebc in Hx. destruct Hx as [H1 H2]. destruct (P5 x H1 H2) as (y & Q1 & Q2 & _). eauto.
  - intros x y Hx Hnm Lk Hy. apply Hebc. split; auto. apply P4; auto.
    + rewrite masters_In in Hnm. auto.
    + exists y. split; auto. rewrite <- (mg_tied HG Lk). apply Hrepid; auto.
  - intros k Hk. assert (Hin : In (nth k ebc 0) ebc) by (apply nth_In; auto).
    apply Hebc in Hin. destruct Hin as [H1 H2]. destruct (P5 _ H1 H2) as (y & Q1 & Q2 & Q3).
    exists y. split; auto. split; auto. rewrite nth_take by auto. auto.
  - intros x y Lk _. exists (rep ms x). split.
    + destruct (in_dec Nat.eq_dec x (masters ms)) as [Hi|Hi].
      * left. apply Hcmb. split; auto. apply masters_In; auto.
      * right. split; auto. symmetry; auto.
    + rewrite (mg_tied HG Lk). destruct (in_dec Nat.eq_dec y (masters ms)) as [Hi|Hi].
      * left. apply Hcmb. split; auto. apply masters_In; auto.
      * right. split; auto. symmetry; auto.
  - rewrite length_put; auto.
  - intros k Hk. rewrite N5. destruct (in_dec Nat.eq_dec (nth k eqi 0) (masters ms)) as [Hi|Hi].
    + exfalso. assert (In (nth k eqi 0) eqi) by (apply nth_In; auto). apply Heqi in H. tauto.
    + auto.
  - intros x Hx H1 H2. rewrite N5. destruct (in_dec Nat.eq_dec x (masters ms)); [tauto|].
    rewrite N4' by auto. rewrite N3 by auto.
    destruct (in_dec Nat.eq_dec x unused); [lia|].
    destruct (in_dec Nat.eq_dec x (masters ms)); [lia|].
    destruct (in_dec Nat.eq_dec x ebc); [lia|]. exfalso. apply H1. apply Heqi. auto.
  - intros m s Hms. apply Hcmb in Hms. destruct Hms as [Hm ->].
    rewrite !N5. destruct (HRb m Hm) as [_ Hnr].
    destruct (in_dec Nat.eq_dec m (masters ms)) as [Hi|Hi]; [|exfalso; apply Hi, masters_In; auto].
    destruct (in_dec Nat.eq_dec (rep ms m) (masters ms)); [tauto|auto].
Qed.

End Fin.
