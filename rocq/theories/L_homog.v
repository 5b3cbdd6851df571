From Verif Require Import Base M_homog.
From Coq Require Import Relations Lia.
Set Implicit Arguments.
Open Scope nat_scope.

Lemma mem_In : forall x l, mem x l = true <-> In x l.
Proof. intros x l. unfold mem. destruct (in_dec name_dec x l); split; intros; auto; try discriminate; contradiction. Qed.
Lemma mem_false : forall x l, mem x l = false <-> ~ In x l.
Proof. intros x l. unfold mem. destruct (in_dec name_dec x l); split; intros; auto; try discriminate; contradiction. Qed.

Lemma in_add_name : forall x l y, In y (add_name x l) <-> In y l \/ y = x.
Proof.
  intros. unfold add_name. destruct (mem x l) eqn:M.
  - apply mem_In in M. split; auto. intros [|]; subst; auto.
  - rewrite in_app_iff. cbn. intuition.
Qed.
Lemma in_merge : forall a s y, In y (a ++ filter (fun i => negb (mem i a)) s) <-> In y a \/ In y s.
Proof.
  intros. rewrite in_app_iff, filter_In. destruct (mem y a) eqn:M; cbn.
  - apply mem_In in M. intuition.
  - intuition.
Qed.

Section Good.
Variable I : name -> option (list name).
Definition needs (x y : name) : Prop := exists l, I x = Some l /\ In y l.
(** Distinct names, each after everything it requires. *)
Inductive good : list name -> Prop :=
| good_nil : good []
| good_snoc : forall l x r, good l -> ~ In x l -> I x = Some r -> incl r l -> good (l ++ [x]).

Lemma good_NoDup : forall l, good l -> NoDup l.
Proof.
  induction 1; [constructor|]. apply NoDup_rev in IHgood. rewrite <- (rev_involutive (l ++ [x])).
  apply NoDup_rev. rewrite rev_app_distr. cbn. constructor; auto. rewrite <- in_rev. auto.
Qed.
Lemma good_split : forall l, good l -> forall l1 x l2, l = l1 ++ x :: l2 -> exists r, I x = Some r /\ incl r l1 /\ ~ In x l1.
Proof.
  induction 1 as [|l x r G IH Nx E Hr]; intros l1 y l2 EQ; [destruct l1; discriminate|].
  destruct l2 as [|z l2] using rev_ind.
  - apply app_inj_tail in EQ. destruct EQ as [-> ->]. eauto.
  - clear IHl2. rewrite app_comm_cons, app_assoc in EQ. apply app_inj_tail in EQ. destruct EQ as [-> ->]. eauto.
Qed.
Lemma good_in : forall l x, good l -> In x l -> exists r, I x = Some r /\ incl r l.
Proof.
  intros l x G Hx. apply in_split in Hx. destruct Hx as (l1 & l2 & E).
  destruct (@good_split _ G _ _ _ E) as (r & E2 & H & _). exists r. split; auto. rewrite E. apply incl_appl. auto.
Qed.
Lemma good_closed : forall l, good l -> forall x y, clos_refl_trans _ needs x y -> In x l -> In y l.
Proof.
  intros l G x y H. induction H; intros; auto.
  destruct H as (r & E & Hy). destruct (@good_in _ _ G H0) as (r' & E' & Hi). rewrite E in E'. inversion E'; subst. auto.
Qed.
Lemma good_add : forall l x r, good l -> I x = Some r -> incl r l -> good (add_name x l).
Proof.
  intros l x r G E H. unfold add_name. destruct (mem x l) eqn:M; auto. apply mem_false in M. eapply good_snoc; eauto.
Qed.
Lemma good_merge : forall a s, good a -> good s -> good (a ++ filter (fun i => negb (mem i a)) s).
Proof.
  intros a s Ga Gs. induction Gs as [|l x r G IH Nx E Hr]; cbn; [rewrite app_nil_r; auto|].
  rewrite filter_app. cbn. destruct (mem x a) eqn:M; cbn; [rewrite app_nil_r; auto|].
  apply mem_false in M. rewrite app_assoc. apply good_snoc with r; auto.
  - rewrite in_app_iff, filter_In. intuition.
  - intros y Hy. apply in_or_app. destruct (mem y a) eqn:My; [left; apply mem_In; auto|].
    right. apply filter_In. rewrite My. auto.
Qed.
(** No cycle through the names of a good list. *)
Lemma tc_step : forall x y, clos_trans _ needs x y -> exists z, needs x z /\ clos_refl_trans _ needs z y.
Proof.
  intros x y H. apply clos_trans_t1n in H. destruct H as [y H|z y H H2]; [exists y; split; auto; apply rt_refl|].
  exists z. split; auto. apply clos_t1n_trans in H2. clear -H2. induction H2; [apply rt_step; auto|eapply rt_trans; eauto].
Qed.
Lemma good_tc : forall l, good l -> forall x y, clos_trans _ needs x y -> forall l1 l2, l = l1 ++ x :: l2 -> In y l1.
Proof.
  intros l G x y H. apply clos_trans_t1n in H. induction H as [x y H|x z y H H2 IH]; intros l1 l2 E.
  - destruct (@good_split _ G _ _ _ E) as (r & E2 & Hi & _). destruct H as (r' & E3 & Hy). assert (r = r') by congruence; subst r'. auto.
  - destruct (@good_split _ G _ _ _ E) as (r & E2 & Hi & _). destruct H as (r' & E3 & Hz). assert (r = r') by congruence; subst r'.
    specialize (Hi _ Hz). apply in_split in Hi. destruct Hi as (m1 & m2 & ->).
    rewrite <- app_assoc in E. cbn in E. apply in_or_app. left. eapply IH; eauto.
Qed.
Lemma good_acyclic : forall l x, good l -> In x l -> ~ clos_trans _ needs x x.
Proof.
  intros l x G Hx H. apply in_split in Hx. destruct Hx as (l1 & l2 & E). pose proof (@good_tc _ G _ _ H _ _ E).
  destruct (@good_split _ G _ _ _ E) as (_ & _ & _ & N). contradiction.
Qed.
End Good.

Section Insert.
Variable info : key -> option (list name).
Let I (n : name) := info (snd n).
Notation R := (needs I).
Notation "x ->* y" := (clos_refl_trans _ R x y) (at level 70).

(** The inner loop. *)
Definition sub_loop (f : nat) (levels : list name) :=
  fix loop (reqs : list name) (all_reqs : list name) : res (list name) :=
         match reqs with
         | [] => Ok all_reqs
         | req :: t =>
             match info (snd req) with
             | None => Err ValueError
             | Some sub_reqs =>
                 if mem req levels then Err ValueError else
                 match sub_reqs with
                 | [] => loop t (add_name req all_reqs)
                 | _ => match insert_sub_reqs f sub_reqs (levels ++ [req]) info with
                        | Err e => Err e
                        | Ok sreqs =>
                            let all_reqs := all_reqs ++ filter (fun i => negb (mem i all_reqs)) sreqs in
                            loop t (add_name req all_reqs)
                        end
                 end
             end
         end.
Lemma insert_unfold : forall f reqs levels, insert_sub_reqs (S f) reqs levels info = sub_loop f levels reqs [].
Proof. reflexivity. Qed.

Lemma closure_step : forall req subs y, info (snd req) = Some subs ->
  (req ->* y <-> (exists s, In s subs /\ s ->* y) \/ y = req).
Proof.
  intros req subs y E. split.
  - intros H. apply clos_rt_rt1n in H. inversion H; subst; auto. left.
    destruct H0 as (l & El & Hl). unfold I in El. rewrite E in El. inversion El; subst.
    eexists. split; eauto. apply clos_rt1n_rt. auto.
  - intros [(s & Hs & H)| ->]; [|apply rt_refl]. apply rt_trans with s; auto. apply rt_step. exists subs. auto.
Qed.

Lemma insert_sound : forall fuel reqs levels l, insert_sub_reqs fuel reqs levels info = Ok l ->
  good I l /\ forall y, In y l <-> exists x, In x reqs /\ x ->* y.
Proof.
  induction fuel as [|f IH]; intros reqs levels l E; [discriminate|]. rewrite insert_unfold in E.
  cut (forall reqs acc l, good I acc -> sub_loop f levels reqs acc = Ok l ->
        good I l /\ forall y, In y l <-> In y acc \/ exists x, In x reqs /\ x ->* y).
  { intros C. destruct (C _ _ _ (good_nil I) E) as [G H]. split; auto. intros y. rewrite H. cbn. intuition. }
  clear reqs l E. induction reqs as [|req t IHt]; intros acc l G E; cbn in E.
  - inversion E; subst. split; auto. intros y. split; auto. intros [|(x & [] & _)]; auto.
  - destruct (info (snd req)) as [subs|] eqn:Es; [|discriminate]. destruct (mem req levels); [discriminate|].
    assert (K : forall acc', good I acc' -> (forall y, In y acc' <-> In y acc \/ req ->* y) ->
                sub_loop f levels t acc' = Ok l ->
                good I l /\ (forall y, In y l <-> In y acc \/ exists x, In x (req :: t) /\ x ->* y)).
    { intros acc' G' H' E'. destruct (IHt _ _ G' E') as [GL HL]. split; auto. intros y. rewrite HL, H'. split.
      - intros [[|]|(x & Hx & H)]; auto; right; [exists req|exists x]; cbn; auto.
      - intros [|(x & [<-|Hx] & H)]; auto. right. eauto. }
    destruct subs as [|s0 ss].
    + apply K with (add_name req acc); auto.
      * eapply good_add; eauto. intros z [].
      * intros y. rewrite in_add_name, (@closure_step _ _ y Es). cbn. clear. split; [tauto|].
        intros [?|[(s & F & _)|?]]; [auto|destruct F|auto].
    + destruct (insert_sub_reqs f (s0 :: ss) (levels ++ [req]) info) as [sreqs|] eqn:Ei; [|discriminate].
      destruct (IH _ _ _ Ei) as [Gs Hs]. cbv zeta in E.
      apply K in E; auto.
      * eapply good_add; [apply good_merge; auto|exact Es|]. intros z Hz. apply in_merge. right. apply Hs. exists z. split; auto. apply rt_refl.
      * intros y. rewrite in_add_name, in_merge, (@closure_step _ _ y Es), Hs. tauto.
Qed.

Definition undefined_or_cyclic (x : name) : Prop :=
  exists y, x ->* y /\ (info (snd y) = None \/ clos_trans _ R y y).
Variable dom : list name.
Hypothesis Hdom : forall x, info (snd x) <> None -> In x dom.

Lemma insert_complete : forall fuel reqs levels e, insert_sub_reqs fuel reqs levels info = Err e ->
  NoDup levels -> incl levels dom -> length dom < fuel + length levels ->
  (forall l x, In l levels -> In x reqs -> clos_trans _ R l x) ->
  e = ValueError /\ exists x, In x reqs /\ undefined_or_cyclic x.
Proof.
  induction fuel as [|f IH]; intros reqs levels e E ND Hi Hf Hl.
  { pose proof (NoDup_incl_length ND Hi). cbn in Hf. lia. }
  rewrite insert_unfold in E.
  cut (forall reqs acc e, sub_loop f levels reqs acc = Err e ->
       (forall l x, In l levels -> In x reqs -> clos_trans _ R l x) ->
       e = ValueError /\ exists x, In x reqs /\ undefined_or_cyclic x).
  { intros C. eapply C; eauto. }
  clear reqs e E Hl. induction reqs as [|req t IHt]; intros acc e E Hl; cbn in E; [discriminate|].
  assert (K : forall acc', sub_loop f levels t acc' = Err e -> e = ValueError /\ exists x, In x (req :: t) /\ undefined_or_cyclic x).
  { intros acc' E'. destruct (IHt _ _ E') as (E1 & x & Hx & H); [intros; apply Hl; cbn; auto|]. split; auto. exists x. cbn; auto. }
  destruct (info (snd req)) as [subs|] eqn:Es.
  2:{ inversion E; subst. split; auto. exists req. split; [cbn; auto|]. exists req. split; [apply rt_refl|auto]. }
  destruct (mem req levels) eqn:M.
  { inversion E; subst. apply mem_In in M. split; auto. exists req. split; [cbn; auto|]. exists req. split; [apply rt_refl|].
    right. apply Hl; cbn; auto. }
  apply mem_false in M.
  destruct subs as [|s0 ss]; [eapply K; eauto|].
  destruct (insert_sub_reqs f (s0 :: ss) (levels ++ [req]) info) as [sreqs|e'] eqn:Ei; [eapply K; eauto|].
  inversion E; subst e'.
  assert (Hstep : forall x, In x (s0 :: ss) -> R req x) by (intros x Hx; exists (s0 :: ss); auto).
  destruct (IH _ _ _ Ei) as (E1 & x & Hx & y & Hy & Hc).
  - apply NoDup_rev in ND. rewrite <- (rev_involutive (levels ++ [req])). apply NoDup_rev. rewrite rev_app_distr. cbn.
    constructor; auto. rewrite <- in_rev. auto.
  - intros z Hz. apply in_app_or in Hz. destruct Hz as [|[<-|[]]]; auto. apply Hdom. rewrite Es. discriminate.
  - rewrite app_length. cbn. lia.
  - intros l x Hl' Hx. apply in_app_or in Hl'. destruct Hl' as [Hl'|[<-|[]]].
    + apply t_trans with req; [apply Hl; cbn; auto|apply t_step; auto].
    + apply t_step. auto.
  - split; auto. exists req. split; [cbn; auto|]. exists y. split; auto. apply rt_trans with x; auto. apply rt_step. auto.
Qed.
End Insert.

(** ** The workers *)
Section Work.
Context {V : Type}.
Variable reqs : name -> option (list name).
Variable app : name -> list V -> V.
Notation good := (good reqs).

Lemma dlook_dset : forall (d : deps V) n v m, dlook m (dset d n v) = if name_dec m n then Some v else dlook m d.
Proof. reflexivity. Qed.
Lemma dlooks_ext : forall ns (d d' : deps V), (forall n, In n ns -> dlook n d = dlook n d') -> dlooks ns d = dlooks ns d'.
Proof. induction ns as [|n t IH]; intros d d' H; cbn; auto. rewrite H by (cbn; auto). rewrite (IH d d'); auto. intros; apply H; cbn; auto. Qed.
Lemma dlooks_ok : forall ns (d : deps V), (forall n, In n ns -> dlook n d <> None) -> exists l, dlooks ns d = Ok l.
Proof.
  induction ns as [|n t IH]; intros d H; cbn; eauto. destruct (dlook n d) eqn:E; [|destruct (H n); cbn; auto].
  destruct (IH d) as (l & ->); eauto. intros; apply H; cbn; auto.
Qed.

(** The items of a dictionary are the results for the items required. *)
Definition consistent (d : deps V) : Prop :=
  forall n v, dlook n d = Some v -> exists l vs, reqs n = Some l /\ dlooks l d = Ok vs /\ v = app n vs.

Lemma dlooks_inv : forall ns (d : deps V) l, dlooks ns d = Ok l -> forall n, In n ns -> dlook n d <> None.
Proof.
  induction ns as [|m t IH]; intros d l E n Hn; [destruct Hn|]. cbn in E. destruct (dlook m d) eqn:Em; [|discriminate].
  destruct (dlooks t d) eqn:Et; [|discriminate]. destruct Hn as [<-|Hn]; [congruence|]. eapply IH; eauto.
Qed.
Lemma dset_new_looks : forall (d : deps V) n v l, dlook n d = None -> (forall m, In m l -> dlook m d <> None) -> dlooks l (dset d n v) = dlooks l d.
Proof. intros. apply dlooks_ext. intros m Hm. rewrite dlook_dset. destruct (name_dec m n); subst; auto. destruct (H0 n); auto. Qed.
Lemma consistent_set : forall (d : deps V) n v, consistent d -> dlook n d = None -> calculate_req reqs app d n = Ok v -> consistent (dset d n v).
Proof.
  intros d n v C N E. unfold calculate_req in E. destruct (reqs n) as [l|] eqn:El; [|discriminate].
  destruct (dlooks l d) as [vs|] eqn:Ev; [|discriminate]. inversion E; subst v.
  intros m w Hm. rewrite dlook_dset in Hm. destruct (name_dec m n) as [->|].
  - inversion Hm; subst. exists l, vs. split; auto. split; auto. rewrite dset_new_looks; auto. eapply dlooks_inv; eauto.
  - destruct (C m w Hm) as (l' & vs' & E1 & E2 & E3). exists l', vs'. split; auto. split; auto.
    rewrite dset_new_looks; auto. eapply dlooks_inv; eauto.
Qed.

(** Two consistent dictionaries agree on the common names of a good list. *)
Lemma consistent_unique : forall l, good l -> forall (d d' : deps V), consistent d -> consistent d' ->
  (forall n, In n l -> dlook n d <> None) -> (forall n, In n l -> dlook n d' <> None) ->
  forall n, In n l -> dlook n d = dlook n d'.
Proof.
  induction 1 as [|l x r G IH Nx E Hr]; intros d d' C C' H H' n Hn; [destruct Hn|].
  assert (IHl : forall m, In m l -> dlook m d = dlook m d').
  { apply IH; auto; intros; [apply H|apply H']; apply in_or_app; auto. }
  apply in_app_or in Hn. destruct Hn as [|[<-|[]]]; auto.
  destruct (dlook x d) as [v|] eqn:E1; [|destruct (H x); auto; apply in_or_app; cbn; auto].
  destruct (dlook x d') as [v'|] eqn:E2; [|destruct (H' x); auto; apply in_or_app; cbn; auto].
  destruct (C _ _ E1) as (a & vs & A1 & A2 & ->). destruct (C' _ _ E2) as (b & ws & B1 & B2 & ->).
  rewrite E in A1, B1. inversion A1; inversion B1; subst. rewrite (@dlooks_ext b d d') in A2; [|auto]. congruence.
Qed.

(** The sequential worker. *)
Lemma seq_loop_app : forall l1 l2 d, seq_loop reqs app (l1 ++ l2) d =
  match seq_loop reqs app l1 d with Ok d' => seq_loop reqs app l2 d' | Err e => Err e end.
Proof. induction l1 as [|n t IH]; intros l2 d; cbn; auto. destruct (calculate_req reqs app d n); auto. Qed.
Lemma seq_ok : forall l, good l -> exists d, seq_loop reqs app l [] = Ok d /\ consistent d /\ forall n, dlook n d <> None <-> In n l.
Proof.
  induction 1 as [|l x r G (d & E & C & H) Nx Er Hr].
  - exists []. split; auto. split; [intros n v; discriminate|]. intros n. cbn. split; [congruence|tauto].
  - assert (N : dlook x d = None). { destruct (dlook x d) eqn:Ex; auto. exfalso. apply Nx. apply H. congruence. }
    destruct (@dlooks_ok r d) as (vs & Ev). { intros n Hn. apply H. auto. }
    assert (EC : calculate_req reqs app d x = Ok (app x vs)) by (unfold calculate_req; rewrite Er, Ev; auto).
    exists (dset d x (app x vs)). rewrite seq_loop_app, E. cbn [seq_loop]. rewrite EC. split; auto. split; [apply consistent_set; auto|].
    intros n. rewrite dlook_dset, in_app_iff. destruct (name_dec n x) as [->|D]; cbn.
    + split; auto. congruence.
    + rewrite H. intuition congruence.
Qed.
End Work.

Lemma in_add_names : forall s acc y, In y (add_names s acc) <-> In y acc \/ In y s.
Proof. induction s as [|x t IH]; intros acc y; cbn; [intuition|]. rewrite IH, in_add_name. intuition. Qed.
Lemma good_add_names : forall I s acc, good I acc ->
  (forall s1 x s2, s = s1 ++ x :: s2 -> exists r, I x = Some r /\ incl r (s1 ++ acc)) -> good I (add_names s acc).
Proof.
  intros I. induction s as [|x t IH]; intros acc G H; cbn; auto. apply IH.
  - destruct (H [] x t) as (r & E & Hr); auto. eapply good_add; eauto.
  - intros s1 y s2 E. destruct (H (x :: s1) y s2) as (r & E2 & Hr); [cbn; congruence|]. exists r. split; auto.
    intros z Hz. apply Hr in Hz. rewrite in_app_iff, in_add_name. cbn in Hz. rewrite in_app_iff in Hz. intuition.
Qed.

(** ** get_sorted_dependencies() *)
Section Sorted.
Variables ri ci : info.
Let J (n : name) := reqcoef_info ri ci (snd n).
Hypothesis disj : forall k, look k ri = None \/ look k ci = None.

Lemma sorted_sound : forall fuel names acc l, sorted_loop fuel ri ci names acc = Ok l -> good J acc ->
  good J l /\ (forall k, In k names -> look k ci <> None) /\
  forall y, In y l <-> In y acc \/ exists k, In k names /\ clos_refl_trans _ (needs J) (true, k) y.
Proof.
  intros fuel. induction names as [|k t IH]; intros acc l E G; cbn in E.
  - inversion E; subst. split; auto. split; [intros k []|]. intros y. split; auto. intros [|(k & [] & _)]; auto.
  - destruct (look k ci) as [rq|] eqn:Ek; [|discriminate].
    destruct (insert_sub_reqs fuel rq [] (reqcoef_info ri ci)) as [ds|] eqn:Ei; [|discriminate].
    apply insert_sound in Ei. destruct Ei as [Gd Hd]. fold J in Gd, Hd.
    assert (EJ : J (true, k) = Some rq).
    { unfold J, reqcoef_info. cbn. destruct (disj k) as [->|D]; auto. congruence. }
    apply IH in E.
    + destruct E as (G' & Hc & H). split; auto. split.
      { intros k' [<-|Hk]; auto. congruence. }
      intros y. rewrite H, in_add_names, in_app_iff, Hd. cbn [In].
      pose proof (@closure_step (reqcoef_info ri ci) (true, k) rq y EJ) as CS. fold J in CS.
      split.
      * intros [[Ha|[Hs|[Hy|[]]]]|(k' & Hk' & Hr)]; [auto| | |]; right.
        -- exists k. split; auto. apply CS. auto.
        -- exists k. split; auto. apply CS. auto.
        -- exists k'. auto.
      * intros [Ha|(k' & [<-|Hk'] & Hr)]; [auto| |right; eauto]. apply CS in Hr. destruct Hr as [Hr| ->]; [auto|]. left. right. right. auto.
    + apply good_add_names; auto. intros s1 x s2 Es.
      destruct s2 as [|z s2] using rev_ind.
      * apply app_inj_tail in Es. destruct Es as [-> <-]. exists rq. split; auto.
        intros z Hz. apply in_or_app. left. apply Hd. exists z. split; auto. apply rt_refl.
      * clear IHs2. rewrite app_comm_cons, app_assoc in Es. apply app_inj_tail in Es. destruct Es as [Es _].
        destruct (@good_split _ _ Gd _ _ _ Es) as (r & Er & Hr & _). exists r. split; auto. apply incl_appl. auto.
Qed.

Definition all_names : list name :=
  flat_map (fun p => [(true, p); (false, p)]) (map fst ri ++ map fst ci).
Lemma all_names_length : length all_names = 2 * (length ri + length ci).
Proof.
  unfold all_names. rewrite <- (map_length fst ri), <- (map_length fst ci), <- app_length.
  induction (map fst ri ++ map fst ci); cbn in *; lia.
Qed.
Lemma look_in : forall A (d : list (key * A)) k, look k d <> None -> In k (map fst d).
Proof. intros A. induction d as [|[k' a] t IH]; intros k H; cbn in *; [congruence|]. destruct (key_dec k k'); auto. Qed.
Lemma all_names_dom : forall x : name, reqcoef_info ri ci (snd x) <> None -> In x all_names.
Proof.
  intros [b k] H. unfold all_names. apply in_flat_map. exists k. split; [|destruct b; cbn; auto].
  apply in_or_app. unfold reqcoef_info in H. cbn in H.
  destruct (look k ri) eqn:E; [left|right]; apply look_in; congruence.
Qed.

Lemma sorted_complete : forall fuel names acc e, sorted_loop fuel ri ci names acc = Err e -> 2 * (length ri + length ci) < fuel ->
  (e = KeyError /\ exists k, In k names /\ look k ci = None) \/
  (e = ValueError /\ exists k y, In k names /\ look k ci <> None /\ clos_refl_trans _ (needs J) (true, k) y /\
     (J y = None \/ clos_trans _ (needs J) y y)).
Proof.
  intros fuel names. induction names as [|k t IH]; intros acc e E Hf; cbn in E; [discriminate|].
  destruct (look k ci) as [rq|] eqn:Ek.
  2:{ inversion E; subst. left. split; auto. exists k. split; [left|]; auto. }
  destruct (insert_sub_reqs fuel rq [] (reqcoef_info ri ci)) as [ds|e'] eqn:Ei.
  - apply IH in E; auto. destruct E as [(He & k' & Hk & H)|(He & k' & y & Hk & H)]; [left|right]; split; auto; [exists k'|exists k', y]; split; auto; right; auto.
  - inversion E; subst e'. apply (@insert_complete _ _ (@all_names_dom)) in Ei.
    + destruct Ei as (He & x & Hx & y & Hy & Hc). right. split; auto. exists k, y. split; [left; auto|]. split; [congruence|].
      split; [|exact Hc]. apply rt_trans with x; auto. apply rt_step. exists rq. split; auto. unfold J, reqcoef_info. cbn. destruct (disj k) as [->|D]; auto. congruence.
    + constructor.
    + intros z [].
    + rewrite all_names_length. cbn. lia.
    + intros l x [].
Qed.
End Sorted.

Lemma Forall2_imp : forall A B (P Q : A -> B -> Prop), (forall a b, P a b -> Q a b) -> forall l m, Forall2 P l m -> Forall2 Q l m.
Proof. intros A B P Q H l m F. induction F; constructor; auto. Qed.

(** ** The waves of the multi-process worker *)
Section Waves.
Context {V : Type}.
Variable reqs : name -> option (list name).
Variable app : name -> list V -> V.
Variable extra : nat -> name -> deps V.
Notation nreqs := (nreqs reqs).

(** The number of the requirements that are not done. *)
Definition un (done l : list name) : nat := length (filter (fun r => negb (mem r done)) l).
Definition cform (done rest : list name) : counts := map (fun n => (n, Z.of_nat (un done (nreqs n)))) rest.

Lemma un_nil : forall l, un [] l = length l.
Proof. unfold un. intros. f_equal. induction l; cbn; auto. f_equal. auto. Qed.
Lemma un_snoc : forall t done l, ~ In t done -> un done l = un (done ++ [t]) l + count_occ name_dec l t.
Proof.
  unfold un. intros t done l H. induction l as [|r l IH]; auto. cbn [filter count_occ].
  assert (E : mem r (done ++ [t]) = if name_dec r t then true else mem r done).
  { destruct (name_dec r t) as [->|D]; [apply mem_In; apply in_or_app; cbn; auto|].
    destruct (mem r done) eqn:M; [apply mem_In in M; apply mem_In; apply in_or_app; auto|].
    apply mem_false in M. apply mem_false. rewrite in_app_iff. cbn. intuition. }
  rewrite E. destruct (name_dec r t) as [->|D].
  - apply mem_false in H. rewrite H. cbn. lia.
  - destruct (mem r done); cbn; lia.
Qed.
Lemma un_zero : forall done l, un done l = 0 <-> incl l done.
Proof.
  unfold un. intros done l. induction l as [|r l IH]; cbn; [split; auto; intros _ x []|].
  destruct (mem r done) eqn:M; cbn.
  - rewrite IH. apply mem_In in M. split; [intros H x [<-|Hx]; auto|intros H x Hx; apply H; cbn; auto].
  - apply mem_false in M. split; [discriminate|]. intros H. destruct M. apply H. cbn; auto.
Qed.

Lemma decr_ok : forall n c, In n (map fst c) -> NoDup (map fst c) ->
  decr n c = Ok (map (fun p : name * Z => if name_dec n (fst p) then (fst p, snd p - 1)%Z else p) c).
Proof.
  intros n. induction c as [|[m v] t IH]; intros Hn ND; cbn in *; [destruct Hn|].
  inversion ND; subst. destruct (name_dec n m) as [->|D].
  - f_equal. f_equal. rewrite <- (map_id t) at 1. apply map_ext_in. intros [m' v'] Hp. cbn.
    destruct (name_dec m m'); auto. subst. destruct H1. change m' with (fst (m', v')). apply in_map. auto.
  - destruct Hn as [|Hn]; [congruence|]. rewrite IH; auto.
Qed.
Lemma decrs_ok : forall ns c, incl ns (map fst c) -> NoDup (map fst c) ->
  decrs ns c = Ok (map (fun p : name * Z => (fst p, snd p - Z.of_nat (count_occ name_dec ns (fst p)))%Z) c).
Proof.
  induction ns as [|n t IH]; intros c Hi ND; cbn [decrs].
  - f_equal. rewrite <- (map_id c) at 1. apply map_ext. intros [m v]. cbn. f_equal. lia.
  - rewrite decr_ok; auto; [|apply Hi; cbn; auto].
    assert (Ek : map fst (map (fun p : name * Z => if name_dec n (fst p) then (fst p, snd p - 1)%Z else p) c) = map fst c).
    { rewrite map_map. apply map_ext. intros [m v]. cbn. destruct (name_dec n m); auto. }
    rewrite IH; [|rewrite Ek; intros x Hx; apply Hi; cbn; auto|rewrite Ek; auto].
    f_equal. rewrite map_map. apply map_ext. intros [m v]. cbn.
    destruct (name_dec n m); cbn; f_equal; lia.
Qed.

Lemma count_flat : forall sorted n r, NoDup sorted -> count_occ name_dec (inverse_deps reqs sorted r) n =
  if mem n sorted then count_occ name_dec (nreqs n) r else 0.
Proof.
  induction sorted as [|m t IH]; intros n r ND; [reflexivity|]. inversion ND; subst.
  unfold inverse_deps. cbn [flat_map]. fold (inverse_deps reqs t r). rewrite count_occ_app, IH by auto.
  assert (R : forall k, count_occ name_dec (repeat m k) n = if name_dec m n then k else 0).
  { induction k; cbn; [destruct (name_dec m n); auto|]. destruct (name_dec m n); auto. }
  rewrite R. destruct (name_dec m n) as [->|D].
  - assert (M : mem n (n :: t) = true) by (apply mem_In; cbn; auto). rewrite M. apply mem_false in H1. rewrite H1. lia.
  - assert (M : mem n (m :: t) = mem n t).
    { destruct (mem n t) eqn:M; [apply mem_In in M; apply mem_In; cbn; auto|]. apply mem_false in M. apply mem_false. cbn. intuition. }
    rewrite M. cbn. auto.
Qed.
Lemma in_inverse : forall sorted r n, In n (inverse_deps reqs sorted r) -> In n sorted /\ In r (nreqs n).
Proof.
  intros sorted r n H. unfold inverse_deps in H. apply in_flat_map in H. destruct H as (m & Hm & H).
  assert (n = m) by (eapply repeat_spec; eauto). subst m. split; auto.
  destruct (count_occ name_dec (nreqs n) r) eqn:E; [destruct H|]. apply (count_occ_In name_dec). lia.
Qed.

Lemma cform_keys : forall done rest, map fst (cform done rest) = rest.
Proof. intros. unfold cform. rewrite map_map. apply map_id. Qed.
Lemma filter_cform : forall f done rest, filter (fun p => f (snd p)) (cform done rest) = cform done (filter (fun n => f (Z.of_nat (un done (nreqs n)))) rest).
Proof. intros. unfold cform. induction rest as [|n t IH]; cbn; auto. destruct (f _); cbn; rewrite IH; auto. Qed.

Variable sorted : list name.
Hypothesis Hgood : good reqs sorted.
Let ND : NoDup sorted := good_NoDup Hgood.

Lemma decrs_task : forall t done rest, ~ In t done -> incl rest sorted -> NoDup rest ->
  (forall n, In n sorted -> In t (nreqs n) -> In n rest) ->
  decrs (inverse_deps reqs sorted t) (cform done rest) = Ok (cform (done ++ [t]) rest).
Proof.
  intros t done rest Ht Hr NDr Hn. rewrite decrs_ok; rewrite ?cform_keys; auto.
  - f_equal. unfold cform. rewrite map_map. apply map_ext_in. intros n Hin. cbn. f_equal.
    rewrite count_flat by auto. assert (M : mem n sorted = true) by (apply mem_In; auto). rewrite M.
    rewrite (@un_snoc t done) by auto. lia.
  - intros n H. apply in_inverse in H. destruct H. auto.
Qed.

(** What holds between waves. *)
Record winv (d : deps V) (done : list name) : Prop := {
  w_good : good reqs done;
  w_incl : incl done sorted;
  w_cons : consistent reqs app d;
  w_dom : forall n, dlook n d <> None <-> In n done }.

Lemma dlook_visible : forall w tasks t d n, ~ In n tasks -> dlook n (visible extra w tasks t d) = dlook n d.
Proof.
  intros w tasks t d n H. unfold visible. induction (extra w t) as [|[m v] l IH]; auto. cbn [filter fst].
  destruct (mem m tasks) eqn:M; auto. cbn. destruct (name_dec n m) as [->|]; auto. apply mem_In in M. contradiction.
Qed.
Lemma run_tasks_ok : forall w d done all tasks, winv d done -> incl tasks sorted ->
  (forall t, In t tasks -> incl (nreqs t) done) -> (forall t, In t all -> ~ In t done) ->
  exists vals, run_tasks reqs app extra w all tasks d = Ok vals /\ Forall2 (fun t v => calculate_req reqs app d t = Ok v) tasks vals.
Proof.
  intros w d done all tasks W. induction tasks as [|t ts IH]; intros Hi Hr Ha; cbn; eauto.
  assert (Hts : In t sorted) by (apply Hi; cbn; auto). destruct (@good_in _ _ _ Hgood Hts) as (r & Er & _).
  assert (Hrd : incl r done). { specialize (Hr t (or_introl eq_refl)). unfold M_homog.nreqs in Hr. rewrite Er in Hr. auto. }
  destruct (@dlooks_ok V r d) as (vs & Ev). { intros n Hn. apply W. auto. }
  assert (EC : calculate_req reqs app d t = Ok (app t vs)) by (unfold calculate_req; rewrite Er, Ev; auto).
  assert (EV : calculate_req reqs app (visible extra w all t d) t = Ok (app t vs)).
  { unfold calculate_req. rewrite Er. rewrite (@dlooks_ext V r _ d), Ev; auto. intros n Hn. apply dlook_visible. intros Hall. eapply Ha; eauto. }
  rewrite EV. destruct IH as (vals & -> & F); [intros x Hx; apply Hi; cbn; auto|intros; apply Hr; cbn; auto|auto|].
  eexists. split; eauto.
Qed.

Lemma calculate_set : forall d n v m w, dlook n d = None -> calculate_req reqs app d m = Ok w -> calculate_req reqs app (dset d n v) m = Ok w.
Proof.
  intros d n v m w N E. unfold calculate_req in *. destruct (reqs m) as [l|]; [|discriminate].
  destruct (dlooks l d) as [vs|] eqn:Ev; [|discriminate]. rewrite dset_new_looks, Ev; auto. eapply dlooks_inv; eauto.
Qed.

Lemma collect_ok : forall tasks vals d done rest, winv d done -> NoDup tasks -> incl tasks sorted ->
  Forall2 (fun t v => calculate_req reqs app d t = Ok v) tasks vals ->
  (forall t, In t tasks -> incl (nreqs t) done) -> (forall t, In t tasks -> ~ In t done) ->
  incl rest sorted -> NoDup rest -> (forall t n, In t tasks -> In n sorted -> In t (nreqs n) -> In n rest) ->
  exists d', collect reqs sorted tasks vals d (cform done rest) done = Ok (d', cform (done ++ tasks) rest, done ++ tasks) /\ winv d' (done ++ tasks).
Proof.
  induction tasks as [|t ts IH]; intros vals d done rest W NDt Hi F Hr Hd Hrest NDr Hn; inversion F; subst; cbn [collect].
  - rewrite app_nil_r. eauto.
  - inversion NDt; subst.
    rewrite decrs_task; auto; [|apply Hd; cbn; auto|intros; eapply Hn; eauto; cbn; auto].
    assert (N : dlook t d = None). { destruct (dlook t d) eqn:E; auto. exfalso. apply (Hd t); cbn; auto. apply W. congruence. }
    assert (Hts : In t sorted) by (apply Hi; cbn; auto). destruct (@good_in _ _ _ Hgood Hts) as (r & Er & _).
    assert (W' : winv (dset d t y) (done ++ [t])).
    { constructor.
      - apply good_snoc with r; auto; [apply W|apply Hd; cbn; auto|]. specialize (Hr t (or_introl eq_refl)). unfold M_homog.nreqs in Hr. rewrite Er in Hr. auto.
      - intros x Hx. apply in_app_or in Hx. destruct Hx as [Hx|[<-|[]]]; auto. apply W; auto.
      - apply consistent_set; auto. apply W.
      - intros n. rewrite dlook_dset, in_app_iff, <- (w_dom W n). destruct (name_dec n t) as [->|D]; cbn; [split; auto; congruence|]. intuition congruence. }
    destruct (IH l' (dset d t y) (done ++ [t]) rest) as (d' & E & W2); auto.
    + intros x Hx. apply Hi. cbn; auto.
    + match goal with H : Forall2 _ ts l' |- _ => revert H end. apply Forall2_imp. intros a b Hab. apply calculate_set; auto.
    + intros x Hx z Hz. apply in_or_app. left. apply (Hr x); cbn; auto.
    + intros x Hx Hx'. apply in_app_or in Hx'. destruct Hx' as [Hx'|[<-|[]]]; auto. apply (Hd x); cbn; auto.
    + intros; eapply Hn; eauto; cbn; auto.
    + rewrite <- app_assoc in E, W2. cbn in E, W2. rewrite E. eauto.
Qed.

Lemma filter_two : forall (f g : name -> bool) l, filter f (filter g l) = filter (fun x => g x && f x) l.
Proof. induction l; cbn; auto. destruct (g a); cbn; [destruct (f a)|]; rewrite ?IHl; auto. Qed.
Lemma filter_NoDup : forall (f : name -> bool) l, NoDup l -> NoDup (filter f l).
Proof. intros. apply NoDup_filter. auto. Qed.

Lemma waves_ok : forall fuel w d done tasks0, winv d done ->
  length (filter (fun n => negb (mem n done)) sorted) <= fuel ->
  exists d' done', waves reqs app extra fuel w sorted tasks0 (Z.of_nat (length (filter (fun n => negb (mem n done)) sorted)))
                   d (cform done (filter (fun n => negb (mem n done)) sorted)) done = Ok (d', done') /\
    winv d' done' /\ incl sorted done'.
Proof.
  induction fuel as [|f IH]; intros w d done tasks0 W Hf; set (rest := filter (fun n => negb (mem n done)) sorted) in *.
  { assert (E : rest = []) by (destruct rest; auto; cbn in Hf; lia). rewrite E. cbn. exists d, done. split; auto. split; auto.
    intros x Hx. destruct (mem x done) eqn:M; [apply mem_In; auto|]. assert (Hin : In x rest) by (apply filter_In; rewrite M; auto). rewrite E in Hin. destruct Hin. }
  assert (HC : rest = [] \/ exists x rest', rest = x :: rest') by (destruct rest; eauto). destruct HC as [E|(x & rest' & E)].
  { rewrite E. cbn. exists d, done. split; auto. split; auto.
    intros x Hx. destruct (mem x done) eqn:M; [apply mem_In; auto|]. assert (Hin : In x rest) by (apply filter_In; rewrite M; auto). rewrite E in Hin. destruct Hin. }
  cbn [waves].
  assert (G : (Z.of_nat (length rest) >? 0)%Z = true) by (rewrite E; cbn [length]; apply Z.gtb_lt; lia). rewrite G.
  assert (M0 : forall A B (a b : B) (l : list A), l <> [] -> match l with [] => a | _ :: _ => b end = b) by (intros A B a b [|? ?] H; [congruence|auto]).
  rewrite M0; [|unfold cform; rewrite E; discriminate].
  rewrite (filter_cform (fun v => v =? 0)%Z), (filter_cform (fun v => v >? 0)%Z), cform_keys.
  set (tasks := filter (fun n => (Z.of_nat (un done (nreqs n)) =? 0)%Z) rest).
  set (rest2 := filter (fun n => (Z.of_nat (un done (nreqs n)) >? 0)%Z) rest).
  assert (Hrs : forall n, In n rest <-> In n sorted /\ ~ In n done).
  { intros n. unfold rest. rewrite filter_In, negb_true_iff, mem_false. tauto. }
  assert (Ht : forall t, In t tasks <-> In t rest /\ incl (nreqs t) done).
  { intros t. unfold tasks. rewrite filter_In, Z.eqb_eq, <- un_zero. intuition lia. }
  assert (Hr2 : forall t, In t rest2 <-> In t rest /\ ~ incl (nreqs t) done).
  { intros t. unfold rest2. rewrite filter_In, Z.gtb_lt, <- un_zero. intuition lia. }
  assert (NDr : NoDup rest) by (apply filter_NoDup; auto).
  assert (Ht' : forall t, In t tasks -> In t sorted /\ ~ In t done /\ incl (nreqs t) done) by (intros t Hin; apply Ht in Hin; destruct Hin as [Hin ?]; apply Hrs in Hin; tauto).
  destruct (@run_tasks_ok w d done tasks tasks W) as (vals & EV & F).
  { intros t Hin. apply Ht' in Hin. tauto. }
  { intros t Hin. apply Ht' in Hin. tauto. }
  { intros t Hin. apply Ht' in Hin. tauto. }
  rewrite EV.
  assert (ND2 : NoDup tasks) by (apply filter_NoDup; auto).
  destruct (@collect_ok tasks vals d done rest2 W) as (d' & EC & W'); auto.
  { intros t Hin. apply Ht' in Hin. tauto. }
  { intros t Hin. apply Ht' in Hin. tauto. }
  { intros t Hin. apply Ht' in Hin. tauto. }
  { intros t Hin. apply Hr2 in Hin. destruct Hin as [Hin _]. apply Hrs in Hin. tauto. }
  { apply filter_NoDup; auto. }
  { intros t n Hin Hn Hq. apply Ht' in Hin. destruct Hin as (H1 & H2 & H3). apply Hr2. rewrite Hrs.
    split; [split; auto|intros Hc; apply H2; apply Hc; auto].
    intros Hd. destruct (good_in n (w_good W) Hd) as (r & Er & Hi). apply H2. apply Hi.
    unfold M_homog.nreqs in Hq. rewrite Er in Hq. auto. }
  rewrite EC.
  assert (ER : rest2 = filter (fun n => negb (mem n (done ++ tasks))) sorted).
  { unfold rest2, rest. rewrite filter_two. apply filter_ext_in. intros n Hn.
    destruct (mem n done) eqn:M1; cbn.
    - symmetry. apply negb_false_iff. apply mem_In. apply in_or_app. left. apply mem_In. auto.
    - apply mem_false in M1. destruct (Nat.eq_dec (un done (nreqs n)) 0) as [Z0|Z0].
      + rewrite Z0. symmetry. apply negb_false_iff. apply mem_In. apply in_or_app. right. apply Ht. rewrite Hrs. split; auto. apply un_zero. auto.
      + assert (G2 : (Z.of_nat (un done (nreqs n)) >? 0)%Z = true) by (apply Z.gtb_lt; lia). rewrite G2. symmetry. apply negb_true_iff. apply mem_false.
        intros Hin. apply in_app_or in Hin. destruct Hin as [|Hin]; auto. apply Ht' in Hin. apply Z0. apply un_zero. tauto. }
  assert (EL : (Z.of_nat (length rest) - Z.of_nat (length tasks))%Z = Z.of_nat (length rest2)).
  { assert (EL : length rest = length tasks + length rest2).
    { unfold tasks, rest2. clear. induction rest as [|n t IHt]; cbn; auto.
      destruct (un done (nreqs n)); cbn; lia. }
    lia. }
  assert (Hne : tasks <> []).
  { assert (Hx : In x tasks).
    { apply Ht. split; [rewrite E; cbn; auto|].
      assert (HS : exists l1 l2, sorted = l1 ++ x :: l2 /\ forall z, In z l1 -> In z done).
      { unfold rest in E. clear -E. induction sorted as [|z t IHt]; [discriminate|]. cbn in E. destruct (mem z done) eqn:M; cbn in E.
        - destruct (IHt E) as (l1 & l2 & -> & H). exists (z :: l1), l2. split; auto. intros y [<-|Hy]; auto. apply mem_In; auto.
        - inversion E; subst. exists [], t. split; auto. intros z []. }
      destruct HS as (l1 & l2 & ES & HD). destruct (@good_split _ _ Hgood _ _ _ ES) as (r & Er & Hi & _).
      unfold M_homog.nreqs. rewrite Er. intros z Hz. auto. }
    intros E2. rewrite E2 in Hx. destruct Hx. }
  rewrite EL, ER. apply IH; auto. rewrite <- ER. destruct tasks; [congruence|]. cbn [length] in EL. lia.
Qed.

Lemma multi_ok : forall fuel, length sorted <= fuel ->
  exists d done, multi_call reqs app extra fuel sorted = Ok (d, done) /\ winv d done /\ incl sorted done.
Proof.
  intros fuel Hf. assert (E : filter (fun n => negb (mem n [])) sorted = sorted) by (clear; induction sorted as [|a t IHt]; auto; cbn [filter]; change (negb (mem a [])) with true; cbv iota; congruence).
  destruct (@waves_ok fuel 0 [] [] []) as (d & done & EW & W & H).
  - constructor; [constructor|intros x []|intros n v; discriminate|]. intros n. cbn. tauto.
  - rewrite E. auto.
  - exists d, done. split; auto. rewrite E in EW. unfold multi_call. rewrite <- EW. f_equal. unfold numdeps0, cform. apply map_ext. intros n. rewrite un_nil. auto.
Qed.
End Waves.
