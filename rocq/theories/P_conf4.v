(** C196-C198: keywords, numbered attributes, boundary conditions. *)
From Coq Require Import String Ascii ZArith.
From Verif Require Import Base M_conf S_conf P_conf P_conf2.
Set Implicit Arguments.
Open Scope nat_scope.

(** ** Keywords *)
Lemma strip_app : forall p r, strip_prefix p (p ++ r)%string = Some r.
Proof. induction p as [|c p IH]; intros r; simpl; auto. now rewrite Ascii.eqb_refl. Qed.
Lemma strip_some : forall p s r, strip_prefix p s = Some r -> s = (p ++ r)%string.
Proof.
  induction p as [|c p IH]; intros s r H; simpl in H; [injection H as ->; auto|].
  destruct s as [|b s]; [discriminate|]. destruct (Ascii.eqb_spec c b) as [->|]; [|discriminate].
  simpl. f_equal. auto.
Qed.
Lemma prefix_total : forall p q s a b, strip_prefix p s = Some a -> strip_prefix q s = Some b ->
  strip_prefix p q <> None \/ strip_prefix q p <> None.
Proof.
  induction p as [|x p IH]; intros q s a b H1 H2; [left; discriminate|].
  destruct q as [|y q]; [right; discriminate|].
  destruct s as [|z s]; [discriminate|]. simpl in *.
  destruct (Ascii.eqb_spec x z) as [->|]; [|discriminate]. destruct (Ascii.eqb_spec y z) as [->|]; [|discriminate].
  rewrite Ascii.eqb_refl. eauto.
Qed.
Lemma match_prefix : forall item key, match_item item key = true -> exists a, In a item /\ strip_prefix (alt_text a) key <> None.
Proof.
  induction item as [|a item IH]; intros key H; [discriminate|].
  assert (C : match_closed a key = true \/ match_open a key = true \/ match_item item key = true).
  { destruct item; simpl in H; auto. apply orb_prop in H as [H|H]; auto. }
  destruct C as [C|[C|C]].
  - exists a. split; [left; auto|]. unfold match_closed in C. destruct (strip_prefix (alt_text a) key); [discriminate|discriminate C].
  - exists a. split; [left; auto|]. unfold match_open in C. destruct (strip_prefix (alt_text a) key); [discriminate|discriminate C].
  - destruct (IH _ C) as (b & I & N). exists b. split; [right; auto|auto].
Qed.
Definition no_prefix (p q : string) : bool :=
  match strip_prefix p q, strip_prefix q p with None, None => true | _, _ => false end.
Definition disjoint (i j : list alt) : bool := forallb (fun a => forallb (fun b => no_prefix (alt_text a) (alt_text b)) j) i.
Lemma disjoint_spec : forall i j key, disjoint i j = true -> match_item i key = true -> match_item j key = true -> False.
Proof.
  intros i j key D Hi Hj. destruct (match_prefix _ _ Hi) as (a & Ia & Na). destruct (match_prefix _ _ Hj) as (b & Ib & Nb).
  unfold disjoint in D. rewrite forallb_forall in D. specialize (D a Ia). rewrite forallb_forall in D. specialize (D b Ib).
  unfold no_prefix in D.
  destruct (strip_prefix (alt_text a) key) eqn:E1; [|congruence]. destruct (strip_prefix (alt_text b) key) eqn:E2; [|congruence].
  destruct (prefix_total _ _ _ E1 E2) as [X|X];
  destruct (strip_prefix (alt_text a) (alt_text b)), (strip_prefix (alt_text b) (alt_text a)); congruence || discriminate.
Qed.

(** Removing the keys matched by the items. *)
Lemma list_remove_spec : forall l k, NoDup l -> In k l -> list_remove l k = Ok (filter (fun x => negb (String.eqb x k)) l).
Proof.
  induction l as [|x l IH]; intros k N I; [destruct I|]. simpl. inversion N; subst.
  destruct (String.eqb_spec x k) as [->|E]; simpl.
  - f_equal. symmetry. rewrite <- (app_nil_r l) at 2. clear IH I N H2. rewrite app_nil_r. induction l as [|y l IH]; auto. simpl.
    destruct (String.eqb_spec y k) as [->|E]; simpl; [exfalso; apply H1; left; auto|]. f_equal. apply IH. intros I; apply H1; right; auto.
  - destruct I as [->|I]; [congruence|]. rewrite IH by auto. reflexivity.
Qed.
Lemma filter_filter : forall A (f g : A -> bool) l, filter f (filter g l) = filter (fun x => g x && f x) l.
Proof. induction l as [|x l IH]; simpl; auto. destruct (g x); simpl; auto. destruct (f x); simpl; congruence. Qed.
Definition mem (l : list string) (k : string) : bool := existsb (String.eqb k) l.
Lemma mem_in : forall l k, mem l k = true <-> In k l.
Proof.
  intros l k. unfold mem. rewrite existsb_exists. split.
  - intros (x & I & E). apply String.eqb_eq in E. congruence.
  - intros I. exists k. now rewrite String.eqb_refl.
Qed.
Lemma remove_matching_spec : forall item ks l, NoDup ks -> NoDup l -> (forall k, In k ks -> match_item item k = true -> In k l) ->
  remove_matching item ks l = Ok (filter (fun x => negb (match_item item x && mem ks x)) l).
Proof.
  induction ks as [|k ks IH]; intros l N Nl H; simpl.
  - f_equal. clear. induction l as [|x l IHl]; auto. simpl. rewrite andb_false_r. simpl. f_equal. exact IHl.
  - inversion N; subst. destruct (match_item item k) eqn:M.
    + rewrite list_remove_spec; auto; [|apply H; simpl; auto]. cbn [bind]. rewrite IH; auto.
      * f_equal. rewrite filter_filter. apply filter_ext. intros x.
        destruct (String.eqb_spec x k) as [->|E]; simpl.
        -- rewrite M. reflexivity.
        -- reflexivity.
      * now apply NoDup_filter.
      * intros k' I M'. apply filter_In. split; [apply H; simpl; auto|]. destruct (String.eqb_spec k' k) as [->|E]; auto.
    + rewrite IH; auto; [|intros k' I; apply H; right; auto]. f_equal. apply filter_ext. intros x.
      destruct (String.eqb_spec x k) as [->|E]; simpl; auto. rewrite M. reflexivity.
Qed.
Lemma remove_items_spec : forall items keys l, NoDup keys -> NoDup l -> (forall k, In k l -> In k keys) ->
  (forall i k, In i items -> In k keys -> match_item i k = true -> In k l) ->
  ForallOrdPairs (fun i j => disjoint i j = true) items ->
  remove_items items keys l = Ok (filter (fun x => negb (existsb (fun i => match_item i x) items)) l).
Proof.
  induction items as [|i items IH]; intros keys l N Nl S1 H D; simpl.
  - f_equal. clear. induction l as [|x l IH]; simpl; congruence.
  - inversion D; subst. rewrite remove_matching_spec; auto; [|intros k I; apply H; simpl; auto].
    cbn [bind]. rewrite IH; auto.
    + f_equal. rewrite filter_filter. apply filter_ext_in. intros x I.
      assert (mem keys x = true) as -> by (apply mem_in; auto). rewrite andb_true_r. destruct (match_item i x); auto.
    + now apply NoDup_filter.
    + intros k I. apply filter_In in I as [I _]. auto.
    + intros j k Ij I M. apply filter_In. split; [apply (H j); simpl; auto|].
      destruct (match_item i k) eqn:Mi; auto. exfalso.
      rewrite Forall_forall in H2. exact (disjoint_spec _ _ _ (H2 j Ij) Mi M).
Qed.
Lemma strs_eqb_refl : forall l, strs_eqb l l = true.
Proof. induction l; simpl; auto. now rewrite String.eqb_refl. Qed.
Lemma validate_spec : forall keys R O, NoDup keys -> ForallOrdPairs (fun i j => disjoint i j = true) (R ++ O) ->
  ForallOrdPairs (fun i j => disjoint i j = true) (O ++ R) ->
  validate keys R O = match missing_items R keys with [] => Ok (missing_items O keys) | _ => Err ValueError end.
Proof.
  intros keys R O N D1 D2. unfold validate, validate_helper.
  assert (A : forall X Y, ForallOrdPairs (fun i j => disjoint i j = true) (X ++ Y) ->
    (do l <- remove_items X keys keys; do l <- remove_items Y keys l; Ok (l, missing_items Y keys)) =
    Ok (filter (fun x => negb (existsb (fun i => match_item i x) (X ++ Y))) keys, missing_items Y keys)).
  { intros X Y D.
    assert (E : forall X Y l, remove_items (X ++ Y) keys l = do l <- remove_items X keys l; remove_items Y keys l).
    { clear. induction X as [|x X IH]; intros Y l; simpl; auto. destruct (remove_matching x keys l); simpl; auto. }
    pose proof (E X Y keys) as E'. rewrite remove_items_spec in E' by auto.
    destruct (remove_items X keys keys) as [l|]; [|discriminate]. cbn [bind] in *. rewrite <- E'. reflexivity. }
  rewrite (A O R D2), (A R O D1). cbn [bind fst snd].
  assert (filter (fun x => negb (existsb (fun i => match_item i x) (O ++ R))) keys = filter (fun x => negb (existsb (fun i => match_item i x) (R ++ O))) keys) as ->.
  { apply filter_ext. intros x. rewrite !existsb_app, orb_comm. auto. }
  rewrite strs_eqb_refl. reflexivity.
Qed.
Ltac fop := repeat (constructor; [repeat (constructor; [vm_compute; reflexivity|]); constructor|]); constructor.
(** With the standard keywords, the validation never fails by itself: it succeeds if
    and only if every required item is matched by some attribute. *)
Theorem C196_validate : forall keys, NoDup keys ->
  ((exists m, validate keys std_required std_other = Ok m) <->
   forall item, In item std_required -> exists key, In key keys /\ match_item item key = true) /\
  (validate keys std_required std_other = Err ValueError \/ exists m, validate keys std_required std_other = Ok m).
Proof.
  intros keys N. rewrite validate_spec by (auto; fop).
  assert (A : missing_items std_required keys = [] <-> forall item, In item std_required -> exists key, In key keys /\ match_item item key = true).
  { unfold missing_items. split.
    - intros E item I. destruct (existsb (match_item item) keys) eqn:X; [apply existsb_exists in X; auto|].
      assert (In item (filter (fun i => negb (existsb (match_item i) keys)) std_required)) by (apply filter_In; rewrite X; auto).
      rewrite E in H. destruct H.
    - intros H. destruct (filter _ std_required) as [|i l] eqn:E; auto. exfalso.
      assert (I : In i (filter (fun i => negb (existsb (match_item i) keys)) std_required)) by (rewrite E; left; auto).
      apply filter_In in I as [I X]. destruct (H i I) as (key & K & M).
      assert (existsb (match_item i) keys = true) by (apply existsb_exists; eauto). rewrite H0 in X. discriminate. }
  rewrite <- A. destruct (missing_items std_required keys) as [|x l].
  - split; [split; eauto|]. right; eauto.
  - split; [split; [intros [m H]; discriminate|discriminate]|]. left; auto.
Qed.
(** Every keyword is recognized. *)
Lemma keyword_closed : forall a key, is_keyword a key -> match_closed a key = true /\ match_open a key = true.
Proof.
  intros [w n] key H. unfold is_keyword in H. cbn [a_num a_word] in H. unfold match_closed, match_open, alt_text. cbn [a_num a_word].
  destruct n.
  - destruct H as (d & [D1 D2] & ->). rewrite <- sapp_assoc, strip_app. destruct d; [congruence|]. simpl in *.
    apply andb_prop in D2 as [D2 D3]. now rewrite D2, D3.
  - subst. assert (E : strip_prefix w w = Some ""%string).
    { induction w as [|c w IH]; simpl; auto. now rewrite Ascii.eqb_refl. }
    rewrite E. auto.
Qed.
Lemma keyword_match : forall item a key, In a item -> is_keyword a key -> match_item item key = true.
Proof.
  induction item as [|b item IH]; intros a key I K; [destruct I|].
  destruct (keyword_closed _ _ K) as [C1 C2]. destruct I as [->|I].
  - destruct item; simpl; [exact C1|]. now rewrite C2.
  - destruct item as [|c item]; [destruct I|]. change (match_item (b :: c :: item) key) with (match_open b key || match_item (c :: item) key). rewrite (IH a key I K). apply orb_true_r.
Qed.
Theorem C196_complete_accepted : forall keys, NoDup keys ->
  (forall item, In item std_required -> exists a key, In a item /\ In key keys /\ is_keyword a key) ->
  exists m, validate keys std_required std_other = Ok m.
Proof.
  intros keys N H. apply (C196_validate N). intros item I. destruct (H item I) as (a & key & Ia & Ik & K).
  exists key. split; auto. exact (keyword_match _ _ _ Ia K).
Qed.
(** Attributes that only begin like a keyword count as the keyword: a description
    without any mesh, fields, boundary conditions, ... is accepted. *)
Theorem C196_begins_like_keyword_refuted : exists keys m, NoDup keys /\ validate keys std_required std_other = Ok m /\
  forall item a key, In item std_required -> In a item -> In key keys -> is_keyword a key -> item = [Alt "equations" false].
Proof.
  exists ["filename_mesh_old"; "field_1st"; "ebcs_old"; "equations"; "region_2d"; "variable_1x"; "material_0_"; "solver_9a"]%string.
  eexists. split; [|split; [vm_compute; reflexivity|]].
  - repeat constructor; simpl; intuition discriminate.
  - intros item a key I Ia Ik K. destruct (keyword_closed _ _ K) as [C _].
    set (keys := ["filename_mesh_old"; "field_1st"; "ebcs_old"; "equations"; "region_2d"; "variable_1x"; "material_0_"; "solver_9a"]%string) in *.
    assert (F : item = [Alt "equations" false] \/ forallb (fun a => forallb (fun key => negb (match_closed a key)) keys) item = true).
    { simpl in I. repeat (destruct I as [<-|I]; [first [left; reflexivity|right; vm_compute; reflexivity]|]). destruct I. }
    destruct F as [F|F]; auto. exfalso.
    rewrite forallb_forall in F. specialize (F a Ia). rewrite forallb_forall in F. specialize (F key Ik). rewrite C in F. discriminate.
Qed.
Example C196_ex : let keys := ["filename_mesh"; "fields"; "ebc_1"; "equations"; "regions"; "variables"; "materials"; "solver_0"]%string in
  NoDup keys /\ forall item, In item std_required -> exists a key, In a item /\ In key keys /\ is_keyword a key.
Proof.
  intros keys. split; [repeat constructor; simpl; intuition discriminate|].
  intros item I. simpl in I.
  repeat (destruct I as [<-|I]).
  1: exists (Alt "filename_mesh" false), "filename_mesh"%string.
  2: exists (Alt "fields" false), "fields"%string.
  3: exists (Alt "ebc" true), "ebc_1"%string.
  4: exists (Alt "equations" false), "equations"%string.
  5: exists (Alt "regions" false), "regions"%string.
  6: exists (Alt "variables" false), "variables"%string.
  7: exists (Alt "materials" false), "materials"%string.
  8: exists (Alt "solver" true), "solver_0"%string.
  9: destruct I.
  all: repeat split; simpl; auto 10.
  - exists "1"%string. repeat split. discriminate.
  - exists "0"%string. repeat split. discriminate.
Qed.
