(** C89: general data with shared objects stored in HDF5 files. *)
From Verif Require Import Base M_h5obj.
Set Implicit Arguments.

Section H5.
Context {A W : Type}.
Notation pdata := (pdata A W).
Notation fnode := (fnode A W).
Notation rdata := (rdata A W).

(** ** Specification *)
(** The identities of all the values in the data read (the places where they were made). *)
Fixpoint idents (r : rdata) : list path :=
  match r with
  | RAtom o _ => [o]
  | RObj o _ => [o]
  | RNode o _ l => o :: flat_map (fun y => idents (snd y)) l
  end.
Definition under (b p : path) : Prop := exists t, p = b ++ t.
(** The data read are the data written, without the markers; [O i r]: the object
    with id [i] is read as the object [r] (identity included), everywhere except
    in the parts marked as uncached, which have their own objects, made at
    places within them.  [p] is the place of the data ([Cached] data may have been
    stored elsewhere). *)
Inductive read_as : (nat -> rdata -> Prop) -> path -> pdata -> rdata -> Prop :=
| ra_atom : forall O p o a, read_as O p (PAtom a) (RAtom o a)
| ra_node : forall O p o k l rl, read_items O p l rl -> read_as O p (PNode k l) (RNode o k rl)
| ra_obj : forall (O : nat -> rdata -> Prop) p o i w, O i (RObj o w) -> read_as O p (PObj i w) (RObj o w)
| ra_cached : forall (O : nat -> rdata -> Prop) p q i d r, O i r -> read_as O q d r -> read_as O p (PCached i d) r
| ra_uncached : forall O p (O' : nat -> rdata -> Prop) d r, (forall i r r', O' i r -> O' i r' -> r = r') -> read_as O' p d r ->
    (forall x, In x (idents r) -> under p x) ->
    read_as O p (PUncached d) r
with read_items : (nat -> rdata -> Prop) -> path -> list (nat * pdata) -> list (nat * rdata) -> Prop :=
| ri_nil : forall O p, read_items O p [] []
| ri_cons : forall O p k d r l rl, read_as O (p ++ [k]) d r -> read_items O p l rl -> read_items O p ((k, d) :: l) ((k, r) :: rl).

(** Ids of the objects (outside of uncached parts). *)
Fixpoint ids (d : pdata) : list nat :=
  match d with
  | PAtom _ => []
  | PNode _ l => flat_map (fun y => ids (snd y)) l
  | PObj i _ => [i]
  | PCached i d => i :: ids d
  | PUncached _ => []
  end.
(** Python data: keys are distinct, an id belongs to one object, and no object is a
    part of itself. *)
Inductive wf_data (heap : nat -> pdata) : pdata -> Prop :=
| wd_atom : forall a, wf_data heap (PAtom a)
| wd_node : forall k l, NoDup (map fst l) -> wf_items heap l -> wf_data heap (PNode k l)
| wd_obj : forall i w, heap i = PObj i w -> wf_data heap (PObj i w)
| wd_cached : forall i d, heap i = d -> (~ In i (ids d) \/ exists w, d = PObj i w) -> wf_data heap d -> wf_data heap (PCached i d)
| wd_uncached : forall d, wf_data heap d -> wf_data heap (PUncached d)
with wf_items (heap : nat -> pdata) : list (nat * pdata) -> Prop :=
| wi_nil : wf_items heap []
| wi_cons : forall k d l, wf_data heap d -> wf_items heap l -> wf_items heap ((k, d) :: l).
Scheme wf_data_mut := Induction for wf_data Sort Prop
with wf_items_mut := Induction for wf_items Sort Prop.

(** ** What a node denotes *)
Section Den.
Variable root : fnode.
Inductive den : path -> fnode -> rdata -> Prop :=
| den_atom : forall p a, den p (FAtom a) (RAtom p a)
| den_obj : forall p w, den p (FObj w) (RObj p w)
| den_link : forall p q m r, getn root q = Some m -> den q m r -> den p (FLink q) r
| den_node : forall p k l rl, den_items p l rl -> den p (FNode k l) (RNode p k rl)
with den_items : path -> list (nat * fnode) -> list (nat * rdata) -> Prop :=
| deni_nil : forall p, den_items p [] []
| deni_cons : forall p k n r l rl, den (p ++ [k]) n r -> den_items p l rl -> den_items p ((k, n) :: l) ((k, r) :: rl).
Scheme den_mut := Induction for den Sort Prop
with den_items_mut := Induction for den_items Sort Prop.

Lemma den_fun : forall p n r, den p n r -> forall r', den p n r' -> r = r'.
Proof.
  intros p n r H. apply (@den_mut (fun p n r _ => forall r', den p n r' -> r = r')
    (fun p l rl _ => forall rl', den_items p l rl' -> rl = rl')) with (p := p) (f := n); auto; clear.
  - intros p a r' H. inversion H; auto.
  - intros p w r' H. inversion H; auto.
  - intros p q m r G D IH r' H. inversion H as [| |? ? m' ? G' D'|]; subst. rewrite G in G'. injection G' as <-. auto.
  - intros p k l rl D IH r' H. inversion H as [| | |? ? ? rl' D']; subst. rewrite (IH _ D'). auto.
  - intros p rl' H. inversion H; auto.
  - intros p k n r l rl D IH D2 IH2 rl' H. inversion H as [|? ? ? r' ? rl2 E1 E2]; subst. rewrite (IH _ E1), (IH2 _ E2). auto.
Qed.

(** The data are read from the node as specified, [c] is the cache of the write. *)
Definition obj_of (c : wcache) (i : nat) (r : rdata) : Prop :=
  exists q m, look c i = Some q /\ getn root q = Some m /\ den q m r.
Lemma obj_fun : forall c i r r', obj_of c i r -> obj_of c i r' -> r = r'.
Proof.
  intros c i r r' (q & m & E1 & E2 & E3) (q' & m' & F1 & F2 & F3). rewrite E1 in F1. injection F1 as <-.
  rewrite E2 in F2. injection F2 as <-. eapply den_fun; eauto.
Qed.
End Den.

Fixpoint witems (p : path) (l : list (nat * pdata)) (c : wcache) : list (nat * fnode) * wcache :=
  match l with
  | [] => ([], c)
  | (key, d) :: t => let '(n, c) := write (p ++ [key]) d c in
                     let '(t, c) := witems p t c in ((key, n) :: t, c)
  end.
Lemma write_node : forall p k l c, write p (PNode k l) c = let '(l, c) := witems p l c in (FNode k l, c).
Proof.
  intros p k l c. cbn [write].
  match goal with |- (let '(_, _) := ?F l c in _) = _ => assert (E : forall l c, F l c = witems p l c) end.
  { clear. induction l as [|[key d] t IH]; intros c; [reflexivity|]. cbn [witems]. destruct (write (p ++ [key]) d c) as [n c1].
    rewrite IH. reflexivity. }
  rewrite E. reflexivity.
Qed.

Definition ext (c c' : wcache) : Prop := forall i q, look c i = Some q -> look c' i = Some q.
Lemma ext_refl : forall c, ext c c. Proof. intros c i q H; auto. Qed.
Lemma ext_trans : forall a b c, ext a b -> ext b c -> ext a c. Proof. intros a b c H1 H2 i q H; auto. Qed.
Lemma ext_cons : forall c i p, (forall q, look c i = Some q -> q = p) -> ext c ((i, p) :: c).
Proof. intros c i p H j q E. cbn. destruct (Nat.eqb_spec j i); auto. subst. rewrite (H _ E). auto. Qed.

Lemma get_app : forall (n : fnode) p m k kd l x, getn n p = Some m -> m = FNode kd l -> look l k = Some x ->
  getn n (p ++ [k]) = Some x.
Proof.
  intros n p. revert n. induction p as [|a p IH]; intros n m k kd l x G E L; cbn in *.
  - injection G as ->. subst. rewrite L. auto.
  - destruct n as [|k' l'| |]; try discriminate. destruct (look l' a) as [y|]; try discriminate. eapply IH; eauto.
Qed.

Section Main.
Variable heap : nat -> pdata.
(** Writing extends the cache, by the ids of the data only. *)
Lemma write_ext : forall d, wf_data heap d -> forall p c, ext c (snd (write p d c)) /\
  (forall i q, look (snd (write p d c)) i = Some q -> look c i = Some q \/ In i (ids d)).
Proof.
  intros d H. apply (@wf_data_mut heap (fun d _ => forall p c, ext c (snd (write p d c)) /\
     (forall i q, look (snd (write p d c)) i = Some q -> look c i = Some q \/ In i (ids d)))
    (fun l _ => forall p c, ext c (snd (witems p l c)) /\
     (forall i q, look (snd (witems p l c)) i = Some q -> look c i = Some q \/ In i (flat_map (fun y => ids (snd y)) l)))); auto; clear.
  - intros a p c. cbn. split; auto using ext_refl.
  - intros k l ND WI IH p c. rewrite write_node. specialize (IH p c). destruct (witems p l c). auto.
  - intros i w E p c. cbn [write]. destruct (look c i) eqn:L; cbn [snd].
    + split; auto using ext_refl.
    + split; [apply ext_cons; congruence|]. intros j q. cbn. destruct (Nat.eqb_spec j i); auto. 
  - intros i d E AC WD IH p c. cbn [write]. destruct (look c i) eqn:L; [cbn; split; auto using ext_refl|].
    specialize (IH p c). destruct (write p d c) as [n c'] eqn:Ew. cbn [snd] in *. destruct IH as [I1 I2]. split.
    + eapply ext_trans; [exact I1|]. apply ext_cons. intros q Lq. destruct AC as [AC|[w ->]].
      * destruct (I2 _ _ Lq); [congruence|contradiction].
      * cbn in Ew. rewrite L in Ew. injection Ew as _ <-. cbn in Lq. rewrite Nat.eqb_refl in Lq. congruence.
    + intros j q. cbn. destruct (Nat.eqb_spec j i); auto. intro X. destruct (I2 _ _ X); auto.
  - intros d WD IH p c. cbn. split; auto using ext_refl.
  - intros p c. cbn. split; auto using ext_refl.
  - intros k d l WD IH WI IH2 p c. cbn [witems]. specialize (IH (p ++ [k]) c). destruct (write (p ++ [k]) d c) as [n c1]. 
    specialize (IH2 p c1). destruct (witems p l c1) as [t c2]. cbn [snd] in *. destruct IH as [A1 A2], IH2 as [B1 B2].
    split; [eapply ext_trans; eauto|]. intros i q X. cbn [flat_map snd]. rewrite in_app_iff. destruct (B2 _ _ X) as [Y|Y]; auto.
    destruct (A2 _ _ Y); auto.
Qed.
Lemma witems_ext : forall l, wf_items heap l -> forall p c, ext c (snd (witems p l c)).
Proof.
  intros l H. induction H as [|k d l WD WI IH]; intros p c; cbn [witems]; [apply ext_refl|].
  destruct (@write_ext d WD (p ++ [k]) c) as [E _]. destruct (write (p ++ [k]) d c) as [n c1]. specialize (IH p c1).
  destruct (witems p l c1). cbn [snd] in *. eapply ext_trans; eauto.
Qed.
Lemma witems_look : forall l p c k x, NoDup (map fst l) -> In (k, x) (fst (witems p l c)) -> look (fst (witems p l c)) k = Some x.
Proof.
  induction l as [|[k d] l IH]; intros p c k' x ND H; cbn [witems] in *; [destruct H|].
  destruct (write (p ++ [k]) d c) as [n c1]. specialize (IH p c1 k' x).
  assert (M : map fst (fst (witems p l c1)) = map fst l).
  { clear. revert c1. induction l as [|[k d] l IH]; intros c; cbn; auto. destruct (write (p ++ [k]) d c) as [n c1].
    specialize (IH c1). destruct (witems p l c1). cbn in *. congruence. }
  destruct (witems p l c1) as [t c2]. cbn [fst] in *. inversion ND; subst. cbn [look]. destruct H as [H|H].
  - injection H as -> ->. rewrite Nat.eqb_refl. auto.
  - destruct (Nat.eqb_spec k' k); auto. subst. exfalso. apply H2. rewrite <- M. apply in_map_iff. exists (k, x). auto.
Qed.

(** The objects in the cache can be read. *)
Definition inv (root : fnode) (cF c : wcache) : Prop := forall i q, look c i = Some q ->
  exists m r p, getn root q = Some m /\ den root q m r /\ read_as (obj_of root cF) p (heap i) r.
(** The objects in the cache were made under [b]. *)
Definition cunder (root : fnode) (b : path) (c : wcache) : Prop := forall i r, obj_of root c i r ->
  forall x, In x (idents r) -> under b x.
Lemma under_app : forall b p k, under b p -> under b (p ++ [k]).
Proof. intros b p k [t ->]. exists (t ++ [k]). rewrite app_assoc. auto. Qed.
Lemma under_refl : forall p, under p p. Proof. intros p. exists []. rewrite app_nil_r. auto. Qed.
Lemma cunder_cons : forall root b c i p m r, cunder root b c -> getn root p = Some m -> den root p m r ->
  (forall x, In x (idents r) -> under b x) -> cunder root b ((i, p) :: c).
Proof.
  intros root b c i p m r C G D U j r' (q & m' & L & G' & D'). cbn in L. destruct (Nat.eqb_spec j i).
  - injection L as <-. rewrite G in G'. injection G' as <-. rewrite <- (den_fun D D'). auto.
  - apply (C j). exists q, m'. auto.
Qed.

Lemma write_read : forall d, wf_data heap d -> forall p c root cF, getn root p = Some (fst (write p d c)) ->
  ext (snd (write p d c)) cF -> inv root cF c ->
  exists r, den root p (fst (write p d c)) r /\ read_as (obj_of root cF) p d r /\ inv root cF (snd (write p d c)) /\
  (forall b, under b p -> cunder root b c -> (forall x, In x (idents r) -> under b x) /\ cunder root b (snd (write p d c))).
Proof.
  intros d H. apply (@wf_data_mut heap (fun d _ => forall p c root cF, getn root p = Some (fst (write p d c)) ->
       ext (snd (write p d c)) cF -> inv root cF c ->
       exists r, den root p (fst (write p d c)) r /\ read_as (obj_of root cF) p d r /\ inv root cF (snd (write p d c)) /\
       (forall b, under b p -> cunder root b c -> (forall x, In x (idents r) -> under b x) /\ cunder root b (snd (write p d c))))
    (fun l _ => forall p c root cF, (forall k x, In (k, x) (fst (witems p l c)) -> getn root (p ++ [k]) = Some x) ->
       ext (snd (witems p l c)) cF -> inv root cF c ->
       exists rl, den_items root p (fst (witems p l c)) rl /\ read_items (obj_of root cF) p l rl /\ inv root cF (snd (witems p l c)) /\
       (forall b, under b p -> cunder root b c ->
         (forall x, In x (flat_map (fun y => idents (snd y)) rl) -> under b x) /\ cunder root b (snd (witems p l c))))); auto; clear d H.
  - intros a p c root cF G E I. cbn in *. eexists. split; [constructor|]. split; [constructor|]. split; auto.
    intros b U C. split; auto. cbn. intros x [<- |[]]. auto.
  - intros k l ND WI IH p c root cF G E I. rewrite write_node in *. specialize (IH p c root cF).
    pose proof (fun k x => @witems_look l p c k x ND) as LK.
    destruct (witems p l c) as [t c']. cbn [fst snd] in *. destruct IH as (rl & D & R & I' & U'); auto.
    { intros k' x Hx. eapply get_app; eauto. }
    exists (RNode p k rl). split; [constructor; auto|]. split; [constructor; auto|]. split; auto.
    intros b U C. destruct (U' b U C) as [V1 V2]. split; auto. cbn. intros x [<- |Hx]; auto.
  - intros i w Eh p c root cF G E I. cbn [write] in *. destruct (look c i) as [q|] eqn:L; cbn [fst snd] in *.
    + destruct (I _ _ L) as (m & r & p' & G' & D & R). rewrite Eh in R. exists r. split; [econstructor; eauto|]. split.
      { inversion R; subst. constructor. auto. }
      split; auto. intros b U C. split; auto. apply (C i). exists q, m. auto.
    + assert (DN : den root p (FObj w) (RObj p w)) by constructor.
      exists (RObj p w). split; auto.
      assert (O : obj_of root cF i (RObj p w)).
      { exists p, (FObj w). split; [apply E; cbn; rewrite Nat.eqb_refl; auto|]. split; auto. }
      assert (RA : read_as (obj_of root cF) p (PObj i w) (RObj p w)) by (constructor; auto).
      split; auto. split.
      * intros j q. cbn. destruct (Nat.eqb_spec j i); [|apply I]. intros X. injection X as <-. subst j.
        exists (FObj w), (RObj p w), p. rewrite Eh. auto.
      * intros b U C. assert (V : forall x, In x (idents (RObj p w)) -> under b x) by (cbn; intros x [<- |[]]; auto).
        split; auto. eapply cunder_cons; eauto.
  - intros i d Eh AC WD IH p c root cF G E I.
    cbn [write] in *. destruct (look c i) as [q|] eqn:L; cbn [fst snd] in *.
    + destruct (I _ _ L) as (m & r & p' & G' & D & R). rewrite Eh in R. exists r. split; [econstructor; eauto|].
      split; [|split; auto].
      * apply (@ra_cached _ p p'); auto. exists q, m. repeat split; auto.
      * intros b U C. split; auto. apply (C i). exists q, m. auto.
    + destruct (@write_ext d WD p c) as [X1 X2]. specialize (IH p c root cF). destruct (write p d c) as [n c'] eqn:Ew.
      cbn [fst snd] in *.
      assert (LI : forall q, look c' i = Some q -> q = p).
      { intros q Lq. destruct AC as [AC|[w ->]].
        * destruct (X2 _ _ Lq); [congruence|contradiction].
        * cbn in Ew. rewrite L in Ew. injection Ew as _ <-. cbn in Lq. rewrite Nat.eqb_refl in Lq. congruence. }
      destruct IH as (r & D & R & I' & U'); auto.
      { eapply ext_trans; [apply ext_cons; exact LI|exact E]. }
      assert (O : obj_of root cF i r).
      { exists p, n. split; [apply E; cbn; rewrite Nat.eqb_refl; auto|]. auto. }
      exists r. split; auto. split; [apply (@ra_cached _ p p); auto|]. split.
      * intros j q. cbn. destruct (Nat.eqb_spec j i); [|apply I'].
        intros X. injection X as <-. subst j. exists n, r, p. rewrite Eh. auto.
      * intros b U C. destruct (U' b U C) as [V1 V2]. split; auto. eapply cunder_cons; eauto.
  - intros d WD IH p c root cF G E I. cbn [write fst snd] in *. specialize (IH p [] root (snd (write p d []))).
    destruct IH as (r & D & R & _ & U'); auto using ext_refl.
    { intros i q X. discriminate. }
    assert (N : forall b, cunder root b []) by (intros b i r' (q & m & L & _); discriminate).
    exists r. split; auto. split.
    { apply (@ra_uncached _ p (obj_of root (snd (write p d [])))); auto; [apply obj_fun|]. apply (U' p); auto using under_refl. }
    split; auto. intros b U C. split; auto. apply (U' b U); auto.
  - intros p c root cF G E I. cbn in *. exists []. split; [constructor|]. split; [constructor|]. split; auto. 
    intros b U C. split; auto. intros x [].
  - intros k d l WD IH WI IH2 p c root cF G E I. cbn [witems] in *.
    specialize (IH (p ++ [k]) c root cF). destruct (write (p ++ [k]) d c) as [n c1]. specialize (IH2 p c1 root cF).
    pose proof (witems_ext WI p c1) as X. destruct (witems p l c1) as [t c2]. cbn [fst snd] in *.
    destruct IH as (r & D & R & I1 & U1); auto.
    { apply G. left; auto. } { eapply ext_trans; eauto. }
    destruct IH2 as (rl & D2 & R2 & I2 & U2); auto.
    { intros k' x Hx. apply G. right; auto. }
    exists ((k, r) :: rl). split; [constructor; auto|]. split; [constructor; auto|]. split; auto.
    intros b U C. destruct (U1 b (under_app k U) C) as [V1 V2]. destruct (U2 b U V2) as [V3 V4]. split; auto.
    cbn [flat_map snd]. intros x Hx. apply in_app_or in Hx. destruct Hx; auto.
Qed.
End Main.

(** ** Reading with the cache *)
Definition rc_ok (root : fnode) (c : list (path * rdata)) : Prop := forall p r, plook c p = Some r ->
  exists m, getn root p = Some m /\ den root p m r.
Fixpoint ritems (f : nat) (root : fnode) (p : path) (l : list (nat * fnode)) (c : list (path * rdata)) : res (list (nat * rdata) * list (path * rdata)) :=
  match l with
  | [] => Ok ([], c)
  | (key, m) :: t => do x <- read f root (p ++ [key]) m c;
                     let '(r, c) := x in do y <- ritems f root p t c; let '(t, c) := y in Ok ((key, r) :: t, c)
  end.
Lemma rc_cons : forall root c p m r, rc_ok root c -> getn root p = Some m -> den root p m r -> rc_ok root ((p, r) :: c).
Proof.
  intros root c p m r H G D q r' L. cbn in L. unfold path_eqb in L. destruct (list_eq_dec Nat.eq_dec q p); [|apply H; auto].
  injection L as <-. subst. eauto.
Qed.
(** Nodes with distinct names. *)
Inductive wf_node : fnode -> Prop :=
| wn_atom : forall a, wf_node (FAtom a) | wn_obj : forall w, wf_node (FObj w) | wn_link : forall q, wf_node (FLink q)
| wn_node : forall k l, NoDup (map fst l) -> (forall y, In y l -> wf_node (snd y)) -> wf_node (FNode k l).
Lemma look_in : forall B (l : list (nat * B)) k x, NoDup (map fst l) -> In (k, x) l -> look l k = Some x.
Proof.
  induction l as [|[a b] l IH]; intros k x ND H; [destruct H|]. inversion ND; subst. cbn. destruct H as [H|H].
  - injection H as -> ->. rewrite Nat.eqb_refl. auto.
  - destruct (Nat.eqb_spec k a); auto. subst. exfalso. apply H2. apply in_map_iff. exists (a, x). auto.
Qed.
Lemma look_some : forall B (l : list (nat * B)) k x, look l k = Some x -> In (k, x) l.
Proof. induction l as [|[a b] l IH]; intros k x H; cbn in H; [discriminate|]. destruct (Nat.eqb_spec k a); [injection H as <-; subst; left; auto|right; auto]. Qed.
Lemma wf_get : forall p n m, wf_node n -> getn n p = Some m -> wf_node m.
Proof.
  induction p as [|k p IH]; intros n m Hn G; cbn in G; [injection G as <-; auto|].
  destruct n as [|kd l| |]; try discriminate. destruct (look l k) as [y|] eqn:L; try discriminate. eapply IH; [|exact G].
  inversion Hn; subst. apply look_some in L. apply (H2 _ L).
Qed.
(** With enough fuel the denoted data are read, whatever valid cache is used. *)
Lemma read_den : forall root p n r, wf_node root -> den root p n r ->
  exists f0, forall f c, f0 <= f -> getn root p = Some n -> rc_ok root c ->
  exists c', read f root p n c = Ok (r, c') /\ rc_ok root c'.
Proof.
  intros root p n r WR H.
  apply (@den_mut root (fun p n r _ => exists f0, forall f c, f0 <= f -> getn root p = Some n -> rc_ok root c ->
      exists c', read f root p n c = Ok (r, c') /\ rc_ok root c')
    (fun p l rl _ => exists f0, forall f c, f0 <= f -> (forall k x, In (k, x) l -> getn root (p ++ [k]) = Some x) -> rc_ok root c ->
      exists c', ritems f root p l c = Ok (rl, c') /\ rc_ok root c')); auto; clear p n r H.
  - intros p a. exists 1. intros [|f] c Hf G C; [lia|]. cbn. destruct (plook c p) as [r|] eqn:L.
    + destruct (C _ _ L) as (m & G' & D). rewrite G in G'. injection G' as <-. inversion D; subst. eauto.
    + eexists. split; [reflexivity|]. eapply rc_cons; eauto. constructor.
  - intros p w. exists 1. intros [|f] c Hf G C; [lia|]. cbn. destruct (plook c p) as [r|] eqn:L.
    + destruct (C _ _ L) as (m & G' & D). rewrite G in G'. injection G' as <-. inversion D; subst. eauto.
    + eexists. split; [reflexivity|]. eapply rc_cons; eauto. constructor.
  - intros p q m r G D (f0 & IH). exists (S f0). intros [|f] c Hf G2 C; [lia|]. cbn [read]. rewrite G. apply IH; auto. lia.
  - intros p k l rl D (f0 & IH). exists (S f0). intros [|f] c Hf G C; [lia|]. cbn [read].
    assert (DN : den root p (FNode k l) (RNode p k rl)) by (constructor; auto).
    destruct (plook c p) as [r|] eqn:L.
    + destruct (C _ _ L) as (m & G' & D'). rewrite G in G'. injection G' as <-. rewrite (den_fun DN D'). eauto.
    + pose proof (wf_get p WR G) as WN. inversion WN as [| | |? ? ND WL]; subst.
      destruct (IH f c) as (c' & E & C'); auto; [lia| |].
      { intros k' x Hx. eapply get_app; eauto. apply look_in; auto. }
      match goal with |- context [bind (?F l c) _] => match F with read _ _ _ _ => fail 1 | _ =>
        assert (EF : forall l c, F l c = ritems f root p l c) by
          (clear; induction l as [|[key d] t IHt]; intros c; [reflexivity|]; cbn [ritems]; destruct (read f root (p ++ [key]) d c) as [[r1 c1]|]; cbn [bind]; [rewrite IHt; reflexivity|reflexivity]) end end.
      rewrite EF, E. cbn [bind]. eexists. split; [reflexivity|]. eapply rc_cons; eauto.
  - intros p. exists 0. intros f c _ _ C. cbn. eauto.
  - intros p k n r l rl D (f1 & IH1) DI (f2 & IH2). exists (Nat.max f1 f2). intros f c Hf G C. cbn [ritems].
    destruct (IH1 f c) as (c1 & E1 & C1); auto; [lia|apply G; left; auto|]. rewrite E1. cbn [bind].
    destruct (IH2 f c1) as (c2 & E2 & C2); auto; [lia|intros; apply G; right; auto|]. rewrite E2. cbn [bind]. eauto.
Qed.
Lemma write_wf_node : forall heap d, wf_data heap d -> forall p c, wf_node (fst (write p d c)).
Proof.
  intros heap d H. apply (@wf_data_mut heap (fun d _ => forall p c, wf_node (fst (write p d c)))
    (fun l _ => forall p c, map fst (fst (witems p l c)) = map fst l /\ (forall y, In y (fst (witems p l c)) -> wf_node (snd y)))); auto; clear d H.
  - intros. constructor.
  - intros k l ND WI IH p c. rewrite write_node. destruct (IH p c) as [M F]. destruct (witems p l c). cbn [fst] in *. constructor; auto. rewrite M. auto.
  - intros i w E p c. cbn. destruct (look c i); constructor.
  - intros i d E AC WD IH p c. cbn [write]. destruct (look c i); [constructor|]. specialize (IH p c). destruct (write p d c). auto.
  - intros d WD IH p c. apply IH.
  - intros p c. cbn. split; auto. intros y [].
  - intros k d l WD IH WI IH2 p c. cbn [witems]. specialize (IH (p ++ [k]) c). destruct (write (p ++ [k]) d c) as [n c1].
    destruct (IH2 p c1) as [M F]. destruct (witems p l c1). cbn [fst] in *. cbn. split; [congruence|]. intros y [<- |Hy]; auto.
Qed.

(** Data written with a new cache are read back the same, with the objects shared
    as specified. *)
Theorem C89_round_trip : forall heap d, wf_data heap d ->
  exists r (O : nat -> rdata -> Prop) fuel, (forall i x y, O i x -> O i y -> x = y) /\ read_as O [] d r /\
  forall f, fuel <= f -> exists c, read f (fst (write [] d [])) [] (fst (write [] d [])) [] = Ok (r, c).
Proof.
  intros heap d H. set (root := fst (write [] d [])).
  destruct (@write_read heap d H [] [] root (snd (write [] d []))) as (r & D & R & _); auto using ext_refl.
  { intros i q X. discriminate. }
  fold root in D. destruct (read_den (write_wf_node H [] []) D) as (f0 & F).
  exists r, (obj_of root (snd (write [] d []))), f0. split; [apply obj_fun|]. split; auto.
  intros f Hf. destruct (F f [] Hf) as (c & E & _); auto; [intros p x X; discriminate|]. eauto.
Qed.
End H5.
(** [m; Cached(m); Uncached(m); Cached(l); Cached(l)] with a mesh [m] and a list [l] containing [m]. *)
Definition ex_l : pdata nat nat := PNode KList [(0, PObj 7 42); (1, PAtom 5)].
Definition ex_d : pdata nat nat :=
  PNode KDict [(10, PObj 7 42); (11, PCached 7 (PObj 7 42)); (12, PUncached (PObj 7 42)); (13, PCached 8 ex_l); (14, PCached 8 ex_l)].
Example C89_ex : wf_data (fun i => if i =? 7 then PObj 7 42 else ex_l) ex_d /\
  exists c, read 10 (fst (write [] ex_d [])) [] (fst (write [] ex_d [])) [] =
   Ok (RNode [] KDict [(10, RObj [10] 42); (11, RObj [10] 42); (12, RObj [12] 42);
                       (13, RNode [13] KList [(0, RObj [10] 42); (1, RAtom [13; 1] 5)]);
                       (14, RNode [13] KList [(0, RObj [10] 42); (1, RAtom [13; 1] 5)])], c).
Proof.
  split; [|eexists; vm_compute; reflexivity].
  assert (X : wf_data (fun i => if i =? 7 then PObj 7 42 else ex_l) (PObj 7 42)) by (constructor; auto).
  assert (Y : wf_data (fun i => if i =? 7 then PObj 7 42 else ex_l) ex_l).
  { constructor; [repeat constructor; cbn; intuition discriminate|]. repeat constructor. }
  constructor; [cbn; repeat constructor; cbn; intuition discriminate|].
  constructor; auto. constructor; [constructor; auto; right; eauto|]. constructor; [constructor; auto|].
  assert (Z1 : wf_data (fun i => if i =? 7 then PObj 7 42 else ex_l) (PCached 8 ex_l)).
  { constructor; auto. left. cbn. intuition discriminate. }
  repeat (constructor; auto).
Qed.
Print Assumptions C89_round_trip.
