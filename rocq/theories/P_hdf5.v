(** C88: dictionaries stored in HDF5 files. *)
From Verif Require Import Base M_io M_hdf5.
Set Implicit Arguments.

Section Dict.
Context {W B : Type}.
Variable enc : str -> B.
Variable dec : B -> str.
Hypothesis dec_enc : forall s, dec (enc s) = s.
Notation dval := (dval W B).

(** Two dictionaries are the same: the same keys with the same values, in any order. *)
Inductive same : dval -> dval -> Prop :=
| same_leaf : forall x, same (Leaf x) (Leaf x)
| same_dict : forall l m m', Permutation m m' -> same_items l m' -> same (Dict l) (Dict m)
with same_items : list (str * dval) -> list (str * dval) -> Prop :=
| si_nil : same_items [] []
| si_cons : forall k v w l m, same v w -> same_items l m -> same_items ((k, v) :: l) ((k, w) :: m).

(** Keys allowed by PyTables (the node name is '_' + key) and not hidden. *)
Definition good_key (k : str) : Prop := valid_name (under :: k) = true /\ hidden (under :: k) = false.
(** Storable: good, distinct keys; no bytes values (they are read as strings). *)
Inductive storable : dval -> Prop :=
| st_leaf : forall x, (forall b, x <> LBytes b) -> storable (Leaf x)
| st_dict : forall l, NoDup (map fst l) -> storable_items l -> storable (Dict l)
with storable_items : list (str * dval) -> Prop :=
| sti_nil : storable_items []
| sti_cons : forall k v l, good_key k -> storable v -> storable_items l -> storable_items ((k, v) :: l).
Scheme storable_mut := Induction for storable Sort Prop
with storable_items_mut := Induction for storable_items Sort Prop.

Fixpoint items (l : list (str * dval)) (g : list (str * hnode)) : res (list (str * hnode)) :=
  match l with
  | [] => Ok g
  | (key, v) :: t => do x <- write_val enc v; do g <- create g (under :: key) x; items t g
  end.
Lemma write_dict : forall l, write_val enc (Dict l) = do g <- items l []; Ok (HGroup g).
Proof.
  reflexivity.
Qed.
Lemma streqb_false : forall a b, a <> b -> streqb a b = false.
Proof. intros a b H. unfold streqb. destruct (list_eq_dec Nat.eq_dec a b); auto. contradiction. Qed.
Lemma create_ok : forall (g : list (str * @hnode W B)) k x, valid_name (under :: k) = true -> ~ In (under :: k) (map fst g) ->
  create g (under :: k) x = Ok (g ++ [(under :: k, x)]).
Proof.
  intros g k x H N. unfold create. rewrite H. cbn [negb].
  assert (E : existsb (fun y => streqb (fst y) (under :: k)) g = false).
  { clear H. induction g as [|y g IH]; auto. cbn [existsb map] in *. rewrite streqb_false, IH; auto; intro; apply N; [right|left]; auto. }
  rewrite E. auto.
Qed.
(** Reading the items of a group, not yet reordered. *)
Definition rd (g : list (str * @hnode W B)) : list (str * dval) := map (fun y => (drop_under (fst y), read_node dec (snd y))) g.
Lemma part_perm : forall A (p : A -> bool) l, Permutation (filter p l ++ filter (fun x => negb (p x)) l) l.
Proof.
  intros A p l. induction l as [|x l IH]; cbn; auto. destruct (p x); cbn; auto.
  apply Permutation_sym. eapply Permutation_trans; [apply perm_skip; apply Permutation_sym; apply IH|]. apply Permutation_middle.
Qed.
Lemma read_group : forall g, Forall (fun y => hidden (fst y) = false) g ->
  exists m, read_node dec (HGroup g) = Dict m /\ Permutation m (rd g).
Proof.
  intros g H. cbn [read_node]. set (f := fun y : str * hnode => _). set (it := map f g).
  assert (V : filter (fun y => negb (hidden (fst (fst y)))) it = it).
  { unfold it. clear -H. induction H as [|y g Hy H IH]; auto. cbn [map filter]. unfold f at 1 2. cbn [fst]. rewrite Hy. cbn [negb].
    f_equal. auto. }
  rewrite V. eexists. split; [reflexivity|].
  eapply Permutation_trans; [apply Permutation_map; apply part_perm|]. unfold it, rd. rewrite map_map. apply Permutation_refl.
Qed.
Lemma drop_name : forall k, drop_under (under :: k) = k.
Proof. intros. cbn [drop_under]. rewrite Nat.eqb_refl. auto. Qed.

(** A storable dictionary is written and read back the same. *)
Theorem C88_round_trip_partial : forall v, storable v -> exists x, write_val enc v = Ok x /\ same v (read_node dec x).
Proof.
  intros v H. apply (@storable_mut (fun v _ => exists x, write_val enc v = Ok x /\ same v (read_node dec x))
    (fun l _ => forall g : list (str * @hnode W B), NoDup (map fst g ++ map (fun y => under :: fst y) l) ->
       exists g' : list (str * @hnode W B), items l g = Ok (g ++ g') /\ Forall (fun y => hidden (fst y) = false) g' /\ same_items l (rd g'))); auto.
  - intros x Hx. exists (HArr (store enc x)). split; auto. cbn. destruct x as [s|b|w]; cbn; [rewrite dec_enc|destruct (Hx b); auto|]; constructor.
  - intros l ND S IH. rewrite write_dict. destruct (IH []) as (g & E & F & SI).
    { cbn. rewrite <- map_map. apply FinFun.Injective_map_NoDup; auto. intros a b Q. injection Q; auto. }
    rewrite E. cbn [bind app]. exists (HGroup g). split; auto. destruct (read_group F) as (m & -> & P). econstructor; eauto.
  - intros g _. exists []. rewrite app_nil_r. cbn. repeat split; constructor.
  - intros k v0 l [GK1 GK2] S (x & Ex & Sx) SI IH g ND. cbn [items]. rewrite Ex. cbn [bind].
    rewrite create_ok; auto.
    2:{ apply NoDup_remove_2 in ND. intro X. apply ND. apply in_or_app. auto. }
    cbn [bind]. destruct (IH (g ++ [(under :: k, x)])) as (g' & E & F & Si).
    { rewrite map_app, <- app_assoc. exact ND. }
    rewrite E. exists ((under :: k, x) :: g'). split; [rewrite <- app_assoc; auto|]. split; [constructor; auto|].
    cbn [rd map fst snd]. rewrite drop_name. constructor; auto.
Qed.
(** Values with keys 'p_...' or 'i_...' are lost without an error; equal names are
    an error; bytes come back as strings. *)
Theorem C88_hidden_key_refuted : forall w : W, exists x,
  write_val enc (Dict [([112; under; 49], Leaf (LOther w)); ([97], Leaf (LOther w))]) = Ok x /\   (* {'p_1' : w, 'a' : w} *)
  read_node dec x = Dict [([97], Leaf (LOther w))].
Proof. intros w. eexists. split; reflexivity. Qed.
Theorem C88_reserved_key_refuted : forall w : W, write_val enc (Dict [([99; under; 49], Leaf (LOther w))]) = Err ValueError. (* 'c_1' *)
Proof. reflexivity. Qed.
Theorem C88_bytes_refuted : forall b k, good_key k -> exists x, write_val (W := W) enc (Dict [(k, Leaf (LBytes b))]) = Ok x /\
  read_node dec x = Dict [(k, Leaf (LStr (dec b)))].
Proof.
  intros b k [H1 H2]. rewrite write_dict. cbn [items write_val bind]. rewrite create_ok; auto.
  eexists. split; [reflexivity|]. cbn [app read_node map fst snd filter]. rewrite H2. cbn [negb filter map app fst snd]. rewrite drop_name. auto.
Qed.
End Dict.
Example C88_ex : storable (W := nat) (B := list nat)
  (Dict [([97], Leaf (LOther 1)); ([98], Dict [([97], Leaf (LStr [120])); ([99], Dict [])])]) /\
  exists x, write_val (fun s => s) (Dict (W := nat) [([97], Leaf (LOther 1)); ([98], Dict [([97], Leaf (LStr [120])); ([99], Dict [])])]) = Ok x /\
  read_node (fun s => s) x = Dict [([98], Dict [([99], Dict []); ([97], Leaf (LStr [120]))]); ([97], Leaf (LOther 1))].
Proof.
  split; [|eexists; split; reflexivity].
  assert (G : forall c, memb c [97; 98; 99] = true -> good_key [c]).
  { intros c H. cbn in H. destruct (Nat.eqb_spec c 97); [subst; split; reflexivity|].
    destruct (Nat.eqb_spec c 98); [subst; split; reflexivity|]. destruct (Nat.eqb_spec c 99); [subst; split; reflexivity|discriminate]. }
  constructor; [repeat constructor; cbn; intuition discriminate|].
  constructor; [apply G; auto|constructor; discriminate|]. constructor; [apply G; auto| |constructor].
  constructor; [repeat constructor; cbn; intuition discriminate|].
  constructor; [apply G; auto|constructor; discriminate|]. constructor; [apply G; auto| |constructor].
  constructor; [constructor|constructor].
Qed.
Print Assumptions C88_round_trip_partial.
