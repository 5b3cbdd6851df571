(** C199, C200: combining problem descriptions, integrals by name. *)
From Coq Require Import String Ascii ZArith DecimalString DecimalNat.
From Verif Require Import Base M_conf S_conf P_conf P_conf2 P_conf5 M_conf2.
Set Implicit Arguments.
Open Scope nat_scope.

(** ** Combination *)
Section Fold.
Variables (f : dict -> string * pv -> dict) (g : option pv -> pv -> option pv).
Hypothesis Hf : forall me k v x, lookup (f me (k, v)) x = if String.eqb k x then g (lookup me k) v else lookup me x.
Lemma fold_get : forall his me x, NoDup (map fst his) ->
  lookup (fold_left f his me) x = match lookup his x with Some v => g (lookup me x) v | None => lookup me x end.
Proof.
  induction his as [|[k v] his IH]; intros me x N; auto. cbn [fold_left lookup]. inversion N; subst.
  rewrite IH, Hf by auto. destruct (String.eqb_spec k x) as [->|E]; auto.
  assert (lookup his x = None) as -> by now apply lookup_none. auto.
Qed.
End Fold.
(** Attributes of the other description win, dictionaries are joined. *)
Theorem C199_update : forall me his x, NoDup (map fst his) ->
  lookup (update_conf me his) x = match lookup his x, lookup me x with
                                  | None, m => m
                                  | Some (VDict b), Some (VDict a) => Some (VDict (update_items a b))
                                  | Some v, _ => Some v
                                  end.
Proof.
  intros me his x N. unfold update_conf.
  rewrite fold_get with (g := fun m v => match m, v with Some (VDict a), VDict b => Some (VDict (update_items a b)) | _, _ => Some v end); auto.
  - destruct (lookup his x) as [[]|], (lookup me x) as [[]|]; reflexivity.
  - intros m k v y. unfold update_one. cbn [fst snd].
    destruct (lookup m k) as [[]|], v; rewrite lookup_store; reflexivity.
Qed.
Theorem C199_update_items : forall (a b : dict) k, NoDup (map fst b) ->
  lookup (update_items a b) k = match lookup b k with Some v => Some v | None => lookup a k end.
Proof. intros. now apply lookup_update. Qed.
(** Nothing that is given is changed by [add_missing], the rest is taken over. *)
Theorem C199_add_missing : forall me his x, NoDup (map fst his) ->
  lookup (add_missing me his) x = match lookup me x, lookup his x with
                                  | Some (VDict a), Some (VDict b) => Some (VDict (add_items a b))
                                  | Some VNone, Some v | None, Some v => Some v
                                  | m, _ => m
                                  end.
Proof.
  intros me his x N. unfold add_missing.
  rewrite fold_get with (g := fun m v => match m, v with
    | Some (VDict a), VDict b => Some (VDict (add_items a b)) | None, _ | Some VNone, _ => Some v | _, _ => m end); auto.
  - destruct (lookup his x) as [[]|], (lookup me x) as [[]|]; reflexivity.
  - intros m k v y. unfold add_one. cbn [fst snd].
    destruct (lookup m k) as [[]|] eqn:L, v; rewrite ?lookup_store; try reflexivity;
    destruct (String.eqb_spec k y) as [->|]; congruence.
Qed.
Theorem C199_add_items : forall (a b : dict) k, NoDup (map fst b) ->
  lookup (add_items a b) k = match lookup a k with Some v => Some v | None => lookup b k end.
Proof.
  intros a b k N. unfold add_items.
  rewrite fold_get with (g := fun m v => match m with Some w => Some w | None => Some v end); auto.
  - destruct (lookup b k), (lookup a k); reflexivity.
  - intros m k' v y. cbn [fst snd]. destruct (lookup m k') eqn:L; rewrite ?lookup_store; auto.
    destruct (String.eqb_spec k' y) as [->|]; auto.
Qed.
(** The keys of the short syntax contain the position of the entry: the same region at
    another position is not replaced, but defined twice, and the old one is found. *)
Definition regions_of (c : dict) : list (string * dict) :=
  match lookup c "regions" with
  | Some (VDict g) => flat_map (fun p => match snd p with VStruct d => [(fst p, d)] | _ => [] end) g
  | _ => []
  end.
Definition conf_regions (adict : dict) : dict :=
  match transform_of KRegion adict with
  | Ok d2 => [("regions"%string, VDict (map (fun p => (fst p, VStruct (snd p))) d2))]
  | Err _ => []
  end.
Theorem C199_same_name_refuted : exists mine his,
  option_map (fun c => lookup c "select") (get_item_by_name (regions_of (conf_regions mine)) "Gamma") = Some (Some (VStr "vertices in x < 0")) /\
  option_map (fun c => lookup c "select") (get_item_by_name (regions_of (conf_regions his)) "Gamma") = Some (Some (VStr "vertices in x > 1")) /\
  option_map (fun c => lookup c "select") (get_item_by_name (regions_of (update_conf (conf_regions mine) (conf_regions his))) "Gamma")
    = Some (Some (VStr "vertices in x < 0")) /\
  length (filter (fun p => match lookup (snd p) "name" with Some (VStr n) => String.eqb n "Gamma" | _ => false end)
    (regions_of (update_conf (conf_regions mine) (conf_regions his)))) = 2 /\
  length (filter (fun p => match lookup (snd p) "name" with Some (VStr n) => String.eqb n "Gamma" | _ => false end)
    (regions_of (add_missing (conf_regions mine) (conf_regions his)))) = 2.
Proof.
  exists [("Gamma", VStr "vertices in x < 0")]%string, [("Omega", VStr "all"); ("Gamma", VTup [VStr "vertices in x > 1"; VStr "facet"])]%string.
  repeat split; vm_compute; reflexivity.
Qed.

(** ** Integrals *)
Lemma index_nth : forall objs n i, index_of objs n = Some i -> exists o, nth_error objs i = Some o /\ i_name o = n.
Proof.
  induction objs as [|o objs IH]; intros n i H; simpl in H; [discriminate|].
  destruct (String.eqb_spec (i_name o) n) as [E|E]; [injection H as <-; simpl; eauto|].
  destruct (index_of objs n) as [j|] eqn:J; [|discriminate]. injection H as <-. simpl. eauto.
Qed.
Lemma index_app : forall objs n o, index_of objs n = None -> i_name o = n -> index_of (objs ++ [o]) n = Some (length objs).
Proof.
  induction objs as [|x objs IH]; intros n o H E; simpl in *; [rewrite E, String.eqb_refl; auto|].
  destruct (String.eqb (i_name x) n); [discriminate|]. destruct (index_of objs n) eqn:J; [discriminate|].
  rewrite (IH n o J E). reflexivity.
Qed.
Lemma sapp_nil : forall s : string, (s ++ "")%string = s.
Proof. induction s; simpl; congruence. Qed.
Lemma all_digits_nominus : forall n s, dec n <> String "-" s.
Proof. intros n s H. destruct (dec_number n) as [_ D]. rewrite H in D. discriminate. Qed.
Lemma decZ_inj : forall a b, decZ a = decZ b -> a = b.
Proof.
  assert (A : forall n m, dec n <> ("-" ++ dec m)%string) by (intros n m E; exact (all_digits_nominus _ E)).
  intros a b H. unfold decZ in H.
  destruct a as [|p|p], b as [|q|q]; try (exfalso; first [exact (A _ _ H) | symmetry in H; exact (A _ _ H)]);
    try (apply sapp_inj in H); apply dec_inj in H; lia.
Qed.
(** Only the integrals made by [get] have names of the form [__o<number>]. *)
Definition well_named (objs : list integral) : Prop :=
  forall o z, In o objs -> i_name o = ("__o" ++ decZ z)%string -> i_order o = z.
Lemma get_order_spec : forall objs z, well_named objs ->
  let '(objs', i) := get_order objs z in
  well_named objs' /\ (exists l, objs' = objs ++ l) /\ (exists o, nth_error objs' i = Some o /\ i_order o = z) /\
  get_order objs' z = (objs', i).
Proof.
  intros objs z W. unfold get_order. destruct (index_of objs ("__o" ++ decZ z)) as [i|] eqn:E.
  - split; auto. split; [exists []; now rewrite app_nil_r|]. split; [|now rewrite E].
    destruct (index_nth _ _ E) as (o & N & M). exists o. split; auto. apply (W o z); auto. exact (nth_error_In _ _ N).
  - split; [|split; [eauto|split]].
    + intros o z' I M. apply in_app_iff in I as [I|[<-|[]]]; [now apply (W o z')|]. simpl in *.
      injection M as M. symmetry. now apply decZ_inj.
    + exists (Integral ("__o" ++ decZ z) z). split; auto. rewrite nth_error_app2, Nat.sub_diag by lia. reflexivity.
    + rewrite index_app by auto. reflexivity.
Qed.
(** The integral of the given order is returned; a second call returns the same object
    and the existing integrals stay in their places. *)
Theorem C200_order : forall objs z objs' i, well_named objs -> integrals_get objs (RInt z) = Ok (objs', i) ->
  well_named objs' /\ (exists l, objs' = objs ++ l) /\ (exists o, nth_error objs' i = Some o /\ i_order o = z) /\
  integrals_get objs' (RInt z) = Ok (objs', i).
Proof.
  intros objs z objs' i W H. simpl in H. injection H as H. pose proof (@get_order_spec objs z W) as S1. rewrite H in S1.
  destruct S1 as (A & B & D & E). repeat split; auto. simpl. now rewrite E.
Qed.
Lemma no_space_digits : forall s, all_digits s = true -> no_space s.
Proof.
  induction s as [|c s IH]; intros H; simpl; auto. simpl in H. apply andb_prop in H as [H1 H2]. split; auto.
  destruct c as [[] [] [] [] [] [] [] []]; try reflexivity; discriminate H1.
Qed.
Lemma parse_dec : forall n, parse_nat (dec n) = Some n.
Proof.
  intros n. destruct (dec_number n) as [D1 _]. unfold parse_nat. destruct (dec n) eqn:E; [congruence|]. rewrite <- E. unfold dec.
  assert (U : NilEmpty.uint_of_string (NilZero.string_of_uint (Nat.to_uint n)) = Some (Nat.to_uint n)).
  { unfold NilZero.string_of_uint. destruct (Nat.to_uint n) eqn:E2; [exfalso; exact (to_uint_nn _ E2)|..]; apply NilEmpty.usu. }
  rewrite U. simpl. f_equal. apply Unsigned.of_to.
Qed.
Lemma dec_head : forall n, exists c s, dec n = String c s /\ is_digit c = true.
Proof.
  intros n. destruct (dec_number n) as [D1 D2]. destruct (dec n) as [|c s]; [congruence|].
  simpl in D2. apply andb_prop in D2 as [D2 _]. eauto.
Qed.
Lemma parse_decZ : forall z, parse_int (decZ z) = Some z.
Proof.
  assert (P : forall n, parse_int (dec n) = Some (Z.of_nat n)).
  { intros n. unfold parse_int. destruct (strip_id (dec n)) as [-> _]; [apply no_space_digits, dec_number|].
    destruct (dec_head n) as (c & s & E & D). rewrite E.
    assert (F : option_map Z.of_nat (parse_nat (String c s)) = Some (Z.of_nat n)) by (rewrite <- E, parse_dec; reflexivity).
    destruct c as [[] [] [] [] [] [] [] []]; try discriminate D; exact F. }
  intros z. unfold decZ. destruct z as [|p|p].
  - rewrite P. reflexivity.
  - rewrite P. f_equal. lia.
  - unfold parse_int. destruct (strip_id ("-" ++ dec (Pos.to_nat p))) as [-> _].
    { simpl. split; [reflexivity|]. apply no_space_digits, dec_number. }
    simpl. rewrite parse_dec. simpl. f_equal. lia.
Qed.
(** An order and its decimal string are the same. *)
Theorem C200_string : forall objs z, integrals_get objs (RStr (decZ z)) = integrals_get objs (RInt z).
Proof.
  intros objs z.
  assert (H : exists c s, decZ z = String c s /\ c <> "i"%char /\ decZ z <> "a"%string).
  { unfold decZ. destruct z as [|p|p].
    - exists "0"%char, ""%string. repeat split; discriminate.
    - destruct (dec_head (Z.to_nat (Z.pos p))) as (c & s & -> & D). exists c, s. repeat split; intros E; [subst c; discriminate|].
      injection E as -> ->. discriminate.
    - exists "-"%char, (dec (Pos.to_nat p)). repeat split; discriminate. }
  destruct H as (c & s & E & N1 & N2). pose proof (parse_decZ z) as P. unfold integrals_get.
  apply String.eqb_neq in N2. rewrite N2. rewrite E in *. destruct (Ascii.eqb_spec c "i"); [congruence|]. now rewrite P.
Qed.
(** Custom integrals: by their names; unknown names are errors, and nothing is added. *)
Theorem C200_custom : forall objs s r, integrals_get objs (RStr (String "i" s)) = r ->
  (forall o, In o objs -> i_name o <> String "i" s) /\ r = Err ValueError \/
  exists i o, r = Ok (objs, i) /\ nth_error objs i = Some o /\ i_name o = String "i" s.
Proof.
  intros objs s r H. unfold integrals_get in H. assert (String.eqb (String "i" s) "a" = false) as E by (apply String.eqb_neq; discriminate).
  rewrite E in H. rewrite Ascii.eqb_refl in H. destruct (index_of objs (String "i" s)) as [i|] eqn:X.
  - right. destruct (index_nth _ _ X) as (o & A & B). eauto 6.
  - left. split; auto. clear -X. revert X. induction objs as [|o objs IH]; intros X p I; [destruct I|]. simpl in X.
    destruct (String.eqb_spec (i_name o) (String "i" s)) as [E|E]; [discriminate|].
    destruct I as [<-|I]; auto. apply IH; auto. destruct (index_of objs (String "i" s)); [discriminate|auto].
Qed.
(** A custom integral whose name does not begin by an i is not found by its name, and
    one called like an order takes the place of the built-in one. *)
Theorem C200_custom_name_refuted : integrals_get [Integral "gauss3" 3] (RStr "gauss3") = Err ValueError /\
  exists objs' o, integrals_get [Integral "__o2" 5] (RInt 2) = Ok (objs', 0) /\ nth_error objs' 0 = Some o /\ i_order o = 5%Z.
Proof. split; [reflexivity|]. eexists; eexists. repeat split. Qed.
(** Negative orders, excluded by the documentation, are accepted. *)
Theorem C200_negative_refuted : forall z, (z < 0)%Z -> exists objs' i, integrals_get [] (RInt z) = Ok (objs', i).
Proof. intros z H. unfold integrals_get. destruct (get_order [] z) as [o i]. exists o, i. reflexivity. Qed.
Example C200_ex : well_named [Integral "i1" 2; Integral "__o4" 4] /\
  integrals_get [Integral "i1" 2; Integral "__o4" 4] (RStr "4") = Ok ([Integral "i1" 2; Integral "__o4" 4], 1) /\
  integrals_get [Integral "i1" 2; Integral "__o4" 4] (RInt 2) = Ok ([Integral "i1" 2; Integral "__o4" 4; Integral "__o2" 2], 2).
Proof.
  split; [|split; reflexivity]. intros o z [<-|[<-|[]]] H; simpl in *; [discriminate|].
  injection H as H. apply decZ_inj. rewrite <- H. reflexivity.
Qed.
Print Assumptions C199_update.
Print Assumptions C200_string.
