(** C194, C195: the short and the long syntax of problem descriptions. *)
From Coq Require Import String Ascii ZArith DecimalString DecimalNat DecimalFacts.
From Verif Require Import Base M_conf S_conf P_conf.
Set Implicit Arguments.
Open Scope nat_scope.

(** ** Strings *)
Lemma sapp_inj : forall a b c : string, (a ++ b = a ++ c)%string -> b = c.
Proof. induction a as [|x a IH]; simpl; intros b c H; auto. injection H; auto. Qed.
Lemma sapp_assoc : forall a b c : string, ((a ++ b) ++ c = a ++ b ++ c)%string.
Proof. induction a; simpl; intros; congruence. Qed.

Lemma digits_uint : forall u, all_digits (NilEmpty.string_of_uint u) = true.
Proof. induction u; simpl; auto. Qed.
Lemma dec_number : forall n, number (dec n).
Proof.
  intros n. unfold dec, number. split.
  - unfold NilZero.string_of_uint. destruct (Nat.to_uint n); simpl; discriminate.
  - unfold NilZero.string_of_uint. destruct (Nat.to_uint n) eqn:E; try reflexivity; rewrite <- E; apply digits_uint.
Qed.
Lemma to_uint_nn : forall n, Nat.to_uint n <> Decimal.Nil.
Proof.
  intros n H. assert (A : Nat.of_uint (Nat.to_uint n) = n) by apply Unsigned.of_to.
  rewrite H in A. simpl in A. subst. simpl in H. discriminate.
Qed.
Lemma dec_inj : forall n m, dec n = dec m -> n = m.
Proof.
  intros n m H. unfold dec in H. apply Unsigned.to_uint_inj.
  assert (A : NilZero.uint_of_string (NilZero.string_of_uint (Nat.to_uint n)) = Some (Nat.to_uint n)) by (apply NilZero.usu, to_uint_nn).
  assert (B : NilZero.uint_of_string (NilZero.string_of_uint (Nat.to_uint m)) = Some (Nat.to_uint m)) by (apply NilZero.usu, to_uint_nn).
  rewrite H in A. congruence.
Qed.
Lemma digits_no_sep : forall d a b, all_digits d = true -> d <> (a ++ String "_" b)%string.
Proof.
  intros d a. revert d. induction a as [|c a IH]; intros d b D H; subst; simpl in D.
  - discriminate.
  - apply andb_prop in D as [_ D]. exact (IH _ _ D eq_refl).
Qed.
Lemma suffix_inj : forall a b d1 d2, all_digits d1 = true -> all_digits d2 = true ->
  (a ++ "__" ++ d1 = b ++ "__" ++ d2)%string -> a = b /\ d1 = d2.
Proof.
  induction a as [|x a IH]; intros b d1 d2 D1 D2 H.
  - destruct b as [|y [|z b]]; simpl in H.
    + split; congruence.
    + injection H as _ H. exfalso. subst d1. simpl in D1. discriminate.
    + injection H as _ _ H. exfalso. exact (digits_no_sep b ("_" ++ d2)%string D1 H).
  - destruct b as [|y b]; simpl in H.
    + destruct a as [|z a]; simpl in H.
      * injection H as _ H. exfalso. subst d2. simpl in D2. discriminate.
      * injection H as _ _ H. exfalso. symmetry in H. exact (digits_no_sep a ("_" ++ d1)%string D2 H).
    + injection H as -> H. destruct (IH _ _ _ D1 D2 H); subst; auto.
Qed.
Lemma short_key_inj : forall p n1 n2 i j, short_key p n1 i = short_key p n2 j -> n1 = n2 /\ i = j.
Proof.
  intros p n1 n2 i j H. unfold short_key in H. apply sapp_inj in H. injection H as H.
  destruct (dec_number i), (dec_number j). apply suffix_inj in H as [-> H]; auto. split; auto. now apply dec_inj.
Qed.

(** ** The loop *)
Section Loop.
Variable one : nat -> string -> pv -> option dict -> res (string * dict).
Fixpoint outs (ii : nat) (adict : dict) (st : option dict) : res (list (string * dict)) :=
  match adict with
  | [] => Ok []
  | (key, conf) :: adict =>
      do kc <- one ii key conf st;
      do o <- outs (S ii) adict (Some (snd kc));
      Ok (kc :: o)
  end.
Lemma loop_outs : forall adict ii st d2, transform_loop one ii adict st d2 = do o <- outs ii adict st; Ok (update_items d2 o).
Proof.
  induction adict as [|[key conf] adict IH]; intros ii st d2; simpl; auto.
  destruct (one ii key conf st) as [kc|]; simpl; auto. rewrite IH.
  destruct (outs (S ii) adict (Some (snd kc))); reflexivity.
Qed.
Lemma update_app : forall (o d : list (string * dict)), NoDup (map fst (d ++ o)) -> update_items d o = d ++ o.
Proof.
  unfold update_items. induction o as [|[k c] o IH]; intros d N; simpl; [now rewrite app_nil_r|].
  assert (F : ~ In k (map fst d)).
  { rewrite map_app in N. simpl in N. apply NoDup_remove_2 in N. intros I; apply N, in_or_app; auto. }
  rewrite store_fresh by auto. rewrite IH; rewrite <- app_assoc; auto.
Qed.
Lemma outs_nth : forall adict ii st o i key conf, outs ii adict st = Ok o -> nth_error adict i = Some (key, conf) ->
  exists st' r, one (ii + i) key conf st' = Ok r /\ nth_error o i = Some r.
Proof.
  induction adict as [|[key conf] adict IH]; intros ii st o i k c H N; [destruct i; discriminate|].
  simpl in H. destruct (one ii key conf st) as [kc|] eqn:E; [|discriminate]. simpl in H.
  destruct (outs (S ii) adict (Some (snd kc))) as [o'|] eqn:E2; [|discriminate]. injection H as <-.
  destruct i as [|i].
  - simpl in N. injection N as -> ->. exists st, kc. rewrite Nat.add_0_r. auto.
  - simpl in N. destruct (IH _ _ _ _ _ _ E2 N) as (st' & r & A & B). exists st', r.
    rewrite <- plus_n_Sm. auto.
Qed.
Lemma outs_length : forall adict ii st o, outs ii adict st = Ok o -> length o = length adict.
Proof.
  induction adict as [|[key conf] adict IH]; intros ii st o H; simpl in H; [injection H as <-; auto|].
  destruct (one ii key conf st) as [kc|] eqn:E; [|discriminate]. simpl in H.
  destruct (outs (S ii) adict (Some (snd kc))) as [o'|] eqn:E2; [|discriminate]. injection H as <-. simpl. f_equal. eauto.
Qed.
End Loop.

(** The keys of the entries. *)
Ltac dres H := repeat (match type of H with
  | context [bind ?x _] => let E := fresh "E" in destruct x eqn:E; cbn [bind] in H; [|discriminate H]
  end).
Lemma short_shape : forall p ii c2 r, short p ii c2 = Ok r -> exists n, fst r = short_key p n ii /\ snd r = c2 /\ lookup c2 "name" = Some (VStr n).
Proof.
  intros p ii c2 r H. unfold short, str_attr, attr in H.
  destruct (lookup c2 "name") as [[| |s| | | |]|] eqn:E; try discriminate. cbn [bind] in H. injection H as <-.
  exists s. auto.
Qed.
Lemma long_shape : forall p conf r, long_one p conf = Ok r -> exists d n, conf = VDict d /\ lookup d "name" = Some (VStr n) /\ r = (long_key p n, d).
Proof.
  intros p conf r H. unfold long_one, to_struct_1, str_attr, attr in H. destruct conf; try discriminate.
  cbn [bind] in H. destruct (lookup d "name") as [[| |s| | | |]|] eqn:E; try discriminate. cbn [bind] in H. injection H as <-. exists d, s. auto.
Qed.
Definition is_long (v : pv) : bool := match v with VDict _ => true | _ => false end.
Lemma set_default_lookup : forall d k v k', k <> k' -> lookup (set_default d k v) k' = lookup d k'.
Proof.
  intros d k v k' E. unfold set_default. destruct (lookup d k); auto. rewrite lookup_store.
  apply String.eqb_neq in E. now rewrite E.
Qed.
Lemma set_default_some : forall d k v k' w, lookup d k' = Some w -> lookup (set_default d k v) k' = Some w.
Proof.
  intros d k v k' w E. unfold set_default. destruct (lookup d k) eqn:L; auto. rewrite lookup_store.
  destruct (String.eqb_spec k k'); congruence.
Qed.
Lemma conv_dtype_lookup : forall d k, k <> "dtype"%string -> lookup (conv_dtype d) k = lookup d k.
Proof.
  intros d k E. assert (F : String.eqb "dtype" k = false) by (apply String.eqb_neq; congruence).
  unfold conv_dtype. destruct (lookup d "dtype") as [[]|]; auto.
  destruct (String.eqb s "real"), (String.eqb s "complex"); rewrite ?lookup_store, ?F; auto.
Qed.
Lemma long_entry : forall k ii key d st r, one_of k ii key (VDict d) st = Ok r ->
  exists n, lookup d "name" = Some (VStr n) /\ fst r = long_key (prefix_of k) n /\
    forall a v, lookup d a = Some v -> a <> "dtype"%string \/ k <> KField -> lookup (snd r) a = Some v.
Proof.
  intros k ii key d st r H.
  assert (G : long_one (prefix_of k) (VDict d) = Ok r -> exists n, lookup d "name" = Some (VStr n) /\ fst r = long_key (prefix_of k) n /\
    forall a v, lookup d a = Some v -> a <> "dtype"%string \/ k <> KField -> lookup (snd r) a = Some v).
  { intros L. apply long_shape in L as (d' & n & E & L & ->). injection E as <-. exists n; auto. }
  destruct k; try (exact (G H)); clear G.
  - simpl in H. unfold str_attr, attr in H.
    rewrite !set_default_lookup in H by discriminate.
    destruct (lookup d "name") as [[]|] eqn:E; try discriminate. injection H as <-. exists s. repeat split; auto.
    intros a v L _. cbn [snd]. now apply set_default_some, set_default_some.
  - simpl in H. unfold str_attr, attr in H.
    rewrite conv_dtype_lookup, set_default_lookup in H by discriminate.
    destruct (lookup d "name") as [[]|] eqn:E; try discriminate. injection H as <-. exists s. repeat split; auto.
    intros a v L [N|N]; [|congruence]. cbn [snd]. rewrite conv_dtype_lookup by auto. now apply set_default_some.
Qed.
Lemma short_entry : forall k ii key conf st r, is_long conf = false -> one_of k ii key conf st = Ok r ->
  exists n, fst r = short_key (prefix_of k) n ii /\ lookup (snd r) "name" = Some (VStr n).
Proof.
  intros k ii key conf st r L H.
  assert (G : forall c2, short (prefix_of k) ii c2 = Ok r -> exists n, fst r = short_key (prefix_of k) n ii /\ lookup (snd r) "name" = Some (VStr n)).
  { intros c2 S1. apply short_shape in S1 as (n & A & -> & B). eauto. }
  assert (G2 : long_one (prefix_of k) conf = Ok r -> False).
  { intros S1. apply long_shape in S1 as (d & n & -> & _). discriminate. }
  destruct k, conf; try discriminate L; try (exfalso; exact (G2 H)); try discriminate H; try (exact (G _ H)).
  - cbn [one_of one_variable] in H. dres H. exact (G _ H).
  - cbn [one_of one_lcbc] in H. destruct (Nat.leb 4 (length l)); [|discriminate]. exact (G _ H).
  - cbn [one_of one_integral] in H. destruct l as [|x [|y [|z [|? ?]]]]; try (exact (G _ H)); (destruct st; [exact (G _ H)|discriminate]).
  - cbn [one_of one_field] in H. dres H. exact (G _ H).
  - cbn [one_of one_solver] in H. dres H. destruct a; try discriminate. exact (G _ H).
Qed.

Lemma nth_none : forall A (l : list A) i, nth_error l i = None -> length l <= i.
Proof. intros. now apply nth_error_None. Qed.
Lemma long_names_in : forall adict i key d n, nth_error adict i = Some (key, VDict d) -> lookup d "name" = Some (VStr n) -> In n (long_names adict).
Proof.
  intros adict i key d n H L. unfold long_names. apply in_flat_map. exists (key, VDict d). split; [now apply nth_error_In in H|].
  cbn [snd]. rewrite L. simpl; auto.
Qed.
Lemma long_names_nodup : forall adict i j ki kj di dj n, NoDup (long_names adict) ->
  nth_error adict i = Some (ki, VDict di) -> nth_error adict j = Some (kj, VDict dj) ->
  lookup di "name" = Some (VStr n) -> lookup dj "name" = Some (VStr n) -> i = j.
Proof.
  induction adict as [|[k v] adict IH]; intros i j ki kj di dj n N Hi Hj Li Lj; [destruct i; discriminate|].
  unfold long_names in N. simpl in N.
  destruct i as [|i], j as [|j]; auto; simpl in Hi, Hj.
  - injection Hi as -> ->. rewrite Li in N. simpl in N. inversion N; subst. exfalso; apply H1. exact (long_names_in _ _ Hj Lj).
  - injection Hj as -> ->. rewrite Lj in N. simpl in N. inversion N; subst. exfalso; apply H1. exact (long_names_in _ _ Hi Li).
  - f_equal. apply (IH i j ki kj di dj n); auto. destruct v as [| | | | |d|d]; try exact N.
    destruct (lookup d "name") as [[]|]; try exact N. simpl in N. inversion N; auto.
Qed.

Lemma keys_nodup : forall k adict o, no_clash adict -> outs (one_of k) 0 adict None = Ok o -> NoDup (map fst o).
Proof.
  intros k adict o [C1 C2] H.
  apply NoDup_nth_error. intros i j Hi E.
  rewrite map_length in Hi.
  assert (A : forall i r, nth_error o i = Some r -> exists key conf st, nth_error adict i = Some (key, conf) /\ one_of k i key conf st = Ok r).
  { intros i' r N. assert (i' < length o) by (apply nth_error_Some; congruence).
    rewrite (outs_length _ _ _ _ H) in H0. apply nth_error_Some in H0.
    destruct (nth_error adict i') as [[key conf]|] eqn:N2; [|congruence].
    destruct (outs_nth _ _ _ _ _ H N2) as (st' & r' & B & D). rewrite N in D. injection D as <-. simpl in B. eauto 6. }
  rewrite !nth_error_map in E.
  destruct (nth_error o i) as [ri|] eqn:Ni; [|apply nth_none in Ni; lia].
  destruct (nth_error o j) as [rj|] eqn:Nj; [|discriminate].
  simpl in E. injection E as E.
  destruct (A _ _ Ni) as (ki & ci & si & Ai & Bi). destruct (A _ _ Nj) as (kj & cj & sj & Aj & Bj).
  assert (X : forall n1 n2 ii, short_key (prefix_of k) n1 ii = long_key (prefix_of k) n2 -> In n2 (long_names adict) -> False).
  { intros n1 n2 ii X I. unfold short_key, long_key in X. apply sapp_inj in X. injection X as X.
    apply (C2 n2 n1 (dec ii) I (dec_number ii)). auto. }
  destruct (is_long ci) eqn:Li, (is_long cj) eqn:Lj.
  - destruct ci; try discriminate. destruct cj; try discriminate.
    destruct (long_entry k _ _ _ _ Bi) as (ni & L1 & F1 & _). destruct (long_entry k _ _ _ _ Bj) as (nj & L2 & F2 & _).
    rewrite F1, F2 in E. unfold long_key in E. apply sapp_inj in E. injection E as E. subst nj.
    exact (long_names_nodup _ _ _ C1 Ai Aj L1 L2).
  - destruct ci; try discriminate. exfalso.
    destruct (long_entry k _ _ _ _ Bi) as (ni & L1 & F1 & _). destruct (short_entry k _ _ _ _ Lj Bj) as (nj & F2 & _).
    rewrite F1, F2 in E. symmetry in E. exact (X _ _ _ E (long_names_in _ _ Ai L1)).
  - destruct cj; try discriminate. exfalso.
    destruct (short_entry k _ _ _ _ Li Bi) as (ni & F1 & _). destruct (long_entry k _ _ _ _ Bj) as (nj & L2 & F2 & _).
    rewrite F1, F2 in E. exact (X _ _ _ E (long_names_in _ _ Aj L2)).
  - destruct (short_entry k _ _ _ _ Li Bi) as (ni & F1 & _). destruct (short_entry k _ _ _ _ Lj Bj) as (nj & F2 & _).
    rewrite F1, F2 in E. now apply short_key_inj in E as [_ E].
Qed.
Lemma transform_outs : forall k adict d2, no_clash adict -> transform_of k adict = Ok d2 ->
  outs (one_of k) 0 adict None = Ok d2.
Proof.
  intros k adict d2 C H. unfold transform_of, transform in H. rewrite loop_outs in H.
  destruct (outs (one_of k) 0 adict None) as [o|] eqn:E; [|discriminate]. injection H as <-. f_equal.
  rewrite update_app; auto. simpl. exact (keys_nodup _ C E).
Qed.

(** Nothing is lost and the order is kept: the [i]-th item of the configuration is made
    from the [i]-th entry alone, except for what a previous entry left in [c2]. *)
Theorem C194_nothing_lost : forall k adict d2, no_clash adict -> transform_of k adict = Ok d2 ->
  length d2 = length adict /\
  forall i key conf, nth_error adict i = Some (key, conf) ->
  exists key' c2, nth_error d2 i = Some (key', c2) /\
    match conf with
    | VDict d => forall a v, lookup d a = Some v -> a <> "dtype"%string \/ k <> KField -> lookup c2 a = Some v
    | _ => exists n, lookup c2 "name" = Some (VStr n) /\ key' = short_key (prefix_of k) n i
    end.
Proof.
  intros k adict d2 C H. pose proof (transform_outs _ C H) as O. split; [exact (outs_length _ _ _ _ O)|].
  intros i key conf N. destruct (outs_nth _ _ _ _ _ O N) as (st & [key' c2] & A & B). simpl in A. exists key', c2. split; auto.
  destruct (is_long conf) eqn:L.
  - destruct conf; try discriminate. destruct (long_entry k _ _ _ _ A) as (n & _ & _ & F). exact F.
  - destruct (short_entry k _ _ _ _ L A) as (n & F & G). simpl in F, G. destruct conf; try discriminate; eauto.
Qed.
Theorem C194_keys_distinct : forall k adict d2, no_clash adict -> transform_of k adict = Ok d2 -> NoDup (map fst d2).
Proof. intros k adict d2 C H. exact (keys_nodup _ C (transform_outs _ C H)). Qed.

(** Entries in the short syntax never clash. *)
Theorem C194_short_only : forall adict, List.Forall (fun p => is_long (snd p) = false) adict -> no_clash adict.
Proof.
  intros adict F. assert (long_names adict = []) as E.
  { induction F as [|[k v] adict A F IH]; auto. unfold long_names. simpl. destruct v; try discriminate A; exact IH. }
  split; rewrite E; [constructor|]. intros n b d [].
Qed.

Theorem C194_same_name_refuted : exists adict d2, transform_of KRegion adict = Ok d2 /\ length adict = 2 /\ length d2 = 1.
Proof.
  exists [("region_1", VDict [("name", VStr "Omega"); ("select", VStr "all")]);
          ("region_2", VDict [("name", VStr "Omega"); ("select", VStr "cells of group 1")])]%string.
  eexists. split; [vm_compute; reflexivity|]. auto.
Qed.
Theorem C194_suffix_clash_refuted : exists adict d2, transform_of KRegion adict = Ok d2 /\ NoDup (long_names adict) /\
  length adict = 2 /\ get_item_by_name d2 "Omega" = None /\ In "Omega"%string (map fst adict).
Proof.
  exists [("Omega", VStr "all"); ("x", VDict [("name", VStr "Omega__0"); ("select", VStr "cells of group 1")])]%string.
  eexists. split; [vm_compute; reflexivity|]. repeat split; simpl; auto. repeat constructor; simpl; tauto.
Qed.

Example C194_ex : let adict := [("u", VTup [VStr "unknown field"; VStr "displacement"; VInt 0]);
    ("variable_2", VDict [("name", VStr "v"); ("kind", VStr "test field"); ("dual", VStr "u")])]%string in
  no_clash adict /\ exists d2, transform_of KVar adict = Ok d2.
Proof.
  intros adict. split; [|eexists; vm_compute; reflexivity]. split; simpl; [repeat constructor; simpl; tauto|].
  intros n b d [<-|[]] [D1 D2] H. destruct b as [|c [|? b]]; simpl in H; try discriminate.
Qed.
Print Assumptions C194_nothing_lost.
Print Assumptions C194_short_only.
