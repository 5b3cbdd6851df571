(** C191, C192: containers of named objects. *)
From Coq Require Import String.
From Verif Require Import Base M_cont.
Set Implicit Arguments.
Open Scope nat_scope.

Section Proofs.
Variable X : Type.
Notation obj := (string * X)%type.
Implicit Types c : cont X.
Definition consistent c : Prop := names c = map fst (objs c).

Lemma index_some : forall l s i, index l s = Some i <-> nth_error l i = Some s /\ forall j, j < i -> nth_error l j <> Some s.
Proof.
  induction l as [|x l IH]; intros s i; cbn [index]; [split; [discriminate|intros (H & _); destruct i; discriminate]|].
  destruct (String.eqb_spec x s) as [->|NE].
  - split; [intros H; injection H as <-; split; auto; intros; lia|]. intros (H & F). destruct i as [|i]; auto. elim (F 0 ltac:(lia)); auto.
  - split.
    + destruct (index l s) as [j|] eqn:E; [|discriminate]. cbn. intros H. injection H as <-. apply IH in E. destruct E as (A & B). split; auto. intros [|k] K; cbn; [congruence|apply B; lia].
    + intros (A & B). destruct i as [|i]; [cbn in A; congruence|]. cbn in A. assert (E : index l s = Some i) by (apply IH; split; auto; intros j J; apply (B (S j)); lia). rewrite E. reflexivity.
Qed.
Lemma index_none : forall l s, index l s = None <-> ~ In s l.
Proof.
  induction l as [|x l IH]; intros s; cbn [index In]; [tauto|]. destruct (String.eqb_spec x s) as [->|NE]; [split; [discriminate|tauto]|].
  destruct (index l s) as [j|] eqn:E; cbn [option_map].
  - split; [discriminate|]. intros N. exfalso. apply N. right. apply index_some in E. destruct E as (E & _). eapply nth_error_In; eauto.
  - split; auto. intros _ [Q|Q]; [contradiction|]. apply (proj1 (IH s) E Q).
Qed.
Lemma index_lt : forall l s i, index l s = Some i -> i < length l.
Proof. intros l s i H. apply index_some in H. destruct H as (H & _). apply nth_error_Some. congruence. Qed.
Lemma py_index_spec : forall n i j, py_index n i = Some j <-> (j < n /\ (i = Z.of_nat j \/ i = Z.of_nat j - Z.of_nat n)%Z).
Proof.
  intros n i j. unfold py_index. destruct (Z.ltb_spec i 0).
  - destruct (Z.leb_spec 0 (i + Z.of_nat n)), (Z.ltb_spec (i + Z.of_nat n) (Z.of_nat n)); cbn [andb]; (split; [intros Q; try discriminate; injection Q as <-; lia|intros Q; try (exfalso; lia); f_equal; lia]).
  - destruct (Z.leb_spec 0 i), (Z.ltb_spec i (Z.of_nat n)); cbn [andb]; (split; [intros Q; try discriminate; injection Q as <-; lia|intros Q; try (exfalso; lia); f_equal; lia]).
Qed.
Lemma map_upd : forall (l : list obj) i o, map fst (upd l i o) = upd (map fst l) i (fst o).
Proof. induction l as [|x l IH]; intros [|i] o; cbn; auto. rewrite IH. reflexivity. Qed.
Lemma map_py_insert : forall (l : list obj) i o, map fst (py_insert l i o) = py_insert (map fst l) i (fst o).
Proof. intros. unfold py_insert. rewrite map_app, map_cons, map_length, firstn_map, skipn_map. reflexivity. Qed.

Lemma set_key_consistent : forall c k o c', consistent c -> set_key c k o = Ok c' -> consistent c'.
Proof.
  intros c k o c' H E. unfold set_key in E.
  assert (P : forall ii, (if (Z.of_nat (length (names c)) <=? ii)%Z then Ok (Cont (objs c ++ [o]) (names c ++ [fst o])) else match py_index (length (objs c)) ii, py_index (length (names c)) ii with
         | Some i, Some j => Ok (Cont (upd (objs c) i o) (upd (names c) j (fst o))) | _, _ => Err IndexError end) = Ok c' -> consistent c').
  { intros ii Q. unfold consistent in H. rewrite !H in Q. match type of Q with (if ?b then _ else _) = _ => destruct b end; [injection Q as <-; unfold consistent; cbn; rewrite map_app; reflexivity|].
    rewrite map_length in Q. destruct (py_index (length (objs c)) ii); [|discriminate]. injection Q as <-. unfold consistent. cbn. rewrite map_upd. reflexivity. }
  destruct k as [i|n]; [apply (P i); auto|]. destruct (index (names c) n); apply (P _ E).
Qed.
Lemma extend_consistent : forall l c c', consistent c -> extend c l = Ok c' -> consistent c'.
Proof.
  induction l as [|o l IH]; intros c c' H E; [injection E as <-; auto|]. cbn [extend] in E. destruct (append c o) as [c1|] eqn:EA; [|discriminate]. cbn [bind] in E. unfold append in EA. eapply IH; [|exact E]. eapply set_key_consistent; eauto.
Qed.
Lemma apply_consistent : forall c p c', consistent c -> apply_op c p = Ok c' -> consistent c'.
Proof.
  intros c p c' H E. destruct p; cbn [apply_op] in E.
  - eapply set_key_consistent; eauto.
  - injection E as <-. unfold consistent, insert. cbn. rewrite map_py_insert, H. reflexivity.
  - unfold append in E; eapply set_key_consistent; eauto.
  - eapply extend_consistent; eauto.
  - unfold iadd in E. destruct extend; [|discriminate]. injection E as <-. reflexivity.
  - unfold iadd in E. destruct extend; [|discriminate]. injection E as <-. reflexivity.
  - unfold remove_name in E. destruct index as [i|]; [|discriminate]. match type of E with Ok ?a = Ok ?b => assert (Q : a = b) by congruence; rewrite <- Q end. unfold consistent in *. cbn [names objs]. rewrite map_app, H, firstn_map, skipn_map. reflexivity.
Qed.
(** The list of names is that of the objects after any operations, starting with an empty
    container or a list of objects. *)
Theorem C191_names : forall (l0 : list obj) ops, names (run (from_objs l0) ops) = map fst (objs (run (from_objs l0) ops)).
Proof.
  intros l0 ops. assert (G : forall ops c, consistent c -> consistent (run c ops)); [|apply G; reflexivity].
  clear. induction ops as [|p ops IH]; intros c H; cbn [run]; auto. apply IH. destruct (apply_op c p) eqn:E; auto. eapply apply_consistent; eauto.
Qed.
(** An item given by a name is the first object with the name; given by an index it is
    the item of the list. *)
Theorem C191_lookup : forall c n o, names c = map fst (objs c) -> get_key c (Name n) = Ok o <->
  exists i, nth_error (objs c) i = Some o /\ fst o = n /\ forall j o', j < i -> nth_error (objs c) j = Some o' -> fst o' <> n.
Proof.
  intros c n o H. unfold get_key. rewrite H. split.
  - destruct (index (map fst (objs c)) n) as [i|] eqn:E; [|discriminate]. cbn [option_map]. assert (L := index_lt _ _ E). rewrite map_length in L.
    replace (py_index (length (objs c)) (Z.of_nat i)) with (Some i) by (symmetry; apply py_index_spec; split; auto). destruct (nth_error (objs c) i) as [o'|] eqn:EN; [|discriminate]. intros Q. injection Q as ->.
    apply index_some in E. destruct E as (A & B). exists i. split; auto. split.
    + rewrite (map_nth_error fst _ _ EN) in A. congruence.
    + intros j o' J EJ F. apply (B j J). rewrite (map_nth_error fst _ _ EJ). congruence.
  - intros (i & A & B & C). assert (E : index (map fst (objs c)) n = Some i).
    { apply index_some. split; [rewrite (map_nth_error fst _ _ A); congruence|]. intros j J F. assert (L : j < length (objs c)) by (apply nth_error_Some; intros N; assert (i < length (objs c)) by (apply nth_error_Some; congruence); apply nth_error_None in N; lia).
      destruct (nth_error (objs c) j) as [o'|] eqn:EJ; [|apply nth_error_None in EJ; lia]. rewrite (map_nth_error fst _ _ EJ) in F. injection F as F. exact (C j o' J EJ F). }
    rewrite E. cbn [option_map]. assert (L : i < length (objs c)) by (apply nth_error_Some; congruence). replace (py_index (length (objs c)) (Z.of_nat i)) with (Some i) by (symmetry; apply py_index_spec; split; auto). rewrite A. reflexivity.
Qed.
Theorem C191_has_key : forall c k, names c = map fst (objs c) -> has_key c k = true <-> exists o, get_key c k = Ok o.
Proof.
  intros c k H. destruct k as [i|n].
  - cbn [has_key get_key]. rewrite andb_true_iff, Z.ltb_lt, Z.leb_le. split.
    + intros (A & B). assert (exists j, py_index (length (objs c)) i = Some j) as [j E].
      { exists (Z.to_nat (if (i <? 0)%Z then i + Z.of_nat (length (objs c)) else i)). apply py_index_spec. destruct (Z.ltb_spec i 0); lia. }
      rewrite E. apply py_index_spec in E. destruct (nth_error (objs c) j) eqn:EN; eauto. apply nth_error_None in EN. lia.
    + intros (o & E). destruct (py_index (length (objs c)) i) as [j|] eqn:EP; [|discriminate]. apply py_index_spec in EP. lia.
  - unfold has_key, get_key. destruct (index (names c) n) as [i|] eqn:E; cbn [option_map]; [|split; [discriminate|intros (o & Q); discriminate]]. split; auto. intros _. cbn [option_map].
    assert (L := index_lt _ _ E). rewrite H, map_length in L. replace (py_index (length (objs c)) (Z.of_nat i)) with (Some i) by (symmetry; apply py_index_spec; split; auto).
    destruct (nth_error (objs c) i) eqn:EN; eauto. apply nth_error_None in EN. lia.
Qed.
Theorem C191_get : forall c k d msg, get c k d msg = match get_key c k with Ok o => Ok o | Err _ => match d with Some o => Ok o | None => if msg then Err ValueError else Err IndexError end end.
Proof.
  intros. unfold get. destruct (get_key c k) as [o|e] eqn:E; auto. destruct d; auto. destruct msg; auto. f_equal. unfold get_key in E.
  destruct (match k with Idx i => _ | Name n => _ end); [|congruence]. destruct py_index; [|congruence]. destruct nth_error; congruence.
Qed.

(** ** C192: a mapping from names to objects, if the names are used consistently. *)
Definition value c (n : string) : option obj := find (fun o => String.eqb (fst o) n) (objs c).
Lemma find_nth : forall (l : list obj) n o, find (fun o => String.eqb (fst o) n) l = Some o <-> exists i, nth_error l i = Some o /\ fst o = n /\ forall j o', j < i -> nth_error l j = Some o' -> fst o' <> n.
Proof.
  induction l as [|x l IH]; intros n o; cbn [find]; [split; [discriminate|intros (i & H & _); destruct i; discriminate]|].
  destruct (String.eqb_spec (fst x) n) as [E|NE].
  - split; [intros H; injection H as ->; exists 0; repeat split; auto; intros; lia|]. intros (i & A & B & C). destruct i as [|i]; [cbn in A; congruence|]. elim (C 0 x ltac:(lia) eq_refl E).
  - rewrite IH. split.
    + intros (i & A & B & C). exists (S i). repeat split; auto. intros [|j] o' J EJ; [cbn in EJ; congruence|]. apply (C j); auto. lia.
    + intros (i & A & B & C). destruct i as [|i]; [cbn in A; congruence|]. exists i. repeat split; auto. intros j o' J EJ. apply (C (S j)); auto. lia.
Qed.
Lemma get_value : forall c n, consistent c -> get_key c (Name n) = match value c n with Some o => Ok o | None => Err IndexError end.
Proof.
  intros c n H. destruct (value c n) as [o|] eqn:E.
  - apply C191_lookup; auto. apply find_nth; auto.
  - destruct (get_key c (Name n)) as [o|e] eqn:G.
    + apply C191_lookup in G; auto. apply find_nth in G. unfold value in E. congruence.
    + unfold get_key in G. destruct (option_map _ _); [|congruence]. destruct py_index; [|congruence]. destruct nth_error; congruence.
Qed.
Lemma find_upd : forall (l : list obj) i (o : obj) n m, nth_error (map fst l) i = Some n -> (forall j, j < i -> nth_error (map fst l) j <> Some n) -> fst o = n ->
  find (fun o => String.eqb (fst o) m) (upd l i o) = if String.eqb n m then Some o else find (fun o => String.eqb (fst o) m) l.
Proof.
  induction l as [|x l IH]; intros i o n m A B F; [destruct i; discriminate|]. destruct i as [|i]; cbn [upd find].
  - cbn in A. injection A as A. rewrite F, A. destruct (String.eqb n m); auto.
  - assert (NX : fst x <> n) by (intros Q; apply (B 0); [lia|cbn; congruence]). rewrite (IH i o n m); auto; [|intros j J; apply (B (S j)); lia].
    destruct (String.eqb_spec (fst x) m) as [E|]; auto. destruct (String.eqb_spec n m); [congruence|auto].
Qed.
(** c[n] = o for an object named n: only the value of n changes. *)
Theorem C192_set : forall c n (o : obj) c', names c = map fst (objs c) -> fst o = n -> set_key c (Name n) o = Ok c' ->
  (forall m, get_key c' (Name m) = if String.eqb n m then Ok o else get_key c (Name m)) /\ (NoDup (names c) -> NoDup (names c')).
Proof.
  intros c n o c' H F E. assert (H' := set_key_consistent _ _ H E). unfold set_key in E. destruct (index (names c) n) as [i|] eqn:EI.
  - assert (L := index_lt _ _ EI). replace (Z.leb _ _) with false in E by (symmetry; apply Z.leb_gt; lia). assert (L2 : i < length (objs c)) by (rewrite H, map_length in L; auto).
    assert (P1 : py_index (length (objs c)) (Z.of_nat i) = Some i) by (apply py_index_spec; split; auto). assert (P2 : py_index (length (names c)) (Z.of_nat i) = Some i) by (apply py_index_spec; split; auto).
    rewrite P1, P2 in E. injection E as <-. apply index_some in EI. destruct EI as (A & B). split.
    + intros m. rewrite !get_value by auto. unfold value. cbn [objs]. rewrite H in A, B. rewrite (@find_upd (objs c) i o n m A B F). destruct (String.eqb n m); auto.
    + intros ND. cbn [names]. replace (upd (names c) i (fst o)) with (names c); auto. rewrite F. clear -A. revert i A. induction (names c) as [|x l IH]; intros [|i] A; cbn in *; try discriminate; [injection A as ->; auto|f_equal; auto].
  - replace (Z.leb _ _) with true in E by (symmetry; apply Z.leb_le; lia). injection E as <-. apply index_none in EI. split.
    + intros m. rewrite !get_value by auto. unfold value. cbn [objs].
      assert (G : forall l, find (fun o => String.eqb (fst o) m) (l ++ [o]) = match find (fun o => String.eqb (fst o) m) l with Some x => Some x | None => if String.eqb n m then Some o else None end).
      { clear -F. induction l as [|x l IH]; cbn [app find]; [rewrite F; destruct (String.eqb n m); auto|]. destruct (String.eqb (fst x) m); auto. }
      rewrite G. clear G. destruct (String.eqb_spec n m) as [NM|NM]; [subst m|].
      * destruct (find (fun o => String.eqb (fst o) n) (objs c)) as [x|] eqn:Q; auto. exfalso. apply find_some in Q. destruct Q as (Q1 & Q2). apply String.eqb_eq in Q2. apply EI. rewrite H. apply in_map_iff. exists x. auto.
      * destruct find; auto.
    + intros ND. cbn [names]. rewrite F. apply NoDup_rev in ND. rewrite <- (rev_involutive (names c ++ [n])). apply NoDup_rev. rewrite rev_app_distr. cbn. constructor; auto. rewrite <- in_rev. auto.
Qed.
(** Removing: the name is gone (if the names differ), the others are kept. *)
Theorem C192_remove : forall c n c', names c = map fst (objs c) -> NoDup (names c) -> remove_name c n = Ok c' ->
  (forall m, get_key c' (Name m) = if String.eqb n m then Err IndexError else get_key c (Name m)) /\ NoDup (names c').
Proof.
  intros c n c' H ND E. assert (H' : consistent c') by (apply (@apply_consistent c (Remove X n)); auto). unfold remove_name in E. destruct (index (names c) n) as [i|] eqn:EI; [|discriminate].
  apply index_some in EI. destruct EI as (A & B). match type of E with Ok ?a = Ok ?b => assert (Q : a = b) by congruence; subst b end. rewrite H in A, ND. split.
  - intros m. rewrite !get_value by auto. unfold value. cbn [objs].
    assert (G : forall l i, NoDup (map fst l) -> nth_error (map fst l) i = Some n -> find (fun o : obj => String.eqb (fst o) m) (firstn i l ++ skipn (S i) l) = if String.eqb n m then None else find (fun o => String.eqb (fst o) m) l).
    { clear. induction l as [|x l IH]; intros i N A; [destruct i; discriminate|]. cbn [map] in N. inversion N as [|? ? NI N']; subst. destruct i as [|i].
      - cbn in A. injection A as A. cbn [firstn skipn app find]. rewrite A in NI. rewrite A. destruct (String.eqb_spec n m) as [<-|]; auto.
        destruct (find (fun o => String.eqb (fst o) n) l) as [y|] eqn:Q; auto. exfalso. apply find_some in Q. destruct Q as (Q1 & Q2). apply String.eqb_eq in Q2. apply NI. apply in_map_iff. exists y. auto.
      - change (firstn (S i) (x :: l) ++ skipn (S (S i)) (x :: l)) with (x :: firstn i l ++ skipn (S i) l). cbn [find]. rewrite (IH i) by auto.
        destruct (String.eqb_spec (fst x) m) as [Q|]; auto. destruct (String.eqb_spec n m); auto. exfalso. apply NI. rewrite Q, <- e. cbn in A. eapply nth_error_In; eauto. }
    rewrite G by auto. destruct (String.eqb n m); auto.
  - unfold consistent in H'. rewrite H'. cbn [objs]. clear -A ND. revert i A. induction (objs c) as [|x l IH]; intros i A; [destruct i; discriminate|]. cbn [map] in ND. inversion ND as [|? ? NI N']; subst. destruct i as [|i].
    + cbn [firstn skipn app]. auto.
    + change (firstn (S i) (x :: l) ++ skipn (S (S i)) (x :: l)) with (x :: firstn i l ++ skipn (S i) l). cbn [map]. constructor; [|apply IH; auto].
      intros I. apply NI. rewrite in_map_iff in *. destruct I as (y & Q & I). exists y. split; auto. apply in_app_or in I. destruct I as [I|I]; [rewrite <- (firstn_skipn i l); apply in_or_app; auto|rewrite <- (firstn_skipn (S i) l); apply in_or_app; auto].
Qed.
(** The dictionary made of a container with distinct names has its items. *)
Theorem C192_as_dict : forall c n, names c = map fst (objs c) -> NoDup (names c) -> as_dict c n = match get_key c (Name n) with Ok o => Some o | Err _ => None end.
Proof.
  intros c n H ND. rewrite get_value by auto. unfold as_dict, value. rewrite H in ND.
  assert (G : forall l d, NoDup (map fst l) -> fold_left (fun d (o : obj) => if String.eqb (fst o) n then Some o else d) l d = match find (fun o => String.eqb (fst o) n) l with Some o => Some o | None => d end).
  { clear. induction l as [|x l IH]; intros d N; cbn [fold_left find]; auto. cbn [map] in N. inversion N as [|? ? NI N']; subst. rewrite IH by auto. destruct (String.eqb_spec (fst x) n) as [E|]; auto.
    destruct (find (fun o => String.eqb (fst o) n) l) as [y|] eqn:Q; auto. exfalso. apply find_some in Q. destruct Q as (Q1 & Q2). apply String.eqb_eq in Q2. apply NI. apply in_map_iff. exists y. split; auto. congruence. }
  rewrite G by auto. destruct find; auto.
Qed.
(** Adding a container to itself doubles it; a sum has the objects of both in order. *)
Lemma extend_ok : forall l c, consistent c -> extend c l = Ok (from_objs (objs c ++ l)).
Proof.
  induction l as [|o l IH]; intros c H; cbn [extend].
  - rewrite app_nil_r. f_equal. unfold from_objs. destruct c. unfold consistent in H. cbn in *. congruence.
  - unfold append, set_key. rewrite Z.leb_refl. cbn [bind]. rewrite IH by (unfold consistent; cbn; rewrite H, map_app; reflexivity). cbn [objs]. rewrite <- app_assoc. reflexivity.
Qed.
Theorem C192_sums : forall c d, names c = map fst (objs c) ->
  iadd c d = Ok (from_objs (objs c ++ objs d)) /\ iadd c c = Ok (from_objs (objs c ++ objs c)) /\ add c d = from_objs (objs c ++ objs d).
Proof. intros c d H. unfold iadd. rewrite !extend_ok by auto. cbn [bind objs from_objs]. auto. Qed.
End Proofs.

(** An object stored under a name that is not its own is not found there. *)
Theorem C192_other_name_refuted : exists (c c' : cont nat) n o, names c = map fst (objs c) /\ NoDup (names c) /\ set_key c (Name n) o = Ok c' /\ get_key c' (Name n) = Err IndexError /\ ~ NoDup (names c').
Proof.
  exists (from_objs [("a"%string, 1); ("b"%string, 2)]), (from_objs [("b"%string, 3); ("b"%string, 2)]), "a"%string, ("b"%string, 3).
  repeat split; [repeat constructor; cbn; intuition discriminate|]. cbn. intros N. inversion N as [|? ? A _]. apply A. left. reflexivity.
Qed.
(** Appending does not replace an object of the same name: [c[name]] and
    [c.as_dict()[name]] differ then. *)
Theorem C192_duplicates_refuted : exists (c c' : cont nat) o n, append c o = Ok c' /\ get_key c' (Name n) = Ok (n, 1) /\ as_dict c' n = Some (n, 2).
Proof. exists (from_objs [("a"%string, 1)]), (from_objs [("a"%string, 1); ("a"%string, 2)]), ("a"%string, 2), "a"%string. repeat split. Qed.
(** The list given to the constructor is not copied: objects added to it later are counted
    but not found. *)
Theorem C191_shared_list_refuted : exists (l : list (string * nat)) o, let c := caller_appends (from_objs l) o in
  In o (objs c) /\ get_key c (Name (fst o)) = Err IndexError /\ has_key c (Idx (Z.of_nat (length l))) = true.
Proof. exists [("a"%string, 1)], ("b"%string, 2). cbn. auto. Qed.
Example C191_ex : objs (run (empty nat) [Append ("a"%string, 1); SetKey (Name "b") ("b"%string, 2); Insert 0 ("c"%string, 3); SetKey (Idx (-1)) ("d"%string, 4); Remove nat "a"]) = [("c"%string, 3); ("d"%string, 4)].
Proof. reflexivity. Qed.
Print Assumptions C191_names.
Print Assumptions C192_set.
