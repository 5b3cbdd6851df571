(** C193: overriding a problem description. *)
From Coq Require Import String Ascii ZArith.
From Verif Require Import Base M_conf S_conf.
Set Implicit Arguments.
Open Scope nat_scope.

Section Assoc.
Variable V : Type.
Implicit Types d : list (string * V).
Lemma lookup_store : forall d k v k', lookup (store d k v) k' = if String.eqb k k' then Some v else lookup d k'.
Proof.
  induction d as [|[k0 v0] d IH]; intros k v k'; simpl; auto.
  destruct (String.eqb_spec k0 k) as [->|E]; simpl.
  - destruct (String.eqb k k'); auto.
  - destruct (String.eqb_spec k0 k') as [->|E2].
    + destruct (String.eqb_spec k k'); congruence.
    + apply IH.
Qed.
Lemma lookup_none : forall d k, lookup d k = None <-> ~ In k (map fst d).
Proof.
  induction d as [|[k0 v0] d IH]; intros k; simpl; [tauto|].
  destruct (String.eqb_spec k0 k) as [->|E]; [split; [discriminate|tauto]|].
  rewrite IH; tauto.
Qed.
Lemma lookup_in : forall d k v, lookup d k = Some v -> In (k, v) d.
Proof.
  induction d as [|[k0 v0] d IH]; intros k v; simpl; [discriminate|].
  destruct (String.eqb_spec k0 k) as [->|E]; intros H; [left; congruence|right; auto].
Qed.
Lemma in_lookup : forall d k v, NoDup (map fst d) -> In (k, v) d -> lookup d k = Some v.
Proof.
  induction d as [|[k0 v0] d IH]; intros k v N H; simpl in *; [tauto|].
  inversion N; subst. destruct H as [H|H].
  - injection H as -> ->. now rewrite String.eqb_refl.
  - destruct (String.eqb_spec k0 k) as [->|E]; auto.
    exfalso; apply H2. change k with (fst (k, v)). now apply in_map.
Qed.
Lemma lookup_remove : forall d k k', lookup (remove_key d k) k' = if String.eqb k k' then None else lookup d k'.
Proof.
  induction d as [|[k0 v0] d IH]; intros k k'; simpl; [now destruct (String.eqb k k')|].
  destruct (String.eqb_spec k0 k) as [->|E]; simpl; rewrite IH.
  - destruct (String.eqb k k'); auto.
  - destruct (String.eqb_spec k0 k') as [->|E2]; auto.
    destruct (String.eqb_spec k k'); congruence.
Qed.
Lemma store_fresh : forall d k v, ~ In k (map fst d) -> store d k v = d ++ [(k, v)].
Proof.
  induction d as [|[k0 v0] d IH]; intros k v H; simpl in *; auto.
  destruct (String.eqb_spec k0 k) as [->|E]; [tauto|]. rewrite IH; tauto.
Qed.
Lemma lookup_update : forall e d k, NoDup (map fst e) ->
  lookup (update_items d e) k = match lookup e k with Some v => Some v | None => lookup d k end.
Proof.
  unfold update_items. induction e as [|[k0 v0] e IH]; intros d k N; simpl; auto.
  inversion N; subst. rewrite IH by auto. rewrite lookup_store.
  destruct (String.eqb_spec k0 k) as [->|E]; auto.
  assert (lookup e k = None) as -> by now apply lookup_none. auto.
Qed.
End Assoc.

(** ** One level *)
Section Upd.
Variables (rec : bool -> dict -> dict -> dict) (tt ob : bool).
(** The value of a key in the result. *)
Definition merged (o : option pv) (v : pv) : option pv :=
  match o with
  | None => if ob || negb (is_none v) then Some v else None
  | Some w =>
      match v, w with
      | VDict s, VDict d => Some (VDict (rec tt d s))
      | VTup s, VTup d => if tt then Some (VTup (firstn (List.length d) (map (tuplezip (rec true)) (combine s d)))) else Some v
      | VNone, _ => if ob then Some v else o
      | _, _ => Some v
      end
  end.
Lemma upd_item_lookup : forall acc k v k', lookup (upd_item rec tt ob acc (k, v)) k' =
  if String.eqb k k' then merged (lookup acc k) v else lookup acc k'.
Proof.
  intros acc k v k'. unfold upd_item, merged. cbn [fst snd].
  destruct (String.eqb_spec k k') as [->|E].
  - destruct (lookup acc k') as [w|] eqn:L;
    destruct ob, v; try destruct w; cbn [orb negb is_none]; try destruct tt; rewrite ?lookup_store, ?String.eqb_refl, ?L; auto.
  - apply String.eqb_neq in E.
    destruct (lookup acc k) as [w|] eqn:L;
    destruct ob, v; try destruct w; cbn [orb negb is_none]; try destruct tt; rewrite ?lookup_store, ?E; auto.
Qed.
Lemma fold_lookup : forall src acc k, NoDup (map fst src) -> lookup (fold_left (upd_item rec tt ob) src acc) k =
  match lookup src k with Some v => merged (lookup acc k) v | None => lookup acc k end.
Proof.
  induction src as [|[k0 v0] src IH]; intros acc k N; auto.
  cbn [fold_left lookup]. inversion N; subst. rewrite IH by auto. rewrite upd_item_lookup.
  destruct (String.eqb_spec k0 k) as [->|E]; auto.
  assert (lookup src k = None) as -> by now apply lookup_none. auto.
Qed.
End Upd.

Lemma wf_lookup : forall d k v, wfd d -> lookup d k = Some v -> wf v.
Proof.
  intros d k v [_ W] L. apply lookup_in in L. induction d as [|p d IH]; [destruct L|].
  destruct W as [W1 W2]. destruct L as [->|L]; auto.
Qed.
Lemma depth_lookup : forall d k v, lookup d k = Some v -> depth v < ddepth d.
Proof.
  intros d k v L. apply lookup_in in L. unfold ddepth. simpl. induction d as [|p d IH]; [destruct L|].
  simpl. destruct L as [->|L]; simpl; [lia|]. specialize (IH L). lia.
Qed.

(** The nesting depth is enough for the recursion. *)
Lemma fold_ext : forall r1 r2 tt ob src acc, NoDup (map fst src) ->
  (forall k v a, In (k, v) src -> lookup a k = lookup acc k -> upd_item r1 tt ob a (k, v) = upd_item r2 tt ob a (k, v)) ->
  fold_left (upd_item r1 tt ob) src acc = fold_left (upd_item r2 tt ob) src acc.
Proof.
  intros r1 r2 tt ob src. induction src as [|[k v] src IH]; intros acc N H; auto.
  cbn [fold_left]. inversion N; subst. rewrite (H k v acc) by (simpl; auto).
  apply IH; auto. intros k' v' a I L. apply H; [right; auto|]. rewrite L, upd_item_lookup.
  destruct (String.eqb_spec k k') as [->|E]; auto.
  exfalso; apply H2. change k' with (fst (k', v')). now apply in_map.
Qed.
Lemma tuple_in : forall l x, In x l -> depth x < depth (VTup l).
Proof. intros l x. simpl. induction l as [|y l IH]; intros I; [destruct I|]. simpl. destruct I as [->|I]; [lia|]. specialize (IH I). lia. Qed.
Lemma tuple_wf : forall l x, wf (VTup l) -> In x l -> wf x.
Proof. intros l x. simpl. induction l as [|y l IH]; intros W I; [destruct I|]. destruct W as [W1 W2], I as [->|I]; auto. Qed.
Lemma upd_fuel : forall n m tt ob d s, wfd d -> wfd s -> ddepth d + ddepth s <= n -> n <= m -> upd m tt ob d s = upd n tt ob d s.
Proof.
  induction n as [|n IH]; intros m tt ob d s Wd Ws H L.
  { unfold ddepth in H; simpl in H; lia. }
  destruct m as [|m]; [lia|]. cbn [upd]. apply fold_ext; [apply Ws|].
  intros k v a I E. assert (Lv : lookup s k = Some v) by (apply in_lookup; [apply Ws|auto]).
  unfold upd_item. cbn [fst snd]. rewrite E.
  destruct (lookup d k) as [w|] eqn:Lw; auto.
  pose proof (wf_lookup _ Wd Lw) as Ww. pose proof (wf_lookup _ Ws Lv) as Wv.
  pose proof (depth_lookup _ _ Lw) as Dw. pose proof (depth_lookup _ _ Lv) as Dv.
  destruct v; auto; destruct w; auto.
  - destruct tt; auto. do 3 f_equal. apply map_ext_in. intros [x y] J. unfold tuplezip. cbn [fst snd].
    destruct x; auto; destruct y; auto. f_equal.
    pose proof (in_combine_l _ _ _ _ J) as J1. pose proof (in_combine_r _ _ _ _ J) as J2.
    pose proof (tuple_in _ _ J1). pose proof (tuple_in _ _ J2).
    apply IH; try lia.
    + exact (tuple_wf _ _ Wv J1).
    + exact (tuple_wf _ _ Ww J2).
    + unfold ddepth in *. lia.
  - do 2 f_equal. apply IH; auto. unfold ddepth in *. lia. lia.
Qed.
(** The recursion of the code: with any larger bound the result is the same. *)
Theorem C193_recursion_complete : forall dst src tt ob n, wfd dst -> wfd src -> ddepth src + ddepth dst <= n ->
  upd n tt ob dst src = update_dict_recursively dst src tt ob.
Proof. intros. unfold update_dict_recursively. apply upd_fuel; auto; lia. Qed.

(** ** Overriding *)
Lemma path_len : forall p v w, at_path v p = Some w -> length p <= depth v.
Proof.
  induction p as [|k p IH]; intros v w H; simpl; [lia|]. simpl in H.
  destruct v; try discriminate. destruct (lookup d k) as [u|] eqn:L; [|discriminate].
  specialize (IH _ _ H). pose proof (depth_lookup _ _ L). unfold ddepth in *. lia.
Qed.
Lemma override : forall p n tt ob dst src v, wfd src -> length p <= n -> p <> [] -> at_path (VDict src) p = Some v ->
  (forall d, v <> VDict d) -> (tt = true -> forall t, v <> VTup t) -> (ob = false -> v <> VNone) ->
  at_path (VDict (upd n tt ob dst src)) p = Some v.
Proof.
  induction p as [|k p IH]; intros n tt ob dst src v W N P H D T O; [congruence|].
  destruct n as [|n]; [simpl in N; lia|]. simpl in N. cbn [upd]. cbn [at_path] in H |- *.
  rewrite fold_lookup by apply W.
  destruct (lookup src k) as [u|] eqn:L; [|discriminate].
  destruct p as [|k' p].
  - cbn [at_path] in H. injection H as ->. unfold merged.
    destruct (lookup dst k) as [w|].
    + destruct v; try destruct w; try (exfalso; eapply D; reflexivity); auto;
        try (destruct tt; auto; exfalso; eapply T; reflexivity);
        (destruct ob; auto; exfalso; apply O; reflexivity).
    + assert (ob || negb (is_none v) = true) as -> by (destruct ob; auto; destruct v; auto; exfalso; apply O; reflexivity).
      reflexivity.
  - destruct u; try discriminate. unfold merged.
    assert (A : at_path (VDict d) (k' :: p) = Some v) by exact H.
    destruct (lookup dst k) as [w|]; [destruct w; auto|cbn [is_none negb]; rewrite orb_true_r; auto].
    apply IH; auto; try lia; try discriminate.
    exact (wf_lookup _ W L).
Qed.
(** Every value of the override that is not a dictionary is found at the same place of
    the result (no tuples, or the mode without tuples). *)
Theorem C193_override : forall dst src tt ob p v, wfd src -> p <> [] -> at_path (VDict src) p = Some v ->
  (forall d, v <> VDict d) -> (tt = true -> forall t, v <> VTup t) -> (ob = false -> v <> VNone) ->
  at_path (VDict (update_dict_recursively dst src tt ob)) p = Some v.
Proof.
  intros. apply override; auto. pose proof (path_len _ _ H1). unfold ddepth. lia.
Qed.

Lemma kept : forall p n tt ob dst src, wfd src -> at_path (VDict src) p = None ->
  (forall q r v, p = q ++ r -> at_path (VDict src) q = Some v -> exists d, v = VDict d) ->
  at_path (VDict (upd n tt ob dst src)) p = at_path (VDict dst) p.
Proof.
  induction p as [|k p IH]; intros n tt ob dst src W H A; [discriminate|].
  destruct n as [|n]; auto. cbn [upd]. cbn [at_path] in H |- *.
  rewrite fold_lookup by apply W.
  destruct (lookup src k) as [u|] eqn:L; auto.
  destruct (A [k] p u) as [s ->]; auto. { cbn [at_path]. now rewrite L. }
  destruct p as [|k' p]; [discriminate|].
  unfold merged. destruct (lookup dst k) as [w|].
  - destruct w; try exact H. apply IH; auto. { exact (wf_lookup _ W L). }
    intros q r v E Q. apply (A (k :: q) r v); [simpl; congruence|]. cbn [at_path]. now rewrite L.
  - cbn [is_none negb]. rewrite orb_true_r. exact H.
Qed.
(** Everything else is kept. *)
Theorem C193_kept : forall dst src tt ob p, wfd src -> at_path (VDict src) p = None ->
  (forall q r v, p = q ++ r -> at_path (VDict src) q = Some v -> exists d, v = VDict d) ->
  at_path (VDict (update_dict_recursively dst src tt ob)) p = at_path (VDict dst) p.
Proof. intros. now apply kept. Qed.

(** A None does not overwrite a value if asked so - at the first level. *)
Theorem C193_none_partial : forall dst src tt k, wfd src -> lookup src k = Some VNone ->
  lookup (update_dict_recursively dst src tt false) k = lookup dst k.
Proof.
  intros dst src tt k W L. unfold update_dict_recursively.
  assert (exists n, ddepth src + ddepth dst = S n) as [n ->] by (exists (fold_right (fun p m => Nat.max (depth (snd p)) m) 0 src + ddepth dst); reflexivity).
  cbn [upd]. rewrite fold_lookup by apply W. rewrite L. unfold merged.
  destruct (lookup dst k) as [w|]; auto; destruct w; auto.
Qed.
Theorem C193_nested_none_refuted : exists dst src k k' v,
  wfd dst /\ wfd src /\ at_path (VDict src) [k; k'] = Some VNone /\ at_path (VDict dst) [k; k'] = Some v /\ v <> VNone /\
  at_path (VDict (update_dict_recursively dst src false false)) [k; k'] = Some VNone.
Proof.
  exists [("a", VDict [("b", VInt 1)])]%string, [("a", VDict [("b", VNone)])]%string, "a"%string, "b"%string, (VInt 1).
  unfold wfd; simpl; repeat split; auto; try (repeat constructor; simpl; tauto). discriminate.
Qed.

(** Tuples: the values of the override are ignored, except for those missing in
    dictionaries, and a shorter tuple cuts the original one. *)
Definition not_dict (v : pv) : Prop := forall d, v <> VDict d.
Lemma tuplezip_snd : forall rec s d, List.Forall not_dict s -> map (tuplezip rec) (combine s d) = firstn (length s) d.
Proof.
  induction s as [|x s IH]; intros d F; [reflexivity|]. destruct d as [|y d]; [reflexivity|].
  inversion F; subst. cbn [combine map length firstn]. rewrite IH by auto. f_equal.
  unfold tuplezip. cbn [fst snd]. destruct x; auto. exfalso; eapply H1; reflexivity.
Qed.
Theorem C193_tuple_override_refuted : forall k old new, List.Forall not_dict new -> old <> new ->
  length old = length new ->
  update_dict_recursively [(k, VTup old)] [(k, VTup new)] true true = [(k, VTup old)].
Proof.
  intros k old new F _ E. unfold update_dict_recursively.
  assert (exists n, ddepth [(k, VTup new)] + ddepth [(k, VTup old)] = S n) as [n ->] by (eexists; unfold ddepth; simpl; reflexivity).
  cbn [upd fold_left]. unfold upd_item. cbn [fst snd lookup]. rewrite String.eqb_refl. cbn [store]. rewrite String.eqb_refl.
  rewrite tuplezip_snd by auto. rewrite firstn_firstn, E, Nat.min_id, <- E, firstn_all. reflexivity.
Qed.
Theorem C193_tuple_cut_refuted : forall k old new, List.Forall not_dict new -> length new < length old ->
  update_dict_recursively [(k, VTup old)] [(k, VTup new)] true true = [(k, VTup (firstn (length new) old))].
Proof.
  intros k old new F E. unfold update_dict_recursively.
  assert (exists n, ddepth [(k, VTup new)] + ddepth [(k, VTup old)] = S n) as [n ->] by (eexists; unfold ddepth; simpl; reflexivity).
  cbn [upd fold_left]. unfold upd_item. cbn [fst snd lookup]. rewrite String.eqb_refl. cbn [store]. rewrite String.eqb_refl.
  rewrite tuplezip_snd by auto. rewrite firstn_firstn, Nat.min_r by lia. reflexivity.
Qed.
(** Within dictionaries in tuples, the values of the original description win. *)
Theorem C193_tuple_dict_refuted : exists dst src,
  wfd dst /\ wfd src /\
  lookup dst "ls" = Some (VTup [VStr "ls.scipy_iterative"; VDict [("method", VStr "cg"); ("i_max", VInt 10)]])%string /\
  lookup src "ls" = Some (VTup [VStr "ls.scipy_direct"; VDict [("method", VStr "gmres"); ("eps_a", VInt 1)]])%string /\
  lookup (update_dict_recursively dst src true true) "ls" =
    Some (VTup [VStr "ls.scipy_iterative"; VDict [("method", VStr "cg"); ("eps_a", VInt 1); ("i_max", VInt 10)]])%string.
Proof.
  exists [("ls", VTup [VStr "ls.scipy_iterative"; VDict [("method", VStr "cg"); ("i_max", VInt 10)]])]%string,
         [("ls", VTup [VStr "ls.scipy_direct"; VDict [("method", VStr "gmres"); ("eps_a", VInt 1)]])]%string.
  unfold wfd; simpl; repeat split; auto; repeat constructor; simpl; try tauto; intuition discriminate.
Qed.

Example C193_ex : forall tt, let dst := [("options", VDict [("nls", VStr "newton"); ("ls", VStr "ls")]); ("dt", VInt 1)]%string in
  let src := [("options", VDict [("ls", VStr "mumps")]); ("t1", VInt 5)]%string in
  wfd src /\ update_dict_recursively dst src tt true =
  [("options", VDict [("nls", VStr "newton"); ("ls", VStr "mumps")]); ("dt", VInt 1); ("t1", VInt 5)]%string.
Proof. intros tt. unfold wfd. simpl. repeat split; auto; repeat constructor; simpl; tauto || intuition discriminate. Qed.
