(** C188-C190: the options of solvers, the automatic choice of solvers. *)
From Coq Require Import String.
From Verif Require Import Base M_sconf.
Set Implicit Arguments.
Open Scope nat_scope.

(** ** Specification *)
(** The value of an option: the keyword argument, the item of the options, the default. *)
Definition option_value {V} (conf kwargs : list (string * sval V)) (k : string) (default : sval V) : sval V :=
  match get_item kwargs k with
  | Some w => w
  | None => match get_item conf k with Some v => v | None => default end
  end.
Definition declared {V} (ps : list (param V)) (k : string) : Prop := exists p, In p ps /\ pa_name p = k /\ k <> "*"%string.
(** The linear solvers reached by following 'fallback'. *)
Inductive chain {V} (confs : string -> option (list (string * sval V))) : list (string * sval V) -> list (string * list (string * sval V)) -> Prop :=
| chain_end : forall c kind, get_item c "kind" = Some (Str V kind) -> get_item c "fallback" = None -> chain confs c [(kind, c)]
| chain_next : forall c kind fb c' l, get_item c "kind" = Some (Str V kind) -> get_item c "fallback" = Some (Str V fb) -> confs fb = Some c' -> chain confs c' l ->
    chain confs c ((kind, c) :: l).

(** ** Items *)
Section Items.
Variable V : Type.
Implicit Types d : list (string * sval V).
Lemma get_cons : forall k0 v d k, get_item ((k0, v) :: d) k = if String.eqb k0 k then Some v else get_item d k.
Proof. intros. unfold get_item. cbn [find fst]. destruct (String.eqb k0 k); reflexivity. Qed.
Lemma get_set : forall d k v k', get_item (set_item d k v) k' = if String.eqb k k' then Some v else get_item d k'.
Proof.
  induction d as [|[k0 v0] d IH]; intros k v k'; cbn [set_item]; [rewrite get_cons; reflexivity|].
  destruct (String.eqb_spec k0 k) as [->|NE]; rewrite !get_cons; [destruct (String.eqb k k'); auto|].
  destruct (String.eqb_spec k0 k') as [->|NE']; [destruct (String.eqb_spec k k'); [congruence|auto]|apply IH].
Qed.
Lemma get_filter : forall g d k, get_item (filter (fun p => g (fst p)) d) k = if g k then get_item d k else None.
Proof.
  intros g d k. induction d as [|[k0 v0] d IH]; cbn [filter]; [destruct (g k); reflexivity|]. cbn [fst]. destruct (g k0) eqn:E; rewrite ?get_cons, IH.
  - destruct (String.eqb_spec k0 k) as [->|]; [rewrite E|]; auto.
  - destruct (String.eqb_spec k0 k) as [->|]; [rewrite E|]; auto.
Qed.
Lemma get_del : forall d k k', get_item (del_item d k) k' = if String.eqb k' k then None else get_item d k'.
Proof. intros. unfold del_item. rewrite (get_filter (fun n => negb (String.eqb n k))). destruct (String.eqb k' k); reflexivity. Qed.
Lemma get_in : forall d k, get_item d k = None <-> ~ In k (map fst d).
Proof.
  induction d as [|[k0 v0] d IH]; intros k; [cbn; tauto|]. rewrite get_cons. cbn [map fst In]. destruct (String.eqb_spec k0 k) as [->|]; [split; [discriminate|intros H; elim H; auto]|]. rewrite IH. tauto.
Qed.
End Items.

(** ** C188 *)
Section Options.
Variable V : Type.
Variable false_ : sval V.
Notation struct := (list (string * sval V)).
Lemma gci_ok : forall (conf kwargs : struct) k def req v, get_conf_item conf kwargs k def req = Ok v -> v = option_value conf kwargs k def.
Proof.
  intros conf kwargs k def req v H. unfold get_conf_item, struct_get in H. unfold option_value. destruct (get_item conf k) as [o|], (get_item kwargs k) as [w|]; try (destruct o; cbn [bind] in H); try (destruct def; cbn [bind] in H); try (destruct req; cbn [bind] in H); congruence.
Qed.
Definition missing (conf : struct) (p : param V) : Prop :=
  pa_required p = true /\ match get_item conf (pa_name p) with Some v => v | None => pa_default p end = PyNone V.
Lemma gci_err : forall (conf kwargs : struct) p, (exists v, get_conf_item conf kwargs (pa_name p) (pa_default p) (pa_required p) = Ok v) \/
  (get_conf_item conf kwargs (pa_name p) (pa_default p) (pa_required p) = Err ValueError /\ missing conf p).
Proof.
  intros conf kwargs p. unfold get_conf_item, struct_get, missing. destruct (match get_item conf (pa_name p) with Some v => v | None => pa_default p end); cbn [bind]; eauto. destruct (pa_required p); cbn [bind]; eauto.
Qed.
Lemma missing_err : forall (conf kwargs : struct) p, missing conf p -> get_conf_item conf kwargs (pa_name p) (pa_default p) (pa_required p) = Err ValueError.
Proof. intros conf kwargs p (A & B). unfold get_conf_item, struct_get. rewrite B, A. reflexivity. Qed.

Definition names (ps : list (param V)) : list string := filter (fun n => negb (String.eqb n star)) (map (@pa_name V) ps).
Lemma names_in : forall ps k, In k (names ps) <-> declared ps k.
Proof.
  intros ps k. unfold names, declared. rewrite filter_In, in_map_iff. split.
  - intros ((p & <- & I) & NS). exists p. repeat split; auto. intros E. rewrite E in NS. discriminate.
  - intros (p & I & <- & NS). split; [eauto|]. destruct (String.eqb_spec (pa_name p) star); auto.
Qed.
Lemma process_options_spec : forall ps (conf kwargs opts : struct) extra o ex, NoDup (names ps) -> process_options ps conf kwargs opts extra = Ok (o, ex) ->
  ex = extra || existsb (fun p => String.eqb (pa_name p) star) ps /\
  (forall p, In p ps -> pa_name p <> star -> get_item o (pa_name p) = Some (option_value conf kwargs (pa_name p) (pa_default p))) /\
  (forall k, ~ declared ps k -> get_item o k = get_item opts k) /\
  (forall p, In p ps -> pa_name p <> star -> ~ missing conf p).
Proof.
  induction ps as [|p ps IH]; intros conf kwargs opts extra o ex ND H.
  - injection H as -> ->. cbn. rewrite orb_false_r. repeat split; auto; intros ? [].
  - cbn [process_options] in H. unfold names in ND. cbn [map filter] in ND. destruct (String.eqb_spec (pa_name p) star) as [E|NE]; cbn [negb] in ND.
    + apply IH in H; auto. destruct H as (A & B & C & D). cbn [existsb]. rewrite A, E. split; [cbn; rewrite !orb_true_r; auto|]. split; [intros p' [<-|I] N; [contradiction|auto]|].
      split; [|intros p' [<-|I] N; [contradiction|auto]]. intros k NK. apply C. intros (p' & I & K). apply NK. exists p'. split; [right|]; auto.
    + fold (names ps) in ND. inversion ND as [|? ? NI ND']; subst. destruct (gci_err conf kwargs p) as [[v EV]|[EV _]]; rewrite EV in H; [|discriminate]. cbn [bind] in H.
      apply IH in H; auto. destruct H as (A & B & C & D). cbn [existsb]. destruct (String.eqb_spec (pa_name p) star); [contradiction|]. split; auto. split; [|split].
      * intros p' [<-|I] N; auto. rewrite C by (rewrite <- names_in; auto). rewrite get_set, String.eqb_refl. f_equal. eapply gci_ok; eauto.
      * intros k NK. rewrite C. -- rewrite get_set. destruct (String.eqb_spec (pa_name p) k) as [<-|]; auto. elim NK. exists p. repeat split; auto. left; auto.
        -- intros (p' & I & K). apply NK. exists p'. split; [right|]; auto.
      * intros p' [<-|I] N; auto. intros M. rewrite (missing_err kwargs M) in EV. discriminate.
Qed.
Lemma process_options_err : forall ps (conf kwargs opts : struct) extra e, process_options ps conf kwargs opts extra = Err e -> e = ValueError /\ exists p, In p ps /\ pa_name p <> star /\ missing conf p.
Proof.
  induction ps as [|p ps IH]; intros conf kwargs opts extra e H; [discriminate|]. cbn [process_options] in H. destruct (String.eqb_spec (pa_name p) star).
  - apply IH in H. destruct H as (A & p' & I & B). split; auto. exists p'. split; [right|]; auto.
  - destruct (gci_err conf kwargs p) as [[v EV]|[EV M]]; rewrite EV in H; cbn [bind] in H; [|injection H as <-; split; auto; exists p; repeat split; auto; [left; auto|apply M|apply M]].
    apply IH in H. destruct H as (A & p' & I & B). split; auto. exists p'. split; [right|]; auto.
Qed.
Lemma add_extra_spec : forall ks (conf kwargs opts : struct), exists o, add_extra ks conf kwargs opts = Ok o /\
  forall k, get_item o k = if existsb (String.eqb k) ks then Some (option_value conf kwargs k (PyNone V)) else get_item opts k.
Proof.
  induction ks as [|k0 ks IH]; intros conf kwargs opts; [exists opts; auto|]. cbn [add_extra].
  destruct (get_conf_item conf kwargs k0 (PyNone V) false) as [v|] eqn:E.
  - assert (EV := gci_ok _ _ _ _ _ E). cbn [bind]. destruct (IH conf kwargs (set_item opts k0 v)) as (o & A & B). exists o. split; auto. intros k. rewrite B. cbn [existsb]. rewrite get_set.
    destruct (existsb (String.eqb k) ks); [rewrite orb_true_r; auto|]. rewrite orb_false_r, String.eqb_sym. destruct (String.eqb_spec k k0) as [->|]; congruence.
  - exfalso. unfold get_conf_item, struct_get in E. destruct (match get_item conf k0 with Some v => v | None => PyNone V end); discriminate.
Qed.
(** The processed options are the declared ones with the value given (or the default), and
    exactly the other given ones if the solver declares '*'. *)
Theorem C188_values : forall ps (conf kwargs opts : struct), NoDup (names (all_options false_ ps)) -> process_conf false_ ps conf kwargs = Ok opts ->
  (forall p, In p (all_options false_ ps) -> pa_name p <> "*"%string -> get_item opts (pa_name p) = Some (option_value conf kwargs (pa_name p) (pa_default p))) /\
  (forall k, ~ declared (all_options false_ ps) k -> get_item opts k =
     if existsb (fun p => String.eqb (pa_name p) "*") (all_options false_ ps)
     then match get_item conf k with Some v => Some (option_value conf kwargs k v) | None => None end else None).
Proof.
  intros ps conf kwargs opts ND H. unfold process_conf in H. destruct (process_options (all_options false_ ps) conf kwargs [] false) as [[o ex]|] eqn:EP; [|discriminate]. cbn [bind fst snd] in H.
  destruct (process_options_spec _ _ _ _ _ ND EP) as (A & B & C & _). change star with "*"%string in A. cbn [orb] in A. rewrite <- A. clear A.
  assert (DEC : forall p, In p (all_options false_ ps) -> pa_name p <> "*"%string -> has_item o (pa_name p) = true) by (intros p I N; unfold has_item; rewrite B; auto).
  destruct ex.
  - destruct (add_extra_spec (filter (fun k => negb (has_item o k)) (map fst conf)) conf kwargs o) as (o' & E & G). rewrite E in H. injection H as <-.
    assert (EX : forall k, existsb (String.eqb k) (filter (fun k => negb (has_item o k)) (map fst conf)) = true <-> (In k (map fst conf) /\ has_item o k = false)).
    { intros k. rewrite existsb_exists. split; [intros (x & I & Q); apply String.eqb_eq in Q; subst x; apply filter_In in I; destruct I as [I N]; apply negb_true_iff in N; auto|].
      intros (I & N). exists k. split; [apply filter_In; rewrite N; auto|apply String.eqb_refl]. }
    split.
    + intros p I N. rewrite G. destruct existsb eqn:Q; [apply EX in Q; destruct Q as [_ Q]; rewrite DEC in Q; auto; discriminate|auto].
    + intros k NK. rewrite G, (C k NK). cbn. assert (HO : has_item o k = false) by (unfold has_item; rewrite (C k NK); reflexivity). destruct existsb eqn:Q.
      * apply EX in Q. destruct Q as [Q _]. destruct (get_item conf k) as [v|] eqn:GC; [unfold option_value; rewrite GC; reflexivity|]. apply get_in in GC. contradiction.
      * destruct (get_item conf k) as [v|] eqn:GC; auto. exfalso. assert (I : In k (map fst conf)) by (destruct (in_dec String.string_dec k (map fst conf)) as [|NI]; auto; apply get_in in NI; congruence).
        assert (Q2 := proj2 (EX k) (conj I HO)). congruence.
  - injection H as <-. split; [exact B|exact C].
Qed.
(** It fails exactly if a required option is missing in the options. *)
(** Every solver has the common options, and its own ones. *)
Theorem C188_declared : forall ps k, own_options ps = true ->
  In k (map (@pa_name V) (all_options false_ ps)) <->
  In k ["name"; "kind"; "report_status"; "verbose"]%string \/ In k (map (@pa_name V) ps).
Proof.
  intros ps k H. unfold all_options. rewrite H, map_app, in_app_iff. reflexivity.
Qed.
Theorem C188_common : forall ps k, In k ["name"; "kind"; "report_status"; "verbose"]%string -> In k (map (@pa_name V) (all_options false_ ps)).
Proof.
  intros ps k H. unfold all_options. destruct (own_options ps); [rewrite map_app; apply in_or_app; left|]; exact H.
Qed.

Theorem C188_required : forall ps (conf kwargs : struct), NoDup (names (all_options false_ ps)) ->
  ((exists p, In p (all_options false_ ps) /\ pa_name p <> "*"%string /\ missing conf p) -> process_conf false_ ps conf kwargs = Err ValueError) /\
  (forall e, process_conf false_ ps conf kwargs = Err e -> e = ValueError /\ exists p, In p (all_options false_ ps) /\ pa_name p <> "*"%string /\ missing conf p).
Proof.
  intros ps conf kwargs ND. unfold process_conf. split.
  - intros (p & I & N & M). destruct (process_options (all_options false_ ps) conf kwargs [] false) as [[o ex]|e] eqn:EP.
    + destruct (process_options_spec _ _ _ _ _ ND EP) as (_ & _ & _ & D). elim (D p I N M).
    + destruct (process_options_err _ _ _ _ _ EP) as (-> & _). reflexivity.
  - intros e H. destruct (process_options (all_options false_ ps) conf kwargs [] false) as [[o ex]|e'] eqn:EP.
    + cbn [bind fst snd] in H. destruct ex; [|discriminate]. destruct (add_extra_spec (filter (fun k => negb (has_item o k)) (map fst conf)) conf kwargs o) as (o' & E & _). congruence.
    + cbn [bind] in H. injection H as <-. eapply process_options_err; eauto.
Qed.
(** ** C189 *)
(** The options passed to the external solver are the given undeclared ones. *)
Theorem C189_solver_kwargs : forall ps (conf : struct) k, own_options ps = true ->
  (declared (all_options false_ ps) k -> get_item (build_solver_kwargs false_ ps conf) k = None) /\
  (~ declared (all_options false_ ps) k -> get_item (build_solver_kwargs false_ ps conf) k = get_item conf k).
Proof.
  intros ps conf k OWN. unfold build_solver_kwargs, all_options. rewrite OWN. fold (names (solver_parameters false_ ++ ps)).
  rewrite (get_filter (fun n => negb (existsb (String.eqb n) (names (solver_parameters false_ ++ ps))))).
  assert (EX : existsb (String.eqb k) (names (solver_parameters false_ ++ ps)) = true <-> declared (solver_parameters false_ ++ ps) k).
  { rewrite existsb_exists, <- names_in. split; [intros (x & I & Q); apply String.eqb_eq in Q; congruence|intros I; exists k; split; auto; apply String.eqb_refl]. }
  split; intros D.
  - apply EX in D. rewrite D. reflexivity.
  - destruct existsb; [elim D; apply EX; auto|reflexivity].
Qed.
(** So every extra option given to the constructor is passed, unless the solver does not
    declare '*'. *)
Theorem C189_extra_options_passed : forall ps (conf kwargs opts : struct) k v, own_options ps = true -> NoDup (names (all_options false_ ps)) ->
  (exists p, In p (all_options false_ ps) /\ pa_name p = "*"%string) ->
  process_conf false_ ps conf kwargs = Ok opts -> ~ declared (all_options false_ ps) k -> get_item conf k = Some v ->
  get_item (build_solver_kwargs false_ ps opts) k = Some (option_value conf kwargs k v).
Proof.
  intros ps conf kwargs opts k v OWN ND (p & I & N) H D G. rewrite (proj2 (@C189_solver_kwargs ps opts k OWN) D). destruct (@C188_values ps conf kwargs opts ND H) as (_ & E). rewrite (E k D), G.
  replace (existsb _ _) with true; auto. symmetry. apply existsb_exists. exists p. rewrite N. auto.
Qed.
End Options.

(** A required option given as a keyword argument only is rejected. *)
Theorem C188_required_keyword_refuted : exists ps (conf kwargs : list (string * sval nat)) p,
  In p ps /\ get_item kwargs (pa_name p) = Some (Val 7) /\ process_conf (PyNone nat) ps conf kwargs = Err ValueError.
Proof.
  exists [Param "eps_r" (PyNone nat) true], [("name"%string, Str nat "tsc"); ("kind"%string, Str nat "tsc.x")], [("eps_r"%string, Val 7)], (Param "eps_r" (PyNone nat) true).
  split; [left; auto|]. split; reflexivity.
Qed.
(** An extra option given as a keyword argument only is lost. *)
Theorem C189_extra_keyword_refuted : exists ps (conf kwargs opts : list (string * sval nat)), existsb (fun p => String.eqb (pa_name p) "*") ps = true /\
  process_conf (PyNone nat) ps conf kwargs = Ok opts /\ get_item kwargs "tol" = Some (Val 7) /\ get_item (build_solver_kwargs (PyNone nat) ps opts) "tol" = None.
Proof.
  exists [Param "method" (Val 0) false; Param "*" (PyNone nat) false], [("name"%string, Str nat "ls"); ("kind"%string, Str nat "ls.x")], [("tol"%string, Val 7)]. eexists.
  split; [reflexivity|]. split; [reflexivity|]. split; reflexivity.
Qed.
Example C188_ex : exists opts, let ps := [Param "method" (Val 0) false; Param "i_max" (Val 100) false; Param "*" (PyNone nat) false] in
  let conf := [("name"%string, Str nat "ls"); ("kind"%string, Str nat "ls.x"); ("i_max"%string, Val 5); ("tol"%string, Val 7)] in
  process_conf (Val 99) ps conf [("i_max"%string, Val 6)] = Ok opts /\ NoDup (names (all_options (Val 99) ps)) /\ own_options ps = true /\
  get_item opts "method" = Some (Val 0) /\ get_item opts "i_max" = Some (Val 6) /\ get_item opts "tol" = Some (Val 7) /\ build_solver_kwargs (Val 99) ps opts = [("tol"%string, Val 7)].
Proof.
  eexists. cbn zeta. split; [reflexivity|]. split; [|repeat split; reflexivity]. cbn. repeat constructor; cbn; intuition discriminate.
Qed.

(** ** C190: merging Structs *)
Section Merge.
Variable V : Type.
Notation struct := (list (string * sval V)).
Lemma vadd_sub : forall (x y : struct), vadd (Sub x) (Sub y) = Sub (struct_add x y).
Proof. reflexivity. Qed.
Theorem C190_merge : forall (a b : struct) k, NoDup (map fst b) ->
  get_item (struct_add a b) k =
  match get_item a k, get_item b k with
  | Some (Sub x), Some (Sub y) => Some (Sub (struct_add x y))
  | Some v, _ => Some v
  | None, w => w
  end.
Proof.
  intros a b k ND. unfold struct_add at 1. cbn [vadd].
  match goal with |- get_item (?go a b) k = _ => assert (G : forall y acc, NoDup (map fst y) ->
    get_item (go acc y) k = match get_item y k with Some w => Some (match get_item a k with Some s' => vadd s' w | None => w end) | None => get_item acc k end) end.
  { induction y as [|[k0 w] y IH]; intros acc N; [reflexivity|]. cbn [map fst] in N. inversion N as [|? ? NI N']; subst. rewrite IH by auto. rewrite get_cons, get_set.
    destruct (String.eqb_spec k0 k) as [->|]; [|reflexivity]. apply get_in in NI. rewrite NI. reflexivity. }
  rewrite G by auto. destruct (get_item b k) as [w|], (get_item a k) as [s|]; auto; [|destruct s; reflexivity]. destruct s, w; try reflexivity.
Qed.
End Merge.

(** ** The choice of solvers *)
Section Choice.
Variable V S : Type.
Notation struct := (list (string * sval V)).
Variable make : string -> struct -> option S.
(** The options a solver in the list gets. *)
Definition given (conf : struct) : struct := del_item (copied conf) "fallback".
Theorem C190_first_available : forall l s, use_first_available make l = Ok s <->
  exists i name conf, nth_error l i = Some (name, conf) /\ make name (given conf) = Some s /\
    forall j n c, j < i -> nth_error l j = Some (n, c) -> make n (given c) = None.
Proof.
  induction l as [|[name conf] l IH]; intros s; cbn [use_first_available].
  - split; [discriminate|]. intros (i & n & c & H & _). destruct i; discriminate.
  - fold (given conf). destruct (make name (given conf)) as [s'|] eqn:E.
    + split; [intros H; injection H as <-; exists 0, name, conf; repeat split; auto; intros; lia|]. intros (i & n & c & H & M & F). destruct i as [|i]; [injection H as <- <-; congruence|].
      specialize (F 0 name conf ltac:(lia) eq_refl). congruence.
    + rewrite IH. split.
      * intros (i & n & c & H & M & F). exists (Datatypes.S i), n, c. repeat split; auto. intros j n' c' J NJ. destruct j as [|j]; [injection NJ as <- <-; auto|]. apply (F j); auto. lia.
      * intros (i & n & c & H & M & F). destruct i as [|i]; [injection H as <- <-; congruence|]. exists i, n, c. repeat split; auto. intros j n' c' J NJ. apply (F (Datatypes.S j)); auto. lia.
Qed.
Theorem C190_none_available : forall l, (exists e, use_first_available make l = Err e) <-> forall name conf, In (name, conf) l -> make name (given conf) = None.
Proof.
  induction l as [|[name conf] l IH]; cbn [use_first_available].
  - split; [intros _ ? ? []|eauto].
  - fold (given conf). destruct (make name (given conf)) as [s'|] eqn:E.
    + split; [intros (e & H); discriminate|]. intros H. specialize (H name conf (or_introl eq_refl)). congruence.
    + rewrite IH. split; [intros H n c [Q|I]; [injection Q as <- <-; auto|auto]|intros H n c I; apply H; right; auto].
Qed.
(** It gets the options as given, except for its name and 'fallback'. *)
Theorem C190_given_options : forall conf k, k <> "name"%string -> k <> "fallback"%string -> get_item (given conf) k = get_item conf k.
Proof.
  intros conf k N F. unfold given. rewrite get_del. destruct (String.eqb_spec k "fallback"); [contradiction|]. unfold copied. destruct (get_item conf "name") as [[| | |]|]; auto. rewrite get_set.
  destruct (String.eqb_spec "name" k); [congruence|auto].
Qed.
(** The options of an automatically chosen solver: its own fixed options, its kind, and
    the other options of the user. *)
Theorem C190_auto_options : forall fixed (conf : struct) i name fx, nth_error fixed i = Some (name, fx) -> NoDup (map fst conf) -> get_item fx "kind" = None ->
  exists c, nth_error (auto_list fixed conf) i = Some (name, c) /\ get_item c "kind" = Some (Str V name) /\
    forall k v, k <> "kind"%string -> get_item fx k = None -> get_item conf k = Some v -> get_item c k = Some v.
Proof.
  intros fixed conf i name fx H ND NK. unfold auto_list. exists (struct_add (struct_add fx [("kind"%string, Str V name)]) (del_item conf "kind")). split; [apply (map_nth_error (fun lc => (fst lc, struct_add (struct_add (snd lc) [("kind"%string, Str V (fst lc))]) (del_item conf "kind"))) _ _ H)|].
  assert (ND' : NoDup (map fst (del_item conf "kind"))).
  { unfold del_item. clear -ND. induction conf as [|[k v] d IH]; [constructor|]. cbn [map fst] in ND. inversion ND as [|? ? A B]; subst. cbn [filter fst]. destruct (negb (String.eqb k "kind")); [|auto]. cbn [map fst]. constructor; auto.
    intros I. apply A. apply in_map_iff in I. destruct I as (p & <- & I). apply filter_In in I. apply in_map. apply I. }
  assert (ND1 : NoDup (map fst [("kind"%string, Str V name)])) by (repeat constructor; intros []).
  split.
  - rewrite C190_merge, C190_merge, NK by auto. rewrite get_cons, String.eqb_refl. reflexivity.
  - intros k v N F G. rewrite C190_merge, C190_merge, F by auto. rewrite get_cons. destruct (String.eqb_spec "kind" k); [congruence|]. cbn. rewrite get_del. destruct (String.eqb_spec k "kind"); [contradiction|auto].
Qed.
(** Following 'fallback' gives the whole chain (of at most 100 solvers). *)
Theorem C190_fallback_chain : forall confs (conf : struct) l, chain confs conf l -> length l <= 100 -> fallback_list 100 confs conf = Ok l.
Proof.
  intros confs conf l H. generalize 100. induction H as [c kind K F|c kind fb c' l K F C CH IH]; intros n L.
  - destruct n as [|n]; [cbn in L; lia|]. cbn [fallback_list]. rewrite K, F. reflexivity.
  - cbn [length] in L. destruct n as [|n]; [lia|]. cbn [fallback_list]. rewrite K, F, C. assert (1 <= length l) by (inversion CH; cbn; lia). destruct n as [|n]; [lia|]. rewrite IH by lia. reflexivity.
Qed.
Theorem C190_choice : forall confs (conf : struct) l, chain confs conf l -> 2 <= length l <= 100 -> choose_solver make confs conf = use_first_available make l.
Proof.
  intros confs conf l H L. unfold choose_solver. rewrite (C190_fallback_chain H) by lia. cbn [bind]. destruct l as [|[k c] [|x l]]; cbn [length] in L; try lia. reflexivity.
Qed.
Theorem C190_cycle_ends : forall confs (conf : struct) l, fallback_list 100 confs conf = Ok l -> length l <= 100.
Proof.
  intros confs conf l. generalize 100. intros n. revert conf l. induction n as [|n IH]; intros conf l H; [injection H as <-; auto|]. cbn [fallback_list] in H.
  destruct (get_item conf "kind") as [[|kind| |]|]; try discriminate. destruct (get_item conf "fallback") as [[|fb| |]|]; try discriminate; [|injection H as <-; cbn; lia].
  destruct n as [|n]; [destruct (confs fb); [injection H as <-; auto|discriminate]|]. destruct (confs fb) as [c'|]; [|discriminate].
  destruct (fallback_list (Datatypes.S n) confs c') as [l'|] eqn:E; [|discriminate]. cbn [bind] in H. injection H as <-. apply IH in E. cbn [length]. lia.
Qed.
End Choice.

(** The options of ls.auto_iterative cannot be changed by the user. *)
Definition auto_iterative : list (string * list (string * sval nat)) :=
  [("ls.petsc"%string, [("method"%string, Str nat "cg"); ("precond"%string, Str nat "icc")]); ("ls.scipy_iterative"%string, [("method"%string, Str nat "cg")])].
Theorem C190_user_option_refuted : exists conf, get_item conf "method" = Some (Str nat "gmres") /\
  forall name c, In (name, c) (auto_list auto_iterative conf) -> get_item c "method" = Some (Str nat "cg").
Proof.
  exists [("name"%string, Str nat "ls"); ("kind"%string, Str nat "ls.auto_iterative"); ("method"%string, Str nat "gmres")]. split; [reflexivity|].
  intros name c [H|[H|[]]]; injection H as <- <-; reflexivity.
Qed.
(** The dictionary of the caller loses its 'kind'. *)
Theorem C190_caller_dict_refuted : exists conf : list (string * sval nat), get_item conf "kind" <> None /\ forall make : string -> list (string * sval nat) -> option nat,
  get_item (snd (auto_new make auto_iterative false conf)) "kind" = None.
Proof. exists [("kind"%string, Str nat "ls.auto_iterative")]. split; [discriminate|reflexivity]. Qed.
(** Merging is not associative. *)
Theorem C190_associative_refuted : exists a b c : list (string * sval nat), struct_add (struct_add a b) c <> struct_add a (struct_add b c).
Proof. exists [("s"%string, Sub [("x"%string, Val 1)])], [("s"%string, Val 2)], [("s"%string, Sub [("y"%string, Val 3)])]. discriminate. Qed.
Example C190_ex : exists confs conf l, @chain nat confs conf l /\ length l = 2.
Proof.
  exists (fun n => if String.eqb n "ls2" then Some [("kind"%string, Str nat "ls.b")] else None), [("kind"%string, Str nat "ls.a"); ("fallback"%string, Str nat "ls2")]. eexists.
  split; [eapply chain_next with (fb := "ls2"%string); [reflexivity|reflexivity|reflexivity|]; eapply chain_end; reflexivity|reflexivity].
Qed.
Print Assumptions C188_values.
Print Assumptions C190_fallback_chain.
