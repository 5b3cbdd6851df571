(** C197, C198: numbered attributes of problem descriptions, boundary conditions. *)
From Coq Require Import String Ascii ZArith.
From Verif Require Import Base M_conf S_conf P_conf P_conf2.
Set Implicit Arguments.
Open Scope nat_scope.

Fixpoint all_alnum (s : string) : Prop := match s with EmptyString => True | String c s => is_alnum c = true /\ all_alnum s end.
Lemma alnum_split_spec : forall s a r, alnum_split s = (a, r) -> s = (a ++ r)%string /\ all_alnum a.
Proof.
  induction s as [|c s IH]; intros a r H; simpl in H; [injection H as <- <-; simpl; auto|].
  destruct (is_alnum c) eqn:E.
  - destruct (alnum_split s) as [a' r'] eqn:E2. injection H as <- <-. destruct (IH _ _ eq_refl) as [-> A]. simpl; auto.
  - injection H as <- <-. simpl; auto.
Qed.
Lemma alnum_split_app : forall a r, all_alnum a -> alnum_split (a ++ String "_" r) = (a, String "_" r).
Proof.
  induction a as [|c a IH]; intros r H; [reflexivity|]. destruct H as [H1 H2]. simpl. rewrite H1, IH by auto. reflexivity.
Qed.
(** The attributes with a number: letters or digits, an underscore, a digit (and
    anything after it). *)
Theorem C197_numbered : forall key base, numbered key = Some base <->
  base <> ""%string /\ all_alnum base /\ exists r, key = (base ++ "_" ++ r)%string /\ starts_digit r = true.
Proof.
  intros key base. unfold numbered. split.
  - destruct (alnum_split key) as [a r] eqn:E. destruct (alnum_split_spec _ E) as [K A].
    destruct a as [|c a]; [discriminate|]. destruct r as [|u r]; [discriminate|].
    destruct (Ascii.eqb_spec u "_") as [->|]; [|discriminate]. destruct (starts_digit r) eqn:D; [|discriminate].
    intros H. injection H as <-. split; [discriminate|]. split; auto. exists r. auto.
  - intros (N & A & r & -> & D). change ("_" ++ r)%string with (String "_" r). rewrite alnum_split_app by auto.
    destruct base; [congruence|]. rewrite Ascii.eqb_refl, D. reflexivity.
Qed.
Lemma numbered_target : forall key base, numbered key = Some base -> numbered (base ++ "s") = None.
Proof.
  intros key base H. apply C197_numbered in H as (_ & A & _).
  assert (E : alnum_split (base ++ "s") = (base ++ "s", "")%string).
  { clear -A. induction base as [|c b IH]; [reflexivity|]. destruct A as [A1 A2]. simpl. rewrite A1, IH by auto. reflexivity. }
  unfold numbered. rewrite E. destruct (base ++ "s")%string; auto.
Qed.

Lemma add_groups_lookup : forall ks c x, lookup (fold_left (fun c k => set_default c k (VDict [])) ks c) x =
  match lookup c x with Some v => Some v | None => if existsb (String.eqb x) ks then Some (VDict []) else None end.
Proof.
  induction ks as [|k ks IH]; intros c x; simpl; [destruct (lookup c x); auto|].
  rewrite IH. unfold set_default. destruct (lookup c k) as [w|] eqn:L.
  - destruct (lookup c x) eqn:L2; auto. destruct (String.eqb_spec x k) as [->|E]; simpl; auto. congruence.
  - rewrite lookup_store. rewrite (String.eqb_sym k x). destruct (String.eqb_spec x k) as [->|E]; simpl.
    + now rewrite L.
    + auto.
Qed.
Lemma move_lookup : forall c key x, lookup (move_key c key) x =
  match numbered key, lookup c key with
  | Some base, Some v =>
      if String.eqb key x then None
      else if String.eqb (base ++ "s") x
           then Some (VDict (match lookup c (base ++ "s") with Some (VDict g) => store g key v | _ => [(key, v)] end))
           else lookup c x
  | _, _ => lookup c x
  end.
Proof.
  intros c key x. unfold move_key. destruct (numbered key) as [base|]; auto. destruct (lookup c key) as [v|]; auto.
  rewrite lookup_remove. destruct (String.eqb key x); auto.
  destruct (lookup c (base ++ "s")) as [[| | | | |g|]|]; rewrite lookup_store; reflexivity.
Qed.

Lemma gone_stays : forall ks c x b, numbered x = Some b -> lookup c x = None -> lookup (fold_left move_key ks c) x = None.
Proof.
  induction ks as [|k ks IH]; intros c x b N L; auto. simpl. apply (IH _ _ b N). rewrite move_lookup.
  destruct (numbered k) as [bk|] eqn:Nk; auto. destruct (lookup c k); auto.
  destruct (String.eqb k x); auto. destruct (String.eqb_spec (bk ++ "s") x) as [<-|E]; auto.
  rewrite (numbered_target _ Nk) in N. discriminate.
Qed.
Lemma gone : forall ks c x b, numbered x = Some b -> In x ks \/ lookup c x = None -> lookup (fold_left move_key ks c) x = None.
Proof.
  induction ks as [|k ks IH]; intros c x b N [I|L]; auto; try (destruct I; fail).
  - simpl. destruct I as [->|I]; [|apply (IH _ _ b N); auto].
    apply (gone_stays _ _ _ N). rewrite move_lookup, N. destruct (lookup c x) eqn:L; auto. now rewrite String.eqb_refl.
  - exact (gone_stays _ _ _ N L).
Qed.
(** No numbered attribute is left in the configuration. *)
Theorem C197_removed : forall c x b, numbered x = Some b -> lookup (transform_input_trivial c) x = None.
Proof.
  intros c x b N. unfold transform_input_trivial. apply (gone _ _ _ N).
  destruct (lookup (add_groups c) x) eqn:L; auto. left. apply lookup_in in L. change x with (fst (x, p)). now apply in_map.
Qed.

Lemma kept_fold : forall ks c x, numbered x = None -> (forall k b, In k ks -> numbered k = Some b -> lookup c k <> None -> (b ++ "s")%string <> x) ->
  lookup (fold_left move_key ks c) x = lookup c x.
Proof.
  induction ks as [|k ks IH]; intros c x N H; auto. simpl. rewrite IH; auto.
  - rewrite move_lookup. destruct (numbered k) as [b|] eqn:Nk; auto. destruct (lookup c k) eqn:L; auto.
    destruct (String.eqb_spec k x) as [->|]; [congruence|].
    destruct (String.eqb_spec (b ++ "s") x) as [E|]; auto. exfalso. apply (H k b); simpl; auto. congruence.
  - intros k' b I N' L. apply (H k' b); simpl; auto. intros L2. apply L. exact (gone_stays [k] _ _ N' L2).
Qed.
(** An attribute that is neither numbered nor the group of a numbered one is kept. *)
Theorem C197_kept : forall c x v, lookup c x = Some v -> numbered x = None ->
  (forall k b, lookup c k <> None -> numbered k = Some b -> (b ++ "s")%string <> x) ->
  lookup (transform_input_trivial c) x = Some v.
Proof.
  intros c x v L N H. unfold transform_input_trivial. rewrite kept_fold; auto.
  - unfold add_groups. now rewrite add_groups_lookup, L.
  - intros k b _ Nk Lk. apply (H k b); auto. intros L2. apply Lk. unfold add_groups. rewrite add_groups_lookup, L2.
    destruct (existsb (String.eqb k) group_keys) eqn:E; auto. exfalso.
    apply existsb_exists in E as (g & I & E). apply String.eqb_eq in E. subst g.
    simpl in I. repeat (destruct I as [<-|I]; [vm_compute in Nk; discriminate|]). destruct I.
Qed.

Definition group_ok (c : dict) (new : string) : Prop := lookup c new = None \/ exists g, lookup c new = Some (VDict g).
Lemma group_ok_step : forall c k new, numbered new = None -> group_ok c new -> group_ok (move_key c k) new.
Proof.
  intros c k new N H. unfold group_ok. rewrite move_lookup. destruct (numbered k) as [b|]; auto. destruct (lookup c k); auto.
  destruct (String.eqb k new); auto. destruct (String.eqb (b ++ "s") new); auto. right. eauto.
Qed.
Lemma in_group_stays : forall ks c new k v g, numbered new = None -> numbered k <> None -> lookup c k = None ->
  lookup c new = Some (VDict g) -> lookup g k = Some v ->
  exists g', lookup (fold_left move_key ks c) new = Some (VDict g') /\ lookup g' k = Some v.
Proof.
  induction ks as [|k2 ks IH]; intros c new k v g N Nk Lk Lg L; [simpl; eauto|]. simpl.
  assert (A : lookup (move_key c k2) k = None).
  { destruct (numbered k) as [b|] eqn:E; [|congruence]. exact (gone_stays [k2] _ _ E Lk). }
  assert (B : exists g', lookup (move_key c k2) new = Some (VDict g') /\ lookup g' k = Some v).
  { rewrite move_lookup. destruct (numbered k2) as [b2|] eqn:N2; [|eauto]. destruct (lookup c k2) as [v2|] eqn:L2; [|eauto].
    destruct (String.eqb_spec k2 new) as [->|]; [congruence|].
    destruct (String.eqb_spec (b2 ++ "s") new) as [E|]; [|eauto]. rewrite E, Lg. eexists. split; [reflexivity|].
    rewrite lookup_store. destruct (String.eqb_spec k2 k) as [->|]; [congruence|auto]. }
  destruct B as (g' & B1 & B2). exact (IH _ _ _ _ _ N Nk A B1 B2).
Qed.
Lemma grouped : forall ks c k v b, In k ks -> numbered k = Some b -> lookup c k = Some v -> group_ok c (b ++ "s") ->
  exists g, lookup (fold_left move_key ks c) (b ++ "s") = Some (VDict g) /\ lookup g k = Some v.
Proof.
  induction ks as [|k2 ks IH]; intros c k v b I N L G; [destruct I|]. simpl.
  pose proof (numbered_target _ N) as NT.
  destruct (string_dec k2 k) as [->|E].
  - assert (A : lookup (move_key c k) k = None) by (rewrite move_lookup, N, L, String.eqb_refl; auto).
    assert (B : exists g, lookup (move_key c k) (b ++ "s") = Some (VDict g) /\ lookup g k = Some v).
    { rewrite move_lookup, N, L. destruct (String.eqb_spec k (b ++ "s")) as [E|]; [rewrite <- E in NT; congruence|].
      rewrite String.eqb_refl. eexists; split; [reflexivity|]. destruct G as [G|[g G]]; rewrite G.
      - simpl. now rewrite String.eqb_refl.
      - rewrite lookup_store. now rewrite String.eqb_refl. }
    destruct B as (g & B1 & B2). apply (@in_group_stays ks (move_key c k) (b ++ "s") k v g); auto. congruence.
  - destruct I as [I|I]; [congruence|]. apply (IH _ k v b); auto; [|now apply group_ok_step].
    rewrite move_lookup. destruct (numbered k2) as [b2|] eqn:N2; auto. destruct (lookup c k2); auto.
    destruct (String.eqb_spec k2 k); [congruence|]. destruct (String.eqb_spec (b2 ++ "s") k) as [<-|]; auto.
    rewrite (numbered_target _ N2) in N. discriminate.
Qed.
Lemma add_groups_ok : forall c x, group_ok c x -> group_ok (add_groups c) x.
Proof.
  intros c x H. unfold group_ok, add_groups in *. rewrite add_groups_lookup.
  destruct (lookup c x); [destruct H as [H|H]; [congruence|auto]|]. destruct (existsb (String.eqb x) group_keys); eauto.
Qed.
(** A numbered attribute is found in its group, with what the group had before. *)
Theorem C197_grouped : forall c k b v, numbered k = Some b -> lookup c k = Some v -> group_ok c (b ++ "s") ->
  exists g, lookup (transform_input_trivial c) (b ++ "s") = Some (VDict g) /\ lookup g k = Some v.
Proof.
  intros c k b v N L G. unfold transform_input_trivial.
  assert (L2 : lookup (add_groups c) k = Some v) by (unfold add_groups; now rewrite add_groups_lookup, L).
  apply grouped with (1 := in_map fst _ _ (lookup_in _ _ L2)); auto. now apply add_groups_ok.
Qed.
(** Any numbered attribute is taken away, and a value that is not a dictionary in the
    place of the group is replaced. *)
Theorem C197_unrelated_refuted : exists c, lookup c "alphas" = Some (VTup [VInt 1; VInt 2]) /\ lookup c "alpha_1" = Some (VInt 7) /\
  lookup (transform_input_trivial c) "alpha_1" = None /\
  lookup (transform_input_trivial c) "alphas" = Some (VDict [("alpha_1"%string, VInt 7)]).
Proof. exists [("alphas", VTup [VInt 1; VInt 2]); ("alpha_1", VInt 7)]%string. repeat split. Qed.
Example C197_ex : numbered "region_1000" = Some "region"%string /\ group_ok [("region_1000"%string, VDict [])] "regions".
Proof. split; [reflexivity|left; reflexivity]. Qed.

(** ** Conditions *)
Lemma split_app : forall c a b, free_of c a -> split c (a ++ String c b) = a :: split c b.
Proof.
  intros c. induction a as [|x a IH]; intros b F; simpl.
  - now rewrite Ascii.eqb_refl.
  - destruct F as [F1 F2]. destruct (Ascii.eqb_spec x c); [congruence|]. now rewrite IH.
Qed.
Lemma split_free : forall c a, free_of c a -> split c a = [a].
Proof.
  intros c. induction a as [|x a IH]; intros F; auto. destruct F as [F1 F2]. simpl.
  destruct (Ascii.eqb_spec x c); [congruence|]. now rewrite IH.
Qed.
Lemma var_of_spec : forall n v r val d, free_of "." v -> var_of (Single n (v ++ "." ++ r) val d) = v.
Proof. intros. unfold var_of. cbn [s_dofs]. change ("." ++ r)%string with (String "." r). now rewrite split_app. Qed.

Definition group_of (g : list (string * list single)) (v : string) : list single := match lookup g v with Some l => l | None => [] end.
Lemma group_add_lookup : forall out k s v, group_of (group_add out k s) v = if String.eqb k v then group_of out v ++ [s] else group_of out v.
Proof.
  unfold group_of. induction out as [|[k0 l] out IH]; intros k s v; simpl.
  - destruct (String.eqb k v); auto.
  - destruct (String.eqb_spec k0 k) as [->|E]; simpl.
    + destruct (String.eqb k v); auto.
    + destruct (String.eqb_spec k0 v) as [->|E2].
      * destruct (String.eqb_spec k v); [congruence|auto].
      * apply IH.
Qed.
Lemma groups : forall conds out v,
  group_of (fold_left (fun out c => fold_left (fun out s => group_add out (var_of s) s) (iter_single (fst c) (snd c)) out) conds out) v =
  group_of out v ++ filter (fun s => String.eqb (var_of s) v) (flat_map (fun c => iter_single (fst c) (snd c)) conds).
Proof.
  assert (A : forall l out v, group_of (fold_left (fun out s => group_add out (var_of s) s) l out) v =
    group_of out v ++ filter (fun s => String.eqb (var_of s) v) l).
  { induction l as [|s l IH]; intros out v; simpl; [now rewrite app_nil_r|]. rewrite IH, group_add_lookup.
    destruct (String.eqb (var_of s) v); auto. now rewrite <- app_assoc. }
  induction conds as [|c conds IH]; intros out v; simpl; [now rewrite app_nil_r|].
  rewrite IH, A, filter_app, app_assoc. reflexivity.
Qed.
(** The conditions of a variable: all its items, in the order of the conditions. *)
Definition plain (conds : list (string * dict)) : Prop :=
  forall n d k, In (n, d) conds -> In k (map fst d) -> contains "grad" k = false /\ exists v r, free_of "." v /\ k = (v ++ "." ++ r)%string.
Theorem C198_grouped : forall conds v, plain conds -> free_of "." v ->
  group_of (group_by_variables conds) v =
  flat_map (fun c => flat_map (fun p => if strip_prefix (v ++ ".") (fst p) then [Single (fst c) (fst p) (snd p) false] else []) (snd c)) conds.
Proof.
  intros conds v P F. unfold group_by_variables. rewrite groups. cbn [group_of lookup app].
  induction conds as [|[n d] conds IH]; auto. cbn [flat_map fst snd]. rewrite filter_app.
  rewrite IH by (intros n' d' k I; exact (P n' d' k (or_intror I))). f_equal.
  assert (Q : forall k, In k (map fst d) -> contains "grad" k = false /\ exists v r, free_of "." v /\ k = (v ++ "." ++ r)%string) by (intros k; apply (P n d k); left; auto).
  clear P IH. unfold iter_single. induction d as [|[k w] d IH]; auto. cbn [map fst snd flat_map filter].
  rewrite <- IH by (intros k' I; apply Q; right; auto).
  destruct (Q k) as (G & u & r & U & ->); [left; auto|]. rewrite G. rewrite var_of_spec by auto.
  assert (E : String.eqb u v = match strip_prefix (v ++ ".") (u ++ "." ++ r) with Some _ => true | None => false end).
  { clear -U F. revert v F. induction u as [|c u IH]; intros v F.
    - destruct v as [|x v]; [reflexivity|]. simpl. destruct F as [F1 F2]. destruct (Ascii.eqb_spec x "."); [congruence|]. auto.
    - destruct U as [U1 U2]. destruct v as [|x v]; cbn [append strip_prefix String.eqb].
      + destruct (Ascii.eqb_spec "." c); [congruence|reflexivity].
      + destruct F as [F1 F2]. rewrite (Ascii.eqb_sym x c). destruct (Ascii.eqb c x); auto. }
  rewrite E. destruct (strip_prefix (v ++ ".") (u ++ "." ++ r)); reflexivity.
Qed.
(** The gradient conditions (discontinuous Galerkin). *)
Theorem C198_gradient : forall conds n d v r w, In (n, d) conds -> In ("grad." ++ v ++ "." ++ r, w)%string d -> free_of "." v -> free_of "." r ->
  In (Single n (v ++ "." ++ r)%string w true) (group_of (group_by_variables conds) v).
Proof.
  intros conds n d v r w I J F G. unfold group_by_variables. rewrite groups. cbn [group_of lookup app].
  apply filter_In. split; [|rewrite var_of_spec by auto; apply String.eqb_refl].
  apply in_flat_map. exists (n, d). split; auto. unfold iter_single. cbn [fst snd]. apply in_map_iff. exists ("grad." ++ v ++ "." ++ r, w)%string.
  split; auto. cbn [fst snd].
  change (contains "grad" ("grad." ++ v ++ "." ++ r)) with true.
  change ("grad." ++ v ++ "." ++ r)%string with ("grad" ++ String "." (v ++ String "." r))%string.
  rewrite split_app by (simpl; repeat split; discriminate). rewrite split_app by auto. rewrite split_free by auto. reflexivity.
Qed.
(** A variable with [grad] in its name loses its conditions. *)
Theorem C198_grad_name_refuted : forall n w, group_of (group_by_variables [(n, [("pgrad.all"%string, w)])]) "pgrad" = [] /\
  group_of (group_by_variables [(n, [("pgrad.all"%string, w)])]) "all" = [Single n "all" w true].
Proof. intros n w. split; reflexivity. Qed.

(** Names of degrees of freedom. *)
Fixpoint no_space (s : string) : Prop := match s with EmptyString => True | String c s => is_space c = false /\ no_space s end.
Lemma strip_id : forall s, no_space s -> strip s = s /\ strip (String " " s) = s.
Proof.
  assert (R : forall s, no_space s -> rstrip s = s).
  { induction s as [|c s IH]; intros H; auto. destruct H as [H1 H2]. simpl. rewrite IH by auto. rewrite H1. destruct s; auto. }
  intros s H. assert (L : lstrip s = s) by (destruct s; auto; destruct H as [H _]; simpl; now rewrite H).
  unfold strip. cbn [lstrip]. change (is_space " ") with true. cbv iota. rewrite L, R; auto.
Qed.
Lemma free_app : forall c a b, free_of c a -> free_of c b -> free_of c (a ++ b).
Proof. induction a as [|x a IH]; simpl; intros b H1 H2; auto. destruct H1; auto. Qed.
Lemma but_last_app : forall a c, but_last (a ++ String c "") = a.
Proof.
  induction a as [|x a IH]; intros c; auto. simpl. rewrite IH. destruct a; auto.
Qed.
Definition dof_name (d : string) : Prop := free_of "." d /\ free_of "," d /\ no_space d.
Lemma join_free : forall ds, (forall d, In d ds -> dof_name d) -> free_of "." (join ", " ds).
Proof.
  induction ds as [|d ds IH]; intros H; [exact I|]. destruct ds as [|e ds]; [apply (H d); left; auto|].
  change (join ", " (d :: e :: ds)) with (d ++ ", " ++ join ", " (e :: ds))%string.
  apply free_app; [apply (H d); left; auto|]. simpl. repeat split; try discriminate. apply IH. intros; apply H; right; auto.
Qed.
Lemma split_join : forall ds d, dof_name d -> (forall e, In e ds -> dof_name e) ->
  map strip (split "," (join ", " (d :: ds))) = d :: ds /\ map strip (split "," (String " " (join ", " (d :: ds)))) = d :: ds.
Proof.
  induction ds as [|e ds IH]; intros d D H.
  - destruct D as (D1 & D2 & D3). destruct (strip_id _ D3) as [S1 S2]. cbn [join]. rewrite split_free by auto.
    rewrite split_free by (simpl; split; [discriminate|auto]). cbn [map]. rewrite S1, S2. auto.
  - change (join ", " (d :: e :: ds)) with (d ++ String "," (String " " (join ", " (e :: ds))))%string.
    change (String " " (d ++ String "," (String " " (join ", " (e :: ds)))))%string with (String " " d ++ String "," (String " " (join ", " (e :: ds))))%string.
    destruct D as (D1 & D2 & D3). destruct (strip_id _ D3) as [S1 S2].
    rewrite !split_app by (simpl; repeat split; auto; discriminate). cbn [map].
    destruct (IH e) as [_ IH2]; [apply H; left; auto|intros; apply H; right; auto|]. rewrite IH2, S1, S2. auto.
Qed.
Theorem C198_canonize_list : forall v ds all, free_of "." v -> ds <> [] -> (forall d, In d ds -> dof_name d) ->
  canonize (v ++ ".[" ++ join ", " ds ++ "]") all = Ok (map (fun d => v ++ "." ++ d)%string ds).
Proof.
  intros v ds all F N H. unfold canonize. change (v ++ ".[" ++ join ", " ds ++ "]")%string with (v ++ String "." ("[" ++ join ", " ds ++ "]"))%string.
  rewrite split_app by auto. rewrite split_free.
  2:{ simpl. split; [discriminate|]. apply free_app; [now apply join_free|]. simpl. split; [discriminate|auto]. }
  change ("[" ++ join ", " ds ++ "]")%string with (String "[" (join ", " ds ++ String "]" "")).
  change (String.eqb (String "[" (join ", " ds ++ String "]" "")) "all") with false. cbv iota.
  rewrite but_last_app. destruct ds as [|d ds]; [congruence|].
  destruct (@split_join ds d) as [E _]; [apply H; left; auto|intros; apply H; right; auto|].
  rewrite <- E at 2. rewrite map_map. reflexivity.
Qed.
Theorem C198_canonize_all : forall v all, free_of "." v -> canonize (v ++ ".all") all = Ok all.
Proof.
  intros v all F. unfold canonize. change (v ++ ".all")%string with (v ++ String "." "all")%string.
  rewrite split_app by auto. rewrite split_free by (simpl; repeat split; discriminate). reflexivity.
Qed.
Theorem C198_canonize_one : forall v d all, free_of "." v -> free_of "." d -> d <> ""%string -> d <> "all"%string -> free_of "[" d ->
  canonize (v ++ "." ++ d) all = Ok [(v ++ "." ++ d)%string].
Proof.
  intros v d all F G N1 N2 B. unfold canonize. change (v ++ "." ++ d)%string with (v ++ String "." d)%string.
  rewrite split_app by auto. rewrite split_free by auto. apply String.eqb_neq in N2. rewrite N2.
  destruct d as [|c d]; [congruence|]. destruct B as [B _].
  destruct (Ascii.eqb_spec c "["); [congruence|].
  destruct c as [[] [] [] [] [] [] [] []]; reflexivity || (exfalso; apply n; reflexivity).
Qed.
Theorem C198_canonize_dots : forall s all, length (split "." s) <> 2 -> canonize s all = Err ValueError.
Proof. intros s all H. unfold canonize. destruct (split "." s) as [|a [|b [|c l]]]; simpl in H; auto; lia. Qed.

Example C198_ex : plain [("fix", [("u.all", VInt 0); ("p.0", VInt 1)])]%string /\ dof_name "12" /\
  canonize "u.[0, 12]" ["u.0"; "u.1"]%string = Ok ["u.0"; "u.12"]%string.
Proof.
  split; [|split; [simpl; repeat split; discriminate|reflexivity]].
  intros n d k [E|[]] J. injection E as <- <-. destruct J as [<-|[<-|[]]]; split; try reflexivity.
  - exists "u"%string, "all"%string. simpl. repeat split. discriminate.
  - exists "p"%string, "0"%string. simpl. repeat split. discriminate.
Qed.
Print Assumptions C197_grouped.
Print Assumptions C198_grouped.
