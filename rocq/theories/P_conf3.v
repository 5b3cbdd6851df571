(** C195: the attributes made from the entries in the short syntax. *)
From Coq Require Import String Ascii ZArith.
From Verif Require Import Base M_conf S_conf P_conf P_conf2.
Set Implicit Arguments.
Open Scope nat_scope.

(** The item of the configuration made from the [i]-th entry. *)
Definition item_of (k : kind) (adict : dict) (i : nat) (key : string) (conf : pv) (c2 : dict) : Prop :=
  exists d2 key', no_clash adict /\ transform_of k adict = Ok d2 /\ nth_error adict i = Some (key, conf) /\
    nth_error d2 i = Some (key', c2).
Lemma item_one : forall k adict i key conf c2, item_of k adict i key conf c2 ->
  exists st key', one_of k i key conf st = Ok (key', c2).
Proof.
  intros k adict i key conf c2 (d2 & key' & C & H & N & M).
  destruct (outs_nth _ _ _ _ _ (transform_outs _ C H) N) as (st & r & A & B). simpl in A.
  rewrite M in B. injection B as <-. eauto.
Qed.

Ltac norm H := apply short_shape in H as (? & _ & H & _); cbn [snd] in H.
Lemma positions_one : forall k i key t st key' c2 order, one_of k i key (VTup t) st = Ok (key', c2) ->
  positions k (length t) = Some order ->
  lookup c2 "name" = Some (VStr key) /\
  forall j a v, nth_error order j = Some a -> nth_error t j = Some v -> a <> ""%string -> a <> "dtype"%string -> lookup c2 a = Some v.
Proof.
  intros k i key t st key' c2 order H P.
  assert (G : forall c, short (prefix_of k) i c = Ok (key', c2) -> c2 = c).
  { intros c S1. apply short_shape in S1 as (? & _ & E & _). exact E. }
  destruct k;
  (destruct t as [|x0 [|x1 [|x2 [|x3 [|x4 [|x5 [|x6 t]]]]]]]; try discriminate P; injection P as <-);
  try (apply G in H; subst c2;
       (split; [reflexivity|]; intros j a v A B N1 N2;
        do 5 (destruct j as [|j]; [cbn in A, B; (injection A as <-; injection B as <-; (reflexivity || congruence)) || discriminate|]);
        cbn in A; destruct j; discriminate)).
  all: cbn [one_of one_field] in H; dres H; apply G in H; subst c2; rewrite conv_dtype_lookup by discriminate;
    split; [reflexivity|]; intros j a' v A B N1 N2; rewrite conv_dtype_lookup by auto;
    do 6 (destruct j as [|j]; [cbn in A, B; (injection A as <-; injection B as <-; (reflexivity || congruence)) || discriminate|]);
    cbn in A; destruct j; discriminate.
Qed.
(** The items of a tuple are the attributes of the users guide. *)
Theorem C195_positions : forall k adict i key t c2 order, item_of k adict i key (VTup t) c2 -> positions k (length t) = Some order ->
  lookup c2 "name" = Some (VStr key) /\
  forall j a v, nth_error order j = Some a -> nth_error t j = Some v -> a <> ""%string -> a <> "dtype"%string -> lookup c2 a = Some v.
Proof. intros k adict i key t c2 order H P. destruct (item_one H) as (st & key' & A). exact (positions_one _ _ _ _ _ A P). Qed.

Theorem C195_field_dtype : forall adict i key dt t c2, item_of KField adict i key (VTup (dt :: t)) c2 ->
  lookup c2 "name" = Some (VStr key) /\
  lookup c2 "dtype" = Some (match dt with
                            | VStr s => if string_dec s "real" then VObj 0 else if string_dec s "complex" then VObj 1 else dt
                            | _ => dt
                            end).
Proof.
  intros adict i key dt t c2 H. destruct (item_one H) as (st & key' & A). cbn [one_of one_field] in A. dres A.
  apply short_shape in A as (? & _ & A & _). cbn [snd] in A. subst c2. rewrite conv_dtype_lookup by discriminate.
  set (c := tuple_to_conf key (dt :: t) _) in *.
  assert (N : lookup c "name" = Some (VStr key)) by (subst c; unfold tuple_to_conf; destruct t as [|? [|? [|? [|? [|? ?]]]]]; reflexivity).
  assert (D : lookup c "dtype" = Some dt) by (subst c; unfold tuple_to_conf; destruct t as [|? [|? [|? [|? [|? ?]]]]]; reflexivity).
  split; auto. unfold conv_dtype. rewrite D. destruct dt; auto.
  destruct (string_dec s "real") as [->|E1].
  - rewrite String.eqb_refl, lookup_store. reflexivity.
  - apply String.eqb_neq in E1. rewrite E1. destruct (string_dec s "complex") as [->|E2].
    + rewrite String.eqb_refl, lookup_store. reflexivity.
    + apply String.eqb_neq in E2. rewrite E2. auto.
Qed.

(** Regions and materials given by a string, integrals given by an order. *)
Theorem C195_plain : forall k adict i key conf c2 a, item_of k adict i key conf c2 ->
  (k = KRegion /\ a = "select"%string /\ exists s, conf = VStr s) \/ (k = KMaterial /\ a = "function"%string /\ exists s, conf = VStr s) \/
  (k = KIntegral /\ a = "order"%string /\ exists n, conf = VInt n) ->
  lookup c2 "name" = Some (VStr key) /\ lookup c2 a = Some conf.
Proof.
  intros k adict i key conf c2 a H D. destruct (item_one H) as (st & key' & A).
  destruct D as [(-> & -> & s & ->)|[(-> & -> & s & ->)|(-> & -> & s & ->)]];
  cbn [one_of one_region one_material one_integral] in A; apply short_shape in A as (? & _ & A & _); cbn [snd] in A; subst c2; auto.
Qed.

(** Variables of three or four items: order, dual or value, then the history. *)
Theorem C195_variable : forall adict i key kd fld x rest w c2, item_of KVar adict i key (VTup (VStr kd :: fld :: x :: rest)) c2 ->
  first_word kd = Ok w -> length rest <= 1 ->
  lookup c2 "name" = Some (VStr key) /\ lookup c2 "kind" = Some (VStr kd) /\ lookup c2 "field" = Some fld /\
  (w = "unknown"%string -> lookup c2 "order" = Some x) /\
  (w = "test"%string -> lookup c2 "dual" = Some x) /\
  (w = "parameter"%string -> match x with
                             | VStr _ | VNone => lookup c2 "like" = Some x
                             | _ => lookup c2 "like" = Some VNone /\ lookup c2 "special" = Some x
                             end) /\
  lookup c2 "history" = hd_error rest.
Proof.
  intros adict i key kd fld x rest w c2 H W L. destruct (item_one H) as (st & key' & A).
  cbn [one_of one_variable nth_error] in A.
  assert (K : str_attr (tuple_to_conf key (VStr kd :: fld :: x :: rest) ["kind"; "field"]%string) "kind" = Ok kd) by reflexivity.
  rewrite K in A. cbn [bind] in A. rewrite W in A. cbn [bind] in A.
  set (c := if String.eqb w "unknown" then _ else _) in A.
  assert (B : c2 = match rest with [h] => store c "history" h | _ => c end).
  { destruct rest as [|h [|? ?]]; [| |simpl in L; lia]; cbn [bind] in A; apply short_shape in A as (? & _ & A & _); exact A. }
  assert (C : lookup c "name" = Some (VStr key) /\ lookup c "kind" = Some (VStr kd) /\ lookup c "field" = Some fld /\
    (w = "unknown"%string -> lookup c "order" = Some x) /\ (w = "test"%string -> lookup c "dual" = Some x) /\
    (w = "parameter"%string -> match x with VStr _ | VNone => lookup c "like" = Some x | _ => lookup c "like" = Some VNone /\ lookup c "special" = Some x end) /\
    lookup c "history" = None).
  { subst c. destruct (String.eqb_spec w "unknown") as [->|E1].
    - repeat split; try reflexivity; intros; discriminate.
    - destruct (String.eqb_spec w "test") as [->|E2].
      + repeat split; try reflexivity; intros; discriminate.
      + destruct (String.eqb_spec w "parameter") as [->|E3].
        * destruct x; repeat split; try reflexivity; intros; discriminate.
        * repeat split; try reflexivity; intros; congruence. }
  clearbody c. destruct C as (C1 & C2 & C3 & C4 & C5 & C6 & C7).
  destruct rest as [|h [|? ?]]; [| |simpl in L; lia]; subst c2; cbn [hd_error].
  - repeat split; auto.
  - rewrite !lookup_store. cbn [String.eqb Ascii.eqb Bool.eqb]. repeat split; auto.
Qed.

(** Linear combination conditions. *)
Theorem C195_lcbc_partial : forall adict i key c2 region dofs fn kd args,
  item_of KLcbc adict i key (VTup (region :: VDict dofs :: fn :: kd :: args)) c2 \/
  (exists times, (forall d, times <> VDict d) /\ lookup c2 "times" = Some times /\
     item_of KLcbc adict i key (VTup (region :: times :: VDict dofs :: fn :: kd :: args)) c2) ->
  lookup c2 "name" = Some (VStr key) /\ lookup c2 "region" = Some region /\ lookup c2 "dofs" = Some (VDict dofs) /\
  lookup c2 "dof_map_fun" = Some fn /\ lookup c2 "kind" = Some kd /\ lookup c2 "arguments" = Some (VTup args).
Proof.
  intros adict i key c2 region dofs fn kd args [H|(times & T & LT & H)]; destruct (item_one H) as (st & key' & A);
  cbn [one_of one_lcbc length Nat.leb nth_error] in A.
  - apply short_shape in A as (? & _ & A & _). cbn [snd] in A. subst c2. repeat split.
  - destruct times; try (exfalso; eapply T; reflexivity); apply short_shape in A as (? & _ & A & _); cbn [snd] in A; subst c2; repeat split.
Qed.
Theorem C195_lcbc_short : forall ii key t st, length t < 4 -> one_of KLcbc ii key (VTup t) st = Err ValueError.
Proof.
  intros ii key t st L. cbn [one_of one_lcbc]. assert (Nat.leb 4 (length t) = false) as -> by now apply Nat.leb_gt. auto.
Qed.
Theorem C195_lcbc_kind_refuted : exists adict i key t c2, item_of KLcbc adict i key (VTup t) c2 /\
  (exists times dofs, nth_error t 1 = Some times /\ nth_error t 2 = Some (VDict dofs) /\ times <> VDict dofs) /\ lookup c2 "kind" = None.
Proof.
  exists [("rigid", VTup [VStr "Top"; VObj 0; VDict [("u.all", VNone)]; VNone])]%string, 0, "rigid"%string,
    [VStr "Top"; VObj 0; VDict [("u.all", VNone)]; VNone]%string. eexists. split; [|split].
  - eexists; eexists. split; [apply C194_short_only; repeat constructor|]. split; [vm_compute; reflexivity|].
    split; reflexivity.
  - exists (VObj 0), [("u.all", VNone)]%string. repeat split. discriminate.
  - reflexivity.
Qed.

(** Solvers: every option given in the dictionary is an attribute. *)
Theorem C195_solver : forall adict i key kd ps c2, item_of KSolver adict i key (VTup [kd; VDict ps]) c2 -> NoDup (map fst ps) ->
  (forall a v, lookup ps a = Some v -> a <> "params"%string -> lookup c2 a = Some v) /\
  (forall a, lookup ps a = None -> lookup c2 a = if string_dec a "name" then Some (VStr key) else if string_dec a "kind" then Some kd else None).
Proof.
  intros adict i key kd ps c2 H N. destruct (item_one H) as (st & key' & A).
  cbn [one_of one_solver] in A. change (attr (tuple_to_conf key [kd; VDict ps] ["kind"; "params"]%string) "params") with (Ok (VDict ps)) in A.
  cbn [bind] in A. apply short_shape in A as (? & _ & A & _). cbn [snd] in A. subst c2. split.
  - intros a v L P. rewrite lookup_remove, lookup_update, L by auto.
    assert (String.eqb "params" a = false) as -> by (apply String.eqb_neq; congruence). auto.
  - intros a L. rewrite lookup_remove, lookup_update, L by auto.
    change (lookup (tuple_to_conf key [kd; VDict ps] ["kind"; "params"]%string) a) with
      (lookup [("name"%string, VStr key); ("kind"%string, kd); ("params"%string, VDict ps)] a).
    cbn [lookup].
    destruct (string_dec a "name") as [->|E1]; [reflexivity|].
    destruct (string_dec a "kind") as [->|E2]; [reflexivity|].
    assert (String.eqb "name" a = false) as -> by (apply String.eqb_neq; congruence).
    assert (String.eqb "kind" a = false) as -> by (apply String.eqb_neq; congruence).
    destruct (String.eqb "params" a); auto.
Qed.
(** An option called [name] renames the solver. *)
Theorem C195_solver_name_refuted : exists adict d2 key t, lookup adict key = Some (VTup t) /\ transform_of KSolver adict = Ok d2 /\
  no_clash adict /\ get_item_by_name d2 key = None.
Proof.
  exists [("ls", VTup [VStr "ls.petsc"; VDict [("name", VStr "cg")]])]%string. eexists. exists "ls"%string.
  eexists. split; [reflexivity|]. split; [vm_compute; reflexivity|]. split; [apply C194_short_only; repeat constructor|reflexivity].
Qed.

(** An integral given by a tuple of another length silently gets the description of the
    previous entry; as the first entry it fails. *)
Theorem C195_integral_stale_refuted : forall prev key t c2 n, (length t < 2 \/ 3 < length t) ->
  lookup c2 "name" = Some (VStr prev) ->
  one_of KIntegral n key (VTup t) (Some c2) = Ok (short_key "integral" prev n, c2) /\
  one_of KIntegral n key (VTup t) None = Err NameError.
Proof.
  intros prev key t c2 n L E. cbn [one_of one_integral].
  destruct t as [|x [|y [|z [|w t]]]]; simpl in L; try (exfalso; lia); unfold short, str_attr, attr; rewrite E; auto.
Qed.
(** Surplus items of a condition are dropped, missing ones are not noticed. *)
Theorem C195_surplus_refuted : forall adict i key t extra c2,
  item_of KEbc adict i key (VTup (t ++ extra)) c2 -> length t = 3 -> extra <> [] ->
  c2 = tuple_to_conf key t ["region"; "times"; "dofs"]%string.
Proof.
  intros adict i key t extra c2 H L X. destruct (item_one H) as (st & key' & A).
  destruct t as [|a [|b [|c [|? ?]]]]; simpl in L; try lia. destruct extra as [|e extra]; [congruence|].
  cbn [one_of one_condition app length Nat.eqb] in A. apply short_shape in A as (? & _ & A & _). exact A.
Qed.
Theorem C195_missing_refuted : exists adict c2, item_of KEbc adict 0 "fix" (VTup [VStr "Left"]) c2 /\ lookup c2 "dofs" = None.
Proof.
  exists [("fix", VTup [VStr "Left"])]%string. eexists. split.
  - eexists; eexists. split; [apply C194_short_only; repeat constructor|]. split; [vm_compute; reflexivity|]. split; reflexivity.
  - reflexivity.
Qed.

Example C195_ex : exists c2, item_of KEbc [("fix", VTup [VStr "Left"; VDict [("u.all", VInt 0)]])]%string 0 "fix" (VTup [VStr "Left"; VDict [("u.all"%string, VInt 0)]]) c2 /\
  positions KEbc 2 <> None.
Proof.
  eexists. split; [|discriminate]. eexists; eexists. split; [apply C194_short_only; repeat constructor|].
  split; [vm_compute; reflexivity|]. split; reflexivity.
Qed.
Example C195_ex2 : first_word "unknown field" = Ok "unknown"%string /\
  (exists c2, item_of KVar [("u", VTup [VStr "unknown field"; VStr "f"; VInt 0; VInt 1])]%string 0 "u"
    (VTup [VStr "unknown field"; VStr "f"; VInt 0; VInt 1]) c2) /\
  (exists c2, item_of KSolver [("ls", VTup [VStr "ls.x"; VDict [("i_max", VInt 3)]])]%string 0 "ls" (VTup [VStr "ls.x"; VDict [("i_max"%string, VInt 3)]]) c2) /\
  (exists c2, item_of KLcbc [("l", VTup [VStr "Y"; VDict [("u.all", VNone)]; VNone; VStr "rigid"; VInt 5])]%string 0 "l"
    (VTup [VStr "Y"; VDict [("u.all"%string, VNone)]; VNone; VStr "rigid"; VInt 5]) c2).
Proof.
  split; [reflexivity|]. repeat split; eexists; eexists; eexists; (split; [apply C194_short_only; repeat constructor|]);
  (split; [vm_compute; reflexivity|]); split; reflexivity.
Qed.
