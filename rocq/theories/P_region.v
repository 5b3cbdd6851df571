(** C18, C19, C22, C52-C54: regions. *)
From Verif Require Import Base M_mesh L_mesh M_region S_region L_region.
Open Scope nat_scope.

Definition the_op (o : rop) (x : nat) (a b : list nat) : Prop :=
  match o with OpAdd => In x a \/ In x b | OpSub => In x a /\ ~ In x b | OpMul => In x a /\ In x b end.

Lemma op_fun_ok : forall o a b, sinc (op_fun o a b) /\ forall x, In x (op_fun o a b) <-> the_op o x a b.
Proof.
  destruct o; intros a b; simpl; split; intros;
  auto using union1d_sinc, setdiff1d_sinc, intersect1d_sinc, union1d_In, setdiff1d_In, intersect1d_In.
Qed.

Lemma get_set : forall M tdim k d v, 1 <= tdim -> d <= tdim ->
  get_entities M (set_ents (new_region tdim k) d v) d = Ok (set_ents (new_region tdim k) d v, v).
Proof.
  intros M tdim k d v T Hd. unfold get_entities. change (r_tdim (set_ents (new_region tdim k) d v)) with tdim.
  destruct (Nat.leb_spec d tdim); [|lia].
  assert (E : ents_of (set_ents (new_region tdim k) d v) d = Some v).
  { rewrite ents_set; [rewrite Nat.eqb_refl; auto|exact Hd|apply wf_new; auto]. }
  unfold rec_limit. cbn [access]. rewrite E. simpl. rewrite E. auto.
Qed.

(** C18: the operators are the set operators on the entities of dimension [d]
    (vertices 0, ..., cells tdim, facets tdim - 1). *)
Theorem C18_operators : forall M d o r1 r2 r1' r2' e1 e2,
  1 <= r_tdim r1 -> d <= r_tdim r1 ->
  get_entities M r1 d = Ok (r1', e1) -> get_entities M r2 d = Ok (r2', e2) ->
  if can (r_tdim r1) (r_kind r1) d then
    exists t e, eval_op M d o r1 r2 = Ok (r1', r2', t) /\ get_entities M t d = Ok (t, e) /\
      r_kind t = r_kind r1 /\ r_tdim t = r_tdim r1 /\
      sinc e /\ forall x, In x e <-> the_op o x e1 e2
  else eval_op M d o r1 r2 = Err ValueError.
Proof.
  intros M d o r1 r2 r1' r2' e1 e2 T Hd H1 H2. unfold eval_op. rewrite H1, H2. simpl.
  unfold set_entities. simpl. destruct (can (r_tdim r1) (r_kind r1) d); simpl; auto.
  eexists. exists (op_fun o e1 e2). split; [reflexivity|].
  split; [apply get_set; auto|]. split; auto. split; auto. apply op_fun_ok.
Qed.

Example C18_ex :
  let M : mesh_rows := fun _ _ => [[0; 1]; [1; 2]] in
  let k := mk_kind KCell false in
  match from_entities 1 k 0 [3; 1; 2], from_entities 1 k 0 [2; 5] with
  | Ok a, Ok b => match eval_op M 0 OpAdd a b with Ok (_, _, t) => ents_of t 0 | _ => None end
  | _, _ => None end = Some [1; 2; 3; 5].
Proof. reflexivity. Qed.

(** ** C52 *)
Lemma good_valid : forall tdim k, 1 <= tdim <= 3 -> good_kind tdim k -> valid_kind tdim k.
Proof.
  intros tdim [b o] T G. unfold valid_kind. split; auto.
  assert (tdim = 1 \/ tdim = 2 \/ tdim = 3) as [E|[E|E]] by lia; subst tdim; destruct b, o; unfold good_kind in G; simpl in *; unfold kind_tdim; simpl; try lia; split; try lia; reflexivity.
Qed.

Lemma can_below : forall tdim k d, 1 <= tdim <= 3 -> good_kind tdim k -> d < kind_tdim tdim k -> can tdim k d = negb (k_only k).
Proof.
  intros tdim [b o] d T G Hd. unfold good_kind, kind_tdim in *. simpl in *.
  assert (tdim = 1 \/ tdim = 2 \/ tdim = 3) as [E|[E|E]] by lia; subst tdim; destruct b, o; simpl in *; try lia;
  destruct d as [|[|[|d]]]; auto; lia.
Qed.

Lemma fin_reads : forall M tdim kd, 1 <= tdim <= 3 -> good_kind tdim kd -> forall r K, fin M tdim kd all r K ->
  forall ds, exists es, read_all M r ds = Ok es /\ Forall2 (entities_of_kind M tdim kd K) ds es.
Proof.
  intros M tdim kd T G r K F ds. pose proof (good_valid _ _ T G) as VK. revert r F.
  induction ds as [|d ds IH]; intros r F; simpl; [eauto|].
  unfold get_entities. rewrite (f_tdim F). set (k := kind_tdim tdim kd).
  assert (D : d <= k \/ k < d <= tdim \/ tdim < d) by lia. destruct D as [D|[D|D]].
  - destruct VK as (V1 & V2 & V3). fold k in V2.
    destruct (Nat.leb_spec d tdim); [|lia].
    destruct (@access_fin M tdim kd (good_valid _ _ T G) rec_limit r K d F D) as (r' & E & F' & Ev).
    { unfold rec_limit. fold k. lia. }
    rewrite E. simpl. rewrite Ev. simpl. destruct (IH r' F') as (es & Er & Fe). rewrite Er. simpl.
    eexists. split; [reflexivity|]. constructor; auto.
    unfold entities_of_kind. fold k. destruct (Nat.eqb_spec d k); auto.
    rewrite (can_below _ _ _ T G) by (fold k; lia). destruct (Nat.ltb_spec d k); [|lia]. simpl.
    destruct (k_only kd); simpl; auto. split; [apply unique_sinc|]. intros x. unfold derived. rewrite unique_In.
    apply incident_In.
  - destruct (Nat.leb_spec d tdim); [|lia].
    pose proof (f_high VK F D) as Ev. unfold rec_limit at 1. cbn [access]. rewrite Ev. simpl. rewrite Ev. simpl.
    destruct (IH r F) as (es & Er & Fe). rewrite Er. simpl. eexists. split; [reflexivity|]. constructor; auto.
    unfold entities_of_kind. fold k. destruct (Nat.eqb_spec d k); [lia|]. destruct (Nat.ltb_spec d k); [lia|]. reflexivity.
  - destruct (Nat.leb_spec d tdim); [lia|]. simpl.
    destruct (IH r F) as (es & Er & Fe). rewrite Er. simpl. eexists. split; [reflexivity|]. constructor; auto.
    destruct VK as (V1 & V2 & V3). fold k in V2.
    unfold entities_of_kind. fold k. destruct (Nat.eqb_spec d k); [lia|]. destruct (Nat.ltb_spec d k); [lia|]. reflexivity.
Qed.

(** C52: after create_region's set_kind() and finalize(), whatever was
    determined or set before, the region is consistent: all reads, in any
    order, give the entities of the kind dimension and those of lower dimension
    belonging to them (none for the "_only" kinds), nothing of a higher
    dimension. *)
Theorem C52_finalize : forall M r kd ae r',
  1 <= r_tdim r <= 3 -> length (r_ents r) = S (r_tdim r) -> good_kind (r_tdim r) kd ->
  finalize M (set_kind r kd) ae = Ok r' ->
  exists K, (ae = false -> K <> []) /\
    forall ds, exists es, read_all M r' ds = Ok es /\ Forall2 (entities_of_kind M (r_tdim r) kd K) ds es.
Proof.
  intros M r kd ae r' T L G H. pose proof (good_valid _ _ T G) as VK.
  assert (W : wf (set_kind r kd)) by (apply wf_set_kind; auto; lia).
  destruct (finalize_fin M VK ae W eq_refl eq_refl H) as (K & r1 & E1 & E2 & F & N).
  exists K. split; auto. apply fin_reads; auto.
Qed.

(** ** C19 *)
Lemma finalize_total : forall M tdim kd ae r K r1, valid_kind tdim kd -> wf r -> r_tdim r = tdim -> r_kind r = kd ->
  access M rec_limit r (kind_tdim tdim kd) = Ok r1 -> ents_of r1 (kind_tdim tdim kd) = Some K ->
  (K = [] /\ ae = false /\ finalize M r ae = Err ValueError) \/
  ((ae = false -> K <> []) /\ exists r', finalize M r ae = Ok r' /\ fin M tdim kd all r' K).
Proof.
  intros M tdim kd ae r K r1 VK W T Kd E1 HK.
  pose proof (proj1 (proj2 VK)) as V2.
  destruct (access_ext M rec_limit (r := r) (d := kind_tdim tdim kd)) with (r' := r1) as [X _]; auto; [lia|].
  destruct X as [X1 X2 X3 X4].
  unfold finalize. rewrite T, Kd, E1. cbn [bind]. rewrite HK. cbn [get_or].
  destruct ae.
  - right. split; [discriminate|]. cbn [bind].
    assert (F : fin M tdim kd (fun e => kind_tdim tdim kd <= e) (set_is_empty r1 (length K =? 0)) K).
    { constructor; auto; try (simpl; congruence); [intros; lia|intros ->; auto]. }
    apply (@final_loop M tdim kd VK true _ _ K (le_n _) F). discriminate.
  - destruct K as [|x K'].
    + left. auto.
    + right. split; [discriminate|]. cbn [length Nat.eqb bind].
      assert (F : fin M tdim kd (fun e => kind_tdim tdim kd <= e) r1 (x :: K')).
      { constructor; auto; try congruence. intros; lia. }
      apply (@final_loop M tdim kd VK false _ _ _ (le_n _) F). discriminate.
Qed.

(** A region defined by vertices (e.g. [vertices in (x < 1)]), created with the
    kind [kd]: its entities of the kind dimension are those with all vertices
    in the set.  (For [kd] = vertex: the given vertices.) *)
Theorem C19_from_vertices : forall M tdim kd vs ae,
  1 <= tdim <= 3 -> mesh_wf M tdim -> good_kind tdim kd -> k_only kd = false -> vs <> [] ->
  exists K,
  (kind_tdim tdim kd = 0 -> K = vs) /\
  (0 < kind_tdim tdim kd -> sinc K /\
     forall c, In c K <-> c < n_ent M (kind_tdim tdim kd) /\ incl (nth c (M (kind_tdim tdim kd) 0) []) vs) /\
  match (do leaf <- from_entities tdim (mk_kind KCell false) 0 vs; finalize M (set_kind leaf kd) ae) with
  | Ok r' => (ae = false -> K <> []) /\
      forall ds, exists es, read_all M r' ds = Ok es /\ Forall2 (entities_of_kind M tdim kd K) ds es
  | Err e => e = ValueError /\ K = [] /\ ae = false
  end.
Proof.
  intros M tdim kd vs ae T HM G Honly Hvs. pose proof (good_valid _ _ T G) as VK.
  set (k := kind_tdim tdim kd).
  assert (Hleaf : from_entities tdim (mk_kind KCell false) 0 vs = Ok (set_ents (new_region tdim (mk_kind KCell false)) 0 vs)).
  { unfold from_entities, set_entities. simpl. assert (C : can tdim (mk_kind KCell false) 0 = true).
    { destruct tdim as [|[|[|]]]; auto. } rewrite C. auto. }
  rewrite Hleaf. cbn [bind]. set (leaf := set_ents _ 0 vs).
  assert (Wl : wf (new_region tdim (mk_kind KCell false))) by (apply wf_new; lia).
  assert (El : forall d, d <= tdim -> ents_of leaf d = if d =? 0 then Some vs else None).
  { intros d Hd. unfold leaf. rewrite ents_set; [|simpl; lia|auto]. destruct (Nat.eqb_spec d 0); auto.
    unfold new_region. rewrite ents_set_kind by (simpl; auto).
    assert (C : can tdim (mk_kind KCell false) d = true) by (destruct tdim as [|[|[|[|]]]], d as [|[|[|[|]]]]; simpl; auto; lia).
    simpl r_tdim. rewrite C. unfold ents_of. simpl r_ents. 
    change (nth d (repeat (@None (list nat)) (S tdim)) None = None). apply nth_repeat. }
  assert (Wk : wf (set_kind leaf kd)). { apply wf_set_kind; [|simpl; lia]. unfold leaf, set_ents, new_region, set_kind. cbn [r_ents r_tdim].
    rewrite length_upd, map_length, seq_length. auto. }
  assert (Tl : r_tdim leaf = tdim) by reflexivity.
  destruct VK as (V1 & V2 & V3). fold k in V2, V3.
  assert (E0 : can tdim kd 0 = true).
  { destruct (Nat.eq_dec k 0) as [E|N]; [rewrite <- E; auto|]. rewrite (can_below _ _ _ T G) by (fold k; lia). rewrite Honly. auto. }
  assert (Ek0 : ents_of (set_kind leaf kd) 0 = Some vs).
  { rewrite ents_set_kind by lia. rewrite Tl, E0. apply El. lia. }
  assert (HK : exists K r1, access M rec_limit (set_kind leaf kd) k = Ok r1 /\ ents_of r1 k = Some K /\
     (k = 0 -> K = vs) /\ (0 < k -> K = cm_complete M k vs 0)).
  { destruct (Nat.eq_dec k 0) as [E|N].
    - rewrite E. exists vs, (set_kind leaf kd). unfold rec_limit. cbn [access]. rewrite Ek0. repeat split; auto. intros; lia.
    - assert (Ek : ents_of (set_kind leaf kd) k = None).
      { rewrite ents_set_kind by (rewrite Tl; auto). rewrite Tl, V3, El by auto. destruct (Nat.eqb_spec k 0); auto. congruence. }
      assert (KB : ((k =? tdim) || (negb (k =? 0) && kind_is (set_kind leaf kd) k)) = true).
      { unfold kind_is. simpl. unfold k, kind_tdim, good_kind in *. destruct (k_base kd); simpl in *; auto;
        try (rewrite Nat.eqb_refl; reflexivity); try (rewrite orb_true_r; reflexivity); congruence. }
      exists (cm_complete M k vs 0), (set_ents (set_kind leaf kd) k (cm_complete M k vs 0)).
      unfold rec_limit. cbn [access]. rewrite Ek, Ek0.
      change (r_tdim (set_kind leaf kd)) with tdim. change (r_kind (set_kind leaf kd)) with kd.
      rewrite KB, V3. cbn [negb bind]. rewrite Ek0. cbn [get_or]. split; [reflexivity|].
      rewrite ents_set; [|exact V2|auto]. rewrite Nat.eqb_refl. repeat split; auto. intros; lia. }
  destruct HK as (K & r1 & A1 & A2 & A3 & A4). exists K. split; [exact A3|]. split.
  { intros Hk. rewrite (A4 Hk). unfold cm_complete. split; [apply complete_sinc|]. intros c.
    destruct (HM k 0 V2 ltac:(lia)) as [L1 L2]. rewrite complete_In by auto. rewrite L1. tauto. }
  destruct (@finalize_total M tdim kd ae (set_kind leaf kd) K r1 (conj V1 (conj V2 V3)) Wk eq_refl eq_refl A1 A2)
    as [(Z1 & Z2 & Z3)|(Z1 & r' & Z2 & Z3)].
  - rewrite Z3. auto.
  - rewrite Z2. split; auto. apply fin_reads; auto.
Qed.

(** The vertices (and other lower-dimensional entities) of a region of cells. *)
Theorem C19_from_cells : forall M tdim cs ae,
  1 <= tdim <= 3 -> cs <> [] ->
  exists r', (do leaf <- from_entities tdim (mk_kind KCell false) tdim cs; finalize M leaf ae) = Ok r' /\
    forall ds, exists es, read_all M r' ds = Ok es /\ Forall2 (entities_of_kind M tdim (mk_kind KCell false) cs) ds es.
Proof.
  intros M tdim cs ae T Hcs. assert (G : good_kind tdim (mk_kind KCell false)) by exact I.
  pose proof (good_valid _ _ T G) as VK.
  assert (C : can tdim (mk_kind KCell false) tdim = true) by apply VK.
  unfold from_entities, set_entities. simpl r_tdim. simpl r_kind. rewrite C. cbn [bind].
  assert (Wl : wf (new_region tdim (mk_kind KCell false))) by (apply wf_new; lia).
  set (leaf := set_ents _ tdim cs). assert (W : wf leaf) by (apply wf_set; auto).
  assert (E : ents_of leaf tdim = Some cs) by (unfold leaf; rewrite ents_set by auto; rewrite Nat.eqb_refl; auto).
  destruct (@finalize_total M tdim (mk_kind KCell false) ae leaf cs leaf VK W eq_refl eq_refl) as [(Z & _)|(_ & r' & Z2 & Z3)].
  - unfold rec_limit. cbn [access kind_tdim k_base]. rewrite E. auto.
  - exact E.
  - congruence.
  - exists r'. split; auto. apply fin_reads; auto.
Qed.

(** Cells -> their vertices -> cells: nothing is lost. *)
Theorem C19_superset : forall M tdim cs, mesh_wf M tdim ->
  (forall c, In c cs -> c < n_ent M tdim /\ nth c (M tdim 0) [] <> []) ->
  incl cs (cm_complete M tdim (unique (cm_incident M 0 cs tdim)) 0).
Proof.
  intros M tdim cs HM H c Hc. destruct (H c Hc) as [H1 H2]. unfold cm_complete.
  destruct (HM tdim 0 (le_n _) ltac:(lia)) as [L1 L2]. apply complete_In; auto.
  assert (I : incl (nth c (M tdim 0) []) (unique (cm_incident M 0 cs tdim))).
  { intros v Hv. apply unique_In. apply incident_In. eauto. }
  rewrite L1. repeat split; auto.
  destruct (nth c (M tdim 0) []) as [|v l]; [congruence|]. intros E. specialize (I v (or_introl eq_refl)). rewrite E in I. destruct I.
Qed.

(** Two triangles 0-1-2, 1-3-2; edges 01 12 20 13 32. *)
Definition exM : mesh_rows := fun d1 d2 =>
  match d1, d2 with
  | 2, 0 => [[0; 1; 2]; [1; 3; 2]]
  | 1, 0 => [[0; 1]; [1; 2]; [2; 0]; [1; 3]; [3; 2]]
  | 2, 1 => [[0; 1; 2]; [3; 4; 1]]
  | 1, 2 => [[0]; [0; 1]; [0]; [1]; [1]]
  | 0, 0 => [[1; 2]; [0; 2; 3]; [0; 1; 3]; [1; 2]]
  | 0, 1 => [[0; 2]; [0; 1; 3]; [1; 2; 4]; [3; 4]]
  | 0, 2 => [[0]; [0; 1]; [0; 1]; [1]]
  | 1, 1 => [[1; 2; 3]; [0; 2; 3; 4]; [0; 1; 4]; [0; 1; 4]; [1; 2; 3]]
  | _, _ => [[1]; [0]]
  end.
Example C19_ex_mesh : mesh_wf exM 2.
Proof.
  intros d1 d2 H1 H2. destruct d1 as [|[|[|]]]; [| | |lia]; (destruct d2 as [|[|[|]]]; [| | |lia]); (split; [reflexivity|]);
  intros row Hr x Hx; simpl in Hr; repeat (destruct Hr as [<-|Hr]; [simpl in Hx; unfold n_ent; simpl; lia|]); destruct Hr.
Qed.
(** vertices 1, 2, 3, 0 without the last: cell 1, and then the vertices of it *)
Example C19_ex : (do leaf <- from_entities 2 (mk_kind KCell false) 0 [1; 2; 3];
   do r <- finalize exM (set_kind leaf (mk_kind KCell false)) false; read_all exM r [2; 1; 0]) = Ok [[1]; [1; 3; 4]; [1; 2; 3]] /\
  (do leaf <- from_entities 2 (mk_kind KCell false) 0 [0; 1; 3];
   do r <- finalize exM (set_kind leaf (mk_kind KEdge false)) false; read_all exM r [0; 1; 2]) = Ok [[0; 1; 3]; [0; 3]; []].
Proof. vm_compute. auto. Qed.

(** A region with nothing set: the getters call each other until Python's
    recursion limit. *)
Example region_recursion : forall fuel, access exM fuel (new_region 2 (mk_kind KCell false)) 0 = Err RuntimeError.
Proof.
  assert (H : forall fuel, (forall d, d <= 2 -> access exM fuel (new_region 2 (mk_kind KCell false)) d = Err RuntimeError)).
  { induction fuel as [|f IH]; intros d Hd; auto. destruct d as [|[|[|]]]; [| | |lia]; cbn; rewrite IH by lia; auto. }
  intros. apply H. lia.
Qed.

(** ** C22: contains() does not decide inclusion. *)
Theorem C22_overlap_partial : forall M r other r' n,
  region_contains M r other = Ok (r', n) ->
  exists se, get_entities M r (kind_tdim (r_tdim other) (r_kind other)) = Ok (r', se) /\
  (n <> 0 <-> exists x, In x se /\ In x (get_or (ents_of other (kind_tdim (r_tdim other) (r_kind other))))).
Proof.
  intros M r other r' n H. unfold region_contains in H.
  destruct (get_entities M r _) as [[r1 se]|e]; [|discriminate]. simpl in H. inversion H; subst. exists se. split; auto.
  set (oe := get_or _). split.
  - intros N. destruct (intersect1d se oe) as [|x l] eqn:E; [simpl in N; congruence|].
    exists x. apply intersect1d_In. rewrite E. simpl. auto.
  - intros (x & Hx). apply intersect1d_In in Hx. destruct (intersect1d se oe); [destruct Hx|discriminate].
Qed.

Theorem C22_contains_refuted : exists M r other r' n,
  region_contains M r other = Ok (r', n) /\ n <> 0 /\
  exists x, ents_of other 2 = Some [0; 1] /\ ents_of r 2 = Some [1] /\ In x [0; 1] /\ ~ In x [1].
Proof.
  exists exM, (set_ents (new_region 2 (mk_kind KCell false)) 2 [1]), (set_ents (new_region 2 (mk_kind KCell false)) 2 [0; 1]).
  eexists. exists 1. split; [vm_compute; reflexivity|]. split; [discriminate|]. exists 0.
  split; [reflexivity|]. split; [reflexivity|]. simpl. split; auto. intros [E|[]]; discriminate.
Qed.

Print Assumptions C18_operators.
Print Assumptions C19_from_vertices.
Print Assumptions C19_from_cells.
Print Assumptions C19_superset.
Print Assumptions C22_overlap_partial.
Print Assumptions C22_contains_refuted.
Print Assumptions C52_finalize.
