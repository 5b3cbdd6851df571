(** C140: conformity of uniform refinement, theorems. *)
From Coq Require Import Reals Lra Lia Permutation.
From Verif Require L_chunks.
From Verif Require Import Base M_mesh M_lagnodes M_fmf L_fmf M_map S_map M_refine P_mgeo L_refine P_refine P_refine2 P_refine3.
Open Scope nat_scope.

Ltac band H := rewrite ?Bool.andb_true_iff in H.
Lemma fall2 : forall a b P, fall a (fun s => fall b (fun i => P s i)) = true -> forall s i, s < a -> i < b -> P s i = true.
Proof. intros a b P H s i Hs Hi. pose proof (fall_spec _ _ H s Hs) as K. cbv beta in K. apply (fall_spec _ _ K i Hi). Qed.
Lemma facet_facts : forall g i, isgeom g -> i < nfa g ->
  (forall j, In j (nth i (gfacets g) []) -> j < gnv g) /\ length (nth i (gfacets g) []) < gnv g /\ NoDup (nth i (gfacets g) []) /\
  forall i', i' < nfa g -> incl (nth i (gfacets g) []) (nth i' (gfacets g) []) -> i = i'.
Proof.
  intros g i G Hi. destruct (chks g G) as (H & _). unfold chkF in H. pose proof (fall_spec _ _ H i Hi) as K. cbv beta in K. band K. destruct K as (((K1 & K2) & K3) & K4).
  rewrite forallb_forall in K1. split; [intros j Hj; apply Nat.ltb_lt; apply K1; auto|]. split; [apply Nat.ltb_lt; auto|]. split; [apply nodupb_spec; auto|].
  intros i' Hi' I. pose proof (fall_spec _ _ K4 i' Hi') as Q. cbv beta in Q. apply Bool.orb_true_iff in Q. destruct Q as [Q|Q]; [apply Nat.eqb_eq; auto|].
  apply Bool.negb_true_iff in Q. apply inclb_spec in I. congruence.
Qed.
Lemma rtab_facts : forall g r, isgeom g -> In r (rtab g) ->
  (forall j, In j (supp g r) -> j < gnv g) /\ NoDup (supp g r) /\ forall r', In r' (rtab g) -> kind r = kind r' -> incl (supp g r) (supp g r') -> r = r'.
Proof.
  intros g r G I. destruct (chks g G) as (_ & _ & _ & _ & _ & H). unfold chkR in H. band H. destruct H as [H _]. rewrite forallb_forall in H. specialize (H r I). band H.
  destruct H as [[H1 H2] H3]. rewrite forallb_forall in H1, H3. split; [intros j Hj; apply Nat.ltb_lt; apply H1; auto|]. split; [apply nodupb_spec; auto|].
  intros r' I' K S'. specialize (H3 r' I'). rewrite !Bool.orb_true_iff in H3. destruct H3 as [[H3|H3]|H3].
  - apply Bool.negb_true_iff, Nat.eqb_neq in H3. congruence.
  - apply Bool.negb_true_iff in H3. apply inclb_spec in S'. congruence.
  - apply rneqb_spec. auto.
Qed.
Lemma child_facts : forall g s, isgeom g -> s < nch g ->
  NoDup (child g s) /\ incl (seq 0 (gnv g)) (usupp g (child g s)) /\ forall s', s' < nch g -> incl (child g s) (child g s') -> s = s'.
Proof.
  intros g s G Hs. destruct (chks g G) as (_ & _ & _ & _ & _ & H). unfold chkR in H. band H. destruct H as [_ H]. pose proof (fall_spec _ _ H s Hs) as K. cbv beta in K. band K.
  destruct K as [[K1 K2] K3]. split; [apply nodupr_spec; auto|]. split; [apply inclb_spec; auto|]. intros s' Hs' I.
  pose proof (fall_spec _ _ K3 s' Hs') as Q. cbv beta in Q. apply Bool.orb_true_iff in Q. destruct Q as [Q|Q]; [|apply Nat.eqb_eq; auto].
  apply Bool.negb_true_iff in Q. apply inclr_spec in I. congruence.
Qed.
Lemma child_rtab : forall g s r, isgeom g -> s < nch g -> In r (child g s) -> In r (rtab g).
Proof.
  intros g s r G Hs I. apply In_nth with (d := RB) in I. destruct I as (j & J & <-). rewrite child_len in J by auto. apply child_In; auto.
Qed.
Lemma cf_In : forall g s i r, isgeom g -> s < nch g -> i < nfa g -> In r (cf g s i) -> In r (child g s).
Proof.
  intros g s i r G Hs Hi I. unfold cf in I. apply in_map_iff in I. destruct I as (j & <- & J). apply nth_In. rewrite child_len by auto. apply (facet_facts g i G Hi); auto.
Qed.
Lemma rchk : forall g r, In r (rtab g) -> rnode_chk g r = true.
Proof. intros g r I. pose proof (rtab_chk g) as Q. rewrite forallb_forall in Q. auto. Qed.

(** ** Node numbers *)
Lemma gid_range : forall g m t c r, isgeom g -> mesh_ok g m -> topo_ok g m t -> c < length (m_conn m) -> rnode_chk g r = true ->
  match kind r with
  | 0 => gid m t c r < o1 m | 1 => o1 m <= gid m t c r < o2 m t | 2 => o2 m t <= gid m t c r < o3 m t
  | _ => o3 m t <= gid m t c r < o3 m t + (if has_centres g then length (m_conn m) else 0)
  end.
Proof.
  intros g m t c r G [_ M] (TE & TF & TN) C Hr. destruct (M c C) as (L & _ & V). destruct r as [i|i|i|]; cbn [gid rnode_chk kind] in *.
  - apply Nat.ltb_lt in Hr. apply V, nth_In; lia.
  - apply Nat.ltb_lt in Hr. destruct TE as (_ & TE & _). destruct (TE c C) as [_ TE']. destruct (TE' i Hr) as [E P]. unfold o2. lia.
  - destruct g; try discriminate. apply Nat.ltb_lt in Hr. destruct (TF eq_refl) as (_ & TF' & _). destruct (TF' c C) as [_ TF1]. destruct (TF1 i Hr) as [E P]. unfold o3. lia.
  - rewrite Hr. lia.
Qed.
Lemma o_le : forall m t, o1 m <= o2 m t /\ o2 m t <= o3 m t.
Proof. intros. unfold o3, o2. lia. Qed.
Lemma gid_inv : forall g m t c c' r r', isgeom g -> mesh_ok g m -> topo_ok g m t -> c < length (m_conn m) -> c' < length (m_conn m) ->
  rnode_chk g r = true -> rnode_chk g r' = true -> gid m t c r = gid m t c' r' ->
  kind r = kind r' /\ Permutation (gverts_of m c (supp g r)) (gverts_of m c' (supp g r')) /\ (r = RB -> c = c').
Proof.
  intros g m t c c' r r' G M T C C' Hr Hr' E.
  assert (K : kind r = kind r').
  { pose proof (gid_range g m t c r G M T C Hr) as A. pose proof (gid_range g m t c' r' G M T C' Hr') as B. pose proof (o_le m t). destruct r, r'; cbn [kind] in *; auto; lia. }
  split; auto. destruct T as (TE & TF & TN).
  destruct r as [i|i|i|], r' as [i'|i'|i'|]; try discriminate; cbn [gid supp rnode_chk] in *.
  - split; [|discriminate]. unfold gverts_of. cbn. rewrite E. auto.
  - apply Nat.ltb_lt in Hr. apply Nat.ltb_lt in Hr'. split; [|discriminate]. destruct TE as (_ & _ & TE & _). apply (TE c c' i i'); auto. lia.
  - destruct g; try discriminate. apply Nat.ltb_lt in Hr. apply Nat.ltb_lt in Hr'. split; [|discriminate]. destruct (TF eq_refl) as (_ & _ & TE1 & _). apply (TE1 c c' i i'); auto. lia.
  - assert (c = c') by lia. subst. auto.
Qed.
Lemma gid_eq : forall g m t c c' r r', isgeom g -> mesh_ok g m -> topo_ok g m t -> c < length (m_conn m) -> c' < length (m_conn m) ->
  rnode_chk g r = true -> rnode_chk g r' = true -> kind r = kind r' -> kind r < 3 ->
  Permutation (gverts_of m c (supp g r)) (gverts_of m c' (supp g r')) -> gid m t c r = gid m t c' r'.
Proof.
  intros g m t c c' r r' G M (TE & TF & TN) C C' Hr Hr' K K3 P.
  destruct r as [i|i|i|], r' as [i'|i'|i'|]; try discriminate; cbn [gid supp rnode_chk kind] in *; try lia.
  - unfold gverts_of in P. cbn in P. apply Permutation_length_1 in P. auto.
  - apply Nat.ltb_lt in Hr. apply Nat.ltb_lt in Hr'. destruct TE as (_ & _ & TE & _). f_equal. apply (TE c c' i i'); auto.
  - destruct g; try discriminate. apply Nat.ltb_lt in Hr. apply Nat.ltb_lt in Hr'. destruct (TF eq_refl) as (_ & _ & TE1 & _). f_equal. apply (TE1 c c' i i'); auto.
Qed.
(** Local vertices of a cell from their global numbers *)
Lemma gverts_incl : forall g m c a b, mesh_ok g m -> c < length (m_conn m) -> (forall i, In i a -> i < gnv g) -> (forall i, In i b -> i < gnv g) ->
  incl (gverts_of m c a) (gverts_of m c b) -> incl a b.
Proof.
  intros g m c a b [_ M] C A B H i Hi. destruct (M c C) as (L & N & _).
  assert (I : In (nth i (nth c (m_conn m) []) 0) (gverts_of m c b)) by (apply H; unfold gverts_of; apply in_map_iff; exists i; auto).
  unfold gverts_of in I. apply in_map_iff in I. destruct I as (j & E & J). assert (j = i); [|subst; auto].
  apply (proj1 (NoDup_nth _ 0) N); auto; rewrite L; auto.
Qed.
Lemma gverts_NoDup : forall g m c a, mesh_ok g m -> c < length (m_conn m) -> (forall i, In i a -> i < gnv g) -> NoDup a -> NoDup (gverts_of m c a).
Proof.
  intros g m c a [_ M] C A N. destruct (M c C) as (L & Nr & _). unfold gverts_of. clear -A N Nr L. revert A N. induction a as [|x a IH]; intros A N; cbn; [constructor|].
  inversion N; subst. constructor; [|apply IH; auto; intros; apply A; cbn; auto]. intros I. apply in_map_iff in I. destruct I as (j & E & J).
  assert (j = x); [|subst; auto]. apply (proj1 (NoDup_nth _ 0) Nr); auto; rewrite L; apply A; cbn; auto.
Qed.
Lemma gid_inj : forall g m t c r r', isgeom g -> mesh_ok g m -> topo_ok g m t -> c < length (m_conn m) -> In r (rtab g) -> In r' (rtab g) -> gid m t c r = gid m t c r' -> r = r'.
Proof.
  intros g m t c r r' G M T C Hr Hr' E. destruct (gid_inv g m t c c r r' G M T C C (rchk g r Hr) (rchk g r' Hr') E) as (K & P & _).
  apply (rtab_facts g r G Hr); auto. apply (gverts_incl g m c); auto; [apply (rtab_facts g r G Hr)|apply (rtab_facts g r' G Hr')|].
  intros a Ha. apply (Permutation_in _ P). auto.
Qed.
Lemma gids_incl : forall g m t c l l', isgeom g -> mesh_ok g m -> topo_ok g m t -> c < length (m_conn m) -> incl l (rtab g) -> incl l' (rtab g) ->
  incl (map (gid m t c) l) (map (gid m t c) l') -> incl l l'.
Proof.
  intros g m t c l l' G M T C L L' H r Hr. assert (I : In (gid m t c r) (map (gid m t c) l')) by (apply H, in_map; auto).
  apply in_map_iff in I. destruct I as (r' & E & I). assert (r' = r); [|subst; auto]. apply (gid_inj g m t c); auto.
Qed.
Lemma gids_NoDup : forall g m t c l, isgeom g -> mesh_ok g m -> topo_ok g m t -> c < length (m_conn m) -> incl l (rtab g) -> NoDup l -> NoDup (map (gid m t c) l).
Proof.
  intros g m t c l G M T C. induction l as [|x l IH]; intros I N; cbn; [constructor|]. inversion N; subst. constructor; [|apply IH; auto; intros a Ha; apply I; cbn; auto].
  intros J. apply in_map_iff in J. destruct J as (y & E & J). assert (y = x); [|subst; auto]. apply (gid_inj g m t c); auto; apply I; cbn; auto.
Qed.
Lemma gids_union : forall g m t c c' l l', isgeom g -> mesh_ok g m -> topo_ok g m t -> c < length (m_conn m) -> c' < length (m_conn m) -> incl l (rtab g) -> incl l' (rtab g) ->
  incl (map (gid m t c) l) (map (gid m t c') l') -> incl (gverts_of m c (usupp g l)) (gverts_of m c' (usupp g l')).
Proof.
  intros g m t c c' l l' G M T C C' L L' H v Hv. unfold gverts_of, usupp in Hv. apply in_map_iff in Hv. destruct Hv as (a & <- & Ha).
  apply in_flat_map in Ha. destruct Ha as (r & Hr & Ha).
  assert (I : In (gid m t c r) (map (gid m t c') l')) by (apply H, in_map; auto). apply in_map_iff in I. destruct I as (r' & E & I).
  symmetry in E. destruct (gid_inv g m t c c' r r' G M T C C' (rchk g r (L r Hr)) (rchk g r' (L' r' I)) E) as (_ & P & _).
  assert (J : In (nth a (nth c (m_conn m) []) 0) (gverts_of m c' (supp g r'))) by (apply (Permutation_in _ P); unfold gverts_of; apply in_map_iff; exists a; auto).
  unfold gverts_of in J |- *. apply in_map_iff in J. destruct J as (b & <- & B). apply in_map_iff. exists b. split; auto. apply in_flat_map. exists r'. auto.
Qed.

(** ** Facets of the refined mesh *)
Lemma cf_rtab : forall g s i, isgeom g -> s < nch g -> i < nfa g -> incl (cf g s i) (rtab g).
Proof. intros g s i G Hs Hi r I. apply (child_rtab g s); auto. apply (cf_In g s i); auto. Qed.
Lemma new_facet : forall g m t m' c s i, isgeom g -> (forall c s, c < length (m_conn m) -> s < nch g -> nth (c * nch g + s) (m_conn m') [] = map (gid m t c) (child g s)) ->
  c < length (m_conn m) -> s < nch g -> i < nfa g -> facet g m' (c * nch g + s) i = map (gid m t c) (cf g s i).
Proof.
  intros g m t m' c s i G H C Hs Hi. unfold facet, cf. rewrite H by auto. rewrite map_map. apply map_ext_in. intros j J.
  apply nth_map_in. rewrite child_len by auto. apply (facet_facts g i G Hi); auto.
Qed.
Lemma chkA_facts : forall g s i, isgeom g -> s < nch g -> i < nfa g -> NoDup (cf g s i) /\
  ((exists F, F < nfa g /\ on g s i F /\ incl (nth F (gfacets g) []) (usupp g (cf g s i))) \/
   (incl (seq 0 (gnv g)) (usupp g (cf g s i)) /\ forall F, F < nfa g -> ~ on g s i F)).
Proof.
  intros g s i G Hs Hi. destruct (chks g G) as (_ & H & _). pose proof (fall2 _ _ _ H s i Hs Hi) as K. cbv zeta in K. band K. destruct K as [K1 K2].
  split; [apply nodupr_spec; auto|]. apply Bool.orb_true_iff in K2. destruct K2 as [K2|K2].
  - left. apply fex_spec in K2. destruct K2 as (F & HF & K). band K. destruct K as [K3 K4]. exists F. split; auto. split; [apply onb_spec; auto|apply inclb_spec; auto].
  - right. band K2. destruct K2 as [K3 K4]. split; [apply inclb_spec; auto|]. intros F HF O. pose proof (fall_spec _ _ K4 F HF) as Q. cbv beta in Q.
    apply onb_spec in O. rewrite O in Q. discriminate.
Qed.
Lemma on_usupp : forall g s i F, on g s i F -> incl (usupp g (cf g s i)) (nth F (gfacets g) []).
Proof. intros g s i F H a Ha. unfold usupp in Ha. apply in_flat_map in Ha. destruct Ha as (r & Hr & Ha). apply (H r); auto. Qed.
Lemma gverts_mono : forall m c a b, incl a b -> incl (gverts_of m c a) (gverts_of m c b).
Proof. intros m c a b H v Hv. unfold gverts_of in *. apply in_map_iff in Hv. destruct Hv as (i & <- & I). apply in_map_iff. exists i. auto. Qed.
Lemma gverts_all : forall g m c, mesh_ok g m -> c < length (m_conn m) -> gverts_of m c (seq 0 (gnv g)) = nth c (m_conn m) [].
Proof. intros g m c [_ M] C. unfold gverts_of. rewrite <- (proj1 (M c C)). apply map_nth_seq0. Qed.
Lemma usupp_lt : forall g l, isgeom g -> incl l (rtab g) -> forall j, In j (usupp g l) -> j < gnv g.
Proof. intros g l G L j J. unfold usupp in J. apply in_flat_map in J. destruct J as (r & Hr & J). apply (rtab_facts g r G (L r Hr)); auto. Qed.
(** The cells with the same facets *)
Lemma shared_cases : forall g m t c c' s s' i i', isgeom g -> valid g m -> topo_ok g m t -> c < length (m_conn m) -> c' < length (m_conn m) ->
  s < nch g -> s' < nch g -> i < nfa g -> i' < nfa g -> Permutation (map (gid m t c) (cf g s i)) (map (gid m t c') (cf g s' i')) -> c' <> c ->
  forall F, F < nfa g -> on g s i F -> exists F', F' < nfa g /\ on g s' i' F' /\ same g m c F c' F'.
Proof.
  intros g m t c c' s s' i i' G (M & D & A) T C C' Hs Hs' Hi Hi' P Nc F HF O.
  pose proof (cf_rtab g s i G Hs Hi) as L. pose proof (cf_rtab g s' i' G Hs' Hi') as L'.
  assert (U : incl (gverts_of m c (usupp g (cf g s i))) (gverts_of m c' (usupp g (cf g s' i')))) by (apply (gids_union g m t); auto; intros a Ha; apply (Permutation_in _ P); auto).
  assert (U' : incl (gverts_of m c' (usupp g (cf g s' i'))) (gverts_of m c (usupp g (cf g s i)))) by (apply (gids_union g m t); auto; intros a Ha; apply (Permutation_in _ (Permutation_sym P)); auto).
  pose proof (facet_facts g F G HF) as (F1 & F2 & F3 & F4).
  destruct (chkA_facts g s' i' G Hs' Hi') as (_ & [(F' & HF' & O' & I')|(I' & _)]).
  - destruct (chkA_facts g s i G Hs Hi) as (_ & [(F0 & HF0 & O0 & I0)|(I0 & N0)]); [|exfalso; apply (N0 F); auto].
    exists F'. split; auto. split; auto. pose proof (facet_facts g F' G HF') as (G1 & G2 & G3 & G4).
    assert (F0 = F). { pose proof (facet_facts g F0 G HF0) as (_ & _ & _ & Q). apply Q; auto. intros a Ha. apply (on_usupp g s i F O). auto. }
    subst F0. unfold same. apply NoDup_Permutation; [apply (gverts_NoDup g m c); auto|apply (gverts_NoDup g m c'); auto|].
    intros v. split; intros Hv.
    + apply (gverts_mono m c' _ _ (on_usupp g s' i' F' O')). apply U. apply (gverts_mono m c _ _ I0). exact Hv.
    + apply (gverts_mono m c _ _ (on_usupp g s i F O)). apply U'. apply (gverts_mono m c' _ _ I'). exact Hv.
  - exfalso. destruct M as [M0 M]. destruct (M c' C') as (L1 & N1 & _).
    assert (Q : incl (nth c' (m_conn m) []) (gverts_of m c (nth F (gfacets g) []))).
    { rewrite <- (gverts_all g m c') by (auto; split; auto). intros v Hv. apply (gverts_mono m c _ _ (on_usupp g s i F O)). apply U'. apply (gverts_mono m c' _ _ I'). exact Hv. }
    apply NoDup_incl_length in Q; auto. unfold gverts_of in Q. rewrite map_length, L1 in Q. lia.
Qed.
Lemma inner_cases : forall g m t c c' s s' i i', isgeom g -> valid g m -> topo_ok g m t -> c < length (m_conn m) -> c' < length (m_conn m) ->
  s < nch g -> s' < nch g -> i < nfa g -> i' < nfa g -> Permutation (map (gid m t c) (cf g s i)) (map (gid m t c') (cf g s' i')) ->
  (forall F, F < nfa g -> ~ on g s i F) -> c' = c.
Proof.
  intros g m t c c' s s' i i' G V T C C' Hs Hs' Hi Hi' P O. pose proof V as (M & D & A). destruct (Nat.eq_dec c' c) as [|Nc]; auto. exfalso.
  pose proof (cf_rtab g s i G Hs Hi) as L. pose proof (cf_rtab g s' i' G Hs' Hi') as L'.
  destruct (chkA_facts g s' i' G Hs' Hi') as (_ & [(F' & HF' & O' & I')|(I' & _)]).
  - destruct (shared_cases g m t c' c s' s i' i G V T C' C Hs' Hs Hi' Hi (Permutation_sym P) (fun E => Nc (eq_sym E)) F' HF' O') as (F & HF & OF & _). apply (O F); auto.
  - destruct (chkA_facts g s i G Hs Hi) as (_ & [(F & HF & O0 & _)|(I0 & _)]); [apply (O F); auto|].
    apply Nc. symmetry. apply D; auto. apply NoDup_Permutation_bis; [apply (proj2 M c C)|rewrite (proj1 (proj2 M c C)), (proj1 (proj2 M c' C')); auto|].
    rewrite <- (gverts_all g m c M C), <- (gverts_all g m c' M C').
    intros v Hv. apply (gverts_mono m c _ _ I0) in Hv. apply (gids_union g m t c c' _ _ G M T C C' L L') in Hv; [|intros a Ha; apply (Permutation_in _ P); auto].
    revert Hv. apply gverts_mono. intros j J. apply in_seq. pose proof (usupp_lt g _ G L' j J). lia.
Qed.
Lemma chkB_facts : forall g s i, isgeom g -> s < nch g -> i < nfa g ->
  ((exists F, F < nfa g /\ on g s i F) -> forall s' i', s' < nch g -> i' < nfa g -> incl (cf g s i) (cf g s' i') -> s' = s /\ i' = i) /\
  ((forall F, F < nfa g -> ~ on g s i F) -> exists s1 i1, s1 < nch g /\ i1 < nfa g /\ s1 <> s /\ incl (cf g s i) (cf g s1 i1) /\ incl (cf g s1 i1) (cf g s i) /\
     forall s' i', s' < nch g -> i' < nfa g -> incl (cf g s i) (cf g s' i') -> (s' = s /\ i' = i) \/ (s' = s1 /\ i' = i1)).
Proof.
  intros g s i G Hs Hi. destruct (chks g G) as (_ & _ & H & _). pose proof (fall2 _ _ _ H s i Hs Hi) as K. cbv beta in K. destruct (inner g s i) eqn:I.
  - split.
    + intros (F & HF & O). exfalso. pose proof (fall_spec _ _ I F HF) as Q. cbv beta in Q. apply onb_spec in O. rewrite O in Q. discriminate.
    + intros _. apply fex_spec in K. destruct K as (s1 & H1 & K). band K. destruct K as [K1 K]. apply fex_spec in K. destruct K as (i1 & H2 & K). band K. destruct K as [[K2 K3] K4].
      exists s1, i1. split; auto. split; auto. split; [apply Bool.negb_true_iff, Nat.eqb_neq in K1; auto|]. split; [apply inclr_spec; auto|]. split; [apply inclr_spec; auto|].
      intros s' i' Hs' Hi' J. pose proof (fall2 _ _ _ K4 s' i' Hs' Hi') as Q. cbv beta in Q. rewrite !Bool.orb_true_iff in Q. destruct Q as [[Q|Q]|Q].
      * apply Bool.negb_true_iff in Q. apply inclr_spec in J. congruence.
      * band Q. rewrite !Nat.eqb_eq in Q. auto.
      * band Q. rewrite !Nat.eqb_eq in Q. auto.
  - split.
    + intros _ s' i' Hs' Hi' J. pose proof (fall2 _ _ _ K s' i' Hs' Hi') as Q. cbv beta in Q. rewrite !Bool.orb_true_iff in Q. destruct Q as [Q|Q].
      * apply Bool.negb_true_iff in Q. apply inclr_spec in J. congruence.
      * band Q. rewrite !Nat.eqb_eq in Q. auto.
    + intros N. exfalso. assert (inner g s i = true); [|congruence]. unfold inner, fall. apply forallb_forall. intros F HF. apply in_seq in HF. apply Bool.negb_true_iff.
      destruct (onb g s i F) eqn:E; auto. exfalso. apply (N F); [lia|]. apply onb_spec. auto.
Qed.
(** The vertices of a common facet: a map of the local vertices *)
Lemma sig_spec : forall m c c' F q, length q = length F -> gverts_of m c F = gverts_of m c' q -> forall a, incl a F -> gverts_of m c a = gverts_of m c' (map (sig F q) a).
Proof.
  intros m c c' F q L E a I. unfold gverts_of in *. rewrite map_map. apply map_ext_in. intros v Hv. destruct (index_nth v F 0 (I v Hv)) as [K1 K2].
  assert (Q := f_equal (fun l => nth (index v F) l 0) E). cbv beta in Q. rewrite !nth_map_in with (da := 0) in Q by lia. rewrite K2 in Q. exact Q.
Qed.
Lemma match_exists : forall g m t c c' s i F F', isgeom g -> valid g m -> topo_ok g m t -> c < length (m_conn m) -> c' < length (m_conn m) ->
  s < nch g -> i < nfa g -> F < nfa g -> F' < nfa g -> on g s i F -> same g m c F c' F' ->
  exists s' i', s' < nch g /\ i' < nfa g /\ on g s' i' F' /\ Permutation (map (gid m t c) (cf g s i)) (map (gid m t c') (cf g s' i')).
Proof.
  intros g m t c c' s i F F' G V T C C' Hs Hi HF HF' O P. pose proof V as (M & D & A). unfold same in P.
  destruct (facet_facts g F G HF) as (F1 & F2 & F3 & _). destruct (facet_facts g F' G HF') as (G1 & G2 & G3 & _).
  pose proof P as P0.
  assert (Q : exists q, Permutation (nth F' (gfacets g) []) q /\ gverts_of m c (nth F (gfacets g) []) = gverts_of m c' q).
  { clear P. unfold facet in P0. destruct (@Permutation_map_inv _ _ (fun j => nth j (nth c' (m_conn m) []) 0) _ _ P0) as (q & E & Hq). exists q. split; auto. }
  clear P. destruct Q as (q & Pq & Eq).
  assert (Lq : length q = length (nth F (gfacets g) [])) by (apply (f_equal (@length nat)) in Eq; unfold gverts_of in Eq; rewrite !map_length in Eq; auto).
  pose proof (sig_spec m c c' _ q Lq Eq) as Sg.
  assert (Slt : forall v, In v (nth F (gfacets g) []) -> sig (nth F (gfacets g) []) q v < gnv g).
  { intros v Hv. unfold sig. destruct (index_nth v _ 0 Hv) as [K1 K2]. apply G1. apply (Permutation_in _ (Permutation_sym Pq)). apply nth_In. lia. }
  assert (Ek : edgesok g (nth F (gfacets g) []) q = true).
  { destruct (chks g G) as (_ & _ & _ & _ & H & _). unfold chkE in H.
    assert (Z : g = Hex \/ fall (nfa g) (fun F => fall (nfa g) (fun F' => forallb (fun q => edgesok g (nth F (gfacets g) []) q) (perms (nth F' (gfacets g) [])))) = true) by (destruct g; auto).
    destruct Z as [Z|Z].
    - unfold edgesok. apply forallb_forall. intros e He. destruct (inclb e (nth F (gfacets g) [])) eqn:Ie; auto. cbn. apply inclb_spec in Ie.
      subst g. destruct (A eq_refl c F c' F' C C' HF HF' P0 e He Ie) as (e' & He' & Pe). apply existsb_exists. exists e'. split; auto. apply inclb_spec.
      apply (gverts_incl Hex m c'); auto.
      + intros j J. apply in_map_iff in J. destruct J as (v & <- & Hv). apply Slt. auto.
      + intros j J. assert (Y : forallb (fun e => forallb (fun i => i <? 8) e) edges_3_8 = true) by (vm_compute; reflexivity). rewrite forallb_forall in Y. specialize (Y e' He').
        rewrite forallb_forall in Y. apply Nat.ltb_lt. apply Y. auto.
      + rewrite <- Sg by auto. intros v Hv. apply (Permutation_in _ Pe). auto.
    - pose proof (fall2 _ _ _ Z F F' HF HF') as Y. cbv beta in Y. rewrite forallb_forall in Y. apply Y. apply perms_In. auto. }
  destruct (chks g G) as (_ & _ & _ & H & _). pose proof (fall2 _ _ _ H F F' HF HF') as Y. cbv beta in Y. rewrite forallb_forall in Y. specialize (Y q (perms_In _ _ Pq)).
  rewrite Ek in Y. cbn [negb orb] in Y. pose proof (fall2 _ _ _ Y s i Hs Hi) as X. cbv beta in X. pose proof (proj2 (onb_spec g s i F) O) as Ob. rewrite Ob in X. cbn [negb orb] in X.
  apply fex_spec in X. destruct X as (s' & Hs' & X). apply fex_spec in X. destruct X as (i' & Hi' & X). band X. destruct X as [X1 X2]. apply onb_spec in X1. rewrite forallb_forall in X2.
  pose proof (cf_rtab g s i G Hs Hi) as L. pose proof (cf_rtab g s' i' G Hs' Hi') as L'.
  assert (J : incl (map (gid m t c) (cf g s i)) (map (gid m t c') (cf g s' i'))).
  { intros k Hk. apply in_map_iff in Hk. destruct Hk as (r & <- & Hr). specialize (X2 r Hr). apply existsb_exists in X2. destruct X2 as (r' & Hr' & X). unfold matchr in X. band X.
    destruct X as [[[Z1 Z2] Z3] Z4]. apply Nat.eqb_eq in Z1. apply Nat.ltb_lt in Z2. apply inclb_spec in Z3. apply inclb_spec in Z4.
    apply in_map_iff. exists r'. split; auto. symmetry. apply (gid_eq g m t c c' r r'); auto; [apply rchk; auto|apply rchk; auto|].
    destruct (rtab_facts g r G (L r Hr)) as (W1 & W2 & _). destruct (rtab_facts g r' G (L' r' Hr')) as (W1' & W2' & _).
    apply NoDup_Permutation; [apply (gverts_NoDup g); auto|apply (gverts_NoDup g); auto|]. rewrite (Sg (supp g r)) by (apply O; auto).
    intros v. split; apply gverts_mono; auto. }
  exists s', i'. split; auto. split; auto. split; auto.
  destruct (chkA_facts g s i G Hs Hi) as (N & _). destruct (chkA_facts g s' i' G Hs' Hi') as (N' & _).
  apply NoDup_Permutation_bis; auto.
  - apply (gids_NoDup g m t); auto.
  - rewrite !map_length. unfold cf. rewrite !map_length.
    assert (Z : forall i i', i < nfa g -> i' < nfa g -> length (nth i (gfacets g) []) = length (nth i' (gfacets g) [])).
    { clear. intros i i' Hi Hi'. destruct g; cbn in Hi, Hi'; do 8 (try destruct i as [|i]; try lia); do 8 (try destruct i' as [|i']; try lia); reflexivity. }
    rewrite (Z i' i); auto.
Qed.

(** ** Theorems *)
Lemma refined : forall g m, isgeom g -> mesh_ok g m -> exists t m', topo_ok g m t /\ refine g m = Some m' /\ length (m_conn m') = nch g * length (m_conn m) /\
  m_n m' = o3 m t + (if has_centres g then length (m_conn m) else 0) /\ length (m_grp m') = length (m_conn m') /\
  forall c s, c < length (m_conn m) -> s < nch g -> nth (c * nch g + s) (m_conn m') [] = map (gid m t c) (child g s).
Proof.
  intros g m G M. destruct (@topology_ok g m G M) as (t & T & TO). exists t. eexists. split; [exact TO|]. unfold refine. rewrite T. split; [reflexivity|]. cbn [m_n m_x m_conn m_grp].
  assert (L : length (reshape (gnv g) (flat_map (fun c => map (gid m t c) (rtab g)) (seq 0 (length (m_conn m))))) = nch g * length (m_conn m)).
  { destruct (@reshape_rows _ (fun c => map (gid m t c) (rtab g)) (gnv g) (nch g) (length (m_conn m)) (gnv_pos g)) as [H _]; auto.
    intros c'. rewrite map_length, rtab_len; auto. }
  split; [exact L|]. split; [reflexivity|]. split.
  - rewrite L, n_child_eq by auto. unfold repeat_each. rewrite (@flat_len _ _ (fun a => repeat a (nch g)) (nch g)) by (intros; apply repeat_length). rewrite (proj1 M). reflexivity.
  - intros c s C Hs. apply refine_rows; auto.
Qed.
Lemma split_index : forall k N n, 0 < k -> n < k * N -> exists c s, n = c * k + s /\ c < N /\ s < k.
Proof.
  intros k N n K H. exists (n / k), (n mod k). split; [rewrite (Nat.div_mod n k) at 1 by lia; lia|]. split; [apply Nat.div_lt_upper_bound; lia|apply Nat.mod_upper_bound; lia].
Qed.
Lemma nch_pos : forall g, 0 < nch g.
Proof. intros []; cbn; lia. Qed.
Lemma near_sym_kind : forall a b a' b', kind a = kind a' -> kind b = kind b' -> near a b = near a' b'.
Proof. intros a b a' b' A B. unfold near. rewrite A, B. reflexivity. Qed.
Lemma refine_valid : forall g m m', isgeom g -> valid g m -> refine g m = Some m' -> valid g m'.
Proof.
  intros g m m' G V E. pose proof V as (M & D & A). destruct (refined g m G M) as (t & m1 & T & E1 & L & Nn & Gr & Rw). rewrite E in E1. injection E1 as <-.
  assert (K : forall n, n < length (m_conn m') -> exists c s, n = c * nch g + s /\ c < length (m_conn m) /\ s < nch g) by (intros n Hn; apply split_index; [apply nch_pos|rewrite <- L; auto]).
  assert (RT : forall s, s < nch g -> incl (child g s) (rtab g)) by (intros s Hs r Hr; apply (child_rtab g s); auto).
  split; [|split].
  - split; auto. intros n Hn. destruct (K n Hn) as (c & s & -> & C & Hs). rewrite Rw by auto. destruct (child_facts g s G Hs) as (N & _ & _).
    split; [rewrite map_length; apply child_len; auto|]. split; [apply (gids_NoDup g); auto|].
    intros v Hv. apply in_map_iff in Hv. destruct Hv as (r & <- & Hr). pose proof (gid_range g m t c r G M T C (rchk g r (RT s Hs r Hr))) as Q. pose proof (o_le m t). rewrite Nn.
    destruct r; cbn [kind] in Q; lia.
  - intros n n' Hn Hn' P. destruct (K n Hn) as (c & s & -> & C & Hs). destruct (K n' Hn') as (c' & s' & -> & C' & Hs'). rewrite !Rw in P by auto.
    destruct (child_facts g s G Hs) as (N & U & Q). destruct (child_facts g s' G Hs') as (N' & U' & Q').
    assert (c = c').
    { apply D; auto. apply NoDup_Permutation_bis; [apply (proj2 M c C)|rewrite (proj1 (proj2 M c C)), (proj1 (proj2 M c' C')); auto|].
      rewrite <- (gverts_all g m c M C), <- (gverts_all g m c' M C').
      intros v Hv. apply (gverts_mono m c _ _ U) in Hv. apply (gids_union g m t c c' _ (child g s') G M T C C' (RT s Hs) (RT s' Hs')) in Hv; [|intros a Ha; apply (Permutation_in _ P); auto].
      revert Hv. apply gverts_mono. intros j J. apply in_seq. pose proof (usupp_lt g _ G (RT s' Hs') j J). lia. }
    subst c'. f_equal. apply Q; auto. apply (gids_incl g m t c); auto. intros a Ha. apply (Permutation_in _ P). auto.
  - intros Hg. subst g. intros n i n' i' Hn Hn' Hi Hi' P e He Ie. destruct (K n Hn) as (c & s & -> & C & Hs). destruct (K n' Hn') as (c' & s' & -> & C' & Hs').
    unfold same in P. rewrite !(new_facet Hex m t m') in P by auto.
    pose proof chkH_ok as H. unfold chkH in H. pose proof (fall2 _ _ _ H s i Hs Hi) as H1. pose proof (fall2 _ _ _ H s' i' Hs' Hi') as H2. clear H. cbv zeta in H1, H2. band H1. band H2.
    destruct H1 as [H1 _]. destruct H2 as [_ H2]. rewrite forallb_forall in H1, H2. specialize (H1 e He). rewrite (proj2 (inclb_spec _ _) Ie) in H1. cbn [negb orb] in H1.
    assert (Ee : e = [nth 0 e 0; nth 1 e 0]). { cbn in He. repeat (destruct He as [<- | He]; [reflexivity|]). destruct He. }
    set (a := nth 0 e 0) in *. set (b := nth 1 e 0) in *.
    assert (Z : forall j, In j (nth i faces_3_8 []) -> exists j', In j' (nth i' faces_3_8 []) /\ gid m t c (nth j (child Hex s) RB) = gid m t c' (nth j' (child Hex s') RB) /\
      kind (nth j (child Hex s) RB) = kind (nth j' (child Hex s') RB) /\ j < 8 /\ j' < 8).
    { intros j J. assert (I : In (gid m t c (nth j (child Hex s) RB)) (map (gid m t c') (cf Hex s' i'))).
      { apply (Permutation_in _ P). apply in_map. unfold cf. apply in_map_iff. exists j. auto. }
      apply in_map_iff in I. destruct I as (r' & E' & I). pose proof (cf_rtab Hex s' i' G Hs' Hi' r' I) as Ir. unfold cf in I. apply in_map_iff in I. destruct I as (j' & <- & J').
      exists j'. split; auto. split; auto. assert (j < 8) by (apply (proj1 (facet_facts Hex i G Hi)); auto). assert (j' < 8) by (apply (proj1 (facet_facts Hex i' G Hi')); auto).
      split; auto. symmetry. apply (gid_inv Hex m t c' c); auto; apply rchk; auto. apply child_In; auto. }
    assert (Ia : In a (nth i faces_3_8 [])) by (apply Ie; rewrite Ee; cbn; auto). assert (Ib : In b (nth i faces_3_8 [])) by (apply Ie; rewrite Ee; cbn; auto).
    destruct (Z a Ia) as (a' & Ja & Ea & Ka & La & La'). destruct (Z b Ib) as (b' & Jb & Eb & Kb & Lb & Lb').
    specialize (H2 a' Ja). rewrite forallb_forall in H2. specialize (H2 b' Jb). rewrite <- (near_sym_kind _ _ _ _ Ka Kb), H1 in H2. cbn [negb orb] in H2.
    apply existsb_exists in H2. destruct H2 as (e' & He' & Ie'). apply inclb_spec in Ie'. exists e'. split; auto.
    assert (Lg : length (gverts_of m' (c * nch Hex + s) e) = 2) by (rewrite Ee; reflexivity).
    assert (Lg' : length (gverts_of m' (c' * nch Hex + s') e') = 2) by (cbn in He'; repeat (destruct He' as [<- | He']; [reflexivity|]); destruct He').
    assert (Ev : gverts_of m' (c * nch Hex + s) e = [gid m t c (nth a (child Hex s) RB); gid m t c (nth b (child Hex s) RB)]).
    { rewrite Ee. unfold gverts_of. rewrite Rw by auto. cbn [map]. rewrite !nth_map_in with (da := RB) by (rewrite child_len; auto). reflexivity. }
    assert (Nd : a <> b). { intros Q. cbn in He. rewrite Ee, Q in He. repeat (destruct He as [He | He]; [inversion He; lia|]). destruct He. }
    destruct (child_facts Hex s G Hs) as (Nc & _).
    apply NoDup_Permutation_bis; [|rewrite Lg, Lg'; auto|].
    + rewrite Ev. constructor; [|constructor; [intros []|constructor]]. intros [Q|[]]. apply Nd. apply (proj1 (NoDup_nth _ RB) Nc); [rewrite child_len; auto|rewrite child_len; auto|].
      symmetry. apply (gid_inj Hex m t c); auto; apply child_In; auto.
    + rewrite Ev. intros v Hv. unfold gverts_of. rewrite Rw by auto. apply in_map_iff. destruct Hv as [<- | [<- | []]]; [exists a'|exists b']; (split; [|apply Ie'; cbn; auto]).
      * rewrite nth_map_in with (da := RB) by (rewrite child_len; auto). auto.
      * rewrite nth_map_in with (da := RB) by (rewrite child_len; auto). auto.
Qed.

(** A facet of a child lies in a facet of the parent, or inside of the parent. In the former case it is shared just with
    one child of each cell sharing that facet of the parent; in the latter case just with one other child of the same
    parent. No facet is cut by a hanging node. *)
Theorem C140_conforming : forall g m, isgeom g -> valid g m -> exists m', refine g m = Some m' /\ valid g m' /\
  forall c s i, c < length (m_conn m) -> s < 2 ^ gdim g -> i < nfa g ->
    let at_ c s := c * 2 ^ gdim g + s in
    (exists F, F < nfa g /\ on g s i F /\
       (forall c' s' i', c' < length (m_conn m) -> s' < 2 ^ gdim g -> i' < nfa g -> same g m' (at_ c s) i (at_ c' s') i' ->
          (c' = c /\ s' = s /\ i' = i) \/ (c' <> c /\ exists F', F' < nfa g /\ on g s' i' F' /\ same g m c F c' F')) /\
       (forall c' F', c' < length (m_conn m) -> F' < nfa g -> same g m c F c' F' ->
          exists s' i', s' < 2 ^ gdim g /\ i' < nfa g /\ on g s' i' F' /\ same g m' (at_ c s) i (at_ c' s') i' /\
            forall s'' i'', s'' < 2 ^ gdim g -> i'' < nfa g -> same g m' (at_ c s) i (at_ c' s'') i'' -> s'' = s' /\ i'' = i')) \/
    ((forall F, F < nfa g -> ~ on g s i F) /\
       exists s1 i1, s1 < 2 ^ gdim g /\ i1 < nfa g /\ s1 <> s /\ same g m' (at_ c s) i (at_ c s1) i1 /\
         forall c' s' i', c' < length (m_conn m) -> s' < 2 ^ gdim g -> i' < nfa g -> same g m' (at_ c s) i (at_ c' s') i' ->
           c' = c /\ ((s' = s /\ i' = i) \/ (s' = s1 /\ i' = i1))).
Proof.
  intros g m G V. pose proof V as (M & D & A). destruct (refined g m G M) as (t & m' & T & E & L & Nn & Gr & Rw). exists m'. split; auto.
  split; [apply (refine_valid g m); auto|]. intros c s i C Hs Hi at_. unfold at_, same. clear at_.
  assert (NF : forall c s i, c < length (m_conn m) -> s < nch g -> i < nfa g -> facet g m' (c * nch g + s) i = map (gid m t c) (cf g s i)) by (intros; apply new_facet; auto).
  assert (LI : forall c s i s' i', c < length (m_conn m) -> s < nch g -> i < nfa g -> s' < nch g -> i' < nfa g -> Permutation (map (gid m t c) (cf g s i)) (map (gid m t c) (cf g s' i')) -> incl (cf g s i) (cf g s' i')).
  { intros c0 s0 i0 s' i' C0 H0 I0 Hs' Hi' P. apply (gids_incl g m t c0); auto; try (apply cf_rtab; auto). intros a Ha. apply (Permutation_in _ P). auto. }
  destruct (chkA_facts g s i G Hs Hi) as (N & [(F & HF & O & _)|(_ & O)]).
  - left. exists F. split; auto. split; auto. split.
    + intros c' s' i' C' Hs' Hi' P. rewrite !NF in P by auto. destruct (Nat.eq_dec c' c) as [->|Nc].
      * left. split; auto. apply (proj1 (chkB_facts g s i G Hs Hi)); eauto.
      * right. split; auto. apply (shared_cases g m t c c' s s' i i'); auto.
    + intros c' F' C' HF' P. destruct (match_exists g m t c c' s i F F' G V T C C' Hs Hi HF HF' O P) as (s' & i' & Hs' & Hi' & O' & P').
      exists s', i'. split; auto. split; auto. split; auto. split; [rewrite !NF by auto; auto|].
      intros s'' i'' Hs'' Hi'' P''. rewrite !NF in P'' by auto.
      apply (proj1 (chkB_facts g s' i' G Hs' Hi')); eauto. apply (LI c'); auto. transitivity (map (gid m t c) (cf g s i)); auto. apply Permutation_sym; auto.
  - right. split; auto. destruct (proj2 (chkB_facts g s i G Hs Hi) O) as (s1 & i1 & H1 & H2 & H3 & I1 & I2 & U). exists s1, i1. split; auto. split; auto. split; auto. split.
    + rewrite !NF by auto. destruct (chkA_facts g s1 i1 G H1 H2) as (N1 & _). apply Permutation_map. apply NoDup_Permutation; auto. intros x. split; auto.
    + intros c' s' i' C' Hs' Hi' P. rewrite !NF in P by auto. assert (c' = c) by (apply (inner_cases g m t c c' s s' i i'); auto). subst c'. split; auto. apply U; auto. apply (LI c); auto.
Qed.

(** If each facet is in one or two cells then the same holds in the refined mesh, and the boundary of the refined mesh is
    the refined boundary. *)
Definition two_cells (g : geom) (m : mesh) : Prop :=
  forall n i n1 i1 n2 i2, n < length (m_conn m) -> n1 < length (m_conn m) -> n2 < length (m_conn m) -> i < nfa g -> i1 < nfa g -> i2 < nfa g ->
    same g m n i n1 i1 -> same g m n i n2 i2 -> n1 <> n -> n2 <> n -> n1 = n2 /\ i1 = i2.
Definition boundary (g : geom) (m : mesh) (n i : nat) : Prop :=
  forall n' i', n' < length (m_conn m) -> i' < nfa g -> same g m n i n' i' -> n' = n.
Lemma same_loc : forall g m c i i', isgeom g -> mesh_ok g m -> c < length (m_conn m) -> i < nfa g -> i' < nfa g -> same g m c i c i' -> i' = i.
Proof.
  intros g m c i i' G M C Hi Hi' P. symmetry. apply (facet_facts g i G Hi); auto. apply (gverts_incl g m c); auto; [apply (facet_facts g i G Hi)|apply (facet_facts g i' G Hi')|].
  intros a Ha. apply (Permutation_in _ P). auto.
Qed.
Theorem C140_boundary : forall g m, isgeom g -> valid g m -> two_cells g m -> exists m', refine g m = Some m' /\ valid g m' /\ two_cells g m' /\
  forall c s i, c < length (m_conn m) -> s < 2 ^ gdim g -> i < nfa g ->
    (boundary g m' (c * 2 ^ gdim g + s) i <-> exists F, F < nfa g /\ on g s i F /\ boundary g m c F).
Proof.
  intros g m G V W. pose proof V as (M & _). destruct (C140_conforming g m G V) as (m' & E & V' & H). exists m'. split; auto. split; auto.
  destruct (refined g m G M) as (t & m1 & T & E1 & L & Nn & Gr & Rw). rewrite E in E1. injection E1 as <-. clear Rw Nn Gr T t.
  assert (K : forall n, n < length (m_conn m') -> exists c s, n = c * nch g + s /\ c < length (m_conn m) /\ s < nch g) by (intros n Hn; apply split_index; [apply nch_pos|rewrite <- L; auto]).
  assert (B : forall c s, c < length (m_conn m) -> s < nch g -> c * nch g + s < length (m_conn m')) by (intros c s C Hs; rewrite L; nia).
  assert (ON : forall s i F F', s < nch g -> i < nfa g -> F < nfa g -> F' < nfa g -> on g s i F -> on g s i F' -> F = F').
  { intros s i F F' Hs Hi HF HF' O O'. destruct (chkA_facts g s i G Hs Hi) as (_ & [(F0 & HF0 & O0 & I0)|(_ & N)]); [|exfalso; apply (N F); auto].
    transitivity F0; [symmetry|]; apply (facet_facts g F0 G HF0); auto; intros a Ha; [apply (on_usupp g s i F O)|apply (on_usupp g s i F' O')]; auto. }
  split.
  - intros n i n1 i1 n2 i2 Hn H1 H2 Hi Hi1 Hi2 S1 S2 N1 N2.
    destruct (K n Hn) as (c & s & -> & C & Hs). destruct (K n1 H1) as (c1 & s1 & -> & C1 & Hs1). destruct (K n2 H2) as (c2 & s2 & -> & C2 & Hs2).
    destruct (H c s i C Hs Hi) as [(F & HF & O & P & Q)|(_ & s0 & i0 & _ & _ & _ & _ & U)].
    + destruct (P c1 s1 i1 C1 Hs1 Hi1 S1) as [(-> & -> & _)|(A1 & F1 & HF1 & O1 & X1)]; [congruence|].
      destruct (P c2 s2 i2 C2 Hs2 Hi2 S2) as [(-> & -> & _)|(A2 & F2 & HF2 & O2 & X2)]; [congruence|].
      destruct (W c F c1 F1 c2 F2 C C1 C2 HF HF1 HF2 X1 X2 A1 A2) as [<- <-].
      destruct (Q c1 F1 C1 HF1 X1) as (s' & i' & _ & _ & _ & _ & U). destruct (U s1 i1 Hs1 Hi1 S1) as [-> ->]. destruct (U s2 i2 Hs2 Hi2 S2) as [-> ->]. auto.
    + destruct (U c1 s1 i1 C1 Hs1 Hi1 S1) as (-> & [(-> & ->)|(-> & ->)]); [congruence|].
      destruct (U c2 s2 i2 C2 Hs2 Hi2 S2) as (-> & [(-> & ->)|(-> & ->)]); [congruence|]. auto.
  - intros c s i C Hs Hi. split.
    + intros Bd. destruct (H c s i C Hs Hi) as [(F & HF & O & P & Q)|(_ & s0 & i0 & Hs0 & Hi0 & Ns & S0 & _)].
      * exists F. split; auto. split; auto. intros c' F' C' HF' X. destruct (Q c' F' C' HF' X) as (s' & i' & Hs' & Hi' & _ & S' & _).
        pose proof (Bd _ _ (B c' s' C' Hs') Hi' S') as Z. nia.
      * pose proof (Bd _ _ (B c s0 C Hs0) Hi0 S0) as Z. exfalso. apply Ns. lia.
    + intros (F0 & HF0 & O0 & Bd) n' i' Hn' Hi' S'. destruct (K n' Hn') as (c' & s' & -> & C' & Hs').
      destruct (H c s i C Hs Hi) as [(F & HF & O & P & Q)|(N & _)]; [|exfalso; apply (N F0); auto].
      destruct (P c' s' i' C' Hs' Hi' S') as [(-> & -> & _)|(A1 & F1 & HF1 & O1 & X1)]; auto.
      rewrite (ON s i F0 F) in Bd by auto. exfalso. apply A1. apply (Bd c' F1); auto.
Qed.
(** Any number of refinements *)
Fixpoint refine_n (g : geom) (k : nat) (m : mesh) : option mesh :=
  match k with 0 => Some m | S k => match refine g m with Some m' => refine_n g k m' | None => None end end.
Theorem C140_iterated : forall g k m, isgeom g -> valid g m -> two_cells g m ->
  exists m', refine_n g k m = Some m' /\ valid g m' /\ two_cells g m' /\ length (m_conn m') = (2 ^ gdim g) ^ k * length (m_conn m).
Proof.
  intros g. induction k as [|k IH]; intros m G V W.
  - exists m. split; [reflexivity|]. split; [exact V|]. split; [exact W|]. cbn. lia.
  - destruct (C140_boundary g m G V W) as (m1 & E & V1 & W1 & _). destruct (refined g m G (proj1 V)) as (t & m2 & _ & E1 & L & _). rewrite E in E1. injection E1 as <-.
    destruct (IH m1 G V1 W1) as (m' & E' & V' & W' & L'). exists m'. cbn [refine_n]. rewrite E. split; auto. split; auto. split; auto. rewrite L', L. cbn [Nat.pow]. lia.
Qed.
(** Every new node is a node of a cell *)
Theorem C140_nodes : forall g m, isgeom g -> mesh_ok g m -> exists m', refine g m = Some m' /\
  forall v, m_n m <= v < m_n m' -> exists n, n < length (m_conn m') /\ In v (nth n (m_conn m') []).
Proof.
  intros g m G M. destruct (refined g m G M) as (t & m' & T & E & L & Nn & Gr & Rw). exists m'. split; auto. intros v Hv.
  assert (X : forall c r, c < length (m_conn m) -> In r (rtab g) -> gid m t c r = v -> exists n, n < length (m_conn m') /\ In v (nth n (m_conn m') [])).
  { intros c r C Hr <-. assert (Y : exists s, s < nch g /\ In r (child g s)).
    { apply In_nth with (d := RB) in Hr. destruct Hr as (j & J & <-). rewrite rtab_len in J by auto. exists (j / gnv g). pose proof (gnv_pos g).
      split; [apply Nat.div_lt_upper_bound; lia|]. unfold child.
      assert (Q : nth j (rtab g) RB = nth (j mod gnv g) (firstn (gnv g) (skipn (j / gnv g * gnv g) (rtab g))) RB).
      { rewrite L_chunks.nth_firstn by (apply Nat.mod_upper_bound; lia). rewrite L_chunks.nth_skipn. f_equal. rewrite (Nat.div_mod j (gnv g)) at 1 by lia. lia. }
      rewrite Q. apply nth_In. fold (child g (j / gnv g)). rewrite child_len; [apply Nat.mod_upper_bound; lia|auto|apply Nat.div_lt_upper_bound; lia]. }
    destruct Y as (s & Hs & I). exists (c * nch g + s). split; [rewrite L; nia|]. rewrite Rw by auto. apply in_map. auto. }
  destruct T as (TE & TF & TN). rewrite Nn in Hv. destruct (Nat.lt_ge_cases v (o2 m t)) as [A|A].
  - destruct TE as (_ & _ & _ & TE). destruct (TE (v - o1 m)) as (c & i & C & Hi & Ei); [unfold o2, o1 in *; lia|].
    apply (X c (RE i) C); [|cbn; unfold o1 in *; lia]. clear -G Hi. destruct G as [<- | [<- | [<- | [<- | []]]]]; cbn in Hi; do 12 (destruct i as [|i]; [first [exfalso; lia | cbn; tauto]|]); exfalso; lia.
  - destruct (Nat.lt_ge_cases v (o3 m t)) as [B|B].
    + destruct (Nat.eq_dec (length (t_fv t)) 0) as [Z|Z]; [unfold o3 in B; lia|].
      assert (Hg : g = Hex) by (destruct g; auto; exfalso; apply Z; rewrite TN by discriminate; reflexivity). destruct (TF Hg) as (_ & _ & _ & TE2).
      destruct (TE2 (v - o2 m t)) as (c & i & C & Hi & Ei); [unfold o3 in *; lia|].
      apply (X c (RF i) C); [|cbn; lia]. subst g. clear -Hi. cbn in Hi. do 6 (destruct i as [|i]; [cbn; tauto|]); lia.
    + destruct (has_centres g) eqn:Hc; [|lia]. apply (X (v - o3 m t) RB); [lia| |cbn; lia]. destruct g; try discriminate; cbn; tauto.
Qed.
(** Two triangles *)
Example C140_ex : valid Tri two_tri /\ two_cells Tri two_tri /\ same Tri two_tri 0 1 1 2.
Proof.
  split; [|split].
  - split; [apply C139_ex|]. split; [|discriminate]. intros n n' Hn Hn' P. cbn in Hn, Hn'.
    assert (Z : forall (a : nat) l l', Permutation l l' -> In a l -> In a l') by (intros a l l' Q I; apply (Permutation_in _ Q I)).
    destruct n as [|[|n]], n' as [|[|n']]; try lia; cbn in P.
    + apply (Z 0) in P; cbn in *; lia.
    + apply (Z 3) in P; cbn in *; lia.
  - intros n i n1 i1 n2 i2 Hn H1 H2 Hi Hi1 Hi2 S1 S2 N1 N2. cbn in Hn, H1, H2, Hi, Hi1, Hi2. unfold same, facet in *.
    assert (n1 = n2) by lia. split; auto. subst n2.
    assert (Q : Permutation (map (fun j => nth j (nth n1 (m_conn two_tri) []) 0) (nth i1 (gfacets Tri) [])) (map (fun j => nth j (nth n1 (m_conn two_tri) []) 0) (nth i2 (gfacets Tri) []))) by (rewrite <- S1; exact S2).
    apply (same_loc Tri two_tri n1 i2 i1); cbn; auto; try lia; [apply C139_ex|]. apply Permutation_sym. exact Q.
  - unfold same, facet. cbn. apply perm_swap.
Qed.
Print Assumptions C140_conforming.
Print Assumptions C140_boundary.
Print Assumptions C140_iterated.
Print Assumptions C140_nodes.
