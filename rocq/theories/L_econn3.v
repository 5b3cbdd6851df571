(** The DOF connectivity of a nodal field: rows of econn, the same DOF iff the same point. *)
From Coq Require Import Permutation Sorted.
From Verif Require Import Base M_dofs M_mesh M_lagnodes L_mesh L_build P_mesh P_lagnodes M_facet L_facet L_econn S_econn P_facets L_econn2.
Set Implicit Arguments.
Open Scope nat_scope.

Lemma nth_fst : forall A (l : list A) k i d, i < k -> nth i (firstn k l) d = nth i l d.
Proof. induction l as [|a l IH]; intros k i d H; destruct k; try lia; destruct i; auto. cbn [firstn nth]. apply IH. lia. Qed.
Lemma fverts_nodup : forall cell ref nv, length cell = nv -> NoDup cell -> NoDup ref -> (forall i, In i ref -> i < nv) -> NoDup (fverts cell ref).
Proof.
  intros cell ref nv L N NR H. unfold fverts. induction NR as [|a ref NI NR IH]; cbn [map]; constructor.
  - intros X. apply in_map_iff in X. destruct X as (b & E & B). apply NI. replace a with b; auto. apply (proj1 (NoDup_nth cell 0) N); auto; rewrite L; apply H; [right|left]; auto.
  - apply IH. intros. apply H. right. auto.
Qed.
Lemma fverts_perm : forall cell a b nv, length cell = nv -> NoDup cell -> NoDup a -> NoDup b -> (forall i, In i a -> i < nv) -> (forall i, In i b -> i < nv) -> Permutation (fverts cell a) (fverts cell b) -> Permutation a b.
Proof.
  intros cell a b nv L N NA NB A B P. apply NoDup_Permutation; auto.
  assert (G : forall a b, (forall i, In i a -> i < nv) -> (forall i, In i b -> i < nv) -> Permutation (fverts cell a) (fverts cell b) -> forall x, In x a -> In x b).
  { clear - L N. intros a b A B P x X. assert (Y : In (nth x cell 0) (fverts cell b)) by (apply (Permutation_in _ P), (in_map (fun i => nth i cell 0)); auto). apply in_map_iff in Y. destruct Y as (y & E & Y). replace x with y; auto. apply (proj1 (NoDup_nth cell 0) N); auto; rewrite L; auto. }
  intros x. split; apply G; auto. symmetry. auto.
Qed.
Lemma facet_facts : forall cells refs n nv n_vert st,
  (forall row, In row cells -> length row = nv) -> (forall row, In row cells -> NoDup row) -> (forall row, In row cells -> forall v, In v row -> v < n_vert) ->
  2 <= n <= 4 -> (forall e, In e refs -> length e = n /\ NoDup e /\ forall i, In i e -> i < nv) ->
  (forall i j, i < length refs -> j < length refs -> i <> j -> ~ Permutation (nth i refs []) (nth j refs [])) ->
  build_entities (of_rows cells) (fun _ => refs) (length cells) n_vert = Some st ->
  forall c, c < length cells -> length (irow (b_cDd st) c) = length refs /\
   (forall j, j < length refs -> nth (nth c (c_off (b_cDd st)) 0 + j) (b_ori st) None = ori_key None (fverts (nth c cells []) (nth j refs []))) /\
   (forall c' j j', c' < length cells -> j < length refs -> j' < length refs -> (nth j (irow (b_cDd st) c) 0 = nth j' (irow (b_cDd st) c') 0 <-> Permutation (fverts (nth c cells []) (nth j refs [])) (fverts (nth c' cells []) (nth j' refs [])))).
Proof.
  intros cells refs n nv n_vert st R1 R2 R3 Hn HR D B c C.
  assert (LE : forall i, i < length refs -> length (nth i refs []) = n) by (intros i I; apply HR, nth_In; auto).
  destruct (@C26_entities cells (fun _ => refs) n_vert) as (st' & ids & ents & B' & CD & _ & LI & H1 & H2 & _ & _ & H5).
  - auto.
  - intros c0 C0 e E. destruct (HR e E) as (L & _ & H). split; [lia|]. intros i I. rewrite (R1 (nth c0 cells [])) by (apply nth_In; auto). auto.
  - intros c0 c1 i i' _ _ I I'. unfold loc. rewrite !map_length, !LE by auto. lia.
  - intros c0 C0 i j I J NE P. apply (D i j I J NE). assert (X := nth_In _ [] C0). destruct (HR _ (nth_In _ [] I)) as (_ & N1 & B1). destruct (HR _ (nth_In _ [] J)) as (_ & N2 & B2). apply (@fverts_perm (nth c0 cells []) _ _ nv); auto.
  - assert (st' = st) by congruence. subst st'. rewrite CD. assert (IR : forall c, c < length cells -> irow (of_rows ids) c = nth c ids []) by (intros; apply full_irow; [apply of_rows_full|lia]).
    assert (FP : forall c j, c < length cells -> nth c (c_off (of_rows ids)) 0 + j = flat_pos (fun _ => refs) c j).
    { intros c0 j C0. unfold flat_pos, of_rows. cbn [c_off]. f_equal. rewrite nth_cumsum by (rewrite map_length; lia). rewrite length_concat_nsum, map_map. cbn [plus]. f_equal. rewrite firstn_map. apply list_ext with (d := 0); [rewrite !map_length, firstn_length, seq_length; lia|].
      intros i I. rewrite map_length, firstn_length in I. rewrite nth_map_in with (da := []) by (rewrite firstn_length; auto). rewrite nth_map_in with (da := 0) by (rewrite seq_length; lia). rewrite nth_fst by lia. apply H1. lia. }
    rewrite IR by auto. split; [apply H1; auto|]. split.
    + intros j J. rewrite FP by auto. apply H5; auto.
    + intros c' j j' C' J J'. rewrite IR by auto. apply H2; auto.
Qed.

Definition ix (l : list nat) (x : nat) : nat := match index_nat x l with Some i => i | None => 0 end.
Lemma ix_ok : forall l x, In x l -> remap l x = Ok (ix l x) /\ ix l x < length l /\ nth (ix l x) l 0 = x.
Proof. intros l x I. apply index_nat_spec in I. destruct I as (i & E & L & N). unfold remap, ix. rewrite E. auto. Qed.
Lemma ix_inj : forall l x y, In x l -> In y l -> (ix l x = ix l y <-> x = y).
Proof. intros l x y X Y. split; [|congruence]. intros E. apply ix_ok in X, Y. destruct X as (_ & _ & <-), Y as (_ & _ & <-). congruence. Qed.

Record ctype (g : gel) (nodes : list lnode) (o nf : nat) (w : lnode -> list nat) (V E F B : list lnode) : Prop := {
  ct_nodes : nodes = V ++ E ++ F ++ B;
  ct_o : 1 <= o;
  ct_nv : 2 <= g_nv g;
  ct_V : length V = g_nv g;
  ct_Vt : forall n, In n V -> ln_type n = 0;
  ct_E : block 1 (length (g_edges g)) (o - 1) E;
  ct_F : block 2 (length (g_faces g)) (fsize nf o) F;
  ct_Bt : forall n, In n B -> ln_type n = 3;
  ct_ne : g_edges g = [] \/ 2 <= length (g_edges g) /\ 2 < g_nv g;
  ct_nfn : 3 <= nf <= 4;
  ct_nf : g_faces g = [] \/ 2 <= length (g_faces g) /\ nf < g_nv g;
  ct_e : forall e, In e (g_edges g) -> length e = 2 /\ NoDup e /\ forall i, In i e -> i < g_nv g;
  ct_f : forall e, In e (g_faces g) -> length e = nf /\ NoDup e /\ forall i, In i e -> i < g_nv g;
  ct_ed : forall i j, i < length (g_edges g) -> j < length (g_edges g) -> i <> j -> ~ Permutation (nth i (g_edges g) []) (nth j (g_edges g) []);
  ct_fd : forall i j, i < length (g_faces g) -> j < length (g_faces g) -> i <> j -> ~ Permutation (nth i (g_faces g) []) (nth j (g_faces g) []);
  ct_wl : forall n, In n nodes -> length (w n) = g_nv g;
  ct_wv : exists s, 0 < s /\ forall a, a < g_nv g -> w (nth a V ln0) = map (fun x => s * gw [a] [1] x) (seq 0 (g_nv g));
  ct_we : exists s, 0 < s /\ forall j i, j < length (g_edges g) -> i < o - 1 -> w (nth (j * (o - 1) + i) E ln0) = map (fun x => s * gw (nth j (g_edges g) []) (fweights 2 o i) x) (seq 0 (g_nv g));
  ct_wf : exists s, 0 < s /\ forall j i, j < length (g_faces g) -> i < fsize nf o -> w (nth (j * fsize nf o + i) F ln0) = map (fun x => s * gw (nth j (g_faces g) []) (fweights nf o i) x) (seq 0 (g_nv g));
  ct_wb : forall n, In n B -> forall x, In x (w n) -> 0 < x;
  ct_winj : forall i j, i < length B -> j < length B -> w (nth i B ln0) = w (nth j B ln0) -> i = j
}.

Section Rows.
Variables (g : gel) (nodes : list lnode) (o nf : nat) (w : lnode -> list nat) (V E F B : list lnode) (m : cmesh) (r : region) (n_vert : nat).
Hypothesis CT : ctype g nodes o nf w V E F B.
Hypothesis MO : mesh_ok g m n_vert.
Hypothesis FO : faces_ok g m.
Hypothesis RO : region_ok m r.
Let nv := g_nv g.
Let ne := length (g_edges g).
Let nfc := length (g_faces g).
Let Ne := o - 1.
Let Nf := fsize nf o.
Let cell (k : nat) := nth (nth k (r_cells r) 0) (m_cells m) [].
Let cid (k : nat) := nth k (r_cells r) 0.
Let eg (k j : nat) := fverts (cell k) (nth j (g_edges g) []).
Let fg (k j : nat) := fverts (cell k) (nth j (g_faces g) []).
Let eid (k j : nat) := nth j (irow (b_cDd (m_edge m)) (cid k)) 0.
Let fid (k j : nat) := nth j (irow (b_cDd (m_face m)) (cid k)) 0.
Let n_v := length (r_verts r).
Let n_e := Ne * length (r_edges r).
Let n_f := Nf * length (r_faces r).

Lemma LE : length E = ne * Ne. Proof. apply (ct_E CT). Qed.
Lemma LF : length F = nfc * Nf. Proof. apply (ct_F CT). Qed.
Lemma types_not : forall t n, (In n V -> t <> 0) -> (In n E -> t <> 1) -> (In n F -> t <> 2) -> (In n B -> t <> 3) -> In n (V ++ E ++ F ++ B) -> ln_type n <> t.
Proof.
  intros t n HV HE HF HB I. rewrite !in_app_iff in I. destruct I as [I|[I|[I|I]]].
  - rewrite (ct_Vt CT) by auto. intros <-. apply HV; auto.
  - rewrite (block_types (ct_E CT)) by auto. intros <-. apply HE; auto.
  - rewrite (block_types (ct_F CT)) by auto. intros <-. apply HF; auto.
  - rewrite (ct_Bt CT) by auto. intros <-. apply HB; auto.
Qed.
Lemma t_V : forall n, In n V -> ln_type n = 0. Proof. apply (ct_Vt CT). Qed.
Lemma t_E : forall n, In n E -> ln_type n = 1. Proof. apply (block_types (ct_E CT)). Qed.
Lemma t_F : forall n, In n F -> ln_type n = 2. Proof. apply (block_types (ct_F CT)). Qed.
Lemma t_B : forall n, In n B -> ln_type n = 3. Proof. apply (ct_Bt CT). Qed.
Ltac tt := intros ? TT; rewrite ?in_app_iff in TT; destruct_all_ors; rewrite ?t_V, ?t_E, ?t_F, ?t_B by auto; lia
with destruct_all_ors := repeat match goal with H : _ \/ _ |- _ => destruct H as [H|H] | H : In _ [] |- _ => destruct H end.
Lemma d_vert : describe_other nodes 0 = Some (seq 0 nv).
Proof.
  rewrite (ct_nodes CT). change (V ++ E ++ F ++ B) with ([] ++ V ++ E ++ F ++ B). rewrite (@other_ok [] V (E ++ F ++ B) 0) by first [apply t_V | tt]. rewrite (ct_V CT). assert (H := ct_nv CT). assert (L := ct_V CT). destruct V; [cbn in L; lia|]. reflexivity.
Qed.
Lemma d_edge : ne <> 0 -> Ne <> 0 -> describe_facets nodes 1 = Some (map (fun j => seq (nv + j * Ne) Ne) (seq 0 ne)).
Proof.
  intros N1 N2. rewrite (ct_nodes CT). destruct (ct_ne CT) as [Z|[Z _]]; [exfalso; apply N1; unfold ne; rewrite Z; auto|]. unfold nv. rewrite <- (ct_V CT). apply describe_ok; [tt|apply (ct_E CT)|auto|lia].
Qed.
Lemma d_edge0 : ne = 0 \/ Ne = 0 -> describe_facets nodes 1 = None.
Proof.
  intros N. assert (Z : E = []) by (apply length_zero_iff_nil; rewrite LE; destruct N as [-> | ->]; lia). rewrite (ct_nodes CT), Z. cbn [app]. apply describe_none. tt.
Qed.
Lemma d_face : nfc <> 0 -> Nf <> 0 -> describe_facets nodes 2 = Some (map (fun j => seq (nv + ne * Ne + j * Nf) Nf) (seq 0 nfc)).
Proof.
  intros N1 N2. rewrite (ct_nodes CT). destruct (ct_nf CT) as [Z|[Z _]]; [exfalso; apply N1; unfold nfc; rewrite Z; auto|]. unfold nv. rewrite <- (ct_V CT), <- LE, <- app_length. rewrite app_assoc. apply describe_ok; [tt|apply (ct_F CT)|auto|fold Nf; lia].
Qed.
Lemma d_face0 : nfc = 0 \/ Nf = 0 -> describe_facets nodes 2 = None.
Proof.
  intros N. assert (Z : F = []) by (apply length_zero_iff_nil; rewrite LF; destruct N as [-> | ->]; lia). rewrite (ct_nodes CT), Z. cbn [app]. rewrite app_assoc. apply describe_none. tt.
Qed.
Lemma d_bub : describe_other nodes 3 = match B with [] => None | _ => Some (seq (nv + ne * Ne + nfc * Nf) (length B)) end.
Proof.
  rewrite (ct_nodes CT). unfold nv. rewrite <- (ct_V CT), <- LE, <- LF, <- !app_length, <- app_assoc. assert (H := @other_ok (V ++ E ++ F) B [] 3). rewrite app_nil_r, <- !app_assoc in H. apply H; [tt|apply t_B].
Qed.
Lemma c_in : forall k, k < length (r_cells r) -> In (cid k) (r_cells r) /\ cid k < length (m_cells m) /\ In (cell k) (m_cells m) /\ length (cell k) = nv /\ NoDup (cell k).
Proof.
  intros k K. assert (I := nth_In _ 0 K). fold (cid k) in I. assert (J := ro_cells RO _ I). assert (C : In (cell k) (m_cells m)) by (apply nth_In; auto). repeat split; auto; [apply (mo_len MO)|apply (mo_nodup MO)]; auto.
Qed.
Lemma e_facts : forall k, k < length (r_cells r) -> length (irow (b_cDd (m_edge m)) (cid k)) = ne /\
   (forall j, j < ne -> nth (nth (cid k) (c_off (b_cDd (m_edge m))) 0 + j) (b_ori (m_edge m)) None = ori_key None (eg k j) /\ length (eg k j) = 2 /\ NoDup (eg k j) /\ In (eid k j) (r_edges r)) /\
   (forall k' j j', k' < length (r_cells r) -> j < ne -> j' < ne -> (eid k j = eid k' j' <-> Permutation (eg k j) (eg k' j'))).
Proof.
  intros k K. destruct (c_in K) as (I & C & CI & L & N).
  destruct (@facet_facts (m_cells m) (g_edges g) 2 nv n_vert (m_edge m) (mo_len MO) (mo_nodup MO) (mo_bound MO) ltac:(lia) (ct_e CT) (ct_ed CT) (mo_edge MO) (cid k) C) as (H1 & H2 & H3).
  split; auto. split.
  - intros j J. destruct (ct_e CT _ (nth_In _ [] J)) as (L2 & N2 & B2). split; [apply H2; auto|]. split; [unfold eg, fverts; rewrite map_length; auto|]. split; [eapply fverts_nodup; eauto|]. apply (ro_edges RO). exists (cid k). split; auto. apply nth_In. rewrite H1. auto.
  - intros k' j j' K' J J'. apply H3; auto. apply c_in; auto.
Qed.
Lemma f_facts : forall k, k < length (r_cells r) -> length (irow (b_cDd (m_face m)) (cid k)) = nfc /\
   (forall j, j < nfc -> nth (nth (cid k) (c_off (b_cDd (m_face m))) 0 + j) (b_ori (m_face m)) None = ori_key None (fg k j) /\ length (fg k j) = nf /\ NoDup (fg k j) /\ In (fid k j) (r_faces r)) /\
   (forall k' j j', k' < length (r_cells r) -> j < nfc -> j' < nfc -> (fid k j = fid k' j' <-> Permutation (fg k j) (fg k' j'))).
Proof.
  intros k K. destruct (c_in K) as (I & C & CI & L & N). assert (NF := ct_nfn CT).
  destruct (@facet_facts (m_cells m) (g_faces g) nf nv n_vert (m_face m) (mo_len MO) (mo_nodup MO) (mo_bound MO) ltac:(lia) (ct_f CT) (ct_fd CT) (mo_face MO) (cid k) C) as (H1 & H2 & H3).
  split; auto. split.
  - intros j J. destruct (ct_f CT _ (nth_In _ [] J)) as (L2 & N2 & B2). split; [apply H2; auto|]. split; [unfold fg, fverts; rewrite map_length; auto|]. split; [eapply fverts_nodup; eauto|]. apply (ro_faces RO). exists (cid k). split; auto. apply nth_In. rewrite H1. auto.
  - intros k' j j' K' J J'. apply H3; auto. apply c_in; auto.
Qed.
Lemma no_edges : ne = 0 -> r_edges r = [].
Proof.
  intros Z. apply incl_l_nil. intros e I. exfalso. apply (ro_edges RO) in I. destruct I as (c & C & I). apply In_nth with (d := 0) in C. destruct C as (k & K & <-). destruct (e_facts K) as (L & _). unfold cid in L. apply In_nth with (d := 0) in I. destruct I as (j & J & _). lia.
Qed.
Lemma no_faces : nfc = 0 -> r_faces r = [].
Proof.
  intros Z. apply incl_l_nil. intros e I. exfalso. apply (ro_faces RO) in I. destruct I as (c & C & I). apply In_nth with (d := 0) in C. destruct C as (k & K & <-). destruct (f_facts K) as (L & _). unfold cid in L. apply In_nth with (d := 0) in I. destruct I as (j & J & _). lia.
Qed.
Lemma cnt_e : count_dofs (describe_facets nodes 1) (length (r_edges r)) = n_e.
Proof.
  destruct (Nat.eq_dec ne 0) as [Z|Z]; [rewrite d_edge0, no_edges by auto; unfold n_e; cbn; rewrite no_edges by auto; cbn; lia|].
  destruct (Nat.eq_dec Ne 0) as [Z2|Z2]; [rewrite d_edge0 by auto; unfold n_e; rewrite Z2; auto|]. rewrite d_edge by auto. cbn [count_dofs]. rewrite nth_map_in with (da := 0) by (rewrite seq_length; lia). rewrite seq_length. auto.
Qed.
Lemma cnt_f : count_dofs (describe_facets nodes 2) (length (r_faces r)) = n_f.
Proof.
  destruct (Nat.eq_dec nfc 0) as [Z|Z]; [rewrite d_face0, no_faces by auto; unfold n_f; cbn; rewrite no_faces by auto; cbn; lia|].
  destruct (Nat.eq_dec Nf 0) as [Z2|Z2]; [rewrite d_face0 by auto; unfold n_f; rewrite Z2; auto|]. rewrite d_face by auto. cbn [count_dofs]. rewrite nth_map_in with (da := 0) by (rewrite seq_length; lia). rewrite seq_length. auto.
Qed.
Lemma len_nodes : length nodes = nv + ne * Ne + nfc * Nf + length B.
Proof. rewrite (ct_nodes CT), !app_length, (ct_V CT), LE, LF. fold nv. lia. Qed.
Lemma n_nod_eq : n_nod nodes r = n_v + n_e + n_f + length B * length (r_cells r).
Proof. unfold n_nod. rewrite d_vert, cnt_e, cnt_f, d_bub. fold n_v. destruct B; auto. rewrite seq_length. auto. Qed.
Lemma econn_row_ok : forall k, k < length (r_cells r) -> exists row, econn_row g nodes o m r k = Ok row /\ length row = length nodes /\
  (forall a, a < nv -> nth a row 0 = ix (r_verts r) (nth a (cell k) 0)) /\
  (forall j i, j < ne -> i < Ne -> nth (nv + j * Ne + i) row 0 = n_v + (Ne * ix (r_edges r) (eid k j) + nth i (permof o (eg k j)) 0)) /\
  (forall j i, j < nfc -> i < Nf -> nth (nv + ne * Ne + j * Nf + i) row 0 = n_v + n_e + (Nf * ix (r_faces r) (fid k j) + nth i (permof o (fg k j)) 0)) /\
  (forall i, i < length B -> nth (nv + ne * Ne + nfc * Nf + i) row 0 = n_v + n_e + n_f + (k * length B + i)).
Proof.
  intros k K. destruct (c_in K) as (I & C & CI & L & N). destruct (e_facts K) as (_ & EF & _). destruct (f_facts K) as (_ & FF & _). assert (LN := len_nodes).
  unfold econn_row. change (nth (nth k (r_cells r) 0) (m_cells m) []) with (cell k). change (nth k (r_cells r) 0) with (cid k). cbv zeta. fold n_v. rewrite d_vert. change (nth (cid k) (m_cells m) []) with (cell k).
  destruct (@mapM_ok _ _ (remap (r_verts r)) (cell k)) as (vs & VS & VL & VN).
  { intros v Hv. eexists. apply ix_ok. apply (ro_verts RO). exists (cid k). auto. }
  rewrite VS. cbn [bind]. rewrite L.
  set (row1 := put (repeat 0 (length nodes)) (seq 0 nv) vs).
  assert (L1 : length row1 = length nodes) by (unfold row1; rewrite length_put, repeat_length; auto).
  assert (R1 : forall a, a < nv -> nth a row1 0 = ix (r_verts r) (nth a (cell k) 0)).
  { intros a A. assert (P := @put_nth nat (seq 0 nv) vs (repeat 0 (length nodes)) a 0 (seq_NoDup _ _)). rewrite seq_length, seq_nth in P by auto. cbn [plus] in P. unfold row1. rewrite P; try lia; [|intros x X; apply in_seq in X; rewrite repeat_length; lia].
    assert (X := VN a 0 0 ltac:(lia)). assert (Y : In (nth a (cell k) 0) (r_verts r)) by (apply (ro_verts RO); exists (cid k); split; auto; change (In (nth a (cell k) 0) (cell k)); apply nth_In; rewrite L; auto). apply ix_ok in Y. destruct Y as (Y & _). congruence. }
  clearbody row1. clear VN VL VS vs. rewrite cnt_e, cnt_f.
  assert (S2 : exists row2, match describe_facets nodes 1 with None => Ok row1 | Some desc => facet_row (g_edges g) o desc n_v (m_edge m) (r_edges r) (cid k) row1 end = Ok row2 /\ length row2 = length nodes /\
     (forall j i, j < ne -> i < Ne -> nth (nv + j * Ne + i) row2 0 = n_v + (Ne * ix (r_edges r) (eid k j) + nth i (permof o (eg k j)) 0)) /\ (forall a, a < nv \/ nv + ne * Ne <= a -> nth a row2 0 = nth a row1 0)).
  { destruct (Nat.eq_dec ne 0) as [Z|Z]; [rewrite d_edge0 by auto; exists row1; repeat split; auto; intros; lia|].
    destruct (Nat.eq_dec Ne 0) as [Z2|Z2]; [rewrite d_edge0 by auto; exists row1; repeat split; auto; intros; lia|]. rewrite d_edge by auto.
    destruct (@facet_row_ok (g_edges g) o (map (fun j => seq (nv + j * Ne) Ne) (seq 0 ne)) n_v (m_edge m) (r_edges r) (cid k) row1 nv Ne (fun j => ix (r_edges r) (eid k j)) (eg k) 2) as (row2 & A1 & A2 & A3 & A4); auto.
    - destruct (ct_e CT (nth 0 (g_edges g) [])) as (X & _); auto. apply nth_In. fold ne. lia.
    - fold ne. lia.
    - fold Ne. lia.
    - fold ne. lia.
    - intros j J. destruct (EF j J) as (F1 & F2 & F3 & F4). repeat split; auto. apply ix_ok. auto.
    - exists row2. fold ne in A3, A4. repeat split; auto. congruence. }
  destruct S2 as (row2 & -> & L2 & R2 & R2'). cbn [bind].
  assert (S3 : exists row3, match describe_facets nodes 2 with None => Ok row2 | Some desc => facet_row (g_faces g) o desc (n_v + n_e) (m_face m) (r_faces r) (cid k) row2 end = Ok row3 /\ length row3 = length nodes /\
     (forall j i, j < nfc -> i < Nf -> nth (nv + ne * Ne + j * Nf + i) row3 0 = n_v + n_e + (Nf * ix (r_faces r) (fid k j) + nth i (permof o (fg k j)) 0)) /\ (forall a, a < nv + ne * Ne \/ nv + ne * Ne + nfc * Nf <= a -> nth a row3 0 = nth a row2 0)).
  { destruct (Nat.eq_dec nfc 0) as [Z|Z]; [rewrite d_face0 by auto; exists row2; repeat split; auto; intros; lia|].
    destruct (Nat.eq_dec Nf 0) as [Z2|Z2]; [rewrite d_face0 by auto; exists row2; repeat split; auto; intros; lia|]. rewrite d_face by auto. assert (NF := ct_nfn CT).
    destruct (@facet_row_ok (g_faces g) o (map (fun j => seq (nv + ne * Ne + j * Nf) Nf) (seq 0 nfc)) (n_v + n_e) (m_face m) (r_faces r) (cid k) row2 (nv + ne * Ne) Nf (fun j => ix (r_faces r) (fid k j)) (fg k) nf) as (row3 & A1 & A2 & A3 & A4); auto.
    - lia.
    - destruct (ct_f CT (nth 0 (g_faces g) [])) as (X & _); auto. apply nth_In. fold nfc. lia.
    - fold nfc. lia.
    - fold Nf. lia.
    - fold nfc. lia.
    - intros j J. destruct (FF j J) as (F1 & F2 & F3 & F4). repeat split; auto. apply ix_ok. auto.
    - exists row3. fold nfc in A3, A4. repeat split; auto. congruence. }
  destruct S3 as (row3 & -> & L3 & R3 & R3'). cbn [bind].
  assert (S4 : exists row4, match describe_other nodes 3 with None => Ok row3 | Some b => if length nodes - nth 0 b 0 =? length b then Ok (put row3 (seq (nth 0 b 0) (length b)) (map (fun i => n_v + n_e + n_f + (k * length b + i)) (seq 0 (length b)))) else Err ValueError end = Ok row4 /\ length row4 = length nodes /\
     (forall i, i < length B -> nth (nv + ne * Ne + nfc * Nf + i) row4 0 = n_v + n_e + n_f + (k * length B + i)) /\ (forall a, a < nv + ne * Ne + nfc * Nf -> nth a row4 0 = nth a row3 0)).
  { rewrite d_bub. destruct B as [|b0 B'] eqn:EB; [exists row3; repeat split; auto; intros; cbn in *; lia|]. rewrite <- EB in *. assert (1 <= length B) by (rewrite EB; cbn; lia). rewrite seq_length, seq_nth by lia. rewrite Nat.add_0_r. replace (length nodes - _ =? length B) with true by (symmetry; apply Nat.eqb_eq; lia).
    eexists. split; [reflexivity|]. rewrite length_put. split; auto. split.
    - intros i Hi. assert (P := @put_nth nat (seq (nv + ne * Ne + nfc * Nf) (length B)) (map (fun i => n_v + n_e + n_f + (k * length B + i)) (seq 0 (length B))) row3 i 0 (seq_NoDup _ _)). rewrite map_length, !seq_length, seq_nth in P by auto. rewrite P; auto; [|intros x X; apply in_seq in X; lia]. rewrite nth_map_in with (da := 0) by (rewrite seq_length; auto). rewrite seq_nth by auto. auto.
    - intros a A. apply put_notin. intros X. apply in_seq in X. lia. }
  destruct S4 as (row4 & S4 & L4 & R4 & R4'). exists row4. split; [exact S4|]. split; [auto|]. split; [|split; [|split]]; auto.
  - intros a A. rewrite R4', R3', R2' by lia. auto.
  - intros j i J Hi. assert (j * Ne + i < ne * Ne) by nia. rewrite R4', R3' by lia. auto.
  - intros j i J Hi. assert (j * Nf + i < nfc * Nf) by nia. rewrite R4' by lia. auto.
Qed.
(** The four kinds of nodes: value of the DOF, weights *)
Let W (k a : nat) := gw (cell k) (w (nth a nodes ln0)).
Lemma nodes_V : forall a, a < nv -> nth a nodes ln0 = nth a V ln0.
Proof. intros a A. rewrite (ct_nodes CT), app_nth1; auto. rewrite (ct_V CT). auto. Qed.
Lemma nodes_E : forall j i, j < ne -> i < Ne -> nth (nv + j * Ne + i) nodes ln0 = nth (j * Ne + i) E ln0.
Proof.
  intros j i J I. assert (j * Ne + i < ne * Ne) by nia. rewrite (ct_nodes CT), app_nth2 by (rewrite (ct_V CT); fold nv; lia). rewrite (ct_V CT). fold nv. rewrite app_nth1 by (rewrite LE; lia). f_equal. lia.
Qed.
Lemma nodes_F : forall j i, j < nfc -> i < Nf -> nth (nv + ne * Ne + j * Nf + i) nodes ln0 = nth (j * Nf + i) F ln0.
Proof.
  intros j i J I. assert (j * Nf + i < nfc * Nf) by nia. rewrite (ct_nodes CT), app_nth2 by (rewrite (ct_V CT); fold nv; lia). rewrite (ct_V CT). fold nv. rewrite app_nth2 by (rewrite LE; lia). rewrite LE. rewrite app_nth1 by (rewrite LF; lia). f_equal. lia.
Qed.
Lemma nodes_B : forall i, i < length B -> nth (nv + ne * Ne + nfc * Nf + i) nodes ln0 = nth i B ln0.
Proof.
  intros i I. rewrite (ct_nodes CT), app_nth2 by (rewrite (ct_V CT); fold nv; lia). rewrite (ct_V CT). fold nv. rewrite app_nth2 by (rewrite LE; lia). rewrite LE. rewrite app_nth2 by (rewrite LF; lia). rewrite LF. f_equal. lia.
Qed.
Lemma pos4 : forall a, a < length nodes -> a < nv \/ (exists j i, j < ne /\ i < Ne /\ a = nv + j * Ne + i) \/ (exists j i, j < nfc /\ i < Nf /\ a = nv + ne * Ne + j * Nf + i) \/ (exists i, i < length B /\ a = nv + ne * Ne + nfc * Nf + i).
Proof.
  intros a A. rewrite len_nodes in A.
  assert (D : forall x n N, x < n * N -> exists j i, j < n /\ i < N /\ x = j * N + i).
  { intros x n N X. assert (N <> 0) by (intros ->; lia). exists (x / N), (x mod N). assert (Q := Nat.div_mod x N ltac:(auto)). assert (Q2 := Nat.mod_upper_bound x N ltac:(auto)). repeat split; auto; [apply Nat.div_lt_upper_bound; lia|lia]. }
  destruct (lt_dec a nv); [auto|]. destruct (lt_dec a (nv + ne * Ne)); [right; left; destruct (D (a - nv) ne Ne) as (j & i & J & I & Q); [lia|]; exists j, i; repeat split; auto; lia|].
  destruct (lt_dec a (nv + ne * Ne + nfc * Nf)); [right; right; left; destruct (D (a - nv - ne * Ne) nfc Nf) as (j & i & J & I & Q); [lia|]; exists j, i; repeat split; auto; lia|].
  right; right; right. exists (a - nv - ne * Ne - nfc * Nf). split; lia.
Qed.
Lemma W_B : forall k i, k < length (r_cells r) -> i < length B -> forall v, 0 < gw (cell k) (w (nth i B ln0)) v <-> In v (cell k).
Proof.
  intros k i K I v. destruct (c_in K) as (_ & _ & _ & L & N). assert (IB : In (nth i B ln0) B) by (apply nth_In; auto). apply gw_support; auto.
  - rewrite (ct_wl CT), L; auto. rewrite (ct_nodes CT), !in_app_iff. auto.
  - apply (ct_wb CT). auto.
Qed.
Lemma perm_lt : forall n (gg : list nat) i, 2 <= n <= 4 -> length gg = n -> NoDup gg -> i < fsize n o -> nth i (permof o gg) 0 < fsize n o.
Proof. intros n gg i Hn L N I. destruct (@permof_ok gg o ltac:(lia) N) as [_ [_ P]]. rewrite L in P. apply P. auto. Qed.
Lemma same_supp : forall a b (f h : nat -> nat), NoDup a -> NoDup b -> (forall v, 0 < f v <-> In v a) -> (forall v, 0 < h v <-> In v b) -> (forall v, f v = h v) -> Permutation a b.
Proof. intros a b f h NA NB A H Q. apply NoDup_Permutation; auto. intros v. rewrite <- A, <- H, Q. tauto. Qed.
Lemma scale_supp : forall s (a ws : list nat), 0 < s -> NoDup a -> length ws = length a -> (forall x, In x ws -> 0 < x) -> forall v, 0 < s * gw a ws v <-> In v a.
Proof. intros s a ws S0 N L P v. rewrite <- (@gw_support a ws v); auto. destruct (gw a ws v); split; intros; nia. Qed.
Lemma divmod_eq : forall N a b p q, p < N -> q < N -> (N * a + p = N * b + q <-> a = b /\ p = q).
Proof. intros N a b p q P Q. split; [|intros [-> ->]; auto]. intros H. assert (a = b) by nia. subst. lia. Qed.
Lemma dof_iff : forall k k' row row' a a', k < length (r_cells r) -> k' < length (r_cells r) -> econn_row g nodes o m r k = Ok row -> econn_row g nodes o m r k' = Ok row' -> a < length nodes -> a' < length nodes ->
  (nth a row 0 = nth a' row' 0 <-> forall v, W k a v = W k' a' v).
Proof.
  intros k k' row row' a a' K K' R R' A A'. unfold W.
  destruct (econn_row_ok K) as (row1 & E1 & L1 & RV & RE & RF & RB). rewrite R in E1. injection E1 as <-.
  destruct (econn_row_ok K') as (row2 & E2 & L2 & RV' & RE' & RF' & RB'). rewrite R' in E2. injection E2 as <-.
  destruct (c_in K) as (I & C & CI & L & N). destruct (c_in K') as (I' & C' & CI' & L' & N').
  destruct (e_facts K) as (_ & EF & EI). destruct (e_facts K') as (_ & EF' & _). destruct (f_facts K) as (_ & FF & FI). destruct (f_facts K') as (_ & FF' & _).
  destruct (ct_wv CT) as (sv & SV & WV). destruct (ct_we CT) as (se & SE & WE). destruct (ct_wf CT) as (sf & SF & WF). fold nv in WV, WE, WF. fold ne Ne in WE. fold nfc Nf in WF. assert (NFN := ct_nfn CT). assert (NV2 : 2 <= nv) by apply (ct_nv CT).
  assert (WV1 : forall k a, k < length (r_cells r) -> a < nv -> forall v, gw (cell k) (w (nth a nodes ln0)) v = sv * gw [nth a (cell k) 0] [1] v).
  { intros k0 a0 K0 A0 v. destruct (c_in K0) as (_ & _ & _ & L0 & N0). rewrite nodes_V, WV by auto. rewrite <- L0. apply (gw_scatter [a0] [1] sv N0). intros i [<-|[]]. lia. }
  assert (WE1 : forall k j i, k < length (r_cells r) -> j < ne -> i < Ne -> forall v, gw (cell k) (w (nth (nv + j * Ne + i) nodes ln0)) v = se * gw (eg k j) (fweights 2 o i) v).
  { intros k0 j i K0 J Hi v. destruct (c_in K0) as (_ & _ & _ & L0 & N0). rewrite nodes_E, WE by auto. rewrite <- L0. apply (gw_scatter _ _ se N0). rewrite L0. apply (ct_e CT), nth_In. auto. }
  assert (WF1 : forall k j i, k < length (r_cells r) -> j < nfc -> i < Nf -> forall v, gw (cell k) (w (nth (nv + ne * Ne + j * Nf + i) nodes ln0)) v = sf * gw (fg k j) (fweights nf o i) v).
  { intros k0 j i K0 J Hi v. destruct (c_in K0) as (_ & _ & _ & L0 & N0). rewrite nodes_F, WF by auto. rewrite <- L0. apply (gw_scatter _ _ sf N0). rewrite L0. apply (ct_f CT), nth_In. auto. }
  assert (SV1 : forall k a, k < length (r_cells r) -> a < nv -> forall v, 0 < gw (cell k) (w (nth a nodes ln0)) v <-> In v [nth a (cell k) 0]).
  { intros k0 a0 K0 A0 v. rewrite WV1 by auto. apply scale_supp; auto; [repeat constructor; intros []|]. intros x [<-|[]]; lia. }
  assert (SE1 : forall k j i, k < length (r_cells r) -> j < ne -> i < Ne -> forall v, 0 < gw (cell k) (w (nth (nv + j * Ne + i) nodes ln0)) v <-> In v (eg k j)).
  { intros k0 j i K0 J Hi v. rewrite WE1 by auto. destruct (e_facts K0) as (_ & Q & _). destruct (Q j J) as (_ & Q2 & Q3 & _). apply scale_supp; auto. apply fw_pos; auto. }
  assert (SF1 : forall k j i, k < length (r_cells r) -> j < nfc -> i < Nf -> forall v, 0 < gw (cell k) (w (nth (nv + ne * Ne + j * Nf + i) nodes ln0)) v <-> In v (fg k j)).
  { intros k0 j i K0 J Hi v. rewrite WF1 by auto. destruct (f_facts K0) as (_ & Q & _). destruct (Q j J) as (_ & Q2 & Q3 & _). apply scale_supp; auto; [rewrite fw_len; auto; lia|]. apply fw_pos; auto; lia. }
  assert (SB1 : forall k i, k < length (r_cells r) -> i < length B -> forall v, 0 < gw (cell k) (w (nth (nv + ne * Ne + nfc * Nf + i) nodes ln0)) v <-> In v (cell k)).
  { intros k0 i K0 Hi v. rewrite nodes_B by auto. apply W_B; auto. }
  assert (ND1 : forall x : nat, NoDup [x]) by (intros; repeat constructor; intros []).
  assert (E2n : ne <> 0 -> 2 < nv) by (intros Z; destruct (ct_ne CT) as [Q|[_ Q]]; auto; exfalso; apply Z; unfold ne; rewrite Q; auto).
  assert (F2n : nfc <> 0 -> nf < nv) by (intros Z; destruct (ct_nf CT) as [Q|[_ Q]]; auto; exfalso; apply Z; unfold nfc; rewrite Q; auto).
  (* ranges *)
  assert (BV : forall k a, k < length (r_cells r) -> a < nv -> In (nth a (cell k) 0) (r_verts r)).
  { intros k0 a0 K0 A0. destruct (c_in K0) as (Q1 & _ & _ & Q2 & _). apply (ro_verts RO). exists (cid k0). split; auto. change (In (nth a0 (cell k0) 0) (cell k0)). apply nth_In. rewrite Q2. auto. }
  assert (BE : forall k j i, k < length (r_cells r) -> j < ne -> i < Ne -> nth i (permof o (eg k j)) 0 < Ne /\ Ne * ix (r_edges r) (eid k j) + nth i (permof o (eg k j)) 0 < n_e).
  { intros k0 j i K0 J Hi. destruct (e_facts K0) as (_ & Q & _). destruct (Q j J) as (_ & Q2 & Q3 & Q4). assert (P := @perm_lt 2 (eg k0 j) i ltac:(lia) Q2 Q3 Hi). cbn [fsize] in P. fold Ne in P. split; auto. apply ix_ok in Q4. unfold n_e. nia. }
  assert (BF : forall k j i, k < length (r_cells r) -> j < nfc -> i < Nf -> nth i (permof o (fg k j)) 0 < Nf /\ Nf * ix (r_faces r) (fid k j) + nth i (permof o (fg k j)) 0 < n_f).
  { intros k0 j i K0 J Hi. destruct (f_facts K0) as (_ & Q & _). destruct (Q j J) as (_ & Q2 & Q3 & Q4). assert (P := @perm_lt nf (fg k0 j) i ltac:(lia) Q2 Q3 Hi). fold Nf in P. split; auto. apply ix_ok in Q4. unfold n_f. nia. }
  assert (LEN : forall k j, k < length (r_cells r) -> j < ne -> length (eg k j) = 2 /\ NoDup (eg k j) /\ In (eid k j) (r_edges r)) by (intros k0 j K0 J; destruct (e_facts K0) as (_ & Q & _); destruct (Q j J) as (_ & Q2 & Q3 & Q4); auto).
  assert (LFN : forall k j, k < length (r_cells r) -> j < nfc -> length (fg k j) = nf /\ NoDup (fg k j) /\ In (fid k j) (r_faces r)) by (intros k0 j K0 J; destruct (f_facts K0) as (_ & Q & _); destruct (Q j J) as (_ & Q2 & Q3 & Q4); auto).
  assert (NV0 : n_v = length (r_verts r)) by reflexivity.
  clear R R' L1 L2. destruct (pos4 A) as [P|[(j & i & J & Hi & ->)|[(j & i & J & Hi & ->)|(i & Hi & ->)]]]; destruct (pos4 A') as [P'|[(j' & i' & J' & Hi' & ->)|[(j' & i' & J' & Hi' & ->)|(i' & Hi' & ->)]]];
    try (assert (BE1 := BE _ _ _ K J Hi)); try (assert (BE2 := BE _ _ _ K' J' Hi')); try (assert (BF1 := BF _ _ _ K J Hi)); try (assert (BF2 := BF _ _ _ K' J' Hi'));
    try (destruct (LEN _ _ K J) as (GE1 & GE2 & GE3)); try (destruct (LEN _ _ K' J') as (GE1' & GE2' & GE3')); try (destruct (LFN _ _ K J) as (GF1 & GF2 & GF3)); try (destruct (LFN _ _ K' J') as (GF1' & GF2' & GF3'));
    try (assert (BV1 := BV _ _ K P)); try (assert (BV2 := BV _ _ K' P'));
    try (assert (IV1 := ix_ok _ _ BV1)); try (assert (IV2 := ix_ok _ _ BV2)).
  all: rewrite ?RV, ?RV', ?RE, ?RE', ?RF, ?RF', ?RB, ?RB' by auto.
  all: try (split; [intros; exfalso; lia|]; intros H; exfalso; match type of H with forall v, ?f = ?h => idtac end;
    first [ assert (PM := @same_supp _ _ _ _ (ND1 _) GE2' (SV1 _ _ K P) (SE1 _ _ _ K' J' Hi') H)
          | assert (PM := @same_supp _ _ _ _ (ND1 _) GF2' (SV1 _ _ K P) (SF1 _ _ _ K' J' Hi') H)
          | assert (PM := @same_supp _ _ _ _ (ND1 _) N' (SV1 _ _ K P) (SB1 _ _ K' Hi') H)
          | assert (PM := @same_supp _ _ _ _ GE2 (ND1 _) (SE1 _ _ _ K J Hi) (SV1 _ _ K' P') H)
          | assert (PM := @same_supp _ _ _ _ GE2 GF2' (SE1 _ _ _ K J Hi) (SF1 _ _ _ K' J' Hi') H)
          | assert (PM := @same_supp _ _ _ _ GE2 N' (SE1 _ _ _ K J Hi) (SB1 _ _ K' Hi') H)
          | assert (PM := @same_supp _ _ _ _ GF2 (ND1 _) (SF1 _ _ _ K J Hi) (SV1 _ _ K' P') H)
          | assert (PM := @same_supp _ _ _ _ GF2 GE2' (SF1 _ _ _ K J Hi) (SE1 _ _ _ K' J' Hi') H)
          | assert (PM := @same_supp _ _ _ _ GF2 N' (SF1 _ _ _ K J Hi) (SB1 _ _ K' Hi') H)
          | assert (PM := @same_supp _ _ _ _ N (ND1 _) (SB1 _ _ K Hi) (SV1 _ _ K' P') H)
          | assert (PM := @same_supp _ _ _ _ N GE2' (SB1 _ _ K Hi) (SE1 _ _ _ K' J' Hi') H)
          | assert (PM := @same_supp _ _ _ _ N GF2' (SB1 _ _ K Hi) (SF1 _ _ _ K' J' Hi') H) ];
    apply Permutation_length in PM; cbn [length] in PM; lia).
  - rewrite ix_inj by auto. split.
    + intros Q v. rewrite !WV1 by auto. rewrite Q. auto.
    + intros H. assert (PM := @same_supp _ _ _ _ (ND1 _) (ND1 _) (SV1 _ _ K P) (SV1 _ _ K' P') H). apply Permutation_length_1 in PM. auto.
  - assert (GWE : forall v, gw (cell k) (w (nth (nv + j * Ne + i) nodes ln0)) v = se * gw (eg k j) (fweights 2 o i) v) by (intros; apply WE1; auto).
    assert (GWE' : forall v, gw (cell k') (w (nth (nv + j' * Ne + i') nodes ln0)) v = se * gw (eg k' j') (fweights 2 o i') v) by (intros; apply WE1; auto).
    assert (CE : Permutation (eg k j) (eg k' j') -> canon (eg k j) = canon (eg k' j')) by (apply canon_eq; lia).
    assert (X := @facet_dofs_iff 2 o (eg k j) (eg k' j') i i' ltac:(lia) GE1 GE1' GE2 GE2' CE Hi Hi').
    assert (Y := @divmod_eq Ne (ix (r_edges r) (eid k j)) (ix (r_edges r) (eid k' j')) _ _ (proj1 BE1) (proj1 BE2)). rewrite ix_inj in Y by auto. rewrite (EI k' j j') in Y by auto. split.
    + intros Q v. rewrite GWE, GWE'. f_equal. apply X, Y. lia.
    + intros H. assert (Q : forall v, gw (eg k j) (fweights 2 o i) v = gw (eg k' j') (fweights 2 o i') v) by (intros v; specialize (H v); rewrite GWE, GWE' in H; nia). apply X, Y in Q. lia.
  - assert (GWF : forall v, gw (cell k) (w (nth (nv + ne * Ne + j * Nf + i) nodes ln0)) v = sf * gw (fg k j) (fweights nf o i) v) by (intros; apply WF1; auto).
    assert (GWF' : forall v, gw (cell k') (w (nth (nv + ne * Ne + j' * Nf + i') nodes ln0)) v = sf * gw (fg k' j') (fweights nf o i') v) by (intros; apply WF1; auto).
    assert (CE : Permutation (fg k j) (fg k' j') -> canon (fg k j) = canon (fg k' j')).
    { intros q. destruct (Nat.eq_dec nf 3) as [Q|Q]; [apply canon_eq; auto; lia|]. apply canon_cycle; auto; [lia|]. apply FO; auto; apply nth_In; auto. }
    assert (X := @facet_dofs_iff nf o (fg k j) (fg k' j') i i' ltac:(lia) GF1 GF1' GF2 GF2' CE Hi Hi').
    assert (Y := @divmod_eq Nf (ix (r_faces r) (fid k j)) (ix (r_faces r) (fid k' j')) _ _ (proj1 BF1) (proj1 BF2)). rewrite ix_inj in Y by auto. rewrite (FI k' j j') in Y by auto. split.
    + intros Q v. rewrite GWF, GWF'. f_equal. apply X, Y. lia.
    + intros H. assert (Q : forall v, gw (fg k j) (fweights nf o i) v = gw (fg k' j') (fweights nf o i') v) by (intros v; specialize (H v); rewrite GWF, GWF' in H; nia). apply X, Y in Q. lia.
  - split.
    + intros Q. assert (Z := @divmod_eq (length B) k k' i i' Hi Hi'). assert (k = k' /\ i = i') as [<- <-] by (apply Z; nia). auto.
    + intros H. assert (PM := @same_supp _ _ _ _ N N' (SB1 _ _ K Hi) (SB1 _ _ K' Hi') H). assert (CC : cid k = cid k') by (apply (mo_dist MO); auto). assert (k = k') by (apply (proj1 (NoDup_nth (r_cells r) 0) (ro_nodup RO)); auto). subst k'.
      assert (i = i'); [|subst; auto]. apply (ct_winj CT); auto. rewrite !nodes_B in H by auto. assert (LW : forall x, In x B -> length (w x) = length (cell k)) by (intros x X; rewrite (ct_wl CT), L; auto; rewrite (ct_nodes CT), !in_app_iff; auto).
      apply (@gw_inj (cell k)); auto; apply LW, nth_In; auto.
Qed.
Lemma dof_lt : forall k row a, k < length (r_cells r) -> econn_row g nodes o m r k = Ok row -> a < length nodes -> nth a row 0 < n_nod nodes r.
Proof.
  intros k row a K R A. rewrite n_nod_eq. destruct (econn_row_ok K) as (row1 & E1 & L1 & RV & RE & RF & RB). rewrite R in E1. injection E1 as <-. destruct (c_in K) as (I & C & CI & L & N). destruct (e_facts K) as (_ & EF & EI). destruct (f_facts K) as (_ & FF & FI). assert (NFN := ct_nfn CT).
  destruct (pos4 A) as [P|[(j & i & J & Hi & ->)|[(j & i & J & Hi & ->)|(i & Hi & ->)]]].
  - rewrite RV by auto. assert (X : In (nth a (cell k) 0) (r_verts r)) by (apply (ro_verts RO); exists (cid k); split; auto; change (In (nth a (cell k) 0) (cell k)); apply nth_In; rewrite L; auto). apply ix_ok in X. fold n_v in X. lia.
  - rewrite RE by auto. destruct (EF j J) as (_ & Q2 & Q3 & Q4). assert (P := @perm_lt 2 (eg k j) i ltac:(lia) Q2 Q3 Hi). cbn [fsize] in P. fold Ne in P. apply ix_ok in Q4. unfold n_e. nia.
  - rewrite RF by auto. destruct (FF j J) as (_ & Q2 & Q3 & Q4). assert (P := @perm_lt nf (fg k j) i ltac:(lia) Q2 Q3 Hi). fold Nf in P. apply ix_ok in Q4. unfold n_f. nia.
  - rewrite RB by auto. nia.
Qed.
Lemma ix_nth : forall l d, NoDup l -> d < length l -> ix l (nth d l 0) = d.
Proof. intros l d N D. assert (X := nth_In _ 0 D). apply ix_ok in X. destruct X as (_ & X1 & X2). apply (proj1 (NoDup_nth l 0) N); auto. Qed.
Lemma perm_surj : forall n (gg : list nat) p, 2 <= n <= 4 -> length gg = n -> NoDup gg -> p < fsize n o -> exists i, i < fsize n o /\ nth i (permof o gg) 0 = p.
Proof.
  intros n gg p Hn L N P. destruct (@permof_ok gg o ltac:(lia) N) as [_ [PL PS]]. rewrite L in PL, PS.
  assert (ND : NoDup (permof o gg)).
  { apply (NoDup_nth _ 0). rewrite PL. intros i j I J Q. assert (X := @facet_dofs_iff n o gg gg i j Hn L L N N (fun _ => eq_refl) I J). assert (Y := proj1 X (conj (Permutation_refl gg) Q)). apply (@fw_inj n o); auto. apply (@gw_inj gg); auto; rewrite fw_len; auto. }
  assert (IN : In p (permof o gg)).
  { assert (INC : incl (permof o gg) (seq 0 (fsize n o))) by (intros x X; apply In_nth with (d := 0) in X; destruct X as (i & I & <-); apply in_seq; assert (Y := proj1 (PS i ltac:(lia))); lia).
    assert (LL : length (seq 0 (fsize n o)) <= length (permof o gg)) by (rewrite seq_length, PL; auto). apply (NoDup_length_incl ND LL INC). apply in_seq. lia. }
  apply In_nth with (d := 0) in IN. destruct IN as (i & I & Q). exists i. split; auto. lia.
Qed.
Lemma dof_surj : forall d, d < n_nod nodes r -> exists k row a, k < length (r_cells r) /\ econn_row g nodes o m r k = Ok row /\ a < length nodes /\ nth a row 0 = d.
Proof.
  intros d D. rewrite n_nod_eq in D. assert (LN := len_nodes). assert (NFN := ct_nfn CT).
  destruct (lt_dec d n_v) as [H|H].
  - assert (I := nth_In _ 0 H). assert (I2 := I). apply (ro_verts RO) in I2. destruct I2 as (c & C & I2). apply In_nth with (d := 0) in C. destruct C as (k & K & <-). change (In (nth d (r_verts r) 0) (cell k)) in I2. apply In_nth with (d := 0) in I2. destruct I2 as (a & A & Q). destruct (c_in K) as (_ & _ & _ & L & _). destruct (econn_row_ok K) as (row & E1 & L1 & RV & _).
    exists k, row, a. repeat split; auto; try lia. rewrite RV by lia. rewrite Q. apply ix_nth; auto. apply (ro_vnodup RO).
  - destruct (lt_dec d (n_v + n_e)) as [H1|H1].
    + assert (Ne <> 0) by (intros Z; unfold n_e in H1; rewrite Z in H1; lia). set (q := d - n_v). assert (Q := Nat.div_mod q Ne ltac:(auto)). assert (Q2 := Nat.mod_upper_bound q Ne ltac:(auto)). assert (QL : q / Ne < length (r_edges r)) by (apply Nat.div_lt_upper_bound; auto; unfold n_e, q in *; lia).
      assert (I := nth_In _ 0 QL). assert (I2 := I). apply (ro_edges RO) in I2. destruct I2 as (c & C & I2). apply In_nth with (d := 0) in C. destruct C as (k & K & <-). apply In_nth with (d := 0) in I2. destruct I2 as (j & J & Q3). destruct (e_facts K) as (LI & EF & _). unfold cid in LI. rewrite LI in J. destruct (EF j J) as (_ & G1 & G2 & _). destruct (@perm_surj 2 (eg k j) (q mod Ne) ltac:(lia) G1 G2 Q2) as (i & Hi & Q4). destruct (econn_row_ok K) as (row & E1 & L1 & _ & RE & _). assert (j * Ne + i < ne * Ne) by (cbn [fsize] in Hi; fold Ne in Hi; nia).
      exists k, row, (nv + j * Ne + i). split; [auto|]. split; [auto|]. split; [lia|]. rewrite RE by auto. rewrite Q4. change (nth j (irow (b_cDd (m_edge m)) (nth k (r_cells r) 0)) 0) with (eid k j) in Q3. rewrite Q3, ix_nth by (auto; apply (ro_enodup RO)). unfold q in *. lia.
    + destruct (lt_dec d (n_v + n_e + n_f)) as [H2|H2].
      * assert (Nf <> 0) by (intros Z; unfold n_f in H2; rewrite Z in H2; lia). set (q := d - n_v - n_e). assert (Q := Nat.div_mod q Nf ltac:(auto)). assert (Q2 := Nat.mod_upper_bound q Nf ltac:(auto)). assert (QL : q / Nf < length (r_faces r)) by (apply Nat.div_lt_upper_bound; auto; unfold n_f, q in *; lia).
        assert (I := nth_In _ 0 QL). assert (I2 := I). apply (ro_faces RO) in I2. destruct I2 as (c & C & I2). apply In_nth with (d := 0) in C. destruct C as (k & K & <-). apply In_nth with (d := 0) in I2. destruct I2 as (j & J & Q3). destruct (f_facts K) as (LI & EF & _). unfold cid in LI. rewrite LI in J. destruct (EF j J) as (_ & G1 & G2 & _). destruct (@perm_surj nf (fg k j) (q mod Nf) ltac:(lia) G1 G2 Q2) as (i & Hi & Q4). fold Nf in Hi. destruct (econn_row_ok K) as (row & E1 & L1 & _ & _ & RE & _). assert (j * Nf + i < nfc * Nf) by nia.
        exists k, row, (nv + ne * Ne + j * Nf + i). split; [auto|]. split; [auto|]. split; [lia|]. rewrite RE by auto. rewrite Q4. change (nth j (irow (b_cDd (m_face m)) (nth k (r_cells r) 0)) 0) with (fid k j) in Q3. rewrite Q3, ix_nth by (auto; apply (ro_fnodup RO)). unfold q in *. lia.
      * set (q := d - n_v - n_e - n_f). assert (length B <> 0) by (intros Z; rewrite Z in D; lia). assert (Q := Nat.div_mod q (length B) ltac:(auto)). assert (Q2 := Nat.mod_upper_bound q (length B) ltac:(auto)). assert (QL : q / length B < length (r_cells r)) by (apply Nat.div_lt_upper_bound; auto; unfold q in *; lia).
        destruct (econn_row_ok QL) as (row & E1 & L1 & _ & _ & _ & RB). exists (q / length B), row, (nv + ne * Ne + nfc * Nf + q mod length B). split; [auto|]. split; [auto|]. split; [lia|]. rewrite RB by auto. unfold q in *. lia.
Qed.
End Rows.
