(** C96: the part of a mesh selected by cell groups or by vertex groups. *)
From Coq Require Import QArith.
From Verif Require Import Base M_parallel M_periodic P_periodic M_merge L_merge P_merge.
Set Implicit Arguments.
Open Scope nat_scope.

(** ** Specification *)
(** A cell: its kind, its vertices (coordinates and group), its material id. *)
Definition cell : Type := nat * list (point * Z) * Z.
Definition vertex_of (m : mesh) (i : nat) : point * Z := (nth i (m_coors m) [], nth i (m_vg m) 0%Z).
(** The cells with vertex numbers. *)
Definition rows (m : mesh) : list (nat * list nat * Z) :=
  flat_map (fun g => map (fun rm => (g_desc g, fst rm, snd rm)) (combine (g_conn g) (g_mat g))) (m_groups m).
Definition cells (m : mesh) : list cell :=
  map (fun r => (fst (fst r), map (vertex_of m) (snd (fst r)), snd r)) (rows m).
Definition cell_mat (c : cell) : Z := snd c.
Definition cell_vertices (c : cell) : list (point * Z) := snd (fst c).
(** What the argument [value] selects. *)
Definition selects (v : value) (k : Z) : Prop :=
  match v with VInt x => k = x | VList l => In k l | VRange a b => (a <= k <= b)%Z end.
Lemma selected_ok : forall v k, selected v k = true <-> selects v k.
Proof.
  intros [x|l|a b] k; cbn.
  - apply Z.eqb_eq.
  - rewrite existsb_exists. split; [intros (y & A & B); apply Z.eqb_eq in B; subst; auto|intros A; exists k; split; auto; apply Z.eqb_refl].
  - rewrite andb_true_iff, !Z.leb_le. tauto.
Qed.
(** The vertices of [m'] are those of [m] with the numbers satisfying [P], in the order of [m]. *)
Definition keeps_vertices (P : nat -> Prop) (m m' : mesh) : Prop :=
  exists is, sinc is /\ (forall i, In i is <-> i < length (m_coors m) /\ P i) /\
    m_coors m' = take [] (m_coors m) is /\ m_vg m' = take 0%Z (m_vg m) is.

(** ** Masks *)
Lemma mask_take_filter : forall A (f : A -> bool) l, mask_take (map f l) l = filter f l.
Proof. intros A f l. induction l as [|x t IH]; cbn; auto. rewrite IH. destruct (f x); auto. Qed.
Lemma mask_take_combine : forall A B mask (a : list A) (b : list B), length a = length mask -> length b = length mask ->
  combine (mask_take mask a) (mask_take mask b) = mask_take mask (combine a b).
Proof.
  intros A B mask. induction mask as [|x t IH]; intros [|y a] [|z b] HA HB; cbn in *; auto; try lia.
  injection HA as HA. injection HB as HB. destruct x; cbn; rewrite IH; auto.
Qed.
Lemma length_mask_take : forall A B mask (a : list A) (b : list B), length a = length mask -> length b = length mask ->
  length (mask_take mask a) = length (mask_take mask b).
Proof.
  intros A B mask. induction mask as [|x t IH]; intros [|y a] [|z b] HA HB; cbn in *; auto; try lia.
  injection HA as HA. injection HB as HB. destruct x; cbn; auto.
Qed.
Lemma map_fst_combine : forall A B (a : list A) (b : list B), length a = length b -> map fst (combine a b) = a.
Proof. intros A B a. induction a as [|x a IH]; intros [|y b] H; cbn in *; auto; try lia. f_equal. apply IH. lia. Qed.
Lemma map_snd_combine : forall A B (a : list A) (b : list B), length a = length b -> map snd (combine a b) = b.
Proof. intros A B a. induction a as [|x a IH]; intros [|y b] H; cbn in *; auto; try lia. f_equal. apply IH. lia. Qed.
Lemma some_true_false : forall A (f : A -> bool) l, some_true (map f l) = false -> filter f l = [].
Proof.
  intros A f l. unfold some_true. induction l as [|x t IH]; cbn; auto. intros H. apply orb_false_iff in H. destruct H as [H1 H2].
  rewrite H1. auto.
Qed.
Lemma mask_take_nonzero_from : forall A (d : A) mask (l : list A) k pre, length l = length mask -> length pre = k ->
  mask_take mask l = take d (pre ++ l) (nonzero_from (fun b : bool => b) mask k).
Proof.
  intros A d mask. induction mask as [|x t IH]; intros [|y l] k pre H P; cbn in *; auto; try lia.
  assert (X := IH l (S k) (pre ++ [y]) ltac:(lia)). rewrite app_length in X. cbn in X. specialize (X ltac:(lia)).
  rewrite <- app_assoc in X. cbn in X. rewrite X. destruct x; cbn; auto. f_equal. rewrite app_nth2 by lia. replace (k - length pre) with 0 by lia. auto.
Qed.
Lemma mask_take_nonzero : forall A (d : A) mask (l : list A), length l = length mask ->
  mask_take mask l = take d l (nonzero (fun b : bool => b) mask).
Proof. intros A d mask l H. apply (@mask_take_nonzero_from A d mask l 0 []); auto. Qed.
Lemma In_mask_take : forall A mask (l : list A) x, In x (mask_take mask l) -> In x l.
Proof. intros A mask. induction mask as [|b t IH]; intros [|y l] x H; cbn in H; try contradiction. destruct b; cbn in H; [destruct H; [left; auto|]|]; right; auto. Qed.

(** ** Only the vertices of cells *)
Lemma rows_In : forall m d r k, In (d, r, k) (rows m) -> exists g, In g (m_groups m) /\ In r (g_conn g).
Proof.
  intros m d r k H. unfold rows in H. apply in_flat_map in H. destruct H as (g & G & H). apply in_map_iff in H.
  destruct H as ([a b] & E & H). cbn in E. injection E as _ <- _. exists g. split; auto. apply in_combine_l in H. auto.
Qed.
Lemma rows_In_conv : forall m g r, wf_mesh m -> In g (m_groups m) -> In r (g_conn g) -> exists k, In (g_desc g, r, k) (rows m).
Proof.
  intros m g r [_ W] G R. destruct (W g G) as [_ L]. rewrite <- (map_fst_combine (g_conn g) (g_mat g)) in R by auto.
  apply in_map_iff in R. destruct R as ([a b] & <- & H). exists b. unfold rows. apply in_flat_map. exists g. split; auto.
  apply in_map_iff. exists (a, b). auto.
Qed.
Lemma fold_max_ge : forall l i, In i l -> i <= fold_right Nat.max 0 l.
Proof. induction l as [|x t IH]; intros i; [intros []|]. intros [H|H]; cbn; [lia|]. specialize (IH i H). lia. Qed.
Lemma In_concat : forall A (l : list (list A)) x, In x (concat l) <-> exists r, In r l /\ In x r.
Proof.
  intros A l x. induction l as [|r t IH]; cbn; [split; [tauto|intros (r & [] & _)]|]. rewrite in_app_iff, IH. split.
  - intros [H|(s & A1 & A2)]; eauto.
  - intros (s & [<-|A1] & A2); eauto.
Qed.
Lemma sinc_NoDup' : forall l, sinc l -> NoDup l.
Proof.
  induction l as [|x t IH]; intros H; constructor; inversion H as [|y s A B]; subst; auto.
  intros F. rewrite Forall_forall in B. specialize (B x F). lia.
Qed.
Lemma vertices_only : forall m m', wf_mesh m -> get_cell_vertices_only m = Ok m' ->
  wf_mesh m' /\ cells m' = cells m /\ keeps_vertices (fun i => exists r, In r (rows m) /\ In i (snd (fst r))) m m'.
Proof.
  intros m m' W H. unfold get_cell_vertices_only in H. unfold unique_list in H.
  set (ls := map (fun g => unique (concat (g_conn g))) (m_groups m)) in H.
  assert (E : exists vs, (match ls with [] => Ok [] | l :: t => if forallb (fun l' => length l' =? length l) t then Ok (unique (concat ls)) else Err ValueError end) = Ok vs
              /\ vs = unique (concat ls)).
  { destruct ls as [|l t]; cbn in H |- *; [eauto|]. destruct (forallb _ t); [eauto|discriminate]. }
  destruct E as (vs & E & VE). rewrite E in H. cbn [bind] in H. unfold prepare_translate in H.
  destruct vs as [|v0 vt] eqn:VS; [discriminate|]. rewrite <- VS in *. cbn [bind] in H. unfold from_data in H.
  destruct (m_groups m) as [|g0 gt] eqn:GS; [discriminate|]. rewrite <- GS in *.
  set (remap := put (repeat 0 (fold_right Nat.max 0 vs + 1)) vs (seq 0 (length vs))) in H.
  set (gs' := map (fun g => mkG (g_desc g) (map (take 0 remap) (g_conn g)) (g_mat g)) (m_groups m)) in *.
  assert (GE : exists g1 gt1, gs' = g1 :: gt1) by (unfold gs'; rewrite GS; cbn; eauto).
  destruct GE as (g1 & gt1 & GE). rewrite GE in H. rewrite <- GE in H. injection H as <-.
  assert (SV : sinc vs) by (rewrite VE; apply unique_sinc).
  assert (IV : forall i, In i vs <-> exists g row, In g (m_groups m) /\ In row (g_conn g) /\ In i row).
  { intros i. rewrite VE, unique_In, In_concat. unfold ls. split.
    - intros (r & A & B). apply in_map_iff in A. destruct A as (g & <- & A). rewrite unique_In, In_concat in B. destruct B as (row & B & C). exists g, row. rewrite GS. auto.
    - intros (g & row & A & B & C). rewrite GS in A. exists (unique (concat (g_conn g))). split; [apply in_map_iff; exists g; auto|]. rewrite unique_In, In_concat. exists row; auto. }
  assert (RM : forall i, In i vs -> nth i remap 0 < length vs /\ nth (nth i remap 0) vs 0 = i).
  { intros i I. destruct (In_nth vs i 0 I) as (k & K & KE). assert (X : nth i remap 0 = k).
    { unfold remap. rewrite <- KE. rewrite put_nth; [apply nth_seq0; auto| | | |auto].
      - apply sinc_NoDup'; auto.
      - intros j J. rewrite repeat_length. assert (Y := fold_max_ge vs j J). lia.
      - rewrite seq_length. auto. }
    rewrite X. auto. }
  destruct W as [WV WC].
  assert (VB : forall i, In i vs -> i < length (m_coors m)).
  { intros i I. apply IV in I. destruct I as (g & row & A & B & C). destruct (WC g A) as [R _]. eapply R; eauto. }
  split; [|split].
  - split; cbn [m_vg m_coors m_groups]; [rewrite !length_take; auto|]. intros g G. unfold gs' in G. apply in_map_iff in G. destruct G as (g' & <- & G).
    destruct (WC g' G) as [R L]. cbn [g_conn g_mat]. split; [|rewrite map_length; auto]. intros row v RI VI. apply in_map_iff in RI. destruct RI as (row' & <- & RI).
    unfold take in VI. apply in_map_iff in VI. destruct VI as (i & <- & VI). rewrite length_take. apply RM. apply IV. eauto.
  - unfold cells, rows. cbn [m_groups]. unfold gs'. rewrite !flat_map_concat_map, !concat_map, !map_map. f_equal. apply map_ext_in. intros g G.
    rewrite !map_map. cbn [g_desc g_conn g_mat]. set (mt := g_mat g). assert (X : forall rs ms, (forall r, In r rs -> In r (g_conn g)) ->
      map (fun rm : list nat * Z => (g_desc g, map (vertex_of (mkM (take [] (m_coors m) vs) (take 0%Z (m_vg m) vs) gs')) (fst rm), snd rm)) (combine (map (take 0 remap) rs) ms) =
      map (fun rm : list nat * Z => (g_desc g, map (vertex_of m) (fst rm), snd rm)) (combine rs ms)).
    { induction rs as [|r rs IH]; intros [|k ms] HR; cbn [combine map]; auto. f_equal; [|apply IH; intros; apply HR; right; auto].
      cbn [fst snd]. f_equal. f_equal. change (take 0 remap r) with (map (fun i => nth i remap 0) r). rewrite map_map. apply map_ext_in. intros i I.
      assert (II : In i vs) by (apply IV; exists g, r; split; auto; split; auto; apply HR; left; auto).
      destruct (RM i II) as [B1 B2]. unfold vertex_of. cbn [m_coors m_vg]. rewrite !nth_take by auto. rewrite B2. auto. }
    cbn [fst snd]. apply (X (g_conn g) mt). auto.
  - exists vs. split; auto. split; [|auto]. intros i. split.
    + intros I. split; auto. apply IV in I. destruct I as (g & row & A & B & C).
      destruct (rows_In_conv g row (conj WV WC) A B) as (k & K). exists (g_desc g, row, k). auto.
    + intros (_ & [[d r] k] & A & B). apply rows_In in A. destruct A as (g & A1 & A2). apply IV. exists g, r. auto.
Qed.

(** ** Selection by cell groups *)
Definition rows_of (gs : list group) : list (nat * list nat * Z) :=
  flat_map (fun g => map (fun rm => (g_desc g, fst rm, snd rm)) (combine (g_conn g) (g_mat g))) gs.
Definition cg (v : value) (g : group) : list group :=
  let mask := map (selected v) (g_mat g) in
  if some_true mask then [mkG (g_desc g) (mask_take mask (g_conn g)) (mask_take mask (g_mat g))] else [].
Lemma filter_map : forall A B (f : A -> B) (p : B -> bool) l, filter p (map f l) = map f (filter (fun x => p (f x)) l).
Proof. intros A B f p l. induction l as [|x t IH]; cbn; auto. destruct (p (f x)); cbn; rewrite IH; auto. Qed.
Lemma filter_flat_map : forall A B (f : A -> list B) (p : B -> bool) l, filter p (flat_map f l) = flat_map (fun x => filter p (f x)) l.
Proof. intros A B f p l. induction l as [|x t IH]; cbn; auto. rewrite filter_app, IH. auto. Qed.
Lemma rows_of_app : forall a b, rows_of (a ++ b) = rows_of a ++ rows_of b.
Proof. intros. apply flat_map_app. Qed.
Lemma rows_of_flat : forall (f : group -> list group) gs, rows_of (flat_map f gs) = flat_map (fun g => rows_of (f g)) gs.
Proof. intros f gs. induction gs as [|g t IH]; cbn; auto. rewrite rows_of_app, IH. auto. Qed.
Lemma flat_map_ext_in : forall A B (f g : A -> list B) l, (forall x, In x l -> f x = g x) -> flat_map f l = flat_map g l.
Proof. intros A B f g l. induction l as [|x t IH]; intros H; cbn; auto. rewrite H, IH; auto; [|left; auto]. intros y Y. apply H. right; auto. Qed.
Lemma cg_rows : forall v g, length (g_mat g) = length (g_conn g) ->
  rows_of (cg v g) = filter (fun r => selected v (snd r)) (rows_of [g]).
Proof.
  intros v g L. unfold cg, rows_of. cbn [flat_map]. rewrite app_nil_r, filter_map. cbn [snd].
  set (mask := map (selected v) (g_mat g)). assert (M : mask = map (fun rm : list nat * Z => selected v (snd rm)) (combine (g_conn g) (g_mat g))).
  { unfold mask. rewrite <- (map_snd_combine (g_conn g) (g_mat g)) at 1 by auto. rewrite map_map. auto. }
  destruct (some_true mask) eqn:E.
  - cbn [flat_map g_desc g_conn g_mat]. rewrite app_nil_r. f_equal. rewrite mask_take_combine.
    + rewrite M. apply mask_take_filter.
    + unfold mask. rewrite map_length. auto.
    + unfold mask. rewrite map_length. auto.
  - rewrite M in E. rewrite (some_true_false _ _ E). auto.
Qed.
Lemma cg_wf : forall v n g g', in_range n (g_conn g) -> length (g_mat g) = length (g_conn g) -> In g' (cg v g) ->
  in_range n (g_conn g') /\ length (g_mat g') = length (g_conn g').
Proof.
  intros v n g g' R L H. unfold cg in H. destruct (some_true _); [|destruct H]. destruct H as [<-|[]]. cbn [g_conn g_mat]. split.
  - intros row i A B. apply In_mask_take in A. eapply R; eauto.
  - apply length_mask_take; rewrite map_length; auto.
Qed.
Lemma cells_filter : forall m gs' (p : nat * list nat * Z -> bool) (q : cell -> bool),
  (forall r, In r (rows m) -> p r = q (fst (fst r), map (vertex_of m) (snd (fst r)), snd r)) ->
  rows_of gs' = filter p (rows m) ->
  cells (mkM (m_coors m) (m_vg m) gs') = filter q (cells m).
Proof.
  intros m gs' p q H E. unfold cells at 2. rewrite filter_map. unfold cells. change (rows (mkM (m_coors m) (m_vg m) gs')) with (rows_of gs'). rewrite E.
  rewrite (filter_ext_in _ _ _ H). auto.
Qed.
Lemma keeps_all : forall (P : nat -> Prop) m, length (m_vg m) = length (m_coors m) -> (forall i, i < length (m_coors m) -> P i) ->
  forall m', m_coors m' = m_coors m -> m_vg m' = m_vg m -> keeps_vertices P m m'.
Proof.
  intros P m L H m' E1 E2. exists (seq 0 (length (m_coors m))). split; [|split].
  - generalize (length (m_coors m)). intros n. generalize 0. induction n as [|n IH]; intros k; cbn; constructor; [apply IH|]. apply Forall_forall. intros x X. apply in_seq in X. lia.
  - intros i. rewrite in_seq. split; [intros X; split; [lia|apply H; lia]|lia].
  - rewrite E1, E2. assert (T : forall A (d : A) l, take d l (seq 0 (length l)) = l).
    { intros A d l. apply nth_ext with (d := d) (d' := d); [rewrite length_take, seq_length; auto|]. intros k K. rewrite length_take, seq_length in K.
      rewrite nth_take by (rewrite seq_length; auto). rewrite nth_seq0; auto. }
    split; [symmetry; apply T|]. rewrite <- L. symmetry. apply T.
Qed.

Theorem C96_cgroup : forall m v co m', wf_mesh m -> get_mesh_by_cgroup m v co = Ok m' ->
  wf_mesh m' /\ cells m' = filter (fun c => selected v (cell_mat c)) (cells m) /\
  keeps_vertices (fun i => co = true -> exists r, In r (rows m) /\ selects v (snd r) /\ In i (snd (fst r))) m m'.
Proof.
  intros m v co m' W H. unfold get_mesh_by_cgroup in H. cbv zeta in H.
  change (flat_map _ (m_groups m)) with (flat_map (cg v) (m_groups m)) in H.
  set (gs := flat_map (cg v) (m_groups m)) in *. unfold from_data in H. destruct gs as [|g0 gt] eqn:GS; [discriminate|]. rewrite <- GS in *.
  cbn [bind] in H. set (out := mkM (m_coors m) (m_vg m) gs) in *. destruct W as [WV WC].
  assert (RO : rows_of gs = filter (fun r => selected v (snd r)) (rows m)).
  { unfold gs. rewrite rows_of_flat. unfold rows. rewrite filter_flat_map. apply flat_map_ext_in. intros g G. rewrite cg_rows by (apply WC; auto).
    unfold rows_of. cbn [flat_map]. rewrite app_nil_r. auto. }
  assert (WO : wf_mesh out).
  { split; auto. unfold out. cbn [m_groups m_coors]. unfold gs. intros g' G'. apply in_flat_map in G'. destruct G' as (g & G & G').
    destruct (WC g G) as [R L]. eapply cg_wf; eauto. }
  assert (CO : cells out = filter (fun c => selected v (cell_mat c)) (cells m)).
  { unfold out. eapply cells_filter; [|apply RO]. intros r _. auto. }
  destruct co.
  - destruct (vertices_only WO H) as (A & B & (is & C1 & C2 & C3 & C4)). split; auto. split; [congruence|].
    exists is. split; auto. split; auto. intros i. rewrite C2. unfold out at 1. cbn [m_coors]. split; intros [X Y]; split; auto.
    + intros _. destruct Y as (r & Y1 & Y2). change (rows out) with (rows_of gs) in Y1. rewrite RO in Y1. apply filter_In in Y1. destruct Y1 as [Y1 Y3].
      exists r. split; auto. split; auto. apply selected_ok; auto.
    + destruct (Y eq_refl) as (r & Y1 & Y2 & Y3). exists r. split; auto. change (rows out) with (rows_of gs). rewrite RO. apply filter_In. split; auto.
      apply selected_ok; auto.
  - injection H as <-. split; auto. split; auto. apply keeps_all; auto. discriminate.
Qed.

(** ** Selection by vertex groups *)
Definition ng (good : list nat -> bool) (num : nat -> nat) (g : group) : list group :=
  let cmask := map good (g_conn g) in
  if some_true cmask then [mkG (g_desc g) (map (map num) (mask_take cmask (g_conn g))) (mask_take cmask (g_mat g))] else [].
Lemma combine_map_l : forall A B C (f : A -> B) (a : list A) (b : list C), combine (map f a) b = map (fun x => (f (fst x), snd x)) (combine a b).
Proof. intros A B C f a. induction a as [|x a IH]; intros [|y b]; cbn; auto. rewrite IH. auto. Qed.
Lemma ng_rows : forall good num g, length (g_mat g) = length (g_conn g) ->
  rows_of (ng good num g) = map (fun r => (fst (fst r), map num (snd (fst r)), snd r)) (filter (fun r => good (snd (fst r))) (rows_of [g])).
Proof.
  intros good num g L. unfold ng, rows_of. cbn [flat_map]. rewrite app_nil_r, filter_map. cbn [snd fst].
  set (mask := map good (g_conn g)). assert (M : mask = map (fun rm : list nat * Z => good (fst rm)) (combine (g_conn g) (g_mat g))).
  { unfold mask. rewrite <- (map_fst_combine (g_conn g) (g_mat g)) at 1 by auto. rewrite map_map. auto. }
  destruct (some_true mask) eqn:E.
  - cbn [flat_map g_desc g_conn g_mat]. rewrite app_nil_r. rewrite combine_map_l, !map_map, mask_take_combine.
    + rewrite M, mask_take_filter. auto.
    + unfold mask. rewrite map_length. auto.
    + unfold mask. rewrite map_length. auto.
  - rewrite M in E. rewrite (some_true_false _ _ E). auto.
Qed.
Lemma sinc_nth_lt : forall l i j, sinc l -> i < j -> j < length l -> nth i l 0 < nth j l 0.
Proof.
  induction l as [|x t IH]; intros i j H L B; cbn in B; [lia|]. inversion H as [|y s A C]; subst. destruct j as [|j]; [lia|]. destruct i as [|i]; cbn.
  - rewrite Forall_forall in C. apply C. apply nth_In. lia.
  - apply IH; auto; lia.
Qed.
(** The cells whose vertices are all selected. *)
Theorem C96_ngroup : forall m v co m', wf_mesh m -> get_mesh_by_ngroup m v co = Ok m' ->
  wf_mesh m' /\ cells m' = filter (fun c => forallb (fun p => selected v (snd p)) (cell_vertices c)) (cells m) /\
  keeps_vertices (fun i => selects v (nth i (m_vg m) 0%Z) /\
    (co = true -> exists r, In r (rows m) /\ (forall j, In j (snd (fst r)) -> selects v (nth j (m_vg m) 0%Z)) /\ In i (snd (fst r)))) m m'.
Proof.
  intros m v co m' W H. unfold get_mesh_by_ngroup in H. cbv zeta in H.
  set (mask := map (selected v) (m_vg m)) in *. set (idx := nonzero (fun b : bool => b) mask) in *.
  set (remap := put (repeat None (length mask)) idx (map Some (seq 0 (length idx)))) in *.
  set (good := fun row => forallb (fun i => match nth i remap None with Some _ => true | None => false end) row) in *.
  set (num := fun i => match nth i remap None with Some k => k | None => 0 end) in *.
  change (flat_map _ (m_groups m)) with (flat_map (ng good num) (m_groups m)) in H.
  set (gs := flat_map (ng good num) (m_groups m)) in *. unfold from_data in H. destruct gs as [|g0 gt] eqn:GS; [discriminate|]. rewrite <- GS in *.
  cbn [bind] in H. set (out := mkM (mask_take mask (m_coors m)) (mask_take mask (m_vg m)) gs) in *. destruct W as [WV WC].
  assert (LM : length mask = length (m_coors m)) by (unfold mask; rewrite map_length; auto).
  assert (SI : sinc idx) by apply nonzero_sinc.
  assert (II : forall i, In i idx <-> i < length (m_coors m) /\ selected v (nth i (m_vg m) 0%Z) = true).
  { intros i. unfold idx. rewrite (nonzero_spec _ false). rewrite LM. unfold mask. split; intros [A B]; split; auto.
    - rewrite nth_map_in with (da := 0%Z) in B by lia. auto.
    - rewrite nth_map_in with (da := 0%Z) by lia. auto. }
  assert (RS : forall i, In i idx -> exists k, nth i remap None = Some k /\ k < length idx /\ nth k idx 0 = i).
  { intros i I. destruct (In_nth idx i 0 I) as (k & K & KE). exists k. split; auto. unfold remap. rewrite <- KE. rewrite put_nth; auto.
    - rewrite nth_map_in with (da := 0) by (rewrite seq_length; auto). rewrite nth_seq0; auto.
    - apply sinc_NoDup'; auto.
    - intros j J. rewrite repeat_length, LM. apply II; auto.
    - rewrite map_length, seq_length. auto. }
  assert (RN : forall i, ~ In i idx -> nth i remap None = None).
  { intros i I. unfold remap. rewrite put_notin by auto. apply nth_repeat. }
  assert (GI : forall row, good row = true <-> forall i, In i row -> In i idx).
  { intros row. unfold good. rewrite forallb_forall. split; intros G i I.
    - destruct (in_dec Nat.eq_dec i idx) as [X|X]; auto. specialize (G i I). rewrite (RN i X) in G. discriminate.
    - destruct (RS i (G i I)) as (k & E & _). rewrite E. auto. }
  assert (RO : rows_of gs = map (fun r => (fst (fst r), map num (snd (fst r)), snd r)) (filter (fun r => good (snd (fst r))) (rows m))).
  { unfold gs. rewrite rows_of_flat. unfold rows. rewrite filter_flat_map, !flat_map_concat_map, concat_map, map_map. f_equal. apply map_ext_in. intros g G.
    rewrite ng_rows by (apply WC; auto). unfold rows_of. cbn [flat_map]. rewrite app_nil_r. auto. }
  assert (TC : m_coors out = take [] (m_coors m) idx) by (apply mask_take_nonzero; auto).
  assert (TV : m_vg out = take 0%Z (m_vg m) idx) by (apply mask_take_nonzero; rewrite LM; auto).
  assert (NB : forall i, In i idx -> num i < length idx /\ nth (num i) idx 0 = i).
  { intros i I. destruct (RS i I) as (k & E & A & B). unfold num. rewrite E. auto. }
  assert (RB : forall r i, In r (rows m) -> In i (snd (fst r)) -> i < length (m_coors m)).
  { intros [[d r] k] i A B. apply rows_In in A. destruct A as (g & A1 & A2). destruct (WC g A1) as [R _]. eapply R; eauto. }
  assert (WO : wf_mesh out).
  { split; [rewrite TC, TV, !length_take; auto|]. rewrite TC, length_take. unfold out. cbn [m_groups]. unfold gs. intros g' G'. apply in_flat_map in G'.
    destruct G' as (g & G & G'). destruct (WC g G) as [R L]. unfold ng in G'. destruct (some_true _); [|destruct G']. destruct G' as [<-|[]].
    cbn [g_conn g_mat]. split; [|rewrite map_length; apply length_mask_take; rewrite map_length; auto].
    rewrite mask_take_filter. intros row i A B. apply in_map_iff in A. destruct A as (row' & <- & A). apply filter_In in A. destruct A as [_ A].
    apply in_map_iff in B. destruct B as (j & <- & B). apply NB. apply (proj1 (GI row') A). auto. }
  assert (CO : cells out = filter (fun c => forallb (fun p => selected v (snd p)) (cell_vertices c)) (cells m)).
  { unfold cells. change (rows out) with (rows_of gs). rewrite RO, map_map, filter_map. unfold cell_vertices. cbn [fst snd].
    assert (FE : forall r, In r (rows m) -> good (snd (fst r)) = forallb (fun p => selected v (snd p)) (map (vertex_of m) (snd (fst r)))).
    { intros r Rr. apply eq_true_iff_eq. rewrite GI, forallb_forall. split.
      - intros G p Pp. apply in_map_iff in Pp. destruct Pp as (i & <- & Pp). apply II, G; auto.
      - intros G i Ii. apply II. split; [eapply RB; eauto|]. apply (G (vertex_of m i)). apply in_map. auto. }
    rewrite (filter_ext_in _ _ _ FE). apply map_ext_in. intros r Rr. rewrite <- (filter_ext_in _ _ _ FE) in Rr. apply filter_In in Rr. destruct Rr as [R1 R2].
    f_equal. f_equal. rewrite map_map. apply map_ext_in. intros i Ii. destruct (NB i (proj1 (GI _) R2 i Ii)) as [N1 N2]. unfold vertex_of.
    rewrite TC, TV, !nth_take by auto. rewrite N2. auto. }
  destruct co.
  - destruct (vertices_only WO H) as (A & B & (is & C1 & C2 & C3 & C4)). split; auto. split; [congruence|].
    rewrite TC, length_take in C2.
    assert (CB : forall i, In i is -> i < length idx) by (intros i I; apply C2; auto).
    exists (take 0 idx is). split; [|split; [|split]].
    + clear C2 C3 C4. induction C1 as [|x t C1 IH C5]; cbn; constructor; auto; [apply IH; intros; apply CB; right; auto|].
      apply Forall_forall. intros y Y. unfold take in Y. apply in_map_iff in Y. destruct Y as (z & <- & Y). rewrite Forall_forall in C5. specialize (C5 z Y).
      apply sinc_nth_lt; auto. apply CB. right; auto.
    + intros i. split.
      * intros I. unfold take in I. apply in_map_iff in I. destruct I as (k & <- & I). assert (K := CB k I). assert (X := proj1 (II (nth k idx 0)) (nth_In idx 0 K)).
        destruct X as [X1 X2]. split; auto. split; [apply selected_ok; auto|]. intros _. apply C2 in I. destruct I as (_ & r & Y1 & Y2).
        change (rows out) with (rows_of gs) in Y1. rewrite RO in Y1. apply in_map_iff in Y1. destruct Y1 as (r0 & <- & Y1). apply filter_In in Y1. destruct Y1 as [Y1 Y3].
        cbn [fst snd] in Y2. exists r0. split; auto. split.
        { intros j J. apply selected_ok. apply II. apply (proj1 (GI _) Y3). auto. }
        apply in_map_iff in Y2. destruct Y2 as (j & Y2 & Y4). destruct (NB j (proj1 (GI _) Y3 j Y4)) as [N1 N2]. subst k. rewrite N2. auto.
      * intros (I & _ & X). destruct (X eq_refl) as (r & Y1 & Y2 & Y3). assert (G : good (snd (fst r)) = true).
        { apply GI. intros j J. apply II. split; [eapply RB; eauto|apply selected_ok; auto]. }
        destruct (NB i (proj1 (GI _) G i Y3)) as [N1 N2]. unfold take. apply in_map_iff. exists (num i). split; auto. apply C2. split; auto.
        exists (fst (fst r), map num (snd (fst r)), snd r). cbn [fst snd]. split; [|apply in_map; auto].
        change (rows out) with (rows_of gs). rewrite RO. apply in_map_iff. exists r. split; auto. apply filter_In. auto.
    + rewrite C3, TC. unfold take. rewrite map_map. apply map_ext_in. intros k K. rewrite nth_map_in with (da := 0) by (apply CB; auto). auto.
    + rewrite C4, TV. unfold take. rewrite map_map. apply map_ext_in. intros k K. rewrite nth_map_in with (da := 0) by (apply CB; auto). auto.
  - injection H as <-. split; auto. split; auto. exists idx. split; auto. split; [|auto]. intros i. rewrite II, selected_ok. split; [intros [X Y]|tauto].
    split; auto. split; auto. discriminate.
Qed.

(** ** When it works *)
Theorem C96_runs : forall m v co, wf_mesh m -> (forall r, In r (rows m) -> snd (fst r) <> []) -> co = false \/ length (m_groups m) = 1 ->
  if existsb (fun r => selected v (snd r)) (rows m) then exists m', get_mesh_by_cgroup m v co = Ok m'
  else get_mesh_by_cgroup m v co = Err ValueError.
Proof.
  intros m v co [WV WC] NE C. unfold get_mesh_by_cgroup. cbv zeta.
  change (flat_map _ (m_groups m)) with (flat_map (cg v) (m_groups m)). set (gs := flat_map (cg v) (m_groups m)).
  assert (RO : rows_of gs = filter (fun r => selected v (snd r)) (rows m)).
  { unfold gs. rewrite rows_of_flat. unfold rows. rewrite filter_flat_map. apply flat_map_ext_in. intros g G. rewrite cg_rows by (apply WC; auto).
    unfold rows_of. cbn [flat_map]. rewrite app_nil_r. auto. }
  assert (NG : forall g, In g gs -> rows_of [g] <> []).
  { intros g' G'. unfold gs in G'. apply in_flat_map in G'. destruct G' as (g & G & G'). unfold cg in G'. destruct (some_true _) eqn:E; [|destruct G'].
    destruct G' as [<-|[]]. unfold rows_of. cbn [flat_map g_conn g_mat g_desc]. rewrite app_nil_r. intros X. apply map_eq_nil in X.
    rewrite mask_take_combine in X by (rewrite map_length; auto; symmetry; apply WC; auto).
    destruct (WC g G) as [_ L]. rewrite <- (map_snd_combine (g_conn g) (g_mat g)) in E by auto. rewrite map_map in E.
    rewrite <- (map_snd_combine (g_conn g) (g_mat g)) in X at 1 by auto. rewrite map_map, mask_take_filter in X.
    unfold some_true in E. apply existsb_exists in E. destruct E as (b & E & ->). apply in_map_iff in E. destruct E as (rm & E1 & E2).
    assert (Y : In rm (filter (fun x : list nat * Z => selected v (snd x)) (combine (g_conn g) (g_mat g)))) by (apply filter_In; auto). rewrite X in Y. destruct Y. }
  destruct (existsb (fun r => selected v (snd r)) (rows m)) eqn:E.
  - apply existsb_exists in E. destruct E as (r & E1 & E2).
    assert (RR : In r (rows_of gs)) by (rewrite RO; apply filter_In; auto).
    destruct gs as [|g0 gt] eqn:GS; [destruct RR|]. cbn [from_data bind]. destruct co; [|eauto]. destruct C as [C|C]; [discriminate|].
    assert (GT : gt = []).
    { destruct (m_groups m) as [|g1 [|g2 t]]; cbn in C; try lia. unfold gs in GS. cbn [flat_map] in GS. rewrite app_nil_r in GS. unfold cg in GS. destruct (some_true _); [|discriminate].
      injection GS as _ <-. auto. }
    subst gt. unfold get_cell_vertices_only, unique_list. cbn [map m_groups forallb bind concat]. rewrite app_nil_r.
    destruct (unique (unique (concat (g_conn g0)))) as [|a t] eqn:U; [|cbn [prepare_translate bind from_data]; eauto].
    exfalso. assert (Z0 : forall i, ~ In i (concat (g_conn g0))).
    { intros i I. rewrite <- unique_In in I. rewrite <- unique_In in I. rewrite U in I. destruct I. }
    assert (RR' := RR). rewrite RO in RR'. apply filter_In in RR'. destruct RR' as [RR' _]. assert (X := NE r RR').
    unfold rows_of in RR. cbn [flat_map] in RR. rewrite app_nil_r in RR. apply in_map_iff in RR. destruct RR as ([a b] & <- & RR). cbn [fst snd] in X.
    destruct a as [|i a]; [congruence|]. apply (Z0 i). apply In_concat. exists (i :: a). split; [apply in_combine_l in RR; auto|left; auto].
  - destruct gs as [|g0 gt] eqn:GS; [auto|]. exfalso. apply (NG g0); [left; auto|]. assert (X : rows_of (g0 :: gt) = []).
    { rewrite RO. destruct (filter _ (rows m)) as [|r t] eqn:F; auto. assert (Y : In r (filter (fun r => selected v (snd r)) (rows m))) by (rewrite F; left; auto).
      apply filter_In in Y. destruct Y as [Y1 Y2]. assert (Z1 : existsb (fun r => selected v (snd r)) (rows m) = true) by (apply existsb_exists; eauto). congruence. }
    change (g0 :: gt) with ([g0] ++ gt) in X. rewrite rows_of_app in X. apply app_eq_nil in X. tauto.
Qed.
(** With two kinds of cells the selection with only the vertices of its cells fails
    if the kinds have different numbers of vertices. *)
Theorem C96_mixed_refuted : exists m, wf_mesh m /\ (exists m', get_mesh_by_cgroup m (VInt 0) false = Ok m') /\
  get_mesh_by_cgroup m (VInt 0) true = Err ValueError.
Proof.
  exists (mkM [[0; 0]; [1; 0]; [1; 1]; [0; 1]; [2; 0]]%Q (repeat 0%Z 5) [mkG 3 [[1; 4; 2]] [0%Z]; mkG 4 [[0; 1; 2; 3]] [0%Z]]).
  split; [|split; [eexists; vm_compute; reflexivity|vm_compute; reflexivity]].
  split; [reflexivity|]. intros g G. cbn in G. destruct G as [<-|[<-|[]]]; cbn; (split; [|reflexivity]); intros row i [<-|[]] I; cbn in I;
    repeat (destruct I as [<-|I]; [lia|]); destruct I.
Qed.
Example C96_ex :
  let m := mkM [[0; 0]; [1; 0]; [1; 1]; [0; 1]; [2; 0]; [2; 1]]%Q [1; 2; 2; 1; 2; 2]%Z [mkG 4 [[0; 1; 2; 3]; [1; 4; 5; 2]] [5; 6]%Z] in
  get_mesh_by_cgroup m (VRange 6 9) true = Ok (mkM [[1; 0]; [1; 1]; [2; 0]; [2; 1]]%Q [2; 2; 2; 2]%Z [mkG 4 [[0; 2; 3; 1]] [6]%Z]) /\
  get_mesh_by_ngroup m (VList [2; 7]%Z) false = Ok (mkM [[1; 0]; [1; 1]; [2; 0]; [2; 1]]%Q [2; 2; 2; 2]%Z [mkG 4 [[0; 2; 3; 1]] [6]%Z]).
Proof. vm_compute. auto. Qed.
Print Assumptions C96_cgroup.
Print Assumptions C96_ngroup.
Print Assumptions C96_runs.
