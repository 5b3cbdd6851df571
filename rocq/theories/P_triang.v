(** C98: triangulation of quadrilateral and hexahedral meshes. *)
From Coq Require Import QArith Lqa.
From Verif Require Import Base L_chains M_parallel M_periodic M_merge M_block L_block P_merge P_extract P_block L_kuhn.
Set Implicit Arguments.
Open Scope nat_scope.

(** ** Specification *)
(** [p] has the barycentric coordinates [lam] in the simplex [row]. *)
Definition bary (m : mesh) (row : list nat) (lam : list Q) (p : point) : Prop :=
  length lam = length row /\ Forall (Qle 0) lam /\ (fold_right Qplus 0 lam == 1)%Q /\
  forall a, a < length p -> (fold_right Qplus 0 (map (fun q => snd q * nth a (coor_of m (fst q)) 0) (combine row lam)) == nth a p 0)%Q.
(** The weight of a vertex. *)
Definition weight (row : list nat) (lam : list Q) (v : nat) : Q :=
  fold_right Qplus 0%Q (map (fun q => if fst q =? v then snd q else 0%Q) (combine row lam)).
Definition mesh_rows (m : mesh) : list (list nat) := flat_map g_conn (m_groups m).
(** Two simplices meet in a common face: a point of both has the same weights of all
    vertices of the mesh in both; in particular it is in the face of common vertices,
    and piecewise linear functions of vertex values are well defined. *)
Definition conforming (dim : nat) (m : mesh) : Prop :=
  forall r1 r2 l1 l2 p, In r1 (mesh_rows m) -> In r2 (mesh_rows m) -> length p = dim -> bary m r1 l1 p -> bary m r2 l2 p ->
  forall v, (weight r1 l1 v == weight r2 l2 v)%Q.
Definition det2 (u v : point) : Q := (nth 0 u 0 * nth 1 v 0 - nth 1 u 0 * nth 0 v 0)%Q.
Definition det3 (u v w : point) : Q :=
  (nth 0 u 0 * (nth 1 v 0 * nth 2 w 0 - nth 2 v 0 * nth 1 w 0) - nth 1 u 0 * (nth 0 v 0 * nth 2 w 0 - nth 2 v 0 * nth 0 w 0) +
   nth 2 u 0 * (nth 0 v 0 * nth 1 w 0 - nth 1 v 0 * nth 0 w 0))%Q.
Definition sub (p q : point) : point := map (fun x => fst x - snd x)%Q (combine p q).
(** dim! times the volume of a simplex with vertex coordinates [xs]. *)
Definition vol (xs : list point) : Q :=
  match xs with
  | [a; b; c] => det2 (sub b a) (sub c a)
  | [a; b; c; d] => det3 (sub b a) (sub c a) (sub d a)
  | _ => 0%Q
  end.

(** ** The cells *)
Lemma map_add_seq : forall a n b, map (Nat.add a) (seq b n) = seq (a + b) n.
Proof. intros a n. induction n as [|n IH]; intros b; cbn; auto. f_equal. rewrite IH. f_equal. lia. Qed.
Lemma elems_q2t_spec : forall nnd el, elems_q2t nnd el = flat_map (fun row => map (take 0 row) (q2t nnd)) el.
Proof.
  intros nnd el. unfold elems_q2t. set (tab := q2t nnd). assert (N : 0 < length tab) by (unfold tab, q2t; destruct (4 <? nnd); cbn; lia).
  set (ns := length tab) in *. induction el as [|row el IH]; [reflexivity|]. cbn [length flat_map]. replace (S (length el) * ns) with (ns + length el * ns) by lia.
  rewrite seq_app, map_app. f_equal.
  - apply nth_ext with (d := []) (d' := []); [rewrite !map_length, seq_length; auto|]. intros k K. rewrite map_length, seq_length in K.
    rewrite nth_map_in with (da := 0) by (rewrite seq_length; auto). rewrite nth_seq0 by auto. rewrite Nat.div_small, Nat.mod_small by auto. cbn [nth].
    rewrite nth_map_in with (da := []) by auto. auto.
  - cbn [plus]. rewrite <- IH. replace (seq ns (length el * ns)) with (map (fun r => r + 1 * ns) (seq 0 (length el * ns))).
    + rewrite map_map. apply map_ext. intros r. rewrite Nat.div_add, Nat.mod_add by lia. rewrite Nat.add_1_r. reflexivity.
    + transitivity (map (Nat.add ns) (seq 0 (length el * ns))); [apply map_ext; intros; lia|]. rewrite map_add_seq. f_equal. lia.
Qed.

Lemma combine_flat : forall A B C (f : A -> list C) n (l : list A) (k : list B), (forall x, In x l -> length (f x) = n) -> length k = length l ->
  combine (flat_map f l) (repeat_each n k) = flat_map (fun p => map (fun y => (y, snd p)) (f (fst p))) (combine l k).
Proof.
  intros A B C f n. induction l as [|x l IH]; intros [|y k] H L; cbn in L; try lia; [reflexivity|]. unfold repeat_each. cbn [flat_map combine fst snd].
  fold (repeat_each n k). assert (X : forall (a : list C) (b : list C) m (c : list B), length a = m -> combine (a ++ b) (repeat y m ++ c) = map (fun z => (z, y)) a ++ combine b c).
  { induction a as [|z a IHa]; intros b m c <-; cbn; auto. f_equal. apply IHa. auto. }
  rewrite X by (apply H; left; auto). f_equal. apply IH; [|lia]. intros z Z1. apply H. right; auto.
Qed.
Definition tetrahedra : list (list nat) := [[0; 2; 3; 6]; [0; 3; 7; 6]; [0; 7; 4; 6]; [0; 5; 6; 4]; [1; 5; 6; 0]; [1; 6; 2; 0]].
Definition triangles : list (list nat) := [[0; 1; 2]; [0; 2; 3]].
Definition cut (tab : list (list nat)) (new : nat) (r : nat * list nat * Z) : list (nat * list nat * Z) :=
  map (fun loc => (new, map (fun k => nth k (snd (fst r)) 0) loc, snd r)) tab.
Lemma kind_conn : forall m old, (forall g, In g (m_groups m) -> g_desc g = old) -> get_conn m old = mesh_rows m.
Proof.
  intros m old H. unfold get_conn, mesh_rows. apply flat_map_ext_in. intros g G. rewrite (H g G), Nat.eqb_refl. auto.
Qed.
Lemma length_flat_const : forall A B (f : A -> list B) n l, (forall x, length (f x) = n) -> length (flat_map f l) = n * length l.
Proof. intros A B f n l H. induction l as [|x l IH]; cbn; [lia|]. rewrite app_length, H, IH. lia. Qed.
Lemma triangulate_rows : forall m nnd old new, wf_mesh m -> (forall g, In g (m_groups m) -> g_desc g = old) -> mesh_rows m <> [] ->
  rows (triangulate_kind m nnd old new) = flat_map (cut (q2t nnd) new) (rows m).
Proof.
  intros m nnd old new [_ W] H NE. unfold triangulate_kind. rewrite (kind_conn _ H). rewrite elems_q2t_spec. unfold rows at 1. cbn [m_groups flat_map g_desc g_conn g_mat]. rewrite app_nil_r.
  set (tab := q2t nnd). rewrite (@length_flat_const _ _ _ (length tab)) by (intros; rewrite map_length; auto). rewrite Nat.div_mul by (destruct (mesh_rows m); [congruence|discriminate]).
  assert (LM : length (cell_groups m) = length (mesh_rows m)).
  { unfold cell_groups, mesh_rows. clear -W. induction (m_groups m) as [|g gs IH]; cbn; auto. rewrite !app_length, IH by (intros g' G; apply W; right; auto).
    f_equal. apply W. left; auto. }
  rewrite (@combine_flat _ _ _ (fun row => map (take 0 row) tab) (length tab)); [|intros; rewrite map_length; auto|auto].
  assert (RC : rows m = map (fun rm => (old, fst rm, snd rm)) (combine (mesh_rows m) (cell_groups m))).
  { unfold rows, cell_groups, mesh_rows. clear -W H. induction (m_groups m) as [|g gs IH]; cbn [flat_map]; [reflexivity|].
    rewrite IH by (intros g' G; first [apply W | apply H]; right; auto). rewrite (H g (or_introl eq_refl)). destruct (W g (or_introl eq_refl)) as [_ L].
    assert (X : forall A B (a b : list A) (c d : list B), length a = length c -> combine (a ++ b) (c ++ d) = combine a c ++ combine b d).
    { intros A B. induction a as [|x a IHa]; intros b [|y c] d E; cbn in *; auto; try lia. f_equal. apply IHa. lia. }
    rewrite X by auto. rewrite map_app. auto. }
  rewrite RC, flat_map_map', map_flat_map. apply flat_map_ext'. intros [r k]. unfold cut. cbn [fst snd]. rewrite !map_map. apply map_ext. intros loc. reflexivity.
Qed.
(** Each cell is cut into six tetrahedra or two triangles of the same material. *)
Theorem C98_hexahedra : forall m, wf_mesh m -> (forall g, In g (m_groups m) -> g_desc g = d3_8) -> mesh_rows m <> [] ->
  m_coors (triangulate m) = m_coors m /\ m_vg (triangulate m) = m_vg m /\ rows (triangulate m) = flat_map (cut tetrahedra d3_4) (rows m).
Proof.
  intros m W H NE. assert (X : has_desc m d3_8 = true).
  { unfold has_desc. destruct (m_groups m) as [|g gs] eqn:E; [unfold mesh_rows in NE; rewrite E in NE; cbn in NE; congruence|]. cbn. rewrite (H g (or_introl eq_refl)), Nat.eqb_refl. auto. }
  unfold triangulate. rewrite X. split; auto. split; auto. apply (@triangulate_rows m 8 d3_8 d3_4); auto.
Qed.
Theorem C98_quadrilaterals : forall m, wf_mesh m -> (forall g, In g (m_groups m) -> g_desc g = d2_4) -> mesh_rows m <> [] ->
  m_coors (triangulate m) = m_coors m /\ m_vg (triangulate m) = m_vg m /\ rows (triangulate m) = flat_map (cut triangles d2_3) (rows m).
Proof.
  intros m W H NE. assert (X : has_desc m d2_4 = true /\ has_desc m d3_8 = false).
  { unfold has_desc. split.
    - destruct (m_groups m) as [|g gs] eqn:E; [unfold mesh_rows in NE; rewrite E in NE; cbn in NE; congruence|]. cbn. rewrite (H g (or_introl eq_refl)), Nat.eqb_refl. auto.
    - apply Bool.not_true_is_false. intros E. apply existsb_exists in E. destruct E as (g & G & E). rewrite (H g G) in E. discriminate. }
  unfold triangulate. rewrite (proj2 X), (proj1 X). split; auto. split; auto. apply (@triangulate_rows m 4 d2_4 d2_3); auto.
Qed.

(** ** Volumes *)
(** A cell that is a parallelepiped: all tetrahedra have the orientation of the cell
    and equal volumes. *)
Definition affine3 (xs : list point) (o u v w : point) : Prop :=
  forall a, a < 3 ->
    (nth a (nth 0 xs []) 0 == nth a o 0 /\ nth a (nth 1 xs []) 0 == nth a o 0 + nth a u 0 /\
     nth a (nth 2 xs []) 0 == nth a o 0 + nth a u 0 + nth a v 0 /\ nth a (nth 3 xs []) 0 == nth a o 0 + nth a v 0 /\
     nth a (nth 4 xs []) 0 == nth a o 0 + nth a w 0 /\ nth a (nth 5 xs []) 0 == nth a o 0 + nth a u 0 + nth a w 0 /\
     nth a (nth 6 xs []) 0 == nth a o 0 + nth a u 0 + nth a v 0 + nth a w 0 /\ nth a (nth 7 xs []) 0 == nth a o 0 + nth a v 0 + nth a w 0)%Q.
Lemma vol4 : forall p q r s, length p = 3 -> length q = 3 -> length r = 3 -> length s = 3 ->
  vol [p; q; r; s] = det3 [nth 0 q 0 - nth 0 p 0; nth 1 q 0 - nth 1 p 0; nth 2 q 0 - nth 2 p 0]%Q [nth 0 r 0 - nth 0 p 0; nth 1 r 0 - nth 1 p 0; nth 2 r 0 - nth 2 p 0]%Q
    [nth 0 s 0 - nth 0 p 0; nth 1 s 0 - nth 1 p 0; nth 2 s 0 - nth 2 p 0]%Q.
Proof.
  intros p q r s. destruct p as [|p0 [|p1 [|p2 [|]]]]; try discriminate. destruct q as [|q0 [|q1 [|q2 [|]]]]; try discriminate.
  destruct r as [|r0 [|r1 [|r2 [|]]]]; try discriminate. destruct s as [|s0 [|s1 [|s2 [|]]]]; try discriminate. intros. reflexivity.
Qed.
Theorem C98_volumes : forall xs o u v w loc, length xs = 8 -> (forall x, In x xs -> length x = 3) -> affine3 xs o u v w -> In loc tetrahedra ->
  (vol (map (fun k => nth k xs []) loc) == det3 u v w)%Q.
Proof.
  intros xs o u v w loc L D A HL.
  destruct xs as [|x0 [|x1 [|x2 [|x3 [|x4 [|x5 [|x6 [|x7 [|]]]]]]]]]; try discriminate. clear L.
  assert (DD : forall k, k < 8 -> length (nth k [x0; x1; x2; x3; x4; x5; x6; x7] []) = 3) by (intros k K; apply D, nth_In; cbn; lia).
  assert (D0 := DD 0 ltac:(lia)). assert (D1 := DD 1 ltac:(lia)). assert (D2 := DD 2 ltac:(lia)). assert (D3 := DD 3 ltac:(lia)).
  assert (D4 := DD 4 ltac:(lia)). assert (D5 := DD 5 ltac:(lia)). assert (D6 := DD 6 ltac:(lia)). assert (D7 := DD 7 ltac:(lia)).
  destruct (A 0 ltac:(lia)) as (A0 & A1 & A2 & A3 & A4 & A5 & A6 & A7). destruct (A 1 ltac:(lia)) as (B0 & B1 & B2 & B3 & B4 & B5 & B6 & B7).
  destruct (A 2 ltac:(lia)) as (C0 & C1 & C2 & C3 & C4 & C5 & C6 & C7). clear A D DD. cbn [nth] in *.
  unfold tetrahedra in HL. repeat (destruct HL as [<-|HL]; [cbn [map nth]; rewrite vol4 by auto; unfold det3; cbn [nth];
    rewrite ?A0, ?A1, ?A2, ?A3, ?A4, ?A5, ?A6, ?A7, ?B0, ?B1, ?B2, ?B3, ?B4, ?B5, ?B6, ?B7, ?C0, ?C1, ?C2, ?C3, ?C4, ?C5, ?C6, ?C7; ring|]). destruct HL.
Qed.
(** A convex quadrilateral (counterclockwise): both triangles are positive and their
    volumes add up. *)
Theorem C98_quad_volumes : forall a b c d, length a = 2 -> length b = 2 -> length c = 2 -> length d = 2 ->
  (0 < vol [a; b; c])%Q -> (0 < vol [b; c; d])%Q -> (0 < vol [c; d; a])%Q -> (0 < vol [d; a; b])%Q ->
  (forall loc, In loc triangles -> 0 < vol (map (fun k => nth k [a; b; c; d] []) loc))%Q /\
  (vol [a; b; c] + vol [a; c; d] == det2 (sub c a) (sub d b))%Q.
Proof.
  intros a b c d. destruct a as [|a0 [|a1 [|]]]; try discriminate. destruct b as [|b0 [|b1 [|]]]; try discriminate.
  destruct c as [|c0 [|c1 [|]]]; try discriminate. destruct d as [|d0 [|d1 [|]]]; try discriminate. intros _ _ _ _ H1 H2 H3 H4. split.
  - intros loc [<-|[<-|[]]]; cbn [map nth]; auto. unfold vol, det2, sub in *. cbn [nth combine map fst snd] in *. lra.
  - unfold vol, det2, sub. cbn [nth combine map fst snd]. ring.
Qed.

(** ** Block meshes *)
Lemma block_rows3 : forall dims centre n0 n1 n2 mat row,
  In row (mesh_rows (triangulate (gen_block_mesh dims centre [n0; n1; n2] mat))) <->
  exists t B, in_shape [n0 - 1; n1 - 1; n2 - 1] t /\ In B tets_bits /\ row = map (fun bits => numb 0 [n0; n1; n2] (addb t bits)) B.
Proof.
  intros. unfold triangulate, gen_block_mesh, has_desc. cbn [m_groups existsb g_desc desc_of length]. rewrite Nat.eqb_refl. cbn [orb].
  unfold mesh_rows, triangulate_kind. cbn [m_groups flat_map g_conn]. rewrite app_nil_r, elems_q2t_spec. unfold get_conn. cbn [m_groups flat_map g_desc g_conn]. rewrite Nat.eqb_refl, app_nil_r.
  rewrite conn_spec by (cbn; lia). rewrite in_flat_map. split.
  - intros (r & R & H). apply in_map_iff in R. destruct R as (t & <- & R). apply in_map_iff in H. destruct H as (loc & <- & H). apply tuples_In in R.
    exists t, (map (fun v => nth v (columns 3) []) loc). split; [exact R|]. split; [apply in_map; exact H|]. rewrite map_map. unfold take. apply map_ext_in. intros v V.
    cbn [length]. assert (VB : v < 8) by (cbn in H; repeat (destruct H as [<-|H]; [cbn in V; lia|]); destruct H).
    rewrite nth_map_in with (da := []) by (cbn; lia). auto.
  - intros (t & B & T & HB & ->). unfold tets_bits in HB. apply in_map_iff in HB. destruct HB as (loc & <- & H).
    exists (map (fun bits => numb 0 [n0; n1; n2] (addb t bits)) (columns 3)). split; [apply in_map_iff; exists t; split; auto; apply tuples_In; exact T|].
    apply in_map_iff. exists loc. split; auto. rewrite map_map. unfold take. apply map_ext_in. intros v V.
    assert (VB : v < 8) by (cbn in H; repeat (destruct H as [<-|H]; [cbn in V; lia|]); destruct H).
    rewrite nth_map_in with (da := []) by (cbn; lia). auto.
Qed.
Lemma block_rows2 : forall dims centre n0 n1 mat row,
  In row (mesh_rows (triangulate (gen_block_mesh dims centre [n0; n1] mat))) <->
  exists t B, in_shape [n0 - 1; n1 - 1] t /\ In B tris_bits /\ row = map (fun bits => numb 0 [n0; n1] (addb t bits)) B.
Proof.
  intros. unfold triangulate, gen_block_mesh, has_desc. cbn [m_groups existsb g_desc desc_of length]. cbn [orb Nat.eqb d2_4 d3_8].
  unfold mesh_rows, triangulate_kind. cbn [m_groups flat_map g_conn]. rewrite app_nil_r, elems_q2t_spec. unfold get_conn. cbn [m_groups flat_map g_desc g_conn Nat.eqb]. rewrite app_nil_r.
  rewrite conn_spec by (cbn; lia). rewrite in_flat_map. split.
  - intros (r & R & H). apply in_map_iff in R. destruct R as (t & <- & R). apply in_map_iff in H. destruct H as (loc & <- & H). apply tuples_In in R.
    exists t, (map (fun v => nth v (columns 2) []) loc). split; [exact R|]. split; [apply in_map; exact H|]. rewrite map_map. unfold take. apply map_ext_in. intros v V.
    cbn [length]. assert (VB : v < 4) by (cbn in H; repeat (destruct H as [<-|H]; [cbn in V; lia|]); destruct H).
    rewrite nth_map_in with (da := []) by (cbn; lia). auto.
  - intros (t & B & T & HB & ->). unfold tris_bits in HB. apply in_map_iff in HB. destruct HB as (loc & <- & H).
    exists (map (fun bits => numb 0 [n0; n1] (addb t bits)) (columns 2)). split; [apply in_map_iff; exists t; split; auto; apply tuples_In; exact T|].
    apply in_map_iff. exists loc. split; auto. rewrite map_map. unfold take. apply map_ext_in. intros v V.
    assert (VB : v < 4) by (cbn in H; repeat (destruct H as [<-|H]; [cbn in V; lia|]); destruct H).
    rewrite nth_map_in with (da := []) by (cbn; lia). auto.
Qed.
Lemma tri_coors : forall m, m_coors (triangulate m) = m_coors m.
Proof. intros m. unfold triangulate. destruct (has_desc m d3_8); auto. destruct (has_desc m d2_4); auto. Qed.
Lemma weight_wtl : forall shape t t' B lam, (forall bits, In bits B -> in_shape shape (addb t bits)) -> in_shape shape t' ->
  weight (map (fun bits => numb 0 shape (addb t bits)) B) lam (numb 0 shape t') = wtl t t' B lam.
Proof.
  intros shape t t' B. unfold weight, wtl, qsum. induction B as [|b B IH]; intros [|l lam] H T; cbn [map combine fold_right]; auto.
  rewrite IH by (auto; intros; apply H; right; auto). f_equal. cbn [fst snd]. unfold pickw, eqt.
  destruct (list_eq_dec Nat.eq_dec (addb t b) t') as [E|E].
  - rewrite E, Nat.eqb_refl. auto.
  - destruct (numb 0 shape (addb t b) =? numb 0 shape t') eqn:X; auto. apply Nat.eqb_eq in X. exfalso. apply E. apply numb_inj with (shape := shape); auto.
    apply H. left; auto.
Qed.
Lemma weight_notin : forall row lam v, ~ In v row -> (weight row lam v == 0)%Q.
Proof.
  unfold weight. induction row as [|x row IH]; intros [|l lam] v H; cbn [combine map fold_right]; try reflexivity. rewrite IH by (intros X; apply H; right; auto).
  cbn [fst snd]. destruct (x =? v) eqn:E; [|ring]. apply Nat.eqb_eq in E. exfalso. apply H. left; auto.
Qed.
Definition dax : axis := (0%Q, 0%Q, 0).
Lemma nth_vert : forall ax t a, length t = length ax -> a < length ax -> nth a (vert ax t) 0%Q = at_ (nth a ax dax) (nth a t 0).
Proof. induction ax as [|x ax IH]; intros [|i t] [|a] L H; cbn in L, H; try lia; cbn [vert nth]; auto. apply IH; lia. Qed.
Lemma nth_addb : forall t bits a, length bits = length t -> a < length t -> nth a (addb t bits) 0 = nth a t 0 + b2n (nth a bits false).
Proof. induction t as [|i t IH]; intros [|b bits] [|a] L H; cbn in L, H; try lia; cbn [addb nth]; auto. apply IH; lia. Qed.
Lemma length_addb : forall t bits, length bits = length t -> length (addb t bits) = length t.
Proof. induction t as [|i t IH]; intros [|b bits] L; cbn in *; try lia. rewrite IH; lia. Qed.
Lemma bary_sum : forall ax t B lam a, length t = length ax -> a < length ax -> (forall bits, In bits B -> length bits = length ax) -> length lam = length B ->
  (qsum (map (fun q => snd q * nth a (vert ax (addb t (fst q))) 0) (combine B lam)) ==
   fst (fst (nth a ax dax)) * qsum lam + snd (fst (nth a ax dax)) * (q_of (nth a t 0%nat) * qsum lam + czl B lam a))%Q.
Proof.
  intros ax t B. unfold czl. induction B as [|b B IH]; intros [|l lam] a L A H LL; cbn [length] in LL; try lia; cbn [combine map qsum fold_right]; [ring|].
  fold (qsum lam). fold (qsum (map (fun q => (snd q * nth a (vert ax (addb t (fst q))) 0)%Q) (combine B lam))).
  fold (qsum (map (fun p => (snd p * bit (fst p) a)%Q) (combine B lam))). rewrite IH by (auto; intros; apply H; right; auto). cbn [fst snd].
  assert (LB : length b = length ax) by (apply H; left; auto).
  rewrite nth_vert by (rewrite ?length_addb; auto; congruence). rewrite nth_addb by congruence. unfold at_. rewrite q_of_b. unfold bit. ring.
Qed.
Lemma combine_map_fst : forall A B C (f : A -> B) (l : list A) (k : list C), combine (map f l) k = map (fun q => (f (fst q), snd q)) (combine l k).
Proof. intros A B C f. induction l as [|x l IH]; intros [|y k]; cbn; auto. f_equal. apply IH. Qed.

(** In a block mesh, the weights are the hat functions. *)
Section BlockTri.
Variables (dims centre : list Q) (shape : list nat) (mat : Z).
Hypothesis Hd : length dims = length shape.
Hypothesis Hc : length centre = length shape.
Hypothesis Hn : forall n, In n shape -> 2 <= n.
Hypothesis Hpos : forall d, In d dims -> (0 < d)%Q.
Notation m := (triangulate (gen_block_mesh dims centre shape mat)).
Notation ax := (axes dims centre shape).
Lemma tri_coor : forall t, in_shape shape t -> coor_of m (numb 0 shape t) = vert ax t.
Proof. intros t T. unfold coor_of. rewrite tri_coors. apply block_coor; auto. Qed.
Lemma bary_block : forall t B lam p, length p = length shape -> in_shape (map (fun n => n - 1) shape) t -> (forall bits, In bits B -> length bits = length shape) ->
  (bary m (map (fun bits => numb 0 shape (addb t bits)) B) lam p <->
   length lam = length B /\ Forall (Qle 0) lam /\ (qsum lam == 1)%Q /\
   forall a, a < length shape -> (fst (fst (nth a ax dax)) + snd (fst (nth a ax dax)) * (q_of (nth a t 0%nat) + czl B lam a) == nth a p 0)%Q).
Proof.
  intros t B lam p LP T HB. unfold bary. rewrite map_length. fold (qsum lam). split.
  - intros (A1 & A2 & A3 & A4). repeat (split; auto). intros a A. rewrite <- A4 by lia.
    rewrite combine_map_fst, map_map. cbn [fst snd].
    rewrite (map_ext_in _ (fun q => (snd q * nth a (vert ax (addb t (fst q))) 0)%Q)).
    + assert (LA := block_length_ax dims centre shape Hd Hc).
      assert (X := @bary_sum ax t B lam a ltac:(rewrite (in_shape_length T), map_length; symmetry; exact LA) ltac:(rewrite LA; lia) ltac:(rewrite LA; exact HB) A1).
      unfold qsum in X at 1. rewrite X, A3. ring.
    + intros [b l] I. cbn [fst snd]. apply in_combine_l in I. rewrite tri_coor; auto. apply addb_in; auto.
  - intros (A1 & A2 & A3 & A4). repeat (split; auto). intros a A. rewrite LP in A. rewrite <- A4 by lia.
    rewrite combine_map_fst, map_map. cbn [fst snd].
    rewrite (map_ext_in _ (fun q => (snd q * nth a (vert ax (addb t (fst q))) 0)%Q)).
    + assert (LA := block_length_ax dims centre shape Hd Hc).
      assert (X := @bary_sum ax t B lam a ltac:(rewrite (in_shape_length T), map_length; symmetry; exact LA) ltac:(rewrite LA; lia) ltac:(rewrite LA; exact HB) A1).
      unfold qsum in X at 1. rewrite X, A3. ring.
    + intros [b l] I. cbn [fst snd]. apply in_combine_l in I. rewrite tri_coor; auto. apply addb_in; auto.
Qed.
End BlockTri.

Lemma tets_length : forall B bits, In B tets_bits -> In bits B -> length bits = 3.
Proof. intros B bits H. cbn in H. repeat (destruct H as [<-|H]; [intros I; cbn in I; repeat (destruct I as [<-|I]; [reflexivity|]); destruct I|]). destruct H. Qed.
Lemma tris_length : forall B bits, In B tris_bits -> In bits B -> length bits = 2.
Proof. intros B bits H. cbn in H. repeat (destruct H as [<-|H]; [intros I; cbn in I; repeat (destruct I as [<-|I]; [reflexivity|]); destruct I|]). destruct H. Qed.
Lemma tets_length4 : forall B, In B tets_bits -> length B = 4.
Proof. intros B H. cbn in H. repeat (destruct H as [<-|H]; [reflexivity|]). destruct H. Qed.
Lemma tris_length3 : forall B, In B tris_bits -> length B = 3.
Proof. intros B H. cbn in H. repeat (destruct H as [<-|H]; [reflexivity|]). destruct H. Qed.
Lemma in_map_numb : forall shape t B v, In v (map (fun bits => numb 0 shape (addb t bits)) B) -> exists bits, In bits B /\ v = numb 0 shape (addb t bits).
Proof. intros shape t B v H. apply in_map_iff in H. destruct H as (b & <- & H). eauto. Qed.
Definition pos_of (x : axis) (p : Q) : Q := ((p - fst (fst x)) / snd (fst x))%Q.
Lemma pos_eq : forall x p y i, (0 < snd (fst x))%Q -> (fst (fst x) + snd (fst x) * y == p)%Q -> (pos_of x p - q_of i == y - q_of i)%Q.
Proof. intros x p y i H E. unfold pos_of. rewrite <- E. field. lra. Qed.
Lemma good_nth : forall ax a, good_axes ax -> a < length ax -> (0 < snd (fst (nth a ax dax)))%Q.
Proof. intros ax a G H. unfold good_axes in G. rewrite Forall_forall in G. apply G. apply nth_In. auto. Qed.
Lemma dim3_inv : forall l : list nat, length l = 3 -> exists a b c, l = [a; b; c].
Proof. intros [|a [|b [|c [|d l]]]] H; try discriminate. eauto. Qed.
Lemma dim2_inv : forall l : list nat, length l = 2 -> exists a b, l = [a; b].
Proof. intros [|a [|b [|c l]]] H; try discriminate. eauto. Qed.

(** The triangulation of a block mesh is conforming. *)
Theorem C98_conforming : forall dims centre shape mat, length dims = length shape -> length centre = length shape ->
  length shape = 2 \/ length shape = 3 -> (forall n, In n shape -> 2 <= n) -> (forall d, In d dims -> (0 < d)%Q) ->
  conforming (length shape) (triangulate (gen_block_mesh dims centre shape mat)).
Proof.
  intros dims centre shape mat Hd Hc D Hn Hpos r1 r2 l1 l2 p R1 R2 LP B1 B2 v.
  assert (G : good_axes (axes dims centre shape)) by (apply good_axes_ok; auto).
  assert (LA := block_length_ax dims centre shape Hd Hc).
  destruct (in_dec Nat.eq_dec v (r1 ++ r2)) as [V|V].
  2:{ rewrite !weight_notin; [reflexivity| |]; intros X; apply V; apply in_or_app; auto. }
  destruct D as [D|D].
  - destruct (dim2_inv _ D) as (n0 & n1 & E). subst shape. apply block_rows2 in R1, R2. destruct R1 as (t1 & C1 & T1 & I1 & ->). destruct R2 as (t2 & C2 & T2 & I2 & ->).
    assert (LC1 := fun bits => @tris_length C1 bits I1). assert (LC2 := fun bits => @tris_length C2 bits I2).
    assert (EX : exists t, in_shape [n0; n1] t /\ v = numb 0 [n0; n1] t).
    { apply in_app_or in V. destruct V as [V|V]; apply in_map_numb in V; destruct V as (b & V & ->); eexists; split; try reflexivity; apply addb_in; auto. }
    destruct EX as (t & T & ->). rewrite !weight_wtl by (auto; intros bits HB; apply addb_in; auto).
    apply bary_block in B1; auto. apply bary_block in B2; auto. destruct B1 as (X1 & X2 & X3 & X4). destruct B2 as (Y1 & Y2 & Y3 & Y4).
    rewrite (tris_length3 I1) in X1. rewrite (tris_length3 I2) in Y1.
    destruct (dim2_inv t (in_shape_length T)) as (i & j & ->). destruct (dim2_inv t1 (in_shape_length T1)) as (i1 & j1 & ->). destruct (dim2_inv t2 (in_shape_length T2)) as (i2 & j2 & ->).
    set (ax := axes dims centre [n0; n1]) in *.
    apply (@is_hat_unique (pos_of (nth 0 ax dax) (nth 0 p 0%Q) - q_of i) (pos_of (nth 1 ax dax) (nth 1 p 0%Q) - q_of j) 0); apply tri_hat_l; auto;
      (apply pos_eq; [apply good_nth; auto; rewrite LA; cbn; lia|first [apply (X4 0); cbn; lia|apply (Y4 0); cbn; lia|apply (X4 1); cbn; lia|apply (Y4 1); cbn; lia]]).
  - destruct (dim3_inv _ D) as (n0 & n1 & n2 & E). subst shape. apply block_rows3 in R1, R2. destruct R1 as (t1 & C1 & T1 & I1 & ->). destruct R2 as (t2 & C2 & T2 & I2 & ->).
    assert (LC1 := fun bits => @tets_length C1 bits I1). assert (LC2 := fun bits => @tets_length C2 bits I2).
    assert (EX : exists t, in_shape [n0; n1; n2] t /\ v = numb 0 [n0; n1; n2] t).
    { apply in_app_or in V. destruct V as [V|V]; apply in_map_numb in V; destruct V as (b & V & ->); eexists; split; try reflexivity; apply addb_in; auto. }
    destruct EX as (t & T & ->). rewrite !weight_wtl by (auto; intros bits HB; apply addb_in; auto).
    apply bary_block in B1; auto. apply bary_block in B2; auto. destruct B1 as (X1 & X2 & X3 & X4). destruct B2 as (Y1 & Y2 & Y3 & Y4).
    rewrite (tets_length4 I1) in X1. rewrite (tets_length4 I2) in Y1.
    destruct (dim3_inv t (in_shape_length T)) as (i & j & k & ->). destruct (dim3_inv t1 (in_shape_length T1)) as (i1 & j1 & k1 & ->). destruct (dim3_inv t2 (in_shape_length T2)) as (i2 & j2 & k2 & ->).
    set (ax := axes dims centre [n0; n1; n2]) in *.
    apply (@is_hat_unique (pos_of (nth 0 ax dax) (nth 0 p 0%Q) - q_of i) (pos_of (nth 1 ax dax) (nth 1 p 0%Q) - q_of j) (pos_of (nth 2 ax dax) (nth 2 p 0%Q) - q_of k)); apply tet_hat_l; auto;
      (apply pos_eq; [apply good_nth; auto; rewrite LA; cbn; lia|first [apply (X4 0); cbn; lia|apply (Y4 0); cbn; lia|apply (X4 1); cbn; lia|apply (Y4 1); cbn; lia|apply (X4 2); cbn; lia|apply (Y4 2); cbn; lia]]).
Qed.
(** Hence a vertex with a positive weight in a point is a vertex of all simplices with
    the point. *)
Theorem C98_common_face : forall dim m r1 r2 l1 l2 p, conforming dim m -> In r1 (mesh_rows m) -> In r2 (mesh_rows m) -> length p = dim ->
  bary m r1 l1 p -> bary m r2 l2 p -> forall v, (0 < weight r1 l1 v)%Q -> In v r2.
Proof.
  intros dim m r1 r2 l1 l2 p C R1 R2 L B1 B2 v W. assert (X := C r1 r2 l1 l2 p R1 R2 L B1 B2 v). destruct (in_dec Nat.eq_dec v r2) as [V|V]; auto.
  assert (Y := weight_notin r2 l2 v V). lra.
Qed.

(** Each point of the block is in a simplex. *)
Lemma tet_cover : forall z1 z2 z3, (0 <= z1 <= 1)%Q -> (0 <= z2 <= 1)%Q -> (0 <= z3 <= 1)%Q ->
  exists B lam, In B tets_bits /\ length lam = 4 /\ Forall (Qle 0) lam /\ (qsum lam == 1)%Q /\ (czl B lam 0 == z1)%Q /\ (czl B lam 1 == z2)%Q /\ (czl B lam 2 == z3)%Q.
Proof.
  intros z1 z2 z3 Z1 Z2 Z3.
  assert (F : forall s lam, s < 6 -> length lam = 4 -> Forall (Qle 0) lam -> (qsum lam == 1)%Q ->
     (czl (nth s tets_bits []) lam 0 == z1)%Q -> (czl (nth s tets_bits []) lam 1 == z2)%Q -> (czl (nth s tets_bits []) lam 2 == z3)%Q ->
     exists B lam, In B tets_bits /\ length lam = 4 /\ Forall (Qle 0) lam /\ (qsum lam == 1)%Q /\ (czl B lam 0 == z1)%Q /\ (czl B lam 1 == z2)%Q /\ (czl B lam 2 == z3)%Q).
  { intros s lam S1 L P Q0 E1 E2 E3. exists (nth s tets_bits []), lam. split; [apply nth_In; cbn; lia|]. auto 10. }
  Ltac fin := first [lia|reflexivity|(repeat constructor; lra)|(unfold czl, qsum, bit, bq; cbn [nth tets_bits map columns q2t Nat.ltb Nat.leb combine fst snd fold_right]; ring)].
  destruct (Qlt_le_dec z1 z2) as [A|A]; destruct (Qlt_le_dec z2 z3) as [B|B]; destruct (Qlt_le_dec z1 z3) as [C|C]; try (exfalso; lra).
  - apply (F 2 [1 - z3; z2 - z1; z3 - z2; z1]%Q); fin.
  - apply (F 1 [1 - z2; z2 - z3; z3 - z1; z1]%Q); fin.
  - apply (F 0 [1 - z2; z1 - z3; z2 - z1; z3]%Q); fin.
  - apply (F 3 [1 - z3; z1 - z2; z2; z3 - z1]%Q); fin.
  - apply (F 4 [z1 - z3; z3 - z2; z2; 1 - z1]%Q); fin.
  - apply (F 5 [z1 - z2; z3; z2 - z3; 1 - z1]%Q); fin.
Qed.
Lemma tri_cover : forall z1 z2, (0 <= z1 <= 1)%Q -> (0 <= z2 <= 1)%Q ->
  exists B lam, In B tris_bits /\ length lam = 3 /\ Forall (Qle 0) lam /\ (qsum lam == 1)%Q /\ (czl B lam 0 == z1)%Q /\ (czl B lam 1 == z2)%Q.
Proof.
  Ltac fin2 := first [lia|reflexivity|(repeat constructor; lra)|(unfold czl, qsum, bit, bq; cbn [nth tris_bits map columns q2t Nat.ltb Nat.leb combine fst snd fold_right]; ring)].
  intros z1 z2 Z1 Z2. destruct (Qlt_le_dec z1 z2) as [A|A].
  - exists (nth 1 tris_bits []), [1 - z2; z1; z2 - z1]%Q. split; [apply nth_In; cbn; lia|]. split; [fin2|]. split; [fin2|]. split; [fin2|]. split; fin2.
  - exists (nth 0 tris_bits []), [1 - z1; z1 - z2; z2]%Q. split; [apply nth_In; cbn; lia|]. split; [fin2|]. split; [fin2|]. split; [fin2|]. split; fin2.
Qed.
Lemma F2_len : forall A B (R : A -> B -> Prop) l k, Forall2 R l k -> length l = length k.
Proof. intros A B R l k H. induction H; cbn; auto. Qed.
Lemma frac_ok : forall (x : axis) i p, (0 < snd (fst x))%Q -> (at_ x i <= p)%Q -> (p <= at_ x (S i))%Q ->
  (0 <= pos_of x p - q_of i <= 1)%Q /\ (fst (fst x) + snd (fst x) * (q_of i + (pos_of x p - q_of i)) == p)%Q.
Proof.
  intros x i p H A B. unfold at_ in A, B. rewrite q_of_S in B. unfold pos_of. set (o := fst (fst x)) in *. set (h := snd (fst x)) in *. set (j := q_of i) in *.
  assert (X : (h * ((p - o) / h) == p - o)%Q) by (field; lra). set (y := ((p - o) / h)%Q) in *. split; [split; nra|]. lra.
Qed.
Theorem C98_cover : forall dims centre shape mat p, length dims = length shape -> length centre = length shape ->
  length shape = 2 \/ length shape = 3 -> (forall n, In n shape -> 2 <= n) -> (forall d, In d dims -> (0 < d)%Q) ->
  le_pt (map (fun p => snd p - (1 # 2) * fst p)%Q (combine dims centre)) p -> le_pt p (map (fun p => snd p + (1 # 2) * fst p)%Q (combine dims centre)) ->
  exists row lam, In row (mesh_rows (triangulate (gen_block_mesh dims centre shape mat))) /\ bary (triangulate (gen_block_mesh dims centre shape mat)) row lam p.
Proof.
  intros dims centre shape mat p Hd Hc D Hn Hpos P1 P2.
  assert (G : good_axes (axes dims centre shape)) by (apply good_axes_ok; auto).
  assert (LA := block_length_ax dims centre shape Hd Hc).
  destruct (@cover_axes (axes dims centre shape) p G) as (t & T1 & T2 & T3).
  { eapply le_pt_Qeq_l; [apply (lo_axes dims centre shape); auto|auto]. }
  { eapply le_pt_Qeq_r; [apply (hi_axes dims centre shape); auto|auto]. }
  rewrite block_shape1 in T1 by auto. assert (LT := in_shape_length T1). rewrite map_length in LT.
  assert (LP : length p = length shape).
  { rewrite <- (F2_len T2), <- LA. rewrite <- LA in LT. clear -LT. revert t LT. induction (axes dims centre shape) as [|x a IH]; intros [|i t] L; cbn in L; try lia; cbn; auto. }
  assert (FR : forall a, a < length shape -> let x := nth a (axes dims centre shape) dax in
     (0 <= pos_of x (nth a p 0) - q_of (nth a t 0%nat) <= 1)%Q /\ (fst (fst x) + snd (fst x) * (q_of (nth a t 0%nat) + (pos_of x (nth a p 0) - q_of (nth a t 0%nat))) == nth a p 0)%Q).
  { intros a A x. apply frac_ok.
    - apply good_nth; auto. rewrite LA; auto.
    - unfold x. rewrite <- nth_vert by (rewrite ?LA; auto). assert (A' : a < length p) by (rewrite LP; auto). clear -T2 A'.
      revert a A'. induction T2 as [|u v l l' H1 H2 IH]; intros [|a] A; cbn in A; try lia; cbn [nth]; auto. apply IH. lia.
    - unfold x. assert (E : S (nth a t 0) = nth a (map S t) 0) by (rewrite nth_map_in with (da := 0) by lia; auto). rewrite E.
      rewrite <- nth_vert by (rewrite ?map_length, ?LA; auto; lia). assert (A' : a < length p) by (rewrite LP; auto). clear -T3 A'.
      revert a A'. induction T3 as [|u v l l' H1 H2 IH]; intros [|a] A; cbn in A; try lia; cbn [nth]; auto. apply IH. lia. }
  destruct D as [D|D].
  - destruct (dim2_inv _ D) as (n0 & n1 & E). subst shape. cbn [length] in FR. set (ax := axes dims centre [n0; n1]) in *.
    destruct (FR 0 ltac:(lia)) as [F1 F1']. destruct (FR 1 ltac:(lia)) as [F2 F2'].
    destruct (tri_cover F1 F2) as (B & lam & HB & LL & N & S1 & C1 & C2).
    exists (map (fun bits => numb 0 [n0; n1] (addb t bits)) B), lam. split; [apply block_rows2; exists t, B; auto|].
    apply bary_block; auto; [intros bits; apply tris_length; auto|]. rewrite (tris_length3 HB). repeat (split; auto).
    intros a A. cbn [length] in A. destruct a as [|[|a]]; [| |lia]; fold ax; rewrite ?C1, ?C2; auto.
  - destruct (dim3_inv _ D) as (n0 & n1 & n2 & E). subst shape. cbn [length] in FR. set (ax := axes dims centre [n0; n1; n2]) in *.
    destruct (FR 0 ltac:(lia)) as [F1 F1']. destruct (FR 1 ltac:(lia)) as [F2 F2']. destruct (FR 2 ltac:(lia)) as [F3 F3'].
    destruct (tet_cover F1 F2 F3) as (B & lam & HB & LL & N & S1 & C1 & C2 & C3).
    exists (map (fun bits => numb 0 [n0; n1; n2] (addb t bits)) B), lam. split; [apply block_rows3; exists t, B; auto|].
    apply bary_block; auto; [intros bits; apply tets_length; auto|]. rewrite (tets_length4 HB). repeat (split; auto).
    intros a A. cbn [length] in A. destruct a as [|[|[|a]]]; [| | |lia]; fold ax; rewrite ?C1, ?C2, ?C3; auto.
Qed.
(** All simplices are positive, with the volume of the cell divided by dim!. *)
Theorem C98_block_volumes : forall dims centre shape mat row, length dims = length shape -> length centre = length shape ->
  length shape = 2 \/ length shape = 3 -> (forall n, In n shape -> 2 <= n) ->
  In row (mesh_rows (triangulate (gen_block_mesh dims centre shape mat))) ->
  (vol (map (coor_of (triangulate (gen_block_mesh dims centre shape mat))) row) ==
   fold_right Qmult 1 (map (fun p => fst p / q_of (snd p - 1)) (combine dims shape)))%Q.
Proof.
  intros dims centre shape mat row Hd Hc D Hn R.
  destruct D as [D|D].
  - destruct (dim2_inv _ D) as (n0 & n1 & E). subst shape. apply block_rows2 in R. destruct R as (t & B & T & HB & ->). rewrite map_map.
    destruct (dim2_inv t (in_shape_length T)) as (i & j & ->).
    rewrite (map_ext_in _ (fun bits => vert (axes dims centre [n0; n1]) (addb [i; j] bits))).
    2:{ intros bits I0. apply tri_coor; auto. apply addb_in; auto. apply tris_length in I0; auto. }
    destruct dims as [|d0 [|d1 [|]]]; try discriminate. destruct centre as [|c0 [|c1 [|]]]; try discriminate. clear Hd Hc D.
    cbn in HB. unfold axes. cbn [combine map fst snd]. 
    repeat (destruct HB as [<-|HB]; [cbn [map addb b2n vert]; unfold vol, det2, sub, at_; cbn [combine map fst snd nth fold_right]; rewrite ?Nat.add_0_r, ?Nat.add_1_r, ?q_of_S; ring|]). destruct HB.
  - destruct (dim3_inv _ D) as (n0 & n1 & n2 & E). subst shape. apply block_rows3 in R. destruct R as (t & B & T & HB & ->). rewrite map_map.
    destruct (dim3_inv t (in_shape_length T)) as (i & j & k & ->).
    rewrite (map_ext_in _ (fun bits => vert (axes dims centre [n0; n1; n2]) (addb [i; j; k] bits))).
    2:{ intros bits I0. apply tri_coor; auto. apply addb_in; auto. apply tets_length in I0; auto. }
    destruct dims as [|d0 [|d1 [|d2 [|]]]]; try discriminate. destruct centre as [|c0 [|c1 [|c2 [|]]]]; try discriminate. clear Hd Hc D.
    cbn in HB. unfold axes. cbn [combine map fst snd].
    generalize (d0 / q_of (n0 - 1))%Q (d1 / q_of (n1 - 1))%Q (d2 / q_of (n2 - 1))%Q. intros h0 h1 h2.
    repeat (destruct HB as [<-|HB]; [cbn [map addb b2n vert]; unfold vol, det3, sub, at_; cbn [combine map fst snd nth fold_right]; rewrite ?Nat.add_0_r, ?Nat.add_1_r, ?q_of_S; ring|]). destruct HB.
Qed.

(** Without the numbering of block meshes the result need not be conforming: two cubes
    with a common face, the second one numbered from another of its vertices. *)
Definition two_cubes : mesh :=
  mkM (block_coors [2; 1; 1]%Q [0; 0; 0]%Q [3; 2; 2]) (repeat 0%Z 12)
      [mkG d3_8 [[0; 4; 6; 2; 1; 5; 7; 3]; [10; 6; 4; 8; 11; 7; 5; 9]] [0; 0]%Z].
Definition two_rows := mesh_rows (triangulate two_cubes).
Theorem C98_numbering_refuted : wf_mesh two_cubes /\
  (forall e, e < 2 -> (0 < vol (map (fun k => coor_of two_cubes (nth k (nth e (mesh_rows two_cubes) []) 0%nat)) [0; 1; 3; 4]%nat))%Q) /\
  ~ conforming 3 (triangulate two_cubes).
Proof.
  split; [|split].
  - split; [reflexivity|]. intros g [<-|[]]. split; [|reflexivity]. intros row v R V. cbn in R. cbn [length two_cubes m_coors block_coors]. vm_compute.
    repeat (destruct R as [<-|R]; [cbn in V; repeat (destruct V as [<-|V]; [lia|]); destruct V|]). destruct R.
  - intros [|[|e]] H; try lia; vm_compute; reflexivity.
  - intros C.
    assert (X := C [4; 7; 6; 0] [6; 5; 4; 10] [1 # 2; 1 # 2; 0; 0]%Q [1 # 2; 1 # 2; 0; 0]%Q [0; 0; 0]%Q).
    assert (R1 : In [4; 7; 6; 0] (mesh_rows (triangulate two_cubes))) by (vm_compute; do 5 right; left; reflexivity).
    assert (R2 : In [6; 5; 4; 10] (mesh_rows (triangulate two_cubes))) by (vm_compute; do 11 right; left; reflexivity).
    assert (N : Forall (Qle 0) [1 # 2; 1 # 2; 0; 0]%Q) by (repeat constructor; vm_compute; discriminate).
    specialize (X R1 R2 eq_refl).
    assert (Y : Qeq (weight [4; 7; 6; 0] [1 # 2; 1 # 2; 0; 0]%Q 4) (weight [6; 5; 4; 10] [1 # 2; 1 # 2; 0; 0]%Q 4)).
    { apply X; (split; [reflexivity|split; [exact N|split; [reflexivity|]]]); intros [|[|[|a]]] A; try (vm_compute; reflexivity); cbn in A; lia. }
    vm_compute in Y. discriminate.
Qed.
(** Cells of other kinds are lost, and the materials are taken from the wrong cells. *)
Definition mixed2 : mesh :=
  mkM [[0; 0]; [1; 0]; [1; 1]; [0; 1]; [2; 0]]%Q (repeat 0%Z 5) [mkG d2_3 [[1; 4; 2]] [1]%Z; mkG d2_4 [[0; 1; 2; 3]] [2]%Z].
Theorem C98_mixed_refuted : wf_mesh mixed2 /\ rows mixed2 = [(d2_3, [1; 4; 2], 1%Z); (d2_4, [0; 1; 2; 3], 2%Z)] /\
  rows (triangulate mixed2) = [(d2_3, [0; 1; 2], 1%Z); (d2_3, [0; 2; 3], 1%Z)] /\
  (exists g, m_groups (triangulate mixed2) = [g] /\ length (g_conn g) <> length (g_mat g)).
Proof.
  split; [|split; [reflexivity|split; [reflexivity|eexists; split; [reflexivity|discriminate]]]].
  split; [reflexivity|]. intros g H. cbn in H. repeat (destruct H as [<-|H]; [split; [|reflexivity]; intros row v R V; cbn in R;
    repeat (destruct R as [<-|R]; [cbn in V; cbn; repeat (destruct V as [<-|V]; [lia|]); destruct V|]); destruct R|]). destruct H.
Qed.
Example C98_ex : rows (triangulate (gen_block_mesh [1; 1; 1]%Q [0; 0; 0]%Q [2; 2; 2] 3)) =
  map (fun r => (d3_4, r, 3%Z)) [[0; 6; 2; 7]; [0; 2; 3; 7]; [0; 3; 1; 7]; [0; 5; 7; 1]; [4; 5; 7; 0]; [4; 7; 6; 0]].
Proof. reflexivity. Qed.
Print Assumptions C98_conforming.
Print Assumptions C98_cover.
Print Assumptions C98_block_volumes.
Print Assumptions C98_numbering_refuted.
