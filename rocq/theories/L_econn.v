(** The DOF connectivity of a nodal field: description of the nodes, rows of econn. *)
From Coq Require Import Permutation.
From Verif Require Import Base M_dofs M_mesh M_lagnodes L_mesh P_lagnodes M_facet L_facet.
Set Implicit Arguments.
Open Scope nat_scope.

Notation ln0 := (mkLN 0 0 []).
(** m entities of the type t with N nodes each *)
Definition block (t m N : nat) (l : list lnode) : Prop :=
  length l = m * N /\ forall j i, j < m -> i < N -> ln_type (nth (j * N + i) l ln0) = t /\ ln_ent (nth (j * N + i) l ln0) = j.
Lemma fs_seq : forall N k A M, k + N <= M -> firstn N (skipn k (seq A M)) = seq (A + k) N.
Proof.
  intros. replace M with (k + (N + (M - k - N))) by lia. rewrite seq_app, skipn_app, skipn_all2 by (rewrite seq_length; auto). rewrite seq_length, Nat.sub_diag. cbn [app skipn]. rewrite seq_app, firstn_app, seq_length, Nat.sub_diag. cbn [firstn]. rewrite app_nil_r. apply firstn_all2. rewrite seq_length. auto.
Qed.
Lemma filter_none : forall A (p : A -> bool) l, (forall x, In x l -> p x = false) -> filter p l = [].
Proof. induction l as [|a l IH]; intros H; cbn [filter]; auto. rewrite (H a) by (left; auto). apply IH. intros. apply H. right. auto. Qed.
Lemma filter_all : forall A (p : A -> bool) l, (forall x, In x l -> p x = true) -> filter p l = l.
Proof. induction l as [|a l IH]; intros H; cbn [filter]; auto. rewrite (H a) by (left; auto). rewrite IH; auto. intros. apply H. right. auto. Qed.
Lemma sinc_map : forall (f : nat -> nat) l, (forall x y, x < y -> f x < f y) -> sinc l -> sinc (map f l).
Proof.
  intros f l F H. induction H as [|a l H IH FA]; cbn [map]; constructor; auto. apply Forall_forall. intros y Y. apply in_map_iff in Y. destruct Y as (x & <- & X). rewrite Forall_forall in FA. apply F, FA; auto.
Qed.
Lemma types_app : forall a b c t, (forall n, In n a \/ In n c -> ln_type n <> t) -> (forall n, In n b -> ln_type n = t) -> nodes_of_type (a ++ b ++ c) t = seq (length a) (length b).
Proof.
  intros a b c t O B. unfold nodes_of_type. rewrite !app_length, !seq_app, !filter_app.
  rewrite filter_none, filter_all, filter_none; cbn [app plus]; rewrite ?app_nil_r; auto.
  - intros k K. apply in_seq in K. apply Nat.eqb_neq. apply O. right. rewrite app_nth2, app_nth2 by lia. apply nth_In. lia.
  - intros k K. apply in_seq in K. apply Nat.eqb_eq. apply B. rewrite app_nth2, app_nth1 by lia. apply nth_In. lia.
  - intros k K. apply in_seq in K. apply Nat.eqb_neq. apply O. left. rewrite app_nth1 by lia. apply nth_In. lia.
Qed.
Lemma block_types : forall t m N b, block t m N b -> forall n, In n b -> ln_type n = t.
Proof.
  intros t m N b [L H] n I. apply In_nth with (d := ln0) in I. destruct I as (k & K & <-). assert (0 < N) by (destruct N; lia).
  assert (E := Nat.div_mod k N ltac:(lia)). assert (Q := Nat.mod_upper_bound k N ltac:(lia)). rewrite E, Nat.mul_comm. apply H; auto. apply Nat.div_lt_upper_bound; nia.
Qed.
Lemma cut_seq : forall A M N r k, (k + S r) * N <= M -> cut (seq A M) (k * N) (map (fun j => j * N) (seq (S k) r) ++ [(k + S r) * N]) = map (fun j => seq (A + j * N) N) (seq k (S r)).
Proof.
  intros A M N. induction r as [|r IH]; intros k H.
  - cbn [seq map app cut]. rewrite fs_seq by nia. do 2 f_equal. nia.
  - cbn [seq map app cut]. rewrite fs_seq by nia. f_equal; [f_equal; nia|]. replace (k + S (S r)) with (S k + S r) by lia. apply (IH (S k)). nia.
Qed.
Lemma describe_ok : forall a b c t m N, (forall n, In n a \/ In n c -> ln_type n <> t) -> block t m N b -> 2 <= m -> 1 <= N ->
  describe_facets (a ++ b ++ c) t = Some (map (fun j => seq (length a + j * N) N) (seq 0 m)).
Proof.
  intros a b c t m N O B M HN. unfold describe_facets. rewrite types_app by (auto; eapply block_types; eauto). destruct B as [L B]. rewrite L.
  set (ents := map _ (seq (length a) (m * N))).
  assert (EL : length ents = m * N) by (unfold ents; rewrite map_length, seq_length; auto).
  assert (EN : forall r, r < m * N -> nth r ents 0 = r / N).
  { intros r R. unfold ents. rewrite nth_map_in with (da := 0) by (rewrite seq_length; auto). rewrite seq_nth by auto. rewrite app_nth2, app_nth1 by lia. replace (length a + r - length a) with r by lia.
    assert (E := Nat.div_mod r N ltac:(lia)). assert (Q := Nat.mod_upper_bound r N ltac:(lia)). assert (D : r / N < m) by (apply Nat.div_lt_upper_bound; lia). destruct (B (r / N) (r mod N) D Q) as [_ B2]. rewrite <- B2. do 2 f_equal. lia. }
  rewrite EL, seq_length.
  assert (IK : map S (filter (fun r => nth r ents 0 <? nth (S r) ents 0) (seq 0 (m * N - 1))) = map (fun j => j * N) (seq 1 (m - 1))).
  { apply sinc_ext.
    - apply (sinc_map S); [intros; lia|]. apply sinc_filter, sinc_seq.
    - apply (sinc_map (fun j => j * N)); [intros; nia|]. apply sinc_seq.
    - intros x. rewrite !in_map_iff. split.
      + intros (r & <- & R). apply filter_In in R. destruct R as [R1 R2]. apply in_seq in R1. apply Nat.ltb_lt in R2. rewrite !EN in R2 by lia. exists (S r / N).
        assert (D1 := Nat.div_mod r N ltac:(lia)). assert (D2 := Nat.div_mod (S r) N ltac:(lia)). assert (Q1 := Nat.mod_upper_bound r N ltac:(lia)). assert (Q2 := Nat.mod_upper_bound (S r) N ltac:(lia)). assert (S r / N < m) by (apply Nat.div_lt_upper_bound; lia).
        assert (S r / N = r / N + 1 /\ S r mod N = 0) by (set (p := r / N) in *; set (q := S r / N) in *; assert (q <= p + 1) by nia; nia). split; [nia|]. apply in_seq. lia.
      + intros (j & <- & J). apply in_seq in J. exists (j * N - 1). split; [nia|]. apply filter_In. split; [apply in_seq; nia|]. apply Nat.ltb_lt. rewrite !EN by nia. replace (S (j * N - 1)) with (j * N) by nia. rewrite Nat.div_mul by lia. apply Nat.div_lt_upper_bound; nia. }
  destruct (filter _ _) as [|i0 il] eqn:EF; [exfalso; destruct m as [|[|m]]; try lia; cbn [Nat.sub seq map] in IK; discriminate|]. rewrite IK. f_equal.
  assert (C := @cut_seq (length a) (m * N) N (m - 1) 0 ltac:(nia)). rewrite Nat.mul_0_l in C. replace (0 + S (m - 1)) with m in C by lia. replace (S (m - 1)) with m in C by lia. exact C.
Qed.
Lemma describe_none : forall a c t, (forall n, In n a \/ In n c -> ln_type n <> t) -> describe_facets (a ++ c) t = None.
Proof.
  intros a c t O. unfold describe_facets. assert (H := @types_app a [] c t O ltac:(intros n [])). cbn [app length seq] in H. rewrite H. auto.
Qed.
Lemma other_ok : forall a b c t, (forall n, In n a \/ In n c -> ln_type n <> t) -> (forall n, In n b -> ln_type n = t) -> describe_other (a ++ b ++ c) t = match b with [] => None | _ => Some (seq (length a) (length b)) end.
Proof. intros a b c t O B. unfold describe_other. rewrite types_app by auto. destruct b; auto. Qed.
(** ** mapM *)
Lemma mapM_ok : forall A B (f : A -> res B) l, (forall a, In a l -> exists b, f a = Ok b) -> exists bs, mapM f l = Ok bs /\ length bs = length l /\ forall i da db, i < length l -> f (nth i l da) = Ok (nth i bs db).
Proof.
  induction l as [|a l IH]; intros H; [exists []; repeat split; intros; cbn in *; lia|]. destruct (H a (or_introl eq_refl)) as (b & B1). destruct IH as (bs & B2 & B3 & B4); [intros; apply H; right; auto|].
  exists (b :: bs). cbn [mapM]. rewrite B1. cbn [bind]. rewrite B2. cbn [bind length]. repeat split; auto. intros i da db I. destruct i; cbn [nth]; auto. apply B4. lia.
Qed.
Lemma mapM_inv : forall A B (f : A -> res B) l bs, mapM f l = Ok bs -> length bs = length l /\ forall i da db, i < length l -> f (nth i l da) = Ok (nth i bs db).
Proof.
  induction l as [|a l IH]; intros bs H; cbn [mapM] in H; [injection H as <-; split; auto; intros; cbn in *; lia|]. destruct (f a) as [b|] eqn:E; [|discriminate]. cbn [bind] in H. destruct (mapM f l) as [bs'|] eqn:E2; [|discriminate]. injection H as <-. destruct (IH bs' eq_refl) as [L N]. cbn [length]. split; [auto|]. intros [|i] da db I; cbn [nth]; auto. apply N. lia.
Qed.
(** ** One kind of facets in a row *)
Definition permof (o : nat) (g : list nat) : list nat := match facet_dof_permutation (length g) o (key_of g) with Some p => p | None => [] end.
Lemma permof_ok : forall g o, 2 <= length g <= 4 -> NoDup g -> facet_dof_permutation (length g) o (key_of g) = Some (permof o g) /\ perm_spec g o (permof o g).
Proof. intros g o L N. destruct (facet_perm_ok o L N) as (p & P & S). unfold permof. rewrite P. auto. Qed.
Lemma concat_seqs : forall N m A, concat (map (fun j => seq (A + j * N) N) (seq 0 m)) = seq A (m * N).
Proof.
  intros N. induction m as [|m IH]; intros A; auto. rewrite seq_S, map_app, concat_app, IH. cbn [map concat plus]. rewrite app_nil_r. replace (S m * N) with (m * N + N) by lia. rewrite seq_app. auto.
Qed.
Lemma concat_nth_const : forall A (ls : list (list A)) N j i d, (forall l, In l ls -> length l = N) -> j < length ls -> i < N -> nth (j * N + i) (concat ls) d = nth i (nth j ls []) d.
Proof.
  intros A. induction ls as [|l ls IH]; intros N j i d H J I; cbn [length] in J; [lia|]. cbn [concat]. assert (L := H l (or_introl eq_refl)). destruct j as [|j]; cbn [nth].
  - rewrite app_nth1 by lia. f_equal; lia.
  - rewrite app_nth2 by nia. replace (S j * N + i - length l) with (j * N + i) by nia. apply IH; auto; [intros; apply H; right; auto|lia].
Qed.
Lemma length_concat_const : forall A (ls : list (list A)) N, (forall l, In l ls -> length l = N) -> length (concat ls) = length ls * N.
Proof. intros A. induction ls as [|l ls IH]; intros N H; auto. cbn [concat length]. rewrite app_length, (H l), (IH N); cbn [Nat.mul]; auto; intros; try apply H; cbn; auto. Qed.
Lemma facet_row_ok : forall facets o desc offset st ents c row A N (f : nat -> nat) (g : nat -> list nat) n,
  2 <= n <= 4 -> length (nth 0 facets []) = n -> 1 <= length facets -> N = fsize n o -> 1 <= N ->
  desc = map (fun j => seq (A + j * N) N) (seq 0 (length facets)) -> A + length facets * N <= length row ->
  (forall j, j < length facets -> length (g j) = n /\ NoDup (g j) /\ remap ents (nth j (irow (b_cDd st) c) 0) = Ok (f j) /\ nth (nth c (c_off (b_cDd st)) 0 + j) (b_ori st) None = ori_key None (g j)) ->
  exists row', facet_row facets o desc offset st ents c row = Ok row' /\ length row' = length row /\
    (forall j i, j < length facets -> i < N -> nth (A + j * N + i) row' 0 = offset + (N * f j + nth i (permof o (g j)) 0)) /\
    (forall k, k < A \/ A + length facets * N <= k -> nth k row' 0 = nth k row 0).
Proof.
  intros facets o desc offset st ents c row A N f g n Hn FP FL EN N1 ED LR H. unfold facet_row. rewrite FP.
  assert (DL : length desc = length facets) by (subst desc; rewrite map_length, seq_length; auto). rewrite DL, Nat.ltb_irrefl.
  assert (D0 : length (nth 0 desc []) = N) by (subst desc; rewrite nth_map_in with (da := 0) by (rewrite seq_length; lia); rewrite seq_length; auto). rewrite D0.
  set (F := fun ies => bind (remap ents (nth ies (irow (b_cDd st) c) 0)) _).
  assert (FV : forall j, j < length facets -> F j = Ok (map (fun p => offset + (N * f j + p)) (permof o (g j)))).
  { intros j J. destruct (H j J) as (G1 & G2 & G3 & G4). unfold F. rewrite G3. cbn [bind]. rewrite G4. destruct (@permof_ok (g j) o ltac:(lia) G2) as [P1 [P2 P3]]. rewrite G1 in *. 
    assert (K : ori_key None (g j) = Some (key_of (g j))) by (unfold key_of, ori_key; rewrite G1; destruct n as [|[|[|[|[|]]]]]; try lia; auto). rewrite K, P1. f_equal. cbn [expand_nodes_to_dofs map nth]. rewrite map_map.
    apply list_ext with (d := 0); [rewrite !map_length; auto|]. intros i I. rewrite map_length in I. do 2 rewrite (nth_map_in _ (permof o (g j)) 0 0 I). rewrite P2, <- EN in I. destruct (P3 i ltac:(lia)) as [P4 _]. rewrite <- EN in P4. rewrite nth_map_in with (da := 0) by (rewrite seq_length; auto). rewrite seq_nth by auto. auto. }
  destruct (@mapM_ok _ _ F (seq 0 (length facets))) as (vals & V1 & V2 & V3); [intros j J; apply in_seq in J; eexists; apply FV; lia|]. rewrite V1. cbn [bind]. rewrite seq_length in V2.
  assert (VJ : forall j, j < length facets -> nth j vals [] = map (fun p => offset + (N * f j + p)) (permof o (g j))).
  { intros j J. specialize (V3 j 0 [] ltac:(rewrite seq_length; auto)). rewrite seq_nth in V3 by auto. cbn [plus] in V3. rewrite FV in V3 by auto. congruence. }
  assert (PL : forall j, j < length facets -> length (permof o (g j)) = N).
  { intros j J. destruct (H j J) as (G1 & G2 & _). destruct (@permof_ok (g j) o ltac:(lia) G2) as [_ [P2 _]]. rewrite P2, G1. auto. }
  assert (VL : forall l, In l vals -> length l = N).
  { intros l I. apply In_nth with (d := []) in I. destruct I as (j & J & <-). rewrite VJ by lia. rewrite map_length. apply PL. lia. }
  rewrite firstn_all2 by lia. rewrite ED, concat_seqs. eexists. split; [reflexivity|]. rewrite length_put. split; [auto|]. assert (CL := length_concat_const vals VL). split.
  - intros j i J I. assert (KI : j * N + i < length facets * N) by nia. assert (P := @put_nth nat (seq A (length facets * N)) (concat vals) row (j * N + i) 0 (seq_NoDup _ _)). rewrite seq_length in P. rewrite seq_nth in P by auto. rewrite <- Nat.add_assoc, P; auto; try lia.
    + rewrite (concat_nth_const vals (N := N)) by (auto; lia). rewrite VJ by auto. rewrite nth_map_in with (da := 0) by (rewrite PL; auto). auto.
    + intros x X. apply in_seq in X. lia.
  - intros k K. apply put_notin. intros X. apply in_seq in X. lia.
Qed.
