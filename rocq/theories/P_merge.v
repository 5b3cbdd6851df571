(** C93: merging two meshes (Mesh.__add__).  C94: removing double nodes.
    C95: merging nodes. *)
From Coq Require Import QArith Qabs Lqa Relations.
From Verif Require Import Base M_parallel M_periodic P_periodic M_merge L_merge.
Set Implicit Arguments.
Open Scope nat_scope.

Definition in_range (n : nat) (conn : list (list nat)) : Prop := forall row v, In row conn -> In v row -> v < n.

Section C93.
Variable q : Q -> list point -> list (nat * nat).
Hypothesis Hq : pairs_spec q.
Variable eps : Q.
Variables (x1 : list point) (g1 : list Z) (c1 : list (list nat)) (m1 : list Z).
Variables (x2 : list point) (g2 : list Z) (c2 : list (list nat)) (m2 : list Z).
Hypothesis Hg1 : length g1 = length x1.
Hypothesis Hg2 : length g2 = length x2.
Hypothesis Hc2 : in_range (length x2) c2.

(** The node [v] of the second mesh is the node [v'] of the merged mesh: at most
    [eps] away, and the same node if it was not close to any node of the first mesh. *)
Definition same_node (x : list point) (g : list Z) (v v' : nat) : Prop :=
  v' < length x /\ close eps (nth v' x []) (nth v x2 []) /\
  ((forall i, i < length x1 -> ~ close eps (nth i x1 []) (nth v x2 [])) ->
   nth v' x [] = nth v x2 [] /\ nth v' g 0%Z = nth v g2 0%Z).
(** The merged mesh: the nodes and cells of the first mesh, the cells of the second
    mesh with their nodes renumbered, no other nodes, and no double nodes. *)
Definition merged (x : list point) (g : list Z) (c : list (list nat)) (m : list Z) : Prop :=
  length g = length x /\ m = m1 ++ m2 /\
  (forall k, k < length x1 -> k < length x /\ nth k x [] = nth k x1 [] /\ nth k g 0%Z = nth k g1 0%Z) /\
  (exists c', c = c1 ++ c' /\ Forall2 (Forall2 (same_node x g)) c2 c') /\
  (forall k, length x1 <= k < length x -> exists v, v < length x2 /\
     nth k x [] = nth v x2 [] /\ nth k g 0%Z = nth v g2 0%Z) /\
  no_doubles eps x.

Lemma merge_mesh_ok : forall cm x g c m, matching eps x1 x2 cm -> no_doubles eps x1 -> no_doubles eps x2 ->
  merge_mesh eps x1 g1 c1 m1 x2 g2 c2 m2 cm = Ok (x, g, c, m) -> merged x g c m.
Proof.
  intros [is js] x g c m [ML MC] N1 N2 H. cbn [fst snd] in *. unfold merge_mesh in H. cbn [fst snd] in H.
  destruct (Qlt_le_dec _ _); [discriminate|]. set (n1 := length x1) in *. set (n2 := length x2) in *.
  set (remap := put _ js is) in H. rewrite setdiff_seq in H. set (p := fun j => negb (memb j js)) in H.
  set (i2 := filter p (seq 0 n2)) in H. injection H as <- <- <- <-.
  assert (JS : forall j, In j js <-> exists i, In (i, j) (combine is js)).
  { intros j. split.
    - intros I. apply In_nth with (d := 0) in I. destruct I as (k & K & E). exists (nth k is 0).
      rewrite <- E, <- combine_nth by auto. apply nth_In. rewrite combine_length, ML. lia.
    - intros [i I]. apply in_combine_r in I. auto. }
  assert (JB : forall j, In j js -> j < n2) by (intros j J; apply JS in J; destruct J as [i I]; apply MC in I; tauto).
  assert (PJ : forall j, p j = true <-> ~ In j js) by (intros j; unfold p; rewrite negb_true_iff, memb_false; tauto).
  assert (I2 : forall j, In j i2 <-> j < n2 /\ ~ In j js).
  { intros j. unfold i2. rewrite filter_In, in_seq, PJ. split; intros []; split; auto; lia. }
  set (base := map (fun c => c + n1 - 1) (cumsum_from 0 (put1 (repeat 1 n2) js 0))) in remap.
  assert (BL : length base = n2) by (unfold base; rewrite map_length, length_cumsum, length_put1, repeat_length; auto).
  assert (RM : forall j, j < n2 -> nth j remap 0 < n1 + length i2 /\
     ((In j js -> exists i, In (i, j) (combine is js) /\ nth j remap 0 = i) /\
      (~ In j js -> n1 <= nth j remap 0 /\ nth (nth j remap 0 - n1) i2 0 = j))).
  { intros j Hj. assert (R : nth j remap 0 = match lastval js is j with Some v => v | None => nth j base 0 end).
    { apply put_lastval. intros i I. rewrite BL. auto. }
    destruct (in_dec Nat.eq_dec j js) as [J|J].
    - destruct (@lastval_in _ js is j ML J) as [v Ev]. rewrite Ev in R. apply lastval_combine in Ev.
      assert (C : In (v, j) (combine is js)).
      { clear - Ev. revert is Ev. induction js as [|a l IH]; intros [|b s] E; cbn in *; try tauto.
        destruct E as [E|E]; [left; congruence|right; auto]. }
      split; [rewrite R; apply MC in C; fold n1 in C; lia|]. split; [|tauto]. intros _. exists v. auto.
    - assert (LV : lastval js is j = None) by (destruct (lastval js is j) eqn:E; auto; apply lastval_some_in in E; tauto).
      rewrite LV in R. unfold base in R. rewrite (nth_map_in (fun c => c + n1 - 1) _ 0) in R by (rewrite length_cumsum, length_put1, repeat_length; auto).
      rewrite cumsum_rank in R by auto. fold p in R. rewrite rank_S in R. rewrite (proj2 (PJ j) J) in R.
      assert (E : nth j remap 0 = n1 + rank p j) by lia. rewrite E. assert (PT : p j = true) by (apply PJ; auto).
      split; [pose proof (@rank_lt p n2 j Hj PT); fold i2 in H; lia|]. split; [tauto|]. intros _. split; [lia|].
      replace (n1 + rank p j - n1) with (rank p j) by lia. apply rank_nth; auto. }
  assert (XL : length (x1 ++ take [] x2 i2) = n1 + length i2) by (rewrite app_length, length_take; auto).
  assert (NEW : forall k, n1 <= k < n1 + length i2 -> nth k (x1 ++ take [] x2 i2) [] = nth (nth (k - n1) i2 0) x2 [] /\
            nth k (g1 ++ take 0%Z g2 i2) 0%Z = nth (nth (k - n1) i2 0) g2 0%Z).
  { intros k K. rewrite !app_nth2 by (rewrite ?Hg1; fold n1; lia). rewrite Hg1. fold n1. rewrite !nth_take by lia. auto. }
  split; [rewrite XL, app_length, length_take, Hg1; auto|]. split; auto. split.
  { intros k K. fold n1 in K. rewrite XL. rewrite !app_nth1 by (rewrite ?Hg1; auto). repeat split; auto; lia. }
  split.
  { exists (map (take 0 remap) c2). split; auto. clear - Hc2 RM XL NEW MC Hg2. 
    assert (FR : forall row, (forall v, In v row -> v < n2) -> Forall2 (same_node (x1 ++ take [] x2 i2) (g1 ++ take 0%Z g2 i2)) row (take 0 remap row)).
    { induction row as [|v row IH]; intros Hr; constructor; [|apply IH; intros; apply Hr; right; auto].
      assert (V : v < n2) by (apply Hr; left; auto). destruct (RM v V) as (B & R1 & R2). unfold same_node. rewrite XL. split; auto.
      destruct (in_dec Nat.eq_dec v js) as [J|J].
      - destruct (R1 J) as (i & I & E). rewrite E. apply MC in I. destruct I as (L1 & L2 & C). rewrite !app_nth1 by auto. split; auto.
        intros F. destruct (F i L1 C).
      - destruct (R2 J) as [L E]. destruct (NEW (nth v remap 0)) as [A1 A2]; [lia|]. rewrite A1, A2, E. split; auto. apply close_refl. }
    unfold in_range in Hc2. induction c2 as [|row c2' IH]; constructor; [apply FR; intros; apply (Hc2 row); auto; left; auto|].
    apply IH. intros r v Hr Hv. apply (Hc2 r); auto. right; auto. }
  split.
  { intros k [K1 K2]. fold n1 in K1. rewrite XL in K2. exists (nth (k - n1) i2 0). split; [|apply NEW; lia].
    assert (I : In (nth (k - n1) i2 0) i2) by (apply nth_In; lia). apply I2 in I. tauto. }
  intros k l [K1 K2] C. rewrite XL in K2. destruct (le_lt_dec n1 l) as [L|L].
  - destruct (NEW l) as [E _]; [lia|]. rewrite E in C. assert (I : In (nth (l - n1) i2 0) i2) by (apply nth_In; lia).
    destruct (le_lt_dec n1 k) as [K|K].
    + destruct (NEW k) as [E' _]; [lia|]. rewrite E' in C. assert (I' : In (nth (k - n1) i2 0) i2) by (apply nth_In; lia).
      apply I2 in I, I'.
      assert (S1 : sinc i2) by (apply sinc_filter, sinc_seq).
      assert (LT : nth (k - n1) i2 0 < nth (l - n1) i2 0).
      { assert (KL : k - n1 < l - n1 < length i2) by lia. revert S1 KL. generalize (k - n1) (l - n1) i2. clear.
        intros a b s S1. revert a b. induction S1 as [|x s S1 IH F]; intros a b H; cbn in H; [lia|].
        destruct b as [|b]; [lia|]. destruct a as [|a]; cbn; [|apply IH; lia]. rewrite Forall_forall in F. apply F, nth_In. lia. }
      apply (N2 _ _ (conj LT (proj1 I)) C).
    + rewrite app_nth1 in C by auto. apply I2 in I. destruct I as [I J]. apply J, JS. exists k. apply MC. auto.
  - rewrite !app_nth1 in C by (auto; fold n1; lia). apply (N1 k l); auto.
Qed.

Theorem C93_merge : forall x g c m, mesh_add q eps x1 g1 c1 m1 x2 g2 c2 m2 = Ok (x, g, c, m) -> merged x g c m.
Proof.
  intros x g c m H. unfold mesh_add in H. destruct (@find_map_full q Hq eps x1 x2) as [F1 F2].
  assert (D : no_doubles eps x1 /\ no_doubles eps x2 \/ ~ (no_doubles eps x1 /\ no_doubles eps x2)).
  { assert (DD : forall x, no_doubles eps x \/ ~ no_doubles eps x).
    { intros y. destruct (Hq eps y) as [_ P]. destruct (q eps y) as [|[i j] l].
      - left. intros i j L C. apply (proj2 (P i j)). split; auto.
      - right. intros F. destruct (proj1 (P i j) (or_introl eq_refl)) as [L C]. apply (F i j L C). }
    destruct (DD x1), (DD x2); tauto. }
  destruct D as [D|D].
  - destruct (F1 D) as (cm & E & M). rewrite E in H. cbn [bind] in H. destruct D. eapply merge_mesh_ok; eauto.
  - rewrite (F2 D) in H. discriminate.
Qed.
(** Meshes with double nodes are refused. *)
Theorem C93_doubles : ~ (no_doubles eps x1 /\ no_doubles eps x2) ->
  mesh_add q eps x1 g1 c1 m1 x2 g2 c2 m2 = Err ValueError.
Proof. intros D. unfold mesh_add. destruct (@find_map_full q Hq eps x1 x2) as [_ F]. rewrite (F D). auto. Qed.
(** Meshes whose common nodes coincide exactly are merged. *)
Lemma row_err_same : forall a b, Forall2 Qeq a b -> (row_err a b == 0)%Q.
Proof.
  intros a b H. unfold row_err, vsub.
  assert (R : Forall2 Qeq (removelast a) (removelast b)).
  { induction H as [|x y a b E F IH]; cbn; [constructor|]. destruct F; [constructor|]. constructor; auto. }
  induction R as [|x y a' b' E F IH]; [reflexivity|]. cbn [combine map fold_right fst snd]. rewrite IH.
  assert (Z : (x - y == 0)%Q) by lra. assert (Z' : (Qabs (x - y) == 0)%Q) by (rewrite Z; reflexivity). rewrite Z'. reflexivity.
Qed.
Theorem C93_exact : (0 <= eps)%Q -> no_doubles eps x1 -> no_doubles eps x2 ->
  (forall i j, i < length x1 -> j < length x2 -> close eps (nth i x1 []) (nth j x2 []) -> Forall2 Qeq (nth i x1 []) (nth j x2 [])) ->
  exists r, mesh_add q eps x1 g1 c1 m1 x2 g2 c2 m2 = Ok r.
Proof.
  intros E0 N1 N2 X. unfold mesh_add. destruct (@find_map_full q Hq eps x1 x2) as [F _]. destruct (F (conj N1 N2)) as (cm & E & ML & MC).
  rewrite E. cbn [bind]. unfold merge_mesh. 
  set (e := fold_right Qplus 0%Q _). assert (Z : (e == 0)%Q).
  { unfold e. clear e E. destruct cm as [is js]. cbn [fst snd] in *.
    assert (A : forall p, In p (combine is js) -> (row_err (nth (fst p) x1 []) (nth (snd p) x2 []) == 0)%Q).
    { intros [i j] I. apply MC in I. destruct I as (L1 & L2 & C). apply row_err_same. apply X; auto. }
    clear MC. induction (combine is js) as [|p l IH]; [reflexivity|]. cbn [map fold_right].
    rewrite (A p) by (left; auto). rewrite IH by (intros; apply A; right; auto). reflexivity. }
  destruct (Qlt_le_dec (10 * eps) (Qabs e)) as [L|L]; [|eauto]. exfalso. rewrite Z in L. cbn in L. lra.
Qed.
End C93.

(** The tolerance of the check is for the sum over all common nodes: meshes with all
    the common nodes closer than eps are refused, if there are many of them. *)
Theorem C93_noise_refuted : exists x1 x2, (forall k, k < 11 -> close 1 (nth k x1 []) (nth k x2 [])) /\
  no_doubles 1 x1 /\ no_doubles 1 x2 /\ length x1 = 11 /\ length x2 = 11 /\
  mesh_add allpairs 1 x1 (repeat 0%Z 11) [] [] x2 (repeat 0%Z 11) [] [] = Err ValueError.
Proof.
  exists (map (fun k => [inject_Z (10 * Z.of_nat k); 0]%Q) (seq 0 11)), (map (fun k => [inject_Z (10 * Z.of_nat k) + (95 # 100); 0]%Q) (seq 0 11)).
  split; [|split; [|split; [|split; [reflexivity|split; [reflexivity|vm_compute; reflexivity]]]]].
  - intros k K. do 11 (destruct k as [|k]; [vm_compute; discriminate|]). lia.
  - intros i j L C. assert (H : In (i, j) (allpairs 1 (map (fun k => [inject_Z (10 * Z.of_nat k); 0]%Q) (seq 0 11)))).
    { apply allpairs_ok. split; auto. }
    vm_compute in H. destruct H.
  - intros i j L C. assert (H : In (i, j) (allpairs 1 (map (fun k => [inject_Z (10 * Z.of_nat k) + (95 # 100); 0]%Q) (seq 0 11)))).
    { apply allpairs_ok. split; auto. }
    vm_compute in H. destruct H.
Qed.
(** Two squares with a common side. *)
Example C93_ex : mesh_add allpairs (1 # 1000) [[0; 0]; [1; 0]; [1; 1]; [0; 1]]%Q [1; 2; 3; 4]%Z [[0; 1; 2; 3]] [5]%Z
    [[1; 1]; [1; 0]; [2; 0]; [2; 1]]%Q [7; 8; 9; 10]%Z [[1; 2; 3; 0]] [6]%Z =
  Ok ([[0; 0]; [1; 0]; [1; 1]; [0; 1]; [2; 0]; [2; 1]]%Q, [1; 2; 3; 4; 9; 10]%Z, [[0; 1; 2; 3]; [1; 4; 5; 2]], [5; 6]%Z).
Proof. vm_compute. reflexivity. Qed.

(** ** C94 *)
Definition nat_argsorts (f : list nat -> list nat) : Prop :=
  forall l, Permutation (f l) (seq 0 (length l)) /\ StronglySorted le (take 0 l (f l)).
Section C94.
Variable q : Q -> list point -> list (nat * nat).
Hypothesis Hq : pairs_spec q.
Variable argsort : list nat -> list nat.
Hypothesis Ha : nat_argsorts argsort.
Variable eps : Q.

Definition double (x : list point) (i j : nat) : Prop := i < j < length x /\ close eps (nth i x []) (nth j x []).
Lemma q_double : forall x i j, In (i, j) (q eps x) <-> double x i j.
Proof. intros. apply Hq. Qed.

Section Pass.
Variables (x : list point) (g : list Z).
Definition secs : list nat := map snd (q eps x).
Definition keep (j : nat) : bool := negb (memb j secs).
Definition kept : list nat := filter keep (seq 0 (length x)).
Lemma secs_spec : forall j, In j secs <-> exists i, double x i j.
Proof.
  intros j. unfold secs. rewrite in_map_iff. split.
  - intros ([i k] & E & I). cbn in E. subst. exists i. apply q_double. auto.
  - intros [i D]. exists (i, j). split; auto. apply q_double. auto.
Qed.
Lemma keep_spec : forall j, keep j = true <-> ~ exists i, double x i j.
Proof. intros j. unfold keep. rewrite negb_true_iff, memb_false, secs_spec. tauto. Qed.

Definition sc : list (nat * nat) := take (0, 0) (q eps x) (argsort (map snd (q eps x))).
Lemma sc_perm : Permutation sc (q eps x).
Proof. apply take_perm. destruct (Ha (map snd (q eps x))) as [P _]. rewrite map_length in P. auto. Qed.
Definition eq1 : list Z := put1 (map Z.of_nat (seq 0 (length x))) (map snd sc) (-1)%Z.
Lemma sc_snd : forall j, In j (map snd sc) <-> In j secs.
Proof. intros j. assert (P : Permutation (map snd sc) secs) by (apply Permutation_map, sc_perm). split; apply Permutation_in; auto using Permutation_sym. Qed.
Lemma eq1_map : eq1 = map (fun j => if keep j then Z.of_nat j else (-1)%Z) (seq 0 (length x)).
Proof.
  apply list_ext with (d := 0%Z); unfold eq1; rewrite length_put1, !map_length; auto. intros i H. rewrite seq_length in H.
  rewrite nth_put1 by (rewrite map_length, seq_length; auto). rewrite !nth_map_in with (da := 0) by (rewrite seq_length; auto).
  rewrite nth_seq0 by auto. unfold keep. destruct (in_dec Nat.eq_dec i (map snd sc)) as [I|I].
  - apply sc_snd in I. rewrite (proj2 (memb_In _ _) I). auto.
  - rewrite (proj2 (memb_false i secs)); auto. intros J. apply I, sc_snd. auto.
Qed.
Lemma eqi_kept : map Z.to_nat (filter (fun z => (0 <=? z)%Z) eq1) = kept.
Proof.
  rewrite eq1_map. unfold kept. induction (seq 0 (length x)) as [|j l IH]; auto. cbn. destruct (keep j) eqn:K.
  - replace (0 <=? Z.of_nat j)%Z with true by (symmetry; apply Z.leb_le; lia). cbn. rewrite IH, Nat2Z.id. auto.
  - cbn. auto.
Qed.
Definition eq2 : list Z := put eq1 kept (map Z.of_nat (seq 0 (length kept))).
Lemma kept_in : forall j, In j kept <-> j < length x /\ keep j = true.
Proof. intros j. unfold kept. rewrite filter_In, in_seq. split; intros []; split; auto; lia. Qed.
Lemma eq1_length : length eq1 = length x.
Proof. rewrite eq1_map, map_length, seq_length. auto. Qed.
Lemma eq2_nth : forall j, j < length x -> nth j eq2 0%Z = if keep j then Z.of_nat (rank keep j) else (-1)%Z.
Proof.
  intros j H. unfold eq2. assert (S1 : sinc kept) by apply sinc_filter, sinc_seq. destruct (keep j) eqn:K.
  - assert (L := rank_lt keep H K). fold kept in L. assert (E := rank_nth keep 0 H K). fold kept in E.
    rewrite <- E at 1. rewrite put_nth.
    + rewrite nth_map_in with (da := 0) by (rewrite seq_length; auto). rewrite nth_seq0; auto.
    + apply sinc_NoDup; auto.
    + intros i I. rewrite eq1_length. apply kept_in in I. tauto.
    + rewrite map_length, seq_length. auto.
    + auto.
  - rewrite put_notin by (intros I; apply kept_in in I; destruct I; congruence).
    rewrite eq1_map, nth_map_in with (da := 0) by (rewrite seq_length; auto). rewrite nth_seq0 by auto. rewrite K. auto.
Qed.
Definition remap : list Z := put eq2 (map snd sc) (take 0%Z eq2 (map fst sc)).
Lemma remap_length : length remap = length x.
Proof. unfold remap, eq2. rewrite !length_put. apply eq1_length. Qed.
Lemma remap_kept : forall j, j < length x -> keep j = true -> nth j remap 0%Z = Z.of_nat (rank keep j).
Proof.
  intros j H K. unfold remap. rewrite put_notin.
  - rewrite eq2_nth, K by auto. auto.
  - intros I. apply sc_snd in I. unfold keep in K. apply memb_In in I. rewrite I in K. discriminate.
Qed.
Lemma remap_double : forall j, j < length x -> keep j = false ->
  exists i, double x i j /\ nth j remap 0%Z = if keep i then Z.of_nat (rank keep i) else (-1)%Z.
Proof.
  intros j H K. unfold keep in K. apply negb_false_iff, memb_In, sc_snd in K.
  assert (B : forall i, In i (map snd sc) -> i < length eq2).
  { intros i I. unfold eq2. rewrite length_put, eq1_length. apply sc_snd, secs_spec in I. destruct I as [a [D _]]. lia. }
  assert (L : length (take 0%Z eq2 (map fst sc)) = length (map snd sc)) by (rewrite length_take, !map_length; auto).
  unfold remap. rewrite (@put_lastval _ (map snd sc) (take 0%Z eq2 (map fst sc)) eq2 j 0%Z B).
  destruct (@lastval_in _ (map snd sc) (take 0%Z eq2 (map fst sc)) j L K) as [v Ev]. rewrite Ev. apply lastval_combine in Ev.
  assert (C : exists p, In p sc /\ snd p = j /\ v = nth (fst p) eq2 0%Z).
  { clear - Ev. induction sc as [|p l IH]; cbn in *; [tauto|]. destruct Ev as [E|E]; [injection E as <- <-; eauto|].
    destruct (IH E) as (p' & A & B). eauto. }
  destruct C as ([i j'] & I & E & ->). cbn in E. subst j'. exists i. apply (Permutation_in _ sc_perm) in I. apply q_double in I. split; auto.
  cbn [fst]. apply eq2_nth. destruct I as [I _]. lia.
Qed.
End Pass.

Lemma fix_pass_eq : forall x g cs, fix_pass argsort (q eps x) x g cs =
  do cs <- mapres (zindexl (remap x)) cs; Ok (take [] x (kept x), take 0%Z g (kept x), cs).
Proof.
  intros x g cs. unfold fix_pass. fold (sc x). fold (eq1 x). rewrite eqi_kept. fold (eq2 x). fold (remap x). auto.
Qed.
Lemma kept_no_doubles : forall x, no_doubles eps (take [] x (kept x)).
Proof.
  intros x i j [L1 L2] C. rewrite length_take in L2. rewrite !nth_take in C by lia.
  assert (S1 : sinc (kept x)) by apply sinc_filter, sinc_seq.
  assert (LT : nth i (kept x) 0 < nth j (kept x) 0).
  { assert (KL : i < j < length (kept x)) by lia. revert S1 KL. generalize (kept x). clear. intros s S1. revert i j.
    induction S1 as [|y s S1 IH F]; intros a b H; cbn in H; [lia|].
    destruct b as [|b]; [lia|]. destruct a as [|a]; cbn; [|apply IH; lia]. rewrite Forall_forall in F. apply F, nth_In. lia. }
  assert (I : In (nth j (kept x) 0) (kept x)) by (apply nth_In; lia). apply kept_in in I. destruct I as [I K].
  apply (proj1 (keep_spec x _)) in K. apply K. exists (nth i (kept x) 0). split; auto.
Qed.
Lemma q_nil : forall x, no_doubles eps x -> q eps x = [].
Proof. intros x N. destruct (q eps x) as [|[i j] l] eqn:E; auto. exfalso. assert (D : double x i j) by (apply q_double; rewrite E; left; auto). destruct D as [L C]. apply (N i j L C). Qed.
Lemma zindexl_ok : forall r row, (forall v, In v row -> (0 <= v < Z.of_nat (length r))%Z) ->
  zindexl r row = Ok (map (fun v => nth (Z.to_nat v) r 0%Z) row).
Proof.
  induction row as [|v row IH]; intros H; auto. cbn. assert (V := H v (or_introl eq_refl)). unfold zindex.
  replace ((0 <=? v) && (v <? Z.of_nat (length r)))%Z with true by (symmetry; apply andb_true_iff; rewrite Z.leb_le, Z.ltb_lt; lia).
  rewrite (nth_error_nth' r 0%Z) by lia. rewrite IH by (intros; apply H; right; auto). auto.
Qed.
Lemma mapres_ok : forall A B (f : A -> res B) (h : A -> B) l, (forall a, In a l -> f a = Ok (h a)) -> mapres f l = Ok (map h l).
Proof. induction l as [|a l IH]; intros H; auto. cbn. rewrite (H a (or_introl eq_refl)). cbn. rewrite IH by (intros; apply H; right; auto). auto. Qed.

(** The node [v] of a cell became [v']: a node at most eps away, which is the same
    node if there was no earlier node close to it. *)
Definition same_node1 (x : list point) (g : list Z) (x' : list point) (g' : list Z) (v v' : Z) : Prop :=
  (0 <= v' < Z.of_nat (length x'))%Z /\ close eps (nth (Z.to_nat v') x' []) (nth (Z.to_nat v) x []) /\
  ((forall i, ~ double x i (Z.to_nat v)) -> nth (Z.to_nat v') x' [] = nth (Z.to_nat v) x [] /\
      nth (Z.to_nat v') g' 0%Z = nth (Z.to_nat v) g 0%Z).
Definition zin_range (n : nat) (cs : list (list Z)) : Prop := forall row v, In row cs -> In v row -> (0 <= v < Z.of_nat n)%Z.

(** For every mesh the loop ends after one pass at most, and no double nodes are left. *)
Theorem C94_no_doubles : forall x g cs, zin_range (length x) cs ->
  exists x' g' cs', fix_double_nodes q argsort eps 1 x g cs = Ok (x', g', cs') /\ no_doubles eps x' /\
  map (@length Z) cs' = map (@length Z) cs /\ exists ii, sinc ii /\ x' = take [] x ii /\ (length g = length x -> g' = take 0%Z g ii) /\
  forall i, In i ii <-> i < length x /\ forall j, ~ double x j i.
Proof.
  intros x g cs R. cbn [fix_double_nodes]. destruct (q eps x) as [|p l] eqn:E.
  - assert (ND : forall j i, ~ double x j i) by (intros j i D; apply q_double in D; rewrite E in D; destruct D).
    exists x, g, cs. split; auto. split.
    { intros i j L C. apply (ND i j). split; auto. } split; auto. exists (seq 0 (length x)). split; [apply sinc_seq|].
    assert (T : forall A (d : A) l, take d l (seq 0 (length l)) = l).
    { intros A d y. apply list_ext with (d := d); [rewrite length_take, seq_length; auto|]. intros i H.
      rewrite length_take, seq_length in H. rewrite nth_take by (rewrite seq_length; auto). rewrite nth_seq0; auto. }
    split; [symmetry; apply T|]. split; [intros L; rewrite <- L; symmetry; apply T|].
    intros i. rewrite in_seq. split; [intros H; split; [lia|intros j; apply ND]|intros [H _]; lia].
  - rewrite <- E. rewrite fix_pass_eq. rewrite (@mapres_ok _ _ _ (map (fun v => nth (Z.to_nat v) (remap x) 0%Z))).
    + cbn [bind]. assert (N := kept_no_doubles x). rewrite (q_nil N).
      do 3 eexists. split; [reflexivity|]. split; auto. split; [rewrite map_map; apply map_ext; intros; apply map_length|].
      exists (kept x). split; [apply sinc_filter, sinc_seq|]. split; auto. split; auto. intros i. rewrite kept_in, keep_spec.
      split; intros [A B]; split; auto; [intros j D; apply B; eauto|intros [j D]; apply (B j); auto].
    + intros row Hr. apply zindexl_ok. intros v Hv. rewrite remap_length. apply (R row); auto.
Qed.
(** Without chains of double nodes, all cells keep their nodes. *)
Theorem C94_cells_partial : forall x g cs, zin_range (length x) cs -> length g = length x ->
  (forall i j k, double x i j -> ~ double x j k) ->
  exists x' g' cs', fix_double_nodes q argsort eps 1 x g cs = Ok (x', g', cs') /\
  Forall2 (Forall2 (same_node1 x g x' g')) cs cs'.
Proof.
  intros x g cs R LG NC.
  assert (F2 : forall A (P : A -> A -> Prop) (f : A -> A) l, (forall a, In a l -> P a (f a)) -> Forall2 P l (map f l)).
  { induction l as [|a l IH]; intros H; constructor; [apply H; left; auto|]. apply IH. intros; apply H; right; auto. }
  cbn [fix_double_nodes]. destruct (q eps x) as [|p l] eqn:E.
  - exists x, g, cs. split; auto. rewrite <- (map_id cs) at 2. apply F2. intros row Hr. rewrite <- (map_id row) at 2. apply F2. intros v Hv.
    split; [apply (R row v Hr Hv)|]. split; [apply close_refl|auto].
  - rewrite <- E. rewrite fix_pass_eq. rewrite (@mapres_ok _ _ _ (map (fun v => nth (Z.to_nat v) (remap x) 0%Z))).
    + cbn [bind]. assert (N := kept_no_doubles x). rewrite (q_nil N). do 3 eexists. split; [reflexivity|].
      apply F2. intros row Hr. apply F2. intros v Hv. assert (V := R row v Hr Hv). set (j := Z.to_nat v).
      assert (J : j < length x) by (unfold j; lia).
      assert (KJ : forall i, i < length x -> keep x i = true -> rank (keep x) i < length (kept x) /\
          nth (rank (keep x) i) (take [] x (kept x)) [] = nth i x [] /\ nth (rank (keep x) i) (take 0%Z g (kept x)) 0%Z = nth i g 0%Z).
      { intros i I K. assert (L := rank_lt (keep x) I K). fold (kept x) in L. split; auto. rewrite !nth_take by auto.
        assert (EN := rank_nth (keep x) 0 I K). fold (kept x) in EN. rewrite EN. auto. }
      unfold same_node1. fold j. rewrite length_take. destruct (keep x j) eqn:K.
      * rewrite remap_kept by auto. rewrite Nat2Z.id. destruct (KJ j J K) as (A & B & C). rewrite B, C. split; [lia|]. split; auto. apply close_refl.
      * destruct (remap_double x J K) as (i & D & ->). assert (KI : keep x i = true).
        { apply keep_spec. intros [k Dk]. apply (NC k i j); auto. }
        rewrite KI, Nat2Z.id. assert (I : i < length x) by (destruct D; lia). destruct (KJ i I KI) as (A & B & C). rewrite B. split; [lia|]. split.
        { destruct D as [_ D]. exact D. }
        intros F. destruct (F i D).
    + intros row Hr. apply zindexl_ok. intros v Hv. rewrite remap_length. apply (R row); auto.
Qed.
(** Three nodes 0, 0.9 eps, 1.8 eps: a cell gets the node -1. *)
Theorem C94_chain_refuted : (eps == 1)%Q -> forall g, exists r,
  fix_double_nodes q argsort eps 1 [[0]; [9 # 10]; [18 # 10]]%Q g [[0; 1; 2]%Z] = Ok r /\ snd r = [[0; 0; -1]]%Z.
Proof.
  intros E1 g. set (x := [[0]; [9 # 10]; [18 # 10]]%Q).
  assert (R : zin_range (length x) [[0; 1; 2]%Z]).
  { intros row v [<- |[]] [<- |[<- |[<- |[]]]]; cbn; lia. }
  assert (D : forall i j, double x i j <-> (i = 0 /\ j = 1) \/ (i = 1 /\ j = 2)).
  { intros i j. unfold double, close. rewrite E1. split.
    - intros [L C]. cbn in L. destruct i as [|[|i]], j as [|[|[|j]]]; try lia; auto. exfalso. vm_compute in C. apply C. auto.
    - intros [[-> ->]|[-> ->]]; (split; [cbn; lia|vm_compute; discriminate]). }
  assert (K0 : keep x 0 = true) by (apply keep_spec; intros [i H]; apply D in H; lia).
  assert (K1 : keep x 1 = false).
  { destruct (keep x 1) eqn:K; auto. exfalso. apply (proj1 (keep_spec x 1)) in K. apply K. exists 0. apply D. auto. }
  assert (K2 : keep x 2 = false).
  { destruct (keep x 2) eqn:K; auto. exfalso. apply (proj1 (keep_spec x 2)) in K. apply K. exists 1. apply D. auto. }
  cbn [fix_double_nodes]. assert (NE : exists p l, q eps x = p :: l).
  { destruct (q eps x) as [|p l] eqn:E; eauto. exfalso. assert (I : In (0, 1) (q eps x)) by (apply q_double, D; auto). rewrite E in I. destruct I. }
  destruct NE as (p & l & NE). rewrite NE, <- NE. rewrite fix_pass_eq.
  rewrite (@mapres_ok _ _ _ (map (fun v => nth (Z.to_nat v) (remap x) 0%Z))).
  - cbn [bind]. rewrite (q_nil (kept_no_doubles x)). eexists. split; [reflexivity|]. cbn [map snd]. f_equal.
    change (Z.to_nat 0) with 0. change (Z.to_nat 1) with 1. change (Z.to_nat 2) with 2.
    rewrite (remap_kept x (j := 0)) by (auto; cbn; lia).
    destruct (remap_double x (j := 1)) as (i & Di & Ei); [cbn; lia|auto|]. apply D in Di. assert (i = 0) by lia. subst i. rewrite K0 in Ei.
    destruct (remap_double x (j := 2)) as (k & Dk & Ek); [cbn; lia|auto|]. apply D in Dk. assert (k = 1) by lia. subst k. rewrite K1 in Ek.
    rewrite Ei, Ek. reflexivity.
  - intros row Hr. apply zindexl_ok. intros v Hv. rewrite remap_length. apply (R row); auto.
Qed.
End C94.
(** Two squares with separate nodes on the common side. *)
Definition ninsort (l : list nat) : list nat := isort (map (fun n => inject_Z (Z.of_nat n)) l).
Lemma ninsort_ok : nat_argsorts ninsort.
Proof.
  intros l. unfold ninsort. set (f := fun n => inject_Z (Z.of_nat n)). destruct (isort_ok (map f l)) as [P S1]. rewrite map_length in P. split; auto.
  assert (E : take 0%Q (map f l) (isort (map f l)) = map f (take 0 l (isort (map f l)))).
  { unfold take. rewrite map_map. apply map_ext_in. intros i I. apply (Permutation_in _ P), in_seq in I. apply nth_map_in. lia. }
  rewrite E in S1. revert S1. generalize (take 0 l (isort (map f l))). clear. induction l as [|x l IH]; cbn; intros H; [constructor|].
  inversion H as [|? ? H1 H2]; subst. constructor; auto. rewrite Forall_forall in *. intros y Hy.
  assert (L := H2 (f y) (in_map f _ _ Hy)). unfold f in L. rewrite <- Zle_Qle in L. lia.
Qed.
Example C94_ex : fix_double_nodes allpairs ninsort (1 # 1000) 1
    [[0; 0]; [1; 0]; [1; 1]; [0; 1]; [1; 1]; [1; 0]; [2; 0]; [2; 1]]%Q [1; 2; 3; 4; 7; 8; 9; 10]%Z [[0; 1; 2; 3]; [5; 6; 7; 4]]%Z =
  Ok ([[0; 0]; [1; 0]; [1; 1]; [0; 1]; [2; 0]; [2; 1]]%Q, [1; 2; 3; 4; 9; 10]%Z, [[0; 1; 2; 3]; [1; 4; 5; 2]]%Z).
Proof. vm_compute. reflexivity. Qed.

(** ** C95 *)
Definition linked (tol : Q) (x : list point) : nat -> nat -> Prop :=
  clos_refl_sym_trans _ (fun i j => i < length x /\ j < length x /\ close tol (nth i x []) (nth j x [])).
(** [connected_components]: the labels 0, 1, ... of the nodes. *)
Definition components_spec (f : nat -> list (nat * nat) -> list nat) : Prop :=
  forall n es, (forall i j, In (i, j) es -> i < n /\ j < n) ->
  length (f n es) = n /\
  (forall i j, i < n -> j < n -> (nth i (f n es) 0 = nth j (f n es) 0 <-> clos_refl_sym_trans _ (fun i j => In (i, j) es) i j)) /\
  (forall i k, i < n -> k <= nth i (f n es) 0 -> In k (f n es)).
Definition wf_mesh (m : mesh) : Prop :=
  length (m_vg m) = length (m_coors m) /\ forall g, In g (m_groups m) -> in_range (length (m_coors m)) (g_conn g) /\ length (g_mat g) = length (g_conn g).

Lemma seq_closed : forall l, sinc l -> (forall x y, In x l -> y <= x -> In y l) -> l = seq 0 (length l).
Proof.
  intros l S1 C. destruct l as [|a t] eqn:El; auto. rewrite <- El in *.
  set (M := S (fold_right Nat.max 0 l)).
  assert (MX : forall l, l <> [] -> In (fold_right Nat.max 0 l) l).
  { clear. induction l as [|a l IH]; intros H; [congruence|]. cbn. destruct l as [|b l]; [left; cbn; lia|].
    assert (I := IH ltac:(discriminate)). destruct (Nat.max_spec a (fold_right Nat.max 0 (b :: l))) as [[_ ->]|[_ ->]]; [right; auto|left; auto]. }
  assert (UB : forall l x, In x l -> x <= fold_right Nat.max 0 l).
  { clear. induction l as [|a l IH]; intros x H; [destruct H|]. cbn. destruct H as [-> |H]; [lia|]. specialize (IH _ H). lia. }
  assert (E : l = seq 0 M).
  { apply sinc_ext; auto using sinc_seq. intros x. rewrite in_seq. split.
    - intros I. apply UB in I. unfold M. lia.
    - intros I. apply (C (fold_right Nat.max 0 l)); [apply MX; rewrite El; discriminate|unfold M in I; lia]. }
  rewrite E at 2. rewrite seq_length. auto.
Qed.
Lemma first_index_spec : forall x l, In x l -> first_index x l < length l /\ nth (first_index x l) l 0 = x /\
  forall j, j < length l -> nth j l 0 = x -> first_index x l <= j.
Proof.
  induction l as [|y l IH]; intros H; [destruct H|]. cbn. destruct (Nat.eqb_spec x y) as [-> |N].
  - repeat split; auto; lia.
  - destruct H as [H|H]; [congruence|]. destruct (IH H) as (A & B & C). repeat split; auto; [lia|]. intros [|j] L E; [congruence|].
    apply le_n_S. apply C; [lia|auto].
Qed.

Section C95.
Variable q : Q -> list point -> list (nat * nat).
Hypothesis Hq : pairs_spec q.
Variable comps : nat -> list (nat * nat) -> list nat.
Hypothesis Hc : components_spec comps.

(** The nodes are renumbered by a function [f]: two nodes become one exactly if
    they are linked by nodes closer than the tolerance; the new node is the first of
    them; no double nodes are left. *)
Theorem C95_merge_nodes : forall tol m, wf_mesh m ->
  let m' := merge_nodes q comps tol m in
  exists f, m_groups m' = map (fun g => mkG (g_desc g) (map (map f) (g_conn g)) (g_mat g)) (m_groups m) /\
  length (m_vg m') = length (m_coors m') /\
  (forall v, v < length (m_coors m) -> f v < length (m_coors m') /\
     (forall u, u < length (m_coors m) -> (f u = f v <-> linked tol (m_coors m) u v)) /\
     exists w, w < length (m_coors m) /\ linked tol (m_coors m) w v /\ (forall u, u < length (m_coors m) -> linked tol (m_coors m) u v -> w <= u) /\
       nth (f v) (m_coors m') [] = nth w (m_coors m) [] /\ nth (f v) (m_vg m') 0%Z = nth w (m_vg m) 0%Z) /\
  (forall k, k < length (m_coors m') -> exists v, v < length (m_coors m) /\ f v = k) /\
  no_doubles tol (m_coors m').
Proof.
  intros tol m [WV WC] m'. unfold m', merge_nodes. set (x := m_coors m) in *. destruct (Hq tol x) as [_ P].
  assert (LK : forall i j, linked tol x i j <-> clos_refl_sym_trans _ (fun i j => In (i, j) (q tol x)) i j).
  { intros i j. unfold linked. split; intros H.
    - induction H as [a b (A & B & C)|a|a b H IH|a b c H1 IH1 H2 IH2].
      + destruct (Nat.lt_trichotomy a b) as [L|[L|L]].
        * apply rst_step. apply P. split; auto.
        * subst. apply rst_refl.
        * apply rst_sym, rst_step. apply P. split; auto. apply close_sym. auto.
      + apply rst_refl.
      + apply rst_sym. auto.
      + eapply rst_trans; eauto.
    - induction H as [a b H|a|a b H IH|a b c H1 IH1 H2 IH2].
      + apply P in H. destruct H as [L C]. apply rst_step. repeat split; auto; lia.
      + apply rst_refl.
      + apply rst_sym. auto.
      + eapply rst_trans; eauto. }
  destruct (q tol x) as [|p l] eqn:E.
  - exists (fun v => v). assert (EQ : forall i j, linked tol x i j <-> i = j).
    { intros i j. rewrite LK. split; [|intros ->; apply rst_refl]. intros H. induction H as [a b H|a|a b H IH|a b c H1 IH1 H2 IH2]; auto; [destruct H|congruence]. }
    split.
    { rewrite <- (map_id (m_groups m)) at 1. apply map_ext. intros [d c mt]. cbn. f_equal. rewrite <- (map_id c) at 1. apply map_ext.
      intros r. symmetry. apply map_id. }
    split; auto. split; [|split].
    + intros v V. split; auto. split; [intros u U; symmetry; apply EQ|]. exists v. split; auto. split; [apply EQ; auto|].
      split; auto. intros u U L. apply EQ in L. lia.
    + intros k K. exists k. auto.
    + intros i j L C. apply (proj2 (P i j)). split; auto.
  - rewrite <- E in *. clear E. set (rm := comps (length x) (q tol x)).
    destruct (fun H => (Hc : components_spec comps) (length x) (q tol x) H) as (CL & CE & CC).
    { intros i j I. apply P in I. lia. }
    fold rm in CL, CE, CC.
    assert (UQ : unique rm = seq 0 (length (unique rm))).
    { apply seq_closed; [apply unique_sinc|]. intros a b I L. rewrite unique_In in I. rewrite unique_In. apply In_nth with (d := 0) in I.
      destruct I as (i & B & <-). apply (CC i); [rewrite <- CL; exact B | exact L]. }
    set (c := length (unique rm)) in *. rewrite UQ. cbn [m_groups m_coors m_vg].
    assert (NI : forall v, v < length x -> nth v rm 0 < c /\ In (nth v rm 0) rm).
    { intros v V. assert (I : In (nth v rm 0) rm) by (apply nth_In; lia). split; auto. rewrite <- unique_In in I. rewrite UQ in I.
      apply in_seq in I. lia. }
    set (nidxs := map (fun l => first_index l rm) (seq 0 c)).
    assert (NL : length nidxs = c) by (unfold nidxs; rewrite map_length, seq_length; auto).
    assert (NN : forall k, k < c -> nth k nidxs 0 = first_index k rm).
    { intros k K. unfold nidxs. rewrite nth_map_in with (da := 0) by (rewrite seq_length; auto). rewrite nth_seq0; auto. }
    assert (IC : forall k, k < c -> In k rm).
    { intros k K. rewrite <- unique_In. rewrite UQ. apply in_seq. lia. }
    exists (fun v => nth v rm 0). split; auto. rewrite !length_take, NL. split; auto. split; [|split].
    + intros v V. destruct (NI v V) as [B I]. split; auto. split.
      * intros u U. rewrite LK. apply CE; auto.
      * destruct (first_index_spec _ _ I) as (A1 & A2 & A3). exists (first_index (nth v rm 0) rm). rewrite CL in A1. split; auto.
        assert (LW : linked tol x (first_index (nth v rm 0) rm) v) by (apply LK, CE; auto).
        split; auto. split.
        { intros u U L. apply A3; [lia|]. apply CE; auto. apply LK; auto. }
        rewrite !nth_take by (rewrite NL; auto). rewrite NN by auto. auto.
    + intros k K. destruct (first_index_spec _ _ (IC k K)) as (A1 & A2 & A3). exists (first_index k rm). split; [lia|auto].
    + intros i j [L1 L2] C. rewrite length_take, NL in L2. rewrite !nth_take in C by (rewrite NL; lia). rewrite !NN in C by lia.
      destruct (first_index_spec _ _ (IC i ltac:(lia))) as (A1 & A2 & _). destruct (first_index_spec _ _ (IC j L2)) as (B1 & B2 & _).
      rewrite CL in A1, B1. assert (X : nth (first_index i rm) rm 0 = nth (first_index j rm) rm 0).
      { apply CE; auto. apply LK. apply rst_step. auto. }
      rewrite A2, B2 in X. lia.
Qed.
(** If close nodes always have equal coordinates, no cell is moved. *)
Theorem C95_exact : forall tol m, wf_mesh m ->
  (forall i j, i < length (m_coors m) -> j < length (m_coors m) -> close tol (nth i (m_coors m) []) (nth j (m_coors m) []) ->
     nth i (m_coors m) [] = nth j (m_coors m) []) ->
  let m' := merge_nodes q comps tol m in
  map (fun g => (g_desc g, map (map (fun v => nth v (m_coors m') [])) (g_conn g), g_mat g)) (m_groups m') =
  map (fun g => (g_desc g, map (map (fun v => nth v (m_coors m) [])) (g_conn g), g_mat g)) (m_groups m).
Proof.
  intros tol m W X m'. destruct (C95_merge_nodes tol W) as (f & G & _ & F & _). fold m' in G, F. rewrite G, map_map.
  apply map_ext_in. intros g Hg. cbn [g_desc g_conn g_mat]. f_equal. f_equal. rewrite map_map. apply map_ext_in. intros row Hr. rewrite map_map.
  apply map_ext_in. intros v Hv. destruct W as [_ WC]. destruct (WC g Hg) as [R _]. assert (V := R row v Hr Hv).
  destruct (F v V) as (_ & _ & w & B & L & _ & E & _). rewrite E.
  assert (Q1 : forall a b, linked tol (m_coors m) a b -> nth a (m_coors m) [] = nth b (m_coors m) []).
  { intros a b H. induction H as [a b (A1 & A2 & A3)|a|a b H IH|a b c H1 IH1 H2 IH2]; auto; congruence. }
  auto.
Qed.
End C95.
(** A concrete [connected_components]: labels by repeated relabelling. *)
Definition relabel (l : list nat) (e : nat * nat) : list nat :=
  let a := nth (fst e) l 0 in let b := nth (snd e) l 0 in map (fun k => if k =? Nat.max a b then Nat.min a b else k) l.
Definition comps0 (n : nat) (es : list (nat * nat)) : list nat :=
  let l := fold_left relabel es (seq 0 n) in map (fun k => first_index k (unique l)) l.
(** Nodes 0.9 tol apart: the last of four nodes is moved by 2.7 tol. *)
Theorem C95_move_refuted : exists x, forall cs, let m' := merge_nodes allpairs comps0 1 (mkM x (repeat 0%Z 4) [mkG 1 [[0; 1; 2; 3]] [cs]]) in
  nth 3 x [] = [27 # 10]%Q /\ map g_conn (m_groups m') = [[[0; 0; 0; 0]]] /\ m_coors m' = [[0]]%Q.
Proof. exists [[0]; [9 # 10]; [18 # 10]; [27 # 10]]%Q. intros cs. vm_compute. auto. Qed.
Example C95_ex : merge_nodes allpairs comps0 (1 # 1000)
   (mkM [[0; 0]; [1; 0]; [1; 1]; [0; 1]; [1; 1]; [1; 0]; [2; 0]; [2; 1]; [1; 1]]%Q [1; 2; 3; 4; 7; 8; 9; 10; 11]%Z
        [mkG 4 [[0; 1; 2; 3]; [5; 6; 7; 4]] [5; 6]%Z; mkG 3 [[8; 3; 2]] [7]%Z]) =
  mkM [[0; 0]; [1; 0]; [1; 1]; [0; 1]; [2; 0]; [2; 1]]%Q [1; 2; 3; 4; 9; 10]%Z
      [mkG 4 [[0; 1; 2; 3]; [1; 4; 5; 2]] [5; 6]%Z; mkG 3 [[2; 3; 2]] [7]%Z].
Proof. vm_compute. reflexivity. Qed.
Print Assumptions C93_merge.
Print Assumptions C94_cells_partial.
Print Assumptions C95_merge_nodes.
