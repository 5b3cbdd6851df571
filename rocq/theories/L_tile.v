(** Lemmas for P_tile.v: one axis. *)
From Coq Require Import QArith Qabs Lqa.
From Verif Require Import Base M_parallel M_periodic M_merge L_merge M_block L_block M_tile.
Set Implicit Arguments.
Open Scope nat_scope.

Lemma nth_flat_const : forall A B (f : A -> list B) nr l d d' j r, (forall x, In x l -> length (f x) = nr) -> j < length l -> r < nr ->
  nth (j * nr + r) (flat_map f l) d = nth r (f (nth j l d')) d.
Proof.
  intros A B f nr. induction l as [|x l IH]; intros d d' j r H J R; cbn in J; [lia|]. cbn [flat_map]. assert (X := H x (or_introl eq_refl)). destruct j as [|j].
  - cbn. apply app_nth1. lia.
  - rewrite app_nth2 by (rewrite X; lia). rewrite X. cbn [nth]. replace (S j * nr + r - nr) with (j * nr + r) by lia. apply IH; [|lia|lia]. intros; apply H; right; auto.
Qed.
Lemma length_flat_n : forall A B (f : A -> list B) n l, (forall x, In x l -> length (f x) = n) -> length (flat_map f l) = length l * n.
Proof. intros A B f n l H. induction l as [|x l IH]; cbn; [lia|]. rewrite app_length, H, IH; [lia| |left; auto]. intros; apply H; right; auto. Qed.
Lemma in_flat_n : forall A B (f : A -> list B) nr l d d' n, (forall x, In x l -> length (f x) = nr) -> n < length l * nr ->
  exists j r, j < length l /\ r < nr /\ n = j * nr + r /\ nth n (flat_map f l) d = nth r (f (nth j l d')) d.
Proof.
  intros A B f nr l d d' n H L. assert (NR : 0 < nr) by nia. exists (n / nr), (n mod nr). assert (E : n = n / nr * nr + n mod nr) by (rewrite Nat.mul_comm; apply Nat.div_mod; lia).
  assert (R := Nat.mod_upper_bound n nr ltac:(lia)). assert (J : n / nr < length l) by (apply Nat.div_lt_upper_bound; lia). repeat split; auto.
  rewrite E at 1. apply nth_flat_const; auto.
Qed.

Section Axis.
Variables (conn : list (list nat)) (coors : list point) (grp : list Z) (dd : point) (s1 a1 a2 : list nat).
Notation N0 := (length coors).
Notation mask := (put1 (repeat 1 N0) s1 0).
Notation cidx := (setdiff1d (seq 0 N0) s1).
Notation nr := (length cidx).
Hypothesis Hs1 : forall x, In x s1 -> x < N0.
Hypothesis Ha1 : NoDup a1.
Hypothesis Ha1s : forall x, In x a1 <-> In x s1.
Hypothesis Hlen : length a2 = length a1.
Hypothesis Ha2 : forall x, In x a2 -> x < N0 /\ ~ In x s1.
Hypothesis Hconn : forall row v, In row conn -> In v row -> v < N0.
Hypothesis HN : 0 < N0.

Definition keep (v : nat) : bool := negb (memb v s1).
Definition rk (v : nat) : nat := rank keep v.
Fixpoint pairing (a b : list nat) (v : nat) : nat :=
  match a, b with x :: a, y :: b => if x =? v then y else pairing a b v | _, _ => 0 end.
Definition partner (v : nat) : nat := pairing a1 a2 v.
(** The node of the vertex [v] of the tile [i] that is new in the tile. *)
Definition newnode (i v : nat) : nat := match i with 0 => v | S j => N0 + j * nr + rk v end.
Definition node (i v : nat) : nat :=
  match i with 0 => v | S j => if memb v s1 then newnode j (partner v) else newnode i v end.
Lemma pairing_nth : forall a b k, NoDup a -> length b = length a -> k < length a -> pairing a b (nth k a 0) = nth k b 0.
Proof.
  clear. induction a as [|x a IH]; intros [|y b] [|k] ND L K; cbn in L, K; try lia; cbn [pairing nth].
  - rewrite Nat.eqb_refl. auto.
  - inversion ND as [|? ? H1 H2]; subst. destruct (x =? nth k a 0) eqn:E.
    + apply Nat.eqb_eq in E. exfalso. apply H1. rewrite E. apply nth_In. lia.
    + apply IH; auto; lia.
Qed.
Lemma map_partner : map partner a1 = a2.
Proof.
  clear Hs1 Ha1s Ha2 Hconn HN. unfold partner. apply list_ext with (d := 0); [rewrite map_length; auto|]. intros k K. rewrite map_length in K.
  rewrite nth_map_in with (da := 0) by auto. apply pairing_nth; auto.
Qed.
Lemma partner_in : forall v, In v s1 -> In (partner v) a2.
Proof. intros v H. rewrite <- map_partner. apply in_map. apply Ha1s. auto. Qed.
Lemma cidx_filter : cidx = filter keep (seq 0 N0).
Proof. apply setdiff_seq. Qed.
Lemma rk_lt : forall v, v < N0 -> ~ In v s1 -> rk v < nr.
Proof. intros v H K. rewrite cidx_filter. apply rank_lt; auto. unfold keep. apply memb_false in K. rewrite K. auto. Qed.
Lemma rk_nth : forall v, v < N0 -> ~ In v s1 -> nth (rk v) cidx 0 = v.
Proof. intros v H K. rewrite cidx_filter. apply rank_nth; auto. unfold keep. apply memb_false in K. rewrite K. auto. Qed.
Lemma cidx_In : forall v, In v cidx <-> v < N0 /\ ~ In v s1.
Proof. intros v. rewrite setdiff1d_In, in_seq. split; intros [A B]; split; auto; lia. Qed.

Lemma remap_spec : forall j v, v < N0 ->
  nth v (put (map (fun c => c + (N0 + j * nr) - 1) (cumsum_from 0 mask)) a1 (map (newnode j) a2)) 0 = node (S j) v.
Proof.
  intros j v H.
  assert (LC : length (cumsum_from 0 mask) = N0) by (rewrite length_cumsum, length_put1, repeat_length; auto).
  replace (map (newnode j) a2) with (map (fun v => newnode j (partner v)) a1) by (rewrite <- map_partner at 1; rewrite map_map; auto).
  rewrite put_fun. 2:{ intros i I0. rewrite map_length, LC. apply Hs1, Ha1s. auto. }
  unfold node. destruct (in_dec Nat.eq_dec v a1) as [A|A].
  - rewrite (proj2 (memb_In v s1)); auto. apply Ha1s. auto.
  - assert (NS : ~ In v s1) by (intros X; apply A, Ha1s; auto). rewrite (proj2 (memb_false v s1) NS).
    rewrite nth_map_in with (da := 0) by (rewrite LC; auto). rewrite cumsum_rank by auto. cbn [newnode]. unfold rk. assert (KV : keep v = true) by (unfold keep; rewrite (proj2 (memb_false v s1) NS); auto). change (fun j0 => negb (memb j0 s1)) with keep. rewrite rank_S, KV. lia.
Qed.
Definition cshift (i : nat) (p : point) : point := match i with 0 => p | S _ => vadd p (vscale (q_of i) dd) end.
Lemma loop_spec : forall n j,
  tile_loop conn coors grp dd a1 a2 mask cidx n (S j) (N0 + j * nr) (map (newnode j) a2) =
  mkT (flat_map (fun i => map (map (node i)) conn) (seq (S j) n))
      (flat_map (fun i => map (cshift i) (take [] coors cidx)) (seq (S j) n))
      (flat_map (fun _ => take 0%Z grp cidx) (seq (S j) n)) (flat_map (fun _ => cidx) (seq (S j) n)).
Proof.
  induction n as [|n IH]; intros j; [reflexivity|]. cbn [tile_loop seq flat_map].
  set (remap := put (map (fun c => c + (N0 + j * nr) - 1) (cumsum_from 0 mask)) a1 (map (newnode j) a2)).
  assert (R : forall v, v < N0 -> nth v remap 0 = node (S j) v) by (intros; apply remap_spec; auto).
  assert (E : take 0 remap a2 = map (newnode (S j)) a2).
  { unfold take. apply map_ext_in. intros v V. destruct (Ha2 v V) as [V1 V2]. rewrite R by auto. unfold node. rewrite (proj2 (memb_false v s1) V2). auto. }
  rewrite E. replace (N0 + j * nr + nr) with (N0 + S j * nr) by lia. rewrite IH. cbn [t_conn t_coors t_grp t_map]. f_equal.
  f_equal. apply map_ext_in. intros row RR. unfold take. apply map_ext_in. intros v V. apply R. eapply Hconn; eauto.
Qed.

(** All nodes: (tile, vertex). *)
Definition orgs (n : nat) : list (nat * nat) := map (pair 0) (seq 0 N0) ++ flat_map (fun i => map (pair i) cidx) (seq 1 n).
Lemma length_orgs : forall n, length (orgs n) = N0 + n * nr.
Proof. intros n. unfold orgs. rewrite app_length, map_length, seq_length. rewrite (@length_flat_n _ _ _ nr) by (intros; apply map_length). rewrite seq_length. auto. Qed.
Lemma orgs_newnode : forall n i v, i <= n -> v < N0 -> i = 0 \/ ~ In v s1 -> newnode i v < length (orgs n) /\ nth (newnode i v) (orgs n) (0, 0) = (i, v).
Proof.
  intros n i v I0 V H. rewrite length_orgs. unfold orgs. destruct i as [|i]; cbn [newnode].
  - split; [lia|]. rewrite app_nth1 by (rewrite map_length, seq_length; auto). rewrite nth_map_in with (da := 0) by (rewrite seq_length; auto). rewrite nth_seq0; auto.
  - destruct H as [H|H]; [lia|]. assert (R := rk_lt V H). split; [nia|].
    rewrite app_nth2 by (rewrite map_length, seq_length; lia). rewrite map_length, seq_length. replace (N0 + i * nr + rk v - N0) with (i * nr + rk v) by lia.
    rewrite (@nth_flat_const _ _ _ nr (seq 1 n) (0, 0) 0); [|intros; apply map_length|rewrite seq_length; lia|auto].
    rewrite seq_nth by lia. rewrite nth_map_in with (da := 0) by auto. rewrite rk_nth by auto. auto.
Qed.
Lemma orgs_In : forall n i v, In (i, v) (orgs n) <-> i <= n /\ v < N0 /\ (i = 0 \/ ~ In v s1).
Proof.
  intros n i v. unfold orgs. rewrite in_app_iff, in_map_iff, in_flat_map. split.
  - intros [(w & E & W)|(j & J & W)].
    + injection E as <- <-. rewrite in_seq in W. split; [lia|]. split; [lia|auto].
    + apply in_map_iff in W. destruct W as (w & E & W). injection E as <- <-. rewrite in_seq in J. apply cidx_In in W. destruct W. split; [lia|]. split; auto.
  - intros (A & B & C). destruct i as [|i].
    + left. exists v. split; auto. apply in_seq. lia.
    + destruct C as [C|C]; [lia|]. right. exists (S i). split; [apply in_seq; lia|]. apply in_map. apply cidx_In. auto.
Qed.
Lemma orgs_NoDup : forall n, NoDup (orgs n).
Proof.
  intros n. apply (NoDup_nth _ (0, 0)). intros k l K L E.
  assert (P : forall k, k < length (orgs n) -> newnode (fst (nth k (orgs n) (0, 0))) (snd (nth k (orgs n) (0, 0))) = k).
  { clear k l K L E. intros k K. rewrite length_orgs in K. unfold orgs. destruct (Nat.lt_ge_cases k N0) as [H|H].
    - rewrite app_nth1 by (rewrite map_length, seq_length; auto). rewrite nth_map_in with (da := 0) by (rewrite seq_length; auto). rewrite nth_seq0; auto.
    - rewrite app_nth2 by (rewrite map_length, seq_length; lia). rewrite map_length, seq_length.
      destruct (@in_flat_n _ _ (fun i => map (pair i) cidx) nr (seq 1 n) (0, 0) 0 (k - N0)) as (j & r & J & R & E & ->); [intros; apply map_length|rewrite seq_length; lia|].
      rewrite seq_length in J. rewrite seq_nth by auto. rewrite nth_map_in with (da := 0) by auto. cbn [fst snd plus newnode].
      assert (C : In (nth r cidx 0) cidx) by (apply nth_In; auto). apply cidx_In in C. destruct C as [C1 C2].
      assert (RK : rk (nth r cidx 0) = r).
      { apply (proj1 (NoDup_nth cidx 0) (sinc_NoDup (setdiff1d_sinc _ _))); auto; [apply rk_lt; auto|]. apply rk_nth; auto. }
      rewrite RK. lia. }
  rewrite <- (P k K), <- (P l L), E. auto.
Qed.
Lemma all_coors : forall n, coors ++ flat_map (fun i => map (cshift i) (take [] coors cidx)) (seq 1 n) = map (fun o => cshift (fst o) (nth (snd o) coors [])) (orgs n).
Proof.
  intros n. unfold orgs. rewrite map_app. f_equal.
  - rewrite map_map. cbn [fst snd cshift]. apply list_ext with (d := []); [rewrite map_length, seq_length; auto|]. intros k K.
    rewrite nth_map_in with (da := 0) by (rewrite seq_length; auto). rewrite nth_seq0; auto.
  - induction (seq 1 n) as [|i l IH]; cbn [flat_map]; [reflexivity|]. rewrite map_app, map_map. rewrite IH. f_equal. unfold take. rewrite map_map. auto.
Qed.
Lemma all_map : forall n, seq 0 N0 ++ flat_map (fun _ => cidx) (seq 1 n) = map snd (orgs n).
Proof.
  intros n. unfold orgs. rewrite map_app, map_map. cbn [snd]. rewrite map_id. f_equal.
  induction (seq 1 n) as [|i l IH]; cbn [flat_map]; [reflexivity|]. rewrite map_app, map_map, IH. cbn [snd]. rewrite map_id. auto.
Qed.
Lemma all_grp : forall n, length grp = N0 -> grp ++ flat_map (fun _ => take 0%Z grp cidx) (seq 1 n) = map (fun o => nth (snd o) grp 0%Z) (orgs n).
Proof.
  intros n G. unfold orgs. rewrite map_app. f_equal.
  - rewrite map_map. cbn [fst snd]. apply list_ext with (d := 0%Z); [rewrite map_length, seq_length; auto|]. intros k K.
    rewrite nth_map_in with (da := 0) by (rewrite seq_length; lia). rewrite nth_seq0; auto. lia.
  - induction (seq 1 n) as [|i l IH]; cbn [flat_map]; [reflexivity|]. rewrite map_app, map_map. rewrite IH. f_equal.
Qed.
Lemma all_conn : forall n, conn ++ flat_map (fun i => map (map (node i)) conn) (seq 1 n) = flat_map (fun i => map (map (node i)) conn) (seq 0 (S n)).
Proof. intros n. cbn [seq flat_map]. f_equal. cbn [node]. rewrite (map_ext (map (fun v => v)) id) by (intros; apply map_id). symmetry. apply map_id. Qed.
(** The vertex of each tile. *)
Lemma node_org : forall n i v, i <= n -> v < N0 -> node i v < length (orgs n) /\
  (nth (node i v) (orgs n) (0, 0) = (i, v) \/ exists j, i = S j /\ In v s1 /\ nth (node i v) (orgs n) (0, 0) = (j, partner v)).
Proof.
  intros n i v I0 V. unfold node. destruct i as [|j].
  - destruct (@orgs_newnode n 0 v I0 V (or_introl eq_refl)) as [A B]. cbn [newnode] in *. auto.
  - destruct (memb v s1) eqn:E.
    + apply memb_In in E. destruct (Ha2 _ (partner_in v E)) as [P1 P2]. destruct (@orgs_newnode n j (partner v) ltac:(lia) P1 (or_intror P2)) as [A B].
      split; auto. right. exists j. auto.
    + apply memb_false in E. destruct (@orgs_newnode n (S j) v I0 V (or_intror E)) as [A B]. auto.
Qed.
End Axis.
