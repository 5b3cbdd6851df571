(** Permutations of the DOFs of facets. *)
From Coq Require Import Permutation.
From Verif Require Import Base M_dofs M_mesh M_lagnodes L_mesh P_lagnodes M_facet.
Set Implicit Arguments.
Open Scope nat_scope.

(** ** The enumerations in the order of the nodes of facets *)
Definition tp (n : nat) : list (nat * nat) := flat_map (fun a => map (fun b => (a, b)) (seq 0 (n - a))) (seq 0 n).
Definition sq (n : nat) : list (nat * nat) := flat_map (fun a => map (fun b => (a, b)) (seq 0 n)) (seq 0 n).
Lemma down_map : forall n, down n = map (fun a => n - 1 - a) (seq 0 n).
Proof.
  intros n. unfold down. apply list_ext with (d := 0); [rewrite rev_length, map_length; auto|]. intros k K. rewrite rev_length, seq_length in K. rewrite rev_nth by (rewrite seq_length; auto). rewrite seq_length. rewrite seq_nth by lia. rewrite nth_map_in with (da := 0) by (rewrite seq_length; auto). rewrite seq_nth by auto. lia.
Qed.
Lemma rev_seq_map : forall a n, rev (seq a n) = map (fun b => a + n - 1 - b) (seq 0 n).
Proof.
  intros a n. apply list_ext with (d := 0); [rewrite rev_length, map_length, !seq_length; auto|]. intros k K. rewrite rev_length, seq_length in K. rewrite rev_nth by (rewrite seq_length; auto). rewrite seq_length. rewrite seq_nth by lia. rewrite nth_map_in with (da := 0) by (rewrite seq_length; auto). rewrite seq_nth by auto. lia.
Qed.
Lemma seq_map : forall a n, seq a n = map (fun b => a + b) (seq 0 n).
Proof. intros a n. apply list_ext with (d := 0); [rewrite map_length, !seq_length; auto|]. intros k K. rewrite seq_length in K. rewrite seq_nth by lia. rewrite nth_map_in with (da := 0) by (rewrite seq_length; auto). rewrite seq_nth by auto. lia. Qed.
Lemma flat_map_map : forall A B C (f : A -> B) (g : B -> list C) l, flat_map g (map f l) = flat_map (fun a => g (f a)) l.
Proof. intros. induction l; cbn; auto. rewrite IHl. auto. Qed.
Lemma map_flat_map : forall A B C (f : B -> C) (g : A -> list B) l, map f (flat_map g l) = flat_map (fun a => map f (g a)) l.
Proof. intros. induction l; cbn; auto. rewrite map_app, IHl. auto. Qed.
Lemma flat_map_ext_in : forall A B (f g : A -> list B) l, (forall a, In a l -> f a = g a) -> flat_map f l = flat_map g l.
Proof. induction l as [|a l IH]; intros H; cbn; auto. rewrite (H a), IH; auto; intros; try apply H; cbn; auto. Qed.
Ltac it_tac := rewrite ?down_map; unfold tp, sq; rewrite ?map_flat_map, ?flat_map_map; apply flat_map_ext_in; intros ? I; apply in_seq in I; rewrite ?down_map, ?rev_seq_map;
  rewrite ?map_map; cbn [fst snd].
Ltac it_fin := let I := fresh in apply map_ext_in; intros ? I; apply in_seq in I; f_equal; lia.
Lemma iter01_tp : forall n, iter01 n = map (fun p => (n - 1 - fst p, snd p)) (tp n).
Proof. intros. unfold iter01. it_tac. match goal with |- context [seq 0 ?m] => replace m with (n - a) by lia end. auto. Qed.
Lemma iter10_tp : forall n, iter10 n = map (fun p => (n - 1 - fst p, n - 1 - fst p - snd p)) (tp n).
Proof. intros. unfold iter10. it_tac. replace (n - 1 - a + 1) with (n - a) by lia. it_fin. Qed.
Lemma iter02_tp : forall n, iter02 n = map (fun p => (n - 1 - snd p, fst p)) (tp n).
Proof. intros. unfold iter02. it_tac. it_fin. Qed.
Lemma iter20_tp : forall n, iter20 n = map (fun p => (fst p + snd p, fst p)) (tp n).
Proof. intros. unfold iter20. it_tac. rewrite (seq_map a), map_map. it_fin. Qed.
Lemma iter12_tp : forall n, iter12 n = map (fun p => (n - 1 - snd p, n - 1 - fst p - snd p)) (tp n).
Proof. intros. unfold iter12. it_tac. it_fin. Qed.
Lemma iter21_tp : forall n, iter21 n = map (fun p => (fst p + snd p, snd p)) (tp n).
Proof. intros. unfold iter21. it_tac. it_fin. Qed.
Lemma iter01x01y_sq : forall n, iter01x01y n = sq n.
Proof. reflexivity. Qed.
Lemma iter10x01y_sq : forall n, iter10x01y n = map (fun p => (n - 1 - fst p, snd p)) (sq n).
Proof. intros. unfold iter10x01y. it_tac. auto. Qed.
Lemma iter01x10y_sq : forall n, iter01x10y n = map (fun p => (fst p, n - 1 - snd p)) (sq n).
Proof. intros. unfold iter01x10y. it_tac. it_fin. Qed.
Lemma iter10x10y_sq : forall n, iter10x10y n = map (fun p => (n - 1 - fst p, n - 1 - snd p)) (sq n).
Proof. intros. unfold iter10x10y. it_tac. it_fin. Qed.
Lemma In_tp : forall n a b, In (a, b) (tp n) <-> a + b < n.
Proof.
  intros. unfold tp. rewrite in_flat_map. split.
  - intros (x & X & Y). apply in_map_iff in Y. destruct Y as (y & E & Y). injection E as -> ->. apply in_seq in X, Y. lia.
  - intros H. exists a. split; [apply in_seq; lia|]. apply in_map_iff. exists b. split; auto. apply in_seq. lia.
Qed.
Lemma In_sq : forall n a b, In (a, b) (sq n) <-> a < n /\ b < n.
Proof.
  intros. unfold sq. rewrite in_flat_map. split.
  - intros (x & X & Y). apply in_map_iff in Y. destruct Y as (y & E & Y). injection E as -> ->. apply in_seq in X, Y. lia.
  - intros H. exists a. split; [apply in_seq; lia|]. apply in_map_iff. exists b. split; auto. apply in_seq. lia.
Qed.
Lemma NoDup_tp : forall n, NoDup (tp n).
Proof.
  intros. apply NoDup_flat; [apply seq_NoDup| |].
  - intros x _. apply FinFun.Injective_map_NoDup; [intros a b E; congruence|apply seq_NoDup].
  - intros x y z _ _ X Y. apply in_map_iff in X. apply in_map_iff in Y. destruct X as (? & <- & _), Y as (? & E & _). congruence.
Qed.
Lemma NoDup_sq : forall n, NoDup (sq n).
Proof.
  intros. apply NoDup_flat; [apply seq_NoDup| |].
  - intros x _. apply FinFun.Injective_map_NoDup; [intros a b E; congruence|apply seq_NoDup].
  - intros x y z _ _ X Y. apply in_map_iff in X. apply in_map_iff in Y. destruct X as (? & <- & _), Y as (? & E & _). congruence.
Qed.
Lemma length_tp : forall n, length (tp n) = tri n.
Proof. intros. unfold tp. rewrite length_flat_sum. rewrite (map_ext _ (fun i => n - i)) by (intros; rewrite map_length, seq_length; auto). apply tri_long. auto. Qed.
Lemma length_sq : forall n, length (sq n) = n * n.
Proof. intros. unfold sq. rewrite length_flat_sum. rewrite (@list_sum_const _ _ n) by (intros; rewrite map_length, seq_length; auto). rewrite seq_length. auto. Qed.
Lemma nth_sq : forall n a b, a < n -> b < n -> nth (a * n + b) (sq n) (0, 0) = (a, b).
Proof.
  intros n a b A B. unfold sq. assert (G : forall m k a, a < m -> nth (a * n + b) (flat_map (fun a => map (fun b => (a, b)) (seq 0 n)) (seq k m)) (0, 0) = (k + a, b)).
  { clear a A. induction m as [|m IH]; intros k a A; [lia|]. cbn [seq flat_map]. destruct a as [|a].
    - rewrite app_nth1 by (rewrite map_length, seq_length; lia). rewrite nth_map_in with (da := 0) by (rewrite seq_length; lia). rewrite seq_nth by lia. f_equal; lia.
    - rewrite app_nth2 by (rewrite map_length, seq_length; nia). rewrite map_length, seq_length. replace (S a * n + b - n) with (a * n + b) by nia. rewrite IH by lia. f_equal; lia. }
  rewrite G by auto. auto.
Qed.
(** ** The matrix of a triangle *)
Notation mstep := (fun (m : nat -> nat -> nat) (p : nat * (nat * nat)) => let '(ii, (ir, ic)) := p in fun r c => if (r =? ir) && (c =? ic) then ii else m r c).
Lemma mtx_notin : forall l k m r c, ~ In (r, c) l -> fold_left mstep (combine (seq k (length l)) l) m r c = m r c.
Proof.
  induction l as [|[x y] l IH]; intros k m r c N; auto. cbn [length seq combine fold_left]. rewrite IH by (intros X; apply N; right; auto).
  destruct (Nat.eqb_spec r x); destruct (Nat.eqb_spec c y); cbn [andb]; auto. subst. exfalso. apply N. left. auto.
Qed.
Lemma mtx_at : forall l k m i, NoDup l -> i < length l -> fold_left mstep (combine (seq k (length l)) l) m (fst (nth i l (0, 0))) (snd (nth i l (0, 0))) = k + i.
Proof.
  induction l as [|[x y] l IH]; intros k m i N I; cbn [length] in *; [lia|]. inversion N; subst. cbn [seq combine fold_left]. destruct i as [|i].
  - cbn [nth fst snd]. rewrite mtx_notin by auto. rewrite !Nat.eqb_refl. cbn [andb]. lia.
  - cbn [nth]. rewrite IH by (auto; lia). lia.
Qed.
Definition pos (n : nat) (p : nat * nat) (i : nat) : Prop := i < length (tp n) /\ nth i (tp n) (0, 0) = p.
Lemma tri_mtx : forall o a b, a + b < o - 2 -> exists i, pos (o - 2) (a, b) i /\ make_triangle_matrix o (o - 2 - 1 - a) b = i.
Proof.
  intros o a b H. set (n := o - 2) in *. apply In_tp, In_nth with (d := (0, 0)) in H. destruct H as (i & I & E). exists i. split; [split; auto|]. unfold make_triangle_matrix. fold n.
  assert (N01 : NoDup (iter01 n)).
  { rewrite iter01_tp. clear. assert (H := NoDup_tp n). assert (B : forall a b, In (a, b) (tp n) -> a + b < n) by (intros; apply In_tp; auto). revert H B. generalize (tp n). intros l N B. induction N as [|[a b] l NI N IH]; cbn [map]; constructor.
    - intros X. apply in_map_iff in X. destruct X as ([x y] & E & X). cbn [fst snd] in E. injection E as E1 E2. assert (P := B a b (or_introl eq_refl)). assert (Q := B x y (or_intror X)). apply NI. replace a with x by lia. subst y. auto.
    - apply IH. intros; apply B; right; auto. }
  assert (L : length (iter01 n) = length (tp n)) by (rewrite iter01_tp, map_length; auto).
  assert (M := @mtx_at (iter01 n) 0 (fun _ _ => 0) i N01 ltac:(lia)). assert (EN : nth i (iter01 n) (0, 0) = (n - 1 - a, b)) by (rewrite iter01_tp; rewrite nth_map_in with (da := (0, 0)) by auto; rewrite E; auto). rewrite EN in M. cbn [fst snd] in M. exact M.
Qed.

(** ** Weights of the nodes of facets *)
Definition fsize (n o : nat) : nat := match n with 2 => o - 1 | 3 => length (tp (o - 2)) | _ => length (sq (o - 1)) end.
Definition fweights (n o i : nat) : list nat :=
  match n with
  | 2 => [o - (i + 1); i + 1]
  | 3 => let '(a, b) := nth i (tp (o - 2)) (0, 0) in [o - (a + 1) - (b + 1); b + 1; a + 1]
  | _ => let '(a, b) := nth i (sq (o - 1)) (0, 0) in let c4 := a + 1 in let c3 := b + 1 in let c2 := o - c4 in let c1 := o - c3 in [c1 * c2; c2 * c3; c3 * c4; c4 * c1]
  end.
(** A quadrilateral from its smallest vertex to the smaller neighbour *)
Definition turn (g : list nat) : list nat := match g with [a; b; c; d] => if b <? d then [a; b; c; d] else [a; d; c; b] | _ => g end.
Definition canon4 (g : list nat) : list nat :=
  match g with
  | [a; b; c; d] => turn (if (a <? b) && (a <? c) && (a <? d) then [a; b; c; d] else if (b <? c) && (b <? d) then [b; c; d; a] else if c <? d then [c; d; a; b] else [d; a; b; c])
  | _ => g
  end.
Definition canon (g : list nat) : list nat := match length g with 4 => canon4 g | _ => sort234 g end.
Lemma fw_len : forall n o i, 2 <= n <= 4 -> length (fweights n o i) = n.
Proof. intros n o i N. destruct n as [|[|[|[|[|]]]]]; try lia; cbn [fweights]; auto; destruct (nth i _ _); auto. Qed.
Lemma fw_inj : forall n o i j, 2 <= n <= 4 -> i < fsize n o -> j < fsize n o -> fweights n o i = fweights n o j -> i = j.
Proof.
  intros n o i j N I J E. destruct n as [|[|[|[|[|]]]]]; try lia; cbn [fweights fsize] in *.
  - injection E as E1 E2. lia.
  - destruct (nth i _ _) as [a b] eqn:Ei, (nth j _ _) as [a' b'] eqn:Ej. injection E as _ E2 E3. apply (proj1 (NoDup_nth _ (0, 0)) (NoDup_tp (o - 2))); auto. rewrite Ei, Ej. f_equal; lia.
  - assert (Ii := nth_In _ (0, 0) I). assert (Ij := nth_In _ (0, 0) J). destruct (nth i _ _) as [a b] eqn:Ei, (nth j _ _) as [a' b'] eqn:Ej. apply In_sq in Ii, Ij. cbv zeta in E. injection E as E1 E2 E3 E4. apply (proj1 (NoDup_nth _ (0, 0)) (NoDup_sq (o - 1))); auto. rewrite Ei, Ej.
    (* c2*c3 + c3*c4 = o*c3 *)
    assert (SP : forall u v, u <= o -> (o - u) * v + v * u = o * v) by (intros u v U; replace o with (u + (o - u)) at 2 by lia; ring).
    assert (H1 := SP (a + 1) (b + 1) ltac:(lia)). assert (H2 := SP (a' + 1) (b' + 1) ltac:(lia)). assert (H3 := SP (b + 1) (a + 1) ltac:(lia)). assert (H4 := SP (b' + 1) (a' + 1) ltac:(lia)).
    rewrite E2, E3 in H1. rewrite (Nat.mul_comm (o - (b + 1))), (Nat.mul_comm (a + 1) (b + 1)), E3, E4 in H3. rewrite (Nat.mul_comm (o - (b' + 1))), (Nat.mul_comm (a' + 1) (b' + 1)) in H4.
    assert (b + 1 = b' + 1) by (apply Nat.mul_cancel_l with (p := o); lia). assert (a + 1 = a' + 1) by (apply Nat.mul_cancel_l with (p := o); lia). f_equal; lia.
Qed.

(** ** The permutations *)
Definition key_of (g : list nat) : nat := match ori_key None g with Some k => k | None => 0 end.
Definition pairs (n o : nat) : list (nat * nat) := match n with 3 => tp (o - 2) | _ => sq (o - 1) end.
Lemma perm_entry : forall o (T : nat * nat -> nat * nat) n (mtx : nat -> nat -> nat) i, i < length (pairs n o) -> nth i (map (fun p => mtx (fst p) (snd p)) (map T (pairs n o))) 0 = mtx (fst (T (nth i (pairs n o) (0, 0)))) (snd (T (nth i (pairs n o) (0, 0)))).
Proof. intros. rewrite map_map. rewrite nth_map_in with (da := (0, 0)) by auto. auto. Qed.
Ltac cmp := repeat match goal with |- context [?x <? ?y] => destruct (Nat.ltb_spec x y); try (exfalso; lia) end.
Definition perm_spec (g : list nat) (o : nat) (perm : list nat) : Prop :=
  length perm = fsize (length g) o /\
  forall i, i < fsize (length g) o -> nth i perm 0 < fsize (length g) o /\
    Permutation (combine (canon g) (fweights (length g) o (nth i perm 0))) (combine g (fweights (length g) o i)).
Lemma line_perm : forall g o, length g = 2 -> NoDup g -> exists perm, facet_dof_permutation 2 o (key_of g) = Some perm /\ perm_spec g o perm.
Proof.
  intros [|a [|b [|]]] o L N; try discriminate. assert (a <> b) by (inversion N as [|? ? X]; subst; intros ->; apply X; left; auto).
  unfold key_of, ori_key. cbn [length]. unfold key2, ltk. cbn [nth]. unfold perm_spec, canon, sort234. cbn [length fsize fweights]. unfold SORT2, cswap. cbn [nth].
  destruct (Nat.ltb_spec a b).
  - replace (b <? a) with false by (symmetry; apply Nat.ltb_ge; lia). cbn [facet_dof_permutation ori_line_to_iter option_map]. eexists. split; [reflexivity|]. unfold iter1. rewrite seq_length. split; auto. intros i I. rewrite seq_nth by auto. split; [auto|]. apply Permutation_refl.
  - replace (b <? a) with true by (symmetry; apply Nat.ltb_lt; lia). cbn [facet_dof_permutation ori_line_to_iter option_map upd]. eexists. split; [reflexivity|]. unfold iter0. rewrite down_map, map_length, seq_length. split; auto. intros i I. rewrite nth_map_in with (da := 0) by (rewrite seq_length; auto). rewrite seq_nth by auto. split; [lia|].
    cbn [combine]. replace (o - (o - 1 - 1 - (0 + i) + 1)) with (i + 1) by lia. replace (o - 1 - 1 - (0 + i) + 1) with (o - (i + 1)) by lia. apply perm_swap.
Qed.

Ltac decide_lt := repeat (match goal with |- context [?x <? ?y] => first [replace (x <? y) with true by (symmetry; apply Nat.ltb_lt; lia) | replace (x <? y) with false by (symmetry; apply Nat.ltb_ge; lia)] end; cbn [upd nth andb]).
Lemma tri_main : forall o (g : list nat) it T (sg : list nat) K S, (forall n, it n = map (T n) (tp n)) -> ori_triangle_to_iter K = Some it ->
  (forall n x y, x + y < n -> T n (x, y) = (n - 1 - fst (S n x y), snd (S n x y)) /\ fst (S n x y) + snd (S n x y) < n) ->
  (forall n x y, n = o - 2 -> x + y < n -> Permutation (combine sg [o - (fst (S n x y) + 1) - (snd (S n x y) + 1); snd (S n x y) + 1; fst (S n x y) + 1]) (combine g [o - (x + 1) - (y + 1); y + 1; x + 1])) ->
  exists perm, facet_dof_permutation 3 o K = Some perm /\ length perm = fsize 3 o /\ forall i, i < fsize 3 o -> nth i perm 0 < fsize 3 o /\ Permutation (combine sg (fweights 3 o (nth i perm 0))) (combine g (fweights 3 o i)).
Proof.
  intros o g it T sg K S IT OK ST PE. unfold facet_dof_permutation. rewrite OK. cbn [option_map]. eexists. split; [reflexivity|]. rewrite IT. split; [rewrite !map_length; auto|]. cbn [fsize]. intros i I.
  rewrite (@perm_entry o (T (o - 2)) 3) by auto. cbn [pairs fweights]. assert (In_i := nth_In _ (0, 0) I). destruct (nth i (tp (o - 2)) (0, 0)) as [x y] eqn:Ei. apply In_tp in In_i. destruct (ST (o - 2) x y In_i) as [S1 S2]. rewrite S1. cbn [fst snd].
  destruct (@tri_mtx o (fst (S (o - 2) x y)) (snd (S (o - 2) x y)) S2) as (j & [J1 J2] & J3). rewrite J3. split; [auto|]. rewrite J2. destruct (S (o - 2) x y) as [u w] eqn:Es. specialize (PE (o - 2) x y eq_refl In_i). rewrite Es in PE. exact PE.
Qed.
Lemma perm3_120 : forall A (x y z : A), Permutation [y; z; x] [x; y; z].
Proof. intros. apply Permutation_sym. apply (Permutation_cons_append [y; z] x). Qed.
Lemma perm3_201 : forall A (x y z : A), Permutation [z; x; y] [x; y; z].
Proof. intros. apply (Permutation_cons_append [x; y] z). Qed.
Lemma perm3_210 : forall A (x y z : A), Permutation [z; y; x] [x; y; z].
Proof. intros. eapply perm_trans; [apply perm_swap|]. apply perm3_120. Qed.
Lemma tri_perm : forall g o, length g = 3 -> NoDup g -> exists perm, facet_dof_permutation 3 o (key_of g) = Some perm /\ perm_spec g o perm.
Proof.
  intros [|a [|b [|c [|]]]] o L N; try discriminate.
  assert (AB : a <> b) by (intros ->; inversion N as [|? ? X]; apply X; left; auto). assert (AC : a <> c) by (intros ->; inversion N as [|? ? X]; apply X; right; left; auto). assert (BC : b <> c) by (intros ->; inversion N as [|? ? X Y]; inversion Y as [|? ? Z]; apply Z; left; auto).
  unfold key_of, ori_key. cbn [length]. unfold key3, ltk. cbn [nth]. unfold perm_spec, canon, sort234. cbn [length]. unfold SORT3, cswap. cbn [nth]. clear L N.
  destruct (Nat.ltb_spec a b), (Nat.ltb_spec a c), (Nat.ltb_spec b c); try (exfalso; lia); cbn [plus]; decide_lt.
  - refine (@tri_main o [a; b; c] iter01 _ [a; b; c] 7 (fun n x y => (x, y)) iter01_tp eq_refl _ _); intros; cbn [fst snd combine]; [split; [f_equal|]; lia|apply Permutation_refl].
  - refine (@tri_main o [a; b; c] iter02 _ [a; c; b] 3 (fun n x y => (y, x)) iter02_tp eq_refl _ _); intros; cbn [fst snd combine]; [split; [f_equal|]; lia|]. replace (o - (y + 1) - (x + 1)) with (o - (x + 1) - (y + 1)) by lia. apply perm_skip, perm_swap.
  - refine (@tri_main o [a; b; c] iter12 _ [c; a; b] 1 (fun n x y => (y, n - 1 - x - y)) iter12_tp eq_refl _ _); intros; cbn [fst snd combine]; [split; [f_equal|]; lia|]. subst n. replace (o - (y + 1) - (o - 2 - 1 - x - y + 1)) with (x + 1) by lia. replace (o - 2 - 1 - x - y + 1) with (o - (x + 1) - (y + 1)) by lia. apply perm3_201.
  - refine (@tri_main o [a; b; c] iter10 _ [b; a; c] 6 (fun n x y => (x, n - 1 - x - y)) iter10_tp eq_refl _ _); intros; cbn [fst snd combine]; [split; [f_equal|]; lia|]. subst n. replace (o - (x + 1) - (o - 2 - 1 - x - y + 1)) with (y + 1) by lia. replace (o - 2 - 1 - x - y + 1) with (o - (x + 1) - (y + 1)) by lia. apply perm_swap.
  - refine (@tri_main o [a; b; c] iter20 _ [b; c; a] 4 (fun n x y => (n - 1 - x - y, x)) iter20_tp eq_refl _ _); intros; cbn [fst snd combine]; [split; [f_equal|]; lia|]. subst n. replace (o - (o - 2 - 1 - x - y + 1) - (x + 1)) with (y + 1) by lia. replace (o - 2 - 1 - x - y + 1) with (o - (x + 1) - (y + 1)) by lia. apply perm3_120.
  - refine (@tri_main o [a; b; c] iter21 _ [c; b; a] 0 (fun n x y => (n - 1 - x - y, y)) iter21_tp eq_refl _ _); intros; cbn [fst snd combine]; [split; [f_equal|]; lia|]. subst n. replace (o - (o - 2 - 1 - x - y + 1) - (y + 1)) with (x + 1) by lia. replace (o - 2 - 1 - x - y + 1) with (o - (x + 1) - (y + 1)) by lia. apply perm3_210.
Qed.
Lemma quad_main : forall o (g : list nat) it T (sg : list nat) K v, (forall n, it n = map (T n) (sq n)) -> quad_ori_groups K = Some v -> ori_square_to_iter v = Some it ->
  (forall n x y, x < n -> y < n -> fst (T n (x, y)) < n /\ snd (T n (x, y)) < n) ->
  (forall n x y, n = o - 1 -> x < n -> y < n -> forall a b, T n (x, y) = (a, b) ->
     Permutation (combine sg [(o - (b + 1)) * (o - (a + 1)); (o - (a + 1)) * (b + 1); (b + 1) * (a + 1); (a + 1) * (o - (b + 1))]) (combine g [(o - (y + 1)) * (o - (x + 1)); (o - (x + 1)) * (y + 1); (y + 1) * (x + 1); (x + 1) * (o - (y + 1))])) ->
  exists perm, facet_dof_permutation 4 o K = Some perm /\ length perm = fsize 4 o /\ forall i, i < fsize 4 o -> nth i perm 0 < fsize 4 o /\ Permutation (combine sg (fweights 4 o (nth i perm 0))) (combine g (fweights 4 o i)).
Proof.
  intros o g it T sg K v IT QK OK ST PE. unfold facet_dof_permutation. rewrite QK, OK. cbn [option_map]. eexists. split; [reflexivity|]. rewrite IT. split; [rewrite !map_length; auto|]. cbn [fsize]. intros i I.
  rewrite (@perm_entry o (T (o - 1)) 4) by auto. cbn [pairs fweights]. assert (In_i := nth_In _ (0, 0) I). destruct (nth i (sq (o - 1)) (0, 0)) as [x y] eqn:Ei. apply In_sq in In_i. destruct In_i as [X Y]. destruct (ST (o - 1) x y X Y) as [S1 S2]. destruct (T (o - 1) (x, y)) as [a b] eqn:Et. cbn [fst snd] in *. unfold make_square_matrix.
  rewrite nth_sq by auto. split; [rewrite length_sq; nia|]. apply (PE (o - 1) x y); auto.
Qed.
Lemma perm4_dih : forall A (x y z w : A), Permutation [x; w; z; y] [x; y; z; w] /\ Permutation [y; z; w; x] [x; y; z; w] /\ Permutation [z; w; x; y] [x; y; z; w] /\ Permutation [w; x; y; z] [x; y; z; w] /\ Permutation [y; x; w; z] [x; y; z; w] /\ Permutation [z; y; x; w] [x; y; z; w] /\ Permutation [w; z; y; x] [x; y; z; w].
Proof.
  intros. assert (R1 : Permutation [y; z; w; x] [x; y; z; w]) by (apply Permutation_sym, (Permutation_cons_append [y; z; w] x)). assert (R3 : Permutation [w; x; y; z] [x; y; z; w]) by (apply (Permutation_cons_append [x; y; z] w)). assert (R2 : Permutation [z; w; x; y] [x; y; z; w]) by (apply (Permutation_app_comm [z; w] [x; y])).
  repeat split; auto.
  - apply perm_skip. apply perm3_210.
  - eapply perm_trans; [apply perm_swap|]. do 2 apply perm_skip. apply perm_swap.
  - eapply perm_trans; [apply (Permutation_app_tail [w] (perm3_210 x y z))|]. apply Permutation_refl.
  - apply Permutation_sym, (Permutation_rev [x; y; z; w]).
Qed.
Ltac dih := first [apply Permutation_refl | apply perm4_dih].

Lemma iter01y01x_sq : forall n, iter01y01x n = map (fun p => (snd p, fst p)) (sq n).
Proof. intros. unfold iter01y01x. rewrite iter01x01y_sq. auto. Qed.
Lemma iter10y01x_sq : forall n, iter10y01x n = map (fun p => (snd p, n - 1 - fst p)) (sq n).
Proof. intros. unfold iter10y01x. rewrite iter10x01y_sq, map_map. auto. Qed.
Lemma iter01y10x_sq : forall n, iter01y10x n = map (fun p => (n - 1 - snd p, fst p)) (sq n).
Proof. intros. unfold iter01y10x. rewrite iter01x10y_sq, map_map. auto. Qed.
Lemma iter10y10x_sq : forall n, iter10y10x n = map (fun p => (n - 1 - snd p, n - 1 - fst p)) (sq n).
Proof. intros. unfold iter10y10x. rewrite iter10x10y_sq, map_map. auto. Qed.
Lemma iter01x01y_id : forall n, iter01x01y n = map (fun p => (fst p, snd p)) (sq n).
Proof. intros. rewrite iter01x01y_sq. rewrite <- map_id at 1. apply map_ext. intros [? ?]; auto. Qed.
Ltac qside := intros; cbn [fst snd] in *; try lia;
  match goal with E : (_, _) = (_, _), X : ?x < ?n, Y : ?y < ?n, EN : ?n = ?o - 1 |- _ => injection E as <- <-; subst n; cbn [combine];
  replace (o - 1 - 1 - x + 1) with (o - (x + 1)) by lia; replace (o - 1 - 1 - y + 1) with (o - (y + 1)) by lia;
  replace (o - (o - (x + 1))) with (x + 1) by lia; replace (o - (o - (y + 1))) with (y + 1) by lia;
  let u := fresh "u" in let v := fresh "v" in let p := fresh "p" in let q := fresh "q" in
  generalize (o - (y + 1)) (o - (x + 1)); intros u v; generalize (x + 1) (y + 1); intros p q; 
  rewrite ?(Nat.mul_comm v u), ?(Nat.mul_comm q v), ?(Nat.mul_comm p q), ?(Nat.mul_comm u p) end.
Lemma quad_perm : forall g o, length g = 4 -> NoDup g -> exists perm, facet_dof_permutation 4 o (key_of g) = Some perm /\ perm_spec g o perm.
Proof.
  intros [|a [|b [|c [|d [|]]]]] o L N; try discriminate.
  assert (D : a <> b /\ a <> c /\ a <> d /\ b <> c /\ b <> d /\ c <> d).
  { inversion N as [|? ? X N1]; subst. inversion N1 as [|? ? Y N2]; subst. inversion N2 as [|? ? Z N3]; subst. cbn [In] in *. repeat split; intros E; subst; tauto. }
  destruct D as (AB & AC & AD & BC & BD & CD).
  unfold key_of, ori_key. cbn [length]. unfold key4, ltk. cbn [nth]. unfold perm_spec, canon, canon4. cbn [length]. clear L N.
  destruct (Nat.ltb_spec a b), (Nat.ltb_spec a c), (Nat.ltb_spec b c), (Nat.ltb_spec a d), (Nat.ltb_spec b d), (Nat.ltb_spec c d); try (exfalso; lia); cbn [andb turn plus]; decide_lt.
  Ltac qc := match goal with |- exists perm, facet_dof_permutation 4 ?o ?K = Some perm /\ _ => first [
    refine (@quad_main o _ _ _ _ K _ iter01x01y_id eq_refl eq_refl _ _); [qside|qside; dih]
  | refine (@quad_main o _ _ _ _ K _ iter10x01y_sq eq_refl eq_refl _ _); [qside|qside; dih]
  | refine (@quad_main o _ _ _ _ K _ iter10y01x_sq eq_refl eq_refl _ _); [qside|qside; dih]
  | refine (@quad_main o _ _ _ _ K _ iter01y01x_sq eq_refl eq_refl _ _); [qside|qside; dih]
  | refine (@quad_main o _ _ _ _ K _ iter01x10y_sq eq_refl eq_refl _ _); [qside|qside; dih]
  | refine (@quad_main o _ _ _ _ K _ iter10x10y_sq eq_refl eq_refl _ _); [qside|qside; dih]
  | refine (@quad_main o _ _ _ _ K _ iter01y10x_sq eq_refl eq_refl _ _); [qside|qside; dih]
  | refine (@quad_main o _ _ _ _ K _ iter10y10x_sq eq_refl eq_refl _ _); [qside|qside; dih]] end.
  all: time qc.
Qed.
Lemma facet_perm_ok : forall g o, 2 <= length g <= 4 -> NoDup g -> exists perm, facet_dof_permutation (length g) o (key_of g) = Some perm /\ perm_spec g o perm.
Proof.
  intros g o L N. assert (length g = 2 \/ length g = 3 \/ length g = 4) as [E|[E|E]] by lia; rewrite E; [apply line_perm|apply tri_perm|apply quad_perm]; auto.
Qed.
