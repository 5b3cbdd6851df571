(** The hat functions of the triangulated integer grid: the weight of a vertex in a
    point depends only on the difference of the two, not on the simplex. *)
From Coq Require Import QArith Lqa.
From Verif Require Import Base M_block L_block P_block.
Set Implicit Arguments.
Open Scope nat_scope.

Definition is_max (p d1 d2 d3 : Q) : Prop :=
  (0 <= p /\ d1 <= p /\ d2 <= p /\ d3 <= p /\ (p == 0 \/ p == d1 \/ p == d2 \/ p == d3))%Q.
Definition is_hat (d1 d2 d3 h : Q) : Prop :=
  exists p n, is_max p d1 d2 d3 /\ is_max n (- d1) (- d2) (- d3) /\
    ((h == 1 - p - n /\ 0 <= h) \/ (h == 0 /\ 1 - p - n <= 0))%Q.
Lemma is_max_unique : forall p q d1 d2 d3, is_max p d1 d2 d3 -> is_max q d1 d2 d3 -> (p == q)%Q.
Proof.
  intros p q d1 d2 d3 (A1 & A2 & A3 & A4 & A5) (B1 & B2 & B3 & B4 & B5).
  destruct A5 as [A5|[A5|[A5|A5]]]; destruct B5 as [B5|[B5|[B5|B5]]]; lra.
Qed.
Lemma is_hat_unique : forall d1 d2 d3 h h', is_hat d1 d2 d3 h -> is_hat d1 d2 d3 h' -> (h == h')%Q.
Proof.
  intros d1 d2 d3 h h' (p & n & A & B & C) (p' & n' & A' & B' & C'). assert (P := is_max_unique A A'). assert (N := is_max_unique B B').
  destruct C as [[C1 C2]|[C1 C2]]; destruct C' as [[D1 D2]|[D1 D2]]; lra.
Qed.
Lemma max_exists : forall d1 d2 d3, exists p, is_max p d1 d2 d3.
Proof.
  intros d1 d2 d3. unfold is_max.
  assert (A : exists p, (0 <= p /\ d1 <= p /\ (p == 0 \/ p == d1))%Q) by (destruct (Qlt_le_dec d1 0); [exists 0%Q|exists d1]; repeat split; try lra).
  destruct A as (p & A1 & A2 & A3).
  assert (B : exists q, (p <= q /\ d2 <= q /\ (q == p \/ q == d2))%Q) by (destruct (Qlt_le_dec d2 p); [exists p|exists d2]; repeat split; try lra).
  destruct B as (q & B1 & B2 & B3).
  assert (C : exists r, (q <= r /\ d3 <= r /\ (r == q \/ r == d3))%Q) by (destruct (Qlt_le_dec d3 q); [exists q|exists d3]; repeat split; try lra).
  destruct C as (r & C1 & C2 & C3). exists r. split; [lra|]. split; [lra|]. split; [lra|]. split; [lra|].
  destruct C3 as [C3|C3]; [|lra]. destruct B3 as [B3|B3]; [|lra]. destruct A3 as [A3|A3]; lra.
Qed.
Lemma hat_zero : forall d1 d2 d3, (forall p n, is_max p d1 d2 d3 -> is_max n (- d1) (- d2) (- d3) -> (1 <= p + n)%Q) -> is_hat d1 d2 d3 0.
Proof.
  intros d1 d2 d3 H. destruct (max_exists d1 d2 d3) as (p & P). destruct (max_exists (- d1) (- d2) (- d3)) as (n & N). exists p, n.
  split; auto. split; auto. right. specialize (H p n P N). split; lra.
Qed.
(** Positions of a vertex coordinate relative to a cell. *)
Lemma coord_cases : forall i i', i' = i \/ i' = S i \/ (i' <> i /\ i' <> S i /\ (i' < i \/ S i < i')).
Proof. intros. lia. Qed.
Definition eqt (a b : list nat) : bool := if list_eq_dec Nat.eq_dec a b then true else false.
Definition pickw (b : bool) (l : Q) : Q := if b then l else 0%Q.
Definition bq (b : bool) : Q := if b then 1%Q else 0%Q.

Ltac is_max_tac := unfold is_max; repeat split; try lra.
Ltac hat_try p n := exists p, n; split; [is_max_tac|split; [is_max_tac|left; split; lra]].

(** Out of the cell: the hat function is zero. *)
Lemma hat_out : forall z1 z2 z3 d1 d2 d3, (0 <= z1 <= 1)%Q -> (0 <= z2 <= 1)%Q -> (0 <= z3 <= 1)%Q ->
  forall i1 i2 i3 v1 v2 v3,
  (d1 == q_of i1 + z1 - q_of v1)%Q -> (d2 == q_of i2 + z2 - q_of v2)%Q -> (d3 == q_of i3 + z3 - q_of v3)%Q ->
  (v1 < i1 \/ S i1 < v1 \/ v2 < i2 \/ S i2 < v2 \/ v3 < i3 \/ S i3 < v3) -> is_hat d1 d2 d3 0.
Proof.
  intros z1 z2 z3 d1 d2 d3 Z1 Z2 Z3 i1 i2 i3 v1 v2 v3 E1 E2 E3 H. apply hat_zero. intros p n (P0 & P1 & P2 & P3 & _) (N0 & N1 & N2 & N3 & _).
  assert (LO : forall v i, v < i -> (q_of v + 1 <= q_of i)%Q) by (intros v i L; rewrite <- q_of_S; apply q_of_le; lia).
  assert (HI : forall v i, S i < v -> (q_of i + 2 <= q_of v)%Q) by (intros v i L; assert (X := q_of_le (L : S (S i) <= v)); rewrite !q_of_S in X; lra).
  destruct H as [H|[H|[H|[H|[H|H]]]]]; [apply LO in H|apply HI in H|apply LO in H|apply HI in H|apply LO in H|apply HI in H]; lra.
Qed.

Lemma eqt_false : forall a b, a <> b -> eqt a b = false.
Proof. intros a b H. unfold eqt. destruct (list_eq_dec Nat.eq_dec a b); tauto. Qed.
Lemma eqt_addb : forall i j k a b c a' b' c', eqt (addb [i; j; k] [a; b; c]) [i + b2n a'; j + b2n b'; k + b2n c'] = Bool.eqb a a' && Bool.eqb b b' && Bool.eqb c c'.
Proof.
  intros. unfold eqt. destruct (list_eq_dec Nat.eq_dec _ _) as [E|E].
  - cbn [addb] in E. injection E as E1 E2 E3. destruct a, a', b, b', c, c'; cbn [b2n] in *; try lia; reflexivity.
  - destruct a, a', b, b', c, c'; cbn [b2n addb] in *; try reflexivity; tauto.
Qed.
Lemma eqt_out : forall i j k i' j' k' a b c, (i' < i \/ S i < i' \/ j' < j \/ S j < j' \/ k' < k \/ S k < k') ->
  eqt (addb [i; j; k] [a; b; c]) [i'; j'; k'] = false.
Proof. intros. apply eqt_false. intros E. cbn [addb] in E. injection E as E1 E2 E3. destruct a, b, c; cbn [b2n] in *; lia. Qed.
Lemma q_of_b : forall i b, (q_of (i + b2n b) == q_of i + bq b)%Q.
Proof. intros i [|]; cbn [b2n bq]; [rewrite Nat.add_1_r; apply q_of_S|rewrite Nat.add_0_r; ring]. Qed.

(** Four vertices of the unit cube with the weights [l0 .. l3]. *)
Definition bit (bs : list bool) (a : nat) : Q := bq (nth a bs false).
Definition cz (l0 l1 l2 l3 : Q) (B : list (list bool)) (a : nat) : Q :=
  (l0 * bit (nth 0 B []) a + (l1 * bit (nth 1 B []) a + (l2 * bit (nth 2 B []) a + (l3 * bit (nth 3 B []) a + 0))))%Q.
Definition wt (l0 l1 l2 l3 : Q) (t t' : list nat) (B : list (list bool)) : Q :=
  (pickw (eqt (addb t (nth 0 B [])) t') l0 + (pickw (eqt (addb t (nth 1 B [])) t') l1 +
  (pickw (eqt (addb t (nth 2 B [])) t') l2 + (pickw (eqt (addb t (nth 3 B [])) t') l3 + 0))))%Q.
Definition tets_bits : list (list (list bool)) := map (map (fun v => nth v (columns 3) [])) (q2t 8).
Ltac hats d1 d2 d3 := first
  [ hat_try 0%Q 0%Q | hat_try 0%Q (- d1)%Q | hat_try 0%Q (- d2)%Q | hat_try 0%Q (- d3)%Q
  | hat_try d1 0%Q | hat_try d1 (- d2)%Q | hat_try d1 (- d3)%Q
  | hat_try d2 0%Q | hat_try d2 (- d1)%Q | hat_try d2 (- d3)%Q
  | hat_try d3 0%Q | hat_try d3 (- d1)%Q | hat_try d3 (- d2)%Q ].
Lemma is_hat_Qeq : forall d1 d2 d3 h h', (h == h')%Q -> is_hat d1 d2 d3 h -> is_hat d1 d2 d3 h'.
Proof. intros d1 d2 d3 h h' E (p & n & A & B & C). exists p, n. split; auto. split; auto. destruct C as [[C1 C2]|[C1 C2]]; [left|right]; split; lra. Qed.
Lemma tet_hat : forall i j k i' j' k' l0 l1 l2 l3 d1 d2 d3 B,
  (0 <= l0)%Q -> (0 <= l1)%Q -> (0 <= l2)%Q -> (0 <= l3)%Q -> (l0 + (l1 + (l2 + (l3 + 0))) == 1)%Q -> In B tets_bits ->
  (d1 == q_of i + cz l0 l1 l2 l3 B 0 - q_of i')%Q -> (d2 == q_of j + cz l0 l1 l2 l3 B 1 - q_of j')%Q -> (d3 == q_of k + cz l0 l1 l2 l3 B 2 - q_of k')%Q ->
  is_hat d1 d2 d3 (wt l0 l1 l2 l3 [i; j; k] [i'; j'; k'] B).
Proof.
  intros i j k i' j' k' l0 l1 l2 l3 d1 d2 d3 B H0 H1 H2 H3 HS HB E1 E2 E3.
  assert (O : (i' < i \/ S i < i' \/ j' < j \/ S j < j' \/ k' < k \/ S k < k') \/ exists a b c, i' = i + b2n a /\ j' = j + b2n b /\ k' = k + b2n c).
  { assert (X : forall x x', (x' < x \/ S x < x') \/ exists b, x' = x + b2n b).
    { intros x x'. destruct (coord_cases x x') as [C|[C|C]]; [right; exists false; cbn; lia|right; exists true; cbn; lia|left; lia]. }
    destruct (X i i') as [?|[a A]]; [left; lia|]. destruct (X j j') as [?|[b B']]; [left; lia|]. destruct (X k k') as [?|[c C]]; [left; lia|].
    right. exists a, b, c. auto. }
  destruct O as [O|(a & b & c & -> & -> & ->)].
  - assert (B01 : forall a, (0 <= cz l0 l1 l2 l3 B a <= 1)%Q).
    { intros a. unfold cz, bit, bq. destruct (nth a (nth 0 B []) false), (nth a (nth 1 B []) false), (nth a (nth 2 B []) false), (nth a (nth 3 B []) false); lra. }
    eapply is_hat_Qeq; [|eapply hat_out; [apply (B01 0)|apply (B01 1)|apply (B01 2)|apply E1|apply E2|apply E3|auto]].
    unfold wt. cbn in HB. repeat (destruct HB as [<-|HB]; [cbn [nth]; rewrite !eqt_out by auto; cbn [pickw]; lra|]). destruct HB.
  - rewrite q_of_b in E1, E2, E3. unfold cz, bit in E1, E2, E3. unfold wt. cbn in HB.
    repeat (destruct HB as [<-|HB]; [cbn [nth] in *; rewrite !eqt_addb; destruct a, b, c; cbn [bq] in E1, E2, E3; cbn [Bool.eqb andb pickw];
      first [hats d1 d2 d3 | (apply is_hat_Qeq with (h := 0%Q); [lra|]); apply hat_zero; intros p n (P0 & P1 & P2 & P3 & _) (N0 & N1 & N2 & N3 & _); lra]|]).
    destruct HB.
Qed.

(** The two triangles of the unit square. *)
Definition tris_bits : list (list (list bool)) := map (map (fun v => nth v (columns 2) [])) (q2t 4).
Lemma eqt_addb2 : forall i j a b a' b', eqt (addb [i; j] [a; b]) [i + b2n a'; j + b2n b'] = Bool.eqb a a' && Bool.eqb b b'.
Proof.
  intros. unfold eqt. destruct (list_eq_dec Nat.eq_dec _ _) as [E|E].
  - cbn [addb] in E. injection E as E1 E2. destruct a, a', b, b'; cbn [b2n] in *; try lia; reflexivity.
  - destruct a, a', b, b'; cbn [b2n addb] in *; try reflexivity; tauto.
Qed.
Lemma eqt_out2 : forall i j i' j' a b, (i' < i \/ S i < i' \/ j' < j \/ S j < j') -> eqt (addb [i; j] [a; b]) [i'; j'] = false.
Proof. intros. apply eqt_false. intros E. cbn [addb] in E. injection E as E1 E2. destruct a, b; cbn [b2n] in *; lia. Qed.

Definition qsum (l : list Q) : Q := fold_right Qplus 0%Q l.
Definition czl (B : list (list bool)) (lam : list Q) (a : nat) : Q := qsum (map (fun p => snd p * bit (fst p) a)%Q (combine B lam)).
Definition wtl (t t' : list nat) (B : list (list bool)) (lam : list Q) : Q := qsum (map (fun p => pickw (eqt (addb t (fst p)) t') (snd p)) (combine B lam)).
Lemma tet_hat_l : forall i j k i' j' k' lam d1 d2 d3 B, length lam = 4 -> Forall (Qle 0) lam -> (qsum lam == 1)%Q -> In B tets_bits ->
  (d1 == q_of i + czl B lam 0 - q_of i')%Q -> (d2 == q_of j + czl B lam 1 - q_of j')%Q -> (d3 == q_of k + czl B lam 2 - q_of k')%Q ->
  is_hat d1 d2 d3 (wtl [i; j; k] [i'; j'; k'] B lam).
Proof.
  intros i j k i' j' k' [|l0 [|l1 [|l2 [|l3 [|l4 l]]]]] d1 d2 d3 B L P S1 HB E1 E2 E3; cbn [length] in L; try lia.
  rewrite Forall_forall in P. assert (P0 := P l0). assert (P1 := P l1). assert (P2 := P l2). assert (P3 := P l3). cbn [In] in *.
  assert (X : wtl [i; j; k] [i'; j'; k'] B [l0; l1; l2; l3] = wt l0 l1 l2 l3 [i; j; k] [i'; j'; k'] B).
  { cbn in HB. repeat (destruct HB as [<-|HB]; [reflexivity|]). destruct HB. }
  rewrite X. assert (Y : forall a, czl B [l0; l1; l2; l3] a = cz l0 l1 l2 l3 B a).
  { intros a. cbn in HB. repeat (destruct HB as [<-|HB]; [reflexivity|]). destruct HB. }
  rewrite Y in E1, E2, E3. apply tet_hat; first [exact S1 | auto 10].
Qed.
Lemma tri_hat_l : forall i j i' j' lam d1 d2 B, length lam = 3 -> Forall (Qle 0) lam -> (qsum lam == 1)%Q -> In B tris_bits ->
  (d1 == q_of i + czl B lam 0 - q_of i')%Q -> (d2 == q_of j + czl B lam 1 - q_of j')%Q ->
  is_hat d1 d2 0 (wtl [i; j] [i'; j'] B lam).
Proof.
  intros i j i' j' [|l0 [|l1 [|l2 [|l4 l]]]] d1 d2 B L P S1 HB E1 E2; cbn [length] in L; try lia.
  rewrite Forall_forall in P. assert (P0 := P l0). assert (P1 := P l1). assert (P2 := P l2). cbn [In] in *.
  specialize (P0 ltac:(auto)). specialize (P1 ltac:(auto)). specialize (P2 ltac:(auto)). unfold qsum in S1. cbn [fold_right] in S1. clear P L.
  assert (O : (i' < i \/ S i < i' \/ j' < j \/ S j < j') \/ exists a b, i' = i + b2n a /\ j' = j + b2n b).
  { assert (X : forall x x', (x' < x \/ S x < x') \/ exists b, x' = x + b2n b).
    { intros x x'. destruct (coord_cases x x') as [C|[C|C]]; [right; exists false; cbn; lia|right; exists true; cbn; lia|left; lia]. }
    destruct (X i i') as [?|[a A]]; [left; lia|]. destruct (X j j') as [?|[b B']]; [left; lia|]. right. exists a, b. auto. }
  destruct O as [O|(a & b & -> & ->)].
  - assert (B01 : forall a, (0 <= czl B [l0; l1; l2] a <= 1)%Q).
    { intros a. cbn in HB. repeat (destruct HB as [<-|HB]; [unfold czl, qsum, bit, bq; cbn [combine map fst snd fold_right]; destruct a as [|[|a]]; cbn [nth]; try (destruct a; cbn [nth]); lra|]). destruct HB. }
    eapply is_hat_Qeq; [|apply (@hat_out _ _ 0 d1 d2 0 (B01 0) (B01 1) ltac:(lra) i j 0 i' j' 0 E1 E2); [lra|lia]].
    unfold wtl. cbn in HB. repeat (destruct HB as [<-|HB]; [cbn [combine map fst snd]; rewrite !eqt_out2 by auto; unfold qsum; cbn [pickw fold_right]; lra|]). destruct HB.
  - rewrite q_of_b in E1, E2. unfold czl, qsum, bit in E1, E2. unfold wtl, qsum. cbn in HB.
    repeat (destruct HB as [<-|HB]; [cbn [combine map fst snd nth fold_right] in *; rewrite !eqt_addb2; destruct a, b; cbn [bq] in E1, E2; cbn [Bool.eqb andb pickw];
      first [hats d1 d2 0%Q | (apply is_hat_Qeq with (h := 0%Q); [lra|]); apply hat_zero; intros p n (Q0 & Q1 & Q2 & Q3 & _) (N0 & N1 & N2 & N3 & _); lra]|]).
    destruct HB.
Qed.
