(** The DOF connectivity of a nodal field: the same DOF iff the same point. *)
From Coq Require Import Permutation Sorted.
From Verif Require Import Base M_dofs M_mesh M_lagnodes L_mesh L_build P_mesh P_lagnodes M_facet L_facet L_econn S_econn P_facets.
Set Implicit Arguments.
Open Scope nat_scope.

(** ** gw *)
Lemma gw_cons : forall a vs w ws v, gw (a :: vs) (w :: ws) v = (if a =? v then w else 0) + gw vs ws v.
Proof. reflexivity. Qed.
Lemma gw_perm : forall vs ws vs' ws', Permutation (combine vs ws) (combine vs' ws') -> forall v, gw vs ws v = gw vs' ws' v.
Proof.
  intros vs ws vs' ws' P v. unfold gw. induction P; auto; cbn [map].
  - change (list_sum (?a :: ?l)) with (a + list_sum l). auto.
  - unfold list_sum. cbn [fold_right]. lia.
  - congruence.
Qed.
Lemma gw_notin : forall vs ws v, ~ In v vs -> gw vs ws v = 0.
Proof.
  induction vs as [|a vs IH]; intros ws v H; [reflexivity|]. destruct ws as [|w ws]; [reflexivity|]. rewrite gw_cons, IH by (intros X; apply H; right; auto). destruct (Nat.eqb_spec a v); auto. exfalso. apply H. left. auto.
Qed.
Lemma gw_nth : forall vs ws i, NoDup vs -> i < length vs -> length ws = length vs -> gw vs ws (nth i vs 0) = nth i ws 0.
Proof.
  induction vs as [|a vs IH]; intros ws i N I L; cbn [length] in *; [lia|]. destruct ws as [|w ws]; [discriminate|]. inversion N; subst. rewrite gw_cons. destruct i as [|i]; cbn [nth].
  - rewrite Nat.eqb_refl, gw_notin by auto. lia.
  - destruct (Nat.eqb_spec a (nth i vs 0)) as [E|E]; [exfalso; match goal with H : ~ In _ _ |- _ => apply H; rewrite E; apply nth_In; lia end|]. apply IH; auto; lia.
Qed.
Lemma gw_support : forall vs ws v, NoDup vs -> length ws = length vs -> (forall w, In w ws -> 0 < w) -> (0 < gw vs ws v <-> In v vs).
Proof.
  intros vs ws v N L P. split.
  - intros H. destruct (in_dec Nat.eq_dec v vs) as [I|I]; auto. rewrite gw_notin in H by auto. lia.
  - intros I. apply In_nth with (d := 0) in I. destruct I as (i & I & <-). rewrite gw_nth by auto. apply P, nth_In. lia.
Qed.
Lemma gw_inj : forall vs ws ws', NoDup vs -> length ws = length vs -> length ws' = length vs -> (forall v, gw vs ws v = gw vs ws' v) -> ws = ws'.
Proof. intros vs ws ws' N L L' H. apply list_ext with (d := 0); [lia|]. intros i I. rewrite <- (@gw_nth vs ws), <- (@gw_nth vs ws') by (auto; lia). auto. Qed.
Lemma gw_map : forall f vs ws v, (forall x y, In x vs -> In y vs -> f x = f y -> x = y) -> In v vs -> gw (map f vs) ws (f v) = gw vs ws v.
Proof.
  intros f vs ws v. revert vs ws.
  assert (G : forall vs ws, (forall x, In x vs -> f x = f v -> x = v) -> gw (map f vs) ws (f v) = gw vs ws v).
  { induction vs as [|a vs IH]; intros ws H; auto. destruct ws as [|w ws]; auto. cbn [map]. rewrite !gw_cons, IH by (intros; apply H; auto; right; auto). f_equal. destruct (Nat.eqb_spec (f a) (f v)) as [E|E].
    - apply H in E; [|left; auto]. rewrite E, Nat.eqb_refl. auto.
    - destruct (Nat.eqb_spec a v); auto. subst. congruence. }
  intros vs ws H I. apply G. intros x X E. apply H; auto.
Qed.
(** scattering to a cell *)
Lemma gw_scatter : forall cell ref ws s, NoDup cell -> (forall i, In i ref -> i < length cell) -> forall v,
  gw cell (map (fun x => s * gw ref ws x) (seq 0 (length cell))) v = s * gw (fverts cell ref) ws v.
Proof.
  intros cell ref ws s N H v. destruct (in_dec Nat.eq_dec v cell) as [I|I].
  - apply In_nth with (d := 0) in I. destruct I as (i & I & <-). rewrite gw_nth by (auto; rewrite map_length, seq_length; auto). rewrite nth_map_in with (da := 0) by (rewrite seq_length; auto). rewrite seq_nth by auto. f_equal. cbn [plus].
    assert (INJ : forall x y, x < length cell -> y < length cell -> nth x cell 0 = nth y cell 0 -> x = y) by (apply (proj1 (NoDup_nth cell 0) N)).
    destruct (in_dec Nat.eq_dec i ref) as [R|R].
    + symmetry. apply (@gw_map (fun i => nth i cell 0)); auto.
    + rewrite gw_notin by auto. symmetry. apply gw_notin. intros X. apply in_map_iff in X. destruct X as (j & E & J). apply INJ in E; auto. congruence.
  - rewrite gw_notin by auto. rewrite gw_notin; [lia|]. intros X. apply in_map_iff in X. destruct X as (j & E & J). apply I. rewrite <- E. apply nth_In. auto.
Qed.
(** ** facets *)
Lemma fw_pos : forall n o i, 2 <= n <= 4 -> i < fsize n o -> forall w, In w (fweights n o i) -> 0 < w.
Proof.
  intros n o i N I w W. destruct n as [|[|[|[|[|]]]]]; try lia; cbn [fweights fsize] in *.
  - destruct W as [<-|[<-|[]]]; lia.
  - assert (P := nth_In _ (0, 0) I). destruct (nth i _ _) as [a b]. apply In_tp in P. destruct W as [<-|[<-|[<-|[]]]]; lia.
  - assert (P := nth_In _ (0, 0) I). destruct (nth i _ _) as [a b]. apply In_sq in P. cbv zeta in W. destruct W as [<-|[<-|[<-|[<-|[]]]]]; apply Nat.mul_pos_pos; lia.
Qed.
Lemma canon4_perm : forall g, Permutation (canon4 g) g.
Proof.
  intros [|a [|b [|c [|d [|]]]]]; cbn [canon4]; auto.
  assert (T : forall a b c d, Permutation (turn [a; b; c; d]) [a; b; c; d]) by (intros x y z w; cbn [turn]; destruct (y <? w); auto; apply perm_skip; etransitivity; [apply (Permutation_app_comm [w] [z; y])|]; cbn [app]; etransitivity; [apply perm_swap|]; auto).
  repeat match goal with |- context [if ?b then _ else _] => destruct b end; (etransitivity; [apply T|]); auto.
  - apply (Permutation_app_comm [b; c; d] [a]).
  - apply (Permutation_app_comm [c; d] [a; b]).
  - apply (Permutation_app_comm [d] [a; b; c]).
Qed.
Lemma canon_perm : forall g, Permutation (canon g) g.
Proof. intros. unfold canon. destruct (length g) as [|[|[|[|[|]]]]]; try apply sort234_perm. apply canon4_perm. Qed.
Lemma canon_eq : forall g g', 2 <= length g <= 3 -> Permutation g g' -> canon g = canon g'.
Proof.
  intros g g' L P. assert (L' := Permutation_length P). unfold canon. rewrite <- L'. destruct (length g) as [|[|[|[|]]]] eqn:E; try lia; apply sort234_eq_iff; auto; lia.
Qed.
Lemma canon4_min : forall a b c d, NoDup [a; b; c; d] -> canon4 [b; c; d; a] = canon4 [a; b; c; d] /\ canon4 [d; c; b; a] = canon4 [a; b; c; d].
Proof.
  intros a b c d N. assert (a <> b /\ a <> c /\ a <> d /\ b <> c /\ b <> d /\ c <> d) as (? & ? & ? & ? & ? & ?).
  { repeat match goal with H : NoDup (_ :: _) |- _ => inversion H; clear H; subst end. cbn in *. intuition. }
  clear N. cbn [canon4]. unfold turn. split;
  repeat match goal with |- context [?x <? ?y] => destruct (Nat.ltb_spec x y); cbn [andb]; try (exfalso; lia) end; auto.
Qed.
Lemma cycle_perm : forall a b, same_cycle a b -> Permutation a b.
Proof.
  intros a b H. induction H as [a|a b H IH|a b H IH]; auto.
  - etransitivity; [apply IH|]. destruct b; cbn [rot]; auto. apply Permutation_cons_append.
  - etransitivity; [apply IH|]. apply Permutation_rev.
Qed.
Lemma canon_cycle : forall a b, length a = 4 -> NoDup a -> same_cycle a b -> canon a = canon b.
Proof.
  intros a b L N H. assert (G : length b = 4 /\ NoDup b /\ canon4 a = canon4 b).
  { induction H as [a|a b H IH|a b H IH]; auto; destruct (IH L N) as (L1 & N1 & ->); destruct b as [|x [|y [|z [|w [|]]]]]; try discriminate; destruct (canon4_min N1) as [M1 M2].
    - cbn [rot app]. repeat split; auto. eapply Permutation_NoDup; [|apply N1]. apply (Permutation_cons_append [y; z; w] x).
    - cbn [rev app]. repeat split; auto. eapply Permutation_NoDup; [|apply N1]. apply (Permutation_rev [x; y; z; w]). }
  unfold canon. rewrite L. destruct G as (-> & _ & G). auto.
Qed.
(** ** The DOFs of one facet *)
Lemma combine_perm_inj : forall (vs ws ws' : list nat), NoDup vs -> length ws = length vs -> length ws' = length vs -> Permutation (combine vs ws) (combine vs ws') -> ws = ws'.
Proof. intros vs ws ws' N L L' P. apply (@gw_inj vs); auto. apply gw_perm; auto. Qed.
Lemma map_fst_combine : forall A B (a : list A) (b : list B), length b = length a -> map fst (combine a b) = a.
Proof. induction a as [|x a IH]; intros [|y b] L; try discriminate; auto. cbn [combine map fst]. rewrite IH by (cbn in L; lia). auto. Qed.
Lemma gw_combine_perm : forall (vs ws vs' ws' : list nat), NoDup vs -> NoDup vs' -> length ws = length vs -> length ws' = length vs' -> Permutation vs vs' -> (forall v, gw vs ws v = gw vs' ws' v) -> Permutation (combine vs ws) (combine vs' ws').
Proof.
  intros vs ws vs' ws' N N' L L' P H. apply NoDup_Permutation.
  - apply (NoDup_map_inv fst). rewrite map_fst_combine; auto.
  - apply (NoDup_map_inv fst). rewrite map_fst_combine; auto.
  - assert (G : forall vs ws vs' ws', NoDup vs -> NoDup vs' -> length ws = length vs -> length ws' = length vs' -> Permutation vs vs' -> (forall v, gw vs ws v = gw vs' ws' v) -> forall x, In x (combine vs ws) -> In x (combine vs' ws')).
    { clear. intros vs ws vs' ws' N N' L L' P H [v w] I. apply In_nth with (d := (0, 0)) in I. destruct I as (i & I & E). rewrite combine_length in I. rewrite combine_nth in E by lia. injection E as E1 E2.
      assert (V : In v vs') by (apply (Permutation_in _ P); rewrite <- E1; apply nth_In; lia). apply In_nth with (d := 0) in V. destruct V as (j & J & E3).
      assert (W : nth j ws' 0 = w) by (rewrite <- (@gw_nth vs') by (auto; lia); rewrite E3, <- H, <- E1, gw_nth by (auto; lia); auto).
      rewrite <- E3, <- W. rewrite <- combine_nth by lia. apply nth_In. rewrite combine_length. lia. }
    intros x. split; apply G; auto. symmetry. auto.
Qed.
Lemma facet_dofs_iff : forall n o g g' i i', 2 <= n <= 4 -> length g = n -> length g' = n -> NoDup g -> NoDup g' -> (Permutation g g' -> canon g = canon g') -> i < fsize n o -> i' < fsize n o ->
  (Permutation g g' /\ nth i (permof o g) 0 = nth i' (permof o g') 0 <-> forall v, gw g (fweights n o i) v = gw g' (fweights n o i') v).
Proof.
  intros n o g g' i i' Hn L L' N N' C I I'.
  destruct (@permof_ok g o ltac:(lia) N) as [_ [_ P]]. destruct (@permof_ok g' o ltac:(lia) N') as [_ [_ P']]. rewrite L in P. rewrite L' in P'. destruct (P i I) as [B1 P1]. destruct (P' i' I') as [B2 P2].
  assert (NC : NoDup (canon g)) by (eapply Permutation_NoDup; [symmetry; apply canon_perm|auto]). assert (LC : length (canon g) = n) by (rewrite (Permutation_length (canon_perm g)); auto).
  split.
  - intros [Q E]. apply gw_perm. rewrite <- P1, <- P2, <- (C Q), E. auto.
  - intros H. assert (Q : Permutation g g').
    { apply NoDup_Permutation; auto. intros v. rewrite <- (@gw_support g (fweights n o i)), <- (@gw_support g' (fweights n o i')) by (auto; rewrite ?fw_len by auto; try congruence; apply fw_pos; auto). rewrite H. tauto. }
    split; auto. apply (@fw_inj n o); auto. apply (@combine_perm_inj (canon g)); auto; try (rewrite fw_len; auto; congruence). rewrite P1, (C Q), P2. apply gw_combine_perm; auto; rewrite fw_len; auto; congruence.
Qed.
