(** C21: region expressions: the stack built by the parser, visited by
    visit_stack, gives the value of the expression tree. *)
From Verif Require Import Base M_region S_parse.
Open Scope nat_scope.

Section Parse.
Variables leaf oper : Type.
Notation token := (tok leaf oper).

Fixpoint post (t : tree leaf oper) : list (item leaf oper) :=
  match t with Leaf a => [ILeaf a] | Node o l r => post l ++ post r ++ [IOp o] end.

(** The language with arbitrary grouping. *)
Inductive lang : list token -> Prop :=
| l_atom : forall ts, lang_atom ts -> lang ts
| l_op : forall ts1 o ts2, lang ts1 -> lang ts2 -> lang (ts1 ++ TOp o :: ts2)
with lang_atom : list token -> Prop :=
| l_leaf : forall a, lang_atom [TLeaf a]
| l_par : forall ts, lang ts -> lang_atom (TL :: ts ++ [TR]).
Scheme lang_ind2 := Induction for lang Sort Prop
with lang_atom_ind2 := Induction for lang_atom Sort Prop.
Combined Scheme lang_mut from lang_ind2, lang_atom_ind2.

Lemma reads_cat : forall (ts1 : list token) t1, reads ts1 t1 -> forall o ts2 t2, reads ts2 t2 ->
  exists t, reads (ts1 ++ TOp o :: ts2) t.
Proof.
  induction 1 as [ts t H|ts1 t1 o' ts2 t2 H1 H2 IH]; intros o ts3 t3 H3.
  - eexists. apply reads_op; eauto.
  - rewrite <- app_assoc. simpl. destruct (IH o ts3 t3 H3) as (t & Ht). eexists. apply reads_op; eauto.
Qed.

Lemma lang_reads : (forall ts, lang ts -> exists t, reads ts t) /\ (forall ts, lang_atom ts -> exists t, reads_atomic ts t).
Proof.
  apply lang_mut.
  - intros ts _ (t & H). exists t. apply reads_atom. auto.
  - intros ts1 o ts2 _ (t1 & H1) _ (t2 & H2). eapply reads_cat; eauto.
  - intros a. eexists. constructor.
  - intros ts _ (t & H). exists t. constructor. auto.
Qed.

Lemma pe_S : forall f ts st, @parse_expr leaf oper (S f) ts st =
  match parse_atom f ts st with None => None | Some (ts1, st1) => parse_aux f ts1 st1 end.
Proof. reflexivity. Qed.
Lemma pa_S : forall f ts st, @parse_atom leaf oper (S f) ts st =
  match ts with
  | TLeaf a :: ts1 => Some (ts1, st ++ [ILeaf a])
  | TL :: ts1 => match parse_expr f ts1 st with Some (TR :: ts2, st2) => Some (ts2, st2) | _ => None end
  | _ => None
  end.
Proof. reflexivity. Qed.
Lemma px_S : forall f ts st, @parse_aux leaf oper (S f) ts st =
  match ts with
  | TOp o :: ts1 => match parse_expr f ts1 st with Some (ts2, st2) => parse_aux f ts2 (st2 ++ [IOp o]) | None => Some (ts, st) end
  | _ => Some (ts, st)
  end.
Proof. reflexivity. Qed.

Lemma parse_lang : forall f,
  (forall ts st ts' st', parse_expr f ts st = Some (ts', st') -> exists u : list token, ts = u ++ ts' /\ lang u) /\
  (forall ts st ts' st', parse_atom f ts st = Some (ts', st') -> exists u : list token, ts = u ++ ts' /\ lang_atom u) /\
  (forall ts (st : list (item leaf oper)) ts' st', parse_aux f ts st = Some (ts', st') ->
     exists u : list token, ts = u ++ ts' /\ forall u0, lang u0 -> lang (u0 ++ u)).
Proof.
  induction f as [|f (IE & IA & IX)].
  - split; [|split]; intros ts st ts' st' H; discriminate H.
  - split; [|split]; intros ts st ts' st'; rewrite ?pe_S, ?pa_S, ?px_S.
    + destruct (parse_atom f ts st) as [[ts1 st1]|] eqn:E; [|discriminate]. intros H.
      apply IA in E. destruct E as (u1 & -> & L1). apply IX in H. destruct H as (u2 & -> & L2).
      exists (u1 ++ u2). rewrite app_assoc. split; auto. apply L2. constructor. auto.
    + destruct ts as [|[a|o| |] ts1]; try discriminate.
      * intros H. inversion H; subst. exists [TLeaf a]. split; auto. constructor.
      * destruct (parse_expr f ts1 st) as [[[|[b|o| |] ts2] st2]|] eqn:E; try discriminate.
        intros H. inversion H; subst. apply IE in E. destruct E as (u & -> & L).
        exists (TL :: u ++ [TR]). split; [simpl; rewrite <- app_assoc; auto|constructor; auto].
    + assert (Z : forall (a b : list token) (s1 s2 : list (item leaf oper)), Some (a, s1) = Some (b, s2) ->
          exists u, a = u ++ b /\ forall u0, lang u0 -> lang (u0 ++ u)).
      { intros a b s1 s2 H. inversion H; subst. exists []. split; auto. intros. rewrite app_nil_r. auto. }
      destruct ts as [|[a|o| |] ts1]; try (apply Z).
      destruct (parse_expr f ts1 st) as [[ts2 st2]|] eqn:E; [|apply Z].
      intros H. apply IE in E. destruct E as (u1 & -> & L1). apply IX in H. destruct H as (u2 & -> & L2).
      exists (TOp o :: u1 ++ u2). split; [simpl; rewrite <- app_assoc; auto|].
      intros u0 L0. replace (u0 ++ TOp o :: u1 ++ u2) with ((u0 ++ TOp o :: u1) ++ u2) by (rewrite <- app_assoc; auto).
      apply L2. apply l_op; auto.
Qed.

Definition no_op (ts : list token) : Prop := match ts with TOp _ :: _ => False | _ => True end.

Lemma parse_complete : 
  (forall ts t, reads ts t -> forall rest (st : list (item leaf oper)) f, no_op rest -> 2 * length ts + 2 <= f ->
     parse_expr f (ts ++ rest) st = Some (rest, st ++ post t)) /\
  (forall ts t, reads_atomic ts t -> forall rest (st : list (item leaf oper)) f, 2 * length ts + 1 <= f ->
     parse_atom f (ts ++ rest) st = Some (rest, st ++ post t)).
Proof.
  apply reads_mut.
  - intros ts t _ IH rest st f Hr Hf. destruct f as [|f]; [lia|]. rewrite pe_S. rewrite IH by lia.
    destruct f as [|f]; [lia|]. rewrite px_S. destruct rest as [|[| | |] rest]; auto. destruct Hr.
  - intros ts1 t1 o ts2 t2 _ IH1 _ IH2 rest st f Hr Hf. rewrite app_length in Hf. simpl in Hf.
    destruct f as [|f]; [lia|]. rewrite pe_S. rewrite <- app_assoc. rewrite IH1 by lia.
    destruct f as [|f]; [lia|]. rewrite px_S; cbn [app]. rewrite IH2 by (auto; lia).
    destruct f as [|f]; [lia|]. rewrite px_S. simpl post. rewrite !app_assoc.
    destruct rest as [|[| | |] rest]; auto. destruct Hr.
  - intros a rest st f Hf. destruct f as [|f]; [simpl in Hf; lia|]. reflexivity.
  - intros ts t _ IH rest st f Hf. simpl in Hf. rewrite app_length in Hf. simpl in Hf. destruct f as [|f]; [lia|].
    rewrite pa_S; cbn [app]. rewrite <- app_assoc. simpl. rewrite IH by (simpl; auto; lia). auto.
Qed.

Lemma parse_ok : forall ts st st', parse leaf oper ts st = Some st' <-> exists t, reads ts t /\ st' = st ++ post t.
Proof.
  intros ts st st'. unfold parse. 
  assert (C : forall t, reads ts t -> parse_expr (4 * length ts + 4) ts st = Some ([], st ++ post t)).
  { intros t H. rewrite <- (app_nil_r ts) at 2. apply (proj1 parse_complete); simpl; auto. lia. }
  split.
  - destruct (parse_expr (4 * length ts + 4) ts st) as [[[|] s]|] eqn:E; try discriminate.
    intros H; inversion H; subst. pose proof E as E'. apply (proj1 (parse_lang _)) in E'. destruct E' as (u & Hu & L).
    rewrite app_nil_r in Hu. subst u. destruct (proj1 lang_reads _ L) as (t & Ht). exists t. split; auto.
    specialize (C t Ht). congruence.
  - intros (t & Ht & ->). rewrite (C t Ht). auto.
Qed.

Variable V : Type.
Variable fo : oper -> V -> V -> V.
Variable fl : leaf -> V.

Fixpoint size (t : tree leaf oper) : nat := match t with Leaf _ => 1 | Node _ l r => S (size l + size r) end.
Lemma len_post : forall t, length (post t) = size t.
Proof. induction t; simpl; auto. rewrite !app_length. simpl. lia. Qed.

Lemma visit_ok : forall t st f, size t < f -> visit leaf oper V fo fl f (st ++ post t) = Ok (tree_eval fo fl t, st).
Proof.
  induction t as [a|o l IHl r IHr]; intros st f Hf; (destruct f as [|f]; [simpl in Hf; lia|]); cbn [visit].
  - simpl post. rewrite rev_app_distr. simpl. rewrite removelast_last. auto.
  - simpl post. rewrite !app_assoc, rev_app_distr. simpl. rewrite removelast_last.
    simpl in Hf. rewrite IHr by lia. simpl. rewrite IHl by lia. auto.
Qed.
End Parse.

(** The parser accepts exactly the expressions; whatever is left on the stack
    by previous (failed) parses stays there and does not matter. *)
Theorem C21_expression : forall (leaf oper V : Type) (fo : oper -> V -> V -> V) (fl : leaf -> V)
    (ts : list (tok leaf oper)) (st : list (item leaf oper)),
  (forall t, reads ts t -> exists st', parse leaf oper ts st = Some st' /\
     visit_stack leaf oper V fo fl st' = Ok (tree_eval fo fl t, st)) /\
  (forall st', parse leaf oper ts st = Some st' -> exists t, reads ts t).
Proof.
  intros. split.
  - intros t Ht. exists (st ++ post _ _ t). split; [apply parse_ok; eauto|].
    unfold visit_stack. apply visit_ok. rewrite app_length, len_post. lia.
  - intros st' H. apply parse_ok in H. destruct H as (t & Ht & _). eauto.
Qed.

(** The reading is unique. *)
Theorem C21_unambiguous : forall (leaf oper : Type) (ts : list (tok leaf oper)) t1 t2, reads ts t1 -> reads ts t2 -> t1 = t2.
Proof.
  intros leaf oper ts t1 t2 H1 H2.
  assert (P : post _ _ t1 = post _ _ t2).
  { assert (E1 : parse leaf oper ts [] = Some ([] ++ post _ _ t1)) by (apply parse_ok; eauto).
    assert (E2 : parse leaf oper ts [] = Some ([] ++ post _ _ t2)) by (apply parse_ok; eauto).
    rewrite E1 in E2. inversion E2. auto. }
  assert (E : forall t, visit_stack leaf oper _ (@Node leaf oper) (@Leaf leaf oper) (post _ _ t) = Ok (t, [])).
  { intros t. unfold visit_stack. change (post leaf oper t) with ([] ++ post leaf oper t) at 2. rewrite visit_ok.
    - f_equal. f_equal. induction t; simpl; congruence.
    - rewrite len_post. lia. }
  pose proof (E t1) as Q. rewrite P, E in Q. congruence.
Qed.

(** a - b - c is a - (b - c); (a - b) - c needs the parentheses. *)
Example C21_ex : forall (a b c : nat), 
  reads [TLeaf a; TOp tt; TLeaf b; TOp tt; TLeaf c] (Node tt (Leaf a) (Node tt (Leaf b) (Leaf c))) /\
  reads [TL; TLeaf a; TOp tt; TLeaf b; TR; TOp tt; TLeaf c] (Node tt (Node tt (Leaf a) (Leaf b)) (Leaf c)).
Proof.
  intros. split.
  - apply (reads_op [TLeaf a] _ tt [TLeaf b; TOp tt; TLeaf c]); [constructor|].
    apply (reads_op [TLeaf b] _ tt [TLeaf c]); repeat constructor.
  - apply (reads_op [TL; TLeaf a; TOp tt; TLeaf b; TR] _ tt [TLeaf c]); [|repeat constructor].
    apply (reads_par [TLeaf a; TOp tt; TLeaf b]). apply (reads_op [TLeaf a] _ tt [TLeaf b]); repeat constructor.
Qed.

(** The usual left-to-right reading is not what is computed: with
    a = {1}, b = {1,2}, c = {1}, "a - b - c" gives {1}, not the empty set. *)
Example C21_left_assoc_differs :
  let fo (_ : unit) := setdiff1d in let fl (x : list nat) := x in
  let ts := [TLeaf [1]; TOp tt; TLeaf [1; 2]; TOp tt; TLeaf [1]] in
  (do v <- match parse _ _ ts [] with Some st => visit_stack _ _ _ fo fl st | None => Err ValueError end; Ok (fst v)) = Ok [1] /\
  setdiff1d (setdiff1d [1] [1; 2]) [1] = [].
Proof. vm_compute. auto. Qed.

Print Assumptions C21_expression.
Print Assumptions C21_unambiguous.
