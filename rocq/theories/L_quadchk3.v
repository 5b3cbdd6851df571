(** The checks of the tables: instances for rational data and for data with two square roots. *)
From Coq Require Import Reals Lra QArith Qreals Qreduction.
From Verif Require Import Base M_nls M_lagnodes M_lagrange P_lagnodes L_lagrange P_lagrange L_gm M_quadtab M_quad S_quad L_quadint P_cubature L_quadchk L_quadchk2.
Set Implicit Arguments.
Open Scope R_scope.

(** A rule with its points in the element, exact up to the tolerance *)
Definition good (k : kind) (ok : list nat -> Prop) (tol : R) (cw : list (list R) * list R) : Prop :=
  (forall x, In x (fst cw) -> kind_in k x) /\ integrates k ok tol (fst cw) (snd cw).

Lemma Rzerob_ok : forall x, Rzerob x = true <-> x = 0.
Proof.
  intros x. unfold Rzerob, Rltb. destruct (Rlt_dec x 0), (Rlt_dec 0 x); cbn; split; intros; try discriminate; try lra; auto.
Qed.
(** ** Rational data *)
Definition half (q : Q) : Q := (q * (1 # 2))%Q.
Lemma half_ok : forall q, Q2R (half q) = Q2R q * / 2.
Proof. intros. unfold half. rewrite Q2R_mult. f_equal. unfold Q2R. cbn. lra. Qed.
Definition affQ (q : Q) : Q := Qred (half (q + 1)).
Definition omQ (q : Q) : Q := Qred (1 - q).
Definition wscQ (n : nat) (q : Q) : Q := Qred (Nat.iter n half q).
Definition wfxQ (f q : Q) : Q := Qred (q * f).
Definition addQ (a b : Q) : Q := Qred (a + b).
Definition iszQ (q : Q) : bool := Qeq_bool q 0.
Definition nonnegQ (q : Q) : bool := Qle_bool 0 q.
Lemma Qred_ok : forall q, Q2R (Qred q) = Q2R q.
Proof. intros. apply Qeq_eqR. apply Qred_correct. Qed.
Lemma Q2R_1 : Q2R 1 = 1.
Proof. unfold Q2R. cbn. lra. Qed.
Lemma Q2R_0 : Q2R 0 = 0.
Proof. unfold Q2R. cbn. lra. Qed.
Lemma affQ_ok : forall e, Q2R (affQ e) = (1 - 0) / (1 - -1) * Q2R e + (1 * 0 - -1 * 1) / (1 - -1).
Proof. intros. unfold affQ. rewrite Qred_ok, half_ok, Q2R_plus, Q2R_1. lra. Qed.
Lemma omQ_ok : forall e, Q2R (omQ e) = 1 - Q2R e.
Proof. intros. unfold omQ. rewrite Qred_ok, Q2R_minus, Q2R_1. auto. Qed.
Lemma wscQ_ok : forall n e, Q2R (wscQ n e) = Q2R e * / 2 ^ n.
Proof.
  intros. unfold wscQ. rewrite Qred_ok. induction n; cbn [Nat.iter nat_rect]; [cbn; lra|]. change (nat_rect (fun _ => Q) e (fun _ => half) n) with (Nat.iter n half e). rewrite half_ok, IHn. cbn [pow]. rewrite Rinv_mult. lra.
Qed.
Lemma addQ_ok : forall a b, Q2R (addQ a b) = Q2R a + Q2R b.
Proof. intros. unfold addQ. rewrite Qred_ok, Q2R_plus. auto. Qed.
Lemma nonnegQ_ok : forall e, nonnegQ e = true -> 0 <= Q2R e.
Proof. intros e H. apply Qle_bool_iff in H. apply Qle_Rle in H. rewrite Q2R_0 in H. auto. Qed.
Lemma iszQ_ok : forall e, Rzerob (Q2R e) = iszQ e.
Proof.
  intros. unfold iszQ. destruct (Qeq_bool e 0) eqn:H.
  - apply Rzerob_ok. apply Qeq_bool_eq in H. apply Qeq_eqR in H. rewrite H. apply Q2R_0.
  - destruct (Rzerob (Q2R e)) eqn:Z; auto. apply Rzerob_ok in Z. apply Qeq_bool_neq in H. exfalso. apply H. apply eqR_Qeq. rewrite Z, Q2R_0. auto.
Qed.
Definition finQ (f : Q) := fin affQ omQ (wfxQ f) wscQ iszQ 0%Q.
Definition inb E (om : E -> E) (nonneg : E -> bool) (add : E -> E -> E) (zero : E) (k : kind) (x : list E) : bool :=
  match k with Simplex n => in_simplex_b om nonneg add zero n x | Cube n => in_cube_b om nonneg n x | Wedge => in_wedge_b om nonneg add zero x end.
Lemma inb_ok : forall E (ev : E -> R) om nonneg add zero, (forall e, ev (om e) = 1 - ev e) -> (forall a b, ev (add a b) = ev a + ev b) -> ev zero = 0 -> (forall e, nonneg e = true -> 0 <= ev e) ->
  forall k x, inb om nonneg add zero k x = true -> kind_in k (map ev x).
Proof.
  intros E ev om nonneg add zero O A Z N [n|n|] x H; cbn [inb kind_in] in *; [eapply in_simplex_ok; eauto|eapply in_cube_ok; eauto|eapply in_wedge_ok; eauto].
Qed.
Definition check_rule_q (k : kind) (o : nat) (rows : list (list Q)) (bounded : bool) (f : Q) (sym : bool) : bool :=
  let '(c, w) := finQ f rows bounded sym in
  (negb sym || (length (nth 0 (map (fun r => removelast r) rows) []) =? 1)%nat) && forallb (inb omQ nonnegQ addQ 0%Q k) c && check_q k o c w.
Lemma check_rule_q_ok : forall k o rows (bounded : bool) f sym tp wf, tp <> 0 -> Q2R f = wf -> check_rule_q k o rows bounded f sym = true ->
  exists cw, init_data (mkRule (rat rows) (if bounded then Some (-1, 1) else None) tp wf sym) = Ok cw /\ good k (degree_ok k o) (/ IZR TOL) cw.
Proof.
  intros k o rows bounded f sym tp wf TP F C. unfold check_rule_q in C. destruct (finQ f rows bounded sym) as [c w] eqn:FE. apply andb_prop in C. destruct C as [C C3]. apply andb_prop in C. destruct C as [C1 C2].
  assert (H := @fin_ok Q Q2R affQ omQ (wfxQ f) wscQ iszQ 0%Q wf tp affQ_ok omQ_ok). unfold rat. rewrite H.
  - fold (finQ f). rewrite FE. cbn [fst snd]. eexists. split; [reflexivity|]. split; cbn [fst snd].
    + intros x I. apply in_map_iff in I. destruct I as (q & <- & I). rewrite forallb_forall in C2. apply (inb_ok Q2R omQ nonnegQ addQ 0%Q omQ_ok addQ_ok Q2R_0 nonnegQ_ok). auto.
    + apply check_q_ok. auto.
  - intros e. unfold wfxQ. rewrite Qred_ok, Q2R_mult, F. auto.
  - apply wscQ_ok.
  - apply Q2R_0.
  - auto.
  - intros ->. cbn [negb orb] in C1. apply Nat.eqb_eq. auto.
  - intros _. apply iszQ_ok.
Qed.
