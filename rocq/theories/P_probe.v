(** C201, C202: probes along lines and the adaptive refinement. *)
From Coq Require Import Reals Lra.
From Verif Require Import Base M_probe.
Set Implicit Arguments.
Open Scope R_scope.

Lemma Rltb_true : forall a b, Rltb a b = true <-> a < b.
Proof. intros a b. unfold Rltb. destruct (Rlt_dec a b); split; intros; try discriminate; tauto. Qed.
Lemma Rltb_false : forall a b, Rltb a b = false <-> b <= a.
Proof. intros a b. unfold Rltb. destruct (Rlt_dec a b); split; intros; try discriminate; lra. Qed.

(** ** Specification *)
(** The property [P] holds for all subsequent items. *)
Fixpoint adj (P : R -> R -> Prop) (l : list R) : Prop :=
  match l with
  | a :: ((b :: _) as t) => P a b /\ adj P t
  | _ => True
  end.
Definition increasing (l : list R) : Prop := adj Rlt l.

Lemma adj_imp : forall (P Q : R -> R -> Prop) l, (forall a b, P a b -> Q a b) -> adj P l -> adj Q l.
Proof.
  intros P Q l H. induction l as [|a [|b l] IH]; intros A; [exact I|exact I|].
  destruct A as [A1 A2]. split; [apply H; exact A1|apply IH; exact A2].
Qed.

(** ** Refinement *)
Section Ref.
Variable fl : R -> R -> bool.
Fixpoint pairs (l : list R) : list bool :=
  match l with
  | a :: ((b :: _) as t) => fl a b :: pairs t
  | _ => []
  end.
Lemma refine_cons2 : forall a b l, refine (a :: b :: l) (pairs (a :: b :: l)) =
  a :: (if fl a b then (a + b) / 2 :: refine (b :: l) (pairs (b :: l)) else refine (b :: l) (pairs (b :: l))).
Proof. reflexivity. Qed.
Lemma refine_hd : forall l fs d, hd d (refine l fs) = hd d l.
Proof. intros [|a [|b l]] [|f fs] d; reflexivity. Qed.
Lemma refine_ne : forall l fs, l <> [] -> refine l fs <> [].
Proof. intros [|a [|b l]] [|f fs] H; simpl; congruence. Qed.
Lemma refine_last : forall l fs d, last (refine l fs) d = last l d.
Proof.
  induction l as [|a [|b l] IH]; intros fs d; [destruct fs; reflexivity|destruct fs; reflexivity|].
  destruct fs as [|f fs]; [reflexivity|].
  assert (N : refine (b :: l) fs <> []) by (apply refine_ne; discriminate).
  specialize (IH fs d). change (last (a :: b :: l) d) with (last (b :: l) d). rewrite <- IH.
  change (refine (a :: b :: l) (f :: fs)) with (a :: (if f then (a + b) / 2 :: refine (b :: l) fs else refine (b :: l) fs)).
  destruct (refine (b :: l) fs) as [|x t]; [congruence|]. destruct f; reflexivity.
Qed.
Lemma refine_in : forall l fs x, In x l -> In x (refine l fs).
Proof.
  induction l as [|a [|b l] IH]; intros fs x I; [destruct I|destruct fs; exact I|].
  destruct fs as [|f fs]; [exact I|]. cbn [refine]. destruct I as [->|I]; [left; auto|]. right.
  specialize (IH fs x I). destruct f; [right|]; exact IH.
Qed.
Lemma refine_len : forall l fs, (List.length l <= List.length (refine l fs))%nat.
Proof.
  induction l as [|a [|b l] IH]; intros fs; [destruct fs; simpl; lia|destruct fs; simpl; lia|].
  destruct fs as [|f fs]; [simpl; lia|]. specialize (IH fs).
  change (refine (a :: b :: l) (f :: fs)) with (a :: (if f then (a + b) / 2 :: refine (b :: l) fs else refine (b :: l) fs)).
  destruct f; simpl List.length in *; lia.
Qed.
Lemma adj_refine : forall (P Q : R -> R -> Prop) l, (forall a b, P a b -> fl a b = false -> Q a b) ->
  (forall a b, P a b -> fl a b = true -> Q a ((a + b) / 2) /\ Q ((a + b) / 2) b) -> adj P l -> adj Q (refine l (pairs l)).
Proof.
  intros P Q l H1 H2. induction l as [|a [|b l] IH]; intros A; [exact I|exact I|].
  destruct A as [A1 A2]. specialize (IH A2). rewrite refine_cons2.
  pose proof (refine_hd (b :: l) (pairs (b :: l)) 0) as E. simpl hd at 2 in E.
  assert (N : refine (b :: l) (pairs (b :: l)) <> []) by (apply refine_ne; discriminate).
  destruct (refine (b :: l) (pairs (b :: l))) as [|x t]; [congruence|]. simpl in E. subst x.
  destruct (fl a b) eqn:F.
  - destruct (H2 a b A1 F). simpl. repeat split; auto.
  - simpl. split; auto.
Qed.
Lemma existsb_pairs : forall l, existsb (fun f => f) (pairs l) = false <-> adj (fun a b => fl a b = false) l.
Proof.
  induction l as [|a [|b l] IH]; [simpl; tauto|simpl; tauto|].
  change (existsb (fun f => f) (pairs (a :: b :: l))) with (fl a b || existsb (fun f => f) (pairs (b :: l)))%bool.
  change (adj (fun a b => fl a b = false) (a :: b :: l)) with (fl a b = false /\ adj (fun a b => fl a b = false) (b :: l)).
  rewrite <- IH. apply orb_false_iff.
Qed.
End Ref.

Section Loop.
Variables (ed : point -> R) (hint : option R) (at_par : R -> point) (cyc : option R).
Definition fl (a b : R) : bool := too_far ed hint (at_par a) (at_par b).
(** The parametrization with the closing value of a cyclic probe. *)
Definition closed (pars : list R) : list R := match cyc with None => pars | Some c => pars ++ [c] end.
(** A cyclic probe closes at its first point and has no size hint. *)
Definition closes (pars : list R) : Prop := forall c, cyc = Some c -> hint = None /\ at_par c = at_par (hd 0 pars).

Lemma pair_flags_map : forall l, pair_flags ed hint (map at_par l) = pairs fl l.
Proof. induction l as [|a [|b l] IH]; auto. cbn [map pair_flags pairs] in *. unfold fl at 1. f_equal. exact IH. Qed.
Lemma pair_flags_snoc : forall l p, l <> [] -> pair_flags ed hint (l ++ [p]) = pair_flags ed hint l ++ [too_far ed hint (last l []) p].
Proof.
  induction l as [|a [|b l] IH]; intros p N; [congruence|reflexivity|].
  change (pair_flags ed hint ((a :: b :: l) ++ [p])) with (too_far ed hint a b :: pair_flags ed hint ((b :: l) ++ [p])).
  rewrite IH by discriminate. reflexivity.
Qed.
Lemma loop_step : forall fuel pars, pars <> [] -> closes pars ->
  exists pars', closed pars' = refine (closed pars) (pairs fl (closed pars)) /\ pars' <> [] /\ hd 0 pars' = hd 0 pars /\
  probe_loop ed hint (S fuel) at_par cyc pars =
    if existsb (fun f => f) (pairs fl (closed pars)) then probe_loop ed hint fuel at_par cyc pars' else Ok pars.
Proof.
  intros fuel pars N C. unfold closed, closes in *. cbn [probe_loop]. destruct cyc as [c|].
  - destruct (C c eq_refl) as [Hh E].
    assert (F : refine_flags ed hint true (map at_par pars) = Ok (pairs fl (pars ++ [c]))).
    { unfold refine_flags. rewrite Hh. f_equal. rewrite <- Hh. rewrite <- (pair_flags_map (pars ++ [c])). rewrite map_app. cbn [map].
      rewrite pair_flags_snoc by (destruct pars; simpl; congruence). rewrite Hh. f_equal. unfold too_far. rewrite E.
      assert (hd [] (map at_par pars) = at_par (hd 0 pars)) as -> by (destruct pars; [congruence|reflexivity]). reflexivity. }
    rewrite F. cbn [bind].
    exists (refine_pars pars (pairs fl (pars ++ [c])) (Some c)).
    assert (G : removelast (refine (pars ++ [c]) (pairs fl (pars ++ [c]))) ++ [c] = refine (pars ++ [c]) (pairs fl (pars ++ [c]))).
    { pose proof (refine_last (pars ++ [c]) (pairs fl (pars ++ [c])) 0) as L. rewrite last_last in L.
      set (r := refine (pars ++ [c]) (pairs fl (pars ++ [c]))) in *.
      assert (Nr : r <> []) by (apply refine_ne; destruct pars; discriminate).
      rewrite (app_removelast_last 0 Nr) at 2. rewrite L. reflexivity. }
    unfold refine_pars. split; [exact G|].
    assert (X : removelast (refine (pars ++ [c]) (pairs fl (pars ++ [c]))) <> []).
    { intros X. pose proof (refine_len (pars ++ [c]) (pairs fl (pars ++ [c]))) as Ln. rewrite <- G, X, app_length in Ln.
      destruct pars; [congruence|]. simpl in Ln. lia. }
    split; [exact X|]. split; [|reflexivity].
    pose proof (refine_hd (pars ++ [c]) (pairs fl (pars ++ [c])) 0) as Hd. rewrite <- G in Hd.
    destruct (removelast (refine (pars ++ [c]) (pairs fl (pars ++ [c])))); [congruence|].
    destruct pars; [congruence|]. exact Hd.
  - unfold refine_flags. rewrite pair_flags_map. cbn [bind].
    exists (refine pars (pairs fl pars)). split; [reflexivity|]. split; [now apply refine_ne|]. split; [apply refine_hd|reflexivity].
Qed.

(** The result of an adaptive probe: the initial points are kept, the parameters
    increase and no two neighbours are farther apart than the element size. *)
Lemma loop_result : forall fuel pars out, pars <> [] -> closes pars -> increasing (closed pars) ->
  probe_loop ed hint fuel at_par cyc pars = Ok out ->
  out <> [] /\ hd 0 (closed out) = hd 0 (closed pars) /\ last (closed out) 0 = last (closed pars) 0 /\
  (forall x, In x (closed pars) -> In x (closed out)) /\ increasing (closed out) /\
  adj (fun a b => fl a b = false) (closed out).
Proof.
  induction fuel as [|fuel IH]; intros pars out N C A H; [discriminate|].
  destruct (loop_step fuel N C) as (pars' & E1 & E2 & E3 & E4). rewrite E4 in H.
  destruct (existsb (fun f => f) (pairs fl (closed pars))) eqn:X.
  - destruct (IH pars' out E2) as (R1 & R2 & R3 & R4 & R5 & R6); auto.
    + intros c Hc. destruct (C c Hc) as [Hh Hp]. split; auto. now rewrite E3.
    + unfold increasing. rewrite E1. apply adj_refine with (P := Rlt); auto; intros a b L _; lra.
    + rewrite E1 in *. rewrite refine_hd in R2. rewrite refine_last in R3. repeat split; auto.
      intros x I. apply R4. now apply refine_in.
  - injection H as <-. repeat split; auto. now apply existsb_pairs.
Qed.
(** It ends if the distances of points are not larger than a multiple of those of the
    parameters and small enough intervals are not refined. *)
Lemma loop_ends : forall h k fuel pars L, (forall a b, a < b -> b - a <= h -> fl a b = false) ->
  pars <> [] -> closes pars -> adj (fun a b => a < b /\ (b - a <= L \/ fl a b = false)) (closed pars) ->
  L / 2 ^ k <= h -> (k < fuel)%nat -> exists out, probe_loop ed hint fuel at_par cyc pars = Ok out.
Proof.
  intros h. induction k as [|k IH]; intros fuel pars L F N C A H K; (destruct fuel as [|fuel]; [lia|]);
    destruct (loop_step fuel N C) as (pars' & E1 & E2 & E3 & E4); rewrite E4;
    destruct (existsb (fun f => f) (pairs fl (closed pars))) eqn:X; eauto.
  - exfalso. simpl in H. assert (existsb (fun f => f) (pairs fl (closed pars)) = false); [|congruence].
    apply existsb_pairs. apply (adj_imp) with (2 := A). intros a b [L1 [L2|L2]]; auto. apply F; lra.
  - apply (IH fuel pars' (L / 2)); auto; try lia.
    + intros c Hc. destruct (C c Hc) as [Hh Hp]. split; auto. now rewrite E3.
    + rewrite E1. apply (@adj_refine fl (fun a b => a < b /\ (b - a <= L \/ fl a b = false))); [| |exact A].
      * intros a b [L1 L2] G. split; [exact L1|right; exact G].
      * intros a b [L1 [L2|L2]] G; [|congruence]. split; (split; [lra|left; lra]).
    + simpl in H. replace (L / 2 / 2 ^ k) with (L / (2 * 2 ^ k)); auto. field. apply pow_nonzero; lra.
Qed.
End Loop.
