(** Lemmas: the evaluate cache. *)
From Verif Require Import Base M_vars S_vars L_vars.
Set Implicit Arguments.
Open Scope nat_scope.

Section Dict.
Context {V : Type}.
Implicit Types (d : list (Z * V)).

Lemma dget_in : forall d k, dget d k <> None <-> In k (map fst d).
Proof.
  induction d as [|[k' v] t IH]; intros k; simpl; [split; [congruence|contradiction]|].
  destruct (Z.eqb_spec k k') as [->|H]; [split; auto; congruence|].
  rewrite IH. split; auto. intros [->|]; auto. congruence.
Qed.
Lemma dget_none : forall d k, dget d k = None <-> ~ In k (map fst d).
Proof.
  intros. rewrite <- dget_in. destruct (dget d k); split; intros H; try congruence. exfalso; apply H; congruence.
Qed.

Lemma dget_dset : forall d k v k', dget (dset d k v) k' = if Z.eqb k' k then Some v else dget d k'.
Proof.
  induction d as [|[k0 v0] t IH]; intros k v k'; simpl; auto.
  destruct (Z.eqb_spec k k0) as [->|H]; simpl.
  - destruct (Z.eqb_spec k' k0); auto.
  - rewrite IH. destruct (Z.eqb_spec k' k0) as [->|]; auto. destruct (Z.eqb_spec k0 k); auto. congruence.
Qed.
Lemma keys_dset : forall d k v x, In x (map fst (dset d k v)) <-> x = k \/ In x (map fst d).
Proof.
  intros. rewrite <- !dget_in, dget_dset. destruct (Z.eqb_spec x k); split; intros H; auto; try congruence.
  destruct H; auto; congruence.
Qed.
Lemma NoDup_dset : forall d k v, NoDup (map fst d) -> NoDup (map fst (dset d k v)).
Proof.
  induction d as [|[k0 v0] t IH]; intros k v N; simpl.
  - constructor; auto.
  - inversion N as [|? ? N1 N2]; subst. destruct (Z.eqb_spec k k0) as [->|]; simpl; constructor; auto.
    rewrite keys_dset. intros [->|]; auto.
Qed.
Lemma dget_dpop : forall d k k', NoDup (map fst d) -> dget (dpop d k) k' = if Z.eqb k' k then None else dget d k'.
Proof.
  induction d as [|[k0 v0] t IH]; intros k k' N; simpl.
  - destruct (Z.eqb k' k); auto.
  - inversion N as [|? ? N1 N2]; subst. destruct (Z.eqb_spec k k0) as [->|H]; simpl.
    + destruct (Z.eqb_spec k' k0) as [->|]; auto. apply dget_none. auto.
    + rewrite IH by auto. destruct (Z.eqb_spec k' k0) as [->|]; auto. destruct (Z.eqb_spec k0 k); auto. congruence.
Qed.
Lemma keys_dpop : forall d k x, In x (map fst (dpop d k)) -> In x (map fst d).
Proof.
  induction d as [|[k0 v0] t IH]; intros k x; simpl; auto.
  destruct (Z.eqb_spec k k0) as [->|H]; simpl; auto. intros [->|]; eauto.
Qed.
Lemma NoDup_dpop : forall d k, NoDup (map fst d) -> NoDup (map fst (dpop d k)).
Proof.
  induction d as [|[k0 v0] t IH]; intros k N; simpl; auto.
  inversion N as [|? ? N1 N2]; subst. destruct (Z.eqb_spec k k0); simpl; auto.
  constructor; auto. intros H. apply N1. eapply keys_dpop; eauto.
Qed.
Lemma dget_map : forall W (f : V -> W) d k, dget (map (fun p => (fst p, f (snd p))) d) k = option_map f (dget d k).
Proof.
  induction d as [|[k0 v0] t IH]; intros k; simpl; auto. destruct (Z.eqb k k0); auto.
Qed.
End Dict.

Lemma zinsert_In : forall x l y, In y (zinsert x l) <-> y = x \/ In y l.
Proof.
  induction l as [|z t IH]; intros y; simpl; [intuition auto|].
  destruct (x <=? z)%Z; simpl; [intuition auto|]. rewrite IH. intuition auto.
Qed.
Lemma zsorted_In : forall l y, In y (zsorted l) <-> In y l.
Proof.
  induction l as [|x t IH]; intros y; simpl; [intuition auto|]. rewrite zinsert_In, IH. intuition auto.
Qed.
Lemma zinsert_sorted : forall x l, StronglySorted Z.le l -> StronglySorted Z.le (zinsert x l).
Proof.
  induction l as [|z t IH]; intros S; simpl; [constructor; constructor|].
  inversion S as [|? ? S1 S2]; subst. destruct (Z.leb_spec x z).
  - constructor; auto. constructor; auto. rewrite Forall_forall in *. intros y Hy. specialize (S2 y Hy). lia.
  - constructor; auto. rewrite Forall_forall in *. intros y Hy. apply zinsert_In in Hy. destruct Hy as [->|Hy]; [lia|auto].
Qed.
Lemma zsorted_sorted : forall l, StronglySorted Z.le (zsorted l).
Proof. induction l; simpl; [constructor|]. apply zinsert_sorted; auto. Qed.

Lemma sorted_last_max : forall l, StronglySorted Z.le l -> forall x, In x l -> (x <= last l 0%Z)%Z.
Proof.
  induction l as [|y t IH]; intros S x Hx; [contradiction|]. inversion S as [|? ? S1 S2]; subst.
  destruct t as [|z t']; [destruct Hx as [->|[]]; simpl; lia|].
  change (last (y :: z :: t') 0%Z) with (last (z :: t') 0%Z). destruct Hx as [->|Hx]; [|apply IH; auto].
  rewrite Forall_forall in S2. specialize (S2 (last (z :: t') 0%Z)). apply S2.
  rewrite (app_removelast_last (l := z :: t') 0%Z) at 2 by discriminate. apply in_or_app. right. simpl. auto.
Qed.
Lemma last_In : forall (l : list Z) d, l <> [] -> In (last l d) l.
Proof.
  intros l d H. rewrite (app_removelast_last (l := l) d) at 2 by auto. apply in_or_app. right. simpl. auto.
Qed.

(** Moving the caches by one step: an invariant of the loop over a sorted list. *)
Section Move.
Context {V : Type}.
Variable n : nat.
Let mv := (fun (c : list (Z * V)) (s : Z) =>
               if (- s <? Z.of_nat n)%Z
               then match dget c s with Some x => dset c (s - 1) x | None => c end
               else c).

Lemma mv_keys : forall steps c k, In k (map fst (fold_left mv steps c)) -> In k (map fst c) \/ In (k + 1)%Z steps.
Proof.
  induction steps as [|s t IH]; intros c k H; simpl in *; auto. apply IH in H. destruct H as [H|H]; auto.
  unfold mv in H. destruct (_ <? _)%Z; auto. destruct (dget c s); auto.
  apply keys_dset in H. destruct H as [->|]; auto. right. left. lia.
Qed.
Lemma mv_NoDup : forall steps c, NoDup (map fst c) -> NoDup (map fst (fold_left mv steps c)).
Proof.
  induction steps as [|s t IH]; intros c H; simpl in *; auto. apply IH. unfold mv.
  destruct (_ <? _)%Z; auto. destruct (dget c s); auto. apply NoDup_dset; auto.
Qed.
Lemma mv_notin : forall steps c k, ~ In (k + 1)%Z steps -> dget (fold_left mv steps c) k = dget c k.
Proof.
  induction steps as [|s t IH]; intros c k H; simpl in *; auto. rewrite IH by tauto. unfold mv.
  destruct (_ <? _)%Z; auto. destruct (dget c s); auto. rewrite dget_dset.
  destruct (Z.eqb_spec k (s - 1)); auto. subst. exfalso. apply H. left. lia.
Qed.
Lemma mv_in : forall steps c k x, StronglySorted Z.le steps -> In (k + 1)%Z steps -> (- (k + 1) < Z.of_nat n)%Z ->
  dget c (k + 1) = Some x -> dget (fold_left mv steps c) k = Some x.
Proof.
  induction steps as [|s t IH]; intros c k x S H Hn G; [contradiction|]. inversion S as [|? ? S1 S2]; subst.
  simpl. destruct (in_dec Z.eq_dec (k + 1)%Z t) as [Hi|Hi].
  - rewrite Forall_forall in S2. specialize (S2 _ Hi). apply IH; auto. unfold mv. destruct (_ <? _)%Z; auto. destruct (dget c s); auto.
    rewrite dget_dset. destruct (Z.eqb_spec (k + 1) (s - 1)); auto. lia.
  - destruct H as [->|]; [|contradiction]. rewrite mv_notin by auto. unfold mv.
    destruct (Z.ltb_spec (- (k + 1)) (Z.of_nat n)); [|lia]. rewrite G. rewrite dget_dset.
    destruct (Z.eqb_spec k (k + 1 - 1)); auto. lia.
Qed.
End Move.

Section Adv.
Context {B : Type}.
Implicit Types (sc : scache B).

Lemma adv_cache1_keys : forall n sc k, NoDup (map fst sc) -> (forall k, In k (map fst sc) -> (k <= 0)%Z) ->
  In k (map fst (adv_cache1 n sc)) -> (k <= 0)%Z.
Proof.
  intros n sc k N H Hk. unfold adv_cache1 in Hk. destruct (zsorted (map fst sc)) eqn:E.
  - apply (mv_keys n [] sc) in Hk. destruct Hk as [Hk|[]]; auto.
  - apply keys_dpop in Hk. apply (mv_keys n (z :: l) sc) in Hk. destruct Hk as [Hk|Hk]; auto.
    rewrite <- E in Hk. rewrite zsorted_In in Hk. apply H in Hk. lia.
Qed.
Lemma adv_cache1_NoDup : forall n sc, NoDup (map fst sc) -> NoDup (map fst (adv_cache1 n sc)).
Proof.
  intros n sc N. unfold adv_cache1. destruct (zsorted (map fst sc)) eqn:E.
  - apply (mv_NoDup n [] sc); auto.
  - apply NoDup_dpop. apply (mv_NoDup n (z :: l) sc); auto.
Qed.

(** The current entries become the entries of step -1, and there are no current
    entries after advancing; the other entries may be wrong, see
    C17_gap_refuted. *)
Lemma adv_cache1_get : forall n sc, 0 < n -> NoDup (map fst sc) -> (forall k, In k (map fst sc) -> (k <= 0)%Z) ->
  dget (adv_cache1 n sc) 0 = None /\ dget (adv_cache1 n sc) (-1) = dget sc 0.
Proof.
  intros n sc Hn N H. unfold adv_cache1. pose proof (zsorted_sorted (map fst sc)) as S.
  pose proof (zsorted_In (map fst sc)) as I. destruct (zsorted (map fst sc)) as [|z l] eqn:E.
  - destruct sc as [|[k v] t]; [split; reflexivity|]. exfalso. apply (I k). simpl. auto.
  - set (steps := z :: l) in *. set (f := fold_left _ _ _).
    assert (Nf : NoDup (map fst f)) by (apply (mv_NoDup n steps sc); auto).
    assert (Hl : In (last steps 0%Z) (map fst sc)) by (apply I; apply last_In; discriminate).
    assert (F0 : dget f 0 = dget sc 0).
    { apply (mv_notin n steps sc). intros HH. apply I in HH. apply H in HH. lia. }
    rewrite !dget_dpop by auto. rewrite F0.
    destruct (dget sc 0) as [x|] eqn:E0.
    + assert (I0 : In 0%Z (map fst sc)) by (apply dget_in; congruence).
      assert (L0 : last steps 0%Z = 0%Z).
      { apply Z.le_antisymm; [apply H; auto|]. apply sorted_last_max; auto. apply I; auto. }
      rewrite L0. split; auto.
      change (-1 =? 0)%Z with false. cbn iota.
      apply (@mv_in _ n steps sc (-1)%Z x); auto; [apply I; auto|simpl; lia].
    + split; [destruct (0 =? _)%Z; auto|]. destruct (Z.eqb_spec (-1) (last steps 0%Z)) as [Hm|Hm]; auto.
      assert (I0 : ~ In 0%Z (map fst sc)) by (apply dget_none; auto).
      unfold f. rewrite (mv_notin n steps sc) by (change (-1 + 1)%Z with 0%Z; rewrite (I 0%Z); auto).
      apply dget_none. intros HH. pose proof (H _ Hl).
      assert ((-1) <= last steps 0%Z)%Z by (apply sorted_last_max; auto; apply I; auto).
      apply I0. replace 0%Z with (last steps 0%Z) by lia. auto.
Qed.
End Adv.

Section L.
Context {A B D : Type}.
Variable ev : Z -> Z -> list A -> B.
Variable bdiff : D -> list A -> list A -> list A.
Variables (s e : nat).
Hypothesis Hse : s <= e.
Variables (n m : nat) (v0 : @var B D).

Definition ok_eval (st : Z) (vstep : nat) : Prop := st = 0%Z \/ (st = (-1)%Z /\ vstep <> 0).

Notation comp := (compute ev bdiff).
Definition good (x : res B) (b : B) : Prop := x = Ok b \/ exists e, x = Err e.

Definition CInv (h : list (list A)) (v : @var B D) : Prop :=
  forall mode sc, dget (v_cache v) mode = Some sc ->
    NoDup (map fst sc) /\ (forall k, In k (map fst sc) -> (k <= 0)%Z) /\ (v_step v = 0 -> dget sc (-1) = None) /\
    forall st c key b, (st = 0%Z \/ st = (-1)%Z) -> dget sc st = Some c -> kget c key = Some b ->
      good (comp h v mode key st None) b.

Lemma CInv_pop : forall h v h' v' st, CInv h v -> v_step v' = v_step v ->
  v_cache v' = map (fun mc => (fst mc, dpop (snd mc) st)) (v_cache v) ->
  (forall mode key t, (t = 0%Z \/ t = (-1)%Z) -> t <> st -> (t = (-1)%Z -> v_step v <> 0) ->
     forall b, good (comp h v mode key t None) b -> good (comp h' v' mode key t None) b) ->
  CInv h' v'.
Proof.
  intros h v h' v' st C Es Ec Hc mode sc G. rewrite Ec in G. rewrite (@dget_map (scache B) _ (fun x => dpop x st)) in G.
  destruct (dget (v_cache v) mode) as [sc0|] eqn:G0; [|discriminate]. inversion G; subst sc. clear G.
  destruct (C _ _ G0) as (N & K & Z & F). split; [apply NoDup_dpop; auto|]. split; [intros k Hk; apply keys_dpop in Hk; auto|].
  split.
  { intros H0. rewrite dget_dpop by auto. rewrite Es in H0. rewrite Z by auto. destruct (-1 =? st)%Z; auto. }
  intros t c key b Ht Gc Gk. rewrite dget_dpop in Gc by auto. destruct (Z.eqb_spec t st); [discriminate|].
  apply Hc; auto; [|eapply F; eauto]. intros -> Hv. rewrite Z in Gc by auto. discriminate.
Qed.

Lemma comp_frame : forall h (v v' : @var B D), v_history v' = v_history v -> v_data v' = v_data v -> v_step v' = v_step v ->
  v_indx v' = v_indx v -> v_dt v' = v_dt v -> forall mode key t, comp h v' mode key t None = comp h v mode key t None.
Proof.
  intros h v v' E1 E2 E3 E4 E5 mode key t. unfold compute, call_dt, call. rewrite E1, E2, E3, E4, E5. reflexivity.
Qed.

Lemma comp_m1 : forall a h v a' h' v', Inv s e n m v0 a h v -> Inv s e n m v0 a' h' v' -> cur a <> None -> cur a' <> None ->
  snaps a = snaps a' -> v_step v <> 0 -> v_step v' <> 0 ->
  forall mode key, comp h v mode key (-1) None = comp h' v' mode key (-1) None.
Proof.
  intros a h v a' h' v' I I' C C' S V V' mode key.
  destruct (call_ok Hse I C) as (_ & A1 & _ & A2 & _). destruct (call_ok Hse I' C') as (_ & B1 & _ & B2 & _).
  assert (E : forall k, 1 <= k -> call h v (- Z.of_nat k) = call h' v' (- Z.of_nat k)).
  { intros k Hk. destruct (le_lt_dec k n).
    - rewrite A1, B1 by auto. destruct k; [lia|]. cbn [ago]. rewrite S. auto.
    - rewrite A2, B2 by auto. auto. }
  unfold compute, call_dt. change (-1)%Z with (- Z.of_nat 1)%Z. rewrite (E 1) by lia.
  change (- Z.of_nat 1 - 1)%Z with (- Z.of_nat 2)%Z. rewrite (E 2) by lia.
  destruct I as (-> & _ & _ & _ & _ & -> & _). destruct I' as (-> & _ & _ & _ & _ & -> & _). reflexivity.
Qed.

Lemma cur_of_step : forall (a : @abs A) h v, Inv s e n m v0 a h v -> v_step v <> 0 -> cur a <> None.
Proof.
  intros a h v (_ & _ & _ & _ & _ & _ & _ & _ & _ & _ & _ & Hs & Hsc & _) V. apply Hsc. tauto.
Qed.

Lemma CInv_advance : forall a h v t h' v', Inv s e n m v0 a h v -> cur a <> None -> CInv h v ->
  advance t h v = Ok (h', v') -> CInv h' v'.
Proof.
  intros a h v t h' v' I Cu C E.
  destruct (@advance_ok _ _ _ _ _ Hse n m v0 a h v t I Cu) as (h2 & v2 & E2 & I2 & Ec & Es).
  rewrite E in E2. inversion E2; subst h2 v2. clear E2.
  destruct (call_ok Hse I Cu) as (A0 & A1 & A2 & A3 & A4).
  assert (Cu' : cur (mkAbs (arrays a) (cur a) (cur_value s e a :: snaps a)) <> None) by auto.
  destruct (call_ok Hse I2 Cu') as (B0 & B1 & _ & B3 & _).
  assert (Hst : v_history v = Some n /\ v_dt v = v_dt v') .
  { destruct I as (? & _ & _ & _ & _ & -> & _). destruct I2 as (_ & _ & _ & _ & _ & -> & _). auto. }
  destruct Hst as [Hh Hdt]. assert (Hh' : v_history v' = Some n) by (destruct I2; auto).
  assert (V' : v_step v' <> 0) by lia.
  assert (CV : cur_value s e (mkAbs (arrays a) (cur a) (cur_value s e a :: snaps a)) = cur_value s e a) by reflexivity.
  rewrite CV in B0.
  destruct (Nat.ltb_spec 0 n) as [Hn|Hn].
  - (* moved by one step *)
    intros mode sc' G. rewrite Ec in G. rewrite (@dget_map (scache B) _ (fun x => adv_cache1 n x)) in G.
    destruct (dget (v_cache v) mode) as [sc|] eqn:G0; [|discriminate]. inversion G; subst sc'. clear G.
    destruct (C _ _ G0) as (N & K & Z & F). destruct (@adv_cache1_get B n sc Hn N K) as [G1 G2].
    split; [apply adv_cache1_NoDup; auto|]. split; [intros k Hk; eapply adv_cache1_keys; eauto|]. split; [intros; lia|].
    intros st c key b Hst Gc Gk. destruct Hst as [->| ->]; [rewrite G1 in Gc; discriminate|]. rewrite G2 in Gc.
    specialize (F 0%Z c key b (or_introl eq_refl) Gc Gk).
    (* the value cached for step 0 is the value of step -1 now *)
    unfold compute, call_dt in *. rewrite Hh, Hdt in F. rewrite Hh'.
    change (-1)%Z with (- Z.of_nat 1)%Z. change (- Z.of_nat 1 - 1)%Z with (- Z.of_nat 2)%Z.
    change (0 - 1)%Z with (- Z.of_nat 1)%Z in F. rewrite (B1 1) by (auto; lia). rewrite A0 in F.
    change (ago s e _ 1) with (cur_value s e a).
    destruct (snd key); [|exact F]. destruct (le_lt_dec 2 n) as [Hn2|Hn2].
    + rewrite (B1 2) by (auto; lia).
      assert (E1 : call h v (- Z.of_nat 1) = Ok (ago s e (mkAbs (arrays a) (cur a) (cur_value s e a :: snaps a)) 2)).
      { destruct (Nat.eq_dec (v_step v) 0) as [V|V].
        - change (- Z.of_nat 1)%Z with (-1)%Z. rewrite A2 by auto. destruct I as (_ & _ & _ & _ & _ & _ & _ & _ & _ & _ & _ & Hs & _).
          assert (S0 : snaps a = []) by (apply Hs; auto). cbn [ago snaps]. rewrite S0. reflexivity.
        - rewrite A1 by (auto; lia). destruct I as (_ & _ & _ & _ & _ & _ & _ & _ & _ & _ & _ & Hs & _).
          cbn [ago snaps]. destruct (snaps a) as [|x xs] eqn:Ex; [exfalso; apply V; apply Hs; auto|].
          change (nth 1 (cur_value s e a :: x :: xs) (last (cur_value s e a :: x :: xs) [])) with x. reflexivity. }
      rewrite E1 in F. exact F.
    + rewrite (B3 2) by (auto; lia). cbn [bind]. right. eexists; reflexivity.
  - (* no history: the data and the cache are unchanged *)
    assert (n = 0) by lia. subst n. clear Hn.
    intros mode sc G. rewrite Ec in G. destruct (C _ _ G) as (N & K & Z & F).
    split; auto. split; auto. split; [intros; lia|].
    intros st c key b Hst Gc Gk. specialize (F st c key b Hst Gc Gk).
    destruct Hst as [->| ->].
    + unfold compute, call_dt in *. rewrite Hh, Hdt in F. rewrite Hh'. rewrite A0 in F. rewrite B0.
      change (0 - 1)%Z with (- Z.of_nat 1)%Z in *. rewrite (B3 1) by (auto; lia).
      destruct (snd key); auto. cbn. right; eexists; reflexivity.
    + unfold compute, call_dt. rewrite Hh'. change (-1)%Z with (- Z.of_nat 1)%Z. rewrite (B3 1) by (auto; lia).
      destruct (snd key); cbn; right; eexists; reflexivity.
Qed.

Lemma kget_cons : forall (c : kcache B) k b k', kget ((k, b) :: c) k' =
  if Z.eqb (fst k') (fst k) && Bool.eqb (snd k') (snd k) then Some b else kget c k'.
Proof. intros c [k1 k2] b k'. reflexivity. Qed.

Lemma evaluate_fst : forall h v mode key st, CInv h v -> ok_eval st (v_step v) -> forall y,
  comp h v mode key st None = Ok y -> fst (evaluate ev bdiff h v mode key st None) = Ok y.
Proof.
  intros h v mode key st C Hok y E. unfold evaluate.
  destruct (kget _ _) as [b|] eqn:K.
  - simpl. destruct (dget (v_cache v) mode) as [sc|] eqn:G; [|discriminate].
    destruct (dget sc st) as [c|] eqn:G1; [|discriminate].
    destruct (C _ _ G) as (_ & _ & _ & F). destruct (F st c key b) as [F1|(x & F1)]; auto; try congruence.
    destruct Hok as [->|[-> _]]; auto.
  - rewrite E. reflexivity.
Qed.

Lemma CInv_evaluate : forall h v mode key st, CInv h v -> ok_eval st (v_step v) ->
  CInv h (snd (evaluate ev bdiff h v mode key st None)).
Proof.
  intros h v mode key st C Hok. unfold evaluate.
  set (sc := match dget (v_cache v) mode with Some x => x | None => [] end).
  set (c := match dget sc st with Some x => x | None => [] end).
  assert (SC : NoDup (map fst sc) /\ (forall k, In k (map fst sc) -> (k <= 0)%Z) /\ (v_step v = 0 -> dget sc (-1) = None) /\
    forall st c key b, (st = 0%Z \/ st = (-1)%Z) -> dget sc st = Some c -> kget c key = Some b ->
      good (comp h v mode key st None) b).
  { unfold sc. destruct (dget (v_cache v) mode) as [x|] eqn:G; [apply C; auto|].
    split; [constructor|]. split; [intros k []|]. split; [auto|]. intros; discriminate. }
  destruct SC as (N & K & Z & F).
  assert (Main : forall c', (forall key b, kget c' key = Some b -> good (comp h v mode key st None) b) ->
     CInv h (set_vcache v (dset (v_cache v) mode (dset sc st c')))).
  { intros c' Hc' md sc' G. cbn [set_vcache v_cache] in G. rewrite dget_dset in G.
    assert (CF : forall mode0 key0 t, comp h (set_vcache v (dset (v_cache v) mode (dset sc st c'))) mode0 key0 t None = comp h v mode0 key0 t None)
      by (intros; apply comp_frame; reflexivity).
    destruct (Z.eqb_spec md mode) as [->|Hmd].
    - inversion G; subst sc'. clear G. split; [apply NoDup_dset; auto|]. split.
      { intros k Hk. apply keys_dset in Hk. destruct Hk as [->|Hk]; auto. destruct Hok as [->|[-> _]]; lia. }
      split.
      { cbn [v_step set_vcache]. intros H0. rewrite dget_dset. destruct (Z.eqb_spec (-1) st) as [<-|]; auto.
        destruct Hok as [?|[_ ?]]; [discriminate|contradiction]. }
      intros st' c0 key0 b Hst Gc Gk. rewrite CF. rewrite dget_dset in Gc.
      destruct (Z.eqb_spec st' st) as [->|]; [inversion Gc; subst; auto|eapply F; eauto].
    - destruct (C _ _ G) as (N' & K' & Z' & F'). split; [exact N'|]. split; [exact K'|]. split; [exact Z'|]. intros. rewrite CF. eapply F'; eauto. }
  assert (Hc : forall key b, kget c key = Some b -> good (comp h v mode key st None) b).
  { intros k b Hk. unfold c in Hk. destruct (dget sc st) as [c0|] eqn:G; [|discriminate]. eapply F; eauto. destruct Hok as [->|[-> _]]; auto. }
  destruct (kget c key) as [b|] eqn:Kc; [apply Main; auto|].
  destruct (compute ev bdiff h v mode key st None) as [b|x] eqn:E; [|apply Main; auto].
  apply Main. intros k b' Hk. rewrite kget_cons in Hk.
  destruct (_ && _) eqn:Ek; [|auto]. inversion Hk; subst b'. left. rewrite <- E.
  apply andb_prop in Ek. destruct Ek as [E1 E2]. apply Z.eqb_eq in E1. apply eqb_prop in E2.
  destruct k, key. simpl in *. subst. reflexivity.
Qed.

Lemma run_CInv : forall a h v, run ev bdiff s e n v0 m ok_eval a h v -> CInv h v.
Proof.
  intros a h v R. pose proof R as R0. induction R as [H L Hh Hc He|a h v i v' R IH Hi E|a h v i x h' v' R IH Hi Lx E|a h v t h' v' R IH Cn E|a h v mode key st R IH Hok|a h v st R IH|a h v R IH].
  - intros mode sc G. unfold init_history in G. rewrite Hh in G. cbn in G. rewrite Hc in G. discriminate.
  - specialize (IH R). pose proof (run_Inv Hse R) as I. destruct (Inv_set Hse I Hi E) as (I' & Es & Ec).
    eapply CInv_pop; eauto. intros mode key t Ht H0 Hv b. destruct Ht as [->| ->]; [congruence|].
    assert (V : v_step v <> 0) by auto.
    rewrite (comp_m1 I I'); auto; try (simpl; eapply cur_of_step; eauto); try discriminate; congruence.
  - specialize (IH R). pose proof (run_Inv Hse R) as I. destruct (Inv_write Hse I Hi Lx E) as (I' & Es & Ec).
    eapply CInv_pop; eauto. intros mode key t Ht H0 Hv b. destruct Ht as [->| ->]; [congruence|].
    assert (V : v_step v <> 0) by auto.
    rewrite (comp_m1 I I'); auto; try (simpl; eapply cur_of_step; eauto); try discriminate; congruence.
  - specialize (IH R). pose proof (run_Inv Hse R) as I. eapply CInv_advance; eauto.
  - specialize (IH R). apply CInv_evaluate; auto.
  - specialize (IH R). eapply CInv_pop with (st := st); eauto; try reflexivity.
  - intros mode sc G. discriminate.
Qed.

End L.
