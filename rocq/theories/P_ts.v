(** C27-C30: time steppers. *)
From Coq Require Import NArith QArith Qround Qabs Lqa.
From Verif Require Import Base M_ts L_ts.
Set Implicit Arguments.
Open Scope nat_scope.

(** ** C30: formatting of step numbers *)

(** The order of strings. *)
Inductive lex : list N -> list N -> Prop :=
| lex_nil : forall y t, lex [] (y :: t)
| lex_here : forall x y s t, (x < y)%N -> lex (x :: s) (y :: t)
| lex_next : forall x s t, lex s t -> lex (x :: s) (x :: t).

Lemma lex_val : forall l1 l2 a, length l1 = length l2 ->
  (forall d, In d l1 -> (d < 10)%N) -> (forall d, In d l2 -> (d < 10)%N) ->
  (fold_left (fun a d => (10 * a + d)%N) l1 a < fold_left (fun a d => (10 * a + d)%N) l2 a)%N -> lex l1 l2.
Proof.
  induction l1 as [|x s IH]; intros [|y t] a L H1 H2 V; cbn [fold_left] in V; try discriminate; [lia|].
  inversion L as [L'].
  destruct (N.lt_trichotomy x y) as [C|[->|C]].
  - apply lex_here; auto.
  - apply lex_next. eapply IH; eauto; intros; [apply H1|apply H2]; simpl; auto.
  - exfalso. destruct (@val_bound s (10 * a + x)) as [B1 _]; [intros; apply H1; simpl; auto|].
    destruct (@val_bound t (10 * a + y)) as [_ B2]; [intros; apply H2; simpl; auto|].
    rewrite L' in B1. remember (10 ^ N.of_nat (length t))%N as P. nia.
Qed.

(** The suffixes of the names of all steps of a time stepper with [n] steps
    have the same length, the number of digits of the last step number, and
    their alphabetical order is the time order. *)
Theorem C30_format : forall n, (1 <= n)%Z ->
  let w := get_print_info n in
  (10 ^ N.of_nat (w - 1) <= N.max 1 (Z.to_N (n - 1)) < 10 ^ N.of_nat w)%N /\
  (forall k, (Z.of_N k < n)%Z -> length (format_step w k) = w /\ val (format_step w k) = k /\
             (forall d, In d (format_step w k) -> (d < 10)%N)) /\
  (forall j k, (j < k)%N -> (Z.of_N k < n)%Z -> lex (format_step w j) (format_step w k)).
Proof.
  intros n Hn w.
  assert (W : exists w', w = S w' /\ (10 ^ N.of_nat w' <= N.max 1 (Z.to_N (n - 1)) < 10 ^ N.of_nat w)%N).
  { unfold w, get_print_info. destruct (Z.ltb_spec 1 n) as [H|H].
    - destruct (@int_log10p1_ok (Z.to_N (n - 1))) as (k & E & B); [lia|]. exists (N.to_nat k). rewrite E.
      replace (N.to_nat (k + 1)) with (S (N.to_nat k)) by lia. split; auto.
      rewrite N2Nat.id. replace (N.of_nat (S (N.to_nat k))) with (k + 1)%N by lia. lia.
    - exists 0. split; auto. replace n with 1%Z by lia. cbn. lia. }
  destruct W as (w' & Ew & B). split; [rewrite Ew in *; replace (S w' - 1) with w' by lia; auto|].
  assert (F : forall k, (Z.of_N k < n)%Z -> length (format_step w k) = w /\ val (format_step w k) = k /\
             (forall d, In d (format_step w k) -> (d < 10)%N)).
  { intros k Hk. unfold format_step. rewrite app_length, repeat_length.
    assert (length (digits k) <= w). { rewrite Ew. apply digits_len. rewrite <- Ew. lia. }
    split; [lia|]. split; [rewrite val_zeros; apply val_digits|].
    intros d Hd. apply in_app_or in Hd. destruct Hd as [Hd|Hd]; [apply repeat_spec in Hd; subst; lia|].
    eapply digits_lt; eauto. }
  split; auto. intros j k Hjk Hk. destruct (F k Hk) as (L1 & V1 & D1). destruct (F j) as (L2 & V2 & D2); [lia|].
  apply lex_val with (a := 0%N); auto; [congruence|]. unfold val in *. rewrite V1, V2. auto.
Qed.

Example C30_ex : get_print_info 1000 = 3 /\ get_print_info 1001 = 4 /\ get_print_info 1 = 1 /\
  format_step 4 37 = [0; 0; 3; 7]%N.
Proof. vm_compute. auto. Qed.

(** ** C27: uniform time steps *)

(** The number of steps given by a time step size: the closest one. *)
Theorem C27_n_step : forall a b d, (0 < d)%Q ->
  (Qabs (inject_Z (get_n_step a b d - 1) * d - (b - a)) <= d / 2)%Q.
Proof.
  intros a b d Hd. unfold get_n_step. replace (Qfloor ((b - a) / d + (1 # 2)) + 1 - 1)%Z with (Qfloor ((b - a) / d + (1 # 2))) by lia.
  set (x := ((b - a) / d)%Q). set (f := Qfloor (x + (1 # 2))).
  assert (E : (b - a == x * d)%Q) by (unfold x; field; lra).
  pose proof (Qfloor_le (x + (1 # 2))) as F1. pose proof (Qlt_floor (x + (1 # 2))) as F2. fold f in F1, F2.
  rewrite inject_Z_plus in F2. change (inject_Z 1) with 1%Q in F2.
  rewrite E. apply Qabs_case; intros _; setoid_replace (d / 2)%Q with ((1 # 2) * d)%Q by field; nra.
Qed.

(** Every time stepper with at least one step: the times. *)
Theorem C27_times : forall a b d n st s, ~ (a == b)%Q ->
  make_ts a b d (Some n) st = Ok s ->
  (1 <= n)%Z /\ n_step s = n /\ t0 s = a /\ t1 s = b /\ length (times s) = Z.to_nat n /\
  (forall k, (k < Z.to_nat n) -> (nth k (times s) 0 == a + inject_Z (Z.of_nat k) * ((b - a) / inject_Z (Z.max 1 (n - 1))))%Q) /\
  nth 0 (times s) 0%Q == a /\ ((1 < n)%Z -> nth (Z.to_nat n - 1) (times s) 0%Q = b) /\
  (dt s == (b - a) / inject_Z (Z.max 1 (n - 1)))%Q /\
  time s = nth (step s) (times s) 0%Q /\ step s < Z.to_nat n /\ nt s == (time s - a) / (b - a).
Proof.
  intros a b d n st s Hab E. unfold make_ts in E.
  set (p := if (1 <? n)%Z then linspace a b (Z.to_nat n) else ([a], (b - a)%Q)) in E.
  destruct p as [tm d'] eqn:Ep.
  set (s0 := mkTs a b n tm d' 0 a 0) in E.
  unfold set_step in E. set (z := match st with None => 0%Z | Some z => z end) in E.
  set (z' := if (z <? 0)%Z then (n_step s0 + z)%Z else z) in E.
  destruct (_ || _) eqn:Eo in E; [discriminate|]. apply orb_false_iff in Eo. destruct Eo as [E1 E2].
  apply Z.leb_gt in E1. apply Z.ltb_ge in E2. cbn [n_step s0] in E1.
  inversion E; subst s. clear E. cbn [n_step t0 t1 times dt time step nt].
  assert (Hn : (1 <= n)%Z) by lia.
  assert (P : length tm = Z.to_nat n /\
     (forall k, (k < Z.to_nat n) -> (nth k tm 0 == a + inject_Z (Z.of_nat k) * ((b - a) / inject_Z (Z.max 1 (n - 1))))%Q) /\
     ((1 < n)%Z -> nth (Z.to_nat n - 1) tm 0%Q = b) /\ (d' == (b - a) / inject_Z (Z.max 1 (n - 1)))%Q).
  { unfold p in Ep. destruct (Z.ltb_spec 1 n) as [H1|H1].
    - unfold linspace in Ep. inversion Ep; subst tm d'. clear Ep.
      rewrite app_length, map_length, seq_length. cbn [length].
      assert (EM : Z.max 1 (n - 1) = Z.of_nat (Z.to_nat n - 1)) by lia. rewrite EM.
      split; [lia|]. split; [|split; [|reflexivity]].
      + intros k Hk. destruct (Nat.eq_dec k (Z.to_nat n - 1)) as [->|Hne].
        * rewrite app_nth2 by (rewrite map_length, seq_length; lia). rewrite map_length, seq_length, Nat.sub_diag. cbn [nth].
          field. intros HH. unfold Qeq in HH. simpl in HH. lia.
        * rewrite app_nth1 by (rewrite map_length, seq_length; lia).
          rewrite nth_map_in with (da := 0) by (rewrite seq_length; lia). rewrite seq_nth by lia. simpl plus. ring.
      + intros _. rewrite app_nth2 by (rewrite map_length, seq_length; lia). rewrite map_length, seq_length, Nat.sub_diag. reflexivity.
    - inversion Ep; subst tm d'. assert (n = 1%Z) by lia. subst n. cbn [length]. split; [reflexivity|]. split.
      + intros k Hk. change (Z.to_nat 1) with 1 in Hk. replace k with 0 by lia. cbn [nth]. change (inject_Z (Z.of_nat 0)) with 0%Q. ring.
      + split; [intros; lia|]. change (inject_Z (Z.max 1 (1 - 1))) with 1%Q. field. }
  destruct P as (P1 & P2 & P3 & P4). split; auto. split; auto. split; auto. split; auto. split; auto. split; auto.
  split. { rewrite P2 by lia. change (inject_Z (Z.of_nat 0)) with 0%Q. ring. }
  split; auto. split; auto. split; auto. split; [lia|]. reflexivity.
Qed.

(** set_step() accepts exactly the steps -n_step, ..., n_step - 1. *)
Theorem C27_set_step : forall s st,
  match set_step s (Some st) with
  | Ok s' => (- n_step s <= st < n_step s)%Z /\ Z.of_nat (step s') = (if (st <? 0)%Z then n_step s + st else st)%Z /\
             time s' = nth (step s') (times s) 0%Q /\ nt s' = normalize (t0 s) (t1 s) (time s') /\
             n_step s' = n_step s /\ times s' = times s /\ dt s' = dt s /\ t0 s' = t0 s /\ t1 s' = t1 s
  | Err e => e = ValueError /\ ~ (- n_step s <= st < n_step s)%Z
  end.
Proof.
  intros s st. unfold set_step. destruct (Z.ltb_spec st 0) as [H|H].
  - destruct (_ || _) eqn:Eo.
    + split; auto. apply orb_prop in Eo. destruct Eo as [E|E]; [apply Z.leb_le in E|apply Z.ltb_lt in E]; lia.
    + apply orb_false_iff in Eo. destruct Eo as [E1 E2]. apply Z.leb_gt in E1. apply Z.ltb_ge in E2.
      cbn. split; [lia|]. split; [lia|]. repeat split; auto.
  - destruct (_ || _) eqn:Eo.
    + split; auto. apply orb_prop in Eo. destruct Eo as [E|E]; [apply Z.leb_le in E|apply Z.ltb_lt in E]; lia.
    + apply orb_false_iff in Eo. destruct Eo as [E1 E2]. apply Z.leb_gt in E1. apply Z.ltb_ge in E2.
      cbn. split; [lia|]. split; [lia|]. repeat split; auto.
Qed.

(** advance() goes to the next step; it does nothing in the last one. *)
Theorem C27_advance : forall s, (Z.of_nat (step s) < n_step s)%Z ->
  if (Z.of_nat (step s) =? n_step s - 1)%Z then advance s = s
  else step (advance s) = S (step s) /\ time (advance s) = nth (S (step s)) (times s) 0%Q /\
       nt (advance s) = normalize (t0 s) (t1 s) (time (advance s)) /\
       n_step (advance s) = n_step s /\ times (advance s) = times s /\ dt (advance s) = dt s.
Proof.
  intros s H. unfold advance. destruct (Z.eqb_spec (Z.of_nat (step s)) (n_step s - 1)) as [E|E].
  - destruct (Z.ltb_spec (Z.of_nat (step s)) (n_step s - 1)); auto. lia.
  - destruct (Z.ltb_spec (Z.of_nat (step s)) (n_step s - 1)); [|lia]. cbn. repeat split; auto.
Qed.

Lemma iter_loop_ok : forall k s, (Z.of_nat (step s + k) = n_step s)%Z -> time s = nth (step s) (times s) 0%Q ->
  iter_loop k s = (map (fun j => (j, nth j (times s) 0%Q)) (seq (step s) k), snd (iter_loop k s)) /\
  (0 < k -> step (snd (iter_loop k s)) = step s + k - 1 /\ time (snd (iter_loop k s)) = nth (step s + k - 1) (times s) 0%Q).
Proof.
  induction k as [|k IH]; intros s H Ht; [split; [reflexivity|lia]|]. cbn [iter_loop seq map].
  destruct (Nat.eq_dec k 0) as [->|Hk].
  - cbn [iter_loop seq map snd fst]. split; [rewrite <- Ht; reflexivity|]. intros _.
    pose proof (C27_advance s ltac:(lia)) as A. destruct (Z.eqb_spec (Z.of_nat (step s)) (n_step s - 1)); [|lia].
    rewrite A. replace (step s + 1 - 1) with (step s) by lia. auto.
  - pose proof (C27_advance s ltac:(lia)) as A. destruct (Z.eqb_spec (Z.of_nat (step s)) (n_step s - 1)); [lia|].
    destruct A as (A1 & A2 & A3 & A4 & A5 & A6).
    destruct (IH (advance s)) as [I1 I2]; [rewrite A1, A4; lia|rewrite A2, A1, A5; auto|].
    destruct (iter_loop k (advance s)) as [l s'] eqn:EI. cbn [snd fst] in *. inversion I1; subst l.
    rewrite A1, A5 in *. split; [rewrite <- Ht; reflexivity|]. intros _. destruct I2 as [I2 I3]; [lia|].
    rewrite I2, I3. split; [lia|f_equal; lia].
Qed.

(** Iterating from an accepted step (negative ones from the end) yields all the
    steps from it to the last one, with their times, and ends in the last one.
    A rejected step raises ValueError. *)
Theorem C27_iter : forall s st, length (times s) = Z.to_nat (n_step s) ->
  match iter_from s st with
  | Ok (l, s') => (- n_step s <= st < n_step s)%Z /\
      (exists k, Z.of_nat k = (if (st <? 0)%Z then n_step s + st else st)%Z /\
         l = map (fun j => (j, nth j (times s) 0%Q)) (seq k (Z.to_nat (n_step s) - k))) /\
      step s' = Z.to_nat (n_step s) - 1 /\ time s' = nth (Z.to_nat (n_step s) - 1) (times s) 0%Q
  | Err e => e = ValueError /\ ~ (- n_step s <= st < n_step s)%Z
  end.
Proof.
  intros s st HL. unfold iter_from. pose proof (C27_set_step s st) as S. destruct (set_step s (Some st)) as [s'|e]; auto.
  destruct S as (S1 & S2 & S3 & S4 & S5 & S6 & S7 & S8 & S9).
  assert (LP : length (py_from (times s') st) = Z.to_nat (n_step s) - step s').
  { rewrite S6. unfold py_from. destruct (Z.leb_spec 0 st), (Z.ltb_spec st 0); try lia; rewrite skipn_length, HL; lia. }
  rewrite LP. destruct (@iter_loop_ok (Z.to_nat (n_step s) - step s') s') as [I1 I2].
  { rewrite S5. destruct (Z.ltb_spec st 0); lia. }
  { rewrite S6; auto. }
  destruct (iter_loop _ s') as [l s2]. cbn [snd] in *. inversion I1; subst l. split; auto.
  destruct I2 as [I2 I3]; [destruct (Z.ltb_spec st 0); lia|].
  split; [exists (step s'); split; auto; rewrite S6; auto|].
  rewrite I2, I3, S6. replace (step s' + (Z.to_nat (n_step s) - step s') - 1) with (Z.to_nat (n_step s) - 1) by (destruct (Z.ltb_spec st 0); lia).
  auto.
Qed.

(** So, iteration over a new time stepper: steps 0, ..., n - 1. *)
Theorem C27_visits_all : forall a b d n s, ~ (a == b)%Q -> make_ts a b d (Some n) None = Ok s ->
  exists l s', iter_from s 0 = Ok (l, s') /\ length l = Z.to_nat n /\
  forall k, k < Z.to_nat n -> fst (nth k l (0%nat, 0%Q)) = k /\
    (snd (nth k l (0%nat, 0%Q)) == a + inject_Z (Z.of_nat k) * ((b - a) / inject_Z (Z.max 1 (n - 1))))%Q.
Proof.
  intros a b d n s Hab E. destruct (C27_times _ _ _ Hab E) as (H1 & H2 & _ & _ & H3 & H4 & _).
  pose proof (C27_iter s 0) as I. rewrite H2 in I. specialize (I H3). destruct (iter_from s 0) as [[l s']|e].
  - destruct I as (_ & (k & Hk & ->) & _). simpl in Hk. assert (k = 0) by lia. subst k.
    eexists _, _. split; [reflexivity|]. rewrite map_length, seq_length. split; [lia|]. intros k Hk'.
    rewrite nth_map_in with (da := 0) by (rewrite seq_length; lia). rewrite seq_nth by lia. cbn [fst snd plus]. split; auto.
  - exfalso. lia.
Qed.

Example C27_ex : match make_ts 0 2 None (Some 5%Z) None with
  | Ok s => match iter_from s (-2) with
            | Ok (l, _) => map (fun p => (fst p, Qred (snd p))) l = [(3, (3 # 2)%Q); (4, 2%Q)]
            | _ => False end
  | _ => False end.
Proof. vm_compute. reflexivity. Qed.

(** ** C29: comparison.  The code compares the absolute values of the truth
    values of equalities: equal time levels make the steppers unequal. *)
Theorem C29_actual : forall a b,
  ts_eq a b = true <-> (~ (t0 a == t0 b)%Q /\ ~ (t1 a == t1 b)%Q /\ n_step a = n_step b).
Proof.
  intros a b. unfold ts_eq. rewrite !andb_true_iff, !negb_true_iff. rewrite Z.eqb_eq.
  assert (K : forall x, Qle_bool (1 # 1000000000000000) (abs_bool x) = x) by (intros []; reflexivity).
  rewrite !K. rewrite <- !not_true_iff_false, !Qeq_bool_iff. tauto.
Qed.

Theorem C29_refuted : exists a b, make_ts 0 1 None (Some 3%Z) None = Ok a /\ ts_eq a a = false /\
  make_ts 5 7 None (Some 3%Z) None = Ok b /\ ts_eq a b = true.
Proof. eexists _, _. split; [reflexivity|]. split; [reflexivity|]. split; [reflexivity|]. reflexivity. Qed.

(** ** C28: variable time steps *)

Section Var.

(** The stepper is consistent with its list of times. *)
Definition vts_ok (h : theap) (s : vts) : Prop :=
  w_times s < length h /\
  length (tderef h (w_times s)) = w_step s + 1 /\ w_nstep s = w_step s + 1 /\
  w_time s = nth (w_step s) (tderef h (w_times s)) 0%Q /\
  nth 0 (tderef h (w_times s)) 0%Q = w_t0 s /\
  (w_nt s == (w_time s - w_t0 s) / (w_t1 s - w_t0 s))%Q /\
  (forall k, k < w_step s -> (nth k (tderef h (w_times s)) 0 < nth (S k) (tderef h (w_times s)) 0)%Q).

(** What can be done with a time stepper: advance with the current positive step
    size, set a new step size (for the next step, or repeating the last step). *)
Inductive vop := VAdvance | VSet (d : Q) | VRepeat (d : Q) | VReset.
Definition vexec (o : vop) (hs : theap * vts) : res (theap * vts) :=
  let '(h, s) := hs in
  match o with
  | VAdvance => Ok (vadvance h s)
  | VSet d => Ok (set_time_step h s d false)
  | VRepeat d => Ok (set_time_step h s d true)
  | VReset => vset_step h s (Some 0%Z)
  end.
(** Allowed use: positive sizes, repeating only after the first advance. *)
Definition vok (o : vop) (s : vts) : Prop :=
  match o with
  | VSet d => (0 < d)%Q | VRepeat d => (0 < d)%Q /\ 0 < w_step s | _ => True
  end.
Inductive vreach (h0 : theap) (a b : Q) (d : option Q) (n : option Z) : theap * vts -> Prop :=
| vr_init : forall hs, make_vts h0 a b d n = Ok hs -> vreach h0 a b d n hs
| vr_step : forall hs hs' o, vreach h0 a b d n hs -> vok o (snd hs) -> vexec o hs = Ok hs' -> vreach h0 a b d n hs'.

Lemma vset0_ok : forall h s h' s', vset_step h s (Some 0%Z) = Ok (h', s') -> ~ (w_t0 s == w_t1 s)%Q ->
  vts_ok h' s' /\ w_dt s' = w_dt s /\ w_t0 s' = w_t0 s /\ w_t1 s' = w_t1 s.
Proof.
  intros h s h' s' E Hab. unfold vset_step in E. simpl in E. inversion E; subst. unfold vts_ok, tderef. cbn.
  rewrite app_length, nth_middle. cbn. split; [|repeat split; auto].
  split; [lia|]. split; auto. split; auto. split; auto. split; auto. split; [|intros; lia].
  field. lra.
Qed.

Theorem C28_consistent : forall h0 a b d n, (a < b)%Q ->
  (match n with Some z => (1 <= z)%Z | None => match d with Some x => (0 < x)%Q | None => True end end) ->
  forall hs, vreach h0 a b d n hs ->
  vts_ok (fst hs) (snd hs) /\ (0 < w_dt (snd hs))%Q /\ w_t0 (snd hs) = a /\ w_t1 (snd hs) = b.
Proof.
  intros h0 a b d n Hab Hn hs R. induction R as [hs E|hs hs' o R IH Hok E].
  - destruct hs as [h s]. unfold make_vts in E.
    set (d1 := match d with Some x => x | None => (b - a)%Q end) in E.
    set (n1 := match n with Some x => x | None => get_n_step a b d1 end) in E.
    set (d' := (if (1 <? n1)%Z then (b - a) / inject_Z (n1 - 1) else b - a)%Q) in E.
    change (vset_step h0 (mkVts a b n1 0 0 d' d' 0 a 0) None) with (vset_step h0 (mkVts a b n1 0 0 d' d' 0 a 0) (Some 0%Z)) in E.
    apply vset0_ok in E; [|cbn; lra]. destruct E as (E1 & E2 & E3 & E4). cbn [fst snd]. cbn in E2, E3, E4.
    rewrite E2, E3, E4. split; auto. split; auto.
    unfold d'. destruct (Z.ltb_spec 1 n1); [|lra]. apply Qlt_shift_div_l; [|lra].
    replace 0%Q with (inject_Z 0) by reflexivity. rewrite <- Zlt_Qlt. lia.
  - destruct hs as [h s], hs' as [h' s']. cbn [fst snd] in *. destruct IH as (I & Hd & Ha & Hb).
    destruct I as (I0 & I1 & I2 & I3 & I4 & I5 & I6).
    set (l := tderef h (w_times s)) in *.
    assert (U : forall x, tderef (upd h (w_times s) x) (w_times s) = x).
    { intros. unfold tderef. apply nth_upd_eq; auto. }
    destruct o as [|x|x|]; cbn [vexec] in E.
    + inversion E; subst h' s'; clear E. unfold vts_ok. cbn. rewrite U, length_upd. fold l.
      split; [|auto]. split; [auto|]. rewrite app_length. cbn [length].
      split; [lia|]. split; [lia|].
      assert (NL : nth (S (w_step s)) (l ++ [(w_time s + w_dt s)%Q]) 0%Q = (w_time s + w_dt s)%Q).
      { rewrite app_nth2 by lia. rewrite I1. replace (S (w_step s) - (w_step s + 1)) with 0 by lia. reflexivity. }
      split; [auto|]. split; [rewrite app_nth1 by lia; auto|]. split; [reflexivity|].
      intros k Hk. destruct (Nat.eq_dec k (w_step s)) as [->|].
      * rewrite NL. rewrite app_nth1 by lia. rewrite <- I3. lra.
      * rewrite !app_nth1 by lia. apply I6. lia.
    + cbn in Hok. inversion E; subst h' s'; clear E. unfold vts_ok. cbn. fold l. split; [|auto].
      split; auto. split; auto.
    + destruct Hok as [Hx Hs]. inversion E; subst h' s'; clear E. unfold vts_ok. cbn. rewrite U, !length_upd.
      destruct (w_step s) as [|k0] eqn:Es; [lia|]. fold l.
      split; [|auto]. split; [auto|]. split; auto. split; auto. split; [rewrite nth_upd_eq by lia; auto|].
      split; [rewrite nth_upd_neq by lia; auto|]. split; [reflexivity|].
      intros k Hk. destruct (Nat.eq_dec k k0) as [->|].
      * rewrite nth_upd_neq by lia. rewrite nth_upd_eq by lia. lra.
      * rewrite !nth_upd_neq by lia. apply I6. lia.
    + apply vset0_ok in E; [|rewrite Ha, Hb; lra]. destruct E as (E1 & E2 & E3 & E4). rewrite E2, E3, E4. auto.
Qed.

(** What the operations do with the sequence of times. *)
Theorem C28_step_times : forall h0 a b d n, (a < b)%Q ->
  (match n with Some z => (1 <= z)%Z | None => match d with Some x => (0 < x)%Q | None => True end end) ->
  forall hs hs' o, vreach h0 a b d n hs -> vok o (snd hs) -> vexec o hs = Ok hs' ->
  let ts := tderef (fst hs) (w_times (snd hs)) in
  let ts' := tderef (fst hs') (w_times (snd hs')) in
  match o with
  | VAdvance => ts' = ts ++ [last ts 0 + w_dt (snd hs)]%Q
  | VSet x => ts' = ts /\ w_dt (snd hs') = x
  | VRepeat x => exists l, ts' = l ++ [last l 0 + x]%Q /\ ts = l ++ [last ts 0%Q] /\ w_dt (snd hs') = x
  | VReset => ts' = [a]
  end.
Proof.
  intros h0 a b d n Hab Hn hs hs' o R Hok E.
  destruct (C28_consistent Hab Hn R) as ((I0 & I1 & I2 & I3 & I4 & I5 & I6) & _ & Ha & _).
  destruct hs as [h s], hs' as [h' s']. cbn [fst snd] in *. set (l := tderef h (w_times s)) in *.
  assert (U : forall x, tderef (upd h (w_times s) x) (w_times s) = x).
  { intros. unfold tderef. apply nth_upd_eq; auto. }
  assert (LL : exists l0 y, l = l0 ++ [y] /\ length l0 = w_step s).
  { destruct (exists_last (l := l)) as (l0 & y & El); [intros E0; rewrite E0 in I1; simpl in I1; lia|]. exists l0, y. split; auto.
    rewrite El, app_length in I1. simpl in I1. lia. }
  destruct LL as (l0 & y & El & L0). assert (Ty : w_time s = y) by (rewrite I3, El, app_nth2, L0, Nat.sub_diag by lia; auto).
  destruct o as [|x|x|]; cbn [vexec] in E.
  - inversion E; subst h' s'; clear E. cbn. rewrite U. fold l. rewrite El, last_last, Ty. reflexivity.
  - inversion E; subst h' s'; clear E. cbn. auto.
  - destruct Hok as [Hx Hs]. inversion E; subst h' s'; clear E. cbn. rewrite U. fold l.
    destruct (w_step s) as [|k0] eqn:Es; [lia|]. exists l0. rewrite El, last_last. split; [|auto].
    rewrite app_nth1 by lia. assert (EL : last l0 0%Q = nth k0 l0 0%Q).
    { destruct (exists_last (l := l0)) as (l1 & z & E1); [intros E0; rewrite E0 in L0; discriminate|]. rewrite E1, last_last, app_nth2; rewrite E1, app_length in L0; simpl in L0; [|lia].
      replace (k0 - length l1) with 0 by lia. reflexivity. }
    rewrite EL, <- L0. generalize (nth k0 l0 0 + x)%Q. clear. intros q. induction l0 as [|w l0 IH]; [reflexivity|]. cbn. f_equal. apply IH.
  - unfold vset_step in E. simpl in E. inversion E; subst h' s'; clear E. cbn. unfold tderef. rewrite nth_middle, Ha. reflexivity.
Qed.

(** Iteration: the yielded steps are consecutive; iteration continues exactly
    while the time (after the loop body) is before [t1]. *)
Definition body_ok (body : theap -> vts -> theap * vts) : Prop :=
  forall h s, vts_ok h s -> (0 < w_dt s)%Q ->
    let '(h', s') := body h s in
    vts_ok h' s' /\ (0 < w_dt s')%Q /\ w_step s' = w_step s /\ w_t0 s' = w_t0 s /\ w_t1 s' = w_t1 s /\
    (w_time s' == w_time s)%Q.

Lemma vadvance_ok : forall h s, vts_ok h s -> (0 < w_dt s)%Q ->
  let '(h', s') := vadvance h s in vts_ok h' s' /\ w_dt s' = w_dt s /\ w_step s' = S (w_step s) /\
  w_t0 s' = w_t0 s /\ w_t1 s' = w_t1 s /\ (w_time s < w_time s')%Q.
Proof.
  intros h s (I0 & I1 & I2 & I3 & I4 & I5 & I6) Hd. cbn.
  set (l := tderef h (w_times s)) in *.
  assert (U : forall x, tderef (upd h (w_times s) x) (w_times s) = x).
  { intros. unfold tderef. apply nth_upd_eq; auto. }
  split; [|repeat split; auto; lra]. unfold vts_ok. cbn. rewrite U, length_upd.
  split; [auto|]. rewrite app_length. cbn [length]. split; [lia|]. split; [lia|].
  assert (NL : nth (S (w_step s)) (l ++ [(w_time s + w_dt s)%Q]) 0%Q = (w_time s + w_dt s)%Q).
  { rewrite app_nth2 by lia. rewrite I1. replace (S (w_step s) - (w_step s + 1)) with 0 by lia. reflexivity. }
  split; [auto|]. split; [rewrite app_nth1 by lia; auto|]. split; [reflexivity|].
  intros k Hk. destruct (Nat.eq_dec k (w_step s)) as [->|].
  - rewrite NL. rewrite app_nth1 by lia. rewrite <- I3. lra.
  - rewrite !app_nth1 by lia. apply I6. lia.
Qed.

Lemma nt_ge : forall h s, vts_ok h s -> (w_t0 s < w_t1 s)%Q -> Qle_bool 1 (w_nt s) = true <-> (w_t1 s <= w_time s)%Q.
Proof.
  intros h s (_ & _ & _ & _ & _ & E & _) H. rewrite Qle_bool_iff. rewrite E. split; intros HH.
  - apply Qmult_le_compat_r with (z := (w_t1 s - w_t0 s)%Q) in HH; [|lra].
    setoid_replace ((w_time s - w_t0 s) / (w_t1 s - w_t0 s) * (w_t1 s - w_t0 s))%Q with (w_time s - w_t0 s)%Q in HH by (field; lra). lra.
  - apply Qle_shift_div_l; lra.
Qed.

(** For any loop body that does not change the current time (it may change the
    step size): if the iteration ends, it yielded consecutive steps with
    strictly increasing times, all but the last one before [t1], the last one
    not before [t1]. *)
Theorem C28_iteration : forall body, body_ok body -> forall fuel h s out h' s',
  vts_ok h s -> (0 < w_dt s)%Q -> (w_t0 s < w_t1 s)%Q ->
  viter fuel body h s [] = Ok (out, h', s') ->
  out <> [] /\ map fst out = seq (w_step s) (length out) /\
  (forall k, S k < length out -> (snd (nth k out (0%nat, 0%Q)) < w_t1 s)%Q /\ (snd (nth k out (0%nat, 0%Q)) < snd (nth (S k) out (0%nat, 0%Q)))%Q) /\
  snd (nth 0 out (0%nat, 0%Q)) = w_time s /\
  (w_t1 s <= snd (last out (0%nat, 0%Q)))%Q /\ vts_ok h' s'.
Proof.
  intros body HB.
  assert (G : forall fuel h s out acc h' s', vts_ok h s -> (0 < w_dt s)%Q -> (w_t0 s < w_t1 s)%Q ->
    viter fuel body h s acc = Ok (out, h', s') ->
    exists l, out = acc ++ l /\ l <> [] /\ map fst l = seq (w_step s) (length l) /\
    (forall k, S k < length l -> (snd (nth k l (0%nat, 0%Q)) < w_t1 s)%Q /\ (snd (nth k l (0%nat, 0%Q)) < snd (nth (S k) l (0%nat, 0%Q)))%Q) /\
    snd (nth 0 l (0%nat, 0%Q)) = w_time s /\ (w_t1 s <= snd (last l (0%nat, 0%Q)))%Q /\ vts_ok h' s').
  { induction fuel as [|f IH]; intros h s out acc h' s' I Hd Ht E; [discriminate|]. cbn [viter] in E.
    pose proof (HB h s I Hd) as B. destruct (body h s) as [h1 s1]. destruct B as (B1 & B2 & B3 & B4 & B5 & B6).
    pose proof (@nt_ge h1 s1 B1 ltac:(rewrite B4, B5; auto)) as NG. rewrite B5, B6 in NG.
    destruct (Qle_bool 1 (w_nt s1)) eqn:EQ.
    - inversion E; subst. exists [(w_step s, w_time s)]. split; auto. split; [discriminate|]. split; auto.
      split; [intros k Hk; simpl in Hk; lia|]. split; [reflexivity|]. split; auto. cbn. apply NG. auto.
    - assert (Lt : (w_time s < w_t1 s)%Q).
      { apply Qnot_le_lt. intros HH. apply NG in HH. discriminate. }
      pose proof (vadvance_ok B1 B2) as A. destruct (vadvance h1 s1) as [h2 s2]. destruct A as (A1 & A2 & A3 & A4 & A5 & A6).
      destruct (IH _ _ _ _ _ _ A1 ltac:(rewrite A2; auto) ltac:(rewrite A4, A5, B4, B5; auto) E) as (l & -> & L1 & L2 & L3 & L4 & L5 & L6).
      exists ((w_step s, w_time s) :: l). split; [rewrite <- app_assoc; reflexivity|]. split; [discriminate|].
      cbn [map length seq fst]. rewrite L2. rewrite A3, B3. split; auto. split; [|split; [reflexivity|split; [|auto]]].
      + intros k Hk. destruct k as [|k].
        * cbn [nth snd]. split; auto. rewrite L4. rewrite <- B6. auto.
        * cbn [nth]. assert (Hk' : S k < length l) by (simpl in Hk; lia). specialize (L3 k Hk'). rewrite A5, B5 in L3. exact L3.
      + destruct l as [|p l]; [congruence|]. rewrite A5, B5 in L5. exact L5. }
  intros fuel h s out h' s' I Hd Ht E. destruct (G _ _ _ _ _ _ _ I Hd Ht E) as (l & -> & L). exact L.
Qed.

(** It does end, if the step sizes are at least some [e > 0]. *)
Theorem C28_terminates : forall body e, body_ok body -> (0 < e)%Q ->
  (forall h s h' s', body h s = (h', s') -> (e <= w_dt s')%Q) ->
  forall N h s, vts_ok h s -> (0 < w_dt s)%Q -> (w_t0 s < w_t1 s)%Q ->
  (w_t1 s - w_time s <= inject_Z (Z.of_nat N) * e)%Q ->
  exists r, viter (S N) body h s [] = Ok r.
Proof.
  intros body e HB He Hb N.
  assert (G : forall N h s acc, vts_ok h s -> (0 < w_dt s)%Q -> (w_t0 s < w_t1 s)%Q ->
    (w_t1 s - w_time s <= inject_Z (Z.of_nat N) * e)%Q -> exists r, viter (S N) body h s acc = Ok r).
  { clear N. induction N as [|N IH]; intros h s acc I Hd Ht HN.
    - cbn [viter]. pose proof (HB h s I Hd) as B. destruct (body h s) as [h1 s1]. destruct B as (B1 & B2 & B3 & B4 & B5 & B6).
      pose proof (@nt_ge h1 s1 B1 ltac:(rewrite B4, B5; auto)) as NG. rewrite B5, B6 in NG.
      change (inject_Z (Z.of_nat 0)) with 0%Q in HN. destruct (Qle_bool 1 (w_nt s1)); [eauto|]. exfalso.
      assert (false = true) by (apply NG; lra). discriminate.
    - change (viter (S (S N)) body h s acc) with (let out := acc ++ [(w_step s, w_time s)] in let '(h, s) := body h s in
         if Qle_bool 1 (w_nt s) then Ok (out, h, s) else let '(h, s) := vadvance h s in viter (S N) body h s out).
      cbv zeta. pose proof (HB h s I Hd) as B. destruct (body h s) as [h1 s1] eqn:Eb. destruct B as (B1 & B2 & B3 & B4 & B5 & B6).
      pose proof (Hb _ _ _ _ Eb) as Hge.
      destruct (Qle_bool 1 (w_nt s1)); [eauto|].
      pose proof (vadvance_ok B1 B2) as A. destruct (vadvance h1 s1) as [h2 s2] eqn:Ea. destruct A as (A1 & A2 & A3 & A4 & A5 & A6).
      apply IH; auto; try (rewrite A2; auto); try (rewrite A4, A5, B4, B5; auto).
      assert (Et : w_time s2 = (w_time s1 + w_dt s1)%Q) by (unfold vadvance in Ea; inversion Ea; reflexivity).
      rewrite Et, A5, B5, B6. rewrite Nat2Z.inj_succ in HN. unfold Z.succ in HN. rewrite inject_Z_plus in HN.
      change (inject_Z 1) with 1%Q in HN. lra. }
  intros. apply G; auto.
Qed.

(** C28, restoring a state: with the list of times unchanged since get_state(),
    everything but n_step is restored. *)
Theorem C28_restore_partial : forall h s s2, vts_ok h s ->
  w_t0 s2 = w_t0 s -> w_t1 s2 = w_t1 s -> w_n0 s2 = w_n0 s -> w_dt0 s2 = w_dt0 s ->
  exists s3, vset_state h s2 (vget_state s) = Ok s3 /\
  w_step s3 = w_step s /\ w_dt s3 = w_dt s /\ w_times s3 = w_times s /\ w_time s3 = w_time s /\ (w_nt s3 == w_nt s)%Q /\
  w_nstep s3 = w_nstep s2.
Proof.
  intros h s s2 (I0 & I1 & I2 & I3 & I4 & I5 & I6) E1 E2 E3 E4. unfold vset_state, vget_state.
  rewrite I1, Nat.eqb_refl. eexists. split; [reflexivity|]. cbn.
  assert (EL : last (tderef h (w_times s)) 0%Q = w_time s).
  { rewrite I3. clear -I1. set (l := tderef h (w_times s)) in *. replace (w_step s) with (length l - 1) by lia. clear I1.
    induction l as [|x l IH]; auto. destruct l as [|y l]; auto.
    change (last (x :: y :: l) 0%Q) with (last (y :: l) 0%Q). rewrite IH. simpl. rewrite Nat.sub_0_r. reflexivity. }
  rewrite EL, E1, E2. repeat split; auto. rewrite I5. unfold normalize. reflexivity.
Qed.

(** The full claim is false: (a) the state of a stepper restored in a new
    stepper has step 2 but n_step 1; (b) the list of times is returned by
    reference, so restoring the state after a further advance raises
    AssertionError. *)
Theorem C28_restore_refuted : exists h s h1 s1, make_vts [] 0 1 None (Some 5%Z) = Ok (h, s) /\
  (h1, s1) = (let '(h, s) := vadvance h s in vadvance h s) /\
  (forall h2 new, make_vts h1 0 1 None (Some 5%Z) = Ok (h2, new) ->
     exists s2, vset_state h2 new (vget_state s1) = Ok s2 /\ w_step s2 = 2 /\ w_nstep s1 = 3 /\ w_nstep s2 = 1) /\
  (let '(h2, s2) := vadvance h1 s1 in vset_state h2 s2 (vget_state s1) = Err AssertionError).
Proof.
  eexists _, _, _, _. split; [reflexivity|]. split; [vm_compute; reflexivity|]. split.
  - intros h2 new E. vm_compute in E. inversion E; subst h2 new. eexists. split; [vm_compute; reflexivity|]. auto.
  - vm_compute. reflexivity.
Qed.

End Var.

(** A run: step sizes 1/4, then 1/2, then the last step repeated with 1/8. *)
Example C28_ex : exists hs, vreach [] 0 1 None (Some 5%Z) hs /\
  map Qred (tderef (fst hs) (w_times (snd hs))) = [0; 1 # 4; 3 # 8]%Q /\ w_step (snd hs) = 2.
Proof.
  eexists. split.
  - eapply vr_step with (o := VRepeat (1 # 8)).
    + eapply vr_step with (o := VAdvance).
      * eapply vr_step with (o := VSet (1 # 2)).
        -- eapply vr_step with (o := VAdvance).
           ++ apply vr_init. vm_compute. reflexivity.
           ++ exact I.
           ++ vm_compute. reflexivity.
        -- cbn. lra.
        -- vm_compute. reflexivity.
      * exact I.
      * vm_compute. reflexivity.
    + split; [lra|vm_compute; lia].
    + vm_compute. reflexivity.
  - split; vm_compute; reflexivity.
Qed.

Print Assumptions C27_n_step.
Print Assumptions C27_times.
Print Assumptions C27_set_step.
Print Assumptions C27_advance.
Print Assumptions C27_iter.
Print Assumptions C27_visits_all.
Print Assumptions C28_consistent.
Print Assumptions C28_step_times.
Print Assumptions C28_iteration.
Print Assumptions C28_terminates.
Print Assumptions C28_restore_partial.
Print Assumptions C28_restore_refuted.
Print Assumptions C29_actual.
Print Assumptions C29_refuted.
Print Assumptions C30_format.
