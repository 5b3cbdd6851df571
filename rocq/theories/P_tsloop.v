(** Properties C33, C55-C59: the time stepping loops. *)
From Coq Require Import QArith Qround Lqa.
From Verif Require Import Base M_ts P_ts M_tsloop S_tsloop.
Set Implicit Arguments.
Open Scope nat_scope.

Section P.
Context {V : Type}.
Variable init : V -> V.
Variable pre post : trace V -> nat -> Q -> V -> V.
Variable nls : trace V -> nat -> Q -> Q -> V -> V * (bool * nat).
Notation calls_ok := (calls_ok pre post nls).

Lemma calls_ok_nil : calls_ok [].
Proof. intros [|i] e; discriminate. Qed.
Lemma calls_ok_snoc : forall tr e, calls_ok tr -> call_ok pre post nls tr e -> calls_ok (tr ++ [e]).
Proof.
  intros tr e H He i x E. destruct (Nat.lt_ge_cases i (length tr)) as [L|L].
  - rewrite nth_error_app1 in E by auto. rewrite firstn_app. replace (i - length tr) with 0 by lia. simpl. rewrite app_nil_r. auto.
  - rewrite nth_error_app2 in E by auto. destruct (i - length tr) as [|[|]] eqn:Ei; try discriminate. simpl in E. inversion E; subst x.
    replace i with (length tr) by lia. rewrite firstn_app, firstn_all, Nat.sub_diag. simpl. rewrite app_nil_r. auto.
Qed.

Lemma do_solve_eq : forall tr st t d m v, do_solve nls tr st t d m v =
  (tr ++ [Ev KSolve st t d m v (fst (nls tr st t m v))], fst (nls tr st t m v), snd (nls tr st t m v)).
Proof. intros. unfold do_solve. destruct (nls tr st t m v); reflexivity. Qed.

(** ** C55: ts.simple *)

Lemma simple_loop_ok : forall q n tr s v, calls_ok tr -> Z.of_nat (step s + n) = n_step s -> (1 <= step s \/ q = true) ->
  time s = nth (step s) (times s) 0%Q ->
  exists tr' s' v', simple_loop pre post nls n tr s v = (tr ++ tr', s', v') /\
    simple_run q (fun k => nth k (times s) 0%Q) (seq (step s) n) v tr' v' /\ calls_ok (tr ++ tr') /\
    (0 < n -> step s' = step s + n - 1) /\ n_step s' = n_step s /\ times s' = times s.
Proof.
  induction n as [|n IH]; intros tr s v HC Hn Hs Ht.
  - exists [], s, v. cbn. rewrite app_nil_r. repeat split; auto; lia.
  - cbn [simple_loop]. unfold do_pre, do_post. rewrite do_solve_eq.
    set (a := pre tr (step s) (time s) v). set (tr1 := tr ++ [Ev KPre (step s) (time s) (dt s) (dt s) v a]).
    set (b := fst (nls tr1 (step s) (time s) (dt s) a)). set (tr2 := tr1 ++ [Ev KSolve (step s) (time s) (dt s) (dt s) a b]).
    set (c := post tr2 (step s) (time s) b). set (tr3 := tr2 ++ [Ev KPost (step s) (time s) (dt s) (dt s) b c]).
    assert (C3 : calls_ok tr3).
    { apply calls_ok_snoc; [apply calls_ok_snoc; [apply calls_ok_snoc|]|]; auto; reflexivity. }
    assert (Etr : forall x, tr3 ++ x = tr ++ ([Ev KPre (step s) (time s) (dt s) (dt s) v a; Ev KSolve (step s) (time s) (dt s) (dt s) a b;
              Ev KPost (step s) (time s) (dt s) (dt s) b c] ++ x)).
    { intros. unfold tr3, tr2, tr1. rewrite <- !app_assoc. reflexivity. }
    assert (Ekd : if (step s =? 0) && negb q then KSolve = KInit /\ b = a else KSolve = KSolve).
    { destruct (Nat.eqb_spec (step s) 0) as [E|E]; cbn; auto. destruct Hs as [Hs|Hs]; [lia|]. rewrite Hs. cbn. auto. }
    pose proof (@C27_advance s ltac:(lia)) as AD. destruct (Z.eqb_spec (Z.of_nat (step s)) (n_step s - 1)) as [E|E].
    + assert (n = 0) by lia. subst n. cbn [simple_loop seq simple_run].
      eexists _, _, _. split; [rewrite <- (app_nil_r tr3), Etr; reflexivity|].
      split; [|split; [rewrite <- Etr, app_nil_r; auto|rewrite AD; repeat split; auto; lia]].
      rewrite Ht in *. exists (dt s), a, b, c, KSolve, []. repeat split; auto.
    + destruct AD as (A1 & A2 & A3 & A4 & A5 & A6).
      destruct (IH tr3 (advance s) c C3) as (tr' & s' & v' & I1 & I2 & I3 & I4 & I5 & I6); [rewrite A1, A4; lia|left; lia|rewrite A1, A5; auto|].
      exists ([Ev KPre (step s) (time s) (dt s) (dt s) v a; Ev KSolve (step s) (time s) (dt s) (dt s) a b;
              Ev KPost (step s) (time s) (dt s) (dt s) b c] ++ tr'), s', v'.
      rewrite <- Etr. split; auto. rewrite A1, A5 in I2. rewrite A4 in I5. rewrite A5 in I6. split; [|split; [auto|split; [|auto]]].
      * cbn [seq simple_run]. rewrite Ht in *. exists (dt s), a, b, c, KSolve, tr'. repeat split; auto.
      * intros _. rewrite I4, A1; lia.
Qed.

(** A consistent time stepper: as created by [make_ts] and used since. *)
Definition ts_ok (s : ts) : Prop :=
  (1 <= n_step s)%Z /\ length (times s) = Z.to_nat (n_step s) /\ step s < Z.to_nat (n_step s) /\
  time s = nth (step s) (times s) 0%Q.

(** C55. ts.simple, at least two time steps, starting from step 0 or restarted
    in any step. *)
Theorem C55_simple : forall q s vec0, ts_ok s -> (2 <= n_step s)%Z ->
  exists tr s' v', simple_call init pre post nls q s vec0 = Ok (tr, s', v') /\
  simple_run q (fun k => nth k (times s) 0%Q) (seq (step s) (Z.to_nat (n_step s) - step s)) (init vec0) tr v' /\
  calls_ok tr /\ step s' = Z.to_nat (n_step s) - 1.
Proof.
  intros q s vec0 (H0 & HL & Hs & Ht) H2. unfold simple_call.
  destruct (Nat.eqb_spec (step s) 0) as [E0|E0].
  - unfold do_pre, do_post. set (v := init vec0). set (a := pre [] (step s) (time s) v).
    set (tr1 := [] ++ [Ev KPre (step s) (time s) (dt s) (dt s) v a]).
    assert (S0 : exists kd b, solve_step0 nls q tr1 (step s) (time s) (dt s) a = (tr1 ++ [Ev kd (step s) (time s) (dt s) (dt s) a b], b) /\
       (if (step s =? 0) && negb q then kd = KInit /\ b = a else kd = KSolve) /\
       call_ok pre post nls tr1 (Ev kd (step s) (time s) (dt s) (dt s) a b)).
    { unfold solve_step0. destruct q.
      - rewrite do_solve_eq. eexists _, _. split; [reflexivity|]. rewrite andb_false_r. split; auto. reflexivity.
      - eexists _, _. split; [reflexivity|]. rewrite E0. cbn. auto. }
    destruct S0 as (kd & b & S1 & S2 & S3). rewrite S1. set (tr2 := tr1 ++ [_]).
    set (c := post tr2 (step s) (time s) b). set (tr3 := tr2 ++ [_]).
    pose proof (@C27_advance s ltac:(lia)) as AD. destruct (Z.eqb_spec (Z.of_nat (step s)) (n_step s - 1)) as [E|E]; [lia|].
    destruct AD as (A1 & A2 & A3 & A4 & A5 & A6).
    pose proof (C27_set_step (advance s) (Z.of_nat (step (advance s)))) as SS.
    destruct (set_step (advance s) (Some (Z.of_nat (step (advance s))))) as [s1|e]; [|exfalso; lia].
    destruct SS as (_ & B1 & B2 & B3 & B4 & B5 & B6 & _). destruct (Z.ltb_spec (Z.of_nat (step (advance s))) 0); [lia|].
    assert (C3 : calls_ok tr3).
    { apply calls_ok_snoc; [apply calls_ok_snoc; [apply calls_ok_snoc|]|]; auto; try reflexivity. apply calls_ok_nil. }
    assert (EP : length (py_from (times s1) (Z.of_nat (step (advance s)))) = Z.to_nat (n_step s) - step (advance s)).
    { unfold py_from. destruct (Z.leb_spec 0 (Z.of_nat (step (advance s)))); [|lia]. rewrite skipn_length, Nat2Z.id, B5, A5, HL. auto. }
    rewrite EP.
    assert (ES : step s1 = step (advance s)) by lia.
    destruct (@simple_loop_ok q (Z.to_nat (n_step s) - step (advance s)) tr3 s1 c C3) as (tr' & s' & v' & I1 & I2 & I3 & I4 & I5 & I6).
    { rewrite ES, B4, A4. lia. } { left. lia. } { rewrite B2, B5. auto. }
    exists (tr3 ++ tr'), s', v'. rewrite I1. split; auto. split; [|split; [auto|rewrite I4 by lia; lia]].
    replace (Z.to_nat (n_step s) - step s) with (S (Z.to_nat (n_step s) - step (advance s))) by lia.
    cbn [seq simple_run]. exists (dt s), a, b, c, kd, tr'. rewrite <- Ht. split; [unfold tr3, tr2, tr1; reflexivity|].
    split; auto. rewrite ES, A1, B5, A5 in I2. rewrite A1. auto.
  - pose proof (C27_set_step s (Z.of_nat (step s))) as SS.
    destruct (set_step s (Some (Z.of_nat (step s)))) as [s1|e]; [|exfalso; lia].
    destruct SS as (_ & B1 & B2 & B3 & B4 & B5 & B6 & _). destruct (Z.ltb_spec (Z.of_nat (step s)) 0); [lia|].
    assert (EP : length (py_from (times s1) (Z.of_nat (step s))) = Z.to_nat (n_step s) - step s).
    { unfold py_from. destruct (Z.leb_spec 0 (Z.of_nat (step s))); [|lia]. rewrite skipn_length, Nat2Z.id, B5, HL. auto. }
    rewrite EP. assert (ES : step s1 = step s) by lia.
    destruct (@simple_loop_ok q (Z.to_nat (n_step s) - step s) [] s1 (init vec0) calls_ok_nil) as (tr' & s' & v' & I1 & I2 & I3 & I4 & I5 & I6).
    { rewrite ES, B4. lia. } { left. lia. } { rewrite B2, B5. auto. }
    exists tr', s', v'. rewrite I1. split; auto. rewrite ES, B5 in I2. split; auto. split; auto. rewrite I4 by lia. lia.
Qed.

(** With a single time step, step 0 is computed twice. *)
Theorem C55_one_step_refuted : forall q s vec0, make_ts 0 1 None (Some 1%Z) None = Ok s ->
  exists tr s' v', simple_call init pre post nls q s vec0 = Ok (tr, s', v') /\
  map fst (posts tr) = [0; 0].
Proof.
  intros q s vec0 E. vm_compute in E. inversion E; subst s. unfold simple_call. cbn [step Nat.eqb].
  unfold do_pre, do_post, solve_step0. destruct q.
  - rewrite do_solve_eq. cbn [fst]. unfold advance. cbn [step n_step Z.of_nat Z.sub Z.add Z.opp Z.pos_sub Z.ltb Z.compare set_step].
    cbn [set_step]. eexists _, _, _. split; [cbn; rewrite do_solve_eq; reflexivity|]. reflexivity.
  - unfold advance. eexists _, _, _. split; [cbn; rewrite do_solve_eq; reflexivity|]. reflexivity.
Qed.


(** ** C56: ts.adaptive *)

Lemma vrepeat_ok : forall h s d, vts_ok h s -> (0 < d)%Q -> 0 < w_step s ->
  let '(h', s') := set_time_step h s d true in
  vts_ok h' s' /\ w_step s' = w_step s /\ w_dt s' = d /\ w_t0 s' = w_t0 s /\ w_t1 s' = w_t1 s /\
  w_times s' = w_times s /\
  w_time s' = (nth (w_step s - 1) (tderef h (w_times s)) 0 + d)%Q /\
  nth (w_step s - 1) (tderef h' (w_times s)) 0%Q = nth (w_step s - 1) (tderef h (w_times s)) 0%Q.
Proof.
  intros h s d (I0 & I1 & I2 & I3 & I4 & I5 & I6) Hx Hs.
  set (l := tderef h (w_times s)) in *.
  assert (U : forall x, tderef (upd h (w_times s) x) (w_times s) = x).
  { intros. unfold tderef. apply nth_upd_eq; auto. }
  unfold set_time_step. fold l. destruct (w_step s) as [|k0] eqn:Es; [lia|]. cbn [w_step w_dt w_t0 w_t1 w_times w_time]. rewrite U.
  replace (S k0 - 1) with k0 by lia. split; [|repeat split; auto; rewrite nth_upd_neq by lia; auto].
  unfold vts_ok. cbn. rewrite U, !length_upd. split; [auto|]. split; auto. split; auto. split; [rewrite nth_upd_eq by lia; auto|].
  split; [rewrite nth_upd_neq by lia; auto|]. split; [reflexivity|].
  intros k Hk. destruct (Nat.eq_dec k k0) as [->|].
  - rewrite nth_upd_neq by lia. rewrite nth_upd_eq by lia. lra.
  - rewrite !nth_upd_neq by lia. apply I6. lia.
Qed.

Lemma vset_ok : forall h s d, vts_ok h s -> 
  let '(h', s') := set_time_step h s d false in
  h' = h /\ vts_ok h s' /\ w_step s' = w_step s /\ w_dt s' = d /\ w_t0 s' = w_t0 s /\ w_t1 s' = w_t1 s /\
  w_times s' = w_times s /\ w_time s' = w_time s.
Proof. intros h s d H. cbn. repeat split; auto; apply H. Qed.

(** The previous time. *)
Definition tprev (h : theap) (s : vts) : Q := nth (w_step s - 1) (tderef h (w_times s)) 0%Q.

Lemma vadvance_ok2 : forall h s, vts_ok h s -> (0 < w_dt s)%Q ->
  let '(h', s') := vadvance h s in vts_ok h' s' /\ w_dt s' = w_dt s /\ w_step s' = S (w_step s) /\
  w_t0 s' = w_t0 s /\ w_t1 s' = w_t1 s /\ tprev h' s' = w_time s /\ w_time s' = (w_time s + w_dt s)%Q.
Proof.
  intros h s I Hd. pose proof (vadvance_ok I Hd) as A. destruct (vadvance h s) as [h' s'] eqn:E.
  destruct A as (A1 & A2 & A3 & A4 & A5 & A6). split; auto. split; auto. split; auto. split; auto. split; auto.
  unfold vadvance in E. inversion E; subst h' s'. cbn. split; auto. unfold tprev. cbn. rewrite Nat.sub_0_r.
  destruct I as (I0 & I1 & I2 & I3 & I4 & I5 & I6). unfold tderef at 1. rewrite nth_upd_eq by auto. rewrite app_nth1 by lia. auto.
Qed.

Record apar (a a' : adt) : Prop := mkApar { ap1 : red_factor a' = red_factor a; ap2 : red_max a' = red_max a;
  ap3 : inc_factor a' = inc_factor a; ap4 : dt0 a' = dt0 a; ap5 : inc_on_iter a' = inc_on_iter a; ap6 : inc_wait a' = inc_wait a }.
(** Admissible parameters. *)
Definition adt_ok (a : adt) : Prop :=
  (0 < red_factor a /\ red_factor a < 1 /\ 0 < inc_factor a /\ 0 < red_max a /\ 0 < dt0 a /\ 0 < red a)%Q.
Definition ainv (h : theap) (s : vts) (a : adt) : Prop :=
  vts_ok h s /\ 0 < w_step s /\ (0 < w_dt s)%Q /\ (w_t0 s < w_t1 s)%Q /\ adt_ok a /\ (dt0 a * red a <= w_dt s)%Q.

Lemma Qltb_lt : forall x y, Qltb x y = true <-> (x < y)%Q.
Proof.
  intros x y. unfold Qltb. rewrite negb_true_iff. split; intros H.
  - apply Qnot_le_lt. intros L. apply Qle_bool_iff in L. congruence.
  - apply not_true_is_false. intros L. apply Qle_bool_iff in L. lra.
Qed.
Lemma Qltb_ge : forall x y, Qltb x y = false <-> (y <= x)%Q.
Proof.
  intros x y. unfold Qltb. rewrite negb_false_iff. apply Qle_bool_iff.
Qed.

Lemma adapt_ok : forall h s a c n, ainv h s a ->
  let '(brk, h', s', a') := adapt_time_step h s a c n in
  ainv h' s' a' /\ apar a a' /\ w_step s' = w_step s /\ w_t0 s' = w_t0 s /\ w_t1 s' = w_t1 s /\
  (if (brk : bool) then h' = h /\ w_time s' = w_time s
   else c = false /\ red a' = (red a * red_factor a)%Q /\ (w_dt s' < w_dt s)%Q /\ tprev h' s' = tprev h s /\
        w_time s' = (tprev h s + w_dt s')%Q /\ (red_max a <= red a')%Q).
Proof.
  intros h s a c n (I & Hs & Hd & Ht & A & R). destruct A as (A1 & A2 & A3 & A4 & A5 & A6). unfold adapt_time_step.
  assert (SAME : forall a', apar a a' -> red a' = red a -> ainv h s a').
  { intros a' [] Er. repeat split; auto; try apply I; try (rewrite ?ap7, ?ap8, ?ap9, ?ap10, ?Er; auto).  }
  destruct c.
  - destruct (n <=? inc_on_iter a).
    + change (inc_wait (set_wait a (S (wait a)))) with (inc_wait a). change (wait (set_wait a (S (wait a)))) with (S (wait a)).
      destruct (inc_wait a <? S (wait a)).
      * change (red (set_wait a (S (wait a)))) with (red a). destruct (Qltb (red a) 1).
        -- cbn [snd set_time_step]. split; [|split; [constructor; auto|]; repeat split; auto].
           assert (0 < red a * inc_factor a)%Q by nra.
           repeat split; auto; cbn; try apply I; nra.
        -- split; [apply SAME; [constructor; auto|auto]|]. split; [constructor; auto|]. repeat split; auto.
      * split; [apply SAME; [constructor; auto|auto]|]. split; [constructor; auto|]. repeat split; auto.
    + split; [apply SAME; [constructor; auto|auto]|]. split; [constructor; auto|]. repeat split; auto.
  - set (a1 := set_red a (red a * red_factor a)%Q). change (red a1) with (red a * red_factor a)%Q. change (red_max a1) with (red_max a).
    change (dt0 a1) with (dt0 a).
    assert (0 < red a * red_factor a)%Q by nra. assert (red a * red_factor a < red a)%Q by nra.
    destruct (Qltb (red a * red_factor a) (red_max a)) eqn:EB.
    + split; [|split; [constructor; auto|repeat split; auto]]. repeat split; auto; try apply I. cbn. nra.
    + apply Qltb_ge in EB. assert (Dp : (0 < dt0 a * (red a * red_factor a))%Q) by nra.
      pose proof (@vrepeat_ok h s _ I Dp Hs) as VR. destruct (set_time_step h s (dt0 a * (red a * red_factor a)) true) as [h' s'].
      destruct VR as (V1 & V2 & V3 & V4 & V5 & V6 & V7 & V8).
      split; [|split; [constructor; auto|]].
      * split; auto. split; [lia|]. split; [rewrite V3; auto|]. split; [rewrite V4, V5; auto|]. split; [repeat split; auto|]. cbn. rewrite V3. lra.
      * split; auto. split; auto. split; auto. split; auto. split; [auto|]. split; [rewrite V3; nra|]. split; [unfold tprev; rewrite V2, V6; auto|]. rewrite V3. auto.
Qed.

Lemma apar_refl : forall a, apar a a. Proof. constructor; auto. Qed.
Lemma apar_trans : forall a b c, apar a b -> apar b c -> apar a c.
Proof. intros a b c [] []; constructor; congruence. Qed.

Lemma solve_loop_ok : forall fuel tr0 h s a v v' r, ainv h s a -> (w_time s == tprev h s + w_dt s)%Q ->
  calls_ok (tr0 ++ [Ev KPre (w_step s) (w_time s) (w_dt s) (w_dt s) v v']) ->
  solve_loop pre nls fuel (tr0 ++ [Ev KPre (w_step s) (w_time s) (w_dt s) (w_dt s) v v']) h s a v' = Ok r ->
  let '(tr2, h2, s2, a2, b) := r in
  exists trA d e tr1, tr2 = tr0 ++ trA /\ attempts (w_step s) (tprev h s) v trA b (w_time s2) d /\
    (match trA with x :: _ => e_dt x = w_dt s | [] => False end) /\ trA = tr1 ++ [e] /\
    ainv h2 s2 a2 /\ apar a a2 /\ w_step s2 = w_step s /\ w_t0 s2 = w_t0 s /\ w_t1 s2 = w_t1 s /\ calls_ok tr2.
Proof.
  induction fuel as [|f IH]; intros tr0 h s a v v' r I HT HC E; [discriminate|]. cbn [solve_loop] in E.
  rewrite do_solve_eq in E. set (tr := tr0 ++ [Ev KPre (w_step s) (w_time s) (w_dt s) (w_dt s) v v']) in *.
  destruct (nls tr (w_step s) (w_time s) (w_dt s) v') as [b [c n]] eqn:En. cbn [fst snd] in E.
  pose proof (adapt_ok c n I) as A. destruct (adapt_time_step h s a c n) as [[[brk h'] s'] a'].
  destruct A as (A1 & A2 & A3 & A4 & A5 & A6).
  assert (C2 : calls_ok (tr ++ [Ev KSolve (w_step s) (w_time s) (w_dt s) (w_dt s) v' b])).
  { apply calls_ok_snoc; auto. unfold call_ok. cbn. rewrite En. reflexivity. }
  destruct brk.
  - inversion E; subst r; clear E. destruct A6 as [-> A6].
    exists [Ev KPre (w_step s) (w_time s) (w_dt s) (w_dt s) v v'; Ev KSolve (w_step s) (w_time s) (w_dt s) (w_dt s) v' b], (w_dt s),
      (Ev KSolve (w_step s) (w_time s) (w_dt s) (w_dt s) v' b), [Ev KPre (w_step s) (w_time s) (w_dt s) (w_dt s) v v'].
    split; [unfold tr; rewrite <- app_assoc; reflexivity|]. split; [rewrite A6; constructor; auto; apply I|].
    split; [reflexivity|]. split; auto 12.
  - destruct A6 as (_ & A6 & A7 & A8 & A9 & A10). unfold do_pre in E.
    set (tr1 := tr ++ [_]) in E. set (w := pre tr1 (w_step s') (w_time s') v') in E.
    apply (IH tr1 h' s' a' v' w) in E; auto.
    + destruct r as [[[[tr2 h2] s2] a2] b2]. destruct E as (trA & d & e & tx & E1 & E2 & E3 & E4 & E5 & E6 & E7 & E8 & E9 & E10).
      exists ([Ev KPre (w_step s) (w_time s) (w_dt s) (w_dt s) v v'; Ev KSolve (w_step s) (w_time s) (w_dt s) (w_dt s) v' b] ++ trA), d, e,
       ([Ev KPre (w_step s) (w_time s) (w_dt s) (w_dt s) v v'; Ev KSolve (w_step s) (w_time s) (w_dt s) (w_dt s) v' b] ++ tx).
      split; [rewrite E1; unfold tr1, tr; rewrite <- !app_assoc; reflexivity|].
      split. { apply at_retry; auto; [rewrite A3, A8 in E2; auto|]. destruct trA; [contradiction|]. rewrite E3. auto. }
      split; [reflexivity|]. split; [rewrite E4, app_assoc; auto|]. split; auto. split; [eapply apar_trans; eauto|].
      rewrite E7, E8, E9. auto.
    + rewrite A9, A8. reflexivity.
    + apply calls_ok_snoc; auto. reflexivity.
Qed.

Lemma adaptive_loop_ok : forall fuel fuel1 tr h s a v r, ainv h s a -> (w_time s == tprev h s + w_dt s)%Q -> calls_ok tr ->
  adaptive_loop pre post nls fuel fuel1 tr h s a v = Ok r ->
  let '(tr2, h2, s2, a2, v2) := r in
  exists trA w, tr2 = tr ++ trA /\ adaptive_run (w_t1 s) (w_step s) (tprev h s) v trA v2 w /\ calls_ok tr2 /\ apar a a2 /\
    vts_ok h2 s2.
Proof.
  induction fuel as [|f IH]; intros fuel1 tr h s a v r I HT HC E; [discriminate|]. cbn [adaptive_loop] in E.
  unfold do_pre in E. set (v1 := pre tr (w_step s) (w_time s) v) in E. set (tr1 := tr ++ [_]) in E.
  destruct (solve_loop pre nls fuel1 tr1 h s a v1) as [r1|] eqn:ES; [|discriminate].
  apply solve_loop_ok in ES; auto; [|apply calls_ok_snoc; auto; reflexivity].
  destruct r1 as [[[[tr2 h2] s2] a2] b]. destruct ES as (trA & d & e & tx & S1 & S2 & S3 & S4 & S5 & S6 & S7 & S8 & S9 & S10).
  unfold do_post in E. set (c := post tr2 (w_step s2) (w_time s2) b) in E.
  assert (C3 : calls_ok (tr2 ++ [Ev KPost (w_step s2) (w_time s2) (w_dt s2) (w_dt s2) b c])).
  { apply calls_ok_snoc; auto. reflexivity. }
  pose proof S5 as (J1 & J2 & J3 & J4 & J5 & J6).
  pose proof (nt_ge J1 J4) as NG. destruct (Qle_bool 1 (w_nt s2)).
  - inversion E; subst r; clear E. eexists _, (e_in e). split; [rewrite S1, <- app_assoc; reflexivity|].
    split; [|auto]. rewrite S7. eapply ar_last; eauto. rewrite <- S9. apply NG. auto.
  - pose proof (vadvance_ok2 J1 J3) as VA. destruct (vadvance h2 s2) as [h3 s3].
    destruct VA as (V1 & V2 & V3 & V4 & V5 & V6 & V7).
    apply IH in E; auto.
    + destruct r as [[[[tr4 h4] s4] a4] v4]. destruct E as (trB & w & E1 & E2 & E3 & E4 & E5).
      eexists _, w. split; [rewrite E1, S1, <- !app_assoc; reflexivity|]. split; [|split; [auto|split; [eapply apar_trans; eauto|auto]]].
      rewrite S7. eapply ar_next; eauto.
      * rewrite <- S9. apply Qnot_le_lt. intros L. apply NG in L. discriminate.
      * rewrite <- S9, <- V5. rewrite V3, S7, V6 in E2. auto.
    + split; auto. split; [lia|]. split; [rewrite V2; auto|]. split; [rewrite V4, V5; auto|]. split; auto. rewrite V2. auto.
    + rewrite V6, V7, V2. reflexivity.
Qed.

(** C56. ts.adaptive from a new time stepper: step 0 (at [t0]), then the
    adaptive steps. *)
Theorem C56_adaptive : forall fuel fuel1 q h0 t0 t1 d n h s a vec0 tr h' s' a' v',
  (t0 < t1)%Q -> (match n with Some z => (1 <= z)%Z | None => match d with Some x => (0 < x)%Q | None => True end end) ->
  make_vts h0 t0 t1 d n = Ok (h, s) ->
  adt_ok a -> red a = 1%Q -> dt0 a = w_dt s ->
  adaptive_call init pre post nls fuel fuel1 q h s a vec0 = Ok (tr, h', s', a', v') ->
  exists tr0 tr1 c w, tr = tr0 ++ tr1 /\ simple_run q (fun _ => t0) [0] (init vec0) tr0 c /\
    adaptive_run t1 1 t0 c tr1 v' w /\ calls_ok tr.
Proof.
  intros fuel fuel1 q h0 t0 t1 d n h s a vec0 tr h' s' a' v' Ht Hn E A Hr H0 EC.
  destruct (@C28_consistent h0 t0 t1 d n Ht Hn (h, s) (vr_init E)) as (I & Hd & Ea & Eb). cbn [fst snd] in *.
  assert (S0 : w_step s = 0 /\ w_time s = t0).
  { unfold make_vts, vset_step in E. cbn in E. inversion E; subst. cbn. auto. }
  destruct S0 as [S0 T0]. unfold adaptive_call in EC. rewrite S0, T0 in EC. cbn [Nat.eqb] in EC.
  unfold do_pre, do_post in EC. set (v := init vec0) in *. set (x := pre [] 0 t0 v) in EC.
  set (tr1 := [] ++ [Ev KPre 0 t0 (w_dt s) (w_dt s) v x]) in EC.
  assert (SS : exists kd b, solve_step0 nls q tr1 0 t0 (w_dt s) x = (tr1 ++ [Ev kd 0 t0 (w_dt s) (w_dt s) x b], b) /\
       (if (0 =? 0) && negb q then kd = KInit /\ b = x else kd = KSolve) /\
       call_ok pre post nls tr1 (Ev kd 0 t0 (w_dt s) (w_dt s) x b)).
  { unfold solve_step0. destruct q.
    - rewrite do_solve_eq. eexists _, _. split; [reflexivity|]. split; reflexivity.
    - eexists _, _. split; [reflexivity|]. cbn. auto. }
  destruct SS as (kd & b & S1 & S2 & S3). rewrite S1 in EC. set (tr2 := tr1 ++ [_]) in *. set (c := post tr2 0 t0 b) in EC.
  set (tr3 := tr2 ++ [_]) in *.
  assert (C3 : calls_ok tr3).
  { apply calls_ok_snoc; [apply calls_ok_snoc; [apply calls_ok_snoc|]|]; auto; try reflexivity. apply calls_ok_nil. }
  pose proof (vadvance_ok2 I Hd) as VA. destruct (vadvance h s) as [h3 s3].
  destruct VA as (V1 & V2 & V3 & V4 & V5 & V6 & V7).
  apply adaptive_loop_ok in EC; auto.
  - destruct EC as (trA & w & E1 & E2 & E3 & _). exists tr3, trA, c, w. split; auto. split; [|split; [|auto]].
    + cbn [simple_run]. exists (w_dt s), x, b, c, kd, []. rewrite app_nil_r. split; [reflexivity|]. auto.
    + rewrite V5, Eb, V3, S0, V6, T0 in E2. auto.
  - split; auto. split; [lia|]. split; [rewrite V2; auto|]. split; [rewrite V4, V5, Ea, Eb; auto|]. split; auto. rewrite V2, Hr, H0. lra.
  - rewrite V6, V7, V2. reflexivity.
Qed.

Fixpoint qpow (r : Q) (n : nat) : Q := match n with 0 => 1%Q | S n' => (r * qpow r n')%Q end.
Lemma qpow_pos : forall r n, (0 < r)%Q -> (0 < qpow r n)%Q.
Proof. induction n; intros; cbn; [lra|]. specialize (IHn H). nra. Qed.
Lemma qpow_bernoulli : forall r n, (0 < r < 1)%Q -> (qpow r n * (1 + inject_Z (Z.of_nat n) * (1 / r - 1)) <= 1)%Q.
Proof.
  intros r n [H0 H1]. induction n as [|n IH]; [cbn [qpow]; change (inject_Z (Z.of_nat 0)) with 0%Q; lra|]. cbn [qpow].
  set (d := (1 / r - 1)%Q) in *. assert (E : (r * (1 + d) == 1)%Q) by (unfold d; field; lra).
  assert (Hd : (0 < d)%Q) by nra.
  replace (inject_Z (Z.of_nat (S n))) with (inject_Z (Z.of_nat n + 1)) by (f_equal; lia). rewrite inject_Z_plus. change (inject_Z 1) with 1%Q.
  set (m := inject_Z (Z.of_nat n)) in *. assert (Hm : (0 <= m)%Q) by (unfold m; change 0%Q with (inject_Z 0); rewrite <- Zle_Qle; lia).
  pose proof (qpow_pos n H0) as P. set (p := qpow r n) in *.
  assert (K : (r * p * (1 + (m + 1) * d) <= r * p * ((1 + m * d) * (1 + d)))%Q).
  { assert (0 < r * p)%Q by nra. assert (1 + (m + 1) * d <= (1 + m * d) * (1 + d))%Q by nra. nra. }
  setoid_replace (r * p * ((1 + m * d) * (1 + d)))%Q with ((r * (1 + d)) * (p * (1 + m * d)))%Q in K by ring.
  rewrite E in K. lra.
Qed.
Lemma qpow_small : forall r x e, (0 < r < 1)%Q -> (0 < x)%Q -> (0 < e)%Q -> exists n, (x * qpow r n < e)%Q.
Proof.
  intros r x e Hr Hx He. set (d := (1 / r - 1)%Q). assert (Hd : (0 < d)%Q).
  { unfold d. assert (1 < 1 / r)%Q by (apply Qlt_shift_div_l; lra). lra. }
  destruct (Qlt_le_dec x e) as [L|L]; [exists 0; cbn; lra|].
  exists (Z.to_nat (Qceiling (x / (e * d)))). set (n := Z.to_nat _).
  assert (Hn : (x / (e * d) <= inject_Z (Z.of_nat n))%Q).
  { unfold n. pose proof (Qle_ceiling (x / (e * d))) as C. assert (0 <= Qceiling (x / (e * d)))%Z.
    { apply Z.le_trans with (Qceiling 0); [reflexivity|]. apply Qceiling_resp_le. apply Qle_shift_div_l; nra. }
    rewrite Z2Nat.id by auto. auto. }
  assert (Hn2 : (x <= inject_Z (Z.of_nat n) * (e * d))%Q).
  { assert (x == x / (e * d) * (e * d))%Q by (field; nra). assert (0 < e * d)%Q by nra. rewrite H. apply Qmult_le_compat_r; lra. }
  pose proof (qpow_bernoulli n Hr) as B. fold d in B. pose proof (qpow_pos n (proj1 Hr)) as P. set (p := qpow r n) in *.
  set (m := inject_Z (Z.of_nat n)) in *. assert (K : (x * p <= m * (e * d) * p)%Q) by (apply Qmult_le_compat_r; lra).
  assert (e * (p + p * (m * d)) <= e)%Q by nra. nra.
Qed.

(** The attempts of one step terminate: the number of retries is bounded, for
    any behaviour of the nonlinear solver. *)
Theorem C56_step_terminates : forall rf rm rd, (0 < rf < 1)%Q -> (0 < rm)%Q -> (0 < rd)%Q ->
  exists N, forall tr h s a v, red_factor a = rf -> red_max a = rm -> red a = rd ->
  exists r, solve_loop pre nls N tr h s a v = Ok r.
Proof.
  intros rf rm rd Hf Hm Hd. destruct (qpow_small Hf Hd Hm) as [n Hn]. exists (S n). clear Hd. revert rd Hn.
  induction n as [|n IH]; intros rd Hn tr h s a v Ef Em Ed; cbn [solve_loop]; rewrite do_solve_eq;
    destruct (snd (nls tr (w_step s) (w_time s) (w_dt s) v)) as [c m]; unfold adapt_time_step; destruct c.
  - destruct (m <=? inc_on_iter a); [destruct (_ <? _); [destruct (Qltb _ _)|]|]; cbn; eauto.
  - change (red (set_red a (red a * red_factor a))) with (red a * red_factor a)%Q.
    change (red_max (set_red a (red a * red_factor a))) with (red_max a). rewrite Ef, Em, Ed.
    assert (Qltb (rd * rf) rm = true) as -> by (apply Qltb_lt; cbn [qpow] in Hn; nra). eauto.
  - destruct (m <=? inc_on_iter a); [destruct (_ <? _); [destruct (Qltb _ _)|]|]; cbn; eauto.
  - change (red (set_red a (red a * red_factor a))) with (red a * red_factor a)%Q.
    change (red_max (set_red a (red a * red_factor a))) with (red_max a).
    destruct (Qltb _ _); [eauto|]. destruct (set_time_step h s _ true) as [h1 s1]. unfold do_pre.
    apply IH with (rd := (rd * rf)%Q); auto; [cbn [qpow] in Hn; lra|]. cbn. rewrite Ed, Ef. auto.
Qed.

End P.

(** A concrete run of ts.adaptive: the solver fails in the first attempt of step 1. *)
Example C56_ex : match make_vts [] 0 1 None (Some 3%Z) with
  | Ok (h, s) =>
      match adaptive_call (fun v : nat => v) (fun _ _ _ v => v) (fun _ _ _ v => v)
              (fun tr _ t _ v => (v + 1, (negb (Nat.eqb (length tr) 4), 1))) 20 5 false h s
              (mkAdt (1 # 2) (1 # 1000) (5 # 4) 4 5 1 0 (w_dt s)) 0 with
      | Ok (tr, _, _, _, v) => map (fun e => (e_step e, Qred (e_time e), e_out e)) (filter (fun e => match e_kind e with KSolve => true | _ => false end) tr)
           = [(1, 1 # 2, 1); (1, 1 # 4, 1); (2, 1 # 2, 2); (3, 3 # 4, 3); (4, 1%Q, 4)] /\ v = 4
      | _ => False end
  | _ => False end.
Proof. vm_compute. auto. Qed.
Example C55_ex : match make_ts 0 1 None (Some 3%Z) None with
  | Ok s => ts_ok s /\ (2 <= n_step s)%Z
  | _ => False end.
Proof. vm_compute. repeat split; auto; discriminate. Qed.

Print Assumptions C55_simple.
Print Assumptions C55_one_step_refuted.
Print Assumptions C56_adaptive.
Print Assumptions C56_step_terminates.
