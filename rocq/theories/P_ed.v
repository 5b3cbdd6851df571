(** Properties C33, C58, C59: the loops of the elastodynamics solvers. *)
From Coq Require Import QArith Qround Lqa.
From Verif Require Import Base M_ts P_ts M_tsloop S_tsloop P_tsloop.
Set Implicit Arguments.
Open Scope nat_scope.

Section P.
Context {V : Type}.
Variable init : V -> V.
Variable pre post : trace V -> nat -> Q -> V -> V.
Variable nls : trace V -> nat -> Q -> Q -> V -> V * (bool * nat).
Notation calls_ok := (calls_ok pre post nls).

Section C.
Context {C : Type}.
Variable is_linear : bool.
Variable tsc : C -> vts -> V -> V -> Q * bool * C.

(** The controllers considered: with an invariant [J] of its state and the
    current time, an accepted step before [t1] gives a positive new step size,
    a rejected step a smaller positive one. *)
Definition controller_ok (J : C -> Q -> Q -> Prop) : Prop :=
  forall c s v v', (0 < w_dt s)%Q -> J c (w_time s) (w_t1 s) ->
  let '(d, acc, c') := tsc c s v v' in
  if (acc : bool) then (w_time s < w_t1 s)%Q -> (0 < d)%Q /\ forall t, (t == w_time s + d)%Q -> J c' t (w_t1 s)
  else (0 < d)%Q /\ (d < w_dt s)%Q /\ forall t, J c' t (w_t1 s).

Definition minv (m : option Q) (s : vts) : Prop :=
  is_linear = true -> match m with Some x => (x == w_dt s)%Q | None => True end.
(** Every solver call uses the matrix of the current step size. *)
Definition matrices_ok (tr : trace V) : Prop := forall e, In e tr -> e_kind e = KSolve -> (e_mdt e == e_dt e)%Q.

Definition einv (h : theap) (s : vts) : Prop :=
  vts_ok h s /\ 0 < w_step s /\ (0 < w_dt s)%Q /\ (w_t0 s < w_t1 s)%Q.

Lemma use_matrix_ok : forall m s, minv m s ->
  let '(x, m') := use_matrix is_linear m (w_dt s) in (x == w_dt s)%Q /\ minv m' s.
Proof.
  intros m s H. unfold use_matrix. destruct is_linear eqn:E.
  - destruct m as [x|]; [split; auto; apply H; auto|]. split; [reflexivity|]. intros _. reflexivity.
  - split; [reflexivity|]. auto.
Qed.

Lemma ed_step_ok : forall J, controller_ok J -> forall fuel tr h s c m v r, einv h s -> (w_time s == tprev h s + w_dt s)%Q ->
  calls_ok tr -> J c (w_time s) (w_t1 s) -> minv m s ->
  ed_step pre nls is_linear tsc fuel tr h s c m v = Ok r ->
  let '(tr2, h2, s2, c2, m2, d2, w, b) := r in
  exists trA e tr1, tr2 = tr ++ trA /\ attempts (w_step s) (tprev h s) v trA b (w_time s2) (w_dt s2) /\
    (match trA with x :: _ => e_dt x = w_dt s | [] => False end) /\ trA = tr1 ++ [e] /\ e_in e = w /\
    einv h2 s2 /\ w_step s2 = w_step s /\ w_t0 s2 = w_t0 s /\ w_t1 s2 = w_t1 s /\ calls_ok tr2 /\ matrices_ok trA /\
    (w_time s2 < w_t1 s2 -> 0 < d2 /\ forall t, t == w_time s2 + d2 -> J c2 t (w_t1 s2))%Q /\
    (is_linear = true -> match m2 with Some x => (x == d2 /\ d2 == w_dt s2)%Q | None => True end).
Proof.
  intros J HJ. induction fuel as [|f IH]; intros tr h s c m v r I HT HC HJ0 HM E; [discriminate|]. cbn [ed_step] in E.
  unfold do_pre in E. set (a := pre tr (w_step s) (w_time s) v) in E. set (tr1 := tr ++ [_]) in E.
  pose proof (use_matrix_ok HM) as UM. destruct (use_matrix is_linear m (w_dt s)) as [x m1]. destruct UM as [U1 U2].
  rewrite do_solve_eq in E. set (b := fst (nls tr1 (w_step s) (w_time s) x a)) in E. set (tr2 := tr1 ++ [_]) in E.
  assert (C2 : calls_ok tr2).
  { apply calls_ok_snoc; [apply calls_ok_snoc|]; auto; reflexivity. }
  pose proof I as (I1 & I2 & I3 & I4).
  pose proof (HJ c s a b I3 HJ0) as CT. destruct (tsc c s a b) as [[d acc] c']. destruct acc.
  - inversion E; subst r; clear E.
    exists [Ev KPre (w_step s) (w_time s) (w_dt s) (w_dt s) v a; Ev KSolve (w_step s) (w_time s) (w_dt s) x a b],
      (Ev KSolve (w_step s) (w_time s) (w_dt s) x a b), [Ev KPre (w_step s) (w_time s) (w_dt s) (w_dt s) v a].
    split; [unfold tr2, tr1; rewrite <- app_assoc; reflexivity|]. split; [constructor; auto|].
    split; [reflexivity|]. split; [reflexivity|]. split; [reflexivity|]. split; [auto|]. split; [auto|]. split; [auto|]. split; [auto|]. split; [auto|].
    split; [intros e [<-|[<-|[]]]; [discriminate|auto]|]. split; auto.
    intros L. destruct (Qeq_bool d (w_dt s)) eqn:Ed; auto. apply Qeq_bool_iff in Ed. destruct m1; auto. specialize (U2 L). cbn in U2. lra.
  - destruct CT as (T1 & T2 & T3).
    pose proof (@vrepeat_ok h s d I1 T1 I2) as VR. destruct (set_time_step h s d true) as [h' s'] eqn:EST.
    destruct VR as (V1 & V2 & V3 & V4 & V5 & V6 & V7 & V8).
    assert (TP : tprev h' s' = tprev h s) by (unfold tprev; rewrite V2, V6; auto).
    apply IH in E; auto.
    + destruct r as [[[[[[[tr3 h3] s3] c3] m3] d3] w3] b3].
      destruct E as (trA & e & tx & E1 & E2 & E3 & E4 & E5 & E6 & E7 & E8 & E9 & E10 & E11 & E12 & E13).
      exists ([Ev KPre (w_step s) (w_time s) (w_dt s) (w_dt s) v a; Ev KSolve (w_step s) (w_time s) (w_dt s) x a b] ++ trA), e,
        ([Ev KPre (w_step s) (w_time s) (w_dt s) (w_dt s) v a; Ev KSolve (w_step s) (w_time s) (w_dt s) x a b] ++ tx).
      split; [rewrite E1; unfold tr2, tr1; rewrite <- !app_assoc; reflexivity|].
      split. { apply at_retry; auto; [rewrite V2, TP in E2; auto|]. destruct trA; [contradiction|]. rewrite E3, V3. auto. }
      split; [reflexivity|]. split; [rewrite E4, app_assoc; auto|]. split; auto. split; auto. split; [congruence|]. split; [congruence|]. split; [congruence|].
      split; auto. split; [|auto]. intros e0 [<-|[<-|He0]]; [discriminate|auto|]. apply E11; auto.
    + split; auto. split; [lia|]. split; [rewrite V3; auto|]. rewrite V4, V5. auto.
    + rewrite TP, V7, V3. reflexivity.
    + rewrite V5. apply T3.
    + destruct (Qeq_bool d (w_dt s)) eqn:Ed; [apply Qeq_bool_iff in Ed; exfalso; lra|]. intros _. exact Logic.I.
Qed.

Lemma ed_loop_ok : forall J, controller_ok J -> forall fuel fuel1 tr h s c m v r, einv h s -> (w_time s == tprev h s + w_dt s)%Q ->
  calls_ok tr -> J c (w_time s) (w_t1 s) -> minv m s ->
  ed_loop pre post nls is_linear tsc fuel fuel1 tr h s c m v = Ok r ->
  let '(tr2, h2, s2, c2, w) := r in
  exists trA v', tr2 = tr ++ trA /\ adaptive_run (w_t1 s) (w_step s) (tprev h s) v trA v' w /\ calls_ok tr2 /\ matrices_ok trA.
Proof.
  intros J HJ. induction fuel as [|f IH]; intros fuel1 tr h s c m v r I HT HC HJ0 HM E; [discriminate|]. cbn [ed_loop] in E.
  destruct (ed_step pre nls is_linear tsc fuel1 tr h s c m v) as [r1|] eqn:ES; [|discriminate].
  apply (ed_step_ok HJ) in ES; auto. destruct r1 as [[[[[[[tr2 h2] s2] c2] m2] d2] w] b].
  destruct ES as (trA & e & tx & S1 & S2 & S3 & S4 & S5 & S6 & S7 & S8 & S9 & S10 & S11 & S12 & S13).
  unfold do_post in E. set (x := post tr2 (w_step s2) (w_time s2) b) in E.
  assert (C3 : calls_ok (tr2 ++ [Ev KPost (w_step s2) (w_time s2) (w_dt s2) (w_dt s2) b x])).
  { apply calls_ok_snoc; auto. reflexivity. }
  assert (M3 : matrices_ok (trA ++ [Ev KPost (w_step s2) (w_time s2) (w_dt s2) (w_dt s2) b x])).
  { intros e0 He. apply in_app_or in He. destruct He as [He|[<-|[]]]; [apply S11; auto|discriminate]. }
  pose proof S6 as (J1 & J2 & J3 & J4).
  pose proof (nt_ge J1 J4) as NG. destruct (Qle_bool 1 (w_nt s2)).
  - inversion E; subst r; clear E. eexists _, x. split; [rewrite S1, <- app_assoc; reflexivity|].
    split; [|auto]. rewrite S7. eapply ar_last; eauto. rewrite <- S9. apply NG. auto.
  - assert (LT : (w_time s2 < w_t1 s2)%Q). { apply Qnot_le_lt. intros L. apply NG in L. discriminate. }
    destruct (S12 LT) as [D2 JN].
    assert (NS : exists s3, (if Qeq_bool d2 (w_dt s2) then (h2, s2) else set_time_step h2 s2 d2 false) = (h2, s3) /\
       vts_ok h2 s3 /\ w_step s3 = w_step s2 /\ (w_dt s3 == d2)%Q /\ w_t0 s3 = w_t0 s2 /\ w_t1 s3 = w_t1 s2 /\ w_time s3 = w_time s2).
    { destruct (Qeq_bool d2 (w_dt s2)) eqn:Ed.
      - apply Qeq_bool_iff in Ed. exists s2. split; auto. split; auto. split; auto. split; [lra|]. auto.
      - pose proof (vset_ok d2 J1) as VS. destruct (set_time_step h2 s2 d2 false) as [h3 s3]. destruct VS as (-> & K1 & K2 & K3 & K4 & K5 & K6 & K7).
        exists s3. split; auto. split; auto. split; auto. split; [rewrite K3; reflexivity|]. auto. }
    destruct NS as (s3 & EN & K1 & K2 & K3 & K4 & K5 & K6). rewrite EN in E.
    pose proof (@vadvance_ok2 h2 s3 K1 ltac:(lra)) as VA. destruct (vadvance h2 s3) as [h4 s4].
    destruct VA as (V1 & V2 & V3 & V4 & V5 & V6 & V7).
    apply IH in E; auto.
    + destruct r as [[[[tr5 h5] s5] c5] w5]. destruct E as (trB & v' & E1 & E2 & E3 & E4).
      eexists _, v'. split; [rewrite E1, S1, <- !app_assoc; reflexivity|]. split; [|split; [auto|]].
      * rewrite S7. eapply ar_next; eauto; [rewrite <- S9; auto|].
        rewrite <- S9, <- K5, <- V5. rewrite V3, K2, S7, V6, K6 in E2. auto.
      * intros e0 He. rewrite app_assoc in He. apply in_app_or in He. destruct He as [He|He]; [apply M3; auto|apply E4; auto].
    + split; auto. split; [lia|]. split; [rewrite V2; lra|]. rewrite V4, V5, K4, K5. auto.
    + rewrite V6, V7, V2. reflexivity.
    + rewrite V5, K5. apply JN. rewrite V7, K6. lra.
    + intros L. specialize (S13 L). destruct m2; auto. rewrite V2. lra.
Qed.

(** C58. A run of an elastodynamics solver with a step controller: step 0 at
    [t0] (with the initial acceleration), then the adaptive steps; the returned
    vector [w] is the argument of the last solver call, i.e. the state of the
    step before the last one after prestep_fun, not the final state [v']. *)
Theorem C58_ed : forall (J : C -> Q -> Q -> Prop), controller_ok J ->
  forall (get_initial_dt : C -> vts -> res (Q * C)) fuel fuel1 h0 t0 t1 d n h s c vec0 tr h' s' c' w,
  (t0 < t1)%Q -> (match n with Some z => (1 <= z)%Z | None => match d with Some x => (0 < x)%Q | None => True end end) ->
  (forall s d c', w_t0 s = t0 -> w_t1 s = t1 -> get_initial_dt c s = Ok (d, c') -> (0 < d)%Q /\ forall t, (t == t0 + d)%Q -> J c' t t1) ->
  make_vts h0 t0 t1 d n = Ok (h, s) ->
  ed_call init pre post nls is_linear tsc fuel fuel1 get_initial_dt h s c vec0 = Ok (tr, h', s', c', w) ->
  exists tr1 d a b x v', tr = [Ev KPre 0 t0 d d (init vec0) a; Ev KInit 0 t0 d d a b; Ev KPost 0 t0 d d b x] ++ tr1 /\
    adaptive_run t1 1 t0 x tr1 v' w /\ calls_ok tr /\ matrices_ok tr.
Proof.
  intros J HJ gid fuel fuel1 h0 t0 t1 d n h s c vec0 tr h' s' c' w Ht Hn HG E EC.
  destruct (@C28_consistent h0 t0 t1 d n Ht Hn (h, s) (vr_init E)) as (I & Hd & Ea & Eb). cbn [fst snd] in *.
  assert (S0 : w_step s = 0 /\ w_time s = t0).
  { unfold make_vts, vset_step in E. cbn in E. inversion E; subst. cbn. auto. }
  destruct S0 as [S0 T0]. unfold ed_call in EC. rewrite S0, T0 in EC.
  unfold do_pre, do_post, do_init in EC. set (v := init vec0) in *. set (a := pre [] 0 t0 v) in EC.
  set (tr1 := [] ++ [Ev KPre 0 t0 (w_dt s) (w_dt s) v a]) in EC.
  destruct (nls tr1 0 t0 (w_dt s) a) as [b cb] eqn:EI. set (tr2 := tr1 ++ [_]) in *. set (x := post tr2 0 t0 b) in EC.
  set (tr3 := tr2 ++ [_]) in *.
  assert (C3 : calls_ok tr3).
  { apply calls_ok_snoc; [apply calls_ok_snoc; [apply calls_ok_snoc|]|]; auto; try reflexivity. apply calls_ok_nil. }
  pose proof (vadvance_ok2 I Hd) as VA. destruct (vadvance h s) as [h3 s3].
  destruct VA as (V1 & V2 & V3 & V4 & V5 & V6 & V7).
  destruct (gid c s3) as [[d3 c3]|] eqn:EG; [|discriminate].
  destruct (HG _ _ _ (eq_trans V4 Ea) (eq_trans V5 Eb) EG) as [D3 J3].
  pose proof (@vrepeat_ok h3 s3 d3 V1 D3 ltac:(lia)) as VR. destruct (set_time_step h3 s3 d3 true) as [h4 s4].
  destruct VR as (W1 & W2 & W3 & W4 & W5 & W6 & W7 & W8).
  assert (TP : tprev h4 s4 = t0). { unfold tprev in *. rewrite W2, W6, W8, V6. auto. }
  assert (TP3 : nth (w_step s3 - 1) (tderef h3 (w_times s3)) 0%Q = t0) by (unfold tprev in V6; rewrite V6; auto).
  apply (ed_loop_ok HJ) in EC; auto.
  - destruct EC as (trA & v' & E1 & E2 & E3 & E4). exists trA, (w_dt s), a, b, x, v'. split; [rewrite E1; reflexivity|]. split; [|split; auto].
    + rewrite W5, V5, Eb, W2, V3, S0, TP in E2. auto.
    + rewrite E1. intros e He. apply in_app_or in He. destruct He as [He|He]; [|apply E4; auto].
      unfold tr3, tr2, tr1 in He. cbn in He. destruct He as [<-|[<-|[<-|[]]]]; discriminate.
  - split; auto. split; [lia|]. split; [rewrite W3; auto|]. rewrite W4, W5, V4, V5, Ea, Eb. auto.
  - rewrite TP, W7, W3, TP3. reflexivity.
  - rewrite W5, V5, Eb. apply J3. rewrite W7, TP3. reflexivity.
  - intros _. exact Logic.I.
Qed.

(** C59: the matrix used in every solver call of a run is the matrix of the
    step size of the call. *)
Theorem C59_matrix : forall (J : C -> Q -> Q -> Prop), controller_ok J ->
  forall (get_initial_dt : C -> vts -> res (Q * C)) fuel fuel1 h0 t0 t1 d n h s c vec0 tr h' s' c' w,
  (t0 < t1)%Q -> (match n with Some z => (1 <= z)%Z | None => match d with Some x => (0 < x)%Q | None => True end end) ->
  (forall s d c', w_t0 s = t0 -> w_t1 s = t1 -> get_initial_dt c s = Ok (d, c') -> (0 < d)%Q /\ forall t, (t == t0 + d)%Q -> J c' t t1) ->
  make_vts h0 t0 t1 d n = Ok (h, s) ->
  ed_call init pre post nls is_linear tsc fuel fuel1 get_initial_dt h s c vec0 = Ok (tr, h', s', c', w) ->
  forall e, In e tr -> e_kind e = KSolve -> (e_mdt e == e_dt e)%Q.
Proof.
  intros J HJ gid fuel fuel1 h0 t0 t1 d n h s c vec0 tr h' s' c' w Ht Hn HG E EC.
  destruct (@C58_ed J HJ gid fuel fuel1 h0 t0 t1 d n h s c vec0 tr h' s' c' w Ht Hn HG E EC) as (tr1 & d1 & a & b & x & v' & _ & _ & _ & M). exact M.
Qed.
End C.

(** ** C33: tsc.time_sequence *)

(** The given times up to the first one at least [t1]; [t1] is added if there is none. *)
Fixpoint upto (t1 : Q) (l : list Q) : list Q :=
  match l with
  | [] => [t1]
  | t :: r => if Qle_bool t1 t then [t] else t :: upto t1 r
  end.
Fixpoint increasing (t : Q) (l : list Q) : Prop :=
  match l with [] => True | x :: r => (t < x)%Q /\ increasing x r end.

Lemma posts_app : forall (a b : trace V), posts (a ++ b) = posts a ++ posts b.
Proof. intros. unfold posts. rewrite filter_app, map_app. reflexivity. Qed.

Lemma seq_loop_ok : forall lin l fuel f1 tr h s m v, einv h s -> (length l + 1 < fuel)%nat ->
  increasing (w_time s) l ->
  exists r, ed_loop pre post nls lin seq_tsc fuel (S f1) tr h s l m v = Ok r /\
  exists P, posts (fst (fst (fst (fst r)))) = posts tr ++ P /\ map fst P = seq (w_step s) (length P) /\
    Forall2 Qeq (map snd P) (if Qle_bool (w_t1 s) (w_time s) then [w_time s] else w_time s :: upto (w_t1 s) l).
Proof.
  intros lin. 
  assert (STEP : forall fuel f1 tr h s l m v, einv h s ->
    exists tr' v' m', posts tr' = posts tr ++ [(w_step s, w_time s)] /\ exists w,
    ed_loop pre post nls lin seq_tsc (S fuel) (S f1) tr h s l m v =
      if Qle_bool 1 (w_nt s) then Ok (tr', h, s, snd (seq_tsc l s v v), w)
      else let d := fst (fst (seq_tsc l s v v)) in
           let '(h, s) := if Qeq_bool d (w_dt s) then (h, s) else set_time_step h s d false in
           let '(h, s) := vadvance h s in
           ed_loop pre post nls lin seq_tsc fuel (S f1) tr' h s (snd (seq_tsc l s v v)) m' v').
  { intros fuel f1 tr h s l m v I. cbn [ed_loop ed_step]. unfold do_pre.
    destruct (use_matrix lin m (w_dt s)) as [x m1]. rewrite do_solve_eq. unfold do_post.
    destruct l as [|t l]; cbn [seq_tsc fst snd].
    - match goal with |- context [if Qeq_bool ?a (w_dt s) then m1 else None] => destruct (Qeq_bool a (w_dt s)) end;
        (eexists _, _, _; split; [|eexists; destruct (Qle_bool 1 (w_nt s)); reflexivity];
         rewrite !posts_app; unfold posts; cbn; rewrite !app_nil_r; reflexivity).
    - match goal with |- context [if Qeq_bool ?a (w_dt s) then m1 else None] => destruct (Qeq_bool a (w_dt s)) end;
        (eexists _, _, _; split; [|eexists; destruct (Qle_bool 1 (w_nt s)); reflexivity];
         rewrite !posts_app; unfold posts; cbn; rewrite !app_nil_r; reflexivity). }
  assert (NEXT : forall h s d, einv h s -> (0 < d)%Q ->
     let '(h', s') := (let '(h, s) := if Qeq_bool d (w_dt s) then (h, s) else set_time_step h s d false in vadvance h s) in
     einv h' s' /\ w_step s' = S (w_step s) /\ w_t0 s' = w_t0 s /\ w_t1 s' = w_t1 s /\ (w_time s' == w_time s + d)%Q).
  { intros h s d (J1 & J2 & J3 & J4) D.
    assert (NS : exists s3, (if Qeq_bool d (w_dt s) then (h, s) else set_time_step h s d false) = (h, s3) /\
       vts_ok h s3 /\ w_step s3 = w_step s /\ (w_dt s3 == d)%Q /\ w_t0 s3 = w_t0 s /\ w_t1 s3 = w_t1 s /\ w_time s3 = w_time s).
    { destruct (Qeq_bool d (w_dt s)) eqn:Ed.
      - apply Qeq_bool_iff in Ed. exists s. split; auto. split; auto. split; auto. split; [lra|]. auto.
      - pose proof (vset_ok d J1) as VS. destruct (set_time_step h s d false) as [h3 s3]. destruct VS as (-> & K1 & K2 & K3 & K4 & K5 & K6 & K7).
        exists s3. split; auto. split; auto. split; auto. split; [rewrite K3; reflexivity|]. auto. }
    destruct NS as (s3 & -> & K1 & K2 & K3 & K4 & K5 & K6).
    pose proof (@vadvance_ok2 h s3 K1 ltac:(lra)) as VA. destruct (vadvance h s3) as [h4 s4].
    destruct VA as (V1 & V2 & V3 & V4 & V5 & V6 & V7).
    split. { split; auto. split; [lia|]. split; [rewrite V2; lra|]. rewrite V4, V5, K4, K5. auto. }
    split; [lia|]. split; [congruence|]. split; [congruence|]. rewrite V7, K6. lra. }
  induction l as [|t l IH]; intros fuel f1 tr h s m v I Hf HI.
  - destruct fuel as [|[|fuel]]; [simpl in Hf; lia..|].
    destruct (STEP (S fuel) f1 tr h s [] m v I) as (tr' & v' & m' & P1 & w & ->). pose proof I as (J1 & J2 & J3 & J4). pose proof (nt_ge J1 J4) as NG.
    destruct (Qle_bool 1 (w_nt s)).
    + eexists. split; [reflexivity|]. cbn [fst]. exists [(w_step s, w_time s)]. split; auto. split; auto.
      assert (Qle_bool (w_t1 s) (w_time s) = true) as -> by (apply Qle_bool_iff, NG; auto). constructor; [reflexivity|constructor].
    + assert (LT : (w_time s < w_t1 s)%Q). { apply Qnot_le_lt. intros L. apply NG in L. discriminate. }
      assert (Qle_bool (w_t1 s) (w_time s) = false) as -> by (apply not_true_is_false; intros L; apply Qle_bool_iff in L; lra).
      cbn [seq_tsc fst snd]. assert (Qeq_bool (w_t1 s - w_time s) 0 = false) as -> by (apply not_true_is_false; intros L; apply Qeq_bool_iff in L; lra).
      pose proof (@NEXT h s (w_t1 s - w_time s)%Q I ltac:(lra)) as NX.
      destruct (if Qeq_bool (w_t1 s - w_time s) (w_dt s) then (h, s) else set_time_step h s (w_t1 s - w_time s) false) as [h1 s1].
      destruct (vadvance h1 s1) as [h2 s2]. destruct NX as (N1 & N2 & N3 & N4 & N5).
      destruct (STEP fuel f1 tr' h2 s2 [] m' v' N1) as (tr3 & v3 & m3 & P3 & w3 & ->).
      assert (Qle_bool 1 (w_nt s2) = true) as ->. { apply (nt_ge (proj1 N1)); [apply N1|]. rewrite N4. lra. }
      eexists. split; [reflexivity|]. cbn [fst]. exists [(w_step s, w_time s); (w_step s2, w_time s2)].
      split; [rewrite P3, P1, <- app_assoc; auto|]. split; [cbn; rewrite N2; auto|]. constructor; [reflexivity|]. constructor; [cbn; lra|constructor].
  - destruct fuel as [|fuel]; [simpl in Hf; lia|]. destruct HI as [H1 H2].
    destruct (STEP fuel f1 tr h s (t :: l) m v I) as (tr' & v' & m' & P1 & w & ->). pose proof I as (J1 & J2 & J3 & J4). pose proof (nt_ge J1 J4) as NG.
    destruct (Qle_bool 1 (w_nt s)).
    + eexists. split; [reflexivity|]. cbn [fst]. exists [(w_step s, w_time s)]. split; auto. split; auto.
      assert (Qle_bool (w_t1 s) (w_time s) = true) as -> by (apply Qle_bool_iff, NG; auto). constructor; [reflexivity|constructor].
    + assert (LT : (w_time s < w_t1 s)%Q). { apply Qnot_le_lt. intros L. apply NG in L. discriminate. }
      assert (Qle_bool (w_t1 s) (w_time s) = false) as -> by (apply not_true_is_false; intros L; apply Qle_bool_iff in L; lra).
      cbn [seq_tsc fst snd]. assert (Qeq_bool (t - w_time s) 0 = false) as -> by (apply not_true_is_false; intros L; apply Qeq_bool_iff in L; lra).
      pose proof (@NEXT h s (t - w_time s)%Q I ltac:(lra)) as NX.
      destruct (if Qeq_bool (t - w_time s) (w_dt s) then (h, s) else set_time_step h s (t - w_time s) false) as [h1 s1].
      destruct (vadvance h1 s1) as [h2 s2]. destruct NX as (N1 & N2 & N3 & N4 & N5).
      assert (E2 : (w_time s2 == t)%Q) by lra.
      assert (INC : increasing (w_time s2) l). { destruct l; auto. destruct H2. split; auto. lra. }
      destruct (IH fuel f1 tr' h2 s2 m' v' N1) as (r & R1 & P & R2 & R3 & R4); [simpl in Hf; lia|auto|].
      exists r. split; auto. exists ((w_step s, w_time s) :: P). split; [rewrite R2, P1, <- app_assoc; auto|].
      split; [cbn; rewrite R3, N2; auto|]. cbn [map snd upto]. constructor; [reflexivity|]. rewrite N4 in R4.
      assert (Eb : Qle_bool (w_t1 s) (w_time s2) = Qle_bool (w_t1 s) t) by (rewrite E2; reflexivity).
      rewrite Eb in R4. clear - R4 E2. destruct (Qle_bool (w_t1 s) t); inversion R4 as [|x y lx ly Q1 Q2 E3 E4]; constructor; auto; rewrite Q1; exact E2.
Qed.

(** C33: the visited time levels, for any solver functions; [fuel] bounds the
    number of steps, so the loop terminates. *)
Theorem C33_time_sequence : forall lin h0 t0 t1 d n h s times vec0 f1 fuel,
  (t0 < t1)%Q -> (match n with Some z => (1 <= z)%Z | None => match d with Some x => (0 < x)%Q | None => True end end) ->
  make_vts h0 t0 t1 d n = Ok (h, s) -> times <> [] -> increasing t0 times -> length times < fuel ->
  exists tr h' s' c' w, ed_call init pre post nls lin seq_tsc fuel (S f1) seq_initial_dt h s times vec0 = Ok (tr, h', s', c', w) /\
  map fst (posts tr) = seq 0 (length (posts tr)) /\
  Forall2 Qeq (map snd (posts tr)) (t0 :: upto t1 times).
Proof.
  intros lin h0 t0 t1 d n h s times vec0 f1 fuel Ht Hn E HN HI Hf.
  destruct (@C28_consistent h0 t0 t1 d n Ht Hn (h, s) (vr_init E)) as (I & Hd & Ea & Eb). cbn [fst snd] in *.
  assert (S0 : w_step s = 0 /\ w_time s = t0).
  { unfold make_vts, vset_step in E. cbn in E. inversion E; subst. cbn. auto. }
  destruct S0 as [S0 T0]. unfold ed_call. rewrite S0, T0. unfold do_pre, do_post, do_init.
  destruct (nls _ 0 t0 (w_dt s) _) as [b cb]. 
  match goal with |- context [ed_loop _ _ _ _ _ _ _ ?x] => set (tr3 := x) end.
  assert (PT : posts tr3 = [(0, t0)]) by (unfold tr3, posts; cbn; reflexivity).
  pose proof (vadvance_ok2 I Hd) as VA. destruct (vadvance h s) as [h3 s3].
  destruct VA as (V1 & V2 & V3 & V4 & V5 & V6 & V7).
  destruct times as [|t l]; [congruence|]. cbn [seq_initial_dt]. destruct HI as [H1 H2]. rewrite V4, Ea.
  pose proof (@vrepeat_ok h3 s3 (t - t0)%Q V1 ltac:(lra) ltac:(lia)) as VR. destruct (set_time_step h3 s3 (t - t0) true) as [h4 s4].
  destruct VR as (W1 & W2 & W3 & W4 & W5 & W6 & W7 & W8).
  assert (TP3 : nth (w_step s3 - 1) (tderef h3 (w_times s3)) 0%Q = t0) by (unfold tprev in V6; rewrite V6; auto).
  assert (ET : (w_time s4 == t)%Q) by (rewrite W7, TP3; lra).
  match goal with |- context [ed_loop _ _ _ _ _ _ _ _ _ _ _ _ ?x] => set (v3 := x) end.
  destruct (@seq_loop_ok lin l fuel f1 tr3 h4 s4 None v3) as (r & R1 & P & R2 & R3 & R4).
  - split; auto. split; [lia|]. split; [rewrite W3; lra|]. rewrite W4, W5, V4, V5, Ea, Eb. auto.
  - simpl in Hf. lia.
  - destruct l; auto. destruct H2. split; auto. lra.
  - destruct r as [[[[tr h'] s'] c'] w]. exists tr, h', s', c', w. cbn [fst] in R2. split; auto. rewrite R2, PT, map_app, !map_app, app_length, R3.
    split; [cbn; rewrite W2, V3, S0; auto|]. cbn [map snd fst app]. constructor; [reflexivity|].
    rewrite W5, V5, Eb in R4. cbn [upto]. assert (Eq : Qle_bool t1 (w_time s4) = Qle_bool t1 t) by (rewrite ET; reflexivity).
    rewrite Eq in R4. clear - R4 ET. destruct (Qle_bool t1 t); inversion R4 as [|x y lx ly Q1 Q2 E3 E4]; constructor; auto; rewrite Q1; exact ET.
Qed.

(** If the given times end with [t1], exactly [t0] and the given times are visited. *)
Theorem C33_exact : forall t1 times t0, times <> [] -> increasing t0 times -> last times 0%Q = t1 -> upto t1 times = times.
Proof.
  induction times as [|t l IH]; intros t0 HN HI HL; [congruence|]. destruct HI as [H1 H2]. cbn [upto]. destruct l as [|t2 l].
  - cbn in HL. subst t. assert (Qle_bool t1 t1 = true) as -> by (apply Qle_bool_iff; lra). reflexivity.
  - assert (LT : forall l x, increasing x l -> l <> [] -> (x < last l 0)%Q).
    { clear. induction l as [|y l IH]; intros x H N; [congruence|]. destruct H. destruct l; [cbn; auto|].
      specialize (IH y H0 ltac:(discriminate)). change (last (y :: q :: l) 0%Q) with (last (q :: l) 0%Q). lra. }
    change (last (t :: t2 :: l) 0%Q) with (last (t2 :: l) 0%Q) in HL.
    specialize (LT (t2 :: l) t H2 ltac:(discriminate)). rewrite HL in LT.
    assert (Qle_bool t1 t = false) as -> by (apply not_true_is_false; intros L; apply Qle_bool_iff in L; lra).
    f_equal. apply (IH t); auto. discriminate.
Qed.

(** ** tsc.fixed *)

(** C58 for the fixed step size: each of the steps is computed once. *)
Lemma fixed_loop_ok : forall n fuel tr s v, Z.of_nat (step s + n) = n_step s -> (0 < n)%nat -> (n < fuel)%nat -> (n_step s >= 2)%Z -> (t0 s < t1 s)%Q ->
  nt s = normalize (t0 s) (t1 s) (time s) -> time s = nth (step s) (times s) 0%Q -> calls_ok tr ->
  (forall k, (S k < Z.to_nat (n_step s))%nat -> (nth k (times s) 0 < t1 s)%Q) -> (t1 s <= nth (Z.to_nat (n_step s) - 1) (times s) 0)%Q ->
  exists tr' s' w v', ed_fixed_loop pre post nls fuel tr s v = Ok (tr ++ tr', s', w) /\ calls_ok (tr ++ tr') /\
    simple_run true (fun k => nth k (times s) 0%Q) (seq (step s) n) v tr' v' /\ step s' = Z.to_nat (n_step s) - 1.
Proof.
  induction n as [|n IH]; intros fuel tr s v Hn H0 Hf H2 Ht Hnt Htm HC HL HU; [lia|]. destruct fuel as [|fuel]; [lia|].
  cbn [ed_fixed_loop]. unfold do_pre, do_post. rewrite do_solve_eq.
  set (a := pre tr (step s) (time s) v). set (tr1 := tr ++ [Ev KPre (step s) (time s) (dt s) (dt s) v a]).
  set (b := fst (nls tr1 (step s) (time s) (dt s) a)). set (tr2 := tr1 ++ [Ev KSolve (step s) (time s) (dt s) (dt s) a b]).
  set (c := post tr2 (step s) (time s) b). set (tr3 := tr2 ++ [Ev KPost (step s) (time s) (dt s) (dt s) b c]).
  assert (C3 : calls_ok tr3).
  { apply calls_ok_snoc; [apply calls_ok_snoc; [apply calls_ok_snoc|]|]; auto; reflexivity. }
  assert (Etr : forall x, tr3 ++ x = tr ++ ([Ev KPre (step s) (time s) (dt s) (dt s) v a; Ev KSolve (step s) (time s) (dt s) (dt s) a b;
              Ev KPost (step s) (time s) (dt s) (dt s) b c] ++ x)).
  { intros. unfold tr3, tr2, tr1. rewrite <- !app_assoc. reflexivity. }
  assert (NG : Qle_bool 1 (nt s) = true <-> (t1 s <= time s)%Q).
  { rewrite Hnt, Qle_bool_iff. unfold normalize. split; intros HH.
    - apply Qmult_le_compat_r with (z := (t1 s - t0 s)%Q) in HH; [|lra].
      setoid_replace ((time s - t0 s) / (t1 s - t0 s) * (t1 s - t0 s))%Q with (time s - t0 s)%Q in HH by (field; lra). lra.
    - apply Qle_shift_div_l; lra. }
  destruct n as [|n].
  - assert (Qle_bool 1 (nt s) = true) as ->. { apply NG. rewrite Htm. replace (step s) with (Z.to_nat (n_step s) - 1) by lia. auto. }
    eexists _, s, a, c. split; [rewrite <- (app_nil_r tr3), Etr; reflexivity|]. split; [rewrite <- Etr, app_nil_r; auto|].
    split; [|lia]. cbn [seq simple_run]. rewrite <- Htm. exists (dt s), a, b, c, KSolve, []. rewrite andb_false_r. auto.
  - assert (Qle_bool 1 (nt s) = false) as ->.
    { apply not_true_is_false. intros L. apply NG in L. rewrite Htm in L. specialize (HL (step s) ltac:(lia)). lra. }
    pose proof (@C27_advance s ltac:(lia)) as AD. destruct (Z.eqb_spec (Z.of_nat (step s)) (n_step s - 1)) as [E|E]; [lia|].
    destruct AD as (A1 & A2 & A3 & A4 & A5 & A6).
    assert (A7 : t0 (advance s) = t0 s /\ t1 (advance s) = t1 s) by (unfold advance; destruct (_ <? _)%Z; auto). destruct A7 as [A7 A8].
    destruct (IH fuel tr3 (advance s) c) as (tr' & s' & w & v' & I1 & I2 & I3 & I4);
      [rewrite A1, A4; lia|lia|lia|lia|rewrite A7, A8; auto|rewrite A3, A7, A8; auto|rewrite A1, A5; auto|auto|rewrite A4, A5, A8; auto|rewrite A4, A5, A8; auto|].
    exists ([Ev KPre (step s) (time s) (dt s) (dt s) v a; Ev KSolve (step s) (time s) (dt s) (dt s) a b;
              Ev KPost (step s) (time s) (dt s) (dt s) b c] ++ tr'), s', w, v'.
    rewrite <- Etr. split; auto. split; auto. split; [|rewrite I4, A4; auto].
    change (seq (step s) (S (S n))) with (step s :: seq (S (step s)) (S n)). cbn [simple_run]. rewrite <- Htm.
    exists (dt s), a, b, c, KSolve, tr'. rewrite andb_false_r. split; auto. split; auto. rewrite A1, A5 in I3. auto.
Qed.

Theorem C58_fixed : forall a0 b0 d n s vec0 fuel, (a0 < b0)%Q -> (2 <= n)%Z -> make_ts a0 b0 d (Some n) None = Ok s -> (Z.to_nat n < fuel)%nat ->
  let tm := fun k => nth k (times s) 0%Q in
  exists tr dd a b c tr' s' w v', ed_fixed_call init pre post nls fuel s vec0 = Ok (tr, s', w) /\
  tr = [Ev KPre 0 (tm 0) dd dd (init vec0) a; Ev KInit 0 (tm 0) dd dd a b; Ev KPost 0 (tm 0) dd dd b c] ++ tr' /\
  simple_run true tm (seq 1 (Z.to_nat n - 1)) c tr' v' /\ calls_ok tr /\ step s' = Z.to_nat n - 1.
Proof.
  intros a0 b0 d n s vec0 fuel Hab Hn E Hf tm.
  destruct (@C27_times a0 b0 d n None s ltac:(lra) E) as (H1 & H2 & H3 & H4 & H5 & H6 & H7 & H8 & H9 & H10 & H11 & H12).
  assert (S0 : step s = 0 /\ nt s = normalize (t0 s) (t1 s) (time s)).
  { unfold make_ts in E. destruct (if (1 <? n)%Z then _ else _) as [tmx d'].
    match type of E with set_step ?x None = _ => change (set_step x None) with (set_step x (Some 0%Z)) in E; pose proof (C27_set_step x 0) as SS end.
    rewrite E in SS. destruct SS as (_ & B1 & B2 & B3 & B4 & B5 & B6 & B7 & B8). cbn in B1. split; [lia|]. rewrite B3, B7, B8. reflexivity. }
  destruct S0 as [S0 NT]. assert (T0 : time s = tm 0) by (rewrite H10, S0; reflexivity).
  unfold ed_fixed_call. rewrite S0, T0. unfold do_pre, do_post, do_init.
  set (v := init vec0). set (a := pre [] 0 (tm 0) v). set (tr1 := [] ++ [Ev KPre 0 (tm 0) (dt s) (dt s) v a]).
  destruct (nls tr1 0 (tm 0) (dt s) a) as [b cb]. set (tr2 := tr1 ++ [_]). set (c := post tr2 0 (tm 0) b). set (tr3 := tr2 ++ [_]).
  assert (C3 : calls_ok tr3).
  { apply calls_ok_snoc; [apply calls_ok_snoc; [apply calls_ok_snoc|]|]; auto; try reflexivity; try exact Logic.I. apply calls_ok_nil. }
  pose proof (@C27_advance s ltac:(lia)) as AD. destruct (Z.eqb_spec (Z.of_nat (step s)) (n_step s - 1)) as [EE|EE]; [lia|].
  destruct AD as (A1 & A2 & A3 & A4 & A5 & A6).
  assert (A7 : t0 (advance s) = t0 s /\ t1 (advance s) = t1 s) by (unfold advance; destruct (_ <? _)%Z; auto). destruct A7 as [A7 A8].
  destruct (@fixed_loop_ok (Z.to_nat n - 1) fuel tr3 (advance s) c) as (tr' & s' & w & v' & I1 & I2 & I3 & I4); auto.
  - rewrite A1, A4. lia.
  - lia.
  - lia.
  - rewrite A4. lia.
  - rewrite A7, A8, H3, H4. auto.
  - rewrite A3, A7, A8. auto.
  - rewrite A1, A5. auto.
  - intros k Hk. rewrite A4, H2 in Hk. rewrite A5, A8, H4, H6 by lia.
    replace (Z.max 1 (n - 1)) with (n - 1)%Z by lia.
    assert (P : (0 < inject_Z (n - 1))%Q) by (change 0%Q with (inject_Z 0); rewrite <- Zlt_Qlt; lia).
    assert (L : (inject_Z (Z.of_nat k) < inject_Z (n - 1))%Q) by (rewrite <- Zlt_Qlt; lia).
    assert (L2 : (inject_Z (Z.of_nat k) * ((b0 - a0) / inject_Z (n - 1)) < b0 - a0)%Q).
    { setoid_replace (inject_Z (Z.of_nat k) * ((b0 - a0) / inject_Z (n - 1)))%Q with ((inject_Z (Z.of_nat k) * (b0 - a0)) / inject_Z (n - 1))%Q by (field; lra).
      apply Qlt_shift_div_r; auto. nra. }
    lra.
  - rewrite A4, A5, A8, H4, H2, H8 by lia. lra.
  - exists (tr3 ++ tr'), (dt s), a, b, c, tr', s', w, v'. split; auto. split; [reflexivity|]. rewrite A1, S0, A5 in I3. rewrite A4, H2 in I4. auto.
Qed.

(** With n_step = 1 the loop never ends. *)
Theorem C58_fixed_one_step_refuted : forall s vec0, make_ts 0 1 None (Some 1%Z) None = Ok s ->
  forall fuel, ed_fixed_call init pre post nls fuel s vec0 = Err OutOfFuel.
Proof.
  intros s vec0 E fuel. vm_compute in E. inversion E; subst s. unfold ed_fixed_call.
  destruct (do_pre _ _ _ _ _ _) as [tr1 v1]. destruct (do_init _ _ _ _ _ _) as [tr2 v2]. destruct (do_post _ _ _ _ _ _) as [tr3 v3].
  unfold advance. cbn [step n_step Z.of_nat Z.sub Z.add Z.opp Z.pos_sub Z.ltb Z.compare]. clear. revert tr3 v3.
  induction fuel as [|f IH]; intros; [reflexivity|]. cbn [ed_fixed_loop].
  destruct (do_pre _ _ _ _ _ _) as [tr1 v1]. destruct (do_solve _ _ _ _ _ _ _) as [[tr2 v2] x]. destruct (do_post _ _ _ _ _ _) as [tr4 v4].
  cbn [nt]. cbn [Qle_bool]. unfold advance. apply IH.
Qed.
End P.

(** C58: the final state is not returned (C58_ed); a solver adding one to the
    state in every call: the final state is 3, the returned vector 2. *)
Theorem C58_return_refuted : exists h s tr h' s' c',
  make_vts [] 0 1 None (Some 3%Z) = Ok (h, s) /\
  ed_call (fun v => v) (fun _ _ _ v => v) (fun _ _ _ v => v) (fun _ _ _ _ v => (v + 1, (true, 1))) true
    seq_tsc 5 5 seq_initial_dt h s [1 # 2; 1]%Q 0 = Ok (tr, h', s', c', 2) /\
  e_kind (last tr (Ev KPre 0 0 0 0 0 0)) = KPost /\ e_out (last tr (Ev KPre 0 0 0 0 0 0)) = 3.
Proof. eexists _, _, _, _, _, _. split; [reflexivity|]. split; [vm_compute; reflexivity|]. vm_compute. auto. Qed.

(** tsc.time_sequence satisfies the assumption of C58_ed. *)
Theorem C33_controller : forall V, controller_ok (V := V) seq_tsc (fun l t _ => increasing t l).
Proof.
  intros V c s v v' Hd HJ. destruct c as [|t l]; cbn.
  - intros H. assert (Qeq_bool (w_t1 s - w_time s) 0 = false) as -> by (apply not_true_is_false; intros L; apply Qeq_bool_iff in L; lra).
    split; [lra|auto].
  - intros H. destruct HJ as [H1 H2]. assert (Qeq_bool (t - w_time s) 0 = false) as -> by (apply not_true_is_false; intros L; apply Qeq_bool_iff in L; lra).
    split; [lra|]. intros t' Ht'. destruct l; auto. destruct H2. split; auto. lra.
Qed.

Print Assumptions C58_ed.
Print Assumptions C59_matrix.
Print Assumptions C58_fixed.
Print Assumptions C58_fixed_one_step_refuted.
Print Assumptions C58_return_refuted.
Print Assumptions C33_time_sequence.
Print Assumptions C33_exact.
