(** C90, C91: restarting a time-dependent solution. *)
From Coq Require Import QArith.
From Verif Require Import Base M_ts M_tsloop M_vars M_restart.
Set Implicit Arguments.
Open Scope nat_scope.

Section C90.
Context {V R : Type}.
Notation hvar := (hvar V).
(** A variable with no history, or with the history of at most one step. *)
Definition wfv (v : hvar) : Prop :=
  match h_hist v with
  | None => h_step v = 0 /\ exists x, h_data v = [x]
  | Some 0 => exists x, h_data v = [x]
  | Some 1 => exists x y, h_data v = [x; y] /\ (h_step v <> 0 -> y <> None)
  | Some _ => False
  end.
Definition setv (v : hvar) (x : V) : hvar := mkHV (h_hist v) (upd (h_data v) 0 (Some x)) (h_step v).
Definition advv (k : nat) (v : hvar) (x : V) : hvar :=
  match h_hist v with
  | None => mkHV None [Some x] 0
  | Some 0 => mkHV (Some 0) [Some x] (k + 1)
  | Some n => mkHV (Some n) [Some x; Some x] (k + 1)
  end.
Ltac wf_cases v H :=
  destruct v as [[[|[|n]]|] dd st]; cbn in H; [destruct H as (x0 & ->)|destruct H as (x0 & y0 & -> & Hy)|destruct H|destruct H as (-> & x0 & ->)].
Lemma set_one : forall v x, wfv v -> h_set v x 0 = Ok (setv v x) /\ wfv (setv v x).
Proof. intros v x H. wf_cases v H; cbn; unfold wfv; cbn; eauto 6. Qed.
Lemma save_one : forall v x, wfv v -> exists l, save_var (setv v x) = Ok (x :: l) /\ length (x :: l) = length (h_data v).
Proof.
  intros v x H. wf_cases v H; unfold setv, save_var; cbn.
  - destruct st; exists []; auto.
  - destruct st as [|st]; cbn.
    + exists [x]. auto.
    + destruct y0 as [y|]; [|destruct Hy; auto]. exists [y]. auto.
  - exists []; auto.
Qed.
Lemma adv_one : forall k v x, wfv v -> h_advance k (setv v x) = Ok (advv k v x) /\ wfv (advv k v x).
Proof.
  intros k v x H. wf_cases v H; unfold setv, advv, h_advance; cbn; unfold wfv; cbn; eauto.
  - destruct y0; cbn; split; auto; do 2 eexists; split; try reflexivity; discriminate.
Qed.
Lemma load_one : forall k v v0 x l, wfv v -> wfv v0 -> h_hist v0 = h_hist v -> length (x :: l) = length (h_data v) ->
  exists v1, load_hist 0 v0 (x :: l) = Ok v1 /\ h_set (h_init v1) x 0 = Ok (setv (h_init v1) x) /\ wfv (h_init v1) /\
  h_advance k (setv (h_init v1) x) = Ok (advv k v x).
Proof.
  intros k v v0 x l H H0 E L.
  destruct v as [[[|[|n]]|] dd st]; destruct v0 as [[[|[|n0]]|] dd0 st0]; cbn in E; try discriminate; cbn in H, H0; try contradiction.
  - destruct H as (x0 & ->), H0 as (x1 & ->). destruct l; [|discriminate]. cbn. eexists. repeat split; eauto.
    unfold wfv; cbn. eauto.
  - destruct H as (x0 & y0 & -> & Hy), H0 as (x1 & y1 & -> & Hy1). destruct l as [|z [|? ?]]; try discriminate.
    cbn. eexists. split; [reflexivity|]. cbn. split; auto. split; auto.
    unfold wfv; cbn. exists None, None. split; auto.
  - destruct H as (-> & x0 & ->), H0 as (-> & x1 & ->). destruct l; [|discriminate]. cbn. eexists. split; [reflexivity|].
    split; auto. split; auto. unfold wfv; cbn. eauto.
Qed.
Lemma len_hist : forall v v0, wfv v -> wfv v0 -> h_hist v0 = h_hist v -> length (h_data v0) = length (h_data v).
Proof.
  intros v v0 H H0 E. destruct v as [[[|[|n]]|] dd st]; destruct v0 as [[[|[|n0]]|] dd0 st0]; cbn in E; try discriminate; cbn in H, H0; try contradiction; cbn.
  - destruct H as (? & ->), H0 as (? & ->); auto.
  - destruct H as (? & ? & -> & _), H0 as (? & ? & -> & _); auto.
  - destruct H as (_ & ? & ->), H0 as (_ & ? & ->); auto.
Qed.

Fixpoint map2 {A B C} (f : A -> B -> C) (l : list A) (m : list B) : list C :=
  match l, m with x :: t, y :: u => f x y :: map2 f t u | _, _ => [] end.
Lemma set_cur_ok : forall vs full, Forall wfv vs -> length full = length vs ->
  set_cur vs full = Ok (map2 setv vs full) /\ Forall wfv (map2 setv vs full).
Proof.
  induction vs as [|v vs IH]; intros [|x full] H L; try discriminate; cbn; auto.
  inversion H; subst. destruct (@set_one v x) as [E W]; auto. destruct (IH full) as [E2 W2]; auto.
  unfold set_cur in *. cbn. unfold bind at 1. rewrite E. rewrite E2. cbn. auto.
Qed.
Lemma setv_setv : forall v x y, setv (setv v x) y = setv v y.
Proof. intros [h [|d dd] s] x y; auto. Qed.
Lemma map2_setv : forall vs a b, length a = length vs -> length b = length vs -> map2 setv (map2 setv vs a) b = map2 setv vs b.
Proof.
  induction vs as [|v vs IH]; intros [|x a] [|y b] L1 L2; cbn in *; try discriminate; auto.
  rewrite setv_setv, IH; auto.
Qed.
Lemma map2_length : forall A B C (f : A -> B -> C) l m, length m = length l -> length (map2 f l m) = length l.
Proof. induction l as [|x l IH]; intros [|y m] H; cbn in *; auto; try discriminate. Qed.

Section Run.
Variable make_full : nat -> R -> list V.
Variable apply_ebc : nat -> list V -> list V.
Variable reduce : list V -> R.
Variable has_lcbc : bool.
Variable solve : nat -> Q -> list hvar -> R -> R.
Variable n_var : nat.
(** Full vectors have the parts of all variables; the boundary conditions do not
    change the free DOFs (C05, C06, C07). *)
Hypothesis full_len : forall k r, length (make_full k r) = n_var.
Hypothesis ebc_len : forall k v, length (apply_ebc k v) = length v.
Hypothesis reduce_full : forall k r, reduce (apply_ebc k (make_full k r)) = r.

Notation steps := (steps make_full apply_ebc has_lcbc solve).
Notation one_step := (one_step make_full apply_ebc has_lcbc solve).
Notation run_rest := (run_rest make_full apply_ebc has_lcbc solve).
Notation resume := (resume reduce has_lcbc).

Definition ts_wf (s : ts) : Prop :=
  (1 <= n_step s)%Z /\ length (times s) = Z.to_nat (n_step s) /\ step s < Z.to_nat (n_step s).
Definition same_ts (a b : ts) : Prop :=
  t0 a = t0 b /\ t1 a = t1 b /\ n_step a = n_step b /\ times a = times b /\ M_ts.dt a = M_ts.dt b.
(** The reduced state vector is kept only with LCBCs. *)
Definition rv_ok (r : option R) : Prop := has_lcbc = false -> r = None.
Definition wfp (p : pstate V R) : Prop := Forall wfv (p_vars p) /\ length (p_vars p) = n_var /\ rv_ok (p_rvec p) /\ ts_wf (p_ts p).
(** A new problem: the same variables and time stepper. *)
Definition fresh (s0 : ts) (rv0 : option R) (vs0 : list hvar) (p : pstate V R) : Prop :=
  same_ts s0 (p_ts p) /\ rv_ok rv0 /\ Forall2 (fun v0 v => wfv v0 /\ h_hist v0 = h_hist v) vs0 (p_vars p).

Lemma save_all : forall vs full, Forall wfv vs -> length full = length vs ->
  exists hs, mapr save_var (map2 setv vs full) = Ok hs /\
    Forall2 (fun h xv => exists l, h = fst xv :: l /\ length h = length (h_data (snd xv))) hs (combine full vs).
Proof.
  induction vs as [|v vs IH]; intros [|x full] H L; try discriminate; cbn [map2 mapr combine].
  - exists []. split; [reflexivity|constructor].
  - inversion H; subst. destruct (@save_one v x) as (l & E & Ll); auto. destruct (IH full) as (hs & E2 & F); auto.
    rewrite E. cbn [bind]. rewrite E2. cbn [bind]. exists ((x :: l) :: hs). split; auto. constructor; eauto.
Qed.
Lemma adv_all : forall k vs full, Forall wfv vs -> length full = length vs ->
  mapr (h_advance k) (map2 setv vs full) = Ok (map2 (advv k) vs full) /\ Forall wfv (map2 (advv k) vs full).
Proof.
  induction vs as [|v vs IH]; intros [|x full] H L; try discriminate; cbn [map2 mapr]; auto.
  inversion H; subst. destruct (@adv_one k v x) as [E W]; auto. destruct (IH full) as [E2 W2]; auto.
  rewrite E. cbn [bind]. rewrite E2. cbn [bind]. auto.
Qed.

Lemma one_ok : forall p, wfp p -> exists f p' hs,
  let k := step (p_ts p) in let full := apply_ebc k (make_full k (p_vec p')) in
  one_step p = Ok (f, p') /\ wfp p' /\ p_ts p' = p_ts p /\
  p_vars p' = map2 (advv k) (p_vars p) full /\ f = mkFile k (p_rvec p') hs /\
  p_rvec p' = set_rvec has_lcbc (p_vec p') (p_rvec p) /\
  Forall2 (fun h xv => exists l, h = fst xv :: l /\ length h = length (h_data (snd xv))) hs (combine full (p_vars p)).
Proof.
  intros [s vs rv r] (W1 & W2 & W3 & W4). cbn [p_vars p_ts p_rvec p_vec] in *. unfold M_restart.one_step. cbn [p_vars p_ts p_rvec p_vec].
  set (k := step s). destruct (@set_cur_ok vs (make_full k r)) as [E Wa]; auto; [rewrite full_len; auto|].
  rewrite E. cbn [bind]. set (r' := solve _ _ _ _).
  destruct (@set_cur_ok (map2 setv vs (make_full k r)) (apply_ebc k (make_full k r'))) as [E2 Wb]; auto.
  { rewrite ebc_len, full_len, map2_length; auto. rewrite full_len; auto. }
  rewrite E2. cbn [bind]. rewrite map2_setv by (rewrite ?ebc_len, ?full_len; auto).
  assert (LF : length (apply_ebc k (make_full k r')) = length vs) by (rewrite ebc_len, full_len; auto).
  destruct (@save_all vs (apply_ebc k (make_full k r'))) as (hs & E3 & F); auto.
  unfold save_restart. rewrite E3. cbn [bind]. destruct (@adv_all k vs (apply_ebc k (make_full k r'))) as [E4 Wc]; auto.
  rewrite E4. cbn [bind]. do 3 eexists. split; [reflexivity|]. cbn [p_vars p_ts p_rvec p_vec].
  assert (WP : wfp (mkP s (map2 (advv k) vs (apply_ebc k (make_full k r'))) (set_rvec has_lcbc r' rv) r')).
  { split; auto. split; [cbn; rewrite map2_length; auto|]. split; auto. unfold rv_ok, set_rvec. cbn [p_rvec]. intros Hl. rewrite Hl. auto. }
  split; [exact WP|]. repeat (split; [reflexivity|]). exact F.
Qed.

Lemma load_all : forall k vs vs0 full hs, Forall wfv vs -> length full = length vs ->
  Forall2 (fun v0 v => wfv v0 /\ h_hist v0 = h_hist v) vs0 vs ->
  Forall2 (fun h xv => exists l, h = fst xv :: l /\ length h = length (h_data (snd xv))) hs (combine full vs) ->
  exists vs1 vs2, mapr2 (load_hist 0) vs0 hs = Ok vs1 /\
    mapr (fun l => match l with x :: _ => Ok x | [] => Err KeyError end) hs = Ok full /\
    set_cur (map h_init vs1) full = Ok vs2 /\ mapr (h_advance k) vs2 = Ok (map2 (advv k) vs full).
Proof.
  induction vs as [|v vs IH]; intros vs0 full hs H L F0 F.
  - inversion F0; subst. destruct full; [|discriminate]. inversion F; subst. exists [], []. auto.
  - destruct full as [|x full]; [discriminate|]. inversion F0 as [|v0 ? vs0' ? [P1 P2] F0']; subst.
    cbn [combine] in F. inversion F as [|h ? hs' ? (l & Eh & Lh) F']; subst. cbn [fst snd] in *. inversion H; subst.
    destruct (@load_one k v v0 x l) as (v1 & Q1 & Q2 & Q3 & Q4); auto.
    destruct (IH vs0' full hs') as (vs1 & vs2 & R1 & R2 & R3 & R4); auto.
    exists (v1 :: vs1), (setv (h_init v1) x :: vs2). split; [|split; [|split]].
    + cbn [mapr2]. rewrite Q1. cbn [bind]. rewrite R1. auto.
    + cbn [mapr bind]. rewrite R2. auto.
    + cbn [map]. unfold set_cur in *. cbn [mapr2]. rewrite Q2. cbn [bind]. rewrite R3. auto.
    + cbn [mapr map2]. rewrite Q4. cbn [bind]. rewrite R4. auto.
Qed.
Lemma cur_adv : forall k vs full, Forall wfv vs -> length full = length vs -> cur (map2 (advv k) vs full) = Ok full.
Proof.
  intros k vs. unfold cur. induction vs as [|v vs IH]; intros [|x full] H L; try discriminate; auto. inversion H; subst.
  cbn [map2 mapr]. assert (E : h_call (advv k v x) 0 = Ok x).
  { unfold advv, h_call. destruct (h_hist v) as [[|n]|]; cbn; rewrite ?andb_false_r; auto. }
  rewrite E. cbn [bind]. rewrite IH; auto.
Qed.

(** The state after loading the file of a step is the state after that step. *)
Lemma resume_ok : forall p s0 rv0 vs0 f p', wfp p -> fresh s0 rv0 vs0 p -> one_step p = Ok (f, p') ->
  step (p_ts p) + 1 < Z.to_nat (n_step (p_ts p)) ->
  resume s0 rv0 vs0 f = Ok (ts_advance p') /\ wfp p'.
Proof.
  intros p s0 rv0 vs0 f p' W (T & RV & F) E Hk. destruct (one_ok W) as (f2 & p2 & hs & E2 & Wp & Ts & Vs & Ff & Rr & FF).
  rewrite E in E2. injection E2 as <- <-. split; auto. destruct W as (W1 & W2 & W3 & W4).
  destruct T as (A1 & A2 & A3 & A4 & A5). subst f. unfold M_restart.resume, load_restart. cbn [f_step f_rvec f_hist].
  set (k := step (p_ts p)) in *.
  assert (S1 : set_step s0 (Some (Z.of_nat k)) = Ok (mkTs (t0 s0) (t1 s0) (n_step s0) (times s0) (M_ts.dt s0) k
      (nth k (times s0) 0%Q) (normalize (t0 s0) (t1 s0) (nth k (times s0) 0%Q)))).
  { unfold set_step. rewrite (proj2 (Z.ltb_ge _ _)) by lia. rewrite (proj2 (Z.leb_gt _ _)) by (rewrite A3; lia).
    rewrite (proj2 (Z.ltb_ge (Z.of_nat k) 0)) by lia. cbn [orb]. rewrite Nat2Z.id. auto. }
  rewrite S1. cbn [bind].
  assert (LF : length (apply_ebc k (make_full k (p_vec p'))) = length (p_vars p)) by (rewrite ebc_len, full_len; auto).
  destruct (@load_all k (p_vars p) vs0 _ hs W1 LF F FF) as (vs1 & vs2 & R1 & R2 & R3 & R4).
  rewrite R1. cbn [bind]. rewrite R2. cbn [bind]. rewrite R3. cbn [bind step]. rewrite R4. cbn [bind].
  assert (G : get_state reduce has_lcbc (match p_rvec p' with Some r => Some r | None => rv0 end)
       (map2 (advv k) (p_vars p) (apply_ebc k (make_full k (p_vec p')))) = Ok (p_vec p')).
  { unfold get_state. rewrite Rr. unfold set_rvec. destruct has_lcbc eqn:Hl; auto.
    rewrite cur_adv; auto. cbn [bind]. rewrite reduce_full. auto. }
  rewrite G. cbn [bind]. unfold ts_advance. f_equal. f_equal; auto.
  - rewrite Ts. unfold M_ts.advance. cbn [step n_step times t0 t1 M_ts.dt]. fold k. rewrite A1, A2, A3, A4, A5.
    rewrite (proj2 (Z.ltb_lt (Z.of_nat k) (n_step (p_ts p) - 1))) by lia. auto.
  - destruct (p_rvec p') as [r|] eqn:Er; auto. unfold set_rvec in Rr.
    assert (X : has_lcbc = true \/ has_lcbc = false) by (destruct has_lcbc; auto).
    destruct X as [X|X]; [rewrite X in Rr; discriminate|]. apply RV. auto.
Qed.
Lemma adv_wf : forall p, wfp p -> step (p_ts p) + 1 < Z.to_nat (n_step (p_ts p)) ->
  wfp (ts_advance p) /\ step (p_ts (ts_advance p)) = S (step (p_ts p)) /\ same_ts (p_ts p) (p_ts (ts_advance p)).
Proof.
  intros p (W1 & W2 & W3 & W4 & W5 & W6) H. unfold ts_advance, M_ts.advance.
  rewrite (proj2 (Z.ltb_lt (Z.of_nat (step (p_ts p))) (n_step (p_ts p) - 1))) by lia. cbn [p_ts step].
  split; [|split; [auto|]].
  - split; auto. split; auto. split; auto. split; cbn; auto. split; auto. lia.
  - unfold same_ts. cbn. auto.
Qed.
Lemma fresh_step : forall s0 rv0 vs0 p f p', wfp p -> fresh s0 rv0 vs0 p -> one_step p = Ok (f, p') ->
  fresh s0 rv0 vs0 p'.
Proof.
  intros s0 rv0 vs0 p f p' W (F1 & F2 & F3) E. destruct (one_ok W) as (f2 & p2 & hs & E2 & Wp & Ts & Vs & _).
  rewrite E in E2. injection E2 as <- <-. split; [rewrite Ts; auto|]. split; auto. rewrite Vs.
  destruct W as (W1 & W2 & _).
  assert (LF : length (apply_ebc (step (p_ts p)) (make_full (step (p_ts p)) (p_vec p'))) = length (p_vars p)) by (rewrite ebc_len, full_len; auto).
  revert F3 LF. generalize (apply_ebc (step (p_ts p)) (make_full (step (p_ts p)) (p_vec p'))). generalize (step (p_ts p)). clear.
  intros k full F3. revert full. induction F3 as [|v0 v vs0 vs [P1 P2] F3 IH]; intros [|x full] L; try discriminate; cbn; constructor; auto.
  split; auto. rewrite P2. unfold advv. destruct (h_hist v) as [[|?]|]; auto.
Qed.
(** Continuing from the restart file of any step but the last one gives the rest
    of the restart files (states of all the remaining steps) and the final state
    of the uninterrupted run. *)
Theorem C90_resume_partial : forall p0 s0 rv0 vs0, wfp p0 -> fresh s0 rv0 vs0 p0 ->
  exists files final, run_rest p0 = Ok (files, final) /\
    length files = Z.to_nat (n_step (p_ts p0)) - step (p_ts p0) /\
    forall k, k + 1 < length files -> exists f q, nth_error files k = Some f /\
      resume s0 rv0 vs0 f = Ok q /\ run_rest q = Ok (skipn (k + 1) files, final).
Proof.
  intros p0 s0 rv0 vs0 W F. remember (Z.to_nat (n_step (p_ts p0)) - step (p_ts p0)) as n eqn:En.
  revert p0 W F En. induction n as [|n IH]; intros p0 W F En.
  { destruct W as (_ & _ & _ & _ & _ & W). lia. }
  assert (HL : length (times (p_ts p0)) - step (p_ts p0) = S n).
  { destruct W as (_ & _ & _ & _ & W & _). rewrite W. auto. }
  unfold M_restart.run_rest. rewrite HL. cbn [M_restart.steps].
  destruct (one_ok W) as (f & p' & hs & E & Wp & Ts & _). rewrite E. cbn [bind].
  pose proof (fresh_step W F E) as F'.
  destruct n as [|n].
  - cbn [M_restart.steps bind]. exists [f], (ts_advance p'). split; auto. split; auto. cbn. intros; lia.
  - assert (HK : step (p_ts p0) + 1 < Z.to_nat (n_step (p_ts p0))) by lia.
    destruct (@adv_wf p') as (Wa & Sa & Ta); auto; [rewrite Ts; auto|].
    assert (Fa : fresh s0 rv0 vs0 (ts_advance p')).
    { destruct F' as (G1 & G2 & G3). split; auto. clear -G1 Ta. unfold same_ts in *. intuition congruence. }
    assert (NA : n_step (p_ts (ts_advance p')) = n_step (p_ts p0)) by (destruct Ta as (_ & _ & T & _); rewrite <- T, Ts; auto).
    destruct (IH (ts_advance p') Wa Fa) as (files & final & RR & L & H).
    { rewrite NA, Sa, Ts. lia. }
    assert (SL : M_restart.steps make_full apply_ebc has_lcbc solve (S n) (ts_advance p') = Ok (files, final)).
    { rewrite <- RR. unfold M_restart.run_rest. f_equal. destruct Wa as (_ & _ & _ & _ & Wl & _). rewrite Wl, NA, Sa, Ts. lia. }
    rewrite SL. cbn [bind]. exists (f :: files), final. split; auto. split; [cbn; lia|].
    intros [|k] Hk.
    + exists f, (ts_advance p'). split; auto. destruct (resume_ok W F E) as [Rs _]; auto.
    + destruct (H k) as (f2 & q & N1 & N2 & N3); [cbn in Hk; lia|]. exists f2, q. cbn [nth_error skipn Nat.add]. auto.
Qed.
(** A restart from the last step solves that step once more, from its own result
    and with its own result in the history (the stepper cannot advance). *)
Theorem C90_last_step_refuted : forall p s0 rv0 vs0 f p', wfp p -> fresh s0 rv0 vs0 p -> one_step p = Ok (f, p') ->
  step (p_ts p) + 1 = Z.to_nat (n_step (p_ts p)) ->
  exists q, resume s0 rv0 vs0 f = Ok q /\ step (p_ts q) = step (p_ts p) /\ p_vars q = p_vars p' /\ p_vec q = p_vec p' /\
  exists f2 q2, run_rest q = Ok ([f2], q2) /\ f_step f2 = step (p_ts p).
Proof.
  intros p s0 rv0 vs0 f p' W (T & RV & F) E Hk. destruct (one_ok W) as (f2 & p2 & hs & E2 & Wp & Ts & Vs & Ff & Rr & FF).
  rewrite E in E2. injection E2 as <- <-. pose proof W as (W1 & W2 & W3 & W4).
  destruct T as (A1 & A2 & A3 & A4 & A5). subst f. unfold M_restart.resume, load_restart. cbn [f_step f_rvec f_hist].
  set (k := step (p_ts p)) in *.
  assert (S1 : set_step s0 (Some (Z.of_nat k)) = Ok (mkTs (t0 s0) (t1 s0) (n_step s0) (times s0) (M_ts.dt s0) k
      (nth k (times s0) 0%Q) (normalize (t0 s0) (t1 s0) (nth k (times s0) 0%Q)))).
  { unfold set_step. rewrite (proj2 (Z.ltb_ge _ _)) by lia. rewrite (proj2 (Z.leb_gt _ _)) by (rewrite A3; lia).
    rewrite (proj2 (Z.ltb_ge (Z.of_nat k) 0)) by lia. cbn [orb]. rewrite Nat2Z.id. auto. }
  rewrite S1. cbn [bind].
  assert (LF : length (apply_ebc k (make_full k (p_vec p'))) = length (p_vars p)) by (rewrite ebc_len, full_len; auto).
  destruct (@load_all k (p_vars p) vs0 _ hs W1 LF F FF) as (vs1 & vs2 & R1 & R2 & R3 & R4).
  rewrite R1. cbn [bind]. rewrite R2. cbn [bind]. rewrite R3. cbn [bind step]. rewrite R4. cbn [bind].
  assert (G : get_state reduce has_lcbc (match p_rvec p' with Some r => Some r | None => rv0 end)
       (map2 (advv k) (p_vars p) (apply_ebc k (make_full k (p_vec p')))) = Ok (p_vec p')).
  { unfold get_state. rewrite Rr. unfold set_rvec. destruct has_lcbc eqn:Hl; auto.
    rewrite cur_adv; auto. cbn [bind]. rewrite reduce_full. auto. }
  rewrite G. cbn [bind]. eexists. split; [reflexivity|]. cbn [p_ts p_vars p_vec].
  assert (AV : forall s, step s = k -> n_step s = n_step (p_ts p) -> M_ts.advance s = s).
  { intros s H1 H2. unfold M_ts.advance. rewrite (proj2 (Z.ltb_ge _ _)); auto. lia. }
  rewrite AV by auto. cbn [step]. split; auto. split; auto. split; auto.
  match goal with |- context [M_restart.run_rest _ _ _ _ ?q] => set (q0 := q) end.
  assert (WQ : wfp q0).
  { unfold q0. destruct Wp as (P1 & P2 & P3 & P4). rewrite Vs in P1, P2. split; auto. split; auto. split; cbn [p_rvec].
    - intro Hl. destruct (p_rvec p'); auto.
    - unfold ts_wf. cbn [p_ts n_step times step]. rewrite A3, A4. destruct W4 as (W4 & W5 & W6). auto. }
  unfold M_restart.run_rest. replace (length (times (p_ts q0)) - step (p_ts q0)) with 1.
  2:{ cbn. rewrite A4. destruct W4 as (W4 & W5 & W6). lia. }
  destruct (one_ok WQ) as (f3 & p3 & hs3 & E3 & _ & _ & _ & Ff3 & _). cbn [M_restart.steps]. rewrite E3. cbn [bind].
  exists f3, (ts_advance p3). split; auto. rewrite Ff3. auto.
Qed.
End Run.
End C90.

(** ** History of two or more steps *)
(** In the first step save_restart() fails. *)
Theorem C90_history_step0_refuted : forall (V R : Type) (s : ts) (rv : option R) (x : V) n,
  save_restart s rv [mkHV (Some (S (S n))) (Some x :: repeat None (S (S n))) 0] = Err ValueError.
Proof. intros. unfold save_restart. cbn. reflexivity. Qed.
(** Later, the loaded history is discarded: the states of three steps 1, 2, 3 are
    saved, and after loading and advancing the variable holds 3, 3, 3 instead of
    3, 3, 2. *)
Theorem C90_history_refuted : exists (s : ts) (v : hvar nat) f w1 w2,
  save_restart (R := nat) s None [v] = Ok f /\ h_advance (step s) v = Ok w1 /\
  resume (fun l => hd 0 l) false s None [mkHV (h_hist v) [None; None; None] 0] f = Ok w2 /\
  [w1] <> p_vars w2 /\ h_call w1 2 = Ok 2 /\ mapr (fun v => h_call v 2) (p_vars w2) = Ok [3].
Proof.
  exists (mkTs 0 1 5 [0; 1 # 4; 1 # 2; 3 # 4; 1]%Q (1 # 4) 2 (1 # 2) (1 # 2)), (mkHV (Some 2) [Some 3; Some 2; Some 1] 2).
  do 3 eexists. split; [reflexivity|]. split; [reflexivity|]. split; [reflexivity|]. split; [discriminate|]. split; reflexivity.
Qed.
(** ** ts.adaptive: the reduction factor is not restored *)
(** A run whose step was reduced to dt0 / 5: after the next failure of the
    nonlinear solver the uninterrupted run uses dt0 / 25, the restarted one dt0 / 5
    once more. *)
Theorem C90_adaptive_refuted : exists h s a fresh s1 a1 h2 s2 a2 h3 s3 a3,
  resume_adaptive h fresh a (vget_state s) = Ok (s1, a1) /\
  adapt_time_step h s a false 0 = (false, h2, s2, a2) /\ adapt_time_step h s1 a1 false 0 = (false, h3, s3, a3) /\
  w_step s1 = w_step s /\ w_dt s1 = w_dt s /\ (w_dt s2 == 1 # 25)%Q /\ (w_dt s3 == 1 # 5)%Q.
Proof.
  exists [[0; 1 # 5]%Q], (mkVts 0 10 11 2 0 (1 # 5) 1 1 (1 # 5) (1 # 50)),
    (mkAdt (1 # 5) (1 # 1000) (5 # 4) 4 5 (1 # 5) 0 1), (mkVts 0 10 11 1 0 1 1 0 0 0).
  do 8 eexists. repeat split; reflexivity.
Qed.

(** A concrete run: one variable with the history of one step, the solution of a
    step is the current plus the previous value plus the step number. *)
Definition ex_ts (k : nat) : ts := mkTs 0 1 4 [0; 1 # 3; 2 # 3; 1]%Q (1 # 3) k (nth k [0; 1 # 3; 2 # 3; 1]%Q 0%Q)
   (normalize 0 1 (nth k [0; 1 # 3; 2 # 3; 1]%Q 0%Q)).
Definition ex_solve (k : nat) (t : Q) (vs : list (hvar nat)) (r : nat) : nat :=
  match vs with v :: _ => match h_call v 1 with Ok x => r + x + k + 1 | _ => r end | _ => r end.
Example C90_ex : exists files final q,
  run_rest (fun _ r => [r]) (fun _ v => v) false ex_solve (mkP (ex_ts 0) [mkHV (Some 1) [None; None] 0] None 1) = Ok (files, final) /\
  map (fun f => f_hist f) files = [[[3; 3]]; [[8; 3]]; [[19; 8]]; [[42; 19]]] /\
  resume (fun l => hd 0 l) false (ex_ts 0) None [mkHV (Some 1) [None; None] 0] (nth 1 files (mkFile 0 None [])) = Ok q /\
  run_rest (fun _ r => [r]) (fun _ v => v) false ex_solve q = Ok (skipn 2 files, final).
Proof. do 3 eexists. split; [vm_compute; reflexivity|]. repeat split; vm_compute; reflexivity. Qed.
Example C90_ex_hyp : wfp (V := nat) (R := nat) false 1 (mkP (ex_ts 0) [mkHV (Some 1) [None; None] 0] None 1) /\
  fresh false (ex_ts 0) None [mkHV (Some 1) [None; None] 0] (mkP (V := nat) (R := nat) (ex_ts 0) [mkHV (Some 1) [None; None] 0] None 1).
Proof.
  assert (W : wfv (mkHV (V := nat) (Some 1) [None; None] 0)) by (exists None, None; split; auto).
  split.
  - split; [constructor; auto|]. split; auto. split; [intro; auto|]. unfold ts_wf. cbn. lia.
  - split; [unfold same_ts; auto|]. split; [intro; auto|]. constructor; auto.
Qed.

(** ** C91: a crash while saving does not lose the previous restart file *)
Section C91.
Context {N C : Type}.
Variable eqb : N -> N -> bool.
Hypothesis eqb_spec : forall a b, eqb a b = true <-> a = b.
Notation applyl := (applyl eqb).
Notation run_events := (run_events eqb).
(** The saves completed by a sequence of events. *)
Definition closed (es : list (fevent N C)) : list (N * C) :=
  flat_map (fun e => match e with Close n c => [(n, c)] | _ => [] end) es.

Lemma put_same : forall (d : @disk N C) n x, put_file eqb d n x n = x.
Proof. intros. unfold put_file. rewrite (proj2 (eqb_spec n n)); auto. Qed.
Lemma put_other : forall (d : @disk N C) n x m, m <> n -> put_file eqb d n x m = d m.
Proof. intros. unfold put_file. destruct (eqb m n) eqn:E; auto. apply eqb_spec in E. contradiction. Qed.
Lemma closed_app : forall a b, closed (a ++ b) = closed a ++ closed b.
Proof. intros. unfold closed. apply flat_map_app. Qed.

(** The invariant: [last] is the file saved last, it is complete, and it is the
    one to be removed next (mode -1). *)
Lemma crash_gen : forall only_last saves names n0 c0 d crash rest,
  d n0 = Some (Complete c0) -> names = n0 :: tl names ->
  NoDup (n0 :: map fst saves) ->
  run_events only_last names saves = crash ++ rest ->
  let '(n, c) := last (closed crash) (n0, c0) in applyl d crash n = Some (Complete c).
Proof.
  intros only_last saves. induction saves as [|[n c] saves IH]; intros names n0 c0 d crash rest Hd Hn ND E.
  - cbn in E. symmetry in E. apply app_eq_nil in E. destruct E as [-> _]. cbn. auto.
  - cbn [M_restart.run_events] in E. destruct names as [|m names]; [discriminate|]. cbn [tl] in Hn. injection Hn as ->.
    inversion ND as [|? ? N1 N2]; subst. cbn [map fst] in *.
    assert (NE : n0 <> n) by (intros ->; apply N1; left; auto).
    assert (NE' : eqb n0 n = false) by (destruct (eqb n0 n) eqn:Q; auto; apply eqb_spec in Q; contradiction).
    unfold save_events in E.
    assert (X : exists tail names', (let '(es, ns) := (if only_last then ([Open n; Close n c] ++ [Remove n0], n :: names) else ([Open n; Close n c], n :: n0 :: names))
          in es ++ run_events only_last ns saves) = Open n :: Close n c :: tail ++ run_events only_last (n :: names') saves /\
          tail = (if only_last then [Remove n0] else [])).
    { destruct only_last; eexists; eexists; split; reflexivity. }
    assert (Y : run_events only_last (n0 :: names) ((n, c) :: saves) =
       (let '(es, ns) := (if only_last then ([Open n; Close n c] ++ [Remove n0], n :: names) else ([Open n; Close n c], n :: n0 :: names))
          in es ++ run_events only_last ns saves)).
    { cbn [M_restart.run_events]. unfold save_events. rewrite NE'. destruct only_last; auto. }
    destruct X as (tail & names' & X1 & X2). cbn [M_restart.run_events] in Y. unfold save_events in Y. rewrite Y in E. rewrite X1 in E. clear Y X1.
    destruct crash as [|e crash]; [cbn; auto|]. cbn [app] in E. injection E as <- E.
    destruct crash as [|e crash]; [cbn; rewrite put_other; auto|]. cbn [app] in E. injection E as <- E.
    cbn [applyl M_restart.applyl fold_left closed flat_map app apply1]. set (d2 := put_file eqb _ n (Some (Complete c))).
    assert (D2 : d2 n = Some (Complete c)) by apply put_same.
    assert (LC : forall l, last ((n, c) :: l) (n0, c0) = last l (n, c)).
    { induction l as [|y l IHl] using rev_ind; auto. rewrite app_comm_cons, !last_last. auto. }
    change (flat_map _ crash) with (closed crash). rewrite LC.
    destruct only_last; subst tail; cbn [app] in E.
    + destruct crash as [|e crash]; [cbn; auto|]. cbn [app] in E. injection E as <- E.
      cbn [closed flat_map app fold_left apply1]. apply (IH (n :: names') n c (put_file eqb d2 n0 None) crash rest); auto.
      rewrite put_other; auto.
    + apply (IH (n :: names') n c d2 crash rest); auto.
Qed.
(** Whatever the mode, the initial contents of the disk and the point of the
    crash: the restart file completed last in the run is on the disk, complete. *)
Theorem C91_crash_safe : forall only_last saves d crash rest, NoDup (map fst saves) ->
  run_events only_last [] saves = crash ++ rest -> closed crash <> [] ->
  exists n c done, closed crash = done ++ [(n, c)] /\ applyl d crash n = Some (Complete c).
Proof.
  intros only_last saves d crash rest ND E NE. destruct saves as [|[n c] saves]; cbn [M_restart.run_events] in E.
  { symmetry in E. apply app_eq_nil in E. destruct E as [-> _]. destruct NE; auto. }
  assert (Z0 : save_events eqb only_last [] n c = ([Open n; Close n c], [n])) by (destruct only_last; auto).
  rewrite Z0 in E. cbn [app] in E.
  destruct crash as [|e crash]; [destruct NE; auto|]. cbn [app] in E. injection E as <- E.
  destruct crash as [|e crash]; [destruct NE; auto|]. cbn [app] in E. injection E as <- E.
  cbn [M_restart.applyl fold_left apply1]. set (d2 := put_file eqb _ n (Some (Complete c))).
  assert (D2 : d2 n = Some (Complete c)) by apply put_same.
  pose proof (@crash_gen only_last saves [n] n c d2 crash rest D2 eq_refl ND E) as G.
  assert (CL : closed (Open n :: Close n c :: crash) = (n, c) :: closed crash) by reflexivity.
  rewrite CL. destruct (closed crash) as [|y l] eqn:Ec using rev_ind.
  - cbn in G. exists n, c, []. auto.
  - clear IHl. rewrite last_last in G. destruct y as [n' c']. exists n', c', ((n, c) :: l). auto.
Qed.
Lemma only_last_gen : forall saves n0 c0 (d : @disk N C), NoDup (n0 :: map fst saves) -> d n0 = Some (Complete c0) ->
  let fin := applyl d (run_events true [n0] saves) in
  fin (fst (last saves (n0, c0))) = Some (Complete (snd (last saves (n0, c0)))) /\
  (forall m, In m (n0 :: map fst saves) -> m <> fst (last saves (n0, c0)) -> fin m = None) /\
  (forall m, ~ In m (n0 :: map fst saves) -> fin m = d m).
Proof.
  induction saves as [|[n c] saves IH]; intros n0 c0 d ND Hd fin.
  - unfold fin. cbn. repeat split; auto. intros m [->|[]] H. destruct H; auto.
  - inversion ND as [|? ? N1 N2]; subst. cbn [map fst] in *.
    assert (NE : n0 <> n) by (intros ->; apply N1; left; auto).
    assert (NE' : eqb n0 n = false) by (destruct (eqb n0 n) eqn:Q; auto; apply eqb_spec in Q; contradiction).
    unfold fin. cbn [M_restart.run_events save_events]. rewrite NE'. cbn [app M_restart.applyl fold_left apply1].
    set (d3 := put_file eqb (put_file eqb _ n (Some (Complete c))) n0 None).
    assert (D3 : d3 n = Some (Complete c)) by (unfold d3; rewrite put_other, put_same by auto; auto).
    destruct (IH n c d3 N2 D3) as (A1 & A2 & A3). cbn [app] in *.
    assert (LC : last ((n, c) :: saves) (n0, c0) = last saves (n, c)).
    { destruct saves as [|y l] using rev_ind; auto. rewrite app_comm_cons, !last_last. auto. }
    rewrite LC. split; [exact A1|]. split.
    + intros m [<- |Hm] Hne.
      * fold (applyl d3 (run_events true [n] saves)). rewrite A3 by auto. unfold d3. apply put_same.
      * apply A2; auto.
    + intros m Hm. fold (applyl d3 (run_events true [n] saves)). rewrite A3 by (intro; apply Hm; right; auto). unfold d3.
      rewrite !put_other; auto; intros ->; apply Hm; cbn; auto.
Qed.
(** With save_restart = -1, after the last save the other restart files of the run
    are removed and no other file is touched. *)
Theorem C91_only_last : forall saves n c (d : @disk N C) m, NoDup (map fst (saves ++ [(n, c)])) ->
  let fin := applyl d (run_events true [] (saves ++ [(n, c)])) in
  fin n = Some (Complete c) /\ (In m (map fst saves) -> fin m = None) /\
  (~ In m (map fst (saves ++ [(n, c)])) -> fin m = d m).
Proof.
  intros saves n c d m ND fin.
  assert (X : exists n0 c0 t, saves ++ [(n, c)] = (n0, c0) :: t) by (destruct saves as [|[a b] s]; cbn; eauto).
  destruct X as (n0 & c0 & t & E). unfold fin. rewrite E. cbn [M_restart.run_events save_events app M_restart.applyl fold_left apply1].
  assert (LC : last t (n0, c0) = (n, c)).
  { assert (L : last ((n0, c0) :: t) (n0, c0) = (n, c)) by (rewrite <- E; apply last_last).
    rewrite <- L. destruct t as [|y l] using rev_ind; auto. rewrite app_comm_cons, !last_last. auto. }
  set (d2 := put_file eqb _ n0 (Some (Complete c0))). rewrite E in ND. cbn [map fst] in ND.
  destruct (@only_last_gen t n0 c0 d2 ND) as (A1 & A2 & A3); [apply put_same|]. rewrite LC in *. cbn [fst snd] in *.
  split; [exact A1|]. split.
  - intros Hm. apply A2.
    + change (n0 :: map fst t) with (map fst ((n0, c0) :: t)). rewrite <- E, map_app. apply in_or_app. auto.
    + intros ->. change (n0 :: map fst t) with (map fst ((n0, c0) :: t)) in ND. rewrite <- E, map_app in ND.
      apply NoDup_remove_2 in ND. apply ND. rewrite app_nil_r. auto.
  - intros Hm. fold (applyl d2 (run_events true [n0] t)). rewrite A3; auto. unfold d2.
    rewrite !put_other; auto; intros ->; apply Hm; cbn; auto.
Qed.
(** Saving repeatedly under one name: a crash can leave no restart file. *)
Theorem C91_same_name_refuted : forall only_last n c1 c2, exists crash rest,
  run_events only_last [] [(n, c1); (n, c2)] = crash ++ rest /\ closed crash = [(n, c1)] /\
  forall d, applyl d crash n = Some Partial.
Proof.
  intros only_last n c1 c2. exists [Open n; Close n c1; Open n].
  assert (R : eqb n n = true) by (apply eqb_spec; auto).
  exists [Close n c2]. split; [|split; auto].
  - destruct only_last; cbn; rewrite ?R; auto.
  - intros d. cbn. rewrite put_same. auto.
Qed.
End C91.
Example C91_ex : let saves := [(0, 10); (1, 11); (2, 12)] in
  run_events Nat.eqb true [] saves = [Open 0; Close 0 10; Open 1; Close 1 11; Remove 0; Open 2; Close 2 12; Remove 1] /\
  applyl Nat.eqb (fun _ => None) [Open 0; Close 0 10; Open 1; Close 1 11; Remove 0; Open 2] 1 = Some (Complete 11).
Proof. vm_compute. auto. Qed.
Print Assumptions C90_resume_partial. Print Assumptions C91_crash_safe. Print Assumptions C91_only_last.
