(** Property C57: the adaptivity of the time step in ts.adaptive. *)
From Coq Require Import QArith Qround Lqa.
From Verif Require Import Base M_ts P_ts M_tsloop S_tsloop P_tsloop.
Set Implicit Arguments.
Open Scope nat_scope.

(** The sequence of the calls of adapt_time_step() in ts.adaptive for given
    exit statuses (converged, number of iterations) of the nonlinear solver; the
    time stepper is advanced when the adaptivity loop stops.  An entry: the
    status, the step sizes before and after the call, is_break. *)
Record entry := En { n_conv : bool; n_iter : nat; n_dt : Q; n_dt' : Q; n_break : bool }.
Fixpoint adapt_run (h : theap) (s : vts) (a : adt) (st : list (bool * nat)) : list entry :=
  match st with
  | [] => []
  | (c, n) :: t =>
      let '(brk, h1, s1, a1) := adapt_time_step h s a c n in
      En c n (w_dt s) (w_dt s1) brk ::
      (if brk then let '(h2, s2) := vadvance h1 s1 in adapt_run h2 s2 a1 t else adapt_run h1 s1 a1 t)
  end.

Lemma adapt_dt : forall h s a c n,
  let '(brk, h1, s1, a1) := adapt_time_step h s a c n in
  apar a a1 /\
  (if c then brk = true /\
     (if n <=? inc_on_iter a then
        if inc_wait a <? S (wait a) then
          wait a1 = 0 /\ ((red a < 1)%Q /\ red a1 = (red a * inc_factor a)%Q /\ w_dt s1 = (dt0 a * red a1)%Q \/
                          (1 <= red a)%Q /\ red a1 = red a /\ w_dt s1 = w_dt s)
        else wait a1 = S (wait a) /\ red a1 = red a /\ w_dt s1 = w_dt s
      else wait a1 = 0 /\ red a1 = red a /\ w_dt s1 = w_dt s)
   else red a1 = (red a * red_factor a)%Q /\
     (if brk then (red a1 < red_max a)%Q /\ wait a1 = wait a /\ w_dt s1 = w_dt s
      else (red_max a <= red a1)%Q /\ wait a1 = 0 /\ w_dt s1 = (dt0 a * red a1)%Q)).
Proof.
  intros h s a c n. unfold adapt_time_step. destruct c.
  - destruct (n <=? inc_on_iter a).
    + change (inc_wait (set_wait a (S (wait a)))) with (inc_wait a). change (wait (set_wait a (S (wait a)))) with (S (wait a)).
      change (red (set_wait a (S (wait a)))) with (red a).
      destruct (inc_wait a <? S (wait a)).
      * destruct (Qltb (red a) 1) eqn:E.
        -- apply Qltb_lt in E. split; [constructor; auto|]. auto 10.
        -- apply Qltb_ge in E. split; [constructor; auto|]. auto 10.
      * split; [constructor; auto|]. auto.
    + split; [constructor; auto|]. auto.
  - change (red (set_red a (red a * red_factor a))) with (red a * red_factor a)%Q.
    change (red_max (set_red a (red a * red_factor a))) with (red_max a).
    destruct (Qltb (red a * red_factor a) (red_max a)) eqn:E.
    + apply Qltb_lt in E. split; [constructor; auto|]. auto.
    + apply Qltb_ge in E. cbn [dt0 set_red]. unfold set_time_step. split; [constructor; auto|]. auto.
Qed.

Lemma vadvance_dt : forall h s, w_dt (snd (vadvance h s)) = w_dt s.
Proof. reflexivity. Qed.

(** The step size stays positive and at most inc_factor times the initial one,
    it is never increased after a failure, and a step is repeated only after a
    failure and with a strictly smaller step size. *)
Theorem C57_bounds : forall h s a st, adt_ok a -> (1 <= inc_factor a)%Q -> red a = 1%Q -> w_dt s = dt0 a ->
  forall e, In e (adapt_run h s a st) ->
  (0 < n_dt' e)%Q /\ (n_dt' e <= dt0 a * inc_factor a)%Q /\
  (n_conv e = false -> (n_dt' e <= n_dt e)%Q) /\ (n_break e = false -> n_conv e = false /\ (n_dt' e < n_dt e)%Q).
Proof.
  intros h s a st A Hi Hr Hd.
  assert (G : forall st h s b, adt_ok b -> apar a b -> (0 < w_dt s)%Q -> (w_dt s <= dt0 a * inc_factor a)%Q -> (red b <= inc_factor a)%Q ->
    (dt0 a * red b <= w_dt s)%Q ->
    forall e, In e (adapt_run h s b st) ->
    (0 < n_dt' e)%Q /\ (n_dt' e <= dt0 a * inc_factor a)%Q /\
    (n_conv e = false -> (n_dt' e <= n_dt e)%Q) /\ (n_break e = false -> n_conv e = false /\ (n_dt' e < n_dt e)%Q)).
  { clear h s st Hr Hd. destruct A as (_ & _ & _ & _ & A5 & _). induction st as [|[c n] t IH]; intros h s b B P D0 D1 R1 R2 e He; [destruct He|].
    cbn [adapt_run] in He. pose proof (adapt_dt h s b c n) as AD. destruct (adapt_time_step h s b c n) as [[[brk h1] s1] a1].
    destruct AD as [P1 AD]. destruct B as (B1 & B2 & B3 & B4 & B5 & B6). pose proof (apar_trans P P1) as P2.
    assert (F := P). destruct F as [F1 F2 F3 F4 F5 F6]. assert (F := P2). destruct F as [G1 G2 G3 G4 G5 G6].
    assert (K : adt_ok a1 /\ (0 < w_dt s1)%Q /\ (w_dt s1 <= dt0 a * inc_factor a)%Q /\ (red a1 <= inc_factor a)%Q /\ (dt0 a * red a1 <= w_dt s1)%Q /\
       (c = false -> (w_dt s1 <= w_dt s)%Q) /\ (brk = false -> c = false /\ (w_dt s1 < w_dt s)%Q)).
    { assert (BASE : forall r, red a1 = r -> (0 < r)%Q -> adt_ok a1).
      { intros r Er Hr. unfold adt_ok. rewrite G1, G2, G3, G4, Er. rewrite F1 in B1, B2. rewrite F2 in B4. rewrite F3 in B3. repeat split; auto. }
      rewrite F1 in B1, B2. rewrite F2 in B4. rewrite F3 in B3. rewrite F3, F4, F1, F2 in AD. clear F4.
      destruct c.
      - destruct AD as [-> AD]. destruct (n <=? inc_on_iter b); [destruct (inc_wait b <? S (wait b))|].
        + destruct AD as [_ [(X1 & X2 & X3)|(X1 & X2 & X3)]].
          * assert (0 < red b * inc_factor a)%Q by nra.
            assert (0 < dt0 a * (red b * inc_factor a))%Q by nra.
            split; [apply BASE with (r := (red b * inc_factor a)%Q); auto|]. rewrite X3, X2. repeat split; auto; try discriminate; nra.
          * split; [apply BASE with (r := red b); auto|]. rewrite X3, X2. repeat split; auto; try discriminate.
        + destruct AD as (_ & X2 & X3). split; [apply BASE with (r := red b); auto|]. rewrite X3, X2. repeat split; auto; try discriminate.
        + destruct AD as (_ & X2 & X3). split; [apply BASE with (r := red b); auto|]. rewrite X3, X2. repeat split; auto; try discriminate.
      - destruct AD as [X1 AD]. assert (0 < red b * red_factor a)%Q by nra. assert (red b * red_factor a < red b)%Q by nra.
        split; [apply BASE with (r := (red b * red_factor a)%Q); auto|]. destruct brk.
        + destruct AD as (X2 & X3 & X4). rewrite X4, X1. repeat split; auto; try discriminate; try nra.
        + destruct AD as (X2 & X3 & X4). rewrite X4, X1. assert (0 < dt0 a * (red b * red_factor a))%Q by nra.
          assert (dt0 a * (red b * red_factor a) < dt0 a * red b)%Q by nra.
          repeat split; auto; try nra. }
    destruct K as (K1 & K2 & K3 & K4 & K5 & K6 & K7). destruct He as [<-|He]; [cbn; auto|].
    destruct brk.
    - destruct (vadvance h1 s1) as [h2 s2] eqn:EV. assert (E2 : w_dt s2 = w_dt s1) by (unfold vadvance in EV; inversion EV; reflexivity).
      apply (IH h2 s2 a1); auto; rewrite E2; auto.
    - apply (IH h1 s1 a1); auto. }
  destruct A as (A1 & A2 & A3 & A4 & A5 & A6).
  apply G; auto; [repeat split; auto|apply apar_refl|rewrite Hd; auto| | |]; rewrite ?Hd, ?Hr; try nra.
Qed.

(** As long as no step is given up (accepted without convergence), the step size
    is at least dt_red_max times the initial one, changes by the two factors
    only, decreases only after a failure, and increases only if it is smaller
    than the initial one, after inc_wait + 1 calls with fast convergence and the same step size. *)
Definition fast (a : adt) (d : Q) (e : entry) : Prop :=
  n_conv e = true /\ n_iter e <= inc_on_iter a /\ n_dt e = d.
Theorem C57_changes_partial : forall h s a st, adt_ok a -> (1 < inc_factor a)%Q -> (red_max a <= 1)%Q -> red a = 1%Q -> wait a = 0 -> w_dt s = dt0 a ->
  forall k e, let out := adapt_run h s a st in nth_error out k = Some e ->
  (forall j x, j <= k -> nth_error out j = Some x -> n_break x = true -> n_conv x = true) ->
  (dt0 a * red_max a <= n_dt' e)%Q /\
  (if n_conv e then (n_dt' e == n_dt e)%Q \/
       (n_dt' e == n_dt e * inc_factor a)%Q /\ (n_dt e < dt0 a)%Q /\ fast a (n_dt e) e /\
       inc_wait a <= k /\ forall j, k - inc_wait a <= j < k -> exists x, nth_error out j = Some x /\ fast a (n_dt e) x
   else (n_dt' e == n_dt e * red_factor a)%Q).
Proof.
  intros h s a st A Hi Hm Hr Hw Hd.
  assert (G : forall st h s b, adt_ok b -> apar a b -> w_dt s = (dt0 a * red b)%Q -> (red_max a <= red b)%Q ->
    forall k e, nth_error (adapt_run h s b st) k = Some e ->
    (forall j x, j <= k -> nth_error (adapt_run h s b st) j = Some x -> n_break x = true -> n_conv x = true) ->
    (dt0 a * red_max a <= n_dt' e)%Q /\
    (if n_conv e then (n_dt' e == n_dt e)%Q \/
       (n_dt' e == n_dt e * inc_factor a)%Q /\ (n_dt e < dt0 a)%Q /\ fast a (n_dt e) e /\
       inc_wait a <= wait b + k /\ forall j, k - inc_wait a <= j < k -> exists x, nth_error (adapt_run h s b st) j = Some x /\ fast a (n_dt e) x
     else (n_dt' e == n_dt e * red_factor a)%Q)).
  { clear h s st Hr Hd Hw. destruct A as (_ & _ & _ & _ & A5 & _). induction st as [|[c n] t IH]; intros h s b B P D R k e Ek NG; [destruct k; discriminate|].
    cbn [adapt_run] in Ek, NG |- *. pose proof (adapt_dt h s b c n) as AD. destruct (adapt_time_step h s b c n) as [[[brk h1] s1] a1] eqn:EA.
    destruct AD as [P1 AD]. destruct B as (B1 & B2 & B3 & B4 & B5 & B6). pose proof (apar_trans P P1) as P2.
    assert (F := P). destruct F as [F1 F2 F3 F4 F5 F6]. assert (F := P2). destruct F as [G1 G2 G3 G4 G5 G6].
    pose proof (NG 0 _ ltac:(lia) eq_refl) as NG0. cbn [n_break n_conv] in NG0.
    rewrite F1 in B1, B2. rewrite F2 in B4. rewrite F3 in B3. rewrite F3, F4, F1, F2, F5, F6 in AD.
    assert (BASE : forall r, red a1 = r -> (0 < r)%Q -> adt_ok a1).
    { intros r Er Hr. unfold adt_ok. rewrite G1, G2, G3, G4, Er. repeat split; auto. }
    (* one call *)
    assert (K : adt_ok a1 /\ w_dt s1 = (dt0 a * red a1)%Q /\ (red_max a <= red a1)%Q /\
       (if c then (w_dt s1 = w_dt s /\ (wait a1 = 0 \/ wait a1 = S (wait b) /\ n <= inc_on_iter a)) \/
                  (w_dt s1 == w_dt s * inc_factor a /\ w_dt s < dt0 a)%Q /\ n <= inc_on_iter a /\ inc_wait a <= wait b /\ wait a1 = 0
        else (w_dt s1 == w_dt s * red_factor a)%Q /\ wait a1 = 0)).
    { destruct c.
      - destruct AD as [_ AD]. destruct (Nat.leb_spec n (inc_on_iter a)) as [L|L]; [destruct (Nat.ltb_spec (inc_wait a) (S (wait b))) as [L2|L2]|].
        + destruct AD as [W [(X1 & X2 & X3)|(X1 & X2 & X3)]].
          * assert (0 < red b * inc_factor a)%Q by nra.
            split; [apply BASE with (r := (red b * inc_factor a)%Q); auto|]. split; auto. split; [rewrite X2; nra|].
            right. rewrite X3, X2, D. split; [split; [ring|nra]|]. split; auto. split; auto. lia.
          * split; [apply BASE with (r := red b); auto|]. rewrite X3, X2. split; [auto|]. split; [auto|]. left. auto.
        + destruct AD as (W & X2 & X3). split; [apply BASE with (r := red b); auto|]. rewrite X3, X2. split; [auto|]. split; [auto|]. left. auto.
        + destruct AD as (W & X2 & X3). split; [apply BASE with (r := red b); auto|]. rewrite X3, X2. split; [auto|]. split; [auto|]. left. auto.
      - destruct AD as [X1 AD]. assert (0 < red b * red_factor a)%Q by nra. destruct brk; [specialize (NG0 eq_refl); discriminate|].
        destruct AD as (X2 & X3 & X4). split; [apply BASE with (r := (red b * red_factor a)%Q); auto|]. split; auto. split; auto. split; auto.
        rewrite X4, X1, D. ring. }
    destruct K as (K1 & K2 & K3 & K4). destruct k as [|k].
    - cbn in Ek. inversion Ek; subst e; clear Ek. cbn [n_conv n_dt n_dt' n_iter].
      split; [rewrite K2; nra|]. destruct c.
      + destruct K4 as [[K4 _]|((K4 & K5) & K6 & K7 & K8)]; [left; rewrite K4; reflexivity|]. right.
        split; auto. split; auto. split; [repeat split; auto|]. split; [lia|]. intros; lia.
      + apply K4.
    - cbn [nth_error] in Ek.
      set (rest := if brk then let '(h2, s2) := vadvance h1 s1 in adapt_run h2 s2 a1 t else adapt_run h1 s1 a1 t) in *.
      assert (IHR : (dt0 a * red_max a <= n_dt' e)%Q /\
        (if n_conv e then (n_dt' e == n_dt e)%Q \/
           (n_dt' e == n_dt e * inc_factor a)%Q /\ (n_dt e < dt0 a)%Q /\ fast a (n_dt e) e /\
           inc_wait a <= wait a1 + k /\ forall j, k - inc_wait a <= j < k -> exists x, nth_error rest j = Some x /\ fast a (n_dt e) x
         else (n_dt' e == n_dt e * red_factor a)%Q)).
      { assert (NG' : forall j x, j <= k -> nth_error rest j = Some x -> n_break x = true -> n_conv x = true).
        { intros j x Hj Ex. apply (NG (S j) x); [lia|]. exact Ex. }
        unfold rest in Ek, NG' |- *. destruct brk.
        - destruct (vadvance h1 s1) as [h2 s2] eqn:EV. assert (E2 : w_dt s2 = w_dt s1) by (unfold vadvance in EV; inversion EV; reflexivity).
          apply IH; auto. rewrite E2; auto.
        - apply IH; auto. }
      assert (FST : forall e0 r0, rest = e0 :: r0 -> n_dt e0 = w_dt s1).
      { intros e0 r0 E0. destruct t as [|[c2 n2] t2]; [unfold rest in E0; destruct brk; [destruct (vadvance h1 s1)|]; discriminate|].
        unfold rest in E0. destruct brk.
        - destruct (vadvance h1 s1) as [h2 s2] eqn:EV. cbn [adapt_run] in E0. destruct (adapt_time_step h2 s2 a1 c2 n2) as [[[b2 h3] s3] a3].
          inversion E0. cbn. unfold vadvance in EV; inversion EV; reflexivity.
        - cbn [adapt_run] in E0. destruct (adapt_time_step h1 s1 a1 c2 n2) as [[[b2 h3] s3] a3]. inversion E0. reflexivity. }
      destruct IHR as [I1 I2]. split; auto. destruct (n_conv e); auto. destruct I2 as [I2|(I2 & I3 & I4 & I5 & I6)]; auto. right.
      split; auto. split; auto. split; auto.
      assert (HN : inc_wait a <= wait b + S k /\ (S k - inc_wait a <= 0 -> c = true /\ w_dt s1 = w_dt s /\ n <= inc_on_iter a)).
      { destruct c.
        - destruct K4 as [[K4 [K5|[K5 K6]]]|(_ & _ & _ & K5)]; rewrite K5 in I5; split; try lia. intros; auto.
        - destruct K4 as [_ K5]. rewrite K5 in I5. split; lia. }
      destruct HN as [HN1 HN2]. split; auto. intros j Hj. destruct j as [|j].
      + destruct HN2 as (-> & Es & Hn); [lia|]. cbn [nth_error]. eexists. split; [reflexivity|]. split; auto. split; auto. cbn [n_dt].
        rewrite <- Es. destruct k as [|k].
        * destruct rest as [|e0 r0] eqn:Er; [discriminate|]. cbn in Ek. inversion Ek; subst e0. symmetry. apply (FST e r0). auto.
        * destruct (I6 0 ltac:(lia)) as (x & X1 & (_ & _ & X2)). destruct rest as [|e0 r0] eqn:Er; [discriminate|]. cbn in X1. inversion X1; subst e0.
          rewrite <- X2. symmetry. apply (FST x r0). auto.
      + cbn [nth_error]. apply I6. lia. }
  intros k e out Ek NG. destruct A as (A1 & A2 & A3 & A4 & A5 & A6).
  specialize (G st h s a (conj A1 (conj A2 (conj A3 (conj A4 (conj A5 A6))))) (apar_refl a)). rewrite Hw in G. apply G; auto.
  - rewrite Hr, Hd. symmetry. assert (X : forall q, (q * 1)%Q = q). { intros [p1 p2]. unfold Qmult. cbn. rewrite Z.mul_1_r, Pos.mul_1_r. reflexivity. } apply X.
  - rewrite Hr. auto.
Qed.

(** The full statement fails: with the default parameters, after steps given up
    at the maximal reduction, a sequence of converged steps reduces the step
    size, below dt_red_max times the initial one. *)
Definition default_adt (d : Q) : adt := mkAdt (1 # 5) (1 # 1000) (5 # 4) 4 5 1 0 d.
Theorem C57_reduction_refuted : exists h s st e,
  make_vts [] 0 1 None (Some 11%Z) = Ok (h, s) /\ 
  last (adapt_run (fst (vadvance h s)) (snd (vadvance h s)) (default_adt (w_dt s)) st) (En false 0 0 0 true) = e /\
  n_conv e = true /\ (n_dt' e < n_dt e)%Q /\ (n_dt' e < w_dt s * (1 # 1000))%Q.
Proof.
  pose (st := repeat (false, 1) 6 ++ repeat (true, 1) 6).
  eexists _, _, st, _. split; [reflexivity|]. split; [reflexivity|]. vm_compute. auto.
Qed.

(** The same parameters: a normal run with a failure and an increase. *)
Example C57_ex : match make_vts [] 0 1 None (Some 11%Z) with
  | Ok (h, s) => let st := [(false, 1); (true, 1); (true, 2); (true, 1); (true, 1); (true, 1); (true, 1)] in
     map (fun e => Qred (n_dt' e)) (adapt_run (fst (vadvance h s)) (snd (vadvance h s)) (default_adt (w_dt s)) st)
     = [1 # 50; 1 # 50; 1 # 50; 1 # 50; 1 # 50; 1 # 50; 1 # 40]%Q
     /\ adt_ok (default_adt (w_dt s))
  | Err _ => False end.
Proof. vm_compute. repeat split; auto; discriminate. Qed.

Print Assumptions C57_bounds.
Print Assumptions C57_changes_partial.
Print Assumptions C57_reduction_refuted.
