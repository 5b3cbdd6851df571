(** C15-C17: DOF history and the evaluate cache of variables. *)
From Verif Require Import Base M_vars S_vars L_vars L_vcache.
Set Implicit Arguments.
Open Scope nat_scope.

(** C15. In every execution (S_vars.run: the current data set to the user's
    arrays, arrays modified in place, any evaluations and invalidations, any
    number of advances) of a variable with history [n] owning the part [s, e)
    of the arrays: the current data are read in step 0; after the first
    advance, reading step -k gives the data that were current k advances ago
    (the first ones if there were less advances); before it, reading step -1
    gives the current data.  advance() does not fail, and the variable never
    modifies the user's arrays. *)
Theorem C15_history : forall A B D (ev : Z -> Z -> list A -> B) (bdiff : D -> list A -> list A -> list A)
  s e n m v0 ok a h v, s <= e ->
  run ev bdiff s e n v0 m ok a h v ->
  (forall i, i < m -> nth i h [] = nth i (arrays a) []) /\
  (v_step v = 0 <-> snaps a = []) /\
  (cur a <> None ->
     call h v 0 = Ok (cur_value s e a) /\
     (snaps a <> [] -> forall k, 1 <= k <= n -> call h v (- Z.of_nat k) = Ok (ago s e a k)) /\
     (snaps a = [] -> call h v (-1) = Ok (cur_value s e a)) /\
     (forall t, exists h' v', advance t h v = Ok (h', v') /\
        call h' v' 0 = call h v 0 /\ (forall k, k < n -> call h' v' (- Z.of_nat (S k)) = Ok (if v_step v =? 0 then cur_value s e a else ago s e a k)) /\
        (forall i, i < m -> nth i h' [] = nth i h []))).
Proof.
  intros A B D ev bdiff s e n m v0 ok a h v Hse R. pose proof (run_Inv Hse R) as I.
  pose proof I as (_ & _ & _ & _ & _ & _ & _ & _ & Ha & _ & _ & Hs & _).
  split; [intros i Hi; apply Ha; auto|]. split; [tauto|]. intros Cu.
  destruct (call_ok Hse I Cu) as (A0 & A1 & A2 & _). split; auto. split.
  { intros Sn k Hk. apply A1; auto. tauto. }
  split; [intros Sn; apply A2; tauto|].
  intros t. destruct (@advance_ok _ _ _ _ _ Hse n m v0 a h v t I Cu) as (h' & v' & E & I' & _ & Es).
  exists h', v'. split; auto.
  destruct (call_ok Hse I' (ltac:(exact Cu))) as (B0 & B1 & _). split; [rewrite A0, B0; reflexivity|]. split.
  - intros k Hk. rewrite B1 by lia. f_equal. destruct (Nat.eqb_spec (v_step v) 0) as [V|V].
    + assert (S0 : snaps a = []) by tauto. cbn [ago snaps]. rewrite S0. destruct k as [|[|k]]; reflexivity.
    + destruct k; [reflexivity|]. cbn [ago snaps].
      destruct (snaps a) as [|x xs]; [exfalso; tauto|]. reflexivity.
  - pose proof I' as (_ & _ & _ & _ & _ & _ & _ & _ & Ha' & _). intros i Hi.
    destruct (Ha i Hi) as [E1 _]. destruct (Ha' i Hi) as [E2 _]. unfold deref in *. rewrite E1, E2. reflexivity.
Qed.

(** A concrete instance: values and evaluated quantities are integer vectors. *)
Definition zdiff (dt : Z) (x y : list Z) : list Z := map (fun p => ((fst p - snd p) / dt)%Z) (combine x y).
Definition zev (mode key : Z) (x : list Z) : list Z := x.
Definition zvar (n nd : nat) : @var (list Z) Z := mkVar (Some n) [None] 0 None nd false true 1%Z [].
(** Programs over (heap, variable); the read values are collected. *)
Inductive op := Set_ (a : nat) (ix : option (nat * nat)) (st : Z) | Wr (a : nat) (x : list Z) | Adv (t : nat)
  | Ev (key : Z * bool) (st : Z) | Rd (st : Z) | Dt (d : Z) | Init.
Fixpoint exec (ops : list op) (h : list (list Z)) (v : @var (list Z) Z) (out : list (res (list Z))) :=
  match ops with
  | [] => Ok (h, v, out)
  | Set_ a ix st :: t => match set_data a ix st false h v with Ok v' => exec t h v' out | Err e => Err e end
  | Wr a x :: t => let '(h', v') := write_state a x h v in exec t h' v' out
  | Adv k :: t => match advance k h v with Ok (h', v') => exec t h' v' out | Err e => Err e end
  | Ev key st :: t => let '(r, v') := evaluate zev zdiff h v 0 key st None in exec t h v' (out ++ [r])
  | Rd st :: t => exec t h v (out ++ [call h v st])
  | Dt d :: t => exec t h (set_vdt v d) out
  | Init :: t => exec t h (init_history v) out
  end.
Definition outs (x : res (list (list Z) * @var (list Z) Z * list (res (list Z)))) :=
  match x with Ok (_, _, o) => o | Err _ => [] end.

Definition stof (ops : list op) (h : list (list Z)) (v : @var (list Z) Z) :=
  match exec ops h v [] with Ok (h', v', _) => (h', v') | Err _ => ([], v) end.

(** Shared vector with the variable part [1, 3), history 2. *)
Example C15_ex : outs (exec [Init; Set_ 0 (Some (1, 3)) 0; Rd (-1); Adv 0; Wr 0 [9; 10; 20; 9]%Z; Rd 0; Rd (-1); Rd (-2); Adv 1;
   Wr 0 [9; 11; 21; 9]%Z; Adv 2; Rd (-1); Rd (-2)]
   [[8; 1; 2; 8]%Z] (zvar 2 2) []) =
  [Ok [1; 2]; Ok [10; 20]; Ok [1; 2]; Ok [1; 2]; Ok [11; 21]; Ok [10; 20]]%Z.
Proof. vm_compute. reflexivity. Qed.

(** The hypotheses of C15/C17 are met: a run with two advances, an in-place
    update and evaluations. *)
Example C15_run_ex : exists a h v, run zev zdiff 1 3 2 (zvar 2 2) 1 ok_eval a h v /\
  cur a <> None /\ snaps a = [[10; 20]; [1; 2]]%Z /\ v_cache v <> [].
Proof.
  eexists _, _, _. split.
  - eapply run_evaluate with (mode := 0%Z) (key := (0%Z, true)) (st := 0%Z).
    + eapply run_advance with (t := 1).
      * eapply run_write with (i := 0) (x := [9; 10; 20; 9]%Z).
        -- eapply run_evaluate with (mode := 0%Z) (key := (0%Z, false)) (st := (-1)%Z).
           ++ eapply run_advance with (t := 0).
              ** eapply run_set with (i := 0).
                 --- apply run_init with (H := [[8; 1; 2; 8]%Z]); auto. intros x [<-|[]]. simpl. lia.
                 --- lia.
                 --- vm_compute. reflexivity.
              ** discriminate.
              ** vm_compute. reflexivity.
           ++ right. split; [reflexivity|vm_compute; discriminate].
        -- lia.
        -- reflexivity.
        -- vm_compute. reflexivity.
      * discriminate.
      * vm_compute. reflexivity.
    + left. reflexivity.
  - split; [discriminate|]. split; [reflexivity|]. vm_compute. discriminate.
Qed.

(** Without the assumption that the data of the current step are a user's own
    array, C15 fails: after [u.set_data(u(step=-2))] (a view of the history
    array of step -2, set as the current data), advance() overwrites the
    current data by the data of step -1, and step -1 does not get the data that
    were current. *)
Theorem C15_aliasing_refuted : exists h (v : @var (list Z) Z) a v',
  set_data a (Some (0, 1)) 0 false h v = Ok v' /\
  nth 2 (v_data v) None = Some a /\ call h v (-2) = Ok [1%Z] /\ call h v' 0 = Ok [1%Z] /\
  exists h2 v2, advance 3 h v' = Ok (h2, v2) /\
  call h2 v2 0 = Ok [2%Z] /\ call h2 v2 (-1) = Ok [2%Z].
Proof.
  pose (st := stof [Init; Set_ 0 (Some (0, 1)) 0; Adv 0; Wr 0 [2]%Z; Adv 1; Wr 0 [3]%Z] [[1%Z]] (zvar 2 1)).
  exists (fst st), (snd st), 2. eexists. split; [vm_compute; reflexivity|]. split; [reflexivity|]. split; [vm_compute; reflexivity|].
  split; [vm_compute; reflexivity|]. eexists _, _. split; [vm_compute; reflexivity|]. split; vm_compute; reflexivity.
Qed.

(** C16, what holds: with history [n], data set for step -k are those read in
    step -(n + 1 - k) (in step 0 for k = 0), provided that this is not step -1
    before the first advance; the data read in the other steps do not change if
    the slice does not change.  So the property holds for step 0, and for
    step -1 if the history is 1. *)
Theorem C16_set_get : forall A B D n (h : list (list A)) (v : @var B D) a s e k pc v',
  length (v_data v) = n + 1 ->
  set_data a (Some (s, e)) (- Z.of_nat k) pc h v = Ok v' ->
  let j := if k =? 0 then 0 else n + 1 - k in
  k <= n /\ j <= n /\
  (v_step v <> 0 \/ j <> 1 -> call h v' (- Z.of_nat j) = Ok (part s e (nth a h []))) /\
  (forall t, t <= n -> t <> j -> (v_step v <> 0 \/ t <> 1) -> v_indx v = Some (s, e) ->
     call h v' (- Z.of_nat t) = call h v (- Z.of_nat t)).
Proof.
  intros A B D n h v a s e k pc v' Hl E j. unfold set_data in E.
  destruct (negb _); [discriminate|]. destruct (v_locked v); [discriminate|].
  cbn [fst snd] in E. destruct (negb _); [discriminate|]. destruct (_ || _) eqn:Eo; [discriminate|].
  apply orb_false_iff in Eo. destruct Eo as [_ Eo]. apply Z.leb_gt in Eo. rewrite Hl in Eo.
  assert (Hk : k <= n) by lia.
  assert (PJ : py_index (length (v_data v)) (- Z.of_nat k) = Some j).
  { unfold py_index, j. rewrite Hl. destruct (Nat.eqb_spec k 0) as [->|].
    - change (- Z.of_nat 0)%Z with 0%Z. simpl (0 <=? 0)%Z. cbn iota. destruct (Z.ltb_spec 0 (Z.of_nat (n + 1))); [reflexivity|lia].
    - destruct (Z.leb_spec 0 (- Z.of_nat k)); [lia|]. destruct (Z.leb_spec (- - Z.of_nat k) (Z.of_nat (n + 1))); [|lia]. f_equal. lia. }
  rewrite PJ in E.
  assert (Hj : j <= n) by (unfold j; destruct (Nat.eqb_spec k 0); lia).
  assert (PT : forall t, t <= n -> py_index (n + 1) (- - Z.of_nat t) = Some t).
  { intros t Ht. unfold py_index. rewrite Z.opp_involutive. destruct (Z.leb_spec 0 (Z.of_nat t)); [|lia].
    destruct (Z.ltb_spec (Z.of_nat t) (Z.of_nat (n + 1))); [|lia]. rewrite Nat2Z.id. auto. }
  assert (PG : forall t, (v_step v <> 0 \/ t <> 1) -> (v_step v =? 0) && (- Z.of_nat t =? -1)%Z = false).
  { intros t Ht. destruct (Nat.eqb_spec (v_step v) 0), (Z.eqb_spec (- Z.of_nat t) (-1)); auto. lia. }
  assert (F : v_data v' = upd (v_data v) j (Some a) /\ v_indx v' = Some (s, e) /\ v_step v' = v_step v).
  { destruct pc; inversion E; subst; auto. }
  destruct F as (F1 & F2 & F3). split; auto. split; auto. split.
  - intros Hc. unfold call. rewrite F1, F2, F3, PG by auto. rewrite length_upd, Hl, PT by auto.
    rewrite nth_upd_eq by lia. reflexivity.
  - intros t Ht Hne Hc Hix. unfold call. rewrite F1, F2, F3, PG by auto. rewrite length_upd, Hl, PT by auto.
    rewrite nth_upd_neq by auto. rewrite Hix. reflexivity.
Qed.

(** C16 for history at most 1 (and step 0 of any history): the data set are the
    data read, the other steps keep theirs. *)
Theorem C16_partial : forall A B D n (h : list (list A)) (v : @var B D) a s e k pc v',
  length (v_data v) = n + 1 -> n <= 1 \/ k = 0 -> v_step v <> 0 \/ k <> 1 ->
  set_data a (Some (s, e)) (- Z.of_nat k) pc h v = Ok v' ->
  call h v' (- Z.of_nat k) = Ok (part s e (nth a h [])) /\
  (forall t, t <= n -> t <> k -> (v_step v <> 0 \/ t <> 1) -> v_indx v = Some (s, e) ->
     call h v' (- Z.of_nat t) = call h v (- Z.of_nat t)).
Proof.
  intros A B D n h v a s e k pc v' Hl Hn Hc E. destruct (@C16_set_get A B D n h v a s e k pc v' Hl E) as (Hk & Hj & G & O).
  assert (EJ : (if k =? 0 then 0 else n + 1 - k) = k) by (destruct (Nat.eqb_spec k 0); lia).
  rewrite EJ in *. split; auto.
Qed.

(** The full C16 is false: history 2, data set for step -1 are read in step -2. *)
Theorem C16_refuted : exists h (v v' : @var (list Z) Z) a,
  v_step v <> 0 /\ v_indx v = Some (0, 1) /\ nth a h [] = [5%Z] /\
  set_data a (Some (0, 1)) (-1) false h v = Ok v' /\
  call h v (-1) = Ok [2%Z] /\ call h v' (-1) = Ok [2%Z] /\ call h v (-2) = Ok [1%Z] /\ call h v' (-2) = Ok [5%Z].
Proof.
  pose (st := stof [Init; Set_ 0 (Some (0, 1)) 0; Adv 0; Wr 0 [2]%Z; Adv 1; Wr 0 [3]%Z] [[1]; [5]]%Z (zvar 2 1)).
  exists (fst st), (snd st). eexists. exists 1. split; [|split; [|split; [|split; [vm_compute; reflexivity|]]]]; try (vm_compute; reflexivity).
  - vm_compute; discriminate.
  - repeat split; vm_compute; reflexivity.
Qed.

(** Setting history data by an array of the variable size changes the data of
    the current step read from a larger (shared) array: here the current value
    changes from 7 to 1. *)
Theorem C16_slice_refuted : exists h (v v' : @var (list Z) Z) a,
  v_history v = Some 1 /\ v_step v <> 0 /\ set_data a None (-1) false h v = Ok v' /\
  call h v 0 = Ok [7%Z] /\ call h v' 0 = Ok [1%Z].
Proof.
  pose (st := stof [Init; Set_ 0 (Some (1, 2)) 0; Adv 0] [[1; 7]; [5]]%Z (zvar 1 1)).
  exists (fst st), (snd st). eexists. exists 1. split; [reflexivity|]. split; [vm_compute; discriminate|]. split; [vm_compute; reflexivity|]. split; vm_compute; reflexivity.
Qed.

(** C17, what holds: in the executions in which quantities and time derivatives
    are evaluated in step 0, and in step -1 only after the first advance (with the
    time step size of the variable, which does not change), evaluate() in such
    a step returns what is computed from the current data, for any history
    length. *)
Theorem C17_fresh_partial : forall A B D (ev : Z -> Z -> list A -> B) (bdiff : D -> list A -> list A -> list A)
  s e n m v0 a h v, s <= e ->
  run ev bdiff s e n v0 m (fun st vstep => st = 0%Z \/ (st = (-1)%Z /\ vstep <> 0)) a h v ->
  forall mode key st, (st = 0%Z \/ (st = (-1)%Z /\ v_step v <> 0)) -> forall y,
  (if snd key : bool then call_dt bdiff h v st None else call h v st) = Ok y ->
  fst (evaluate ev bdiff h v mode key st None) = Ok (ev mode (fst key) y).
Proof.
  intros A B D ev bdiff s e n m v0 a h v Hse R mode key st Hst y E.
  eapply evaluate_fst; eauto.
  - exact (run_CInv Hse R).
  - unfold compute. rewrite E. reflexivity.
Qed.

(** The full C17 is false.  (a) Before the first advance, step -1 means the
    current data, but setting these does not invalidate the cache of step -1. *)
Theorem C17_step0_refuted : exists ops, outs (exec ops [[1]; [2]]%Z (zvar 1 1) []) =
  [Ok [1%Z]; Ok [1%Z]; Ok [2%Z]] /\
  ops = [Init; Set_ 0 None 0; Ev (0%Z, false) (-1); Set_ 1 None 0; Ev (0%Z, false) (-1); Rd (-1)].
Proof. eexists. split; [|reflexivity]. vm_compute. reflexivity. Qed.

(** (b) History 2: the cache of step -2 is not dropped by advance() if there is
    no cache of step -1. *)
Theorem C17_gap_refuted : exists ops, outs (exec ops [[1]]%Z (zvar 2 1) []) =
  [Ok [2%Z]; Ok [1%Z]; Ok [1%Z]; Ok [2%Z]] /\
  ops = [Init; Set_ 0 None 0; Adv 0; Wr 0 [2%Z]; Adv 1; Ev (0%Z, false) 0; Ev (0%Z, false) (-2); Adv 2; Ev (0%Z, false) (-2); Rd (-2)].
Proof. eexists. split; [|reflexivity]. vm_compute. reflexivity. Qed.

(** (c) Setting the data of step -1 does not invalidate the time derivative in
    step 0: returned 1, correct -4. *)
Theorem C17_derivative_refuted : exists ops, outs (exec ops [[1]; [6]]%Z (zvar 1 1) []) =
  [Ok [1%Z]; Ok [1%Z]; Ok [2%Z]; Ok [6%Z]] /\
  ops = [Init; Set_ 0 None 0; Adv 0; Wr 0 [2%Z]; Ev (0%Z, true) 0; Set_ 1 None (-1); Ev (0%Z, true) 0; Rd 0; Rd (-1)].
Proof. eexists. split; [|reflexivity]. vm_compute. reflexivity. Qed.

(** (d) The time step size is not a part of the key: after its change the
    derivative is stale: returned 4 with dt = 1, correct 2 for dt = 2. *)
Theorem C17_dt_refuted : exists ops, outs (exec ops [[1]]%Z (zvar 1 1) []) = [Ok [4%Z]; Ok [4%Z]] /\
  ops = [Init; Set_ 0 None 0; Adv 0; Wr 0 [5%Z]; Ev (0%Z, true) 0; Dt 2; Ev (0%Z, true) 0].
Proof. eexists. split; [|reflexivity]. vm_compute. reflexivity. Qed.

(** (e) init_history() (Variables.init_state()) does not clear the caches: in a
    new run step -1 gives the values of the previous run. *)
Theorem C17_init_refuted : exists ops, outs (exec ops [[1]; [7]]%Z (zvar 1 1) []) = [Ok [1%Z]; Ok [1%Z]; Ok [7%Z]] /\
  ops = [Init; Set_ 0 None 0; Adv 0; Ev (0%Z, false) (-1); Init; Set_ 1 None 0; Ev (0%Z, false) (-1); Rd (-1)].
Proof. eexists. split; [|reflexivity]. vm_compute. reflexivity. Qed.

Print Assumptions C15_history.
Print Assumptions C15_aliasing_refuted.
Print Assumptions C16_set_get.
Print Assumptions C16_partial.
Print Assumptions C16_refuted.
Print Assumptions C16_slice_refuted.
Print Assumptions C17_fresh_partial.
Print Assumptions C17_step0_refuted.
Print Assumptions C17_gap_refuted.
Print Assumptions C17_derivative_refuted.
Print Assumptions C17_dt_refuted.
Print Assumptions C17_init_refuted.
