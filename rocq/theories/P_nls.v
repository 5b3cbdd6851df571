(** C101-C103: the Newton solver. *)
From Coq Require Import Reals Lra.
From Verif Require Import Base M_nls.
Set Implicit Arguments.
Open Scope nat_scope.

(** ** Specification *)
(** The documented tolerances: in the first iteration only the absolute one is used. *)
Definition small_abs (c : conf) (err : R) : Prop := (err <= eps_a c)%R.
Definition small_rel (c : conf) (err err0 : R) : Prop := (err0 < macheps c \/ err <= eps_r c * err0)%R.
Definition converged (c : conf) (it : nat) (err err0 : R) : Prop :=
  match it with
  | 0 => small_abs c err
  | S _ => if eps_or c then small_abs c err \/ small_rel c err err0 else small_abs c err /\ small_rel c err err0
  end.
Definition no_entry : entry := mkE [] [] 0 true 0.
Definition at_ (h : list entry) (k : nat) : entry := nth k h no_entry.

Section Spec.
Variable M : Type.
Variable c : conf.
Variable f : vec -> fval.
Variable grad : option vec -> M.
Variable solve : M -> vec -> vec -> vec * nat.
(** The tried step lengths: 1, then always reduced by ls_red, or by ls_red_warp if the
    residual could not be computed. *)
Fixpoint factor (x dx : vec) (j : nat) : R :=
  match j with
  | 0 => 1%R
  | S j => (factor x dx j * match f (vsub x (vscale (factor x dx j) dx)) with FFail => ls_red_warp c | _ => ls_red c end)%R
  end.
Definition trial (x dx : vec) (j : nat) : vec := vsub x (vscale (factor x dx j) dx).
(** The trial is good enough. *)
Definition accepted (x dx : vec) (err : R) (m : M) (j : nat) : Prop :=
  exists r, f (trial x dx j) = FVal r /\
    match ls_mode c with
    | Residual => (norm r < err * ls_on c)%R
    | ErrorEst => (norm (fst (solve m r x)) < norm dx * ls_on c)%R
    | OtherMode => False
    end.
(** The matrix used in the iteration k *)
Definition matrix (h : list entry) (k : nat) : M := grad (if is_linear c then None else Some (e_x (at_ h (e_jac (at_ h k))))).
Definition direction (h : list entry) (k : nat) : vec :=
  vscale (step_red c) (fst (solve (matrix h k) (e_r (at_ h k)) (e_x (at_ h k)))).
(** The next iterate is the first accepted trial, or the first one with a too short step. *)
Definition step_ok (h : list entry) (k : nat) : Prop :=
  let x := e_x (at_ h k) in let dx := direction h k in let err := e_err (at_ h k) in
  exists j, e_x (at_ h (S k)) = trial x dx j /\
    (accepted x dx err (matrix h k) j \/ (factor x dx j < ls_min c)%R) /\
    (forall i, i < j -> ~ accepted x dx err (matrix h k) i /\ (ls_min c <= factor x dx i)%R).
Definition entry_ok (e : entry) : Prop := f (e_x e) = FVal (e_r e) /\ e_err e = norm (e_r e) /\ e_ok e = true.
End Spec.

(** ** Lemmas *)
Lemma Rltb_true : forall a b, Rltb a b = true <-> (a < b)%R.
Proof. intros. unfold Rltb. destruct (Rlt_dec a b); split; intros; auto; try discriminate; contradiction. Qed.
Lemma Rltb_false : forall a b, Rltb a b = false <-> (b <= a)%R.
Proof. intros. unfold Rltb. destruct (Rlt_dec a b); split; intros; auto; try discriminate; lra. Qed.
Lemma Rleb_true : forall a b, Rleb a b = true <-> (a <= b)%R.
Proof. intros. unfold Rleb. destruct (Rle_dec a b); split; intros; auto; try discriminate; contradiction. Qed.
Lemma Rleb_false : forall a b, Rleb a b = false <-> (b < a)%R.
Proof. intros. unfold Rleb. destruct (Rle_dec a b); split; intros; auto; try discriminate; lra. Qed.
Lemma vscale_1 : forall x, vscale 1 x = x.
Proof. intros. unfold vscale. rewrite <- map_id. apply map_ext. intros; lra. Qed.
Lemma vsub_0 : forall x, vsub x (map (fun _ => 0%R) x) = x.
Proof. unfold vsub. induction x as [|a x IH]; cbn; auto. rewrite IH. f_equal. lra. Qed.
Lemma norm_pos : forall x, (0 <= norm x)%R.
Proof. intros. apply sqrt_pos. Qed.
Lemma conv_test_spec : forall c it err err0, (0 < macheps c)%R -> (0 <= eps_r c)%R -> (0 <= err0)%R ->
  match conv_test c it err err0 with
  | Some 0 => converged c it err err0
  | Some k => k = 1 /\ ~ converged c it err err0 /\ (i_max c <= Z.of_nat it)%Z
  | None => ~ converged c it err err0 /\ (Z.of_nat it < i_max c)%Z
  end.
Proof.
  intros c it err err0 HM HR H0. unfold conv_test, converged, small_abs, small_rel.
  assert (RR : Rleb (if Rltb (Rabs err0) (macheps c) then 0%R else (err / err0)%R) (eps_r c) = true <-> (err0 < macheps c \/ err <= eps_r c * err0)%R).
  { rewrite Rabs_right by lra. destruct (Rltb err0 (macheps c)) eqn:E.
    - apply Rltb_true in E. rewrite Rleb_true. split; auto.
    - apply Rltb_false in E. rewrite Rleb_true. assert (P : (0 < err0)%R) by lra. split.
      + intros H. right. apply (Rmult_le_compat_r err0) in H; [|lra]. unfold Rdiv in H. rewrite Rmult_assoc, Rinv_l in H by lra. lra.
      + intros [H|H]; [lra|]. apply (Rmult_le_reg_r err0); auto. unfold Rdiv. rewrite Rmult_assoc, Rinv_l by lra. lra. }
  set (cr := Rleb (if Rltb (Rabs err0) (macheps c) then 0%R else (err / err0)%R) (eps_r c)) in *. clearbody cr.
  assert (RA : Rleb err (eps_a c) = true <-> (err <= eps_a c)%R) by apply Rleb_true. set (ca := Rleb err (eps_a c)) in *. clearbody ca.
  assert (FIN : forall P : Prop, ~ P -> match (if (i_max c <=? Z.of_nat it)%Z then Some 1 else None) with Some 0 => P | Some k => k = 1 /\ ~ P /\ (i_max c <= Z.of_nat it)%Z | None => ~ P /\ (Z.of_nat it < i_max c)%Z end).
  { intros P NP. destruct (Z.leb_spec (i_max c) (Z.of_nat it)); auto. }
  assert (EF : forall b : bool, b = false -> b = true -> False) by (intros; congruence).
  destruct it as [|it]; cbn [Nat.ltb Nat.leb].
  - destruct ca; [tauto|]. apply FIN. intros H. apply RA in H. discriminate.
  - destruct ca, cr, (eps_or c); cbn [andb orb]; try apply FIN; intuition congruence.
Qed.

Section Proofs.
Variable M : Type.
Variable c : conf.
Variable f : vec -> fval.
Variable grad : option vec -> M.
Variable solve : M -> vec -> vec -> vec * nat.
Variable new_jac : nat -> nat -> vec -> option vec -> vec -> vec -> bool.
Hypothesis NOGIVE : give_up_warp c = false.
Lemma resolve_ok : forall m x r d, resolve c solve (Some m) x r = Ok d -> d = fst (solve m r x).
Proof. intros m x r d H. unfold resolve in H. destruct (lin_red c); [destruct (scaled_error c)|]; congruence. Qed.
Lemma line_search_spec : forall fuel x0 dx0 it errl m j last x r e ok, 0 < it ->
  line_search c f fuel x0 dx0 it errl (resolve c solve (Some m) x0) (factor c f x0 dx0 j) (vscale (factor c f x0 dx0 j) dx0) last = Ok (x, r, e, ok) ->
  f x = FVal r /\ e = norm r /\ ok = true /\ exists j', j <= j' /\ x = trial c f x0 dx0 j' /\
    (accepted c f solve x0 dx0 errl m j' \/ (factor c f x0 dx0 j' < ls_min c)%R) /\
    (forall i, j <= i < j' -> ~ accepted c f solve x0 dx0 errl m i /\ (ls_min c <= factor c f x0 dx0 i)%R).
Proof.
  induction fuel as [|fuel IH]; intros x0 dx0 it errl m j last x r e ok IT H; [discriminate|]. cbn [line_search] in H.
  assert (FS : factor c f x0 dx0 (S j) = (factor c f x0 dx0 j * match f (trial c f x0 dx0 j) with FFail => ls_red_warp c | _ => ls_red c end)%R) by reflexivity.
  assert (TR : trial c f x0 dx0 j = vsub x0 (vscale (factor c f x0 dx0 j) dx0)) by reflexivity.
  replace (it =? 0) with false in H by (symmetry; apply Nat.eqb_neq; lia). rewrite NOGIVE in H. cbn [orb] in H. rewrite <- TR in *.
  assert (STEP : ~ accepted c f solve x0 dx0 errl m j -> (ls_min c <= factor c f x0 dx0 j)%R ->
    forall last', line_search c f fuel x0 dx0 it errl (resolve c solve (Some m) x0) (factor c f x0 dx0 (S j)) (vscale (factor c f x0 dx0 (S j)) dx0) last' = Ok (x, r, e, ok) ->
    f x = FVal r /\ e = norm r /\ ok = true /\ exists j', j <= j' /\ x = trial c f x0 dx0 j' /\
    (accepted c f solve x0 dx0 errl m j' \/ (factor c f x0 dx0 j' < ls_min c)%R) /\
    (forall i, j <= i < j' -> ~ accepted c f solve x0 dx0 errl m i /\ (ls_min c <= factor c f x0 dx0 i)%R)).
  { intros NA LE last' H'. destruct (IH _ _ _ _ _ _ _ _ _ _ _ IT H') as (A & B & C & j' & D & E & F & G). repeat (split; auto). exists j'. split; [lia|]. split; auto. split; auto.
    intros i I. destruct (Nat.eq_dec i j) as [->|]; auto. apply G. lia. }
  destruct (f (trial c f x0 dx0 j)) as [r'| |] eqn:FX; [|discriminate|].
  - assert (DONE : forall r'', Ok (trial c f x0 dx0 j, r', norm r', true) = Ok (x, r, e, ok) -> r'' = r' -> (accepted c f solve x0 dx0 errl m j \/ (factor c f x0 dx0 j < ls_min c)%R) ->
      f x = FVal r /\ e = norm r /\ ok = true /\ exists j', j <= j' /\ x = trial c f x0 dx0 j' /\
    (accepted c f solve x0 dx0 errl m j' \/ (factor c f x0 dx0 j' < ls_min c)%R) /\
    (forall i, j <= i < j' -> ~ accepted c f solve x0 dx0 errl m i /\ (ls_min c <= factor c f x0 dx0 i)%R)).
    { intros r'' E _ A. injection E as <- <- <- <-. repeat (split; auto). exists j. split; auto. split; auto. split; auto. intros i I. lia. }
    destruct (ls_mode c) eqn:MD.
    + destruct (Rltb (norm r') (errl * ls_on c)) eqn:T.
      * apply (DONE r' H eq_refl). left. exists r'. split; auto. rewrite MD. apply Rltb_true; auto.
      * apply Rltb_false in T. destruct (Rltb (factor c f x0 dx0 j) (ls_min c)) eqn:L.
        -- apply (DONE r' H eq_refl). right. apply Rltb_true; auto.
        -- apply Rltb_false in L. rewrite <- FS in H. eapply STEP; eauto. intros (r2 & E & A). rewrite FX in E. injection E as <-. rewrite MD in A. lra.
    + destruct (resolve c solve (Some m) x0 r') as [d|] eqn:RS; [|discriminate]. apply resolve_ok in RS. subst d. destruct (Rltb (norm (fst (solve m r' x0))) (norm dx0 * ls_on c)) eqn:T.
      * apply (DONE r' H eq_refl). left. exists r'. split; auto. rewrite MD. apply Rltb_true; auto.
      * apply Rltb_false in T. destruct (Rltb (factor c f x0 dx0 j) (ls_min c)) eqn:L.
        -- apply (DONE r' H eq_refl). right. apply Rltb_true; auto.
        -- apply Rltb_false in L. rewrite <- FS in H. eapply STEP; eauto. intros (r2 & E & A). rewrite FX in E. injection E as <-. rewrite MD in A. lra.
    + discriminate.
  - destruct (Rltb (factor c f x0 dx0 j) (ls_min c)) eqn:L; [discriminate|]. apply Rltb_false in L. rewrite <- FS in H. eapply STEP; eauto. intros (r2 & E & A). congruence.
Qed.
Lemma line_search_first : forall fuel x0 errl sa x r e ok,
  line_search c f fuel x0 (map (fun _ => 0%R) x0) 0 errl sa 1 (map (fun _ => 0%R) x0) None = Ok (x, r, e, ok) -> x = x0 /\ f x = FVal r /\ e = norm r /\ ok = true.
Proof.
  intros fuel x0 errl sa x r e ok H. destruct fuel; [discriminate|]. cbn [line_search] in H. rewrite vsub_0 in H. destruct (f x0) eqn:F; cbn in H; try discriminate.
  injection H as <- <- <- <-. auto.
Qed.
Definition jac_ok (h : list entry) (k : nat) : Prop := e_jac (at_ h k) <= k.
Definition jac_rule (h : list entry) (k : nat) : Prop :=
  match k with
  | 0 => e_jac (at_ h 0) = 0
  | S p => e_jac (at_ h (S p)) = if new_jac (S p) (e_jac (at_ h p)) (e_r (at_ h (S p))) (Some (e_r (at_ h p))) (e_x (at_ h (S p))) (e_x (at_ h p)) then S p else e_jac (at_ h p)
  end.
(** The history before the current iteration, and the state. *)
Definition hist_ok (x0 : vec) (h : list entry) (n : nat) : Prop :=
  (forall k, k < length h -> entry_ok f (at_ h k)) /\ (0 < length h -> e_x (at_ h 0) = x0) /\
  (forall k, S k < length h -> step_ok c f grad solve h k) /\
  (forall k, k < n -> jac_ok h k /\ conv_test c k (e_err (at_ h k)) (e_err (at_ h 0)) = None) /\
  (forall k, k < n -> is_linear c = false -> jac_rule h k).
Definition lin_iters (h : list entry) (n : nat) : nat :=
  list_sum (map (fun k => snd (solve (matrix c grad h k) (e_r (at_ h k)) (e_x (at_ h k)))) (seq 0 n)).
Definition st_ok (x0 : vec) (s : state M) : Prop :=
  hist_ok x0 (s_hist s) (length (s_hist s)) /\ s_it s = length (s_hist s) /\ s_lsn s = lin_iters (s_hist s) (length (s_hist s)) /\
  match length (s_hist s) with
  | 0 => s = mkS x0 None (map (fun _ => 0%R) x0) (-1) (-1) 0 0 None 0 []
  | S k => s_x s = e_x (at_ (s_hist s) k) /\ s_r s = Some (e_r (at_ (s_hist s) k)) /\ s_errl s = e_err (at_ (s_hist s) k) /\ s_err0 s = e_err (at_ (s_hist s) 0) /\
           s_mtx s = Some (matrix c grad (s_hist s) k) /\ s_dx s = direction c grad solve (s_hist s) k /\ s_itj s = e_jac (at_ (s_hist s) k)
  end.
Lemma at_app_l : forall h a k, k < length h -> at_ (h ++ a) k = at_ h k.
Proof. intros. unfold at_. apply app_nth1. auto. Qed.
Lemma at_last : forall h e, at_ (h ++ [e]) (length h) = e.
Proof. intros. unfold at_. rewrite app_nth2, Nat.sub_diag by lia. auto. Qed.
Lemma matrix_app : forall h e k, k < length h -> jac_ok h k -> matrix c grad (h ++ [e]) k = matrix c grad h k.
Proof. intros h e k K J. unfold matrix, jac_ok in *. rewrite (@at_app_l h [e] k) by lia. destruct (is_linear c); auto. rewrite at_app_l by lia. auto. Qed.
Lemma lin_iters_app : forall h e, (forall k, k < length h -> jac_ok h k) -> lin_iters (h ++ [e]) (length h) = lin_iters h (length h).
Proof.
  intros h e J. unfold lin_iters. f_equal. apply map_ext_in. intros k K. apply in_seq in K. rewrite matrix_app by (try apply J; lia). rewrite !at_app_l by lia. auto.
Qed.
Lemma step_app : forall h e k, S k < length h -> jac_ok h k -> step_ok c f grad solve h k -> step_ok c f grad solve (h ++ [e]) k.
Proof.
  intros h e k K J H. unfold step_ok, direction in *. rewrite matrix_app by (auto; lia). rewrite !at_app_l by lia. auto.
Qed.
Lemma step_new : forall h e k, length h = S k -> jac_ok h k ->
  (let x := e_x (at_ h k) in let dx := direction c grad solve h k in let err := e_err (at_ h k) in
  exists j, e_x e = trial c f x dx j /\ (accepted c f solve x dx err (matrix c grad h k) j \/ (factor c f x dx j < ls_min c)%R) /\
    (forall i, i < j -> ~ accepted c f solve x dx err (matrix c grad h k) i /\ (ls_min c <= factor c f x dx i)%R)) ->
  step_ok c f grad solve (h ++ [e]) k.
Proof.
  intros h e k K J H. unfold step_ok, direction in *. rewrite matrix_app by (auto; lia). rewrite (@at_app_l h [e] k) by lia. rewrite <- K, at_last. auto.
Qed.
Lemma loop_spec : forall fuel lsfuel x0 s q, st_ok x0 s -> loop c f grad solve new_jac fuel lsfuel s = Ok q ->
  hist_ok x0 (r_hist q) (r_iter q) /\ length (r_hist q) = S (r_iter q) /\ r_x q = e_x (at_ (r_hist q) (r_iter q)) /\
  r_err q = e_err (at_ (r_hist q) (r_iter q)) /\ r_err0 q = e_err (at_ (r_hist q) 0) /\ conv_test c (r_iter q) (r_err q) (r_err0 q) = Some (r_cond q) /\ r_ls_iter q = lin_iters (r_hist q) (r_iter q).
Proof.
  induction fuel as [|fuel IH]; intros lsfuel x0 s q ST H; [discriminate|]. cbn [loop] in H.
  destruct (line_search c f lsfuel (s_x s) (s_dx s) (s_it s) (s_errl s) (resolve c solve (s_mtx s) (s_x s)) 1 (s_dx s) None) as [[[[x r] e] ok]|] eqn:LS; [|discriminate]. cbn [bind] in H.
  set (h := s_hist s) in *. destruct ST as ((HE & HX & HS & HC & HJ) & IT & LN & SS). fold h in IT, LN, SS, HE, HX, HS, HC, HJ.
  assert (NEW : f x = FVal r /\ e = norm r /\ ok = true /\ (length h = 0 -> x = x0) /\ forall k, length h = S k ->
    exists j, x = trial c f (e_x (at_ h k)) (direction c grad solve h k) j /\
     (accepted c f solve (e_x (at_ h k)) (direction c grad solve h k) (e_err (at_ h k)) (matrix c grad h k) j \/ (factor c f (e_x (at_ h k)) (direction c grad solve h k) j < ls_min c)%R) /\
    (forall i, i < j -> ~ accepted c f solve (e_x (at_ h k)) (direction c grad solve h k) (e_err (at_ h k)) (matrix c grad h k) i /\ (ls_min c <= factor c f (e_x (at_ h k)) (direction c grad solve h k) i)%R)).
  { destruct (length h) as [|k] eqn:LH.
    - rewrite SS in LS. cbn [s_x s_dx s_it s_errl s_mtx] in LS. apply line_search_first in LS. destruct LS as (A & B & C & D). repeat (split; auto). intros; lia.
    - destruct SS as (S1 & S2 & S3 & S4 & S5 & S6 & S7). rewrite S1, S3, S5, S6, IT in LS. rewrite <- (vscale_1 (direction c grad solve h k)) in LS at 2.
      replace 1%R with (factor c f (e_x (at_ h k)) (direction c grad solve h k) 0) in LS at 1 2 by reflexivity. apply line_search_spec in LS; [|lia].
      destruct LS as (A & B & C & j & D & E & F & G). repeat (split; auto); [lia|]. intros k' K'. injection K' as <-. exists j. split; auto. split; auto. intros i I. apply G. lia. }
  destruct NEW as (NF & NE & NO & N0 & NS). set (err0 := if s_it s =? 0 then e else s_err0 s) in *.
  assert (E0 : forall jac, err0 = e_err (at_ (h ++ [mkE x r e ok jac]) 0)).
  { intros jac. unfold err0. rewrite IT. destruct (length h) as [|k] eqn:LH.
    - destruct h; [reflexivity|discriminate].
    - cbn [Nat.eqb]. destruct SS as (_ & _ & _ & S4 & _). rewrite S4. rewrite at_app_l by lia. auto. }
  assert (HOK : forall jac, (forall k, k < length (h ++ [mkE x r e ok jac]) -> entry_ok f (at_ (h ++ [mkE x r e ok jac]) k)) /\ (0 < length (h ++ [mkE x r e ok jac]) -> e_x (at_ (h ++ [mkE x r e ok jac]) 0) = x0) /\
      (forall k, S k < length (h ++ [mkE x r e ok jac]) -> step_ok c f grad solve (h ++ [mkE x r e ok jac]) k) /\
      (forall k, k < length h -> jac_ok (h ++ [mkE x r e ok jac]) k /\ conv_test c k (e_err (at_ (h ++ [mkE x r e ok jac]) k)) (e_err (at_ (h ++ [mkE x r e ok jac]) 0)) = None) /\
      (forall k, k < length h -> is_linear c = false -> jac_rule (h ++ [mkE x r e ok jac]) k)).
  { intros jac. split; [|split; [|split; [|split]]].
    - intros k K. rewrite app_length in K. cbn in K. destruct (Nat.eq_dec k (length h)) as [->|NK].
      + rewrite at_last. unfold entry_ok. cbn. auto.
      + rewrite at_app_l by lia. apply HE. lia.
    - intros _. destruct (length h) as [|k] eqn:LH.
      + destruct h; [|discriminate]. cbn. auto.
      + rewrite at_app_l by lia. apply HX. lia.
    - intros k K. rewrite app_length in K. cbn in K. destruct (Nat.eq_dec (S k) (length h)) as [EK|NK].
      + apply step_new; auto; [apply HC; lia|]. cbv zeta. cbn [e_x]. apply NS. auto.
      + apply step_app; [lia|apply HC; lia|apply HS; lia].
    - intros k K. unfold jac_ok. rewrite !at_app_l by lia. apply HC; auto.
    - intros k K LI. specialize (HJ k K LI). unfold jac_rule in *. destruct k; rewrite !at_app_l by lia; auto. }
  destruct (conv_test c (s_it s) e err0) as [cond|] eqn:CT.
  - injection H as <-. cbn [r_hist r_iter r_x r_err r_err0 r_cond r_ls_iter]. rewrite IT in *. split; [apply (HOK (s_itj s))|]. rewrite at_last. cbn [e_x e_err]. rewrite app_length. cbn [length].
    rewrite lin_iters_app by (intros; apply HC; auto). repeat split; auto; lia.
  - rewrite NO, NOGIVE in H. cbn [negb andb] in H.
    set (mj := if is_linear c then (grad None, s_itj s) else match s_mtx s with None => (grad (Some x), s_it s) | Some m => if new_jac (s_it s) (s_itj s) r (s_r s) x (s_x s) then (grad (Some x), s_it s) else (m, s_itj s) end) in *.
    destruct mj as [m itj] eqn:MJ. destruct (solve m r x) as [d n] eqn:SV. apply IH with (x0 := x0) in H; auto. clear IH H.
    rewrite <- NO in *. specialize (HOK itj). destruct HOK as (H1 & H2 & H3 & H4 & H5).
    assert (IJ : itj <= length h).
    { unfold mj in MJ. rewrite IT in *. destruct (length h) as [|k] eqn:LH.
      - rewrite SS in MJ. cbn in MJ. destruct (is_linear c); inversion MJ; lia.
      - destruct SS as (_ & _ & _ & _ & _ & _ & S7). assert (e_jac (at_ h k) <= k) by (apply HC; lia). destruct (is_linear c); [|destruct (s_mtx s); [destruct (new_jac (S k) (s_itj s) r (s_r s) x (s_x s))|]]; inversion MJ; lia. }
    assert (MX : m = matrix c grad (h ++ [mkE x r e ok itj]) (length h)).
    { unfold matrix. rewrite at_last. cbn [e_jac]. unfold mj in MJ. destruct (is_linear c) eqn:LI; [inversion MJ; auto|].
      assert (NOW : grad (Some x) = grad (Some (e_x (at_ (h ++ [mkE x r e ok (length h)]) (length h))))) by (rewrite at_last; auto). rewrite IT in MJ.
      destruct (s_mtx s) as [m'|] eqn:SM; [|inversion MJ; subst; auto]. destruct (new_jac (length h) (s_itj s) r (s_r s) x (s_x s)); inversion MJ; subst m itj; auto.
      destruct (length h) as [|k] eqn:LH; [rewrite SS in SM; discriminate|]. destruct SS as (_ & _ & _ & _ & S5 & _ & S7). injection S5 as ->. unfold matrix. rewrite LI, S7.
      assert (e_jac (at_ h k) <= k) by (apply HC; lia). rewrite at_app_l by lia. auto. }
    unfold st_ok. cbn [s_hist s_it s_x s_r s_errl s_err0 s_mtx s_dx s_itj s_lsn]. assert (LL : length (h ++ [mkE x r e ok itj]) = S (length h)) by (rewrite app_length; cbn; lia). rewrite LL. split; [|split; [|split]].
    + split; auto. split; auto. split; auto. split.
      * intros k K. destruct (Nat.eq_dec k (length h)) as [->|NK]; [|apply H4; lia]. unfold jac_ok. rewrite at_last. cbn [e_jac e_err]. split; auto. rewrite <- IT, <- E0. auto.
      * intros k K LI. destruct (Nat.eq_dec k (length h)) as [->|NK]; [|apply H5; auto; lia]. unfold jac_rule. unfold mj in MJ. rewrite LI, IT in MJ.
        destruct (length h) as [|k] eqn:LH.
        -- rewrite <- LH, at_last. cbn [e_jac]. rewrite SS in MJ. cbn in MJ. inversion MJ. auto.
        -- destruct SS as (S1 & S2 & _ & _ & S5 & _ & S7). rewrite <- LH at 1 3 4. rewrite !at_last. rewrite at_app_l by lia. cbn [e_jac e_r e_x].
           rewrite S5, S7, S2, S1 in MJ. destruct (new_jac (S k) (e_jac (at_ h k)) r (Some (e_r (at_ h k))) x (e_x (at_ h k))); inversion MJ; auto.
    + f_equal. auto.
    + rewrite LN, <- (@lin_iters_app h (mkE x r e ok itj)) by (intros; apply HC; auto). unfold lin_iters. rewrite seq_S, map_app, list_sum_app. cbn [map list_sum fold_right]. rewrite Nat.add_0_l, at_last, <- MX. cbn [e_r e_x]. rewrite SV. cbn [snd]. lia.
    + rewrite at_last. cbn [e_x e_r e_err]. unfold direction. rewrite at_last. cbn [e_r e_x e_jac]. rewrite <- MX, SV. cbn [fst]. repeat split; auto. 
Qed.
End Proofs.

(** ** Termination *)
Section Termination.
Variable M : Type.
Variable c : conf.
Variable f : vec -> fval.
Variable grad : option vec -> M.
Variable solve : M -> vec -> vec -> vec * nat.
Variable new_jac : nat -> nat -> vec -> option vec -> vec -> vec -> bool.
Hypothesis RED : (0 < ls_red c < 1)%R.
Hypothesis WARP : (0 < ls_red_warp c < 1)%R.
Let q := Rmax (ls_red c) (ls_red_warp c).
Lemma line_search_terminates : forall fuel n x0 dx0 it errl m ls dx last, (q ^ n < ls_min c)%R -> forall j, (0 < ls <= q ^ j)%R -> j <= n -> n < j + fuel ->
  line_search c f fuel x0 dx0 it errl (resolve c solve m x0) ls dx last <> Err OutOfFuel.
Proof.
  assert (QR : (ls_red c <= q)%R) by apply Rmax_l. assert (QW : (ls_red_warp c <= q)%R) by apply Rmax_r. assert (Q1 : (q < 1)%R) by (unfold q, Rmax; destruct Rle_dec; lra).
  induction fuel as [|fuel IH]; intros n x0 dx0 it errl m ls dx last N j LS JN F; [lia|].
  assert (NEXT : forall red dx' last', (0 < red <= q)%R -> Rltb ls (ls_min c) = false -> line_search c f fuel x0 dx0 it errl (resolve c solve m x0) (ls * red) dx' last' <> Err OutOfFuel).
  { intros red dx' last' R L. apply Rltb_false in L. assert (J : j < n) by (destruct (Nat.eq_dec j n); [subst; lra|lia]). apply IH with (n := n) (j := S j); auto; [|lia].
    split; [apply Rmult_lt_0_compat; lra|]. cbn [pow]. rewrite Rmult_comm. apply Rmult_le_compat; lra. }
  cbn [line_search]. destruct (f (vsub x0 dx)) as [r| |]; [|discriminate|].
  - destruct (it =? 0); [discriminate|].
    assert (AG : (if Rltb ls (ls_min c) then Ok (vsub x0 dx, r, norm r, true) else line_search c f fuel x0 dx0 it errl (resolve c solve m x0) (ls * ls_red c) (vscale (ls * ls_red c) dx0) (Some (r, norm r))) <> Err OutOfFuel).
    { destruct (Rltb ls (ls_min c)) eqn:L; [discriminate|]. apply NEXT; auto. lra. }
    destruct (ls_mode c); [|destruct (resolve c solve m x0 r) as [d|ex] eqn:RS|discriminate].
    + destruct (Rltb (norm r) (errl * ls_on c)); [discriminate|exact AG].
    + destruct (Rltb (norm d) (norm dx0 * ls_on c)); [discriminate|exact AG].
    + intros E. injection E as ->. unfold resolve in RS. destruct m; [|discriminate]. destruct (lin_red c); [destruct (scaled_error c)|]; discriminate.
  - destruct ((it =? 0) || Rltb ls (ls_min c)) eqn:E; [discriminate|]. apply orb_false_iff in E. destruct E as [_ E]. rewrite E.
    destruct (give_up_warp c); [destruct last as [[? ?]|]; discriminate|]. apply NEXT; auto. lra.
Qed.
Hypothesis MIN : (0 < ls_min c)%R.
Theorem C101_terminates : exists lsfuel0, forall lsfuel fuel x0, lsfuel0 <= lsfuel -> Z.to_nat (i_max c) < fuel ->
  newton c f grad solve new_jac fuel lsfuel x0 <> Err OutOfFuel.
Proof.
  assert (Q1 : (0 < q < 1)%R) by (unfold q, Rmax; destruct Rle_dec; lra).
  destruct (pow_lt_1_zero q) with (y := ls_min c) as [n N]; auto; [rewrite Rabs_right; lra|]. specialize (N n (le_n n)). rewrite Rabs_right in N by (apply Rle_ge, pow_le; lra).
  exists (S n). intros lsfuel fuel x0 LF FU. unfold newton. set (s := mkS _ _ _ _ _ _ _ _ _ _). assert (IT : Z.to_nat (i_max c) < s_it s + fuel) by (cbn; lia).
  assert (I0 : s_it s <= Z.to_nat (i_max c)) by (cbn; lia).
  assert (CV : forall it e e0, conv_test c it e e0 = None -> (Z.of_nat it < i_max c)%Z).
  { intros it e e0. unfold conv_test. destruct (if 0 <? it then _ else _); [discriminate|]. destruct (Z.leb_spec (i_max c) (Z.of_nat it)); [discriminate|auto]. }
  clearbody s. clear FU x0. revert s IT I0. induction fuel as [|fuel IH]; intros s IT I0; [lia|]. cbn [loop].
  assert (LS := @line_search_terminates lsfuel n (s_x s) (s_dx s) (s_it s) (s_errl s) (s_mtx s) 1 (s_dx s) None N 0 ltac:(cbn; lra) ltac:(lia) ltac:(lia)).
  destruct line_search as [[[[x r] e] ok]|ex]; [|cbn [bind]; congruence]. cbn [bind]. destruct conv_test as [cond|] eqn:CT; [discriminate|]. destruct (negb ok && give_up_warp c); [discriminate|].
  apply CV in CT. match goal with |- context [let '(m, itj) := ?p in _] => destruct p as [m itj] end. destruct (solve m r x) as [d k]. apply IH; cbn [s_it]; lia.
Qed.
End Termination.

(** ** The theorems *)
Section Theorems.
Variable M : Type.
Variable c : conf.
Variable f : vec -> fval.
Variable grad : option vec -> M.
Variable solve : M -> vec -> vec -> vec * nat.
Variable new_jac : nat -> nat -> vec -> option vec -> vec -> vec -> bool.
Hypothesis NOGIVE : give_up_warp c = false.
Variables (fuel lsfuel : nat) (x0 : vec) (q : result).
Hypothesis RUN : newton c f grad solve new_jac fuel lsfuel x0 = Ok q.
Lemma run_spec : hist_ok c f grad solve new_jac x0 (r_hist q) (r_iter q) /\ length (r_hist q) = S (r_iter q) /\ r_x q = e_x (at_ (r_hist q) (r_iter q)) /\
  r_err q = e_err (at_ (r_hist q) (r_iter q)) /\ r_err0 q = e_err (at_ (r_hist q) 0) /\ conv_test c (r_iter q) (r_err q) (r_err0 q) = Some (r_cond q) /\ r_ls_iter q = lin_iters c grad solve (r_hist q) (r_iter q).
Proof.
  eapply loop_spec with (x0 := x0); [auto| |exact RUN]. unfold st_ok. cbn [s_hist length s_it]. split; [|auto]. unfold hist_ok. cbn [length]. repeat split; intros; lia.
Qed.
(** The reported status is the truth about the returned vector; the first iterate that
    meets the tolerances is returned, or the one of the iteration i_max. *)
Theorem C101_status : (0 < macheps c)%R -> (0 <= eps_r c)%R ->
  (exists r r0, f (r_x q) = FVal r /\ r_err q = norm r /\ f x0 = FVal r0 /\ r_err0 q = norm r0) /\
  r_iter q <= Z.to_nat (i_max c) /\
  ((r_cond q = 0 /\ converged c (r_iter q) (r_err q) (r_err0 q)) \/
   (r_cond q = 1 /\ ~ converged c (r_iter q) (r_err q) (r_err0 q) /\ r_iter q = Z.to_nat (i_max c))).
Proof.
  intros HM HR. destruct run_spec as ((HE & HX & _ & HC & _) & LEN & RX & RE & R0 & CT & LI).
  assert (E0 := HE 0 ltac:(lia)). assert (En := HE (r_iter q) ltac:(lia)). destruct E0 as (A1 & A2 & _), En as (B1 & B2 & _). rewrite HX in A1 by lia.
  assert (P0 : (0 <= r_err0 q)%R) by (rewrite R0, A2; apply norm_pos).
  assert (IT : r_iter q <= Z.to_nat (i_max c)).
  { destruct (r_iter q) as [|k] eqn:EK; [lia|]. destruct (HC k ltac:(lia)) as [_ C]. assert (S := @conv_test_spec c k (e_err (at_ (r_hist q) k)) (e_err (at_ (r_hist q) 0)) HM HR ltac:(rewrite <- R0; auto)). rewrite C in S. lia. }
  split; [|split; auto].
  - exists (e_r (at_ (r_hist q) (r_iter q))), (e_r (at_ (r_hist q) 0)). rewrite RX, RE, R0. auto.
  - assert (S := @conv_test_spec c (r_iter q) (r_err q) (r_err0 q) HM HR P0). rewrite CT in S. destruct (r_cond q) as [|k]; [left; auto|]. right. destruct S as (-> & NC & I). repeat split; auto. lia.
Qed.
(** No earlier iterate meets them. *)
Theorem C101_first : (0 < macheps c)%R -> (0 <= eps_r c)%R -> forall k, k < r_iter q ->
  exists r, f (e_x (at_ (r_hist q) k)) = FVal r /\ ~ converged c k (norm r) (r_err0 q).
Proof.
  intros HM HR k K. destruct run_spec as ((HE & HX & _ & HC & _) & LEN & RX & RE & R0 & CT & LI). destruct (HE k ltac:(lia)) as (A & B & _). exists (e_r (at_ (r_hist q) k)). split; auto.
  destruct (HC k K) as [_ C]. rewrite B in C. assert (E0 := HE 0 ltac:(lia)). assert (S := @conv_test_spec c k (norm (e_r (at_ (r_hist q) k))) (r_err0 q) HM HR ltac:(rewrite R0; destruct E0 as (_ & -> & _); apply norm_pos)).
  rewrite <- R0 in C. rewrite C in S. tauto.
Qed.
(** Each iterate is made from the previous one by a Newton step with a line search. *)
Theorem C102_steps : length (r_hist q) = S (r_iter q) /\ e_x (at_ (r_hist q) 0) = x0 /\ e_x (at_ (r_hist q) (r_iter q)) = r_x q /\
  forall k, k < r_iter q -> f (e_x (at_ (r_hist q) k)) = FVal (e_r (at_ (r_hist q) k)) /\ e_err (at_ (r_hist q) k) = norm (e_r (at_ (r_hist q) k)) /\
    step_ok c f grad solve (r_hist q) k /\ (is_linear c = false -> jac_rule new_jac (r_hist q) k).
Proof.
  destruct run_spec as ((HE & HX & HS & HC & HJ) & LEN & RX & RE & R0 & CT & LI). split; auto. split; [apply HX; lia|]. split; auto.
  intros k K. destruct (HE k ltac:(lia)) as (A & B & _). repeat split; auto. apply HS. lia.
Qed.
Theorem C101_linear_iterations :
  r_ls_iter q = list_sum (map (fun k => snd (solve (matrix c grad (r_hist q) k) (e_r (at_ (r_hist q) k)) (e_x (at_ (r_hist q) k)))) (seq 0 (r_iter q))).
Proof. apply run_spec. Qed.
(** In the default mode the error decreases geometrically unless the line search fails. *)
Theorem C102_decrease : ls_mode c = Residual -> (0 <= ls_on c)%R ->
  (forall k j, k < r_iter q -> e_x (at_ (r_hist q) (S k)) = trial c f (e_x (at_ (r_hist q) k)) (direction c grad solve (r_hist q) k) j ->
     (ls_min c <= factor c f (e_x (at_ (r_hist q) k)) (direction c grad solve (r_hist q) k) j)%R) ->
  (r_err q <= ls_on c ^ r_iter q * r_err0 q)%R.
Proof.
  intros MD ON NF. destruct run_spec as ((HE & HX & HS & HC & HJ) & LEN & RX & RE & R0 & CT & LI). rewrite RE, R0.
  assert (G : forall k, k <= r_iter q -> (e_err (at_ (r_hist q) k) <= ls_on c ^ k * e_err (at_ (r_hist q) 0))%R); [|apply G; lia].
  induction k as [|k IH]; intros K; [cbn; lra|]. specialize (IH ltac:(lia)). destruct (HS k ltac:(lia)) as (j & EX & ACC & _). specialize (NF k j ltac:(lia) EX).
  destruct ACC as [(r & FX & A)|A]; [|lra]. rewrite MD in A. rewrite <- EX in FX. destruct (HE (S k) ltac:(lia)) as (A1 & A2 & _). rewrite A1 in FX. injection FX as <-. rewrite <- A2 in A.
  cbn [pow]. apply Rle_trans with (e_err (at_ (r_hist q) k) * ls_on c)%R; [lra|]. rewrite Rmult_assoc, (Rmult_comm (ls_on c)). apply Rmult_le_compat_r; auto.
Qed.
End Theorems.

(** ** Linear systems *)
Definition dot (a x : vec) : R := fold_right (fun p s => (fst p * snd p + s)%R) 0%R (combine a x).
Definition matvec (A : list vec) (x : vec) : vec := map (fun a => dot a x) A.
Lemma dot_sub : forall a x y, length x = length y -> dot a (vsub x y) = (dot a x - dot a y)%R.
Proof.
  unfold dot, vsub. induction a as [|a0 a IH]; intros [|x0 x] [|y0 y] L; cbn in *; try lra; try lia. rewrite IH by lia. lra.
Qed.
Lemma sumsq_0 : forall x, (forall v, In v x -> v = 0%R) -> sumsq x = 0%R.
Proof. unfold sumsq. induction x as [|a x IH]; cbn; intros H; [lra|]. rewrite IH by auto. rewrite (H a) by auto. lra. Qed.
(** An exact solution is found in one iteration, whatever the line search options. *)
Theorem C103_linear : forall (M : Type) c f grad (solve : M -> vec -> vec -> vec * nat) new_jac A b x0 fuel lsfuel,
  (forall x, f x = FVal (vsub (matvec A x) b)) -> length b = length A ->
  (forall m r x, length (fst (solve m r x)) = length x /\ matvec A (fst (solve m r x)) = r) ->
  step_red c = 1%R -> ls_mode c = Residual -> (0 < ls_on c)%R -> (0 <= eps_a c)%R -> (0 <= eps_r c)%R -> (0 < i_max c)%Z ->
  2 <= fuel -> 1 <= lsfuel ->
  exists q, newton c f grad solve new_jac fuel lsfuel x0 = Ok q /\ r_cond q = 0 /\
    if Rle_dec (norm (vsub (matvec A x0) b)) (eps_a c) then r_iter q = 0 /\ r_x q = x0
    else r_iter q = 1 /\ matvec A (r_x q) = b.
Proof.
  intros M c f grad solve new_jac A b x0 fuel lsfuel F LB SV SR MD ON EA ER IM FU LF. destruct fuel as [|[|fuel]]; try lia. destruct lsfuel as [|lsfuel]; [lia|].
  unfold newton. cbn [loop s_x s_dx s_it s_errl s_mtx line_search]. rewrite vsub_0, F. cbn [Nat.eqb bind s_err0 s_lsn s_hist s_itj].
  set (e0 := norm (vsub (matvec A x0) b)). unfold conv_test at 1. cbn [Nat.ltb Nat.leb]. unfold Rleb. destruct (Rle_dec e0 (eps_a c)) as [LE|LE].
  - eexists. split; [reflexivity|]. cbn. auto.
  - replace (i_max c <=? Z.of_nat 0)%Z with false by (symmetry; apply Z.leb_gt; auto). cbn [negb andb].
    match goal with |- context [let '(m, itj) := ?p in _] => destruct p as [m itj] end. destruct (solve m (vsub (matvec A x0) b) x0) as [d n] eqn:SE.
    assert (SD := SV m (vsub (matvec A x0) b) x0). rewrite SE in SD. cbn [fst] in SD. destruct SD as [LD AD]. rewrite SR, vscale_1.
    assert (SOL : matvec A (vsub x0 d) = b).
    { unfold matvec in *. apply nth_ext with (d := 0%R) (d' := 0%R); [rewrite map_length; auto|]. intros i I. rewrite map_length in I.
      rewrite (nth_indep _ 0%R (dot [] (vsub x0 d))) by (rewrite map_length; auto). rewrite (map_nth (fun a => dot a (vsub x0 d))). rewrite dot_sub by auto.
      assert (E : nth i (map (fun a => dot a d) A) (dot [] d) = nth i (vsub (map (fun a => dot a x0) A) b) (dot [] d)) by (rewrite AD; auto). rewrite (map_nth (fun a => dot a d)) in E. rewrite E.
      unfold vsub. rewrite (nth_indep _ (dot [] d) ((fun p => (fst p - snd p)%R) (dot [] x0, 0%R))) by (rewrite map_length, combine_length, map_length; lia).
      rewrite (map_nth (fun p => (fst p - snd p)%R)). rewrite combine_nth by (rewrite map_length; auto). cbn [fst snd]. rewrite (map_nth (fun a => dot a x0)). lra. }
    assert (Z0 : norm (vsub b b) = 0%R).
    { unfold norm. rewrite sumsq_0; [apply sqrt_0|]. intros v V. unfold vsub in V. apply in_map_iff in V. destruct V as ([u w] & <- & V). cbn [fst snd].
      assert (E : u = w) by (clear -V; induction b; cbn in V; [tauto|destruct V as [V|V]; [congruence|auto]]). rewrite E. lra. }
    assert (EP : (0 < e0)%R) by lra. cbn [loop s_x s_dx s_it s_errl s_mtx line_search]. rewrite F, SOL, Z0. cbn [Nat.eqb bind s_err0 s_lsn s_hist s_itj]. rewrite MD.
    replace (Rltb 0 (e0 * ls_on c)) with true by (symmetry; apply Rltb_true, Rmult_lt_0_compat; auto). cbn [bind].
    assert (CT : conv_test c 1 0 e0 = Some 0).
    { unfold conv_test. cbn [Nat.ltb Nat.leb]. replace (Rleb 0 (eps_a c)) with true by (symmetry; apply Rleb_true; auto).
      replace (Rleb (if Rltb (Rabs e0) (macheps c) then 0%R else (0 / e0)%R) (eps_r c)) with true; auto. symmetry. apply Rleb_true. destruct Rltb; auto. unfold Rdiv. rewrite Rmult_0_l. auto. }
    rewrite CT. eexists. split; [reflexivity|]. cbn. auto.
Qed.

(** ** Examples: f(x) = x in 1D, the solver is exact. *)
Definition conf0 : conf := mkConf 1 (1 / 10) 1 false (1 / 1000) None false 1 Residual (99999 / 100000) (1 / 10) (1 / 1000) (1 / 100000) false false.
Definition id_solve (_ : unit) (r x : vec) : vec * nat := (r, 1).
Definition always (_ _ : nat) (_ : vec) (_ : option vec) (_ _ : vec) : bool := true.
Lemma norm1 : forall v, norm [v] = Rabs v.
Proof. intros. unfold norm. cbn. rewrite Rplus_0_r. apply sqrt_Rsqr_abs. Qed.
Ltac run1 := cbn [newton loop s_x s_dx s_it s_errl s_mtx s_r line_search map vsub vscale combine matvec dot fold_right fst snd Nat.eqb bind s_err0 s_lsn s_hist s_itj
   Nat.ltb Nat.leb eps_a eps_r i_max macheps eps_or give_up_warp is_linear negb andb orb step_red ls_mode ls_on ls_red ls_red_warp ls_min lin_red scaled_error resolve
   Z.leb Z.of_nat Z.compare conf0 always id_solve app]; rewrite ?norm1; rewrite ?Rabs_R0; unfold conv_test, Rltb, Rleb.
Ltac ab := repeat match goal with |- context [Rabs ?x] => first [rewrite (Rabs_right x) by lra | rewrite (Rabs_left x) by lra] end.
Ltac dec := ab; match goal with |- context [Rlt_dec ?a ?b] => destruct (Rlt_dec a b); try lra | |- context [Rle_dec ?a ?b] => destruct (Rle_dec a b); try lra end.
Ltac go := repeat first [progress run1 | dec].
Example C103_ex : exists q, newton conf0 (fun x => FVal (vsub (matvec [[1%R]] x) [3%R])) (fun _ => tt)
   (fun _ r x => (match x with [_] => match r with [v] => [v] | _ => [0%R] end | _ => r end, 1)) always 2 1 [5%R] = Ok q /\ r_cond q = 0 /\ r_iter q = 1 /\ r_x q = [3%R].
Proof.
  unfold newton. go. replace ((1 * (5 - 0 - 1 * (1 * (5 - 0) + 0 - 3)) + 0 - 3) / (1 * (5 - 0) + 0 - 3))%R with 0%R by lra. go. eexists. split; [reflexivity|]. cbn. repeat split; auto. f_equal; lra.
Qed.
(** The step can be shorter than the documented minimum ls_min. *)
Theorem C102_minimum_refuted : exists q c, ls_min c = (1 / 10)%R /\ ls_red c = (1 / 10)%R /\ newton c (fun _ => FVal [1%R]) (fun _ => tt) id_solve always 3 4 [0%R] = Ok q /\
  r_x q = [(- (1 / 100))%R].
Proof.
  eexists. exists (mkConf 1 (1 / 10) 1 false (1 / 1000) None false 1 Residual (99999 / 100000) (1 / 10) (1 / 1000) (1 / 10) false false). split; [reflexivity|]. split; [reflexivity|].
  unfold newton. go. split; [reflexivity|]. cbn. f_equal. lra.
Qed.
(** give_up_warp does not report the condition 2, the solver crashes... *)
Theorem C102_give_up_refuted : exists c, give_up_warp c = true /\
  newton c (fun x => match x with [v] => if Rlt_dec v 5 then FFail else FVal [2%R] | _ => FFail end) (fun _ => tt) id_solve always 3 4 [5%R] = Err NameError.
Proof.
  exists (mkConf 1 (1 / 10) 1 false (1 / 1000) None false 1 Residual (99999 / 100000) (1 / 10) (1 / 1000) (1 / 10) true false). split; [reflexivity|].
  unfold newton. go. reflexivity.
Qed.
(** ... or reports success in a point where the residual cannot be computed. *)
Definition warp_fun (x : vec) : fval := match x with [v] => if Rlt_dec v 4 then FVal [2%R] else if Rlt_dec v 5 then FFail else FVal [2%R] | _ => FFail end.
Theorem C102_stale_refuted : exists c q, give_up_warp c = true /\ newton c warp_fun (fun _ => tt) id_solve always 3 4 [5%R] = Ok q /\ r_cond q = 0 /\ warp_fun (r_x q) = FFail.
Proof.
  exists (mkConf 1 (1 / 10) 1 true (1 / 1000) None false 1 Residual (99999 / 100000) (1 / 10) (1 / 1000) (1 / 10) true false). eexists. split; [reflexivity|].
  split.
  - unfold newton, warp_fun. go. replace (2 / 2)%R with 1%R by lra. go. reflexivity.
  - cbn. split; auto. dec. dec. auto.
Qed.
(** ls_mode 'error' with scaled_error crashes. *)
Theorem C102_scaled_error_refuted : exists c, ls_mode c = ErrorEst /\ scaled_error c = true /\ lin_red c <> None /\
  newton c (fun _ => FVal [1%R]) (fun _ => tt) id_solve always 3 4 [0%R] = Err NameError.
Proof.
  exists (mkConf 1 (1 / 10) 1 false (1 / 1000) (Some 1%R) true 1 ErrorEst (99999 / 100000) (1 / 10) (1 / 1000) (1 / 10) false false). split; [reflexivity|]. split; [reflexivity|]. split; [discriminate|].
  unfold newton. go. reflexivity.
Qed.
Print Assumptions C101_terminates. Print Assumptions C101_status. Print Assumptions C101_first. Print Assumptions C102_steps. Print Assumptions C102_decrease. Print Assumptions C103_linear.
