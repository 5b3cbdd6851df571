(** C117-C119: nodal combinations, ties and averages, LCBCs together with periodic conditions. *)
From Coq Require Import Reals Lra.
From Verif Require Import Base M_nls P_nls M_lagnodes M_lagrange P_lagnodes L_lagrange M_lcbc P_lcbc P_lcbc2.
Set Implicit Arguments.
Open Scope nat_scope.

(** ** C117 *)
(** The solved constraints of a node hold for its DOFs u *)
Definition holds_sol (sol : sol_t) (u : nat -> R) : Prop :=
  forall s, In s sol -> u (fst (fst s)) = (lsum (map (fun c => (snd c * u (fst c))%R) (snd s)) + snd (fst s))%R.
(** distinct dependent DOFs, not used as variables; every other DOF is a variable; all the dependent DOFs that are not
    fixed depend on all the variables *)
Definition uniform (dpn : nat) (sol : sol_t) : Prop :=
  NoDup (map (fun s => fst (fst s)) sol) /\ (forall s, In s sol -> fst (fst s) < dpn /\ ~ In (fst (fst s)) (islaves dpn sol)) /\
  (forall d, d < dpn -> In d (map (fun s => fst (fst s)) sol) \/ In d (islaves dpn sol)) /\
  (forall s, In s sol -> snd s = [] \/ map fst (snd s) = islaves dpn sol).

Lemma dep_ok : forall em es coefs sl, length sl <= length coefs -> dep_entries em es coefs sl = Ok (map (fun k => (em, es + k, nth k coefs 0%R)) (seq 0 (length sl))).
Proof.
  intros em es coefs sl. revert es coefs. induction sl as [|x sl IH]; intros es coefs L; [destruct coefs; reflexivity|]. destruct coefs as [|c coefs]; [cbn [length] in L; lia|]. cbn [dep_entries]. rewrite IH by (cbn [length] in L; lia). cbn [bind length seq map]. rewrite Nat.add_0_r. do 2 f_equal. rewrite <- seq_shift, map_map. apply map_ext. intros k. cbn [nth]. replace (S es + k) with (es + S k) by lia. auto.
Qed.
Lemma islaves_nodup : forall dpn sol, NoDup (islaves dpn sol).
Proof. intros. apply NoDup_filter, seq_NoDup. Qed.
Lemma mapM_exact : forall A B (f : A -> res B) (g : A -> B) l, (forall a, In a l -> f a = Ok (g a)) -> mapM f l = Ok (map g l).
Proof. intros A B f g l. induction l as [|a l IH]; intros H; auto. cbn [mapM map]. rewrite (H a) by (left; auto). cbn [bind]. rewrite IH by (intros; apply H; right; auto). auto. Qed.
Definition dep_list (dpn im n_new : nat) (sol : sol_t) (s : nat * R * list (nat * R)) : list triple :=
  match snd s with [] => [] | _ :: _ => map (fun k => (dpn * im + fst (fst s), n_new + k, nth k (coefs_of s) 0%R)) (seq 0 (length (islaves dpn sol))) end.
Lemma node_ok : forall dpn im n_new sol, uniform dpn sol -> node_entries dpn im n_new sol = Ok (flat_map (dep_list dpn im n_new sol) sol ++ map (fun p => (dpn * im + snd p, n_new + fst p, 1%R)) (enum (islaves dpn sol))).
Proof.
  intros dpn im n_new sol (_ & _ & _ & U). unfold node_entries. rewrite (mapM_exact _ (dep_list dpn im n_new sol)).
  - cbn [bind]. rewrite flat_map_concat_map. auto.
  - intros s I. unfold dep_list. destruct (U s I) as [E|E]; [rewrite E; auto|]. destruct (snd s) as [|c cs] eqn:X; auto. apply dep_ok. rewrite <- E. unfold coefs_of. rewrite app_length, X. rewrite !map_length. lia.
Qed.
Lemma pick_sol : forall (A : Type) (k : A -> nat) (f : A -> R) l s, In s l -> NoDup (map k l) -> (forall s', In s' l -> k s' <> k s -> f s' = 0%R) -> lsum (map f l) = f s.
Proof.
  intros A k f l s I ND H. destruct (in_split _ _ I) as (l1 & l2 & ->). apply lsum_one. intros b B. apply H; [apply in_or_app; destruct B; [left|right; right]; auto|]. intros E. rewrite map_app in ND. cbn [map] in ND. apply NoDup_remove_2 in ND. apply ND. rewrite <- map_app, <- E. apply in_map. apply in_or_app. auto.
Qed.
Section node.
Variables (dpn im n_new : nat) (sol : sol_t).
Hypothesis U : uniform dpn sol.
Definition ents := flat_map (dep_list dpn im n_new sol) sol ++ map (fun p => (dpn * im + snd p, n_new + fst p, 1%R)) (enum (islaves dpn sol)).
Lemma ents_row : forall r c x, In (r, c, x) ents -> exists d, d < dpn /\ r = dpn * im + d.
Proof.
  intros r c x I. destruct U as (_ & B & _). apply in_app_or in I. destruct I as [I|I].
  - apply in_flat_map in I. destruct I as (s & S0 & I). exists (fst (fst s)). split; [apply B; auto|]. unfold dep_list in I. destruct (snd s); [destruct I|]. apply in_map_iff in I. destruct I as (k & E & _). congruence.
  - apply in_map_iff in I. destruct I as ([k d] & E & I). apply in_combine_r in I. apply filter_In in I. destruct I as [I _]. apply in_seq in I. exists d. cbn in E. split; [lia|congruence].
Qed.
Lemma slave_row : forall q k, k < length (islaves dpn sol) -> mulv ents q (dpn * im + nth k (islaves dpn sol) 0) = q (n_new + k).
Proof.
  intros q k K. unfold ents. rewrite mulv_app. rewrite mulv_zero.
  - assert (E : map (fun p : nat * nat => (dpn * im + snd p, n_new + fst p, 1%R)) (enum (islaves dpn sol)) = map (fun j => (dpn * im + nth j (islaves dpn sol) 0, n_new + j, 1%R)) (seq 0 (length (islaves dpn sol)))) by apply (enum_map (fun p : nat * nat => (dpn * im + snd p, n_new + fst p, 1%R)) _ 0).
    rewrite E. rewrite (@mulv_pick (fun j => dpn * im + nth j (islaves dpn sol) 0) (fun j => n_new + j) (fun _ => 1%R) _ q _ k); [lra|apply seq_NoDup|apply in_seq; lia|]. intros j J. apply in_seq in J. split; [|intros ->; auto]. intros X. assert (N := islaves_nodup dpn sol). rewrite (NoDup_nth _ 0) in N. apply N; lia.
  - intros r c x I ->. apply in_flat_map in I. destruct I as (s & S0 & I). destruct U as (_ & B & _). destruct (B s S0) as [B1 B2]. unfold dep_list in I. destruct (snd s); [destruct I|]. apply in_map_iff in I. destruct I as (j & E & _). injection E as E _ _. apply B2. replace (fst (fst s)) with (nth k (islaves dpn sol) 0) by lia. apply nth_In. auto.
Qed.
Lemma dep_row : forall q s, In s sol -> mulv ents q (dpn * im + fst (fst s)) = lsum (map (fun k => (snd (nth k (snd s) (0%nat, 0)) * q (n_new + k)%nat)%R) (seq 0 (length (snd s)))).
Proof.
  intros q s I. unfold ents. destruct U as (N & B & _ & UN). destruct (B s I) as [B1 B2]. rewrite mulv_app. rewrite (mulv_zero (map _ (enum _))).
  - rewrite Rplus_0_r, mulv_flat. rewrite (@pick_sol _ (fun s => fst (fst s)) _ sol s I N).
    + unfold dep_list. destruct (UN s I) as [E|E]; [rewrite E; reflexivity|]. destruct (snd s) as [|c cs] eqn:X; [reflexivity|]. rewrite <- E, map_length. unfold mulv. change (fold_right Rplus 0%R) with lsum. rewrite map_map. cbn [fst snd]. apply lsum_ext. intros k K. apply in_seq in K. rewrite Nat.eqb_refl. f_equal. unfold coefs_of. rewrite X. rewrite app_nth1 by (rewrite map_length; lia). change 0%R with (snd (0, 0%R)) at 1. rewrite map_nth. auto.
    + intros s' I' NE. apply mulv_zero. intros r c x J ->. unfold dep_list in J. destruct (snd s'); [destruct J|]. apply in_map_iff in J. destruct J as (k & E & _). injection E as E _ _. lia.
  - intros r c x J ->. apply in_map_iff in J. destruct J as ([k d] & E & J). cbn in E. injection E as E _ _. apply in_combine_r in J. apply B2. replace (fst (fst s)) with d by lia. auto.
Qed.
Lemma rhs_dep : forall s, In s sol -> nth (fst (fst s)) (node_rhs dpn sol) 0%R = snd (fst s).
Proof.
  intros s I. destruct U as (N & B & _). destruct (B s I) as [B1 B2]. unfold node_rhs. rewrite nth_map_in with (da := 0) by (rewrite seq_length; auto). rewrite seq_nth by auto. cbn [plus]. destruct (find _ sol) as [s'|] eqn:F.
  - apply find_some in F. destruct F as [I' F]. apply Nat.eqb_eq in F. destruct (In_nth _ _ s I) as (a & A & EA). destruct (In_nth _ _ s I') as (b & Bb & EB). rewrite (NoDup_nth _ 0) in N. rewrite map_length in N. specialize (N a b A Bb). rewrite !nth_map_in with (da := s) in N by auto. rewrite EA, EB in N. specialize (N (eq_sym F)). subst b. congruence.
  - apply find_none with (x := s) in F; auto. rewrite Nat.eqb_refl in F. discriminate.
Qed.
Lemma rhs_slave : forall d, In d (islaves dpn sol) -> nth d (node_rhs dpn sol) 0%R = 0%R.
Proof.
  intros d I. destruct U as (N & B & _). assert (D : d < dpn) by (apply filter_In in I; destruct I as [I _]; apply in_seq in I; lia). unfold node_rhs. rewrite nth_map_in with (da := 0) by (rewrite seq_length; auto). rewrite seq_nth by auto. cbn [plus]. destruct (find _ sol) as [s'|] eqn:F; auto. apply find_some in F. destruct F as [I' F]. apply Nat.eqb_eq in F. subst d. destruct (B s' I'). tauto.
Qed.
End node.
Lemma lsum_map_nth : forall A (f : A -> R) l d, lsum (map f l) = lsum (map (fun k => f (nth k l d)) (seq 0 (length l))).
Proof. intros. rewrite <- (map_map (fun k => nth k l d) f). f_equal. f_equal. apply nth_ext with (d := d) (d' := d); [rewrite map_length, seq_length; auto|]. intros k K. rewrite nth_map_in with (da := 0) by (rewrite seq_length; auto). rewrite seq_nth; auto. Qed.
Definition n_before (dpn : nat) (sols : list sol_t) (im : nat) : nat := list_sum (map (fun s => length (islaves dpn s)) (firstn im sols)).
Lemma nodal_ok : forall dpn sols b n0, (forall sol, In sol sols -> uniform dpn sol) ->
  exists M rhs n, nodal_from dpn b n0 sols = Ok (M, rhs, n) /\ length rhs = dpn * length sols /\
  (forall q im d, im < length sols -> d < dpn -> mulv M q (dpn * (b + im) + d) = mulv (ents dpn (b + im) (n0 + n_before dpn sols im) (nth im sols [])) q (dpn * (b + im) + d)) /\
  (forall r c x, In (r, c, x) M -> dpn * b <= r) /\
  (forall im d, im < length sols -> d < dpn -> nth (dpn * im + d) rhs 0%R = nth d (node_rhs dpn (nth im sols [])) 0%R).
Proof.
  intros dpn sols. induction sols as [|sol sols IH]; intros b n0 H.
  - exists [], [], n0. split; auto. split; [cbn; lia|]. split; [intros q im d I; cbn in I; lia|]. split; [intros r c x []|intros im d I; cbn in I; lia].
  - cbn [nodal_from]. assert (US := H sol (or_introl eq_refl)). rewrite node_ok by auto. fold (ents dpn b n0 sol). cbn [bind]. destruct (IH (S b) (n0 + length (islaves dpn sol)) (fun s I => H s (or_intror I))) as (M & rhs & n & E & L & R1 & R2 & R3). rewrite E. cbn [bind fst snd]. exists (ents dpn b n0 sol ++ M), (node_rhs dpn sol ++ rhs), n. split; auto.
    assert (LN : length (node_rhs dpn sol) = dpn) by (unfold node_rhs; rewrite map_length, seq_length; auto). split; [rewrite app_length, L, LN; cbn [length]; lia|]. split; [|split].
    + intros q [|im] d I D.
      * rewrite Nat.add_0_r. rewrite mulv_app. rewrite (mulv_zero M); [cbn [nth]; unfold n_before; cbn [firstn map list_sum fold_right]; change (list_sum []) with 0; rewrite Nat.add_0_r; lra|]. intros r c x J. apply R2 in J. nia.
      * rewrite mulv_app. rewrite (mulv_zero (ents dpn b n0 sol)). { rewrite Rplus_0_l. replace (b + S im) with (S b + im) by lia. rewrite R1 by (cbn in I; lia). cbn [nth]. f_equal. f_equal. unfold n_before. cbn [firstn map]. change (list_sum (?a :: ?l)) with (a + list_sum l). lia. } intros r c x J. destruct (@ents_row _ _ _ _ US _ _ _ J) as (d' & D' & ->). nia.
    + intros r c x J. apply in_app_or in J. destruct J as [J|J]; [destruct (@ents_row _ _ _ _ US _ _ _ J) as (d' & D' & ->); lia|apply R2 in J; nia].
    + intros [|im] d I D; cbn [nth]; [rewrite app_nth1 by lia; f_equal; lia|]. rewrite app_nth2 by nia. rewrite LN. replace (dpn * S im + d - dpn) with (dpn * im + d) by nia. apply R3; auto. cbn in I. lia.
Qed.
(** When all the dependent DOFs depend on all the independent ones, and no DOF is left out, exactly the vectors that
    satisfy the solved constraints in all nodes are representable. *)
Theorem C117_nodal_partial : forall dpn sols, (forall sol, In sol sols -> uniform dpn sol) ->
  exists M rhs n, nodal_combination dpn sols = Ok (M, rhs, n) /\ length rhs = dpn * length sols /\
  forall u, (forall im, im < length sols -> holds_sol (nth im sols []) (fun d => u (dpn * im + d))) <-> exists q, forall i, i < dpn * length sols -> u i = (mulv M q i + nth i rhs 0)%R.
Proof.
  intros dpn sols H. destruct (@nodal_ok dpn sols 0 0 H) as (M & rhs & n & E & L & R1 & _ & R3). exists M, rhs, n. split; auto. split; auto. cbn [plus] in R1.
  assert (US : forall im, im < length sols -> uniform dpn (nth im sols [])) by (intros; apply H, nth_In; auto). intros u. split.
  - intros HS. set (wl := flat_map (fun p => map (fun d => u (dpn * fst p + d)) (islaves dpn (snd p))) (enum sols)). exists (fun c => nth c wl 0%R). intros i I. assert (DN : dpn <> 0) by (intros ->; cbn in I; lia). rewrite (Nat.div_mod i dpn DN). set (im := i / dpn). set (d := i mod dpn). assert (D : d < dpn) by (apply Nat.mod_upper_bound; auto). assert (N : im < length sols) by (apply Nat.div_lt_upper_bound; auto). clearbody im d. rewrite R1, R3 by auto.
    assert (Q : forall k, k < length (islaves dpn (nth im sols [])) -> nth (n_before dpn sols im + k) wl 0%R = u (dpn * im + nth k (islaves dpn (nth im sols [])) 0)).
    { intros k K. assert (SP : sols = firstn im sols ++ nth im sols [] :: skipn (S im) sols) by (clear - N; revert im N; induction sols as [|a l IH]; intros im N; [cbn in N; lia|]; destruct im; auto; cbn [firstn nth skipn app]; f_equal; apply IH; cbn in N; lia).
      unfold wl. rewrite SP at 2. rewrite enum_split. assert (LF : length (firstn im sols) = im) by (rewrite firstn_length; lia). rewrite LF. unfold n_before.
      replace (list_sum (map (fun s => length (islaves dpn s)) (firstn im sols))) with (list_sum (map (fun p => length (map (fun d0 => u (dpn * fst p + d0)) (islaves dpn (snd p)))) (combine (seq 0 im) (firstn im sols)))).
      { rewrite flat_nth by (cbn [fst snd]; rewrite map_length; auto). cbn [fst snd]. rewrite nth_map_in with (da := 0) by auto. auto. }
      f_equal. rewrite <- LF at 1. generalize (firstn im sols) 0. clear. induction l as [|a l IH]; intros b; auto. cbn [length seq combine map fst snd]. rewrite IH, map_length. auto. }
    destruct (US im N) as (_ & _ & CV & UN). destruct (CV d D) as [C|C].
    + apply in_map_iff in C. destruct C as (s & <- & S0). rewrite (@dep_row _ _ _ _ (US im N)) by auto. rewrite (rhs_dep (US im N)) by auto. rewrite (HS im N s S0). f_equal. rewrite (@lsum_map_nth _ _ (snd s) (0, 0%R)). apply lsum_ext. intros k K. apply in_seq in K. f_equal. destruct (UN s S0) as [X|X]; [rewrite X in K; cbn in K; lia|]. rewrite <- X, map_length in Q. rewrite Q by lia. do 2 f_equal. change 0 with (fst (0, 0%R)) at 2. rewrite map_nth. auto.
    + destruct (In_nth _ _ 0 C) as (k & K & <-). rewrite (@slave_row _ _ _ _ (US im N)) by auto. rewrite (rhs_slave (US im N)) by auto. rewrite Q by auto. lra.
  - intros [q Q] im N s S0. destruct (US im N) as (_ & B & _ & UN). destruct (B s S0) as [B1 _]. rewrite Q by nia. rewrite R1, R3 by auto. rewrite (@dep_row _ _ _ _ (US im N)) by auto. rewrite (rhs_dep (US im N)) by auto. f_equal. rewrite (@lsum_map_nth _ _ (snd s) (0, 0%R)). apply lsum_ext. intros k K. apply in_seq in K. f_equal. destruct (UN s S0) as [X|X]; [rewrite X in K; cbn in K; lia|].
    assert (KL : k < length (islaves dpn (nth im sols []))) by (rewrite <- X, map_length; lia). assert (KI := nth_In _ 0 KL). assert (KD : nth k (islaves dpn (nth im sols [])) 0 < dpn) by (apply filter_In in KI; destruct KI as [KI _]; apply in_seq in KI; lia).
    replace (fst (nth k (snd s) (0, 0%R))) with (nth k (islaves dpn (nth im sols [])) 0) by (rewrite <- X; change 0 with (fst (0, 0%R)) at 1; rewrite map_nth; auto). rewrite Q by nia. rewrite R1, R3 by auto. rewrite (@slave_row _ _ _ _ (US im N)), (rhs_slave (US im N)) by auto. lra.
Qed.
(** 2 u0 + u1 - u2 = 4 *)
Example C117_nodal_ex : uniform 3 [(0, 2%R, [(1, (- / 2)%R); (2, (/ 2)%R)])].
Proof. split; [repeat constructor; cbn; lia|]. split; [intros s [<-|[]]; cbn; lia|]. split; [intros d D; destruct d as [|[|[|d]]]; cbn; try lia; auto|]. intros s [<-|[]]. right. auto. Qed.
(** u0 = u2, u1 = u3: the coefficients are paired with wrong independent DOFs: u1 depends on u2. *)
Theorem C117_coefs_refuted : exists sol M rhs n u q, sol = [(0, 0%R, [(2, 1%R)]); (1, 0%R, [(3, 1%R)])] /\ nodal_combination 4 [sol] = Ok (M, rhs, n) /\
  (forall i, i < 4 -> u i = (mulv M q i + nth i rhs 0)%R) /\ ~ holds_sol sol u.
Proof.
  do 4 eexists. exists (fun i => if (i =? 3) then 0%R else 1%R), (fun c => if c =? 0 then 1%R else 0%R). split; [reflexivity|]. split; [reflexivity|]. split.
  - intros i I. unfold mulv. destruct i as [|[|[|[|i]]]]; try lia; cbn; lra.
  - intros H. specialize (H _ (or_intror (or_introl eq_refl))). cbn in H. lra.
Qed.
(** u0 = u1 in a node with three DOFs: the third one is fixed to zero. *)
Theorem C117_left_out_refuted : exists sol M rhs n u, sol = [(0, 0%R, [(1, 1%R)])] /\ nodal_combination 3 [sol] = Ok (M, rhs, n) /\ holds_sol sol u /\ ~ exists q, forall i, i < 3 -> u i = (mulv M q i + nth i rhs 0)%R.
Proof.
  do 4 eexists. exists (fun i => 1%R). split; [reflexivity|]. split; [reflexivity|]. split.
  - intros s [<-|[]]. cbn. lra.
  - intros [q Q]. specialize (Q 2 ltac:(lia)). unfold mulv in Q. cbn in Q. lra.
Qed.

(** ** C118 *)
(** shifted_periodic and match_dofs: every pair of DOFs without essential or periodic conditions is tied, with the shift
    of its DOF. *)
Theorem C118_ties : forall v cv ns meq seq_ shift u, length meq = length seq_ -> (forall s, shift = Some s -> length s = length meq) ->
  (forall a b, a < length meq -> b < length meq -> nth a meq 0%Z = nth b meq 0%Z -> (0 <= nth a meq 0)%Z -> a = b) ->
  satisfies ns (shifted_periodic v cv meq seq_ shift) u <->
  forall k, k < length meq -> (0 <= nth k meq 0)%Z -> (0 <= nth k seq_ 0)%Z ->
    u (start ns v + Z.to_nat (nth k meq 0%Z)) = (u (start ns cv + Z.to_nat (nth k seq_ 0%Z))%nat + match shift with None => 0 | Some s => nth k s 0 end)%R.
Proof.
  intros v cv ns meq seq_ shift u L LS INJ.
  set (ok := fun k => (0 <=? nth k meq 0)%Z && (0 <=? nth k seq_ 0)%Z). set (ks := filter ok (seq 0 (length meq))).
  assert (KS : forall k, In k ks <-> k < length meq /\ (0 <= nth k meq 0)%Z /\ (0 <= nth k seq_ 0)%Z). { intros k. unfold ks. rewrite filter_In, in_seq. unfold ok. rewrite andb_true_iff, !Z.leb_le. split; [intros [A [B C]]|intros [A [B C]]]; repeat split; auto; lia. }
  assert (EP : tie_pairs meq seq_ = map (fun k => (Z.to_nat (nth k meq 0%Z), Z.to_nat (nth k seq_ 0%Z))) ks).
  { unfold tie_pairs. assert (EC : combine meq seq_ = map (fun k => (nth k meq 0%Z, nth k seq_ 0%Z)) (seq 0 (length meq))). { apply nth_ext with (d := (0%Z, 0%Z)) (d' := (0%Z, 0%Z)); [rewrite combine_length, map_length, seq_length; lia|]. intros i I. rewrite combine_length in I. rewrite combine_nth by auto. rewrite nth_map_in with (da := 0) by (rewrite seq_length; lia). rewrite seq_nth by lia. auto. }
    rewrite EC. rewrite map_filter_comm, map_map. auto. }
  assert (ER : forall s, shift = Some s -> tie_rhs meq seq_ s = map (fun k => nth k s 0%R) ks).
  { intros s E. specialize (LS s E). unfold tie_rhs. assert (EC : combine (combine meq seq_) s = map (fun k => (nth k meq 0%Z, nth k seq_ 0%Z, nth k s 0%R)) (seq 0 (length meq))). { apply nth_ext with (d := (0%Z, 0%Z, 0%R)) (d' := (0%Z, 0%Z, 0%R)); [rewrite !combine_length, map_length, seq_length; lia|]. intros i I. rewrite !combine_length in I. rewrite combine_nth by (rewrite combine_length; lia). rewrite combine_nth by auto. rewrite nth_map_in with (da := 0) by (rewrite seq_length; lia). rewrite seq_nth by lia. auto. }
    rewrite EC. rewrite map_filter_comm, map_map. auto. }
  unfold satisfies, shifted_periodic. cbn [op_cvar op_ameq op_mtx op_var]. rewrite EP, !map_map. cbn [fst snd]. rewrite map_length.
  assert (ROW : forall j, j < length ks -> let k := nth j ks 0 in mulv (map (fun k => (Z.to_nat (nth k meq 0%Z), Z.to_nat (nth k seq_ 0%Z), 1%R)) ks) (fun c => u (start ns cv + c)) (Z.to_nat (nth k meq 0%Z)) = u (start ns cv + Z.to_nat (nth k seq_ 0%Z))).
  { intros j J k. assert (KI : In k ks) by (apply nth_In; auto). rewrite (@mulv_pick (fun k => Z.to_nat (nth k meq 0%Z)) (fun k => Z.to_nat (nth k seq_ 0%Z)) (fun _ => 1%R) ks (fun c => u (start ns cv + c)) _ k); auto; [lra|apply NoDup_filter, seq_NoDup|]. intros i I. apply KS in I. apply KS in KI. split; [|intros ->; auto]. intros E. apply INJ; try tauto. lia. }
  assert (RH : forall j, j < length ks -> rhs_at (mkOp v (Some cv) (map (fun k => Z.to_nat (nth k meq 0%Z)) ks) (map (fun k => (Z.to_nat (nth k meq 0%Z), Z.to_nat (nth k seq_ 0%Z), 1%R)) ks) match shift with None => None | Some s => Some (tie_rhs meq seq_ s) end (length (nodup Nat.eq_dec (map (fun k => Z.to_nat (nth k meq 0%Z)) ks))) 0) j = match shift with None => 0%R | Some s => nth (nth j ks 0) s 0%R end).
  { intros j J. unfold rhs_at. cbn [op_rhs]. destruct shift as [s|]; auto. rewrite (ER s eq_refl). rewrite nth_map_in with (da := 0) by auto. auto. }
  split.
  - intros H k K M S0. assert (KI : In k ks) by (apply KS; auto). destruct (In_nth _ _ 0 KI) as (j & J & E). specialize (H j J). rewrite nth_map_in with (da := 0) in H by auto. rewrite (ROW j J), (RH j J) in H. rewrite E in H. auto.
  - intros H j J. rewrite nth_map_in with (da := 0) by auto. rewrite (ROW j J), (RH j J). assert (KI := nth_In ks 0 J). apply KS in KI. apply H; tauto.
Qed.
(** multi_node_combination: the dependent DOFs are the weighted sums of the independent nodes' DOFs. *)
Theorem C118_multi_node : forall dpn meq seq_ smap cons u, 0 < dpn -> NoDup meq -> length meq = dpn * length smap -> (forall row, In row cons -> length row = length (nth 0 cons [])) -> length cons = length smap ->
  forall m d, m < length smap -> d < dpn ->
  mulv (multi_node dpn meq seq_ smap cons) u (nth (dpn * m + d) meq 0) = lsum (map (fun j => (nth j (nth m cons []) 0 * u (nth (dpn * nth j (nth m smap []) 0 + d) seq_ 0%nat)%nat)%R) (seq 0 (length (nth m cons [])))).
Proof.
  intros dpn meq seq_ smap cons u DP ND LM LR LC m d M D. unfold multi_node. rewrite mulv_flat. replace (length (nth m cons [])) with (length (nth 0 cons [])) by (symmetry; apply LR, nth_In; lia). apply lsum_ext. intros j J.
  rewrite mulv_flat. replace (seq 0 (length smap)) with (seq 0 m ++ m :: seq (S m) (length smap - S m)). 2:{ replace (length smap) with (m + S (length smap - S m)) at 2 by lia. rewrite seq_app. auto. }
  rewrite (NoDup_nth meq 0) in ND. match goal with |- lsum (map ?f _) = _ => rewrite (lsum_one f) end.
  - rewrite (@mulv_pick (fun d => nth (dpn * m + d) meq 0) (fun d => nth (dpn * nth j (nth m smap []) 0 + d) seq_ 0) (fun _ => nth j (nth m cons []) 0%R) (seq 0 dpn) u _ d); auto; [apply seq_NoDup|apply in_seq; lia|]. intros e E. apply in_seq in E. split; [|intros ->; auto]. intros X. apply ND in X; nia.
  - intros b B. rewrite !in_seq in B. apply mulv_zero. intros r c x I ->. apply in_map_iff in I. destruct I as (e & E & I). apply in_seq in I. injection E as E _ _. assert (b < length smap) by lia. apply ND in E; [|nia|nia]. destruct (@pos_inj dpn b m e d) as [-> _]; try lia.
Qed.
(** average_force: with X the inverse of sum S^T W S, a common translation of the independent nodes gives that
    translation and no rotation in the dependent one. *)
Theorem C118_average_translation : forall sym dim sp w X t, dim <= sym -> (forall a b, a < sym -> b < sym -> lsum (map (fun c => (avg_IX sym dim sp w a c * X c b)%R) (seq 0 sym)) = delta a b) ->
  forall a, a < sym -> avg_value sym dim sp w X (fun _ i => t i) a = if a <? dim then t a else 0%R.
Proof.
  intros sym dim sp w X t DS INV a A. unfold avg_value. change (fold_right Rplus 0%R) with lsum.
  (* u k i = sum_b S_k[i, b] * tt b with tt = (t, 0), and the rotation rows of S_k tt vanish *)
  set (tt := fun b => if b <? dim then t b else 0%R).
  assert (ST : forall k i, i < sym -> lsum (map (fun b => (avg_S dim (nth k sp []) i b * tt b)%R) (seq 0 sym)) = if i <? dim then t i else 0%R).
  { intros k i I. rewrite (lsum_split_at _ I). rewrite lsum_zero.
    - unfold avg_S, tt, delta. rewrite Nat.eqb_refl. destruct (i <? dim) eqn:E; cbn [andb]; [|lra]. apply Nat.ltb_lt in E. replace (dim <=? i) with false by (symmetry; apply Nat.leb_gt; auto). lra.
    - intros b B. apply filter_In in B. destruct B as [B NE]. apply negb_true_iff, Nat.eqb_neq in NE. unfold tt. destruct (b <? dim) eqn:E; [|lra]. unfold avg_S. apply Nat.ltb_lt in E. replace (dim <=? b) with false by (symmetry; apply Nat.leb_gt; auto). rewrite andb_false_r. unfold delta. replace (i =? b) with false by (symmetry; apply Nat.eqb_neq; lia). lra. }
  transitivity (lsum (map (fun b => (tt b * lsum (map (fun c => (avg_IX sym dim sp w b c * X c a)%R) (seq 0 sym)))%R) (seq 0 sym))).
  2:{ rewrite (lsum_split_at _ A). match goal with |- (_ + lsum (map ?f ?l))%R = _ => rewrite (lsum_zero f l) end; [rewrite INV by auto; unfold delta; rewrite Nat.eqb_refl; unfold tt; lra|]. intros b B. apply filter_In in B. destruct B as [B NE]. apply in_seq in B. apply negb_true_iff in NE. rewrite INV by lia. unfold delta. rewrite NE. lra. }
  transitivity (lsum (map (fun b => lsum (map (fun k => lsum (map (fun i => lsum (map (fun c => (tt b * avg_S dim (nth k sp []) i b * avg_S dim (nth k sp []) i c * w k i * X c a)%R) (seq 0 sym))) (seq 0 sym))) (seq 0 (length sp)))) (seq 0 sym))).
  2:{ apply lsum_ext. intros b _. unfold avg_IX. change (fold_right Rplus 0%R) with lsum. symmetry. rewrite <- lsum_scal.
      rewrite (lsum_ext _ (fun c => lsum (map (fun k => lsum (map (fun i => (tt b * avg_S dim (nth k sp []) i b * avg_S dim (nth k sp []) i c * w k i * X c a)%R) (seq 0 sym))) (seq 0 (length sp))))).
      2:{ intros c _. rewrite Rmult_comm, Rmult_assoc, Rmult_comm. rewrite <- lsum_scal. apply lsum_ext. intros k _. rewrite <- lsum_scal. apply lsum_ext. intros i _. ring. }
      rewrite lsum_swap. apply lsum_ext. intros k _. apply lsum_swap. }
  symmetry. rewrite lsum_swap. apply lsum_ext. intros k _. rewrite lsum_swap. symmetry.
  transitivity (lsum (map (fun i => (lsum (map (fun b => (avg_S dim (nth k sp []) i b * tt b)%R) (seq 0 sym)) * lsum (map (fun c => (avg_S dim (nth k sp []) i c * w k i * X c a)%R) (seq 0 sym)))%R) (seq 0 sym))).
  - match goal with |- _ = lsum (map ?f (seq 0 sym)) => set (F := f) end. replace (seq 0 sym) with (seq 0 (dim + (sym - dim))) by (f_equal; lia). rewrite seq_split_sum. subst F. cbv beta. rewrite (lsum_zero (fun i => (lsum (map (fun b => (avg_S dim (nth k sp []) (dim + i) b * tt b)%R) (seq 0 sym)) * lsum (map (fun c => (avg_S dim (nth k sp []) (dim + i) c * w k (dim + i)%nat * X c a)%R) (seq 0 sym)))%R)).
    + rewrite Rplus_0_r. apply lsum_ext. intros i I. apply in_seq in I. rewrite ST by lia. replace (i <? dim) with true by (symmetry; apply Nat.ltb_lt; lia). unfold avg_mtx. change (fold_right Rplus 0%R) with lsum. ring.
    + intros i I. apply in_seq in I. rewrite ST by lia. replace (dim + i <? dim) with false by (symmetry; apply Nat.ltb_ge; lia). ring.
  - apply lsum_ext. intros i _. rewrite Rmult_comm, <- lsum_scal. apply lsum_ext. intros b _. rewrite Rmult_comm, <- lsum_scal. apply lsum_ext. intros c _. ring.
Qed.
(** A rotation of the independent nodes is halved with the default weights: two nodes (1, 0), (-1, 0), dependent node
    (0, 0), mean length 1. *)
Theorem C118_average_rotation_refuted : exists sp X u, mapM spin [[1; 0]; [-1; 0]]%R = Ok sp /\
  (forall a b, a < 3 -> b < 3 -> lsum (map (fun c => (avg_IX 3 2 sp (avg_weights 2 1) a c * X c b)%R) (seq 0 3)) = delta a b) /\
  (forall k i, k < 2 -> i < 2 -> u k i = motion 2 (fun _ => 0%R) (rotmat 2 (fun _ => 1%R)) (nth k [[1; 0]; [-1; 0]]%R []) i) /\
  avg_value 3 2 sp (avg_weights 2 1) X u 2 = (/ 2)%R.
Proof.
  eexists. exists (fun a b => if a =? b then if a =? 2 then (/ 4)%R else (/ 2)%R else 0%R), (fun k i => motion 2 (fun _ => 0%R) (rotmat 2 (fun _ => 1%R)) (nth k [[1; 0]; [-1; 0]]%R []) i). split; [reflexivity|]. split; [|split; [auto|]].
  - intros a b A B. destruct a as [|[|[|a]]]; try lia; destruct b as [|[|[|b]]]; try lia; cbv [avg_IX avg_S avg_weights delta]; cbn; field.
  - cbv [avg_value avg_mtx avg_S avg_weights delta motion]; cbn; field.
Qed.
(** the version without rotations: the default weights have a wrong shape *)
Theorem C118_average_simple_refuted : forall dim, 2 <= dim -> avg_simple_ok dim (dim2sym dim) = false.
Proof.
  intros dim D. unfold avg_simple_ok, dim2sym. assert (3 <= dim * (dim + 1) / 2 /\ dim < dim * (dim + 1) / 2) as [A B]. { destruct dim as [|[|d]]; try lia. replace (S (S d) * (S (S d) + 1)) with (3 * 2 + (d * (d + 5))) by nia. split; [apply Nat.div_le_lower_bound; lia|]. apply Nat.lt_le_trans with ((S (S d) + 1)); [lia|]. apply Nat.div_le_lower_bound; nia. }
  apply orb_false_iff. split; [apply orb_false_iff; split|]; apply Nat.eqb_neq; lia.
Qed.

(** ** C119: linear combination and periodic conditions in one region *)
(** Without periodic (master) DOFs in the region, the operator is kept. *)
Theorem C119_none_partial : forall dofs master op, (forall d, In d dofs -> ~ In d master) -> treat_pbcs dofs master op = op.
Proof.
  intros dofs master op H. unfold treat_pbcs. destruct (filter _ (nodup Nat.eq_dec dofs)) as [|d l] eqn:E; auto. exfalso. assert (I : In d (filter (fun d => existsb (Nat.eqb d) master) (nodup Nat.eq_dec dofs))) by (rewrite E; left; auto). apply filter_In in I. destruct I as [I J]. apply nodup_In in I. apply existsb_exists in J. destruct J as (m & M & X). apply Nat.eqb_eq in X. subst m. apply (H d); auto.
Qed.
(** With a master DOF in the region, and all the equations of the region distinct (no DOF there is its slave), the global
    operator cannot be built. *)
Theorem C119_master_refuted : forall n dofs master op, wf_op [n] [op] op -> op_var op = 0 -> length (op_ameq op) = length dofs -> NoDup dofs -> (exists d, In d dofs /\ In d master) ->
  make_global [n] [treat_pbcs dofs master op] = Err ValueError.
Proof.
  intros n dofs master op WF V0 LD ND (d & DD & DM). destruct WF as (_ & NA & BA & _).
  assert (EQ : exists M, treat_pbcs dofs master op = mkOp (op_var op) (op_cvar op) (op_ameq op) M (op_rhs op) (length (filter (fun k => negb (existsb (Nat.eqb k) (map (searchsorted dofs) (filter (fun d => existsb (Nat.eqb d) master) (nodup Nat.eq_dec dofs))))) (seq 0 (length dofs)))) (op_new op)).
  { unfold treat_pbcs. assert (I : In d (filter (fun d => existsb (Nat.eqb d) master) (nodup Nat.eq_dec dofs))). { apply filter_In. split; [apply nodup_In; auto|]. apply existsb_exists. exists d. split; auto. apply Nat.eqb_refl. }
    destruct (filter _ (nodup Nat.eq_dec dofs)) as [|d0 l] eqn:E; [destruct I|]. eexists. reflexivity. }
  destruct EQ as [M ->]. set (ms := filter _ (nodup Nat.eq_dec dofs)). set (keep := filter _ (seq 0 (length dofs))).
  assert (LK : length keep < length dofs).
  { assert (IM : In d ms). { apply filter_In. split; [apply nodup_In; auto|]. apply existsb_exists. exists d. split; auto. apply Nat.eqb_refl. }
    assert (SD : searchsorted dofs d < length dofs). { unfold searchsorted. clear - DD. assert (G : forall l, length (filter (fun y => y <? d) l) <= length l) by (induction l as [|y l IH]; cbn [filter length]; [lia|destruct (y <? d); cbn [length]; lia]). induction dofs as [|y l IH]; [destruct DD|]. cbn [filter]. destruct (y <? d) eqn:E; cbn [length]; [|specialize (G l); lia]. apply Nat.ltb_lt in E. destruct DD as [->|DD]; [lia|]. specialize (IH DD). lia. }
    assert (NK : ~ In (searchsorted dofs d) keep). { intros I. apply filter_In in I. destruct I as [_ I]. apply negb_true_iff in I. assert (T : existsb (Nat.eqb (searchsorted dofs d)) (map (searchsorted dofs) ms) = true); [|rewrite I in T; discriminate]. apply existsb_exists. exists (searchsorted dofs d). split; [apply in_map; auto|apply Nat.eqb_refl]. }
    rewrite <- (seq_length (length dofs) 0). assert (L : length (searchsorted dofs d :: keep) <= length (seq 0 (length dofs))); [|cbn in L; lia]. apply NoDup_incl_length; [constructor; auto; apply NoDup_filter, seq_NoDup|]. intros x [<-|I]; [apply in_seq; lia|apply filter_In in I; tauto]. }
  set (op' := mkOp _ _ _ _ _ _ _). unfold make_global. destruct (existsb _ _) eqn:X; auto. assert (LL : negb (length (filter (mask [n] [op']) (seq 0 (list_sum [n]))) =? length (flat_map (fun v => map (fun i => start (actives [n] [op']) v + i) (seq 0 (n_free [n] [op'] v))) (seq 0 (length [n])))) = true); [|rewrite LL; auto].
  apply negb_true_iff, Nat.eqb_neq. cbn [length seq flat_map]. rewrite app_nil_r, map_length, seq_length. change (list_sum [n]) with (n + 0). rewrite Nat.add_0_r. unfold n_free, n_master, of_var. cbn [filter op' op_var]. rewrite V0. cbn [Nat.eqb map op_nm nth]. change (list_sum [op_nm op']) with (length keep + 0). rewrite Nat.add_0_r.
  assert (CF := @count_filter (op_ameq op) (mask [n] [op']) n). rewrite nodup_fixed_point in CF by auto. rewrite V0 in BA. cbn [nth] in BA.
  assert (BL : length (op_ameq op) <= n). { rewrite <- (seq_length n 0). apply NoDup_incl_length; auto. intros e E. apply in_seq. specialize (BA e E). lia. }
  rewrite <- LD in LK. assert (length (filter (mask [n] [op']) (seq 0 n)) + length (op_ameq op) = n); [|lia]. apply CF; auto. intros e E. unfold mask. cbn [existsb]. rewrite orb_false_r, negb_false_iff. rewrite existsb_exists. unfold irs. cbn [op' op_var op_ameq]. rewrite V0. unfold start. cbn [firstn list_sum fold_right]. change (list_sum []) with 0. rewrite (map_ext _ (fun e => e)) by auto. rewrite map_id. split.
  - intros (x & I & Y). apply Nat.eqb_eq in Y. subst. auto.
  - intros I. exists e. split; auto. apply Nat.eqb_refl.
Qed.
(** With both the master and the slave nodes in the region, the rows are assigned to wrong DOFs: normal direction in three
    nodes, the first a master of the third (equal normals). The second node moves along its neighbours' normal. *)
Theorem C119_both_refuted : exists op M vec n u q, op = treat_pbcs [0; 1; 2; 3; 4; 5] [0; 1] (mkOp 0 None [0; 1; 2; 3; 0; 1] (normal_direction 2 [[1; 0]; [0; 1]; [1; 0]]%R) None 6 3) /\
  make_global [4] [op] = Ok (M, vec, n) /\ (forall i, i < 4 -> u i = (mulv M q i + vec i)%R) /\ u 2 = 1%R /\ u 3 = 0%R.
Proof.
  do 4 eexists. exists (fun i => if i =? 2 then 1%R else 0%R), (fun c => if c =? 1 then 1%R else 0%R). split; [reflexivity|]. split; [reflexivity|]. split; [|auto].
  intros i I. unfold mulv. destruct i as [|[|[|[|i]]]]; try lia; cbn; lra.
Qed.
(** The removed columns are still counted: a column without entries, a singular reduced matrix. *)
Theorem C119_column_refuted : exists op M vec n c, op = treat_pbcs [0; 1; 2; 3; 4; 5] [0; 1] (mkOp 0 None [0; 1; 2; 3; 0; 1] (normal_direction 2 [[1; 0]; [0; 1]; [1; 0]]%R) None 6 3) /\
  make_global [4] [op] = Ok (M, vec, n) /\ c < n /\ forall r x, ~ In (r, c, x) M.
Proof.
  do 4 eexists. exists 2. split; [reflexivity|]. split; [reflexivity|]. split; [cbn; lia|]. intros r x I. cbn in I. repeat (destruct I as [I|I]; [discriminate I|]). destruct I.
Qed.
Print Assumptions C114_global.
Print Assumptions C117_nodal_partial.
Print Assumptions C119_master_refuted.
