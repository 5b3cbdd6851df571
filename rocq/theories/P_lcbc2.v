(** C115, C116: model reduction operators; C114: example and a refutation. *)
From Coq Require Import Reals Lra.
From Verif Require Import Base M_nls P_nls M_lagnodes M_lagrange P_lagnodes L_lagrange M_lcbc P_lcbc.
Set Implicit Arguments.
Open Scope nat_scope.

(** ** C114 *)
(** two variables with 3 and 2 DOFs; the first two DOFs of the first are equal, the second is tied to the first DOF of
    the other with a shift *)
Definition ex_ops : list lcop := [mkOp 0 None [0; 1] (integral_mean_value 2) None 2 1; shifted_periodic 1 0 [0; -1]%Z [2; 1]%Z (Some [5; 7]%R)].
Example ex_wf : forall op, In op ex_ops -> wf_op [3; 2] ex_ops op.
Proof.
  intros op [<-|[<-|[]]]; unfold wf_op; cbn.
  - split; [lia|]. split; [repeat constructor; cbn; lia|]. split; [intros e [<-|[<-|[]]]; lia|]. split; auto. split; [discriminate|]. intros r c x [E|[E|[]]]; injection E as <- <- _; lia.
  - split; [lia|]. split; [repeat constructor; cbn; lia|]. split; [intros e [<-|[]]; lia|]. split; auto. split; [intros r E; injection E as <-; auto|]. split; auto. split; [lia|]. intros r c x [E|[]]. injection E as <- <- _. split; [left; auto|]. split; [lia|]. intros op2 [<-|[<-|[]]]; cbn; intros; try discriminate. lia.
Qed.
Example ex_global : make_global [3; 2] ex_ops = Ok ([(0, 1, 1%R); (1, 1, 1%R); (3, 0, 1%R); (2, 0, 1%R); (4, 2, 1%R)], fold_left (add_rhs [3; 2]) ex_ops (fun _ => 0%R), 3).
Proof. reflexivity. Qed.
(** A tie whose independent DOF is constrained by another operator: accepted, and tied to a wrong DOF. Variables checks
    only regions[0] and regions[1] of the conditions, not the second region of rigid_twist. Nodes 0, 1 form a twist pair
    (2D), node 2 is tied to node 1, node 3 is free. *)
Theorem C114_tie_refuted : exists ops M vec n u v, make_global [8] ops = Ok (M, vec, n) /\
  (exists rows, rigid_twist 2 [[0; 0]]%R [[1; 0]]%R [0; 0]%R [1]%R 0%R = Ok rows /\ ops = [mkOp 0 None [0; 1; 2; 3] (dense rows) None 4 4; shifted_periodic 0 0 [4; 5]%Z [2; 3]%Z None]) /\
  (forall i, i < 8 -> u i = (mulv M v i + vec i)%R) /\ ~ (forall op, In op ops -> satisfies [8] op u).
Proof.
  destruct (rigid_twist 2 [[0; 0]]%R [[1; 0]]%R [0; 0]%R [1]%R 0%R) as [rows|] eqn:ER; [|discriminate].
  exists [mkOp 0 None [0; 1; 2; 3] (dense rows) None 4 4; mkOp 0 (Some 0) [4; 5] [(4, 2, 1%R); (5, 3, 1%R)] None 2 0].
  do 3 eexists. exists (fun i => if (i =? 4) || (i =? 5) || (i =? 6) then 1%R else 0%R), (fun c => if c =? 0 then 1%R else 0%R). split; [|split; [exists rows; split; reflexivity|split]].
  - reflexivity.
  - intros i I. cbv [rigid_twist mapM twist_block spin vsub map combine fst snd hstack eye seq concat app Nat.eqb bind] in ER. injection ER as <-. unfold mulv, dense. do 8 (destruct i as [|i]; [cbn; first [ring|lra]|]). lia.
  - intros H. specialize (H _ (or_intror (or_introl eq_refl))). unfold satisfies in H. cbn in H. specialize (H 0 ltac:(cbn; lia)). unfold rhs_at, mulv in H. cbn in H. lra.
Qed.

(** ** Products with dense and structured matrices *)
Lemma mulv_dense : forall rows q i, i < length rows -> mulv (dense rows) q i = lsum (map (fun j => (nth j (nth i rows []) 0 * q j)%R) (seq 0 (length (nth i rows [])))).
Proof.
  intros rows q i I. unfold dense. rewrite mulv_flat. replace (seq 0 (length rows)) with (seq 0 i ++ i :: seq (S i) (length rows - S i)). 2:{ replace (length rows) with (i + S (length rows - S i)) at 2 by lia. rewrite seq_app. auto. }
  rewrite (lsum_one (fun a => mulv (map (fun j => (a, j, nth j (nth a rows []) 0%R)) (seq 0 (length (nth a rows [])))) q i)).
  - unfold mulv. change (fold_right Rplus 0%R) with lsum. rewrite map_map. f_equal. apply map_ext. intros j. cbn [fst snd]. rewrite Nat.eqb_refl. auto.
  - intros b B. rewrite !in_seq in B. apply mulv_zero. intros r c x J ->. apply in_map_iff in J. destruct J as (j & E & _). injection E as E _ _. lia.
Qed.
(** entries with one row for each k of an injective indexing *)
Lemma mulv_pick : forall (f c : nat -> nat) (x : nat -> R) ks q i k, NoDup ks -> In k ks -> (forall j, In j ks -> (f j = i <-> j = k)) -> mulv (map (fun j => (f j, c j, x j)) ks) q i = (x k * q (c k))%R.
Proof.
  intros f c x ks q i k ND K H. destruct (in_split _ _ K) as (l1 & l2 & ->). unfold mulv. change (fold_right Rplus 0%R) with lsum. rewrite map_map. cbn [fst snd]. rewrite (lsum_one (fun j => if f j =? i then (x j * q (c j))%R else 0%R)).
  - replace (f k =? i) with true by (symmetry; apply Nat.eqb_eq; apply H; auto). auto.
  - intros b B. assert (BI : In b (l1 ++ k :: l2)) by (apply in_or_app; destruct B; [left|right; right]; auto). destruct (f b =? i) eqn:E; auto. apply Nat.eqb_eq in E. apply H in E; auto. subst b. apply NoDup_remove_2 in ND. exfalso. apply ND. apply in_or_app. auto.
Qed.
Lemma pos_inj : forall dim n m d e, d < dim -> e < dim -> dim * n + d = dim * m + e -> n = m /\ d = e.
Proof. intros dim n m d e D E H. assert (n = m) by nia. subst. split; auto. lia. Qed.

(** ** C115: constraints of single nodes *)
(** argmax of absolute values *)
Lemma argmax_spec : forall l pre best, best < length pre -> (forall j, j < length pre -> (Rabs (nth j pre 0) <= Rabs (nth best pre 0))%R) ->
  argmax_abs best (Rabs (nth best pre 0%R)) (length pre) l < length (pre ++ l) /\ (forall j, j < length (pre ++ l) -> (Rabs (nth j (pre ++ l) 0) <= Rabs (nth (argmax_abs best (Rabs (nth best pre 0%R)) (length pre) l) (pre ++ l) 0))%R).
Proof.
  induction l as [|x l IH]; intros pre best B H; cbn [argmax_abs].
  - rewrite app_nil_r. auto.
  - assert (E : pre ++ x :: l = (pre ++ [x]) ++ l) by (rewrite <- app_assoc; auto). rewrite E. replace (S (length pre)) with (length (pre ++ [x])) by (rewrite app_length; cbn; lia).
    destruct (Rltb _ _) eqn:L.
    + apply Rltb_true in L. replace (Rabs x) with (Rabs (nth (length pre) (pre ++ [x]) 0%R)) by (rewrite app_nth2, Nat.sub_diag by lia; auto). apply IH; [rewrite app_length; cbn; lia|]. intros j J. rewrite app_length in J. cbn in J. rewrite (app_nth2 pre [x]) with (n := length pre) by lia. rewrite Nat.sub_diag. cbn [nth]. destruct (Nat.eq_dec j (length pre)) as [->|NJ]; [rewrite app_nth2, Nat.sub_diag by lia; cbn; lra|]. rewrite app_nth1 by lia. specialize (H j ltac:(lia)). lra.
    + apply Rltb_false in L. replace (nth best pre 0%R) with (nth best (pre ++ [x]) 0%R) by (rewrite app_nth1 by lia; auto). apply IH; [rewrite app_length; cbn; lia|]. intros j J. rewrite app_length in J. cbn in J. rewrite (app_nth1 pre [x]) with (n := best) by lia. destruct (Nat.eq_dec j (length pre)) as [->|NJ]; [rewrite app_nth2, Nat.sub_diag by lia; cbn; lra|]. rewrite app_nth1 by lia. apply H. lia.
Qed.
Lemma argmax_lt : forall l, 0 < length l -> argmax l < length l.
Proof. intros [|x l] L; [cbn in L; lia|]. apply (@argmax_spec l [x] 0); cbn; [lia|]. intros [|j] J; [lra|lia]. Qed.
Lemma argmax_max : forall l j, j < length l -> (Rabs (nth j l 0) <= Rabs (nth (argmax l) l 0))%R.
Proof. intros [|x l] j L; [cbn in L; lia|]. apply (@argmax_spec l [x] 0); auto. cbn. intros [|k] J; [lra|lia]. Qed.
Lemma argmax_nz : forall l, (exists x, In x l /\ x <> 0%R) -> nth (argmax l) l 0%R <> 0%R.
Proof. intros l (x & I & X). destruct (In_nth _ _ 0%R I) as (j & J & <-). assert (M := argmax_max l J). intros E. rewrite E, Rabs_R0 in M. apply X. assert (P := Rabs_pos (nth j l 0%R)). destruct (Req_dec (nth j l 0%R) 0%R) as [Z|Z]; auto. apply Rabs_no_R0 in Z. lra. Qed.
Lemma lsum_split_at : forall (f : nat -> R) a n, a < n -> lsum (map f (seq 0 n)) = (f a + lsum (map f (filter (fun k => negb (k =? a)) (seq 0 n))))%R.
Proof.
  intros f a n A. assert (G : forall l, (In a l -> NoDup l -> lsum (map f l) = (f a + lsum (map f (filter (fun k => negb (k =? a)) l)))%R) /\ (~ In a l -> lsum (map f l) = lsum (map f (filter (fun k => negb (k =? a)) l)))).
  { induction l as [|x l [IH1 IH2]]; [split; [intros []|auto]|]. split.
    - intros I N. inversion N; subst. cbn [filter map]. destruct (x =? a) eqn:E; cbn [negb].
      + apply Nat.eqb_eq in E. subst x. rewrite lsum_cons, IH2 by auto. auto.
      + apply Nat.eqb_neq in E. destruct I as [I|I]; [congruence|]. cbn [map]. rewrite !lsum_cons, IH1 by auto. lra.
    - intros I. cbn [filter map]. destruct (x =? a) eqn:E; cbn [negb]; [apply Nat.eqb_eq in E; subst; exfalso; apply I; left; auto|]. cbn [map]. rewrite !lsum_cons, IH2; auto. intros J; apply I; right; auto. }
  apply G; [apply in_seq; lia|apply seq_NoDup].
Qed.
Lemma enum_map : forall A B (g : nat * A -> B) l d, map g (enum l) = map (fun k => g (k, nth k l d)) (seq 0 (length l)).
Proof.
  intros A B g l d. unfold enum. assert (G : forall b, map g (combine (seq b (length l)) l) = map (fun k => g (b + k, nth k l d)) (seq 0 (length l))).
  { induction l as [|x l IH]; intros b; auto. cbn [length seq combine map]. rewrite Nat.add_0_r. f_equal. rewrite IH. rewrite <- seq_shift, map_map. apply map_ext. intros k. cbn [nth]. do 2 f_equal. lia. }
  rewrite G. auto.
Qed.
Lemma lsum_nth : forall (f : nat -> R) l, lsum (map f l) = lsum (map (fun k => f (nth k l 0)) (seq 0 (length l))).
Proof. intros. rewrite <- (map_map (fun k => nth k l 0) f). f_equal. f_equal. apply nth_ext with (d := 0) (d' := 0); [rewrite map_length, seq_length; auto|]. intros k K. rewrite nth_map_in with (da := 0) by (rewrite seq_length; auto). rewrite seq_nth; auto. Qed.
Lemma mulv_rows0 : forall dim idim r (c : nat -> nat) (x : nat -> R) ks q n d, r < dim -> d < dim -> (~ In n ks \/ r <> d) -> idim < dim -> mulv (map (fun m => (dim * m + r, c m, x m)) ks) q (dim * n + d) = 0%R.
Proof. intros dim idim r c x ks q n d R0 D H _. apply mulv_zero. intros r' c' x' I ->. apply in_map_iff in I. destruct I as (m & E & I). injection E as E _ _. destruct (@pos_inj dim m n r d R0 D E) as [-> ->]. destruct H; auto. Qed.
(** the row of the component d of node n *)
Lemma no_pen_row : forall dim normals q n d, n < length normals -> d < dim -> length (nth n normals []) = dim ->
  let nv := nth n normals [] in let a := argmax nv in let ir := filter (fun k => negb (k =? a)) (seq 0 dim) in
  mulv (no_penetration dim normals) q (dim * n + d) =
  if d =? a then lsum (map (fun k => (- nth (nth k ir 0%nat) nv 0 / nth a nv 0 * q ((dim - 1) * n + k)%nat)%R) (seq 0 (length ir)))
  else lsum (map (fun k => if nth k ir 0 =? d then q ((dim - 1) * n + k) else 0%R) (seq 0 (length ir))).
Proof.
  intros dim normals q n d N D LN nv a ir. assert (A : a < dim) by (unfold a, nv; rewrite <- LN; apply argmax_lt; lia). unfold no_penetration. rewrite mulv_flat.
  replace (seq 0 dim) with (seq 0 a ++ a :: seq (S a) (dim - S a)) at 1. 2:{ replace dim with (a + S (dim - S a)) at 2 by lia. rewrite seq_app. auto. }
  match goal with |- lsum (map ?f _) = _ => rewrite (lsum_one f) end.
  - fold ir. set (ic := filter (fun n0 => argmax (nth n0 normals []) =? a) (seq 0 (length normals))). assert (IC : In n ic) by (apply filter_In; split; [apply in_seq; lia|apply Nat.eqb_refl]). assert (NC : NoDup ic) by apply NoDup_filter, seq_NoDup.
    rewrite mulv_app, !mulv_flat. rewrite !(enum_map _ _ 0). cbn [fst snd].
    assert (IB : forall k, k < length ir -> nth k ir 0 < dim /\ nth k ir 0 <> a). { intros k K. assert (I := nth_In ir 0 K). apply filter_In in I. destruct I as [I J]. apply in_seq in I. apply negb_true_iff, Nat.eqb_neq in J. lia. }
    destruct (d =? a) eqn:E.
    + apply Nat.eqb_eq in E. rewrite (lsum_zero (fun k => mulv (map (fun n0 => (dim * n0 + nth k ir 0, (dim - 1) * n0 + k, 1%R)) ic) q (dim * n + d))).
      2:{ intros k K. apply in_seq in K. destruct (IB k ltac:(lia)). apply mulv_rows0 with (idim := a); auto. right. lia. }
      rewrite Rplus_0_r. apply lsum_ext. intros k K. rewrite (@mulv_pick (fun n0 => dim * n0 + a) (fun n0 => (dim - 1) * n0 + k) (fun n0 => (- nth (nth k ir 0%nat) (nth n0 normals []) 0 / nth a (nth n0 normals []) 0)%R) ic q (dim * n + d) n); auto. intros j _. rewrite E. nia.
    + apply Nat.eqb_neq in E. rewrite (lsum_zero (fun k => mulv (map (fun n0 => (dim * n0 + a, (dim - 1) * n0 + k, (- nth (nth k ir 0%nat) (nth n0 normals []) 0 / nth a (nth n0 normals []) 0)%R)) ic) q (dim * n + d))).
      2:{ intros k K. apply mulv_rows0 with (idim := a); auto. }
      rewrite Rplus_0_l. apply lsum_ext. intros k K. apply in_seq in K. destruct (IB k ltac:(lia)) as [KB _]. destruct (nth k ir 0 =? d) eqn:F.
      * apply Nat.eqb_eq in F. rewrite (@mulv_pick (fun n0 => dim * n0 + nth k ir 0) (fun n0 => (dim - 1) * n0 + k) (fun _ => 1%R) ic q (dim * n + d) n); auto; [lra|]. intros j _. rewrite F. nia.
      * apply Nat.eqb_neq in F. apply mulv_rows0 with (idim := a); auto.
  - intros b B. rewrite !in_seq in B. apply mulv_zero. intros r c x I ->. apply in_app_or in I. destruct I as [I|I]; apply in_flat_map in I; destruct I as ([k e] & KE & I); cbn [fst snd] in I; apply in_map_iff in I; destruct I as (m & E & I); injection E as E _ _; apply filter_In in I; destruct I as [_ I]; apply Nat.eqb_eq in I.
    + destruct (@pos_inj dim m n b d ltac:(lia) D E) as [-> _]. fold nv in I. fold a in I. lia.
    + apply in_combine_r in KE. apply filter_In in KE. destruct KE as [KE _]. apply in_seq in KE. destruct (@pos_inj dim m n e d ltac:(lia) D E) as [-> _]. fold nv in I. fold a in I. lia.
Qed.
(** The vectors M q are exactly those whose node vectors are orthogonal to the normals. *)
Theorem C115_no_penetration : forall dim normals, (forall nv, In nv normals -> length nv = dim /\ exists x, In x nv /\ x <> 0%R) ->
  forall u, (forall n, n < length normals -> lsum (map (fun d => (u (dim * n + d)%nat * nth d (nth n normals []) 0)%R) (seq 0 dim)) = 0%R) <->
  exists q, forall i, i < dim * length normals -> u i = mulv (no_penetration dim normals) q i.
Proof.
  intros dim normals H u. split.
  - intros ORT. exists (fun c => let n := c / (dim - 1) in let k := c mod (dim - 1) in u (dim * n + nth k (filter (fun k => negb (k =? argmax (nth n normals []))) (seq 0 dim)) 0)). intros i I.
    assert (DN : dim <> 0) by (intros ->; cbn in I; lia). set (n := i / dim). set (d := i mod dim). assert (D : d < dim) by (apply Nat.mod_upper_bound; auto). assert (EI : i = dim * n + d) by (apply Nat.div_mod; auto). assert (N : n < length normals) by (apply Nat.div_lt_upper_bound; auto).
    clearbody n d. subst i. destruct (H (nth n normals []) (nth_In _ _ N)) as [LN NZ]. rewrite (@no_pen_row dim normals _ n d N D LN). set (nv := nth n normals []) in *. set (a := argmax nv). assert (A : a < dim) by (unfold a; rewrite <- LN; apply argmax_lt; lia). set (ir := filter (fun k => negb (k =? a)) (seq 0 dim)).
    assert (LI : length ir = dim - 1). { assert (C := @count_filter [a] (fun k => negb (k =? a)) dim). cbn [nodup in_dec length] in C. fold ir in C. assert (C' : length ir + 1 = dim); [|lia]. apply C; [intros e [<-|[]]; auto|]. intros e E. rewrite negb_false_iff, Nat.eqb_eq. split; [intros ->; left; auto|intros [<-|[]]; auto]. }
    assert (NZA : nth a nv 0%R <> 0%R) by (apply argmax_nz; auto).
    assert (QE : forall k, k < length ir -> (let n0 := ((dim - 1) * n + k) / (dim - 1) in let k0 := ((dim - 1) * n + k) mod (dim - 1) in u (dim * n0 + nth k0 (filter (fun k => negb (k =? argmax (nth n0 normals []))) (seq 0 dim)) 0)) = u (dim * n + nth k ir 0)).
    { intros k K. rewrite LI in K. cbv zeta. rewrite (Nat.mul_comm (dim - 1) n), Nat.div_add_l by lia. rewrite Nat.div_small by lia. rewrite Nat.add_comm with (n := n * (dim - 1)), Nat.mod_add by lia. rewrite Nat.mod_small by lia. rewrite Nat.add_0_r. auto. }
    destruct (d =? a) eqn:E.
    + apply Nat.eqb_eq in E. subst d. rewrite (lsum_ext _ (fun k => (- / nth a nv 0 * (u (dim * n + nth k ir 0%nat)%nat * nth (nth k ir 0%nat) nv 0))%R)). 2:{ intros k K. apply in_seq in K. rewrite QE by lia. unfold Rdiv. ring. }
      rewrite lsum_scal. rewrite <- (lsum_nth (fun e => (u (dim * n + e)%nat * nth e nv 0)%R)). specialize (ORT n N). rewrite (lsum_split_at _ A) in ORT. fold ir nv in ORT. set (s := lsum _) in *. replace s with (- (u (dim * n + a)%nat * nth a nv 0))%R by lra. field. auto.
    + apply Nat.eqb_neq in E. assert (ID : In d ir) by (apply filter_In; split; [apply in_seq; lia|]; apply negb_true_iff, Nat.eqb_neq; auto). destruct (In_nth _ _ 0 ID) as (k & K & EK). replace (seq 0 (length ir)) with (seq 0 k ++ k :: seq (S k) (length ir - S k)). 2:{ replace (length ir) with (k + S (length ir - S k)) at 2 by lia. rewrite seq_app. auto. }
      match goal with |- _ = lsum (map ?f _) => rewrite (lsum_one f) end; [rewrite EK, Nat.eqb_refl, QE by auto; rewrite EK; auto|]. intros b B. rewrite !in_seq in B. destruct (nth b ir 0 =? d) eqn:F; auto. apply Nat.eqb_eq in F. exfalso. assert (ND : NoDup ir) by apply NoDup_filter, seq_NoDup. rewrite NoDup_nth in ND. assert (b = k) by (apply ND; [lia|lia|rewrite F, EK; auto]). lia.
  - intros [q Q] n N. destruct (H (nth n normals []) (nth_In _ _ N)) as [LN NZ]. set (nv := nth n normals []) in *. assert (LP : 0 < dim) by (destruct NZ as (x & X & _); rewrite <- LN; destruct nv; [destruct X|cbn; lia]).
    set (a := argmax nv). assert (A : a < dim) by (unfold a; rewrite <- LN; apply argmax_lt; lia). assert (NZA : nth a nv 0%R <> 0%R) by (apply argmax_nz; auto).
    assert (B : forall d, d < dim -> dim * n + d < dim * length normals) by (intros; nia). rewrite (lsum_split_at _ A). rewrite Q by auto. rewrite (@no_pen_row dim normals q n a N A LN). fold nv. fold a. rewrite Nat.eqb_refl. set (ir := filter (fun k => negb (k =? a)) (seq 0 dim)).
    rewrite (lsum_nth _ ir). rewrite (lsum_ext (fun k => (- nth (nth k ir 0%nat) nv 0 / nth a nv 0 * q ((dim - 1) * n + k)%nat)%R) (fun k => (- / nth a nv 0 * (u (dim * n + nth k ir 0%nat)%nat * nth (nth k ir 0%nat) nv 0))%R)); [rewrite lsum_scal; field; auto|].
    intros k K. apply in_seq in K. assert (I := nth_In ir 0 (proj2 K)). apply filter_In in I. destruct I as [I J]. apply in_seq in I. rewrite Q by (apply B; lia). rewrite (@no_pen_row dim normals q n (nth k ir 0) N ltac:(lia) LN). fold nv. fold a. fold ir. apply negb_true_iff in J. rewrite J.
    replace (seq 0 (length ir)) with (seq 0 k ++ k :: seq (S k) (length ir - S k)). 2:{ replace (length ir) with (k + S (length ir - S k)) at 2 by lia. rewrite seq_app. auto. }
    match goal with |- _ = (_ * (lsum (map ?f _) * _))%R => rewrite (lsum_one f) end; [rewrite Nat.eqb_refl; field; auto|]. intros b BB. rewrite !in_seq in BB. destruct (nth b ir 0 =? nth k ir 0) eqn:F; auto. apply Nat.eqb_eq in F. exfalso. assert (ND : NoDup ir) by apply NoDup_filter, seq_NoDup. rewrite (NoDup_nth ir 0) in ND. assert (b = k) by (apply ND; [lia|lia|exact F]). lia.
Qed.
Example C115_no_penetration_ex : forall nv, In nv [[1; 2; 0]; [0; 0; -3]]%R -> length nv = 3 /\ exists x, In x nv /\ x <> 0%R.
Proof. intros nv [<-|[<-|[]]]; (split; [auto|]); [exists 1%R|exists (-3)%R]; (split; [cbn; tauto|lra]). Qed.
(** A zero normal: numpy divides by zero, the row is NaN; here x / 0 stands for it. Every other vector is constrained. *)
Lemma mulv_diag : forall (c : nat -> nat) (x : nat -> R) n q i, i < n -> mulv (map (fun i => (i, c i, x i)) (seq 0 n)) q i = (x i * q (c i))%R.
Proof. intros c x n q i I. apply (@mulv_pick (fun i => i) c x); [apply seq_NoDup|apply in_seq; lia|tauto]. Qed.
Lemma nth_repeat_flat : forall dim m n d, n < m -> d < dim -> nth (dim * n + d) (flat_map (fun n => repeat n dim) (seq 0 m)) 0 = n.
Proof.
  intros dim m n d N D. replace (seq 0 m) with (seq 0 n ++ n :: seq (S n) (m - S n)). 2:{ replace m with (n + S (m - S n)) at 2 by lia. rewrite seq_app. auto. }
  replace (dim * n) with (list_sum (map (fun x => length (repeat x dim)) (seq 0 n))). 2:{ rewrite (map_ext _ (fun _ => dim)) by (intros; apply repeat_length). clear. generalize 0. induction n as [|n IH]; intros b; [cbn; lia|]. cbn [seq map]. change (list_sum (?a :: ?l)) with (a + list_sum l). rewrite IH. lia. }
  rewrite flat_nth by (rewrite repeat_length; auto). clear - D. revert d D. induction dim as [|k IH]; intros d D; [lia|]. destruct d; auto. apply IH. lia.
Qed.
Lemma nth_concat_dim : forall (vs : list (list R)) dim n d, (forall v, In v vs -> length v = dim) -> n < length vs -> d < dim -> nth (dim * n + d) (concat vs) 0%R = nth d (nth n vs []) 0%R.
Proof.
  induction vs as [|v vs IH]; intros dim n d H N D; [cbn in N; lia|]. assert (L := H v (or_introl eq_refl)). destruct n as [|n]; cbn [concat nth].
  - rewrite app_nth1 by lia. f_equal. lia.
  - rewrite app_nth2 by nia. rewrite L. replace (dim * S n + d - dim) with (dim * n + d) by nia. apply IH; auto; [intros; apply H; right; auto|cbn in N; lia].
Qed.
Lemma len_concat_dim : forall (vs : list (list R)) dim, (forall v, In v vs -> length v = dim) -> length (concat vs) = dim * length vs.
Proof. induction vs as [|v vs IH]; intros dim H; [cbn; lia|]. cbn [concat length]. rewrite app_length, (IH dim) by (intros; apply H; right; auto). rewrite (H v (or_introl eq_refl)). lia. Qed.
(** normal_direction, edge_direction: the node vectors are the multiples of the given vectors. *)
Theorem C115_direction : forall dim vectors, (forall v, In v vectors -> length v = dim) ->
  forall q n d, n < length vectors -> d < dim -> mulv (normal_direction dim vectors) q (dim * n + d) = (nth d (nth n vectors []) 0 * q n)%R.
Proof.
  intros dim vectors H q n d N D. unfold normal_direction. assert (B : dim * n + d < length (concat vectors)) by (rewrite (len_concat_dim vectors H); nia). rewrite mulv_diag by auto. rewrite nth_repeat_flat, (nth_concat_dim vectors H) by auto. auto.
Qed.
(** integral_mean_value: all the DOFs equal the new one. *)
Theorem C115_integral_mean_value : forall n u, (forall i j, i < n -> j < n -> u i = u j) <-> exists q, forall i, i < n -> u i = mulv (integral_mean_value n) q i.
Proof.
  intros n u. unfold integral_mean_value. split.
  - intros H. exists (fun _ => u 0). intros i I. rewrite (@mulv_diag (fun _ => 0) (fun _ => 1%R)) by auto. rewrite (H i 0) by lia. lra.
  - intros [q Q] i j I J. rewrite !Q by auto. rewrite !(@mulv_diag (fun _ => 0) (fun _ => 1%R)) by auto. auto.
Qed.

(** ** C116: rigid bodies *)
(** The displacement of x under the translation t and the (small) rotation W *)
Definition motion (dim : nat) (t : nat -> R) (W : nat -> nat -> R) (x : list R) (d : nat) : R := (t d + lsum (map (fun j => (W d j * nth j x 0)%R) (seq 0 dim)))%R.
Definition skew (dim : nat) (W : nat -> nat -> R) : Prop := forall i j, i < dim -> j < dim -> W i j = (- W j i)%R.
Definition n_rot (dim : nat) : nat := if dim =? 2 then 1 else 3.
(** the rotation of the rotational DOFs r *)
Definition rotmat (dim : nat) (r : nat -> R) (i j : nat) : R :=
  if dim =? 2 then match i, j with 0, 1 => (- r 0%nat)%R | 1, 0 => r 0 | _, _ => 0%R end
  else match i, j with 0, 1 => (- r 2%nat)%R | 0, 2 => r 1 | 1, 0 => r 2 | 1, 2 => (- r 0%nat)%R | 2, 0 => (- r 1%nat)%R | 2, 1 => r 0 | _, _ => 0%R end.
Lemma rotmat_skew : forall dim r, dim = 2 \/ dim = 3 -> skew dim (rotmat dim r).
Proof. intros dim r [->| ->] i j I J; destruct i as [|[|[|i]]]; try lia; destruct j as [|[|[|j]]]; try lia; cbn; lra. Qed.
Lemma skew_rotmat : forall dim W, dim = 2 \/ dim = 3 -> skew dim W -> exists r, forall i j, i < dim -> j < dim -> W i j = rotmat dim r i j.
Proof.
  intros dim W [->| ->] K.
  - exists (fun _ => W 1 0). assert (A := K 0 0 ltac:(lia) ltac:(lia)). assert (B := K 1 1 ltac:(lia) ltac:(lia)). assert (C := K 0 1 ltac:(lia) ltac:(lia)). intros i j I J. destruct i as [|[|i]]; try lia; destruct j as [|[|j]]; try lia; cbn; lra.
  - exists (fun k => match k with 0 => W 2 1 | 1 => W 0 2 | _ => W 1 0 end). assert (A := K 0 0 ltac:(lia) ltac:(lia)). assert (B := K 1 1 ltac:(lia) ltac:(lia)). assert (C := K 2 2 ltac:(lia) ltac:(lia)). assert (D := K 0 1 ltac:(lia) ltac:(lia)). assert (E := K 0 2 ltac:(lia) ltac:(lia)). assert (F := K 1 2 ltac:(lia) ltac:(lia)).
    intros i j I J. destruct i as [|[|[|i]]]; try lia; destruct j as [|[|[|j]]]; try lia; cbn; lra.
Qed.
Lemma spin_ok : forall dim x, dim = 2 \/ dim = 3 -> length x = dim -> exists s, spin x = Ok s /\ length s = dim /\ forall d, d < dim -> length (nth d s []) = n_rot dim /\
  forall r, lsum (map (fun j => (nth j (nth d s []) 0 * r j)%R) (seq 0 (n_rot dim))) = lsum (map (fun j => (rotmat dim r d j * nth j x 0)%R) (seq 0 dim)).
Proof.
  intros dim x [->| ->] L.
  - destruct x as [|x0 [|x1 [|]]]; try discriminate. eexists. split; [reflexivity|]. split; auto. intros d D. destruct d as [|[|d]]; try lia; (split; [auto|]); intros r; cbn; lra.
  - destruct x as [|x0 [|x1 [|x2 [|]]]]; try discriminate. eexists. split; [reflexivity|]. split; auto. intros d D. destruct d as [|[|[|d]]]; try lia; (split; [auto|]); intros r; cbn; lra.
Qed.
Lemma eye_row : forall dim d, d < dim -> length (nth d (eye dim) []) = dim /\ forall t, lsum (map (fun j => (nth j (nth d (eye dim) []) 0 * t j)%R) (seq 0 dim)) = t d.
Proof.
  intros dim d D. unfold eye. rewrite nth_map_in with (da := 0) by (rewrite seq_length; auto). rewrite seq_nth by auto. split; [rewrite map_length, seq_length; auto|]. intros t.
  rewrite (lsum_ext _ (fun j => if j =? d then t d else 0%R)). 2:{ intros j J. apply in_seq in J. rewrite nth_map_in with (da := 0) by (rewrite seq_length; lia). rewrite seq_nth by lia. cbn [plus]. destruct (j =? d) eqn:E; [apply Nat.eqb_eq in E; subst; lra|lra]. }
  rewrite (lsum_split_at _ D). rewrite Nat.eqb_refl. rewrite lsum_zero; [lra|]. intros j J. apply filter_In in J. destruct J as [_ J]. apply negb_true_iff in J. rewrite J. auto.
Qed.
Lemma hstack_row : forall A B d, length A = length B -> d < length A -> nth d (hstack A B) [] = nth d A [] ++ nth d B [].
Proof. intros A B d L D. unfold hstack. rewrite nth_map_in with (da := ([], [])) by (rewrite combine_length; lia). rewrite combine_nth by auto. auto. Qed.
Lemma hstack_len : forall A B, length A = length B -> length (hstack A B) = length A.
Proof. intros. unfold hstack. rewrite map_length, combine_length. lia. Qed.
Lemma dot_app : forall (a b : list R) q, lsum (map (fun j => (nth j (a ++ b) 0 * q j)%R) (seq 0 (length (a ++ b)))) = (lsum (map (fun j => (nth j a 0 * q j)%R) (seq 0 (length a))) + lsum (map (fun j => (nth j b 0 * q (length a + j)%nat)%R) (seq 0 (length b))))%R.
Proof.
  intros a b q. rewrite app_length, seq_split_sum. f_equal; apply lsum_ext; intros j J; apply in_seq in J; [rewrite app_nth1 by lia|rewrite app_nth2 by lia; rewrite minus_plus]; auto.
Qed.
Lemma mapM_ok : forall A B (f : A -> res B) l, (forall a, In a l -> exists b, f a = Ok b) -> exists bs, mapM f l = Ok bs /\ length bs = length l /\ forall n da db, n < length l -> f (nth n l da) = Ok (nth n bs db).
Proof.
  intros A B f l. induction l as [|a l IH]; intros H; [exists []; repeat split; auto; cbn; lia|]. destruct (H a (or_introl eq_refl)) as [b Hb]. destruct IH as (bs & E & L & N); [intros; apply H; right; auto|]. exists (b :: bs). cbn [mapM]. rewrite Hb. cbn [bind]. rewrite E. cbn [bind]. split; auto. split; [cbn; lia|]. intros [|n] da db I; [auto|]. cbn [nth]. apply N. cbn in I. lia.
Qed.
(** rows of a stack of equally high blocks *)
Lemma stack_row : forall A (g : A -> list (list R)) l dim n d da, (forall a, In a l -> length (g a) = dim) -> n < length l -> d < dim -> nth (dim * n + d) (flat_map g l) [] = nth d (g (nth n l da)) [].
Proof.
  intros A g l. induction l as [|a l IH]; intros dim n d da H N D; [cbn in N; lia|]. assert (L := H a (or_introl eq_refl)). cbn [flat_map]. destruct n as [|n]; cbn [nth].
  - rewrite app_nth1 by lia. f_equal. lia.
  - rewrite app_nth2 by nia. rewrite L. replace (dim * S n + d - dim) with (dim * n + d) by nia. apply IH; auto; [intros; apply H; right; auto|cbn in N; lia].
Qed.
Lemma stack_len : forall A (g : A -> list (list R)) l dim, (forall a, In a l -> length (g a) = dim) -> length (flat_map g l) = dim * length l.
Proof. intros A g l. induction l as [|a l IH]; intros dim H; [cbn; lia|]. cbn [flat_map length]. rewrite app_length, (IH dim) by (intros; apply H; right; auto). rewrite (H a (or_introl eq_refl)). lia. Qed.
Lemma rigid_rows : forall dim coors dofs, dim = 2 \/ dim = 3 -> (forall x, In x coors -> length x = dim) -> (forall d, In d dofs -> d < dim) ->
  exists rows, rigid dim coors dofs = Ok rows /\ length rows = length dofs * length coors /\
  forall q n k, n < length coors -> k < length dofs -> mulv (dense rows) q (length dofs * n + k) = motion dim (fun j => q (n_rot dim + j)) (rotmat dim q) (nth n coors []) (nth k dofs 0).
Proof.
  intros dim coors dofs DIM LC DB. unfold rigid. destruct (mapM_ok spin coors) as (sp & E & LS & NS). { intros x X. destruct (@spin_ok dim x DIM (LC _ X)) as (s & S1 & _). eauto. }
  rewrite E. cbn [bind]. assert (HB : forall n, n < length coors -> length (nth n sp []) = dim /\ spin (nth n coors []) = Ok (nth n sp [])). { intros n N. specialize (NS n [] [] N). split; auto. destruct (@spin_ok dim (nth n coors []) DIM (LC _ (nth_In _ _ N))) as (s & S1 & S2 & _). congruence. }
  assert (LE : length (eye dim) = dim) by (unfold eye; rewrite map_length, seq_length; auto).
  assert (HL : forall s, In s sp -> length (hstack s (eye dim)) = dim). { intros s I. destruct (In_nth _ _ [] I) as (n & N & <-). rewrite LS in N. destruct (HB n N) as [L _]. rewrite hstack_len; lia. }
  set (mtx := flat_map (fun s => hstack s (eye dim)) sp). eexists. split; [reflexivity|].
  assert (LB : forall a, In a (seq 0 (length coors)) -> length (map (fun d => nth (dim * a + d) mtx []) dofs) = length dofs) by (intros; apply map_length).
  split; [rewrite (stack_len _ _ LB), seq_length; auto|]. intros q n k N K.
  rewrite mulv_dense by (rewrite (stack_len _ _ LB), seq_length; nia). rewrite (@stack_row _ _ (seq 0 (length coors)) (length dofs) n k 0 LB) by (rewrite ?seq_length; auto). rewrite seq_nth by auto. cbn [plus]. rewrite nth_map_in with (da := 0) by auto. set (d := nth k dofs 0). assert (D : d < dim) by (apply DB; apply nth_In; auto).
  unfold mtx. rewrite (@stack_row _ _ sp dim n d [] HL) by (rewrite ?LS; auto). destruct (HB n N) as [L1 L2]. rewrite hstack_row by lia. rewrite dot_app. destruct (eye_row D) as [E1 E2]. rewrite E1.
  destruct (@spin_ok dim (nth n coors []) DIM (LC _ (nth_In _ _ N))) as (s & S1 & S2 & S3). assert (s = nth n sp []) by congruence. subst s. destruct (S3 d D) as [S4 S5]. rewrite S4, S5. rewrite (E2 (fun j => q (n_rot dim + j))). unfold motion. lra.
Qed.
(** rigid: the displacements are exactly those of rigid body motions. *)
Theorem C116_rigid : forall dim coors dofs, dim = 2 \/ dim = 3 -> (forall x, In x coors -> length x = dim) -> (forall d, In d dofs -> d < dim) ->
  exists rows, rigid dim coors dofs = Ok rows /\ length rows = length dofs * length coors /\
  forall u, (exists q, forall i, i < length rows -> u i = mulv (dense rows) q i) <->
    exists t W, skew dim W /\ forall n k, n < length coors -> k < length dofs -> u (length dofs * n + k) = motion dim t W (nth n coors []) (nth k dofs 0).
Proof.
  intros dim coors dofs DIM LC DB. destruct (@rigid_rows dim coors dofs DIM LC DB) as (rows & E & L & H). exists rows. split; auto. split; auto. intros u. split.
  - intros [q Q]. exists (fun j => q (n_rot dim + j)), (rotmat dim q). split; [apply rotmat_skew; auto|]. intros n k N K. rewrite Q by (rewrite L; nia). auto.
  - intros (t & W & SK & HU). destruct (@skew_rotmat dim W DIM SK) as [r R0]. exists (fun j => if j <? n_rot dim then r j else t (j - n_rot dim)). intros i I. rewrite L in I. assert (DN : length dofs <> 0) by (intros X; rewrite X in I; cbn in I; lia). rewrite (Nat.div_mod i (length dofs)) by auto. set (n := i / length dofs). set (k := i mod length dofs). assert (K : k < length dofs) by (apply Nat.mod_upper_bound; auto). assert (N : n < length coors) by (apply Nat.div_lt_upper_bound; auto).
    rewrite HU, H by auto. assert (D : nth k dofs 0 < dim) by (apply DB, nth_In; auto). unfold motion. f_equal.
    + replace (n_rot dim + _ <? n_rot dim) with false by (symmetry; apply Nat.ltb_ge; lia). f_equal. lia.
    + apply lsum_ext. intros j J. apply in_seq in J. rewrite R0 by lia. f_equal. clear. unfold rotmat, n_rot. destruct (dim =? 2); cbn; auto.
Qed.
Example C116_rigid_ex : rigid 2 [[1; 2]; [3; 4]]%R [0; 1] = Ok [[- (2); 1; 0]; [1; 0; 1]; [- (4); 1; 0]; [3; 0; 1]]%R.
Proof. reflexivity. Qed.
(** other space dimensions: an error *)
Theorem C116_rigid_dim : forall dim coors dofs, (exists x, In x coors /\ length x <> 2 /\ length x <> 3) -> rigid dim coors dofs = Err ValueError.
Proof.
  intros dim coors dofs (x & X & L2 & L3). unfold rigid. assert (E : mapM spin coors = Err ValueError); [|rewrite E; auto].
  assert (G : forall y, spin y = Err ValueError \/ exists s, spin y = Ok s) by (intros [|y0 [|y1 [|y2 [|]]]]; cbn; eauto).
  induction coors as [|y l IH]; [destruct X|]. cbn [mapM]. destruct X as [->|X].
  - destruct x as [|y0 [|y1 [|y2 [|]]]]; cbn in *; auto; lia.
  - destruct (G y) as [->|[s ->]]; auto. cbn [bind]. rewrite IH by auto. auto.
Qed.
Lemma mulv_place : forall meq seq_ rows q k, NoDup meq -> length rows = length meq -> k < length meq -> length (nth k rows []) = length seq_ ->
  mulv (place meq seq_ rows) q (nth k meq 0) = lsum (map (fun j => (nth j (nth k rows []) 0 * q (nth j seq_ 0%nat))%R) (seq 0 (length seq_))).
Proof.
  intros meq seq_ rows q k ND LR K LS. unfold place. rewrite mulv_flat.
  assert (EC : combine meq rows = map (fun i => (nth i meq 0, nth i rows [])) (seq 0 (length meq))).
  { apply nth_ext with (d := (0, [])) (d' := (0, [])); [rewrite combine_length, map_length, seq_length; lia|]. intros i I. rewrite combine_length in I. rewrite combine_nth by auto. rewrite nth_map_in with (da := 0) by (rewrite seq_length; lia). rewrite seq_nth by lia. auto. }
  rewrite EC, map_map. cbn [fst snd]. replace (seq 0 (length meq)) with (seq 0 k ++ k :: seq (S k) (length meq - S k)). 2:{ replace (length meq) with (k + S (length meq - S k)) at 2 by lia. rewrite seq_app. auto. }
  match goal with |- lsum (map ?f _) = _ => rewrite (lsum_one f) end.
  - unfold mulv. change (fold_right Rplus 0%R) with lsum. rewrite map_map. cbn [fst snd]. rewrite (map_ext _ (fun x => (snd x * q (fst x))%R)) by (intros; rewrite Nat.eqb_refl; auto).
    assert (ES : combine seq_ (nth k rows []) = map (fun i => (nth i seq_ 0, nth i (nth k rows []) 0%R)) (seq 0 (length seq_))).
    { apply nth_ext with (d := (0, 0%R)) (d' := (0, 0%R)); [rewrite combine_length, map_length, seq_length; lia|]. intros i I. rewrite combine_length in I. rewrite combine_nth by auto. rewrite nth_map_in with (da := 0) by (rewrite seq_length; lia). rewrite seq_nth by lia. auto. }
    rewrite ES, map_map. cbn [fst snd]. auto.
  - intros b B. rewrite !in_seq in B. apply mulv_zero. intros r c x I ->. apply in_map_iff in I. destruct I as ([c' x'] & E & _). cbn in E. injection E as E _ _. rewrite (NoDup_nth meq 0) in ND. assert (b = k) by (apply ND; [lia|lia|auto]). lia.
Qed.
(** rigid2: the dependent nodes move as one rigid body with the displacement and rotation of the independent node. *)
Theorem C116_rigid2 : forall dim mcoors scoor meq seq_, dim = 2 \/ dim = 3 -> (forall x, In x mcoors -> length x = dim) -> length scoor = dim -> NoDup meq -> length meq = dim * length mcoors -> length seq_ = dim + n_rot dim ->
  exists rows, rigid2 dim true mcoors scoor = Ok rows /\
  forall u n d, n < length mcoors -> d < dim ->
    mulv (place meq seq_ rows) u (nth (dim * n + d) meq 0) = motion dim (fun j => u (nth j seq_ 0)) (rotmat dim (fun j => u (nth (dim + j) seq_ 0))) (vsub (nth n mcoors []) scoor) d.
Proof.
  intros dim mcoors scoor meq seq_ DIM LC LSC ND LM LS. assert (LV : forall x, In x mcoors -> length (vsub x scoor) = dim) by (intros x X; unfold vsub; rewrite map_length, combine_length, (LC _ X); lia).
  unfold rigid2. destruct (mapM_ok (fun x => spin (vsub x scoor)) mcoors) as (sp & E & LSP & NS). { intros x X. destruct (@spin_ok dim _ DIM (LV _ X)) as (s & S1 & _). eauto. }
  rewrite E. cbn [bind]. assert (HB : forall n, n < length mcoors -> length (nth n sp []) = dim /\ spin (vsub (nth n mcoors []) scoor) = Ok (nth n sp [])). { intros n N. specialize (NS n [] [] N). split; auto. destruct (@spin_ok dim _ DIM (LV _ (nth_In _ [] N))) as (s & S1 & S2 & _). congruence. }
  assert (LE : length (eye dim) = dim) by (unfold eye; rewrite map_length, seq_length; auto).
  assert (HL : forall s, In s sp -> length (hstack (eye dim) s) = dim). { intros s I. destruct (In_nth _ _ [] I) as (n & N & <-). rewrite LSP in N. destruct (HB n N) as [L _]. rewrite hstack_len; lia. }
  set (F := fun s => hstack (eye dim) s). set (fl := flat_map F sp). exists fl. split; [reflexivity|]. intros u n d N D. destruct (HB n N) as [L1 L2]. destruct (eye_row D) as [E1 E2]. destruct (@spin_ok dim _ DIM (LV _ (nth_In _ [] N))) as (s & S1 & S2 & S3). assert (s = nth n sp []) by congruence. subst s. destruct (S3 d D) as [S4 S5].
  assert (RW : nth (dim * n + d) fl [] = nth d (eye dim) [] ++ nth d (nth n sp []) []) by (unfold fl; rewrite (@stack_row _ F sp dim n d [] HL) by (rewrite ?LSP; auto); apply hstack_row; lia).
  rewrite mulv_place; auto; [| |nia|]; [|unfold fl; rewrite (@stack_len _ F _ _ HL); lia|rewrite RW, app_length; lia]. rewrite RW. rewrite LS, <- E1 at 1. rewrite <- S4, <- app_length. rewrite (dot_app _ _ (fun j => u (nth j seq_ 0))). rewrite E1, S4. rewrite (S5 (fun j => u (nth (dim + j) seq_ 0))), (E2 (fun j => u (nth j seq_ 0))). auto.
Qed.
(** rigid_twist: at the anchor, the second region should move relatively to the first by thread * phi along the axis: it
    moves also across the axis, as thread is added to all the entries of the spin matrices. *)
Theorem C116_twist_refuted : exists rows q, rigid_twist 3 [[0; 0; 0]]%R [[0; 0; 0]]%R [0; 0; 0]%R [1; 0; 0]%R 2%R = Ok rows /\
  q 6 = 1%R /\ (mulv (dense rows) q 3 - mulv (dense rows) q 0 = 2)%R /\ (mulv (dense rows) q 4 - mulv (dense rows) q 1 <> 0)%R.
Proof.
  eexists. exists (fun j => if j =? 6 then 1%R else 0%R). split; [reflexivity|]. split; auto. split; rewrite !mulv_dense by (cbn; lia); cbn; lra.
Qed.
Lemma dot3 : forall a b c x y z : R, dotl [a; b; c] [x; y; z] = (a * x + b * y + c * z)%R.
Proof. intros. unfold dotl. cbn. lra. Qed.
(** What holds: a rigid motion, half of the relative rotation about the axis through the anchor, and half of a translation
    by thread times the sum of the axis' components in each direction. *)
Theorem C116_twist_partial : forall anchor axis thread sgn x, length anchor = 3 -> length axis = 3 -> length x = 3 ->
  exists blk, twist_block 3 anchor axis thread sgn x = Ok blk /\ length blk = 3 /\
  forall q d, d < 3 -> lsum (map (fun j => (nth j (nth d blk []) 0 * q j)%R) (seq 0 7)) =
    (motion 3 (fun j => q j) (rotmat 3 (fun j => q (3 + j)%nat)) (vsub x anchor) d + sgn / 2 * q 6%nat * (motion 3 (fun _ => 0) (rotmat 3 (fun j => nth j axis 0)) (vsub x anchor) d + thread * lsum axis))%R.
Proof.
  intros anchor axis thread sgn x LA LX LC. destruct anchor as [|a0 [|a1 [|a2 [|]]]]; try discriminate. destruct axis as [|b0 [|b1 [|b2 [|]]]]; try discriminate. destruct x as [|x0 [|x1 [|x2 [|]]]]; try discriminate.
  eexists. split; [reflexivity|]. split; [reflexivity|]. intros q d D. destruct d as [|[|[|d]]]; try lia; unfold motion, dotl; cbn; field.
Qed.
