(** C153 The Bezier control net represents the same geometry as the NURBS patch. *)
From Coq Require Import Reals Lra Lia Arith List Bool.
From Coquelicot Require Import Coquelicot.
From Verif Require Import M_fmf L_fmf M_map L_map P_map S_iga M_iga L_iga S_iga2 M_iga2 P_iga P_iga2 P_iga3 L_hyper L_iga2 P_iga4 P_iga5 P_iga6 P_iga7 P_iga8 M_iga3 L_iga3.
Import ListNotations.
Open Scope R_scope.

Lemma prodR_mult : forall (f g : nat -> R) n, prodR (map (fun k => f k * g k) (seq 0 n)) = prodR (map f (seq 0 n)) * prodR (map g (seq 0 n)).
Proof. intros f g n. revert f g. induction n; intros f g. cbn; ring. rewrite !prodR_S. rewrite (IHn (fun k => f (S k)) (fun k => g (S k))). ring. Qed.

(** The value left in an array by element-wise assignments that agree on shared entries. *)
Lemma control_at : forall n_el nf cps w ccs conn bconn b V VP,
  let bew ie j := sm nf (fun a => ccs ie a j * w (conn ie a)) in
  let becp ie j i := 1 / bew ie j * sm nf (fun a => ccs ie a j * (w (conn ie a) * cps (conn ie a) i)) in
  (forall ie j, (ie < n_el)%nat -> (j < nf)%nat -> bconn ie j = b -> bew ie j = V /\ forall i, becp ie j i = VP i) ->
  (exists ie j, (ie < n_el)%nat /\ (j < nf)%nat /\ bconn ie j = b) ->
  snd (compute_bezier_control n_el nf cps w ccs conn bconn) b = V /\ forall i, fst (compute_bezier_control n_el nf cps w ccs conn bconn) b i = VP i.
Proof.
  intros n_el nf cps w ccs conn bconn b V VP bew becp HV (ie0 & j0 & X1 & X2 & X3). unfold compute_bezier_control.
  assert (IN : forall ie l f, (forall j, In j l -> bconn ie j = b -> bew ie j = V) -> ((exists j, In j l /\ bconn ie j = b) \/ f b = V) ->
    fold_left (fun (f : nat -> R) j => (fun b => if (b =? bconn ie j)%nat then bew ie j else f b)) l f b = V).
  { intros ie. induction l as [|x l IH]; intros f A B; cbn [fold_left]. destruct B as [(? & [] & _)|]; auto.
    apply IH. intros; apply A; auto. right; auto. destruct (Nat.eqb_spec b (bconn ie x)) as [Q|Q]. right. apply A; auto. left; auto.
    destruct B as [(y & [->|Hy] & E)|E]; eauto. congruence. }
  assert (IP : forall ie i l f, (forall j, In j l -> bconn ie j = b -> becp ie j i = VP i) -> ((exists j, In j l /\ bconn ie j = b) \/ f b i = VP i) ->
    fold_left (fun (f : nat -> nat -> R) j => (fun b i => if (b =? bconn ie j)%nat then becp ie j i else f b i)) l f b i = VP i).
  { intros ie i. induction l as [|x l IH]; intros f A B; cbn [fold_left]. destruct B as [(? & [] & _)|]; auto.
    apply IH. intros; apply A; auto. right; auto. destruct (Nat.eqb_spec b (bconn ie x)) as [Q|Q]. right. apply A; auto. left; auto.
    destruct B as [(y & [->|Hy] & E)|E]; eauto. congruence. }
  assert (G : forall l st, (forall x, In x l -> (x < n_el)%nat) -> (In ie0 l \/ (snd st b = V /\ forall i, fst st b i = VP i)) ->
    let st' := fold_left (fun '(bcps, bws) ie =>
      (fold_left (fun (f : nat -> nat -> R) j => (fun b i => if (b =? bconn ie j)%nat then becp ie j i else f b i)) (seq 0 nf) bcps,
       fold_left (fun (f : nat -> R) j => (fun b => if (b =? bconn ie j)%nat then bew ie j else f b)) (seq 0 nf) bws)) l st in
    snd st' b = V /\ forall i, fst st' b i = VP i).
  { induction l as [|ie l IH]; intros st L H. destruct H as [[]|]; auto. cbn [fold_left]. apply IH. intros; apply L; right; auto.
    destruct st as (bcps & bws). cbn [fst snd] in *. destruct H as [[->|H]|(H1 & H2)]; auto.
    - right. split. apply IN. intros j Hj E. apply in_seq in Hj. apply HV; auto. lia. left. exists j0. split; auto. apply in_seq; lia.
      intros i. apply IP. intros j Hj E. apply in_seq in Hj. apply HV; auto. lia. left. exists j0. split; auto. apply in_seq; lia.
    - right. assert (LE : (ie < n_el)%nat) by (apply L; left; auto). split. apply IN; auto. intros j Hj E. apply in_seq in Hj. apply HV; auto. lia.
      intros i. apply IP; auto. intros j Hj E. apply in_seq in Hj. apply HV; auto. lia. }
  apply (G (seq 0 n_el) ((fun _ _ => 0), (fun _ => 0))). intros x Hx; apply in_seq in Hx; lia. left. apply in_seq; lia.
Qed.

Section Patch.
Variable kps : list (knot_vector * nat).
Notation dim := (length kps).
Hypothesis HG : good_patch kps.
Variables (cs : list (list mat)) (conn bconn : nat -> nat -> nat).
Hypothesis HP : create_patch (map fst kps) (map snd kps) = Some (cs, conn, bconn).
Notation n_els := (map n_spans kps).
Notation degrees := (map snd kps).
Notation shape := (map n_funs kps).
Notation nf := (n_efun degrees).
Notation ds := (map (fun p => p + 1)%nat degrees).
Notation ccs := (combine_bezier_extraction degrees cs).
Definition bc1 (kp : knot_vector * nat) : list (list nat) := map (fun e => map (fun k => k + snd kp * e)%nat (seq 0 (snd kp + 1))) (seq 0 (n_spans kp)).
Lemma bconn_eq : bconn = make_conn n_els ds (map bc1 kps).
Proof.
  destruct (patch_lists kps (proj2 HG)) as (cs' & bcs & P1 & P2 & P3 & P4 & P5 & P6).
  unfold create_patch in HP. rewrite P1 in HP. rewrite P4 in HP. cbn [option_map] in HP. inversion HP; subst. reflexivity.
Qed.
Definition bidx (ies jl : list nat) : list nat := map (fun k => nth k jl 0 + dg kps k * nth k ies 0)%nat (seq 0 dim).
Notation gb := (map (fun c => max_entry c + 1)%nat (map bc1 kps)).
Section El.
Variable ies : list nat.
Hypothesis HE : inside ies n_els.
Notation e := (position n_els ies).
Lemma bconn_at : forall jl, Forall2 lt jl ds -> bconn e (position ds jl) = position gb (bidx ies jl) /\ inside (bidx ies jl) gb.
Proof.
  intros jl Hj.
  assert (V : forall k, (k < dim)%nat -> (nth (nth k jl 0) (nth (nth k ies 0) (nth k (map bc1 kps) []) []) 0 = nth k jl 0 + dg kps k * nth k ies 0 /\
     nth k jl 0 + dg kps k * nth k ies 0 < nth k gb 0)%nat).
  { intros k Hk. pose proof (@f2_elim _ _ Hj k) as Q. rewrite ds_len, ds_nth in Q by auto. specialize (Q Hk). pose proof (ies_lt kps ies HE k Hk) as I.
    rewrite (@nth_map0 _ _ bc1 kps k D0) by auto.
    assert (R1 : nth (nth k ies 0%nat) (bc1 (nth k kps D0)) [] = map (fun j => j + dg kps k * nth k ies 0)%nat (seq 0 (dg kps k + 1))).
    { unfold bc1. rewrite (@nth_map0 _ _ _ _ _ 0%nat) by (rewrite seq_length; auto). rewrite seq_nth by auto. reflexivity. }
    assert (R2 : nth (nth k jl 0%nat) (map (fun j => j + dg kps k * nth k ies 0)%nat (seq 0 (dg kps k + 1))) 0%nat = (nth k jl 0 + dg kps k * nth k ies 0)%nat).
    { rewrite (@nth_map0 _ _ _ _ _ 0%nat) by (rewrite seq_length; auto). rewrite seq_nth by auto. reflexivity. }
    rewrite R1, R2. split; auto. rewrite (@nth_map0 _ _ _ _ _ []) by (rewrite map_length; auto). rewrite (@nth_map0 _ _ bc1 kps k D0) by auto.
    enough (nth k jl 0 + dg kps k * nth k ies 0 <= max_entry (bc1 (nth k kps D0)))%nat by lia.
    unfold max_entry. etransitivity; [|apply max_all, in_map; apply nth_In with (n := nth k ies 0%nat) (d := []); unfold bc1; rewrite map_length, seq_length; auto].
    rewrite R1. apply max_all. rewrite <- R2. apply nth_In. rewrite map_length, seq_length. auto. }
  split.
  - rewrite bconn_eq. rewrite make_conn_at; auto; try (rewrite ?map_length; auto; apply HG). f_equal. unfold bidx. rewrite map_length. apply map_ext_in. intros k Hk. apply in_seq in Hk. apply V. lia.
  - apply f2_intro. unfold bidx. rewrite !map_length, seq_length. reflexivity. intros k Hk. rewrite !map_length in Hk. unfold bidx. rewrite nth_map_seq by auto. apply V. auto.
Qed.
Lemma ccs_at : forall il jl, Forall2 lt il ds -> Forall2 lt jl ds ->
  ccs e (position ds il) (position ds jl) = prodR (map (fun k => nth (nth k ies 0%nat) (nth k cs []) eye (nth k il 0%nat) (nth k jl 0%nat)) (seq 0 dim)).
Proof.
  intros il jl Hi Hj. destruct (patch_data kps HG cs conn bconn HP) as (L1 & L2 & _). pose proof (proj1 HG) as H13.
  unfold combine_bezier_extraction. rewrite L1.
  assert (D : dim = 1%nat \/ (2 <= dim <= 3)%nat) by lia.
  destruct D as [D|D].
  - rewrite D. destruct kps as [|kp [|]]; cbn [length] in D; try lia. cbn [map] in *.
    inversion HE as [|i0 ? ? ? ? T]; subst. inversion T; subst. inversion Hi as [|a0 ? ? ? ? T1]; subst. inversion T1; subst. inversion Hj as [|b0 ? ? ? ? T2]; subst. inversion T2; subst.
    cbn. rewrite !Nat.mul_1_r, !Nat.add_0_r. ring.
  - assert (CB : (match dim with 1%nat => fun ie => nth ie (nth 0 cs []) eye | _ =>
       let ncc := map (@length mat) cs in fold_left (fun (ccs : nat -> mat) ic => let ii := ravel_multi_index ic ncc in
                 (fun e => if (e =? ii)%nat then combine_bezier degrees cs ic else ccs e)) (tuples ncc) (fun _ => eye) end) e = combine_bezier degrees cs ies).
    { assert (LN : (1 <= length n_els <= 3)%nat) by (rewrite map_length; exact H13). clear H13.
      destruct dim as [|[|m]]; try lia. cbv zeta. rewrite L2.
      assert (G : forall l (c : nat -> mat), (forall x, In x l -> Forall2 lt x n_els) -> (In ies l \/ c e = combine_bezier degrees cs ies) ->
        fold_left (fun (ccs : nat -> mat) ic => (fun e => if (e =? ravel_multi_index ic n_els)%nat then combine_bezier degrees cs ic else ccs e)) l c e = combine_bezier degrees cs ies).
      { induction l as [|x l IH]; intros c A B; cbn [fold_left]. destruct B as [[]|]; auto.
        apply IH. intros; apply A; right; auto. assert (X : Forall2 lt x n_els) by (apply A; left; auto). rewrite (@rav _ x LN X).
        destruct (Nat.eqb_spec e (position n_els x)) as [Q|Q]. right. apply hrav_inj in Q; auto. subst; reflexivity.
        destruct B as [[->|B]|B]; auto. congruence. }
      apply G. intros x Hx. apply in_tuples; auto. left. apply in_tuples. auto. }
    transitivity (combine_bezier degrees cs ies (position ds il) (position ds jl)).
    { exact (f_equal (fun m : mat => m (position ds il) (position ds jl)) CB). }
    clear CB. unfold combine_bezier. rewrite L1.
    pose proof (f2_length _ _ Hi) as LI. pose proof (f2_length _ _ Hj) as LJ. rewrite ds_len in LI, LJ.
    destruct kps as [|k0 [|k1 [|k2 [|]]]]; cbn [length] in D; try lia; cbn [length map] in *.
    + destruct il as [|a0 [|a1 [|]]]; cbn in LI; try lia. destruct jl as [|b0 [|b1 [|]]]; cbn in LJ; try lia.
      inversion Hi as [|? ? ? ? A0 T0]; subst. inversion T0 as [|? ? ? ? A1 T1]; subst. inversion Hj as [|? ? ? ? B0 U0]; subst. inversion U0 as [|? ? ? ? B1 U1]; subst.
      cbn [nth position prodn]. rewrite !Nat.mul_1_r, !Nat.add_0_r.
      rewrite tensor_at by nia. cbn [seq map prodR fold_right nth].
      rewrite !Nat.div_add_l, !Nat.div_small, !Nat.add_0_r by lia. rewrite !(Nat.add_comm (_ * _)), !Nat.mod_add, !Nat.mod_small by lia. ring.
    + destruct il as [|a0 [|a1 [|a2 [|]]]]; cbn in LI; try lia. destruct jl as [|b0 [|b1 [|b2 [|]]]]; cbn in LJ; try lia.
      inversion Hi as [|? ? ? ? A0 T0]; subst. inversion T0 as [|? ? ? ? A1 T1]; subst. inversion T1 as [|? ? ? ? A2 T2]; subst.
      inversion Hj as [|? ? ? ? B0 U0]; subst. inversion U0 as [|? ? ? ? B1 U1]; subst. inversion U1 as [|? ? ? ? B2 U2]; subst.
      cbn [nth position prodn]. rewrite !Nat.mul_1_r, !Nat.add_0_r.
      set (m1 := (snd k1 + 1)%nat) in *. set (m2 := (snd k2 + 1)%nat) in *.
      assert (XA : (a1 * m2 + a2 < m1 * m2)%nat) by nia. assert (XB : (b1 * m2 + b2 < m1 * m2)%nat) by nia.
      rewrite tensor_at by nia. cbn [seq map prodR fold_right nth].
      rewrite !(Nat.div_add_l _ (m1 * m2)) by nia. rewrite !(Nat.div_small _ (m1 * m2)), !Nat.add_0_r by auto.
      rewrite !(Nat.add_comm (_ * (m1 * m2))), !Nat.mod_add by nia. rewrite !(Nat.mod_small _ (m1 * m2)) by auto.
      rewrite tensor_at by auto. rewrite !Nat.div_add_l, !(Nat.div_small _ m2), !Nat.add_0_r by lia. rewrite !(Nat.add_comm (_ * m2)), !Nat.mod_add, !(Nat.mod_small _ m2) by lia. ring.
Qed.
(** A sum over the functions of the element with the operator as a sum over all functions. *)
Lemma op_sum : forall jl (v : nat -> R), Forall2 lt jl ds ->
  sm nf (fun a => ccs e a (position ds jl) * v (conn e a)) =
  sm (prodn shape) (fun g => prodR (map (fun k => gcoef (kn kps k) (nk kps k) (dg kps k) (nth k cs []) (nth k ies 0%nat) (nth k jl 0%nat) (nth k (nth g (tuples shape) []) 0%nat)) (seq 0 dim)) * v g).
Proof.
  intros jl v Hj. pose proof (patch_data kps HG cs conn bconn HP) as (L1 & L2 & L3 & _).
  rewrite (@sm_inj nf (prodn shape) (fun a => position shape (loc kps ies (nth a (tuples ds) [])))).
  - apply sm_ext. intros a Ha. destruct (idx_ds kps a Ha) as (I1 & I2). destruct (@conn_lt kps HG cs conn bconn HP ies HE a Ha) as (C1 & C2).
    rewrite <- C1. f_equal. rewrite <- I2 at 1. rewrite ccs_at by auto. apply prodR_ext. intros k Hk.
    rewrite C1, nth_hrav by auto. unfold loc. rewrite nth_map_seq by auto. unfold gcoef. fold (sp_of kps ies k).
    pose proof (@f2_elim _ _ I1 k) as Q. rewrite ds_len, ds_nth in Q by auto. specialize (Q Hk). destruct (@sp_b kps (proj2 HG) ies HE k Hk) as (S1 & S2 & S3).
    destruct (Nat.leb_spec (sp_of kps ies k - dg kps k)%nat (nth k (nth a (tuples ds) []) 0%nat + (sp_of kps ies k - dg kps k))%nat); [|lia].
    destruct (Nat.leb_spec (nth k (nth a (tuples ds) []) 0%nat + (sp_of kps ies k - dg kps k))%nat (sp_of kps ies k)); [|lia]. cbn [andb]. f_equal. lia.
  - intros a Ha. destruct (@conn_lt kps HG cs conn bconn HP ies HE a Ha) as (C1 & C2). apply hrav_lt; auto.
  - intros a b Ha Hb E. destruct (@conn_lt kps HG cs conn bconn HP ies HE a Ha) as (A1 & A2). destruct (@conn_lt kps HG cs conn bconn HP ies HE b Hb) as (B1 & B2).
    apply hrav_inj in E; auto. destruct (idx_ds kps a Ha) as (I1 & I2). destruct (idx_ds kps b Hb) as (J1 & J2).
    assert (QQ : nth a (tuples ds) [] = nth b (tuples ds) []) by (eapply loc_inj; eauto; apply HG). congruence.
  - intros g Hg H. destruct (tuples_nth shape g Hg) as (G1 & G2). set (I := nth g (tuples shape) []) in *.
    assert (LI : length I = dim) by (rewrite (f2_length _ _ G1), map_length; auto).
    assert (D : (exists k, (k < dim)%nat /\ ~ (sp_of kps ies k - dg kps k <= nth k I 0 <= sp_of kps ies k)%nat) \/ forall k, (k < dim)%nat -> (sp_of kps ies k - dg kps k <= nth k I 0 <= sp_of kps ies k)%nat).
    { generalize dim as m. clear. induction m. right; intros; lia. destruct IHm as [(k & K & E)|A]. left; exists k; split; auto; lia.
      destruct (Nat.le_gt_cases (sp_of kps ies m - dg kps m)%nat (nth m I 0%nat)), (Nat.le_gt_cases (nth m I 0%nat) (sp_of kps ies m)).
      right. intros k Hk. destruct (Nat.eq_dec k m) as [->|]; auto. apply A. lia.
      all: left; exists m; split; lia. }
    destruct D as [(k & Hk & E)|A].
    + rewrite (@prodR_0 _ _ k Hk). ring. unfold gcoef. fold (sp_of kps ies k).
      destruct (Nat.leb_spec (sp_of kps ies k - dg kps k)%nat (nth k I 0%nat)), (Nat.leb_spec (nth k I 0%nat) (sp_of kps ies k)); cbn [andb]; auto. lia.
    + exfalso. set (l := map (fun k => nth k I 0 - (sp_of kps ies k - dg kps k))%nat (seq 0 dim)).
      assert (Hl : Forall2 lt l ds).
      { apply f2_intro. unfold l. rewrite map_length, seq_length, ds_len. reflexivity. intros k Hk. rewrite ds_len in Hk. unfold l. rewrite nth_map_seq, ds_nth by auto. specialize (A k Hk).
        destruct (@sp_b kps (proj2 HG) ies HE k Hk) as (S1 & S2 & S3). lia. }
      apply (H (position ds l)). apply hrav_lt; auto. rewrite nth_hrav by auto. rewrite <- G2. f_equal. apply nth_ext0. unfold loc. rewrite map_length, seq_length; auto.
      intros k Hk. unfold loc in Hk. rewrite map_length, seq_length in Hk. unfold loc. rewrite nth_map_seq by auto. unfold l. rewrite nth_map_seq by auto. specialize (A k Hk). lia.
Qed.
End El.
Hypothesis HC : List.Forall (fun '((t, n), p) => continuous_knots t n p) kps.
Lemma HCk : forall k, (k < dim)%nat -> continuous_knots (kn kps k) (nk kps k) (dg kps k).
Proof. intros k Hk. rewrite List.Forall_forall in HC. specialize (HC (nth k kps D0) (nth_In _ _ Hk)). destruct (nth k kps D0) as ((t & n) & p). exact HC. Qed.
(** The operators of different elements agree on shared Bezier points. *)
Lemma op_shared : forall ies ies' jl jl' v, inside ies n_els -> inside ies' n_els -> Forall2 lt jl ds -> Forall2 lt jl' ds -> bidx ies jl = bidx ies' jl' ->
  sm nf (fun a => ccs (position n_els ies) a (position ds jl) * v (conn (position n_els ies) a)) =
  sm nf (fun a => ccs (position n_els ies') a (position ds jl') * v (conn (position n_els ies') a)).
Proof.
  intros ies ies' jl jl' v H1 H2 J1 J2 E. rewrite !op_sum by auto. apply sm_ext. intros g Hg. f_equal. apply prodR_ext. intros k Hk.
  pose proof (patch_data kps HG cs conn bconn HP) as (_ & _ & _ & L4 & _).
  destruct (tuples_nth shape g Hg) as (G1 & _). pose proof (@f2_elim _ _ G1 k) as QG. rewrite map_length, shape_nth in QG by auto.
  pose proof (@f2_elim _ _ J1 k) as Q1. pose proof (@f2_elim _ _ J2 k) as Q2. rewrite ds_len, ds_nth in Q1, Q2 by auto. specialize (Q1 Hk). specialize (Q2 Hk).
  assert (EE : nth k (bidx ies jl) 0%nat = nth k (bidx ies' jl') 0%nat) by congruence. unfold bidx in EE. rewrite !nth_map_seq in EE by auto.
  apply gcoef_shared; auto. apply HOk; auto. apply HG. apply HCk; auto. apply (ies_lt kps ies H1 k Hk). apply (ies_lt kps ies' H2 k Hk). lia. lia.
Qed.
End Patch.
