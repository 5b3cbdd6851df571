(** C205-C207: membranes: deformation, residual and tangent stiffness. *)
From Coq Require Import Reals Lra.
From Coquelicot Require Import Coquelicot.
From Verif Require Import Base M_membrane.
Open Scope R_scope.

(** ** Specification *)
(** The displacements [u + t v]. *)
Definition moved (u v : field) (t : R) : field := fun m i => u m i + t * v m i.
(** The product of a vector by the field [v] stored component by component. *)
Definition work (n : nat) (f : nat -> R) (v : field) : R := sm (3 * n) (fun r => f r * v (r mod n)%nat (r / n)%nat).
(** The deformation gradient of a thin flat body: the positions are [X + u], [X] in the plane. *)
Definition def_grad (n : nat) (g : nat -> nat -> R) (u : field) (i a : nat) : R :=
  (if Nat.eqb i a then 1 else 0) + sm n (fun m => u m i * g a m).
(** The right Cauchy-Green tensor in 3D; the thickness changes so that the volume is kept. *)
Definition cg2 (n : nat) (g : nat -> nat -> R) (u : field) (a b : nat) : R := sm 3 (fun i => def_grad n g u i a * def_grad n g u i b).
Definition area2 n g u : R := cg2 n g u 0 0 * cg2 n g u 1 1 - cg2 n g u 0 1 * cg2 n g u 1 0.
Definition cg3 n g u (a b : nat) : R :=
  if (Nat.ltb a 2 && Nat.ltb b 2)%bool then cg2 n g u a b else if Nat.eqb a b then / area2 n g u else 0.
Definition trace3 (c : nat -> nat -> R) : R := sm 3 (fun a => c a a).
Definition inv1 (c : nat -> nat -> R) : R := trace3 c.
Definition inv2 (c : nat -> nat -> R) : R := / 2 * (trace3 c * trace3 c - trace3 (fun a b => sm 3 (fun k => c a k * c k b))).
(** The Mooney-Rivlin strain energy. *)
Definition energy n g a1 a2 u : R := a1 * (inv1 (cg3 n g u) - 3) + a2 * (inv2 (cg3 n g u) - 3).

(** ** Sums *)
Lemma sm_ext : forall n f h, (forall i, (i < n)%nat -> f i = h i) -> sm n f = sm n h.
Proof. induction n as [|n IH]; intros f h H; [reflexivity|]. simpl. rewrite H by lia. rewrite (IH f h); auto. Qed.
Lemma sm_plus : forall n f h, sm n (fun i => f i + h i) = sm n f + sm n h.
Proof. induction n as [|n IH]; intros f h; simpl; [ring|]. rewrite IH. ring. Qed.
Lemma sm_scale : forall n k f, sm n (fun i => k * f i) = k * sm n f.
Proof. induction n as [|n IH]; intros k f; simpl; [ring|]. rewrite IH. ring. Qed.
Lemma sm_zero : forall n f, (forall i, (i < n)%nat -> f i = 0) -> sm n f = 0.
Proof. induction n as [|n IH]; intros f H; [reflexivity|]. simpl. rewrite H by lia. rewrite IH; [ring|]. auto. Qed.
Lemma sm_app : forall k n f, sm (n + k) f = sm n f + sm k (fun j => f (n + j)%nat).
Proof. induction k as [|k IH]; intros n f; simpl; [rewrite Nat.add_0_r; ring|]. rewrite Nat.add_succ_r. simpl. rewrite IH. ring. Qed.
Lemma sm_three : forall n f, sm (3 * n) f = sm 3 (fun i => sm n (fun m => f (i * n + m)%nat)).
Proof.
  intros n f. replace (3 * n)%nat with (n + (n + n))%nat by lia. rewrite !sm_app. cbn [sm].
  replace (sm n (fun m => f (0 * n + m)%nat)) with (sm n f) by (apply sm_ext; intros; f_equal; lia).
  replace (sm n (fun m => f (1 * n + m)%nat)) with (sm n (fun j => f (n + j)%nat)) by (apply sm_ext; intros; f_equal; lia).
  replace (sm n (fun m => f (2 * n + m)%nat)) with (sm n (fun j => f (n + (n + j))%nat)) by (apply sm_ext; intros; f_equal; lia).
  ring.
Qed.
Lemma work_blocks : forall n f v, work n f v = sm 3 (fun i => sm n (fun m => f (i * n + m)%nat * v m i)).
Proof.
  intros n f v. unfold work. rewrite sm_three. apply sm_ext. intros i I. apply sm_ext. intros m M.
  rewrite (Nat.add_comm (i * n)), Nat.mod_add, Nat.div_add, Nat.mod_small, Nat.div_small by lia. reflexivity.
Qed.
Lemma work_plus : forall n f h v, work n (fun r => f r + h r) v = work n f v + work n h v.
Proof. intros. unfold work. rewrite <- sm_plus. apply sm_ext. intros. ring. Qed.
Lemma work_scale : forall n k f v, work n (fun r => f r * k) v = work n f v * k.
Proof. intros. unfold work. rewrite Rmult_comm, <- sm_scale. apply sm_ext. intros. ring. Qed.

Section Mem.
Variables (n : nat) (g : nat -> nat -> R).
(** The gradient of a virtual displacement. *)
Definition dg (v : field) (a i : nat) : R := sm n (fun m => g a m * v m i).
Lemma grad_eq : forall u a i, def_grad n g u i a = mtx_f n g u a i.
Proof.
  intros u a i. unfold def_grad, mtx_f. rewrite (Nat.eqb_sym i a). rewrite Rplus_comm. f_equal. apply sm_ext. intros. ring.
Qed.
Lemma cg_eq : forall u a b, cg2 n g u a b = mtx_c n g u a b.
Proof. intros. unfold cg2, mtx_c. apply sm_ext. intros. now rewrite !grad_eq. Qed.
Lemma c_sym : forall u a b, mtx_c n g u a b = mtx_c n g u b a.
Proof. intros. unfold mtx_c. apply sm_ext. intros. ring. Qed.
Lemma area_eq : forall u, area2 n g u = mtx_c n g u 0 0 * mtx_c n g u 1 1 - mtx_c n g u 0 1 * mtx_c n g u 0 1.
Proof. intros. unfold area2. rewrite !cg_eq, (c_sym u 1 0). reflexivity. Qed.
Lemma f_moved : forall u v t a i, mtx_f n g (moved u v t) a i = mtx_f n g u a i + t * dg v a i.
Proof.
  intros. unfold mtx_f, dg, moved. rewrite <- sm_scale.
  replace (sm n (fun m => g a m * (u m i + t * v m i))) with (sm n (fun m => g a m * u m i) + sm n (fun m => t * (g a m * v m i))).
  - ring.
  - rewrite <- sm_plus. apply sm_ext. intros. ring.
Qed.
(** [B v] in terms of the gradients. *)
Definition bv (u v : field) (r : nat) : R :=
  match r with
  | O => sm 3 (fun i => mtx_f n g u 0 i * dg v 0 i)
  | S O => sm 3 (fun i => mtx_f n g u 1 i * dg v 1 i)
  | _ => sm 3 (fun i => mtx_f n g u 0 i * dg v 1 i + mtx_f n g u 1 i * dg v 0 i)
  end.
Lemma b_work : forall u v r, work n (mtx_b n g u r) v = bv u v r.
Proof.
  intros u v r. rewrite work_blocks.
  assert (E : forall i m, (i < 3)%nat -> (m < n)%nat -> mtx_b n g u r (i * n + m) =
    match r with O => g 0%nat m * mtx_f n g u 0 i | S O => g 1%nat m * mtx_f n g u 1 i
    | _ => g 1%nat m * mtx_f n g u 0 i + g 0%nat m * mtx_f n g u 1 i end).
  { intros i m I M. unfold mtx_b. rewrite (Nat.add_comm (i * n)), Nat.mod_add, Nat.div_add, Nat.mod_small, Nat.div_small by lia.
    rewrite Nat.add_0_l. destruct r as [|[|r]]; [reflexivity..|]. destruct i; ring. }
  destruct r as [|[|r]]; cbn [bv]; apply sm_ext; intros i I; unfold dg; rewrite <- !sm_scale; rewrite <- ?sm_plus; apply sm_ext; intros m M;
    rewrite E by auto; ring.
Qed.
Lemma c_moved : forall u v t a b, mtx_c n g (moved u v t) a b =
  mtx_c n g u a b + t * sm 3 (fun i => mtx_f n g u a i * dg v b i + mtx_f n g u b i * dg v a i) + t * t * sm 3 (fun i => dg v a i * dg v b i).
Proof. intros. unfold mtx_c. simpl. rewrite !f_moved. ring. Qed.
Lemma c_moved_b : forall u v t,
  mtx_c n g (moved u v t) 0 0 = mtx_c n g u 0 0 + t * (2 * bv u v 0) + t * t * sm 3 (fun i => dg v 0 i * dg v 0 i) /\
  mtx_c n g (moved u v t) 1 1 = mtx_c n g u 1 1 + t * (2 * bv u v 1) + t * t * sm 3 (fun i => dg v 1 i * dg v 1 i) /\
  mtx_c n g (moved u v t) 0 1 = mtx_c n g u 0 1 + t * bv u v 2 + t * t * sm 3 (fun i => dg v 0 i * dg v 1 i).
Proof. intros. rewrite !c_moved. cbn [bv sm]. repeat split; ring. Qed.
Lemma energy_eq : forall a1 a2 u, area2 n g u <> 0 -> energy n g a1 a2 u =
  let c := mtx_c n g u in let j := / (c 0%nat 0%nat * c 1%nat 1%nat - c 0%nat 1%nat * c 0%nat 1%nat) in
  a1 * (c 0%nat 0%nat + c 1%nat 1%nat + j - 3) + a2 * (c 0%nat 0%nat * c 1%nat 1%nat + (c 0%nat 0%nat + c 1%nat 1%nat) * j - c 0%nat 1%nat * c 0%nat 1%nat - 3).
Proof.
  intros a1 a2 u A. unfold energy, inv1, inv2, trace3, cg3. rewrite area_eq in *. simpl. rewrite !cg_eq, (c_sym u 1 0). field. exact A.
Qed.
Lemma bv_moved : forall u v w t r, (r < 3)%nat -> bv (moved u w t) v r = bv u v r + t *
  match r with O => sm 3 (fun i => dg w 0 i * dg v 0 i) | S O => sm 3 (fun i => dg w 1 i * dg v 1 i)
  | _ => sm 3 (fun i => dg w 0 i * dg v 1 i + dg w 1 i * dg v 0 i) end.
Proof. intros u v w t [|[|[|r]]] H; try lia; cbn [bv sm]; rewrite !f_moved; ring. Qed.

Lemma residual_work : forall a1 a2 u v, work n (residual n g a1 a2 u) v =
  bv u v 0 * stress n g a1 a2 u 0 + bv u v 1 * stress n g a1 a2 u 1 + bv u v 2 * stress n g a1 a2 u 2.
Proof.
  intros. unfold residual. cbn [sm]. rewrite !work_plus, !work_scale, !b_work.
  replace (work n (fun _ => 0) v) with 0; [ring|]. symmetry.
  unfold work. apply sm_zero. intros. ring.
Qed.
Lemma stiffness_work : forall a1 a2 u v w,
  work n (fun row => work n (stiffness n g a1 a2 u row) w) v =
  sm 3 (fun s => sm 3 (fun r => bv u v r * tangent n g a1 a2 u r s) * bv u w s) +
  (stress n g a1 a2 u 0 * sm 3 (fun i => dg v 0 i * dg w 0 i) + stress n g a1 a2 u 1 * sm 3 (fun i => dg v 1 i * dg w 1 i) +
   stress n g a1 a2 u 2 * sm 3 (fun i => dg v 0 i * dg w 1 i + dg v 1 i * dg w 0 i)).
Proof.
  intros a1 a2 u v w.
  assert (Z : forall x, work n (fun _ => 0) x = 0).
  { intros x. unfold work. apply sm_zero. intros. ring. }
  assert (X : forall row, work n (stiffness n g a1 a2 u row) w = work n (tangent_stress n g (stress n g a1 a2 u) row) w +
    sm 3 (fun s => sm 3 (fun r => mtx_b n g u r row * tangent n g a1 a2 u r s) * bv u w s)).
  { intros row. unfold stiffness. rewrite work_plus. f_equal. cbn [sm]. rewrite !work_plus, Z.
    assert (S : forall k r, work n (fun col => k * mtx_b n g u r col) w = k * bv u w r).
    { intros k r. rewrite <- b_work, Rmult_comm, <- work_scale. unfold work. apply sm_ext. intros. ring. }
    rewrite !S. ring. }
  unfold work at 1. erewrite sm_ext by (intros; rewrite X; reflexivity).
  change (sm (3 * n) (fun i => (work n (tangent_stress n g (stress n g a1 a2 u) i) w +
      sm 3 (fun s => sm 3 (fun r => mtx_b n g u r i * tangent n g a1 a2 u r s) * bv u w s)) * v (i mod n)%nat (i / n)%nat))
    with (work n (fun i => work n (tangent_stress n g (stress n g a1 a2 u) i) w +
      sm 3 (fun s => sm 3 (fun r => mtx_b n g u r i * tangent n g a1 a2 u r s) * bv u w s)) v).
  rewrite work_plus, Rplus_comm. f_equal.
  - cbn [sm]. rewrite !work_plus, !work_scale, !work_plus, !work_scale, !Z, !b_work. ring.
  - set (s := stress n g a1 a2 u). clearbody s. rewrite work_blocks.
    assert (Y : forall i k, (i < 3)%nat -> (k < n)%nat -> work n (tangent_stress n g s (i * n + k)) w =
      s 0%nat * (g 0%nat k * dg w 0 i) + s 2%nat * (g 0%nat k * dg w 1 i) + s 2%nat * (g 1%nat k * dg w 0 i) + s 1%nat * (g 1%nat k * dg w 1 i)).
    { intros i k I K. rewrite work_blocks.
      assert (Y : forall j m, (j < 3)%nat -> (m < n)%nat -> tangent_stress n g s (i * n + k) (j * n + m) =
        if Nat.eqb i j then s 0%nat * (g 0%nat k * g 0%nat m) + s 2%nat * (g 0%nat k * g 1%nat m) + s 2%nat * (g 1%nat k * g 0%nat m) + s 1%nat * (g 1%nat k * g 1%nat m) else 0).
      { intros j m J M. unfold tangent_stress.
        rewrite !(Nat.add_comm (_ * n)), !Nat.mod_add, !Nat.div_add, !Nat.mod_small, !Nat.div_small by lia. reflexivity. }
      set (T := fun m => s 0%nat * (g 0%nat k * g 0%nat m) + s 2%nat * (g 0%nat k * g 1%nat m) + s 2%nat * (g 1%nat k * g 0%nat m) + s 1%nat * (g 1%nat k * g 1%nat m)) in *.
      assert (V : sm n (fun m => T m * w m i) = s 0%nat * (g 0%nat k * dg w 0 i) + s 2%nat * (g 0%nat k * dg w 1 i) + s 2%nat * (g 1%nat k * dg w 0 i) + s 1%nat * (g 1%nat k * dg w 1 i)).
      { unfold dg. rewrite <- !sm_scale, <- !sm_plus. apply sm_ext. intros. unfold T. rewrite <- ?sm_scale. ring. }
      rewrite <- V.
      assert (U : forall j, (j < 3)%nat -> sm n (fun m => tangent_stress n g s (i * n + k) (j * n + m) * w m j) = if Nat.eqb i j then sm n (fun m => T m * w m i) else 0).
      { intros j J. destruct (Nat.eqb_spec i j) as [<-|N].
        - apply sm_ext. intros. rewrite Y by auto. rewrite Nat.eqb_refl. reflexivity.
        - apply sm_zero. intros. rewrite Y by auto. rewrite (proj2 (Nat.eqb_neq i j) N). ring. }
      cbn [sm]. rewrite !U by lia. destruct i as [|[|[|i]]]; try lia; cbn [Nat.eqb]; ring. }
    erewrite sm_ext. 2: { intros i I. erewrite sm_ext. 2: { intros k K. rewrite Y by auto. reflexivity. } reflexivity. }
    assert (W : forall i, sm n (fun k => (s 0%nat * (g 0%nat k * dg w 0 i) + s 2%nat * (g 0%nat k * dg w 1 i) + s 2%nat * (g 1%nat k * dg w 0 i) + s 1%nat * (g 1%nat k * dg w 1 i)) * v k i) =
      s 0%nat * (dg v 0 i * dg w 0 i) + s 2%nat * (dg v 0 i * dg w 1 i) + s 2%nat * (dg v 1 i * dg w 0 i) + s 1%nat * (dg v 1 i * dg w 1 i)).
    { intros i. replace (s 0%nat * (dg v 0 i * dg w 0 i) + s 2%nat * (dg v 0 i * dg w 1 i) + s 2%nat * (dg v 1 i * dg w 0 i) + s 1%nat * (dg v 1 i * dg w 1 i))
        with ((s 0%nat * dg w 0 i + s 2%nat * dg w 1 i) * dg v 0 i + (s 2%nat * dg w 0 i + s 1%nat * dg w 1 i) * dg v 1 i) by ring.
      change (dg v 0 i) with (sm n (fun m => g 0%nat m * v m i)). change (dg v 1 i) with (sm n (fun m => g 1%nat m * v m i)).
      rewrite <- !sm_scale, <- sm_plus. apply sm_ext. intros. ring. }
    erewrite sm_ext by (intros; apply W). cbn [sm]. ring.
Qed.
End Mem.

(** C205: for every displacement field with a nonzero area the residual is the derivative of
    the Mooney-Rivlin energy of an incompressible membrane in the direction of each
    virtual displacement. *)
Theorem C205_membrane_residual : forall n g a1 a2 u v, area2 n g u <> 0 ->
  derivable_pt_lim (fun t => energy n g a1 a2 (moved u v t)) 0 (work n (residual n g a1 a2 u) v).
Proof.
  intros n g a1 a2 u v A. apply is_derive_Reals. rewrite residual_work.
  set (p1 := 2 * bv n g u v 0). set (q1 := 2 * bv n g u v 1). set (r1 := bv n g u v 2).
  set (p2 := sm 3 (fun i => dg n g v 0 i * dg n g v 0 i)). set (q2 := sm 3 (fun i => dg n g v 1 i * dg n g v 1 i)).
  set (r2 := sm 3 (fun i => dg n g v 0 i * dg n g v 1 i)).
  rewrite area_eq in A. unfold stress, mr_stress, pressure, a12, a22, c33.
  set (p0 := mtx_c n g u 0 0) in *. set (q0 := mtx_c n g u 1 1) in *. set (r0 := mtx_c n g u 0 1) in *.
  set (J := fun t => (p0 + t * p1 + t * t * p2) * (q0 + t * q1 + t * t * q2) - (r0 + t * r1 + t * t * r2) * (r0 + t * r1 + t * t * r2)).
  assert (J0 : J 0 = p0 * q0 - r0 * r0) by (unfold J; ring).
  assert (E : forall t, area2 n g (moved u v t) = J t).
  { intros t. rewrite area_eq. destruct (c_moved_b n g u v t) as (-> & -> & ->). reflexivity. }
  assert (C : continuous J 0). { apply (ex_derive_continuous J). unfold J. auto_derive. exact I. }
  apply (is_derive_ext_loc (fun t => a1 * (p0 + t * p1 + t * t * p2 + (q0 + t * q1 + t * t * q2) + / J t - 3) +
    a2 * ((p0 + t * p1 + t * t * p2) * (q0 + t * q1 + t * t * q2) + (p0 + t * p1 + t * t * p2 + (q0 + t * q1 + t * t * q2)) * / J t -
      (r0 + t * r1 + t * t * r2) * (r0 + t * r1 + t * t * r2) - 3))).
  - assert (O : locally (J 0) (fun y => y <> 0)) by (rewrite J0; apply open_neq; exact A).
    apply (filter_imp (fun t => J t <> 0)); [|exact (C _ O)]. intros t H. rewrite energy_eq by (rewrite E; exact H). cbv zeta.
    destruct (c_moved_b n g u v t) as (-> & -> & ->). reflexivity.
  - unfold J. auto_derive; [repeat split; fold (J 0); rewrite ?J0; auto; intros X; apply A; rewrite <- X; ring|].
    replace (bv n g u v 0) with (p1 / 2) by (unfold p1; field). replace (bv n g u v 1) with (q1 / 2) by (unfold q1; field). fold r1.
    field; repeat split; try exact A; intros X; apply A; rewrite <- X; ring.
Qed.

(** C206: the tangent stiffness matrix is the derivative of the residual. *)
Theorem C206_membrane_tangent : forall n g a1 a2 u v w, area2 n g u <> 0 ->
  derivable_pt_lim (fun t => work n (residual n g a1 a2 (moved u w t)) v) 0
    (work n (fun row => work n (stiffness n g a1 a2 u row) w) v).
Proof.
  intros n g a1 a2 u v w A. apply is_derive_Reals. rewrite stiffness_work.
  apply (is_derive_ext (fun t => sm 3 (fun r => bv n g (moved u w t) v r * stress n g a1 a2 (moved u w t) r))).
  { intros t. rewrite residual_work. cbn [sm]. match goal with |- @eq _ ?a ?b => change (@eq R a b) end. ring. }
  set (p1 := 2 * bv n g u w 0). set (q1 := 2 * bv n g u w 1). set (r1 := bv n g u w 2).
  set (p2 := sm 3 (fun i => dg n g w 0 i * dg n g w 0 i)). set (q2 := sm 3 (fun i => dg n g w 1 i * dg n g w 1 i)).
  set (r2 := sm 3 (fun i => dg n g w 0 i * dg n g w 1 i)).
  rewrite area_eq in A.
  set (p0 := mtx_c n g u 0 0) in *. set (q0 := mtx_c n g u 1 1) in *. set (r0 := mtx_c n g u 0 1) in *.
  set (e0 := sm 3 (fun i => dg n g v 0 i * dg n g w 0 i)). set (e1 := sm 3 (fun i => dg n g v 1 i * dg n g w 1 i)).
  set (e2 := sm 3 (fun i => dg n g v 0 i * dg n g w 1 i + dg n g v 1 i * dg n g w 0 i)).
  set (b0 := bv n g u v 0). set (b1 := bv n g u v 1). set (b2 := bv n g u v 2).
  set (P := fun t => p0 + t * p1 + t * t * p2). set (Q := fun t => q0 + t * q1 + t * t * q2). set (T := fun t => r0 + t * r1 + t * t * r2).
  apply (is_derive_ext (fun t => let j := 1 / (P t * Q t - T t * T t) in
    (b0 + t * e0) * mr_stress a1 a2 (P t) (T t) (Q t) j 0 + (b1 + t * e1) * mr_stress a1 a2 (P t) (T t) (Q t) j 1 + (b2 + t * e2) * mr_stress a1 a2 (P t) (T t) (Q t) j 2)).
  { intros t. cbn [sm]. unfold stress, c33. destruct (c_moved_b n g u w t) as (-> & -> & ->). rewrite !bv_moved by lia.
    fold b0 b1 b2. replace (sm 3 (fun i => dg n g w 0 i * dg n g v 0 i)) with e0 by (unfold e0; cbn [sm]; ring).
    replace (sm 3 (fun i => dg n g w 1 i * dg n g v 1 i)) with e1 by (unfold e1; cbn [sm]; ring).
    replace (sm 3 (fun i => dg n g w 0 i * dg n g v 1 i + dg n g w 1 i * dg n g v 0 i)) with e2 by (unfold e2; cbn [sm]; ring).
    cbv zeta. unfold P, Q, T. fold p0 q0 r0 p1 q1 r1 p2 q2 r2. match goal with |- @eq _ ?a ?b => change (@eq R a b) end. ring. }
  cbn [sm]. unfold stress, tangent, c33. fold p0 q0 r0.
  unfold mr_tangent. cbn [Nat.max Nat.min]. unfold dp11, dp22, dp12, mr_stress, pressure, a12, a22, P, Q, T. fold b0 b1 b2 r1.
  replace (bv n g u w 0) with (p1 / 2) by (unfold p1; field). replace (bv n g u w 1) with (q1 / 2) by (unfold q1; field).
  clearbody p0 q0 r0 p1 q1 r1 p2 q2 r2 e0 e1 e2 b0 b1 b2. clear P Q T.
  cbv zeta. auto_derive.
  - repeat split; intros X; apply A; rewrite <- X; ring.
  - field; repeat split; try exact A; intros X; apply A; rewrite <- X; ring.
Qed.
Theorem C206_membrane_symmetric : forall n g a1 a2 u row col,
  stiffness n g a1 a2 u row col = stiffness n g a1 a2 u col row.
Proof.
  intros. unfold stiffness. f_equal.
  - unfold tangent_stress. rewrite Nat.eqb_sym. destruct (Nat.eqb (col / n) (row / n)); ring.
  - cbn [sm]. unfold tangent, mr_tangent. cbn [Nat.max Nat.min]. ring.
Qed.

(** C207: the invariants and the Green strain are those of the 3D tensor, whose determinant
    is 1. *)
Definition det3 (c : nat -> nat -> R) : R :=
  c 0%nat 0%nat * (c 1%nat 1%nat * c 2%nat 2%nat - c 1%nat 2%nat * c 2%nat 1%nat)
  - c 0%nat 1%nat * (c 1%nat 0%nat * c 2%nat 2%nat - c 1%nat 2%nat * c 2%nat 0%nat)
  + c 0%nat 2%nat * (c 1%nat 0%nat * c 2%nat 1%nat - c 1%nat 1%nat * c 2%nat 0%nat).
Definition green (c : nat -> nat -> R) (a b : nat) : R := / 2 * (c a b - if Nat.eqb a b then 1 else 0).
Theorem C207_membrane_strain : forall n g u, area2 n g u <> 0 ->
  det3 (cg3 n g u) = 1 /\ 0 < area2 n g u /\
  invariants (mtx_c n g u) (c33 n g u) = (inv1 (cg3 n g u), inv2 (cg3 n g u)) /\
  green_strain (mtx_c n g u) (c33 n g u) =
    map (fun q => green (cg3 n g u) (fst q) (snd q)) [(0, 0); (1, 1); (2, 2); (0, 1); (0, 2); (1, 2)]%nat.
Proof.
  intros n g u A. assert (E : c33 n g u = / area2 n g u) by (rewrite area_eq; unfold c33; field; rewrite <- area_eq; exact A).
  split; [|split; [|split]].
  - unfold det3, cg3. cbn [Nat.ltb Nat.leb Nat.eqb andb]. unfold area2 in *. field. exact A.
  - assert (P : 0 <= area2 n g u); [|lra]. unfold area2, cg2. cbn [sm].
    set (a := def_grad n g u 0 0). set (b := def_grad n g u 1 0). set (c := def_grad n g u 2 0).
    set (d := def_grad n g u 0 1). set (e := def_grad n g u 1 1). set (f := def_grad n g u 2 1).
    match goal with |- 0 <= ?x => replace x with (Rsqr (a * e - b * d) + Rsqr (a * f - c * d) + Rsqr (b * f - c * e)) by (unfold Rsqr; ring) end.
    pose proof (Rle_0_sqr (a * e - b * d)). pose proof (Rle_0_sqr (a * f - c * d)). pose proof (Rle_0_sqr (b * f - c * e)). lra.
  - unfold invariants, inv1, inv2, trace3, cg3. rewrite E. cbn [sm Nat.ltb Nat.leb Nat.eqb andb]. rewrite !cg_eq, (c_sym n g u 1 0). f_equal; field; exact A.
  - unfold green_strain, green, cg3. rewrite E. cbn [map fst snd Nat.ltb Nat.leb Nat.eqb andb]. rewrite !cg_eq.
    repeat (apply f_equal2; [lra|]). reflexivity.
Qed.

(** The undeformed membrane has the area 1. *)
Example C205_example : area2 3 (fun _ _ => 1) (fun _ _ => 0) = 1.
Proof. unfold area2, cg2, def_grad. simpl. ring. Qed.

Print Assumptions C205_membrane_residual.
Print Assumptions C206_membrane_tangent.
Print Assumptions C206_membrane_symmetric.
Print Assumptions C207_membrane_strain.
