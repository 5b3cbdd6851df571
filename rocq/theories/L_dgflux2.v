(** Traces, prescribed values and sums over facing sides. *)
From Coq Require Import Reals ZArith Lra Permutation.
From Verif Require Import Base M_fmf L_fmf M_dgflux S_dgflux L_dgflux.
Open Scope R_scope.

Lemma npidx_nat : forall n k, npidx n (Z.of_nat k) = k.
Proof. intros. unfold npidx. destruct (Z.ltb_spec (Z.of_nat k) 0); lia. Qed.
Lemma npidx_nn : forall n z, (0 <= z)%Z -> npidx n z = Z.to_nat z.
Proof. intros. unfold npidx. destruct (Z.ltb_spec z 0); lia. Qed.

Lemma set_ebc_other : forall F e v i f q, (forall g, ~ In (i, f, g) e) -> set_ebc F e v i f q = v i f q.
Proof.
  unfold set_ebc. induction e as [|[[c j] g] e IH]; intros v i f q H; [reflexivity|]. cbn [fold_left].
  rewrite IH; [|intros g' K; apply (H g'); now right].
  destruct (Nat.eqb_spec i c), (Nat.eqb_spec f j); cbn; auto. subst. exfalso. apply (H g). now left.
Qed.
Lemma set_ebc_hit : forall F e v i f q g, NoDup (map fst e) -> In (i, f, g) e -> set_ebc F e v i f q = g (nq F - 1 - q)%nat.
Proof.
  induction e as [|[[c j] g'] e IH]; intros v i f q g ND I; [destruct I|]. cbn in ND. inversion ND; subst.
  destruct I as [E|I].
  - injection E as -> -> ->.
    change (set_ebc F e (fun i' f' q => if ((i' =? i) && (f' =? f))%bool then g (nq F - 1 - q)%nat else v i' f' q) i f q = g (nq F - 1 - q)%nat).
    rewrite set_ebc_other; [now rewrite !Nat.eqb_refl|].
    intros g' K. apply H1. change (i, f) with (fst (i, f, g')). now apply in_map.
  - unfold set_ebc. cbn [fold_left]. apply IH; auto.
Qed.

Lemma in_v_trace : forall F u i f q, in_v F u i f q = trace F u i f q.
Proof. reflexivity. Qed.
Lemma in_vd_trace : forall F u k i f q, in_vd F u k i f q = dtrace F u k i f q.
Proof. reflexivity. Qed.

(** The outer values are those seen across the side. *)
Lemma out_v_seen : forall F e u i f q, NoDup (map fst e) -> seen F e u i f q (out_v F e u i f q).
Proof.
  intros F e u i f q ND. unfold out_v. split.
  - intros g I. now apply set_ebc_hit.
  - intros A. rewrite set_ebc_other by auto. split.
    + unfold bnd. intro B. apply Z.ltb_lt in B. now rewrite B.
    + intros i' f' (E0 & E1). rewrite E0.
      destruct (Z.ltb_spec (Z.of_nat i') 0); [lia|]. unfold trace, out_b, dofs.
      apply sm_ext. intros d _. rewrite E1, !npidx_nat. reflexivity.
Qed.
Lemma out_v_nil : forall F u i f q i' f', facing F i f i' f' -> out_v F [] u i f q = trace F u i' f' (nq F - 1 - q)%nat.
Proof. intros. destruct (out_v_seen F [] u i f q) as [_ X]; [constructor|]. apply X; auto. Qed.
Lemma out_v_bnd : forall F u i f q, bnd F i f -> out_v F [] u i f q = 0.
Proof. intros. destruct (out_v_seen F [] u i f q) as [_ X]; [constructor|]. apply X; auto. Qed.

(** With boundary data, the outer values are affine in the state: data at the
    boundary, the trace of the neighbour inside. *)
Lemma ebc_dec : forall (e : ebcs) i f, (exists g, In (i, f, g) e) \/ (forall g, ~ In (i, f, g) e).
Proof.
  induction e as [|[[c j] g] e IH]; intros i f; [right; intros ? []|].
  destruct (IH i f) as [[g' H]|H]; [left; exists g'; now right|].
  destruct (Nat.eq_dec i c) as [->|N]; [destruct (Nat.eq_dec f j) as [->|N']|].
  - left. exists g. now left.
  - right. intros g' [E|K]; [congruence|]. now apply (H g').
  - right. intros g' [E|K]; [congruence|]. now apply (H g').
Qed.
Lemma set_ebc_split : forall F e A i f q, boundary_data F e ->
  set_ebc F e (fun i f q => if (n0 F i f <? 0)%Z then 0 else A i f q) i f q =
  set_ebc F e (fun _ _ _ => 0) i f q + (if (n0 F i f <? 0)%Z then 0 else A i f q).
Proof.
  intros F e A i f q (ND & B). destruct (ebc_dec e i f) as [[g H]|H].
  - rewrite !(set_ebc_hit F e _ i f q g) by auto. specialize (B _ _ _ H). unfold bnd in B. apply Z.ltb_lt in B. rewrite B. lra.
  - rewrite !set_ebc_other by auto. lra.
Qed.
Definition bval (F : field) (e : ebcs) (i f q : nat) : R := set_ebc F e (fun _ _ _ => 0) i f q.
Lemma out_v_affine : forall F e u i f q, boundary_data F e ->
  out_v F e u i f q = bval F e i f q + on_int F (fun i f =>
     sm (nnod F) (fun b => out_b F i b f q * u (Z.to_nat (n0 F i f) * nnod F + b)%nat)) i f.
Proof.
  intros F e u i f q H. unfold out_v.
  rewrite (set_ebc_split F e (fun i f q => sm (nnod F) (fun d => dofs F u (npidx (ncell F) (n0 F i f)) d * out_b F i d f q))) by auto.
  unfold bval, on_int. f_equal. destruct (Z.ltb_spec (n0 F i f) 0); [auto|].
  apply sm_ext. intros b _. rewrite npidx_nn by auto. unfold dofs. lra.
Qed.
Lemma out_vd_affine : forall F e1 u k i f q, boundary_data F (e1 k) ->
  out_vd F e1 u k i f q = bval F (e1 k) i f q + on_int F (fun i f =>
     sm (nnod F) (fun b => out_bd F i b f k q * u (Z.to_nat (n0 F i f) * nnod F + b)%nat)) i f.
Proof.
  intros F e1 u k i f q H. unfold out_vd.
  rewrite (set_ebc_split F (e1 k) (fun i f q => sm (nnod F) (fun d => dofs F u (npidx (ncell F) (n0 F i f)) d * out_bd F i d f k q))) by auto.
  unfold bval, on_int. f_equal. destruct (Z.ltb_spec (n0 F i f) 0); [auto|].
  apply sm_ext. intros b _. rewrite npidx_nn by auto. unfold dofs. lra.
Qed.

(** ** Sums over facing sides *)
Definition other (F : field) (p : nat * nat) : nat * nat := (Z.to_nat (n0 F (fst p) (snd p)), Z.to_nat (n1 F (fst p) (snd p))).
Lemma mutual_other : forall F, mutual F -> forall p, In p (active F) ->
  In (other F p) (active F) /\ other F (other F p) = p /\
  facing F (fst p) (snd p) (fst (other F p)) (snd (other F p)) /\
  facing F (fst (other F p)) (snd (other F p)) (fst p) (snd p).
Proof.
  intros F M [i f] H. apply in_active in H. destruct H as (Hi & Hf & P).
  destruct (M i f Hi Hf) as (i' & f' & Hi' & Hf' & (A & B) & (A' & B')); [unfold bnd; lia|].
  assert (E : other F (i, f) = (i', f')) by (unfold other; cbn [fst snd]; rewrite A, B, !Nat2Z.id; reflexivity).
  rewrite E. cbn [fst snd]. split; [apply in_active; repeat split; auto; lia|]. split.
  - unfold other; cbn [fst snd]. rewrite A', B', !Nat2Z.id. reflexivity.
  - repeat split; auto.
Qed.
Lemma active_NoDup : forall F, NoDup (active F).
Proof.
  intros. unfold active. apply NoDup_filter.
  assert (forall (l l' : list nat), NoDup l -> NoDup l' -> NoDup (list_prod l l')).
  { induction l as [|x l IH]; intros l' N N'; [constructor|]. inversion N; subst. cbn.
    assert (NoDup (map (fun y => (x, y)) l')) by (apply NoDup_map_in; auto; intros; congruence).
    specialize (IH l' H2 N').
    assert (Dis : forall p, In p (map (fun y => (x, y)) l') -> ~ In p (list_prod l l')).
    { intros p Q K. apply in_map_iff in Q. destruct Q as (y & <- & _). apply in_prod_iff in K. tauto. }
    revert H Dis. generalize (map (fun y => (x, y)) l'). induction l0 as [|p l0 IH0]; intros ND Dis; [exact IH|].
    inversion ND; subst. cbn. constructor.
    - intro K. apply in_app_or in K. destruct K; [auto|]. apply (Dis p); cbn; auto.
    - apply IH0; auto. intros; apply Dis; cbn; auto. }
  apply H; apply seq_NoDup.
Qed.
Lemma over_int_active : forall F G, over_sides F (on_int F G) = sumL (fun p => G (fst p) (snd p)) (active F).
Proof.
  intros. unfold active. rewrite sumL_filter.
  rewrite (sumL_prod (ncell F) (nfac F) (fun i f => if (0 <=? n0 F i f)%Z then G i f else 0)).
  unfold over_sides, on_int. apply sm_ext. intros i _. apply sm_ext. intros f _.
  destruct (Z.leb_spec 0 (n0 F i f)), (Z.ltb_spec (n0 F i f) 0); auto; lia.
Qed.
(** Summing over all inner sides, each side can be replaced by the facing one. *)
Lemma swap_sides : forall F G, mutual F ->
  over_sides F (on_int F G) = over_sides F (on_int F (fun i f => G (Z.to_nat (n0 F i f)) (Z.to_nat (n1 F i f)))).
Proof.
  intros F G M. rewrite !over_int_active.
  rewrite <- (sumL_map _ _ (other F) (fun p => G (fst p) (snd p))).
  apply sumL_perm. apply Permutation_sym. apply NoDup_Permutation_bis.
  - apply NoDup_map_in; [apply active_NoDup|]. intros x y Hx Hy E.
    destruct (mutual_other F M x Hx) as (_ & X & _), (mutual_other F M y Hy) as (_ & Y & _). congruence.
  - rewrite map_length. lia.
  - intros x Hx. apply in_map_iff in Hx. destruct Hx as (y & <- & Hy). apply (mutual_other F M y Hy).
Qed.
Lemma over_sides_ext : forall F G H, (forall i f, (i < ncell F)%nat -> (f < nfac F)%nat -> G i f = H i f) ->
  over_sides F G = over_sides F H.
Proof. intros. apply sm_ext. intros i Hi. apply sm_ext. intros f Hf. auto. Qed.
Lemma over_sides_plus : forall F G H, over_sides F (fun i f => G i f + H i f) = over_sides F G + over_sides F H.
Proof. intros. unfold over_sides. rewrite <- sm_plus. apply sm_ext. intros i _. apply sm_plus. Qed.
Lemma over_sides_scal : forall F c G, over_sides F (fun i f => c * G i f) = c * over_sides F G.
Proof. intros. unfold over_sides. rewrite <- sm_scal. apply sm_ext. intros i _. apply sm_scal. Qed.
Lemma over_sides_split : forall F G, over_sides F G = over_sides F (on_int F G) + over_sides F (on_bnd F G).
Proof.
  intros. rewrite <- over_sides_plus. apply over_sides_ext. intros i f _ _. unfold on_int, on_bnd. destruct (n0 F i f <? 0)%Z; lra.
Qed.
Lemma over_side_plus : forall F i f g h, over_side F i f (fun q => g q + h q) = over_side F i f g + over_side F i f h.
Proof. intros. unfold over_side. rewrite <- sm_plus. apply sm_ext. intros. lra. Qed.
Lemma over_side_scal : forall F i f c g, over_side F i f (fun q => c * g q) = c * over_side F i f g.
Proof. intros. unfold over_side. rewrite <- sm_scal. apply sm_ext. intros. lra. Qed.
Lemma over_side_ext : forall F i f g h, (forall q, (q < nq F)%nat -> g q = h q) -> over_side F i f g = over_side F i f h.
Proof. intros. unfold over_side. apply sm_ext. intros. now rewrite H. Qed.
(** The integral over the facing side, its points in reverse. *)
Lemma over_facing : forall F i f i' f' g, matching F -> (i < ncell F)%nat -> (f < nfac F)%nat -> facing F i f i' f' ->
  over_side F i' f' g = over_side F i f (fun q => g (nq F - 1 - q)%nat).
Proof.
  intros F i f i' f' g (_ & V & W) Hi Hf FA. unfold over_side.
  rewrite <- (sm_rev (nq F) (fun q => g q * (vol F i' f' * w F q))).
  apply sm_ext. intros q Hq. rewrite W by auto. now rewrite (V i f i' f').
Qed.
(** [G i f i' f'] integrated over inner sides, seen from the other side *)
Definition inner2 (F : field) (G : nat -> nat -> nat -> nat -> R) : R :=
  over_sides F (on_int F (fun i f => G i f (Z.to_nat (n0 F i f)) (Z.to_nat (n1 F i f)))).
Lemma inner2_swap : forall F G, mutual F -> inner2 F G = inner2 F (fun i f i' f' => G i' f' i f).
Proof.
  intros F G M. unfold inner2. rewrite (swap_sides F (fun i f => G i f (Z.to_nat (n0 F i f)) (Z.to_nat (n1 F i f)))) by auto.
  apply over_sides_ext. intros i f Hi Hf. unfold on_int. destruct (Z.ltb_spec (n0 F i f) 0) as [L|L]; [auto|].
  destruct (mutual_other F M (i, f)) as (_ & X & _); [apply in_active; auto|].
  unfold other in X; cbn [fst snd] in X. injection X as X1 X2. now rewrite X1, X2.
Qed.
Lemma inner2_ext : forall F G H, mutual F -> (forall i f i' f', (i < ncell F)%nat -> (f < nfac F)%nat ->
   (i' < ncell F)%nat -> (f' < nfac F)%nat -> facing F i f i' f' -> facing F i' f' i f -> G i f i' f' = H i f i' f') ->
  inner2 F G = inner2 F H.
Proof.
  intros F G H M E. unfold inner2. apply over_sides_ext. intros i f Hi Hf. unfold on_int.
  destruct (Z.ltb_spec (n0 F i f) 0) as [L|L]; [auto|].
  destruct (mutual_other F M (i, f)) as (I & X & A & B); [apply in_active; auto|].
  unfold other in *; cbn [fst snd] in *. apply in_active in I. apply E; tauto.
Qed.
Lemma inner2_plus : forall F G H, inner2 F (fun i f i' f' => G i f i' f' + H i f i' f') = inner2 F G + inner2 F H.
Proof.
  intros. unfold inner2. rewrite <- over_sides_plus. apply over_sides_ext. intros i f _ _. unfold on_int.
  destruct (n0 F i f <? 0)%Z; lra.
Qed.
Lemma inner2_scal : forall F c G, inner2 F (fun i f i' f' => c * G i f i' f') = c * inner2 F G.
Proof.
  intros. unfold inner2. rewrite <- over_sides_scal. apply over_sides_ext. intros i f _ _. unfold on_int.
  destruct (n0 F i f <? 0)%Z; lra.
Qed.
(** An antisymmetric quantity cancels. *)
Lemma inner2_anti : forall F G, mutual F -> (forall i f i' f', (i < ncell F)%nat -> (f < nfac F)%nat ->
   (i' < ncell F)%nat -> (f' < nfac F)%nat -> facing F i f i' f' -> facing F i' f' i f -> G i' f' i f = - G i f i' f') ->
  inner2 F G = 0.
Proof.
  intros F G M A. pose proof (inner2_swap F G M) as X.
  rewrite (inner2_ext F (fun i f i' f' => G i' f' i f) (fun i f i' f' => (-1) * G i f i' f')) in X; auto.
  - rewrite inner2_scal in X. lra.
  - intros. rewrite A by auto. lra.
Qed.

(** Testing a residual made of integrals over sides against basis functions *)
Lemma test_sides : forall F v (g : nat -> nat -> nat -> R) (r : nat -> nat -> R),
  (forall i d, (i < ncell F)%nat -> (d < nnod F)%nat ->
     r i d = sm (nfac F) (fun f => over_side F i f (fun q => g i f q * fb F d f q))) ->
  test_with F v r = over_sides F (fun i f => over_side F i f (fun q => g i f q * trace F v i f q)).
Proof.
  intros F v g r H. unfold test_with, over_sides. apply sm_ext. intros i Hi.
  rewrite (sm_ext _ _ (fun d => sm (nfac F) (fun f => sm (nq F) (fun q => v (i * nnod F + d)%nat * fb F d f q * (g i f q * (vol F i f * w F q)))))).
  2:{ intros d Hd. rewrite H by auto. rewrite <- sm_scal. apply sm_ext. intros f _. unfold over_side. rewrite <- sm_scal. apply sm_ext. intros. lra. }
  rewrite sm_swap. apply sm_ext. intros f _. rewrite sm_swap. unfold over_side. apply sm_ext. intros q _.
  rewrite sm_scalr. unfold trace. lra.
Qed.
Lemma over_side_nonneg : forall F i f g, weights_nonneg F -> (i < ncell F)%nat -> (f < nfac F)%nat ->
  (forall q, (q < nq F)%nat -> 0 <= g q) -> 0 <= over_side F i f g.
Proof.
  intros F i f g (V & W) Hi Hf P. unfold over_side. specialize (V i f Hi Hf).
  assert (forall n, (n <= nq F)%nat -> 0 <= sm n (fun q => g q * (vol F i f * w F q))).
  { induction n as [|n IH]; intros; cbn; [lra|]. specialize (IH ltac:(lia)).
    assert (0 <= g n * (vol F i f * w F n)); [|lra]. apply Rmult_le_pos; [apply P; lia|]. apply Rmult_le_pos; [auto|]. apply W; lia. }
  auto.
Qed.
Lemma over_sides_nonneg : forall F G, (forall i f, (i < ncell F)%nat -> (f < nfac F)%nat -> 0 <= G i f) -> 0 <= over_sides F G.
Proof.
  intros F G P. unfold over_sides.
  assert (X : forall n (g : nat -> R), (forall k, (k < n)%nat -> 0 <= g k) -> 0 <= sm n g).
  { induction n as [|n IH]; intros g Q; cbn; [lra|]. assert (0 <= g n) by (apply Q; lia). assert (0 <= sm n g) by (apply IH; intros; apply Q; lia). lra. }
  apply X. intros i Hi. apply X. intros f Hf. auto.
Qed.
