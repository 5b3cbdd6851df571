(** C149 The Bernstein basis; C150 Bezier extraction in one dimension. *)
From Coq Require Import Reals Lra Lia Arith List Bool.
From Coquelicot Require Import Coquelicot.
From Verif Require Import M_fmf L_fmf S_iga M_iga L_iga L_hyper.
Import ListNotations.
Open Scope R_scope.

(** ** C149: the Bernstein basis *)
Lemma upd_same : forall f i v, upd f i v i = v.
Proof. intros. unfold upd. rewrite Nat.eqb_refl. reflexivity. Qed.
Lemma upd_other : forall f i v k, k <> i -> upd f i v k = f k.
Proof. intros. unfold upd. destruct (Nat.eqb_spec k i); congruence. Qed.

Lemma pass_at : forall x n funs,
  (forall i, fst (fold_left (bern_step x) (seq 0 n) (funs, 0)) i
     = if (i <? n)%nat then (1 - x) * funs i + match i with O => 0 | S j => x * funs j end else funs i) /\
  snd (fold_left (bern_step x) (seq 0 n) (funs, 0)) = match n with O => 0 | S j => x * funs j end.
Proof.
  intros x n funs. induction n.
  - split; intros; reflexivity.
  - rewrite seq_S, fold_left_app. cbn [fold_left Nat.add]. destruct (fold_left (bern_step x) (seq 0 n) (funs, 0)) as (f & pr) eqn:E.
    cbn [fst snd] in IHn. destruct IHn as (I1 & I2). unfold bern_step at 1 2. cbn [fst snd]. split.
    + intros i. unfold upd. destruct (Nat.eqb_spec i n) as [->|N].
      * destruct (Nat.ltb_spec n (S n)); [|lia]. rewrite I1, I2. destruct (Nat.ltb_spec n n); [lia|]. reflexivity.
      * rewrite I1. destruct (Nat.ltb_spec i n), (Nat.ltb_spec i (S n)); auto; lia.
    + rewrite I1. destruct (Nat.ltb_spec n n); [lia|]. reflexivity.
Qed.
Lemma pass_bern : forall x p f, (forall i, f i = bernstein p i x) -> forall i, bern_pass x (p + 2) f i = bernstein (S p) i x.
Proof.
  intros x p f H i. unfold bern_pass. rewrite (proj1 (pass_at x (p + 2) f)). destruct (Nat.ltb_spec i (p + 2)) as [L|L].
  - destruct i; rewrite !H. rewrite bern_rec0. ring. rewrite bern_rec. ring.
  - rewrite H, !bern_out by lia. reflexivity.
Qed.
Lemma bern_first : forall x i, upd (fun _ => 0) 0 1 i = bernstein 0 i x.
Proof. intros x i. unfold upd. destruct i; cbn [Nat.eqb]. rewrite bern_0. reflexivity. rewrite bern_out by lia. reflexivity. Qed.
Lemma bern_passes : forall x m i, fold_left (fun f ip => bern_pass x (ip + 1) f) (seq 1 m) (upd (fun _ => 0) 0 1) i = bernstein m i x.
Proof.
  intros x. induction m; intros i. cbn [seq fold_left]. apply bern_first.
  rewrite seq_S, fold_left_app. cbn [fold_left]. replace (1 + m + 1)%nat with (m + 2)%nat by lia. apply pass_bern. exact IHm.
Qed.
Lemma fold_upd : forall (v : nat -> R) s m d i, fold_left (fun d k => upd d k (v k)) (seq s m) d i = if (s <=? i)%nat && (i <? s + m)%nat then v i else d i.
Proof.
  intros v s m. revert s. induction m; intros s d i; cbn [seq fold_left].
  - destruct (Nat.leb_spec s i), (Nat.ltb_spec i (s + 0)); cbn; auto; lia.
  - rewrite IHm. unfold upd. destruct (Nat.leb_spec (S s) i), (Nat.ltb_spec i (S s + m)), (Nat.leb_spec s i), (Nat.ltb_spec i (s + S m)), (Nat.eqb_spec i s); cbn; subst; auto; lia.
Qed.
Lemma b11 : forall x, bernstein 1 1 x = x. Proof. intros. unfold bernstein. cbn. ring. Qed.
(** The derivative of a Bernstein polynomial. *)
Lemma bern_derive : forall p (x : R) j, is_derive (bernstein (S p) j) x (INR (S p) * ((match j with O => 0 | S k => bernstein p k x end) - bernstein p j x)).
Proof.
  assert (ID : forall x : R, is_derive (fun x : R => x) x 1) by (intros; apply (@is_derive_id R_AbsRing)).
  assert (OM : forall x : R, is_derive (fun x : R => 1 - x) x (0 - 1)) by (intros; apply dminus; [apply dconst | apply ID]).
  induction p; intros x j.
  - destruct j as [|[|j]].
    + eapply dval. apply (@dext (fun x => 1 - x)). intros t. unfold bernstein. cbn. ring. apply OM. rewrite bern_0. cbn. ring.
    + eapply dval. apply (@dext (fun x => x)). intros t. symmetry. apply b11. apply ID. rewrite bern_0, bern_out by lia. cbn. ring.
    + eapply dval. apply (@dext (fun x => 0)). intros t. rewrite bern_out by lia. reflexivity. apply dconst. rewrite !bern_out by lia. ring.
  - destruct j as [|j].
    + eapply dval. apply (@dext (fun x => (1 - x) * bernstein (S p) 0 x)). intros t. symmetry. apply bern_rec0.
      apply dmult. apply OM. apply (IHp x 0%nat). cbv beta iota. rewrite (S_INR (S p)), bern_rec0. ring.
    + eapply dval. apply (@dext (fun x => (1 - x) * bernstein (S p) (S j) x + x * bernstein (S p) j x)). intros t. symmetry. apply bern_rec.
      apply dplus; (apply dmult; [first [apply OM | apply ID] | apply IHp]). cbv beta iota.
      rewrite (S_INR (S p)), bern_rec. destruct j as [|j]; [rewrite bern_rec0 | rewrite bern_rec]; ring.
Qed.

(** The values are the Bernstein polynomials and the derivatives their derivatives; the
    C and the Python function agree. *)
Theorem C149_bernstein : forall x degree, let '(funs, ders) := eval_bernstein_basis x degree in
  forall i, (i <= degree)%nat -> funs i = bernstein degree i x /\ is_derive (bernstein degree i) x (ders i).
Proof.
  intros x degree. unfold eval_bernstein_basis. destruct (Nat.eqb_spec degree 0) as [->|N].
  - intros i Hi. replace i with 0%nat by lia. split. apply bern_first.
    apply is_derive_ext with (f := fun _ => 1). intros. rewrite bern_0. reflexivity. apply @is_derive_const.
  - destruct degree as [|p]; [congruence|]. intros i Hi. replace (S p + 1 - 2)%nat with p by lia. split.
    + replace (S p + 1)%nat with (p + 2)%nat by lia. apply pass_bern. apply bern_passes.
    + pose proof (bern_derive p x i) as D.
      rewrite (@fold_upd (fun ifun => INR (S p) * (fold_left (fun f ip => bern_pass x (ip + 1) f) (seq 1 p) (upd (fun _ => 0) 0 1) (if (ifun =? 0)%nat then S p + 1 - 1 else ifun - 1)%nat - fold_left (fun f ip => bern_pass x (ip + 1) f) (seq 1 p) (upd (fun _ => 0) 0 1) ifun)) 0 (S p + 1)).
      destruct (Nat.ltb_spec i (0 + (S p + 1))); [|lia]. cbn [Nat.leb andb]. rewrite !bern_passes.
      destruct i as [|i]; cbn [Nat.eqb].
      * rewrite (bern_out p (S p + 1 - 1)) by lia. exact D.
      * replace (S i - 1)%nat with i by lia. exact D.
Qed.
Theorem C149_bernstein_c : forall x degree i, (i <= degree)%nat ->
  fst (eval_bernstein_basis_c x degree) i = fst (eval_bernstein_basis x degree) i /\
  snd (eval_bernstein_basis_c x degree) i = snd (eval_bernstein_basis x degree) i.
Proof.
  intros x degree i Hi. unfold eval_bernstein_basis, eval_bernstein_basis_c. destruct (Nat.eqb_spec degree 0) as [->|N]; [auto|].
  destruct degree as [|p]; [congruence|]. split; [reflexivity|]. cbn [snd]. replace (S p + 1 - 2)%nat with p by lia.
  set (f := fold_left _ (seq 1 p) _).
  rewrite (@fold_upd (fun ifun => INR (S p) * (f (ifun - 1)%nat - f ifun))), (@fold_upd (fun ifun => INR (S p) * (f (if (ifun =? 0)%nat then S p + 1 - 1 else ifun - 1)%nat - f ifun))).
  destruct (Nat.ltb_spec i (0 + (S p + 1))); [|lia]. destruct i as [|i]; cbn [Nat.leb andb Nat.eqb].
  - rewrite upd_same. unfold f. rewrite !bern_passes. rewrite (bern_out p (S p + 1 - 1)) by lia. ring.
  - destruct (Nat.ltb_spec (S i) (1 + (S p + 1 - 1))); [|lia]. reflexivity.
Qed.
Lemma bern_unity : forall p x, sm (p + 1) (fun i => bernstein p i x) = 1.
Proof.
  intros p x. replace (p + 1)%nat with (S p) by lia. rewrite (@sm_ext (S p) _ (fun j => 1 ^ j * 1 ^ (p - j) * bernstein p j x)).
  rewrite bern_sum. replace ((1 - x) * 1 + x * 1) with 1 by ring. apply pow1. intros. rewrite !pow1. ring.
Qed.
(** Partition of unity, zero sum of the derivatives, non-negativity, interpolation in the end points. *)
Theorem C149_unity : forall x degree, let '(funs, ders) := eval_bernstein_basis x degree in
  sm (degree + 1) funs = 1 /\ sm (degree + 1) ders = 0 /\
  (0 <= x <= 1 -> forall i, (i <= degree)%nat -> 0 <= funs i) /\
  (x = 0 -> forall i, (i <= degree)%nat -> funs i = if (i =? 0)%nat then 1 else 0) /\
  (x = 1 -> forall i, (i <= degree)%nat -> funs i = if (i =? degree)%nat then 1 else 0).
Proof.
  intros x degree. pose proof (C149_bernstein x degree) as H. destruct (eval_bernstein_basis x degree) as (funs & ders).
  split; [|split; [|split; [|split]]].
  - rewrite (@sm_ext _ _ (fun i => bernstein degree i x)). apply bern_unity. intros i Hi. apply H. lia.
  - assert (D : forall n, (n <= degree + 1)%nat -> is_derive (fun z => sm n (fun i => bernstein degree i z)) x (sm n ders)).
    { intros n Hn. apply (@dsm n (fun i z => bernstein degree i z)). intros k Hk. apply H. lia. }
    specialize (D (degree + 1)%nat ltac:(lia)). apply is_derive_unique in D. rewrite <- D.
    rewrite (Derive_ext _ (fun _ => 1)). apply Derive_const. intros. apply bern_unity.
  - intros Hx i Hi. rewrite (proj1 (H i Hi)). unfold bernstein. repeat apply Rmult_le_pos. apply pos_INR. apply pow_le; lra. apply pow_le; lra.
  - intros -> i Hi. rewrite (proj1 (H i Hi)). unfold bernstein. destruct i as [|i]; cbn [Nat.eqb].
    + rewrite binom_0. replace (1 - 0) with 1 by ring. rewrite pow1. cbn. ring.
    + cbn [pow]. ring.
  - intros -> i Hi. rewrite (proj1 (H i Hi)). unfold bernstein. replace (1 - 1) with 0 by ring. destruct (Nat.eqb_spec i degree) as [->|N].
    + rewrite binom_nn, Nat.sub_diag, pow1. cbn. ring.
    + replace (degree - i)%nat with (S (degree - i - 1)) by lia. cbn [pow]. ring.
Qed.
