(** C38, C39: elastic constants. *)
From Coq Require Import Reals List Lra Lia Psatz.
From Verif Require Import Base M_elast.
Import ListNotations.
Set Implicit Arguments.
Open Scope R_scope.

Lemma rdiv_ok : forall a b, b <> 0 -> rdiv a b = Some (a / b).
Proof. intros a b H. unfold rdiv. destruct (Req_EM_T b 0); [contradiction|auto]. Qed.
Lemma rsqrt_ok : forall a s, 0 <= s -> a = s * s -> rsqrt a = Some s.
Proof. intros a s H ->. unfold rsqrt. destruct (Rle_dec 0 (s * s)) as [|N]; [rewrite sqrt_square; auto|]. destruct N. apply Rle_0_sqr. Qed.

(** ** C39 *)
(** The constants of the isotropic material with the bulk modulus [k] and the
    shear modulus [mu]. *)
Definition material (k mu : R) (c : ec) : R :=
  match c with
  | Bulk => k
  | Mu => mu
  | Lam => k - 2 / 3 * mu
  | Young => 9 * k * mu / (3 * k + mu)
  | Poisson => (3 * k - 2 * mu) / (2 * (3 * k + mu))
  | PWave => k + 4 / 3 * mu
  end.
(** What is given to ElasticConstants. *)
Definition given2 (a b : ec) (v : ec -> R) (c : ec) : option R := if ec_dec c a then Some (v c) else if ec_dec c b then Some (v c) else None.

Ltac nz := first [lra | nra | let H := fresh in intros H; field_simplify_eq in H; [|lra..]; nra ].

Definition pair_in (a b x y : ec) : Prop := (a = x /\ b = y) \/ (a = y /\ b = x).
(** Pairs that do not determine the material, or not by the code. *)
Definition determined (a b c : ec) (lam : R) : Prop :=
  (pair_in a b Lam Poisson -> lam <> 0) /\
  (pair_in a b Lam Young -> c = Poisson -> lam <> 0) /\
  (pair_in a b PWave Young -> 0 <= lam).


Section Relations.
Variables k mu : R.
Hypothesis Hk : 0 < k.
Hypothesis Hmu : 0 < mu.
Let H3 : 3 * k + mu <> 0. Proof. lra. Qed.
Let Hkk : 0 < k * k. Proof. apply Rmult_lt_0_compat; auto. Qed.
Let Hmm : 0 < mu * mu. Proof. apply Rmult_lt_0_compat; auto. Qed.
Let Hkm : 0 < k * mu. Proof. apply Rmult_lt_0_compat; auto. Qed.
Let Hi : 0 < / (3 * k + mu). Proof. apply Rinv_0_lt_compat. lra. Qed.
Lemma pos_nz : forall x y : R, 0 < y -> x = y -> x <> 0. Proof. intros; lra. Qed.
Ltac pz y := apply (@pos_nz _ y); [repeat apply Rmult_lt_0_compat; auto; lra|field; lra].
Lemma Z1 : - (9 * k * mu / (3 * k + mu)) + 9 * k <> 0. Proof. pz (27 * (k * k) * / (3 * k + mu)). Qed.
Lemma Z2 : - (9 * k * mu / (3 * k + mu)) + 3 * mu <> 0. Proof. pz (3 * (mu * mu) * / (3 * k + mu)). Qed.
Lemma Z3 : 9 * k * mu / (3 * k + mu) - 3 * mu <> 0. Proof. pose proof Z2. lra. Qed.
Lemma Z4 : - (3) * (9 * k * mu / (3 * k + mu)) + 9 * mu <> 0. Proof. pose proof Z2. lra. Qed.
Lemma Z5 : 1 - (3 * k - 2 * mu) / (2 * (3 * k + mu)) - 2 * ((3 * k - 2 * mu) / (2 * (3 * k + mu))) ^ 2 <> 0.
Proof. pz (27 / 2 * (k * mu) * / (3 * k + mu) * / (3 * k + mu)). Qed.
Lemma Z6 : 1 + (3 * k - 2 * mu) / (2 * (3 * k + mu)) <> 0. Proof. pz (9 / 2 * k * / (3 * k + mu)). Qed.
Lemma Z7 : 1 - (3 * k - 2 * mu) / (2 * (3 * k + mu)) <> 0. Proof. apply (@pos_nz _ ((3 * k + 4 * mu) / 2 * / (3 * k + mu))); [apply Rmult_lt_0_compat; auto; lra|field; lra]. Qed.
Lemma Z8 : 1 - 2 * ((3 * k - 2 * mu) / (2 * (3 * k + mu))) <> 0. Proof. pz (3 * mu * / (3 * k + mu)). Qed.
Lemma ZL : k - 2 / 3 * mu <> 0 -> (3 * k - 2 * mu) / (2 * (3 * k + mu)) <> 0.
Proof. intros H. unfold Rdiv. apply Rmult_integral_contrapositive. split; [lra|]. apply Rinv_neq_0_compat. lra. Qed.
Definition s1 := (3 * (k - 2 / 3 * mu) ^ 2 + 4 * (k - 2 / 3 * mu) * mu + 2 * mu ^ 2) / (k + mu / 3).
Lemma P1 : 0 <= s1. Proof. unfold s1, Rdiv; apply Rmult_le_pos; [nra|apply Rlt_le, Rinv_0_lt_compat; lra]. Qed.
Definition s2 := (k - 2 / 3 * mu) * (3 * (k - 2 / 3 * mu) + 4 * mu) / (k + mu / 3).
Lemma P2 : 0 <= k - 2 / 3 * mu -> 0 <= s2.
Proof. intros. unfold s2, Rdiv; repeat apply Rmult_le_pos; [lra|lra|apply Rlt_le, Rinv_0_lt_compat; lra]. Qed.
Lemma Q1 : rsqrt (2 * (k - 2 / 3 * mu) * (9 * k * mu / (3 * k + mu)) + (9 * k * mu / (3 * k + mu)) ^ 2 + 9 * (k - 2 / 3 * mu) ^ 2) = Some s1.
Proof. apply rsqrt_ok; [apply P1|]. unfold s1. field. lra. Qed.
Lemma Q2 : rsqrt (18 * (k - 2 / 3 * mu) * (9 * k * mu / (3 * k + mu)) + 9 * (9 * k * mu / (3 * k + mu)) ^ 2 + 81 * (k - 2 / 3 * mu) ^ 2) = Some (3 * s1).
Proof. apply rsqrt_ok; [pose proof P1; lra|]. unfold s1. field. lra. Qed.
Lemma Q3 : 0 <= k - 2 / 3 * mu -> rsqrt (- (10) * (k + 4 / 3 * mu) * (9 * k * mu / (3 * k + mu)) + (9 * k * mu / (3 * k + mu)) ^ 2 + 9 * (k + 4 / 3 * mu) ^ 2) = Some s2.
Proof. intros H. apply rsqrt_ok; [apply P2; auto|]. unfold s2. field. lra. Qed.
Lemma Q4 : 0 <= k - 2 / 3 * mu -> rsqrt (- (90) * (k + 4 / 3 * mu) * (9 * k * mu / (3 * k + mu)) + 9 * (9 * k * mu / (3 * k + mu)) ^ 2 + 81 * (k + 4 / 3 * mu) ^ 2) = Some (3 * s2).
Proof. intros H. apply rsqrt_ok; [pose proof (P2 H); lra|]. unfold s2. field. lra. Qed.

Ltac pin := first [left; split; reflexivity|right; split; reflexivity].
Ltac nzd := first [apply Z1|apply Z2|apply Z3|apply Z4|apply Z5|apply Z6|apply Z7|apply Z8|assumption
  |lra|pose proof Z6; lra|pose proof Z7; lra|pose proof Z8; lra|nra].
Ltac fin := cbv [eval given2 ec_dec ec_rec ec_rect material bind] in *;
  try rewrite Q1; try rewrite Q2; try (rewrite Q3 by assumption); try (rewrite Q4 by assumption);
  repeat (rewrite rdiv_ok by nzd); f_equal; unfold s1, s2; field; repeat split; first [lra|nzd].
Lemma rel_ok : forall a b c e, In ((a, b, c), e) relations -> determined a b c (material k mu Lam) ->
  eval (given2 a b (material k mu)) e = Some (material k mu c).
Proof.
  intros a b c e Hin (D1 & D2 & D3). cbn in Hin.
  repeat (destruct Hin as [Hin|Hin]; [inversion Hin; subst; clear Hin;
    try (specialize (D1 ltac:(pin)); cbn [material] in D1; pose proof (ZL D1)); try (specialize (D2 ltac:(pin) eq_refl); cbn [material] in D2; pose proof (ZL D2)); try (specialize (D3 ltac:(pin)); cbn [material] in D3);
    try (solve [fin]) |]); [..|destruct Hin].
Qed.
End Relations.

Definition rank (c : ec) : nat := match c with Bulk => 0 | Lam => 1 | Mu => 2 | PWave => 3 | Poisson => 4 | Young => 5 end.
Lemma rlook_In : forall a b c l e, rlook a b c l = Some e -> In ((a, b, c), e) l.
Proof.
  induction l as [|[[[a' b'] c'] e'] t IH]; intros e E; [discriminate|]. cbn in E. unfold ecb in E.
  destruct (ec_dec a a'), (ec_dec b b'), (ec_dec c c'); cbn in E; try (right; apply IH; exact E).
  subst. inversion E. left. auto.
Qed.
Lemma rlook_total : forall a b c, (rank a < rank b)%nat -> c <> a -> c <> b -> exists e, rlook a b c relations = Some e.
Proof.
  intros a b c H H1 H2. assert (E : match rlook a b c relations with Some _ => true | None => false end = true).
  { destruct a, b; cbn in H; try lia; destruct c; try congruence; vm_compute; reflexivity. }
  destruct (rlook a b c relations); [eauto|discriminate].
Qed.
Lemma known_pair : forall a b v, (rank a < rank b)%nat -> known (given2 a b v) = [a; b].
Proof. intros a b v H. destruct a, b; cbn in H; try lia; reflexivity. Qed.
Lemma init_sorted : forall k mu a b, 0 < k -> 0 < mu -> (rank a < rank b)%nat ->
  exists out, init (given2 a b (material k mu)) = Ok out /\
    forall c, determined a b c (material k mu Lam) -> out c = Some (material k mu c).
Proof.
  intros k mu a b Hk Hmu H. unfold init. rewrite known_pair by auto.
  assert (T : forall c, match given2 a b (material k mu) c with Some _ => True | None => exists e, rlook a b c relations = Some e end).
  { intros c. unfold given2. destruct (ec_dec c a); auto. destruct (ec_dec c b); auto. apply rlook_total; auto. }
  rewrite (proj2 (forallb_forall _ _)).
  2:{ intros c _. specialize (T c). destruct (given2 a b (material k mu) c); auto. destruct T as (e & ->). auto. }
  eexists. split; [reflexivity|]. intros c D. specialize (T c). cbv beta. destruct (given2 a b (material k mu) c) as [v|] eqn:E.
  - unfold given2 in E. destruct (ec_dec c a); [congruence|]. destruct (ec_dec c b); [congruence|discriminate].
  - destruct T as (e & Ee). rewrite Ee. apply rel_ok; auto. apply rlook_In. auto.
Qed.
Lemma eval_ext : forall g h e, (forall c, g c = h c) -> eval g e = eval h e.
Proof. intros g h e H. induction e; cbn; auto; try (rewrite IHe1, IHe2; auto); try (rewrite IHe; auto). Qed.
Lemma Ok_inj : forall A (a b : A), Ok a = Ok b -> a = b. Proof. intros A a b E. inversion E. auto. Qed.
Lemma init_ext : forall g h out, (forall c, g c = h c) -> init g = Ok out -> exists out', init h = Ok out' /\ forall c, out' c = out c.
Proof.
  intros g h out H E. unfold init in *. assert (K : known g = known h). { unfold known. apply filter_ext. intros c. rewrite H. auto. }
  rewrite <- K. destruct (known g) as [|a [|b [|c l]]]; try discriminate.
  assert (F : forallb (fun c => match h c with Some _ => true | None => match rlook a b c relations with Some _ => true | None => false end end) names =
              forallb (fun c => match g c with Some _ => true | None => match rlook a b c relations with Some _ => true | None => false end end) names).
  { unfold names. cbn [forallb]. rewrite !H. auto. }
  rewrite F. destruct (forallb _ names); [|discriminate]. apply Ok_inj in E. subst out. eexists. split; [reflexivity|]. intros c. cbv beta. rewrite <- H.
  destruct (g c); auto. destruct (rlook a b c relations); auto. apply eval_ext. auto.
Qed.

(** Given any two constants of a material, all the constants of the material are
    found, except that lam and poisson determine nothing if both are zero, poisson
    is not found for lam = 0 and young, and p_wave with young assume lam >= 0. *)
Theorem C39_elastic_constants : forall k mu a b, 0 < k -> 0 < mu -> a <> b ->
  exists out, init (given2 a b (material k mu)) = Ok out /\
    forall c, determined a b c (material k mu Lam) -> out c = Some (material k mu c).
Proof.
  intros k mu a b Hk Hmu H.
  assert (R : (rank a < rank b)%nat \/ (rank b < rank a)%nat) by (destruct a, b; cbn; try lia; congruence).
  destruct R as [R|R]; [apply init_sorted; auto|].
  destruct (@init_sorted k mu b a Hk Hmu R) as (out & E & Ho).
  destruct (@init_ext (given2 b a (material k mu)) (given2 a b (material k mu)) out) as (out' & E' & Ho'); auto.
  { intros c. unfold given2. destruct (ec_dec c a), (ec_dec c b); subst; auto. }
  exists out'. split; auto. intros c D. rewrite Ho'. apply Ho. destruct D as (D1 & D2 & D3). unfold determined, pair_in in *.
  split; [|split]; [intros P; apply D1|intros P Q; apply D2; [|exact Q]|intros P; apply D3]; clear D1 D2 D3; tauto.
Qed.
Theorem C39_exactly_two : forall given, length (known given) <> 2%nat -> init given = Err ValueError.
Proof. intros g H. unfold init. destruct (known g) as [|a [|b [|c l]]]; auto. cbn in H. congruence. Qed.
(** The material is determined: the constants are those of the textbook. *)
Theorem C39_textbook : forall k mu, 0 < k -> 0 < mu -> let m := material k mu in
  m Bulk = m Lam + 2 / 3 * m Mu /\ m Young = m Mu * (3 * m Lam + 2 * m Mu) / (m Lam + m Mu) /\ m Poisson = m Lam / (2 * (m Lam + m Mu)) /\
  m PWave = m Lam + 2 * m Mu /\ m Lam = m Young * m Poisson / ((1 + m Poisson) * (1 - 2 * m Poisson)) /\ m Mu = m Young / (2 * (1 + m Poisson)).
Proof.
  intros k mu Hk Hmu m. cbn. pose proof (Z6 Hk Hmu). pose proof (Z8 Hk Hmu).
  repeat split; try lra; field; repeat split; try lra; nra.
Qed.
(** p_wave and young of an auxetic material (lam < 0) give another material. *)
Theorem C39_negative_lam_refuted : exists k mu out, 0 < k /\ 0 < mu /\
  init (given2 PWave Young (material k mu)) = Ok out /\ material k mu Poisson = - (1 / 4) /\ out Poisson = Some (1 / 5).
Proof.
  exists 1, 3. eexists. split; [lra|]. split; [lra|]. split; [cbv [init known names filter given2 ec_dec ec_rec ec_rect forallb rlook relations ecb andb]; reflexivity|].
  split; [cbn; field|]. cbv [eval material bind].
  assert (E : rsqrt (- (10) * (1 + 4 / 3 * 3) * (9 * 1 * 3 / (3 * 1 + 3)) + (9 * 1 * 3 / (3 * 1 + 3)) ^ 2 + 9 * (1 + 4 / 3 * 3) ^ 2) = Some (9 / 2)).
  { apply rsqrt_ok; [lra|field]. }
  rewrite E. rewrite rdiv_ok by lra. f_equal. field.
Qed.
(** lam = 0 and young determine the material, poisson is not found (nan). *)
Theorem C39_zero_lam_refuted : exists k mu out, 0 < k /\ 0 < mu /\ material k mu Lam = 0 /\
  init (given2 Lam Young (material k mu)) = Ok out /\ material k mu Poisson = 0 /\ out Poisson = None.
Proof.
  exists 2, 3. eexists. split; [lra|]. split; [lra|]. split; [cbn; field|].
  split; [cbv [init known names filter given2 ec_dec ec_rec ec_rect forallb rlook relations ecb andb]; reflexivity|].
  split; [cbn; field|]. cbv [eval material bind].
  rewrite Q1 by lra. unfold rdiv. destruct (Req_EM_T _ 0) as [|N]; auto. destruct N. field.
Qed.
Example C39_ex : exists out, init (given2 Young Poisson (material 2 (3 / 2))) = Ok out /\ out PWave = Some 4 /\ out Lam = Some 1.
Proof.
  destruct (@C39_elastic_constants 2 (3 / 2) Young Poisson) as (out & E & H); try lra; [discriminate|].
  exists out. split; auto. rewrite !H; [cbn; split; f_equal; field| |]; unfold determined, pair_in; repeat split; intros [[A B]|[A B]]; congruence.
Qed.

(** ** C38 *)
Definition admissible (young poisson : R) : Prop := 0 < young /\ - (1) < poisson < 1 / 2.
Lemma sym_diag : forall dim lam mu, (2 <= dim)%nat -> stiffness_from_lame dim lam mu (dim2sym dim - 1)%nat (dim2sym dim - 1)%nat = mu.
Proof.
  intros dim lam mu H. unfold stiffness_from_lame, o_vec. rewrite Nat.eqb_refl.
  assert (L : (dim < dim2sym dim)%nat).
  { unfold dim2sym. apply Nat.lt_le_trans with ((dim + 1) * 2 / 2)%nat; [rewrite Nat.div_mul; lia|]. apply Nat.div_le_mono; nia. }
  destruct (Nat.ltb_spec (dim2sym dim - 1) dim); [lia|]. ring.
Qed.
Lemma sym_01 : forall dim lam mu, (2 <= dim)%nat -> stiffness_from_lame dim lam mu 0%nat 1%nat = lam.
Proof.
  intros dim lam mu H. unfold stiffness_from_lame, o_vec. destruct (Nat.ltb_spec 0 dim); [|lia]. destruct (Nat.ltb_spec 1 dim); [|lia]. cbn. ring.
Qed.
Lemma lame_val : forall e n plane, admissible e n -> lame_from_youngpoisson e n plane =
  Some (match plane with Strain => e * n / ((1 + n) * (1 - 2 * n)) | Stress => e * n / ((1 + n) * (1 - n)) end, e / (2 * (1 + n))).
Proof.
  intros e n plane (He & Hn1 & Hn2). unfold lame_from_youngpoisson. rewrite rdiv_ok by lra. cbn [bind]. rewrite rdiv_ok by nra. cbn [bind].
  destruct plane; auto.
  replace (e * n / ((1 + n) * (1 - 2 * n)) + 2 * (e / (2 * (1 + n)))) with (e * (1 - n) / ((1 + n) * (1 - 2 * n))) by (field; lra).
  assert (0 < e * (1 - n) / ((1 + n) * (1 - 2 * n))).
  { unfold Rdiv. apply Rmult_lt_0_compat; [|apply Rinv_0_lt_compat]; apply Rmult_lt_0_compat; lra. }
  rewrite rdiv_ok by lra. cbn [bind]. f_equal. f_equal. field. repeat split; lra.
Qed.
Theorem C38_roundtrip : forall dim young poisson plane, (2 <= dim)%nat -> admissible young poisson ->
  exists d, stiffness_from_youngpoisson dim young poisson plane = Some d /\
            youngpoisson_from_stiffness (dim2sym dim) d plane = Some (young, poisson).
Proof.
  intros dim e n plane Hd A. unfold stiffness_from_youngpoisson. rewrite lame_val by auto. cbn [bind]. eexists. split; [reflexivity|].
  unfold youngpoisson_from_stiffness, lame_from_stiffness. rewrite sym_diag, sym_01 by auto. destruct A as (He & Hn1 & Hn2).
  assert (P : 0 < / ((1 + n) * (1 - 2 * n))) by (apply Rinv_0_lt_compat; nra).
  assert (P2 : 0 < / (2 * (1 + n))) by (apply Rinv_0_lt_compat; nra).
  assert (P3 : 0 < / ((1 + n) * (1 - n))) by (apply Rinv_0_lt_compat; nra).
  assert (K : forall l m, l = e * n / ((1 + n) * (1 - 2 * n)) -> m = e / (2 * (1 + n)) ->
     (let! young := rdiv (3 * l * m + 2 * m ^ 2) (l + m) in let! poisson := rdiv l (2 * l + 2 * m) in Some (young, poisson)) = Some (e, n)).
  { intros l m -> ->.
    replace (e * n / ((1 + n) * (1 - 2 * n)) + e / (2 * (1 + n))) with (e / (2 * ((1 + n) * (1 - 2 * n)))) by (field; lra).
    replace (2 * (e * n / ((1 + n) * (1 - 2 * n))) + 2 * (e / (2 * (1 + n)))) with (e / ((1 + n) * (1 - 2 * n))) by (field; lra).
    assert (0 < e / ((1 + n) * (1 - 2 * n))) by (apply Rmult_lt_0_compat; lra).
    assert (e / (2 * ((1 + n) * (1 - 2 * n))) = / 2 * (e / ((1 + n) * (1 - 2 * n)))) by (field; lra).
    rewrite rdiv_ok by lra. cbn [bind]. rewrite rdiv_ok by lra. cbn [bind]. f_equal. f_equal; field; repeat split; lra. }
  destruct plane; cbn [bind]; [apply K; auto|].
  replace (e * n / ((1 + n) * (1 - n)) - 2 * (e / (2 * (1 + n)))) with (- (e * (1 - 2 * n) / ((1 + n) * (1 - n)))) by (field; lra).
  assert (0 < e * (1 - 2 * n) / ((1 + n) * (1 - n))) by (apply Rmult_lt_0_compat; [apply Rmult_lt_0_compat|]; lra).
  rewrite rdiv_ok by lra. cbn [bind]. apply K; auto. field. repeat split; lra.
Qed.
(** The textbook relations of the other parameters; plane stress sees the same
    shear modulus and the condensed first Lame parameter. *)
Theorem C38_bulk : forall young poisson, admissible young poisson ->
  bulk_from_youngpoisson young poisson Strain = Some (young / (3 * (1 - 2 * poisson))).
Proof. intros e n A. unfold bulk_from_youngpoisson. rewrite lame_val by auto. destruct A as (He & Hn1 & Hn2). cbn [bind]. unfold bulk_from_lame. f_equal. field. lra. Qed.
(** The mixed formulation: the stiffness is the mixed one and the bulk modulus on the
    volumetric part. *)
Theorem C38_mixed : forall dim lam mu i j,
  stiffness_from_lame dim lam mu i j = stiffness_from_lame_mixed dim lam mu i j + bulk_from_lame lam mu * (o_vec dim i * o_vec dim j).
Proof. intros. unfold stiffness_from_lame_mixed, stiffness_from_lame, bulk_from_lame. field. Qed.
(** For an isotropic material, the orthotropic compliance is the inverse of the
    stiffness. *)
Definition mmul6 (a b : mtx) : mtx := fun i j => a i 0%nat * b 0%nat j + a i 1%nat * b 1%nat j + a i 2%nat * b 2%nat j + a i 3%nat * b 3%nat j + a i 4%nat * b 4%nat j + a i 5%nat * b 5%nat j.
Theorem C38_ortho : forall young poisson, admissible young poisson -> exists d mu,
  stiffness_from_youngpoisson 3 young poisson Strain = Some d /\ mu = young / (2 * (1 + poisson)) /\
  forall i j, (i < 6)%nat -> (j < 6)%nat ->
    mmul6 (ortho3_compliance young young young poisson poisson poisson mu mu mu) d i j = (if (i =? j)%nat then 1 else 0).
Proof.
  intros e n A. unfold stiffness_from_youngpoisson. rewrite lame_val by auto. destruct A as (He & Hn1 & Hn2). cbn [bind]. do 2 eexists. split; [reflexivity|]. split; [reflexivity|].
  intros i j Hi Hj. unfold mmul6, stiffness_from_lame, o_vec.
  do 6 (destruct i as [|i]; [do 6 (destruct j as [|j]; [cbn; field; repeat split; lra|]); lia|]). lia.
Qed.
(** Wave speeds. *)
Theorem C38_wave_speeds : forall young poisson rho, admissible young poisson -> 0 < rho -> exists vp vs,
  wave_speeds_from_youngpoisson young poisson rho = Some (vp, vs) /\ 0 < vs /\ vs < vp /\
  youngpoisson_from_wave_speeds vp vs rho = Some (young, poisson).
Proof.
  intros e n rho (He & Hn1 & Hn2) Hr. unfold wave_speeds_from_youngpoisson.
  assert (D1 : 0 < rho * (1 + n) * (1 - 2 * n)) by (repeat apply Rmult_lt_0_compat; lra).
  assert (D2 : 0 < 2 * rho * (1 + n)) by (repeat apply Rmult_lt_0_compat; lra).
  rewrite rdiv_ok by lra. cbn [bind].
  set (a := e * (1 - n) / (rho * (1 + n) * (1 - 2 * n))). set (b := e / (2 * rho * (1 + n))).
  assert (Pa : 0 < a) by (unfold a, Rdiv; apply Rmult_lt_0_compat; [apply Rmult_lt_0_compat; lra|apply Rinv_0_lt_compat; lra]).
  assert (Pb : 0 < b) by (unfold b, Rdiv; apply Rmult_lt_0_compat; [lra|apply Rinv_0_lt_compat; lra]).
  assert (Pab : a - b = e / 2 * / (rho * (1 + n) * (1 - 2 * n))) by (unfold a, b; field; lra).
  assert (Pc : 0 < a - b) by (rewrite Pab; apply Rmult_lt_0_compat; [lra|apply Rinv_0_lt_compat; lra]).
  unfold rsqrt at 1. destruct (Rle_dec 0 a); [|lra]. cbn [bind]. rewrite rdiv_ok by lra. cbn [bind]. fold b.
  unfold rsqrt. destruct (Rle_dec 0 b); [|lra]. cbn [bind]. do 2 eexists. split; [reflexivity|].
  split; [apply sqrt_lt_R0; auto|]. split; [apply sqrt_lt_1; lra|].
  unfold youngpoisson_from_wave_speeds. cbv zeta. rewrite !pow2_sqrt by lra. rewrite rdiv_ok by lra. cbn [bind]. rewrite rdiv_ok by lra. cbn [bind].
  rewrite Pab. f_equal. f_equal; unfold a, b; field; repeat split; lra.
Qed.
Example C38_ex : admissible 10 (3 / 10). Proof. unfold admissible. lra. Qed.

Print Assumptions C38_roundtrip. Print Assumptions C38_bulk. Print Assumptions C38_mixed. Print Assumptions C38_ortho. Print Assumptions C38_wave_speeds.
Print Assumptions C39_elastic_constants. Print Assumptions C39_exactly_two. Print Assumptions C39_textbook. Print Assumptions C39_negative_lam_refuted. Print Assumptions C39_zero_lam_refuted.
