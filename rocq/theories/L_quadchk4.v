(** The checks of the tables: the rules with square roots, in Q(s, t) with s^2 = A, t^2 = B. *)
From Coq Require Import Reals Lra QArith Qreals Qreduction Qabs Qminmax.
From Verif Require Import Base M_nls M_lagnodes M_lagrange P_lagnodes L_lagrange P_lagrange L_gm M_quadtab M_quad S_quad L_quadint P_cubature L_quadchk L_quadchk2 L_quadchk3.
Set Implicit Arguments.
Open Scope R_scope.

Record q4 := mkQ4 { qa : Q; qb : Q; qc : Q; qd : Q }.
Section root.
Variable A B : Q.
Variable s t : R.
Hypothesis SA : s * s = Q2R A.
Hypothesis TB : t * t = Q2R B.
Hypothesis S01 : 0 <= s <= 1.
Hypothesis T01 : 0 <= t <= 1.
Definition ev4 (e : q4) : R := Q2R (qa e) + Q2R (qb e) * s + Q2R (qc e) * t + Q2R (qd e) * (s * t).
Definition mk4 (a b c d : Q) : q4 := mkQ4 (Qred a) (Qred b) (Qred c) (Qred d).
Definition add4 (x y : q4) : q4 := mk4 (qa x + qa y) (qb x + qb y) (qc x + qc y) (qd x + qd y).
Definition mul4 (x y : q4) : q4 :=
  mk4 (qa x * qa y + A * (qb x * qb y) + B * (qc x * qc y) + A * B * (qd x * qd y))
      (qa x * qb y + qb x * qa y + B * (qc x * qd y + qd x * qc y))
      (qa x * qc y + qc x * qa y + A * (qb x * qd y + qd x * qb y))
      (qa x * qd y + qd x * qa y + qb x * qc y + qc x * qb y).
Definition zero4 : q4 := mkQ4 0 0 0 0.
Definition sc4 (f : Q) (x : q4) : q4 := mk4 (qa x * f) (qb x * f) (qc x * f) (qd x * f).
Definition half4 (x : q4) : q4 := sc4 (1 # 2) x.
Definition aff4 (x : q4) : q4 := half4 (mk4 (qa x + 1) (qb x) (qc x) (qd x)).
Definition om4 (x : q4) : q4 := mk4 (1 - qa x) (- qb x) (- qc x) (- qd x).
Definition wsc4 (n : nat) (x : q4) : q4 := Nat.iter n half4 x.
Definition neg4 (x : q4) : q4 := mk4 (- qa x) (- qb x) (- qc x) (- qd x).
Definition nonneg4 (x : q4) : bool := Qle_bool 0 (qa x + Qmin (qb x) 0 + Qmin (qc x) 0) && Qeq_bool (qd x) 0.
Lemma ev_mk4 : forall a b c d, ev4 (mk4 a b c d) = Q2R a + Q2R b * s + Q2R c * t + Q2R d * (s * t).
Proof. intros. unfold ev4, mk4. cbn [qa qb qc qd]. rewrite !Qred_ok. auto. Qed.
Lemma ev_add4 : forall x y, ev4 (add4 x y) = ev4 x + ev4 y.
Proof. intros. unfold add4. rewrite ev_mk4, !Q2R_plus. unfold ev4. ring. Qed.
Lemma ev_mul4 : forall x y, ev4 (mul4 x y) = ev4 x * ev4 y.
Proof. intros. unfold mul4. rewrite ev_mk4. rewrite ?Q2R_plus, ?Q2R_mult, ?Q2R_plus, ?Q2R_mult. rewrite <- SA, <- TB. unfold ev4. ring. Qed.
Lemma ev_zero4 : ev4 zero4 = 0.
Proof. unfold ev4. cbn [qa qb qc qd zero4]. rewrite Q2R_0. ring. Qed.
Lemma ev_sc4 : forall f x, ev4 (sc4 f x) = ev4 x * Q2R f.
Proof. intros. unfold sc4. rewrite ev_mk4, !Q2R_mult. unfold ev4. ring. Qed.
Lemma ev_half4 : forall x, ev4 (half4 x) = ev4 x * / 2.
Proof. intros. unfold half4. rewrite ev_sc4. f_equal. unfold Q2R. cbn. lra. Qed.
Lemma ev_aff4 : forall e, ev4 (aff4 e) = (1 - 0) / (1 - -1) * ev4 e + (1 * 0 - -1 * 1) / (1 - -1).
Proof. intros. unfold aff4. rewrite ev_half4, ev_mk4, Q2R_plus, Q2R_1. unfold ev4. lra. Qed.
Lemma ev_om4 : forall e, ev4 (om4 e) = 1 - ev4 e.
Proof. intros. unfold om4. rewrite ev_mk4, Q2R_minus, !Q2R_opp, Q2R_1. unfold ev4. lra. Qed.
Lemma ev_neg4 : forall e, ev4 (neg4 e) = - ev4 e.
Proof. intros. unfold neg4. rewrite ev_mk4, !Q2R_opp. unfold ev4. lra. Qed.
Lemma ev_wsc4 : forall n e, ev4 (wsc4 n e) = ev4 e * / 2 ^ n.
Proof.
  intros. unfold wsc4. induction n; cbn [Nat.iter nat_rect]; [cbn; lra|]. change (nat_rect (fun _ => q4) e (fun _ => half4) n) with (Nat.iter n half4 e). rewrite ev_half4, IHn. cbn [pow]. rewrite Rinv_mult. lra.
Qed.
Lemma Qmin0 : forall q r, 0 <= r <= 1 -> Q2R (Qmin q 0) <= Q2R q * r.
Proof.
  intros q r R01. assert (M1 := Qle_Rle _ _ (Q.le_min_l q 0)). assert (M2 := Qle_Rle _ _ (Q.le_min_r q 0)). rewrite Q2R_0 in M2. nra.
Qed.
Lemma nonneg4_ok : forall e, nonneg4 e = true -> 0 <= ev4 e.
Proof.
  intros e H. apply andb_prop in H. destruct H as [H D]. apply Qle_bool_iff in H. apply Qle_Rle in H. rewrite Q2R_0, !Q2R_plus in H. apply Qeq_bool_eq, Qeq_eqR in D. rewrite Q2R_0 in D.
  unfold ev4. rewrite D. assert (X := Qmin0 (qb e) S01). assert (Y := Qmin0 (qc e) T01). lra.
Qed.
Definition within4 (k : kind) (o : nat) (es : list nat) (e : q4) : bool :=
  negb (selected k o es) ||
  (let '(n, d) := exact k es in Qle_bool ((Qabs (qa e - (n # Z.to_pos d)) + Qabs (qb e) + Qabs (qc e) + Qabs (qd e)) * inject_Z TOL) 1).
Definition fin4 := fin aff4 om4 (fun e => e) wsc4 (fun _ => false) zero4.
Definition check_rule_4 (k : kind) (o : nat) (rows : list (list q4)) (bounded : bool) : bool :=
  let '(c, w) := fin4 rows bounded false in
  forallb (inb om4 nonneg4 add4 zero4 k) c && check_rows c (kdim k) && (length c =? length w)%nat && chk mul4 add4 zero4 (within4 k o) (columns zero4 (kdim k) c) w (degree_bound k o) [].
Lemma Q2R_abs : forall q, Q2R (Qabs q) = Rabs (Q2R q).
Proof.
  intros q. destruct (Qlt_le_dec q 0) as [H|H].
  - rewrite (Qeq_eqR _ _ (Qabs_neg q (Qlt_le_weak _ _ H))), Q2R_opp. apply Qlt_Rlt in H. rewrite Q2R_0 in H. rewrite Rabs_left; auto.
  - rewrite (Qeq_eqR _ _ (Qabs_pos q H)). apply Qle_Rle in H. rewrite Q2R_0 in H. rewrite Rabs_pos_eq; auto.
Qed.
Lemma Rabs_mul01 : forall x r, 0 <= r <= 1 -> Rabs (x * r) <= Rabs x.
Proof. intros x r H. rewrite Rabs_mult, (Rabs_pos_eq r) by lra. assert (P := Rabs_pos x). nra. Qed.
Lemma Rabs_4 : forall a b c d, Rabs (a + b * s + c * t + d * (s * t)) <= Rabs a + Rabs b + Rabs c + Rabs d.
Proof.
  intros. eapply Rle_trans; [apply Rabs_triang|]. eapply Rle_trans; [apply Rplus_le_compat_r; apply Rabs_triang|]. eapply Rle_trans; [apply Rplus_le_compat_r; apply Rplus_le_compat_r; apply Rabs_triang|].
  assert (X := Rabs_mul01 b S01). assert (Y := Rabs_mul01 c T01). assert (Z := @Rabs_mul01 d (s * t) ltac:(nra)). lra.
Qed.
Lemma check_rule_4_ok : forall k o rows (bounded : bool) tp, tp <> 0 -> check_rule_4 k o rows bounded = true ->
  exists cw, init_data (mkRule (map (map ev4) rows) (if bounded then Some (-1, 1) else None) tp 1 false) = Ok cw /\ good k (degree_ok k o) (/ IZR TOL) cw.
Proof.
  intros k o rows bounded tp TP C. unfold check_rule_4 in C. destruct (fin4 rows bounded false) as [c w] eqn:FE. repeat (apply andb_prop in C; destruct C as [C ?C]).
  assert (H := @fin_ok q4 ev4 aff4 om4 (fun e => e) wsc4 (fun _ => false) zero4 1 tp ev_aff4 ev_om4 ltac:(intros; lra) ev_wsc4 ev_zero4 TP rows bounded false ltac:(discriminate) ltac:(discriminate)).
  rewrite H. fold fin4. rewrite FE. cbn [fst snd]. eexists. split; [reflexivity|]. split; cbn [fst snd].
  - intros x I. apply in_map_iff in I. destruct I as (q & <- & I). rewrite forallb_forall in C. apply (inb_ok ev4 om4 nonneg4 add4 zero4 ev_om4 ev_add4 ev_zero4 nonneg4_ok). auto.
  - apply Nat.eqb_eq in C1. apply integrates_mono; [rewrite !map_length; auto|]. intros es LE OK. apply degree_sel in OK; auto. destruct OK as [SU SE].
    destruct (@chk_quad q4 mul4 add4 zero4 ev4 ev_mul4 ev_add4 ev_zero4 (within4 k o) c w (kdim k) (degree_bound k o)) with (es := es) as (e & PE & V); auto. rewrite <- V. clear V H.
    unfold within4 in PE. rewrite SE in PE. cbn [negb orb] in PE. unfold exactR. assert (DP := exact_pos k es). destruct (exact k es) as [n d]. cbn [fst snd] in *.
    apply Qle_bool_iff in PE. apply Qle_Rle in PE. rewrite Q2R_mult, !Q2R_plus, !Q2R_abs, Q2R_minus, Q2R_1 in PE.
    assert (TP' : 0 < IZR TOL) by (apply IZR_lt; reflexivity).
    replace (Q2R (inject_Z TOL)) with (IZR TOL) in PE by (unfold Q2R, inject_Z; cbn [Qnum Qden]; lra).
    replace (Q2R (n # Z.to_pos d)) with (IZR n / IZR d) in PE. 2:{ unfold Q2R. cbn [Qnum Qden]. rewrite Z2Pos.id by auto. auto. }
    unfold ev4. replace (Q2R (qa e) + Q2R (qb e) * s + Q2R (qc e) * t + Q2R (qd e) * (s * t) - IZR n / IZR d) with ((Q2R (qa e) - IZR n / IZR d) + Q2R (qb e) * s + Q2R (qc e) * t + Q2R (qd e) * (s * t)) by ring.
    eapply Rle_trans; [apply Rabs_4|]. apply Rmult_le_reg_r with (IZR TOL); auto. rewrite Rinv_l by lra. auto.
Qed.
End root.
