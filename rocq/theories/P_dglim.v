(** C157: the one-dimensional moment limiter. *)
From Coq Require Import List Arith Lia Reals Lra Bool.
From Verif Require Import M_dglim S_dglim.
Import ListNotations.
Open Scope R_scope.

Lemma sgn_pos x : 0 < x -> sgn x = 1.
Proof. intro. unfold sgn. destruct (Rlt_dec 0 x); lra. Qed.
Lemma sgn_neg x : x < 0 -> sgn x = -1.
Proof. intro. unfold sgn. destruct (Rlt_dec 0 x); [lra|]. destruct (Rlt_dec x 0); lra. Qed.
Lemma sgn_0 : sgn 0 = 0.
Proof. unfold sgn. destruct (Rlt_dec 0 0); [lra|]. destruct (Rlt_dec 0 0); lra. Qed.
Lemma sgn_cases x : (0 < x /\ sgn x = 1) \/ (x < 0 /\ sgn x = -1) \/ (x = 0 /\ sgn x = 0).
Proof.
  destruct (Rtotal_order x 0) as [H | [-> | H]].
  - right; left. split; [exact H | now apply sgn_neg].
  - right; right. split; [reflexivity | apply sgn_0].
  - left. split; [lra | apply sgn_pos; lra].
Qed.
Lemma reqb_true x y : reqb x y = true <-> x = y.
Proof. unfold reqb. destruct (Req_EM_T x y); split; auto; discriminate. Qed.

Theorem C157_minmod a b c : is_minmod a b c (minmod a b c).
Proof.
  unfold minmod.
  destruct (sgn_cases a) as [[Ha Ea] | [[Ha Ea] | [Ha Ea]]];
  destruct (sgn_cases b) as [[Hb Eb] | [[Hb Eb] | [Hb Eb]]];
  destruct (sgn_cases c) as [[Hc Ec] | [[Hc Ec] | [Hc Ec]]];
  rewrite Ea, Eb, Ec; unfold reqb;
  repeat (destruct (Req_EM_T _ _); try lra); cbn [andb]; unfold is_minmod; (split; [|split]); intros; try lra.
  - rewrite !Rabs_pos_eq by lra. unfold Rmin. repeat destruct (Rle_dec _ _); lra.
  - rewrite !Rabs_left by lra. unfold Rmin, Rmax. repeat destruct (Rle_dec _ _); lra.
Qed.

Lemma minmod_shrinks a b c : shrinks a (minmod a b c).
Proof.
  destruct (C157_minmod a b c) as (H1 & H2 & H3). unfold shrinks.
  destruct (Rlt_dec 0 a) as [Ha | Ha].
  - destruct (Rlt_dec 0 b) as [Hb | Hb]; [destruct (Rlt_dec 0 c) as [Hc | Hc]|].
    + rewrite H1 by auto. pose proof (Rmin_l a (Rmin b c)).
      assert (0 < Rmin a (Rmin b c)) by (repeat apply Rmin_glb_lt; lra).
      rewrite !Rabs_pos_eq by lra. split; [nra | lra].
    + rewrite H3 by lra. rewrite Rabs_R0. pose proof (Rabs_pos a). split; lra.
    + rewrite H3 by lra. rewrite Rabs_R0. pose proof (Rabs_pos a). split; lra.
  - destruct (Rlt_dec a 0) as [Ha' | Ha']; [destruct (Rlt_dec b 0) as [Hb | Hb]; [destruct (Rlt_dec c 0) as [Hc | Hc]|]|].
    + rewrite H2 by auto. pose proof (Rmax_l a (Rmax b c)).
      assert (Rmax a (Rmax b c) < 0) by (repeat apply Rmax_lub_lt; lra).
      rewrite !Rabs_left by lra. split; [nra | lra].
    + rewrite H3 by lra. rewrite Rabs_R0. pose proof (Rabs_pos a). split; lra.
    + rewrite H3 by lra. rewrite Rabs_R0. pose proof (Rabs_pos a). split; lra.
    + rewrite H3 by lra. rewrite Rabs_R0. pose proof (Rabs_pos a). split; lra.
Qed.

Lemma mem_filter i p l : mem i (filter p l) = (mem i l && p i)%bool.
Proof.
  unfold mem. induction l as [|a l IH]; [reflexivity|]. cbn [filter existsb].
  destruct (p a) eqn:E; cbn [existsb]; rewrite IH; destruct (Nat.eqb_spec i a) as [-> | N]; cbn; try rewrite E; try reflexivity.
  - rewrite andb_false_r. reflexivity.
Qed.
Lemma mem_seq i m : mem i (seq 0 m) = Nat.ltb i m.
Proof.
  unfold mem. destruct (Nat.ltb_spec i m).
  - apply existsb_exists. exists i. split; [apply in_seq; lia | apply Nat.eqb_refl].
  - destruct (existsb (Nat.eqb i) (seq 0 m)) eqn:E; [|reflexivity].
    apply existsb_exists in E. destruct E as (x & Hx & Ex). apply Nat.eqb_eq in Ex. apply in_seq in Hx. lia.
Qed.

Section Char.
Variables (u : nat -> nat -> R) (m : nat).
Definition mm (ll i : nat) : R :=
  minmod (u ll (i + 1)%nat) (u (ll - 1)%nat (i + 2)%nat - u (ll - 1)%nat (i + 1)%nat) (u (ll - 1)%nat (i + 1)%nat - u (ll - 1)%nat i).
Definition chg (ll i : nat) : bool := rltb machine_eps (Rabs (mm ll i - u ll (i + 1)%nat)).
(** All the moments ll, ..., ll + c - 1 changed. *)
Definition act (ll c i : nat) : bool := forallb (fun l => chg l i) (seq ll c).

Lemma lim1_char top : forall l nu tilu idx,
  (l <= top)%nat ->
  (forall ll k, (ll <= l)%nat -> nu ll k = u ll k) ->
  (forall i, mem i idx = (Nat.ltb i m && act (S l) (top - l) i)%bool) ->
  forall ll k, fst (fst (lim1_loop l (nu, tilu, idx))) ll k =
    if (Nat.leb 1 ll && Nat.leb ll l && Nat.ltb 0 k && Nat.ltb (k - 1) m && act ll (S top - ll) (k - 1))%bool
    then mm ll (k - 1) else nu ll k.
Proof.
  induction l as [|l IH]; intros nu tilu idx Hl Hnu Hidx ll k.
  - cbn [lim1_loop fst]. destruct ll; reflexivity.
  - cbn [lim1_loop lim1_step].
    match goal with |- context [lim1_loop l (_, ?b, _)] => set (tilu' := b) end.
    match goal with |- context [lim1_loop l (_, _, ?b)] => set (idx' := b) end.
    match goal with |- context [lim1_loop l (?b, _, _)] => set (nu' := b) end.
    assert (Ht : forall i, mem i idx = true -> tilu' i = mm (S l) i).
    { intros i Hi. unfold tilu'. rewrite Hi. unfold mm. rewrite !Hnu by lia. reflexivity. }
    assert (Hi' : forall i, mem i idx' = (Nat.ltb i m && act (S l) (top - l) i)%bool).
    { intro i. change idx' with (filter (fun i => rltb machine_eps (Rabs (tilu' i - nu (S l) (i + 1)%nat))) idx). rewrite mem_filter.
      destruct (mem i idx) eqn:E.
      - rewrite (Ht i E). rewrite Hnu by lia. rewrite Hidx in E. apply andb_true_iff in E. destruct E as [E1 E2].
        rewrite E1. cbn [andb]. replace (top - l)%nat with (S (top - S l)) by lia.
        unfold act in *. cbn [seq forallb]. rewrite E2, andb_true_r. reflexivity.
      - cbn [andb]. rewrite Hidx in E. replace (top - l)%nat with (S (top - S l)) by lia.
        unfold act in *. cbn [seq forallb].
        destruct (i <? m)%nat; [|reflexivity]. cbn [andb] in *. rewrite E, andb_false_r. reflexivity. }
    assert (Hnu' : forall ll k, (ll <= l)%nat -> nu' ll k = u ll k).
    { intros ll0 k0 H0.
      change (nu' ll0 k0) with (if (Nat.eqb ll0 (S l) && Nat.ltb 0 k0 && mem (k0 - 1) idx')%bool then tilu' (k0 - 1)%nat else nu ll0 k0).
      replace (ll0 =? S l)%nat with false by (symmetry; apply Nat.eqb_neq; lia).
      cbn [andb]. apply Hnu. lia. }
    rewrite (IH nu' tilu' idx' ltac:(lia) Hnu' Hi').
    destruct (Nat.eqb_spec ll (S l)) as [-> | N].
    + replace (Nat.leb (S l) l) with false by (symmetry; apply Nat.leb_gt; lia).
      rewrite andb_false_r. cbn [andb].
      replace (Nat.leb 1 (S l)) with true by reflexivity.
      replace (Nat.leb (S l) (S l)) with true by (symmetry; apply Nat.leb_refl). cbn [andb].
      change (nu' (S l) k) with (if (Nat.eqb (S l) (S l) && Nat.ltb 0 k && mem (k - 1) idx')%bool then tilu' (k - 1)%nat else nu (S l) k).
      rewrite Nat.eqb_refl. cbn [andb]. rewrite Hi'.
      replace (S top - S l)%nat with (top - l)%nat by lia.
      rewrite andb_assoc.
      destruct (Nat.ltb 0 k && Nat.ltb (k - 1) m && act (S l) (top - l) (k - 1))%bool eqn:E; [|reflexivity].
      apply Ht. rewrite Hidx. apply andb_true_iff in E. destruct E as [E E3]. apply andb_true_iff in E. destruct E as [_ E2].
      rewrite E2. cbn [andb]. replace (top - l)%nat with (S (top - S l)) in E3 by lia.
      unfold act in E3 |- *. cbn [seq forallb] in E3. apply andb_true_iff in E3. tauto.
    + replace (Nat.leb ll (S l)) with (Nat.leb ll l).
      2:{ destruct (Nat.leb_spec ll l); destruct (Nat.leb_spec ll (S l)); lia || reflexivity. }
      change (nu' ll k) with (if (Nat.eqb ll (S l) && Nat.ltb 0 k && mem (k - 1) idx')%bool then tilu' (k - 1)%nat else nu ll k).
      replace (ll =? S l)%nat with false by (symmetry; apply Nat.eqb_neq; exact N). reflexivity.
Qed.
End Char.

Lemma ravel_at n (u : nat -> nat -> R) k ll : (ll < n)%nat -> ravel n u (k * n + ll)%nat = u ll k.
Proof.
  intro H. unfold ravel. rewrite Nat.add_comm, Nat.mod_add by lia. rewrite Nat.mod_small by lia.
  rewrite Nat.div_add by lia. rewrite Nat.div_small by lia. reflexivity.
Qed.

Lemma limiter_at n n_cell v k ll : (2 <= n)%nat -> (ll < n)%nat ->
  limiter1d n n_cell v (k * n + ll)%nat =
  if (Nat.leb 1 ll && Nat.ltb 0 k && Nat.ltb (k - 1) (n_cell - 2) && act (unravel n v) ll (n - ll) (k - 1))%bool
  then mm (unravel n v) ll (k - 1) else v (k * n + ll)%nat.
Proof.
  intros Hn Hl. unfold limiter1d. replace (n =? 1)%nat with false by (symmetry; apply Nat.eqb_neq; lia).
  pose proof (lim1_char (unravel n v) (n_cell - 2) (n - 1) (n - 1) (unravel n v) (fun _ => 0) (seq 0 (n_cell - 2))
     ltac:(lia) ltac:(reflexivity)) as H.
  specialize (H ltac:(intro i; rewrite mem_seq, Nat.sub_diag; unfold act; cbn; now rewrite andb_true_r)).
  destruct (lim1_loop _ _) as [[nu tl] ix]. cbn [fst] in H.
  rewrite ravel_at by exact Hl. rewrite H.
  replace (ll <=? n - 1)%nat with true by (symmetry; apply Nat.leb_le; lia). rewrite andb_true_r.
  replace (S (n - 1) - ll)%nat with (n - ll)%nat by lia. reflexivity.
Qed.

Lemma shrinks_refl a : shrinks a a.
Proof. unfold shrinks. split; [nra | lra]. Qed.

(** Cell means (moment 0) and the first and last cell are not changed; every
    other moment shrinks towards zero. *)
Theorem C157_limiter n n_cell v k ll : (1 <= n)%nat -> (k < n_cell)%nat -> (ll < n)%nat ->
  let w := limiter1d n n_cell v in
  (ll = 0%nat \/ k = 0%nat \/ S k = n_cell -> w (k * n + ll)%nat = v (k * n + ll)%nat) /\
  shrinks (v (k * n + ll)%nat) (w (k * n + ll)%nat).
Proof.
  intros Hn Hk Hl w. unfold w.
  destruct (Nat.eq_dec n 1) as [-> | N].
  - unfold limiter1d. rewrite Nat.eqb_refl. split; [reflexivity | apply shrinks_refl].
  - rewrite limiter_at by lia. split.
    + intros [-> | [-> | <-]].
      * reflexivity.
      * change (0 <? 0)%nat with false. rewrite andb_false_r. reflexivity.
      * replace (k - 1 <? S k - 2)%nat with (false) by (symmetry; apply Nat.ltb_ge; lia).
        rewrite andb_false_r. reflexivity.
    + destruct (_ && _)%bool eqn:E; [|apply shrinks_refl].
      rewrite !andb_true_iff in E. destruct E as [[[E1 E2] E3] E4]. apply Nat.ltb_lt in E2.
      unfold mm. unfold unravel at 1. replace (k - 1 + 1)%nat with k by lia. apply minmod_shrinks.
Qed.

(** Interior cells: moments are replaced by the minmod of the (original)
    moment and the differences of the next lower moment, from the highest down
    to the first one that need not be changed. *)
Theorem C157_moments n n_cell v k : (1 <= n)%nat -> (0 < k)%nat -> (S k < n_cell)%nat ->
  let w := limiter1d n n_cell v in
  let a := fun l c => v (c * n + l)%nat in
  let limited := fun l r => is_minmod (a l k) (a (l - 1)%nat (k + 1)%nat - a (l - 1)%nat k) (a (l - 1)%nat k - a (l - 1)%nat (k - 1)%nat) r in
  exists j, (j < n)%nat /\
  (forall l, (l <= j)%nat -> w (k * n + l)%nat = a l k) /\
  (forall l, (j < l < n)%nat -> limited l (w (k * n + l)%nat)) /\
  ((1 <= j)%nat -> exists r, limited j r /\ Rabs (r - a j k) <= / 10 ^ 30).
Proof.
  intros Hn Hk Hk2 w a limited.
  destruct (Nat.eq_dec n 1) as [-> | N].
  { exists 0%nat. split; [lia|]. split; [|split; intros; lia].
    intros l Hl. unfold w, limiter1d. rewrite Nat.eqb_refl. reflexivity. }
  set (U := unravel n v).
  assert (Hmm : forall l, is_minmod (a l k) (a (l - 1)%nat (k + 1)%nat - a (l - 1)%nat k) (a (l - 1)%nat k - a (l - 1)%nat (k - 1)%nat) (mm U l (k - 1))).
  { intro l. pose proof (C157_minmod (U l (k - 1 + 1)%nat) (U (l - 1)%nat (k - 1 + 2)%nat - U (l - 1)%nat (k - 1 + 1)%nat) (U (l - 1)%nat (k - 1 + 1)%nat - U (l - 1)%nat (k - 1)%nat)) as H.
    unfold mm. replace (k - 1 + 1)%nat with k in * by lia. replace (k - 1 + 2)%nat with (k + 1)%nat in * by lia. exact H. }
  (* the highest moment that is not changed *)
  assert (HJ : exists j, (j < n)%nat /\ (1 <= j -> chg U j (k - 1) = false)%nat /\ (forall l, (j < l < n)%nat -> chg U l (k - 1) = true)).
  { assert (G : forall d, (d < n)%nat -> exists j, (j < n)%nat /\ (n - 1 - d <= j)%nat /\ ((n - 1 - d < j)%nat -> (1 <= j)%nat -> chg U j (k - 1) = false) /\ (forall l, (j < l < n)%nat -> chg U l (k - 1) = true)).
    { induction d; intro Hd.
      - exists (n - 1)%nat. repeat split; try lia.
      - destruct IHd as (j & J1 & J2 & J3 & J4); [lia|].
        destruct (Nat.eq_dec j (n - 1 - d)) as [Ej | Ej].
        + destruct (chg U j (k - 1)) eqn:E.
          * exists (j - 1)%nat. repeat split; try lia.
            intros l Hl. destruct (Nat.eq_dec l j) as [-> | Nl]; [exact E | apply J4; lia].
          * exists j. split; [lia|]. split; [lia|]. split; [intros; exact E | exact J4].
        + exists j. split; [lia|]. split; [lia|]. split; [intros; apply J3; lia | exact J4]. }
    destruct (G (n - 1)%nat ltac:(lia)) as (j & J1 & J2 & J3 & J4).
    exists j. repeat split; auto. intro. apply J3; lia. }
  destruct HJ as (j & J1 & J2 & J3). exists j. split; [exact J1|]. split; [|split].
  - intros l Hl. unfold w. rewrite limiter_at by lia. fold U.
    destruct (_ && _)%bool eqn:E; [|reflexivity]. exfalso.
    rewrite !andb_true_iff in E. destruct E as [[[E1 _] _] E4]. apply Nat.leb_le in E1.
    unfold act in E4. rewrite forallb_forall in E4. specialize (E4 j ltac:(apply in_seq; lia)).
    rewrite J2 in E4 by lia. discriminate.
  - intros l Hl. unfold w, limited. rewrite limiter_at by lia. fold U.
    replace (1 <=? l)%nat with true by (symmetry; apply Nat.leb_le; lia).
    replace (0 <? k)%nat with true by (symmetry; apply Nat.ltb_lt; lia).
    replace (k - 1 <? n_cell - 2)%nat with true by (symmetry; apply Nat.ltb_lt; lia).
    assert (Ea : act U l (n - l) (k - 1) = true).
    { unfold act. apply forallb_forall. intros q Hq. apply in_seq in Hq. apply J3. lia. }
    rewrite Ea. cbn [andb]. apply Hmm.
  - intro H1. exists (mm U j (k - 1)). split; [apply Hmm|].
    specialize (J2 H1). unfold chg, rltb in J2. destruct (Rlt_dec _ _) as [|L]; [discriminate|].
    replace (k - 1 + 1)%nat with k in L by lia. unfold machine_eps in L. apply Rnot_lt_le in L. exact L.
Qed.

(** Piecewise linear elements (the basis is 1 and 2x - 1): after limiting, the
    solution in an interior cell lies between the means of the neighbouring
    cells and its own mean (up to the machine epsilon constant of the code). *)
Theorem C157_local_maximum n_cell v k x : (0 < k)%nat -> (S k < n_cell)%nat -> 0 <= x <= 1 ->
  let w := limiter1d 2 n_cell v in
  let mean := fun c => v (c * 2)%nat in
  let value := w (k * 2)%nat + w (k * 2 + 1)%nat * (2 * x - 1) in
  Rmin (Rmin (mean (k - 1)%nat) (mean k)) (mean (k + 1)%nat) - / 10 ^ 30 <= value
    <= Rmax (Rmax (mean (k - 1)%nat) (mean k)) (mean (k + 1)%nat) + / 10 ^ 30.
Proof.
  intros Hk Hk2 Hx w mean value.
  assert (Hp : 0 < / 10 ^ 30) by (apply Rinv_0_lt_compat, pow_lt; lra).
  set (e := / 10 ^ 30) in *.
  destruct (C157_moments 2 n_cell v k ltac:(lia) Hk Hk2) as (j & J1 & J2 & J3 & J4).
  fold e in J4.
  assert (Hs : exists r, is_minmod (v (k * 2 + 1)%nat) (mean (k + 1)%nat - mean k) (mean k - mean (k - 1)%nat) r /\ Rabs (w (k * 2 + 1)%nat - r) <= e).
  { assert (Hj : j = 0%nat \/ j = 1%nat) by lia. destruct Hj as [-> | ->].
    - exists (w (k * 2 + 1)%nat). specialize (J3 1%nat ltac:(lia)). cbn [Nat.sub] in J3.
      rewrite !Nat.add_0_r in J3. split; [exact J3|]. rewrite Rminus_eq_0, Rabs_R0. lra.
    - destruct (J4 ltac:(lia)) as (r & R1 & R2). exists r. cbn [Nat.sub] in R1. rewrite !Nat.add_0_r in R1.
      split; [exact R1|]. rewrite Rabs_minus_sym. unfold w. rewrite J2 by lia. exact R2. }
  assert (H0 : w (k * 2)%nat = mean k).
  { unfold w, mean. pose proof (J2 0%nat ltac:(lia)) as H. rewrite !Nat.add_0_r in H. exact H. }
  unfold value. rewrite H0.
  destruct Hs as (r & (R1 & R2 & R3) & Hr).
  set (s := w (k * 2 + 1)%nat) in *. set (m0 := mean (k - 1)%nat) in *. set (m1 := mean k) in *. set (m2 := mean (k + 1)%nat) in *.
  set (a := v (k * 2 + 1)%nat) in *.
  assert (Hb : (r = 0) \/ (0 < r /\ r <= m2 - m1 /\ r <= m1 - m0) \/ (r < 0 /\ m2 - m1 <= r /\ m1 - m0 <= r)).
  { destruct (Rlt_dec 0 a) as [Ha | Ha].
    - destruct (Rlt_dec 0 (m2 - m1)) as [B | B]; [destruct (Rlt_dec 0 (m1 - m0)) as [C | C]|].
      + right; left. rewrite R1 by auto. split; [repeat apply Rmin_glb_lt; lra|].
        pose proof (Rmin_r a (Rmin (m2 - m1) (m1 - m0))). pose proof (Rmin_l (m2 - m1) (m1 - m0)).
        pose proof (Rmin_r (m2 - m1) (m1 - m0)). lra.
      + left. apply R3; lra.
      + left. apply R3; lra.
    - destruct (Rlt_dec a 0) as [Ha' | Ha']; [destruct (Rlt_dec (m2 - m1) 0) as [B | B]; [destruct (Rlt_dec (m1 - m0) 0) as [C | C]|]|].
      + right; right. rewrite R2 by auto. split; [repeat apply Rmax_lub_lt; lra|].
        pose proof (Rmax_r a (Rmax (m2 - m1) (m1 - m0))). pose proof (Rmax_l (m2 - m1) (m1 - m0)).
        pose proof (Rmax_r (m2 - m1) (m1 - m0)). lra.
      + left. apply R3; lra.
      + left. apply R3; lra.
      + left. apply R3; lra. }
  assert (Hs2 : - e <= s - r <= e) by (unfold Rabs in Hr; destruct (Rcase_abs _) in Hr; lra).
  assert (Hz : -1 <= 2 * x - 1 <= 1) by lra. set (z := 2 * x - 1) in *.
  assert (Hez : - e <= (s - r) * z <= e) by nra.
  replace (m1 + s * z) with (m1 + r * z + (s - r) * z) by ring.
  assert (L1 : Rmin (Rmin m0 m1) m2 <= m1 + r * z <= Rmax (Rmax m0 m1) m2).
  { pose proof (Rmin_l (Rmin m0 m1) m2). pose proof (Rmin_r (Rmin m0 m1) m2). pose proof (Rmin_l m0 m1). pose proof (Rmin_r m0 m1).
    pose proof (Rmax_l (Rmax m0 m1) m2). pose proof (Rmax_r (Rmax m0 m1) m2). pose proof (Rmax_l m0 m1). pose proof (Rmax_r m0 m1).
    destruct Hb as [-> | [[B1 [B2 B3]] | [B1 [B2 B3]]]].
    - lra.
    - assert (- r <= r * z <= r) by nra. lra.
    - assert (r <= r * z <= - r) by nra. lra. }
  lra.
Qed.

(** Limiting twice is limiting once (piecewise linear elements, where the code
    changes the slope at all). *)
Theorem C157_idempotent n_cell v i : (i < n_cell * 2)%nat ->
  limiter1d 2 n_cell (limiter1d 2 n_cell v) i = limiter1d 2 n_cell v i.
Proof.
  intro Hi.
  assert (Ei : i = (i / 2 * 2 + i mod 2)%nat) by (rewrite Nat.mul_comm; apply Nat.div_mod; lia).
  assert (Hl : (i mod 2 < 2)%nat) by (apply Nat.mod_upper_bound; lia).
  assert (Hk : (i / 2 < n_cell)%nat) by (apply Nat.div_lt_upper_bound; lia).
  set (k := (i / 2)%nat) in *. set (l := (i mod 2)%nat) in *. rewrite Ei. clear Ei.
  set (w := limiter1d 2 n_cell v).
  rewrite (limiter_at 2 n_cell w) by lia.
  destruct (_ && _)%bool eqn:E; [|reflexivity].
  rewrite !andb_true_iff in E. destruct E as [[[E1 E2] E3] E4]. apply Nat.leb_le in E1. apply Nat.ltb_lt in E2, E3.
  assert (l = 1)%nat by lia. subst l. rewrite H in *. clear E1 H Hl.
  change (2 - 1)%nat with 1%nat in E4. unfold act in E4. cbn [seq forallb] in E4. rewrite andb_true_r in E4.
  assert (H0 : forall c, (c < n_cell)%nat -> w (c * 2 + 0)%nat = v (c * 2 + 0)%nat).
  { intros c Hc. apply (C157_limiter 2 n_cell v c 0); [lia | exact Hc | lia | left; reflexivity]. }
  assert (Hm : mm (unravel 2 w) 1 (k - 1) = minmod (w (k * 2 + 1)%nat) (v ((k + 1) * 2 + 0)%nat - v (k * 2 + 0)%nat) (v (k * 2 + 0)%nat - v ((k - 1) * 2 + 0)%nat)).
  { unfold mm, unravel. replace (k - 1 + 1)%nat with k by lia. replace (k - 1 + 2)%nat with (k + 1)%nat by lia.
    change (1 - 1)%nat with 0%nat. rewrite !H0 by lia. reflexivity. }
  set (b := v ((k + 1) * 2 + 0)%nat - v (k * 2 + 0)%nat) in *.
  set (c := v (k * 2 + 0)%nat - v ((k - 1) * 2 + 0)%nat) in *.
  assert (Hv : mm (unravel 2 v) 1 (k - 1) = minmod (v (k * 2 + 1)%nat) b c).
  { unfold mm, unravel, b, c. replace (k - 1 + 1)%nat with k by lia. replace (k - 1 + 2)%nat with (k + 1)%nat by lia. reflexivity. }
  pose proof (limiter_at 2 n_cell v k 1 ltac:(lia) ltac:(lia)) as Hw. fold w in Hw.
  destruct (_ && _)%bool eqn:Ew in Hw.
  - rewrite Hm, Hw, Hv.
    destruct (C157_minmod (v (k * 2 + 1)%nat) b c) as (A1 & A2 & A3). set (a := v (k * 2 + 1)%nat) in *.
    set (r := minmod a b c) in *. destruct (C157_minmod r b c) as (B1 & B2 & B3).
    destruct (Rlt_dec 0 a) as [Ha | Ha].
    + destruct (Rlt_dec 0 b) as [Hb | Hb]; [destruct (Rlt_dec 0 c) as [Hc | Hc]|].
      * specialize (A1 ltac:(auto)). assert (0 < r) by (rewrite A1; repeat apply Rmin_glb_lt; lra).
        rewrite B1 by auto. rewrite A1. unfold Rmin. repeat destruct (Rle_dec _ _); lra.
      * specialize (A3 ltac:(lra) ltac:(lra)). rewrite B3 by lra. lra.
      * specialize (A3 ltac:(lra) ltac:(lra)). rewrite B3 by lra. lra.
    + destruct (Rlt_dec a 0) as [Ha' | Ha']; [destruct (Rlt_dec b 0) as [Hb | Hb]; [destruct (Rlt_dec c 0) as [Hc | Hc]|]|].
      * specialize (A2 ltac:(auto)). assert (r < 0) by (rewrite A2; repeat apply Rmax_lub_lt; lra).
        rewrite B2 by auto. rewrite A2. unfold Rmax. repeat destruct (Rle_dec _ _); lra.
      * specialize (A3 ltac:(lra) ltac:(lra)). rewrite B3 by lra. lra.
      * specialize (A3 ltac:(lra) ltac:(lra)). rewrite B3 by lra. lra.
      * specialize (A3 ltac:(lra) ltac:(lra)). rewrite B3 by lra. lra.
  - exfalso.
    replace (1 <=? 1)%nat with true in Ew by reflexivity.
    replace (0 <? k)%nat with true in Ew by (symmetry; apply Nat.ltb_lt; lia).
    replace (k - 1 <? n_cell - 2)%nat with true in Ew by (symmetry; apply Nat.ltb_lt; lia).
    cbn [andb] in Ew. unfold act in Ew. change (2 - 1)%nat with 1%nat in Ew. cbn [seq forallb] in Ew. rewrite andb_true_r in Ew.
    unfold chg in E4, Ew. rewrite Hm in E4. rewrite Hv in Ew. unfold unravel in E4, Ew.
    replace (k - 1 + 1)%nat with k in * by lia. rewrite Hw in E4. congruence.
Qed.

(** Interior cells with an overshoot are really limited. *)
Example C157_example :
  let v := fun i => nth i [0; 0; 1; 5; 2; 0] 0 in
  limiter1d 2 3 v 3%nat = 1 /\ limiter1d 2 3 v 2%nat = 1.
Proof.
  intro v.
  destruct (C157_moments 2 3 v 1 ltac:(lia) ltac:(lia) ltac:(lia)) as (j & J1 & J2 & J3 & J4).
  assert (Hj : j = 0%nat \/ j = 1%nat) by lia. destruct Hj as [-> | ->].
  - specialize (J3 1%nat ltac:(lia)). specialize (J2 0%nat ltac:(lia)).
    destruct J3 as (A & _). change 3%nat with (1 * 2 + 1)%nat at 2. change 2%nat with (1 * 2 + 0)%nat at 5. split.
    + rewrite A by (cbn; lra). cbn. unfold Rmin. repeat destruct (Rle_dec _ _); lra.
    + exact J2.
  - exfalso. destruct (J4 ltac:(lia)) as (r & (A & _) & B). unfold v in *. cbn -[pow] in A, B.
    rewrite A in B by lra.
    assert (E : Rmin 5 (Rmin (2 - 1) (1 - 0)) <= 1).
    { eapply Rle_trans; [apply Rmin_r|]. eapply Rle_trans; [apply Rmin_l|]. lra. }
    assert (L : / 10 ^ 30 <= 1) by (rewrite <- Rinv_1; apply Rinv_le_contravar; [lra | apply pow_R1_Rle; lra]).
    rewrite Rabs_left in B by lra. lra.
Qed.

Print Assumptions C157_minmod.
Print Assumptions C157_limiter.
Print Assumptions C157_moments.
Print Assumptions C157_local_maximum.
Print Assumptions C157_idempotent.
