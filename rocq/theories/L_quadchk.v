(** A checker of quadrature rules and its soundness. *)
From Coq Require Import Reals Lra QArith Qreals.
From Verif Require Import Base M_nls M_lagnodes M_lagrange P_lagnodes L_lagrange P_lagrange L_gm M_quadtab M_quad S_quad L_quadint P_cubature.
Set Implicit Arguments.
Open Scope R_scope.

Section chk.
Variable E : Type.
Variable mul add : E -> E -> E.
Variable zero : E.
Variable ev : E -> R.
Hypothesis ev_mul : forall a b, ev (mul a b) = ev a * ev b.
Hypothesis ev_add : forall a b, ev (add a b) = ev a + ev b.
Hypothesis ev_zero : ev zero = 0.
Fixpoint mulv (v c : list E) : list E := match v, c with x :: v, y :: c => mul x y :: mulv v c | _, _ => [] end.
Variable P : list nat -> E -> bool.
Definition rsum (v : list E) : E := fold_right add zero v.
(** All monomials of degree at most o, the sums of the products v * c1^k1 * c2^k2 ... *)
Fixpoint chk (cols : list (list E)) (v : list E) (o : nat) (ks : list nat) : bool :=
  match cols with
  | [] => P (rev ks) (rsum v)
  | c :: cols =>
    (fix loop (o : nat) (v : list E) (k : nat) : bool :=
       chk cols v o (k :: ks) && match o with O => true | S o => loop o (mulv v c) (S k) end) o v O
  end.
Definition pw (c : list E) (i : nat) (k : nat) : R := ev (nth i c zero) ^ k.
Fixpoint prods (cols : list (list E)) (i : nat) (ks : list nat) : R :=
  match cols, ks with c :: cols, k :: ks => pw c i k * prods cols i ks | _, _ => 1 end.
Lemma mulv_len : forall v c, length c = length v -> length (mulv v c) = length v.
Proof. induction v as [|x v IH]; intros [|y c] L; cbn [mulv length] in *; try lia. rewrite IH; lia. Qed.
Lemma mulv_nth : forall v c i, length c = length v -> (i < length v)%nat -> nth i (mulv v c) zero = mul (nth i v zero) (nth i c zero).
Proof. induction v as [|x v IH]; intros [|y c] i L I; cbn [mulv length nth] in *; try lia. destruct i; auto. apply IH; lia. Qed.
Lemma chk_spec : forall cols v o ks, (forall c, In c cols -> length c = length v) -> chk cols v o ks = true ->
  forall es, length es = length cols -> (list_sum es <= o)%nat -> exists e, P (rev ks ++ es) e = true /\ ev e = lsum (map (fun i => ev (nth i v zero) * prods cols i es) (seq 0 (length v))).
Proof.
  induction cols as [|c cols IH]; intros v o ks LC C es L SU.
  - destruct es; [|discriminate]. exists (rsum v). split; [rewrite app_nil_r; auto|]. clear - ev_add ev_zero. unfold rsum. rewrite (lsum_ext _ (fun i => ev (nth i v zero))) by (intros; cbn; lra).
    assert (G : ev (fold_right add zero v) = lsum (map ev v)) by (induction v; cbn [fold_right map]; [auto|rewrite ev_add, lsum_cons, IHv; auto]). rewrite G. f_equal.
    rewrite <- (map_nth_seq v zero) at 1. rewrite map_map. auto.
  - destruct es as [|e es]; [discriminate|]. change (list_sum (e :: es)) with (e + list_sum es)%nat in SU. cbn [length] in L.
    assert (G : forall o v k, (forall c', In c' (c :: cols) -> length c' = length v) ->
      (fix loop (o : nat) (v : list E) (k : nat) : bool := chk cols v o (k :: ks) && match o with O => true | S o => loop o (mulv v c) (S k) end) o v k = true ->
      forall e, (e + list_sum es <= o)%nat -> exists x, P (rev ks ++ (k + e)%nat :: es) x = true /\ ev x = lsum (map (fun i => ev (nth i v zero) * (pw c i e * prods cols i es)) (seq 0 (length v)))).
    { clear v o LC C SU e. induction o as [|o IHo]; intros v k LC C e SU.
      - apply andb_prop in C. destruct C as [C _]. assert (e = O) by lia. subst e. destruct (IH v O (k :: ks) (fun c' I => LC c' (or_intror I)) C es ltac:(lia) ltac:(lia)) as (x & X & V). exists x. cbn [rev] in X. rewrite <- app_assoc in X. cbn [app] in X. rewrite Nat.add_0_r. split; auto. rewrite V. apply lsum_ext. intros. unfold pw. cbn. lra.
      - apply andb_prop in C. destruct C as [C1 C2]. destruct e as [|e].
        + destruct (IH v (S o) (k :: ks) (fun c' I => LC c' (or_intror I)) C1 es ltac:(lia) ltac:(lia)) as (x & X & V). exists x. cbn [rev] in X. rewrite <- app_assoc in X. cbn [app] in X. rewrite Nat.add_0_r. split; auto. rewrite V. apply lsum_ext. intros. unfold pw. cbn. lra.
        + assert (LCC : length c = length v) by (apply LC; left; auto).
          destruct (IHo (mulv v c) (S k)) with (e := e) as (x & X & V); auto; [intros c' I; rewrite mulv_len; auto|lia|]. exists x. replace (k + S e)%nat with (S k + e)%nat by lia. split; auto. rewrite V, mulv_len by auto. apply lsum_ext. intros i I. apply in_seq in I. rewrite mulv_nth, ev_mul by (auto; lia). unfold pw. cbn [pow]. ring. }
    destruct (G o v O LC C e ltac:(lia)) as (x & X & V). exists x. auto.
Qed.
End chk.

(** ** The rules over a ring with an evaluation *)
Section fin.
Variable E : Type.
Variable ev : E -> R.
Variable aff one_minus wfx : E -> E.
Variable wsc : nat -> E -> E.
Variable isz nonneg : E -> bool.
Variable add : E -> E -> E.
Variable zero : E.
Variable wf tp : R.
Hypothesis ev_aff : forall e, ev (aff e) = (1 - 0) / (1 - -1) * ev e + (1 * 0 - -1 * 1) / (1 - -1).
Hypothesis ev_one_minus : forall e, ev (one_minus e) = 1 - ev e.
Hypothesis ev_wfx : forall e, ev (wfx e) = ev e * wf.
Hypothesis ev_wsc : forall n e, ev (wsc n e) = ev e * / 2 ^ n.
Hypothesis ev_add : forall a b, ev (add a b) = ev a + ev b.
Hypothesis ev_zero : ev zero = 0.
Hypothesis nonneg_ok : forall e, nonneg e = true -> 0 <= ev e.
Hypothesis tp_nz : tp <> 0.
Definition fin (rows : list (list E)) (bounded sym : bool) : list (list E) * list E :=
  let coors := map (fun r => removelast r) rows in
  let w := map (fun r => wfx (last r zero)) rows in
  let dim := length (nth 0 coors []) in
  let '(coors, w) := if bounded then (map (map aff) coors, map (wsc dim) w) else (coors, w) in
  if sym then
    let z := isz (nth 0 (nth 0 rows []) zero) in
    (map (map one_minus) (rev (if z then tl coors else coors)) ++ coors, rev (if z then tl w else w) ++ w)
  else (coors, w).
Lemma removelast_map : forall (l : list E), removelast (map ev l) = map ev (removelast l).
Proof. induction l as [|x [|y l] IH]; auto. cbn [map removelast] in *. rewrite IH. auto. Qed.
Lemma last_map : forall (l : list E), last (map ev l) 0 = ev (last l zero).
Proof. induction l as [|x [|y l] IH]; cbn [map last] in *; auto. Qed.
Lemma fin_ok : forall rows (bounded sym : bool), (sym = true -> length (nth 0 (map (fun r => removelast r) rows) []) = 1%nat) -> (sym = true -> Rzerob (ev (nth 0 (nth 0 rows []) zero)) = isz (nth 0 (nth 0 rows []) zero)) ->
  init_data (mkRule (map (map ev) rows) (if bounded then Some (-1, 1) else None) tp wf sym) = Ok (map (map ev) (fst (fin rows bounded sym)), map ev (snd (fin rows bounded sym))).
Proof.
  intros rows bounded sym D Z. unfold init_data. cbn [ru_data ru_bounds ru_tp_fix ru_weight_fix ru_symmetric].
  rewrite !map_map. rewrite (map_ext (fun x => removelast (map ev x)) (fun x => map ev (removelast x))) by (apply removelast_map). rewrite (map_ext (fun x => last (map ev x) 0 * wf) (fun x => ev (wfx (last x zero)))) by (intros; rewrite last_map, ev_wfx; auto).
  rewrite <- (map_map (fun r => removelast r) (map ev)), <- (map_map (fun r => wfx (last r zero)) ev).
  replace (length (nth 0 (map (map ev) (map (fun r => removelast r) rows)) [])) with (length (nth 0 (map (fun r => removelast r) rows) [])).
  2:{ change (@nil R) with (map ev []). rewrite (map_nth (map ev)), map_length. auto. }
  replace (nth 0 (nth 0 (map (map ev) rows) []) 0) with (ev (nth 0 (nth 0 rows []) zero)) by (rewrite <- ev_zero, <- (map_nth ev), <- (map_nth (map ev)); auto).
  unfold fin. set (coors := map (fun r => removelast r) rows) in *. set (w := map (fun r => wfx (last r zero)) rows). set (dim := length (nth 0 coors [])) in *.
  unfold finish.
  set (cw := if bounded then (map (map aff) coors, map (wsc dim) w) else (coors, w)).
  assert (CW : (match (if bounded then Some (-1, 1) else None) with
     | None => (map (map ev) coors, map ev w)
     | Some (a, b) => (map (map (fun x => (1 - 0) / (b - a) * x + (b * 0 - a * 1) / (b - a))) (map (map ev) coors), map (fun v => v * (1 ^ dim * tp / ((b - a) ^ dim * tp))) (map ev w)) end) = (map (map ev) (fst cw), map ev (snd cw))).
  { unfold cw. destruct bounded; [|reflexivity]. cbn [fst snd]. f_equal.
    - rewrite !map_map. apply map_ext. intros r. rewrite !map_map. apply map_ext. intros e. rewrite ev_aff. auto.
    - rewrite !map_map. apply map_ext. intros e. rewrite ev_wsc. rewrite pow1. replace (1 - -1) with 2 by lra. assert (2 ^ dim <> 0) by (apply pow_nonzero; lra). field. auto. }
  cbv zeta. rewrite CW. clear CW. destruct cw as [c v]. cbn [fst snd]. destruct sym; [|reflexivity].
  rewrite D by auto. cbn [Nat.eqb negb]. rewrite Z by auto. cbn [fst snd]. set (b := isz _). clearbody b. f_equal. f_equal.
  - rewrite map_app. f_equal. rewrite map_map.
    replace (if b then tl (map (map ev) c) else map (map ev) c) with (map (map ev) (if b then tl c else c)) by (destruct b, c; auto). rewrite <- map_rev, map_map. apply map_ext. intros r. rewrite !map_map. apply map_ext. intros e. rewrite ev_one_minus. lra.
  - rewrite map_app. f_equal. replace (if b then tl (map ev v) else map ev v) with (map ev (if b then tl v else v)) by (destruct b, v; auto). rewrite <- map_rev. auto.
Qed.
(** The points are in the reference element *)
Definition esum (l : list E) : E := fold_right add zero l.
Lemma esum_ok : forall l, ev (esum l) = fold_right Rplus 0 (map ev l).
Proof. induction l; cbn [esum fold_right map]; auto. rewrite ev_add. fold (esum l). rewrite IHl. auto. Qed.
Definition in_simplex_b (n : nat) (x : list E) : bool := (length x =? n)%nat && forallb nonneg x && nonneg (one_minus (esum x)).
Definition in_cube_b (n : nat) (x : list E) : bool := (length x =? n)%nat && forallb (fun e => nonneg e && nonneg (one_minus e)) x.
Definition in_wedge_b (x : list E) : bool := in_cube_b 3 x && nonneg (one_minus (esum (firstn 2 x))).
Lemma forallb_nth : forall (q : E -> bool) l k, forallb q l = true -> (k < length l)%nat -> q (nth k l zero) = true.
Proof. intros q l k F K. rewrite forallb_forall in F. apply F. apply nth_In. auto. Qed.
Lemma nth_ev : forall (x : list E) k, nth k (map ev x) 0 = ev (nth k x zero).
Proof. intros. rewrite <- ev_zero. apply map_nth. Qed.
Lemma in_simplex_ok : forall n x, in_simplex_b n x = true -> unit_simplex n (map ev x).
Proof.
  intros n x H. unfold in_simplex_b in H. apply andb_prop in H. destruct H as [H H3]. apply andb_prop in H. destruct H as [H1 H2]. apply Nat.eqb_eq in H1. subst n. split; [apply map_length|split].
  - intros k K. rewrite nth_ev. apply nonneg_ok. apply (forallb_nth nonneg x); auto.
  - rewrite <- esum_ok. apply nonneg_ok in H3. rewrite ev_one_minus in H3. lra.
Qed.
Lemma in_cube_ok : forall n x, in_cube_b n x = true -> unit_cube n (map ev x).
Proof.
  intros n x H. unfold in_cube_b in H. apply andb_prop in H. destruct H as [H1 H2]. apply Nat.eqb_eq in H1. subst n. split; [apply map_length|]. intros k K. rewrite nth_ev.
  assert (Q := forallb_nth (fun e => nonneg e && nonneg (one_minus e)) x H2 K). cbv beta in Q. apply andb_prop in Q. destruct Q as [Q1 Q2]. apply nonneg_ok in Q1, Q2. rewrite ev_one_minus in Q2. lra.
Qed.
Lemma in_wedge_ok : forall x, in_wedge_b x = true -> unit_cube 3 (map ev x) /\ nth 0 (map ev x) 0 + nth 1 (map ev x) 0 <= 1.
Proof.
  intros x H. unfold in_wedge_b in H. apply andb_prop in H. destruct H as [H1 H2]. split; [apply in_cube_ok; auto|]. apply nonneg_ok in H2. rewrite ev_one_minus, esum_ok in H2. unfold in_cube_b in H1. apply andb_prop in H1. destruct H1 as [L _]. apply Nat.eqb_eq in L. destruct x as [|a [|b x]]; try discriminate. cbn in *. lra.
Qed.
End fin.
