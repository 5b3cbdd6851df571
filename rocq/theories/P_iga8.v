(** C151, C152: the theorems on patches. *)
From Coq Require Import Reals Lra Lia Arith List Bool.
From Coquelicot Require Import Coquelicot.
From Verif Require Import M_fmf L_fmf M_map L_map P_map S_iga M_iga L_iga S_iga2 M_iga2 P_iga P_iga2 P_iga3 L_hyper L_iga2 P_iga4 P_iga5 P_iga6 P_iga7.
Import ListNotations.
Open Scope R_scope.

Notation D0 := ((fun _ : nat => 0, 0%nat), 0%nat).
Notation kn kps k := (fst (fst (nth k kps D0))).
Notation nk kps k := (snd (fst (nth k kps D0))).
Notation dg kps k := (snd (nth k kps D0)).
(** One, two or three open knot vectors. *)
Definition good_patch (kps : list (knot_vector * nat)) : Prop :=
  (1 <= length kps <= 3)%nat /\ List.Forall (fun '((t, n), p) => open_knots t n p) kps.
(** The left end of the knot interval of the element with the indices [ies] in the direction k, and the
    parametric coordinate of the reference coordinate [qp k] there. *)
Definition left_knot (kps : list (knot_vector * nat)) (ies : list nat) (k : nat) : nat := nth (nth k ies 0%nat) (spans (kn kps k) (nk kps k)) 0%nat.
Definition par_coor (kps : list (knot_vector * nat)) (ies : list nat) (qp : nat -> R) (k : nat) : R :=
  let s := left_knot kps ies k in kn kps k s + qp k * (kn kps k (s + 1)%nat - kn kps k s).

Section Patch.
Variable kps : list (knot_vector * nat).
Notation dim := (length kps).
Hypothesis HG : good_patch kps.
Variables (cs : list (list mat)) (conn bconn : nat -> nat -> nat).
Hypothesis HP : create_patch (map fst kps) (map snd kps) = Some (cs, conn, bconn).
Notation n_els := (map n_spans kps).
Notation degrees := (map snd kps).
Notation shape := (map n_funs kps).
Notation nf := (n_efun degrees).
Notation ds := (map (fun p => p + 1)%nat degrees).
Variable ies : list nat.
Hypothesis HE : inside ies n_els.
Notation e := (position n_els ies).

Lemma patch_data : length cs = dim /\ map (@length mat) cs = map n_spans kps /\ conn = conn_el kps /\
  (forall k, (k < dim)%nat -> compute_bezier_extraction_1d (kn kps k) (nk kps k) (dg kps k) = Some (nth k cs [])) /\
  forall k, (k < dim)%nat -> forall e, (e < n_spans (nth k kps D0))%nat -> let s := nth e (spans (kn kps k) (nk kps k)) 0%nat in
    forall i x, (i < dg kps k + 1)%nat -> kn kps k s <= x < kn kps k (s + 1)%nat ->
      sm (dg kps k + 1) (fun j => nth e (nth k cs []) eye i j * bernstein (dg kps k) j ((x - kn kps k s) / (kn kps k (s + 1)%nat - kn kps k s))) = bspline (kn kps k) (dg kps k) (i + (s - dg kps k)) x.
Proof.
  destruct HG as (_ & HO). destruct (patch_lists kps HO) as (cs' & bcs & P1 & P2 & P3 & P4 & P5 & P6).
  unfold create_patch in HP. rewrite P1 in HP. rewrite P4 in HP. cbn [option_map] in HP. inversion HP; subst. clear HP.
  split; auto. split; auto. split; auto. split; auto.
  unfold compute_bezier_extraction in P1. clear - P1. revert cs P1. induction kps as [|((t & n) & p) l IH]; intros cs P1 k Hk. cbn in Hk; lia.
  cbn [map fst snd combine all_some] in P1. destruct (compute_bezier_extraction_1d t n p) as [c|] eqn:E; [|discriminate].
  destruct (all_some _) as [c'|] eqn:E'; [|discriminate]. inversion P1; subst. destruct k; cbn [nth fst snd]; auto. apply IH; auto. cbn in Hk; lia.
Qed.
Lemma H13' : (1 <= dim <= 3)%nat. Proof. apply HG. Qed.
Lemma HO' : List.Forall (fun '((t, n), p) => open_knots t n p) kps. Proof. apply HG. Qed.

Lemma elem_unity : forall bern qp k, bern_ok bern -> (k < dim)%nat -> sm (dg kps k + 1) (elem_N degrees cs bern qp e k) = 1.
Proof.
  intros bern qp k HB Hk. destruct patch_data as (L1 & L2 & _ & L4 & _). unfold elem_N.
  rewrite (@nth_map0 _ _ snd kps k D0) by auto. rewrite sm_swap.
  rewrite (@sm_ext _ _ (fun j => bernstein (dg kps k) j (qp k))). apply bern_unity.
  intros j Hj. rewrite sm_scalr. rewrite (proj1 (HB (qp k) (dg kps k) j ltac:(lia))).
  rewrite (@C150_columns (kn kps k) (nk kps k) (dg kps k) (nth k cs [])); auto. ring.
  - apply HOk; auto. apply HO'.
  - unfold elem_C. rewrite L2, unravel_hrav; auto. 2: { rewrite map_length. apply H13'. }
    apply nth_In. pose proof (ies_lt kps ies HE k Hk) as Q. rewrite <- (@nth_map0 _ _ n_spans kps k D0 0%nat) in Q by auto. rewrite <- L2 in Q.
    rewrite (@nth_map0 _ _ (@length mat) cs k []) in Q by lia. exact Q.
Qed.
Lemma val_unity : forall bern qp, bern_ok bern -> sm nf (fun a => tp_val (elem_N degrees cs bern qp e) (nth a (tuples ds) [])) = 1.
Proof.
  intros bern qp HB. set (N := elem_N degrees cs bern qp e).
  rewrite (@sm_ext nf _ (fun a => prodR (map (fun k => N k (nth k (nth a (tuples ds) []) 0%nat)) (seq 0 (length ds))))).
  2: { intros a Ha. destruct (idx_ds kps a Ha) as (I1 & _). rewrite ds_len. apply tp_val_prod; auto. rewrite (f2_length _ _ I1). apply ds_len. apply H13'. }
  rewrite nf_prod, sum_product, ds_len. apply prodR_1. intros k Hk. rewrite ds_nth by auto. apply elem_unity; auto.
Qed.
(** The values and the derivatives with respect to the reference coordinates, with and without weights. *)
Section Branch.
Variables (rational : bool) (bern : R -> nat -> arr * arr) (w qp : nat -> R).
Hypothesis HB : bern_ok bern.
Hypothesis HW : forall g, (g < prodn shape)%nat -> 0 < w g.
Hypothesis HQ : forall k, (k < dim)%nat -> 0 <= qp k < 1.
Hypothesis HR : rational = false -> forall g, (g < prodn shape)%nat -> w g = 1.
Notation B qp := (tp_basis dim degrees cs rational bern qp e (fun a => w (conn e a))).
Notation lI a := (loc kps ies (nth a (tuples ds) [])).
Lemma ws_pos : 0 < wsum degrees cs bern e (fun a => w (conn e a)) qp.
Proof. destruct patch_data as (L1 & L2 & L3 & L4 & L5). rewrite L3. eapply wsum_pos; eauto using H13', HO'. Qed.
Lemma conn_lt : forall a, (a < nf)%nat -> conn e a = position shape (lI a) /\ inside (lI a) shape.
Proof.
  intros a Ha. destruct patch_data as (L1 & L2 & L3 & _). destruct (idx_ds kps a Ha) as (I1 & I2). split.
  rewrite L3. rewrite <- I2 at 1. eapply conn_at; eauto using H13', HO'. eapply loc_in; eauto using H13', HO'.
Qed.
Lemma branch_value : forall a, (a < nf)%nat -> fst (B qp) a = nurbs kps w (lI a) (par_coor kps ies qp).
Proof.
  intros a Ha. destruct patch_data as (L1 & L2 & L3 & L4 & L5).
  assert (T : fst (tp_basis dim degrees cs true bern qp e (fun a => w (conn e a))) a = nurbs kps w (lI a) (par_coor kps ies qp)).
  { rewrite L3. eapply basis_nurbs; eauto using H13', HO'. }
  rewrite <- T. destruct rational; auto. specialize (HR eq_refl).
  rewrite (proj1 (@basis_at dim degrees cs true bern e _ qp a Ha)), (proj1 (@basis_at dim degrees cs false bern e (fun a => w (conn e a)) qp a Ha)).
  assert (W1 : forall a, (a < nf)%nat -> w (conn e a) = 1). { intros b Hb. apply HR. destruct (conn_lt b Hb) as (-> & I). apply hrav_lt; auto. }
  rewrite (W1 a Ha). unfold den. rewrite (@sm_ext nf _ (fun a => tp_val (elem_N degrees cs bern qp e) (nth a (tuples ds) []))).
  rewrite val_unity by auto. field. intros b Hb. rewrite (W1 b Hb). ring.
Qed.
Lemma branch_derive : forall a k, (a < nf)%nat -> (k < dim)%nat -> is_derive (fun z : R => fst (B (upd qp k z)) a) (qp k) (snd (B qp) a k).
Proof.
  intros a k Ha Hk. destruct rational.
  - apply C151_derivative_gen; auto. rewrite map_length; auto. apply H13'. pose proof ws_pos. lra.
  - rewrite (proj2 (@basis_at dim degrees cs false bern e (fun a => w (conn e a)) qp a Ha) k Hk).
    apply (@dext (fun z => tp_val (elem_N degrees cs bern (upd qp k z) e) (nth a (tuples ds) []))).
    intros z. symmetry. apply (proj1 (@basis_at dim degrees cs false bern e (fun a => w (conn e a)) (upd qp k z) a Ha)).
    apply (@tp_derive dim degrees cs bern e); auto. rewrite map_length; auto. apply H13'. destruct (idx_ds kps a Ha) as (I1 & _). rewrite (f2_length _ _ I1). apply ds_len.
Qed.
Lemma branch_unity : sm nf (fst (B qp)) = 1.
Proof.
  destruct rational.
  - apply C151_unity_gen. pose proof ws_pos. lra.
  - rewrite (@sm_ext nf _ (fun a => tp_val (elem_N degrees cs bern qp e) (nth a (tuples ds) []))). apply val_unity; auto.
    intros a Ha. apply (proj1 (@basis_at dim degrees cs false bern e _ qp a Ha)).
Qed.
Lemma branch_zero : forall k, (k < dim)%nat -> sm nf (fun a => snd (B qp) a k) = 0.
Proof.
  intros k Hk. assert (RE : rational = true \/ rational = false) by (destruct rational; auto). destruct RE as [RE|RE]; rewrite RE.
  - apply C151_unity_gen; auto. pose proof ws_pos. lra.
  - assert (D : is_derive (fun z : R => sm nf (fst (tp_basis dim degrees cs false bern (upd qp k z) e (fun a => w (conn e a))))) (qp k) (sm nf (fun a => snd (tp_basis dim degrees cs false bern qp e (fun a => w (conn e a))) a k))).
    { apply (@dsm nf (fun a z => fst (tp_basis dim degrees cs false bern (upd qp k z) e (fun a => w (conn e a))) a)). intros a Ha. pose proof (branch_derive a k Ha Hk) as Q. rewrite RE in Q. exact Q. }
    apply is_derive_unique in D. rewrite <- D. rewrite (Derive_ext _ (fun _ => 1)). apply Derive_const.
    intros z. rewrite (@sm_ext nf _ (fun a => tp_val (elem_N degrees cs bern (upd qp k z) e) (nth a (tuples ds) []))). apply val_unity; auto.
    intros a Ha. apply (proj1 (@basis_at dim degrees cs false bern e _ (upd qp k z) a Ha)).
Qed.
End Branch.
Lemma is_nurbs_false : forall n w, is_nurbs n w = false -> forall g, (g < n)%nat -> w g = 1.
Proof.
  intros n w H g Hg. unfold is_nurbs in H. destruct (Req_EM_T (w g) 1) as [|N]; auto. exfalso.
  assert (T : existsb (fun k => if Req_EM_T (w k) 1 then false else true) (seq 0 n) = true).
  { apply existsb_exists. exists g. split. apply in_seq; lia. destruct (Req_EM_T (w g) 1); auto; contradiction. } congruence.
Qed.
End Patch.

(** C152: on every element of a patch, both implementations evaluate the NURBS functions of the
    patch belonging to the element's row of the connectivity; these rows hold distinct valid function
    numbers, and all the other functions vanish on the element. *)
Theorem C152_nurbs : forall kps, good_patch kps ->
  let dim := length kps in let degrees := map snd kps in let shape := map n_funs kps in let nf := n_efun degrees in
  exists cs conn bconn, create_patch (map fst kps) degrees = Some (cs, conn, bconn) /\
  forall ies, inside ies (map n_spans kps) -> let e := position (map n_spans kps) ies in
  exists I : nat -> list nat,
    (forall a, (a < nf)%nat -> inside (I a) shape /\ conn e a = position shape (I a)) /\
    (forall a b, (a < nf)%nat -> (b < nf)%nat -> conn e a = conn e b -> a = b) /\
    forall cps w qp, (forall g, (g < prodn shape)%nat -> 0 < w g) -> (forall k, (k < dim)%nat -> 0 <= qp k < 1) ->
      (forall a, (a < nf)%nat ->
        fst (fst (eval_nurbs_basis_tp dim degrees cs cps w conn qp e)) a = nurbs kps w (I a) (par_coor kps ies qp) /\
        fst (fst (eval_mapping_data_in_qp dim degrees cs (prodn shape) cps w conn qp e)) a = nurbs kps w (I a) (par_coor kps ies qp)) /\
      (forall J, inside J shape -> (forall a, (a < nf)%nat -> J <> I a) -> nurbs kps w J (par_coor kps ies qp) = 0).
Proof.
  intros kps HG dim degrees shape nf.
  destruct (patch_lists kps (proj2 HG)) as (cs & bcs & P1 & P2 & P3 & P4 & P5 & P6).
  destruct (create_patch (map fst kps) degrees) as [((cs' & conn) & bconn)|] eqn:E.
  2: { exfalso. unfold create_patch, degrees in E. rewrite P1, P4 in E. discriminate. }
  exists cs', conn, bconn. split; auto. intros ies HE e. exists (fun a => loc kps ies (nth a (tuples (map (fun p => p + 1)%nat (map snd kps))) [])).
  split. { intros a Ha. destruct (@conn_lt kps HG cs' conn bconn E ies HE a Ha). auto. }
  split. { intros a b Ha Hb Q. destruct (@conn_lt kps HG cs' conn bconn E ies HE a Ha) as (A1 & A2). destruct (@conn_lt kps HG cs' conn bconn E ies HE b Hb) as (B1 & B2).
    fold e in A1, B1. rewrite A1, B1 in Q. apply hrav_inj in Q; auto. destruct (idx_ds kps a Ha) as (I1 & I2). destruct (idx_ds kps b Hb) as (J1 & J2). assert (QQ : nth a (tuples (map (fun p => p + 1)%nat (map snd kps))) [] = nth b (tuples (map (fun p => p + 1)%nat (map snd kps))) []) by (eapply loc_inj; eauto; apply HG). congruence. }
  intros cps w qp HW HQ. split.
  - intros a Ha. split.
    + unfold eval_nurbs_basis_tp. pose proof (@branch_value kps HG cs' conn bconn E ies HE true eval_bernstein_basis w qp bern_ok_py HQ ltac:(discriminate) a Ha) as V.
      fold e in V. fold dim degrees in V. destruct (tp_basis _ _ _ _ _ _ _ _) as (bf & bfg). exact V.
    + unfold eval_mapping_data_in_qp. pose proof (@branch_value kps HG cs' conn bconn E ies HE (is_nurbs (prodn shape) w) eval_bernstein_basis_c w qp bern_ok_c HQ (@is_nurbs_false _ _) a Ha) as V.
      fold e in V. fold dim degrees in V. destruct (tp_basis _ _ _ _ _ _ _ _) as (bf & bfg). destruct (tp_physical _ _ _ _) as ((? & ?) & ?). exact V.
  - intros J HJ N. unfold nurbs. destruct (@patch_data kps HG cs' conn bconn E) as (L1 & L2 & L3 & L4 & L5).
    assert (Z : tp_spline kps J (par_coor kps ies qp) = 0) by (eapply others_zero; eauto; apply HG). rewrite Z. unfold Rdiv. ring.
Qed.

(** C151: the values sum to one, the gradients to zero; the gradients are those of the
    functions with respect to the physical coordinates x(xi) = sum of values times control points. *)
Theorem C151_basis : forall kps, good_patch kps ->
  let dim := length kps in let degrees := map snd kps in let nf := n_efun degrees in
  forall cs conn bconn, create_patch (map fst kps) degrees = Some (cs, conn, bconn) ->
  forall ies cps w qp, inside ies (map n_spans kps) -> (forall g, (g < prodn (map n_funs kps))%nat -> 0 < w g) ->
  (forall k, (k < dim)%nat -> 0 <= qp k < 1) ->
  let e := position (map n_spans kps) ies in
  let val xi a := fst (fst (eval_mapping_data_in_qp dim degrees cs (prodn (map n_funs kps)) cps w conn xi e)) a in
  let x xi i := sm nf (fun a => val xi a * cps (conn e a) i) in
  let '(bf, bfg, det) := eval_mapping_data_in_qp dim degrees cs (prodn (map n_funs kps)) cps w conn qp e in
  sm nf bf = 1 /\
  exists dR J : nat -> nat -> R,
    (forall a k, (a < nf)%nat -> (k < dim)%nat -> is_derive (fun z : R => val (upd qp k z) a) (qp k) (dR a k)) /\
    (forall i k, (k < dim)%nat -> is_derive (fun z : R => x (upd qp k z) i) (qp k) (J i k)) /\
    det = detm dim J /\
    (geme_eps <= Rabs det ->
      (forall a j, (a < nf)%nat -> (j < dim)%nat -> sm dim (fun k => bfg a k * J k j) = dR a j) /\
      (forall i k, (i < dim)%nat -> (k < dim)%nat -> sm nf (fun a => cps (conn e a) i * bfg a k) = if (i =? k)%nat then 1 else 0) /\
      (forall k, (k < dim)%nat -> sm nf (fun a => bfg a k) = 0)).
Proof.
  intros kps HG dim degrees nf cs conn bconn E ies cps w qp HE HW HQ e val x.
  destruct (eval_mapping_data_in_qp dim degrees cs (prodn (map n_funs kps)) cps w conn qp e) as ((bf & bfg) & det) eqn:EV.
  set (rat := is_nurbs (prodn (map n_funs kps)) w).
  assert (HR : rat = false -> forall g, (g < prodn (map n_funs kps))%nat -> w g = 1) by apply is_nurbs_false.
  assert (VAL : forall xi a, val xi a = fst (tp_basis dim degrees cs rat eval_bernstein_basis_c xi e (fun a => w (conn e a))) a).
  { intros xi a. unfold val, eval_mapping_data_in_qp. fold rat. destruct (tp_basis _ _ _ _ _ _ _ _) as (f & g). destruct (tp_physical _ _ _ _) as ((? & ?) & ?). reflexivity. }
  assert (BF : bf = fst (tp_basis dim degrees cs rat eval_bernstein_basis_c qp e (fun a => w (conn e a)))).
  { unfold eval_mapping_data_in_qp in EV. fold rat in EV. destruct (tp_basis _ _ _ _ _ _ _ _) as (f & g). destruct (tp_physical _ _ _ _) as ((? & ?) & ?). inversion EV; reflexivity. }
  set (dR := snd (tp_basis dim degrees cs rat eval_bernstein_basis_c qp e (fun a => w (conn e a)))).
  split. { rewrite BF. apply (@branch_unity kps HG cs conn bconn E ies HE rat eval_bernstein_basis_c w qp bern_ok_c HW HQ); auto. }
  assert (DR : forall a k, (a < nf)%nat -> (k < dim)%nat -> is_derive (fun z : R => val (upd qp k z) a) (qp k) (dR a k)).
  { intros a k Ha Hk. eapply dext. intros z. symmetry. apply VAL. apply (@branch_derive kps HG cs conn bconn E ies HE rat eval_bernstein_basis_c w qp bern_ok_c HW HQ HR a k Ha Hk). }
  exists dR, (fun i k => sm nf (fun a => cps (conn e a) i * dR a k)). split; auto. split.
  { intros i k Hk. unfold x. apply (@dsm nf (fun a z => val (upd qp k z) a * cps (conn e a) i)). intros a Ha.
    eapply dval. apply (@dmult (fun z => val (upd qp k z) a) (fun _ => cps (conn e a) i)). apply DR; auto. apply dconst. cbv beta. ring. }
  unfold eval_mapping_data_in_qp in EV. fold rat in EV.
  destruct (tp_basis dim degrees cs rat eval_bernstein_basis_c qp e (fun a => w (conn e a))) as (f & g) eqn:ET. cbn [snd] in dR. fold nf in EV.
  pose proof (@C151_gradient_gen dim g nf (fun a => cps (conn e a)) (proj1 HG)) as GG.
  assert (DT : det = detm dim (fun i k => sm nf (fun a => cps (conn e a) i * dR a k))).
  { unfold tp_physical in EV. inversion EV. reflexivity. }
  split; auto. intros Hdet. destruct (tp_physical dim g nf (fun a => cps (conn e a))) as ((J & dt) & h) eqn:EP. inversion EV; subst f h dt.
  destruct (GG Hdet) as (G1 & G2 & G3). split.
  - intros a j Ha Hj. unfold dR. rewrite <- (G2 a j Hj). apply sm_ext. intros k _. rewrite G1. reflexivity.
  - split; auto. intros k Hk. unfold tp_physical in EP. inversion EP as [[E1 E2 E3]]. rewrite sm_swap.
    apply sm_0. intros j Hj. rewrite sm_scalr.
    pose proof (@branch_zero kps HG cs conn bconn E ies HE rat eval_bernstein_basis_c w qp bern_ok_c HW HQ HR j Hj) as Z.
    fold dim degrees e in Z. rewrite ET in Z. cbn [snd] in Z. fold nf in Z. rewrite Z. ring.
Qed.
(** C151: the C and the Python implementations agree (for non-degenerate mappings). *)
Theorem C151_c_python : forall kps, good_patch kps ->
  let dim := length kps in let degrees := map snd kps in let nf := n_efun degrees in
  forall cs conn bconn, create_patch (map fst kps) degrees = Some (cs, conn, bconn) ->
  forall ies cps w qp, inside ies (map n_spans kps) -> (forall g, (g < prodn (map n_funs kps))%nat -> 0 < w g) ->
  (forall k, (k < dim)%nat -> 0 <= qp k < 1) ->
  let e := position (map n_spans kps) ies in
  let '(bf, bfg, det) := eval_mapping_data_in_qp dim degrees cs (prodn (map n_funs kps)) cps w conn qp e in
  let '(bf', bfg', det') := eval_nurbs_basis_tp dim degrees cs cps w conn qp e in
  geme_eps <= Rabs det ->
  det = det' /\ forall a k, (a < nf)%nat -> (k < dim)%nat -> bf a = bf' a /\ bfg a k = bfg' a k.
Proof.
  intros kps HG dim degrees nf cs conn bconn E ies cps w qp HE HW HQ e.
  unfold eval_mapping_data_in_qp, eval_nurbs_basis_tp. set (rat := is_nurbs (prodn (map n_funs kps)) w).
  assert (HR : rat = false -> forall g, (g < prodn (map n_funs kps))%nat -> w g = 1) by apply is_nurbs_false.
  set (B1 := tp_basis dim degrees cs rat eval_bernstein_basis_c qp e (fun a => w (conn e a))).
  set (B2 := tp_basis dim degrees cs true eval_bernstein_basis qp e (fun a => w (conn e a))).
  assert (NE : forall k i, (k < dim)%nat -> elem_N degrees cs eval_bernstein_basis_c qp e k i = elem_N degrees cs eval_bernstein_basis qp e k i /\
    elem_dN degrees cs eval_bernstein_basis_c qp e k i = elem_dN degrees cs eval_bernstein_basis qp e k i).
  { intros k i Hk. unfold elem_N, elem_dN. split; apply sm_ext; intros j Hj; f_equal; apply C149_bernstein_c; lia. }
  assert (LEN : forall a, (a < nf)%nat -> length (nth a (tuples (map (fun p => p + 1)%nat degrees)) []) = dim).
  { intros a Ha. destruct (idx_ds kps a Ha) as (I1 & _). fold degrees in I1. rewrite (f2_length _ _ I1). apply ds_len. }
  assert (VE : forall a, (a < nf)%nat -> let l := nth a (tuples (map (fun p => p + 1)%nat degrees)) [] in
    tp_val (elem_N degrees cs eval_bernstein_basis_c qp e) l = tp_val (elem_N degrees cs eval_bernstein_basis qp e) l /\
    forall k, (k < dim)%nat -> tp_der (elem_N degrees cs eval_bernstein_basis_c qp e) (elem_dN degrees cs eval_bernstein_basis_c qp e) k l
      = tp_der (elem_N degrees cs eval_bernstein_basis qp e) (elem_dN degrees cs eval_bernstein_basis qp e) k l).
  { intros a Ha l. specialize (LEN a Ha). fold l in LEN. destruct l as [|i0 [|i1 [|i2 [|]]]]; cbn [length] in LEN; try (destruct HG; lia); cbn [tp_val tp_der];
      (split; [|intros k Hk; destruct k as [|[|[|k]]]]); 
      repeat match goal with |- context [elem_N degrees cs eval_bernstein_basis_c qp e ?k ?i] => rewrite (proj1 (NE k i ltac:(lia)))
        | |- context [elem_dN degrees cs eval_bernstein_basis_c qp e ?k ?i] => rewrite (proj2 (NE k i ltac:(lia))) end; try reflexivity; lia. }
  assert (W1 : rat = false -> forall a, (a < nf)%nat -> w (conn e a) = 1).
  { intros RF b Hb. apply (HR RF). destruct (@conn_lt kps HG cs conn bconn E ies HE b Hb) as (X & I). fold e in X. rewrite X. apply hrav_lt; auto. }
  assert (BE : forall a, (a < nf)%nat -> fst B1 a = fst B2 a /\ forall k, (k < dim)%nat -> snd B1 a k = snd B2 a k).
  { intros a Ha. unfold B1, B2.
    destruct (@basis_at dim degrees cs rat eval_bernstein_basis_c e (fun a => w (conn e a)) qp a Ha) as (-> & Q1).
    destruct (@basis_at dim degrees cs true eval_bernstein_basis e (fun a => w (conn e a)) qp a Ha) as (-> & Q2).
    destruct (VE a Ha) as (V1 & V2). cbv zeta in V1, V2.
    assert (DE : den degrees cs eval_bernstein_basis_c e (fun a => w (conn e a)) qp = den degrees cs eval_bernstein_basis e (fun a => w (conn e a)) qp).
    { unfold den. apply sm_ext. intros b Hb. rewrite (proj1 (VE b Hb)). reflexivity. }
    assert (DDE : forall k, (k < dim)%nat -> dden degrees cs eval_bernstein_basis_c e (fun a => w (conn e a)) qp k = dden degrees cs eval_bernstein_basis e (fun a => w (conn e a)) qp k).
    { intros k Hk. unfold dden. apply sm_ext. intros b Hb. rewrite (proj2 (VE b Hb) k Hk). reflexivity. }
    destruct rat eqn:RE.
    - rewrite V1, DE. split; auto. intros k Hk. rewrite (Q1 k Hk), (Q2 k Hk), V1, DE, DDE, V2 by auto. reflexivity.
    - assert (D1 : den degrees cs eval_bernstein_basis e (fun a => w (conn e a)) qp = 1).
      { unfold den. rewrite <- (@val_unity kps HG cs conn bconn E ies HE eval_bernstein_basis qp bern_ok_py). apply sm_ext. intros b Hb. rewrite (W1 eq_refl b Hb). unfold degrees, e. ring. }
      assert (D2 : forall k, (k < dim)%nat -> dden degrees cs eval_bernstein_basis e (fun a => w (conn e a)) qp k = 0).
      { intros k Hk. pose proof (@branch_zero kps HG cs conn bconn E ies HE false eval_bernstein_basis w qp bern_ok_py HW HQ HR k Hk) as Z. rewrite <- Z.
        unfold dden. apply sm_ext. intros b Hb. pose proof (proj2 (@basis_at dim degrees cs false eval_bernstein_basis e (fun a => w (conn e a)) qp b Hb) k Hk) as QQ.
        cbv beta iota in QQ. rewrite (W1 eq_refl b Hb). rewrite Rmult_1_r. symmetry. exact QQ. }
      rewrite D1, (W1 eq_refl a Ha), V1. split. field. intros k Hk. rewrite (Q1 k Hk), (Q2 k Hk), D1, (D2 k Hk), V2, (W1 eq_refl a Ha) by auto. field. }
  clearbody B1 B2. destruct B1 as (f1 & g1), B2 as (f2 & g2). cbn [fst snd] in BE. unfold tp_physical. fold nf.
  set (J1 := fun i j : nat => sm nf (fun a => cps (conn e a) i * g1 a j)). set (J2 := fun i j : nat => sm nf (fun a => cps (conn e a) i * g2 a j)).
  assert (JE : forall i j, (j < dim)%nat -> J1 i j = J2 i j). { intros i j Hj. unfold J1, J2. apply sm_ext. intros a Ha. rewrite (proj2 (BE a Ha) j Hj). reflexivity. }
  assert (D13 : dim = 1%nat \/ dim = 2%nat \/ dim = 3%nat) by (destruct HG; unfold dim; lia).
  assert (DET : detm dim J1 = detm dim J2). { destruct D13 as [Q|[Q|Q]]; rewrite Q in *; cbn [detm]; rewrite !JE by lia; reflexivity. }
  assert (INV : forall d i j, (i < dim)%nat -> (j < dim)%nat -> invm dim J1 d i j = invm dim J2 d i j).
  { intros d i j Hi Hj. destruct D13 as [Q|[Q|Q]]; rewrite Q in *; destruct i as [|[|[|i]]]; try lia; destruct j as [|[|[|j]]]; try lia; unfold invm; cbn; rewrite ?JE by lia; reflexivity. }
  intros Hd. cbv zeta. split; auto. intros a k Ha Hk. split. apply BE; auto.
  destruct (Rlt_dec (Rabs (detm dim J1)) geme_eps) as [Q|_]; [lra|].
  apply sm_ext. intros j Hj. rewrite (proj2 (BE a Ha) j Hj), INV, DET by auto. reflexivity.
Qed.

Print Assumptions C152_nurbs.
Print Assumptions C151_basis.
