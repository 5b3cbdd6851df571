(** C153: examples, discontinuous knots. *)
From Coq Require Import Reals Lra Lia Arith List Bool.
From Coquelicot Require Import Coquelicot.
From Verif Require Import M_fmf L_fmf M_map L_map P_map S_iga M_iga L_iga S_iga2 M_iga2 P_iga P_iga2 P_iga3 L_hyper L_iga2 P_iga4 P_iga5 P_iga6 P_iga7 P_iga8 P_iga9 M_iga3 L_iga3 P_iga10 P_iga11.
Import ListNotations.
Open Scope R_scope.

(** The product of a matrix and a square matrix is the Kronecker product. *)
Theorem C153_kronecker : forall r0 c0 n a b i j k l, (i < r0)%nat -> (k < c0)%nat -> (j < n)%nat -> (l < n)%nat ->
  tensor_product r0 c0 n n a b (i * n + j)%nat (k * n + l)%nat = a i k * b j l.
Proof.
  intros r0 c0 n a b i j k l Hi Hk Hj Hl. rewrite tensor_at by nia.
  rewrite !Nat.div_add_l, !Nat.div_small, !Nat.add_0_r by lia. rewrite !(Nat.add_comm (_ * _)), !Nat.mod_add, !Nat.mod_small by lia. reflexivity.
Qed.
(** Two quadratic directions with a double knot. *)
Theorem C153_example : let kps := [((kv, 9%nat), 2%nat); ((kv, 9%nat), 2%nat)] in
  good_patch kps /\ List.Forall (fun '((t, n), p) => continuous_knots t n p) kps.
Proof.
  split. apply C152_example.
  assert (H : continuous_knots kv 9 2). { split; [lia|]. intros i H1 H2. unfold kv. do 9 (try destruct i as [|i]); try lia; cbn; lra. }
  apply List.Forall_cons. exact H. apply List.Forall_cons. exact H. apply List.Forall_nil.
Qed.
(** With a knot of multiplicity p + 1 inside, the elements share a Bezier point although the patch is
    discontinuous: the later element overwrites the point of the earlier one. *)
Definition kd : nat -> R := fun k => nth k [0; 0; 1; 1; 2; 2] 2.
Lemma kd_open : open_knots kd 6 1.
Proof.
  unfold open_knots, kd. split; [lia|]. split. { intros i Hi. do 6 (try destruct i as [|i]); try lia; cbn; lra. }
  split. { intros i Hi. do 3 (try destruct i as [|i]); try lia; cbn; lra. }
  split. { cbn; lra. } split; [|cbn; lra]. intros i Hi. do 6 (try destruct i as [|i]); try lia; cbn; lra.
Qed.
Theorem C153_discontinuous_refuted : ~ (forall kps cs conn bconn, good_patch kps -> create_patch (map fst kps) (map snd kps) = Some (cs, conn, bconn) ->
  forall cps w, (forall g, (g < prodn (map n_funs kps))%nat -> 0 < w g) ->
  let '(bcps, bws) := compute_bezier_control (prodn (map n_spans kps)) (n_efun (map snd kps)) cps w (combine_bezier_extraction (map snd kps) cs) conn bconn in
  forall ies qp i, inside ies (map n_spans kps) -> (forall k, (k < length kps)%nat -> 0 <= qp k < 1) -> let e := position (map n_spans kps) ies in
      sm (n_efun (map snd kps)) (fun j => bws (bconn e j) * tp_bernstein (map snd kps) j qp * bcps (bconn e j) i) /
      sm (n_efun (map snd kps)) (fun j => bws (bconn e j) * tp_bernstein (map snd kps) j qp)
        = patch_point kps cps w (par_coor kps ies qp) i).
Proof.
  intros H.
  assert (E1 : compute_bezier_extraction_1d kd 6 1 = Some [eye; eye]).
  { assert (L : last_same kd 6 6 2 = 3%nat).
    { cbn [last_same Nat.add Nat.ltb Nat.leb]. destruct (Req_EM_T (kd 2) (kd 3)) as [_|N]; [|exfalso; apply N; reflexivity]. destruct (Req_EM_T (kd 3) (kd 4)) as [N|_]; [exfalso; unfold kd in N; cbn in N; lra|]. reflexivity. }
    assert (L' : last_same kd 6 6 4 = 5%nat).
    { cbn [last_same Nat.add Nat.ltb Nat.leb]. destruct (Req_EM_T (kd 4) (kd 5)) as [_|N]; [reflexivity|exfalso; apply N; reflexivity]. }
    assert (G : forall fuel, bez_loop kd 6 1 (S (S fuel)) [] eye 1 (1 + 1) = Some [eye; eye]).
    { intros fuel. change (bez_loop kd 6 1 (S (S fuel)) [] eye 1 (1 + 1)) with
      (let b := last_same kd 6 6 2 in let mult := (b - 2 + 1)%nat in let more := ((b + 1) <? 6)%nat in
       let '(cc, cn) := if (mult <? 1)%nat then fold_left (bez_insert 1 (bez_alphas kd 1 1 b mult) mult more) (seq 0 (1 - mult)) (eye, eye) else (eye, eye) in
       if more then bez_loop kd 6 1 (S fuel) ([] ++ [cc]) cn b (b + 1) else Some ([] ++ [cc])).
      rewrite L. cbv zeta. cbn [Nat.sub Nat.add Nat.ltb Nat.leb app].
      change (bez_loop kd 6 1 (S fuel) [eye] eye 3 4) with
      (let b := last_same kd 6 6 4 in let mult := (b - 4 + 1)%nat in let more := ((b + 1) <? 6)%nat in
       let '(cc, cn) := if (mult <? 1)%nat then fold_left (bez_insert 1 (bez_alphas kd 1 3 b mult) mult more) (seq 0 (1 - mult)) (eye, eye) else (eye, eye) in
       if more then bez_loop kd 6 1 fuel ([eye] ++ [cc]) cn b (b + 1) else Some ([eye] ++ [cc])).
      rewrite L'. reflexivity. }
    apply (G 5%nat). }
  assert (SP : spans kd 6 = [1; 3]%nat).
  { unfold spans. cbn [seq Nat.sub filter Nat.add]. unfold kd. cbn [nth]. repeat (destruct (Rlt_dec _ _); try lra). reflexivity. }
  assert (E2 : create_connectivity_1d kd 6 1 2 = Some ([[0; 1]; [2; 3]]%nat, [[0; 1]; [1; 2]]%nat)).
  { destruct (@one_dir kd 6 1 kd_open 2) as (cs & bconn & _ & Q & -> & _). rewrite Q. unfold conn1. rewrite SP. reflexivity. }
  set (kps := [((kd, 6%nat), 1%nat)]). set (C1 := make_conn [2%nat] [2%nat] [[[0; 1]; [2; 3]]%nat]). set (C2 := make_conn [2%nat] [2%nat] [[[0; 1]; [1; 2]]%nat]).
  assert (P : create_patch (map fst kps) (map snd kps) = Some ([[eye; eye]], C1, C2)).
  { unfold create_patch, compute_bezier_extraction, kps. cbn [combine map fst snd all_some]. rewrite E1. cbn [option_map map length]. unfold create_connectivity. cbn [combine map all_some]. rewrite E2. reflexivity. }
  specialize (H kps [[eye; eye]] C1 C2). assert (GP : good_patch kps). { split. cbn; lia. apply List.Forall_cons. apply kd_open. apply List.Forall_nil. }
  specialize (H GP P (fun g _ => nth g [0; 1; 5; 6] 0) (fun _ => 1) ltac:(intros; lra)).
  assert (NS : map n_spans kps = [2%nat]). { unfold n_spans, kps. cbn [map fst snd]. rewrite SP. reflexivity. }
  rewrite NS in H. change (map snd kps) with [1%nat] in H. change (n_efun [1%nat]) with 2%nat in H. change (prodn [2%nat]) with 2%nat in H.
  destruct (compute_bezier_control 2 2 _ _ _ C1 C2) as (bcps & bws) eqn:EC.
  assert (B : bws 0%nat = 1 /\ bws 1%nat = 1 /\ bcps 0%nat 0%nat = 0 /\ bcps 1%nat 0%nat = 5).
  { unfold compute_bezier_control in EC. cbn [seq fold_left] in EC. cbv zeta in EC. inversion EC. subst bcps bws. clear.
    cbn. unfold eye. cbn. repeat split; field. }
  destruct B as (B1 & B2 & B3 & B4).
  specialize (H [0%nat] (fun _ => / 2) 0%nat ltac:(repeat constructor) ltac:(intros; lra)). cbv zeta in H.
  change (position [2%nat] [0%nat]) with 0%nat in H. cbn [sm] in H. change (C2 0%nat 0%nat) with 0%nat in H. change (C2 0%nat 1%nat) with 1%nat in H. rewrite B1, B2, B3, B4 in H.
  assert (T0 : tp_bernstein [1%nat] 0 (fun _ => / 2) = / 2). { unfold tp_bernstein, bernstein. cbn. lra. }
  assert (T1 : tp_bernstein [1%nat] 1 (fun _ => / 2) = / 2). { unfold tp_bernstein, bernstein. cbn. lra. }
  rewrite T0, T1 in H.
  assert (PC : par_coor kps [0%nat] (fun _ => / 2) 0%nat = / 2). { unfold par_coor, left_knot, kps. cbn [nth fst snd]. rewrite SP. cbn. lra. }
  assert (PP : patch_point kps (fun g _ => nth g [0; 1; 5; 6] 0) (fun _ => 1) (par_coor kps [0%nat] (fun _ => / 2)) 0 = / 2).
  { unfold patch_point, nurbs. set (x := par_coor kps [0%nat] (fun _ => / 2)) in *. cbn [map kps n_funs fst snd Nat.sub multi seq flat_map app position prodn Nat.mul Nat.add].
    assert (V : tp_spline kps [0%nat] x = / 2 /\ tp_spline kps [1%nat] x = / 2 /\ tp_spline kps [2%nat] x = 0 /\ tp_spline kps [3%nat] x = 0).
    { unfold tp_spline, kps. cbn [length seq map nth prodR fold_right fst snd]. rewrite PC. unfold bspline, ratio, kd. cbn [Nat.add nth].
      repeat (destruct (Req_EM_T _ _) as [Q|Q]; try (exfalso; lra); clear Q); repeat (destruct (Rle_dec _ _); try (exfalso; lra)); repeat (destruct (Rlt_dec _ _); try (exfalso; lra)); repeat split; try field; lra. }
    destruct V as (V0 & V1 & V2 & V3). fold kps. rewrite V0, V1, V2, V3. cbn. field. }
  fold kps in PP. rewrite PP in H. lra.
Qed.
Print Assumptions C153_bezier.
Print Assumptions C153_discontinuous_refuted.
