(** C151, C152: examples. *)
From Coq Require Import Reals Lra Lia Arith List Bool.
From Coquelicot Require Import Coquelicot.
From Verif Require Import M_fmf L_fmf M_map L_map P_map S_iga M_iga L_iga S_iga2 M_iga2 P_iga P_iga2 P_iga3 L_hyper L_iga2 P_iga4 P_iga5 P_iga6 P_iga7 P_iga8.
Import ListNotations.
Open Scope R_scope.

(** A patch with two quadratic directions (9 elements, 36 functions). *)
Example C152_example : good_patch [((kv, 9%nat), 2%nat); ((kv, 9%nat), 2%nat)] /\
  inside [1; 2]%nat (map n_spans [((kv, 9%nat), 2%nat); ((kv, 9%nat), 2%nat)]) /\
  prodn (map n_funs [((kv, 9%nat), 2%nat); ((kv, 9%nat), 2%nat)]) = 36%nat.
Proof.
  split; [|split]; [|unfold n_spans; cbn [map fst snd]; rewrite (proj1 C150_example); repeat constructor|reflexivity].
  split. cbn; lia. apply List.Forall_cons. apply kv_open. apply List.Forall_cons. apply kv_open. apply List.Forall_nil.
Qed.
(** One linear element with the control points 0, 1: the determinant is one. *)
Definition kv1 : nat -> R := fun k => nth k [0; 0; 1; 1] 1.
Lemma kv1_open : open_knots kv1 4 1.
Proof.
  unfold open_knots, kv1. split; [lia|]. split. { intros i Hi. do 4 (try destruct i as [|i]); try lia; cbn; lra. }
  split. { intros i Hi. do 3 (try destruct i as [|i]); try lia; cbn; lra. }
  split. { cbn; lra. } split; [|cbn; lra]. intros i Hi. do 4 (try destruct i as [|i]); try lia; cbn; lra.
Qed.
Example C151_example : exists cs conn bconn, good_patch [((kv1, 4%nat), 1%nat)] /\ create_patch [(kv1, 4%nat)] [1%nat] = Some (cs, conn, bconn) /\
  inside [0%nat] (map n_spans [((kv1, 4%nat), 1%nat)]) /\
  let '(_, _, det) := eval_mapping_data_in_qp 1 [1%nat] cs 2 (fun g _ => INR g) (fun _ => 1) conn (fun _ => / 2) 0 in det = 1 /\ geme_eps <= Rabs det.
Proof.
  assert (E1 : compute_bezier_extraction_1d kv1 4 1 = Some [eye]).
  { assert (L : last_same kv1 4 4 2 = 3%nat).
    { cbn [last_same Nat.add Nat.ltb Nat.leb]. destruct (Req_EM_T (kv1 2) (kv1 3)) as [_|N]; [reflexivity|exfalso; apply N; reflexivity]. }
    unfold compute_bezier_extraction_1d. generalize 4%nat at 2. intros fuel.
    change (bez_loop kv1 4 1 (S fuel) [] eye 1 (1 + 1)) with
      (let b := last_same kv1 4 4 2 in let mult := (b - 2 + 1)%nat in let more := ((b + 1) <? 4)%nat in
       let '(cc, cn) := if (mult <? 1)%nat then fold_left (bez_insert 1 (bez_alphas kv1 1 1 b mult) mult more) (seq 0 (1 - mult)) (eye, eye) else (eye, eye) in
       if more then bez_loop kv1 4 1 fuel ([] ++ [cc]) cn b (b + 1) else Some ([] ++ [cc])).
    rewrite L. reflexivity. }
  assert (E2 : create_connectivity_1d kv1 4 1 1 = Some ([[0; 1]]%nat, [[0; 1]]%nat)). { reflexivity. }
  assert (SP : spans kv1 4 = [1%nat]).
  { unfold spans. cbn [seq Nat.sub filter Nat.add]. unfold kv1. cbn [nth]. repeat (destruct (Rlt_dec _ _); try lra). reflexivity. }
  assert (IN : is_nurbs 2 (fun _ => 1) = false).
  { unfold is_nurbs. cbn [seq existsb]. destruct (Req_EM_T 1 1); [reflexivity|congruence]. }
  assert (P : create_patch [(kv1, 4%nat)] [1%nat] = Some ([[eye]], make_conn [1%nat] [2%nat] [[[0; 1]]%nat], make_conn [1%nat] [2%nat] [[[0; 1]]%nat])).
  { unfold create_patch, compute_bezier_extraction. cbn [combine map all_some]. rewrite E1. cbn [option_map map length]. unfold create_connectivity. cbn [combine map all_some]. rewrite E2. reflexivity. }
  do 3 eexists. split. { split. cbn; lia. apply List.Forall_cons. apply kv1_open. apply List.Forall_nil. }
  split. exact P. split. { unfold n_spans. cbn [map fst snd]. rewrite SP. repeat constructor. }
  assert (DET : let '(_, _, det) := eval_mapping_data_in_qp 1 [1%nat] [[eye]] 2 (fun g _ => INR g) (fun _ => 1) (make_conn [1%nat] [2%nat] [[[0; 1]]%nat]) (fun _ => / 2) 0 in det = 1).
  { unfold eval_mapping_data_in_qp. rewrite IN. destruct (tp_basis _ _ _ _ _ _ _ _) as (f & g) eqn:ET.
    assert (G : g 0%nat 0%nat = -1 /\ g 1%nat 0%nat = 1).
    { apply (f_equal snd) in ET. cbn [snd] in ET. rewrite <- ET.
      split; (refine (eq_trans (proj2 (@basis_at 1 [1%nat] [[eye]] false eval_bernstein_basis_c 0 _ (fun _ => / 2) _ _) 0%nat _) _); [cbn; lia | lia |]);
        cbv -[Rplus Rmult Ropp Rinv Rminus Rdiv IZR INR]; cbn [INR]; lra. }
    destruct G as (G0 & G1). unfold tp_physical. cbn. rewrite G0, G1. ring. }
  destruct (eval_mapping_data_in_qp 1 [1%nat] [[eye]] 2 (fun g _ => INR g) (fun _ => 1) (make_conn [1%nat] [2%nat] [[[0; 1]]%nat]) (fun _ => / 2) 0) as ((bf & bfg) & det).
  split; auto. rewrite DET. rewrite Rabs_R1. unfold geme_eps. rewrite <- Rinv_1. apply Rinv_le_contravar. lra. apply pow_R1_Rle. lra.
Qed.
Print Assumptions C152_nurbs.
Print Assumptions C151_basis.
