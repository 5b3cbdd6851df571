(** Instances of C131-C136; assumptions. *)
From Coq Require Import Reals Lra Psatz.
From Verif Require Import Base M_fmf L_fmf M_nls M_lagnodes M_facet M_efaces M_map S_map L_map P_map P_map2 P_map3 P_map4 P_map5 P_map6 P_map7 P_efaces.
Open Scope nat_scope.

(** A triangle with two cells: (0,0), (2,0), (1,3) and the mirrored one. *)
Definition ex_coors (j k : nat) : R := nth k (nth j [[0; 0]; [2; 0]; [1; 3]; [1; -3]]%R []) 0%R.
Definition ex_conn (c j : nat) : nat := nth j (nth c [[0; 1; 2]; [0; 3; 1]] []) 0.
Definition cent (q k : nat) : R := (1 / 3)%R.
Example tri_mesh_volumes : exists m,
  volume_mapping 2 2 1 3 ex_coors ex_conn (fun q => ggrad Tri (cent q)) (fun _ => 1 / 2)%R (fun _ q => ggrad Tri (cent q)) = Ok m /\
  m_volume m 0 = 3%R /\ m_volume m 1 = 3%R.
Proof.
  destruct (C132_simplex_volume 2 2 1 ex_coors ex_conn cent (fun _ => 1 / 2)%R (fun _ q => ggrad Tri (cent q)) ltac:(lia)) as (E & V).
  - cbn. lra.
  - lia.
  - destruct (proj2 E) as (m & M).
    + intros c Hc. enum c Hc; unfold simplex_volume, det2, edge, ex_coors; cbn; lra.
    + exists m. split; [exact M|]. rewrite !(V m _ M) by lia. unfold simplex_volume, det2, edge, ex_coors. cbn. lra.
Qed.
(** The mirrored connectivity is an error. *)
Example tri_mesh_error :
  volume_mapping 2 1 1 3 ex_coors (fun _ j => nth j [0; 2; 1] 0) (fun q => ggrad Tri (cent q)) (fun _ => 1 / 2)%R (fun _ q => ggrad Tri (cent q)) = Err ValueError.
Proof.
  apply C131_warp_violation; [lia|]. exists 0, 0. split; [lia|]. split; [lia|]. unfold detm, jac, mtxRM, ggrad, ex_coors. cbn. lra.
Qed.
(** The hypotheses of C131_gradient: the field u = 2 x + y. *)
Example tri_gradient : forall m,
  volume_mapping 2 2 1 3 ex_coors ex_conn (fun q => ggrad Tri (cent q)) (fun _ => 1 / 2)%R (fun _ q => ggrad Tri (cent q)) = Ok m ->
  sm 3 (fun e => (m_bfg m 0%nat 0%nat 0%nat e * (2 * ex_coors (ex_conn 0 e) 0 + ex_coors (ex_conn 0 e) 1))%R) = 2%R.
Proof.
  intros m M.
  apply (C131_gradient 2 2 1 3 3 ex_coors ex_conn (fun q => ggrad Tri (cent q)) (fun _ => 1 / 2)%R (fun _ q => ggrad Tri (cent q)) m
    (fun j x => gbase Tri x j) (fun j x => gbase Tri x j) cent (fun x => (2 * x 0%nat + x 1%nat)%R) (fun e => (2 * ex_coors (ex_conn 0 e) 0 + ex_coors (ex_conn 0 e) 1)%R)
    (fun k => match k with 0 => 2 | _ => 1 end)%R 0 0 M); try lia.
  - intros i j Hi Hj. apply C134_geometry_gradient; auto.
  - intros i j Hi Hj. apply C134_geometry_gradient; auto.
  - intros j x y H. unfold gbase. cbn [simplexb gdim]. rewrite !sm2, !H. destruct j; auto.
  - exists 1%R. split; [lra|]. intros i t Hi _. unfold phys. rewrite !sm3. ring.
  - intros eps He. exists 1%R. split; [lra|]. intros x _. rewrite !sm2.
    match goal with |- (Rabs ?a <= _)%R => replace a with 0%R by ring end. rewrite Rabs_R0.
    apply Rmult_le_pos; [lra|]. apply Rplus_le_le_0_compat; apply Rabs_pos.
Qed.
(** The facets of the unit tetrahedron. *)
Definition tetc (j k : nat) : R := nth k (nth j [[0; 0; 0]; [1; 0; 0]; [0; 1; 0]; [0; 0; 1]]%R []) 0%R.
Example tet_closed : forall k, k < 3 ->
  sm 4 (fun f => sm 1 (fun q => (m_det (facet_mapping Tet 4%nat 1%nat tetc (fun _ j => j) (fun f => (0%nat, f)) cent (fun _ => 1 / 2)%R (1 / 10)%R) f q *
    m_normal (facet_mapping Tet 4%nat 1%nat tetc (fun _ j => j) (fun f => (0%nat, f)) cent (fun _ => 1 / 2)%R (1 / 10)%R) f q k)%R)) = 0%R.
Proof.
  intros k Hk. apply (C133_closed Tet 4 1 tetc (fun _ j => j) (fun f => (0, f)) cent (fun _ => 1 / 2)%R (1 / 10)%R 0); auto.
  - lra.
  - exact I.
  - cbn. unfold cent. lra.
  - intros f q Hf Hq. unfold norm, dot. cbn [gdim]. rewrite sm3. unfold rawn, cross. rewrite !simplex_tang by (auto; cbn; lia).
    rewrite <- (sqrt_square (1 / 10)) by lra. apply sqrt_le_1_alt. unfold fx, facet_conn, tetc. enum f Hf; cbn; lra.
Qed.
(** A square rule for C134_hex_face_refuted: the four Gauss points need square roots, the trapezoid rule is exact too. *)
Example square_rule : rule_ok Quad 4 (fun q k => gcoor Quad q k) (fun _ => 1 / 4)%R.
Proof. unfold rule_ok, gcoor. cbn. lra. Qed.
(** A tilted triangle. *)
Example tilted : let x := fun j k => nth k (nth j [[0; 0; 0]; [1; 0; 0]; [0; 1; 1]]%R []) 0%R in
  simplex_volume 2 (lower_dim (1 / 10) 3 3 x) = (sqrt 2 / 2)%R.
Proof.
  intros x. rewrite C136_triangle_area_partial.
  - f_equal. unfold norm. f_equal. unfold dot. rewrite sm3. unfold cell_normal, cross, dif, x. cbn. ring.
  - lra.
  - left. rewrite <- (sqrt_square (1 / 10)) by lra. apply sqrt_lt_1_alt. unfold cell_normal, cross, dif, x. cbn. lra.
Qed.
(** Quadratic triangles: the DOFs of the edge 1. *)
Example tri2_facet : forall nodes, simplex_nodes 2 2 = Ok nodes -> facet_dofs (sgel 2) nodes [10; 11; 12; 13; 14; 15] 1 = [11; 12; 14].
Proof. intros nodes H. vm_compute in H. injection H as <-. reflexivity. Qed.

Print Assumptions C131_volume_mapping.
Print Assumptions C131_warp_violation.
Print Assumptions C131_affine_exact.
Print Assumptions C131_gradient.
Print Assumptions C132_simplex_volume.
Print Assumptions C132_quad_area.
Print Assumptions C133_normals_partial.
Print Assumptions C133_outward.
Print Assumptions C133_closed.
Print Assumptions C133_divergence.
Print Assumptions C134_jacobian_partial.
Print Assumptions C134_hex_face_refuted.
Print Assumptions C135_field_trace_partial.
Print Assumptions C135_field_trace_refuted.
Print Assumptions C136_plane_partial.
Print Assumptions C136_line_partial.
