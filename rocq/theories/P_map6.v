(** C133, C134: where normals and surface elements go wrong; the geometry basis.
    C136: cells of a lower dimension. *)
From Coq Require Import Reals Lra Psatz.
From Verif Require Import Base M_fmf L_fmf M_nls M_lagrange L_lagrange P_lagrange M_map S_map L_map P_map P_map2 P_map3 P_map4 P_map5.
Open Scope nat_scope.

(** ** The geometry basis is the Lagrange basis of order 1 *)
Lemma val1 : forall (bc : list R) j, j < length bc -> simplex_val 1 bc (map (fun i => if i =? j then 1 else 0) (seq 0 (length bc))) = nth j bc 0%R.
Proof.
  intros bc j J. rewrite simplex_val_prod.
  rewrite (@map_ext_in nat R _ (fun i => if i =? j then nth j bc 0%R else 1%R)).
  - assert (G : forall n k x, k <= j < k + n -> lprod (map (fun i => if i =? j then x else 1%R) (seq k n)) = x).
    { assert (Z : forall n k x, j < k -> lprod (map (fun i => if i =? j then x else 1%R) (seq k n)) = 1%R).
      { induction n as [|n IH]; intros k x H; cbn [seq map]; [reflexivity|]. rewrite lprod_cons, IH by lia. replace (k =? j) with false by (symmetry; apply Nat.eqb_neq; lia). ring. }
      induction n as [|n IH]; intros k x H; [lia|]. cbn [seq map]. rewrite lprod_cons. destruct (k =? j) eqn:E.
      - apply Nat.eqb_eq in E. rewrite Z by lia. ring.
      - apply Nat.eqb_neq in E. rewrite IH by lia. ring. }
    apply G. lia.
  - intros i I. apply in_seq in I. rewrite nth_map_in with (da := 0) by (rewrite seq_length; lia). rewrite seq_nth by lia. cbn [plus].
    destruct (i =? j) eqn:E; [|reflexivity]. apply Nat.eqb_eq in E. subst. cbn [cb INR]. unfold fct. cbn [INR]. field.
Qed.
(** Simplices: the barycentric coordinates of [x] are 1 - x_0 - ..., x_0, ...; squares and cubes:
    the product over the directions. *)
Theorem C134_geometry_basis : forall g x j, j < gnv g ->
  gbase g x j =
  if simplexb g then simplex_val 1 ((1 - sm (gdim g) x)%R :: map x (seq 0 (gdim g))) (map (fun i => if i =? j then 1 else 0) (seq 0 (gnv g)))
  else prodf (gdim g) (fun k => let v := nth k (nth j (gverts g) []) 0 in simplex_val 1 [(1 - x k)%R; x k] [1 - v; v]).
Proof.
  intros g x j J.
  assert (V0 : forall b c, simplex_val 1 [b; c] [1; 0] = b) by (intros b c; exact (val1 [b; c] 0 ltac:(cbn; lia))).
  assert (V1 : forall b c, simplex_val 1 [b; c] [0; 1] = c) by (intros b c; exact (val1 [b; c] 1 ltac:(cbn; lia))).
  destruct g; cbn [simplexb].
  - unfold gbase. cbn [simplexb]. change (gnv Seg) with (length ((1 - sm (gdim Seg) x)%R :: map x (seq 0 (gdim Seg)))). rewrite val1 by auto. enum j J; reflexivity.
  - unfold gbase. cbn [simplexb]. change (gnv Tri) with (length ((1 - sm (gdim Tri) x)%R :: map x (seq 0 (gdim Tri)))). rewrite val1 by auto. enum j J; reflexivity.
  - unfold gbase. cbn [simplexb gdim prodf]. enum j J; cbn [gverts nth Nat.sub]; rewrite ?V0, ?V1; reflexivity.
  - unfold gbase. cbn [simplexb]. change (gnv Tet) with (length ((1 - sm (gdim Tet) x)%R :: map x (seq 0 (gdim Tet)))). rewrite val1 by auto. enum j J; reflexivity.
  - unfold gbase. cbn [simplexb gdim prodf]. enum j J; cbn [gverts nth Nat.sub]; rewrite ?V0, ?V1; reflexivity.
Qed.

(** ** Normals that are not unit: facets smaller than [eps] *)
Theorem C133_small_facets_refuted : forall eps n_fa n_qp qp w q, (0 < eps <= 1)%R -> exists coors conn fis c,
  let m := facet_mapping Tri n_fa n_qp coors conn fis qp w eps in
  (0 < simplex_volume 2 (fun j => coors (conn 0%nat j)))%R /\ fis c = (0, 0) /\ dot 2 (m_normal m c q) (m_normal m c q) <> 1%R.
Proof.
  intros eps n_fa n_qp qp w q He.
  exists (fun j k => match j, k with 1, 0 => eps / 2 | 2, 1 => 1 | _, _ => 0 end)%R, (fun _ j => j), (fun _ => (0, 0)), 0. cbv zeta.
  split; [|split; [reflexivity|]].
  - unfold simplex_volume, det2, edge. lra.
  - assert (T : forall k, k < 2 -> rawn 2 (ftang Tri (fun j k => match j, k with 1, 0 => eps / 2 | 2, 1 => 1 | _, _ => 0 end)%R (fun _ j => j) (fun _ => (0, 0)) qp 0 q) k
       = match k with 0 => 0 | _ => - (eps / 2) end%R).
    { intros k Hk. enum k Hk; unfold rawn; rewrite simplex_tang by (auto; cbn; lia); unfold fx; cbn; lra. }
    unfold dot. rewrite sm2. unfold facet_mapping. rewrite !surf_normal by (cbn; auto; lia). cbv zeta.
    change (tang (gnv (gsurf Tri)) ?a ?b (fun q0 => facet_bf_g Tri (qp q0)) 0 q) with (ftang Tri a (fun _ j => j) (fun _ => (0, 0)) qp 0 q). cbn [gdim].
    rewrite !T by lia. set (dn := norm 2 _).
    assert (D : dn = (eps / 2)%R).
    { unfold dn, norm, dot. rewrite sm2, !T by lia. replace (0 * 0 + - (eps / 2) * - (eps / 2))%R with ((eps / 2) * (eps / 2))%R by ring. apply sqrt_square. lra. }
    rewrite D, Rabs_right by lra. replace (Rltb (eps / 2) eps) with true by (symmetry; apply Rltb_true; lra). intros E.
    assert (eps * eps = 4)%R by nra. nra.
Qed.

(** ** 1D: the sign of the normal depends on the numbers of the vertices *)
Theorem C133_segment_refuted : forall eps n_fa n_qp qp w q, exists coors conn fis c,
  (0 < simplex_volume 1 (fun j => coors (conn 0%nat j)))%R /\ fis c = (0, 0) /\
  (** the normal of the first vertex points to the second one *)
  (0 < m_normal (facet_mapping Seg n_fa n_qp coors conn fis qp w eps) c q 0 * (coors (conn 0%nat 1%nat) 0%nat - coors (conn 0%nat 0%nat) 0%nat))%R.
Proof.
  intros. exists (fun j _ => match j with 0 => 1 | _ => 0 end)%R, (fun _ j => 1 - j), (fun _ => (0, 0)), 0.
  split; [unfold simplex_volume, edge; cbn; lra|]. split; [reflexivity|]. unfold facet_mapping. cbn. lra.
Qed.
Theorem C133_segment_partial : forall coors conn fis eps n_fa n_qp qp w c q cell f, fis c = (cell, f) -> f < 2 ->
  (0 < simplex_volume 1 (fun j => coors (conn cell j)))%R ->
  (** the vertex 0 of the mesh is the first vertex of its cell *)
  conn cell 1 <> 0 -> (f = 0 -> conn cell 0 = 0) ->
  (m_normal (facet_mapping Seg n_fa n_qp coors conn fis qp w eps) c q 0 * (coors (conn cell (1 - f)%nat) 0%nat - coors (conn cell f) 0%nat) < 0)%R.
Proof.
  intros coors conn fis eps n_fa n_qp qp w c q cell f Hf F V N1 N0. unfold facet_mapping, facet_conn. cbn [gdim surface_mapping m_normal]. rewrite Hf. cbn [fst snd].
  unfold simplex_volume, edge in V. destruct f as [|[|]]; [| |lia]; unfold fvert; cbn [gfacets nth Nat.sub].
  - rewrite N0 in * by auto. rewrite Nat.eqb_refl. lra.
  - replace (conn cell 1 =? 0) with false by (symmetry; apply Nat.eqb_neq; auto). lra.
Qed.

(** ** Faces of hexahedra that are not parallelograms *)
Definition hexv : list (list R) := [[0; 0; 0]; [1; 0; 0]; [1; 2; 0]; [0; 1; 0]; [0; 0; 1]; [1; 0; 1]; [1; 2; 1]; [0; 1; 1]]%R.
Definition hexc (j k : nat) : R := nth k (nth j hexv []) 0%R.
Definition tri_moment (a b c : nat -> R) : R := (det2 (fun k => b k - a k) (fun k => c k - a k) / 2 * ((a 0%nat + b 0%nat + c 0%nat) / 3))%R.
(** The integral of x over the top face of a prism with a trapezoidal base, with any rule exact for
    bilinear functions. *)
Theorem C134_hex_face_refuted : forall n_qp qp w eps, rule_ok Quad n_qp qp w -> (forall q i, q < n_qp -> (0 <= qp q i <= 1)%R) ->
  let m := facet_mapping Hex 1 n_qp hexc (fun _ j => j) (fun _ => (0, 3)) qp w eps in
  let x := fun c q => physical_qps 4 (fun q => facet_bf Hex (qp q)) hexc (facet_conn Hex (fun _ j => j) (fun _ => (0, 3))) c q 0%nat in
  integrate n_qp m x false 0 = (3 / 4)%R /\
  (tri_moment (hexc 4) (hexc 5) (hexc 6) + tri_moment (hexc 4) (hexc 6) (hexc 7) = 5 / 6)%R /\
  (forall j, j < 8 -> (0 < detm 3 (mtxRM 8 (ggrad Hex (gcoor Hex j)) hexc))%R).
Proof.
  intros n_qp qp w eps Hr Hb m x. destruct Hr as (A & B & C & D). split; [|split].
  - assert (E : forall q, q < n_qp -> (x 0%nat q * m_det m 0%nat q = w q * qp q 0%nat + w q * (qp q 0%nat * qp q 1%nat))%R).
    { intros q Hq. pose proof (Hb q 0 Hq) as B0. pose proof (Hb q 1 Hq) as B1.
      assert (X : x 0 q = qp q 0%nat).
      { unfold x, physical_qps, facet_conn, hexc, hexv. expand. ring. }
      rewrite X. unfold m, facet_mapping. rewrite surf_det by auto.
      replace (norm (gdim Hex) (rawn (gdim Hex) (tang (gnv (gsurf Hex)) hexc (facet_conn Hex (fun _ j => j) (fun _ => (0, 3))) (fun q0 => facet_bf_g Hex (qp q0)) 0 q))) with (1 + qp q 1%nat)%R; [ring|].
      symmetry. unfold norm. cbn [gdim].
      assert (T0 : forall k, k < 3 -> tang (gnv (gsurf Hex)) hexc (facet_conn Hex (fun _ j => j) (fun _ => (0, 3))) (fun q0 => facet_bf_g Hex (qp q0)) 0 q 0 k = match k with 0 => 1 | 1 => qp q 0%nat | _ => 0 end%R).
      { intros k Hk. unfold tang, jac, facet_conn, hexc, hexv. enum k Hk; expand; ring. }
      assert (T1 : forall k, k < 3 -> tang (gnv (gsurf Hex)) hexc (facet_conn Hex (fun _ j => j) (fun _ => (0, 3))) (fun q0 => facet_bf_g Hex (qp q0)) 0 q 1 k = match k with 1 => 1 + qp q 1%nat | _ => 0 end%R).
      { intros k Hk. unfold tang, jac, facet_conn, hexc, hexv. enum k Hk; expand; ring. }
      unfold dot. rewrite sm3. unfold rawn, cross. rewrite !T0, !T1 by lia.
      match goal with |- sqrt ?e = _ => replace e with ((1 + qp q 1%nat) * (1 + qp q 1%nat))%R by ring end. apply sqrt_square. lra. }
    unfold integrate. rewrite (@sm_ext n_qp _ (fun q => (w q * qp q 0%nat + w q * (qp q 0%nat * qp q 1%nat))%R)) by auto.
    rewrite sm_plus, B, D. lra.
  - unfold tri_moment, det2, hexc. cbn. lra.
  - intros j Hj. enum j Hj; unfold detm, mtxRM, ggrad, gcoor, pf, hexc; cbn; lra.
Qed.
