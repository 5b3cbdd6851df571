(** C133: normals and surface elements of all facets of a cell together: the integral of the
    normal vanishes and the divergence theorem gives the volume. *)
From Coq Require Import Reals Lra Psatz.
From Verif Require Import Base M_fmf L_fmf M_nls M_map S_map L_map P_map P_map2 P_map3 P_map4.
Open Scope nat_scope.

(** The quadrature rule of the facets integrates constants, coordinates and, on squares, their
    product exactly. *)
Definition rule_ok (g : geom) (n_qp : nat) (qp : nat -> nat -> R) (w : nat -> R) : Prop :=
  (match g with
   | Seg => sm n_qp w = 1 /\ sm n_qp (fun q => w q * qp q 0%nat) = 1 / 2
   | Tri => sm n_qp w = 1 / 2 /\ sm n_qp (fun q => w q * qp q 0%nat) = 1 / 6 /\ sm n_qp (fun q => w q * qp q 1%nat) = 1 / 6
   | Quad => sm n_qp w = 1 /\ sm n_qp (fun q => w q * qp q 0%nat) = 1 / 2 /\ sm n_qp (fun q => w q * qp q 1%nat) = 1 / 2 /\
             sm n_qp (fun q => w q * (qp q 0%nat * qp q 1%nat)) = 1 / 4
   | _ => False
   end)%R.
Definition shape_int (g : geom) : R := (match g with Seg => 1 / 2 | Tri => 1 / 6 | _ => 1 / 4 end)%R.
Lemma rule_shape : forall g n_qp qp w j, rule_ok g n_qp qp w -> j < gnv g ->
  sm n_qp (fun q => (w q * gbase g (qp q) j)%R) = shape_int g.
Proof.
  intros g n_qp qp w j H Hj. destruct g; cbn in H; try contradiction.
  - destruct H as (A & B). enum j Hj; unfold gbase; cbn.
    + rewrite (@sm_ext n_qp _ (fun q => (w q + -1 * (w q * qp q 0%nat))%R)) by (intros; ring).
      rewrite sm_plus, sm_scal, A, B. unfold shape_int. lra.
    + rewrite B. reflexivity.
  - destruct H as (A & B & C). enum j Hj; unfold gbase; cbn.
    + rewrite (@sm_ext n_qp _ (fun q => (w q + (-1 * (w q * qp q 0%nat) + -1 * (w q * qp q 1%nat)))%R)) by (intros; ring).
      rewrite !sm_plus, !sm_scal, A, B, C. unfold shape_int. lra.
    + rewrite B. reflexivity.
    + rewrite C. reflexivity.
  - destruct H as (A & B & C & D). enum j Hj; unfold gbase, pf; cbn.
    + rewrite (@sm_ext n_qp _ (fun q => (w q + (-1 * (w q * qp q 0%nat) + (-1 * (w q * qp q 1%nat) + w q * (qp q 0%nat * qp q 1%nat))))%R)) by (intros; ring).
      rewrite !sm_plus, !sm_scal, A, B, C, D. unfold shape_int. lra.
    + rewrite (@sm_ext n_qp _ (fun q => (w q * qp q 0%nat + -1 * (w q * (qp q 0%nat * qp q 1%nat)))%R)) by (intros; ring).
      rewrite !sm_plus, !sm_scal, B, D. unfold shape_int. lra.
    + rewrite (@sm_ext n_qp _ (fun q => (w q * (qp q 0%nat * qp q 1%nat))%R)) by (intros; ring). rewrite D. reflexivity.
    + rewrite (@sm_ext n_qp _ (fun q => (w q * qp q 1%nat + -1 * (w q * (qp q 0%nat * qp q 1%nat)))%R)) by (intros; ring).
      rewrite !sm_plus, !sm_scal, C, D. unfold shape_int. lra.
Qed.
Definition shape_sum (g : geom) : R := (match g with Tri => 1 / 2 | _ => 1 end)%R.
Lemma rule_sum : forall g n_qp qp w, rule_ok g n_qp qp w -> sm n_qp w = shape_sum g.
Proof. intros g n_qp qp w H. destruct g; cbn in H; try contradiction; apply H. Qed.

(** Cells: simplices, quadrilaterals, parallelepipeds. *)
Definition cell_ok (g : geom) (x : nat -> nat -> R) : Prop :=
  match g with
  | Seg => False
  | Hex => forall j k, j < 8 -> k < 3 -> x j k = (x 0%nat k + gcoor Hex j 0 * (x 1%nat k - x 0%nat k)
             + gcoor Hex j 1 * (x 3%nat k - x 0%nat k) + gcoor Hex j 2 * (x 4%nat k - x 0%nat k))%R
  | _ => True
  end.
Definition cell_volume (g : geom) (x : nat -> nat -> R) : R :=
  match g with
  | Quad => quad_area x
  | Hex => det3 (fun k => (x 1%nat k - x 0%nat k)%R) (fun k => (x 3%nat k - x 0%nat k)%R) (fun k => (x 4%nat k - x 0%nat k)%R)
  | _ => simplex_volume (gdim g) x
  end.

Section Cell.
Variables (g : geom) (n_fa n_qp : nat) (coors : nat -> nat -> R) (conn : nat -> nat -> nat) (fis : nat -> nat * nat)
  (qp : nat -> nat -> R) (w : nat -> R) (eps : R) (cell : nat).
Notation m := (facet_mapping g n_fa n_qp coors conn fis qp w eps).
Notation nf := (length (gfacets g)).
Notation X := (fun j => coors (conn cell j)).
Hypothesis Eps : (0 < eps)%R.
Hypothesis Shape : cell_ok g X.
(** The facets of the mapping are those of [cell]. *)
Hypothesis Fis : forall f, f < nf -> fis f = (cell, f).
Hypothesis Rule : rule_ok (gsurf g) n_qp qp w.
Hypothesis Size : forall f q, f < nf -> q < n_qp -> (eps <= norm (gdim g) (rawn (gdim g) (ftang g coors conn fis qp f q)))%R.

Let dim23 : gdim g = 2 \/ gdim g = 3. Proof. clear - Shape. destruct g; cbn in *; tauto. Qed.
Let detn : forall f q k, f < nf -> q < n_qp -> k < gdim g ->
  (m_det m f q * m_normal m f q k = w q * rawn (gdim g) (ftang g coors conn fis qp f q) k)%R.
Proof.
  clear - dim23 Eps Size. intros f q k Hf Hq Hk.
  exact (proj1 (proj2 (proj2 (proj2 (C133_normals_partial (gdim g) n_fa n_qp (gnv (gsurf g)) coors (facet_conn g conn fis)
     (fun q => facet_bf_g g (qp q)) w eps f q dim23 Eps (Size f q Hf Hq))))) k Hk).
Qed.
(** Tangents of facet [f] as edge vectors of its vertices. *)
Definition ev (f i k : nat) : R := (coors (conn cell (fvert g f (match i with 0 => 1 | _ => gnv (gsurf g) - 1 end))) k - coors (conn cell (fvert g f 0)) k)%R.
Let tang_ev : forall f q i k, f < nf -> i < gdim g - 1 -> k < gdim g -> ftang g coors conn fis qp f q i k = ev f i k.
Proof.
  clear - Shape Fis. intros f q i k Hf Hi Hk. unfold ftang, tang, jac, facet_conn. pose proof (Fis f Hf) as F. clear Fis. rewrite F. cbn [fst snd].
  unfold ev. destruct g; cbn in Shape; try contradiction; try (enum i Hi; enum f Hf; expand; ring).
  assert (P : forall j, j < 8 -> _) by exact (fun j Hj => Shape j k Hj Hk).
  pose proof (P 2 ltac:(lia)) as P2. pose proof (P 5 ltac:(lia)) as P5. pose proof (P 6 ltac:(lia)) as P6. pose proof (P 7 ltac:(lia)) as P7. clear P Shape.
  enum i Hi; enum f Hf; expand; unfold gcoor in *; cbn in P2, P5, P6, P7; rewrite ?P2, ?P5, ?P6, ?P7; ring.
Qed.
Let rawn_ev : forall f q k, f < nf -> k < gdim g -> rawn (gdim g) (ftang g coors conn fis qp f q) k = rawn (gdim g) (ev f) k.
Proof.
  clear - tang_ev dim23. intros f q k Hf Hk. destruct dim23 as [D|D]; rewrite D in *; unfold rawn, cross.
  - destruct k as [|[|k]]; [| |lia]; rewrite tang_ev by (auto; lia); auto.
  - destruct k as [|[|[|k]]]; [| | |lia]; rewrite !tang_ev by (auto; lia); auto.
Qed.

(** The integral of the outward normal over the boundary of the cell vanishes. *)
Theorem C133_closed : forall k, k < gdim g -> sm nf (fun f => sm n_qp (fun q => (m_det m f q * m_normal m f q k)%R)) = 0%R.
Proof.
  clear - dim23 detn rawn_ev Shape Rule. intros k Hk.
  rewrite (@sm_ext nf _ (fun f => (rawn (gdim g) (ev f) k * shape_sum (gsurf g))%R)).
  2:{ intros f Hf. rewrite (@sm_ext n_qp _ (fun q => (w q * rawn (gdim g) (ev f) k)%R)).
      - rewrite sm_scalr, (rule_sum _ _ _ _ Rule). ring.
      - intros q Hq. rewrite detn, rawn_ev by auto. auto. }
  clear detn rawn_ev Rule. unfold ev. destruct g; cbn in Shape; try contradiction.
  - enum k Hk; unfold fvert, rawn, cross; cbn; ring.
  - enum k Hk; unfold fvert, rawn, cross; cbn; ring.
  - enum k Hk; unfold fvert, rawn, cross; cbn; ring.
  - assert (P : forall j i, j < 8 -> i < 3 -> _) by exact Shape. clear Shape.
    assert (Q2 := fun i => P 2 i ltac:(lia)). assert (Q5 := fun i => P 5 i ltac:(lia)). assert (Q6 := fun i => P 6 i ltac:(lia)). assert (Q7 := fun i => P 7 i ltac:(lia)).
    clear P. unfold gcoor in *. cbn in Q2, Q5, Q6, Q7.
    enum k Hk; unfold fvert, rawn, cross; cbn; rewrite ?Q2, ?Q5, ?Q6, ?Q7 by lia; ring.
Qed.
(** The divergence theorem for coordinates: the integral of x_l n_k is the volume for l = k, 0 otherwise. *)
Theorem C133_divergence : forall k l, k < gdim g -> l < gdim g ->
  sm nf (fun f => sm n_qp (fun q => (m_det m f q * m_normal m f q k *
     physical_qps (gnv (gsurf g)) (fun q => facet_bf g (qp q)) coors (facet_conn g conn fis) f q l)%R)) =
  (kron k l * cell_volume g X)%R.
Proof.
  clear - dim23 detn rawn_ev Shape Rule Fis. intros k l Hk Hl.
  assert (NS : g <> Seg) by (intro Z; rewrite Z in Shape; exact Shape).
  rewrite (@sm_ext nf _ (fun f => (rawn (gdim g) (ev f) k * (shape_int (gsurf g) * sm (gnv (gsurf g)) (fun j => coors (conn cell (fvert g f j)) l)))%R)).
  2:{ intros f Hf. rewrite (@sm_ext n_qp _ (fun q => (rawn (gdim g) (ev f) k * sm (gnv (gsurf g)) (fun j => (w q * gbase (gsurf g) (qp q) j) * coors (conn cell (fvert g f j)) l))%R)).
      - rewrite sm_scal. f_equal. rewrite sm_swap.
        rewrite (@sm_ext (gnv (gsurf g)) _ (fun j => (shape_int (gsurf g) * coors (conn cell (fvert g f j)) l)%R)).
        + apply sm_scal.
        + intros j Hj. rewrite sm_scalr, (rule_shape _ _ _ _ _ Rule Hj). ring.
      - intros q Hq. rewrite detn, rawn_ev by auto. rewrite (Rmult_comm (w q)), Rmult_assoc. f_equal. unfold physical_qps.
        rewrite <- sm_scal. apply sm_ext. intros j Hj. rewrite C134_facet_values by auto. unfold facet_conn. rewrite Fis by auto. cbn [fst snd]. ring. }
  clear detn rawn_ev Rule Fis. unfold ev. destruct g; cbn in Shape; try contradiction.
  - enum k Hk; enum l Hl; unfold fvert, rawn, cross, kron, shape_int, cell_volume, simplex_volume, edge, det2; cbn; field.
  - enum k Hk; enum l Hl; unfold fvert, rawn, cross, kron, shape_int, cell_volume, quad_area, det2; cbn; field.
  - enum k Hk; enum l Hl; unfold fvert, rawn, cross, kron, shape_int, cell_volume, simplex_volume, edge, det3; cbn; field.
  - assert (P : forall j i, j < 8 -> i < 3 -> _) by exact Shape. clear Shape.
    assert (Q2 := fun i => P 2 i ltac:(lia)). assert (Q5 := fun i => P 5 i ltac:(lia)). assert (Q6 := fun i => P 6 i ltac:(lia)). assert (Q7 := fun i => P 7 i ltac:(lia)).
    clear P. unfold gcoor in *. cbn in Q2, Q5, Q6, Q7.
    enum k Hk; enum l Hl; unfold fvert, rawn, cross, kron, shape_int, cell_volume, det3; cbn; rewrite ?Q2, ?Q5, ?Q6, ?Q7 by lia; field.
Qed.
End Cell.
