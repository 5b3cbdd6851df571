(** C133: facet mappings - normals and surface Jacobians. C134: parametrization of facets. *)
From Coq Require Import Reals Lra.
From Verif Require Import Base M_fmf L_fmf M_nls M_map S_map L_map P_map P_map2.
Open Scope nat_scope.

(** Rows of the derivative of the facet coordinates. *)
Definition tang (ng : nat) (coors : nat -> nat -> R) (conn : nat -> nat -> nat) (bf_g : nat -> nat -> nat -> R) c q i : nat -> R :=
  jac ng coors conn bf_g c q i.
(** The normal (not normalized): t1 x t2 in 3D, the tangent turned clockwise in 2D. *)
Definition rawn (dim : nat) (t : nat -> nat -> R) : nat -> R :=
  match dim with 2 => fun k => match k with 0 => t 0 1 | _ => (- t 0%nat 0%nat)%R end | _ => cross (t 0) (t 1) end.
Definition norm (dim : nat) (v : nat -> R) : R := sqrt (dot dim v v).

Lemma surf_det : forall dim n_el n_qp ng coors conn bf_g w eps c q, dim = 2 \/ dim = 3 ->
  m_det (surface_mapping dim n_el n_qp ng coors conn bf_g w eps) c q =
  (norm dim (rawn dim (tang ng coors conn bf_g c q)) * w q)%R.
Proof.
  intros dim n_el n_qp ng coors conn bf_g w eps c q [-> | ->]; cbn [surface_mapping m_det rawn]; unfold norm, dot; f_equal; f_equal.
  - rewrite sm2. unfold tang, jac, mtxRM. ring.
  - rewrite sm3. unfold cross, tang, jac, mtxRM. ring.
Qed.
Lemma surf_normal : forall dim n_el n_qp ng coors conn bf_g w eps c q k, dim = 2 \/ dim = 3 -> k < dim ->
  m_normal (surface_mapping dim n_el n_qp ng coors conn bf_g w eps) c q k =
  (let v := rawn dim (tang ng coors conn bf_g c q) in let d := norm dim v in
   v k / (if Rltb (Rabs d) eps then 1 else d))%R.
Proof.
  intros dim n_el n_qp ng coors conn bf_g w eps c q k Hd Hk.
  destruct Hd as [-> | ->]; cbn [surface_mapping m_normal rawn]; cbv zeta.
  - match goal with |- (_ / (if Rltb (Rabs ?a) _ then _ else _) = _ / (if Rltb (Rabs ?b) _ then _ else _))%R => assert (E : a = b) end.
    { unfold norm, dot. f_equal. rewrite sm2. unfold tang, jac, mtxRM. ring. }
    rewrite E. reflexivity.
  - match goal with |- (_ / (if Rltb (Rabs ?a) _ then _ else _) = _ / (if Rltb (Rabs ?b) _ then _ else _))%R => assert (E : a = b) end.
    { unfold norm, dot. f_equal. rewrite sm3. unfold cross, tang, jac, mtxRM. ring. }
    rewrite E. f_equal. destruct k as [|[|[|k]]]; [| | |lia]; unfold cross, tang, jac, mtxRM; ring.
Qed.
Lemma norm_nonneg : forall dim v, (0 <= norm dim v)%R. Proof. intros. apply sqrt_pos. Qed.
Lemma norm_sq : forall dim v, (norm dim v * norm dim v = dot dim v v)%R.
Proof. intros. apply sqrt_sqrt. unfold dot. apply sm_nonneg. intros. apply Rle_0_sqr. Qed.
Lemma dot_scal : forall dim a v s, dot dim a (fun k => (v k / s)%R) = (dot dim a v / s)%R.
Proof. intros. unfold dot, Rdiv. rewrite <- sm_scalr. apply sm_ext. intros; ring. Qed.
Lemma rawn_perp : forall dim t i, dim = 2 \/ dim = 3 -> i < dim - 1 -> dot dim (t i) (rawn dim t) = 0%R.
Proof.
  intros dim t i [-> | ->] Hi; unfold dot.
  - rewrite sm2. destruct i; [|lia]. cbn. ring.
  - rewrite sm3. destruct i as [|[|i]]; [| |lia]; cbn; ring.
Qed.

(** Facets with |t1 x t2| (|t| in 2D) of at least [eps] (1e-15): unit normals orthogonal to the
    facet, on the side given by the order of its vertices; det is the surface element. *)
Theorem C133_normals_partial : forall dim n_el n_qp ng coors conn bf_g w eps c q, dim = 2 \/ dim = 3 -> (0 < eps)%R ->
  let m := surface_mapping dim n_el n_qp ng coors conn bf_g w eps in
  let t := tang ng coors conn bf_g c q in
  (eps <= norm dim (rawn dim t))%R ->
  dot dim (m_normal m c q) (m_normal m c q) = 1%R /\
  (forall i, i < dim - 1 -> dot dim (t i) (m_normal m c q) = 0%R) /\
  m_det m c q = (norm dim (rawn dim t) * w q)%R /\
  (forall k, k < dim -> (m_det m c q * m_normal m c q k = w q * rawn dim t k)%R) /\
  m_volume m c = sm n_qp (m_det m c).
Proof.
  intros dim n_el n_qp ng coors conn bf_g w eps c q Hd He m t Hn.
  pose proof (norm_nonneg dim (rawn dim t)) as P.
  assert (N : forall k, k < dim -> m_normal m c q k = (rawn dim t k / norm dim (rawn dim t))%R).
  { intros k Hk. unfold m. rewrite surf_normal by auto. cbv zeta. fold t. rewrite Rabs_right by lra.
    rewrite (proj2 (Rltb_false _ _)) by auto. auto. }
  assert (NZ : norm dim (rawn dim t) <> 0%R) by lra.
  split; [|split; [|split; [|split]]].
  - unfold dot. rewrite (@sm_ext dim _ (fun k => (rawn dim t k * rawn dim t k * / (norm dim (rawn dim t) * norm dim (rawn dim t)))%R)).
    + rewrite sm_scalr. fold (dot dim (rawn dim t) (rawn dim t)). rewrite <- norm_sq. field. auto.
    + intros k Hk. rewrite N by auto. field. auto.
  - intros i Hi. unfold dot. rewrite (@sm_ext dim _ (fun k => (t i k * (rawn dim t k / norm dim (rawn dim t)))%R)) by (intros k Hk; rewrite N; auto).
    fold (dot dim (t i) (fun k => (rawn dim t k / norm dim (rawn dim t))%R)). rewrite dot_scal, rawn_perp by auto. field. auto.
  - apply surf_det; auto.
  - intros k Hk. rewrite N by auto. unfold m. rewrite surf_det by auto. fold t. field. auto.
  - unfold m. destruct Hd as [-> | ->]; reflexivity.
Qed.

(** ** Parametrization of facets of volume fields of order 1 *)
Lemma lt8 : forall j n, j < n -> n <= 8 -> j = 0 \/ j = 1 \/ j = 2 \/ j = 3 \/ j = 4 \/ j = 5 \/ j = 6 \/ j = 7. Proof. lia. Qed.
Ltac enum j H := let E := fresh in pose proof (lt8 j _ H ltac:(cbn; lia)) as E; cbn in H; decompose [or] E; clear E; subst j; try lia.
Ltac expand := unfold facet_bf_g, facet_bf, gbase, ggrad, facet_point, fvert, gcoor, pf; cbn.
(** Base functions of the nodes of a facet are those of the facet. *)
Theorem C134_facet_values : forall g xi j, g <> Seg -> j < gnv (gsurf g) -> facet_bf g xi j = gbase (gsurf g) xi j.
Proof.
  intros g xi j Hg Hj. destruct g; [contradiction| | | |]; enum j Hj; expand; ring.
Qed.
(** The same function from the cell: base functions of the cell in the points of each facet. *)
Theorem C134_trace : forall g f xi, g <> Seg -> f < length (gfacets g) ->
  (forall j, j < gnv (gsurf g) -> gbase g (facet_point g f xi) (fvert g f j) = gbase (gsurf g) xi j) /\
  (forall v, v < gnv g -> ~ In v (nth f (gfacets g) []) -> gbase g (facet_point g f xi) v = 0%R).
Proof.
  intros g f xi Hg Hf. split.
  - intros j Hj. destruct g; [contradiction| | | |]; enum f Hf; enum j Hj; expand; ring.
  - intros v Hv Nv. destruct g; [contradiction| | | |]; enum f Hf; enum v Hv; try (exfalso; apply Nv; cbn; tauto); clear Nv; expand; ring.
Qed.
(** Derivatives of the facet parametrization. *)
Theorem C134_facet_gradients_partial : forall g xi i j, g <> Seg -> g <> Hex -> i < gdim g - 1 -> j < gnv (gsurf g) ->
  facet_bf_g g xi i j = ggrad (gsurf g) xi i j.
Proof.
  intros g xi i j Hg Hh Hi Hj. destruct g; try contradiction; enum i Hi; enum j Hj; expand; ring.
Qed.
(** Faces of hexahedra: the derivatives are those in the point with swapped coordinates. *)
Definition swap (xi : nat -> R) (k : nat) : R := match k with 0 => xi 1 | 1 => xi 0 | _ => xi k end.
Lemma hex_gradients : forall xi i j, i < 2 -> j < 4 -> facet_bf_g Hex xi i j = ggrad Quad (swap xi) i j.
Proof. intros xi i j Hi Hj. enum i Hi; enum j Hj; expand; ring. Qed.
