(** The updated Lagrangian terms give the same residual and the same matrix as the total Lagrangian ones. *)
From Coq Require Import Reals Lra Lia Arith List.
From Coquelicot Require Import Coquelicot.
From Verif Require Import Base M_fmf M_terms L_fmf S_terms L_terms L_terms2 M_hyper S_hyper L_hyper L_hyper2 L_hyper3 P_hyper P_hyper4.
From Verif Require M_map P_map P_hyper3.
Import ListNotations.
Open Scope R_scope.

(** The mapping [vg] belongs to the mesh moved by the displacement whose deformation
    gradient on the mapping [vg0] is [F]: the chain rule for the gradients, dv = J dV. *)
Definition moved (nq dim ne : nat) (F : nat -> nat -> R) (vg0 vg : Geo) : Prop :=
  forall q, (q < nq)%nat -> 0 < detF (finite_strain false dim (F q)) /\
    scal (det vg) q = detF (finite_strain false dim (F q)) * scal (det vg0) q /\
    forall I e, (I < dim)%nat -> (e < ne)%nat -> at_ (bfGM vg0) q I e = sm dim (fun i => F q (dim * i + I)%nat * at_ (bfGM vg) q i e).

Lemma t4_voigt : forall dim i j, dim_ok dim -> (i < dim)%nat -> (j < dim)%nat -> t4s dim (dim * i + j) = voigt dim i j.
Proof.
  intros dim i j [-> | [-> | ->]] Hi Hj; do 3 (try destruct i as [|i]); try (exfalso; lia); do 3 (try destruct j as [|j]); try (exfalso; lia); reflexivity.
Qed.
Lemma t4_bound : forall dim i j, dim_ok dim -> (i < dim)%nat -> (j < dim)%nat -> (t4s dim (dim * i + j) < dim2sym dim)%nat.
Proof.
  intros dim i j [-> | [-> | ->]] Hi Hj; do 3 (try destruct i as [|i]); try (exfalso; lia); do 3 (try destruct j as [|j]); try (exfalso; lia); cbn; lia.
Qed.
Lemma t4_sym : forall dim i j, dim_ok dim -> (i < dim)%nat -> (j < dim)%nat -> t4s dim (dim * i + j) = t4s dim (dim * j + i).
Proof.
  intros dim i j [-> | [-> | ->]] Hi Hj; do 3 (try destruct i as [|i]); try (exfalso; lia); do 3 (try destruct j as [|j]); try (exfalso; lia); reflexivity.
Qed.
Lemma Bop_sum : forall dim F G c e (x : nat -> R), dim_ok dim ->
  sm (dim2sym dim) (fun k => Bop dim F G k c e * x k) = sm dim (fun I => sm dim (fun J => F (dim * c + I)%nat * G J e * tens2 dim x I J)).
Proof.
  intros dim F G c e x [-> | [-> | ->]]; unfold tens2, Bop;
  cbn [dim2sym sm t2i t2j t4s nth Nat.ltb Nat.leb Nat.mul Nat.add]; cbv beta zeta; ring.
Qed.
(** Sums over products. *)
Lemma sm_mul : forall n m f g, sm n f * sm m g = sm n (fun i => sm m (fun j => f i * g j)).
Proof. intros. rewrite <- sm_scalr. apply sm_ext; intros. rewrite sm_scal. reflexivity. Qed.

Lemma sm6 : forall d (h : nat -> nat -> nat -> nat -> nat -> nat -> R),
  sm d (fun j => sm d (fun i => sm d (fun I => sm d (fun J => sm d (fun K => sm d (fun L => h j i I J K L))))))
  = sm d (fun K => sm d (fun L => sm d (fun I => sm d (fun J => sm d (fun j => sm d (fun i => h j i I J K L)))))).
Proof.
  intros d h.
  transitivity (sm d (fun j => sm d (fun i => sm d (fun K => sm d (fun L => sm d (fun I => sm d (fun J => h j i I J K L))))))).
  { apply sm_ext; intros j _. apply sm_ext; intros i _. 
    transitivity (sm d (fun I => sm d (fun K => sm d (fun L => sm d (fun J => h j i I J K L))))).
    { apply sm_ext; intros I _. rewrite sm_swap. apply sm_ext; intros K _. apply sm_swap. }
    rewrite sm_swap. apply sm_ext; intros K _. apply sm_swap. }
  transitivity (sm d (fun j => sm d (fun K => sm d (fun L => sm d (fun I => sm d (fun J => sm d (fun i => h j i I J K L))))))).
  { apply sm_ext; intros j _. rewrite sm_swap. apply sm_ext; intros K _. rewrite sm_swap. apply sm_ext; intros L _. rewrite sm_swap. apply sm_ext; intros I _. apply sm_swap. }
  rewrite sm_swap. apply sm_ext; intros K _. rewrite sm_swap. apply sm_ext; intros L _. rewrite sm_swap. apply sm_ext; intros I _. apply sm_swap.
Qed.

Section UL.
Variables (nq dim ne : nat) (vg0 vg : Geo).
Hypothesis (H0 : shape nq dim ne vg0) (H1 : shape nq dim ne vg) (HD : dim_ok dim).
Variables (conn : nat -> nat) (st : nat -> R).
Notation F := (Fq vg0 conn st).
Hypothesis HM : moved nq dim ne F vg0 vg.
Variables (S0 S1 : nat -> Fam -> nat -> R) (D0 D1 : nat -> Fam -> nat -> nat -> R).
Notation f0 q := (finite_strain false dim (F q)).
Notation f1 q := (finite_strain true dim (F q)).
Hypothesis HS : forall q i j, (q < nq)%nat -> (i < dim)%nat -> (j < dim)%nat ->
  tens2 dim (S1 q (f1 q)) i j = push2 dim (F q) (tens2 dim (S0 q (f0 q))) i j.

Lemma ul_det : forall q, (q < nq)%nat -> scal (det vg) q / detF (f1 q) = scal (det vg0) q.
Proof.
  intros q Hq. destruct (HM q Hq) as (P & E & _). rewrite E. cbn [detF finite_strain] in *. field. lra.
Qed.
Lemma ul_residual_at : forall cache junk c e, (c < dim)%nat -> (e < ne)%nat ->
  at_ (fst (he_weak_ul dim S1 D1 cache false junk st conn vg0 vg)) 0 (c * ne + e) 0
  = sm nq (fun q => sm dim (fun j => Gq vg q j e * tens2 dim (S1 q (f1 q)) c j) * (scal (det vg) q / detF (f1 q))).
Proof.
  intros cache junk c e Hc He. pose proof H1 as H1'. destruct H1' as (? & ? & ? & L & Rw & Cl & ? & ? & ?).
  pose proof (idx_lt dim ne c e Hc He) as HI. rewrite (Nat.mul_comm ne c) in HI.
  unfold he_weak_ul. cbv zeta. cbn [fst]. unfold dw_he_rtm. cbv zeta. rewrite ?L, ?Rw, ?Cl. cbn [nRow emp].
  rewrite sumLevelsMulF_at; [ | cbn; auto | cbn; auto | rewrite nCol_actOpGT_M3; reflexivity].
  rewrite nLev_actOpGT_M3. cbn [nLev alloc]. apply sm_ext. intros q Hq. f_equal.
  - rewrite <- Cl. rewrite actOpGT_M3_at; rewrite ?Cl, ?Rw, ?L; auto. apply sm_ext. intros j Hj. unfold Gq, tens2. f_equal.
    rewrite t4_voigt by auto. rewrite qp_buf_at; [|rewrite <- t4_voigt by auto; apply t4_bound; auto | lia].
    rewrite Nat.mul_1_l, Nat.add_0_r. reflexivity.
  - rewrite (@det_at nq dim ne vg H1). f_equal. rewrite s11 by reflexivity. unfold scal. rewrite qp_buf_at by lia. reflexivity.
Qed.
(** The residuals are the same ... *)
Theorem ul_residual : forall cache cache' junk junk' c e, (c < dim)%nat -> (e < ne)%nat ->
  at_ (fst (he_weak_ul dim S1 D1 cache false junk st conn vg0 vg)) 0 (c * ne + e) 0
  = at_ (fst (he_weak dim S0 D0 cache' false junk' st conn vg0)) 0 (c * ne + e) 0.
Proof.
  intros cache cache' junk junk' c e Hc He. rewrite ul_residual_at by auto. rewrite (@tl_residual_at nq dim ne vg0 H0 HD) by auto.
  apply sm_ext. intros q Hq. rewrite ul_det by auto. f_equal. rewrite Bop_sum by auto.
  destruct (HM q Hq) as (_ & _ & G).
  rewrite (@sm_ext dim (fun j => Gq vg q j e * _) (fun j => sm dim (fun I => sm dim (fun J => F q (dim * c + I)%nat * (F q (dim * j + J)%nat * Gq vg q j e) * tens2 dim (S0 q (f0 q)) I J)))).
  2: { intros j Hj. rewrite HS by auto. unfold push2. rewrite <- sm_scal. apply sm_ext; intros. rewrite <- sm_scal. apply sm_ext; intros. ring. }
  rewrite (sm_swap dim dim). apply sm_ext. intros I HI. rewrite (sm_swap dim dim). apply sm_ext. intros J HJ.
  rewrite sm_scalr, sm_scal. f_equal. f_equal. unfold Gq. rewrite G by auto. reflexivity.
Qed.

Hypothesis HT : forall q i j k l, (q < nq)%nat -> (i < dim)%nat -> (j < dim)%nat -> (k < dim)%nat -> (l < dim)%nat ->
  tens4 dim (D1 q (f1 q)) i j k l = push4 dim (F q) (tens4 dim (D0 q (f0 q))) i j k l.
Lemma ul_matrix_at : forall cache junk c e c' e', (c < dim)%nat -> (e < ne)%nat -> (c' < dim)%nat -> (e' < ne)%nat ->
  match cache with Some s => nRow s = dim2sym dim | None => True end ->
  let s q := match cache with Some s => level s q | None => S1 q (f1 q) end in
  at_ (fst (he_weak_ul dim S1 D1 cache true junk st conn vg0 vg)) 0 (c * ne + e) (c' * ne + e')
  = sm nq (fun q => sm dim (fun j => Gq vg q j e' * sm dim (fun i => Gq vg q i e * tens4 dim (D1 q (f1 q)) c i c' j)) * (scal (det vg) q / detF (f1 q)))
    + if (c =? c')%nat then sm nq (fun q => sm dim (fun i => sm dim (fun j => tens2 dim (s q) i j * Gq vg q i e * Gq vg q j e')) * (scal (det vg) q / detF (f1 q))) else 0.
Proof.
  intros cache junk c e c' e' Hc He Hc' He' HB s. pose proof H1 as H1'. destruct H1' as (? & ? & ? & L & Rw & Cl & ? & ? & ?).
  pose proof (idx_lt dim ne c e Hc He) as HI. rewrite (Nat.mul_comm ne c) in HI.
  pose proof (idx_lt dim ne c' e' Hc' He') as HI'. rewrite (Nat.mul_comm ne c') in HI'.
  unfold he_weak_ul. cbv zeta. cbn [fst]. unfold dw_he_rtm. cbv zeta. rewrite ?L, ?Rw, ?Cl.
  set (sb := match cache with Some s => s | None => _ end).
  assert (SB : nRow sb = dim2sym dim) by (unfold sb; destruct cache; auto). rewrite SB.
  cbn [nRow emp]. change (emp 1 (dim * ne) (dim * ne) junk) with (emp 1 (dim * ne) (dim * ne) junk).
  set (base := sumLevelsMulF (emp 1 (dim * ne) (dim * ne) junk) _ _).
  set (ik := sumLevelsMulF (alloc 1 ne ne) _ _).
  assert (W : forall q, (q < nq)%nat -> val (det vg) q / val (qp_buf nq 1 1 (fun q _ => detF (finite_strain true dim (level (def_grad st conn (bfGM vg0)) q)))) q = scal (det vg) q / detF (f1 q)).
  { intros q Hq. rewrite (@det_at nq dim ne vg H1). f_equal. rewrite s11 by reflexivity. unfold scal. rewrite qp_buf_at by lia. reflexivity. }
  pose proof (@blocks_at dim ne base ik c e c' e' HD Hc Hc' He He') as P. cbv zeta in P. rewrite P; clear P.
  2: repeat split; reflexivity. 2: split; reflexivity.
  f_equal.
  - unfold base. rewrite sumLevelsMulF_at; [ | cbn; auto | cbn; auto | rewrite nCol_actOpG_RM3; reflexivity].
    rewrite nLev_actOpG_RM3. cbn [nLev alloc]. apply sm_ext. intros q Hq. rewrite W by auto. f_equal.
    pose proof (fun d m i => @actOpG_RM3_at d m (bfGM vg) q i c' e') as PR. rewrite Cl, Rw, L in PR.
    pose proof (fun d m ii => @actOpGT_M3_at d (bfGM vg) m q c e ii) as PT. rewrite Cl, Rw, L in PT.
    rewrite PR; rewrite ?nRow_actOpGT_M3; auto. apply sm_ext. intros j Hj. f_equal.
    rewrite PT; auto.
    2: { cbn. rewrite <- t4_voigt by auto. apply t4_bound; auto. }
    apply sm_ext. intros i Hi. f_equal. unfold tens4.
    rewrite qp_buf_at; [|rewrite <- t4_voigt by auto; apply t4_bound; auto | rewrite <- t4_voigt by auto; apply t4_bound; auto].
    rewrite !t4_voigt by auto. set (a := voigt dim c i). set (b := voigt dim c' j).
    assert (B : (b < dim2sym dim)%nat) by (unfold b; rewrite <- t4_voigt by auto; apply t4_bound; auto).
    f_equal; [symmetry; apply (Nat.div_unique _ (dim2sym dim) a b); auto | symmetry; apply (Nat.mod_unique _ (dim2sym dim) a b); auto].
  - destruct (c =? c')%nat; auto. unfold ik.
    assert (KC : nLev (buildOpKtsC (alloc nq ne ne) sb (bfGM vg)) = nq /\ nCol (buildOpKtsC (alloc nq ne ne) sb (bfGM vg)) = ne).
    { unfold buildOpKtsC. rewrite Rw. destruct HD as [-> | [-> | ->]]; split; reflexivity. }
    rewrite sumLevelsMulF_at; [ | cbn; auto | cbn; auto | apply KC]. rewrite (proj1 KC). apply sm_ext. intros q Hq.
    rewrite W by auto. f_equal. rewrite KtsC_at; try (rewrite ?Rw, ?Cl, ?L; auto; fail).
    rewrite Rw. apply sm_ext; intros i Hi. apply sm_ext; intros j Hj. f_equal. f_equal.
    unfold sym2, tens2. unfold s, sb. destruct cache; auto. rewrite qp_buf_level; auto. rewrite Nat.mul_1_l. apply t4_bound; auto.
Qed.
(** ... and the matrices too. *)
Theorem ul_matrix : forall cache cache' junk junk' c e c' e', (c < dim)%nat -> (e < ne)%nat -> (c' < dim)%nat -> (e' < ne)%nat ->
  match cache with Some s => nRow s = dim2sym dim /\ forall q k, (q < nq)%nat -> (k < dim2sym dim)%nat -> level s q k = S1 q (f1 q) k | None => True end ->
  match cache' with Some s => nRow s = dim2sym dim /\ forall q k, (q < nq)%nat -> (k < dim2sym dim)%nat -> level s q k = S0 q (f0 q) k | None => True end ->
  at_ (fst (he_weak_ul dim S1 D1 cache true junk st conn vg0 vg)) 0 (c * ne + e) (c' * ne + e')
  = at_ (fst (he_weak dim S0 D0 cache' true junk' st conn vg0)) 0 (c * ne + e) (c' * ne + e').
Proof.
  intros cache cache' junk junk' c e c' e' Hc He Hc' He' K1 K0. rewrite ul_matrix_at by (auto; destruct cache; tauto).
  rewrite (@tl_matrix_at nq dim ne vg0 H0 HD) by (auto; destruct cache'; tauto). f_equal.
  - apply sm_ext. intros q Hq. rewrite ul_det by auto. f_equal. destruct (HM q Hq) as (_ & _ & G).
    transitivity (sm dim (fun K => sm dim (fun Lx => F q (dim * c' + K)%nat * Gq vg0 q Lx e' * sm dim (fun I => sm dim (fun J => F q (dim * c + I)%nat * Gq vg0 q J e * tens4 dim (D0 q (f0 q)) I J K Lx))))).
    + rewrite (@sm_ext dim _ (fun j => sm dim (fun i => sm dim (fun I => sm dim (fun J => sm dim (fun K => sm dim (fun Lx =>
         (F q (dim * c + I)%nat * F q (dim * c' + K)%nat * tens4 dim (D0 q (f0 q)) I J K Lx) * ((F q (dim * i + J)%nat * Gq vg q i e) * (F q (dim * j + Lx)%nat * Gq vg q j e'))))))))).
      2: { intros j Hj. rewrite <- sm_scal. apply sm_ext; intros i Hi. rewrite HT by auto. unfold push4.
           rewrite <- !sm_scal. apply sm_ext; intros I HI. rewrite <- !sm_scal. apply sm_ext; intros J HJ. rewrite <- !sm_scal. apply sm_ext; intros K HK. rewrite <- !sm_scal. apply sm_ext; intros. ring. }
      transitivity (sm dim (fun K => sm dim (fun Lx => sm dim (fun I => sm dim (fun J => sm dim (fun j => sm dim (fun i => (F q (dim * c + I)%nat * F q (dim * c' + K)%nat * tens4 dim (D0 q (f0 q)) I J K Lx) * ((F q (dim * i + J)%nat * Gq vg q i e) * (F q (dim * j + Lx)%nat * Gq vg q j e'))))))))).
      * clear. generalize (fun j i I J K Lx => (F q (dim * c + I)%nat * F q (dim * c' + K)%nat * tens4 dim (D0 q (f0 q)) I J K Lx) * ((F q (dim * i + J)%nat * Gq vg q i e) * (F q (dim * j + Lx)%nat * Gq vg q j e'))).
        intros h. apply sm6.
      * apply sm_ext; intros K HK. apply sm_ext; intros Lx HL. rewrite <- sm_scal. apply sm_ext; intros I HI. rewrite <- sm_scal. apply sm_ext; intros J HJ.
        rewrite (@sm_ext dim _ (fun j => (F q (dim * c + I)%nat * F q (dim * c' + K)%nat * tens4 dim (D0 q (f0 q)) I J K Lx * sm dim (fun i => F q (dim * i + J)%nat * Gq vg q i e)) * (F q (dim * j + Lx)%nat * Gq vg q j e'))).
        2: { intros j Hj. rewrite <- sm_scal, <- sm_scalr. apply sm_ext; intros; ring. }
        rewrite sm_scal. unfold Gq. rewrite <- !G by auto. ring.
    + rewrite (@sm_ext (dim2sym dim) (fun k => sm _ _ * _) (fun k => Bop dim (F q) (Gq vg0 q) k c' e' * sm dim (fun I => sm dim (fun J => F q (dim * c + I)%nat * Gq vg0 q J e * tens2 dim (fun l => D0 q (f0 q) l k) I J)))).
      2: { intros k Hk. rewrite Bop_sum by auto. ring. }
      rewrite Bop_sum by auto. reflexivity.
  - destruct (c =? c')%nat; auto. apply sm_ext. intros q Hq. rewrite ul_det by auto. f_equal. destruct (HM q Hq) as (_ & _ & G).
    transitivity (sm dim (fun i => sm dim (fun j => sm dim (fun I => sm dim (fun J => (tens2 dim (S0 q (f0 q)) I J) * ((F q (dim * i + I)%nat * Gq vg q i e) * (F q (dim * j + J)%nat * Gq vg q j e'))))))).
    + apply sm_ext; intros i Hi. apply sm_ext; intros j Hj.
      transitivity (tens2 dim (S1 q (f1 q)) i j * Gq vg q i e * Gq vg q j e').
      { f_equal. f_equal. unfold tens2. destruct cache; auto. apply K1; auto. apply t4_bound; auto. }
      rewrite HS by auto. unfold push2. rewrite <- !sm_scalr. apply sm_ext; intros I HI. rewrite <- !sm_scalr. apply sm_ext; intros J HJ. ring.
    + rewrite (@sm_ext dim _ (fun i => sm dim (fun I => sm dim (fun j => sm dim (fun J => (tens2 dim (S0 q (f0 q)) I J) * ((F q (dim * i + I)%nat * Gq vg q i e) * (F q (dim * j + J)%nat * Gq vg q j e'))))))) by (intros; apply sm_swap).
      rewrite (sm_swap dim dim). apply sm_ext; intros I HI.
      rewrite (@sm_ext dim _ (fun i => sm dim (fun J => sm dim (fun j => (tens2 dim (S0 q (f0 q)) I J) * ((F q (dim * i + I)%nat * Gq vg q i e) * (F q (dim * j + J)%nat * Gq vg q j e')))))) by (intros; apply sm_swap).
      rewrite (sm_swap dim dim). apply sm_ext; intros J HJ.
      transitivity (tens2 dim (S0 q (f0 q)) I J * Gq vg0 q I e * Gq vg0 q J e').
      2: { f_equal. f_equal. unfold sym2, tens2. destruct cache'; auto. symmetry. apply K0; auto. apply t4_bound; auto. }
      unfold Gq at 3 4. rewrite !G by auto. rewrite Rmult_assoc. rewrite sm_mul. rewrite <- sm_scal. apply sm_ext; intros i Hi. rewrite <- sm_scal. apply sm_ext; intros. unfold Gq. ring.
Qed.
End UL.

(** One cell of a mapping as the C structure used by the terms. *)
Definition geo_of (m : M_map.fmap) (c nq dim ne : nat) (b : FMF) : Geo :=
  mkG b (qp_buf nq dim ne (fun q k => M_map.m_bfg m c q (k / ne)%nat (k mod ne)%nat)) (qp_buf nq 1 1 (fun q _ => M_map.m_det m c q)) (qp_buf nq dim 1 (fun _ _ => 0)).
Lemma geo_shape : forall m c nq dim ne b, nLev b = nq -> nRow b = 1%nat -> nCol b = ne -> shape nq dim ne (geo_of m c nq dim ne b).
Proof. intros. unfold shape, geo_of. cbn. repeat split; auto. Qed.
Lemma geo_bfg : forall m c nq dim ne b q i e, (i < dim)%nat -> (e < ne)%nat -> at_ (bfGM (geo_of m c nq dim ne b)) q i e = M_map.m_bfg m c q i e.
Proof.
  intros m c nq dim ne b q i e Hi He. unfold geo_of. cbn [bfGM]. rewrite qp_buf_at by auto.
  rewrite <- (Nat.div_unique (ne * i + e) ne i e He eq_refl), <- (Nat.mod_unique (ne * i + e) ne i e He eq_refl). reflexivity.
Qed.
Lemma det_mul : forall dim (A : nat -> nat -> R) (F : nat -> R), dim_ok dim ->
  M_map.detm dim (fun i k => sm dim (fun l => A i l * F (dim * k + l)%nat)) = M_map.detm dim A * geme_det3x3 dim F.
Proof. intros dim A F [-> | [-> | ->]]; cbn -[Rplus Rmult Rminus Ropp IZR]; ring. Qed.
Lemma detm_ext : forall dim A B, dim_ok dim -> (forall i k, (i < dim)%nat -> (k < dim)%nat -> A i k = B i k) -> M_map.detm dim A = M_map.detm dim B.
Proof. intros dim A B D H. destruct D as [-> | [-> | ->]]; unfold M_map.detm; rewrite !H by lia; reflexivity. Qed.

(** Moving the mesh vertices by the displacement and building the mapping again gives the
    moved mapping (the field has the base functions and the nodes of the geometry). *)
Theorem C148_moved_mapping : forall dim n_el n_qp ng X conn bf_g w m0 m u c b,
  M_map.volume_mapping dim n_el n_qp ng X conn bf_g w (fun _ => bf_g) = Ok m0 ->
  M_map.volume_mapping dim n_el n_qp ng (fun n k => X n k + u (dim * n + k)%nat) conn bf_g w (fun _ => bf_g) = Ok m ->
  (c < n_el)%nat -> nLev b = n_qp -> nRow b = 1%nat -> nCol b = ng ->
  let g0 := geo_of m0 c n_qp dim ng b in
  moved n_qp dim ng (Fq g0 (conn c) u) g0 (geo_of m c n_qp dim ng b).
Proof.
  intros dim n_el n_qp ng X conn bf_g w m0 m u c b E0 E1 Hc B1 B2 B3 g0 q Hq.
  destruct (P_map.mapping_ok _ _ _ _ _ _ _ _ _ _ E0) as (Hd & _). assert (D : dim_ok dim) by (unfold dim_ok; lia).
  destruct (proj1 (P_map.C131_volume_mapping _ _ _ _ _ _ _ _ _ _ E0 c Hc) q Hq) as (P0 & Q0 & R0 & U0).
  destruct (proj1 (P_map.C131_volume_mapping _ _ _ _ _ _ _ _ _ _ E1 c Hc) q Hq) as (P1 & Q1 & R1 & U1).
  set (F := Fq g0 (conn c) u q).
  assert (SH : shape n_qp dim ng g0) by (apply geo_shape; auto).
  assert (FE : forall i j, (i < dim)%nat -> (j < dim)%nat -> F (dim * i + j)%nat = (if (i =? j)%nat then 1 else 0) + sm ng (fun e => u (dim * conn c e + i)%nat * M_map.m_bfg m0 c q j e)).
  { intros i j Hi Hj. unfold F. rewrite (@Fq_at n_qp dim ng g0 SH) by auto. f_equal. apply sm_ext. intros e He. unfold Gq, g0. rewrite geo_bfg by auto. reflexivity. }
  set (J0 := P_map.jac ng X conn bf_g c q) in *. 
  set (J1 := P_map.jac ng (fun n k => X n k + u (dim * n + k)%nat) conn bf_g c q) in *.
  assert (JJ : forall i k, (i < dim)%nat -> (k < dim)%nat -> J1 i k = sm dim (fun l => J0 i l * F (dim * k + l)%nat)).
  { intros i k Hi Hk. rewrite (@sm_ext dim _ (fun l => (if (l =? k)%nat then J0 i l else 0) + sm ng (fun e => u (dim * conn c e + k)%nat * (J0 i l * M_map.m_bfg m0 c q l e)))).
    2: { intros l Hl. rewrite FE by auto. rewrite Rmult_plus_distr_l. f_equal. rewrite (Nat.eqb_sym l k). destruct (k =? l)%nat; ring.
         rewrite <- sm_scal. apply sm_ext; intros; ring. }
    rewrite sm_plus, sm_pick by auto. rewrite (sm_swap dim ng).
    unfold J1, P_map.jac. rewrite (@sm_ext ng (fun j => bf_g q i j * _) (fun j => bf_g q i j * X (conn c j) k + bf_g q i j * u (dim * conn c j + k)%nat)) by (intros; ring).
    rewrite sm_plus. f_equal. apply sm_ext. intros e He. rewrite sm_scal. rewrite R0 by auto. ring. }
  assert (DJ : M_map.detm dim J1 = M_map.detm dim J0 * geme_det3x3 dim F).
  { rewrite <- det_mul by auto. apply detm_ext; auto. }
  assert (Fp : 0 < geme_det3x3 dim F) by (rewrite DJ in P1; nra).
  split; [exact Fp|]. split.
  - unfold scal, g0, geo_of. cbn [det]. rewrite !qp_buf_at by lia. rewrite Q0, Q1, DJ. cbn [detF finite_strain]. ring.
  - intros I e HI He. unfold g0. rewrite geo_bfg by auto.
    rewrite (@sm_ext dim _ (fun i => F (dim * i + I)%nat * M_map.m_bfg m c q i e)) by (intros; rewrite geo_bfg by auto; reflexivity).
    apply (U0 (fun I => sm dim (fun i => F (dim * i + I)%nat * M_map.m_bfg m c q i e)) e); auto.
    intros i Hi. rewrite <- (R1 i e Hi).
    rewrite (@sm_ext dim _ (fun k => sm dim (fun j => J0 i k * F (dim * j + k)%nat * M_map.m_bfg m c q j e))).
    2: { intros k Hk. rewrite <- sm_scal. apply sm_ext; intros; ring. }
    rewrite (sm_swap dim dim). apply sm_ext. intros k Hk. rewrite sm_scalr. rewrite JJ by auto. reflexivity.
Qed.

(** ** The theorems.  A pair of laws with Kirchhoff stress = F S F^T and spatial moduli = the
    push-forward of the material ones (what C144 gives for the laws of sfepy). *)
Definition ul_law (dim : nat) (S0 S1 : Fam -> nat -> R) (D0 D1 : Fam -> nat -> nat -> R) : Prop :=
  forall F, inv_eps < geme_det3x3 dim F * geme_det3x3 dim F -> forall i j k l, (i < dim)%nat -> (j < dim)%nat -> (k < dim)%nat -> (l < dim)%nat ->
  tens2 dim (S1 (finite_strain true dim F)) i j = push2 dim F (tens2 dim (S0 (finite_strain false dim F))) i j /\
  tens4 dim (D1 (finite_strain true dim F)) i j k l = push4 dim F (tens4 dim (D0 (finite_strain false dim F))) i j k l.
Theorem C148_laws : forall dim, dim_ok dim ->
  (forall mu, ul_law dim (stress_neohook false dim mu) (stress_neohook true dim mu) (tan_mod_neohook false dim mu) (tan_mod_neohook true dim mu)) /\
  (forall K, ul_law dim (stress_bulk false dim K) (stress_bulk true dim K) (tan_mod_bulk false dim K) (tan_mod_bulk true dim K)) /\
  (forall p, ul_law dim (stress_bulk_pressure false dim p) (stress_bulk_pressure true dim p) (tan_mod_bulk_pressure false dim p) (tan_mod_bulk_pressure true dim p)).
Proof.
  intros dim D. split; [|split]; intros m F HF i j k l Hi Hj Hk Hl.
  - split; [apply P_hyper3.C144_neohook_stress | apply P_hyper3.C144_neohook_tangent]; auto.
  - split; [apply P_hyper3.C144_bulk_stress | apply P_hyper3.C144_bulk_tangent]; auto.
  - split; [apply P_hyper3.C144_bulk_pressure_stress | apply P_hyper3.C144_bulk_pressure_tangent]; auto.
Qed.

Section UL2.
Variables (nq dim ne : nat) (conn : nat -> nat).
Variables (S0 S1 : nat -> Fam -> nat -> R) (D0 D1 : nat -> Fam -> nat -> nat -> R).
Hypothesis (HD : dim_ok dim).
Hypothesis HL : forall q, (q < nq)%nat -> ul_law dim (S0 q) (S1 q) (D0 q) (D1 q).
Definition positive (vg0 : Geo) (st : nat -> R) : Prop :=
  forall q, (q < nq)%nat -> let J := geme_det3x3 dim (level (def_grad st conn (bfGM vg0)) q) in 0 < J /\ inv_eps < J * J.

(** The same state on both formulations: equal residuals, and equal matrices after them. *)
Theorem ul_tl : forall vg0 vg st cache cache' junk junk' jm jm',
  shape nq dim ne vg0 -> shape nq dim ne vg -> positive vg0 st ->
  moved nq dim ne (fun q => level (def_grad st conn (bfGM vg0)) q) vg0 vg ->
  let r := he_weak_ul dim S1 D1 cache false junk st conn vg0 vg in
  let r' := he_weak dim S0 D0 cache' false junk' st conn vg0 in
  (forall c e, (c < dim)%nat -> (e < ne)%nat -> at_ (fst r) 0 (c * ne + e) 0 = at_ (fst r') 0 (c * ne + e) 0) /\
  (forall c e c' e', (c < dim)%nat -> (e < ne)%nat -> (c' < dim)%nat -> (e' < ne)%nat ->
    at_ (fst (he_weak_ul dim S1 D1 (snd r) true jm st conn vg0 vg)) 0 (c * ne + e) (c' * ne + e')
    = at_ (fst (he_weak dim S0 D0 (snd r') true jm' st conn vg0)) 0 (c * ne + e) (c' * ne + e')).
Proof.
  intros vg0 vg st cache cache' junk junk' jm jm' H0 H1 HJ HM r r'.
  assert (HS : forall q i j, (q < nq)%nat -> (i < dim)%nat -> (j < dim)%nat ->
    tens2 dim (S1 q (finite_strain true dim (Fq vg0 conn st q))) i j = push2 dim (Fq vg0 conn st q) (tens2 dim (S0 q (finite_strain false dim (Fq vg0 conn st q)))) i j).
  { intros q i j Hq Hi Hj. apply (@HL q Hq (Fq vg0 conn st q) (proj2 (HJ q Hq)) i j i j); auto. }
  split.
  - intros c e Hc He. apply (@ul_residual nq dim ne vg0 vg H0 H1 HD conn st HM S0 S1 D0 D1 HS); auto.
  - intros c e c' e' Hc He Hc' He'. apply (@ul_matrix nq dim ne vg0 vg H0 H1 HD conn st HM S0 S1 D0 D1 HS); auto.
    + intros q i j k l Hq Hi Hj Hk Hl. apply (@HL q Hq (Fq vg0 conn st q) (proj2 (HJ q Hq)) i j k l); auto.
    + split; [reflexivity|]. intros q k Hq Hk. unfold r. cbn [snd he_weak_ul]. rewrite qp_buf_level by lia. reflexivity.
    + split; [reflexivity|]. intros q k Hq Hk. unfold r'. cbn [snd he_weak]. rewrite qp_buf_level by lia. reflexivity.
Qed.

(** The matrix of the updated Lagrangian term is the derivative of its residual, the mesh
    moving with the displacement. *)
Theorem ul_tangent : forall vg0 (vg : R -> Geo) u v t0 cache junk jm c e,
  shape nq dim ne vg0 -> (forall t, shape nq dim ne (vg t)) ->
  (forall e c, (e < ne)%nat -> (c < dim)%nat -> is_derive (fun t => u t (dim * conn e + c)%nat) t0 (v (dim * conn e + c)%nat)) ->
  locally t0 (fun t => positive vg0 (u t) /\ moved nq dim ne (fun q => level (def_grad (u t) conn (bfGM vg0)) q) vg0 (vg t)) ->
  (forall q, (q < nq)%nat -> consistent dim (S0 q) (D0 q)) ->
  (c < dim)%nat -> (e < ne)%nat ->
  let residual t := he_weak_ul dim S1 D1 cache false junk (u t) conn vg0 (vg t) in
  let matrix := he_weak_ul dim S1 D1 (snd (residual t0)) true jm (u t0) conn vg0 (vg t0) in
  is_derive (fun t => at_ (fst (residual t)) 0 (c * ne + e) 0) t0
    (sm dim (fun c' => sm ne (fun e' => at_ (fst matrix) 0 (c * ne + e) (c' * ne + e') * v (dim * conn e' + c')%nat))).
Proof.
  intros vg0 vg u v t0 cache junk jm c e H0 H1 Hu HM HC Hc He residual matrix.
  pose proof (locally_singleton _ _ HM) as (HJ0 & HM0).
  destruct (@ul_tl vg0 (vg t0) (u t0) cache cache junk junk jm jm H0 (H1 t0) HJ0 HM0) as (_ & EM).
  rewrite (@sm_ext dim _ (fun c' => sm ne (fun e' => at_ (fst (he_weak dim S0 D0 (snd (he_weak dim S0 D0 cache false junk (u t0) conn vg0)) true jm (u t0) conn vg0)) 0 (c * ne + e) (c' * ne + e') * v (dim * conn e' + c')%nat))).
  2: { intros c' Hc'. apply sm_ext. intros e' He'. f_equal. apply EM; auto. }
  apply is_derive_ext_loc with (f := fun t => at_ (fst (he_weak dim S0 D0 cache false junk (u t) conn vg0)) 0 (c * ne + e) 0).
  - apply filter_imp with (2 := HM). intros t (HJ & HMt). symmetry.
    apply (@ul_tl vg0 (vg t) (u t) cache cache junk junk jm jm H0 (H1 t) HJ HMt); auto.
  - apply (@C145_tangent nq dim ne vg0 conn u v t0 S0 D0 cache junk jm c e); auto.
Qed.
End UL2.

(** C148, for the neo-Hookean and the bulk penalty terms with material parameters per point. *)
Theorem C148_ul_equals_tl : forall nq dim ne conn vg0 vg st (m : nat -> R) cache cache' junk junk' jm jm',
  dim_ok dim -> shape nq dim ne vg0 -> shape nq dim ne vg -> positive nq dim conn vg0 st ->
  moved nq dim ne (fun q => level (def_grad st conn (bfGM vg0)) q) vg0 vg ->
  let same S0 S1 D0 D1 :=
    let r := he_weak_ul dim S1 D1 cache false junk st conn vg0 vg in
    let r' := he_weak dim S0 D0 cache' false junk' st conn vg0 in
    (forall c e, (c < dim)%nat -> (e < ne)%nat -> at_ (fst r) 0 (c * ne + e) 0 = at_ (fst r') 0 (c * ne + e) 0) /\
    (forall c e c' e', (c < dim)%nat -> (e < ne)%nat -> (c' < dim)%nat -> (e' < ne)%nat ->
      at_ (fst (he_weak_ul dim S1 D1 (snd r) true jm st conn vg0 vg)) 0 (c * ne + e) (c' * ne + e')
      = at_ (fst (he_weak dim S0 D0 (snd r') true jm' st conn vg0)) 0 (c * ne + e) (c' * ne + e')) in
  same (fun q => stress_neohook false dim (m q)) (fun q => stress_neohook true dim (m q)) (fun q => tan_mod_neohook false dim (m q)) (fun q => tan_mod_neohook true dim (m q)) /\
  same (fun q => stress_bulk false dim (m q)) (fun q => stress_bulk true dim (m q)) (fun q => tan_mod_bulk false dim (m q)) (fun q => tan_mod_bulk true dim (m q)) /\
  same (fun q => stress_bulk_pressure false dim (m q)) (fun q => stress_bulk_pressure true dim (m q)) (fun q => tan_mod_bulk_pressure false dim (m q)) (fun q => tan_mod_bulk_pressure true dim (m q)).
Proof.
  intros nq dim ne conn vg0 vg st m cache cache' junk junk' jm jm' D H0 H1 HJ HM same.
  destruct (C148_laws dim D) as (L1 & L2 & L3).
  split; [|split]; apply (@ul_tl nq dim ne conn); auto.
Qed.
Theorem C148_ul_tangent : forall nq dim ne conn vg0 (vg : R -> Geo) u v t0 (m : nat -> R) cache junk jm c e,
  dim_ok dim -> shape nq dim ne vg0 -> (forall t, shape nq dim ne (vg t)) ->
  (forall e c, (e < ne)%nat -> (c < dim)%nat -> is_derive (fun t => u t (dim * conn e + c)%nat) t0 (v (dim * conn e + c)%nat)) ->
  locally t0 (fun t => positive nq dim conn vg0 (u t) /\ moved nq dim ne (fun q => level (def_grad (u t) conn (bfGM vg0)) q) vg0 (vg t)) ->
  (c < dim)%nat -> (e < ne)%nat ->
  let tangent S1 D1 :=
    let residual t := he_weak_ul dim S1 D1 cache false junk (u t) conn vg0 (vg t) in
    let matrix := he_weak_ul dim S1 D1 (snd (residual t0)) true jm (u t0) conn vg0 (vg t0) in
    is_derive (fun t => at_ (fst (residual t)) 0 (c * ne + e) 0) t0
      (sm dim (fun c' => sm ne (fun e' => at_ (fst matrix) 0 (c * ne + e) (c' * ne + e') * v (dim * conn e' + c')%nat))) in
  tangent (fun q => stress_neohook true dim (m q)) (fun q => tan_mod_neohook true dim (m q)) /\
  tangent (fun q => stress_bulk true dim (m q)) (fun q => tan_mod_bulk true dim (m q)) /\
  tangent (fun q => stress_bulk_pressure true dim (m q)) (fun q => tan_mod_bulk_pressure true dim (m q)).
Proof.
  intros nq dim ne conn vg0 vg u v t0 m cache junk jm c e D H0 H1 Hu HM Hc He tangent.
  destruct (C148_laws dim D) as (L1 & L2 & L3).
  split; [|split].
  - refine (@ul_tangent nq dim ne conn (fun q => stress_neohook false dim (m q)) (fun q => stress_neohook true dim (m q)) (fun q => tan_mod_neohook false dim (m q)) (fun q => tan_mod_neohook true dim (m q)) D (fun q _ => L1 (m q)) vg0 vg u v t0 cache junk jm c e H0 H1 Hu HM _ Hc He). intros; apply C142_neohook; assumption.
  - refine (@ul_tangent nq dim ne conn (fun q => stress_bulk false dim (m q)) (fun q => stress_bulk true dim (m q)) (fun q => tan_mod_bulk false dim (m q)) (fun q => tan_mod_bulk true dim (m q)) D (fun q _ => L2 (m q)) vg0 vg u v t0 cache junk jm c e H0 H1 Hu HM _ Hc He). intros; apply C142_bulk; assumption.
  - refine (@ul_tangent nq dim ne conn (fun q => stress_bulk_pressure false dim (m q)) (fun q => stress_bulk_pressure true dim (m q)) (fun q => tan_mod_bulk_pressure false dim (m q)) (fun q => tan_mod_bulk_pressure true dim (m q)) D (fun q _ => L3 (m q)) vg0 vg u v t0 cache junk jm c e H0 H1 Hu HM _ Hc He). intros; apply C142_bulk_pressure; assumption.
Qed.

(** ** A concrete case: the triangle (0,0), (1,0), (0,1) whose second vertex moves along (1, 1/2). *)
Definition vgm (t : R) : Geo := mkG (mkF 1 1 3 (fun _ => / 3))
  (mkF 1 2 3 (fun k => nth k [- (2 - t) / (2 * (1 + t)); / (1 + t); - t / (2 * (1 + t)); -1; 0; 1] 0))
  (mkF 1 1 1 (fun _ => (1 + t) / 2)) (mkF 1 1 1 (fun _ => 0)).
Lemma vgm_shape : forall t, shape 1 2 3 (vgm t). Proof. intros. repeat split. Qed.
Lemma F2 : forall t, let f := level (def_grad (u2 t) (fun e => e) (bfGM vg2)) 0 in
  f 0%nat = 1 + t /\ f 1%nat = 0 /\ f 2%nat = t / 2 /\ f 3%nat = 1.
Proof.
  intros t f. assert (P := fun i j => @Fq_at 1 2 3 vg2 vg2_shape (fun e => e) (u2 t) 0 i j ltac:(lia)). unfold Fq in P. fold f in P. clearbody f.
  pose proof (P 0%nat 0%nat ltac:(lia) ltac:(lia)) as P0. pose proof (P 0%nat 1%nat ltac:(lia) ltac:(lia)) as P1.
  pose proof (P 1%nat 0%nat ltac:(lia) ltac:(lia)) as P2. pose proof (P 1%nat 1%nat ltac:(lia) ltac:(lia)) as P3. clear P.
  cbn [Nat.mul Nat.add Nat.eqb sm] in P0, P1, P2, P3. unfold Gq, at_, vg2, u2 in P0, P1, P2, P3. cbn in P0, P1, P2, P3.
  rewrite P0, P1, P2, P3. repeat split; lra.
Qed.
Lemma vgm_moved : forall t, 0 < t -> positive 1 2 (fun e => e) vg2 (u2 t) /\
  moved 1 2 3 (fun q => level (def_grad (u2 t) (fun e => e) (bfGM vg2)) q) vg2 (vgm t).
Proof.
  intros t Ht. pose proof eps_lt1. destruct (F2 t) as (A0 & A1 & A2 & A3). cbv zeta in *.
  split; intros q Hq; replace q with 0%nat by lia; set (f := level _ 0) in *; clearbody f.
  - cbv zeta. assert (J : geme_det3x3 2 f = 1 + t) by (transitivity (f 0%nat * f 3%nat - f 1%nat * f 2%nat); [cbn; ring | rewrite A0, A1, A2, A3; ring]).
    rewrite J. nra.
  - assert (J : detF (finite_strain false 2 f) = 1 + t).
    { transitivity (f 0%nat * f 3%nat - f 1%nat * f 2%nat); [cbn; ring | rewrite A0, A1, A2, A3; ring]. }
    rewrite J. split; [lra|]. split.
    + unfold scal, at_, vg2, vgm. cbn. lra.
    + intros I e HI He. do 2 (try destruct I as [|I]); try (exfalso; lia); do 3 (try destruct e as [|e]); try (exfalso; lia);
        unfold at_, vg2, vgm; cbn -[Rplus Rmult Ropp Rinv Rminus Rdiv IZR]; rewrite ?A0, ?A1, ?A2, ?A3; field; lra.
Qed.
Example C148_example : forall junk jm c e, (c < 2)%nat -> (e < 3)%nat ->
  let St := fun _ : nat => stress_neohook true 2 5 in let Dt := fun _ : nat => tan_mod_neohook true 2 5 in
  let residual t := he_weak_ul 2 St Dt None false junk (u2 t) (fun e => e) vg2 (vgm t) in
  let matrix := he_weak_ul 2 St Dt (snd (residual 1)) true jm (u2 1) (fun e => e) vg2 (vgm 1) in
  is_derive (fun t => at_ (fst (residual t)) 0 (c * 3 + e) 0) 1
    (sm 2 (fun c' => sm 3 (fun e' => at_ (fst matrix) 0 (c * 3 + e) (c' * 3 + e') * v2 (2 * e' + c')%nat))).
Proof.
  intros junk jm c e Hc He.
  assert (D2 : dim_ok 2) by (right; left; auto).
  refine (proj1 (@C148_ul_tangent 1 2 3 (fun e => e) vg2 vgm u2 v2 1 (fun _ => 5) None junk jm c e D2 vg2_shape vgm_shape vg2_path _ Hc He)).
  exists posreal_one. intros t Ht. apply vgm_moved. unfold ball in Ht. cbn in Ht. unfold AbsRing_ball, abs, minus, plus, opp in Ht. cbn in Ht.
  apply Rabs_def2 in Ht. lra.
Qed.
Print Assumptions C148_moved_mapping.
Print Assumptions C148_ul_equals_tl.
Print Assumptions C148_ul_tangent.
