(** The evaluated variables in terms of the finite element functions; linearity of the forms. *)
From Coq Require Import Reals Lra Lia Arith.
From Verif Require Import Base M_fmf M_terms L_fmf S_terms L_terms.
Open Scope nat_scope.

(** Shapes. *)
Lemma nLev_mulC : forall o v, nLev (mulC o v) = nLev o. Proof. intros; reflexivity. Qed.
Lemma nRow_mulC : forall o v, nRow (mulC o v) = nRow o. Proof. intros; reflexivity. Qed.
Lemma nCol_mulC : forall o v, nCol (mulC o v) = nCol o. Proof. intros; reflexivity. Qed.
Lemma nLev_mul_ : forall o v, nLev (mul_ o v) = nLev o. Proof. intros; reflexivity. Qed.
Lemma nRow_mul_ : forall o v, nRow (mul_ o v) = nRow o. Proof. intros; reflexivity. Qed.
Lemma nCol_mul_ : forall o v, nCol (mul_ o v) = nCol o. Proof. intros; reflexivity. Qed.
Lemma nLev_mulATC : forall r a v, nLev (mulATC r a v) = nLev r. Proof. intros; reflexivity. Qed.
Lemma nRow_mulATC : forall r a v, nRow (mulATC r a v) = nRow r. Proof. intros; reflexivity. Qed.
Lemma nCol_mulATC : forall r a v, nCol (mulATC r a v) = nCol r. Proof. intros; reflexivity. Qed.
Lemma nLev_mulAF : forall r a v, nLev (mulAF r a v) = nLev r. Proof. intros; reflexivity. Qed.
Lemma nRow_mulAF : forall r a v, nRow (mulAF r a v) = nRow r. Proof. intros; reflexivity. Qed.
Lemma nCol_mulAF : forall r a v, nCol (mulAF r a v) = nCol r. Proof. intros; reflexivity. Qed.
Lemma nLev_mulAB_nn : forall r a b, nLev (mulAB_nn r a b) = nLev r. Proof. intros; reflexivity. Qed.
Lemma nRow_mulAB_nn : forall r a b, nRow (mulAB_nn r a b) = nRow r. Proof. intros; reflexivity. Qed.
Lemma nCol_mulAB_nn : forall r a b, nCol (mulAB_nn r a b) = nCol r. Proof. intros; reflexivity. Qed.
Lemma nLev_mulAB_n1 : forall r a b, nLev (mulAB_n1 r a b) = nLev r. Proof. intros; reflexivity. Qed.
Lemma nRow_mulAB_n1 : forall r a b, nRow (mulAB_n1 r a b) = nRow r. Proof. intros; reflexivity. Qed.
Lemma nCol_mulAB_n1 : forall r a b, nCol (mulAB_n1 r a b) = nCol r. Proof. intros; reflexivity. Qed.
Lemma nLev_mulATB_nn : forall r a b, nLev (mulATB_nn r a b) = nLev r. Proof. intros; reflexivity. Qed.
Lemma nRow_mulATB_nn : forall r a b, nRow (mulATB_nn r a b) = nRow r. Proof. intros; reflexivity. Qed.
Lemma nCol_mulATB_nn : forall r a b, nCol (mulATB_nn r a b) = nCol r. Proof. intros; reflexivity. Qed.
Lemma nLev_mulATBT_nn : forall r a b, nLev (mulATBT_nn r a b) = nLev r. Proof. intros; reflexivity. Qed.
Lemma nRow_mulATBT_nn : forall r a b, nRow (mulATBT_nn r a b) = nRow r. Proof. intros; reflexivity. Qed.
Lemma nCol_mulATBT_nn : forall r a b, nCol (mulATBT_nn r a b) = nCol r. Proof. intros; reflexivity. Qed.
Lemma nLev_addAB_nn : forall r a b, nLev (addAB_nn r a b) = nLev r. Proof. intros; reflexivity. Qed.
Lemma nRow_addAB_nn : forall r a b, nRow (addAB_nn r a b) = nRow r. Proof. intros; reflexivity. Qed.
Lemma nCol_addAB_nn : forall r a b, nCol (addAB_nn r a b) = nCol r. Proof. intros; reflexivity. Qed.
Lemma nLev_sumLevelsMulF : forall r a v, nLev (sumLevelsMulF r a v) = nLev r. Proof. intros; reflexivity. Qed.
Lemma nRow_sumLevelsMulF : forall r a v, nRow (sumLevelsMulF r a v) = nRow r. Proof. intros; reflexivity. Qed.
Lemma nCol_sumLevelsMulF : forall r a v, nCol (sumLevelsMulF r a v) = nCol r. Proof. intros; reflexivity. Qed.
Lemma nLev_bf_act : forall r a b, nLev (bf_act r a b) = nLev r. Proof. intros; reflexivity. Qed.
Lemma nRow_bf_act : forall r a b, nRow (bf_act r a b) = nRow r. Proof. intros; reflexivity. Qed.
Lemma nCol_bf_act : forall r a b, nCol (bf_act r a b) = nCol r. Proof. intros; reflexivity. Qed.
Lemma nLev_bf_ract : forall r a b, nLev (bf_ract r a b) = nLev r. Proof. intros; reflexivity. Qed.
Lemma nRow_bf_ract : forall r a b, nRow (bf_ract r a b) = nRow r. Proof. intros; reflexivity. Qed.
Lemma nCol_bf_ract : forall r a b, nCol (bf_ract r a b) = nCol r. Proof. intros; reflexivity. Qed.
Lemma nLev_bf_actt : forall r a b, nLev (bf_actt r a b) = nLev r. Proof. intros; reflexivity. Qed.
Lemma nRow_bf_actt : forall r a b, nRow (bf_actt r a b) = nRow r. Proof. intros; reflexivity. Qed.
Lemma nCol_bf_actt : forall r a b, nCol (bf_actt r a b) = nCol r. Proof. intros; reflexivity. Qed.
Lemma nLev_bf_actt_c1 : forall r a b, nLev (bf_actt_c1 r a b) = nLev r. Proof. intros; reflexivity. Qed.
Lemma nRow_bf_actt_c1 : forall r a b, nRow (bf_actt_c1 r a b) = nRow r. Proof. intros; reflexivity. Qed.
Lemma nCol_bf_actt_c1 : forall r a b, nCol (bf_actt_c1 r a b) = nCol r. Proof. intros; reflexivity. Qed.
Lemma nLev_bf_buildFTF : forall r a, nLev (bf_buildFTF r a) = nLev r. Proof. intros; reflexivity. Qed.
Lemma nRow_bf_buildFTF : forall r a, nRow (bf_buildFTF r a) = nRow r. Proof. intros; reflexivity. Qed.
Lemma nCol_bf_buildFTF : forall r a, nCol (bf_buildFTF r a) = nCol r. Proof. intros; reflexivity. Qed.
Lemma nLev_extractNBN : forall r a b, nLev (extractNBN r a b) = nLev r. Proof. intros; reflexivity. Qed.
Lemma nRow_extractNBN : forall r a b, nRow (extractNBN r a b) = nRow r. Proof. intros; reflexivity. Qed.
Lemma nCol_extractNBN : forall r a b, nCol (extractNBN r a b) = nCol r. Proof. intros; reflexivity. Qed.
Lemma nLev_extractDBD : forall r a b, nLev (extractDBD r a b) = nLev r. Proof. intros; reflexivity. Qed.
Lemma nRow_extractDBD : forall r a b, nRow (extractDBD r a b) = nRow r. Proof. intros; reflexivity. Qed.
Lemma nCol_extractDBD : forall r a b, nCol (extractDBD r a b) = nCol r. Proof. intros; reflexivity. Qed.
Lemma nLev_fill0 : forall r, nLev (fill0 r) = nLev r. Proof. intros; reflexivity. Qed.
Lemma nRow_fill0 : forall r, nRow (fill0 r) = nRow r. Proof. intros; reflexivity. Qed.
Lemma nCol_fill0 : forall r, nCol (fill0 r) = nCol r. Proof. intros; reflexivity. Qed.
Lemma nLev_laplace_build_gtg : forall r g, nLev (laplace_build_gtg r g) = nLev r. Proof. intros; unfold laplace_build_gtg; cbv zeta; destruct (nRow g) as [|[|[|[|?]]]]; reflexivity. Qed.
Lemma nRow_laplace_build_gtg : forall r g, nRow (laplace_build_gtg r g) = nRow r. Proof. intros; unfold laplace_build_gtg; cbv zeta; destruct (nRow g) as [|[|[|[|?]]]]; reflexivity. Qed.
Lemma nCol_laplace_build_gtg : forall r g, nCol (laplace_build_gtg r g) = nCol r. Proof. intros; unfold laplace_build_gtg; cbv zeta; destruct (nRow g) as [|[|[|[|?]]]]; reflexivity. Qed.
Lemma nLev_laplace_act_gt_m : forall r g m, nLev (laplace_act_gt_m r g m) = nLev r. Proof. intros; unfold laplace_act_gt_m; cbv zeta; destruct (nRow g) as [|[|[|[|?]]]]; reflexivity. Qed.
Lemma nRow_laplace_act_gt_m : forall r g m, nRow (laplace_act_gt_m r g m) = nRow r. Proof. intros; unfold laplace_act_gt_m; cbv zeta; destruct (nRow g) as [|[|[|[|?]]]]; reflexivity. Qed.
Lemma nCol_laplace_act_gt_m : forall r g m, nCol (laplace_act_gt_m r g m) = nCol r. Proof. intros; unfold laplace_act_gt_m; cbv zeta; destruct (nRow g) as [|[|[|[|?]]]]; reflexivity. Qed.
Lemma nLev_strainCauchy_VS : forall r g, nLev (strainCauchy_VS r g) = nLev r. Proof. intros; unfold strainCauchy_VS; cbv zeta; destruct (nRow g) as [|[|[|[|?]]]]; reflexivity. Qed.
Lemma nRow_strainCauchy_VS : forall r g, nRow (strainCauchy_VS r g) = nRow r. Proof. intros; unfold strainCauchy_VS; cbv zeta; destruct (nRow g) as [|[|[|[|?]]]]; reflexivity. Qed.
Lemma nCol_strainCauchy_VS : forall r g, nCol (strainCauchy_VS r g) = nCol r. Proof. intros; unfold strainCauchy_VS; cbv zeta; destruct (nRow g) as [|[|[|[|?]]]]; reflexivity. Qed.
Lemma nLev_actOpGT_VS3 : forall r g m, nLev (actOpGT_VS3 r g m) = nLev r. Proof. intros; unfold actOpGT_VS3; cbv zeta; destruct (nRow g) as [|[|[|[|?]]]]; reflexivity. Qed.
Lemma nRow_actOpGT_VS3 : forall r g m, nRow (actOpGT_VS3 r g m) = nRow r. Proof. intros; unfold actOpGT_VS3; cbv zeta; destruct (nRow g) as [|[|[|[|?]]]]; reflexivity. Qed.
Lemma nCol_actOpGT_VS3 : forall r g m, nCol (actOpGT_VS3 r g m) = nCol r. Proof. intros; unfold actOpGT_VS3; cbv zeta; destruct (nRow g) as [|[|[|[|?]]]]; reflexivity. Qed.
Lemma nLev_actOpGT_M3 : forall r g m, nLev (actOpGT_M3 r g m) = nLev r. Proof. intros; unfold actOpGT_M3; cbv zeta; destruct (nRow g) as [|[|[|[|?]]]]; reflexivity. Qed.
Lemma nRow_actOpGT_M3 : forall r g m, nRow (actOpGT_M3 r g m) = nRow r. Proof. intros; unfold actOpGT_M3; cbv zeta; destruct (nRow g) as [|[|[|[|?]]]]; reflexivity. Qed.
Lemma nCol_actOpGT_M3 : forall r g m, nCol (actOpGT_M3 r g m) = nCol r. Proof. intros; unfold actOpGT_M3; cbv zeta; destruct (nRow g) as [|[|[|[|?]]]]; reflexivity. Qed.
Lemma nLev_actOpG_RM3 : forall r m g, nLev (actOpG_RM3 r m g) = nLev r. Proof. intros; unfold actOpG_RM3; cbv zeta; destruct (nRow g) as [|[|[|[|?]]]]; reflexivity. Qed.
Lemma nRow_actOpG_RM3 : forall r m g, nRow (actOpG_RM3 r m g) = nRow r. Proof. intros; unfold actOpG_RM3; cbv zeta; destruct (nRow g) as [|[|[|[|?]]]]; reflexivity. Qed.
Lemma nCol_actOpG_RM3 : forall r m g, nCol (actOpG_RM3 r m g) = nCol r. Proof. intros; unfold actOpG_RM3; cbv zeta; destruct (nRow g) as [|[|[|[|?]]]]; reflexivity. Qed.
Lemma nLev_divgrad_build_gtg : forall r g m, nLev (divgrad_build_gtg r g m) = nLev r. Proof. intros; unfold divgrad_build_gtg; cbv zeta; destruct (nRow g) as [|[|[|[|?]]]]; reflexivity. Qed.
Lemma nRow_divgrad_build_gtg : forall r g m, nRow (divgrad_build_gtg r g m) = nRow r. Proof. intros; unfold divgrad_build_gtg; cbv zeta; destruct (nRow g) as [|[|[|[|?]]]]; reflexivity. Qed.
Lemma nCol_divgrad_build_gtg : forall r g m, nCol (divgrad_build_gtg r g m) = nCol r. Proof. intros; unfold divgrad_build_gtg; cbv zeta; destruct (nRow g) as [|[|[|[|?]]]]; reflexivity. Qed.
Lemma nLev_divgrad_act_gt_m : forall r g m, nLev (divgrad_act_gt_m r g m) = nLev r. Proof. intros; unfold divgrad_act_gt_m; cbv zeta; destruct (nRow g) as [|[|[|[|?]]]]; reflexivity. Qed.
Lemma nRow_divgrad_act_gt_m : forall r g m, nRow (divgrad_act_gt_m r g m) = nRow r. Proof. intros; unfold divgrad_act_gt_m; cbv zeta; destruct (nRow g) as [|[|[|[|?]]]]; reflexivity. Qed.
Lemma nCol_divgrad_act_gt_m : forall r g m, nCol (divgrad_act_gt_m r g m) = nCol r. Proof. intros; unfold divgrad_act_gt_m; cbv zeta; destruct (nRow g) as [|[|[|[|?]]]]; reflexivity. Qed.
Lemma nLev_convect_build_vtg : forall r g m, nLev (convect_build_vtg r g m) = nLev r. Proof. intros; unfold convect_build_vtg; cbv zeta; destruct (nRow g) as [|[|[|[|?]]]]; reflexivity. Qed.
Lemma nRow_convect_build_vtg : forall r g m, nRow (convect_build_vtg r g m) = nRow r. Proof. intros; unfold convect_build_vtg; cbv zeta; destruct (nRow g) as [|[|[|[|?]]]]; reflexivity. Qed.
Lemma nCol_convect_build_vtg : forall r g m, nCol (convect_build_vtg r g m) = nCol r. Proof. intros; unfold convect_build_vtg; cbv zeta; destruct (nRow g) as [|[|[|[|?]]]]; reflexivity. Qed.
Lemma nLev_op_nonsym_biot : forall r m g, nLev (op_nonsym_biot r m g) = nLev r. Proof. intros; unfold op_nonsym_biot; cbv zeta; destruct (nRow g) as [|[|[|[|?]]]]; reflexivity. Qed.
Lemma nRow_op_nonsym_biot : forall r m g, nRow (op_nonsym_biot r m g) = nRow r. Proof. intros; unfold op_nonsym_biot; cbv zeta; destruct (nRow g) as [|[|[|[|?]]]]; reflexivity. Qed.
Lemma nCol_op_nonsym_biot : forall r m g, nCol (op_nonsym_biot r m g) = nCol r. Proof. intros; unfold op_nonsym_biot; cbv zeta; destruct (nRow g) as [|[|[|[|?]]]]; reflexivity. Qed.
Lemma nLev_alloc : forall l r c, nLev (alloc l r c) = l. Proof. reflexivity. Qed.
Lemma nLev_emp : forall l r c x, nLev (emp l r c x) = l. Proof. reflexivity. Qed.
Lemma nLev_pretend : forall l r c x, nLev (pretend l r c x) = l. Proof. reflexivity. Qed.
Lemma nRow_alloc : forall l r c, nRow (alloc l r c) = r. Proof. reflexivity. Qed.
Lemma nRow_emp : forall l r c x, nRow (emp l r c x) = r. Proof. reflexivity. Qed.
Lemma nRow_pretend : forall l r c x, nRow (pretend l r c x) = r. Proof. reflexivity. Qed.
Lemma nCol_alloc : forall l r c, nCol (alloc l r c) = c. Proof. reflexivity. Qed.
Lemma nCol_emp : forall l r c x, nCol (emp l r c x) = c. Proof. reflexivity. Qed.
Lemma nCol_pretend : forall l r c x, nCol (pretend l r c x) = c. Proof. reflexivity. Qed.
#[global] Hint Rewrite @nLev_mulC @nRow_mulC @nCol_mulC @nLev_mul_ @nRow_mul_ @nCol_mul_ @nLev_mulATC @nRow_mulATC @nCol_mulATC @nLev_mulAF @nRow_mulAF @nCol_mulAF @nLev_mulAB_nn @nRow_mulAB_nn @nCol_mulAB_nn @nLev_mulAB_n1 @nRow_mulAB_n1 @nCol_mulAB_n1 @nLev_mulATB_nn @nRow_mulATB_nn @nCol_mulATB_nn @nLev_mulATBT_nn @nRow_mulATBT_nn @nCol_mulATBT_nn @nLev_addAB_nn @nRow_addAB_nn @nCol_addAB_nn @nLev_sumLevelsMulF @nRow_sumLevelsMulF @nCol_sumLevelsMulF @nLev_bf_act @nRow_bf_act @nCol_bf_act @nLev_bf_ract @nRow_bf_ract @nCol_bf_ract @nLev_bf_actt @nRow_bf_actt @nCol_bf_actt @nLev_bf_actt_c1 @nRow_bf_actt_c1 @nCol_bf_actt_c1 @nLev_bf_buildFTF @nRow_bf_buildFTF @nCol_bf_buildFTF @nLev_extractNBN @nRow_extractNBN @nCol_extractNBN @nLev_extractDBD @nRow_extractDBD @nCol_extractDBD @nLev_fill0 @nRow_fill0 @nCol_fill0 @nLev_laplace_build_gtg @nRow_laplace_build_gtg @nCol_laplace_build_gtg @nLev_laplace_act_gt_m @nRow_laplace_act_gt_m @nCol_laplace_act_gt_m @nLev_strainCauchy_VS @nRow_strainCauchy_VS @nCol_strainCauchy_VS @nLev_actOpGT_VS3 @nRow_actOpGT_VS3 @nCol_actOpGT_VS3 @nLev_actOpGT_M3 @nRow_actOpGT_M3 @nCol_actOpGT_M3 @nLev_actOpG_RM3 @nRow_actOpG_RM3 @nCol_actOpG_RM3 @nLev_divgrad_build_gtg @nRow_divgrad_build_gtg @nCol_divgrad_build_gtg @nLev_divgrad_act_gt_m @nRow_divgrad_act_gt_m @nCol_divgrad_act_gt_m @nLev_convect_build_vtg @nRow_convect_build_vtg @nCol_convect_build_vtg @nLev_op_nonsym_biot @nRow_op_nonsym_biot @nCol_op_nonsym_biot @nLev_alloc @nLev_emp @nLev_pretend @nRow_alloc @nRow_emp @nRow_pretend @nCol_alloc @nCol_emp @nCol_pretend : shp.

(** A mapping of a cell with [nq] quadrature points and [ne] base functions in [dim] dimensions. *)
Definition shape (nq dim ne : nat) (vg : Geo) : Prop :=
  nLev (bf vg) = nq /\ nRow (bf vg) = 1 /\ nCol (bf vg) = ne /\
  nLev (bfGM vg) = nq /\ nRow (bfGM vg) = dim /\ nCol (bfGM vg) = ne /\
  nLev (det vg) = nq /\ nRow (det vg) = 1 /\ nCol (det vg) = 1.
(** A material array: [nq] matrices. *)
Definition mshape (nq r c : nat) (m : FMF) : Prop := nLev m = nq /\ nRow m = r /\ nCol m = c.

Lemma s11 : forall o q, nRow o = 1 -> nCol o = 1 -> val o q = scal o q.
Proof. intros o q a b. unfold scal, at_, ptr_level. rewrite a, b. f_equal. lia. Qed.

Lemma fgrad_unit : forall dp ne q c e c' d, e < ne -> fgrad dp ne (unit_ c e) q c' d = if c' =? c then dp q d e else 0%R.
Proof.
  intros. unfold fgrad, unit_. destruct (c' =? c); cbn.
  - transitivity (sm ne (fun k => if k =? e then dp q d k else 0)%R). apply sm_ext; intros; destruct (_ =? _); lra. apply sm_pick; auto.
  - apply sm_0. intros; lra.
Qed.
Lemma fval_unit : forall ph ne q c e c', e < ne -> fval ph ne (unit_ c e) q c' = if c' =? c then ph q e else 0%R.
Proof.
  intros. unfold fval, unit_. destruct (c' =? c); cbn.
  - transitivity (sm ne (fun k => if k =? e then ph q k else 0)%R). apply sm_ext; intros; destruct (_ =? _); lra. apply sm_pick; auto.
  - apply sm_0. intros; lra.
Qed.
Lemma fdiv_unit : forall dp ne dim q c e, e < ne -> c < dim -> fdiv dp ne dim (unit_ c e) q = dp q c e.
Proof.
  intros. unfold fdiv. transitivity (sm dim (fun k => if k =? c then dp q k e else 0)%R).
  apply sm_ext; intros. rewrite fgrad_unit by auto. auto. apply (@sm_pick dim c (fun k => dp q k e)); auto.
Qed.

(** discrete/evaluate_variable.py: the four evaluation modes. *)
Lemma ev_grad_at : forall nc junk st vg conn q d c, q < nLev (bfGM vg) -> d < nRow (bfGM vg) -> c < nc ->
  at_ (ev_grad nc junk st vg conn) q d c = fgrad (DPHI (bfGM vg)) (nCol (bfGM vg)) (sub nc st conn) q c d.
Proof.
  intros. unfold ev_grad, dq_grad. rewrite mulAB_n1_at; cbn [emp nLev nRow nCol]; auto.
  unfold fgrad. apply sm_ext; intros. rewrite extractNBN_at; dims; auto.
Qed.
Lemma ev_val_at : forall nc junk st b conn q c, nRow b = 1 -> q < nLev b -> c < nc ->
  at_ (ev_val nc junk st b conn) q c 0 = fval (PHI b) (nCol b) (sub nc st conn) q c.
Proof.
  intros. unfold ev_val, dq_state_in_qp. rewrite bf_act_at; cbn [emp nLev nRow nCol extractDBD stores alloc]; auto.
  unfold fval. apply sm_ext; intros. rewrite extractDBD_at; dims; auto.
Qed.
Lemma pretend_row_at : forall (o : FMF) q k, 0 < nCol o -> k < nRow o * nCol o -> at_ (pretend (nLev o) 1 (nCol o * nRow o) o) q 0 k = at_ o q (k / nCol o) (k mod nCol o).
Proof.
  intros. unfold at_, ptr_level, pretend. cbn. f_equal. pose proof (Nat.div_mod k (nCol o)). nia.
Qed.
Lemma ev_div_at : forall junk st vg conn q, 0 < nCol (bfGM vg) -> q < nLev (bfGM vg) ->
  at_ (ev_div junk st vg conn) q 0 0 = fdiv (DPHI (bfGM vg)) (nCol (bfGM vg)) (nRow (bfGM vg)) (sub (nRow (bfGM vg)) st conn) q.
Proof.
  intros. unfold ev_div, dq_div_vector. cbv zeta. rewrite mulAB_n1_at; cbn [emp nLev nRow nCol]; auto.
  cbn [pretend nCol]. rewrite (Nat.mul_comm (nCol (bfGM vg))), sm_blocks. unfold fdiv. apply sm_ext; intros c C. unfold fgrad. apply sm_ext; intros e E.
  assert (c * nCol (bfGM vg) + e < nRow (bfGM vg) * nCol (bfGM vg)) by (pose proof (@idx_lt _ _ _ _ C E); lia).
  f_equal.
  - rewrite Nat.mul_comm, pretend_row_at by auto. dm. reflexivity.
  - unfold sub.
    transitivity (at_ (extractDBD (alloc 1 (nRow (bfGM vg)) (nCol (bfGM vg))) st conn) 0 c e); [|rewrite extractDBD_at; auto].
    unfold at_, ptr_level, extractDBD. cbn [nRow nCol stores alloc pretend val]. f_equal. lia.
Qed.
Lemma voigt_comm : forall dim i j, dim_ok dim -> i < dim -> j < dim -> voigt dim i j = voigt dim j i.
Proof.
  intros dim i j D Hi Hj. unfold voigt. destruct (Nat.eqb_spec i j) as [->|n]. rewrite Nat.eqb_refl; auto.
  destruct (Nat.eqb_spec j i); [lia|]. destruct D as [-> | [-> | ->]]; auto. lia.
Qed.
Lemma ev_strain_at : forall junk st vg conn q i j, dim_ok (nRow (bfGM vg)) -> q < nLev (bfGM vg) -> i < nRow (bfGM vg) -> j < nRow (bfGM vg) ->
  at_ (ev_strain junk st vg conn) q (voigt (nRow (bfGM vg)) i j) 0
  = ((if i =? j then 1 else 2) * fstrain (DPHI (bfGM vg)) (nCol (bfGM vg)) (sub (nRow (bfGM vg)) st conn) q i j)%R.
Proof.
  intros junk st vg conn q i j D Hq Hi Hj. set (dim := nRow (bfGM vg)) in *.
  assert (L : forall i j, i <= j -> j < dim -> at_ (ev_strain junk st vg conn) q (voigt dim i j) 0
     = ((if i =? j then 1 else 2) * fstrain (DPHI (bfGM vg)) (nCol (bfGM vg)) (sub dim st conn) q i j)%R).
  { clear i j Hi Hj. intros i j Hij Hj. unfold ev_strain, dq_cauchy_strain. cbv zeta. fold dim.
    set (dg := mulAB_n1 (alloc (nLev (bfGM vg)) dim dim) (bfGM vg) (extractNBN (alloc 1 (nCol (bfGM vg)) dim) st conn)).
    assert (E1 : nRow dg = dim) by reflexivity. assert (E2 : nCol dg = dim) by reflexivity. assert (E3 : nLev dg = nLev (bfGM vg)) by reflexivity.
    pose proof (@strain_at (emp (nLev (bfGM vg)) ((dim + 1) * dim / 2) 1 junk) dg q i j) as P.
    rewrite E1, E2, E3 in P. rewrite P; auto; clear P.
    assert (A : forall a b, a < dim -> b < dim -> at_ dg q a b
       = fgrad (DPHI (bfGM vg)) (nCol (bfGM vg)) (sub dim st conn) q b a).
    { intros. unfold dg. rewrite mulAB_n1_at; dims; auto. unfold fgrad. apply sm_ext; intros. rewrite extractNBN_at; dims; auto. }
    rewrite !A by lia. unfold fstrain. destruct (Nat.eqb_spec i j) as [->|]; lra. }
  destruct (le_lt_dec i j). apply L; auto. rewrite voigt_comm by auto. rewrite L by lia. rewrite (Nat.eqb_sym j i).
  f_equal. unfold fstrain. lra.
Qed.

(** Linear functionals of nodal values. *)
Definition lin (n m : nat) (F : (nat -> nat -> R) -> R) : Prop :=
  (forall u v, (forall c e, c < n -> e < m -> u c e = v c e) -> F u = F v) /\
  (forall u v, F (fun c e => u c e + v c e)%R = (F u + F v)%R) /\
  (forall a u, F (fun c e => a * u c e)%R = (a * F u)%R).
Lemma lin_sm : forall n m k F, (forall i, i < k -> lin n m (F i)) -> lin n m (fun u => sm k (fun i => F i u)).
Proof.
  intros n m k F H. split; [|split].
  - intros. apply sm_ext; intros i Hi. destruct (H i Hi) as (E & _). auto.
  - intros. rewrite <- sm_plus. apply sm_ext; intros i Hi. destruct (H i Hi) as (_ & E & _). auto.
  - intros. rewrite <- sm_scal. apply sm_ext; intros i Hi. destruct (H i Hi) as (_ & _ & E). auto.
Qed.
Lemma lin_mull : forall n m F a, lin n m F -> lin n m (fun u => a * F u)%R.
Proof. intros n m F a (A & B & C). split; [|split]; intros. rewrite (A u v); auto. rewrite B; lra. rewrite C; lra. Qed.
Lemma lin_mulr : forall n m F a, lin n m F -> lin n m (fun u => F u * a)%R.
Proof. intros n m F a (A & B & C). split; [|split]; intros. rewrite (A u v); auto. rewrite B; lra. rewrite C; lra. Qed.
Lemma lin_plus : forall n m F G, lin n m F -> lin n m G -> lin n m (fun u => F u + G u)%R.
Proof. intros n m F G (A & B & C) (A' & B' & C'). split; [|split]; intros. rewrite (A u v), (A' u v); auto. rewrite B, B'; lra. rewrite C, C'; lra. Qed.
Lemma lin_div : forall n m F a, lin n m F -> lin n m (fun u => F u / a)%R.
Proof. intros. unfold Rdiv. apply lin_mulr; auto. Qed.
Lemma lin_at : forall n m c e, c < n -> e < m -> lin n m (fun u => u c e).
Proof. intros. split; [|split]; intros; auto. Qed.
Lemma lin_fgrad : forall dp n m q c d, c < n -> lin n m (fun u => fgrad dp m u q c d).
Proof. intros. apply lin_sm; intros. apply lin_mull, lin_at; auto. Qed.
Lemma lin_fval : forall ph n m q c, c < n -> lin n m (fun u => fval ph m u q c).
Proof. intros. apply lin_sm; intros. apply lin_mull, lin_at; auto. Qed.
Lemma lin_fdiv : forall dp n m q, lin n m (fun u => fdiv dp m n u q).
Proof. intros. apply lin_sm; intros. apply lin_fgrad; auto. Qed.
Lemma lin_fstrain : forall dp n m q i j, i < n -> j < n -> lin n m (fun u => fstrain dp m u q i j).
Proof. intros. apply lin_div, lin_plus; apply lin_fgrad; auto. Qed.

Lemma lin_zero : forall n m F, lin n m F -> F (fun _ _ => 0%R) = 0%R.
Proof.
  intros n m F (A & B & C). rewrite (A _ (fun c e => 0 * (fun _ _ => 0) c e)%R). rewrite C; lra. intros; cbn; lra.
Qed.
(** A linear functional is determined by the base functions. *)
Lemma lin_expand : forall n m F u, lin n m F -> F u = sm n (fun c => sm m (fun e => F (unit_ c e) * u c e)%R).
Proof.
  intros n m F u L. pose proof (@lin_zero _ _ _ L) as Z. destruct L as (A & B & C).
  assert (S1 : forall k G, F (fun c e => sm k (fun i => G i c e)) = sm k (fun i => F (G i))).
  { induction k; intros; cbn. auto. rewrite B, IHk. auto. }
  rewrite (A u (fun c e => sm n (fun c' => sm m (fun e' => u c' e' * unit_ c' e' c e)%R))).
  - rewrite S1. apply sm_ext; intros. rewrite S1. apply sm_ext; intros. rewrite C. lra.
  - intros c e Hc He. unfold unit_. symmetry.
    transitivity (sm n (fun c' => if c' =? c then u c' e else 0)%R); [|apply (@sm_pick n c (fun k => u k e)); auto].
    apply sm_ext; intros c' Hc'. rewrite (Nat.eqb_sym c c'). destruct (Nat.eqb_spec c' c) as [->|].
    + transitivity (sm m (fun e' => if e' =? e then u c e' else 0)%R); [|apply sm_pick; auto].
      apply sm_ext; intros e' _. rewrite (Nat.eqb_sym e e'). destruct (e' =? e); cbn; lra.
    + apply sm_0. intros; cbn; lra.
Qed.
Ltac slin := repeat first
  [ apply lin_fgrad; auto; lia | apply lin_fval; auto; lia | apply lin_fdiv | apply lin_fstrain; auto; lia
  | apply lin_sm; intros | apply lin_mull | apply lin_mulr | apply lin_plus | apply lin_div ].
