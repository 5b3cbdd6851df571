(** The terms integrate their forms, continued: Biot, convective and v . grad s terms. *)
From Coq Require Import Reals Lra Lia Arith.
From Verif Require Import Base M_fmf M_terms L_fmf S_terms L_terms L_terms2 P_terms P_terms2 P_terms3.
Open Scope nat_scope.

Lemma flatT_at : forall (o : FMF) q c d, c < nCol o -> d < nRow o -> at_ (flat_DD (np_transpose o)) q (c * nRow o + d) 0 = at_ o q d c.
Proof.
  intros o q c d H1 H0. unfold flat_DD, np_transpose, at_ at 1, ptr_level, pretend. cbn [nLev nRow nCol val].
  set (D := nRow o) in *. set (nc := nCol o) in *.
  assert (L : c * D + d < D * nc) by (pose proof (@idx_lt _ _ _ _ H1 H0); lia).
  assert (M : D * nc <> 0) by lia.
  replace (1 * (nc * D) * q + 1 * (c * D + d) + 0) with ((c * D + d) + q * (D * nc)) by lia.
  rewrite (Nat.div_add (c * D + d) q (D * nc)), (Nat.mod_add (c * D + d) q (D * nc)), (Nat.div_small (c * D + d) (D * nc)), (Nat.mod_small (c * D + d) (D * nc)) by auto. cbn [Nat.add].
  dm. auto.
Qed.
Lemma flat_at_ : forall (o : FMF) q i j, j < nCol o -> at_ (flat_DD o) q (i * nCol o + j) 0 = at_ o q i j.
Proof. intros. unfold flat_DD, at_, ptr_level, pretend. cbn [nRow nCol val]. f_equal. lia. Qed.
Lemma transp_at : forall (o : FMF) q c d, c < nCol o -> d < nRow o -> at_ (np_transpose o) q c d = at_ o q d c.
Proof.
  intros. pose proof (@flat_at_ (np_transpose o) q c d). cbn [np_transpose nCol] in H1. rewrite <- H1 by auto. apply flatT_at; auto.
Qed.

(** ** Biot coupling: [al] is the coupling tensor given in the symmetric storage or as a full matrix. *)
Definition biot_al (dim : nat) (m : FMF) (q i j : nat) : R := if nCol m =? 1 then at_ m q (voigt dim i j) 0 else at_ m q i j.
Definition bshape (nq dim : nat) (m : FMF) : Prop := mshape nq (symn dim) 1 m \/ (mshape nq dim dim m /\ (dim = 2 \/ dim = 3)).

Lemma al_unit : forall dim dp ne q c e (al : nat -> nat -> R), c < dim -> e < ne ->
  sm dim (fun i => sm dim (fun j => al i j * fgrad dp ne (unit_ c e) q i j)%R) = sm dim (fun d => dp q d e * al c d)%R.
Proof.
  intros. rewrite <- grad_unit_l with (c := c) (e := e) (ne := ne) (u := al) by auto. apply sm_ext; intros. apply sm_ext; intros. lra.
Qed.
Lemma al_strain : forall dim dp ne q u (X : nat -> R), dim_ok dim ->
  sm dim (fun i => sm dim (fun j => X (voigt dim i j) * fstrain dp ne u q i j)%R)
  = sm dim (fun i => sm dim (fun j => X (voigt dim i j) * fgrad dp ne u q i j)%R).
Proof. intros dim dp ne q u X D. unfold fstrain. destruct D as [-> | [-> | ->]]; cbn; field. Qed.
Lemma symn_neq : forall dim, dim = 2 \/ dim = 3 -> (dim * dim =? symn dim) = false.
Proof. intros dim [-> | ->]; reflexivity. Qed.

Lemma bm_row : forall nq dim m, bshape nq dim m -> nRow (biot_mat m) = (if nCol m =? 1 then symn dim else dim * dim) /\ nCol (biot_mat m) = 1 /\ nLev (biot_mat m) = nq.
Proof.
  intros nq dim m [H | [H D]]; shp; unfold biot_mat.
  - rr. cbn [Nat.ltb Nat.eqb Nat.leb]. rewrite Bool.andb_false_r. auto.
  - rr. rewrite Nat.eqb_refl. assert (X : (1 <? dim) = true) by (destruct D as [-> | ->]; auto). rewrite X. cbn [andb].
    assert (Y : (dim =? 1) = false) by (destruct D as [-> | ->]; auto). rewrite Y. unfold flat_DD, np_transpose. cbn [pretend nRow nCol nLev]. rr. auto.
Qed.
Lemma bm_sym : forall nq dim m, mshape nq (symn dim) 1 m -> biot_mat m = m.
Proof. intros. shp. unfold biot_mat. rr. cbn [Nat.ltb Nat.eqb Nat.leb]. rewrite Bool.andb_false_r. auto. Qed.
Lemma bm_full : forall nq dim m q i j, mshape nq dim dim m -> (dim = 2 \/ dim = 3) -> i < dim -> j < dim -> at_ (biot_mat m) q (j * dim + i) 0 = at_ m q i j.
Proof.
  intros nq dim m q i j H D I J. shp. unfold biot_mat. rr. rewrite Nat.eqb_refl.
  assert (X : (1 <? dim) = true) by (destruct D as [-> | ->]; auto). rewrite X. cbn [andb].
  pose proof (@flatT_at m q j i) as P. rrin P. rewrite P; auto.
Qed.
Lemma dim23 : forall dim, dim = 2 \/ dim = 3 -> dim_ok dim. Proof. unfold dim_ok; intuition. Qed.

(** The integrand operator of both coupling terms applied to a base function. *)
Lemma biot_opT : forall nq dim ne vg m q c e, shape nq dim ne vg -> dim_ok dim -> bshape nq dim m -> q < nq -> c < dim -> e < ne ->
  at_ (if nRow (biot_mat m) =? symn dim then actOpGT_M3 (alloc nq (dim * ne) 1) (bfGM vg) (biot_mat m) else op_nonsym_biot (alloc nq (dim * ne) 1) (biot_mat m) (bfGM vg)) q (c * ne + e) 0
  = sm dim (fun d => DPHI (bfGM vg) q d e * biot_al dim m q c d)%R.
Proof.
  intros nq dim ne vg m q c e Hs K Hb Q C E. pose proof (@bm_row _ _ _ Hb) as (R1 & R2 & R3). rewrite R1. unfold biot_al.
  destruct Hb as [Hb | [Hb D]].
  - rewrite (@bm_sym _ _ _ Hb) in *. shp. rr. cbn [Nat.eqb]. rewrite ?Nat.eqb_refl.
    match goal with |- context [actOpGT_M3 ?a ?b ?c1] => pose proof (@actOpGT_M3_at a b c1 q c e 0) as P end.
    rrin P. rewrite P; auto; lia.
  - assert (Y : (dim =? 1) = false) by (destruct D as [-> | ->]; auto).
    pose proof (fun j => @bm_full nq dim m q c j Hb D C) as B. destruct Hb as (M1 & M2 & M3). rewrite M3 in R1 |- *. rewrite Y in R1 |- *. rewrite symn_neq by auto. shp.
    match goal with |- context [op_nonsym_biot ?a ?b ?c1] => pose proof (@op_nonsym_col a c1 b q c e) as P end.
    rrin P. rewrite P; auto; clear P. apply sm_ext; intros d Dd. rewrite B by auto. auto.
Qed.
Lemma biot_op : forall nq dim ne vg m q c e, shape nq dim ne vg -> dim_ok dim -> bshape nq dim m -> q < nq -> c < dim -> e < ne ->
  at_ (if nRow (biot_mat m) =? symn dim then actOpG_RM3 (alloc nq 1 (dim * ne)) (pretend nq 1 (symn dim) (biot_mat m)) (bfGM vg) else op_nonsym_biot (alloc nq 1 (dim * ne)) (biot_mat m) (bfGM vg)) q 0 (c * ne + e)
  = sm dim (fun d => DPHI (bfGM vg) q d e * biot_al dim m q c d)%R.
Proof.
  intros nq dim ne vg m q c e Hs K Hb Q C E. pose proof (@bm_row _ _ _ Hb) as (R1 & R2 & R3). rewrite R1. unfold biot_al.
  destruct Hb as [Hb | [Hb D]].
  - rewrite (@bm_sym _ _ _ Hb) in *. shp. rr. cbn [Nat.eqb]. rewrite ?Nat.eqb_refl.
    match goal with |- context [actOpG_RM3 ?a ?b ?c1] => pose proof (@actOpG_RM3_at a b c1 q 0 c e) as P end.
    rrin P. rewrite P; auto; try lia; clear P. apply sm_ext; intros d Dd. f_equal.
    unfold at_, ptr_level, pretend. cbn [nRow nCol val]. rr. f_equal. cbn [Nat.eqb]. lia.
  - assert (Y : (dim =? 1) = false) by (destruct D as [-> | ->]; auto).
    pose proof (fun j => @bm_full nq dim m q c j Hb D C) as B. destruct Hb as (M1 & M2 & M3). rewrite M3 in R1 |- *. rewrite Y in R1 |- *. rewrite symn_neq by auto. shp.
    match goal with |- context [op_nonsym_biot ?a ?b ?c1] => pose proof (@op_nonsym_row a c1 b q c e) as P end.
    rrin P. rewrite P; auto; clear P. apply sm_ext; intros d Dd. rewrite B by auto. auto.
Qed.

Ltac iflev b x y nq := assert (nLev (if b then x else y) = nq) by (destruct b; sz).

Theorem C127_biot_grad_matrix : forall nq dim nes nev svg vvg a m pq junk c e e', shape nq dim nes svg -> shape nq dim nev vvg -> dim_ok dim -> bshape nq dim m ->
  c < dim -> e < nev -> e' < nes ->
  at_ (dw_biot_grad (emp 1 (dim * nev) nes junk) a pq (biot_mat m) svg vvg true) 0 (c * nev + e) e'
  = (a * biot_form nq (scal (det vvg)) dim (biot_al dim m) (GG vvg nev (unit_ c e)) (fun q => VV svg nes (unit_ 0 e') q 0))%R.
Proof.
  intros nq dim nes nev svg vvg a m pq junk c e e' Hs Hv K Hb C E E'.
  pose proof (fun q Q => @biot_opT nq dim nev vvg m q c e Hv K Hb Q C E) as OP.
  assert (c * nev + e < dim * nev) by (pose proof (@idx_lt _ _ _ _ C E); lia).
  shp. unfold dw_biot_grad. cbv zeta. rewrite mulC_at; sz. rewrite Rmult_comm. f_equal. rewrite sym_eq.
  rewrite sumLevelsMulF_at; sz. unfold biot_form. apply sm_ext; intros q Q. rewrite !s11 by auto. rewrite Rmult_comm. f_equal.
  rewrite mulAB_nn_at; sz.
  match goal with |- sm (nCol ?x) _ = _ => assert (X : nCol x = 1) by (destruct (_ =? _); sz); rewrite X end.
  rewrite sm1, OP by auto. unfold GG, VV. rewrite al_unit, fval_unit by auto. cbn [Nat.eqb]. unfold PHI. lra.
Qed.
Theorem C127_biot_grad_residual : forall nq dim nes nev svg vvg a m st conn junk j1 c e, shape nq dim nes svg -> shape nq dim nev vvg -> dim_ok dim -> bshape nq dim m ->
  c < dim -> e < nev ->
  at_ (dw_biot_grad (emp 1 (dim * nev) 1 junk) a (ev_val 1 j1 st (bf svg) conn) (biot_mat m) svg vvg false) 0 (c * nev + e) 0
  = (a * biot_form nq (scal (det vvg)) dim (biot_al dim m) (GG vvg nev (unit_ c e)) (fun q => VV svg nes (sub 1 st conn) q 0))%R.
Proof.
  intros nq dim nes nev svg vvg a m st conn junk j1 c e Hs Hv K Hb C E.
  assert (c * nev + e < dim * nev) by (pose proof (@idx_lt _ _ _ _ C E); lia).
  pose proof (@bm_row _ _ _ Hb) as (R1 & R2 & R3).
  shp. unfold dw_biot_grad. cbv zeta. rewrite mulC_at; sz. rewrite Rmult_comm. f_equal. rewrite sym_eq.
  rewrite sumLevelsMulF_at; sz. 2: match goal with |- nCol (if ?b then ?x else ?y) = _ => destruct b; autorewrite with shp; reflexivity end.
  match goal with |- sm (nLev (if ?b then ?x else ?y)) _ = _ => assert (X : nLev (if b then x else y) = nq) by (destruct b; sz); rewrite X end.
  unfold biot_form. apply sm_ext; intros q Q. rewrite !s11 by auto. rewrite Rmult_comm. f_equal.
  unfold GG. rewrite al_unit by auto. rewrite <- sm_scal. unfold biot_al.
  assert (DF : forall n k, k < n -> at_ (mulAB_nn (alloc nq n 1) (biot_mat m) (ev_val 1 j1 st (bf svg) conn)) q k 0 = (at_ (biot_mat m) q k 0 * VV svg nes (sub 1 st conn) q 0)%R).
  { intros. rewrite mulAB_nn_at; sz. rewrite sm1, ev_val_at; sz. }
  destruct Hb as [Hb | [Hb D]].
  - rewrite (@bm_sym _ _ _ Hb) in *. shp. rr. cbn [Nat.eqb]. rewrite ?Nat.eqb_refl.
    match goal with |- context [actOpGT_VS3 ?a ?b ?c1] => pose proof (@actOpGT_VS3_at a b c1 q c e) as P end.
    rrin P. rewrite P; auto; try lia; clear P. apply sm_ext; intros d Dd. rewrite DF by (apply voigt_lt; auto). unfold DPHI. lra.
  - assert (Y : (dim =? 1) = false) by (destruct D as [-> | ->]; auto).
    pose proof (fun j => @bm_full nq dim m q c j Hb D C) as B. destruct Hb as (M1 & M2 & M3). rewrite M3 in R1 |- *. rewrite Y in R1 |- *. rewrite ?R1. rewrite symn_neq by auto.
    match goal with |- context [op_nonsym_biot ?a ?b ?c1] => pose proof (@op_nonsym_col a c1 b q c e) as P end.
    rrin P. rewrite P; auto; clear P. apply sm_ext; intros d Dd. rewrite DF, B by (auto; pose proof (@idx_lt _ _ _ _ Dd C); lia). unfold DPHI. lra.
Qed.
(** What the code passes as "strain" to the div and eval modes. *)
Definition biot_strain (m : FMF) (dim : nat) (junk st : nat -> R) (vg : Geo) (conn : nat -> nat) : FMF :=
  if (nRow m =? nCol m) && (1 <? nCol m) then flat_DD (ev_grad dim junk st vg conn) else ev_strain junk st vg conn.
Lemma biot_contract : forall nq dim ne vg m st conn j1 q, shape nq dim ne vg -> dim_ok dim -> bshape nq dim m -> q < nq ->
  at_ (mulATB_nn (alloc nq 1 1) (biot_mat m) (biot_strain m dim j1 st vg conn)) q 0 0
  = sm dim (fun i => sm dim (fun j => biot_al dim m q i j * GG vg ne (sub dim st conn) q i j)%R).
Proof.
  intros nq dim ne vg m st conn j1 q Hs K Hb Q. pose proof (@bm_row _ _ _ Hb) as (R1 & R2 & R3). rewrite mulATB_nn_at; sz.
  unfold biot_al, biot_strain. destruct Hb as [Hb | [Hb D]].
  - rewrite (@bm_sym _ _ _ Hb) in *. shp. rr. cbn [Nat.eqb Nat.ltb Nat.leb]. rewrite Bool.andb_false_r.
    unfold GG. rewrite <- (@al_strain dim (DPHI (bfGM vg)) ne q (sub dim st conn) (fun x => at_ m q x 0)) by auto.
    apply (@voigt_sum dim (fun x => at_ m q x 0) (fun x => at_ (ev_strain j1 st vg conn) q x 0)); auto.
    intros. pose proof (@ev_strain_at j1 st vg conn q i j) as P. rrin P. rewrite P; auto. intros; unfold fstrain; lra.
  - assert (Y : (dim =? 1) = false) by (destruct D as [-> | ->]; auto).
    assert (X : (1 <? dim) = true) by (destruct D as [-> | ->]; auto).
    pose proof (fun i j => @bm_full nq dim m q i j Hb D) as B. destruct Hb as (M1 & M2 & M3). rewrite M3 in R1 |- *. rewrite Y in R1 |- *. rewrite ?R1, ?M2, Nat.eqb_refl, X. cbn [andb]. shp.
    rewrite sm_blocks, sm_swap. apply sm_ext; intros i I. apply sm_ext; intros j J. rewrite B by auto. f_equal.
    pose proof (@flat_at_ (ev_grad dim j1 st vg conn) q j i) as P. change (nCol (ev_grad dim j1 st vg conn)) with dim in P.
    rewrite P by auto. rewrite ev_grad_at; sz.
Qed.
Theorem C127_biot_div_matrix : forall nq dim nes nev svg vvg a m sq junk e c e', shape nq dim nes svg -> shape nq dim nev vvg -> dim_ok dim -> bshape nq dim m ->
  e < nes -> c < dim -> e' < nev ->
  at_ (dw_biot_div (emp 1 nes (dim * nev) junk) a sq (biot_mat m) svg vvg true) 0 e (c * nev + e')
  = (a * biot_form nq (scal (det vvg)) dim (biot_al dim m) (GG vvg nev (unit_ c e')) (fun q => VV svg nes (unit_ 0 e) q 0))%R.
Proof.
  intros nq dim nes nev svg vvg a m sq junk e c e' Hs Hv K Hb E C E'.
  pose proof (fun q Q => @biot_op nq dim nev vvg m q c e' Hv K Hb Q C E') as OP.
  assert (c * nev + e' < dim * nev) by (pose proof (@idx_lt _ _ _ _ C E'); lia).
  shp. unfold dw_biot_div. cbv zeta. rewrite mulC_at; sz. rewrite Rmult_comm. f_equal. rewrite sym_eq.
  rewrite sumLevelsMulF_at; sz. unfold biot_form. apply sm_ext; intros q Q. rewrite !s11 by auto. rewrite Rmult_comm. f_equal.
  rewrite mulATB_nn_at; sz. rewrite sm1, OP by auto. unfold GG, VV. rewrite al_unit, fval_unit by auto. cbn [Nat.eqb]. unfold PHI. lra.
Qed.
Theorem C127_biot_div_residual : forall nq dim nes nev svg vvg a m st conn junk j1 e, shape nq dim nes svg -> shape nq dim nev vvg -> dim_ok dim -> bshape nq dim m ->
  e < nes ->
  at_ (dw_biot_div (emp 1 nes 1 junk) a (biot_strain m dim j1 st vvg conn) (biot_mat m) svg vvg false) 0 e 0
  = (a * biot_form nq (scal (det vvg)) dim (biot_al dim m) (GG vvg nev (sub dim st conn)) (fun q => VV svg nes (unit_ 0 e) q 0))%R.
Proof.
  intros nq dim nes nev svg vvg a m st conn junk j1 e Hs Hv K Hb E.
  pose proof (fun q Q => @biot_contract nq dim nev vvg m st conn j1 q Hv K Hb Q) as OP.
  shp. unfold dw_biot_div. cbv zeta. rewrite mulC_at; sz. rewrite Rmult_comm. f_equal.
  rewrite sumLevelsMulF_at; sz. unfold biot_form. apply sm_ext; intros q Q. rewrite !s11 by auto. rewrite Rmult_comm. f_equal.
  rewrite mulATB_nn_at; sz. rewrite sm1, OP by auto. unfold GG, VV. rewrite fval_unit by auto. cbn [Nat.eqb]. unfold PHI. auto.
Qed.
Theorem C127_biot_eval : forall nq dim nes nev svg vvg a m stp stu connp connu junk j1 j2, shape nq dim nes svg -> shape nq dim nev vvg -> dim_ok dim -> bshape nq dim m ->
  at_ (d_biot_div (emp 1 1 1 junk) a (ev_val 1 j1 stp (bf svg) connp) (biot_strain m dim j2 stu vvg connu) (biot_mat m) vvg) 0 0 0
  = (a * biot_form nq (scal (det vvg)) dim (biot_al dim m) (GG vvg nev (sub dim stu connu)) (fun q => VV svg nes (sub 1 stp connp) q 0))%R.
Proof.
  intros nq dim nes nev svg vvg a m stp stu connp connu junk j1 j2 Hs Hv K Hb.
  pose proof (fun q Q => @biot_contract nq dim nev vvg m stu connu j2 q Hv K Hb Q) as OP.
  shp. unfold d_biot_div. cbv zeta. rewrite mulC_at; sz. rewrite Rmult_comm. f_equal.
  rewrite sumLevelsMulF_at; sz. unfold biot_form. apply sm_ext; intros q Q. rewrite !s11 by auto. rewrite Rmult_comm. f_equal.
  rewrite mulATB_nn_at; sz. change (nRow (ev_val 1 j1 stp (bf svg) connp)) with 1. rewrite sm1, OP by auto. rewrite ev_val_at; sz. 
Qed.
