(** The interpolation schemes and the projection. *)
From Coq Require Import List Arith ZArith Lia Reals Lra Permutation.
From Verif Require Import Base M_fmf L_fmf S_iga L_iga S_quad L_quadint L_map M_dglim P_dglim2 M_leg S_leg L_leg P_leg P_leg2 L_dgflux.
Import ListNotations.
Open Scope R_scope.

(** The value of a scheme as gmsh evaluates it: sum_j F_j u^P[j][0] v^P[j][1] w^P[j][2] *)
Definition gmsh_eval (row : list R) (P : list (list nat)) (u v w : R) : R :=
  fold_right Rplus 0 (map (fun p => fst p * (u ^ nth 0 (snd p) 0%nat * v ^ nth 1 (snd p) 0%nat * w ^ nth 2 (snd p) 0%nat)) (combine row P)).

(** ** C173: tensor product elements in 2D *)
Lemma coefs_eval n x : sm (S n) (fun k => nth k (jacobi_coefs n) 0 * x ^ k) = legendreP x n.
Proof.
  unfold legendreP, eval_jacobi.
  transitivity (sm (S n) (fun k => sm (S n) (fun m => comb n m * comb (n + m) n * (comb m k * (-1) ^ (m - k) / 2 ^ m)) * x ^ k)).
  { apply sm_ext. intros k Hk. f_equal. unfold jacobi_coefs.
    set (F := fun k0 => sm (S n) (fun m => comb n m * comb (n + m) n * (comb m k0 * (-1) ^ (m - k0) / 2 ^ m))).
    rewrite (nth_indep _ 0 (F 0%nat)) by (rewrite map_length, seq_length; lia). rewrite (map_nth F), seq_nth by lia. reflexivity. }
  transitivity (sm (S n) (fun m => sm (S n) (fun k => comb n m * comb (n + m) n * (comb m k * (-1) ^ (m - k) / 2 ^ m) * x ^ k))).
  { rewrite sm_swap. apply sm_ext. intros k Hk. rewrite <- sm_scalr. reflexivity. }
  apply sm_ext. intros m Hm. rewrite Nat.add_0_r.
  replace ((x - 1) / 2) with ((x - 1) * / 2) by reflexivity. rewrite Rpow_mult_distr, pow_inv, pow_expand.
  rewrite <- (@sm_extend (S m) (S n) (fun k => comb m k * (-1) ^ (m - k) * x ^ k)) by (try lia; intros k Hk; rewrite comb_lt by lia; ring).
  rewrite <- sm_scalr, <- sm_scal. apply sm_ext. intros k Hk. unfold Rdiv. ring.
Qed.
Lemma pad_nth n l k : nth k (pad n l) 0 = nth k l 0.
Proof.
  unfold pad. destruct (Nat.lt_ge_cases k (length l)) as [H|H]. rewrite app_nth1; auto.
  rewrite app_nth2 by auto. rewrite (nth_overflow l) by auto. clear. generalize (k - length l)%nat as j, (n - length l)%nat as q.
  intros j q. revert j. induction q; intros [|j]; cbn; auto.
Qed.
Lemma pad_eval o n x : (n <= o)%nat -> sm (S o) (fun k => nth k (pad (o + 1) (jacobi_coefs n)) 0 * x ^ k) = legendreP x n.
Proof.
  intros H. rewrite <- coefs_eval. transitivity (sm (S o) (fun k => nth k (jacobi_coefs n) 0 * x ^ k)). apply sm_ext; intros; rewrite pad_nth; auto.
  apply sm_extend; [lia|]. intros k Hk. rewrite nth_overflow. ring. unfold jacobi_coefs. rewrite map_length, seq_length. lia.
Qed.
Lemma gmsh_sumL A (f : A -> R) (g : A -> list nat) l u v w :
  gmsh_eval (map f l) (map g l) u v w = sumL (fun a => f a * (u ^ nth 0 (g a) 0%nat * v ^ nth 1 (g a) 0%nat * w ^ nth 2 (g a) 0%nat)) l.
Proof. unfold gmsh_eval. induction l; cbn; auto. f_equal. exact IHl. Qed.
Lemma NoDup_list_prod n : NoDup (list_prod (seq 0 n) (seq 0 n)).
Proof.
  rewrite list_prod_flat. generalize (seq_NoDup n 0). generalize (seq 0 n) at 1 3. intros l N. induction N as [|a l A N IH]; cbn; [constructor|].
  assert (D : NoDup (map (fun y => (a, y)) (seq 0 n))) by (apply NoDup_map_inj; [intros x y E; now inversion E|apply seq_NoDup]).
  assert (X : forall z, In z (map (fun y => (a, y)) (seq 0 n)) -> ~ In z (flat_map (fun x => map (fun y => (x, y)) (seq 0 n)) l)).
  { intros z H1 H2. apply in_map_iff in H1. destruct H1 as (y & <- & _). apply in_flat_map in H2. destruct H2 as (x & I & J). apply in_map_iff in J. destruct J as (y' & E & _). inversion E. subst. auto. }
  induction D as [|z q Z D IHD]; cbn; [exact IH|]. constructor.
  - rewrite in_app_iff. intros [I|I]; [auto|exact (X z (or_introl eq_refl) I)].
  - apply IHD. intros t T. apply X. right. exact T.
Qed.
Lemma iter2_perm o : Permutation (iter2 o true) (list_prod (seq 0 (S o)) (seq 0 (S o))).
Proof.
  destruct (C158_basis_indices o) as (I & N & _). apply NoDup_Permutation. apply N. apply NoDup_list_prod.
  intros [a b]. rewrite (I true), in_prod_iff, !in_seq. lia.
Qed.
(** Every row of F is the basis function in the coordinates of gmsh, [-1, 1]^2,
    and the rows and the exponents are as many as the functions. *)
Theorem C173_tensor_scheme order idx : In idx (idx_list order 2 true) ->
  exists row, tp_F_row order 2 idx = Some row /\ length row = get_n_el_nod order 2 true /\ length (tp_P order 2) = get_n_el_nod order 2 true /\
    forall u v w, gmsh_eval row (tp_P order 2) u v w = tp_value idx [(u + 1) / 2; (v + 1) / 2].
Proof.
  intros I. destruct (C158_basis_indices order) as (IN & _ & LEN & _).
  cbn [idx_list] in *. apply in_map_iff in I. destruct I as ([i j] & <- & I). apply (IN true) in I. cbn [fst snd].
  eexists. split; [reflexivity|]. split; [cbn [idx_list]; rewrite !map_length; apply LEN|]. split; [unfold tp_P; cbn [idx_list]; rewrite !map_length; apply LEN|].
  intros u v w. unfold tp_P. rewrite gmsh_sumL. cbn [idx_list]. rewrite sumL_map.
  set (cx := pad (order + 1) (jacobi_coefs (nth 0 [i; j] 0%nat))). set (cy := pad (order + 1) (jacobi_coefs (nth 1 [i; j] 0%nat))).
  rewrite (@sumL_perm _ _ _ _ (iter2_perm order)).
  rewrite (@sumL_ext _ _ (fun p => (fun a b => nth a cx 0 * u ^ a * (nth b cy 0 * v ^ b)) (fst p) (snd p))).
  2:{ intros [a b] _. cbn [fst snd app repeat nth Nat.sub pow]. ring. }
  rewrite (sumL_prod (S order) (S order) (fun a b => nth a cx 0 * u ^ a * (nth b cy 0 * v ^ b))).
  rewrite (@sm_ext _ _ (fun a => nth a cx 0 * u ^ a * legendreP v j)).
  2:{ intros a _. rewrite sm_scal. f_equal. apply pad_eval. lia. }
  rewrite sm_scalr. unfold cx. cbn [nth]. rewrite pad_eval by lia.
  unfold tp_value, tp_combine. cbn [map combine prodl fold_right fst snd]. unfold to_ref.
  replace (2 * ((u + 1) / 2) - 1) with u by field. replace (2 * ((v + 1) / 2) - 1) with v by field. ring.
Qed.
(** The scheme cannot be built for hexahedra of any order. *)
Theorem C173_hexahedra_refuted order idx : tp_F_row order 3 idx = None.
Proof. reflexivity. Qed.

(** ** C173: triangles *)
Definition rowR (r : list Z) : list R := map IZR r.
Lemma jc_IZR i al m : jc i al m = IZR (Z.of_nat (binom i m) * Z.of_nat (binom (i + al + m) i)).
Proof. unfold jc. rewrite !comb_IZR, mult_IZR. reflexivity. Qed.
Lemma row_check : forall m, (m < 21)%nat -> forall x y w,
  gmsh_eval (rowR (nth m simplex_coefM5 [])) simplex_expoM5 x y w = let p := nth m (iter2 5 false) (0, 0)%nat in qpoly (fst p) (snd p) x y.
Proof.
  intros m Hm x y w.
  do 21 (destruct m as [|m]; [
    match goal with |- context [iter2 5 false] => let v := eval vm_compute in (iter2 5 false) in change (iter2 5 false) with v end;
    cbv [nth fst snd]; unfold gmsh_eval, rowR, simplex_coefM5, simplex_expoM5; cbn [nth map combine fold_right fst snd];
    unfold qpoly, hom, pl; cbn [sm Nat.sub];
    rewrite !jc_IZR; repeat match goal with |- context [IZR (?a * ?b)%Z] => let v := eval vm_compute in (a * b)%Z in change (IZR (a * b)%Z) with (IZR v) end;
    ring|]). lia.
Qed.
Lemma gmsh_trunc n : forall r e x y w, (forall k, (n <= k)%nat -> nth k r 0%Z = 0%Z) ->
  gmsh_eval (rowR (firstn n r)) (firstn n e) x y w = gmsh_eval (rowR r) e x y w.
Proof.
  unfold gmsh_eval, rowR. induction n; intros r e x y w H.
  - cbn [firstn map combine fold_right]. revert e H. induction r as [|a r IH]; intros [|b e] H; cbn [map combine fold_right fst snd]; auto.
    rewrite <- IH. pose proof (H 0%nat ltac:(lia)) as A. cbn in A. rewrite A. ring. intros k _. exact (H (S k) ltac:(lia)).
  - destruct r as [|a r], e as [|b e]; cbn [firstn map combine fold_right fst snd]; auto. f_equal. apply IHn. intros k K. exact (H (S k) ltac:(lia)).
Qed.
Lemma zeros_check o : (o <= 5)%nat -> forall m, (m < get_n_el_nod o 2 false)%nat -> forall k, (get_n_el_nod o 2 false <= k)%nat -> nth k (nth m simplex_coefM5 []) 0%Z = 0%Z.
Proof.
  intros O m Hm k Hk.
  assert (T : forallb (fun m => forallb (Z.eqb 0) (skipn (get_n_el_nod o 2 false) (nth m simplex_coefM5 []))) (seq 0 (get_n_el_nod o 2 false)) = true).
  { do 6 (destruct o as [|o]; [vm_compute; reflexivity|]). lia. }
  rewrite forallb_forall in T. specialize (T m ltac:(apply in_seq; lia)). rewrite forallb_forall in T.
  replace k with (get_n_el_nod o 2 false + (k - get_n_el_nod o 2 false))%nat by lia.
  set (n := get_n_el_nod o 2 false) in *. rewrite <- (firstn_skipn n (nth m simplex_coefM5 [])).
  destruct (Nat.lt_ge_cases (length (nth m simplex_coefM5 [])) n) as [L|L].
  { apply nth_overflow. rewrite firstn_skipn. lia. }
  rewrite app_nth2 by (rewrite firstn_length; lia). rewrite firstn_length, Nat.min_l by lia. replace (n + (k - n) - n)%nat with (k - n)%nat by lia.
  destruct (Nat.lt_ge_cases (k - n) (length (skipn n (nth m simplex_coefM5 [])))) as [K|K]; [|apply nth_overflow; auto].
  specialize (T _ (nth_In _ 0%Z K)). apply Z.eqb_eq in T. auto.
Qed.
Lemma iter2_prefix o m : (o <= 5)%nat -> (m < get_n_el_nod o 2 false)%nat -> nth m (iter2 5 false) (0, 0)%nat = nth m (iter2 o false) (0, 0)%nat.
Proof.
  intros O M. assert (E : iter2 o false = firstn (get_n_el_nod o 2 false) (iter2 5 false)).
  { do 6 (destruct o as [|o]; [vm_compute; reflexivity|]). lia. }
  rewrite E. rewrite <- (firstn_skipn (get_n_el_nod o 2 false) (iter2 5 false)) at 1. apply app_nth1. rewrite firstn_length. 
  assert (get_n_el_nod o 2 false <= length (iter2 5 false))%nat. { do 6 (destruct o as [|o]; [vm_compute; lia|]). lia. } lia.
Qed.
(** For the orders up to 5 the tables are the basis functions of the triangle, in
    the coordinates of the reference triangle of gmsh, which are those of sfepy. *)
Theorem C173_simplex_scheme order : (order <= 5)%nat ->
  exists F P, sx_scheme order = Some (F, P) /\ length F = get_n_el_nod order 2 false /\
    forall m x y w, (m < get_n_el_nod order 2 false)%nat -> 0 <= x -> x + y <= 1 ->
      let p := nth m (iter2 order false) (0, 0)%nat in
      gmsh_eval (map IZR (nth m F [])) P x y w = sx_value (fst p) (snd p) x y.
Proof.
  intros O. unfold sx_scheme. destruct (Nat.leb_spec order 5); [|lia]. eexists. eexists. split; [reflexivity|].
  assert (LE : (get_n_el_nod order 2 false <= 21)%nat) by (do 6 (destruct order as [|order]; [vm_compute; lia|]); lia).
  assert (LM : length simplex_coefM5 = 21%nat) by reflexivity.
  split. { rewrite map_length, firstn_length. lia. }
  intros m x y w M X Y. set (n := get_n_el_nod order 2 false) in *.
  assert (NT : nth m (map (firstn n) (firstn n simplex_coefM5)) [] = firstn n (nth m simplex_coefM5 [])).
  { change ([] : list Z) with (firstn n ([] : list Z)) at 1 || idtac. rewrite (nth_indep _ [] (firstn n [])) by (rewrite map_length, firstn_length; lia). rewrite map_nth. f_equal.
    rewrite <- (firstn_skipn n simplex_coefM5) at 2. symmetry. apply app_nth1. rewrite firstn_length. lia. }
  rewrite NT. fold (rowR (firstn n (nth m simplex_coefM5 []))). rewrite gmsh_trunc by (apply zeros_check; auto).
  rewrite row_check by lia. cbv zeta. rewrite (iter2_prefix order) by auto. rewrite sx_q; auto.
Qed.
(** Orders above 5 have no scheme: the field cannot be created. *)
Theorem C173_high_order_refuted order : (5 < order)%nat -> sx_scheme order = None.
Proof. intros H. unfold sx_scheme. destruct (Nat.leb_spec order 5); [lia|reflexivity]. Qed.

(** ** C174: the projection *)
Section Proj.
Variables (nq nb : nat) (w : nat -> R) (bas : nat -> nat -> R).
Definition dot (f g : nat -> R) : R := sm nq (fun q => w q * f q * g q).
Definition comb_of (c : nat -> R) (q : nat) : R := sm nb (fun m => c m * bas q m).
Hypothesis orth : forall m k, (m < nb)%nat -> (k < nb)%nat -> m <> k -> dot (fun q => bas q m) (fun q => bas q k) = 0.
Hypothesis norm : forall m, (m < nb)%nat -> dot (fun q => bas q m) (fun q => bas q m) <> 0.
Lemma dot_comb c k : (k < nb)%nat -> dot (comb_of c) (fun q => bas q k) = c k * dot (fun q => bas q k) (fun q => bas q k).
Proof.
  intros K. unfold dot, comb_of.
  transitivity (sm nb (fun m => c m * dot (fun q => bas q m) (fun q => bas q k))).
  { rewrite (@sm_ext nq _ (fun q => sm nb (fun m => c m * (w q * bas q m * bas q k)))).
    - rewrite sm_swap. apply sm_ext. intros m _. rewrite sm_scal. reflexivity.
    - intros q _. rewrite <- sm_scal, <- sm_scalr. apply sm_ext. intros. ring. }
  rewrite (@sm_ext nb _ (fun m => if Nat.eqb m k then c k * dot (fun q => bas q k) (fun q => bas q k) else 0)).
  2:{ intros m Hm. destruct (Nat.eqb_spec m k) as [->|N]; auto. rewrite orth by auto. ring. }
  apply sm_pick. auto.
Qed.
Lemma proj_dot fv m : project nq w bas fv m = dot fv (fun q => bas q m) / dot (fun q => bas q m) (fun q => bas q m).
Proof. unfold project, rhs_vec, lhs_diag, dot. f_equal; apply sm_ext; intros; ring. Qed.
Lemma proj_repro c fv : (forall q, (q < nq)%nat -> fv q = comb_of c q) -> forall m, (m < nb)%nat -> project nq w bas fv m = c m.
Proof.
  intros E m Hm. rewrite proj_dot. replace (dot fv (fun q => bas q m)) with (dot (comb_of c) (fun q => bas q m)).
  2:{ apply sm_ext. intros q Q. rewrite E; auto. }
  rewrite dot_comb by auto. field. apply norm. auto.
Qed.
Lemma proj_resid fv k : (k < nb)%nat -> sm nq (fun q => w q * (fv q - sm nb (fun m => project nq w bas fv m * bas q m)) * bas q k) = 0.
Proof.
  intros K. rewrite (@sm_ext nq _ (fun q => w q * fv q * bas q k - w q * comb_of (project nq w bas fv) q * bas q k)) by (intros; unfold comb_of; ring).
  rewrite sm_minus. change (dot fv (fun q => bas q k) - dot (comb_of (project nq w bas fv)) (fun q => bas q k) = 0).
  rewrite dot_comb, proj_dot by auto. field. apply norm. auto.
Qed.
Lemma proj_best fv c : (forall q, (q < nq)%nat -> 0 <= w q) ->
  sm nq (fun q => w q * (fv q - sm nb (fun m => project nq w bas fv m * bas q m)) ^ 2) <= sm nq (fun q => w q * (fv q - sm nb (fun m => c m * bas q m)) ^ 2).
Proof.
  intros W. set (P := project nq w bas fv). set (r := fun q => fv q - sm nb (fun m => P m * bas q m)).
  set (d := fun q => sm nb (fun m => (P m - c m) * bas q m)).
  assert (D : sm nq (fun q => w q * r q * d q) = 0).
  { unfold d. rewrite (@sm_ext nq _ (fun q => sm nb (fun m => (P m - c m) * (w q * r q * bas q m)))).
    - rewrite sm_swap. apply sm_0. intros m Hm. rewrite sm_scal. unfold r, P. rewrite proj_resid by auto. ring.
    - intros q _. rewrite <- sm_scal. apply sm_ext. intros. ring. }
  rewrite (@sm_ext nq (fun q => w q * (fv q - sm nb (fun m => c m * bas q m)) ^ 2) (fun q => w q * r q ^ 2 + (2 * (w q * r q * d q) + w q * d q ^ 2))).
  2:{ intros q _. replace (fv q - sm nb (fun m => c m * bas q m)) with (r q + d q). ring. unfold r, d.
      rewrite (@sm_ext nb (fun m => (P m - c m) * bas q m) (fun m => P m * bas q m - c m * bas q m)) by (intros; ring). rewrite sm_minus. ring. }
  rewrite sm_plus, sm_plus, sm_scal, D. assert (0 <= sm nq (fun q => w q * d q ^ 2)).
  { apply sm_nonneg. intros q Q. apply Rmult_le_pos; auto. apply pow2_ge_0. }
  fold P. change (sm nq (fun q => w q * (fv q - sm nb (fun m => P m * bas q m)) ^ 2)) with (sm nq (fun q => w q * r q ^ 2)). lra.
Qed.
End Proj.

(** The basis functions in the points of a rule which integrates their products exactly. *)
Definition exact_products (I : (list R -> R) -> R -> Prop) (fs : list (list R -> R)) (coors : list (list R)) (weights : list R) : Prop :=
  length coors = length weights /\ forall f g, In f fs -> In g fs -> forall v, I (fun p => f p * g p) v -> quad coors weights (fun p => f p * g p) = v.
Lemma quad_sm : forall coors weights f, length coors = length weights -> quad coors weights f = sm (length coors) (fun q => nth q weights 0 * f (nth q coors [])).
Proof.
  induction coors as [|x c IH]; intros [|a ws] f L; try discriminate; [reflexivity|].
  cbn [length]. rewrite sm_first. cbn [nth]. rewrite <- IH by (cbn in L; lia). reflexivity.
Qed.
Section ProjBasis.
Variables (k : (list R -> R) -> R -> Prop) (fs : list (list R -> R)) (nrm : nat -> R).
Hypothesis F_orth : forall i j, (i < length fs)%nat -> (j < length fs)%nat ->
  k (fun p => nth i fs (fun _ => 0) p * nth j fs (fun _ => 0) p) (if Nat.eqb i j then nrm i else 0).
Hypothesis F_norm : forall i, (i < length fs)%nat -> nrm i <> 0.
Variables (coors : list (list R)) (weights : list R).
Hypothesis EX : exact_products k fs coors weights.
Let nq := length coors.
Let w := fun q => nth q weights 0.
Let bas := fun q m => nth m fs (fun _ => 0) (nth q coors []).
Lemma basis_dot i j : (i < length fs)%nat -> (j < length fs)%nat -> dot nq w (fun q => bas q i) (fun q => bas q j) = if Nat.eqb i j then nrm i else 0.
Proof.
  intros I J. destruct EX as (L & E). rewrite <- (E _ _ (nth_In fs (fun _ => 0) I) (nth_In fs (fun _ => 0) J) _ (F_orth i j I J)).
  rewrite quad_sm by auto. apply sm_ext. intros. unfold w, bas. ring.
Qed.
Lemma proj_all : forall fv,
  (forall c, (forall q, (q < nq)%nat -> fv q = sm (length fs) (fun m => c m * bas q m)) -> forall m, (m < length fs)%nat -> project nq w bas fv m = c m) /\
  (forall j, (j < length fs)%nat -> sm nq (fun q => w q * (fv q - sm (length fs) (fun m => project nq w bas fv m * bas q m)) * bas q j) = 0) /\
  (List.Forall (fun a => 0 <= a) weights -> forall c,
     sm nq (fun q => w q * (fv q - sm (length fs) (fun m => project nq w bas fv m * bas q m)) ^ 2) <= sm nq (fun q => w q * (fv q - sm (length fs) (fun m => c m * bas q m)) ^ 2)).
Proof.
  intros fv.
  assert (O : forall m j, (m < length fs)%nat -> (j < length fs)%nat -> m <> j -> dot nq w (fun q => bas q m) (fun q => bas q j) = 0).
  { intros m j M J N. rewrite basis_dot by auto. destruct (Nat.eqb_spec m j); [contradiction|reflexivity]. }
  assert (NZ : forall m, (m < length fs)%nat -> dot nq w (fun q => bas q m) (fun q => bas q m) <> 0).
  { intros m M. rewrite basis_dot, Nat.eqb_refl by auto. apply F_norm. auto. }
  split; [|split].
  - intros c E m Hm. apply (proj_repro nq (length fs) w bas O NZ c fv E m Hm).
  - intros j J. apply (proj_resid nq (length fs) w bas O NZ fv j J).
  - intros W c. apply (proj_best nq (length fs) w bas O NZ fv c). intros q Q. rewrite List.Forall_forall in W. apply W. apply nth_In. destruct EX as (L & _). unfold nq in Q. lia.
Qed.
End ProjBasis.
