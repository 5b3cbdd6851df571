(** C111: quadrature on simplices above the orders of the tables. *)
From Coq Require Import Reals Lra Permutation.
From Verif Require Import Base M_nls M_lagnodes M_lagrange P_lagnodes L_lagrange P_lagrange L_gm M_quadtab M_quad S_quad L_quadint L_cubature.
Set Implicit Arguments.
Open Scope R_scope.

Lemma quad_eq : forall A (l : list A) (c : A -> list R) (w : A -> R) f, quad (map c l) (map w l) f = lsum (map (fun a => w a * f (c a)) l).
Proof. intros. unfold quad. change (fold_right Rplus 0) with lsum. f_equal. induction l; cbn [map combine]; auto. f_equal; auto. Qed.
(** ** The points *)
Definition lam (s n i : nat) (b : list nat) : list R := map (fun b => INR (2 * b + 1) / INR (2 * s + 1 + n - 2 * i)) b.
Definition fpt (s n i : nat) (b : list nat) : fpoint := map (fun b => simplify_fraction (Z.of_nat (2 * b + 1), Z.of_nat (2 * s + 1 + n - 2 * i))) b.
Lemma lam_sum : forall s n i b, (i <= s)%nat -> length b = (n + 1)%nat -> list_sum b = (s - i)%nat -> lsum (lam s n i b) = 1.
Proof.
  intros s n i b I L S. unfold lam. rewrite (lsum_ext _ (fun b => / INR (2 * s + 1 + n - 2 * i) * INR (2 * b + 1))) by (intros; unfold Rdiv; lra). rewrite lsum_scal.
  assert (E : lsum (map (fun b => INR (2 * b + 1)) b) = INR (2 * list_sum b + length b)).
  { clear. induction b as [|x b IH]; [reflexivity|]. cbn [map]. rewrite lsum_cons, IH, <- plus_INR. f_equal. change (list_sum (x :: b)) with (x + list_sum b)%nat. cbn [length]. lia. }
  rewrite E, L, S. replace (2 * (s - i) + (n + 1))%nat with (2 * s + 1 + n - 2 * i)%nat by lia. field. apply not_0_INR. lia.
Qed.
Lemma fpt_val : forall s n i b j, (i <= s)%nat -> (j < length b)%nat -> IZR (fst (nth j (fpt s n i b) (0, 1)%Z)) / IZR (snd (nth j (fpt s n i b) (0, 1)%Z)) = nth j (lam s n i b) 0.
Proof.
  intros s n i b j I J. unfold fpt, lam. rewrite !nth_map_in with (da := 0%nat) by auto. rewrite simplify_value by lia. rewrite <- !INR_IZR_INZ. auto.
Qed.
Lemma gm_vertex_0 : forall n k, (k < n)%nat -> nth k (nth 0 (gm_vertices n) []) 0 = -1.
Proof. intros. cbn [gm_vertices nth]. rewrite nth_map_in with (da := 0%nat) by (rewrite seq_length; auto). auto. Qed.
Lemma gm_vertex_S : forall n j k, (k < n)%nat -> (j < n)%nat -> nth k (nth (S j) (gm_vertices n) []) 0 = if (k =? j)%nat then 1 else -1.
Proof. intros. cbn [gm_vertices nth]. rewrite nth_map_in with (da := 0%nat) by (rewrite seq_length; auto). rewrite seq_nth by auto. rewrite nth_map_in with (da := 0%nat) by (rewrite seq_length; auto). rewrite seq_nth by auto. auto. Qed.
Lemma lsum_nth : forall l, lsum (map (fun j => nth j l 0) (seq 0 (length l))) = lsum l.
Proof. intros. rewrite map_nth_seq. auto. Qed.
Lemma point_val : forall s n i b, (i <= s)%nat -> length b = (n + 1)%nat -> list_sum b = (s - i)%nat ->
  map (fun x => (1 - 0) / (1 - -1) * x + (1 * 0 - -1 * 1) / (1 - -1)) (real_point n (fpt s n i b)) = tl (lam s n i b).
Proof.
  intros s n i b I L SU. assert (LS := lam_sum n b I L SU). assert (LL : length (lam s n i b) = (n + 1)%nat) by (unfold lam; rewrite map_length; auto).
  unfold real_point. rewrite map_map. rewrite <- (map_nth_seq (tl (lam s n i b)) 0) at 1.
  assert (LT : length (tl (lam s n i b)) = n) by (destruct (lam s n i b); cbn in *; lia). rewrite LT. apply map_ext_in. intros k K. apply in_seq in K.
  assert (LF : length (fpt s n i b) = (n + 1)%nat) by (unfold fpt; rewrite map_length; auto). rewrite sumf_eq, LF.
  rewrite (lsum_ext _ (fun j => nth j (lam s n i b) 0 * nth k (nth j (gm_vertices n) []) 0)) by (intros j J; apply in_seq in J; rewrite fpt_val by lia; auto).
  replace (n + 1)%nat with (S n) by lia. rewrite lsum_0S. rewrite gm_vertex_0 by lia.
  rewrite (lsum_ext _ (fun j => 2 * ((if (k =? j)%nat then 1 else 0) * nth (S j) (lam s n i b) 0) + (-1) * nth (S j) (lam s n i b) 0)).
  - rewrite lsum_plus, !lsum_scal. rewrite (lsum_delta (fun j => nth (S j) (lam s n i b) 0)) by lia.
    rewrite <- (lsum_nth (lam s n i b)), LL in LS. replace (n + 1)%nat with (S n) in LS by lia. rewrite lsum_0S in LS.
    replace (nth k (tl (lam s n i b)) 0) with (nth (S k) (lam s n i b) 0) by (destruct (lam s n i b); [destruct k; auto|auto]). 
    set (x := nth (S k) (lam s n i b) 0) in *. set (y := lsum (map (fun i0 => nth (S i0) (lam s n i b) 0) (seq 0 n))) in *. set (z := nth 0 (lam s n i b) 0) in *. lra.
  - intros j J. apply in_seq in J. rewrite gm_vertex_S by lia. destruct (k =? j)%nat; lra.
Qed.
(** ** Exactness for barycentric monomials *)
Definition bmono (al : list nat) (x : list R) : R := mono ((1 - lsum x) :: x) al.
Lemma mono_lam : forall s n i al b, length b = length al -> mono (lam s n i b) al = mono (odds b) al * / INR (2 * s + 1 + n - 2 * i) ^ list_sum al.
Proof.
  intros s n i al. unfold mono, lam, odds. set (D := INR (2 * s + 1 + n - 2 * i)). induction al as [|a al IH]; intros [|b bs] L; try discriminate.
  - cbn. lra.
  - cbn [map combine]. rewrite !lprod_cons. cbn [fst snd]. rewrite IH by (cbn in L; lia). change (list_sum (a :: al)) with (a + list_sum al)%nat. unfold Rdiv. rewrite Rpow_mult_distr, pow_add, Rinv_mult, <- !pow_inv. ring.
Qed.
Lemma items_sum : forall s n F, (1 <= n)%nat -> dsum F (gm_items s n) = lsum (map (fun i => gm_weight s n i * lsum (map (fun b => F (fpt s n i b)) (comps (n + 1) (s - i)))) (seq 0 (s + 1))).
Proof.
  intros s n F N. unfold dsum, gm_items. rewrite lsum_flat. apply lsum_ext. intros i I.
  rewrite lsum_flat. rewrite (lsum_ext _ (fun t => lsum (map (fun b => gm_weight s n i * F (fpt s n i b)) (unique_permutations t)))) by (intros t T; rewrite map_map; auto).
  rewrite <- lsum_flat. rewrite <- lsum_scal. apply lsum_perm. apply Permutation_map. replace (n + 1)%nat with (S (S (n - 1))) by lia. apply enum_comps.
Qed.
Lemma cubature_sum : forall s n f, let '(c, w, e) := get_simplex_cubature s n in quad c w f = 2 ^ n * dsum (fun p => f (real_point n p)) (gm_items s n).
Proof.
  intros s n f. unfold get_simplex_cubature. rewrite quad_eq. set (d := fold_left _ _ _).
  rewrite (lsum_ext _ (fun pw => 2 ^ n * (snd pw * f (real_point n (fst pw))))) by (intros; ring). rewrite lsum_scal. f_equal.
  change (dsum (fun p => f (real_point n p)) (filter (fun pw => Rltb 0 (snd pw)) d ++ filter (fun pw => negb (Rltb 0 (snd pw))) d) = dsum (fun p => f (real_point n p)) (gm_items s n)).
  rewrite (split_sum (fun p => f (real_point n p)) d (fun pw => Rltb 0 (snd pw))). unfold d. rewrite (dict_sum (fun p => f (real_point n p)) (gm_items s n) []). unfold dsum at 1. cbn. lra.
Qed.
Lemma hd_lam : forall s n i b, (i <= s)%nat -> length b = (n + 1)%nat -> list_sum b = (s - i)%nat -> (1 - lsum (tl (lam s n i b))) :: tl (lam s n i b) = lam s n i b.
Proof.
  intros s n i b I L SU. assert (LS := lam_sum n b I L SU). destruct (lam s n i b) as [|x l] eqn:E; [unfold lam in E; destruct b; cbn in L; [lia|discriminate]|]. cbn [tl]. rewrite lsum_cons in LS. f_equal. lra.
Qed.
Lemma gm_bmono : forall s n al, (1 <= n)%nat -> length al = (n + 1)%nat -> list_sum al = (2 * s + 1)%nat ->
  dsum (fun p => bmono al (map (fun x => (1 - 0) / (1 - -1) * x + (1 * 0 - -1 * 1) / (1 - -1)) (real_point n p))) (gm_items s n) = lfact al / INR (fact (2 * s + 1 + n)).
Proof.
  intros s n al N L E. rewrite items_sum by auto. replace (s + 1)%nat with (S s) by lia.
  rewrite (lsum_ext _ (fun i => / 2 ^ (2 * s) / INR (fact (2 * s + 1 + n)) * ((-1) ^ i * bin (2 * s + 1 + (length al - 1)) i * fsum al (s - i)%nat))).
  - rewrite lsum_scal. rewrite gm_identity; auto; [|intros ->; cbn in L; lia]. assert (0 < 2 ^ (2 * s)) by (apply pow_lt; lra). assert (H1 := fact_INR_pos (2 * s + 1 + n)). field. lra.
  - intros i I. apply in_seq in I. rewrite (lsum_ext _ (fun b => / INR (2 * s + 1 + n - 2 * i) ^ (2 * s + 1) * mono (odds b) al)).
    + rewrite lsum_scal. unfold fsum. rewrite L. unfold gm_weight. replace (2 * s + 1 + (n + 1 - 1))%nat with (2 * s + 1 + n)%nat by lia.
      assert (B := @bin_fact (2 * s + 1 + n) i ltac:(lia)). rewrite <- B. set (f := lsum _). set (D := INR (2 * s + 1 + n - 2 * i)). assert (DP : 0 < D) by (apply lt_0_INR; lia). assert (DN : D ^ (2 * s + 1) <> 0) by (apply pow_nonzero; lra).
      assert (0 < 2 ^ (2 * s)) by (apply pow_lt; lra). assert (H1 := fact_INR_pos i). assert (H2 := fact_INR_pos (2 * s + 1 + n - i)).
      assert (BN : bin (2 * s + 1 + n) i <> 0). { intros Z. rewrite Z in B. assert (H3 := fact_INR_pos (2 * s + 1 + n)). lra. }
      field. repeat split; auto; lra.
    + intros b B. apply comps_In in B. destruct B as [LB SB]. rewrite point_val by (auto; lia). unfold bmono. rewrite hd_lam by (auto; lia). rewrite mono_lam by lia. rewrite E. ring.
Qed.
(** ** Polynomials as homogeneous polynomials of the barycentric coordinates *)
Definition homog (n d : nat) (f : list R -> R) : Prop := exists L : list (R * list nat), (forall c al, In (c, al) L -> length al = (n + 1)%nat /\ list_sum al = d) /\
  forall x, length x = n -> f x = lsum (map (fun cl => fst cl * bmono (snd cl) x) L).
Lemma homog_add : forall n d f g, homog n d f -> homog n d g -> homog n d (fun x => f x + g x).
Proof.
  intros n d f g (L & H & E) (M & K & F). exists (L ++ M). split; [intros c al I; apply in_app_or in I; destruct I; eauto|]. intros x X. rewrite map_app, lsum_app, E, F by auto. auto.
Qed.
Lemma homog_scale : forall n d c f, homog n d f -> homog n d (fun x => c * f x).
Proof.
  intros n d c f (L & H & E). exists (map (fun cl => (c * fst cl, snd cl)) L). split.
  - intros k al I. apply in_map_iff in I. destruct I as ([k' al'] & Q & I). cbn in Q. injection Q as _ <-. eauto.
  - intros x X. rewrite map_map, E, <- lsum_scal by auto. apply lsum_ext. intros. cbn [fst snd]. ring.
Qed.
Lemma homog_ext : forall n d f g, (forall x, length x = n -> f x = g x) -> homog n d f -> homog n d g.
Proof. intros n d f g Q (L & H & E). exists L. split; auto. intros x X. rewrite <- Q; auto. Qed.
Lemma mono_incr : forall al j b, length b = length al -> (j < length al)%nat -> mono b (incr j al) = nth j b 0 * mono b al.
Proof.
  unfold mono. induction al as [|a al IH]; intros j [|x b] L J; cbn [length] in *; try lia. destruct j as [|j]; cbn [incr combine map nth]; rewrite !lprod_cons; cbn [fst snd]; [cbn [pow]; ring|]. rewrite IH by lia. ring.
Qed.
Lemma homog_mul : forall n d f j, (j <= n)%nat -> homog n d f -> homog n (S d) (fun x => nth j ((1 - lsum x) :: x) 0 * f x).
Proof.
  intros n d f j J (L & H & E). exists (map (fun cl => (fst cl, incr j (snd cl))) L). split.
  - intros k al I. apply in_map_iff in I. destruct I as ([k' al'] & Q & I). cbn in Q. injection Q as <- <-. destruct (H _ _ I) as [LA SA]. rewrite incr_len, incr_sum by lia. auto.
  - intros x X. rewrite map_map, E, <- lsum_scal by auto. apply lsum_ext. intros [k al] I. cbn [fst snd]. destruct (H _ _ I) as [LA SA]. unfold bmono. rewrite mono_incr by (cbn [length]; lia). ring.
Qed.
Lemma homog_sum : forall A n d (F : A -> list R -> R) l, (forall a, In a l -> homog n d (F a)) -> homog n d (fun x => lsum (map (fun a => F a x) l)).
Proof.
  intros A n d F l. induction l as [|a l IH]; intros H.
  - exists []. split; [intros c al []|]. auto.
  - apply (@homog_ext n d (fun x => F a x + lsum (map (fun a => F a x) l))); [intros; cbn [map]; rewrite lsum_cons; auto|]. apply homog_add; [apply H; left; auto|apply IH; intros; apply H; right; auto].
Qed.
Lemma homog_raise : forall n d f, homog n d f -> homog n (S d) f.
Proof.
  intros n d f H. apply (@homog_ext n (S d) (fun x => lsum (map (fun j => nth j ((1 - lsum x) :: x) 0 * f x) (seq 0 (n + 1))))).
  - intros x X. rewrite (lsum_ext _ (fun j => f x * nth j ((1 - lsum x) :: x) 0)) by (intros; ring). rewrite lsum_scal.
    replace (n + 1)%nat with (length ((1 - lsum x) :: x)) by (cbn; lia). rewrite lsum_nth, lsum_cons. lra.
  - apply homog_sum. intros j J. apply in_seq in J. apply homog_mul; auto. lia.
Qed.
Lemma homog_const : forall n d c, homog n d (fun _ => c).
Proof.
  intros n d c. induction d as [|d IH]; [|apply homog_raise; auto]. exists [(c, repeat 0%nat (n + 1))]. split.
  - intros k al [Q|[]]. injection Q as _ <-. split; [apply repeat_length|]. clear. induction (n + 1)%nat; cbn in *; auto.
  - intros x X. cbn [map lsum fold_right fst snd]. replace (bmono (repeat 0%nat (n + 1)) x) with 1; [lra|]. unfold bmono, mono. generalize ((1 - lsum x) :: x). clear. induction (n + 1)%nat as [|m IH]; intros [|y l]; cbn [repeat combine map]; auto. rewrite lprod_cons. cbn [fst snd pow]. rewrite <- IH. lra.
Qed.
Lemma poly_homog : forall n d f, poly d f -> homog n d f.
Proof.
  intros n d f P. induction P as [d c|d f k P IH|d f g P1 IH1 P2 IH2|d f c P IH|d f g P IH E].
  - apply homog_const.
  - destruct (le_lt_dec n k) as [L|L].
    + apply (@homog_ext n (S d) (fun _ => 0)); [intros x X; rewrite nth_overflow by lia; lra|apply homog_const].
    + apply (homog_mul (j := S k)); [lia|auto].
  - apply homog_add; auto.
  - apply homog_scale; auto.
  - apply (@homog_ext n d f); auto.
Qed.
Lemma homog_le : forall n d e f, (d <= e)%nat -> homog n d f -> homog n e f.
Proof. intros n d e f L H. induction L; auto. apply homog_raise. auto. Qed.
(** ** Exactness *)
Lemma lsum_int : forall A n (F : A -> list R -> R) (v : A -> R) l, (forall a, In a l -> simplex_int n 1 (F a) (v a)) -> simplex_int n 1 (fun x => lsum (map (fun a => F a x) l)) (lsum (map v l)).
Proof.
  intros A n F v l. induction l as [|a l IH]; intros H.
  - cbn [map]. assert (M := mono_int (repeat 0%nat n)). rewrite repeat_length in M. apply (@simplex_int_scal n 1 0) in M. refine (@simplex_int_val _ _ _ _ _ _ (@simplex_int_ext n 1 _ _ _ _ M)); [cbn; lra|intros; cbn; lra].
  - cbn [map]. apply (@simplex_int_ext n 1 (fun x => 1 * F a x + 1 * lsum (map (fun a => F a x) l))); [intros; rewrite lsum_cons; lra|]. apply (@simplex_int_val n 1 _ (1 * v a + 1 * lsum (map v l))); [rewrite lsum_cons; lra|].
    apply simplex_int_lin; [apply H; left; auto|apply IH; intros; apply H; right; auto].
Qed.
Lemma bmono_int : forall n al, length al = (n + 1)%nat -> simplex_int n 1 (bmono al) (lfact al / INR (fact (list_sum al + n))).
Proof.
  intros n [|p0 ps] L; [cbn in L; lia|]. cbn [length] in L. assert (n = length ps) by lia. subst n. refine (@simplex_int_val _ _ _ _ _ _ (bary_int ps p0 Rle_0_1)).
  rewrite pow1. unfold lfact. cbn [map]. rewrite lprod_cons. change (list_sum (p0 :: ps)) with (p0 + list_sum ps)%nat. unfold Rdiv. ring.
Qed.
(** The items, transformed to the unit simplex, integrate all polynomials of degree 2 s + 1 *)
Lemma gm_exact : forall s n f, (1 <= n)%nat -> homog n (2 * s + 1) f ->
  simplex_int n 1 f (dsum (fun p => f (map (fun x => (1 - 0) / (1 - -1) * x + (1 * 0 - -1 * 1) / (1 - -1)) (real_point n p))) (gm_items s n)).
Proof.
  intros s n f N (L & H & E).
  apply (@simplex_int_ext n 1 (fun x => lsum (map (fun cl => fst cl * bmono (snd cl) x) L))); [intros; symmetry; auto|].
  set (pt := fun p => map (fun x => (1 - 0) / (1 - -1) * x + (1 * 0 - -1 * 1) / (1 - -1)) (real_point n p)).
  assert (LP : forall p, length (pt p) = n) by (intros; unfold pt, real_point; rewrite !map_length, seq_length; auto).
  apply (@simplex_int_val n 1 _ (lsum (map (fun cl => fst cl * (lfact (snd cl) / INR (fact (2 * s + 1 + n)))) L))).
  - rewrite (lsum_ext _ (fun cl => fst cl * dsum (fun p => bmono (snd cl) (pt p)) (gm_items s n))).
    + unfold dsum. rewrite (lsum_ext _ (fun cl => lsum (map (fun pw => snd pw * (fst cl * bmono (snd cl) (pt (fst pw)))) (gm_items s n)))).
      * rewrite lsum_swap. apply lsum_ext. intros pw _. rewrite lsum_scal. rewrite E by apply LP. auto.
      * intros cl _. rewrite <- lsum_scal. apply lsum_ext. intros. ring.
    + intros [c al] I. cbn [fst snd]. destruct (H _ _ I). rewrite <- gm_bmono by auto. auto.
  - apply (@lsum_int _ n (fun cl x => fst cl * bmono (snd cl) x)). intros [c al] I. cbn [fst snd]. destruct (H _ _ I) as [LA SA]. apply simplex_int_scal. rewrite <- SA. apply bmono_int. auto.
Qed.
Lemma map_combine_pts : forall A (l : list A) (c : A -> list R) (w : A -> R) (g : list R -> list R) (h : R -> R), combine (map g (map c l)) (map h (map w l)) = map (fun a => (g (c a), h (w a))) l.
Proof. intros. induction l; cbn; auto. f_equal; auto. Qed.
Lemma gm_item_pts : forall s n p, (1 <= n)%nat -> In p (map fst (gm_items s n)) -> exists i b, (i <= s)%nat /\ length b = (n + 1)%nat /\ list_sum b = (s - i)%nat /\ p = fpt s n i b.
Proof.
  intros s n p N I. apply in_map_iff in I. destruct I as ([q w] & <- & I). unfold gm_items in I. apply in_flat_map in I. destruct I as (i & Ii & I). apply in_flat_map in I. destruct I as (t & T & I). apply in_map_iff in I. destruct I as (b & Q & B). injection Q as <- _.
  apply in_seq in Ii. exists i, b. assert (C : In b (comps (n + 1) (s - i))).
  { replace (n + 1)%nat with (S (S (n - 1))) in * by lia. apply (Permutation_in b (enum_comps (n - 1) (s - i))). apply in_flat_map. eauto. }
  apply comps_In in C. repeat split; try tauto; lia.
Qed.
(** The cubature itself on the simplex given by the vertices of [-1, 1], for every dimension:
    exact up to 2 s + 1 *)
Theorem C111_cubature : forall s n p, (1 <= n)%nat -> poly (2 * s + 1) p ->
  let '(c, w, exact) := get_simplex_cubature s n in
  exact = (2 * s + 1)%nat /\ simplex_int n 1 p (quad (map (map (fun x => (x + 1) / 2)) c) (map (fun v => v / 2 ^ n) w) p).
Proof.
  intros s n p N P. assert (S := cubature_sum s n (fun x => p (map (fun x => (x + 1) / 2) x))). destruct (get_simplex_cubature s n) as [[c w] e] eqn:G. split; [unfold get_simplex_cubature in G; injection G as _ _ <-; auto|].
  assert (Q : quad (map (map (fun x => (x + 1) / 2)) c) (map (fun v => v / 2 ^ n) w) p = / 2 ^ n * quad c w (fun x => p (map (fun x => (x + 1) / 2) x))).
  { clear. unfold quad. change (fold_right Rplus 0) with lsum. revert w. induction c as [|x c IH]; intros [|v w]; cbn [map combine]; try (cbn; lra). rewrite !lsum_cons, IH. cbn [fst snd]. unfold Rdiv. ring. }
  rewrite Q, S. rewrite <- Rmult_assoc, Rinv_l by (apply pow_nonzero; lra). rewrite Rmult_1_l.
  refine (@simplex_int_val _ _ _ _ _ _ (@gm_exact s n p N (poly_homog n P))). unfold dsum. apply lsum_ext. intros pw _. do 2 f_equal. apply map_ext. intros. field.
Qed.
Lemma len_pts : forall s n, let '(c, w, e) := get_simplex_cubature s n in length c = length w.
Proof. intros. unfold get_simplex_cubature. rewrite !map_length. auto. Qed.
Lemma gm_nonempty : forall s n, (1 <= n)%nat -> let '(c, w, e) := get_simplex_cubature s n in length (nth 0 c []) = n.
Proof.
  intros s n N. unfold get_simplex_cubature. cbv zeta. set (l := _ ++ _). destruct l as [|pw l0] eqn:E; [|cbn [map nth]; unfold real_point; rewrite map_length, seq_length; auto]. exfalso.
  assert (S := split_sum (fun _ => 1) (fold_left (fun d pw => add_weight d (fst pw) (snd pw)) (gm_items s n) []) (fun pw => Rltb 0 (snd pw))). cbv beta in S. fold l in S. rewrite E in S. rewrite dict_sum in S.
  assert (X := @gm_exact s n (fun _ => 1) N (homog_const n (2 * s + 1) 1)). unfold dsum in S at 1 2. cbn [map lsum fold_right] in S.
  assert (M := mono_int (repeat 0%nat n)). rewrite repeat_length in M. assert (Z : dsum (fun _ => 1) (gm_items s n) = lfact (repeat 0%nat n) / INR (fact (list_sum (repeat 0%nat n) + n))).
  { apply (@simplex_int_unique n 1 (fun _ => 1) _ _ ltac:(lra) X). apply (@simplex_int_ext n 1 (fun x => mono x (repeat 0%nat n)) (fun _ => 1)); auto.
    intros x X1. unfold mono. revert x X1. clear. induction n; intros [|y x] X; cbn [repeat combine map]; auto; try discriminate. rewrite lprod_cons. cbn [fst snd pow]. rewrite IHn by (cbn in X; lia). lra. }
  rewrite Z in S. assert (F1 := fact_INR_pos (list_sum (repeat 0%nat n) + n)). assert (F2 : 0 < lfact (repeat 0%nat n)). { clear. unfold lfact. induction n; cbn [repeat map]; [cbn; lra|]. rewrite lprod_cons. apply Rmult_lt_0_compat; auto. cbn. lra. }
  assert (0 < lfact (repeat 0%nat n) / INR (fact (list_sum (repeat 0%nat n) + n))) by (apply Rmult_lt_0_compat; [|apply Rinv_0_lt_compat]; auto). lra.
Qed.
Theorem C111_high_orders : forall g order full, is_simplex g = true -> (max_order g < order)%nat ->
  exists qp, from_table g order full = Ok qp /\ length (qp_coors qp) = length (qp_weights qp) /\ qp_order qp = order /\
    (forall x, In x (qp_coors qp) -> unit_simplex (gdim g) x) /\
    (forall p, poly order p -> simplex_int (gdim g) 1 p (quad (qp_coors qp) (qp_weights qp) p)).
Proof.
  intros g order full SI MO. assert (N : (1 <= gdim g)%nat) by (destruct g; try discriminate; cbn; lia).
  unfold from_table. rewrite SI. replace (max_order g <? order)%nat with true by (symmetry; apply Nat.ltb_lt; auto).
  set (s := (order / 2)%nat). set (n := gdim g) in *.
  assert (EX : (order <= 2 * s + 1)%nat) by (unfold s; assert (H := Nat.div_mod order 2 ltac:(lia)); assert (M := Nat.mod_upper_bound order 2 ltac:(lia)); lia).
  assert (LN := len_pts s n). assert (NE := gm_nonempty s N).
  destruct (get_simplex_cubature s n) as [[c w] e] eqn:G. assert (e = 2 * s + 1)%nat by (unfold get_simplex_cubature in G; injection G as _ _ <-; auto). subst e.
  unfold init_coors, finish. rewrite NE. cbn [bind fst snd]. replace (order <=? 2 * s + 1)%nat with true by (symmetry; apply Nat.leb_le; auto).
  eexists. split; [reflexivity|]. cbn [qp_coors qp_weights qp_order]. split; [rewrite !map_length; auto|]. split; auto. split.
  - intros x X. apply in_map_iff in X. destruct X as (y & <- & Y). unfold get_simplex_cubature in G. injection G as <- _. apply in_map_iff in Y. destruct Y as ([p v] & <- & I). cbn [fst].
    assert (I2 : In p (map fst (gm_items s n))).
    { assert (I3 : In p (map fst (fold_left (fun d pw => add_weight d (fst pw) (snd pw)) (gm_items s n) []))).
      { apply in_map_iff. exists (p, v). split; auto. apply in_app_or in I. destruct I as [I|I]; apply filter_In in I; tauto. }
      apply dict_In in I3. destruct I3 as [I3|[]]. auto. }
    destruct (@gm_item_pts s n p N I2) as (i & b & Ii & LB & SB & ->). rewrite point_val by auto. assert (LS := lam_sum n b Ii LB SB). assert (LL : length (lam s n i b) = (n + 1)%nat) by (unfold lam; rewrite map_length; auto).
    assert (P : forall y, In y (lam s n i b) -> 0 <= y). { intros y Y. unfold lam in Y. apply in_map_iff in Y. destruct Y as (q & <- & _). apply Rmult_le_pos; [apply pos_INR|left; apply Rinv_0_lt_compat, lt_0_INR; lia]. }
    destruct (lam s n i b) as [|x0 l]; [cbn in LL; lia|]. cbn [tl length] in *. rewrite lsum_cons in LS. split; [lia|split].
    + intros k K. apply P. right. apply nth_In. lia.
    + change (fold_right Rplus 0 l) with (lsum l). assert (0 <= x0) by (apply P; left; auto). lra.
  - intros p P. assert (H := homog_le EX (poly_homog n P)). refine (@simplex_int_val _ _ _ _ _ _ (@gm_exact s n p N H)).
    assert (S := cubature_sum s n (fun x => p (map (fun x => (1 - 0) / (1 - -1) * x + (1 * 0 - -1 * 1) / (1 - -1)) x))). rewrite G in S.
    set (af := map (fun x => (1 - 0) / (1 - -1) * x + (1 * 0 - -1 * 1) / (1 - -1))) in *.
    set (t := if (n =? 2)%nat then / 2 else / 6). assert (T : t <> 0) by (unfold t; destruct (n =? 2)%nat; lra).
    transitivity (/ 2 ^ n * quad c w (fun x => p (af x))).
    + rewrite S, <- Rmult_assoc, Rinv_l by (apply pow_nonzero; lra). rewrite Rmult_1_l. auto.
    + clear - T. unfold quad. change (fold_right Rplus 0) with lsum. assert (P2 : 2 ^ n <> 0) by (apply pow_nonzero; lra). revert w. induction c as [|x c IH]; intros [|v w]; cbn [map combine]; try (cbn; lra). rewrite !lsum_cons, <- IH. cbn [fst snd]. rewrite Rmult_plus_distr_l. f_equal. rewrite pow1. replace (1 - -1) with 2 by lra. field. auto.
Qed.
(** The degree 20 rule of the triangle *)
Example C111_example : is_simplex G23 = true /\ (max_order G23 < 20)%nat /\ poly 2 (fun x => nth 0 x 0 * (nth 1 x 0 * 1)) /\ simplex_int 2 1 (fun x => mono x [1; 1]%nat) (/ 24).
Proof.
  split; [reflexivity|]. split; [cbn; lia|]. split; [apply poly_var, poly_var, poly_const|]. refine (@simplex_int_val _ _ _ _ _ _ (mono_int [1; 1]%nat)). unfold lfact. cbn. lra.
Qed.
Print Assumptions C111_cubature.
Print Assumptions C111_high_orders.
