(** The checks of the tables: rational rules by integers, the rules with square roots in an
    extension of the rationals. *)
From Coq Require Import Reals Lra QArith Qreals.
From Verif Require Import Base M_nls M_lagnodes M_lagrange P_lagnodes L_lagrange P_lagrange L_gm M_quadtab M_quad S_quad L_quadint P_cubature L_quadchk.
Set Implicit Arguments.
Open Scope R_scope.

(** ** Exact integrals *)
Fixpoint zfact (n : nat) : Z := match n with O => 1 | S m => (Z.of_nat n * zfact m)%Z end.
Lemma zfact_ok : forall n, IZR (zfact n) = INR (fact n).
Proof. induction n; [reflexivity|]. rewrite fact_simpl, mult_INR. cbn [zfact]. rewrite mult_IZR, IHn, <- INR_IZR_INZ. auto. Qed.
Lemma zfact_pos : forall n, (0 < zfact n)%Z.
Proof. intros. apply lt_IZR. rewrite zfact_ok. apply fact_INR_pos. Qed.
Definition zprod (l : list Z) : Z := fold_right Z.mul 1%Z l.
Lemma zprod_ok : forall A (f : A -> Z) l, IZR (zprod (map f l)) = lprod (map (fun a => IZR (f a)) l).
Proof. intros. induction l; cbn [map zprod fold_right]; [reflexivity|]. rewrite mult_IZR, lprod_cons. f_equal. auto. Qed.
Definition exact (k : kind) (es : list nat) : Z * Z :=
  match k with
  | Simplex n => (zprod (map zfact es), zfact (list_sum es + n))
  | Cube n => (1%Z, zprod (map (fun e => Z.of_nat (S e)) es))
  | Wedge => match es with [p; q; r] => ((zfact p * zfact q)%Z, (zfact (p + q + 2) * Z.of_nat (S r))%Z) | _ => (0%Z, 1%Z) end
  end.
Definition exactR (k : kind) (es : list nat) : R := IZR (fst (exact k es)) / IZR (snd (exact k es)).
Lemma zprod_pos : forall l, (forall z, In z l -> (0 < z)%Z) -> (0 < zprod l)%Z.
Proof. induction l as [|z l IH]; intros H; cbn [zprod fold_right]; [lia|]. apply Z.mul_pos_pos; [apply H; left; auto|apply IH; intros; apply H; right; auto]. Qed.
Lemma exact_pos : forall k es, (0 < snd (exact k es))%Z.
Proof.
  intros [n|n|] es; cbn [exact snd]; [apply zfact_pos|apply zprod_pos; intros z I; apply in_map_iff in I; destruct I as (e & <- & _); lia|].
  destruct es as [|p [|q [|r [|? ?]]]]; cbn [snd]; try lia. apply Z.mul_pos_pos; [apply zfact_pos|lia].
Qed.
Lemma exact_int : forall k es, length es = kdim k -> kind_int k (monomial es) (exactR k es).
Proof.
  intros [n|n|] es L; cbn [kdim] in L; cbn [kind_int].
  - subst n. refine (@simplex_int_val _ _ _ _ _ _ (mono_int es)). unfold exactR. cbn [exact fst snd]. rewrite zprod_ok, zfact_ok. unfold lfact. rewrite (map_ext (fun a => IZR (zfact a)) (fun a => INR (fact a))) by (apply zfact_ok). auto.
  - subst n. refine (@cube_int_val _ _ _ _ _ (mono_cube es)). unfold exactR. cbn [exact fst snd]. rewrite zprod_ok. clear. induction es as [|e es IH]; cbn [map]; [cbn; lra|]. rewrite !lprod_cons, IH. rewrite <- INR_IZR_INZ. unfold Rdiv. rewrite Rinv_mult. lra.
  - destruct es as [|p [|q [|r [|? ?]]]]; try discriminate. assert (M := mono_wedge p q r). unfold exactR. cbn [exact fst snd]. rewrite !mult_IZR, !zfact_ok, <- INR_IZR_INZ. destruct M as (g & G & I). exists g. split; [exact G|].
    refine (@is_RInt_val _ _ _ _ _ _ I). assert (H := fact_INR_pos (p + q + 2)). assert (NZ : INR (S r) <> 0) by (apply not_0_INR; lia). field. split; auto. lra.
Qed.
(** ** From monomials to polynomials *)
Lemma kind_int_lin : forall k c d f g v w, kind_int k f v -> kind_int k g w -> kind_int k (fun x => c * f x + d * g x) (c * v + d * w).
Proof. intros [n|n|] c d f g v w; [apply simplex_int_lin|apply cube_int_lin|apply wedge_int_lin]. Qed.
Lemma wedge_int_ext : forall f g v, (forall x, f x = g x) -> wedge_int f v -> wedge_int g v.
Proof. intros f g v E (h & H & I). exists h. split; auto. intros z Z. apply (@simplex_int_ext 2 1 (fun y => f (y ++ [z]))); auto. Qed.
Lemma kind_int_ext : forall k f g v, (forall x, f x = g x) -> kind_int k f v -> kind_int k g v.
Proof. intros [n|n|] f g v E; [apply simplex_int_ext|apply cube_int_ext|apply wedge_int_ext]; auto. Qed.
Lemma quad_lsum : forall c w A (F : A -> list R -> R) l, quad c w (fun x => lsum (map (fun a => F a x) l)) = lsum (map (fun a => quad c w (F a)) l).
Proof.
  intros. unfold quad. change (fold_right Rplus 0) with lsum. rewrite (lsum_swap (fun a cw => snd cw * F a (fst cw))). apply lsum_ext. intros. rewrite <- lsum_scal. auto.
Qed.
Lemma integrates_mono : forall k (ok : list nat -> Prop) tol c w, length c = length w -> (forall es, length es = kdim k -> ok es -> Rabs (quad c w (monomial es) - exactR k es) <= tol) -> integrates k ok tol c w.
Proof.
  intros k ok tol c w L H. split; auto. intros p P.
  exists (lsum (map (fun ce => fst ce * exactR k (snd ce)) p)). split.
  - clear H. induction p as [|[a es] p IH].
    + cbn [map]. assert (Z := @exact_int k (repeat 0%nat (kdim k)) (repeat_length _ _)). assert (Z2 := @kind_int_lin k 0 0 _ _ _ _ Z Z). replace (lsum []) with (0 * exactR k (repeat 0%nat (kdim k)) + 0 * exactR k (repeat 0%nat (kdim k))) by (cbn; lra). refine (@kind_int_ext _ _ _ _ _ Z2). intros. unfold polyval. cbn. lra.
    + cbn [map]. rewrite lsum_cons. cbn [fst snd]. destruct (P a es (or_introl eq_refl)) as [LE _].
      replace (a * exactR k es + lsum (map (fun ce => fst ce * exactR k (snd ce)) p)) with (a * exactR k es + 1 * lsum (map (fun ce => fst ce * exactR k (snd ce)) p)) by lra.
      refine (@kind_int_ext _ _ _ _ _ (@kind_int_lin k a 1 _ _ _ _ (@exact_int k es LE) (IH _))); [intros x; unfold polyval; cbn; lra|]. intros c0 es0 I0; apply (P c0); right; auto.
  - assert (Q : quad c w (polyval p) = lsum (map (fun ce => fst ce * quad c w (monomial (snd ce))) p)).
    { unfold polyval. change (fold_right Rplus 0) with lsum. rewrite (quad_lsum c w (fun ce x => fst ce * monomial (snd ce) x)). apply lsum_ext. intros ce _. unfold quad. change (fold_right Rplus 0) with lsum. rewrite <- lsum_scal. apply lsum_ext. intros. ring. }
    rewrite Q. clear Q. unfold coef_sum. change (fold_right Rplus 0) with lsum.
    induction p as [|[a es] p IH]; cbn [map]; [cbn; rewrite Rminus_0_r, Rabs_R0; lra|]. rewrite !lsum_cons. cbn [fst snd]. destruct (P a es (or_introl eq_refl)) as [LE OK]. specialize (H es LE OK).
    assert (I := IH (fun c0 es0 J => P c0 es0 (or_intror J))). set (X := lsum _) in *. set (Y := lsum (map (fun ce => fst ce * exactR k (snd ce)) p)) in *. set (Z := lsum (map (fun ce => Rabs (fst ce)) p)) in *.
    replace (a * quad c w (monomial es) + X - (a * exactR k es + Y)) with (a * (quad c w (monomial es) - exactR k es) + (X - Y)) by lra.
    eapply Rle_trans; [apply Rabs_triang|]. rewrite Rabs_mult. assert (A := Rabs_pos a). nra.
Qed.
Lemma integrates_sub : forall k (ok ok' : list nat -> Prop) tol tol' c w, (forall es, length es = kdim k -> ok' es -> ok es) -> tol <= tol' -> integrates k ok tol c w -> integrates k ok' tol' c w.
Proof.
  intros k ok ok' tol tol' c w H T [L I]. split; auto. intros p P. destruct (I p) as (v & V & B); [intros a es J; destruct (P a es J); auto|]. exists v. split; auto.
  eapply Rle_trans; [apply B|]. apply Rmult_le_compat_r; auto. unfold coef_sum. clear. induction p; cbn [map fold_right]; [lra|]. assert (A := Rabs_pos (fst a)). lra.
Qed.
(** ** Rational rules *)
Definition selected (k : kind) (o : nat) (es : list nat) : bool :=
  match k with
  | Wedge => (nth 0 es 0 + nth 1 es 0 <=? o)%nat && (nth 2 es 0 <=? o)%nat
  | _ => true
  end.
Definition degree_bound (k : kind) (o : nat) : nat := match k with Wedge => 2 * o | _ => o end.
Definition degree_ok (k : kind) (o : nat) (es : list nat) : Prop := match k with Wedge => wedge_degree o es | _ => total_degree o es end.
Lemma degree_sel : forall k o es, length es = kdim k -> degree_ok k o es -> (list_sum es <= degree_bound k o)%nat /\ selected k o es = true.
Proof.
  intros [n|n|] o es L D; cbn [degree_ok degree_bound selected] in *; auto. destruct D as [D1 D2]. destruct es as [|p [|q [|r [|? ?]]]]; try discriminate. cbn [nth list_sum fold_right] in *. split; [lia|]. apply andb_true_intro. split; apply Nat.leb_le; auto.
Qed.
(** the error bound is 1 / TOL *)
Definition TOL : Z := 200000000000000%Z.
Definition columns E (zero : E) (n : nat) (c : list (list E)) : list (list E) := map (fun j => map (fun r => nth j r zero) c) (seq 0 n).
Definition check_rows E (c : list (list E)) (n : nat) : bool := forallb (fun r => length r =? n)%nat c.
Lemma check_rows_ok : forall E (c : list (list E)) n, check_rows c n = true -> forall r, In r c -> length r = n.
Proof. intros E c n H r I. unfold check_rows in H. rewrite forallb_forall in H. apply Nat.eqb_eq. auto. Qed.
Lemma combine_map_seq : forall A B (a : list A) (b : list B) da db, length a = length b -> combine a b = map (fun i => (nth i a da, nth i b db)) (seq 0 (length a)).
Proof.
  intros A B a b da db L. apply nth_ext with (d := (da, db)) (d' := (da, db)); [rewrite map_length, seq_length, combine_length; lia|]. intros i I. rewrite combine_length in I. rewrite combine_nth by auto.
  rewrite nth_map_in with (da := 0%nat) by (rewrite seq_length; lia). rewrite seq_nth by lia. auto.
Qed.
Lemma prods_columns : forall E (ev : E -> R) zero (c : list (list E)) i es js, (i < length c)%nat -> length es = length js ->
  prods zero ev (map (fun j => map (fun r => nth j r zero) c) js) i es = lprod (map (fun je => ev (nth (fst je) (nth i c []) zero) ^ snd je) (combine js es)).
Proof.
  intros E ev zero c i es js I. revert es. induction js as [|j js IH]; intros [|e es] L; try discriminate; [reflexivity|]. cbn [map prods combine]. rewrite lprod_cons, IH by (cbn in L; lia). f_equal. cbn [fst snd]. unfold pw. rewrite nth_map_in with (da := []) by auto. auto.
Qed.
Lemma prods_monomial : forall E (ev : E -> R) zero (c : list (list E)) i es n, (i < length c)%nat -> length es = n -> length (nth i c []) = n ->
  prods zero ev (columns zero n c) i es = monomial es (map ev (nth i c [])).
Proof.
  intros E ev zero c i es n I L LR. unfold columns. rewrite prods_columns by (rewrite ?seq_length; auto). unfold monomial. change (fold_right Rmult 1) with lprod.
  rewrite (combine_map_seq (map ev (nth i c [])) es (ev zero) 0%nat) by (rewrite map_length; lia). rewrite (combine_map_seq (seq 0 n) es 0%nat 0%nat) by (rewrite seq_length; lia).
  rewrite !map_map, map_length, seq_length, LR. f_equal. apply map_ext_in. intros j J. apply in_seq in J. cbn [fst snd]. rewrite seq_nth by lia. rewrite (map_nth ev). auto.
Qed.
Lemma chk_quad : forall E (mul add : E -> E -> E) zero (ev : E -> R), (forall a b, ev (mul a b) = ev a * ev b) -> (forall a b, ev (add a b) = ev a + ev b) -> ev zero = 0 ->
  forall P (c : list (list E)) w n o, length c = length w -> check_rows c n = true -> chk mul add zero P (columns zero n c) w o [] = true ->
  forall es, length es = n -> (list_sum es <= o)%nat -> exists e, P es e = true /\ ev e = quad (map (map ev) c) (map ev w) (monomial es).
Proof.
  intros E mul add zero ev EM EA EZ P c w n o L RW C es LE SU. assert (RR := check_rows_ok c n RW).
  destruct (@chk_spec E mul add zero ev EM EA EZ P (columns zero n c) w o []) with (es := es) as (e & PE & V); auto.
  - intros col I. unfold columns in I. apply in_map_iff in I. destruct I as (j & <- & _). rewrite map_length. auto.
  - unfold columns. rewrite map_length, seq_length. auto.
  - exists e. split; [exact PE|]. rewrite V. unfold quad. change (fold_right Rplus 0) with lsum. rewrite (combine_map_seq (map (map ev) c) (map ev w) [] 0) by (rewrite !map_length; auto). rewrite map_map, map_length, L. apply lsum_ext. intros i I. apply in_seq in I. cbn [fst snd].
    rewrite prods_monomial by (auto; try apply RR; try apply nth_In; lia). rewrite Rmult_comm. rewrite Rmult_comm. f_equal.
    + rewrite <- (map_nth ev), EZ. auto.
    + change (@nil R) with (map ev []). rewrite (map_nth (map ev)). auto.
Qed.

(** ** Fixed point arithmetic: integers scaled by 2^72, with an error bound *)
Definition FX : Z := (2 ^ 72)%Z.
Definition fmul (a b : Z) : Z := Z.shiftr (a * b) 72.
Definition fixQ (q : Q) : Z := ((Qnum q * FX) / Z.pos (Qden q))%Z.
Lemma FX_pos : 0 < IZR FX.
Proof. apply IZR_lt. reflexivity. Qed.
Lemma fixQ_ok : forall q, IZR (fixQ q) <= Q2R q * IZR FX <= IZR (fixQ q) + 1.
Proof.
  intros [n d]. unfold fixQ, Q2R. cbn [Qnum Qden]. assert (D : 0 < IZR (Z.pos d)) by (apply IZR_lt; lia).
  assert (E := Z.div_mod (n * FX) (Z.pos d) ltac:(lia)). assert (M := Z.mod_pos_bound (n * FX) (Z.pos d) ltac:(lia)).
  set (z := (n * FX / Z.pos d)%Z) in *. set (m := ((n * FX) mod Z.pos d)%Z) in *. clearbody z m. apply (f_equal IZR) in E. rewrite mult_IZR, plus_IZR, mult_IZR in E.
  assert (M1 : 0 <= IZR m) by (apply IZR_le; lia). assert (M2 : IZR m <= IZR (Z.pos d)) by (apply IZR_le; lia).
  replace (IZR n * / IZR (Z.pos d) * IZR FX) with (IZR n * IZR FX * / IZR (Z.pos d)) by ring. rewrite E. set (y := IZR (Z.pos d)) in *.
  replace ((y * IZR z + IZR m) * / y) with (IZR z + IZR m * / y) by (field; lra). assert (0 < / y) by (apply Rinv_0_lt_compat; auto). assert (y * / y = 1) by (apply Rinv_r; lra). nra.
Qed.
Lemma fmul_ok : forall a b, IZR (fmul a b) * IZR FX <= IZR a * IZR b <= (IZR (fmul a b) + 1) * IZR FX.
Proof.
  intros a b. unfold fmul. rewrite Z.shiftr_div_pow2 by lia. change (2 ^ 72)%Z with FX. rewrite <- (mult_IZR a b). set (p := (a * b)%Z).
  assert (E := Z.div_mod p FX ltac:(discriminate)). assert (M := Z.mod_pos_bound p FX ltac:(reflexivity)). set (z := (p / FX)%Z) in *. set (m := (p mod FX)%Z) in *. clearbody z m p.
  rewrite E. rewrite plus_IZR, mult_IZR. assert (M1 : 0 <= IZR m) by (apply IZR_le; lia). assert (M2 : IZR m <= IZR FX) by (apply IZR_le; lia). lra.
Qed.
Definition near (a : R) (r : R) (z : Z) : Prop := Rabs (r * IZR FX - IZR z) <= a.
Lemma near_mul : forall a x zx y zy, 0 <= a -> Rabs x <= 1 -> near a x zx -> 0 <= y <= 1 -> (0 <= zy <= FX)%Z -> near 1 y zy -> near (a + 2) (x * y) (fmul zx zy).
Proof.
  unfold near. intros a x zx y zy A X NX Y ZY NY. assert (FP := FX_pos). assert (Z1 : 0 <= IZR zy) by (apply IZR_le; lia). assert (Z2 : IZR zy <= IZR FX) by (apply IZR_le; lia). assert (M := fmul_ok zx zy).
  set (f := IZR FX) in *. set (p := IZR (fmul zx zy)) in *.
  set (dx := x * f - IZR zx) in *. set (dy := y * f - IZR zy) in *.
  set (e := IZR zx * IZR zy - p * f). assert (E : 0 <= e <= f) by (unfold e; lra).
  assert (ID : (x * y * f - p) * f = x * f * dy + dx * IZR zy + e) by (unfold dx, dy, e; ring).
  assert (B : Rabs (x * f * dy + dx * IZR zy + e) <= (a + 2) * f).
  { eapply Rle_trans; [apply Rabs_triang|]. rewrite (Rabs_pos_eq e) by lra. assert (Rabs (x * f * dy + dx * IZR zy) <= f + a * f).
    { eapply Rle_trans; [apply Rabs_triang|]. rewrite !Rabs_mult, (Rabs_pos_eq f), (Rabs_pos_eq (IZR zy)) by lra. assert (X0 := Rabs_pos x). assert (Y0 := Rabs_pos dy). assert (D0 := Rabs_pos dx).
      assert (Rabs x * f * Rabs dy <= f) by (replace f with (1 * f * 1) at 2 by ring; apply Rmult_le_compat; try nra). assert (Rabs dx * IZR zy <= a * f) by (apply Rmult_le_compat; auto). lra. }
    lra. }
  rewrite <- ID, Rabs_mult, (Rabs_pos_eq f) in B by lra. apply Rmult_le_reg_r with f; auto.
Qed.
Definition col_ok (n : nat) (c : list Z) (q : list Q) : Prop :=
  length c = n /\ forall i, (i < n)%nat -> 0 <= Q2R (nth i q 0%Q) <= 1 /\ (0 <= nth i c 0 <= FX)%Z /\ near 1 (Q2R (nth i q 0%Q)) (nth i c 0%Z).
Lemma near_sum : forall n a (v : list Z) (f : nat -> R), length v = n -> (forall i, (i < n)%nat -> near a (f i) (nth i v 0%Z)) -> near (INR n * a) (lsum (map f (seq 0 n))) (rsum Z.add 0%Z v).
Proof.
  intros n a v. revert n. induction v as [|z v IH]; intros n f L H; cbn [length] in L; subst n.
  - unfold near. cbn. rewrite Rminus_0_r, Rmult_0_l, Rabs_R0. lra.
  - cbn [seq map]. rewrite <- seq_shift, map_map, lsum_cons. unfold rsum. cbn [fold_right]. fold (rsum Z.add 0%Z v). rewrite S_INR.
    assert (A := H 0%nat ltac:(cbn; lia)). cbn [nth] in A. assert (B := IH (length v) (fun i => f (S i)) eq_refl ltac:(intros i I; apply (H (S i)); cbn; lia)). unfold near in *. rewrite plus_IZR. set (u := lsum _) in *. set (r := rsum _ _ _) in *.
    replace ((f 0%nat + u) * IZR FX - (IZR z + IZR r)) with ((f 0%nat * IZR FX - IZR z) + (u * IZR FX - IZR r)) by ring. eapply Rle_trans; [apply Rabs_triang|]. lra.
Qed.
Lemma chk_fx : forall P n cols qcols, Forall2 (col_ok n) cols qcols -> forall v (vr : nat -> R) o ks a, 0 <= a -> length v = n -> (forall i, (i < n)%nat -> Rabs (vr i) <= 1 /\ near a (vr i) (nth i v 0%Z)) ->
  chk fmul Z.add 0%Z P cols v o ks = true -> forall es, length es = length cols -> (list_sum es <= o)%nat ->
  exists e, P (rev ks ++ es) e = true /\ near (INR n * (a + 2 * INR (list_sum es))) (lsum (map (fun i => vr i * prods 0%Q Q2R qcols i es) (seq 0 n))) e.
Proof.
  intros P n cols qcols F. induction F as [|c q cols qcols [LC CO] F IH]; intros v vr o ks a A LV NV C es L SU.
  - destruct es; [|discriminate]. exists (rsum Z.add 0%Z v). split; [rewrite app_nil_r; auto|]. cbn [list_sum fold_right INR prods]. replace (a + 2 * 0) with a by lra. rewrite (lsum_ext _ vr) by (intros; lra). apply near_sum; auto. intros i I. apply NV. auto.
  - destruct es as [|e es]; [discriminate|]. change (list_sum (e :: es)) with (e + list_sum es)%nat in *. cbn [length] in L.
    assert (G : forall o v vr k a, 0 <= a -> length v = n -> (forall i, (i < n)%nat -> Rabs (vr i) <= 1 /\ near a (vr i) (nth i v 0%Z)) ->
      (fix loop (o : nat) (v : list Z) (k : nat) : bool := chk fmul Z.add 0%Z P cols v o (k :: ks) && match o with O => true | S o => loop o (mulv fmul v c) (S k) end) o v k = true ->
      forall e, (e + list_sum es <= o)%nat -> exists x, P (rev ks ++ (k + e)%nat :: es) x = true /\ near (INR n * (a + 2 * INR (e + list_sum es))) (lsum (map (fun i => vr i * (Q2R (nth i q 0%Q) ^ e * prods 0%Q Q2R qcols i es)) (seq 0 n))) x).
    { clear v vr o a A LV NV C SU e.
      assert (BASE : forall o v vr k a, 0 <= a -> length v = n -> (forall i, (i < n)%nat -> Rabs (vr i) <= 1 /\ near a (vr i) (nth i v 0%Z)) -> chk fmul Z.add 0%Z P cols v o (k :: ks) = true -> (list_sum es <= o)%nat ->
        exists x, P (rev ks ++ (k + 0)%nat :: es) x = true /\ near (INR n * (a + 2 * INR (0 + list_sum es))) (lsum (map (fun i => vr i * (Q2R (nth i q 0%Q) ^ 0 * prods 0%Q Q2R qcols i es)) (seq 0 n))) x).
      { intros o v vr k a A LV NV C SU. destruct (IH v vr o (k :: ks) a A LV NV C es ltac:(lia) SU) as (x & X & V). exists x. cbn [rev] in X. rewrite <- app_assoc in X. cbn [app] in X. rewrite Nat.add_0_r. split; auto.
        rewrite (lsum_ext _ (fun i => vr i * prods 0%Q Q2R qcols i es)) by (intros; cbn [pow]; lra). exact V. }
      induction o as [|o IHo]; intros v vr k a A LV NV C e SU.
      - apply andb_prop in C. destruct C as [C _]. assert (e = O) by lia. subst e. apply (BASE 0%nat v vr k a); auto.
      - apply andb_prop in C. destruct C as [C1 C2]. destruct e as [|e]; [apply (BASE (S o) v vr k a); auto|].
        destruct (IHo (mulv fmul v c) (fun i => vr i * Q2R (nth i q 0%Q)) (S k) (a + 2)) with (e := e) as (x & X & V); auto; [lra|rewrite mulv_len; lia| |lia|].
        + intros i I. destruct (NV i I) as [N1 N2]. destruct (CO i I) as (Q1 & Q2 & Q3). split.
          * rewrite Rabs_mult, (Rabs_pos_eq (Q2R _)) by lra. assert (Z := Rabs_pos (vr i)). replace 1 with (1 * 1) by ring. apply Rmult_le_compat; lra.
          * rewrite mulv_nth by lia. apply near_mul; auto.
        + exists x. replace (k + S e)%nat with (S k + e)%nat by lia. split; auto. replace (a + 2 * INR (S e + list_sum es)) with (a + 2 + 2 * INR (e + list_sum es)) by (rewrite !plus_INR, S_INR; ring).
          rewrite (lsum_ext _ (fun i => vr i * Q2R (nth i q 0%Q) * (Q2R (nth i q 0%Q) ^ e * prods 0%Q Q2R qcols i es))) by (intros; cbn [pow]; ring). exact V. }
    destruct (G o v vr O a A LV NV C e ltac:(lia)) as (x & X & V). exists x. split; auto.
Qed.
(** ** The check *)
Definition within (k : kind) (o n : nat) (es : list nat) (z : Z) : bool :=
  negb (selected k o es) ||
  (let '(x, d) := exact k es in (Z.abs (z * d - x * FX) * TOL + Z.of_nat (n * (1 + 2 * list_sum es)) * d * TOL <=? d * FX)%Z).
Definition unitQ (q : Q) : bool := ((0 <=? Qnum q) && (Qnum q <=? Z.pos (Qden q)))%Z.
Lemma unitQ_ok : forall q, unitQ q = true -> 0 <= Q2R q <= 1.
Proof.
  intros [n d] H. unfold unitQ in H. cbn [Qnum Qden] in H. apply andb_prop in H. destruct H as [H1 H2]. apply Z.leb_le, IZR_le in H1. apply Z.leb_le, IZR_le in H2. unfold Q2R. cbn [Qnum Qden]. assert (D : 0 < IZR (Z.pos d)) by (apply IZR_lt; lia). assert (0 < / IZR (Z.pos d)) by (apply Rinv_0_lt_compat; auto). assert (IZR (Z.pos d) * / IZR (Z.pos d) = 1) by (apply Rinv_r; lra). nra.
Qed.
Lemma unitQ_fix : forall q, unitQ q = true -> (0 <= fixQ q <= FX)%Z.
Proof.
  intros [n d] H. unfold unitQ in H. cbn [Qnum Qden] in H. apply andb_prop in H. destruct H as [H1 H2]. apply Z.leb_le in H1. apply Z.leb_le in H2. unfold fixQ. cbn [Qnum Qden]. assert (0 < FX)%Z by reflexivity. split; [apply Z.div_pos; nia|]. apply Z.div_le_upper_bound; nia.
Qed.
Definition check_q (k : kind) (o : nat) (c : list (list Q)) (w : list Q) : bool :=
  check_rows c (kdim k) && forallb (forallb unitQ) c && forallb (fun q => unitQ q || unitQ (- q)%Q) w && (length c =? length w)%nat &&
  chk fmul Z.add 0%Z (within k o (length w)) (columns 0%Z (kdim k) (map (map fixQ) c)) (map fixQ w) (degree_bound k o) [].
Lemma nth_fix : forall l i, nth i (map fixQ l) 0%Z = fixQ (nth i l 0%Q).
Proof. intros. change 0%Z with (fixQ 0). rewrite map_nth. auto. Qed.
Lemma near_fix : forall q, near 1 (Q2R q) (fixQ q).
Proof. intros q. unfold near. assert (H := fixQ_ok q). apply Rabs_le. lra. Qed.
Lemma check_q_ok : forall k o c w, check_q k o c w = true -> integrates k (degree_ok k o) (/ IZR TOL) (map (map Q2R) c) (map Q2R w).
Proof.
  intros k o c w C. unfold check_q in C. repeat (apply andb_prop in C; destruct C as [C ?C]). apply Nat.eqb_eq in C1. rewrite forallb_forall in C2, C3. assert (CR := check_rows_ok _ _ C).
  apply integrates_mono; [rewrite !map_length; auto|]. intros es LE OK. apply degree_sel in OK; auto. destruct OK as [SU SE].
  destruct (@chk_fx (within k o (length w)) (length w) (columns 0%Z (kdim k) (map (map fixQ) c)) (columns 0%Q (kdim k) c)) with (v := map fixQ w) (vr := fun i => Q2R (nth i w 0%Q)) (o := degree_bound k o) (ks := @nil nat) (a := 1) (es := es) as (e & PE & V); auto; try lra.
  { unfold columns. generalize (seq 0 (kdim k)). intros js. induction js as [|j js IH]; cbn [map]; constructor; auto. split; [rewrite !map_length; auto|]. intros i I.
    rewrite map_map. rewrite nth_map_in with (da := []) by lia. rewrite nth_map_in with (da := []) by lia. rewrite nth_fix.
    assert (U : unitQ (nth j (nth i c []) 0%Q) = true). { assert (IR : In (nth i c []) c) by (apply nth_In; lia). specialize (C3 _ IR). rewrite forallb_forall in C3. destruct (nth_in_or_default j (nth i c []) 0%Q) as [J|J]; [apply C3; auto|rewrite J; reflexivity]. }
    split; [apply unitQ_ok; auto|split; [apply unitQ_fix; auto|apply near_fix]]. }
  { rewrite map_length. auto. }
  { intros i I. rewrite nth_fix. split; [|apply near_fix]. specialize (C2 (nth i w 0%Q) ltac:(apply nth_In; auto)). cbv beta in C2. apply orb_prop in C2. destruct C2 as [U|U]; apply unitQ_ok in U; [|rewrite Q2R_opp in U]; apply Rabs_le; lra. }
  { unfold columns. rewrite map_length, seq_length. auto. }
  set (q := quad (map (map Q2R) c) (map Q2R w) (monomial es)).
  assert (V2 : Rabs (q * IZR FX - IZR e) <= INR (length w) * (1 + 2 * INR (list_sum es))).
  { replace q with (lsum (map (fun i => Q2R (nth i w 0%Q) * prods 0%Q Q2R (columns 0%Q (kdim k) c) i es) (seq 0 (length w)))); [exact V|]. unfold q, quad. change (fold_right Rplus 0) with lsum.
    rewrite (combine_map_seq (map (map Q2R) c) (map Q2R w) [] 0) by (rewrite !map_length; auto). rewrite !map_map, !map_length, <- C1. apply lsum_ext. intros i I. apply in_seq in I. cbn [fst snd].
    rewrite prods_monomial by (auto; try apply CR; try apply nth_In; lia). rewrite nth_map_in with (da := 0%Q) by lia. rewrite nth_map_in with (da := []) by lia. auto. }
  cbn [rev app] in PE. unfold within in PE. rewrite SE in PE. cbn [negb orb] in PE. unfold exactR. destruct (exact k es) as [x d] eqn:EX. cbn [fst snd]. assert (DP := exact_pos k es). rewrite EX in DP. cbn [snd] in DP. apply Z.leb_le in PE.
  apply IZR_le in PE. rewrite plus_IZR, !mult_IZR, <- Rabs_Zabs, minus_IZR, !mult_IZR, <- INR_IZR_INZ, mult_INR, plus_INR, mult_INR in PE. replace (INR 1) with 1 in PE by reflexivity. replace (INR 2) with 2 in PE by (cbn; lra).
  apply IZR_lt in DP. assert (TP : 0 < IZR TOL) by (apply IZR_lt; reflexivity). assert (FP := FX_pos). set (err := INR (length w) * (1 + 2 * INR (list_sum es))) in *. set (f := IZR FX) in *. set (t := IZR TOL) in *. set (y := IZR d) in *. set (z := IZR e) in *. set (u := IZR x) in *.
  assert (B : Rabs ((q - u / y) * (f * y)) <= err * y + Rabs (z * y - u * f)).
  { replace ((q - u / y) * (f * y)) with ((q * f - z) * y + (z * y - u * f)) by (field; lra). eapply Rle_trans; [apply Rabs_triang|]. rewrite Rabs_mult, (Rabs_pos_eq y) by lra. nra. }
  rewrite Rabs_mult, (Rabs_pos_eq (f * y)) in B by nra. set (X := Rabs (q - u / y)) in *. set (W := Rabs (z * y - u * f)) in *.
  assert (X * t <= 1). { apply Rmult_le_reg_r with (f * y); [nra|]. apply Rle_trans with ((err * y + W) * t); [replace (X * t * (f * y)) with (X * (f * y) * t) by ring; apply Rmult_le_compat_r; lra|]. lra. }
  apply Rmult_le_reg_r with t; auto. rewrite Rinv_l by lra. auto.
Qed.
