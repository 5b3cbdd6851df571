(** C40 (sym2dim), C42, C70: units of physical quantities. *)
From Coq Require Import Reals List ZArith Ascii String Lia Lra Sorted Permutation.
From Verif Require Import M_elast M_units.
Import ListNotations.
Set Implicit Arguments.
Open Scope R_scope.

(** ** C40: sym2dim *)
Lemma tri_double d : (2 * ((d + 1) * d / 2) = (d + 1) * d)%nat.
Proof.
pose proof (Nat.div_mod ((d + 1) * d) 2 ltac:(lia)) as E.
assert (M : (((d + 1) * d) mod 2 = 0)%nat).
{ apply Nat.mod_divide; [lia|]. destruct (Nat.Even_or_Odd d) as [[k H]|[k H]]; subst.
  - exists ((2 * k + 1) * k)%nat. ring.
  - exists ((k + 1) * (2 * k + 1))%nat. ring. }
lia.
Qed.
Theorem C40_sym2dim sym d : sym2dim sym = Some d <-> ((d + 1) * d / 2 = sym)%nat.
Proof.
unfold sym2dim. split.
- destruct (Nat.eqb_spec ((Z.to_nat (Int_part (- (1 / 2) + sqrt (2 * INR sym + 1 / 4))) + 1) * Z.to_nat (Int_part (- (1 / 2) + sqrt (2 * INR sym + 1 / 4))) / 2) sym) as [E|E]; [|discriminate].
  intros H. injection H as <-. exact E.
- intros H.
  assert (E : sqrt (2 * INR sym + 1 / 4) = INR d + 1 / 2).
  { assert (H2 : 2 * INR sym = (INR d + 1) * INR d).
    { pose proof (tri_double d) as T. rewrite H in T. apply (f_equal INR) in T.
      rewrite !mult_INR, plus_INR in T. simpl in T. exact T. }
    pose proof (pos_INR d).
    replace (2 * INR sym + 1 / 4) with ((INR d + 1 / 2) * (INR d + 1 / 2)) by (rewrite H2; field).
    apply sqrt_square. lra. }
  rewrite E. replace (- (1 / 2) + (INR d + 1 / 2)) with (INR d) by field.
  rewrite INR_IZR_INZ. unfold Int_part.
  rewrite <- (tech_up (IZR (Z.of_nat d)) (Z.of_nat d + 1)) by (rewrite plus_IZR; lra).
  replace (Z.of_nat d + 1 - 1)%Z with (Z.of_nat d) by lia.
  rewrite Nat2Z.id, H, Nat.eqb_refl. reflexivity.
Qed.
Corollary C40_sym2dim_dim2sym d : sym2dim ((d + 1) * d / 2) = Some d.
Proof. now apply C40_sym2dim. Qed.
Corollary C40_sym2dim_rejects sym : (forall d, ((d + 1) * d / 2 <> sym)%nat) -> sym2dim sym = None.
Proof.
intros H. destruct (sym2dim sym) as [d|] eqn:E; [|reflexivity].
apply C40_sym2dim in E. now elim (H d).
Qed.
Example C40_rejects_ex : sym2dim 4 = None /\ sym2dim 6 = Some 3%nat.
Proof.
split; [|now apply C40_sym2dim].
apply C40_sym2dim_rejects. intros [|[|[|d]]]; try discriminate.
pose proof (tri_double (S (S (S d)))). lia.
Qed.

(** ** C42 *)
(** Physical dimensions: exponents of time, length and mass, from the definitions
    of the quantities. *)
Definition dim := (Z * Z * Z)%type.
Definition dmul (x y : dim) : dim := let '(a, b, c) := x in let '(a', b', c') := y in (a + a', b + b', c + c')%Z.
Definition dinv (x : dim) : dim := let '(a, b, c) := x in (- a, - b, - c)%Z.
Definition ddiv x y := dmul x (dinv y).
Definition dT : dim := (1, 0, 0)%Z.
Definition dL : dim := (0, 1, 0)%Z.
Definition dM : dim := (0, 0, 1)%Z.
Definition d1 : dim := (0, 0, 0)%Z.
Definition d_force := ddiv (dmul dM dL) (dmul dT dT).
Definition d_stress := ddiv d_force (dmul dL dL).
Definition dims (k : kind) : dim :=
  match k with
  | One => d1 | Time => dT | Length => dL | Mass => dM
  | Frequency => ddiv d1 dT                           (* 1 / time *)
  | WaveNumber => ddiv d1 dL                          (* 1 / length *)
  | Velocity => ddiv dL dT                            (* length / time *)
  | Acceleration => ddiv (ddiv dL dT) dT              (* velocity / time *)
  | Density => ddiv dM (dmul dL (dmul dL dL))         (* mass / volume *)
  | Force => d_force                                  (* mass * acceleration *)
  | Stress => d_stress                                (* force / area *)
  | DynViscosity => dmul d_stress dT                  (* stress * time *)
  | Compressibility => ddiv d1 d_stress               (* 1 / stress *)
  | Energy => dmul d_force dL                         (* force * length *)
  end.
(** The numerical value of a quantity expressed in units a, b, c times larger. *)
Definition scale (a b c : R) (d : dim) : R := let '(t, l, m) := d in powerRZ a (- t) * powerRZ b (- l) * powerRZ c (- m).

Lemma rdiv_ok x y : y <> 0 -> rdiv x y = Some (x / y).
Proof. intros H. unfold rdiv. now destruct (Req_EM_T y 0). Qed.
Section Mult.
Variables a b c : R.
Hypothesis Ha : a <> 0.
Hypothesis Hb : b <> 0.
Hypothesis Hc : c <> 0.
Lemma inv_ok x y : x <> 0 -> y <> 0 -> (let! z := rdiv x y in rdiv 1 z) = Some (y / x).
Proof.
intros Hx Hy. rewrite rdiv_ok by assumption. simpl. rewrite rdiv_ok.
- f_equal. field. auto.
- unfold Rdiv. apply Rmult_integral_contrapositive_currified; [assumption|now apply Rinv_neq_0_compat].
Qed.
Ltac nz := repeat apply Rmult_integral_contrapositive_currified; try apply pow_nonzero; auto; try lra.
Theorem C42_coef k : coef a b c k = Some (scale a b c (dims k)).
Proof.
destruct k; cbn [coef]; first [rewrite inv_ok by nz | rewrite rdiv_ok by nz]; f_equal; unfold scale; simpl; field; auto.
Qed.
Lemma scale_mul x y : scale a b c (dmul x y) = scale a b c x * scale a b c y.
Proof.
destruct x as [[t l] m], y as [[t' l'] m']. unfold scale, dmul.
rewrite !Z.opp_add_distr, !powerRZ_add by assumption. ring.
Qed.
Lemma powerRZ_ne0 x z : x <> 0 -> powerRZ x z <> 0.
Proof. intros; apply powerRZ_NOR; assumption. Qed.
Lemma scale_ne0 x : scale a b c x <> 0.
Proof. destruct x as [[t l] m]. unfold scale. repeat apply Rmult_integral_contrapositive_currified; apply powerRZ_NOR; assumption. Qed.
Lemma scale_inv x : scale a b c (dinv x) = / scale a b c x.
Proof.
apply Rmult_eq_reg_r with (scale a b c x); [|apply scale_ne0].
rewrite Rinv_l by apply scale_ne0. rewrite <- scale_mul.
destruct x as [[t l] m]. unfold dinv, dmul, scale.
replace (- t + t)%Z with 0%Z by lia. replace (- l + l)%Z with 0%Z by lia. replace (- m + m)%Z with 0%Z by lia.
simpl. ring.
Qed.
(** the values are scaled item by item by the factors of the dimensions *)
Lemma kinds_ok : forallb (fun k => is_some (coef a b c k)) all_kinds = true.
Proof. apply forallb_forall. intros k _. now rewrite C42_coef. Qed.
Theorem C42_apply values kinds : 
  apply_unit_multipliers values kinds (a, b, c) =
    if (List.length kinds <=? List.length values)%nat
    then Some (map (fun x => scale a b c (dims (fst x)) * snd x) (combine kinds values)) else None.
Proof.
unfold apply_unit_multipliers. rewrite kinds_ok. revert values. induction kinds as [|k ks IH]; intros [|v vs]; simpl; auto.
rewrite C42_coef. simpl. rewrite IH. simpl. destruct (Nat.leb _ _); reflexivity.
Qed.
(** products and quotients of scaled values are the scaled products and quotients *)
Theorem C42_consistent k1 k2 k3 x y x' y' z' : 
  apply_unit_multipliers [x; y] [k1; k2] (a, b, c) = Some [x'; y'] ->
  (dims k3 = dmul (dims k1) (dims k2) -> apply_unit_multipliers [x * y] [k3] (a, b, c) = Some [z'] -> z' = x' * y') /\
  (y <> 0 -> dims k3 = ddiv (dims k1) (dims k2) -> apply_unit_multipliers [x / y] [k3] (a, b, c) = Some [z'] -> z' = x' / y').
Proof.
rewrite !C42_apply. cbn. intros H. injection H as <- <-. split.
- intros E H. injection H as <-. rewrite E, scale_mul. ring.
- intros Hy E H. injection H as <-. rewrite E. unfold ddiv. rewrite scale_mul, scale_inv. field. split; [assumption|apply scale_ne0].
Qed.
End Mult.

(** Changing the units twice is changing them once by the products; the inverse
    multipliers restore the values. *)
Lemma scale_comp a b c a' b' c' d : a <> 0 -> b <> 0 -> c <> 0 -> a' <> 0 -> b' <> 0 -> c' <> 0 ->
  scale a' b' c' d * scale a b c d = scale (a * a') (b * b') (c * c') d.
Proof.
intros. destruct d as [[t l] m]. unfold scale. rewrite !powerRZ_mult_distr by (try assumption; auto). ring.
Qed.
Theorem C42_compose a b c a' b' c' values kinds values' :
  a <> 0 -> b <> 0 -> c <> 0 -> a' <> 0 -> b' <> 0 -> c' <> 0 ->
  apply_unit_multipliers values kinds (a, b, c) = Some values' ->
  apply_unit_multipliers values' kinds (a', b', c') = apply_unit_multipliers values kinds (a * a', b * b', c * c').
Proof.
intros. rewrite C42_apply in H5 |- * by assumption.
rewrite C42_apply by (apply Rmult_integral_contrapositive_currified; assumption).
destruct (Nat.leb_spec (List.length kinds) (List.length values)) as [L|L]; [|discriminate].
injection H5 as <-. rewrite map_length, combine_length, Nat.min_l, Nat.leb_refl by assumption.
f_equal. clear L. revert values. induction kinds as [|k ks IH]; intros [|v vs]; simpl; auto.
f_equal; [|apply IH]. rewrite <- Rmult_assoc, scale_comp by assumption. reflexivity.
Qed.
Theorem C42_restore a b c values kinds values' : a <> 0 -> b <> 0 -> c <> 0 -> List.length kinds = List.length values ->
  apply_unit_multipliers values kinds (a, b, c) = Some values' ->
  apply_unit_multipliers values' kinds (1 / a, 1 / b, 1 / c) = Some values.
Proof.
intros Ha Hb Hc L E.
assert (I : forall x, x <> 0 -> 1 / x <> 0) by (intros; unfold Rdiv; rewrite Rmult_1_l; now apply Rinv_neq_0_compat).
rewrite (@C42_compose a b c (1 / a) (1 / b) (1 / c) values kinds values') by auto.
replace (a * (1 / a)) with 1 by (field; assumption). replace (b * (1 / b)) with 1 by (field; assumption).
replace (c * (1 / c)) with 1 by (field; assumption).
rewrite C42_apply by lra. rewrite L, Nat.leb_refl. f_equal.
clear E. revert values L. induction kinds as [|k ks IH]; intros [|v vs] L; simpl in *; try discriminate; auto.
f_equal; [|apply IH; lia].
replace (scale 1 1 1 (dims k)) with 1; [ring|].
destruct (dims k) as [[t l] m]. unfold scale. rewrite !powerRZ_R1. ring.
Qed.
(** a zero multiplier is an error, whatever the kinds *)
Theorem C42_zero a b c values kinds : a = 0 \/ b = 0 \/ c = 0 -> apply_unit_multipliers values kinds (a, b, c) = None.
Proof.
intros H. unfold apply_unit_multipliers.
replace (forallb (fun k => is_some (coef a b c k)) all_kinds) with false; [reflexivity|].
symmetry. apply Bool.not_true_is_false. intros E. rewrite forallb_forall in E.
assert (Z0 : rdiv 1 0 = None) by (unfold rdiv; destruct (Req_EM_T 0 0); congruence).
destruct H as [-> | [-> | ->]];
  [specialize (E Time)|specialize (E Length)|specialize (E Mass)]; cbn [coef] in E; rewrite Z0 in E;
  (assert (false = true) by (apply E; simpl; tauto)); discriminate.
Qed.
(** dictionaries of parameters: the same keys in the same order, each value scaled
    according to its kind *)
Theorem C42_pars a b c pars kinds : a <> 0 -> b <> 0 -> c <> 0 ->
  apply_units_to_pars pars kinds (a, b, c) =
    all_some (map (fun x => match lookup (fst x) kinds with
                            | Some k => Some (fst x, scale a b c (dims k) * snd x)
                            | None => None end) pars).
Proof.
intros Ha Hb Hc. unfold apply_units_to_pars.
assert (G : forall (pars : list (string * R)) ks, all_some (map (fun x => lookup (fst x) kinds) pars) = Some ks -> List.length ks = List.length pars).
{ intros p. induction p as [|x p IH]; simpl; intros ks H; [now injection H as <-|].
  destruct (lookup (fst x) kinds); simpl in H; [|discriminate].
  destruct (all_some _) as [l|] eqn:E; simpl in H; [|discriminate]. injection H as <-. simpl. f_equal. now apply IH. }
induction pars as [|[n v] p IH].
- cbn [map all_some bind]. rewrite (C42_apply Ha Hb Hc). reflexivity.
- cbn [map all_some fst snd]. destruct (lookup n kinds) as [k|]; cbn [bind]; [|reflexivity].
  destruct (all_some (map (fun x => lookup (fst x) kinds) p)) as [ks|] eqn:E; cbn [bind] in *.
  + apply G in E. rewrite C42_apply in * by assumption. simpl in *. rewrite map_length, E, Nat.leb_refl in *. cbn [bind] in *.
    rewrite <- IH. reflexivity.
  + rewrite <- IH. reflexivity.
Qed.
Example C42_ex : apply_units_to_pars [("rho", 7850); ("E", 2)]%string [("E", Stress); ("rho", Density)]%string (1, 2, 1)
  = Some [("rho", 8 * 7850); ("E", 2 * 2)]%string.
Proof. rewrite C42_pars by lra. unfold scale. simpl. do 3 f_equal; [|f_equal]; f_equal; field. Qed.

(** ** C70: units *)
(** the parts make up the name; the unit is not empty; the prefix is the longest one *)
Lemma str_leb_refl s : str_leb s s = true.
Proof. induction s as [|x s IH]; simpl; auto. now rewrite N.ltb_irrefl. Qed.
Lemma str_leb_trans s : forall t u, str_leb s t = true -> str_leb t u = true -> str_leb s u = true.
Proof.
induction s as [|x s IH]; intros [|y t] [|z u]; simpl; auto; try discriminate.
destruct (N.ltb_spec (N_of_ascii x) (N_of_ascii y)).
- intros _. destruct (N.ltb_spec (N_of_ascii y) (N_of_ascii z)).
  + destruct (N.ltb_spec (N_of_ascii x) (N_of_ascii z)); auto; lia.
  + destruct (N.ltb_spec (N_of_ascii z) (N_of_ascii y)); [discriminate|].
    destruct (N.ltb_spec (N_of_ascii x) (N_of_ascii z)); auto; lia.
- destruct (N.ltb_spec (N_of_ascii y) (N_of_ascii x)); [discriminate|].
  intros L. destruct (N.ltb_spec (N_of_ascii y) (N_of_ascii z)).
  + destruct (N.ltb_spec (N_of_ascii x) (N_of_ascii z)); auto; lia.
  + destruct (N.ltb_spec (N_of_ascii z) (N_of_ascii y)); [discriminate|].
    destruct (N.ltb_spec (N_of_ascii x) (N_of_ascii z)); auto; try lia.
    destruct (N.ltb_spec (N_of_ascii z) (N_of_ascii x)); try lia. now apply IH.
Qed.
Lemma str_leb_total s : forall t, str_leb s t = false -> str_leb t s = true.
Proof.
induction s as [|x s IH]; intros [|y t]; simpl; auto; try discriminate.
destruct (N.ltb_spec (N_of_ascii x) (N_of_ascii y)); [discriminate|].
destruct (N.ltb_spec (N_of_ascii y) (N_of_ascii x)); auto.
Qed.
Lemma in_insert x y l : In y (insert_desc x l) <-> y = x \/ In y l.
Proof. induction l as [|z l IH]; simpl; [intuition (subst; auto)|]. destruct (str_leb z x); simpl; rewrite ?IH; intuition (subst; auto). Qed.
Lemma in_sort x l : In x (sort_desc l) <-> In x l.
Proof. induction l as [|y l IH]; simpl; [tauto|]. rewrite in_insert, IH. intuition (subst; auto). Qed.
Lemma sort_sorted l : StronglySorted (fun s t => str_leb t s = true) (sort_desc l).
Proof.
induction l as [|x l IH]; simpl; [constructor|].
assert (G : forall m, StronglySorted (fun s t => str_leb t s = true) m -> StronglySorted (fun s t => str_leb t s = true) (insert_desc x m)).
{ induction m as [|y m IHm]; intros Hm; simpl; [repeat constructor|].
  inversion Hm; subst. destruct (str_leb y x) eqn:E.
  - constructor; [assumption|]. constructor; [assumption|]. apply Forall_forall. intros z Hz. rewrite Forall_forall in H2. eapply str_leb_trans; eauto.
  - constructor; [now apply IHm|]. apply Forall_forall. intros z Hz. apply in_insert in Hz as [->|Hz].
    + now apply str_leb_total.
    + rewrite Forall_forall in H2. auto. }
auto.
Qed.
Lemma starts_split p s : starts_with p s = true <-> exists r, s = p ++ r.
Proof.
revert s. induction p as [|x p IH]; intros [|y s]; simpl; split; intros H; eauto; try discriminate.
- destruct H; discriminate.
- apply Bool.andb_true_iff in H as [E H]. apply Ascii.eqb_eq in E as ->. apply IH in H as [r ->]. eauto.
- destruct H as [r E]. injection E as -> ->. rewrite Ascii.eqb_refl. simpl. apply IH. eauto.
Qed.
Lemma prefix_leb p q r s : p ++ r = q ++ s -> (List.length p <= List.length q)%nat -> str_leb p q = true.
Proof.
revert q. induction p as [|x p IH]; intros [|y q] E L; simpl in *; auto; try lia.
injection E as -> E. rewrite N.ltb_irrefl. apply IH; auto. lia.
Qed.
Lemma leb_antisym s : forall t, str_leb s t = true -> str_leb t s = true -> s = t.
Proof.
induction s as [|x s IH]; intros [|y t]; simpl; auto; try discriminate.
destruct (N.ltb_spec (N_of_ascii x) (N_of_ascii y)).
- destruct (N.ltb_spec (N_of_ascii y) (N_of_ascii x)); try lia; try discriminate.
- destruct (N.ltb_spec (N_of_ascii y) (N_of_ascii x)); [discriminate|].
  intros A B. f_equal; auto. assert (N_of_ascii x = N_of_ascii y) by lia.
  rewrite <- (ascii_N_embedding x), <- (ascii_N_embedding y). congruence.
Qed.
Definition fits (p name : str) : Prop := exists u, name = p ++ u /\ u <> [].
Lemma fits_dec p name : (starts_with p name && (List.length p <? List.length name)%nat)%bool = true <-> fits p name.
Proof.
rewrite Bool.andb_true_iff, starts_split, Nat.ltb_lt. split.
- intros [[r ->] L]. exists r. split; auto. intros ->. rewrite app_nil_r in L. lia.
- intros [u [-> N]]. split; eauto. rewrite app_length. destruct u; simpl; [congruence|lia].
Qed.
Theorem C70_unit keys name : In [] keys -> name <> [] ->
  name = unit_prefix keys name ++ unit_unit keys name /\
  In (unit_prefix keys name) keys /\ unit_unit keys name <> [] /\
  forall q, In q keys -> fits q name -> (List.length q <= List.length (unit_prefix keys name))%nat.
Proof.
intros H0 Hn.
assert (G : forall l last, StronglySorted (fun s t => str_leb t s = true) l -> In [] l ->
  In (find_prefix l last name) l /\ fits (find_prefix l last name) name /\
  forall q, In q l -> fits q name -> (List.length q <= List.length (find_prefix l last name))%nat).
{ induction l as [|p l IH]; intros last Hs Hin; [elim Hin|].
  inversion Hs as [|? ? Hs1 Hs2]; subst. simpl.
  destruct (starts_with p name && (List.length p <? List.length name)%nat)%bool eqn:E.
  - apply fits_dec in E. split; [now left|split; [assumption|]].
    intros q [->|Hq] Fq; [lia|].
    destruct (Nat.le_gt_cases (List.length q) (List.length p)) as [|L]; [assumption|exfalso].
    rewrite Forall_forall in Hs2. pose proof (Hs2 q Hq) as A.
    destruct E as [u [E _]], Fq as [u' [E' _]].
    assert (B : str_leb p q = true) by (eapply (@prefix_leb p q u u'); [congruence|lia]).
    pose proof (leb_antisym _ _ A B). subst. lia.
  - destruct Hin as [->|Hin].
    + exfalso. assert (F : fits [] name) by (exists name; auto). apply fits_dec in F. congruence.
    + destruct (IH p Hs1 Hin) as [A [B C]]. split; [now right|split; [assumption|]].
      intros q [->|Hq] Fq; [apply fits_dec in Fq; congruence|now apply C]. }
destruct (G (sort_desc keys) [] (sort_sorted keys)) as [A [B C]]; [now apply in_sort|].
destruct B as [u [E N]]. unfold unit_unit, unit_prefix in *.
assert (S : skipn (List.length (find_prefix (sort_desc keys) [] name)) name = u).
{ rewrite E at 2. rewrite skipn_app, skipn_all, Nat.sub_diag. reflexivity. }
rewrite S. split; [exact E|]. split; [now apply in_sort|]. split; [assumption|].
intros q Hq. apply C. now apply in_sort.
Qed.
Definition keys_ex : list str := map (fun x => list_ascii_of_string (fst x)) named_prefixes.
Example C70_ex_mm : unit_prefix keys_ex (list_ascii_of_string "mm") = list_ascii_of_string "m"
  /\ unit_prefix keys_ex (list_ascii_of_string "m") = [] /\ unit_prefix keys_ex (list_ascii_of_string "mum") = list_ascii_of_string "mu".
Proof. repeat split. Qed.

(** get_prefix(): coef = mul * prefix; the prefix is one of the allowed ones, and the
    smallest one that is at least bias * coef (if there is any) *)
Lemma searchsorted_spec l x : StronglySorted Rle l ->
  (searchsorted l x <= List.length l)%nat /\
  (forall i, (i < searchsorted l x)%nat -> nth i l 0 < x) /\
  (forall i, (searchsorted l x <= i < List.length l)%nat -> x <= nth i l 0).
Proof.
induction l as [|y l IH]; intros Hs; simpl; [repeat split; intros; lia|].
inversion Hs; subst. destruct (IH H1) as [A [B C]]. destruct (Rlt_dec y x) as [L|L].
- split; [lia|split].
  + intros [|i] Hi; auto. apply B. lia.
  + intros [|i] Hi; [lia|]. apply C. lia.
- split; [lia|split]; [intros; lia|].
  intros [|i] Hi; [lra|]. rewrite Forall_forall in H2.
  assert (y <= nth i l 0) by (apply H2; apply nth_In; lia). lra.
Qed.
Theorem C70_get_prefix coefs cf bias : StronglySorted Rle coefs -> coefs <> [] -> (forall x, In x coefs -> 0 < x) ->
  let '(cc, mul) := get_prefix coefs cf bias in
  In cc coefs /\ mul * cc = cf /\
  ((exists x, In x coefs /\ bias * cf <= x) -> bias * cf <= cc /\ forall x, In x coefs -> bias * cf <= x -> cc <= x) /\
  ((forall x, In x coefs -> x < bias * cf) -> forall x, In x coefs -> x <= cc).
Proof.
intros Hs Hn Hp. unfold get_prefix.
destruct (searchsorted_spec (bias * cf) Hs) as [A [B C]].
set (ii := searchsorted coefs (bias * cf)) in *.
set (jj := if (ii =? List.length coefs)%nat then (ii - 1)%nat else ii).
assert (Hl : (0 < List.length coefs)%nat) by (destruct coefs; [congruence|simpl; lia]).
assert (Hj : (jj < List.length coefs)%nat) by (unfold jj; destruct (Nat.eqb_spec ii (List.length coefs)); lia).
assert (Mono : forall i j, (i <= j < List.length coefs)%nat -> nth i coefs 0 <= nth j coefs 0).
{ clear - Hs. induction coefs as [|y l IH]; simpl; intros i j H; [lia|]. inversion Hs; subst.
  destruct i as [|i], j as [|j]; try lia; [lra| |apply IH; auto; lia].
  rewrite Forall_forall in H3. apply H3. apply nth_In. lia. }
assert (I : In (nth jj coefs 0) coefs) by (now apply nth_In).
split; [exact I|]. split; [|split].
- apply Hp in I. field. lra.
- intros [x [Hx Lx]]. apply (In_nth _ _ 0) in Hx as [k [Hk Ek]].
  assert (ii <= k)%nat. { destruct (Nat.le_gt_cases ii k); auto. specialize (B k). rewrite Ek in B. assert (x < bias * cf) by (apply B; lia). lra. }
  unfold jj. destruct (Nat.eqb_spec ii (List.length coefs)); [lia|].
  split; [apply C; lia|]. intros z Hz Lz. apply (In_nth _ _ 0) in Hz as [m [Hm Em]]. subst z.
  destruct (Nat.le_gt_cases ii m); [now apply Mono|]. assert (nth m coefs 0 < bias * cf) by (apply B; lia). lra.
- intros H x Hx. apply (In_nth _ _ 0) in Hx as [k [Hk Ek]]. subst x. apply Mono.
  assert (ii = List.length coefs).
  { destruct (Nat.le_gt_cases (List.length coefs) ii); [lia|]. exfalso.
    assert (bias * cf <= nth ii coefs 0) by (apply C; lia).
    assert (nth ii coefs 0 < bias * cf) by (apply H; now apply nth_In). lra. }
  unfold jj. destruct (Nat.eqb_spec ii (List.length coefs)); lia.
Qed.
Example C70_get_prefix_ex : StronglySorted Rle [1 / 1000; 1; 1000] /\ (forall x, In x [1 / 1000; 1; 1000] -> 0 < x).
Proof.
split; [repeat constructor; lra|]. intros x H. simpl in H. intuition subst; lra.
Qed.
Print Assumptions C40_sym2dim.
Print Assumptions C42_consistent.
Print Assumptions C42_restore.
Print Assumptions C42_pars.
Print Assumptions C70_unit.
Print Assumptions C70_get_prefix.
