(** Lemmas for the simplex cubature: enumerations, fractions, the dictionary of the points. *)
From Coq Require Import Reals Lra Permutation.
From Verif Require Import Base M_nls M_lagnodes M_lagrange P_lagnodes L_lagrange L_gm M_quad.
Set Implicit Arguments.
Open Scope nat_scope.

Lemma NoDup_app_intro : forall A (a b : list A), NoDup a -> NoDup b -> (forall x, In x a -> ~ In x b) -> NoDup (a ++ b).
Proof. intros A a b NA NB D. induction NA as [|x a N NA IH]; cbn [app]; auto. constructor; [rewrite in_app_iff; intros [?|?]; [auto|apply (D x); auto; left; auto]|apply IH; intros; apply D; right; auto]. Qed.
(** ** Enumerations *)
Fixpoint decr_from (m : nat) (t : list nat) : Prop := match t with [] => True | x :: t => x <= m /\ decr_from x t end.
Lemma decreasing_SS : forall l n m, decreasing (S (S l)) n 0 (Some m) = flat_map (fun i => map (cons i) (decreasing (S l) (n - i) 0 (Some i))) (seq 0 (S (if n <? m then n else m))).
Proof. intros. cbn [decreasing]. rewrite Nat.sub_0_r. auto. Qed.
Lemma decreasing_In : forall len n m t, In t (decreasing (S len) n 0 (Some m)) <-> length t = S len /\ list_sum t = n /\ decr_from m t.
Proof.
  induction len as [|len IH]; intros n m t.
  - cbn [decreasing]. destruct (Nat.leb_spec n m).
    + cbn [In]. split; [intros [<-|[]]; cbn; repeat split; auto; lia|]. intros (L & E & D). destruct t as [|x [|y t]]; try discriminate. cbn in E. left. f_equal. lia.
    + cbn [In]. split; [tauto|]. intros (L & E & D). destruct t as [|x [|y t]]; try discriminate. cbn in *. lia.
  - rewrite decreasing_SS. rewrite in_flat_map. split.
    + intros (i & I & T). apply in_seq in I. apply in_map_iff in T. destruct T as (u & <- & U). apply IH in U. destruct U as (L & E & D). cbn [length]. split; [congruence|]. change (list_sum (i :: u)) with (i + list_sum u). destruct (Nat.ltb_spec n m); (split; [lia|]); cbn; split; auto; lia.
    + intros (L & E & D). destruct t as [|i u]; [discriminate|]. change (list_sum (i :: u)) with (i + list_sum u) in E. destruct D as [D1 D2]. exists i. split.
      * apply in_seq. destruct (Nat.ltb_spec n m); lia.
      * apply in_map. apply IH. cbn in L. repeat split; auto; lia.
Qed.
Lemma decreasing_NoDup : forall len n m, NoDup (decreasing (S len) n 0 (Some m)).
Proof.
  induction len as [|len IH]; intros n m.
  - cbn [decreasing]. destruct (n <=? m); repeat constructor; auto.
  - rewrite decreasing_SS. generalize (seq_NoDup (S (if n <? m then n else m)) 0). generalize (seq 0 (S (if n <? m then n else m))). intros l ND.
    induction l as [|i l IHl]; cbn [flat_map]; [constructor|]. apply NoDup_cons_iff in ND. destruct ND as [NI ND]. apply NoDup_app_intro; auto.
    + apply FinFun.Injective_map_NoDup; [intros a b E; congruence|apply IH].
    + intros t T1 T2. apply in_map_iff in T1. destruct T1 as (u & <- & _). apply in_flat_map in T2. destruct T2 as (j & J & T2). apply in_map_iff in T2. destruct T2 as (w & E & _). congruence.
Qed.
Lemma decreasing_None : forall len n, decreasing (S (S len)) n 0 None = decreasing (S (S len)) n 0 (Some n).
Proof. intros. cbn [decreasing]. rewrite Nat.ltb_irrefl. auto. Qed.
(** Permutations *)
Lemma permutations_cons : forall x l, permutations (x :: l) = flat_map (fun perm => map (fun i => firstn i perm ++ x :: skipn i perm) (seq 0 (S (length perm)))) (permutations l).
Proof. intros x [|y l]; reflexivity. Qed.
Lemma permutations_In : forall l p, In p (permutations l) <-> Permutation p l.
Proof.
  induction l as [|x l IH]; intros p.
  - cbn [permutations In]. split; [intros [<-|[]]; auto|]. intros P. left. apply Permutation_sym, Permutation_nil in P. auto.
  - rewrite permutations_cons, in_flat_map. split.
    + intros (q & Q & P). apply IH in Q. apply in_map_iff in P. destruct P as (i & <- & _). rewrite <- Permutation_middle. apply perm_skip. rewrite firstn_skipn. auto.
    + intros P. assert (I : In x p) by (apply (Permutation_in x (Permutation_sym P)); left; auto). apply in_split in I. destruct I as (a & b & ->).
      exists (a ++ b). split; [apply IH; apply (Permutation_cons_inv (a := x)); rewrite Permutation_middle; auto|]. apply in_map_iff. exists (length a). split.
      * rewrite firstn_app, skipn_app, Nat.sub_diag, firstn_all, skipn_all, firstn_O, skipn_O, app_nil_r. auto.
      * apply in_seq. rewrite app_length. lia.
Qed.
Lemma unique_In : forall l had p, In p (unique_from had l) <-> In p l /\ ~ In p had.
Proof.
  induction l as [|q l IH]; intros had p; cbn [unique_from In]; [tauto|]. destruct (in_dec _ q had) as [I|I].
  - rewrite IH. split; [tauto|]. intros [[->|H] N]; tauto.
  - cbn [In]. rewrite IH. cbn [In]. split.
    + intros [->|[H N]]; tauto.
    + intros [[->|H] N]; [tauto|]. destruct (list_eq_dec Nat.eq_dec q p); [tauto|]. right. split; auto. intros [?|?]; auto.
Qed.
Lemma unique_NoDup : forall l had, NoDup (unique_from had l).
Proof.
  induction l as [|q l IH]; intros had; cbn [unique_from]; [constructor|]. destruct (in_dec _ q had); auto. constructor; auto. rewrite unique_In. intros [_ N]. apply N. left. auto.
Qed.
(** Sorted lists *)
Lemma decr_le : forall t m x, decr_from m t -> In x t -> x <= m.
Proof. induction t as [|y t IH]; intros m x D I; [destruct I|]. destruct D as [D1 D2]. destruct I as [->|I]; auto. specialize (IH y x D2 I). lia. Qed.
Lemma decr_unique : forall t u m n, decr_from m t -> decr_from n u -> Permutation t u -> t = u.
Proof.
  induction t as [|x t IH]; intros u m n T U P; [apply Permutation_nil in P; auto|]. destruct u as [|y u]; [apply Permutation_sym, Permutation_nil in P; discriminate|].
  destruct T as [T1 T2], U as [U1 U2]. assert (A : x <= y).
  { assert (I : In x (y :: u)) by (apply (Permutation_in x P); left; auto). destruct I as [->|I]; auto. apply (decr_le _ _ _ U2 I). }
  assert (B : y <= x).
  { assert (I : In y (x :: t)) by (apply (Permutation_in y (Permutation_sym P)); left; auto). destruct I as [->|I]; auto. apply (decr_le _ _ _ T2 I). }
  assert (y = x) by lia. subst y. f_equal. apply (IH u x x); auto. apply (Permutation_cons_inv P).
Qed.
Lemma decr_insert : forall t m x, decr_from m t -> exists u, Permutation (x :: t) u /\ decr_from (Nat.max m x) u.
Proof.
  induction t as [|y t IH]; intros m x D; [exists [x]; split; auto; cbn; lia|]. destruct D as [D1 D2]. destruct (le_lt_dec y x) as [L|L].
  - exists (x :: y :: t). split; auto. cbn. repeat split; auto. lia.
  - destruct (IH y x D2) as (u & P & U). exists (y :: u). split; [rewrite perm_swap; apply perm_skip; auto|]. cbn. split; [lia|]. replace (Nat.max y x) with y in U by lia. auto.
Qed.
Lemma decr_sort : forall b, exists t, Permutation b t /\ decr_from (list_sum b) t.
Proof.
  assert (W : forall t m n, m <= n -> decr_from m t -> decr_from n t) by (intros [|x t] m n L; cbn; [auto|intros [? ?]; split; auto; lia]).
  induction b as [|x b (t & P & D)]; [exists []; split; cbn; auto|]. destruct (decr_insert t _ x D) as (u & Q & U). exists u. split; [rewrite P; auto|]. apply (W u (Nat.max (list_sum b) x)); auto. change (list_sum (x :: b)) with (x + list_sum b). lia.
Qed.
Lemma list_sum_perm : forall a b, Permutation a b -> list_sum a = list_sum b.
Proof. intros a b P. unfold list_sum. induction P; cbn [fold_right] in *; lia. Qed.
Lemma enum_comps : forall len k, Permutation (flat_map unique_permutations (decreasing (S (S len)) k 0 None)) (comps (S (S len)) k).
Proof.
  intros len k. rewrite decreasing_None. apply NoDup_Permutation; [|apply comps_NoDup|].
  - assert (ND := decreasing_NoDup (S len) k k). assert (AL : forall t, In t (decreasing (S (S len)) k 0 (Some k)) -> decr_from k t) by (intros t T; apply decreasing_In in T; tauto).
    revert ND AL. generalize (decreasing (S (S len)) k 0 (Some k)). intros l ND AL. induction l as [|t l IH]; cbn [flat_map]; [constructor|]. apply NoDup_cons_iff in ND. destruct ND as [NI ND]. apply NoDup_app_intro.
    + apply unique_NoDup.
    + apply IH; auto. intros. apply AL. right. auto.
    + intros p P1 P2. apply in_flat_map in P2. destruct P2 as (u & U & P2). unfold unique_permutations in *. rewrite unique_In, permutations_In in P1, P2. apply NI. replace t with u; auto.
      apply (@decr_unique u t k k); [apply AL; right; auto|apply AL; left; auto|]. rewrite <- (proj1 P1). symmetry. tauto.
  - intros b. rewrite in_flat_map, comps_In. split.
    + intros (t & T & P). unfold unique_permutations in P. rewrite unique_In, permutations_In in P. apply decreasing_In in T. destruct T as (L & E & D), P as [P _]. rewrite (Permutation_length P), (list_sum_perm P). auto.
    + intros (L & E). destruct (decr_sort b) as (t & P & D). exists t. split; [apply decreasing_In; rewrite <- (Permutation_length P), <- (list_sum_perm P); rewrite E in D; auto|]. unfold unique_permutations. rewrite unique_In, permutations_In. auto.
Qed.
(** ** Fractions *)
Open Scope Z_scope.
Lemma euclid_gcd : forall fuel q r, 0 <= q -> 0 <= r < Z.of_nat fuel -> euclid fuel q r = Z.gcd q r.
Proof.
  induction fuel as [|fuel IH]; intros q r Q R; [lia|]. cbn [euclid]. destruct (Z.eqb_spec r 0) as [->|N]; [rewrite Z.gcd_0_r_nonneg; auto|].
  assert (M := Z.mod_pos_bound q r ltac:(lia)). rewrite IH by lia. rewrite (Z.gcd_comm r). rewrite Z.gcd_mod by auto. apply Z.gcd_comm.
Qed.
Lemma gcd_pos : forall q r, 0 < q -> 0 < r -> gcd_ q r = Z.gcd q r.
Proof.
  intros q r Q R. unfold gcd_. rewrite !Z.abs_eq by lia. destruct (q <? r); rewrite euclid_gcd by (rewrite ?Nat2Z.inj_succ, ?Z2Nat.id; lia); auto. apply Z.gcd_comm.
Qed.
Lemma simplify_value : forall a b, 0 < a -> 0 < b -> (IZR (fst (simplify_fraction (a, b))) / IZR (snd (simplify_fraction (a, b))) = IZR a / IZR b)%R.
Proof.
  intros a b A B. unfold simplify_fraction. cbn [fst snd]. rewrite gcd_pos by auto. assert (G : 0 < Z.gcd a b) by (assert (H := Z.gcd_nonneg a b); assert (Z.gcd a b <> 0) by (intros E; apply Z.gcd_eq_0_l in E; lia); lia).
  destruct (Z.gcd_divide_l a b) as [x X]. destruct (Z.gcd_divide_r a b) as [y Y]. set (g := Z.gcd a b) in *.
  assert (Ea : a / g = x) by (rewrite X; apply Z.div_mul; lia). assert (Eb : b / g = y) by (rewrite Y; apply Z.div_mul; lia). rewrite Ea, Eb.
  assert (y <> 0) by (intros ->; lia). rewrite X, Y, !mult_IZR. field. split; apply not_0_IZR; lia.
Qed.
Open Scope R_scope.
(** ** The dictionary *)
Definition dsum (F : fpoint -> R) (d : list (fpoint * R)) : R := lsum (map (fun pw => snd pw * F (fst pw)) d).
Lemma add_weight_sum : forall F d p w, dsum F (add_weight d p w) = dsum F d + w * F p.
Proof.
  intros F d p w. unfold dsum. induction d as [|[q v] d IH]; cbn [add_weight]; [cbn; lra|]. destruct (fpoint_dec q p) as [->|N]; cbn [map]; rewrite !lsum_cons; cbn [fst snd]; [lra|]. rewrite IH. lra.
Qed.
Lemma dict_sum : forall F items d, dsum F (fold_left (fun d pw => add_weight d (fst pw) (snd pw)) items d) = dsum F d + dsum F items.
Proof.
  intros F items. induction items as [|[p w] items IH]; intros d; cbn [fold_left]; [unfold dsum at 3; cbn; lra|]. rewrite IH, add_weight_sum. unfold dsum. cbn [map]. rewrite lsum_cons. cbn [fst snd]. lra.
Qed.
Lemma split_sum : forall F d (q : fpoint * R -> bool), dsum F (filter q d ++ filter (fun pw => negb (q pw)) d) = dsum F d.
Proof.
  intros F d q. unfold dsum. rewrite map_app, lsum_app. induction d as [|pw d IH]; cbn [filter map]; [cbn; lra|]. destruct (q pw); cbn [negb map]; rewrite !lsum_cons; lra.
Qed.
Lemma add_weight_In : forall d p w q, In q (map fst (add_weight d p w)) -> q = p \/ In q (map fst d).
Proof.
  induction d as [|[r v] d IH]; intros p w q I; cbn [add_weight] in I; [cbn in I; intuition|]. destruct (fpoint_dec r p) as [->|N]; cbn [map In fst] in *; [tauto|]. destruct I as [I|I]; [tauto|]. apply IH in I. tauto.
Qed.
Lemma dict_In : forall items d q, In q (map fst (fold_left (fun d pw => add_weight d (fst pw) (snd pw)) items d)) -> In q (map fst items) \/ In q (map fst d).
Proof.
  induction items as [|[p w] items IH]; intros d q I; cbn [fold_left map In fst snd] in *; [tauto|]. apply IH in I. destruct I as [I|I]; [tauto|]. apply add_weight_In in I. destruct I as [->|I]; tauto.
Qed.
