(** C158: the enumeration of the basis functions of a DG element. *)
From Coq Require Import List Arith Lia Permutation.
From Verif Require Import M_dglim P_lagnodes.
Import ListNotations.
Open Scope nat_scope.

Lemma in_iter2 order ext i j : In (i, j) (iter2 order ext) <->
  if ext then i <= order /\ j <= order else i + j <= order.
Proof.
  unfold iter2. rewrite in_app_iff.
  assert (H1 : In (i, j) (flat_map (fun k => map (fun i => (i, k - i)) (seq 0 (k + 1))) (seq 0 (order + 1))) <-> i + j <= order).
  { rewrite in_flat_map. split.
    - intros (k & Hk & Hi). apply in_seq in Hk. apply in_map_iff in Hi. destruct Hi as (q & E & Hq).
      apply in_seq in Hq. inversion E; subst. lia.
    - intro H. exists (i + j). split; [apply in_seq; lia|]. apply in_map_iff. exists i. split; [f_equal; lia | apply in_seq; lia]. }
  rewrite H1. destruct ext.
  - split.
    + intros [H | H]; [lia|]. apply in_flat_map in H. destruct H as (k & Hk & H). apply in_flat_map in H.
      destruct H as (q & Hq & H). apply in_seq in Hk, Hq. destruct (q + k <=? order + 1 - 1); [destruct H|].
      destruct H as [E | []]. inversion E; subst. lia.
    + intro H. destruct (Nat.le_gt_cases (i + j) order) as [L | L]; [left; exact L | right].
      apply in_flat_map. exists j. split; [apply in_seq; lia|]. apply in_flat_map. exists i. split; [apply in_seq; lia|].
      replace (i + j <=? order + 1 - 1) with false by (symmetry; apply Nat.leb_gt; lia). left. reflexivity.
  - cbn. tauto.
Qed.

Lemma NoDup_map_inj A B (f : A -> B) l : (forall x y, f x = f y -> x = y) -> NoDup l -> NoDup (map f l).
Proof.
  intros Hf H. induction H; cbn; constructor; auto. intro I. apply in_map_iff in I. destruct I as (y & E & Hy).
  apply Hf in E. subst. auto.
Qed.

Lemma NoDup_iter2 order ext : NoDup (iter2 order ext).
Proof.
  unfold iter2.
  assert (N1 : NoDup (flat_map (fun k => map (fun i => (i, k - i)) (seq 0 (k + 1))) (seq 0 (order + 1)))).
  { apply NoDup_flat.
    - apply seq_NoDup.
    - intros. apply NoDup_map_inj; [|apply seq_NoDup]. intros a b E. inversion E. reflexivity.
    - intros k1 k2 [a b] _ _ H1 H2. apply in_map_iff in H1, H2. destruct H1 as (q & E & Hq), H2 as (q' & E' & Hq').
      apply in_seq in Hq, Hq'. inversion E; inversion E'; subst. lia. }
  destruct ext; [|rewrite app_nil_r; exact N1].
  assert (N2 : NoDup (flat_map (fun k => flat_map (fun i => if i + k <=? order + 1 - 1 then [] else [(i, k)]) (seq 1 (order + 1 - 1))) (seq 1 (order + 1 - 1)))).
  { apply NoDup_flat.
    - apply seq_NoDup.
    - intros k Hk. apply NoDup_flat.
      + apply seq_NoDup.
      + intros i Hi. destruct (_ <=? _); [constructor | constructor; [tauto | constructor]].
      + intros x y z _ _ H1 H2. destruct (x + k <=? _); [destruct H1|]. destruct (y + k <=? _); [destruct H2|].
        destruct H1 as [E | []], H2 as [E' | []]. congruence.
    - intros x y z _ _ H1 H2. apply in_flat_map in H1, H2. destruct H1 as (q & _ & H1), H2 as (q' & _ & H2).
      destruct (q + x <=? _); [destruct H1|]. destruct (q' + y <=? _); [destruct H2|].
      destruct H1 as [E | []], H2 as [E' | []]. congruence. }
  match goal with |- NoDup (?a ++ ?b) => set (l1 := a) in *; set (l2 := b) in * end.
  assert (D : forall z, In z l1 -> ~ In z l2).
  { intros [a b] H1 H2. unfold l1 in H1. unfold l2 in H2. apply in_flat_map in H1, H2.
    destruct H1 as (k & Hk & H1), H2 as (q & Hq & H2). apply in_map_iff in H1. destruct H1 as (p & E & Hp).
    apply in_flat_map in H2. destruct H2 as (r & Hr & H2). destruct (Nat.leb_spec (r + q) (order + 1 - 1)) as [?|L]; [destruct H2|].
    destruct H2 as [E' | []]. apply in_seq in Hk, Hp. inversion E; inversion E'; subst. lia. }
  clearbody l1 l2. induction N1 as [|x l Hx Hl IH]; cbn; [exact N2|]. constructor.
  - rewrite in_app_iff. intros [I | I]; [auto | apply (D x); [left; reflexivity | exact I]].
  - apply IH. intros z Hz. apply D. right. exact Hz.
Qed.

Lemma in_iter3 order ext i j k : In (i, j, k) (iter3 order ext) <-> i + j + k <= order.
Proof.
  unfold iter3. rewrite in_flat_map. split.
  - intros (c & Hc & H). apply in_flat_map in H. destruct H as (b & Hb & H). apply in_map_iff in H.
    destruct H as (a & E & Ha). apply in_seq in Hc, Hb, Ha. inversion E; subst. lia.
  - intro H. exists (i + j + k). split; [apply in_seq; lia|]. apply in_flat_map. exists (i + j). split; [apply in_seq; lia|].
    apply in_map_iff. exists i. split; [repeat f_equal; lia | apply in_seq; lia].
Qed.

Lemma NoDup_iter3 order ext : NoDup (iter3 order ext).
Proof.
  unfold iter3. apply NoDup_flat.
  - apply seq_NoDup.
  - intros c Hc. apply NoDup_flat.
    + apply seq_NoDup.
    + intros. apply NoDup_map_inj; [|apply seq_NoDup]. intros a b E. inversion E. reflexivity.
    + intros b1 b2 z _ _ H1 H2. apply in_map_iff in H1, H2. destruct H1 as (q & E & Hq), H2 as (q' & E' & Hq').
      apply in_seq in Hq, Hq'. rewrite <- E in E'. inversion E'. lia.
  - intros c1 c2 z _ _ H1 H2. apply in_flat_map in H1, H2. destruct H1 as (b & Hb & H1), H2 as (b' & Hb' & H2).
    apply in_map_iff in H1, H2. destruct H1 as (q & E & Hq), H2 as (q' & E' & Hq').
    apply in_seq in Hb, Hb', Hq, Hq'. rewrite <- E in E'. inversion E'. lia.
Qed.

Lemma seq_snoc a n : seq a (n + 1) = seq a n ++ [a + n].
Proof. rewrite seq_app. reflexivity. Qed.

Lemma len2 order : 2 * length (iter2 order false) = (order + 1) * (order + 2).
Proof.
  unfold iter2. rewrite app_nil_r.
  assert (G : forall p, 2 * length (flat_map (fun k => map (fun i => (i, k - i)) (seq 0 (k + 1))) (seq 0 p)) = p * (p + 1)).
  { induction p; [reflexivity|]. replace (S p) with (p + 1) by lia. rewrite seq_snoc, flat_map_app, app_length.
    cbn [flat_map]. rewrite app_nil_r, map_length, seq_length. nia. }
  rewrite G. nia.
Qed.

Lemma len3 order ext : 6 * length (iter3 order ext) = (order + 1) * (order + 2) * (order + 3).
Proof.
  unfold iter3.
  assert (G2 : forall k p, 2 * length (flat_map (fun j => map (fun i => (i, j - i, k - j)) (seq 0 (j + 1))) (seq 0 p)) = p * (p + 1)).
  { induction p; [reflexivity|]. replace (S p) with (p + 1) by lia. rewrite seq_snoc, flat_map_app, app_length.
    cbn [flat_map]. rewrite app_nil_r, map_length, seq_length. nia. }
  assert (G : forall p, 6 * length (flat_map (fun k => flat_map (fun j => map (fun i => (i, j - i, k - j)) (seq 0 (j + 1))) (seq 0 (k + 1))) (seq 0 p)) = p * (p + 1) * (p + 2)).
  { induction p; [reflexivity|]. replace (S p) with (p + 1) by lia. rewrite seq_snoc, flat_map_app, app_length.
    cbn [flat_map]. rewrite app_nil_r. cbn [plus]. pose proof (G2 p (p + 1)). cbn [plus] in *. nia. }
  rewrite G. nia.
Qed.

Lemma list_prod_len n : length (list_prod (seq 0 n) (seq 0 n)) = n * n.
Proof. rewrite prod_length, !seq_length. reflexivity. Qed.

(** 2D: exactly the multi-indices of the polynomial space, each once, as many
    as the number of element nodes; 3D: the same for the complete space. *)
Theorem C158_basis_indices order :
  (forall ext i j, In (i, j) (iter2 order ext) <-> if ext then i <= order /\ j <= order else i + j <= order) /\
  (forall ext, NoDup (iter2 order ext)) /\
  (forall ext, length (iter2 order ext) = get_n_el_nod order 2 ext) /\
  (forall i j k, In (i, j, k) (iter3 order false) <-> i + j + k <= order) /\
  NoDup (iter3 order false) /\ length (iter3 order false) = get_n_el_nod order 3 false /\
  iter1 order = map (fun i => [i]) (seq 0 (get_n_el_nod order 1 false)).
Proof.
  split; [apply in_iter2|]. split; [apply NoDup_iter2|]. split; [|split; [apply in_iter3|split; [apply NoDup_iter3|split]]].
  - intros [|].
    + transitivity (length (list_prod (seq 0 (order + 1)) (seq 0 (order + 1)))).
      * apply Permutation_length. apply NoDup_Permutation.
        -- apply NoDup_iter2.
        -- assert (L : forall A B (l : list A) (m : list B), NoDup l -> NoDup m -> NoDup (list_prod l m)).
           { intros A B l m Hl Hm. induction Hl as [|a l Ha Hl IH]; cbn; [constructor|].
             assert (Hd : forall z, In z (map (fun y => (a, y)) m) -> ~ In z (list_prod l m)).
             { intros [p q] H1 H2. apply in_map_iff in H1. destruct H1 as (y & E & _). inversion E; subst.
               apply in_prod_iff in H2. tauto. }
             assert (Hmm : NoDup (map (fun y => (a, y)) m)) by (apply NoDup_map_inj; [intros x y E; now inversion E | exact Hm]).
             induction Hmm as [|x q Hx Hq IHq]; cbn; [exact IH|]. constructor.
             - rewrite in_app_iff. intros [I | I]; [auto | apply (Hd x); [left; reflexivity | exact I]].
             - apply IHq. intros z Hz. apply Hd. right. exact Hz. }
           apply L; apply seq_NoDup.
        -- intros [a b]. rewrite in_iter2, in_prod_iff, !in_seq. lia.
      * rewrite list_prod_len. unfold get_n_el_nod. cbn. lia.
    + unfold get_n_el_nod. cbn [seq map fold_right]. pose proof (len2 order).
      apply (Nat.div_unique _ _ _ 0); lia.
  - unfold get_n_el_nod. cbn [seq map fold_right]. pose proof (len3 order false).
    apply (Nat.div_unique _ _ _ 0); lia.
  - unfold iter1, get_n_el_nod. cbn [seq map fold_right]. rewrite Nat.mul_1_r, Nat.add_0_r. cbn [Nat.mul Nat.add]. rewrite Nat.div_1_r. reflexivity.
Qed.

(** The basis is hierarchical: raising the order appends functions. *)
Theorem C158_hierarchical order : exists l, iter2 (S order) false = iter2 order false ++ l.
Proof.
  unfold iter2. rewrite !app_nil_r. replace (S order + 1) with (order + 1 + 1) by lia.
  rewrite (seq_snoc 0 (order + 1)), flat_map_app. eexists. reflexivity.
Qed.

(** The extended (tensor product) space in 3D gets only the complete polynomials. *)
Theorem C158_extended_3d_refuted : ~ (forall order, length (iter3 order true) = get_n_el_nod order 3 true).
Proof. intro H. specialize (H 1). vm_compute in H. discriminate. Qed.

Print Assumptions C158_basis_indices.
Print Assumptions C158_hierarchical.
Print Assumptions C158_extended_3d_refuted.
