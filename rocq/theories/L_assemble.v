(** Assembling: scatter-add semantics. *)
From Verif Require Import Base BaseSum M_dofs S_matrix M_assemble S_assemble L_expand.
Open Scope nat_scope.

Lemma fold_left_concat : forall A B (f : A -> B -> A) (ll : list (list B)) a,
  fold_left f (concat ll) a = fold_left (fun a l => fold_left f l a) ll a.
Proof. induction ll; simpl; intros; auto. rewrite fold_left_app; auto. Qed.
Lemma fold_left_map : forall A B C (f : A -> B -> A) (g : C -> B) l a,
  fold_left f (map g l) a = fold_left (fun a c => f a (g c)) l a.
Proof. induction l; simpl; intros; auto. Qed.
Lemma fold_left_ext : forall A B (f g : A -> B -> A) l a, (forall a b, In b l -> f a b = g a b) -> fold_left f l a = fold_left g l a.
Proof. induction l; simpl; intros; auto. rewrite H; auto. Qed.

(** ** create_adof_conn *)
Lemma adof_general : forall eq conn dpn offset,
  create_adof_conn eq conn dpn offset =
  map (fun row => concat (map (fun idof => map (fun c => shift offset (nth (dpn * c + idof) eq 0%Z)) row) (seq 0 dpn))) conn.
Proof.
  intros. unfold create_adof_conn. destruct (Nat.eqb_spec dpn 1) as [->|]; auto.
  apply map_ext. intros row. simpl. rewrite app_nil_r. apply map_ext. intros c.
  do 2 f_equal. lia.
Qed.

Lemma adof_nth : forall eq conn dpn offset e k i n_ep, e < length conn -> length (nth e conn []) = n_ep ->
  k < n_ep -> i < dpn ->
  length (create_adof_conn eq conn dpn offset) = length conn /\
  length (nth e (create_adof_conn eq conn dpn offset) []) = dpn * n_ep /\
  nth (i * n_ep + k) (nth e (create_adof_conn eq conn dpn offset) []) 0%Z
  = shift offset (nth (dpn * nth k (nth e conn []) 0 + i) eq 0%Z).
Proof.
  intros eq conn dpn offset e k i n_ep He Hl Hk Hi. rewrite adof_general.
  rewrite map_length. split; auto.
  rewrite nth_map_in with (da := []) by auto.
  set (row := nth e conn []) in *.
  assert (Hr : forall l, In l (map (fun idof => map (fun c => shift offset (nth (dpn * c + idof) eq 0%Z)) row) (seq 0 dpn)) -> length l = n_ep).
  { intros l Hin. apply in_map_iff in Hin. destruct Hin as (x & <- & _). rewrite map_length; auto. }
  split.
  - rewrite (length_concat_const _ Hr), map_length, seq_length; auto.
  - rewrite (nth_concat_const _ _ Hr); auto.
    + rewrite nth_map_in with (da := 0) by (rewrite seq_length; auto). rewrite nth_seq0 by auto.
      rewrite nth_map_in with (da := 0) by lia. auto.
    + rewrite map_length, seq_length; auto.
Qed.

Section Asm.
Variable V : Type.
Variables (v0 v1 : V) (add mul : V -> V -> V).
Hypothesis SR : semi_ring_theory v0 v1 add mul eq.
Notation lsum := (lsum v0 add).
Notation ind := (ind v0).

(** ** Vectors *)
Definition scat1 (sign : V) (vec : list V) (p : Z * V) : list V :=
  if (fst p <? 0)%Z then vec
  else let i := Z.to_nat (fst p) in upd vec i (add (nth i vec v0) (mul sign (snd p))).

Lemma asm_vec_flat : forall vec els iels sign conn,
  assemble_vector v0 add mul vec els iels sign conn = fold_left (scat1 sign) (vec_contribs conn iels els) vec.
Proof.
  intros. unfold assemble_vector, vec_contribs. rewrite fold_left_concat, fold_left_map. auto.
Qed.

Lemma scat1_length : forall sign l vec, length (fold_left (scat1 sign) l vec) = length vec.
Proof.
  induction l; simpl; intros; auto. rewrite IHl. unfold scat1. destruct (fst a <? 0)%Z; auto. apply length_upd.
Qed.

Lemma scat1_spec : forall sign l vec i, i < length vec ->
  nth i (fold_left (scat1 sign) l vec) v0 =
  add (nth i vec v0) (lsum (map (fun p => ind (Z.eqb (fst p) (Z.of_nat i)) (mul sign (snd p))) l)).
Proof.
  induction l as [|[d x] l IH]; simpl; intros vec i Hi.
  - rewrite (add0r _ _ _ _ _ SR); auto.
  - rewrite IH.
    + unfold scat1. simpl. destruct (Z.ltb_spec d 0) as [Hd|Hd].
      * destruct (Z.eqb_spec d (Z.of_nat i)); [lia|]. simpl. rewrite (add0l _ _ _ _ _ SR); auto.
      * rewrite nth_upd. destruct (Z.eqb_spec d (Z.of_nat i)) as [E|E].
        -- replace (Z.to_nat d) with i by lia. rewrite Nat.eqb_refl.
           destruct (Nat.ltb_spec i (length vec)); [|lia]. simpl. rewrite <- (addA _ _ _ _ _ SR); auto.
        -- destruct (Nat.eqb_spec i (Z.to_nat d)); [lia|]. simpl. rewrite (add0l _ _ _ _ _ SR); auto.
    + unfold scat1. simpl. destruct (Z.ltb_spec d 0); auto. rewrite length_upd; auto.
Qed.

Lemma asm_vec_spec : forall vec els iels sign conn,
  length (assemble_vector v0 add mul vec els iels sign conn) = length vec /\
  forall i, i < length vec ->
  nth i (assemble_vector v0 add mul vec els iels sign conn) v0 =
  add (nth i vec v0) (lsum (map (fun p => ind (Z.eqb (fst p) (Z.of_nat i)) (mul sign (snd p))) (vec_contribs conn iels els))).
Proof.
  intros. rewrite asm_vec_flat. split; [apply scat1_length|]. intros. apply scat1_spec; auto.
Qed.

Lemma asm_vec_perm : forall vec els1 iels1 els2 iels2 sign conn,
  Permutation (combine iels1 els1) (combine iels2 els2) ->
  assemble_vector v0 add mul vec els1 iels1 sign conn = assemble_vector v0 add mul vec els2 iels2 sign conn.
Proof.
  intros. apply list_ext with (d := v0).
  - rewrite !asm_vec_flat, !scat1_length; auto.
  - rewrite asm_vec_flat, scat1_length. intros i Hi. rewrite <- asm_vec_flat.
    destruct (asm_vec_spec vec els1 iels1 sign conn) as [_ E1].
    destruct (asm_vec_spec vec els2 iels2 sign conn) as [_ E2].
    rewrite E1, E2 by auto. f_equal. unfold vec_contribs.
    rewrite !(lsum_concat _ _ _ _ _ SR).
    apply (lsum_perm _ _ _ _ _ SR). apply Permutation_map. auto.
Qed.

(** ** Matrices *)
Definition scat2 (find : nat -> nat -> option nat) (sign : V) (data : res (list V)) (p : Z * Z * V) : res (list V) :=
  if (fst (fst p) <? 0)%Z then data else asm_item v0 add mul find sign data (fst (fst p)) (snd (fst p)) (snd p).

Lemma asm_mtx_flat : forall find data els iels sign rconn cconn,
  assemble_matrix v0 add mul find data els iels sign rconn cconn =
  fold_left (scat2 find sign) (mtx_contribs rconn cconn iels els) (Ok data).
Proof.
  intros. unfold assemble_matrix, mtx_contribs. rewrite fold_left_concat, fold_left_map.
  apply fold_left_ext. intros a [e m] _. simpl. unfold asm_mtx_el.
  rewrite fold_left_concat, fold_left_map. apply fold_left_ext. intros a' [r row] _. simpl.
  rewrite fold_left_map. unfold scat2; simpl. destruct (r <? 0)%Z.
  - generalize (combine (nth e cconn []) row). induction l; simpl; auto.
  - auto.
Qed.

Definition active (p : Z * Z * V) : Prop := (0 <= fst (fst p))%Z /\ (0 <= snd (fst p))%Z.

Lemma scat2_err : forall find sign l e, fold_left (scat2 find sign) l (Err e) = Err e.
Proof.
  induction l; simpl; intros; auto. unfold scat2 at 2, asm_item. destruct (fst (fst a) <? 0)%Z; auto.
Qed.

Lemma scat2_ok : forall find sign l data,
  (exists d, fold_left (scat2 find sign) l (Ok data) = Ok d) <->
  (forall p, In p l -> active p -> find (Z.to_nat (fst (fst p))) (Z.to_nat (snd (fst p))) <> None).
Proof.
  induction l as [|[[r c] x] l IH]; simpl; intros data.
  - split; [intros _ p []|eauto].
  - unfold scat2 at 2, asm_item. simpl. destruct (Z.ltb_spec r 0) as [Hr|Hr].
    + rewrite IH. split; intros H p; [intros [<-|Hp] Ha|intros Hp]; auto.
      unfold active in Ha; simpl in Ha; lia.
    + destruct (Z.ltb_spec c 0) as [Hc|Hc].
      * rewrite IH. split; intros H p; [intros [<-|Hp] Ha|intros Hp]; auto.
        unfold active in Ha; simpl in Ha; lia.
      * destruct (find (Z.to_nat r) (Z.to_nat c)) as [ik|] eqn:E.
        -- rewrite IH. split; intros H p; [intros [<-|Hp] Ha|intros Hp]; auto.
           simpl. congruence.
        -- rewrite scat2_err. split; [intros [d Hd]; discriminate|].
           intros H. exfalso. apply (H (r, c, x)); auto. unfold active; simpl; lia.
Qed.

Lemma scat2_indexerror : forall find sign l data e,
  fold_left (scat2 find sign) l (Ok data) = Err e -> e = IndexError.
Proof.
  induction l as [|p l IH]; simpl; intros data e H; [discriminate|].
  unfold scat2 at 2, asm_item in H. destruct (fst (fst p) <? 0)%Z; [eauto|].
  destruct (snd (fst p) <? 0)%Z; [eauto|].
  destruct (find (Z.to_nat (fst (fst p))) (Z.to_nat (snd (fst p)))); [eauto|].
  rewrite scat2_err in H. congruence.
Qed.

(** A correct position of an item. *)
Definition find_good (nr : nat) (prows cols : list nat) (find : nat -> nat -> option nat) : Prop :=
  forall i j ik, i < nr -> find i j = Some ik -> nth i prows 0 <= ik < nth (S i) prows 0 /\ nth ik cols 0 = j.

Lemma scat2_spec : forall nr prows cols find sign, wf_csr nr prows cols -> find_good nr prows cols find ->
  forall l data data', length data = length cols ->
  (forall p, In p l -> active p -> Z.to_nat (fst (fst p)) < nr) ->
  fold_left (scat2 find sign) l (Ok data) = Ok data' ->
  length data' = length data /\
  forall i j, i < nr -> csr_entry v0 add prows cols data' i j =
    add (csr_entry v0 add prows cols data i j)
        (lsum (map (fun p => ind (Z.eqb (fst (fst p)) (Z.of_nat i) && Z.eqb (snd (fst p)) (Z.of_nat j)) (mul sign (snd p))) l)).
Proof.
  intros nr prows cols find sign (W1 & W2 & W3) FG.
  induction l as [|[[r c] x] l IH]; simpl; intros data data' Hl Hn H.
  - injection H as <-. split; auto. intros. rewrite (add0r _ _ _ _ _ SR); auto.
  - unfold scat2 at 2, asm_item in H; simpl in H.
    destruct (Z.ltb_spec r 0) as [Hr|Hr].
    { destruct (IH data data') as [I1 I2]; auto. split; auto. intros i j Hi. rewrite I2 by auto.
      destruct (Z.eqb_spec r (Z.of_nat i)); [lia|]. simpl. rewrite (add0l _ _ _ _ _ SR); auto. }
    destruct (Z.ltb_spec c 0) as [Hc|Hc].
    { destruct (IH data data') as [I1 I2]; auto. split; auto. intros i j Hi. rewrite I2 by auto.
      destruct (Z.eqb_spec c (Z.of_nat j)); [lia|]. rewrite andb_false_r. simpl. rewrite (add0l _ _ _ _ _ SR); auto. }
    destruct (find (Z.to_nat r) (Z.to_nat c)) as [ik|] eqn:E; [|rewrite scat2_err in H; discriminate].
    assert (Hrn : Z.to_nat r < nr). { apply (Hn (r, c, x)); auto. unfold active; simpl; lia. }
    destruct (FG _ _ _ Hrn E) as [F1 F2].
    assert (Hik : ik < length data).
    { rewrite Hl, <- W3. assert (nth (S (Z.to_nat r)) prows 0 <= nth nr prows 0) by (apply W2; lia). lia. }
    destruct (IH _ _ ltac:(rewrite length_upd; exact Hl) ltac:(intros; apply Hn; auto) H) as [I1 I2].
    rewrite length_upd in I1. split; auto. intros i j Hi. rewrite I2 by auto.
    rewrite (addA _ _ _ _ _ SR). f_equal. unfold csr_entry.
    set (range := seq (nth i prows 0) (nth (S i) prows 0 - nth i prows 0)).
    assert (Hrange : forall a, In a range <-> nth i prows 0 <= a < nth (S i) prows 0).
    { intros a. unfold range. rewrite in_seq. assert (nth i prows 0 <= nth (S i) prows 0) by (apply W2; lia). lia. }
    transitivity (lsum (map (fun a => add (ind (Nat.eqb (nth a cols 0) j) (nth a data v0))
                                          (ind (Nat.eqb a ik && Nat.eqb (nth a cols 0) j) (mul sign x))) range)).
    { apply lsum_ext. intros a _. rewrite nth_upd. destruct (Nat.eqb_spec a ik) as [->|N]; simpl.
      - destruct (Nat.ltb_spec ik (length data)); [|lia]. destruct (Nat.eqb_spec (nth ik cols 0) j); simpl; auto.
        rewrite (add0l _ _ _ _ _ SR); auto.
      - rewrite (add0r _ _ _ _ _ SR); auto. }
    rewrite (lsum_add _ _ _ _ _ SR). f_equal.
    destruct (Z.eqb_spec r (Z.of_nat i)) as [Er|Er].
    + replace (Z.to_nat r) with i in * by lia.
      rewrite (lsum_single _ _ _ _ _ SR) with (x := ik).
      * rewrite Nat.eqb_refl, F2. simpl. destruct (Z.eqb_spec c (Z.of_nat j)), (Nat.eqb_spec (Z.to_nat c) j); auto; lia.
      * apply seq_NoDup.
      * apply Hrange; auto.
      * intros y _ N. destruct (Nat.eqb_spec y ik); [congruence|]. auto.
    + simpl. apply (lsum_zero _ _ _ _ _ SR). intros a Ha. apply Hrange in Ha.
      destruct (Nat.eqb_spec a ik) as [->|]; auto. exfalso.
      assert (Z.to_nat r <> i) by lia.
      destruct (Nat.lt_ge_cases (Z.to_nat r) i) as [L|L].
      * assert (nth (S (Z.to_nat r)) prows 0 <= nth i prows 0) by (apply W2; lia). lia.
      * assert (nth (S i) prows 0 <= nth (Z.to_nat r) prows 0) by (apply W2; lia). lia.
Qed.

(** Linear search *)
Lemma lin_search_spec : forall cols icg num ik,
  match lin_search cols icg ik num with
  | Some k => ik <= k < ik + num /\ nth k cols 0 = icg /\ forall a, ik <= a < k -> nth a cols 0 <> icg
  | None => forall a, ik <= a < ik + num -> nth a cols 0 <> icg
  end.
Proof.
  induction num as [|num IH]; simpl; intros ik; [intros; lia|].
  destruct (Nat.eqb_spec (nth ik cols 0) icg) as [E|E]; [split; [lia|]; split; auto; intros; lia|].
  specialize (IH (S ik)). destruct (lin_search cols icg (S ik) num).
  - destruct IH as (H1 & H2 & H3). split; [lia|]. split; auto. intros a Ha.
    destruct (Nat.eq_dec a ik) as [->|]; auto. apply H3; lia.
  - intros a Ha. destruct (Nat.eq_dec a ik) as [->|]; auto. apply IH; lia.
Qed.

Lemma find_lin_good : forall nr prows cols, wf_csr nr prows cols -> find_good nr prows cols (find_lin prows cols).
Proof.
  intros nr prows cols (W1 & W2 & W3) i j ik Hi H. unfold find_lin in H.
  pose proof (lin_search_spec cols j (nth (S i) prows 0 - nth i prows 0) (nth i prows 0)) as HS. rewrite H in HS.
  assert (nth i prows 0 <= nth (S i) prows 0) by (apply W2; lia). intuition lia.
Qed.

Lemma find_lin_none : forall nr prows cols i j, wf_csr nr prows cols -> i < nr ->
  (find_lin prows cols i j <> None <-> in_pattern prows cols i j).
Proof.
  intros nr prows cols i j (W1 & W2 & W3) Hi. unfold find_lin, in_pattern.
  pose proof (lin_search_spec cols j (nth (S i) prows 0 - nth i prows 0) (nth i prows 0)) as HS.
  assert (nth i prows 0 <= nth (S i) prows 0) by (apply W2; lia).
  destruct (lin_search cols j (nth i prows 0) (nth (S i) prows 0 - nth i prows 0)) as [k|].
  - split; [|discriminate]. intros _. exists k. intuition lia.
  - split; [intros H1; exfalso; apply H1; auto|]. intros (ik & H1 & H2). exfalso. apply (HS ik); auto; lia.
Qed.

(** Binary search: finds the position if the item is present. *)
Lemma bsearch_spec : forall junk cols ii lo hi p, (0 <= lo)%Z ->
  nth p cols 0 = ii -> p < length cols ->
  (forall a b, (lo <= Z.of_nat a)%Z -> a < b -> (Z.of_nat b < hi)%Z -> nth a cols 0 < nth b cols 0) ->
  (lo <= Z.of_nat p < hi)%Z -> (hi <= Z.of_nat (length cols))%Z ->
  forall fuel i0 i1, (lo <= i0)%Z -> (i1 <= hi)%Z -> (i0 <= Z.of_nat p <= i1)%Z ->
  (i1 - i0 < Z.of_nat fuel)%Z -> bsearch fuel junk cols i0 i1 ii = Some p.
Proof.
  intros junk cols ii lo hi p Hlo Hp Hpl Hs Hpr Hhi. induction fuel as [|f IH]; intros i0 i1 H0 H1 H2 Hf; [lia|].
  simpl. destruct (Z.leb_spec i0 i1); [|lia].
  set (im := ((i0 + i1) / 2)%Z).
  assert (Him : (i0 <= im <= i1)%Z /\ (i0 < i1 -> im < i1)%Z).
  { unfold im. pose proof (Z.div_mod (i0 + i1) 2). pose proof (Z.mod_pos_bound (i0 + i1) 2). lia. }
  assert (Hmh : (im < hi)%Z) by (destruct (Z.eq_dec i0 i1); lia).
  assert (Hml : Z.to_nat im < length cols) by lia.
  rewrite (nth_indep cols junk 0) by auto.
  destruct (Nat.eqb_spec (nth (Z.to_nat im) cols 0) ii) as [E|E].
  - f_equal. destruct (Nat.lt_trichotomy (Z.to_nat im) p) as [L|[L|L]]; auto.
    + specialize (Hs (Z.to_nat im) p). lia.
    + specialize (Hs p (Z.to_nat im)). lia.
  - destruct (Nat.ltb_spec (nth (Z.to_nat im) cols 0) ii).
    + apply IH; try lia. destruct (Nat.lt_trichotomy (Z.to_nat im) p) as [L|[L|L]]; try lia; try congruence.
      specialize (Hs p (Z.to_nat im)). lia.
    + apply IH; try lia. destruct (Nat.lt_trichotomy (Z.to_nat im) p) as [L|[L|L]]; try lia; try congruence.
      specialize (Hs (Z.to_nat im) p). lia.
Qed.

Lemma find_b_lin : forall junk nr prows cols i j, wf_csr nr prows cols -> sorted_csr nr prows cols -> i < nr ->
  in_pattern prows cols i j -> find_b junk prows cols i j = find_lin prows cols i j.
Proof.
  intros junk nr prows cols i j W Hso Hi Hin.
  assert (Hf := proj2 (find_lin_none nr prows cols i j W Hi) Hin).
  destruct (find_lin prows cols i j) as [p|] eqn:E; [|congruence].
  destruct (find_lin_good nr prows cols W i j p Hi E) as [H1 H2].
  destruct W as (W1 & W2 & W3).
  assert (nth (S i) prows 0 <= nth nr prows 0) by (apply W2; lia).
  unfold find_b. apply bsearch_spec with (lo := Z.of_nat (nth i prows 0)) (hi := Z.of_nat (nth (S i) prows 0)); try lia; auto.
  intros a b Ha Hab Hb. apply (Hso i); try lia.
Qed.

End Asm.
