(** C53 get_facet_indices, get_cells of facet regions; C54 get_cell_indices. *)
From Verif Require Import Base M_mesh L_mesh M_region S_region L_region.
Open Scope nat_scope.

Lemma all_some_map : forall A (l : list A), all_some (map Some l) = Some l.
Proof. induction l; simpl; auto. rewrite IHl. auto. Qed.

Lemma index_nat_spec : forall l x, In x l -> exists i, index_nat x l = Some i /\ i < length l /\ nth i l 0 = x.
Proof.
  induction l as [|y t IH]; intros x H; [destruct H|]. simpl. destruct (Nat.eqb_spec x y).
  - subst. exists 0. simpl. split; auto. split; auto; lia.
  - destruct H as [->|H]; [congruence|]. destruct (IH x H) as (i & E & L & N). rewrite E. exists (S i). simpl. split; auto. split; auto; lia.
Qed.

(** The flat positions of the groups. *)
Lemma groups : forall A (gs : list (list nat)) (F : nat -> nat -> A),
  concat (map (fun k => map (fun ic => F k (nth ic (concat gs) 0))
      (seq (nth k (cumsum 0 (map (@length nat) gs)) 0)
           (nth (S k) (cumsum 0 (map (@length nat) gs)) 0 - nth k (cumsum 0 (map (@length nat) gs)) 0)))
    (seq 0 (length gs))) =
  concat (map (fun k => map (F k) (nth k gs [])) (seq 0 (length gs))).
Proof.
  intros A gs F. f_equal. apply map_ext_in. intros k Hk. apply in_seq in Hk.
  assert (Lm : length (map (@length nat) gs) = length gs) by apply map_length.
  rewrite !nth_cumsum by lia. rewrite firstn_S_nth by lia. rewrite nth_map_len. simpl plus.
  replace (nsum (firstn k (map (length (A:=nat)) gs)) + length (nth k gs []) - nsum (firstn k (map (length (A:=nat)) gs)))
    with (length (nth k gs [])) by lia.
  apply list_ext with (d := F k 0).
  - rewrite !map_length, seq_length. auto.
  - intros i Hi. rewrite map_length, seq_length in Hi.
    rewrite nth_map_in with (k := i) (da := 0) by (rewrite seq_length; auto). rewrite seq_nth by auto.
    rewrite nth_map_in with (k := i) (da := 0) by auto. f_equal.
    rewrite (split_nth _ gs k []) at 2 by lia. rewrite concat_app. simpl.
    rewrite app_nth2; rewrite firstn_map, <- length_concat_nsum; [|lia].
    replace (length (concat (firstn k gs)) + i - length (concat (firstn k gs))) with i by lia.
    rewrite app_nth1 by auto. auto.
Qed.

Lemma max_pos : forall pos m, (forall x, In x pos -> x <= m) -> In m pos -> fold_right Nat.max 0 pos = m.
Proof.
  intros pos m H1 H2. assert (fold_right Nat.max 0 pos <= m).
  { clear H2. induction pos; simpl in *; [lia|]. apply Nat.max_lub; auto. }
  assert (m <= fold_right Nat.max 0 pos); [|lia].
  clear H1 H. induction pos; simpl in *; [tauto|]. destruct H2 as [->|H2]; [lia|]. specialize (IHpos H2). lia.
Qed.

Lemma combine_app' : forall A B (a1 a2 : list A) (b1 b2 : list B), length a1 = length b1 ->
  combine (a1 ++ a2) (b1 ++ b2) = combine a1 b1 ++ combine a2 b2.
Proof. induction a1; intros a2 [|] b2 H; simpl in *; try discriminate; auto. f_equal. auto. Qed.

Lemma filter_rep : forall (p : nat -> bool) (g : list nat) j k,
  length (filter (fun q => (fst q =? k) && snd q) (combine (repeat j (length g)) (map p g))) =
  if j =? k then length (filter p g) else 0.
Proof.
  induction g as [|x g IH]; intros j k; simpl; [destruct (j =? k); auto|].
  destruct (Nat.eqb_spec j k); simpl.
  - subst. destruct (p x); simpl; rewrite IH, Nat.eqb_refl; auto.
  - rewrite IH. destruct (Nat.eqb_spec j k); congruence.
Qed.

Fixpoint gpos (a : nat) (gs : list (list nat)) : list nat :=
  match gs with [] => [] | g :: t => repeat a (length g) ++ gpos (S a) t end.
Lemma gpos_eq : forall gs a,
  concat (map (fun j => repeat j (length (nth (j - a) gs []))) (seq a (length gs))) = gpos a gs.
Proof.
  induction gs as [|g gs IH]; intros a; auto. cbn [length seq map concat gpos]. rewrite <- IH.
  f_equal; [rewrite Nat.sub_diag; auto|]. f_equal. apply map_ext_in. intros j Hj. apply in_seq in Hj.
  replace (j - a) with (S (j - S a)) by lia. auto.
Qed.

Lemma count_groups : forall (p : nat -> bool) (gs : list (list nat)) a k,
  length (filter (fun q => (fst q =? k) && snd q) (combine (gpos a gs) (map p (concat gs)))) =
  if (a <=? k) && (k <? a + length gs) then length (filter p (nth (k - a) gs [])) else 0.
Proof.
  induction gs as [|g gs IH]; intros a k.
  - simpl. destruct (Nat.leb_spec a k), (Nat.ltb_spec k (a + 0)); simpl; auto; lia.
  - cbn [gpos concat]. rewrite map_app, combine_app' by (rewrite repeat_length, map_length; auto).
    rewrite filter_app, app_length, filter_rep. rewrite IH. cbn [length]. destruct (Nat.eqb_spec a k).
    + subst. rewrite Nat.sub_diag. destruct (Nat.leb_spec (S k) k); [lia|]. destruct (Nat.leb_spec k k); [|lia].
      destruct (Nat.ltb_spec k (k + S (length gs))); [|lia]. simpl. lia.
    + destruct (Nat.leb_spec (S a) k), (Nat.leb_spec a k), (Nat.ltb_spec k (S a + length gs)), (Nat.ltb_spec k (a + S (length gs))); simpl; auto; try lia.
      replace (k - a) with (S (k - S a)) by lia. auto.
Qed.

Lemma bincount_groups : forall (p : nat -> bool) (gs : list (list nat)), (forall g, In g gs -> g <> []) ->
  bincount (concat (map (fun k => repeat k (length (nth k gs []))) (seq 0 (length gs)))) (map p (concat gs)) =
  map (fun g => length (filter p g)) gs.
Proof.
  intros p gs Hne. unfold bincount. set (pos := concat _).
  assert (N : match pos with [] => 0 | _ => S (fold_right Nat.max 0 pos) end = length gs).
  { destruct (Nat.eq_dec (length gs) 0) as [Z|Z].
    { apply length_zero_iff_nil in Z. unfold pos. rewrite Z. reflexivity. }
    assert (Lg : 0 < length gs) by lia.
    assert (InL : In (length gs - 1) pos).
    { apply in_concat. exists (repeat (length gs - 1) (length (nth (length gs - 1) gs []))). split.
      - apply in_map_iff. exists (length gs - 1). split; auto. apply in_seq. lia.
      - destruct (nth (length gs - 1) gs []) eqn:E; [|simpl; auto].
        exfalso. apply (Hne (nth (length gs - 1) gs [])); auto. apply nth_In. lia. }
    assert (Up : forall x, In x pos -> x <= length gs - 1).
    { intros x Hx. apply in_concat in Hx. destruct Hx as (l & Hl & Hx). apply in_map_iff in Hl. destruct Hl as (k & <- & Hk).
      apply in_seq in Hk. apply repeat_spec in Hx. lia. }
    destruct pos eqn:Ep; [destruct InL|]. rewrite <- Ep in *. rewrite (max_pos pos (length gs - 1)); auto; lia. }
  rewrite N. apply list_ext with (d := 0).
  - rewrite !map_length, seq_length. auto.
  - intros k Hk. rewrite map_length, seq_length in Hk.
    rewrite nth_map_in with (k := k) (da := 0) by (rewrite seq_length; auto). rewrite seq_nth by auto.
    rewrite nth_map_in with (k := k) (da := []) by auto.
    pose proof (count_groups p gs 0 k) as C. simpl plus in C. rewrite <- gpos_eq in C.
    rewrite (map_ext _ (fun j => repeat j (length (nth j gs [])))) in C by (intros; rewrite Nat.sub_0_r; auto).
    fold pos in C. simpl plus. rewrite C. destruct (Nat.ltb_spec k (length gs)); [|lia]. simpl. rewrite Nat.sub_0_r. auto.
Qed.

Lemma diffs_cumsum : forall lens k, k < length lens -> nth k (diffs (cumsum 0 lens)) 0 = nth k lens 0.
Proof.
  intros lens k Hk. unfold diffs. rewrite length_cumsum.
  rewrite nth_map_in with (k := k) (da := 0) by (rewrite seq_length; lia). rewrite seq_nth by lia. simpl plus.
  rewrite !nth_cumsum by lia. rewrite firstn_S_nth by auto. lia.
Qed.

Lemma skipn_tl : forall A a (l : list A), skipn (S a) l = tl (skipn a l).
Proof. induction a; intros [|x l]; auto. apply (IHa l). Qed.

(** The local facet number: the position of the facet in the list of facets of
    the cell. *)
Definition is_local (M : mesh_rows) (tdim f : nat) (p : nat * nat) : Prop :=
  snd p < length (nth (fst p) (M tdim (tdim - 1)) []) /\ nth (snd p) (nth (fst p) (M tdim (tdim - 1)) []) 0 = f.

(** C53: for a region with the given facets, get_facet_indices() gives for each
    facet, in order, each cell having it (and belonging to the parent region,
    if there is one) with the local number of the facet in that cell; these
    are the cells of get_cells(true_cells_only=False). *)
Theorem C53_facet_indices : forall M tdim facets pcells,
  (forall f, In f facets -> nth f (M (tdim - 1) tdim) [] <> []) ->
  (forall f c, In f facets -> In c (nth f (M (tdim - 1) tdim) []) -> In f (nth c (M tdim (tdim - 1)) [])) ->
  exists groups,
    facet_indices M tdim facets pcells = Some (concat groups) /\
    map fst (concat groups) = facet_cells M tdim facets pcells /\
    Forall2 (fun f g =>
       map fst g = filter (fun c => match pcells with None => true | Some pc => memb c pc end) (nth f (M (tdim - 1) tdim) []) /\
       Forall (is_local M tdim f) g) facets groups.
Proof.
  intros M tdim facets pcells Hne Hcon.
  set (up f := nth f (M (tdim - 1) tdim) []). set (down c := nth c (M tdim (tdim - 1)) []).
  set (p := fun c => match pcells with None => true | Some pc => memb c pc end).
  set (gs := map up facets). set (gf := map (filter p) gs).
  set (idx := fun f c => match index_nat f (down c) with Some i => i | None => 0 end).
  exists (map (fun k => map (fun c => (c, idx (nth k facets 0) c)) (nth k gf [])) (seq 0 (length gf))).
  assert (Lgf : length gf = length facets) by (unfold gf, gs; rewrite !map_length; auto).
  assert (Hgf : forall k, k < length facets -> nth k gf [] = filter p (up (nth k facets 0))).
  { intros k Hk. unfold gf, gs. rewrite map_map. rewrite nth_map_in with (k := k) (da := 0) by auto. auto. }
  assert (Hinc : get_incident (of_rows (M (tdim - 1) tdim)) facets = concat gs).
  { unfold get_incident, gs. f_equal. apply map_ext. intros. apply irow_of_rows. }
  assert (Hcells : (match pcells with None => (concat gs) | Some pc => filter (fun x => memb x pc) (concat gs) end) = concat gf).
  { unfold gf. rewrite <- filter_concat. unfold p. destruct pcells; auto.
    clear. induction (concat gs) as [|x l IH]; simpl; congruence. }
  assert (Hoffs : facets <> [] -> get_incident_offsets (of_rows (M (tdim - 1) tdim)) facets = cumsum 0 (map (@length nat) gs)).
  { intros N. unfold get_incident_offsets. destruct facets as [|f0 fs] eqn:E; [congruence|]. rewrite <- E. f_equal.
    unfold gs. rewrite E, map_map. apply map_ext. intros. rewrite irow_of_rows. auto. }
  assert (Hloc : get_local_ids (of_rows (M tdim (tdim - 1))) facets (concat gf) (cumsum 0 (map (@length nat) gf)) =
     Some (concat (map (fun k => map (idx (nth k facets 0)) (nth k gf [])) (seq 0 (length gf))))).
  { unfold get_local_ids. rewrite <- Lgf.
    rewrite (groups _ gf (fun k c => index_nat (nth k facets 0) (irow (of_rows (M tdim (tdim - 1))) c))).
    rewrite <- all_some_map. f_equal. rewrite concat_map, map_map. f_equal. apply map_ext_in. intros k Hk. apply in_seq in Hk.
    rewrite map_map. apply map_ext_in. intros c Hc. rewrite Hgf in Hc by lia. apply filter_In in Hc. destruct Hc as [Hc _].
    rewrite irow_of_rows. fold (down c). destruct (index_nat_spec (down c) (nth k facets 0)) as (i & E & _).
    { apply Hcon; auto. apply nth_In. lia. }
    unfold idx. rewrite E. auto. }
  assert (Hcomb : forall ks, combine (concat (map (fun k => nth k gf []) ks)) (concat (map (fun k => map (idx (nth k facets 0)) (nth k gf [])) ks)) =
     concat (map (fun k => map (fun c => (c, idx (nth k facets 0) c)) (nth k gf [])) ks)).
  { induction ks as [|k ks IH]; auto. simpl. rewrite combine_app' by (rewrite map_length; auto). rewrite IH. f_equal.
    generalize (nth k gf []) as l. induction l; simpl; congruence. }
  assert (Hgfid : concat (map (fun k => nth k gf []) (seq 0 (length gf))) = concat gf).
  { f_equal. apply list_ext with (d := []); [rewrite map_length, seq_length; auto|]. intros i Hi. rewrite map_length, seq_length in Hi.
    rewrite nth_map_in with (k := i) (da := 0) by (rewrite seq_length; auto). rewrite seq_nth by auto. auto. }
  assert (HF2 : Forall2 (fun f g => map fst g = filter p (up f) /\ Forall (is_local M tdim f) g) facets
     (map (fun k => map (fun c => (c, idx (nth k facets 0) c)) (nth k gf [])) (seq 0 (length gf)))).
  { assert (K : forall fs a, skipn a facets = fs -> Forall2 (fun f g => map fst g = filter p (up f) /\ Forall (is_local M tdim f) g) fs
     (map (fun k => map (fun c => (c, idx (nth k facets 0) c)) (nth k gf [])) (seq a (length fs)))).
    { induction fs as [|f fs IH]; intros a Ha; simpl; constructor.
      - assert (Ha' : a < length facets).
        { destruct (Nat.lt_ge_cases a (length facets)); auto. rewrite skipn_all2 in Ha by auto. discriminate. }
        assert (Ef : nth a facets 0 = f).
        { rewrite <- (firstn_skipn a facets), Ha. rewrite app_nth2; rewrite firstn_length; [|lia].
          replace (a - Nat.min a (length facets)) with 0 by lia. auto. }
        rewrite Hgf, Ef by auto. rewrite map_map. simpl. rewrite map_id. split; auto.
        apply Forall_forall. intros q Hq. apply in_map_iff in Hq. destruct Hq as (c & <- & Hc). apply filter_In in Hc.
        destruct (index_nat_spec (down c) f) as (i & E & L & N).
        { apply Hcon; [|apply Hc]. rewrite <- Ef. apply nth_In. auto. }
        unfold is_local, idx. simpl. rewrite E. auto.
      - apply IH. rewrite skipn_tl, Ha. auto. }
    rewrite Lgf. apply K. auto. }
  split; [|split; [|exact HF2]].
  - unfold facet_indices. rewrite Hinc.
    assert (D : facets = [] \/ facets <> []) by (destruct facets; [left|right]; congruence). destruct D as [D|NE].
    + subst facets. destruct pcells; reflexivity.
    + rewrite (Hoffs NE).
      assert (Hp : (match pcells with
         | None => (concat gs, cumsum 0 (map (@length nat) gs))
         | Some pc => (filter (fun x => memb x pc) (concat gs),
             cumsum 0 (bincount (concat (map (fun k => repeat k (nth k (diffs (cumsum 0 (map (@length nat) gs))) 0)) (seq 0 (length facets))))
                 (map (fun x => memb x pc) (concat gs))))
         end) = (concat gf, cumsum 0 (map (@length nat) gf))).
      { destruct pcells as [pc|].
        - f_equal; auto. f_equal. unfold gf. rewrite map_map.
          transitivity (bincount (concat (map (fun k => repeat k (length (nth k gs []))) (seq 0 (length gs)))) (map p (concat gs))).
          + assert (Lgs : length gs = length facets) by (unfold gs; rewrite map_length; auto).
            f_equal. f_equal. rewrite Lgs. apply map_ext_in. intros k Hk. apply in_seq in Hk.
            rewrite diffs_cumsum by (unfold gs; rewrite !map_length; lia). rewrite nth_map_len. auto.
          + apply bincount_groups. intros g Hg. unfold gs in Hg. apply in_map_iff in Hg. destruct Hg as (f & <- & Hf). apply Hne. auto.
        - rewrite <- Hcells. f_equal. f_equal. unfold gf. rewrite map_map. apply map_ext. intros g. unfold p.
          clear. induction g; simpl; congruence. }
      cbv zeta. rewrite Hp, Hloc. rewrite <- Hgfid at 1. rewrite Hcomb. auto.
  - rewrite concat_map, map_map. transitivity (concat gf).
    + rewrite <- Hgfid. f_equal. apply map_ext. intros k. rewrite map_map. simpl. apply map_id.
    + unfold facet_cells, cm_incident. rewrite Hinc. rewrite <- Hcells. destruct pcells; auto.
Qed.

(** Two triangles; the edges 0, 1 (shared), 4; all cells, or with the parent {1}. *)
Example C53_ex :
  let M : mesh_rows := fun d1 d2 => match d1, d2 with 1, 2 => [[0]; [0; 1]; [0]; [1]; [1]] | _, _ => [[0; 1; 2]; [3; 4; 1]] end in
  facet_indices M 2 [0; 1; 4] None = Some [(0, 0); (0, 1); (1, 2); (1, 1)] /\
  facet_indices M 2 [0; 1; 4] (Some [1]) = Some [(1, 2); (1, 1)].
Proof. vm_compute. auto. Qed.

(** ** C54 *)
Lemma bs_loop_ok : forall fuel a x lo hi, sinc a -> In x a -> hi - lo < fuel -> lo <= hi -> hi <= length a ->
  (forall i, i < lo -> nth i a 0 < x) -> (forall i, hi <= i < length a -> x <= nth i a 0) ->
  let r := bs_loop fuel a x lo hi in r < length a /\ nth r a 0 = x.
Proof.
  induction fuel as [|f IH]; intros a x lo hi S Hin Hf Hlh Hh Hlo Hhi; [lia|]. cbn [bs_loop].
  destruct (Nat.ltb_spec lo hi).
  - assert (Hm : (hi - lo) / 2 < hi - lo) by (apply Nat.div_lt; lia).
    set (mid := lo + (hi - lo) / 2) in *. assert (lo <= mid < hi) by lia.
    assert (Mono : forall i j, i < j < length a -> nth i a 0 < nth j a 0).
    { clear - S. intros i j. revert i j. induction S as [|h t S IH Hall]; intros i j Hij; simpl in *; [lia|].
      destruct i as [|i], j as [|j]; try lia.
      - rewrite Forall_forall in Hall. apply Hall. apply nth_In. lia.
      - apply IH. lia. }
    destruct (Nat.ltb_spec (nth mid a 0) x).
    + apply IH; auto; try lia. intros i Hi. destruct (Nat.eq_dec i mid); [subst; auto|].
      assert (nth i a 0 < nth mid a 0) by (apply Mono; lia). lia.
    + apply IH; auto; try lia. intros i Hi. destruct (Nat.eq_dec i mid); [subst; auto|].
      assert (nth mid a 0 < nth i a 0) by (apply Mono; lia). lia.
  - assert (lo = hi) by lia. subst. destruct (in_nth_ex a x 0 Hin) as (k & Hk & Ek).
    destruct (Nat.lt_ge_cases k hi).
    + specialize (Hlo k H0). lia.
    + assert (hi < length a) by lia. split; auto.
      destruct (Nat.eq_dec k hi); [subst; auto|].
      assert (Mono : nth hi a 0 < nth k a 0).
      { clear - S H0 Hk n. assert (hi < k) by lia. clear H0 n. revert hi k H Hk.
        induction S as [|h t S IH Hall]; intros i j Hij Hj; simpl in *; [lia|].
        destruct i as [|i], j as [|j]; try lia.
        - rewrite Forall_forall in Hall. apply Hall. apply nth_In. lia.
        - apply IH; lia. }
      specialize (Hhi hi ltac:(lia)). lia.
Qed.

(** C54: get_cell_indices() returns positions of the given cells or an error,
    never wrong positions; for a region with sorted cells it succeeds iff all
    the cells are in the region (ValueError otherwise). *)
Theorem C54_cell_indices : forall fcells cells,
  (forall ii, get_cell_indices fcells cells = Ok ii ->
     length ii = length cells /\
     forall k, k < length cells -> nth k ii 0 < length fcells /\ nth (nth k ii 0) fcells 0 = nth k cells 0) /\
  (sinc fcells ->
     if forallb (fun c => memb c fcells) cells then exists ii, get_cell_indices fcells cells = Ok ii
     else get_cell_indices fcells cells = Err ValueError).
Proof.
  intros fcells cells. unfold get_cell_indices. split.
  - intros ii. destruct (negb _); [discriminate|]. set (iis := map (searchsorted fcells) cells).
    destruct (forallb (fun i => i <? length fcells) iis) eqn:E1; [|discriminate].
    destruct (forallb (fun p => nth (fst p) fcells 0 =? snd p) (combine iis cells)) eqn:E2; [|discriminate].
    simpl. intros H; inversion H; subst ii. assert (L : length iis = length cells) by (unfold iis; rewrite map_length; auto).
    split; auto. intros k Hk. rewrite forallb_forall in E1, E2. split.
    + apply Nat.ltb_lt. apply E1. apply nth_In. lia.
    + specialize (E2 (nth k iis 0, nth k cells 0)). simpl in E2. apply Nat.eqb_eq. apply E2.
      rewrite <- combine_nth by auto. apply nth_In. rewrite combine_length. lia.
  - intros S. destruct (forallb (fun c => memb c fcells) cells) eqn:E; simpl; auto.
    assert (SS : forall c, In c cells -> searchsorted fcells c < length fcells /\ nth (searchsorted fcells c) fcells 0 = c).
    { intros c Hc. rewrite forallb_forall in E. unfold searchsorted. apply bs_loop_ok; auto; try lia.
      apply memb_In. auto. }
    assert (E1 : forallb (fun i => i <? length fcells) (map (searchsorted fcells) cells) = true).
    { apply forallb_forall. intros i Hi. apply in_map_iff in Hi. destruct Hi as (c & <- & Hc). apply Nat.ltb_lt. apply SS. auto. }
    rewrite E1. simpl.
    assert (E2 : forallb (fun p => nth (fst p) fcells 0 =? snd p) (combine (map (searchsorted fcells) cells) cells) = true).
    { apply forallb_forall. intros [i c] Hi. simpl. assert (i = searchsorted fcells c /\ In c cells) as [-> Hc].
      { clear - Hi. induction cells as [|x t IH]; simpl in Hi; [destruct Hi|]. destruct Hi as [Hi|Hi].
        - inversion Hi; subst. simpl. auto.
        - destruct (IH Hi). simpl. auto. }
      apply Nat.eqb_eq. apply SS. auto. }
    rewrite E2. simpl. eauto.
Qed.

Example C54_ex : get_cell_indices [2; 5; 7; 9] [7; 2; 7] = Ok [2; 0; 2] /\
  get_cell_indices [2; 5; 7; 9] [7; 3] = Err ValueError /\ get_cell_indices [9; 2] [2] = Err AssertionError.
Proof. vm_compute. auto. Qed.

Print Assumptions C53_facet_indices.
Print Assumptions C54_cell_indices.
