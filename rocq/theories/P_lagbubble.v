(** C108: histories of evaluations of the Lagrange basis; C109: simplices with bubbles. *)
From Coq Require Import Reals Lra.
From Verif Require Import Base M_nls M_lagnodes M_lagrange P_lagnodes L_lagrange P_lagrange P_lagtensor.
Set Implicit Arguments.
Open Scope R_scope.

(** ** Histories *)
(** Calls one after another; each finds arbitrary contents of the stack buffers. *)
Record call := mkCall { ca_ctx : context; ca_diff : bool; ca_eps : R; ca_check : bool; ca_points : list point; ca_bufs : list (list R) }.
Definition do_call (k : call) (g : bool) : res (list (list (list R))) * bool := evaluate (ca_ctx k) (ca_diff k) (ca_eps k) (ca_check k) (ca_points k) g (ca_bufs k).
Fixpoint run_calls (g : bool) (ks : list call) : list (res (list (list (list R)))) :=
  match ks with [] => [] | k :: ks => let '(r, g) := do_call k g in r :: run_calls g ks end.
(** The first call in a process, with clean buffers *)
Definition fresh (k : call) : res (list (list (list R))) := fst (do_call (mkCall (ca_ctx k) (ca_diff k) (ca_eps k) (ca_check k) (ca_points k) []) false).

Lemma bary_buf : forall dim rows x eps check buf buf', exists l l' e, bary dim rows x eps check false buf = (l, e, e) /\ bary dim rows x eps check false buf' = (l', e, e) /\ (e = false -> l = l').
Proof.
  intros dim rows x eps check. induction rows as [|row rows IH]; intros buf buf'; cbn [bary]; [exists [], [], false; auto|].
  destruct (snap eps (bary_val dim row x)) as [v e0]. destruct (check && e0); cbn [orb].
  - exists (v :: tl buf), (v :: tl buf'), true. repeat split; auto. discriminate.
  - destruct (IH (tl buf) (tl buf')) as (l & l' & e & -> & -> & H). exists (v :: l), (v :: l'), e. repeat split; auto. intros E. rewrite H; auto.
Qed.
Lemma bary_g : forall dim rows x eps check buf, exists l e, bary dim rows x eps check true buf = (l, true, e).
Proof. intros dim rows x eps check buf. destruct rows as [|row rows]; cbn [bary]; [eauto|]. destruct (snap eps (bary_val dim row x)) as [v e0]. cbn [orb]. eauto. Qed.
Lemma bary_dims_g : forall mtx x eps check iis bufs, exists l e, bary_dims mtx x eps check true bufs iis = (l, true, e).
Proof.
  intros mtx x eps check iis bufs. induction iis as [|k iis IH]; cbn [bary_dims]; [eauto|]. destruct (bary_g 1 mtx [nth k x 0] eps check (nth k bufs [])) as (l & e & ->). destruct IH as (l2 & e2 & ->). eauto.
Qed.
Lemma bary_dims_buf : forall mtx x eps check iis bufs bufs', exists l l' e, bary_dims mtx x eps check false bufs iis = (l, e, e) /\ (exists e', bary_dims mtx x eps check false bufs' iis = (l', e, e')) /\ bary_dims mtx x eps check false bufs' iis = (l', e, e) /\ (e = false -> l = l').
Proof.
  intros mtx x eps check iis bufs bufs'. induction iis as [|k iis IH]; cbn [bary_dims]; [exists [], [], false; eauto 6|].
  destruct (bary_buf 1 mtx [nth k x 0] eps check (nth k bufs []) (nth k bufs' [])) as (b & b' & e & -> & -> & H).
  destruct e.
  - destruct (bary_dims_g mtx x eps check iis bufs) as (l1 & e1 & ->). destruct (bary_dims_g mtx x eps check iis bufs') as (l2 & e2 & ->). cbn [orb]. eexists _, _, true. repeat split; eauto. discriminate.
  - destruct IH as (l & l' & e & -> & _ & -> & H2). cbn [orb]. eexists _, _, e. repeat split; eauto. intros E. rewrite H, H2; auto.
Qed.
Lemma eval_points_g : forall c diff eps check xs bufs, exists l e, eval_points c diff eps check true bufs xs = (l, true, e).
Proof.
  intros c diff eps check xs. induction xs as [|x xs IH]; intros bufs; cbn [eval_points]; [eauto|]. destruct (cx_tensor c).
  - destruct (bary_dims_g (cx_mtx_i c) x eps check (seq 0 (cx_dim c)) bufs) as (b & e & ->). destruct (IH b) as (l & e2 & ->). eauto.
  - destruct (bary_g (cx_dim c) (cx_mtx_i c) x eps check (nth 0 bufs [])) as (b & e & ->). destruct (IH [b]) as (l & e2 & ->). eauto.
Qed.
Lemma eval_points_buf : forall c diff eps check xs bufs bufs', exists l l' e, eval_points c diff eps check false bufs xs = (l, e, e) /\ eval_points c diff eps check false bufs' xs = (l', e, e) /\ (e = false -> l = l').
Proof.
  intros c diff eps check xs. induction xs as [|x xs IH]; intros bufs bufs'; cbn [eval_points]; [exists [], [], false; auto|]. destruct (cx_tensor c).
  - destruct (bary_dims_buf (cx_mtx_i c) x eps check (seq 0 (cx_dim c)) bufs bufs') as (b & b' & e & -> & _ & -> & H). destruct e.
    + destruct (eval_points_g c diff eps check xs b) as (l1 & e1 & ->). destruct (eval_points_g c diff eps check xs b') as (l2 & e2 & ->). cbn [orb]. eexists _, _, true. repeat split; eauto. discriminate.
    + destruct (IH b b') as (l & l' & e & -> & -> & H2). cbn [orb]. eexists _, _, e. repeat split; eauto. intros E. rewrite H, H2; auto.
  - destruct (bary_buf (cx_dim c) (cx_mtx_i c) x eps check (nth 0 bufs []) (nth 0 bufs' [])) as (b & b' & e & -> & -> & H). destruct e.
    + destruct (eval_points_g c diff eps check xs [b]) as (l1 & e1 & ->). destruct (eval_points_g c diff eps check xs [b']) as (l2 & e2 & ->). cbn [orb]. eexists _, _, true. repeat split; eauto. discriminate.
    + destruct (IH [b] [b']) as (l & l' & e & -> & -> & H2). cbn [orb]. eexists _, _, e. repeat split; eauto. intros E. rewrite H, H2; auto.
Qed.
(** As long as no call has failed, the result of a call does not depend on the calls before
    it nor on the buffers.  Missing: the calls after a failed one. *)
Theorem C108_history_partial : forall ks k, (forall r, In r (run_calls false ks) -> exists v, r = Ok v) ->
  run_calls false (ks ++ [k]) = run_calls false ks ++ [fresh k].
Proof.
  induction ks as [|k0 ks IH]; intros k H; cbn [app run_calls].
  - unfold fresh, do_call, evaluate. cbn [ca_ctx ca_diff ca_eps ca_check ca_points ca_bufs]. destruct (eval_points_buf (ca_ctx k) (ca_diff k) (ca_eps k) (ca_check k) (ca_points k) (ca_bufs k) []) as (l & l' & e & -> & -> & E). cbn [fst]. destruct e; auto. rewrite E; auto.
  - cbn [run_calls] in H. unfold do_call, evaluate in *. destruct (eval_points_buf (ca_ctx k0) (ca_diff k0) (ca_eps k0) (ca_check k0) (ca_points k0) (ca_bufs k0) []) as (l & l' & e & E1 & _ & _). rewrite E1 in *. destruct e.
    + destruct (H (Err RuntimeError) (or_introl eq_refl)) as [v V]. discriminate.
    + cbn [app]. f_equal. apply IH. intros r R. apply H. right. auto.
Qed.
Theorem C108_after_error_refuted : exists k1 k2 v w, run_calls false [k1; k2] = [Err RuntimeError; Ok v] /\ fresh k2 = Ok w /\ v <> w.
Proof.
  destruct C105_after_error_refuted as (c & x & y & bufs & EC & IN & E1 & vals & E2 & NE).
  set (k1 := mkCall c false (/ 10) true [y] [[0; 0]]). set (k2 := mkCall c false (/ 10) true [x] bufs).
  assert (NN : simplex_nodes 1 1 = Ok [mkLN 0 0 [1; 0]%nat; mkLN 0 1 [0; 1]%nat]) by (vm_compute; reflexivity).
  destruct (@C105_simplex_basis 1 1 (ref_coors 1) (ref_mtx_i 1) _ (/ 10) true [x] [] ltac:(lia) ltac:(lia) NN eq_refl (ref_inverse (dim := 1) ltac:(lia)) (fun z Z => match Z with or_introl E => eq_ind x (in_simplex 1 (ref_coors 1)) IN z E | or_intror F => match F with end end)) as (out & EV & FF).
  exists k1, k2, [[vals]], out. split; [|split].
  - cbn [run_calls]. unfold do_call. cbn [k1 k2 ca_ctx ca_diff ca_eps ca_check ca_points ca_bufs]. destruct (evaluate c false (/ 10) true [y] false [[0; 0]]) as [r1 g1]. cbn [fst snd] in *. rewrite E1. destruct (evaluate c false (/ 10) true [x] g1 bufs) as [r2 g2]. cbn [fst] in E2. rewrite E2. auto.
  - unfold fresh, do_call. cbn [k2 ca_ctx ca_diff ca_eps ca_check ca_points ca_bufs]. rewrite EC. cbn [map ln_node] in EV. rewrite EV. auto.
  - intros <-. inversion FF as [|? ? ? ? (w & W & _ & S1 & _)]; subst. injection W as <-. contradiction.
Qed.

Lemma F2_inv : forall A B (P : A -> B -> Prop) x xs ys, Forall2 P (x :: xs) ys -> exists y ys', ys = y :: ys' /\ P x y /\ Forall2 P xs ys'.
Proof. intros A B P x xs ys H. inversion H; subst. eauto. Qed.
(** ** Bubbles *)
Definition bnode (dim : nat) : list nat := repeat 1%nat (dim + 1).
Definition bctx (dim order : nat) (nodes : list (list nat)) (mtx_i : list (list R)) : context := mkCtx order nodes (Some (bnode dim)) mtx_i dim false.
Lemma eval_inside_b : forall dim V mtx order nodes diff eps check xs bufs, is_inverse dim mtx V -> (forall x, In x xs -> in_simplex dim V x) ->
  exists out, eval_points (bctx dim order nodes mtx) diff eps check false bufs xs = (out, false, false) /\
    Forall2 (fun x o => exists t, length t = length V /\ (forall b, In b t -> 0 <= b) /\ lsum t = 1 /\ x = comb dim V t /\ o = add_bubble diff mtx t (bnode dim) (eval_simplex order diff mtx t nodes)) xs out.
Proof.
  intros dim V mtx order nodes diff eps check xs. induction xs as [|x xs IH]; intros bufs I H; [exists []; split; auto|].
  destruct (H x (or_introl eq_refl)) as (t & L & P & S1 & ->). cbn [bctx eval_points cx_tensor cx_mtx_i cx_dim cx_order cx_nodes cx_bubble]. rewrite (@bary_simplex dim mtx V t eps check (nth 0 bufs []) I L P S1).
  destruct (IH [t] I (fun x X => H x (or_intror X))) as (out & E & F). fold (bctx dim order nodes mtx). rewrite E. eexists. split; [reflexivity|]. constructor; auto. exists t. auto.
Qed.
Lemma bnode_sum : forall dim, list_sum (bnode dim) = (dim + 1)%nat.
Proof. intros. unfold bnode. induction (dim + 1)%nat; cbn; auto. Qed.
(** The bubble: (dim + 1)^(dim + 1) times the product of the barycentric coordinates *)
Definition bubble (dim : nat) (t : list R) : R := lprod (map (fun b => INR (dim + 1) * b) t).
Lemma bubble_eq : forall dim t, length t = (dim + 1)%nat -> simplex_val (dim + 1) t (bnode dim) = bubble dim t.
Proof.
  intros dim t L. rewrite simplex_val_eq by (unfold bnode; rewrite repeat_length; auto). unfold bubble, bnode. rewrite <- L. generalize (INR (length t)). intros o. clear L. induction t as [|b t IH]; auto.
  cbn [length repeat map pcb]. rewrite lprod_cons, IH. cbn [cb]. unfold fct. cbn [INR]. f_equal. field.
Qed.
Lemma add_bubble_values : forall dim order mtx t nodes, length t = (dim + 1)%nat ->
  add_bubble false mtx t (bnode dim) (eval_simplex order false mtx t nodes) = [map (fun node => simplex_val order t node - 1 / INR (length nodes) * bubble dim t) nodes ++ [bubble dim t]].
Proof.
  intros dim order mtx t nodes L. unfold add_bubble. cbn [eval_simplex map combine fst snd nth]. rewrite bnode_sum, bubble_eq by auto. rewrite map_length, map_map. auto.
Qed.
Lemma lsum_minus_const : forall A (f : A -> R) c l, lsum (map (fun x => f x - c) l) = lsum (map f l) - INR (length l) * c.
Proof. intros A f c l. induction l as [|a l IH]; [cbn; lra|]. cbn [map length]. rewrite !lsum_cons, IH, S_INR. lra. Qed.
Lemma map_ones : forall q k, map (fun a => INR a / q) (repeat 1%nat k) = repeat (1 / q) k.
Proof. intros q k. induction k as [|k IHk]; auto. cbn [repeat map]. rewrite IHk. auto. Qed.
Lemma prod_ones : forall q k, q <> 0 -> lprod (map (fun b => q * b) (repeat (1 / q) k)) = 1.
Proof. intros q k Q. induction k as [|k IHk]; auto. cbn [repeat map]. rewrite lprod_cons, IHk. field. auto. Qed.
(** Missing: the basis is nodal also in the barycentre for order > 1, see below. *)
Theorem C109_bubble_partial : forall dim order V mtx_i l eps check xs bufs, (1 <= dim <= 3)%nat -> (1 <= order)%nat ->
  simplex_nodes dim order = Ok l -> length V = (dim + 1)%nat -> is_inverse dim mtx_i V -> (forall x, In x xs -> in_simplex dim V x) ->
  exists out, evaluate (bctx dim order (map ln_node l) mtx_i) false eps check xs false bufs = (Ok out, false) /\
    Forall2 (fun x o => exists vals b, o = [vals ++ [b]] /\ length vals = length l /\
      lsum (vals ++ [b]) = 1 /\
      (forall j n, nth_error l j = Some n -> In 0%nat (ln_node n) -> x = node_coor dim order V (ln_node n) -> b = 0 /\ forall i, (i < length l)%nat -> nth i vals 0 = if (i =? j)%nat then 1 else 0) /\
      (x = node_coor dim (dim + 1) V (bnode dim) -> b = 1 /\ (order = 1%nat -> forall i, (i < length l)%nat -> nth i vals 0 = 0))) xs out.
Proof.
  intros dim order V mtx l eps check xs bufs D O N LV I H. destruct (@eval_inside_b dim V mtx order (map ln_node l) false eps check xs bufs I H) as (out & E & F).
  exists out. unfold evaluate. rewrite E. split; [auto|]. destruct (@C105_simplex_basis dim order V mtx l eps check xs bufs D O N LV I H) as (out0 & E0 & F0).
  destruct (@eval_inside dim V mtx order (map ln_node l) false eps check xs bufs I H) as (out1 & E1 & F1). unfold evaluate in E0. rewrite E1 in E0. injection E0 as <-.
  assert (L0 : (0 < length l)%nat). { destruct (C104_simplex_nodes D O) as (l' & E' & _ & _ & _ & V0 & _). rewrite N in E'. injection E' as <-. destruct (V0 0%nat ltac:(lia)) as (n0 & X & _). apply nth_error_Some. congruence. }
  assert (LR : INR (length l) <> 0) by (apply not_0_INR; lia).
  clear E E1 H. revert out F out1 F1 F0. induction xs as [|x xs IH]; intros out F out1 F1 F0; [inversion F; constructor|].
  apply F2_inv in F. destruct F as (o & out' & -> & H1 & F). apply F2_inv in F1. destruct F1 as (o1 & out1' & -> & H4 & F1). apply F2_inv in F0. destruct F0 as (o2 & out2' & EO & H6 & F0). injection EO as <- <-. constructor; [|eapply IH; eauto].
  clear IH F F1 F0. destruct H1 as (t & LT & P & S1 & -> & ->). destruct H4 as (t' & LT' & _ & S1' & EQ & ->).
  assert (t' = t) by (symmetry; apply (@comb_inj dim mtx V); auto). subst t'. clear EQ LT' S1'.
  destruct H6 as (vals & EV & LV' & SV & NV & _). cbn [eval_simplex] in EV. injection EV as <-.
  rewrite add_bubble_values by lia. exists (map (fun node => simplex_val order t node - 1 / INR (length (map ln_node l)) * bubble dim t) (map ln_node l)), (bubble dim t). split; [auto|]. split; [rewrite !map_length; auto|]. split; [|split].
  - rewrite lsum_app, lsum_minus_const, SV. cbn [lsum fold_right]. rewrite !map_length. field. auto.
  - intros j n J Z EX. assert (TE : t = map (fun a => INR a / INR order) (ln_node n)).
    { assert (A : In (ln_node n) (map ln_node l)) by (apply in_map; eapply nth_error_In; eauto). destruct (C104_simplex_nodes D O) as (l' & E' & _ & IN & _). rewrite N in E'. injection E' as <-. apply IN in A. destruct A as [A1 A2]. apply (@comb_inj dim mtx V); auto; [rewrite map_length; lia|apply nodes_sum; auto]. }
    assert (B0 : bubble dim t = 0).
    { unfold bubble. rewrite TE, map_map. generalize (INR (dim + 1)). intros q. clear - Z. induction (ln_node n) as [|a u IHu]; [destruct Z|]. cbn [map]. rewrite lprod_cons. destruct Z as [->|Z]; [cbn [INR]; unfold Rdiv; lra|]. rewrite IHu by auto. lra. }
    split; [auto|]. intros i Hi. rewrite B0, <- (NV j n J EX i Hi). rewrite !nth_map_in with (da := []) by (rewrite map_length; auto). lra.
  - intros EX. assert (TE : t = map (fun a => INR a / INR (dim + 1)) (bnode dim)).
    { apply (@comb_inj dim mtx V); auto; [unfold bnode; rewrite map_length, repeat_length; lia|apply nodes_sum; [lia|apply bnode_sum]]. }
    assert (RR : t = repeat (1 / INR (dim + 1)) (dim + 1)). { rewrite TE. unfold bnode. apply map_ones. }
    assert (Q : INR (dim + 1) <> 0) by (apply not_0_INR; lia).
    assert (B1 : bubble dim t = 1). { unfold bubble. rewrite RR. apply prod_ones. auto. }
    split; [auto|]. intros -> i Hi. rewrite B1. rewrite nth_map_in with (da := []) by (rewrite map_length; auto).
    rewrite map_length. destruct (C104_simplex_nodes D O) as (l' & E' & _ & IN & _). rewrite N in E'. injection E' as <-.
    assert (A : simplex_point dim 1 (nth i (map ln_node l) [])) by (apply IN; apply nth_In; rewrite map_length; auto). destruct A as [A1 A2].
    assert (LN : length l = (dim + 1)%nat). { rewrite simplex_nodes_eq in N by auto. injection N as <-. rewrite simplex_len by auto. destruct dim as [|[|[|[|]]]]; try lia; reflexivity. }
    rewrite LN, simplex_val_eq by lia. rewrite RR. change (INR 1) with 1.
    assert (G : forall u k, length u = k -> list_sum u = 1%nat -> forall q, pcb (map (fun b => 1 * b) (repeat q k)) u = q).
    { clear. induction u as [|a u IHu]; intros k L S q; [cbn in S; lia|]. destruct k as [|k]; [discriminate|]. cbn [repeat map pcb]. change (list_sum (a :: u)) with (a + list_sum u)%nat in S. destruct a as [|[|]]; [| |lia].
      - cbn [cb]. rewrite IHu by (cbn in L; lia). lra.
      - assert (Z : list_sum u = 0%nat) by lia. assert (P1 : forall ys, pcb ys u = 1). { clear - Z. induction u as [|a u IHu]; intros [|y ys]; cbn [pcb]; auto. change (list_sum (a :: u)) with (a + list_sum u)%nat in Z. destruct a; [|lia]. rewrite IHu by lia. cbn. lra. }
        rewrite P1. cbn [cb]. unfold fct. cbn [INR]. field. }
    rewrite G by auto. lra.
Qed.
(** With order 2 the functions are not nodal: in the barycentre, the node of the bubble, the
    function of a vertex is -5/18. *)
Theorem C109_order2_refuted : exists x vals, x = node_coor 2 3 (ref_coors 2) (bnode 2) /\ bind (simplex_nodes 2 2) (fun l => fst (evaluate (bctx 2 2 (map ln_node l) (ref_mtx_i 2)) false 0 true [x] false [])) = Ok [[vals]] /\ nth 0 vals 0 = - 5 / 18.
Proof.
  assert (B3 : node_coor 2 3 (ref_coors 2) (bnode 2) = comb 2 (ref_coors 2) [1 / 3; 1 / 3; 1 / 3]). { unfold node_coor, bnode. f_equal. cbn. repeat (f_equal; try (field; lra)). }
  exists (node_coor 2 3 (ref_coors 2) (bnode 2)). rewrite B3. eexists. split; [reflexivity|]. split.
  - replace (simplex_nodes 2 2) with (Ok [mkLN 0 0 [2; 0; 0]%nat; mkLN 0 1 [0; 2; 0]%nat; mkLN 0 2 [0; 0; 2]%nat; mkLN 1 0 [1; 1; 0]%nat; mkLN 1 1 [0; 1; 1]%nat; mkLN 1 2 [1; 0; 1]%nat]) by (vm_compute; reflexivity).
    cbn [bind]. unfold evaluate. cbn [bctx eval_points cx_tensor cx_mtx_i cx_dim cx_order cx_nodes cx_bubble]. rewrite (@bary_simplex 2 (ref_mtx_i 2) (ref_coors 2) [1 / 3; 1 / 3; 1 / 3] 0 true (nth 0 [] []) (ref_inverse (dim := 2) ltac:(lia)) eq_refl).
    + cbn [orb fst]. rewrite add_bubble_values by auto. reflexivity.
    + intros b [<-|[<-|[<-|[]]]]; lra.
    + cbn. lra.
  - cbn [map app nth]. rewrite simplex_val_eq by auto. unfold bubble. cbn [map ln_node length pcb lprod fold_right plus]. cbn [cb]. unfold fct. cbn [INR]. field.
Qed.
(** With order 3 in two dimensions the functions are linearly dependent. *)
Theorem C109_order3_refuted : exists l, simplex_nodes 2 3 = Ok l /\ length l = 10%nat /\
  forall x eps check, in_simplex 2 (ref_coors 2) x -> exists vals, fst (evaluate (bctx 2 3 (map ln_node l) (ref_mtx_i 2)) false eps check [x] false []) = Ok [[vals]] /\ nth 9 vals 0 = 9 / 10 * nth 10 vals 0.
Proof.
  eexists. split; [vm_compute; reflexivity|]. split; [reflexivity|]. intros x eps check (t & LT & P & S1 & ->). eexists. split.
  - unfold evaluate. cbn [bctx eval_points cx_tensor cx_mtx_i cx_dim cx_order cx_nodes cx_bubble]. rewrite (@bary_simplex 2 (ref_mtx_i 2) (ref_coors 2) t eps check (nth 0 [] []) (ref_inverse (dim := 2) ltac:(lia)) LT P S1).
    cbn [orb fst]. rewrite add_bubble_values by (rewrite LT; auto). reflexivity.
  - cbn [map ln_node length app nth]. change [1; 1; 1]%nat with (bnode 2). change 3%nat with (2 + 1)%nat at 1. rewrite bubble_eq by (rewrite LT; auto). cbn [INR]. field.
Qed.
Print Assumptions C108_history_partial.
Print Assumptions C109_bubble_partial.
