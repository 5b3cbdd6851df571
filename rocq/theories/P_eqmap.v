(** Theorems C03-C08, C10: the equation mapping.

    Common hypotheses: [ord] (iteration order of Python sets) is any
    permutation; [junk] (content of uninitialised arrays) is arbitrary; the
    call [map_equations] raised no exception ([= Ok em]); [wf_bcs] (each
    condition by itself is a sane matching) and, if there are three or more
    periodic conditions, [balanced].  C10_refuted shows that the latter is
    needed. *)
From Coq Require Import String Relations.
From Verif Require Import Base BaseSum M_dofs S_dofs S_eqmap S_matrix L_chains L_eqloop L_eqfin L_eqprops L_eqmain L_operator L_eqex.
Open Scope nat_scope.

(** DOF [x] is constrained by an essential condition. *)
Definition fixed {V} (names : list string) (bcs : list (bcond V)) (x : nat) : Prop :=
  exists bc, In bc bcs /\ fixes names bc x.

(** C03 (essential conditions only, any unused DOFs). *)
Theorem C03_ebc : forall V (vzero : V) junk ord n names unused bcs em,
  (forall l, Permutation (ord l) l) ->
  map_equations vzero junk ord n names unused bcs = Ok em ->
  (forall bc, In bc bcs -> is_ebc bc = true) -> wf_bcs names bcs ->
  StronglySorted lt (em_eqi em) /\
  (forall x, In x (em_eqi em) <-> x < n /\ ~ fixed names bcs x /\ ~ In x unused) /\
  length (em_eq em) = n /\
  (forall k, k < length (em_eqi em) -> nth (nth k (em_eqi em) 0) (em_eq em) 0%Z = Z.of_nat k) /\
  (forall x, x < n -> ~ In x (em_eqi em) -> (nth x (em_eq em) 0 < 0)%Z) /\
  em_neq em = length (em_eqi em) /\ em_master em = [] /\ em_slave em = [].
Proof.
  intros V vzero junk ord n names unused bcs em Hord Hmap Hebc Hwf.
  assert (H0 : n_epbc bcs = 0).
  { unfold n_epbc. clear -Hebc. induction bcs as [|b l IH]; auto. simpl.
    rewrite (Hebc b) by (left; auto). simpl. apply IH. intros; apply Hebc; right; auto. }
  assert (Hreg : balanced names bcs \/ n_epbc bcs <= 2) by (right; lia).
  pose proof (m_ok V vzero junk ord n names unused bcs em Hord Hmap Hwf Hreg) as O.
  assert (HA : concat (map (bc_pairs V junk names) bcs) = []).
  { clear -Hebc. induction bcs as [|b l IH]; auto. simpl. rewrite IH by (intros; apply Hebc; right; auto).
    specialize (Hebc b (or_introl eq_refl)). destruct b; [auto|discriminate]. }
  assert (HL : forall x y, linked (concat (map (bc_pairs V junk names) bcs)) x y -> x = y).
  { rewrite HA. intros x y H. induction H; auto; try congruence. destruct H. }
  assert (Hm : em_master em = []).
  { destruct (em_master em) as [|m ms] eqn:E; auto. exfalso.
    pose proof (o_s_l _ _ _ _ _ _ _ _ O) as L. rewrite E in L. destruct (em_slave em) as [|s ss] eqn:Es; [discriminate|].
    destruct (o_ms _ _ _ _ _ _ _ _ O m s) as (H1 & H2 & H3 & H4); [rewrite E, Es; left; auto|].
    apply HL in H4. subst s. apply H3. rewrite E; left; auto. }
  assert (Hs : em_slave em = []).
  { pose proof (o_s_l _ _ _ _ _ _ _ _ O) as L. rewrite Hm in L. destruct (em_slave em); [auto|discriminate]. }
  assert (He : forall x, x < n -> (In x (em_ebc em) <-> fixed names bcs x)).
  { intros x Hx. split.
    - intros H. destruct (o_flag_inv _ _ _ _ _ _ _ _ O x H) as (y & Ly & Fy). apply HL in Ly. subst y.
      apply (m_flag' V vzero junk ord n names unused bcs em Hord Hmap Hwf Hreg) in Fy. exact Fy.
    - intros H. apply (o_flag _ _ _ _ _ _ _ _ O); auto.
      apply (m_flag' V vzero junk ord n names unused bcs em Hord Hmap Hwf Hreg). exact H. }
  split; [apply (o_eqi_s _ _ _ _ _ _ _ _ O)|].
  split.
  { intros x. rewrite (o_eqi _ _ _ _ _ _ _ _ O). rewrite Hm. split.
    - intros (H1 & H2 & _ & H3). rewrite <- He by auto. auto.
    - intros (H1 & H2 & H3). rewrite He by auto. auto. }
  split; [apply (o_eq_l _ _ _ _ _ _ _ _ O)|].
  split; [apply (o_eq _ _ _ _ _ _ _ _ O)|].
  split; [intros x Hx Hi; apply (o_eq_neg _ _ _ _ _ _ _ _ O); auto; rewrite Hm; auto|].
  auto.
Qed.

(** C03 with periodic conditions: each class of tied DOFs without an essential
    condition has exactly one active DOF, and all its DOFs have its number;
    all the DOFs of the other classes are inactive. *)
Theorem C03_classes : forall V (vzero : V) junk ord n names bcs em,
  (forall l, Permutation (ord l) l) ->
  map_equations vzero junk ord n names [] bcs = Ok em ->
  wf_bcs names bcs -> balanced names bcs \/ n_epbc bcs <= 2 ->
  StronglySorted lt (em_eqi em) /\ em_neq em = length (em_eqi em) /\
  forall x, x < n ->
  ((exists y, tied names bcs x y /\ fixed names bcs y) ->
     ~ In x (em_eqi em) /\ (nth x (em_eq em) 0 < 0)%Z) /\
  (~ (exists y, tied names bcs x y /\ fixed names bcs y) ->
     exists k, k < em_neq em /\ tied names bcs x (nth k (em_eqi em) 0) /\
               nth x (em_eq em) 0%Z = Z.of_nat k /\
               forall j, j < em_neq em -> tied names bcs x (nth j (em_eqi em) 0) -> j = k).
Proof.
  intros V vzero junk ord n names bcs em Hord Hmap Hwf Hreg.
  split; [eapply m_eqi_sinc; eauto|]. split; auto. intros x Hx.
  destruct (m_class V vzero junk ord n names [] bcs em Hord Hmap Hwf Hreg x Hx) as [H1 H2].
  split.
  - intros (y & T & bc & B1 & B2). destruct H1 as [G1 G2]; [exists y, bc; auto|]. auto.
  - intros H. apply H2; auto. intros (y & bc & T & B1 & B2). apply H. exists y. split; auto. exists bc; auto.
Qed.

(** C04 *)
Theorem C04_last_wins : forall V (vzero : V) junk ord n names unused bcs em,
  (forall l, Permutation (ord l) l) ->
  map_equations vzero junk ord n names unused bcs = Ok em ->
  (forall bc, In bc bcs -> is_ebc bc = true) -> wf_bcs names bcs ->
  StronglySorted lt (em_ebc em) /\ (forall x, In x (em_ebc em) <-> fixed names bcs x) /\
  length (em_val em) = length (em_ebc em) /\
  forall k, k < length (em_ebc em) -> last_value names vzero bcs (nth k (em_ebc em) 0) (nth k (em_val em) vzero).
Proof.
  intros V vzero junk ord n names unused bcs em Hord Hmap Hebc Hwf.
  assert (H0 : n_epbc bcs = 0).
  { unfold n_epbc. clear -Hebc. induction bcs as [|b l IH]; auto. simpl.
    rewrite (Hebc b) by (left; auto). simpl. apply IH. intros; apply Hebc; right; auto. }
  assert (Hreg : balanced names bcs \/ n_epbc bcs <= 2) by (right; lia).
  pose proof (m_ok V vzero junk ord n names unused bcs em Hord Hmap Hwf Hreg) as O.
  assert (HA : concat (map (bc_pairs V junk names) bcs) = []).
  { clear -Hebc. induction bcs as [|b l IH]; auto. simpl. rewrite IH by (intros; apply Hebc; right; auto).
    specialize (Hebc b (or_introl eq_refl)). destruct b; [auto|discriminate]. }
  assert (HL : forall x y, linked (concat (map (bc_pairs V junk names) bcs)) x y -> x = y).
  { rewrite HA. intros x y H. induction H; auto; try congruence. destruct H. }
  split; [apply (o_ebc_s _ _ _ _ _ _ _ _ O)|].
  split.
  { intros x. split.
    - intros H. destruct (o_flag_inv _ _ _ _ _ _ _ _ O x H) as (y & Ly & Fy). apply HL in Ly. subst y.
      apply (m_flag' V vzero junk ord n names unused bcs em Hord Hmap Hwf Hreg) in Fy. exact Fy.
    - intros H.
      assert (F : nth x (flags_of V junk names n bcs) false = true)
        by (apply (m_flag' V vzero junk ord n names unused bcs em Hord Hmap Hwf Hreg); exact H).
      apply (o_flag _ _ _ _ _ _ _ _ O); auto.
      apply (m_flag V vzero junk ord n names unused bcs em Hord Hmap Hwf Hreg) in F. tauto. }
  split; [apply (o_val_l _ _ _ _ _ _ _ _ O)|].
  intros k Hk. destruct (o_val _ _ _ _ _ _ _ _ O k Hk) as (y & Ly & Fy & E). apply HL in Ly. subst y. rewrite E.
  apply (m_last V vzero junk ord n names unused bcs em Hord Hmap Hwf Hreg).
Qed.

(** C05 *)
Theorem C05_get_full : forall V (vzero : V) junk ord n names bcs em,
  (forall l, Permutation (ord l) l) ->
  map_equations vzero junk ord n names [] bcs = Ok em ->
  wf_bcs names bcs -> balanced names bcs \/ n_epbc bcs <= 2 ->
  forall junkv r, length junkv = n -> length r = em_neq em ->
  let v := get_full vzero junkv em None r in
  length v = n /\ get_reduced vzero em v = r /\
  (forall x y, tied names bcs x y -> nth x v vzero = nth y v vzero) /\
  (forall x, fixed names bcs x ->
     exists y, tied names bcs x y /\ fixed names bcs y /\ last_value names vzero bcs y (nth x v vzero)) /\
  (compatible names vzero bcs -> forall x, fixed names bcs x -> last_value names vzero bcs x (nth x v vzero)).
Proof. intros. eapply m_full; eauto. Qed.

(** C06 *)
Theorem C06_reduce_full : forall V (vzero : V) junk ord n names bcs em,
  (forall l, Permutation (ord l) l) ->
  map_equations vzero junk ord n names [] bcs = Ok em ->
  wf_bcs names bcs -> balanced names bcs \/ n_epbc bcs <= 2 ->
  forall junkv v, length junkv = n -> length v = n ->
  (forall x w, fixed names bcs x -> last_value names vzero bcs x w -> nth x v vzero = w) ->
  (forall x y, tied names bcs x y -> nth x v vzero = nth y v vzero) ->
  get_full vzero junkv em None (get_reduced vzero em v) = v.
Proof. intros. eapply m_reduced_full; eauto. split; auto. Qed.

(** C07 *)
Theorem C07_apply_ebc : forall V (vzero : V) junk ord n names bcs em,
  (forall l, Permutation (ord l) l) ->
  map_equations vzero junk ord n names [] bcs = Ok em ->
  wf_bcs names bcs -> balanced names bcs \/ n_epbc bcs <= 2 ->
  forall vec, length vec = n ->
  let v := apply_ebc vzero em vec in
  length v = n /\ apply_ebc vzero em v = v /\
  (forall x, In x (em_eqi em) -> nth x v vzero = nth x vec vzero) /\
  (forall x y, tied names bcs x y -> nth x v vzero = nth y v vzero) /\
  (compatible names vzero bcs -> forall x, fixed names bcs x -> last_value names vzero bcs x (nth x v vzero)) /\
  (compatible names vzero bcs -> forall close, (forall a, close a a = true) -> has_ebc vzero close em v = true).
Proof. intros. eapply m_apply; eauto. Qed.

(** C08: [R] is given by the coordinates of its ones; its dense entries are
    [coo_ones]. *)
Theorem C08_operator : forall V (v0 v1 : V) add mul, semi_ring_theory v0 v1 add mul eq ->
  forall junk ord n names bcs em, (forall l, Permutation (ord l) l) ->
  map_equations v0 junk ord n names [] bcs = Ok em ->
  wf_bcs names bcs -> balanced names bcs \/ n_epbc bcs <= 2 ->
  let R := coo_ones v0 v1 add (get_operator em) in
  (forall v, length v = n -> get_reduced_follow v0 add em v = mat_vec v0 add mul (em_neq em) n (transp R) v) /\
  (forall junkv r, length junkv = n -> length r = em_neq em ->
     get_full v0 junkv em (Some v0) r = mat_vec v0 add mul n (em_neq em) R r) /\
  (forall junkv r v, length junkv = n -> length r = em_neq em -> length v = n ->
     dot v0 add mul n (get_full v0 junkv em (Some v0) r) v =
     dot v0 add mul (em_neq em) r (get_reduced_follow v0 add em v)).
Proof.
  intros V v0 v1 add mul SR junk ord n names bcs em Hord Hmap Hwf Hreg R.
  pose proof (m_ok V v0 junk ord n names [] bcs em Hord Hmap Hwf Hreg) as O.
  assert (H1 : forall v, length v = n -> get_reduced_follow v0 add em v = mat_vec v0 add mul (em_neq em) n (transp R) v).
  { intros. eapply follow_spec; eauto. }
  assert (H2 : forall junkv r, length junkv = n -> length r = em_neq em ->
     get_full v0 junkv em (Some v0) r = mat_vec v0 add mul n (em_neq em) R r).
  { intros. eapply full_spec; eauto. }
  split; [auto|]. split; [auto|].
  intros junkv r v L1 L2 L3. rewrite H2, H1 by auto. eapply adjoint; eauto.
Qed.

(** C10 for at most two periodic conditions or balanced ones (e.g. periodicity
    of a box in three directions). *)
Theorem C10_tied_partial : forall V (vzero : V) junk ord n names bcs em,
  (forall l, Permutation (ord l) l) ->
  map_equations vzero junk ord n names [] bcs = Ok em ->
  wf_bcs names bcs -> balanced names bcs \/ n_epbc bcs <= 2 ->
  forall junkv force r x y, length junkv = n -> tied names bcs x y ->
  nth x (get_full vzero junkv em force r) vzero = nth y (get_full vzero junkv em force r) vzero.
Proof.
  intros V vzero junk ord n names bcs em Hord Hmap Hwf Hreg junkv force r x y Hj T.
  eapply (get_full_tied V vzero n); eauto.
  - eapply (m_ok0 V vzero junk ord n names [] bcs em); eauto.
  - apply (m_tied V vzero junk ord n names [] bcs em Hord Hmap Hwf Hreg). exact T.
Qed.

(** ** Examples *)
Notation u1 := ["u.0"%string].

(** Two overlapping essential conditions; the later one wins in node 2. *)
Definition ex_ebc : list (bcond nat) := [Ebc true [0; 2] u1 (Some [7]); Ebc true [2] u1 (Some [9]); Ebc false [1] u1 (Some [5])].
Example C03_ex : map_equations 0 99 (fun l => l) 4 u1 [3] ex_ebc = Ok (mk_em [-2; 0; -2; -3]%Z [1] [0; 2] [7; 9] [] []).
Proof. reflexivity. Qed.
Example C03_ex_wf : wf_bcs u1 ex_ebc /\ (forall bc, In bc ex_ebc -> is_ebc bc = true).
Proof.
  split; [intros bc [<-|[<-|[<-|[]]]]; simpl; repeat constructor; simpl; tauto|].
  intros bc [<-|[<-|[<-|[]]]]; auto.
Qed.

(** Two chained periodic conditions 0->2, 1->3, 2->4, 3->5 and a value in node 0. *)
Definition ex_pbc : list (bcond nat) :=
  [Epbc true [0; 1] [2; 3] [0; 1] [0; 1] u1 u1; Epbc true [2; 3] [4; 5] [0; 1] [0; 1] u1 u1; Ebc true [0] u1 (Some [7])].
Example C05_ex : exists em, map_equations 0 99 (fun l => l) 7 u1 [] ex_pbc = Ok em /\ em_neq em = 2 /\
  get_full 0 (repeat 0 7) em None [1; 2] = [7; 1; 7; 1; 7; 1; 2].
Proof. eexists. split; [vm_compute; reflexivity|]. split; vm_compute; reflexivity. Qed.
Example C05_ex_wf : wf_bcs u1 ex_pbc /\ n_epbc ex_pbc <= 2 /\ compatible u1 0 ex_pbc.
Proof.
  split; [|split; [vm_compute; auto|]].
  - intros bc [<-|[<-|[<-|[]]]].
    + apply epbc_disjoint_wf; auto; try (repeat constructor; simpl; intuition lia); simpl; intuition lia.
    + apply epbc_disjoint_wf; auto; try (repeat constructor; simpl; intuition lia); simpl; intuition lia.
    + repeat constructor; simpl; auto.
  - assert (HF : forall x, (exists b, In b ex_pbc /\ fixes u1 b x) -> x = 0).
    { intros x (b & [<-|[<-|[<-|[]]]] & Hf); simpl in Hf; try tauto.
      destruct Hf as (n & d & p & [<-|[]] & [<-|[]] & (P & _) & ->). simpl in *. lia. }
    assert (HG : forall b y w, In b ex_pbc -> gives u1 b y w -> w = 7).
    { intros b y w [<-|[<-|[<-|[]]]] Hg; simpl in Hg; try tauto.
      destruct Hg as (k & i & p & K1 & K2 & _ & _ & E). congruence. }
    assert (HL : forall w, last_value u1 0 ex_pbc 0 w -> w = 7).
    { intros w [(b1 & b & b2 & E & G & _)|[_ H]].
      - apply (HG b 0 w); auto. rewrite E. apply in_or_app; simpl; auto.
      - exfalso. apply (H (Ebc true [0] u1 (Some [7])) 7); [right; right; left; auto|].
        exists 0, 0, 0. repeat split; auto. intros q Hq; lia. }
    intros x y v w _ Hx Hy Lx Ly. apply HF in Hx, Hy. subst x y. apply HL in Lx, Ly. congruence.
Qed.

(** Balanced: the 2 x 2 x 2 nodes of a cell, periodic in three directions. *)
Definition ex_box : list (bcond nat) :=
  [Epbc true [0; 2; 4; 6] [1; 3; 5; 7] [0; 1; 2; 3] [0; 1; 2; 3] u1 u1;
   Epbc true [0; 1; 4; 5] [2; 3; 6; 7] [0; 1; 2; 3] [0; 1; 2; 3] u1 u1;
   Epbc true [0; 1; 2; 3] [4; 5; 6; 7] [0; 1; 2; 3] [0; 1; 2; 3] u1 u1].
Lemma ex_box_ties : forall bc m s, In bc ex_box -> ties u1 bc m s -> m < 8 /\ s < 8.
Proof.
  intros bc m s [<-|[<-|[<-|[]]]] (k & i & p & q & K1 & K2 & K3 & K4 & (P & _) & (Q & _) & _ & -> & ->); cbn [length] in *;
  assert (p = 0) by lia; assert (q = 0) by lia; subst p q;
  (destruct k as [|[|[|[|k]]]]; [vm_compute; lia ..|lia]).
Qed.
Lemma ex_box_occ : forall x, x < 8 -> exists y, ties u1 (nth 0 ex_box (Ebc false [] [] None)) x y \/ ties u1 (nth 0 ex_box (Ebc false [] [] None)) y x.
Proof.
  assert (HT : forall k, k < 4 -> ties u1 (nth 0 ex_box (Ebc false [] [] None)) (2 * k) (2 * k + 1)).
  { intros k Hk. exists k, 0, 0, 0.
    assert (at_pos u1 "u.0"%string 0) by (repeat split; auto; intros; lia).
    destruct k as [|[|[|[|k]]]]; [| | | |lia]; repeat split; simpl; auto; try lia; intros; lia. }
  intros x Hx. destruct (Nat.Even_or_Odd x) as [[k E]|[k E]].
  - exists (2 * k + 1). left. rewrite E. apply HT; lia.
  - exists (2 * k). right. rewrite E. apply HT; lia.
Qed.
Example C10_ex_box : wf_bcs u1 ex_box /\ balanced u1 ex_box /\
  exists em, map_equations 0 99 (fun l => l) 9 u1 [] ex_box = Ok em /\ em_neq em = 2.
Proof.
  split; [|split].
  - intros bc [<-|[<-|[<-|[]]]]; apply epbc_disjoint_wf; auto;
      try (repeat constructor; simpl; intuition lia); simpl; intuition lia.
  - intros b1 bc b2 E m s T.
    assert (Hin : In bc ex_box) by (rewrite E; apply in_or_app; simpl; auto).
    destruct (ex_box_ties bc m s Hin T) as [Hm Hs].
    destruct b1 as [|b0 b1].
    + split; intros (b & y & [] & _).
    + assert (Hb : b0 = nth 0 ex_box (Ebc false [] [] None)) by (unfold ex_box in *; simpl in E; injection E; auto).
      split; intros _.
      * destruct (ex_box_occ s Hs) as (y & Hy). exists b0, y. split; [left; auto|]. rewrite Hb. exact Hy.
      * destruct (ex_box_occ m Hm) as (y & Hy). exists b0, y. split; [left; auto|]. rewrite Hb. exact Hy.
  - eexists. split; [vm_compute; reflexivity|]. reflexivity.
Qed.

(** C10 is false in general: with the three periodic conditions 0->1, 1->2,
    2->3 on four DOFs, the DOF 3 is not tied to the others. *)
Definition ex_chain : list (bcond nat) :=
  [Epbc true [0] [1] [0] [0] u1 u1; Epbc true [1] [2] [0] [0] u1 u1; Epbc true [2] [3] [0] [0] u1 u1].
Theorem C10_refuted : exists em r,
  map_equations 0 99 (fun l => l) 4 u1 [] ex_chain = Ok em /\ wf_bcs u1 ex_chain /\
  tied u1 ex_chain 0 3 /\
  nth 0 (get_full 0 (repeat 0 4) em None r) 0 <> nth 3 (get_full 0 (repeat 0 4) em None r) 0.
Proof.
  eexists. exists [1; 2]. split; [vm_compute; reflexivity|]. split.
  - intros bc [<-|[<-|[<-|[]]]]; apply epbc_disjoint_wf; auto;
      try (repeat constructor; simpl; intuition lia); simpl; intuition lia.
  - split; [|vm_compute; lia].
    assert (HT : forall k, k < 3 -> exists bc, In bc ex_chain /\ ties u1 bc k (S k)).
    { intros k Hk. exists (nth k ex_chain (Ebc false [] [] None)). split; [apply nth_In; auto|].
      assert (at_pos u1 "u.0"%string 0) by (repeat split; auto; intros; lia).
      destruct k as [|[|[|k]]]; [| | |lia]; exists 0, 0, 0, 0; repeat split; simpl; auto; intros; lia. }
    eapply rst_trans; [apply rst_step, (HT 0); auto|].
    eapply rst_trans; apply rst_step; apply HT; auto.
Qed.

(** Without [compatible], C05 for essential values is false: two masters of
    one slave with different prescribed values. *)
Definition ex_incomp : list (bcond nat) :=
  [Epbc true [0] [1] [0] [0] u1 u1; Ebc true [0] u1 (Some [5]); Ebc true [1] u1 (Some [6])].
Theorem C05_incompatible_refuted : exists em,
  map_equations 0 99 (fun l => l) 2 u1 [] ex_incomp = Ok em /\
  fixed u1 ex_incomp 1 /\ gives u1 (Ebc true [1] u1 (Some [6])) 1 6 /\
  nth 1 (get_full 0 (repeat 0 2) em None []) 0 = 5.
Proof.
  eexists. split; [vm_compute; reflexivity|].
  assert (at_pos u1 "u.0"%string 0) by (repeat split; auto; intros; lia).
  split; [|split; [|reflexivity]].
  - exists (Ebc true [1] u1 (Some [6])). split; [right; right; left; auto|].
    exists 1, "u.0"%string, 0. repeat split; simpl; auto; intros; lia.
  - exists 0, 0, 0. repeat split; simpl; auto; intros; lia.
Qed.

(** Three periodic conditions 0->3, 3->1, 2->1 (sets iterated in increasing order,
    as CPython does for small numbers): the DOF 2 gets the content of uninitialised
    memory, so C05-C08 need their hypothesis on the conditions, too. *)
Fixpoint ins_le (x : nat) (l : list nat) : list nat := match l with [] => [x] | y :: t => if x <=? y then x :: l else y :: ins_le x t end.
Definition sort_le (l : list nat) : list nat := fold_right ins_le [] l.
Lemma sort_le_perm : forall l, Permutation (sort_le l) l.
Proof.
  assert (H : forall x l, Permutation (ins_le x l) (x :: l)).
  { intros x l. induction l as [|y t IH]; simpl; auto. destruct (x <=? y); auto.
    eapply perm_trans; [apply perm_skip, IH|apply perm_swap]. }
  induction l as [|x t IH]; simpl; auto. eapply perm_trans; [apply H|]. apply perm_skip, IH.
Qed.
Definition ex_junk : list (bcond nat) :=
  [Epbc true [0] [3] [0] [0] u1 u1; Epbc true [3] [1] [0] [0] u1 u1; Epbc true [2] [1] [0] [0] u1 u1].
Theorem C06_chain_refuted : exists em,
  map_equations 0 99 sort_le 4 u1 [] ex_junk = Ok em /\ wf_bcs u1 ex_junk /\
  (forall junk r, nth 2 (get_full 0 (repeat junk 4) em None r) 0 = junk) /\
  exists junk v, length v = 4 /\ (forall x y, tied u1 ex_junk x y -> nth x v 0 = nth y v 0) /\
    get_full 0 (repeat junk 4) em None (get_reduced 0 em v) <> v.
Proof.
  eexists. split; [vm_compute; reflexivity|]. split; [|split].
  - intros bc [<-|[<-|[<-|[]]]]; apply epbc_disjoint_wf; auto;
      try (repeat constructor; simpl; intuition lia); simpl; intuition lia.
  - intros junk [|a [|b r]]; reflexivity.
  - exists 0, [5; 5; 5; 5]. split; [auto|]. split; [|vm_compute; discriminate].
    assert (B : forall m s bc, In bc ex_junk -> ties u1 bc m s -> m < 4 /\ s < 4).
    { intros m s bc [<-|[<-|[<-|[]]]] (k & i & p & q & K1 & K2 & I1 & I2 & (P1 & _) & (Q1 & _) & _ & -> & ->); simpl in *;
        destruct k as [|k]; try lia; destruct p as [|p]; try lia; destruct q as [|q]; try lia; simpl; lia. }
    intros x y T. induction T as [x y (bc & Hb & T)|x|x y T IH|x y z T1 IH1 T2 IH2]; auto; [|congruence].
    destruct (B x y bc Hb T) as [X Y].
    assert (E : forall k, k < 4 -> nth k [5; 5; 5; 5] 0 = 5) by (intros k K; do 4 (destruct k as [|k]; [reflexivity|]); lia).
    rewrite !E; auto.
Qed.

Print Assumptions C03_ebc.
Print Assumptions C03_classes.
Print Assumptions C04_last_wins.
Print Assumptions C05_get_full.
Print Assumptions C06_reduce_full.
Print Assumptions C07_apply_ebc.
Print Assumptions C08_operator.
Print Assumptions C10_tied_partial.
Print Assumptions C10_refuted.
Print Assumptions C05_incompatible_refuted.
