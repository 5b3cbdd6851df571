(** C140: conformity of uniform refinement. *)
From Coq Require Import Reals Lra Lia Permutation.
From Verif Require Import Base M_mesh M_lagnodes M_fmf L_fmf M_map S_map M_refine P_mgeo L_refine P_refine P_refine2.
Open Scope nat_scope.

(** ** Specification *)
(** The nodes of a facet of a cell; two facets are the same *)
Definition facet (g : geom) (m : mesh) (n i : nat) : list nat := map (fun j => nth j (nth n (m_conn m) []) 0) (nth i (gfacets g) []).
Definition same (g : geom) (m : mesh) (n i n' i' : nat) : Prop := Permutation (facet g m n i) (facet g m n' i').
(** Quadrilateral faces with the same vertices have the same edges *)
Definition faces_agree (m : mesh) : Prop :=
  forall n i n' i', n < length (m_conn m) -> n' < length (m_conn m) -> i < 6 -> i' < 6 -> same Hex m n i n' i' ->
  forall e, In e edges_3_8 -> incl e (nth i faces_3_8 []) -> exists e', In e' edges_3_8 /\ Permutation (gverts_of m n e) (gverts_of m n' e').
(** A mesh of cells of different existing vertices; no two cells have the same vertices *)
Definition valid (g : geom) (m : mesh) : Prop :=
  mesh_ok g m /\
  (forall n n', n < length (m_conn m) -> n' < length (m_conn m) -> Permutation (nth n (m_conn m) []) (nth n' (m_conn m) []) -> n = n') /\
  (g = Hex -> faces_agree m).
(** The nodes of the facet [i] of the child [s] in the parent, and the facet lies in the facet [F] of the parent: the nodes
    are centroids of vertices of [F] *)
Definition cf (g : geom) (s i : nat) : list rnode := map (fun j => nth j (child g s) RB) (nth i (gfacets g) []).
Definition on (g : geom) (s i F : nat) : Prop := forall r, In r (cf g s i) -> incl (supp g r) (nth F (gfacets g) []).

(** ** Enumerations *)
Definition inclb (a b : list nat) : bool := forallb (fun x => existsb (Nat.eqb x) b) a.
Lemma inclb_spec : forall a b, inclb a b = true <-> incl a b.
Proof.
  intros a b. unfold inclb, incl. rewrite forallb_forall. split; intros H x Hx.
  - specialize (H x Hx). apply existsb_exists in H. destruct H as (y & Y & E). apply Nat.eqb_eq in E. subst. auto.
  - apply existsb_exists. exists x. split; auto. apply Nat.eqb_refl.
Qed.
Definition rneqb (a b : rnode) : bool :=
  match a, b with RC i, RC j => i =? j | RE i, RE j => i =? j | RF i, RF j => i =? j | RB, RB => true | _, _ => false end.
Lemma rneqb_spec : forall a b, rneqb a b = true <-> a = b.
Proof.
  intros a b. split.
  - destruct a, b; cbn; intros H; try discriminate; try reflexivity; apply Nat.eqb_eq in H; subst; auto.
  - intros ->. destruct b; cbn; auto; apply Nat.eqb_refl.
Qed.
Definition inclr (a b : list rnode) : bool := forallb (fun x => existsb (rneqb x) b) a.
Lemma inclr_spec : forall a b, inclr a b = true <-> incl a b.
Proof.
  intros a b. unfold inclr, incl. rewrite forallb_forall. split; intros H x Hx.
  - specialize (H x Hx). apply existsb_exists in H. destruct H as (y & Y & E). apply rneqb_spec in E. subst. auto.
  - apply existsb_exists. exists x. split; auto. apply rneqb_spec. auto.
Qed.
Fixpoint nodupr (a : list rnode) : bool := match a with [] => true | x :: a => negb (existsb (rneqb x) a) && nodupr a end.
Lemma nodupr_spec : forall a, nodupr a = true -> NoDup a.
Proof.
  induction a as [|x a IH]; intros H; [constructor|]. cbn in H. apply Bool.andb_true_iff in H. destruct H as [H1 H2]. constructor; auto.
  intros I. apply Bool.negb_true_iff in H1. assert (existsb (rneqb x) a = true); [|congruence]. apply existsb_exists. exists x. split; auto. apply rneqb_spec. auto.
Qed.
Definition fall (n : nat) (P : nat -> bool) : bool := forallb P (seq 0 n).
Lemma fall_spec : forall n P, fall n P = true -> forall i, i < n -> P i = true.
Proof. intros n P H i Hi. unfold fall in H. rewrite forallb_forall in H. apply H. apply in_seq. lia. Qed.
Definition fex (n : nat) (P : nat -> bool) : bool := existsb P (seq 0 n).
Lemma fex_spec : forall n P, fex n P = true -> exists i, i < n /\ P i = true.
Proof. intros n P H. unfold fex in H. apply existsb_exists in H. destruct H as (i & I & E). apply in_seq in I. exists i. split; auto. lia. Qed.
Definition kind (r : rnode) : nat := match r with RC _ => 0 | RE _ => 1 | RF _ => 2 | RB => 3 end.
Definition usupp (g : geom) (l : list rnode) : list nat := flat_map (supp g) l.
Definition onb (g : geom) (s i F : nat) : bool := inclb (usupp g (cf g s i)) (nth F (gfacets g) []).
Lemma onb_spec : forall g s i F, onb g s i F = true <-> on g s i F.
Proof.
  intros. unfold onb, on. rewrite inclb_spec. unfold usupp, incl. split.
  - intros H r Hr a Ha. apply H. apply in_flat_map. exists r. auto.
  - intros H a Ha. apply in_flat_map in Ha. destruct Ha as (r & Hr & Ha). apply (H r); auto.
Qed.
Notation nch g := (2 ^ gdim g).
Notation nfa g := (length (gfacets g)).
Fixpoint nodupb (a : list nat) : bool := match a with [] => true | x :: a => negb (existsb (Nat.eqb x) a) && nodupb a end.
Lemma nodupb_spec : forall a, nodupb a = true -> NoDup a.
Proof.
  induction a as [|x a IH]; intros H; [constructor|]. cbn in H. apply Bool.andb_true_iff in H. destruct H as [H1 H2]. constructor; auto.
  intros I. apply Bool.negb_true_iff in H1. assert (existsb (Nat.eqb x) a = true); [|congruence]. apply existsb_exists. exists x. split; auto. apply Nat.eqb_refl.
Qed.
(** Facets: proper subsets of the vertices *)
Definition chkF (g : geom) : bool :=
  fall (nfa g) (fun i => forallb (fun j => j <? gnv g) (nth i (gfacets g) []) && (length (nth i (gfacets g) []) <? gnv g) && nodupb (nth i (gfacets g) []) &&
    fall (nfa g) (fun i' => (i =? i') || negb (inclb (nth i (gfacets g) []) (nth i' (gfacets g) [])))).
(** Facets of the children: on a facet of the cell, or inside *)
Definition chkA (g : geom) : bool :=
  fall (nch g) (fun s => fall (nfa g) (fun i => let u := usupp g (cf g s i) in
    nodupr (cf g s i) &&
    (fex (nfa g) (fun F => onb g s i F && inclb (nth F (gfacets g) []) u) ||
     (inclb (seq 0 (gnv g)) u && fall (nfa g) (fun F => negb (onb g s i F)))))).
Definition inner (g : geom) (s i : nat) : bool := fall (nfa g) (fun F => negb (onb g s i F)).
(** Facets of the children of one cell *)
Definition chkB (g : geom) : bool :=
  fall (nch g) (fun s => fall (nfa g) (fun i =>
    if inner g s i then
      fex (nch g) (fun s1 => negb (s1 =? s) && fex (nfa g) (fun i1 => inclr (cf g s i) (cf g s1 i1) && inclr (cf g s1 i1) (cf g s i) &&
        fall (nch g) (fun s' => fall (nfa g) (fun i' => negb (inclr (cf g s i) (cf g s' i')) || ((s' =? s) && (i' =? i)) || ((s' =? s1) && (i' =? i1))))))
    else fall (nch g) (fun s' => fall (nfa g) (fun i' => negb (inclr (cf g s i) (cf g s' i')) || ((s' =? s) && (i' =? i)))))).
(** Permutations *)
Fixpoint ins (a : nat) (l : list nat) : list (list nat) := match l with [] => [[a]] | b :: l' => (a :: l) :: map (cons b) (ins a l') end.
Fixpoint perms (l : list nat) : list (list nat) := match l with [] => [[]] | a :: l' => flat_map (ins a) (perms l') end.
Lemma ins_In : forall a q1 q2, In (q1 ++ a :: q2) (ins a (q1 ++ q2)).
Proof.
  intros a. induction q1 as [|b q1 IH]; intros q2; cbn; [destruct q2; cbn; auto|]. right. apply in_map. apply IH.
Qed.
Lemma perms_In : forall l q, Permutation l q -> In q (perms l).
Proof.
  induction l as [|a l IH]; intros q P; [apply Permutation_nil in P; subst; cbn; auto|]. cbn. apply in_flat_map.
  assert (I : In a q) by (apply (Permutation_in _ P); cbn; auto). apply in_split in I. destruct I as (q1 & q2 & ->).
  exists (q1 ++ q2). split; [apply IH; apply (@Permutation_cons_app_inv _ l q1 q2 a); auto|apply ins_In].
Qed.
Fixpoint index (v : nat) (l : list nat) : nat := match l with [] => 0 | a :: l => if a =? v then 0 else S (index v l) end.
Lemma index_nth : forall v l d, In v l -> index v l < length l /\ nth (index v l) l d = v.
Proof.
  intros v. induction l as [|a l IH]; intros d I; [destruct I|]. cbn. destruct (Nat.eqb_spec a v); [split; [lia|auto]|].
  destruct I as [I|I]; [congruence|]. destruct (IH d I). split; [lia|auto].
Qed.
Definition sig (F q : list nat) (v : nat) : nat := nth (index v F) q 0.
Definition matchr (g : geom) (F q : list nat) (r r' : rnode) : bool :=
  (kind r =? kind r') && (kind r <? 3) && inclb (map (sig F q) (supp g r)) (supp g r') && inclb (supp g r') (map (sig F q) (supp g r)).
Definition edgesok (g : geom) (F q : list nat) : bool :=
  forallb (fun e => negb (inclb e F) || existsb (fun e' => inclb (map (sig F q) e) e') (gedges g)) (gedges g).
(** The parts of a facet seen from two cells *)
Definition chkC (g : geom) : bool :=
  fall (nfa g) (fun F => fall (nfa g) (fun F' => forallb (fun q => negb (edgesok g (nth F (gfacets g) []) q) ||
    fall (nch g) (fun s => fall (nfa g) (fun i => negb (onb g s i F) ||
      fex (nch g) (fun s' => fex (nfa g) (fun i' => onb g s' i' F' &&
        forallb (fun r => existsb (matchr g (nth F (gfacets g) []) q r) (cf g s' i')) (cf g s i)))))) (perms (nth F' (gfacets g) [])))).
Definition chkE (g : geom) : bool :=
  match g with Hex => true | _ =>
    fall (nfa g) (fun F => fall (nfa g) (fun F' => forallb (fun q => edgesok g (nth F (gfacets g) []) q) (perms (nth F' (gfacets g) [])))) end.
(** Nodes *)
Definition chkR (g : geom) : bool :=
  forallb (fun r => forallb (fun i => i <? gnv g) (supp g r) && nodupb (supp g r) &&
    forallb (fun r' => negb (kind r =? kind r') || negb (inclb (supp g r) (supp g r')) || rneqb r r') (rtab g)) (rtab g) &&
  fall (nch g) (fun s => nodupr (child g s) && inclb (seq 0 (gnv g)) (usupp g (child g s)) &&
    fall (nch g) (fun s' => negb (inclr (child g s) (child g s')) || (s =? s'))).
(** Edges of the children of a hexahedron *)
Definition near (a b : rnode) : bool := (kind a =? S (kind b)) || (kind b =? S (kind a)).
Definition chkH : bool :=
  fall 8 (fun s => fall 6 (fun i => let F := nth i faces_3_8 [] in
    forallb (fun e => negb (inclb e F) || near (nth (nth 0 e 0) (child Hex s) RB) (nth (nth 1 e 0) (child Hex s) RB)) edges_3_8 &&
    forallb (fun a => forallb (fun b => negb (near (nth a (child Hex s) RB) (nth b (child Hex s) RB)) || existsb (fun e => inclb [a; b] e) edges_3_8) F) F)).
Lemma chks : forall g, isgeom g -> chkF g = true /\ chkA g = true /\ chkB g = true /\ chkC g = true /\ chkE g = true /\ chkR g = true.
Proof. intros g G. destruct G as [<- | [<- | [<- | [<- | []]]]]; repeat split; vm_compute; reflexivity. Qed.
Lemma chkH_ok : chkH = true. Proof. vm_compute. reflexivity. Qed.
