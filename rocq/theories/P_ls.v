(** C175, C176: the digest of a matrix and the reuse of factorizations. *)
From Coq Require Import QArith Qabs.
From Verif Require Import Base M_ls S_ls.
Import ListNotations.
Local Open Scope nat_scope.
Set Implicit Arguments.

(** ** C176: the digest *)
Lemma skipn_nil_iff {A} : forall (l : list A) i, skipn i l = [] -> length l <= i.
Proof.
  intros l i H. pose proof (skipn_length i l) as L. rewrite H in L. simpl in L. lia.
Qed.

Lemma flat_map_app' {A B} (f : A -> list B) : forall l1 l2,
  flat_map f (l1 ++ l2) = flat_map f l1 ++ flat_map f l2.
Proof. induction l1; simpl; intros; [easy|]. rewrite IHl1, app_assoc. easy. Qed.

Lemma skipn_add {A} : forall i j (l : list A), skipn (i + j) l = skipn j (skipn i l).
Proof. induction i; simpl; intros; [easy|]. destruct l; simpl; [now rewrite skipn_nil|easy]. Qed.

Lemma chunks_concat {A} (tob : A -> list nat) cs : 0 < cs -> forall fuel arr ii,
  length arr < ii + fuel ->
  concat (array_chunks tob cs fuel arr ii) = flat_map tob (skipn ii arr).
Proof.
  intros Hc. induction fuel; intros arr ii H.
  - simpl. rewrite skipn_all2 by lia. easy.
  - simpl. destruct (skipn ii arr) as [|x t] eqn:E; [easy|].
    simpl concat. rewrite IHfuel by lia. rewrite skipn_add, E.
    rewrite <- flat_map_app', firstn_skipn. easy.
Qed.

Lemma chunk_all {A} (tob : A -> list nat) cs arr : 0 < cs ->
  concat (array_chunks tob cs (S (length arr)) arr 0) = flat_map tob arr.
Proof. intros. rewrite chunks_concat by lia. easy. Qed.

(** Whatever the size of the chunks, the bytes of the three arrays are hashed,
    each once, in order. *)
Theorem C176_all_bytes_hashed : forall cs m, 0 < cs ->
  hash_input cs m = indptr m ++ indices m ++ concat (data m).
Proof.
  intros. unfold hash_input. rewrite !chunk_all by easy.
  assert (Q1 : forall l : list nat, flat_map (fun i => [i]) l = l)
    by (induction l; simpl; congruence).
  rewrite !Q1. rewrite (flat_map_concat_map (fun e : list nat => e)), map_id. easy.
Qed.

Lemma concat_len w : forall d : list (list nat), Forall (fun e => length e = w) d ->
  length (concat d) = w * length d.
Proof.
  induction 1; simpl; [lia|]. rewrite app_length, IHForall. lia.
Qed.

Lemma mono_le (l : list nat) n : (forall i, i < n -> nth i l 0 <= nth (S i) l 0) ->
  forall i j, i <= j -> j <= n -> nth i l 0 <= nth j l 0.
Proof.
  intros H i j Hij. induction Hij; intros; [lia|].
  specialize (H m ltac:(lia)). specialize (IHHij ltac:(lia)). lia.
Qed.

Lemma app_eq_len {A} : forall (a b c d : list A), length a = length c ->
  a ++ b = c ++ d -> a = c /\ b = d.
Proof.
  induction a; destruct c; simpl; intros; try easy. injection H0 as -> E.
  apply IHa in E; [|lia]. destruct E; subst; easy.
Qed.

Lemma concat_inj w : 0 < w -> forall d1 d2 : list (list nat),
  Forall (fun e => length e = w) d1 -> Forall (fun e => length e = w) d2 ->
  concat d1 = concat d2 -> d1 = d2.
Proof.
  intros Hw. induction d1; intros d2 F1 F2 E.
  - destruct d2; [easy|]. inversion F2; subst. simpl in E.
    destruct l; [simpl in *; lia|easy].
  - inversion F1; subst. destruct d2.
    + destruct a; [simpl in *; lia|easy].
    + inversion F2; subst. simpl in E. apply app_eq_len in E; [|congruence].
      destruct E as [-> E]. f_equal. apply IHd1; auto.
Qed.

Lemma no_longer w n1 n2 m1 m2 : csr_ok n1 w m1 -> csr_ok n2 w m2 ->
  indptr m1 ++ indices m1 ++ concat (data m1)
  = indptr m2 ++ indices m2 ++ concat (data m2) -> n1 < n2 -> False.
Proof.
  intros (L1 & M1 & N1 & D1 & F1) (L2 & M2 & N2 & D2 & F2) E Hn.
  pose proof (f_equal (@length nat) E) as EL.
  rewrite !app_length, (concat_len F1), (concat_len F2), D1, D2, L1, L2 in EL.
  pose proof (f_equal (fun l => nth n1 l 0) E) as EN. simpl in EN.
  rewrite !app_nth1 in EN by lia.
  pose proof (mono_le _ M2 (i := n1) (j := n2) ltac:(lia) ltac:(lia)). nia.
Qed.

(** Matrices with the same item type and the same hashed bytes are the same
    matrix, even though the three arrays are hashed without separators. *)
Theorem C176_bytes_determine_matrix : forall w n1 n2 m1 m2, 0 < w ->
  csr_ok n1 w m1 -> csr_ok n2 w m2 -> dt m1 = dt m2 ->
  hash_input 100000 m1 = hash_input 100000 m2 -> m1 = m2.
Proof.
  intros w n1 n2 m1 m2 Hw O1 O2 HT E.
  rewrite !C176_all_bytes_hashed in E by (apply Nat.ltb_lt; vm_compute; reflexivity).
  assert (n1 = n2).
  { destruct (Nat.lt_trichotomy n1 n2) as [H|[H|H]]; [exfalso|easy|exfalso].
    - exact (no_longer O1 O2 E H).
    - exact (no_longer O2 O1 (eq_sym E) H). }
  subst n2. destruct O1 as (L1 & M1 & N1 & D1 & F1), O2 as (L2 & M2 & N2 & D2 & F2).
  apply app_eq_len in E; [|congruence]. destruct E as [E1 E].
  apply app_eq_len in E; [|congruence]. destruct E as [E2 E].
  apply concat_inj with (w := w) in E; auto.
  destruct m1, m2; simpl in *; congruence.
Qed.

(** Matrices whose items have different types may share the digest: one float64
    item 5e-324 and one int64 item 1. *)
Theorem C176_item_type_refuted : exists m1 m2,
  csr_ok 1 2 m1 /\ csr_ok 1 2 m2 /\ m1 <> m2 /\
  forall sha1, mhash sha1 m1 = mhash sha1 m2.
Proof.
  exists (Csr [0;1] [0] [[1;0]] 0), (Csr [0;1] [0] [[1;0]] 1).
  assert (K : forall d, csr_ok 1 2 (Csr [0;1] [0] [[1;0]] d)).
  { intros d. repeat split; simpl; auto. intros i Hi. assert (i = 0) by lia. subst. simpl. lia. }
  repeat split; try apply K. discriminate.
Qed.

(** ** C175: the reuse of factorizations *)
Section Reuse.
Variable sha1 : list nat -> nat.
Variable fact_ok : csr -> bool.
Variable good : cmat -> Prop.
Hypothesis good_inj : forall m1 m2, good m1 -> good m2 ->
  mhash sha1 (cm_cnt m1) = mhash sha1 (cm_cnt m2) -> cm_cnt m1 = cm_cnt m2.
Hypothesis good_csr : forall m, good m -> cm_csr m = true.

(** If there is a factorization, it is that of the matrix of the digest. *)
Definition dinv (st : dstate) : Prop :=
  (exists i d, mdig st = Some (i, d)) /\
  forall c, solve st = Some c -> fact_ok c = true /\
    exists m, good m /\ cm_cnt m = c /\ mdig st = Some (cm_id m, Some (mhash sha1 c)).

Lemma dclear_inv st : dinv st -> dinv (dclear st).
Proof. intros (H & _). split; [exact H|]. simpl. discriminate. Qed.

Lemma dpresolve_inv st m : dinv st -> good m ->
  let '(st', e) := dpresolve sha1 fact_ok st m true in
  dinv st' /\
  if fact_ok (cm_cnt m) then e = None /\ solve st' = Some (cm_cnt m)
  else e = Some RuntimeError.
Proof.
  intros ((i & d & Hd) & Hs) Hg. unfold dpresolve, is_new_matrix.
  rewrite (good_csr Hg), Hd. simpl negb. cbv iota.
  assert (HN : forall dd, dd = Some (cm_id m, Some (mhash sha1 (cm_cnt m))) ->
     fact_ok (cm_cnt m) = true -> dinv (DS (Some (cm_cnt m)) dd)).
  { intros dd Hdd HF. split; [simpl; eauto|]. simpl. intros c Hc. injection Hc as <-.
    split; [easy|]. exists m. auto. }
  assert (HS : dinv st) by (split; [eauto|exact Hs]).
  destruct ((cm_id m =? i) && match d with Some x => mhash sha1 (cm_cnt m) =? x | None => false end) eqn:E.
  - apply andb_prop in E. destruct E as [E1 E2]. destruct d as [x|]; [|easy].
    apply Nat.eqb_eq in E1, E2. subst i x. simpl orb.
    destruct (solve st) as [c|] eqn:S1.
    + destruct (Hs c eq_refl) as (HF & m' & G & C & D). rewrite Hd in D. injection D as D1 D2.
      assert (HE : cm_cnt m = c). { rewrite <- C. apply good_inj; auto. congruence. }
      split; [exact HS|]. rewrite HE, HF. auto.
    + destruct (fact_ok (cm_cnt m)) eqn:F; split; auto.
  - simpl orb. cbv iota. destruct (fact_ok (cm_cnt m)) eqn:F; split; auto.
Qed.

Definition op_good (o : op) : Prop :=
  with_digest o /\ forall m, In m (mats_of o) -> good m.

Definition answer (pre : bool) (c : cmat * bool) : outcome :=
  if pre || snd c
  then if fact_ok (cm_cnt (fst c)) then Solved (cm_cnt (fst c)) else Raised RuntimeError
  else Solved (cm_cnt (fst c)).

Lemma dapply_answer st m : dinv st -> good m ->
  dinv (fst (dapply (dpresolve sha1 fact_ok st m true))) /\
  snd (dapply (dpresolve sha1 fact_ok st m true))
  = if fact_ok (cm_cnt m) then Solved (cm_cnt m) else Raised RuntimeError.
Proof.
  intros H G. pose proof (dpresolve_inv H G) as P.
  destruct (dpresolve sha1 fact_ok st m true) as [st' e]. destruct P as [P1 P2].
  destruct (fact_ok (cm_cnt m)).
  - destruct P2 as [-> P2]. simpl. rewrite P2. auto.
  - subst e. simpl. auto.
Qed.

Lemma drun_scipy ops : Forall op_good ops -> forall st, dinv st ->
  drun sha1 fact_ok (scipy_call sha1 fact_ok) st ops = map (answer false) (calls ops).
Proof.
  induction 1 as [|o t [W G] _ IH]; intros st I; [easy|].
  destruct o as [m up ud|m ud|]; simpl in W; subst; simpl.
  - assert (GM : good m) by (apply G; simpl; auto). unfold scipy_call.
    destruct up.
    + destruct (dapply_answer I GM) as [A1 A2].
      destruct (dapply (dpresolve sha1 fact_ok st m true)) as [st' r]. simpl in A1, A2.
      unfold answer at 1. simpl. subst r. f_equal. apply IH, A1.
    + unfold answer at 1. simpl. f_equal. apply IH. now apply dclear_inv.
  - assert (GM : good m) by (apply G; simpl; auto). apply IH.
    pose proof (dpresolve_inv I GM) as P. destruct (dpresolve sha1 fact_ok st m true). easy.
  - apply IH. now apply dclear_inv.
Qed.

Lemma drun_chol ops : Forall op_good ops -> forall st, dinv st ->
  drun sha1 fact_ok (chol_call sha1 fact_ok) st ops = map (answer true) (calls ops).
Proof.
  induction 1 as [|o t [W G] _ IH]; intros st I; [easy|].
  destruct o as [m up ud|m ud|]; simpl in W; subst; simpl.
  - assert (GM : good m) by (apply G; simpl; auto). unfold chol_call.
    assert (I' : dinv (if up then st else dclear st))
      by (destruct up; [easy|now apply dclear_inv]).
    destruct (dapply_answer I' GM) as [A1 A2].
    destruct (dapply (dpresolve sha1 fact_ok (if up then st else dclear st) m true)) as [st' r].
    simpl in A1, A2. unfold answer at 1. simpl. subst r. f_equal. apply IH, A1.
  - assert (GM : good m) by (apply G; simpl; auto). apply IH.
    pose proof (dpresolve_inv I GM) as P. destruct (dpresolve sha1 fact_ok st m true). easy.
  - apply IH. now apply dclear_inv.
Qed.

(** MUMPS. *)
Variable is_sym : csr -> res bool.
Variable mumpspy : bool.
Definition minv (st : mstate) : Prop :=
  (exists i d, mmdig st = Some (i, d)) /\
  forall h, mumps_ls st = Some h -> mh_fact h = true /\
    (mumpspy = false -> is_sym (mh_cnt h) = Ok (mh_sym h)) /\
    exists m, good m /\ cm_cnt m = mh_cnt h /\
              mmdig st = Some (cm_id m, Some (mhash sha1 (mh_cnt h))).

Lemma mclear_inv st : minv st -> minv (mclear st).
Proof. intros (H & _). split; [exact H|]. simpl. discriminate. Qed.

Lemma mpresolve_inv st m s : minv st -> good m ->
  fact_ok (cm_cnt m) = true -> is_sym (cm_cnt m) = Ok s ->
  let '(st', e) := mpresolve sha1 fact_ok is_sym mumpspy st m true in
  minv st' /\ e = None /\
  exists h, mumps_ls st' = Some h /\ mh_cnt h = cm_cnt m /\ mh_fact h = true /\
            (mumpspy = false -> mh_sym h = s).
Proof.
  intros ((i & d & Hd) & Hs) Hg HF HY. unfold mpresolve, is_new_matrix.
  rewrite (good_csr Hg), Hd, HF, HY. simpl negb. cbv iota.
  set (s' := match mumps_ls st with
             | Some h => if mumpspy then mh_sym h else s | None => s end).
  assert (Hs' : mumpspy = false -> s' = s).
  { intros E. unfold s'. rewrite E. now destruct (mumps_ls st). }
  assert (HN : forall dd, dd = Some (cm_id m, Some (mhash sha1 (cm_cnt m))) ->
     minv (MS (Some (MH s' (cm_cnt m) true)) dd)).
  { intros dd Hdd. split; [simpl; eauto|]. simpl. intros c Hc. injection Hc as <-. simpl.
    split; [easy|]. split; [|exists m; auto]. intros E. rewrite HY. now rewrite Hs'. }
  assert (HS : minv st) by (split; [eauto|exact Hs]).
  assert (HX : forall b dd, dd = Some (cm_id m, Some (mhash sha1 (cm_cnt m))) ->
    b = true \/ mumps_ls st = None ->
    let '(st', e) := (if b || match mumps_ls st with None => true | Some _ => false end
       then (MS (Some (MH s' (cm_cnt m) true)) dd, None) else (st, @None err)) in
    minv st' /\ e = None /\ exists h, mumps_ls st' = Some h /\ mh_cnt h = cm_cnt m
      /\ mh_fact h = true /\ (mumpspy = false -> mh_sym h = s)).
  { intros b dd Hdd Hb.
    assert (b || match mumps_ls st with None => true | Some _ => false end = true) as ->
      by (destruct Hb as [->| ->]; [easy|destruct b; easy]).
    split; [auto|]. split; [easy|]. eexists. split; [reflexivity|]. simpl. auto. }
  destruct ((cm_id m =? i) && match d with Some x => mhash sha1 (cm_cnt m) =? x | None => false end) eqn:E.
  - apply andb_prop in E. destruct E as [E1 E2]. destruct d as [x|]; [|easy].
    apply Nat.eqb_eq in E1, E2. subst i x.
    destruct (mumps_ls st) as [h|] eqn:S1.
    + simpl orb. cbv iota. destruct (Hs h eq_refl) as (HF' & HY' & m' & G & C & D).
      rewrite Hd in D. injection D as D1 D2.
      assert (HE : cm_cnt m = mh_cnt h). { rewrite <- C. apply good_inj; auto. congruence. }
      split; [exact HS|]. split; [easy|]. exists h. repeat split; auto.
      intros E'. specialize (HY' E'). congruence.
    + refine (HX false _ eq_refl _). now right.
  - refine (HX true _ eq_refl _). now left.
Qed.

Lemma mrun_ok ops : Forall op_good ops ->
  Forall (fun o => forall m, In m (mats_of o) ->
            fact_ok (cm_cnt m) = true /\ exists s, is_sym (cm_cnt m) = Ok s) ops ->
  forall st, minv st ->
  Forall2 (fun c r => exists s, r = MSolved (MH s (cm_cnt (fst c)) true) /\
                      (mumpspy = false -> is_sym (cm_cnt (fst c)) = Ok s))
    (calls ops) (mrun sha1 fact_ok is_sym mumpspy st ops).
Proof.
  induction 1 as [|o t [W G] _ IH]; intros HF st I; [constructor|].
  inversion HF; subst. specialize (IH H2).
  destruct o as [m up ud|m ud|]; simpl in W; subst; simpl.
  - assert (GM : good m) by (apply G; simpl; auto).
    destruct (H1 m) as [F [s Y]]; [simpl; auto|]. unfold mumps_call.
    assert (I' : minv (if up then st else mclear st))
      by (destruct up; [easy|now apply mclear_inv]).
    pose proof (mpresolve_inv I' GM F Y) as P.
    destruct (mpresolve sha1 fact_ok is_sym mumpspy (if up then st else mclear st) m true) as [st' e].
    destruct P as (P1 & -> & h & P2 & P3 & P4 & P5). rewrite P2. simpl. constructor.
    + exists (mh_sym h). destruct h; simpl in *. subst. split; [easy|].
      intros E. rewrite (P5 E). exact Y.
    + apply IH, P1.
  - assert (GM : good m) by (apply G; simpl; auto).
    destruct (H1 m) as [F [s Y]]; [simpl; auto|]. apply IH.
    pose proof (mpresolve_inv I GM F Y) as P.
    destruct (mpresolve sha1 fact_ok is_sym mumpspy st m true). easy.
  - apply IH. now apply mclear_inv.
Qed.
End Reuse.

(** The histories of C175: CSR matrices with items of one type, reuse decided
    by the digest, no SHA1 collision. *)
Definition history_ok (w d : nat) (sha1 : list nat -> nat) (ops : list op) : Prop :=
  0 < w /\ collision_free sha1 ops /\ Forall with_digest ops /\
  forall m, In m (flat_map mats_of ops) ->
    cm_csr m = true /\ dt (cm_cnt m) = d /\ exists n, csr_ok n w (cm_cnt m).

Definition good_in (ops : list op) (m : cmat) : Prop := In m (flat_map mats_of ops).

Lemma history_good w d sha1 ops : history_ok w d sha1 ops ->
  (forall m1 m2, good_in ops m1 -> good_in ops m2 ->
     mhash sha1 (cm_cnt m1) = mhash sha1 (cm_cnt m2) -> cm_cnt m1 = cm_cnt m2) /\
  (forall m, good_in ops m -> cm_csr m = true) /\
  Forall (op_good (good_in ops)) ops.
Proof.
  intros (Hw & HC & HD & HM). split; [|split].
  - intros m1 m2 H1 H2 E. destruct (HM _ H1) as (_ & T1 & n1 & O1).
    destruct (HM _ H2) as (_ & T2 & n2 & O2).
    eapply C176_bytes_determine_matrix; eauto. congruence.
  - intros m H. apply HM, H.
  - rewrite Forall_forall in *. intros o Ho. split; [now apply HD|].
    intros m Hm. apply in_flat_map. eauto.
Qed.

(** Whatever the history of a direct solver - pre-factorized or not, explicit
    [presolve()] and [clear()] calls, matrices modified in place, matrices
    that cannot be factorized - every call solves the system of the matrix it
    was given, as it is at the time of the call. *)
Theorem C175_scipy_solves_current_matrix : forall w d sha1 fact_ok ops,
  history_ok w d sha1 ops ->
  drun sha1 fact_ok (scipy_call sha1 fact_ok) dinit ops
  = map (fun c : cmat * bool => let (m, presolved) := c in
           if presolved && negb (fact_ok (cm_cnt m)) then Raised RuntimeError
           else Solved (cm_cnt m)) (calls ops).
Proof.
  intros w d sha1 fact_ok ops H. destruct (history_good H) as (G1 & G2 & G3).
  rewrite (@drun_scipy sha1 fact_ok (good_in ops) G1 G2 ops G3).
  - apply map_ext. intros [m b]. unfold answer. simpl.
    destruct b, (fact_ok (cm_cnt m)); easy.
  - split; [exists 0, None; easy|]. discriminate.
Qed.

Theorem C175_cholesky_solves_current_matrix : forall w d sha1 fact_ok ops,
  history_ok w d sha1 ops ->
  drun sha1 fact_ok (chol_call sha1 fact_ok) dinit ops
  = map (fun c : cmat * bool =>
           if fact_ok (cm_cnt (fst c)) then Solved (cm_cnt (fst c))
           else Raised RuntimeError) (calls ops).
Proof.
  intros w d sha1 fact_ok ops H. destruct (history_good H) as (G1 & G2 & G3).
  rewrite (@drun_chol sha1 fact_ok (good_in ops) G1 G2 ops G3).
  - apply map_ext. intros [m b]. easy.
  - split; [exists 0, None; easy|]. discriminate.
Qed.

(** MUMPS, when every matrix can be factorized: the system of the current
    matrix is solved; with the mumps package the symmetry flag is also that of
    the current matrix. *)
Theorem C175_mumps_solves_current_matrix_partial : forall w d sha1 fact_ok is_sym mumpspy ops,
  history_ok w d sha1 ops ->
  (forall m, In m (flat_map mats_of ops) ->
     fact_ok (cm_cnt m) = true /\ exists s, is_sym (cm_cnt m) = Ok s) ->
  Forall2 (fun (c : cmat * bool) r => exists s,
             r = MSolved (MH s (cm_cnt (fst c)) true) /\
             (mumpspy = false -> is_sym (cm_cnt (fst c)) = Ok s))
    (calls ops) (mrun sha1 fact_ok is_sym mumpspy minit ops).
Proof.
  intros w d sha1 fact_ok is_sym mumpspy ops H HF.
  destruct (history_good H) as (G1 & G2 & G3).
  apply (@mrun_ok sha1 fact_ok (good_in ops) G1 G2 is_sym mumpspy ops G3).
  - apply Forall_forall. intros o Ho m Hm. apply HF, in_flat_map. eauto.
  - split; [exists 0, None; easy|]. discriminate.
Qed.

(** Without the digest the factorization made after [clear()] is used until
    the next [clear()]: right as long as the matrix does not change, whatever
    happened before. *)
Lemma nodigest_seg sha1 fact_ok c seg : fact_ok c = true ->
  Forall without_digest seg ->
  (forall m, In m (flat_map mats_of seg) -> cm_cnt m = c) ->
  forall st, solve st = None \/ solve st = Some c ->
  drun sha1 fact_ok (scipy_call sha1 fact_ok) st seg = map (fun _ => Solved c) (calls seg).
Proof.
  intros HF. induction 1 as [|o t W _ IH]; intros HM st HS; [easy|].
  assert (HP : forall st m, cm_cnt m = c -> solve st = None \/ solve st = Some c ->
    snd (dpresolve sha1 fact_ok st m false) = None /\
    solve (fst (dpresolve sha1 fact_ok st m false)) = Some c).
  { intros st' m E [H|H]; unfold dpresolve; rewrite H; simpl; [rewrite E, HF|]; simpl; auto. }
  assert (HM' : forall m, In m (flat_map mats_of t) -> cm_cnt m = c)
    by (intros; apply HM; simpl; apply in_or_app; auto).
  destruct o as [m up ud|m ud|]; simpl in W; subst; simpl; [| |easy].
  - assert (E : cm_cnt m = c) by (apply HM; simpl; auto). unfold scipy_call. destruct up.
    + destruct (HP st m E HS) as [P1 P2].
      destruct (dpresolve sha1 fact_ok st m false) as [st' e]. simpl in P1, P2. subst e.
      simpl. rewrite P2. simpl. f_equal. apply IH; auto.
    + simpl. rewrite E. f_equal. apply IH; auto.
  - assert (E : cm_cnt m = c) by (apply HM; simpl; auto).
    destruct (HP st m E HS) as [P1 P2]. apply IH; auto.
Qed.

Lemma drun_app sha1 fact_ok call : forall a st b, exists st',
  drun sha1 fact_ok call st (a ++ b)
  = drun sha1 fact_ok call st a ++ drun sha1 fact_ok call st' b.
Proof.
  induction a; intros st b; simpl; [exists st; easy|].
  destruct (dstep sha1 fact_ok call st a) as [st1 r]. destruct (IHa st1 b) as [st' E].
  exists st'. rewrite E, app_assoc. easy.
Qed.

Theorem C175_no_digest_after_clear : forall sha1 fact_ok before seg c,
  fact_ok c = true -> Forall without_digest seg ->
  (forall m, In m (flat_map mats_of seg) -> cm_cnt m = c) ->
  drun sha1 fact_ok (scipy_call sha1 fact_ok) dinit (before ++ Clear :: seg)
  = drun sha1 fact_ok (scipy_call sha1 fact_ok) dinit before
    ++ map (fun _ => Solved c) (calls seg).
Proof.
  intros sha1 fact_ok before seg c HF HW HM.
  destruct (@drun_app sha1 fact_ok (scipy_call sha1 fact_ok) before dinit (Clear :: seg)) as [st E].
  rewrite E. f_equal. simpl. apply nodigest_seg; auto.
Qed.

(** *** What goes wrong *)
Definition m1x1 (x : nat) : csr := Csr [0;1] [0] [[x;0]] 0.
Lemma m1x1_ok x : csr_ok 1 2 (m1x1 x).
Proof.
  repeat split; simpl; auto. intros i Hi. assert (i = 0) by lia. subst. simpl. lia.
Qed.

(** A matrix that is no [csr_array] is factorized but the digest of the last
    CSR matrix is kept: the next call with that CSR matrix (unchanged) solves
    the system of the other matrix, digest or no digest collision. *)
Theorem C175_other_format_refuted : forall sha1, exists ops m,
  last ops Clear = Call m true true /\ cm_csr m = true /\
  last (drun sha1 (fun _ => true) (scipy_call sha1 (fun _ => true)) dinit ops)
       (Raised OutOfFuel)
  = Solved (m1x1 3) /\ cm_cnt m = m1x1 2.
Proof.
  intros sha1.
  exists [Call (Cmat 7 true (m1x1 2)) true true; Call (Cmat 8 false (m1x1 3)) true true;
          Call (Cmat 7 true (m1x1 2)) true true], (Cmat 7 true (m1x1 2)).
  repeat split. simpl. unfold scipy_call, dpresolve, is_new_matrix, mhash.
  set (h := sha1 (hash_input 100000 (m1x1 2))). simpl. fold h.
  rewrite Nat.eqb_refl. simpl. reflexivity.
Qed.

(** One call without the digest makes every later call with the digest raise
    TypeError: the stored digest is None. *)
Theorem C175_digest_switch_refuted : forall sha1 fact_ok c i, fact_ok c = true ->
  drun sha1 fact_ok (scipy_call sha1 fact_ok) dinit
    [Call (Cmat i true c) true false; Call (Cmat i true c) true true]
  = [Solved c; Raised TypeError].
Proof.
  intros. simpl. unfold scipy_call, dpresolve. simpl. rewrite H. simpl. reflexivity.
Qed.

(** A failed factorization of MUMPS leaves the failed matrix in the solver but
    the digest of the previous one: that one is then "reused". *)
Theorem C175_mumps_failed_factorization_refuted : forall sha1 is_sym, exists ops m,
  (forall c, is_sym c = Ok false) ->
  last ops Clear = Call m true true /\ cm_cnt m = m1x1 2 /\
  last (mrun sha1 (fun c => negb (hd 0 (hd [] (data c)) =? 0)) is_sym false minit ops)
       (MRaised OutOfFuel)
  = MSolved (MH false (m1x1 0) false).
Proof.
  intros sha1 is_sym.
  exists [Call (Cmat 7 true (m1x1 2)) true true; Call (Cmat 8 true (m1x1 0)) true true;
          Call (Cmat 7 true (m1x1 2)) true true], (Cmat 7 true (m1x1 2)).
  intros HY. repeat split. simpl. unfold mumps_call, mpresolve, is_new_matrix, mhash.
  set (h := sha1 (hash_input 100000 (m1x1 2))). simpl. repeat (rewrite HY; simpl). fold h. rewrite Nat.eqb_refl. simpl. reflexivity.
Qed.

(** With mumpspy the symmetry flag of the first matrix is kept: a later
    unsymmetric matrix is solved as a symmetric one. *)
Theorem C175_mumpspy_symmetry_flag_refuted : forall sha1 is_sym,
  is_sym (m1x1 2) = Ok true -> is_sym (m1x1 3) = Ok false ->
  mrun sha1 (fun _ => true) is_sym true minit
    [Call (Cmat 7 true (m1x1 2)) true true; Call (Cmat 8 true (m1x1 3)) true true]
  = [MSolved (MH true (m1x1 2) true); MSolved (MH true (m1x1 3) true)].
Proof.
  intros sha1 is_sym H1 H2. simpl. unfold mumps_call, mpresolve, is_new_matrix. simpl.
  rewrite H1. simpl. rewrite H2. simpl. reflexivity.
Qed.

(** *** Witness: a history with a reuse, an in-place change and a failure *)
Example history_ok_ex : history_ok 2 0 (fun l => nth 3 l 0)
  [Call (Cmat 7 true (m1x1 2)) true true; Call (Cmat 7 true (m1x1 2)) true true;
   Presolve (Cmat 7 true (m1x1 3)) true; Call (Cmat 7 true (m1x1 3)) true true; Clear;
   Call (Cmat 8 true (m1x1 0)) true true].
Proof.
  assert (HI : forall x, hash_input 100000 (m1x1 x) = [0;1;0;x;0]).
  { intros x. rewrite C176_all_bytes_hashed by (apply Nat.ltb_lt; vm_compute; reflexivity). reflexivity. }
  split; [lia|split; [|split]].
  - intros m1 m2 H1 H2. simpl in H1, H2.
    repeat match goal with H : _ \/ _ |- _ => destruct H as [H|H] end; try easy;
      subst; simpl cm_cnt; rewrite !HI; simpl; congruence.
  - repeat constructor.
  - intros m H. simpl in H.
    repeat match goal with H : _ \/ _ |- _ => destruct H as [H|H] end; try easy;
      subst; simpl; (split; [easy|split; [easy|exists 1; apply m1x1_ok]]).
Qed.
Example history_run_ex :
  map (fun c : cmat * bool => let (m, p) := c in
         if p && negb (negb (hd 0 (hd [] (data (cm_cnt m))) =? 0)) then Raised RuntimeError
         else Solved (cm_cnt m))
  (calls [Call (Cmat 7 true (m1x1 2)) true true; Call (Cmat 7 true (m1x1 2)) true true;
   Presolve (Cmat 7 true (m1x1 3)) true; Call (Cmat 7 true (m1x1 3)) true true; Clear;
   Call (Cmat 8 true (m1x1 0)) true true])
  = [Solved (m1x1 2); Solved (m1x1 2); Solved (m1x1 3); Raised RuntimeError].
Proof. reflexivity. Qed.

Print Assumptions C175_scipy_solves_current_matrix.
Print Assumptions C175_cholesky_solves_current_matrix.
Print Assumptions C175_mumps_solves_current_matrix_partial.
Print Assumptions C175_no_digest_after_clear.
Print Assumptions C175_other_format_refuted.
Print Assumptions C175_mumps_failed_factorization_refuted.
Print Assumptions C176_bytes_determine_matrix.
