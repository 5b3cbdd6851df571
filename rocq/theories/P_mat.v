(** C178-C180: the material parameters over the history of a problem. *)
From Verif Require Import Base M_mat S_mat.
Import ListNotations.
Set Implicit Arguments.

Lemma dkey_eqb_refl k : dkey_eqb k k = true.
Proof. destruct k; simpl; rewrite ?Nat.eqb_refl; easy. Qed.
Lemma dkey_eqb_eq a b : dkey_eqb a b = true -> a = b.
Proof.
  destruct a, b; simpl; intros H; try easy.
  - apply andb_prop in H. destruct H as [H1 H2]. apply Nat.eqb_eq in H1, H2. congruence.
  - apply Nat.eqb_eq in H. congruence.
Qed.
Lemma dkey_dec (a b : dkey) : {a = b} + {a <> b}.
Proof.
  destruct (dkey_eqb a b) eqn:E; [left; now apply dkey_eqb_eq|right].
  intros ->. rewrite dkey_eqb_refl in E. easy.
Qed.
Lemma dget_set_same {V} : forall (d : datas_t V) k v, dget (dset d k v) k = Some v.
Proof.
  induction d as [|[k' v'] t IH]; simpl; intros k v; [now rewrite dkey_eqb_refl|].
  destruct (dkey_eqb k k') eqn:E; simpl; rewrite E; auto.
Qed.
Lemma dget_set_other {V} : forall (d : datas_t V) k k' v, k <> k' ->
  dget (dset d k v) k' = dget d k'.
Proof.
  induction d as [|[k0 v0] t IH]; simpl; intros k k' v H.
  - destruct (dkey_eqb k' k) eqn:E; [apply dkey_eqb_eq in E; congruence|easy].
  - destruct (dkey_eqb k k0) eqn:E; simpl.
    + apply dkey_eqb_eq in E. subst k0.
      destruct (dkey_eqb k' k) eqn:E; [apply dkey_eqb_eq in E; congruence|easy].
    + destruct (dkey_eqb k' k0); auto.
Qed.
Lemma memb_In x l : memb x l = true <-> In x l.
Proof.
  unfold memb. rewrite existsb_exists. split.
  - intros (y & H & E). apply Nat.eqb_eq in E. congruence.
  - intros H. exists x. now rewrite Nat.eqb_refl.
Qed.

Section Upd.
Variable V : Type.
Variable n_qp : nat -> nat -> nat.
Variable f : mfun V.
Let nq (t : term) := n_qp (t_region t) (t_order t).
Let fval ts t := f_qp f ts (t_region t) (t_order t) t.

Lemma update_kept ts name : forall terms d d' e k v,
  update_terms n_qp f ts name d terms = (d', e) ->
  dget d k = Some v -> dget d' k = Some v.
Proof.
  induction terms as [|t r IH]; simpl; intros d d' e k v H K; [now injection H as <- <-|].
  destruct (negb (memb name (t_mats t))); [eauto|].
  destruct (dget d (qp_key t)) eqn:G; [eauto|].
  assert (N : qp_key t <> k) by congruence.
  destruct (do v <- _; _) eqn:F.
  - eapply IH; [exact H|]. rewrite !dget_set_other by easy. exact K.
  - injection H as <- <-. rewrite dget_set_other by easy. exact K.
Qed.

Lemma update_unused ts name : forall terms d d' e k,
  update_terms n_qp f ts name d terms = (d', e) ->
  (forall t, users name terms t -> qp_key t <> k) -> dget d' k = dget d k.
Proof.
  induction terms as [|t r IH]; simpl; intros d d' e k H N; [now injection H as <- <-|].
  assert (N' : forall t, users name r t -> qp_key t <> k)
    by (intros t' [H1 H2]; apply N; split; simpl; auto).
  destruct (memb name (t_mats t)) eqn:M; simpl in H; [|eauto].
  destruct (dget d (qp_key t)) eqn:G; [eauto|].
  assert (Nk : qp_key t <> k) by (apply N; split; [simpl; auto|now apply memb_In]).
  destruct (do v <- _; _) eqn:F.
  - rewrite (IH _ _ _ _ H N'). now rewrite !dget_set_other.
  - injection H as <- <-. now rewrite dget_set_other.
Qed.

Lemma update_new ts name : forall terms d d' t,
  update_terms n_qp f ts name d terms = (d', None) ->
  users name terms t -> dget d (qp_key t) = None ->
  exists t0 v nd, users name terms t0 /\ qp_key t0 = qp_key t /\
    fval ts t0 = Ok v /\ new_data (nq t0) v = Ok nd /\
    dget d' (qp_key t) = Some (PQp nd).
Proof.
  induction terms as [|a r IH]; intros d d' t H [Hin Hm] G; [easy|]. cbn [update_terms] in H.
  assert (UR : forall t0, users name r t0 -> users name (a :: r) t0)
    by (intros t0 [? ?]; split; simpl; auto).
  destruct (memb name (t_mats a)) eqn:M; cbn [negb] in H.
  2:{ destruct Hin as [->|Hin]; [apply memb_In in Hm; congruence|].
      destruct (IH _ _ _ H (conj Hin Hm) G) as (t0 & v & nd & U & R0). exists t0, v, nd.
      split; [auto|exact R0]. }
  destruct (dget d (qp_key a)) as [p|] eqn:GA.
  { destruct Hin as [->|Hin]; [congruence|].
    destruct (IH _ _ _ H (conj Hin Hm) G) as (t0 & v & nd & U & R0). exists t0, v, nd.
    split; [auto|exact R0]. }
  destruct (f_qp f ts (t_region a) (t_order a) a) as [v|] eqn:FV; simpl bind in H; [|easy].
  destruct (new_data (n_qp (t_region a) (t_order a)) v) as [nd|] eqn:ND; [|easy].
  destruct (dkey_dec (qp_key a) (qp_key t)) as [E|E].
  - exists a, v, nd. split; [split; [simpl; auto|now apply memb_In]|].
    split; [easy|]. split; [easy|]. split; [easy|].
    eapply update_kept; [exact H|]. rewrite <- E. apply dget_set_same.
  - destruct Hin as [->|Hin]; [easy|].
    assert (G' : dget (dset (dset d (qp_key a) (PQp [])) (qp_key a) (PQp nd)) (qp_key t) = None)
      by (rewrite !dget_set_other; easy).
    destruct (IH _ _ _ H (conj Hin Hm) G') as (t0 & v' & nd' & U & R0). exists t0, v', nd'.
    split; [auto|exact R0].
Qed.

(** [time_update] does to the arrays what [update_terms] does. *)
Lemma time_update_qp ts terms mode m m' d0 : kept m mode = Some d0 ->
  time_update n_qp f ts terms mode m = (m', None) ->
  exists d, update_terms n_qp f ts (m_name m) d0 terms = (d, None) /\
    forall k, k <> KSpecial -> k <> KConst -> dget (m_datas m') k = dget d k.
Proof.
  intros K H. unfold time_update in H. rewrite K in H.
  destruct (update_terms n_qp f ts (m_name m) d0 terms) as [d e]. destruct e; [easy|].
  exists d. split; [easy|]. intros k N1 N2.
  destruct (update_special f ts (with_datas m d)) as [m2 e2] eqn:S2. destruct e2; [easy|].
  assert (E2 : dget (m_datas m2) k = dget d k).
  { unfold update_special in S2. destruct (dget (m_datas (with_datas m d)) KSpecial).
    - injection S2 as <-. easy.
    - destruct (f_special f ts) as [[s|]|]; try easy; injection S2 as <-; [|easy].
      simpl. rewrite dget_set_other; congruence. }
  rewrite <- E2. unfold update_special_constant in H.
  destruct (dget (m_datas m2) KConst); [now injection H as <-|].
  destruct (negb (m_flagc m2)); [now injection H as <-|].
  destruct (f_const f); [|easy]. injection H as <-. simpl. rewrite dget_set_other; congruence.
Qed.

(** Reading one parameter in one place. *)
Lemma nget_shape_ex nqq : forall (d : list (nat * list V)) sd name l, shape_all nqq d = Ok sd ->
  nget d name = Some l -> exists a, shape_data nqq l = Ok a /\ nget sd name = Some a.
Proof.
  induction d as [|[n x] t IH]; simpl; intros sd name l H G; [easy|].
  destruct (shape_data nqq x) as [x'|] eqn:X; [|easy]. simpl in H.
  destruct (shape_all nqq t) as [r|] eqn:R0; [|easy]. simpl in H. injection H as <-. simpl.
  destruct (name =? n); [|eauto]. injection G as <-. eauto.
Qed.

Lemma get_stored (m : material V) k nd name a :
  memb name (m_special m) = false -> dget (m_datas m) k = Some (PQp nd) ->
  nget nd name = Some a -> get_data m k name = Ok (GQp a).
Proof.
  intros S1 G N. unfold get_data. destruct (m_datas m) eqn:D; [easy|]. rewrite S1, G.
  destruct nd; [easy|]. now rewrite N.
Qed.

(** What a term gets after an update that did not keep data for its key. *)
Lemma got_new ts terms mode m m' d0 t d name l :
  term_independent f ->
  time_update n_qp f ts terms mode m = (m', None) ->
  kept m mode = Some d0 -> users (m_name m) terms t -> dget d0 (qp_key t) = None ->
  f_qp f ts (t_region t) (t_order t) t = Ok (Some d) -> nget d name = Some l ->
  memb name (m_special m') = false ->
  exists a, shape_data (n_qp (t_region t) (t_order t)) l = Ok a /\
            get_data m' (qp_key t) name = Ok (GQp a).
Proof.
  intros TI H K U G F N S1. destruct (@time_update_qp ts terms mode m m' d0 K H) as (dd & UT & DG).
  destruct (@update_new ts (m_name m) terms d0 dd t UT U G) as (t0 & v & nd & U0 & E0 & F0 & N0 & G0).
  unfold qp_key in E0. injection E0 as E1 E2. unfold fval in F0. unfold nq in N0.
  rewrite E1, E2 in *. rewrite (TI _ _ _ _ t) in F0. rewrite F in F0. injection F0 as <-.
  simpl in N0. destruct (@nget_shape_ex _ d nd name l N0 N) as (a & A1 & A2).
  exists a. split; [easy|]. eapply get_stored; eauto. rewrite DG; [exact G0|easy|easy].
Qed.
End Upd.

(** *** The values in the points *)
Lemma rows_length {V} : forall n k (l : list V), length (rows n k l) = n.
Proof. induction n; simpl; auto. Qed.
Lemma skipn_nth {V} : forall k (l : list V) i, nth_error (skipn k l) i = nth_error l (k + i).
Proof. induction k; simpl; intros; [easy|]. destruct l; simpl; [now destruct i|easy]. Qed.
Lemma firstn_nth {V} : forall k (l : list V) i, i < k -> nth_error (firstn k l) i = nth_error l i.
Proof.
  induction k; intros l i H; [lia|]. destruct l; simpl; [now destruct i|].
  destruct i; simpl; [easy|]. apply IHk. lia.
Qed.
Lemma rows_at {V} : forall n k (l : list V) c q, c < n -> q < k ->
  nth_error (nth c (rows n k l) []) q = nth_error l (c * k + q).
Proof.
  induction n; intros k l c q Hc Hq; [lia|]. simpl. destruct c; simpl.
  - now apply firstn_nth.
  - rewrite IHn by lia. rewrite skipn_nth. f_equal. lia.
Qed.
Lemma repeat_nth {V} (v : V) : forall n q, q < n -> nth_error (repeat v n) q = Some v.
Proof. induction n; simpl; intros q H; [lia|]. destruct q; simpl; [easy|]. apply IHn. lia. Qed.

(** The values for all the points, ordered by cells, go to their points; a
    single value goes to all the points. *)
Theorem C178_values_in_points : forall V (l : list V) n_el n_qp a,
  0 < n_qp -> length l = n_el * n_qp -> shape_data n_qp l = Ok a ->
  forall c q, c < n_el -> q < n_qp -> at_point a c q = nth_error l (c * n_qp + q).
Proof.
  intros V l n_el n_qp a Hq L H c q Hc Hqq. unfold shape_data in H.
  assert (E0 : (0 <? n_qp) = true) by (apply Nat.ltb_lt; easy). rewrite E0 in H.
  assert (DV : length l / n_qp = n_el) by (rewrite L; apply Nat.div_mul; lia).
  rewrite DV in H.
  assert (HR : l = [] \/ (exists v, l = [v]) \/ a = rows n_el n_qp l).
  { destruct l as [|v [|w t]]; [auto|eauto|].
    right. right. destruct (_ =? _) in H; [|easy]. injection H as <-. easy. }
  destruct HR as [->|[[v ->]|HR]].
  - simpl in L. exfalso. nia.
  - simpl in L. assert (n_el = 1 /\ n_qp = 1) as [-> ->] by nia.
    injection H as <-. assert (c = 0) by lia. assert (q = 0) by lia. subst. easy.
  - subst a. unfold at_point. rewrite rows_length.
    destruct (n_el =? 1) eqn:E; [apply Nat.eqb_eq in E; assert (c = 0) by lia; subst c|];
      now apply rows_at.
Qed.

Theorem C178_single_value_everywhere : forall V (v : V) n_qp c q, q < n_qp ->
  exists a, shape_data n_qp [v] = Ok a /\ at_point a c q = Some v.
Proof.
  intros V v n_qp c q H. exists [repeat v n_qp]. unfold shape_data.
  assert (E0 : (0 <? n_qp) = true) by (apply Nat.ltb_lt; lia). rewrite E0.
  split; [easy|]. unfold at_point. simpl. now apply repeat_nth.
Qed.

(** A number of values that is no multiple of the number of points per cell
    is refused. *)
Theorem C178_incompatible_shape : forall V (l : list V) n_qp,
  length l <> 1 -> length l mod n_qp <> 0 -> shape_data n_qp l = Err ValueError.
Proof.
  intros V l n_qp H1 H2. unfold shape_data. destruct n_qp as [|k].
  - simpl in *. destruct l; [easy|easy].
  - assert (E0 : (0 <? S k) = true) by easy. rewrite E0.
    assert (E : (length l / S k * S k =? length l) = false).
    { apply Nat.eqb_neq. intros E. apply H2. rewrite <- E. apply Nat.mod_mul. lia. }
    rewrite E. destruct l as [|v [|]]; [easy|simpl in H1; lia|easy].
Qed.

(** *** C178: a material given by a function of time *)

(** After a successful update of a time-dependent material given by a function
    in the normal mode - whatever happened before, including failed updates -
    every term of the equations using the material gets the values of the
    function at this time in its quadrature points, and data for other
    regions or orders are gone. *)
Theorem C178_time_dependent_current : forall V n_qp (f : mfun V) ts terms m m',
  term_independent f -> m_user m = false -> m_stat m = false -> m_isc m = false ->
  time_update n_qp f ts terms Normal m = (m', None) ->
  (forall t d name l, users (m_name m) terms t ->
     f_qp f ts (t_region t) (t_order t) t = Ok (Some d) -> nget d name = Some l ->
     ~ In name (m_special m') ->
     exists a, shape_data (n_qp (t_region t) (t_order t)) l = Ok a /\
               get_data m' (qp_key t) name = Ok (GQp a)) /\
  (forall r o, (forall t, users (m_name m) terms t -> qp_key t <> KQp r o) ->
     dget (m_datas m') (KQp r o) = None).
Proof.
  intros V n_qp f ts terms m m' TI U1 U2 U3 H.
  assert (K : kept m Normal = Some []).
  { unfold kept. destruct (m_datas m); [easy|]. now rewrite U1, U2, U3. }
  split.
  - intros t d name l U F N S1. eapply got_new; eauto; try easy.
    destruct (memb name (m_special m')) eqn:E; [apply memb_In in E; easy|easy].
  - intros r o NU. destruct (@time_update_qp V n_qp f ts terms _ m m' _ K H) as (dd & UT & DG).
    rewrite DG by easy. now rewrite (@update_unused V n_qp f ts (m_name m) terms _ _ _ _ UT NU).
Qed.

(** The force mode does this for every material. *)
Theorem C178_force_current : forall V n_qp (f : mfun V) ts terms m m',
  term_independent f ->
  time_update n_qp f ts terms Force m = (m', None) ->
  (forall t d name l, users (m_name m) terms t ->
     f_qp f ts (t_region t) (t_order t) t = Ok (Some d) -> nget d name = Some l ->
     ~ In name (m_special m') ->
     exists a, shape_data (n_qp (t_region t) (t_order t)) l = Ok a /\
               get_data m' (qp_key t) name = Ok (GQp a)) /\
  (forall r o, (forall t, users (m_name m) terms t -> qp_key t <> KQp r o) ->
     dget (m_datas m') (KQp r o) = None).
Proof.
  intros V n_qp f ts terms m m' TI H.
  assert (K : kept m Force = Some []) by easy.
  split.
  - intros t d name l U F N S1. eapply got_new; eauto; try easy.
    destruct (memb name (m_special m')) eqn:E; [apply memb_In in E; easy|easy].
  - intros r o NU. destruct (@time_update_qp V n_qp f ts terms _ m m' _ K H) as (dd & UT & DG).
    rewrite DG by easy. now rewrite (@update_unused V n_qp f ts (m_name m) terms _ _ _ _ UT NU).
Qed.

(** The update mode keeps all arrays there are, and evaluates the missing
    ones. *)
Theorem C178_update_mode : forall V n_qp (f : mfun V) ts terms m m',
  term_independent f ->
  time_update n_qp f ts terms Update m = (m', None) ->
  (forall r o p, dget (m_datas m) (KQp r o) = Some p ->
     dget (m_datas m') (KQp r o) = Some p) /\
  (forall t d name l, users (m_name m) terms t -> dget (m_datas m) (qp_key t) = None ->
     f_qp f ts (t_region t) (t_order t) t = Ok (Some d) -> nget d name = Some l ->
     ~ In name (m_special m') ->
     exists a, shape_data (n_qp (t_region t) (t_order t)) l = Ok a /\
               get_data m' (qp_key t) name = Ok (GQp a)).
Proof.
  intros V n_qp f ts terms m m' TI H.
  assert (K : kept m Update = Some (m_datas m)) by easy.
  split.
  - intros r o p G. destruct (@time_update_qp V n_qp f ts terms _ m m' _ K H) as (dd & UT & DG).
    rewrite DG by easy. eapply update_kept; eauto.
  - intros t d name l U G F N S1. eapply got_new; eauto; try easy.
    destruct (memb name (m_special m')) eqn:E; [apply memb_In in E; easy|easy].
Qed.

(** *** C179: stationary and constant materials *)

Lemma time_update_attr V n_qp (f : mfun V) ts terms mode m :
  let m' := fst (time_update n_qp f ts terms mode m) in
  m_name m' = m_name m /\ m_stat m' = m_stat m /\ m_isc m' = m_isc m /\
  m_user m' = m_user m /\ m_flagc m' = m_flagc m.
Proof.
  unfold time_update. destruct (kept m mode) as [d0|]; [|simpl; auto].
  destruct (update_terms n_qp f ts (m_name m) d0 terms) as [d [e|]]; [simpl; auto|].
  unfold update_special. destruct (dget (m_datas (with_datas m d)) KSpecial).
  - unfold update_special_constant. destruct (dget _ KConst); [simpl; auto|].
    destruct (negb _); [simpl; auto|]. destruct (f_const f); simpl; auto.
  - destruct (f_special f ts) as [[s|]|]; [| |simpl; auto];
      (unfold update_special_constant; destruct (dget _ KConst); [simpl; auto|];
       destruct (negb _); [simpl; auto|]; destruct (f_const f); simpl; auto).
Qed.

(** A stationary material is evaluated by the first update that stores
    something; later updates in the normal mode change nothing until reset. *)
Theorem C179_stationary_evaluated_once : forall V n_qp (f : mfun V) name isc flagc ts0 terms0 m0 later,
  time_update n_qp f ts0 terms0 Normal (new_material V name true isc flagc) = (m0, None) ->
  m_datas m0 <> [] ->
  (forall o, In o later -> exists ts terms, o = TU ts terms Normal) ->
  mhist n_qp f m0 later = m0.
Proof.
  intros V n_qp f name isc flagc ts0 terms0 m0 later H D.
  pose proof (time_update_attr n_qp f ts0 terms0 Normal (new_material V name true isc flagc)) as A.
  rewrite H in A. simpl in A. destruct A as (_ & A & _).
  unfold mhist. induction later as [|o t IH]; intros HL; [easy|]. simpl.
  destruct (HL o) as (ts & terms & ->); [simpl; auto|].
  assert (E : mstep n_qp f m0 (TU ts terms Normal) = m0).
  { simpl. unfold time_update, kept. destruct (m_datas m0); [easy|]. rewrite A.
    rewrite orb_true_r. easy. }
  rewrite E. apply IH. intros. apply HL. simpl. auto.
Qed.

(** ... with the values of the function at that time. *)
Theorem C179_stationary_values : forall V n_qp (f : mfun V) name isc flagc ts0 terms0 m0,
  term_independent f ->
  time_update n_qp f ts0 terms0 Normal (new_material V name true isc flagc) = (m0, None) ->
  forall t d pname l, users name terms0 t ->
  f_qp f ts0 (t_region t) (t_order t) t = Ok (Some d) -> nget d pname = Some l ->
  ~ In pname (m_special m0) ->
  exists a, shape_data (n_qp (t_region t) (t_order t)) l = Ok a /\
            get_data m0 (qp_key t) pname = Ok (GQp a).
Proof.
  intros V n_qp f name isc flagc ts0 terms0 m0 TI H t d pname l U F N S1.
  eapply got_new with (d0 := []); eauto; try easy.
  destruct (memb pname (m_special m0)) eqn:E; [apply memb_In in E; easy|easy].
Qed.

(** Constant parameters: after any history of updates in any modes, at any
    times, for any equations, every term of the last update gets the
    constants. *)
Section Const.
Variable V : Type.
Variables qp sp : list (nat * V).
Variable n_qp : nat -> nat -> nat.
Hypothesis Hq : forall r o, 0 < n_qp r o.
Let f := constant_fun qp sp.

Definition cval (r o : nat) : list (nat * list (list V)) :=
  map (fun p : nat * V => (fst p, [repeat (snd p) (n_qp r o)])) qp.

Definition cinv (m : material V) : Prop :=
  (forall r o p, dget (m_datas m) (KQp r o) = Some p -> p = PQp (cval r o)) /\
  (forall n, In n (m_special m) -> In n (map fst sp)).

Lemma shape_const nq : 0 < nq -> forall l : list (nat * V),
  shape_all nq (map (fun p => (fst p, [snd p])) l)
  = Ok (map (fun p => (fst p, [repeat (snd p) nq])) l).
Proof.
  intros H. assert (E0 : (0 <? nq) = true) by (apply Nat.ltb_lt; lia).
  induction l as [|[n v] t IH]; [easy|]. cbn [map shape_all fst snd].
  unfold shape_data. rewrite E0. cbn [bind]. rewrite IH. easy.
Qed.

Lemma update_const ts name : forall terms d,
  (forall r o p, dget d (KQp r o) = Some p -> p = PQp (cval r o)) ->
  snd (update_terms n_qp f ts name d terms) = None /\
  (forall r o p, dget (fst (update_terms n_qp f ts name d terms)) (KQp r o) = Some p ->
     p = PQp (cval r o)).
Proof.
  induction terms as [|t r IH]; intros d HD; [simpl; auto|]. cbn [update_terms].
  destruct (negb (memb name (t_mats t))); [auto|].
  destruct (dget d (qp_key t)) eqn:G; [auto|].
  unfold f, constant_fun at 1 3. cbn [f_qp bind new_data].
  rewrite shape_const by apply Hq. apply IH.
  intros r' o' p. destruct (dkey_dec (qp_key t) (KQp r' o')) as [E|E].
  - rewrite <- E, dget_set_same. intros X. injection X as <-. unfold qp_key in E.
    injection E as -> ->. easy.
  - rewrite !dget_set_other by easy. apply HD.
Qed.

Lemma kept_inv m mode d0 : cinv m -> kept m mode = Some d0 ->
  forall r o p, dget d0 (KQp r o) = Some p -> p = PQp (cval r o).
Proof.
  intros [HI _] K r o p G.
  assert (d0 = [] \/ d0 = m_datas m) as [->| ->].
  { destruct mode; simpl in K; [|injection K; auto|injection K; auto].
    destruct (m_datas m) as [|x y]; [injection K; auto|].
    destruct (m_user m || m_stat m); [easy|]. destruct (m_isc m); injection K; auto. }
  - easy.
  - eauto.
Qed.

Lemma tu_const ts terms mode m : cinv m ->
  cinv (fst (time_update n_qp f ts terms mode m)) /\
  snd (time_update n_qp f ts terms mode m) = None.
Proof.
  intros I. pose proof I as [HI HS]. unfold time_update.
  destruct (kept m mode) as [d0|] eqn:K; [|simpl; split; [exact I|easy]].
  destruct (@update_const ts (m_name m) terms d0 (@kept_inv m mode d0 I K)) as [E1 E2].
  destruct (update_terms n_qp f ts (m_name m) d0 terms) as [d e]. simpl in E1, E2. subst e.
  set (m1 := with_datas m d). assert (I1 : cinv m1) by (split; [exact E2|exact HS]).
  assert (S2 : cinv (fst (update_special f ts m1)) /\ snd (update_special f ts m1) = None).
  { unfold update_special. destruct (dget (m_datas m1) KSpecial); [simpl; auto|].
    simpl. split; [|easy]. split.
    - simpl. intros r o p. rewrite dget_set_other by easy. apply E2.
    - simpl. intros n Hn. apply in_app_or in Hn. destruct Hn; auto. }
  destruct (update_special f ts m1) as [m2 e2]. simpl in S2. destruct S2 as [I2 ->].
  unfold update_special_constant. destruct (dget (m_datas m2) KConst); [simpl; auto|].
  destruct (negb (m_flagc m2)); [simpl; auto|]. simpl. split; [|easy].
  destruct I2 as [J1 J2]. split.
  - simpl. intros r o p. rewrite dget_set_other by easy. apply J1.
  - exact J2.
Qed.

Lemma mhist_const ops : forall m, cinv m -> cinv (mhist n_qp f m ops).
Proof.
  unfold mhist. induction ops as [|o t IH]; intros m I; [easy|]. simpl. apply IH.
  destruct o; simpl; [apply tu_const, I|]. split; [discriminate|easy].
Qed.
End Const.

Lemma nget_map {V W} (g : V -> W) : forall (l : list (nat * V)) n v, nget l n = Some v ->
  nget (map (fun p => (fst p, g (snd p))) l) n = Some (g v).
Proof.
  induction l as [|[k x] t IH]; simpl; intros n v H; [easy|].
  destruct (n =? k); [congruence|auto].
Qed.

Lemma mhist_attr V n_qp (f : mfun V) ops : forall m,
  m_name (mhist n_qp f m ops) = m_name m /\ m_stat (mhist n_qp f m ops) = m_stat m /\
  m_isc (mhist n_qp f m ops) = m_isc m.
Proof.
  unfold mhist. induction ops as [|o t IH]; intros m; [auto|]. simpl.
  destruct (IH (mstep n_qp f m o)) as (A & B & C). rewrite A, B, C.
  destruct o; simpl; [|auto].
  destruct (time_update_attr n_qp f ts terms mode m) as (X & Y & Z & _). auto.
Qed.

Lemma mhist_user V n_qp (f : mfun V) ops : forall m, m_user m = false ->
  m_user (mhist n_qp f m ops) = false.
Proof.
  unfold mhist. induction ops as [|o t IH]; intros m H; [easy|]. simpl. apply IH.
  destruct o; simpl; [|easy].
  destruct (time_update_attr n_qp f ts terms mode m) as (_ & _ & _ & X & _). congruence.
Qed.

Theorem C179_constants_always : forall V (qp sp : list (nat * V)) n_qp name flagc before ts terms mode,
  (forall r o, 0 < n_qp r o) ->
  let f := constant_fun qp sp in
  let m := mhist n_qp f (new_material V name false true flagc) before in
  exists m', time_update n_qp f ts terms mode m = (m', None) /\
  forall t pname v, users name terms t -> nget qp pname = Some v ->
    ~ In pname (map fst sp) ->
    exists a, get_data m' (qp_key t) pname = Ok (GQp a) /\
      forall c q, q < n_qp (t_region t) (t_order t) -> at_point a c q = Some v.
Proof.
  intros V qp sp n_qp name flagc before ts terms mode Hq f m.
  assert (I : cinv qp sp n_qp m).
  { apply mhist_const; [exact Hq|]. split; [discriminate|easy]. }
  destruct (mhist_attr n_qp f before (new_material V name false true flagc)) as (A1 & A2 & A3).
  fold m in A1, A2, A3. simpl in A1, A2, A3.
  destruct (@tu_const V qp sp n_qp Hq ts terms mode m I) as [I' E].
  destruct (time_update n_qp f ts terms mode m) as [m' e] eqn:TU0. fold f in I', E.
  rewrite TU0 in I', E. simpl in I', E. subst e. exists m'. split; [easy|].
  intros t pname v U N NS.
  destruct I' as [J1 J2].
  assert (HP : exists nd, dget (m_datas m') (qp_key t) = Some (PQp nd)).
  { assert (HK : (exists d0, kept m mode = Some d0)
       \/ (mode = Normal /\ m_user m = true)).
    { destruct mode; simpl; eauto. destruct (m_datas m); eauto. rewrite A2, A3.
      destruct (m_user m); simpl; eauto. }
    assert (UU : m_user m = false).
    { unfold m. now apply mhist_user. }
    destruct HK as [[d0 K]|[_ X]]; [|congruence].
    destruct (@time_update_qp V n_qp f ts terms mode m m' d0 K TU0) as (dd & UT & DG).
    rewrite DG by easy. rewrite A1 in UT.
    destruct (dget d0 (qp_key t)) as [p|] eqn:G.
    - pose proof (@kept_inv V qp sp n_qp m mode d0 I K _ _ _ G) as X. subst p. eexists. eapply update_kept; eauto.
    - destruct (@update_new V n_qp f ts name terms d0 dd t UT U G) as (t0 & v0 & nd & _ & _ & _ & _ & G0). eauto. }
  destruct HP as [nd HP]. pose proof (J1 _ _ _ HP) as X. injection X as ->.
  exists [repeat v (n_qp (t_region t) (t_order t))]. split.
  - eapply get_stored; [|exact HP|].
    + destruct (memb pname (m_special m')) eqn:M; [|easy]. apply memb_In in M.
      exfalso. apply NS, J2, M.
    + unfold cval. exact (nget_map (fun x => [repeat x (n_qp (t_region t) (t_order t))]) _ _ N).
  - intros c q Hc. unfold at_point. simpl. now apply repeat_nth.
Qed.
