(** C86, C87, C92: file names of results and the steps saved. *)
From Coq Require Import QArith.
From Verif Require Import Base M_ts L_ts P_ts M_io M_output.
Set Implicit Arguments.
Open Scope nat_scope.

(** ** C86: editing file names *)
(** [s] ends with a slash or is empty. *)
Definition dir_like (s : str) : Prop := s = [] \/ exists r, s = r ++ [slash].
Definition all_dots (s : str) : Prop := Forall (eq dot) s.
(** A file name is a directory part, a base name and an extension (with its dot);
    leading dots of the name do not start an extension. *)
Inductive file_parts : str -> str -> str -> str -> Prop :=
| fp_ext : forall dir base e, dir_like dir -> ~ In slash base -> ~ In slash e -> ~ In dot e -> ~ all_dots base ->
    file_parts (dir ++ base ++ dot :: e) dir base (dot :: e)
| fp_none : forall dir base, dir_like dir -> ~ In slash base ->
    (forall a b, base = a ++ dot :: b -> all_dots a) -> file_parts (dir ++ base) dir base [].
(** The directory with its repeated trailing slashes replaced by one. *)
Inductive clean_dir : str -> str -> Prop :=
| cd_empty : clean_dir [] []
| cd_root : forall k, clean_dir (repeat slash (S k)) (repeat slash (S k))
| cd_sub : forall d x k, x <> slash -> clean_dir ((d ++ [x]) ++ repeat slash (S k)) ((d ++ [x]) ++ [slash]).

Lemma rcut_none : forall c s, ~ In c s -> rcut c s = ([], s).
Proof.
  intros c s. induction s as [|x t IH]; intros H; auto. cbn. rewrite IH by (intro; apply H; right; auto).
  destruct (Nat.eqb_spec x c); auto. subst. exfalso. apply H. left; auto.
Qed.
Lemma rcut_app : forall c a b, ~ In c b -> rcut c (a ++ c :: b) = (a ++ [c], b).
Proof.
  intros c a b H. induction a as [|x a IH]; cbn.
  - rewrite rcut_none; auto. rewrite Nat.eqb_refl. auto.
  - rewrite IH. destruct a; auto.
Qed.
Lemma rcut_total : forall c s, (~ In c s /\ rcut c s = ([], s)) \/
  exists a b, s = a ++ c :: b /\ ~ In c b /\ rcut c s = (a ++ [c], b).
Proof.
  intros c s. destruct (in_dec Nat.eq_dec c s) as [H|H].
  - right. assert (E : exists a b, s = a ++ c :: b /\ ~ In c b).
    { clear -H. induction s as [|x t IH]; [destruct H|]. destruct (in_dec Nat.eq_dec c t) as [H1|H1].
      - destruct (IH H1) as (a & b & E & Hb). exists (x :: a), b. rewrite E. auto.
      - destruct H as [->|H]; [|contradiction]. exists [], t. auto. }
    destruct E as (a & b & -> & Hb). exists a, b. rewrite rcut_app; auto.
  - left. split; auto. apply rcut_none; auto.
Qed.
Lemma rcut_dir : forall d b, dir_like d -> ~ In slash b -> rcut slash (d ++ b) = (d, b).
Proof.
  intros d b [-> |[r ->]] H; [apply rcut_none; auto|]. rewrite <- app_assoc. apply rcut_app; auto.
Qed.
Lemma forallb_eq : forall c s, forallb (Nat.eqb c) s = true <-> Forall (eq c) s.
Proof.
  intros c s. rewrite forallb_forall, Forall_forall. split; intros H x Hx; specialize (H x Hx).
  - apply Nat.eqb_eq; auto.
  - apply Nat.eqb_eq; auto.
Qed.

(** Every name has exactly one decomposition. *)
Theorem C86_parts : forall p, exists dir base ext, file_parts p dir base ext /\
  p = dir ++ base ++ ext /\
  (forall dir' base' ext', file_parts p dir' base' ext' -> dir' = dir /\ base' = base /\ ext' = ext).
Proof.
  assert (U : forall p dir base ext, file_parts p dir base ext ->
     rcut slash p = (dir, base ++ ext) /\
     (forall dir' base' ext', file_parts p dir' base' ext' -> dir' = dir /\ base' = base /\ ext' = ext)).
  { assert (R : forall p dir base ext, file_parts p dir base ext -> rcut slash p = (dir, base ++ ext)).
    { intros p dir base ext H. destruct H as [dir base e D B E1 E2 N|dir base D B A].
      - apply rcut_dir; auto. rewrite in_app_iff. intros [H|[H|H]]; [tauto|discriminate|tauto].
      - rewrite app_nil_r. apply rcut_dir; auto. }
    intros p dir base ext H. split; [apply R; auto|]. intros dir' base' ext' H'.
    pose proof (R _ _ _ _ H) as E. pose proof (R _ _ _ _ H') as E'. rewrite E in E'. injection E' as -> E'.
    split; auto. clear E R.
    destruct H as [dir base e D B E1 E2 N|dir base D B A];
    inversion H' as [d2 b2 e2 D2 B2 E12 E22 N2 Q1 Q2 Q3 Q4|d2 b2 D2 B2 A2 Q1 Q2 Q3 Q4]; subst.
    - assert (X : rcut dot (base ++ dot :: e) = rcut dot (base' ++ dot :: e2)) by congruence.
      rewrite !rcut_app in X by auto. injection X as X1 X2. apply app_inj_tail in X1. destruct X1. subst. auto.
    - exfalso. rewrite app_nil_r in E'. apply N. apply (A2 base e). auto.
    - exfalso. rewrite app_nil_r in E'. apply N2. apply (A base' e2). auto.
    - rewrite !app_nil_r in E'. auto. }
  assert (X : forall p, exists dir base ext, file_parts p dir base ext).
  { intros p.
    assert (S : exists dir tail, p = dir ++ tail /\ dir_like dir /\ ~ In slash tail).
    { destruct (rcut_total slash p) as [[H _]|(a & b & E & H & _)].
      - exists [], p. split; auto. split; auto. left; auto.
      - exists (a ++ [slash]), b. rewrite E, <- app_assoc. split; auto. split; auto. right. exists a; auto. }
    destruct S as (dir & tail & -> & D & T).
    destruct (rcut_total dot tail) as [[H _]|(a & b & E & H & _)].
    - exists dir, tail, []. apply fp_none; auto. intros a b ->. exfalso. apply H. apply in_or_app. right; left; auto.
    - destruct (forallb (Nat.eqb dot) a) eqn:F.
      + exists dir, tail, []. apply fp_none; auto. intros a' b' E2. apply forallb_eq in F. subst tail.
        unfold all_dots. apply Forall_forall. intros x Hx.
        assert (length a' <= length a).
        { destruct (le_lt_dec (length a') (length a)) as [L|L]; auto. exfalso. apply H.
          assert (nth (length a') (a ++ dot :: b) 0 = dot) as Q by (rewrite E2, app_nth2, Nat.sub_diag by lia; auto).
          assert (length a' < length (a ++ dot :: b)) by (rewrite E2, app_length; simpl; lia).
          rewrite app_nth2 in Q by lia. rewrite app_length in H0. simpl in H0.
          destruct (length a' - length a) as [|m] eqn:Em; [lia|]. simpl in Q. rewrite <- Q. apply nth_In. lia. }
        rewrite Forall_forall in F. apply F.
        assert (firstn (length a') (a ++ dot :: b) = a') as Q by (rewrite E2, firstn_app, Nat.sub_diag, firstn_all; simpl; apply app_nil_r).
        rewrite firstn_app in Q. replace (length a' - length a) with 0 in Q by lia. simpl in Q. rewrite app_nil_r in Q.
        rewrite <- Q in Hx. rewrite <- (firstn_skipn (length a') a). apply in_or_app. left. exact Hx.
      + exists dir, a, (dot :: b). subst tail. apply fp_ext; auto.
        * intro; apply T; apply in_or_app; auto.
        * intro; apply T; apply in_or_app; right; right; auto.
        * intro A. apply forallb_eq in A. congruence. }
  intros p. destruct (X p) as (dir & base & ext & H). exists dir, base, ext. split; auto. split.
  - destruct H; auto. rewrite app_nil_r. auto.
  - apply (U _ _ _ _ H).
Qed.

Lemma splitext_gen : forall p dir base ext, file_parts p dir base ext -> dir = [] -> splitext p = (base, ext).
Proof.
  intros p dir base ext H. destruct H as [dir base e D B E1 E2 NA|dir base D B A]; intros ->; cbn [app]; unfold splitext.
  - rewrite (@rcut_none slash (base ++ dot :: e)) by (rewrite in_app_iff; intros [X|[X|X]]; [tauto|discriminate|tauto]).
    rewrite rcut_app by auto. destruct (base ++ [dot]) as [|y l] eqn:E; [destruct base; discriminate|].
    rewrite <- E, removelast_last.
    destruct (forallb (Nat.eqb dot) base) eqn:F; auto. apply forallb_eq in F. contradiction.
  - rewrite (@rcut_none slash base) by auto.
    destruct (rcut_total dot base) as [[X ->]|(a & b & E & X & ->)]; auto.
    destruct (a ++ [dot]) as [|y l] eqn:E'; [destruct a; discriminate|]. rewrite <- E', removelast_last.
    specialize (A _ _ E). apply forallb_eq in A. rewrite A. auto.
Qed.
Lemma splitext_parts : forall base ext, file_parts (base ++ ext) [] base ext -> splitext (base ++ ext) = (base, ext).
Proof. intros base ext H. apply (splitext_gen H). auto. Qed.
Lemma parts_tail : forall p dir base ext, file_parts p dir base ext -> file_parts (base ++ ext) [] base ext.
Proof.
  intros p dir base ext H. destruct H as [dir base e D B E1 E2 N|dir base D B A].
  - apply (@fp_ext [] base e); auto. left; auto.
  - rewrite app_nil_r. apply (@fp_none [] base); auto. left; auto.
Qed.
Lemma parts_cut : forall p dir base ext, file_parts p dir base ext -> rcut slash p = (dir, base ++ ext).
Proof.
  intros p dir base ext H. destruct H as [dir base e D B E1 E2 N|dir base D B A].
  - apply rcut_dir; auto. rewrite in_app_iff. intros [H|[H|H]]; [tauto|discriminate|tauto].
  - rewrite app_nil_r. apply rcut_dir; auto.
Qed.
Theorem C86_trunk : forall p dir base ext, file_parts p dir base ext -> get_trunk p = base.
Proof.
  intros p dir base ext H. unfold get_trunk, basename. rewrite (parts_cut H). cbn [snd].
  rewrite splitext_parts; auto. eapply parts_tail; eauto.
Qed.

Lemma rev_repeat : forall A (x : A) k, rev (repeat x k) = repeat x k.
Proof.
  induction k; auto. simpl. rewrite IHk. change [x] with (repeat x 1). rewrite <- repeat_app, Nat.add_comm. auto.
Qed.
Lemma lstrip_slashes : forall k s, lstrip_c slash (repeat slash k ++ s) = lstrip_c slash s.
Proof. induction k; intros s; auto. unfold lstrip_c in *. cbn [repeat app lstrip]. rewrite Nat.eqb_refl. apply IHk. Qed.
Lemma rstrip_end : forall a x k, x <> slash -> rstrip_c slash ((a ++ [x]) ++ repeat slash k) = a ++ [x].
Proof.
  intros a x k H. unfold rstrip_c. rewrite rev_app_distr, rev_repeat, lstrip_slashes.
  rewrite rev_app_distr. cbn [rev app]. unfold lstrip_c. cbn [lstrip]. destruct (Nat.eqb_spec slash x); [congruence|].
  cbn [rev]. rewrite rev_involutive. auto.
Qed.
(** The directory is kept (its trailing slashes are normalized), the prefix and the
    suffix are put around the base name and the extension is kept or replaced. *)
Theorem C86_edit : forall p dir base ext prefix suffix new_ext, file_parts p dir base ext ->
  (forall t, prefix ++ base ++ suffix ++ (match new_ext with None => ext | Some e => e end) <> slash :: t) ->
  (dir = [] \/ prefix ++ base ++ suffix ++ (match new_ext with None => ext | Some e => e end) <> []) ->
  exists dir', clean_dir dir dir' /\
  edit_filename p prefix suffix new_ext =
  dir' ++ prefix ++ base ++ suffix ++ (match new_ext with None => ext | Some e => e end).
Proof.
  intros p dir base ext prefix suffix ne H HS HN. unfold edit_filename, path_split. rewrite (parts_cut H).
  rewrite (splitext_parts (parts_tail H)).
  set (new := prefix ++ base ++ suffix ++ _) in *.
  cut (exists dir' : list nat, clean_dir dir dir' /\
    path_join (if forallb (Nat.eqb slash) dir then dir else rstrip_c slash dir) new = dir' ++ new).
  { intros (dir' & C & E). exists dir'. split; auto. rewrite <- E. f_equal. unfold new. destruct ne; auto. }
  assert (D : dir_like dir) by (destruct H; auto).
  assert (J : forall a, (a = [] \/ last a 0 = slash) -> (new <> [] \/ a = []) -> path_join a new = a ++ new).
  { intros a Ha Hn. unfold path_join. destruct new as [|c t].
    - destruct Hn as [Hn|Hn]; [congruence|]. subst. auto.
    - destruct (Nat.eqb_spec c slash); [exfalso; apply (HS t); congruence|].
      destruct Ha as [-> |Ha]; auto. destruct a; auto. rewrite Ha. auto. }
  destruct (forallb (Nat.eqb slash) dir) eqn:F.
  - exists dir. apply forallb_eq in F. assert (R : dir = repeat slash (length dir)).
    { clear -F. induction F; auto. simpl. congruence. }
    split.
    + rewrite R. destruct (length dir); constructor.
    + apply J; [|tauto]. destruct D as [-> |[r ->]]; auto. right. apply last_last.
  - assert (E : exists d x k, x <> slash /\ dir = (d ++ [x]) ++ repeat slash (S k)).
    { destruct D as [-> |[r ->]]; [discriminate|].
      clear -F. induction r as [|y r IH] using rev_ind; [simpl in F; discriminate|].
      destruct (Nat.eq_dec y slash) as [-> |Hy].
      - destruct IH as (d & x & k & Hx & E).
        + rewrite !forallb_app in F. rewrite forallb_app. destruct (forallb (Nat.eqb slash) r); [discriminate F|auto].
        + exists d, x, (S k). split; auto. rewrite E. rewrite <- app_assoc. f_equal.
          change [slash] with (repeat slash 1). rewrite <- repeat_app. f_equal. lia.
      - exists r, y, 0. auto. }
    destruct E as (d & x & k & Hx & ->). exists ((d ++ [x]) ++ [slash]). split; [constructor; auto|].
    rewrite rstrip_end by auto. unfold path_join. destruct HN as [HN|HN]; [destruct d; discriminate|].
    destruct new as [|c t]; [congruence|]. destruct (Nat.eqb_spec c slash); [exfalso; apply (HS t); congruence|].
    destruct (d ++ [x]) as [|y l] eqn:E; [destruct d; discriminate|]. rewrite <- E, last_last.
    destruct (Nat.eqb_spec x slash); [contradiction|]. rewrite <- !app_assoc. reflexivity.
Qed.
(** An absolute prefix discards the directory of the file name. *)
Theorem C86_absolute_prefix_refuted : forall p dir base ext t suffix, file_parts p dir base ext ->
  edit_filename p (slash :: t) suffix None = slash :: t ++ base ++ suffix ++ ext.
Proof.
  intros p dir base ext t suffix H. unfold edit_filename, path_split. rewrite (parts_cut H).
  rewrite (splitext_parts (parts_tail H)). auto.
Qed.
Definition asc (s : String.string) : str := map Ascii.nat_of_ascii (String.list_ascii_of_string s).
Section Ex.
Import String. Open Scope string_scope.
Example C86_ex : edit_filename (asc "out//cyl.1.vtk") (asc "p_") (asc "_s") None = asc "out/p_cyl.1_s.vtk" /\
  edit_filename (asc ".bashrc") [] (asc "_s") (Some (asc ".h5")) = asc ".bashrc_s.h5" /\
  get_trunk (asc "meshes/3d/cyl.mesh") = asc "cyl" /\
  edit_filename (asc "out/a.vtk") (asc "/tmp/") [] None = asc "/tmp/a.vtk".
Proof. vm_compute. auto. Qed.
End Ex.

(** ** C87: names of the results of the steps *)
(** The order of strings. *)
Inductive slex : str -> str -> Prop :=
| slex_nil : forall y t, slex [] (y :: t)
| slex_here : forall x y s t, x < y -> slex (x :: s) (y :: t)
| slex_next : forall x s t, slex s t -> slex (x :: s) (x :: t).
Lemma slex_irrefl : forall s, ~ slex s s.
Proof. induction s as [|x s IH]; intros H; inversion H; subst; [lia|auto]. Qed.
Lemma slex_prefix : forall p s t, slex s t -> slex (p ++ s) (p ++ t).
Proof. induction p; simpl; auto. intros. apply slex_next. auto. Qed.
Lemma slex_suffix : forall s t q, length s = length t -> slex s t -> slex (s ++ q) (t ++ q).
Proof.
  intros s t q L H. revert L. induction H; intros L; simpl in *; try lia.
  - apply slex_here; auto.
  - apply slex_next. apply IHslex. lia.
Qed.
Lemma lex_slex : forall s t, lex s t -> slex (map (fun d => 48 + N.to_nat d) s) (map (fun d => 48 + N.to_nat d) t).
Proof.
  intros s t H. induction H; cbn [map]; [apply slex_nil|apply slex_here; lia|apply slex_next; auto].
Qed.

Lemma map_add_inj : forall s t, map (fun d => 48 + N.to_nat d) s = map (fun d => 48 + N.to_nat d) t -> s = t.
Proof.
  induction s as [|x s IH]; intros [|y t] H; cbn [map] in H; try discriminate; auto.
  injection H as H1 H2. f_equal; [lia|auto].
Qed.
Lemma step_str_inj : forall w w' j k, step_str w j = step_str w' k -> j = k.
Proof.
  intros w w' j k H. apply map_add_inj in H. assert (E : val (format_step w j) = val (format_step w' k)) by congruence.
  unfold format_step in E. rewrite !val_zeros, !val_digits in E. auto.
Qed.
Lemma step_str_digit : forall w k c, In c (step_str w k) -> 48 <= c < 58.
Proof.
  intros w k c H. unfold step_str in H. apply in_map_iff in H. destruct H as (d & <- & H). unfold format_step in H.
  apply in_app_or in H. destruct H as [H|H]; [apply repeat_spec in H; subst; cbn; lia|]. apply digits_lt in H. lia.
Qed.
Lemma step_str_lex : forall n j k, (1 <= n)%Z -> (j < k)%N -> (Z.of_N k < n)%Z ->
  length (step_str (get_print_info n) j) = length (step_str (get_print_info n) k) /\
  slex (step_str (get_print_info n) j) (step_str (get_print_info n) k).
Proof.
  intros n j k Hn H1 H2. destruct (C30_format Hn) as (_ & F & L). split.
  - unfold step_str. rewrite !map_length. destruct (F k H2) as [-> _]. destruct (F j) as [-> _]; auto. lia.
  - apply lex_slex. apply L; auto.
Qed.
Lemma join3 : forall a b c, join_dots [a; b; c] = (a ++ [dot]) ++ b ++ (dot :: c).
Proof. intros. cbn. rewrite <- app_assoc. auto. Qed.
Lemma join2 : forall a b, join_dots [a; b] = a ++ dot :: b.
Proof. auto. Qed.

(** The output name has the documented form. *)
Theorem C87_output_name : forall o suffix extra mode,
  get_output_name o suffix extra mode = path_join (o_dir o) (o_trunk o) ++
    (match suffix with
     | Some s => if (match mode with None => o_sequence o | Some m => m end) then dot :: s else []
     | None => [] end) ++
    (match extra with Some e => dot :: e | None => [] end) ++ dot :: o_format o.
Proof.
  intros o suffix extra mode. unfold get_output_name. set (p := path_join _ _).
  destruct suffix as [s|]; [destruct (match mode with None => _ | Some m => m end)|]; destruct extra as [e|]; cbn [join_dots app];
    rewrite <- ?app_assoc; auto.
Qed.
(** In the sequence mode the results of different steps go to different files, and
    the alphabetical order of the files of a run is the order of its steps. *)
Theorem C87_steps : forall o extra mode n j k, (match mode with None => o_sequence o | Some m => m end) = true ->
  let name i := get_output_name o (Some (step_str (get_print_info n) i)) extra mode in
  (j <> k -> name j <> name k) /\
  ((1 <= n)%Z -> (j < k)%N -> (Z.of_N k < n)%Z -> slex (name j) (name k)).
Proof.
  intros o extra mode n j k M name. unfold name. rewrite !C87_output_name, M. split.
  - intros N E. apply N. apply app_inv_head in E. apply app_inv_tail in E. injection E as E. apply step_str_inj in E. auto.
  - intros H1 H2 H3. destruct (step_str_lex H1 H2 H3) as [L X]. apply slex_prefix. apply slex_suffix; [cbn; lia|].
    apply slex_next. auto.
Qed.
(** Restart files: dir/trunk.restart-STEP.h5, with the same properties, and never the file of the results. *)
Theorem C87_restart : forall o n j k suffix mode,
  let name i := get_restart_filename o (Some (get_print_info n, i)) in
  name j = path_join (o_dir o) (o_trunk o) ++ dot :: s_restart ++ dash :: step_str (get_print_info n) j ++ dot :: s_h5 /\
  (j <> k -> name j <> name k) /\
  ((1 <= n)%Z -> (j < k)%N -> (Z.of_N k < n)%Z -> slex (name j) (name k)) /\
  ((forall c r, suffix = c :: r -> c < 58) -> ~ In dot (o_format o) ->
   name j <> get_output_name o (Some suffix) None mode).
Proof.
  intros o n j k suffix mode.
  assert (F : forall i, get_restart_filename o (Some (get_print_info n, i)) =
    path_join (o_dir o) (o_trunk o) ++ dot :: s_restart ++ dash :: step_str (get_print_info n) i ++ dot :: s_h5).
  { intros i. unfold get_restart_filename. rewrite C87_output_name. cbn [app]. set (p := path_join _ _).
    set (ss := step_str _ _).
    assert (E : p ++ dot :: (s_restart ++ dash :: ss) ++ dot :: o_format o =
                (p ++ dot :: (s_restart ++ dash :: ss)) ++ (dot :: o_format o)) by (rewrite <- !app_assoc; auto).
    rewrite E. rewrite (app_length _ (dot :: o_format o)), Nat.add_sub, firstn_app, Nat.sub_diag, firstn_all. cbn [firstn].
    rewrite app_nil_r. rewrite <- !app_assoc. cbn [app]. rewrite <- !app_assoc. auto. }
  intros name. unfold name. rewrite !F. split; auto. split; [|split].
  - intros N E. apply N. apply app_inv_head in E.
    assert (E' : step_str (get_print_info n) j ++ dot :: s_h5 = step_str (get_print_info n) k ++ dot :: s_h5).
    { injection E as E. exact E. }
    apply app_inv_tail in E'. apply step_str_inj in E'. auto.
  - intros H1 H2 H3. destruct (step_str_lex H1 H2 H3) as [L X]. apply slex_prefix. apply slex_next.
    apply slex_prefix. apply slex_next. apply slex_suffix; auto.
  - intros S D E. rewrite C87_output_name in E. apply app_inv_head in E. cbn [app] in E.
    destruct (match mode with None => o_sequence o | Some m => m end) eqn:M; cbn [app] in E; injection E as E.
    + destruct suffix as [|c r]; cbn in E; injection E as E1 E2; [unfold dot in E1; lia|].
      specialize (S _ _ eq_refl). lia.
    + apply D. rewrite <- E. do 8 right. apply in_or_app. right. left. auto.
Qed.

(** Names of the recovered micro-results: distinct for distinct (element, step) in the sequence formats. *)
Lemma cut_dot : forall a b c d, ~ In dot a -> ~ In dot c -> a ++ dot :: b = c ++ dot :: d -> a = c /\ b = d.
Proof.
  induction a as [|x a IH]; intros b [|y c] d Ha Hc E; cbn in E.
  - injection E as E. auto.
  - injection E as E1 E2. exfalso. apply Hc. left; auto.
  - injection E as E1 E2. exfalso. apply Ha. left; auto.
  - injection E as E1 E2. destruct (IH b c d) as [-> ->]; auto; try (intro; [apply Ha|apply Hc]; right; auto); subst; auto.
    + intro; apply Ha; right; auto.
    + intro; apply Hc; right; auto.
Qed.
Lemma step_str_nodot : forall w k, ~ In dot (step_str w k).
Proof. intros w k H. apply step_str_digit in H. unfold dot in H. lia. Qed.
Theorem C87_recovery_partial : forall n_el n_step step_iel iel iel' k k', (1 < n_el)%Z -> (iel, k) <> (iel', k') ->
  exists s s', recovery_suffix n_el iel n_step k step_iel false = Ok s /\
               recovery_suffix n_el iel' n_step k' step_iel false = Ok s' /\ s <> s'.
Proof.
  intros n_el n_step b iel iel' k k' H D. unfold recovery_suffix, get_print_info0, get_output_suffix.
  rewrite (proj2 (Z.ltb_lt _ _) H).
  destruct b; eexists; eexists; (split; [reflexivity|split; [reflexivity|]]); cbn [join_dots]; intros E; apply D;
    apply cut_dot in E; auto using step_str_nodot; destruct E as [E1 E2]; apply step_str_inj in E1, E2; congruence.
Qed.
(** A macroscopic mesh with a single element: the format is None. *)
Theorem C87_recovery_one_element_refuted : forall iel n_step k step_iel is_h5,
  recovery_suffix 1 iel n_step k step_iel is_h5 = Err TypeError.
Proof. auto. Qed.
Section Ex2.
Import String. Open Scope string_scope.
Example C87_ex : let o := mkOut (asc "output") (asc "cyl") (asc "vtk") true in
  get_output_name o (Some (step_str (get_print_info 101) 7)) None None = asc "output/cyl.007.vtk" /\
  get_restart_filename o (Some (get_print_info 101, 7%N)) = asc "output/cyl.restart-007.h5" /\
  recovery_suffix 20 3 101 7 true false = Ok (asc "007.03").
Proof. vm_compute. auto. Qed.
End Ex2.

(** ** C92: the steps whose results are saved *)
Section Save.
Variable eps : Q.
(** The time up to which a step reaches (with the tolerance of the code). *)
Definition reach (st : Q * Q) : Q := (fst st + eps * snd st)%Q.
(** The save times increase. *)
Definition sorted (l : list Q) : Prop := forall i j, i < j -> j < length l -> (nth i l 0 < nth j l 0)%Q.
(** The save time [i] is reached in the step [k] and not earlier. *)
Definition newly (save : list Q) (steps : list (Q * Q)) (k i : nat) : Prop :=
  i < length save /\ k < length steps /\ (nth i save 0 <= reach (nth k steps (0, 0)))%Q /\
  (forall j, j < k -> (reach (nth j steps (0, 0)) < nth i save 0)%Q).
(** A step reaches at most one new save time. *)
Definition spaced (save : list Q) (steps : list (Q * Q)) : Prop :=
  forall k i j, newly save steps k i -> newly save steps k j -> i = j.

Lemma save_gen : forall save rest pre i, sorted save -> spaced save (pre ++ rest) ->
  (forall i', i' < i -> exists j, j < length pre /\ (nth i' save 0 <= reach (nth j (pre ++ rest) (0, 0)))%Q) ->
  (forall i', i <= i' < length save -> forall j, j < length pre -> (reach (nth j (pre ++ rest) (0, 0)) < nth i' save 0)%Q) ->
  forall k, k < length rest ->
  (nth k (is_save_run eps save i rest) false = true <-> exists i', newly save (pre ++ rest) (length pre + k) i').
Proof.
  intros save rest. induction rest as [|[t d] rest IH]; intros pre i HS SP P1 P2 k Hk; [cbn in Hk; lia|].
  cbn [is_save_run].
  assert (R : reach (nth (length pre) (pre ++ (t, d) :: rest) (0, 0)%Q) = (t + eps * d)%Q).
  { rewrite app_nth2, Nat.sub_diag by lia. auto. }
  assert (LN : length pre < length (pre ++ (t, d) :: rest)) by (rewrite app_length; cbn; lia).
  assert (A : pre ++ (t, d) :: rest = (pre ++ [(t, d)]) ++ rest) by (rewrite <- app_assoc; auto).
  unfold is_save.
  destruct ((i <? length save) && Qle_bool (nth i save 0%Q) (t + eps * d)) eqn:C.
  - apply andb_prop in C. destruct C as [C1 C2]. apply Nat.ltb_lt in C1. apply Qle_bool_iff in C2.
    assert (N0 : newly save (pre ++ (t, d) :: rest) (length pre) i).
    { split; auto. split; auto. split; [rewrite R; auto|]. intros j Hj. apply P2; auto. }
    destruct k as [|k].
    + rewrite Nat.add_0_r. cbn [nth]. split; auto. intros _. exists i. auto.
    + cbn [nth]. rewrite A in *.
      replace (length pre + S k) with (length (pre ++ [(t, d)]) + k) by (rewrite app_length; cbn; lia).
      apply IH; auto; try (cbn in Hk; lia).
      * intros i' Hi. destruct (Nat.eq_dec i' i) as [-> |Hn].
        -- exists (length pre). split; [rewrite app_length; cbn; lia|]. rewrite R. auto.
        -- destruct (P1 i') as (j & Hj & Hr); [lia|]. exists j. split; auto. rewrite app_length. lia.
      * intros i' Hi j Hj. rewrite app_length in Hj. cbn in Hj.
        destruct (Nat.eq_dec j (length pre)) as [-> |Hn]; [|apply P2; lia].
        apply Qnot_le_lt. intro X.
        assert (N1 : newly save ((pre ++ [(t, d)]) ++ rest) (length pre) i').
        { split; [lia|]. split; auto. split; auto. intros j Hj'. apply P2; lia. }
        specialize (SP _ _ _ N0 N1). lia.
  - assert (NX : forall i', i <= i' < length save -> (t + eps * d < nth i' save 0)%Q).
    { intros i' Hi. apply Qnot_le_lt. intro X. assert (Y : (nth i save 0 <= t + eps * d)%Q).
      { destruct (Nat.eq_dec i i') as [<- |Hn]; auto. eapply Qle_trans; [|exact X]. apply Qlt_le_weak. apply HS; lia. }
      apply Qle_bool_iff in Y. rewrite Y in C. rewrite (proj2 (Nat.ltb_lt i (length save))) in C by lia. discriminate. }
    destruct k as [|k].
    + rewrite Nat.add_0_r. cbn [nth]. split; [discriminate|]. intros (i' & L1 & L2 & L3 & L4). exfalso. rewrite R in L3.
      destruct (le_lt_dec i i') as [Hi|Hi].
      * apply (Qlt_not_le _ _ (NX i' (conj Hi L1))). auto.
      * destruct (P1 i' Hi) as (j & Hj & Hr). apply (Qlt_not_le _ _ (L4 j Hj)). auto.
    + cbn [nth]. rewrite A in *.
      replace (length pre + S k) with (length (pre ++ [(t, d)]) + k) by (rewrite app_length; cbn; lia).
      apply IH; auto; try (cbn in Hk; lia).
      * intros i' Hi. destruct (P1 i') as (j & Hj & Hr); [lia|]. exists j. split; auto. rewrite app_length. lia.
      * intros i' Hi j Hj. rewrite app_length in Hj. cbn in Hj.
        destruct (Nat.eq_dec j (length pre)) as [-> |Hn]; [|apply P2; lia]. rewrite R. apply NX; auto.
Qed.
(** If no step reaches two new save times, the steps saved are those which reach a
    new save time. *)
Theorem C92_spaced_partial : forall save steps, sorted save -> spaced save steps ->
  forall k, k < length steps ->
  (nth k (is_save_run eps save 0 steps) false = true <-> exists i, newly save steps k i).
Proof.
  intros save steps H1 H2 k Hk. apply (@save_gen save steps [] 0); auto.
  - intros; lia.
  - cbn. intros; lia.
Qed.
End Save.
(** Two save times in one step: the next step is saved as well, although it reaches no save time. *)
Theorem C92_dense_refuted : exists save steps k, sorted save /\ k < length steps /\
  nth k (is_save_run (1 # 100000000000000) save 0 steps) false = true /\
  ~ exists i, newly (1 # 100000000000000) save steps k i.
Proof.
  exists [0; 1 # 4; 1 # 2]%Q, [(0, 1); (1, 1); (2, 1); (3, 1)]%Q, 2. split; [|split; [cbn; lia|split; [reflexivity|]]].
  - intros i j H1 H2. cbn in H2. destruct i as [|[|i]]; destruct j as [|[|[|j]]]; try lia; reflexivity.
  - intros (i & L1 & _ & _ & L). specialize (L 1 ltac:(lia)). cbn in L1.
    destruct i as [|[|[|i]]]; [..|lia]; vm_compute in L; discriminate.
Qed.
(** A restarted run begins with the first save time: after a restart at t = 2, the
    steps at t = 3, 4 and 5 are saved, although the save times are 0, 1 and 6. *)
Theorem C92_restart_refuted : exists save steps k, sorted save /\ spaced (1 # 100000000000000) save steps /\
  nth k (is_save_run (1 # 100000000000000) save 0 steps) false = false /\
  nth (k - 3) (is_save_run (1 # 100000000000000) save 0 (skipn 3 steps)) false = true.
Proof.
  exists [0; 1; 6]%Q, [(0, 1); (1, 1); (2, 1); (3, 1); (4, 1); (5, 1); (6, 1)]%Q, 3. split; [|split; [|split; reflexivity]].
  - intros i j H1 H2. cbn in H2. destruct i as [|[|i]]; destruct j as [|[|[|j]]]; try lia; reflexivity.
  - intros k i j (A1 & A2 & A3 & A4) (B1 & B2 & B3 & B4). cbn in A1, B1, A2.
    assert (K : forall i k, i < 3 -> k < 7 ->
       (nth i [0; 1; 6]%Q 0 <= reach (1 # 100000000000000) (nth k [(0, 1); (1, 1); (2, 1); (3, 1); (4, 1); (5, 1); (6, 1)]%Q (0, 0)%Q))%Q ->
       (forall j, j < k -> (reach (1 # 100000000000000) (nth j [(0, 1); (1, 1); (2, 1); (3, 1); (4, 1); (5, 1); (6, 1)]%Q (0, 0)%Q) < nth i [0; 1; 6]%Q 0)%Q) ->
       k = nth i [0; 1; 6] 0).
    { clear. intros i k Hi Hk H1 H2.
      destruct i as [|[|[|i]]]; [..|lia]; destruct k as [|[|[|[|[|[|[|k]]]]]]]; try lia; try reflexivity; exfalso;
        first [ vm_compute in H1; apply H1; reflexivity
              | specialize (H2 0 ltac:(lia)); vm_compute in H2; discriminate
              | specialize (H2 1 ltac:(lia)); vm_compute in H2; discriminate ]. }
    pose proof (K i k A1 A2 A3 A4) as E1. pose proof (K j k B1 A2 B3 B4) as E2.
    destruct i as [|[|[|i]]]; destruct j as [|[|[|j]]]; try lia; cbn in E1, E2; lia.
Qed.
Example C92_ex : is_save_run (1 # 100000000000000) [0; 1; 2]%Q 0 [(0, 1 # 2); (1 # 2, 1 # 2); (1, 1 # 2); (3 # 2, 1 # 2); (2, 1 # 2)]%Q
  = [true; false; true; false; true].
Proof. reflexivity. Qed.
Print Assumptions C86_edit. Print Assumptions C87_restart. Print Assumptions C92_spaced_partial.
