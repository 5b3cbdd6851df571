(** C48-C50, C85: reading text files and sparse matrices. *)
From Verif Require Import Base BaseSum S_assemble M_io.
Set Implicit Arguments.

Lemma last_cons : forall A (l : list A) x d, last (x :: l) d = last l x.
Proof. intros A l. induction l as [|y l IH]; intros x d; auto. transitivity (last (y :: l) d); [reflexivity|]. rewrite !IH. reflexivity. Qed.
Section Text.
Variable isspace : nat -> bool.
Hypothesis Hnl : isspace nl = true.
Hypothesis Hhash : isspace hash = false.

(** ** Specification *)
(** The lines of a file; each but the last one ends with a newline. *)
Inductive lines_of : str -> list str -> Prop :=
| lo_nil : lines_of [] []
| lo_last : forall b, b <> [] -> ~ In nl b -> lines_of b [b]
| lo_cons : forall b r ls, ~ In nl b -> lines_of r ls -> lines_of (b ++ nl :: r) ((b ++ [nl]) :: ls).
Definition spaces (s : str) : Prop := Forall (fun c => isspace c = true) s.
Definition blank (s : str) : Prop := spaces s.
Definition comment (s : str) : Prop := exists ws r, spaces ws /\ s = ws ++ hash :: r.
Definition data_line (s : str) : Prop := ~ blank s /\ ~ comment s.
(** [t] is [s] without the spaces at both ends. *)
Definition stripped (s t : str) : Prop := exists a b, s = a ++ t ++ b /\ spaces a /\ spaces b /\
  (forall c r, t = c :: r -> isspace c = false) /\ (forall c r, t = r ++ [c] -> isspace c = false).
(** The words of a file. *)
Inductive words : str -> list str -> Prop :=
| w_nil : forall ws, spaces ws -> words ws []
| w_last : forall ws w, spaces ws -> w <> [] -> Forall (fun c => isspace c = false) w -> words (ws ++ w) [w]
| w_cons : forall ws w s r ts, spaces ws -> w <> [] -> Forall (fun c => isspace c = false) w -> isspace s = true ->
    words r ts -> words (ws ++ w ++ s :: r) (w :: ts).

(** ** Lines *)
Lemma lines_total : forall fd, exists ls, lines_of fd ls.
Proof.
  assert (G : forall n fd, length fd <= n -> exists ls, lines_of fd ls).
  { induction n as [|n IH]; intros fd Hl; [destruct fd; simpl in Hl; [exists []; constructor|lia]|].
    destruct (in_dec Nat.eq_dec nl fd) as [I|I].
    - assert (S : exists b r, fd = b ++ nl :: r /\ ~ In nl b).
      { clear -I. induction fd as [|c fd IH]; [destruct I|]. destruct (Nat.eq_dec c nl) as [->|D].
        - exists [], fd. simpl. auto.
        - destruct I as [E|I]; [congruence|]. destruct (IH I) as (b & r & -> & Hb). exists (c :: b), r.
          split; auto. intros [E|E]; auto. }
      destruct S as (b & r & -> & Hb). rewrite app_length in Hl. simpl in Hl.
      destruct (IH r ltac:(lia)) as [ls Hls]. exists ((b ++ [nl]) :: ls). constructor; auto.
    - destruct fd as [|c fd]; [exists []; constructor|]. exists [c :: fd]. constructor; auto. discriminate. }
  intros fd. eapply G; eauto.
Qed.
Lemma readline_cons : forall b r, ~ In nl b -> readline (b ++ nl :: r) = (b ++ [nl], r).
Proof.
  induction b as [|c b IH]; intros r H; simpl; auto.
  destruct (Nat.eqb_spec c nl) as [->|D]; [exfalso; apply H; simpl; auto|]. rewrite IH; auto. intros I; apply H; simpl; auto.
Qed.
Lemma readline_last : forall b, ~ In nl b -> readline b = (b, []).
Proof.
  induction b as [|c b IH]; intros H; simpl; auto.
  destruct (Nat.eqb_spec c nl) as [->|D]; [exfalso; apply H; simpl; auto|]. rewrite IH; auto. intros I; apply H; simpl; auto.
Qed.
Lemma lines_read : forall fd ls, lines_of fd ls ->
  (fd = [] /\ ls = []) \/ exists l ls', ls = l :: ls' /\ l <> [] /\ readline fd = (l, concat ls') /\ lines_of (concat ls') ls' /\
     length (concat ls') < length fd.
Proof.
  assert (C : forall fd ls, lines_of fd ls -> concat ls = fd).
  { intros fd ls H. induction H; simpl; auto; [rewrite app_nil_r; auto|]. rewrite IHlines_of, <- app_assoc. reflexivity. }
  intros fd ls H. inversion H; subst; auto; right.
  - exists fd, []. simpl. rewrite readline_last by auto. repeat split; auto; try constructor. destruct fd; simpl; [congruence|lia].
  - exists (b ++ [nl]), ls0. rewrite readline_cons by auto. rewrite (C r ls0) by auto. repeat split; auto.
    + destruct b; discriminate.
    + rewrite app_length. simpl. lia.
Qed.

(** ** [strip] *)
Lemma lstrip_spec : forall s, exists a, s = a ++ lstrip isspace s /\ spaces a /\
  (forall c r, lstrip isspace s = c :: r -> isspace c = false).
Proof.
  induction s as [|c s IH]; simpl.
  - exists []. split; auto. split; [constructor|]. discriminate.
  - destruct (isspace c) eqn:E.
    + destruct IH as (a & E1 & E2 & E3). exists (c :: a). simpl. split; [congruence|]. split; [constructor; auto|auto].
    + exists []. split; auto. split; [constructor|]. intros d r H. inversion H; subst; auto.
Qed.
Lemma strip_ok : forall s, stripped s (strip isspace s).
Proof.
  intros s. destruct (lstrip_spec s) as (a & E1 & A1 & A2).
  destruct (lstrip_spec (rev (lstrip isspace s))) as (b & E2 & B1 & B2).
  unfold strip. set (u := lstrip isspace s) in *. set (v := lstrip isspace (rev u)) in *.
  assert (Eu : u = rev v ++ rev b) by (rewrite <- rev_app_distr, <- E2, rev_involutive; auto).
  exists a, (rev b). split; [rewrite <- Eu; auto|]. split; auto. split.
  - unfold spaces in *. rewrite Forall_forall in *. intros x Hx. apply B1, in_rev. auto.
  - split.
    + intros c r E. rewrite E in Eu. eapply A2. exact Eu.
    + intros c r E. assert (E' : v = c :: rev r) by (rewrite <- (rev_involutive v), E, rev_app_distr; auto).
      eapply B2; eauto.
Qed.
Lemma spaces_app : forall a b, spaces (a ++ b) <-> spaces a /\ spaces b.
Proof. intros. apply Forall_app. Qed.
Lemma strip_blank : forall s, strip isspace s = [] <-> blank s.
Proof.
  intros s. destruct (strip_ok s) as (a & b & E & A & B & F & _). split.
  - intros E'. rewrite E' in E. simpl in E. rewrite E. apply spaces_app; auto.
  - intros H. rewrite E in H. apply spaces_app in H. destruct H as [_ H]. apply spaces_app in H. destruct H as [H _].
    destruct (strip isspace s) as [|c r] eqn:Es; auto. inversion H; subst. rewrite (F c r eq_refl) in H2. discriminate.
Qed.
Lemma strip_comment : forall s, (exists r, strip isspace s = hash :: r) <-> comment s.
Proof.
  intros s. destruct (strip_ok s) as (a & b & E & A & B & F & _). split.
  - intros [r E']. rewrite E' in E. exists a, (r ++ b). split; auto.
  - intros (ws & r & W & E'). rewrite E in E'. clear E. revert a A E'. induction ws as [|w ws IH]; intros a A E'.
    + destruct a as [|x a]; simpl in E'.
      * destruct (strip isspace s) as [|c t]; simpl in E'.
        -- rewrite E' in B. inversion B; subst. congruence.
        -- inversion E'; subst. eauto.
      * inversion E'; subst. inversion A; subst. congruence.
    + inversion W; subst. destruct a as [|x a]; simpl in E'.
      * destruct (strip isspace s) as [|c t] eqn:Es; simpl in E'.
        -- exfalso. rewrite E' in B. apply (spaces_app (w :: ws)) in B. destruct B as [_ B]. inversion B; subst. congruence.
        -- exfalso. assert (F0 := F c t eq_refl). injection E' as E1 E2. rewrite E1 in F0. congruence.
      * inversion E'; subst. inversion A; subst. apply (IH H2 a); auto.
Qed.
Lemma data_line_strip : forall s, data_line s <-> exists c r, strip isspace s = c :: r /\ c <> hash.
Proof.
  intros s. unfold data_line. rewrite <- strip_blank, <- strip_comment. split.
  - intros [H1 H2]. destruct (strip isspace s) as [|c r]; [congruence|]. exists c, r. split; auto.
    intros ->. apply H2. eauto.
  - intros (c & r & E & D). rewrite E. split; [discriminate|]. intros [r' E']. inversion E'; congruence.
Qed.
Lemma not_data : forall s, ~ data_line s -> strip isspace s = [] \/ exists r, strip isspace s = hash :: r.
Proof.
  intros s H. destruct (strip isspace s) as [|c r] eqn:E; auto. right. destruct (Nat.eq_dec c hash) as [->|D]; eauto.
  exfalso. apply H. apply data_line_strip. eauto.
Qed.

(** ** [skip_read_line] *)
Lemma skip_data : forall pre line post fd fuel ne s0, lines_of fd (pre ++ line :: post) ->
  Forall (fun l => ~ data_line l) pre -> data_line line -> length fd < fuel ->
  skip_loop isspace fuel ne s0 fd = Ok (strip isspace line, concat post).
Proof.
  induction pre as [|p pre IH]; intros line post fd fuel ne s0 Hl Hp Hd Hf; (destruct fuel as [|fuel]; [lia|]);
    destruct (lines_read Hl) as [[_ ?]|(l & ls & E & Hne & Er & Hls & Hlen)]; try discriminate;
    inversion E; subst; cbn [skip_loop]; rewrite Er; (destruct l as [|c0 l0]; [congruence|]).
  - apply data_line_strip in Hd. destruct Hd as (c & r & Es & D). rewrite Es.
    apply Nat.eqb_neq in D. rewrite D. reflexivity.
  - inversion Hp as [|? ? H1 H2]; subst. assert (R := IH line post _ fuel ne (strip isspace (c0 :: l0)) Hls H2 Hd ltac:(lia)).
    destruct (not_data H1) as [Es|[r Es]]; rewrite Es in *; [exact R|]. rewrite Nat.eqb_refl. exact R.
Qed.
Lemma skip_none : forall ls fd fuel ne s0, lines_of fd ls -> Forall (fun l => ~ data_line l) ls -> length fd < fuel ->
  skip_loop isspace fuel ne s0 fd = if ne then Err EOFError else Ok (last (map (strip isspace) ls) s0, []).
Proof.
  induction ls as [|p ls IH]; intros fd fuel ne s0 Hl Hp Hf; (destruct fuel as [|fuel]; [lia|]);
    destruct (lines_read Hl) as [[-> ?]|(l & ls' & E & Hne & Er & Hls & Hlen)]; try discriminate.
  - simpl. destruct ne; auto.
  - inversion E; subst. cbn [skip_loop]. rewrite Er. destruct l as [|c0 l0]; [congruence|].
    inversion Hp as [|? ? H1 H2]; subst. assert (R := IH _ fuel ne (strip isspace (c0 :: l0)) Hls H2 ltac:(lia)).
    assert (Q : forall d, last (map (strip isspace) ((c0 :: l0) :: ls')) d = last (map (strip isspace) ls') (strip isspace (c0 :: l0))).
    { intros d. cbn [map]. apply last_cons. }
    rewrite Q. destruct (not_data H1) as [Es|[r Es]]; rewrite Es in *; [exact R|]. rewrite Nat.eqb_refl. exact R.
Qed.
(** The first data line is returned, stripped, and the file is positioned after it. *)
Theorem C49_first_line : forall ne fd pre line post, lines_of fd (pre ++ line :: post) ->
  Forall (fun l => ~ data_line l) pre -> data_line line ->
  exists t, skip_read_line isspace ne fd = Ok (t, concat post) /\ stripped line t /\ t <> [].
Proof.
  intros ne fd pre line post H1 H2 H3. exists (strip isspace line). split; [eapply skip_data; eauto|].
  split; [apply strip_ok|]. apply data_line_strip in H3. destruct H3 as (c & r & E & _). congruence.
Qed.
Theorem C49_eof : forall fd ls, lines_of fd ls -> Forall (fun l => ~ data_line l) ls ->
  skip_read_line isspace true fd = Err EOFError.
Proof. intros fd ls H1 H2. unfold skip_read_line. rewrite (@skip_none ls); auto. Qed.
(** Without data lines: the empty string if the file is empty or its last line is blank. *)
Theorem C49_no_data_partial : forall fd ls, lines_of fd ls -> Forall (fun l => ~ data_line l) ls ->
  (ls = [] \/ blank (last ls [])) -> skip_read_line isspace false fd = Ok ([], []).
Proof.
  intros fd ls H1 H2 H3. unfold skip_read_line. rewrite (@skip_none ls); auto.
  destruct H3 as [->|H3]; auto. apply strip_blank in H3.
  assert (E : last (map (strip isspace) ls) [] = strip isspace (last ls [])).
  { clear. induction ls as [|x ls IH]; auto. simpl. destruct ls; auto. }
  rewrite E, H3. reflexivity.
Qed.
(** Otherwise the last comment is returned as data. *)
Theorem C49_trailing_comment_refuted : forall fd ls, lines_of fd ls -> Forall (fun l => ~ data_line l) ls ->
  comment (last ls []) -> exists t, skip_read_line isspace false fd = Ok (hash :: t, []).
Proof.
  intros fd ls H1 H2 H3. unfold skip_read_line. rewrite (@skip_none ls); auto.
  apply strip_comment in H3. destruct H3 as [r E']. exists r.
  assert (E : last (map (strip isspace) ls) [] = strip isspace (last ls [])).
  { clear. induction ls as [|x ls IH]; auto. simpl. destruct ls; auto. }
  rewrite E, E'. reflexivity.
Qed.

(** ** [read_token] *)
Lemma token_skip_spaces : forall ws s, spaces ws -> token_skip isspace (ws ++ s) = token_skip isspace s.
Proof. intros ws s H. induction H; simpl; auto. rewrite H. auto. Qed.
Lemma token_body_word : forall w ch s r, Forall (fun c => isspace c = false) w -> isspace s = true ->
  token_body isspace ch (w ++ s :: r) = (ch :: w, r).
Proof. induction w as [|c w IH]; intros ch s r H Hs; simpl; [rewrite Hs; auto|]. inversion H; subst. rewrite H2, (IH c s r); auto. Qed.
Lemma token_body_last : forall w ch, Forall (fun c => isspace c = false) w -> token_body isspace ch w = (ch :: w, []).
Proof. induction w as [|c w IH]; intros ch H; simpl; auto. inversion H; subst. rewrite H2, (IH c); auto. Qed.
Lemma words_total : forall fd, exists ts, words fd ts.
Proof.
  assert (G : forall n fd, length fd <= n -> exists ts, words fd ts).
  { induction n as [|n IH]; intros fd Hl; [destruct fd; simpl in Hl; [exists []; constructor; constructor|lia]|].
    assert (S1 : exists ws r, fd = ws ++ r /\ spaces ws /\ (r = [] \/ exists c r', r = c :: r' /\ isspace c = false)).
    { clear. induction fd as [|c fd IH]; [exists [], []; simpl; repeat split; auto; constructor|].
      destruct (isspace c) eqn:E.
      - destruct IH as (ws & r & -> & W & R). exists (c :: ws), r. split; auto. split; auto. constructor; auto.
      - exists [], (c :: fd). split; auto. split; [constructor|]. right; eauto. }
    destruct S1 as (ws & r & -> & W & R). destruct R as [->|(c & r' & -> & Hc)].
    - rewrite app_nil_r. exists []. constructor; auto.
    - assert (S2 : exists w t, r' = w ++ t /\ Forall (fun c => isspace c = false) w /\ (t = [] \/ exists s t', t = s :: t' /\ isspace s = true)).
      { clear. induction r' as [|x r' IH]; [exists [], []; simpl; repeat split; auto; constructor|].
        destruct (isspace x) eqn:E.
        - exists [], (x :: r'). split; auto. split; [constructor|]. right; eauto.
        - destruct IH as (w & t & -> & W & T). exists (x :: w), t. split; auto. }
      destruct S2 as (w & t & -> & F & T). destruct T as [->|(s & t' & -> & Hs)].
      + exists [c :: w]. rewrite app_nil_r. constructor; auto; discriminate.
      + rewrite !app_length in Hl. simpl in Hl. rewrite app_length in Hl. simpl in Hl.
        destruct (IH t' ltac:(lia)) as [ts Hts].
        exists ((c :: w) :: ts). change (ws ++ c :: w ++ s :: t') with (ws ++ (c :: w) ++ s :: t').
        constructor; auto. discriminate. }
  intros fd. eapply G; eauto.
Qed.
Lemma skip_all : forall ws, spaces ws -> token_skip isspace ws = None.
Proof. intros ws H. induction H; simpl; auto. rewrite H. auto. Qed.
(** Repeated calls return the words of the file, then empty strings. *)
Theorem C50_tokens : forall fd ts, words fd ts -> forall k, read_tokens isspace (length ts + k) fd = ts ++ repeat [] k.
Proof.
  assert (N : forall k ws, spaces ws -> read_tokens isspace k ws = repeat [] k).
  { induction k as [|k IH]; intros ws H; simpl; auto. unfold read_token. rewrite skip_all by auto. f_equal. apply IH. constructor. }
  intros fd ts H. induction H as [ws W|ws w W Hw F|ws w s r ts W Hw F Hs H IH]; intros k.
  - apply N; auto.
  - destruct w as [|c w]; [congruence|]. cbn [length Nat.add read_tokens]. unfold read_token. rewrite token_skip_spaces by auto.
    inversion F as [|? ? F1 F2]; subst. cbn [token_skip]. rewrite F1. rewrite token_body_last by auto.
    simpl. f_equal. apply N. constructor.
  - destruct w as [|c w]; [congruence|]. cbn [length Nat.add read_tokens]. unfold read_token. rewrite token_skip_spaces by auto.
    inversion F as [|? ? F1 F2]; subst. cbn [token_skip app]. rewrite F1.
    rewrite token_body_word by auto. simpl. f_equal. apply IH.
Qed.
Theorem C50_every_file : forall fd, exists ts, words fd ts.
Proof. exact words_total. Qed.

(** ** [split] and [read_list] *)
Lemma split_aux_word : forall w cur s r, Forall (fun c => isspace c = false) w -> isspace s = true -> cur <> [] \/ w <> [] ->
  split_aux isspace cur (w ++ s :: r) = (rev cur ++ w) :: split_aux isspace [] r.
Proof.
  induction w as [|c w IH]; intros cur s r F Hs D; simpl.
  - rewrite Hs. destruct cur as [|x cur]; [destruct D; congruence|]. rewrite app_nil_r. reflexivity.
  - inversion F as [|? ? F1 F2]; subst. rewrite F1, (IH (c :: cur) s r); auto; [|left; discriminate].
    simpl. rewrite <- app_assoc. reflexivity.
Qed.
Lemma split_aux_last : forall w cur, Forall (fun c => isspace c = false) w -> cur <> [] \/ w <> [] ->
  split_aux isspace cur w = [rev cur ++ w].
Proof.
  induction w as [|c w IH]; intros cur F D; simpl.
  - destruct cur as [|x cur]; [destruct D; congruence|]. rewrite app_nil_r. reflexivity.
  - inversion F as [|? ? F1 F2]; subst. rewrite F1, (IH (c :: cur)); auto; [|left; discriminate].
    simpl. rewrite <- app_assoc. reflexivity.
Qed.
Lemma split_spaces : forall ws s, spaces ws -> split_aux isspace [] (ws ++ s) = split_aux isspace [] s.
Proof. intros ws s H. induction H; simpl; auto. rewrite H. auto. Qed.
Lemma split_words : forall s ts, words s ts -> split isspace s = ts.
Proof.
  unfold split. intros s ts H. induction H as [ws W|ws w W Hw F|ws w s r ts W Hw F Hs H IH].
  - rewrite <- (app_nil_r ws), split_spaces; auto.
  - rewrite split_spaces, split_aux_last; auto.
  - rewrite split_spaces, split_aux_word; auto. simpl. f_equal. auto.
Qed.
Section ReadList.
Variable V : Type.
Variable dtype : str -> option V.
(** [row] are the converted words of [line]. *)
Definition row_of (line : str) (row : list V) : Prop :=
  exists ts, words line ts /\ Forall2 (fun t v => dtype t = Some v) ts row.
Lemma convert_row : forall line row, row_of line row -> convert dtype (split isspace line) = Some row.
Proof.
  intros line row (ts & W & F). rewrite (split_words W). clear W. induction F; simpl; auto. rewrite H, IHF. reflexivity.
Qed.
Lemma read_list_gen : forall lines rows post n ii vals fd, lines_of fd (lines ++ post) -> Forall2 row_of lines rows ->
  (forall k, k < length rows -> ii + length (concat (firstn k rows)) < n) ->
  ii + length (concat rows) >= n -> forall fuel, length lines < fuel ->
  read_list_loop isspace dtype fuel n ii vals fd =
  if ii + length (concat rows) =? n then Ok (vals ++ rows, concat post) else Err ValueError.
Proof.
  induction lines as [|l lines IH]; intros rows post n ii vals fd Hl F Hk Hn fuel Hf; (destruct fuel as [|fuel]; [simpl in Hf; lia|]);
    cbn [read_list_loop].
  - inversion F; subst. simpl in Hn. simpl. rewrite Nat.add_0_r in *. destruct (Nat.ltb_spec ii n); [lia|].
    assert (C : fd = concat post). 
    { clear -Hl. simpl in Hl. induction Hl; simpl; auto; [rewrite app_nil_r; auto|]. rewrite <- IHHl, <- app_assoc. reflexivity. }
    destruct (Nat.ltb_spec n ii), (Nat.eqb_spec ii n); try lia; auto. rewrite app_nil_r, <- C. reflexivity.
  - inversion F as [|? row ? rows' F1 F2]; subst. assert (H0 := Hk 0 ltac:(simpl; lia)). simpl in H0.
    destruct (Nat.ltb_spec ii n); [|lia].
    destruct (lines_read Hl) as [[_ ?]|(l' & ls & E & Hne & Er & Hls & Hlen)]; [discriminate|]. inversion E; subst.
    rewrite Er, (convert_row F1). rewrite (IH rows' post n (ii + length row) (vals ++ [row])); auto.
    + rewrite <- app_assoc. simpl. rewrite app_length, Nat.add_assoc. reflexivity.
    + intros k Hlt. assert (H1 := Hk (S k) ltac:(simpl; lia)). simpl in H1. rewrite app_length in H1. lia.
    + simpl in Hn. rewrite app_length in Hn. lia.
    + simpl in Hf. lia.
Qed.
(** [lines] are the first lines with at least [n] items together: they are read,
    and it is an error if there are more items. *)
Theorem C85_read_list : forall fd lines post rows n, lines_of fd (lines ++ post) -> Forall2 row_of lines rows ->
  (forall k, k < length rows -> length (concat (firstn k rows)) < n) -> n <= length (concat rows) ->
  forall fuel, length lines < fuel ->
  read_list isspace dtype fuel n fd = if length (concat rows) =? n then Ok (rows, concat post) else Err ValueError.
Proof. intros fd lines post rows n H1 H2 H3 H4 fuel Hf. unfold read_list. rewrite (@read_list_gen lines rows post n 0 [] fd H1 H2); auto. Qed.
(** With less than [n] items in the file, the reading never ends. *)
Theorem C85_eof_refuted : forall fd lines rows n, lines_of fd lines -> Forall2 row_of lines rows ->
  length (concat rows) < n -> forall fuel, read_list isspace dtype fuel n fd = Err OutOfFuel.
Proof.
  intros fd lines rows n. unfold read_list. generalize (@nil (list V)). intros vals.
  assert (G : forall lines rows ii vals fd, lines_of fd lines -> Forall2 row_of lines rows ->
    ii + length (concat rows) < n -> forall fuel, read_list_loop isspace dtype fuel n ii vals fd = Err OutOfFuel).
  { clear. induction lines as [|l lines IH]; intros rows ii vals fd Hl F Hn fuel.
    - destruct (lines_read Hl) as [[-> _]|(l' & ls & E & _)]; [|discriminate]. inversion F; subst. simpl in Hn.
      clear Hl F. revert ii vals Hn. induction fuel as [|fuel IHf]; intros ii vals Hn; auto. cbn [read_list_loop readline].
      destruct (Nat.ltb_spec ii n); [|lia]. simpl. apply IHf. lia.
    - destruct fuel as [|fuel]; auto. cbn [read_list_loop].
      destruct (lines_read Hl) as [[_ ?]|(l' & ls & E & Hne & Er & Hls & Hlen)]; [discriminate|]. inversion E; subst.
      inversion F as [|? row ? rows' F1 F2]; subst. simpl in Hn. rewrite app_length in Hn.
      destruct (Nat.ltb_spec ii n); [|lia]. rewrite Er, (convert_row F1). apply (IH rows'); auto. lia. }
  intros H1 H2 H3 fuel. eapply G; eauto.
Qed.
End ReadList.
End Text.

(** ** Sparse matrices *)
Section Sparse.
Variable V : Type.
Variables (v0 v1 : V) (add mul : V -> V -> V).
Hypothesis SR : semi_ring_theory v0 v1 add mul eq.
(** The meaning of the arrays. *)
Definition entry (m : smat V) (i j : nat) : V :=
  match s_fmt m with
  | CSR => csr_entry v0 add (s_indptr m) (s_indices m) (s_data m) i j
  | CSC => csr_entry v0 add (s_indptr m) (s_indices m) (s_data m) j i
  end.
Definition major (m : smat V) : nat := match s_fmt m with CSR => s_nr m | CSC => s_nc m end.
Definition wf_smat (m : smat V) : Prop := wf_csr (major m) (s_indptr m) (s_indices m) /\ length (s_data m) = length (s_indices m).
(** [sort_indices()] permutes the items of each row (column). *)
Definition row_items (m : smat V) (i : nat) : list (nat * V) :=
  map (fun k => (nth k (s_indices m) 0, nth k (s_data m) v0)) (seq (nth i (s_indptr m) 0) (nth (S i) (s_indptr m) 0 - nth i (s_indptr m) 0)).
Definition sorts (f : smat V -> smat V) : Prop := forall m,
  s_fmt (f m) = s_fmt m /\ s_nr (f m) = s_nr m /\ s_nc (f m) = s_nc m /\ s_indptr (f m) = s_indptr m /\
  forall i, Permutation (row_items (f m) i) (row_items m i) /\ StronglySorted le (map fst (row_items (f m) i)).
Variable sort_indices : smat V -> smat V.
Hypothesis Hsort : sorts sort_indices.
Lemma entry_items : forall m i j, csr_entry v0 add (s_indptr m) (s_indices m) (s_data m) i j =
  lsum v0 add (map (fun p => ind v0 (Nat.eqb (fst p) j) (snd p)) (row_items m i)).
Proof. intros. unfold csr_entry, row_items. rewrite map_map. reflexivity. Qed.
Lemma sort_entry : forall m i j, entry (sort_indices m) i j = entry m i j.
Proof.
  intros m i j. destruct (Hsort m) as (H1 & H2 & H3 & H4 & H5). unfold entry. rewrite H1.
  destruct (s_fmt m); rewrite !entry_items; apply (lsum_perm _ _ _ _ _ SR), Permutation_map, H5.
Qed.
(** Reading in the stored format gives the stored matrix. *)
Theorem C48_same_format_partial : forall m o, wf_smat m -> o = None \/ o = Some (s_fmt m) ->
  exists m', read_sparse sort_indices (write_sparse m) o = Ok m' /\
    s_fmt m' = s_fmt m /\ s_nr m' = s_nr m /\ s_nc m' = s_nc m /\ forall i j, entry m' i j = entry m i j.
Proof.
  intros m o [[W _] _] Ho.
  assert (E : construct (s_fmt m) (s_data m) (s_indices m) (s_indptr m) (s_nr m, s_nc m) = Ok m).
  { unfold construct, major in *. destruct m as [f nr nc da ix ip]; simpl in *. rewrite W.
    destruct f; rewrite Nat.eqb_refl; reflexivity. }
  destruct Ho as [-> | ->]; unfold read_sparse, write_sparse; simpl; rewrite E; simpl; eexists; (split; [reflexivity|]); auto.
  destruct (Hsort m) as (H1 & H2 & H3 & H4 & H5). repeat split; auto. intros. apply sort_entry.
Qed.
(** Reading in the other format transposes square matrices and fails for the others. *)
Theorem C48_other_format_refuted : forall m f, wf_smat m -> f <> s_fmt m ->
  (s_nr m = s_nc m -> exists m', read_sparse sort_indices (write_sparse m) (Some f) = Ok m' /\ s_fmt m' = f /\
     forall i j, entry m' i j = entry m j i) /\
  (s_nr m <> s_nc m -> read_sparse sort_indices (write_sparse m) (Some f) = Err ValueError).
Proof.
  intros m f [[W _] _] Hf. unfold read_sparse, write_sparse, construct, major in *. simpl. split.
  - intros En. set (m' := mksm f (s_nr m) (s_nc m) (s_data m) (s_indices m) (s_indptr m)).
    assert (E : (length (s_indptr m) =? S (match f with CSR => s_nr m | CSC => s_nc m end)) = true).
    { apply Nat.eqb_eq. rewrite W. destruct f, (s_fmt m); congruence. }
    rewrite E. simpl. eexists. split; [reflexivity|]. destruct (Hsort m') as (H1 & _). split; auto.
    intros i j. rewrite sort_entry. unfold entry, m'. simpl. destruct f, (s_fmt m); congruence.
  - intros En. assert (E : (length (s_indptr m) =? S (match f with CSR => s_nr m | CSC => s_nc m end)) = false).
    { apply Nat.eqb_neq. rewrite W. destruct f, (s_fmt m); congruence. }
    rewrite E. reflexivity.
Qed.
End Sparse.
(** ** Examples *)
Definition ascii_space (c : nat) : bool := ((9 <=? c) && (c <=? 13)) || ((28 <=? c) && (c <=? 32)).
(** "# a\n  1 2 \n3" *)
Example C49_ex : skip_read_line ascii_space false [35; 32; 97; 10; 32; 32; 49; 32; 50; 32; 10; 51] = Ok ([49; 32; 50], [51]) /\
  skip_read_line ascii_space false [35; 32; 97; 10] = Ok ([35; 32; 97], []) /\
  lines_of [35; 32; 97; 10] [[35; 32; 97; 10]] /\ ~ data_line ascii_space [35; 32; 97; 10] /\ comment ascii_space [35; 32; 97; 10].
Proof.
  split; [reflexivity|]. split; [reflexivity|]. split; [apply (@lo_cons [35; 32; 97] [] []); [simpl; intuition discriminate|constructor]|].
  assert (C : comment ascii_space [35; 32; 97; 10]) by (exists [], [32; 97; 10]; split; [constructor|reflexivity]).
  split; auto. intros [_ H]. auto.
Qed.
Example C50_ex : read_tokens ascii_space 4 [32; 49; 50; 10; 10; 51; 9] = [[49; 50]; [51]; []; []].
Proof. reflexivity. Qed.
Definition digit (s : str) : option nat := match s with [c] => if (48 <=? c) && (c <=? 57) then Some (c - 48) else None | _ => None end.
Example C85_ex : read_list ascii_space digit 10 3 [49; 32; 50; 10; 51; 10; 52] = Ok ([[1; 2]; [3]], [52]) /\
  read_list ascii_space digit 10 2 [49; 32; 50; 32; 51; 10] = Err ValueError /\
  read_list ascii_space digit 1000 5 [49; 32; 50; 10] = Err OutOfFuel.
Proof. repeat split; reflexivity. Qed.
(** Transposed: [[0, 1], [0, 0]] is read as [[0, 0], [1, 0]] (integers; the matrix is sorted already). *)
Example C48_ex : let m := mksm CSR 2 2 [1%Z] [1] [0; 1; 1] in
  wf_smat m /\ entry 0%Z Z.add m 0 1 = 1%Z /\
  (exists m', read_sparse (fun m => m) (write_sparse m) (Some CSC) = Ok m' /\ entry 0%Z Z.add m' 0 1 = 0%Z /\ entry 0%Z Z.add m' 1 0 = 1%Z).
Proof.
  split; [split; [split; [reflexivity|split; [|reflexivity]]|reflexivity]|].
  - intros i j Hij. unfold major in Hij; simpl in Hij. do 3 (destruct i as [|i]; [do 3 (destruct j as [|j]; [simpl; lia|]); exfalso; lia|]). exfalso; lia.
  - split; [reflexivity|]. eexists. split; [reflexivity|]. split; reflexivity.
Qed.
Print Assumptions C49_first_line.
Print Assumptions C50_tokens.
Print Assumptions C85_read_list.
Print Assumptions C48_same_format_partial.
