(** Theorems C11-C14, C51: connectivities, assembling, the matrix graph.
    Arithmetic is that of any commutative semiring (so it holds in exact real
    or complex arithmetic, not for rounded floats). *)
From Coq Require Import String.
From Verif Require Import Base BaseSum M_dofs S_dofs S_eqmap S_matrix M_assemble S_assemble
  L_eqfin L_eqmain L_operator L_assemble L_adof.
Open Scope nat_scope.

(** C11 *)
Theorem C11_adof_conn : forall eq conn dpn offset e k i n_ep,
  (forall row, In row conn -> length row = n_ep) -> e < length conn -> k < n_ep -> i < dpn -> (0 <= offset)%Z ->
  let adc := create_adof_conn eq conn dpn offset in
  let a := nth (i * n_ep + k) (nth e adc []) 0%Z in
  let q := nth (dpn * nth k (nth e conn []) 0 + i) eq 0%Z in
  length adc = length conn /\ length (nth e adc []) = dpn * n_ep /\
  ((0 <= q)%Z -> a = (q + offset)%Z) /\ ((q < 0)%Z -> (a < 0)%Z).
Proof.
  intros eq conn dpn offset e k i n_ep Hrow He Hk Hi Hoff.
  destruct (adof_nth eq conn dpn offset e k i n_ep He (Hrow _ (nth_In _ _ He)) Hk Hi) as (H1 & H2 & H3).
  cbv zeta. rewrite H3. split; [exact H1|]. split; [exact H2|]. unfold shift.
  destruct (Z.leb_spec 0 (nth (dpn * nth k (nth e conn []) 0 + i) eq 0%Z)); split; intros; lia.
Qed.
Example C11_ex : create_adof_conn [0; 1; -2; 2; 3; -2; 4; 5]%Z [[0; 1; 3]; [2; 3; 1]] 2 10
  = [[10; -2; 14; 11; 12; 15]; [13; 14; -2; -2; 15; 12]]%Z.
Proof. reflexivity. Qed.

(** C12: [vec_contribs] lists all pairs (DOF, value) of the assembled cells. *)
Theorem C12_scatter_add : forall V (v0 v1 : V) add mul, semi_ring_theory v0 v1 add mul eq ->
  forall vec els iels sign conn,
  let out := assemble_vector v0 add mul vec els iels sign conn in
  length out = length vec /\
  forall i, i < length vec -> nth i out v0 =
    add (nth i vec v0)
        (lsum v0 add (map (fun p => ind v0 (Z.eqb (fst p) (Z.of_nat i)) (mul sign (snd p))) (vec_contribs conn iels els))).
Proof. intros. eapply asm_vec_spec; eauto. Qed.

Theorem C12_order : forall V (v0 v1 : V) add mul, semi_ring_theory v0 v1 add mul eq ->
  forall vec els1 iels1 els2 iels2 sign conn,
  Permutation (combine iels1 els1) (combine iels2 els2) ->
  assemble_vector v0 add mul vec els1 iels1 sign conn = assemble_vector v0 add mul vec els2 iels2 sign conn.
Proof. intros. eapply asm_vec_perm; eauto. Qed.

Example C12_ex : assemble_vector 0%Z Z.add Z.mul [100; 200; 300]%Z [[1; 2]; [3; 4]; [5; 6]]%Z [1; 0; 1] (-1)%Z [[0; 1]; [2; -1]]%Z
  = [97; 196; 294]%Z.
Proof. reflexivity. Qed.

(** C13, linear search variant: [in_pattern] / [csr_entry] are the pattern and
    the dense entries of the CSR matrix. *)
Theorem C13_error : forall V (v0 : V) add mul nr prows cols data els iels sign rconn cconn,
  wf_csr nr prows cols ->
  (forall p, In p (mtx_contribs rconn cconn iels els) -> (fst (fst p) < Z.of_nat nr)%Z) ->
  let out := assemble_matrix v0 add mul (find_lin prows cols) data els iels sign rconn cconn in
  ((exists d, out = Ok d) <->
   (forall p, In p (mtx_contribs rconn cconn iels els) -> (0 <= fst (fst p))%Z -> (0 <= snd (fst p))%Z ->
      in_pattern prows cols (Z.to_nat (fst (fst p))) (Z.to_nat (snd (fst p))))) /\
  (forall e, out = Err e -> e = IndexError).
Proof.
  intros V v0 add mul nr prows cols data els iels sign rconn cconn W Hb out.
  unfold out. rewrite asm_mtx_flat. split.
  - rewrite scat2_ok. split.
    + intros H p Hp H1 H2. apply (find_lin_none nr); auto.
      * specialize (Hb p Hp). lia.
      * apply H; auto. split; auto.
    + intros H p Hp [H1 H2]. apply (find_lin_none nr); auto. specialize (Hb p Hp). lia.
  - intros e He. eapply scat2_indexerror; eauto.
Qed.

Theorem C13_value : forall V (v0 v1 : V) add mul, semi_ring_theory v0 v1 add mul eq ->
  forall nr prows cols data els iels sign rconn cconn data',
  wf_csr nr prows cols -> length data = length cols ->
  (forall p, In p (mtx_contribs rconn cconn iels els) -> (fst (fst p) < Z.of_nat nr)%Z) ->
  assemble_matrix v0 add mul (find_lin prows cols) data els iels sign rconn cconn = Ok data' ->
  length data' = length data /\
  forall i j, i < nr -> csr_entry v0 add prows cols data' i j =
    add (csr_entry v0 add prows cols data i j)
        (lsum v0 add (map (fun p => ind v0 (Z.eqb (fst (fst p)) (Z.of_nat i) && Z.eqb (snd (fst p)) (Z.of_nat j))
                                    (mul sign (snd p))) (mtx_contribs rconn cconn iels els))).
Proof.
  intros V v0 v1 add mul SR nr prows cols data els iels sign rconn cconn data' W Hl Hb H.
  rewrite asm_mtx_flat in H. eapply scat2_spec; eauto.
  - apply find_lin_good; auto.
  - intros p Hp [H1 H2]. specialize (Hb p Hp). lia.
Qed.

(** Binary search variant (used for rows of 100 or more items): the same
    result as the linear search if all the active items are in the pattern;
    [junk] is the value read past the end of [cols]. *)
Theorem C13_bsearch_partial : forall V (v0 : V) add mul junk nr prows cols data els iels sign rconn cconn,
  wf_csr nr prows cols -> sorted_csr nr prows cols ->
  (forall p, In p (mtx_contribs rconn cconn iels els) -> (fst (fst p) < Z.of_nat nr)%Z) ->
  (forall p, In p (mtx_contribs rconn cconn iels els) -> (0 <= fst (fst p))%Z -> (0 <= snd (fst p))%Z ->
     in_pattern prows cols (Z.to_nat (fst (fst p))) (Z.to_nat (snd (fst p)))) ->
  assemble_matrix v0 add mul (find_b junk prows cols) data els iels sign rconn cconn =
  assemble_matrix v0 add mul (find_lin prows cols) data els iels sign rconn cconn.
Proof.
  intros V v0 add mul junk nr prows cols data els iels sign rconn cconn W S Hb Hin.
  rewrite !asm_mtx_flat. apply fold_left_ext. intros a p Hp. unfold scat2, asm_item.
  destruct (Z.ltb_spec (fst (fst p)) 0); auto. destruct a as [d|]; auto.
  destruct (Z.ltb_spec (snd (fst p)) 0); auto.
  rewrite (find_b_lin junk nr); auto. specialize (Hb p Hp). lia.
Qed.

Example C13_ex : wf_csr 2 [0; 2; 4] [0; 1; 0; 1] /\
  assemble_matrix 0%Z Z.add Z.mul (find_lin [0; 2; 4] [0; 1; 0; 1]) [0; 0; 0; 0]%Z
    [[[1; 2]; [3; 4]]; [[5; 6]; [7; 8]]]%Z [0; 1] 1%Z [[0; 1]; [1; -1]]%Z [[0; 1]; [1; -1]]%Z = Ok [1; 2; 3; 9]%Z.
Proof.
  split; [|reflexivity]. split; [auto|]. split; auto.
  intros i j [H1 H2]. destruct j as [|[|[|]]]; [| | |lia]; destruct i as [|[|[|]]]; simpl; lia.
Qed.

(** For an item missing in the pattern the binary search variant does not
    raise: it adds the contribution of the item (0, 1) to the first item of
    the next row, because the upper bound of the search is inclusive. *)
Theorem C13_bsearch_refuted :
  let prows := [0; 1; 3] in let cols := [0; 1; 2] in
  wf_csr 2 prows cols /\ sorted_csr 2 prows cols /\ ~ in_pattern prows cols 0 1 /\
  assemble_matrix 0%Z Z.add Z.mul (find_b 99 prows cols) [0; 0; 0]%Z [[[5]]]%Z [0] 1%Z [[0]]%Z [[1]]%Z = Ok [0; 5; 0]%Z /\
  assemble_matrix 0%Z Z.add Z.mul (find_lin prows cols) [0; 0; 0]%Z [[[5]]]%Z [0] 1%Z [[0]]%Z [[1]]%Z = Err IndexError.
Proof.
  cbv zeta. split; [|split; [|split; [|split; reflexivity]]].
  - split; [auto|]. split; auto. intros i j [H1 H2]. destruct j as [|[|[|]]]; [| | |lia]; destruct i as [|[|[|]]]; simpl; lia.
  - intros i a b Hi. destruct i as [|[|]]; simpl; [| |lia]; intros.
    + lia.
    + assert (a = 1) by lia. assert (b = 2) by lia. subst. simpl. lia.
  - intros (ik & H & E). simpl in H. assert (ik = 0) by lia. subst ik. simpl in E. discriminate.
Qed.

(** C14: a test variable with the equation map [em1] and an unknown with [em2]
    (any conditions), placed at the offsets [roff], [coff] of the reduced and
    [froff], [fcoff] of the full system. *)
Theorem C14_vector : forall V (v0 v1 : V) add mul, semi_ring_theory v0 v1 add mul eq ->
  forall junk ord n names unused bcs em, (forall l, Permutation (ord l) l) ->
  map_equations v0 junk ord n names unused bcs = Ok em ->
  wf_bcs names bcs -> balanced names bcs \/ n_epbc bcs <= 2 ->
  forall conn dpn n_nod sign els iels roff foff Nr Nf,
  n = dpn * n_nod -> (forall row c, In row conn -> In c row -> c < n_nod) ->
  roff + em_neq em <= Nr -> foff + n <= Nf ->
  let red := assemble_vector v0 add mul (repeat v0 Nr) els iels sign (create_adof_conn (em_eq em) conn dpn (Z.of_nat roff)) in
  let full := assemble_vector v0 add mul (repeat v0 Nf) els iels sign
                (create_adof_conn (map Z.of_nat (seq 0 n)) conn dpn (Z.of_nat foff)) in
  firstn (em_neq em) (skipn roff red) =
  mat_vec v0 add mul (em_neq em) n (transp (coo_ones v0 v1 add (get_operator em))) (firstn n (skipn foff full)).
Proof.
  intros V v0 v1 add mul SR junk ord n names unused bcs em Hord Hmap Hwf Hreg.
  intros. eapply adof_vec; eauto. exact (m_ok V v0 junk ord n names unused bcs em Hord Hmap Hwf Hreg).
Qed.

Theorem C14_matrix : forall V (v0 v1 : V) add mul, semi_ring_theory v0 v1 add mul eq ->
  forall junk ord n1 names1 un1 bcs1 em1 n2 names2 un2 bcs2 em2, (forall l, Permutation (ord l) l) ->
  map_equations v0 junk ord n1 names1 un1 bcs1 = Ok em1 ->
  wf_bcs names1 bcs1 -> balanced names1 bcs1 \/ n_epbc bcs1 <= 2 ->
  map_equations v0 junk ord n2 names2 un2 bcs2 = Ok em2 ->
  wf_bcs names2 bcs2 -> balanced names2 bcs2 \/ n_epbc bcs2 <= 2 ->
  forall rconn cconn dpr dpc nnr nnc sign els iels roff coff froff fcoff nr prows cols fnr fprows fcols red full,
  n1 = dpr * nnr -> n2 = dpc * nnc ->
  (forall row c, In row rconn -> In c row -> c < nnr) -> (forall row c, In row cconn -> In c row -> c < nnc) ->
  wf_csr nr prows cols -> roff + em_neq em1 <= nr -> wf_csr fnr fprows fcols -> froff + n1 <= fnr ->
  assemble_matrix v0 add mul (find_lin prows cols) (repeat v0 (length cols)) els iels sign
     (create_adof_conn (em_eq em1) rconn dpr (Z.of_nat roff)) (create_adof_conn (em_eq em2) cconn dpc (Z.of_nat coff)) = Ok red ->
  assemble_matrix v0 add mul (find_lin fprows fcols) (repeat v0 (length fcols)) els iels sign
     (create_adof_conn (map Z.of_nat (seq 0 n1)) rconn dpr (Z.of_nat froff))
     (create_adof_conn (map Z.of_nat (seq 0 n2)) cconn dpc (Z.of_nat fcoff)) = Ok full ->
  forall i j, i < em_neq em1 -> j < em_neq em2 ->
  csr_entry v0 add prows cols red (roff + i) (coff + j) =
  sandwich v0 add mul n1 n2 (coo_ones v0 v1 add (get_operator em1))
    (fun k l => csr_entry v0 add fprows fcols full (froff + k) (fcoff + l))
    (coo_ones v0 v1 add (get_operator em2)) i j.
Proof.
  intros V v0 v1 add mul SR junk ord n1 names1 un1 bcs1 em1 n2 names2 un2 bcs2 em2 Hord M1 W1 R1 M2 W2 R2.
  intros. eapply (adof_mtx V v0 v1 add mul SR n1 n2); try eassumption.
  - exact (m_ok V v0 junk ord n1 names1 un1 bcs1 em1 Hord M1 W1 R1).
  - exact (m_ok V v0 junk ord n2 names2 un2 bcs2 em2 Hord M2 W2 R2).
  - apply find_lin_good; auto.
  - apply find_lin_good; auto.
Qed.

(** A 1D mesh of 3 cells, the last node tied to the first, node 1 fixed. *)
Notation u1 := ["u.0"%string].
Definition ex14 : list (bcond Z) := [Epbc true [0] [3] [0] [0] u1 u1; Ebc true [1] u1 (Some [7%Z])].
Example C14_ex :
  match map_equations 0%Z 99 (fun l => l) 4 u1 [] ex14 with
  | Ok em =>
      em_eq em = [1; -2; 0; 1]%Z /\
      assemble_matrix 0%Z Z.add Z.mul (find_lin [0; 2; 4] [0; 1; 0; 1]) [0; 0; 0; 0]%Z
        [[[1; -1]; [-1; 1]]; [[1; -1]; [-1; 1]]; [[1; -1]; [-1; 1]]]%Z [0; 1; 2] 1%Z
        (create_adof_conn (em_eq em) [[0; 1]; [1; 2]; [2; 3]] 1 0) (create_adof_conn (em_eq em) [[0; 1]; [1; 2]; [2; 3]] 1 0)
      = Ok [2; -1; -1; 2]%Z
  | Err _ => False
  end.
Proof. vm_compute. auto. Qed.

(** C51: the matrix graph contains exactly the pairs of active DOFs of the
    cells of the connectivity pairs (DOFs of block [ir] start at [roffs[ir]]);
    hence assembling with any of these pairs never raises IndexError. *)
Theorem C51_graph : forall chunk_size roffs coffs items nr, 2 <= chunk_size ->
  (forall rdc cdc b, In (rdc, cdc, b) items -> length rdc = length cdc) ->
  (forall rdc cdc ir ic r a, In (rdc, cdc, (ir, ic)) items -> In r rdc -> In a r -> (0 <= a)%Z ->
     (nth ir roffs 0 <= a < Z.of_nat nr)%Z) ->
  (forall rdc cdc ir ic c b, In (rdc, cdc, (ir, ic)) items -> In c cdc -> In b c -> (0 <= b)%Z -> (nth ic coffs 0 <= b)%Z) ->
  (forall ir, (0 <= nth ir roffs 0)%Z) -> (forall ic, (0 <= nth ic coffs 0)%Z) ->
  let g := create_matrix_graph chunk_size roffs coffs items in
  (forall i j, i < nr ->
     (in_pattern (csr_prows g nr) (csr_cols g nr) i j <->
      exists rdc cdc b r c, In (rdc, cdc, b) items /\ In (r, c) (combine rdc cdc) /\ In (Z.of_nat i) r /\ In (Z.of_nat j) c)) /\
  (forall V (v0 : V) add mul rdc cdc b data els iels sign, In (rdc, cdc, b) items ->
     exists d, assemble_matrix v0 add mul (find_lin (csr_prows g nr) (csr_cols g nr)) data els iels sign rdc cdc = Ok d).
Proof.
  intros chunk_size roffs coffs items nr Hcs Hl Hr Hc Hro Hco g.
  assert (HP : forall i j, i < nr ->
     (in_pattern (csr_prows g nr) (csr_cols g nr) i j <->
      exists rdc cdc b r c, In (rdc, cdc, b) items /\ In (r, c) (combine rdc cdc) /\ In (Z.of_nat i) r /\ In (Z.of_nat j) c)).
  { intros i j Hi. rewrite csr_in_pattern by auto. split.
    - intros (b & Hb & E). apply matrix_graph_in in Hb; auto.
      destruct Hb as (rdc & cdc & ir & ic & r & c & H1 & H2 & H3 & H4 & H5 & H6).
      exists rdc, cdc, (ir, ic), r, c. replace (Z.of_nat j) with b; auto. specialize (Hco ic). lia.
    - intros (rdc & cdc & (ir, ic) & r & c & H1 & H2 & H3 & H4). exists (Z.of_nat j). split; [|lia].
      apply matrix_graph_in; auto. exists rdc, cdc, ir, ic, r, c.
      repeat split; auto.
      + eapply Hr; eauto; [eapply in_combine_l; eauto|lia].
      + eapply Hc; eauto; [eapply in_combine_r; eauto|lia]. }
  split; auto.
  intros V v0 add mul rdc cdc b data els iels sign Hin. rewrite asm_mtx_flat. apply scat2_ok.
  intros [[a c] x] Hp [Ha Hc']. simpl in *.
  assert (HX : exists e r cc, In (r, cc) (combine rdc cdc) /\ nth e rdc [] = r /\ In a r /\ In c cc).
  { unfold mtx_contribs in Hp. apply in_concat in Hp. destruct Hp as (l & Hlc & Hp). apply in_map_iff in Hlc.
    destruct Hlc as ((e, v) & <- & He). simpl in Hp. apply in_concat in Hp. destruct Hp as (l & Hlc & Hp).
    apply in_map_iff in Hlc. destruct Hlc as ((q, row) & <- & Hq). apply in_map_iff in Hp.
    destruct Hp as ((c', x') & E & Hp). simpl in E. injection E as -> -> ->.
    apply in_combine_l in Hq. apply in_combine_l in Hp.
    assert (Hlen : length rdc = length cdc) by eauto.
    destruct (Nat.lt_ge_cases e (length rdc)) as [L|L].
    - exists e, (nth e rdc []), (nth e cdc []). split; auto.
      rewrite <- combine_nth by auto. apply nth_In. rewrite combine_length. lia.
    - rewrite nth_overflow in Hq by auto. destruct Hq. }
  destruct HX as (e & r & cc & H1 & _ & H2 & H3). destruct b as [ir ic].
  assert (Hrb : (nth ir roffs 0 <= a < Z.of_nat nr)%Z) by (eapply Hr; eauto; eapply in_combine_l; eauto).
  apply (find_lin_none nr); [apply csr_wf|lia|]. apply HP; [lia|].
  exists rdc, cdc, (ir, ic), r, cc. rewrite !Z2Nat.id by lia. auto.
Qed.

Example C51_ex :
  let items := [([[0; 1]; [1; -2]]%Z, [[0; 1]; [1; -2]]%Z, (0, 0)); ([[0; 1]; [1; -2]]%Z, [[2]; [3]]%Z, (0, 1))] in
  let g := create_matrix_graph 1000 [0; 2]%Z [0; 2]%Z items in
  csr_prows g 2 = [0; 3; 7] /\ csr_cols g 2 = [0; 1; 2; 0; 1; 2; 3].
Proof. vm_compute. auto. Qed.

Print Assumptions C11_adof_conn.
Print Assumptions C12_scatter_add.
Print Assumptions C12_order.
Print Assumptions C13_error.
Print Assumptions C13_value.
Print Assumptions C13_bsearch_partial.
Print Assumptions C13_bsearch_refuted.
Print Assumptions C14_vector.
Print Assumptions C14_matrix.
Print Assumptions C51_graph.
