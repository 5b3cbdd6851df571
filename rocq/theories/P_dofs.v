(** Theorems C01, C02, C09. *)
From Coq Require Import String Relations.
From Verif Require Import Base M_dofs S_dofs L_dofinfo L_expand L_chains.
Open Scope nat_scope.

(** C01: after any sequence of append calls that raised no exception
    - the slices of the variables with own DOFs are consecutive, in the order
      of the calls, starting at 0, and their end is the total DOF count;
    - a shared variable has the slice and the size of the one it refers to;
    - appending a present name raises ValueError, a new one succeeds. *)
Theorem C01_layout : forall ops di, di_run di_empty ops = Ok di ->
  map (fun o => dget (di_indx di) (op_name o)) (owners ops)
    = map Some (slices_from 0 (map op_size (owners ops))) /\
  di_total di = sum (map op_size (owners ops)) /\
  (forall o, In o (owners ops) -> dget (di_ndof di) (op_name o) = Some (op_size o)) /\
  (forall nm n sh, In (nm, n, Some sh) ops ->
     exists s e, dget (di_indx di) nm = Some (s, e) /\ dget (di_indx di) sh = Some (s, e) /\
       dget (di_ndof di) nm = Some (e - s) /\ dget (di_ndof di) sh = Some (e - s)) /\
  di_names di = map op_name ops /\ di_n_var di = length ops.
Proof.
  intros ops di H. apply di_run_inv in H.
  split; [apply (inv_own H)|]. split; [apply (inv_total H)|]. split; [apply (inv_size H)|].
  split; [|split; [apply (inv_names H)|apply (inv_nvar H)]].
  intros nm n sh Hin. destruct (inv_shared H _ _ _ Hin) as (s & e & H1 & H2 & H3 & H4 & _). exists s, e. auto.
Qed.

(** ... hence every DOF number below the total belongs to exactly one variable. *)
Theorem C01_partition : forall ops di, di_run di_empty ops = Ok di -> forall x,
  (x < di_total di <->
   exists o s e, In o (owners ops) /\ dget (di_indx di) (op_name o) = Some (s, e) /\ s <= x < e) /\
  (forall o1 o2 s1 e1 s2 e2, In o1 (owners ops) -> In o2 (owners ops) ->
     dget (di_indx di) (op_name o1) = Some (s1, e1) -> dget (di_indx di) (op_name o2) = Some (s2, e2) ->
     s1 <= x < e1 -> s2 <= x < e2 -> o1 = o2).
Proof. exact di_partition. Qed.

Theorem C01_errors : forall ops di nm n sh, di_run di_empty ops = Ok di ->
  (In nm (map op_name ops) -> di_append di nm n sh = Err ValueError) /\
  (~ In nm (map op_name ops) -> (forall s, sh = Some s -> In s (map op_name ops)) ->
     exists di', di_append di nm n sh = Ok di').
Proof. intros. split; intros; [eapply di_append_dup|eapply di_append_ok]; eauto. Qed.

Open Scope string_scope.
Example C01_ex :
  match di_run di_empty [("u", 6, None); ("p", 4, None); ("q", 0, Some "u"); ("T", 3, None)] with
  | Ok di => (di_total di, dget (di_indx di) "T", dget (di_indx di) "q") = (13, Some (10, 13), Some (0, 6))
  | Err _ => False
  end.
Proof. vm_compute. reflexivity. Qed.
Close Scope string_scope.
Open Scope nat_scope.

(** C02 *)
Theorem C02_expand : forall junk nods dofs all eq,
  expand_nodes_to_equations junk nods dofs all = Ok eq ->
  length eq = length nods * length dofs /\
  (forall k i, k < length nods -> i < length dofs ->
    exists p, p < length all /\ nth p all EmptyString = nth i dofs EmptyString /\
      (forall q, q < p -> nth q all EmptyString <> nth i dofs EmptyString) /\
      nth (k * length dofs + i) eq 0 = length all * nth k nods 0 + p) /\
  (NoDup nods -> NoDup dofs -> NoDup eq) /\
  (forall n_nod, (forall n, In n nods -> n < n_nod) -> forall x, In x eq -> x < n_nod * length all).
Proof.
  intros junk nods dofs all eq H. pose proof (expand_spec _ _ _ _ H) as [H1 H2].
  split; auto. split.
  - intros k i Hk Hi. destruct (H2 k i Hk Hi) as (p & Hp & E). apply index_of_spec in Hp.
    exists p. intuition.
  - split; [intros; eapply expand_NoDup; eauto|]. intros; eapply expand_bound; eauto.
Qed.

(** The expansion succeeds iff all the DOF names exist, whatever the initial
    content of the output array. *)
Theorem C02_total : forall junk nods dofs all,
  (exists eq, expand_nodes_to_equations junk nods dofs all = Ok eq) <-> (forall d, In d dofs -> In d all).
Proof. exact expand_ok_iff. Qed.

Theorem C02_dofs : forall junk nods all, NoDup all ->
  expand_nodes_to_equations junk nods all all = Ok (concat (expand_nodes_to_dofs nods (length all))).
Proof. exact expand_agree. Qed.

Example C02_ex : expand_nodes_to_equations 99 [2; 0; 5] ["u.2"%string; "u.0"%string] ["u.0"%string; "u.1"%string; "u.2"%string]
  = Ok [8; 6; 2; 0; 17; 15].
Proof. reflexivity. Qed.

(** C09: whatever the iteration order [ord] of Python sets; [None] is the
    exhaustion of the model's recursion bound: it never happens. *)
Theorem C09_components : forall ord, (forall l, Permutation (ord l) l) -> forall pairs,
  exists gs, group_chains ord pairs = Some gs /\ NoDup (concat gs) /\ (forall g, In g gs -> g <> []) /\
    forall x y, (exists g, In g gs /\ In x g /\ In y g) <->
                (touched pairs x /\ touched pairs y /\ linked pairs x y).
Proof.
  intros ord Hord pairs. destruct (group_chains_ok ord Hord pairs) as (gs & H & G). exists gs.
  split; [exact H|]. split; [apply (gs_nodup G)|]. split; [apply (gs_nonempty G)|apply (gs_same G)].
Qed.

Example C09_ex : group_chains (fun l => l) [(0, 1); (5, 6); (2, 3); (1, 2); (6, 6)] = Some [[0; 1; 2; 3]; [5; 6]].
Proof. reflexivity. Qed.

Print Assumptions C01_layout.
Print Assumptions C01_partition.
Print Assumptions C01_errors.
Print Assumptions C02_expand.
Print Assumptions C02_total.
Print Assumptions C02_dofs.
Print Assumptions C09_components.
