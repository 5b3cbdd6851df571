(** Model of sfepy/discrete/fem/lcbc_operators.py: linear combination boundary conditions. Matrices are lists of
    (row, column, value), where repeated entries are summed (sparse COO; dense matrices with all their entries);
    exact reals. *)
From Coq Require Import Reals.
From Verif Require Import Base M_nls M_lagrange.
Set Implicit Arguments.
Open Scope nat_scope.

Notation triple := (nat * nat * R)%type.
(** (M @ v)[i] *)
Definition mulv (M : list triple) (v : nat -> R) (i : nat) : R :=
  fold_right Rplus 0%R (map (fun t => if fst (fst t) =? i then (snd t * v (snd (fst t)))%R else 0%R) M).

(** ** Operators: the attributes used by LCBCOperators.
    op_var, op_cvar: var_names[0], var_names[1] (variables are numbers; None for model reduction operators);
    op_ameq: ameq; op_mtx: mtx; op_rhs: rhs; op_nm: n_mdof; op_new: n_new_dof *)
Record lcop := mkOp { op_var : nat; op_cvar : option nat; op_ameq : list nat; op_mtx : list triple; op_rhs : option (list R); op_nm : nat; op_new : nat }.

(** ** LCBCOperators; [ns] are the numbers of active DOFs of the variables, in the order of adi.var_names. Shared
    DOFs are left out. *)
(** DofInfo.indx[name].start for the numbers of DOFs [ns] *)
Definition start (ns : list nat) (v : nat) : nat := list_sum (firstn v ns).
(** finalize, l.970-1002: sums over the operators of a variable *)
Definition of_var (ops : list lcop) (v : nat) : list lcop := filter (fun op => op_var op =? v) ops.
Definition n_master (ops : list lcop) (v : nat) : nat := list_sum (map op_nm (of_var ops v)).
Definition n_newv (ops : list lcop) (v : nat) : nat := list_sum (map op_new (of_var ops v)).
(** natural numbers: a negative n_free leads to a ValueError later, see make_global *)
Definition n_free (ns : list nat) (ops : list lcop) (v : nat) : nat := nth v ns 0 - n_master ops v.
Definition n_active (ns : list nat) (ops : list lcop) (v : nat) : nat := n_free ns ops v + n_newv ops v.
Definition actives (ns : list nat) (ops : list lcop) : list nat := map (n_active ns ops) (seq 0 (length ns)).
Definition frees (ns : list nat) (ops : list lcop) : list nat := map (n_free ns ops) (seq 0 (length ns)).
(** l.1054, 1071: irs = roff + op.ameq *)
Definition irs (ns : list nat) (op : lcop) : list nat := map (fun e => start ns (op_var op) + e) (op_ameq op).
(** l.1048-1055: lcbc_mask *)
Definition mask (ns : list nat) (ops : list lcop) (i : nat) : bool := negb (existsb (fun op => existsb (Nat.eqb i) (irs ns op)) ops).
(** l.1093: ii1 = where(lcbc_mask[adi.indx[var]]) *)
Definition unmasked (ns : list nat) (ops : list lcop) (v : nat) : list nat := filter (fun e => mask ns ops (start ns v + e)) (seq 0 (nth v ns 0)).
(** numpy.searchsorted(l, x) for an increasing list *)
Definition searchsorted (l : list nat) (x : nat) : nat := length (filter (fun y => y <? x) l).
(** l.1066-1101: the entries of the operator [op], the [ii]-th; [lcs] the starts of lcdi. l.1077-1079: the new columns
    of op follow those of the previous operators of the same variable *)
Definition new_start (ns : list nat) (ops : list lcop) (ii : nat) (op : lcop) : nat :=
  start (actives ns ops) (op_var op) + n_free ns ops (op_var op) + list_sum (map op_new (of_var (firstn ii ops) (op_var op))).
Definition op_entries (ns : list nat) (ops : list lcop) (ii : nat) (op : lcop) : list triple :=
  match op_cvar op with
  | None => map (fun t => (nth (fst (fst t)) (irs ns op) 0, new_start ns ops ii op + snd (fst t), snd t)) (op_mtx op)
  | Some cv => map (fun t => (start ns (op_var op) + fst (fst t), start (actives ns ops) cv + searchsorted (unmasked ns ops cv) (snd (fst t)), snd t)) (op_mtx op)
  end.
(** l.1061, 1103: vec_lc[irs] += op.get('rhs', 0); the values are read before any is written *)
Definition upd_at (f : nat -> R) (i : nat) (x : R) : nat -> R := fun k => if k =? i then x else f k.
Definition add_rhs (ns : list nat) (vec : nat -> R) (op : lcop) : nat -> R :=
  match op_rhs op with
  | None => vec
  | Some rhs => fold_left (fun f p => upd_at f (fst p) (vec (fst p) + snd p)%R) (combine (irs ns op) rhs) vec
  end.
Definition enum {A} (l : list A) : list (nat * A) := combine (seq 0 (length l)) l.
(** l.1004-1138 (make_global_operator), new_only=False: the matrix, the vector (zeros for None), the number of columns.
    coo_array fails when the numbers of rows and columns of the copied DOFs differ, l.1131 *)
Definition make_global (ns : list nat) (ops : list lcop) : res (list triple * (nat -> R) * nat) :=
  let n_dof := list_sum ns in
  let ir := filter (mask ns ops) (seq 0 n_dof) in
  let ic := flat_map (fun v => map (fun i => start (actives ns ops) v + i) (seq 0 (n_free ns ops v))) (seq 0 (length ns)) in
  if existsb (fun v => nth v ns 0 <? n_master ops v) (seq 0 (length ns)) then Err ValueError
  else if negb (length ir =? length ic) then Err ValueError
  else
    let M1 := flat_map (fun p => op_entries ns ops (fst p) (snd p)) (enum ops) in
    let M2 := map (fun p => (fst p, snd p, 1%R)) (combine ir ic) in
    Ok (M1 ++ M2, fold_left (add_rhs ns) ops (fun _ => 0%R), list_sum (actives ns ops)).

(** ** Model reduction operators: local matrices, rows in the node-by-node order *)
(** the entries of a dense matrix given by rows *)
Definition dense (rows : list (list R)) : list triple :=
  flat_map (fun i => map (fun j => (i, j, nth j (nth i rows []) 0%R)) (seq 0 (length (nth i rows [])))) (seq 0 (length rows)).
(** numpy: abs(x).argmax(), the first of the maxima *)
Fixpoint argmax_abs (best : nat) (bv : R) (i : nat) (l : list R) : nat :=
  match l with
  | [] => best
  | x :: l => if Rltb bv (Rabs x) then argmax_abs i (Rabs x) (S i) l else argmax_abs best bv (S i) l
  end.
Definition argmax (l : list R) : nat := match l with [] => 0 | x :: l => argmax_abs 0 (Rabs x) 1 l end.
(** NoPenetrationOperator, l.490-526: [normals] are the rows of the array *)
Definition no_penetration (dim : nat) (normals : list (list R)) : list triple :=
  flat_map (fun idim =>
    let ic := filter (fun n => argmax (nth n normals []) =? idim) (seq 0 (length normals)) in
    let ir := filter (fun k => negb (k =? idim)) (seq 0 dim) in
    flat_map (fun ik => map (fun n => (dim * n + idim, (dim - 1) * n + fst ik, (- nth (snd ik) (nth n normals []) 0 / nth idim (nth n normals []) 0)%R)) ic) (enum ir) ++
    flat_map (fun ik => map (fun n => (dim * n + snd ik, (dim - 1) * n + fst ik, 1%R)) ic) (enum ir)) (seq 0 dim).
(** NormalDirectionOperator, EdgeDirectionOperator, l.562-568 *)
Definition normal_direction (dim : nat) (vectors : list (list R)) : list triple :=
  let data := concat vectors in
  map (fun i => (i, nth i (flat_map (fun n => repeat n dim) (seq 0 (length vectors))) 0, nth i data 0%R)) (seq 0 (length data)).
(** IntegralMeanValueOperator, l.617-624 *)
Definition integral_mean_value (n : nat) : list triple := map (fun i => (i, 0, 1%R)) (seq 0 n).
(** _create_spin_matrix, l.99-118: one block *)
Definition spin (x : list R) : res (list (list R)) :=
  match x with
  | [x0; x1] => Ok [[(- x1)%R]; [x0]]
  | [x0; x1; x2] => Ok [[0%R; x2; (- x1)%R]; [(- x2)%R; 0%R; x0]; [x1; (- x0)%R; 0%R]]
  | _ => Err ValueError
  end.
Definition eye (dim : nat) : list (list R) := map (fun i => map (fun j => if j =? i then 1%R else 0%R) (seq 0 dim)) (seq 0 dim).
Definition hstack (A B : list (list R)) : list (list R) := map (fun p => fst p ++ snd p) (combine A B).
Fixpoint mapM {A B} (f : A -> res B) (l : list A) : res (list B) :=
  match l with [] => Ok [] | a :: l => do b <- f a; do bs <- mapM f l; Ok (b :: bs) end.
(** RigidOperator, l.136-150: [dofs] are the indices of dof_names in all_dof_names *)
Definition rigid (dim : nat) (coors : list (list R)) (dofs : list nat) : res (list (list R)) :=
  do sp <- mapM spin coors;
  let mtx := flat_map (fun s => hstack s (eye dim)) sp in
  Ok (flat_map (fun n => map (fun d => nth (dim * n + d) mtx []) dofs) (seq 0 (length coors))).
(** Rigid2Operator, l.196-215: with rotation [eye | spin] relative to the independent node, else eye *)
Definition vsub (x y : list R) : list R := map (fun p => (fst p - snd p)%R) (combine x y).
Definition rigid2 (dim : nat) (is_rotation : bool) (mcoors : list (list R)) (scoor : list R) : res (list (list R)) :=
  if is_rotation then
    do sp <- mapM (fun x => spin (vsub x scoor)) mcoors;
    Ok (flat_map (fun s => hstack (eye dim) s) sp)
  else Ok (flat_map (fun _ => eye dim) mcoors).
(** l.210-213: entries of a matrix of rows [meq] and columns [seq] *)
Definition place (meq seq_ : list nat) (rows : list (list R)) : list triple :=
  flat_map (fun p => map (fun q => (fst p, fst q, snd q)) (combine seq_ (snd p))) (combine meq rows).
(** RigidTwistOperator, l.421-436: [sgn] is -1 for the first region and 1 for the second; thread is added to all entries
    of the spin matrix *)
Definition dotl (a b : list R) : R := fold_right Rplus 0%R (map (fun p => (fst p * snd p)%R) (combine a b)).
Definition twist_block (dim : nat) (anchor axis : list R) (thread sgn : R) (x : list R) : res (list (list R)) :=
  do s <- spin (vsub x anchor);
  Ok (hstack (hstack (eye dim) s) (map (fun row => [(sgn * / 2 * dotl (map (fun e => e + thread) row) axis)%R]) s)).
Definition rigid_twist (dim : nat) (mcoors scoors : list (list R)) (anchor axis : list R) (thread : R) : res (list (list R)) :=
  do m <- mapM (twist_block dim anchor axis thread (-1)%R) mcoors;
  do s <- mapM (twist_block dim anchor axis thread 1%R) scoors;
  Ok (concat m ++ concat s).
(** ShiftedPeriodicOperator, l.785-810: pairs of equations with both >= 0 *)
Definition tie_pairs (meq seq_ : list Z) : list (nat * nat) :=
  map (fun p => (Z.to_nat (fst p), Z.to_nat (snd p))) (filter (fun p => (0 <=? fst p)%Z && (0 <=? snd p)%Z) (combine meq seq_)).
Definition tie_rhs (meq seq_ : list Z) (shift : list R) : list R :=
  map snd (filter (fun p => (0 <=? fst (fst p))%Z && (0 <=? snd (fst p))%Z) (combine (combine meq seq_) shift)).
Definition shifted_periodic (v cv : nat) (meq seq_ : list Z) (shift : option (list R)) : lcop :=
  let ps := tie_pairs meq seq_ in
  mkOp v (Some cv) (map fst ps) (map (fun p => (fst p, snd p, 1%R)) ps)
    (match shift with None => None | Some s => Some (tie_rhs meq seq_ s) end) (length (nodup Nat.eq_dec (map fst ps))) 0.
(** MultiNodeLCOperator, l.886-902: [smap] (rows: dependent nodes, columns: constraints) are positions in the unique
    independent nodes, [cons] the weights, dpn DOFs per node, meq and seq node by node *)
Definition multi_node (dpn : nat) (meq seq_ : list nat) (smap : list (list nat)) (cons : list (list R)) : list triple :=
  flat_map (fun j => flat_map (fun m => map (fun d => (nth (dpn * m + d) meq 0, nth (dpn * nth j (nth m smap []) 0 + d) seq_ 0, nth j (nth m cons []) 0%R)) (seq 0 dpn)) (seq 0 (length smap)))
    (seq 0 (length (nth 0 cons []))).
(** ** NodalLCOperator *)
(** A solution of the constraints of a node, as given by sympy.solve (l.672-673): (dependent DOF, constant, (variable,
    coefficient) in the order of variables, non-zero coefficients). A solution without variables is a fixed DOF *)
Notation sol_t := (list (nat * R * list (nat * R)))%type.
(** l.685-690, 698: islaves *)
Definition islaves (dpn : nat) (sol : sol_t) : list nat := filter (fun ii => existsb (fun s => existsb (fun c => fst c =? ii) (snd s)) sol) (seq 0 dpn).
(** l.682-696: ccs[ii] *)
Definition coefs_of (s : nat * R * list (nat * R)) : list R := map snd (snd s) ++ [snd (fst s)].
(** l.707-711: for ii, islave in enumerate(islaves): data.append(coefs[ii]); IndexError when coefs is too short *)
Fixpoint dep_entries (em es : nat) (coefs : list R) (sl : list nat) : res (list triple) :=
  match sl with
  | [] => Ok []
  | _ :: sl => match coefs with [] => Err IndexError | c :: coefs => do l <- dep_entries em (S es) coefs sl; Ok ((em, es, c) :: l) end
  end.
(** l.700-724: a node: the entries, the right-hand side *)
Definition node_entries (dpn im n_new : nat) (sol : sol_t) : res (list triple) :=
  let sl := islaves dpn sol in
  do d <- mapM (fun s => match snd s with [] => Ok [] | _ :: _ => dep_entries (dpn * im + fst (fst s)) n_new (coefs_of s) sl end) sol;
  Ok (concat d ++ map (fun p => (dpn * im + snd p, n_new + fst p, 1%R)) (enum sl)).
Definition node_rhs (dpn : nat) (sol : sol_t) : list R :=
  map (fun d => match find (fun s => fst (fst s) =? d) sol with Some s => snd (fst s) | None => 0%R end) (seq 0 dpn).
(** l.671-735 (distinct dependent DOFs, as in the dictionary of sympy) *)
Fixpoint nodal_from (dpn im n_new : nat) (sols : list sol_t) : res (list triple * list R * nat) :=
  match sols with
  | [] => Ok ([], [], n_new)
  | sol :: sols =>
    do e <- node_entries dpn im n_new sol;
    do r <- nodal_from dpn (S im) (n_new + length (islaves dpn sol)) sols;
    Ok (e ++ fst (fst r), node_rhs dpn sol ++ snd (fst r), snd r)
  end.
Definition nodal_combination (dpn : nat) (sols : list sol_t) := nodal_from dpn 0 0 sols.

(** ** AverageForceOperator, l.277-326 *)
Definition delta (i j : nat) : R := if i =? j then 1%R else 0%R.
(** S_k, l.289-292, for the spin matrix [s] of a node *)
Definition avg_S (dim : nat) (s : list (list R)) (i b : nat) : R := if (i <? dim) && (dim <=? b) then nth (b - dim) (nth i s []) 0%R else delta i b.
(** X^{-1} = sum_k S_k^T W_k S_k, l.298-299 *)
Definition avg_IX (sym dim : nat) (sp : list (list (list R))) (w : nat -> nat -> R) (a b : nat) : R :=
  fold_right Rplus 0%R (map (fun k => fold_right Rplus 0%R (map (fun i => (avg_S dim (nth k sp []) i a * (avg_S dim (nth k sp []) i b * w k i))%R) (seq 0 sym))) (seq 0 (length sp))).
(** l.301-307: mtx[a, dim * k + i] = (W_k S_k X)[i, a], i < dim; X is the inverse of avg_IX *)
Definition avg_mtx (sym dim : nat) (sp : list (list (list R))) (w : nat -> nat -> R) (X : nat -> nat -> R) (a k i : nat) : R :=
  fold_right Rplus 0%R (map (fun b => (avg_S dim (nth k sp []) i b * w k i * X b a)%R) (seq 0 sym)).
(** the dependent DOF a for the displacements u of the independent nodes *)
Definition avg_value (sym dim : nat) (sp : list (list (list R))) (w : nat -> nat -> R) (X : nat -> nat -> R) (u : nat -> nat -> R) (a : nat) : R :=
  fold_right Rplus 0%R (map (fun k => fold_right Rplus 0%R (map (fun i => (avg_mtx sym dim sp w X a k i * u k i)%R) (seq 0 dim))) (seq 0 (length sp))).
(** l.281-284: the default weights: ones, multiplied by the square of the mean length in the rotation columns *)
Definition avg_weights (dim : nat) (len : R) (k i : nat) : R := if i <? dim then 1%R else (len * len)%R.
(** l.312: eye(dim) * sweights[..., None] for the weights of the shape (n, m): broadcast of (dim, dim) and (n, m, 1) *)
Definition avg_simple_ok (dim m : nat) : bool := (dim =? m) || (dim =? 1) || (m =? 1).
Definition dim2sym (dim : nat) : nat := dim * (dim + 1) / 2.

(** ** MRLCBCOperator.setup and treat_pbcs, l.65-97, for a sparse matrix: [dofs] are all the field's DOFs of the
    operator, [master] eq_map.master. The attribute n_dof_new is written instead of n_new_dof; ameq is not reduced. *)
Definition treat_pbcs (dofs master : list nat) (op : lcop) : lcop :=
  let ms := filter (fun d => existsb (Nat.eqb d) master) (nodup Nat.eq_dec dofs) in
  match ms with
  | [] => op
  | _ :: _ =>
    let remove := map (searchsorted dofs) ms in (* the number of smaller ones: the position in the sorted array *)
    let keep := filter (fun k => negb (existsb (Nat.eqb k) remove)) (seq 0 (length dofs)) in
    let m1 := flat_map (fun p => map (fun t => (fst p, snd (fst t), snd t)) (filter (fun t => fst (fst t) =? snd p) (op_mtx op))) (enum keep) in
    let cols := filter (fun c => existsb (fun t => snd (fst t) =? c) m1) (seq 0 (op_new op)) in
    mkOp (op_var op) (op_cvar op) (op_ameq op) (map (fun t => (fst (fst t), searchsorted cols (snd (fst t)), snd t)) m1) (op_rhs op) (length keep) (op_new op)
  end.
