(** Model of sfepy/discrete/fem/extmods/lagrange.c: evaluation of the Lagrange basis, and of
    bases.pyx [CLagrangeContext.evaluate].

    Numbers are exact reals.  [g] is the global variable g_error of the extension module
    (common_python.c l.5, only its being nonzero matters), which no function of the module
    resets; [buf] is the content of the stack buffer of the barycentric coordinates.
    The application of the reference mapping (is_dx) is not modelled. *)
From Coq Require Import Reals.
From Verif Require Import Base M_nls.
Set Implicit Arguments.
Open Scope nat_scope.

Notation point := (list R).
Definition sumf (f : nat -> R) (n : nat) : R := fold_left (fun v i => (v + f i)%R) (seq 0 n) 0%R.

(** lagrange.c l.99-107: one barycentric coordinate *)
Definition bary_val (dim : nat) (row : list R) (x : point) : R :=
  (sumf (fun ii => nth ii row 0 * nth ii x 0)%R dim + nth dim row 0)%R.
(** l.108-122 *)
Definition snap (eps v : R) : R * bool :=
  let '(v, e) := if Rltb v 0 then (if Rltb (- eps) v then (0%R, false) else (v, true)) else (v, false) in
  if Rltb 1 v then (if Rltb v (1 + eps) then (1%R, e) else (v, true)) else (v, e).
(** l.87-136, one point: the coordinates, g_error and whether an exception was set *)
Fixpoint bary (dim : nat) (rows : list (list R)) (x : point) (eps : R) (check g : bool) (buf : list R) : list R * bool * bool :=
  match rows with
  | [] => ([], g, false)
  | row :: rows =>
    let '(v, e) := snap eps (bary_val dim row x) in
    let exc := check && e in
    let g := g || exc in
    if g then (v :: tl buf, g, exc)
    else let '(l, g, exc) := bary dim rows x eps check g (tl buf) in (v :: l, g, exc)
  end.

(** l.480-484: the factors of one barycentric coordinate *)
Definition factors (order : nat) (b : R) (n : nat) (p : R) : R :=
  fold_left (fun p i2 => (p * ((INR order * b - INR i2) / (INR i2 + 1)))%R) (seq 0 n) p.
(** l.471-487 *)
Definition simplex_val (order : nat) (bc : list R) (node : list nat) : R :=
  fold_left (fun p i1 => factors order (nth i1 bc 0%R) (nth i1 node 0) p) (seq 0 (length bc)) 1%R.
(** l.500-511 *)
Definition der_vv (order : nat) (bc : list R) (node : list nat) (ii : nat) : R :=
  fold_left (fun p i1 => if i1 =? ii then p else factors order (nth i1 bc 0%R) (nth i1 node 0) p) (seq 0 (length bc)) 1%R.
(** l.513-524 *)
Definition der_dval (order : nat) (b : R) (n : nat) : R :=
  sumf (fun i1 => (fold_left (fun d i2 => if i1 =? i2 then d else (d * ((INR order * b - INR i2) / (INR i2 + 1)))%R) (seq 0 n) 1
                   * INR order / (INR i1 + 1))%R) n.
(** l.489-530: row ir of the gradient *)
Definition simplex_der (order : nat) (mtx_i : list (list R)) (bc : list R) (node : list nat) (ir : nat) : R :=
  sumf (fun ii => (der_vv order bc node ii * der_dval order (nth ii bc 0) (nth ii node 0%nat) * nth ir (nth ii mtx_i []) 0)%R) (length bc).
(** l.448-535: all the rows (one for values) of all the nodes *)
Definition eval_simplex (order : nat) (diff : bool) (mtx_i : list (list R)) (bc : list R) (nodes : list (list nat)) : list (list R) :=
  if diff then map (fun ir => map (fun node => simplex_der order mtx_i bc node ir) nodes) (seq 0 (length bc - 1))
  else [map (simplex_val order bc) nodes].

(** l.370-397: the bubble is the last node. *)
Definition add_bubble (diff : bool) (mtx_i : list (list R)) (bc : list R) (bnode : list nat) (rows : list (list R)) : list (list R) :=
  map (fun p : list R * list R =>
         let b := nth 0 (snd p) 0%R in
         map (fun v => (v - 1 / INR (length (fst p)) * b)%R) (fst p) ++ [b])
      (combine rows (eval_simplex (list_sum bnode) diff mtx_i bc [bnode])).

(** [nodes] without the bubble node, which is [bnode]. *)
Record context := mkCtx { cx_order : nat; cx_nodes : list (list nat); cx_bubble : option (list nat); cx_mtx_i : list (list R); cx_dim : nat; cx_tensor : bool }.

(** l.541-604: the product over the directions; with g_error set, it ends after the first. *)
Definition slice (ii : nat) (node : list nat) : list nat := [nth (2 * ii) node 0; nth (2 * ii + 1) node 0].
Definition eval_tensor (c : context) (diff g : bool) (bcs : list (list R)) : list (list R) :=
  let dims := if g then firstn 1 (seq 0 (cx_dim c)) else seq 0 (cx_dim c) in
  map (fun idim =>
    map (fun node => fold_left (fun p ii =>
           let row := nth 0 (eval_simplex (cx_order c) (diff && (ii =? idim)) (cx_mtx_i c) (nth ii bcs []) [slice ii node]) [] in
           (p * nth 0 row 0)%R) dims 1%R) (cx_nodes c))
    (if diff then seq 0 (cx_dim c) else [0]).
(** l.401-413 *)
Fixpoint bary_dims (mtx_i : list (list R)) (x : point) (eps : R) (check g : bool) (bufs : list (list R)) (iis : list nat) : list (list R) * bool * bool :=
  match iis with
  | [] => ([], g, false)
  | ii :: iis =>
    let '(bc, g, e1) := bary 1 mtx_i [nth ii x 0%R] eps check g (nth ii bufs []) in
    let '(l, g, e2) := bary_dims mtx_i x eps check g bufs iis in
    (bc :: l, g, e1 || e2)
  end.
(** l.358-418: the points one after another *)
Fixpoint eval_points (c : context) (diff : bool) (eps : R) (check g : bool) (bufs : list (list R)) (xs : list point) : list (list (list R)) * bool * bool :=
  match xs with
  | [] => ([], g, false)
  | x :: xs =>
    if cx_tensor c then
      let '(bcs, g1, e1) := bary_dims (cx_mtx_i c) x eps check g bufs (seq 0 (cx_dim c)) in
      let rows := eval_tensor c diff g1 bcs in
      let '(l, g2, e2) := eval_points c diff eps check g1 bcs xs in (rows :: l, g2, e1 || e2)
    else
      let '(bc, g1, e1) := bary (cx_dim c) (cx_mtx_i c) x eps check g (nth 0 bufs []) in
      let rows := eval_simplex (cx_order c) diff (cx_mtx_i c) bc (cx_nodes c) in
      let rows := match cx_bubble c with None => rows | Some b => add_bubble diff (cx_mtx_i c) bc b rows end in
      let '(l, g2, e2) := eval_points c diff eps check g1 [bc] xs in (rows :: l, g2, e1 || e2)
  end.
(** bases.pyx l.211-244: a pending exception makes the call fail (SystemError, given as
    RuntimeError here). *)
Definition evaluate (c : context) (diff : bool) (eps : R) (check : bool) (xs : list point) (g : bool) (bufs : list (list R)) : res (list (list (list R))) * bool :=
  let '(l, g, e) := eval_points c diff eps check g bufs xs in
  (if e then Err RuntimeError else Ok l, g).
