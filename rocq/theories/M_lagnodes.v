(** Model of sfepy/discrete/fem/poly_spaces.py [LagrangeNodes] and the [_define_nodes]
    methods of the Lagrange polynomial spaces.

    A node is a tuple of nonnegative integers; [int(round(delta * x))], where x is always a
    multiple of 1 / delta, is the integer division. *)
From Verif Require Import Base.
Set Implicit Arguments.
Open Scope nat_scope.

Notation tuple := (list nat).
(** the row of nts and of nodes *)
Record lnode := mkLN { ln_type : nat; ln_ent : nat; ln_node : tuple }.
(** [delta * (c1 * n1 + c2 * n2 + ...)], 1 / delta = [d] *)
Definition lin (d : nat) (cs : list nat) (ns : list tuple) (ncol : nat) : tuple :=
  map (fun k => list_sum (map (fun p => fst p * nth k (snd p) 0) (combine cs ns)) / d) (seq 0 ncol).
(** nodes[edge[0],:] etc. *)
Definition verts (nodes : list lnode) (ent : list nat) : list tuple := map (fun v => ln_node (nth v nodes (mkLN 0 0 []))) ent.

(** l.31-44, the same as append_tp_edges, l.89-102 *)
Definition append_edges (nodes : list lnode) (nt : nat) (edges : list (list nat)) (order ncol : nat) : list lnode :=
  flat_map (fun p : nat * list nat => map (fun ie => let c2 := ie + 1 in let c1 := order - c2 in
                  mkLN nt (fst p) (lin order [c1; c2] (verts nodes (snd p)) ncol)) (seq 0 (order - 1)))
           (combine (seq 0 (length edges)) edges).
(** l.47-64 *)
Definition append_faces (nodes : list lnode) (nt : nat) (faces : list (list nat)) (order ncol : nat) : list lnode :=
  flat_map (fun p : nat * list nat => flat_map (fun i1 => map (fun i2 =>
                  let c3 := i1 + 1 in let c2 := i2 + 1 in let c1 := order - c3 - c2 in
                  mkLN nt (fst p) (lin order [c1; c2; c3] (verts nodes (snd p)) ncol)) (seq 0 (order - 2 - i1))) (seq 0 (order - 2)))
           (combine (seq 0 (length faces)) faces).
(** l.67-86 *)
Definition append_bubbles (nodes : list lnode) (nt order ncol : nat) : list lnode :=
  flat_map (fun i1 => flat_map (fun i2 => map (fun i3 =>
      let c4 := i1 + 1 in let c3 := i2 + 1 in let c2 := i3 + 1 in let c1 := order - c4 - c3 - c2 in
      mkLN nt 0 (lin order [c1; c2; c3; c4] (verts nodes [0; 1; 2; 3]) ncol)) (seq 0 (order - 3 - i1 - i2))) (seq 0 (order - 3))) (seq 0 (order - 3)).
(** l.104-123 *)
Definition append_tp_faces (nodes : list lnode) (nt : nat) (faces : list (list nat)) (ao ncol : nat) : list lnode :=
  flat_map (fun p : nat * list nat => flat_map (fun i1 => map (fun i2 =>
      let c4 := i1 + 1 in let c3 := i2 + 1 in let c2 := ao - c4 in let c1 := ao - c3 in
      mkLN nt (fst p) (lin (ao ^ 2) [c1 * c2; c2 * c3; c3 * c4; c4 * c1] (verts nodes (snd p)) ncol)) (seq 0 (ao - 1))) (seq 0 (ao - 1)))
           (combine (seq 0 (length faces)) faces).
(** l.126-154 *)
Definition append_tp_bubbles (nodes : list lnode) (nt ao ncol : nat) : list lnode :=
  flat_map (fun i1 => flat_map (fun i2 => map (fun i3 =>
      let c6 := i1 + 1 in let c5 := i2 + 1 in let c4 := i3 + 1 in let c3 := ao - c6 in let c2 := ao - c5 in let c1 := ao - c4 in
      mkLN nt 0 (lin (ao ^ 3) [c1 * c2 * c3; c4 * c2 * c3; c5 * c4 * c3; c1 * c3 * c5; c1 * c2 * c6; c4 * c2 * c6; c5 * c4 * c6; c1 * c6 * c5]
                   (verts nodes [0; 1; 2; 3; 4; 5; 6; 7]) ncol)) (seq 0 (ao - 1))) (seq 0 (ao - 1))) (seq 0 (ao - 1)).

(** geometry_element.py l.118-205 *)
Definition edges_2_3 := [[0; 1]; [1; 2]; [2; 0]].
Definition edges_3_4 := [[0; 1]; [1; 2]; [2; 0]; [0; 3]; [1; 3]; [2; 3]].
Definition faces_3_4 := [[0; 2; 1]; [0; 3; 2]; [0; 1; 3]; [1; 2; 3]].
Definition edges_2_4 := [[0; 1]; [1; 2]; [2; 3]; [3; 0]].
Definition edges_3_8 := [[0; 1]; [1; 2]; [2; 3]; [3; 0]; [4; 5]; [5; 6]; [6; 7]; [7; 4]; [0; 4]; [1; 5]; [2; 6]; [3; 7]].
Definition faces_3_8 := [[0; 3; 2; 1]; [0; 4; 7; 3]; [0; 1; 5; 4]; [4; 5; 6; 7]; [1; 2; 6; 5]; [3; 7; 6; 2]].

(** The preallocated array with n_nod rows: an index past its end is an IndexError, unset
    rows are zero. *)
Definition fill (n_nod ncol : nat) (l : list lnode) : res (list lnode) :=
  if n_nod <? length l then Err IndexError else Ok (l ++ repeat (mkLN 0 0 (repeat 0 ncol)) (n_nod - length l)).
(** l.317, [fac] *)
Fixpoint fac (n : nat) : nat := match n with 0 => 1 | S n => fac n * (n + 1) end.
Definition check_orders (o : nat) (l : list lnode) : res (list lnode) :=
  if forallb (fun n => list_sum (ln_node n) =? o) l then Ok l else Err AssertionError.
(** l.314-378, n_v = dim + 1 *)
Definition simplex_nodes (dim order : nat) : res (list lnode) :=
  let n_v := dim + 1 in
  let n_nod := fac (order + dim) / (fac order * fac dim) in
  let all :=
    if order =? 0 then [mkLN 3 0 (repeat 0 n_v)]
    else
      let v := map (fun k => mkLN 0 k (map (fun i => if i =? k then order else 0) (seq 0 n_v))) (seq 0 n_v) in
      match dim with
      | 0 => v
      | 1 => v ++ append_edges v 3 [[0; 1]] order n_v
      | 2 => v ++ append_edges v 1 edges_2_3 order n_v ++ append_faces v 3 [[0; 1; 2]] order n_v
      | _ => v ++ append_edges v 1 edges_3_4 order n_v ++ append_faces v 2 faces_3_4 order n_v ++ append_bubbles v 3 order n_v
      end in
  if 3 <? dim then Err RuntimeError (* NotImplementedError *) else
  do l <- fill n_nod n_v all; check_orders order l.
(** l.10-26 *)
Definition vertex_maps (dim : nat) : list tuple :=
  match dim with
  | 3 => [[0; 0; 0]; [1; 0; 0]; [1; 1; 0]; [0; 1; 0]; [0; 0; 1]; [1; 0; 1]; [1; 1; 1]; [0; 1; 1]]
  | 2 => [[0; 0]; [1; 0]; [1; 1]; [0; 1]]
  | 1 => [[0]; [1]]
  | _ => [[0]]
  end.
(** l.517-593: dim = 1, 2, 3 *)
Definition tp_nodes (dim order : nat) : res (list lnode) :=
  let ncol := 2 * dim in
  let n_nod := (order + 1) ^ dim in
  let all :=
    if order =? 0 then [mkLN 3 0 (repeat 0 ncol)]
    else
      let vm := vertex_maps dim in
      let v := map (fun p : nat * tuple => mkLN 0 (fst p) (flat_map (fun i => [order - order * i; order * i]) (snd p))) (combine (seq 0 (length vm)) vm) in
      match dim with
      | 1 => v ++ append_edges v 3 [[0; 1]] order ncol
      | 2 => v ++ append_edges v 1 edges_2_4 order ncol ++ append_tp_faces v 3 [[0; 1; 2; 3]] order ncol
      | _ => v ++ append_edges v 1 edges_3_8 order ncol ++ append_tp_faces v 2 faces_3_8 order ncol ++ append_tp_bubbles v 3 order ncol
      end in
  do l <- fill n_nod ncol all; check_orders (order * dim) l.
(** l.448-471: the bubble node is appended to the nodes. *)
Definition bubble_nodes (dim order : nat) : res (list lnode) :=
  do l <- simplex_nodes dim order; Ok (l ++ [mkLN 3 0 (repeat 1 (dim + 1))]).
